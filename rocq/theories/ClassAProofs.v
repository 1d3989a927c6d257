(** Rotations and class A polygons: the geometry behind fitClassA. *)
From Verif Require Import Base UtilModel NMModel RibbonProofs BlendProps FEMVoronoi ClassAModel.
Open Scope R_scope.

(** ** Rotations *)

Lemma vcross_twice : forall a v, vcross a (vcross a v) = a *v vdot a v -v v *v vdot a a.
Proof. intros a v. unfold vdot, vcross; v3ring. Qed.
Lemma vdot_cross_l : forall a v, vdot a (vcross a v) = 0.
Proof. intros a v. unfold vdot, vcross; cbn [vx vy vz]. ring. Qed.
Lemma vdot_sym : forall a b, vdot a b = vdot b a.
Proof. intros a b. unfold vdot. ring. Qed.
Lemma vdot_addr : forall a b c, vdot a (b +v c) = vdot a b + vdot a c.
Proof. intros a b c. unfold vdot; cbn [vx vy vz vadd]. ring. Qed.
Lemma vdot_subr : forall a b c, vdot a (b -v c) = vdot a b - vdot a c.
Proof. intros a b c. unfold vdot; cbn [vx vy vz vsub]. ring. Qed.
Lemma vdot_scaler : forall a b s, vdot a (b *v s) = vdot a b * s.
Proof. intros a b s. unfold vdot; cbn [vx vy vz vscale]. ring. Qed.
Lemma vcross_addr : forall a b c, vcross a (b +v c) = vcross a b +v vcross a c.
Proof. intros a b c. unfold vcross; v3ring. Qed.
Lemma vcross_scaler : forall a b s, vcross a (b *v s) = vcross a b *v s.
Proof. intros a b s. unfold vcross; v3ring. Qed.
Lemma vcross_self : forall a, vcross a a = vzero.
Proof. intros a. unfold vcross; v3ring. Qed.

Lemma rotate_scale : forall a t v c, rotate a t (v *v c) = rotate a t v *v c.
Proof. intros a t v c. unfold rotate. rewrite vcross_scaler, vdot_scaler. v3ring. Qed.
Lemma rotate_0 : forall a v, rotate a 0 v = v.
Proof. intros a v. unfold rotate. rewrite cos_0, sin_0. v3ring. Qed.

Section Axis.
Variable a : V3.
Hypothesis unit_a : vdot a a = 1.

Lemma axis_dot : forall t v, vdot a (rotate a t v) = vdot a v.
Proof.
  intros t v. unfold rotate. rewrite !vdot_addr, !vdot_scaler, vdot_cross_l, unit_a. ring.
Qed.
Lemma axis_cross : forall t v, vcross a (rotate a t v) = vcross a v *v cos t +v (a *v vdot a v -v v) *v sin t.
Proof.
  intros t v. unfold rotate. rewrite !vcross_addr, !vcross_scaler, vcross_twice, vcross_self, unit_a. v3ring.
Qed.
Lemma rotate_rotate : forall s t v, rotate a s (rotate a t v) = rotate a (s + t) v.
Proof.
  intros s t v. unfold rotate at 1. rewrite axis_dot, axis_cross. unfold rotate. rewrite cos_plus, sin_plus.
  generalize (vcross a v), (vdot a v). intros w h. v3ring.
Qed.

Lemma rotate_dot : forall x y v, vdot (rotate a x v) (rotate a y v) = (vdot v v - vdot a v * vdot a v) * cos (x - y) + vdot a v * vdot a v.
Proof.
  intros x y v. rewrite cos_minus. unfold rotate.
  assert (E : vdot (vcross a v) (vcross a v) = vdot v v - vdot a v * vdot a v).
  { replace (vdot v v) with (vdot a a * vdot v v) by (rewrite unit_a; ring). unfold vdot, vcross; cbn [vx vy vz]. ring. }
  assert (E1 : vdot v (vcross a v) = 0) by (unfold vdot, vcross; cbn [vx vy vz]; ring).
  assert (E2 : vdot a (vcross a v) = 0) by apply vdot_cross_l.
  assert (G : forall p q r (al be ga al' be' ga' : R),
    vdot (p *v al +v q *v be +v r *v ga) (p *v al' +v q *v be' +v r *v ga') =
    vdot p p * (al * al') + vdot q q * (be * be') + vdot r r * (ga * ga') + vdot p q * (al * be' + be * al') + vdot r q * (be * ga' + ga * be') + vdot r p * (al * ga' + ga * al')).
  { intros. unfold vdot; cbn [vx vy vz vadd vscale]. ring. }
  rewrite G, E, E1, E2, unit_a. ring.
Qed.
Lemma rotate_norm : forall x v, vdot (rotate a x v) (rotate a x v) = vdot v v.
Proof. intros x v. rewrite rotate_dot. replace (x - x) with 0 by ring. rewrite cos_0. ring. Qed.

(** A vector orthogonal to the axis, in the frame of another one. *)
Lemma frame : forall r q, vdot a r = 0 -> vdot a q = 0 ->
  q *v vdot r r = r *v vdot r q +v vcross a r *v vdot (vcross a r) q.
Proof.
  intros r q Hr Hq.
  assert (P : vcross q r = a *v vdot a (vcross q r)).
  { assert (Z : vcross a (vcross a (vcross q r)) = vzero).
    { assert (Z0 : vcross a (vcross q r) = q *v vdot a r -v r *v vdot a q) by (unfold vdot, vcross; v3ring).
      rewrite Z0, Hr, Hq. unfold vcross; v3ring. }
    rewrite vcross_twice, unit_a in Z. apply V3_ext; [apply (f_equal vx) in Z|apply (f_equal vy) in Z|apply (f_equal vz) in Z]; cbn [vx vy vz vsub vscale vzero] in *; lra. }
  assert (B : q *v vdot r r = r *v vdot r q +v vcross r (vcross q r)) by (unfold vdot, vcross; v3ring).
  rewrite B. f_equal. rewrite P, vcross_scaler. unfold vdot, vcross; v3ring.
Qed.
End Axis.

(** ** The matrix *)

Section Setup.
Variables v0 v1 : V3.
Hypothesis unit0 : vdot v0 v0 = 1.
Hypothesis unit1 : vdot v1 v1 = 1.

Lemma equal_units : vdot v0 v1 = 1 -> v1 = v0.
Proof.
  intros E. assert (Z : vdot (v1 -v v0) (v1 -v v0) = 0).
  { transitivity (vdot v1 v1 + vdot v0 v0 - 2 * vdot v0 v1); [unfold vdot; cbn [vx vy vz vsub]; ring|]. rewrite unit0, unit1, E. ring. }
  apply vdot_zero in Z. apply V3_ext; [apply (f_equal vx) in Z|apply (f_equal vy) in Z|apply (f_equal vz) in Z]; cbn [vx vy vz vsub vzero] in Z; lra.
Qed.
Lemma opposite_units : vdot v0 v1 = - 1 -> v1 = vopp v0.
Proof.
  intros E. assert (Z : vdot (v1 +v v0) (v1 +v v0) = 0).
  { transitivity (vdot v1 v1 + vdot v0 v0 + 2 * vdot v0 v1); [unfold vdot; cbn [vx vy vz vadd]; ring|]. rewrite unit0, unit1, E. ring. }
  apply vdot_zero in Z. apply V3_ext; [apply (f_equal vx) in Z|apply (f_equal vy) in Z|apply (f_equal vz) in Z]; cbn [vx vy vz vadd vzero vopp] in *; lra.
Qed.
Lemma lagrange : vdot (vcross v0 v1) (vcross v0 v1) = 1 - vdot v0 v1 * vdot v0 v1.
Proof.
  transitivity (vdot v0 v0 * vdot v1 v1 - vdot v0 v1 * vdot v0 v1); [unfold vdot, vcross; cbn [vx vy vz]; ring|].
  rewrite unit0, unit1. ring.
Qed.

Section Matrix.
Variables (e axis : V3) (phi : R).
Hypothesis Ee : vnormalize (v1 -v v0) = Some e.
Hypothesis Ea : vnormalize (rotate e phi (vcross v0 v1)) = Some axis.

Let d := vnorm (v1 -v v0).
Lemma e_form : e = (v1 -v v0) *v / d /\ d <> 0 /\ vdot e e = 1.
Proof. destruct (normalize_inv _ _ Ee) as (U & N & E). fold d in N, E. repeat split; [|exact N|exact U]. exact E. Qed.
Lemma axis_unit : vdot axis axis = 1.
Proof. apply (normalize_inv _ _ Ea). Qed.

Lemma e_normal : vdot e (vcross v0 v1) = 0.
Proof. destruct e_form as (E & _). rewrite E. unfold vdot, vcross; cbn [vx vy vz vscale vsub]. ring. Qed.

(** The length of the normal. *)
Let nn := vnorm (vcross v0 v1).
Lemma axis_form : nn <> 0 /\ axis = (vcross v0 v1 *v cos phi +v vcross e (vcross v0 v1) *v sin phi) *v / nn.
Proof.
  destruct e_form as (_ & _ & Ue). destruct (normalize_inv _ _ Ea) as (_ & N & E).
  assert (L : vnorm (rotate e phi (vcross v0 v1)) = nn) by (unfold nn, vnorm; rewrite rotate_norm by exact Ue; reflexivity).
  rewrite L in N, E. split; [exact N|]. rewrite E. unfold rotate. rewrite e_normal. f_equal. v3ring.
Qed.
Lemma not_parallel : -1 < vdot v0 v1 < 1.
Proof.
  destruct axis_form as (N & _). pose proof (vnorm_sqr (vcross v0 v1)) as Q. fold nn in Q. rewrite lagrange in Q.
  assert (0 < nn * nn) by (destruct (Rtotal_order nn 0) as [H|[H|H]]; [nra|contradiction|nra]). split; nra.
Qed.
Lemma nn_pos : 0 < nn.
Proof. destruct axis_form as (N & _). pose proof (vnorm_nonneg (vcross v0 v1)). unfold nn in *. lra. Qed.

Lemma axis_chord : vdot axis (v1 -v v0) = 0.
Proof.
  destruct axis_form as (_ & E). destruct e_form as (Ev & N & _). rewrite E, Ev. unfold vdot, vcross; cbn [vx vy vz vscale vsub vadd].
  generalize (/ d), (/ nn). intros. ring.
Qed.
Lemma same_height : vdot axis v1 = vdot axis v0.
Proof. pose proof axis_chord as H. rewrite vdot_subr in H. lra. Qed.
Lemma axis_normal : vdot axis (vcross v0 v1) = nn * cos phi.
Proof.
  destruct axis_form as (N & E). rewrite E.
  transitivity ((vdot (vcross v0 v1) (vcross v0 v1) * cos phi + vdot (vcross e (vcross v0 v1)) (vcross v0 v1) * sin phi) * / nn).
  { unfold vdot; cbn [vx vy vz vscale vadd]. ring. }
  assert (Z : vdot (vcross e (vcross v0 v1)) (vcross v0 v1) = 0) by (unfold vdot; cbn [vx vy vz vcross]; ring).
  rewrite Z, <- vnorm_sqr. fold nn. field. exact N.
Qed.

Let h := vdot axis v0.
(** The directions are not parallel to the axis. *)
Lemma height_lt : 0 < 1 - h * h.
Proof.
  pose proof axis_unit as U. pose proof not_parallel as NP.
  assert (C : h * h <= 1).
  { pose proof (cauchy axis v0) as C. unfold h. rewrite U, unit0 in C. lra. }
  destruct (Req_dec (h * h) 1) as [E|]; [|lra]. exfalso.
  assert (P : v0 = axis *v h).
  { assert (Z : vdot (v0 -v axis *v h) (v0 -v axis *v h) = 0).
    { transitivity (vdot v0 v0 - 2 * h * vdot axis v0 + h * h * vdot axis axis); [unfold vdot; cbn [vx vy vz vscale vsub]; ring|].
      rewrite unit0, U. fold h. lra. }
    apply vdot_zero in Z. apply V3_ext; [apply (f_equal vx) in Z|apply (f_equal vy) in Z|apply (f_equal vz) in Z]; cbn [vx vy vz vsub vscale vzero] in *; lra. }
  assert (vdot v0 v1 = 1); [|lra].
  rewrite P at 1. rewrite vdot_sym, vdot_scaler, vdot_sym, same_height. fold h. exact E.
Qed.

Let r0 := v0 -v axis *v h.
Let r1 := v1 -v axis *v h.
Let q := 1 - h * h.
Lemma r0_axis : vdot axis r0 = 0.
Proof. unfold r0. rewrite vdot_subr, vdot_scaler, axis_unit. unfold h. ring. Qed.
Lemma r1_axis : vdot axis r1 = 0.
Proof. unfold r1. rewrite vdot_subr, vdot_scaler, axis_unit, same_height. unfold h. ring. Qed.
Lemma r0_norm : vdot r0 r0 = q.
Proof.
  transitivity (vdot v0 v0 - 2 * h * vdot axis v0 + h * h * vdot axis axis); [unfold r0, vdot; cbn [vx vy vz vscale vsub]; ring|].
  rewrite unit0, axis_unit. unfold q, h. ring.
Qed.
Lemma r1_norm : vdot r1 r1 = q.
Proof.
  transitivity (vdot v1 v1 - 2 * h * vdot axis v1 + h * h * vdot axis axis); [unfold r1, vdot; cbn [vx vy vz vscale vsub]; ring|].
  rewrite unit1, axis_unit, same_height. unfold q, h. ring.
Qed.
Lemma r01 : vdot r0 r1 = vdot v0 v1 - h * h.
Proof.
  transitivity (vdot v0 v1 - h * vdot axis v1 - h * vdot axis v0 + h * h * vdot axis axis); [unfold r0, r1, vdot; cbn [vx vy vz vscale vsub]; ring|].
  rewrite axis_unit, same_height. unfold h. ring.
Qed.
Lemma r01_cross : vdot (vcross axis r0) r1 = nn * cos phi.
Proof. rewrite <- axis_normal. unfold r0, r1, vdot, vcross; cbn [vx vy vz vscale vsub]. ring. Qed.

Lemma projected : exists w0 w1, vnormalize (v0 -v axis *v vdot v0 axis) = Some w0 /\ vnormalize (v1 -v axis *v vdot v1 axis) = Some w1 /\
  vdot w0 w1 = vdot r0 r1 / q.
Proof.
  pose proof height_lt as Hq. change (0 < q) in Hq.
  assert (A0 : v0 -v axis *v vdot v0 axis = r0) by (unfold r0, h; rewrite (vdot_sym v0); reflexivity).
  assert (A1 : v1 -v axis *v vdot v1 axis = r1) by (unfold r1, h; rewrite (vdot_sym v1), same_height; reflexivity).
  rewrite A0, A1.
  assert (N0 : r0 <> vzero). { intros Z. pose proof r0_norm as N. rewrite Z in N. unfold vdot, vzero in N; cbn [vx vy vz] in N. lra. }
  assert (N1 : r1 <> vzero). { intros Z. pose proof r1_norm as N. rewrite Z in N. unfold vdot, vzero in N; cbn [vx vy vz] in N. lra. }
  rewrite (vnormalize_some _ N0), (vnormalize_some _ N1). eexists _, _. split; [reflexivity|]. split; [reflexivity|].
  unfold vnorm. rewrite r0_norm, r1_norm.
  transitivity (vdot r0 r1 * (/ sqrt q * / sqrt q)); [unfold vdot; cbn [vx vy vz vscale]; ring|].
  rewrite <- Rinv_mult, sqrt_sqrt by lra. reflexivity.
Qed.

Let ca := vdot r0 r1 / q.
Let sa := nn * cos phi / q.
Lemma circle : ca * ca + sa * sa = 1.
Proof.
  pose proof height_lt as Hq. change (0 < q) in Hq.
  pose proof (frame axis axis_unit r0 r1 r0_axis r1_axis) as F.
  apply (f_equal (fun x => vdot r1 x)) in F. rewrite vdot_addr, !vdot_scaler, r0_norm, r1_norm, (vdot_sym r1 (vcross axis r0)), r01_cross, (vdot_sym r1 r0) in F.
  unfold ca, sa. apply (Rmult_eq_reg_r (q * q)); [|nra]. field_simplify; [|lra..]. nra.
Qed.
Lemma ca_range : -1 <= ca <= 1.
Proof. pose proof circle. split; nra. Qed.

Definition alpha : R := acos (clamp ca (- 1) 1).
Lemma alpha_cos : cos alpha = ca.
Proof. unfold alpha. rewrite clamp_id by apply ca_range. apply cos_acos. apply ca_range. Qed.
Lemma alpha_range : 0 <= alpha <= PI.
Proof. apply acos_bound. Qed.
Lemma alpha_sin : 0 <= sin alpha /\ sin alpha * sin alpha = sa * sa.
Proof.
  split; [apply sin_ge_0; apply alpha_range|]. pose proof (sin2_cos2 alpha) as S. unfold Rsqr in S. rewrite alpha_cos in S. pose proof circle. lra.
Qed.
(** The turn ends in the second direction exactly when it goes the right
    way. *)
Lemma turn : rotate axis alpha v0 = v1 <-> 0 <= cos phi.
Proof.
  pose proof height_lt as Hq. change (0 < q) in Hq. pose proof nn_pos as Hn.
  pose proof (frame axis axis_unit r0 r1 r0_axis r1_axis) as F. rewrite r0_norm, r01_cross in F.
  assert (V : v1 = axis *v h +v r0 *v ca +v vcross axis r0 *v sa).
  { assert (A : r1 = r0 *v ca +v vcross axis r0 *v sa).
    { unfold ca, sa. generalize dependent (vcross axis r0). intros w F.
      apply V3_ext; [apply (f_equal vx) in F|apply (f_equal vy) in F|apply (f_equal vz) in F]; cbn [vx vy vz vadd vscale] in *;
        apply (Rmult_eq_reg_r q); try lra; rewrite F; field; lra. }
    assert (B : v1 = axis *v h +v r1) by (unfold r1; v3ring).
    rewrite B at 1. rewrite A. v3ring. }
  assert (T : rotate axis alpha v0 = axis *v h +v r0 *v ca +v vcross axis r0 *v sin alpha).
  { unfold rotate. rewrite alpha_cos. fold h.
    assert (X : vcross axis r0 = vcross axis v0).
    { unfold r0. transitivity (vcross axis v0 -v vcross axis axis *v h); [unfold vcross; v3ring|]. rewrite vcross_self. v3ring. }
    rewrite X. unfold r0. v3ring. }
  destruct alpha_sin as (S0 & SS).
  assert (Wn : vdot (vcross axis r0) (vcross axis r0) = q).
  { transitivity (vdot axis axis * vdot r0 r0 - vdot axis r0 * vdot axis r0); [unfold vdot, vcross; cbn [vx vy vz]; ring|].
    rewrite axis_unit, r0_norm, r0_axis. ring. }
  split.
  - intros E. rewrite T, V in E.
    assert (E' : sin alpha = sa).
    { apply (f_equal (fun x => vdot (vcross axis r0) x)) in E. rewrite !vdot_addr, !vdot_scaler, Wn in E. nra. }
    assert (0 <= sa) by lra. unfold sa in H. destruct (Rle_dec 0 (cos phi)) as [|N]; [assumption|exfalso].
    assert (nn * cos phi < 0) by nra. assert (nn * cos phi / q < 0); [|lra]. unfold Rdiv. assert (0 < / q) by (apply Rinv_0_lt_compat; lra). nra.
  - intros C. assert (0 <= sa) by (unfold sa, Rdiv; assert (0 < / q) by (apply Rinv_0_lt_compat; lra); apply Rmult_le_pos; [nra|lra]).
    rewrite T, V. f_equal. f_equal. nra.
Qed.

(** The turn is not a half turn of directions orthogonal to the axis. *)
Lemma open_turn : 0 < (1 - h * h) * cos (alpha / 2) + h * h.
Proof.
  pose proof height_lt as Hq. pose proof alpha_range as (A0 & A1). pose proof not_parallel as NP.
  assert (C : 0 <= cos (alpha / 2)) by (apply cos_ge_0; lra).
  destruct (Req_dec h 0) as [Z|Z]; [|assert (0 < h * h) by (destruct (Rtotal_order h 0) as [H|[H|H]]; [nra|contradiction|nra]); nra].
  rewrite Z. assert (alpha <> PI).
  { intros E. pose proof alpha_cos as X. rewrite E, cos_PI in X. unfold ca in X. rewrite r01 in X. unfold q in X. rewrite Z in X.
    replace ((vdot v0 v1 - 0 * 0) / (1 - 0 * 0)) with (vdot v0 v1) in X by field. lra. }
  assert (0 < cos (alpha / 2)) by (apply cos_gt_0; lra). lra.
Qed.
End Matrix.
End Setup.

(** ** The polygon *)

(** Leg [j] of the polygon: turned [j] times and scaled [j] times. *)
Definition leg (a : V3) (theta s : R) (v : V3) (j : nat) : V3 := rotate a (INR j * theta) v *v s ^ j.
Lemma leg_0 : forall a theta s v, leg a theta s v 0 = v.
Proof. intros. unfold leg. cbn [INR pow]. replace (0 * theta) with 0 by ring. rewrite rotate_0. v3ring. Qed.
Lemma leg_S : forall a theta s v j, vdot a a = 1 -> leg a theta s v (S j) = rotate a theta (leg a theta s v j) *v s.
Proof.
  intros a theta s v j U. unfold leg. rewrite rotate_scale, rotate_rotate by exact U. rewrite S_INR.
  replace (theta + INR j * theta) with ((INR j + 1) * theta) by ring. cbn [pow]. v3ring.
Qed.
Lemma leg_scale : forall a theta s v c j, leg a theta s (v *v c) j = leg a theta s v j *v c.
Proof. intros. unfold leg. rewrite rotate_scale. v3ring. Qed.

Lemma arms_spec : forall a theta s v, vdot a a = 1 -> forall k j cur, (forall i, (i < k)%nat ->
  nth_error (armsFrom k (fun x => rotate a theta x *v s) (leg a theta s v j) cur) i = Some (cur +v vsum (i + 1) (fun m => leg a theta s v (j + 1 + m)))) /\
  length (armsFrom k (fun x => rotate a theta x *v s) (leg a theta s v j) cur) = k.
Proof.
  intros a theta s v U k. induction k as [|k IH]; intros j cur; [split; [intros i Hi; lia|reflexivity]|].
  cbn [armsFrom length]. rewrite <- (leg_S a theta s v j U). destruct (IH (S j) (cur +v leg a theta s v (S j))) as (IH1 & IH2). split; [|rewrite IH2; reflexivity].
  intros i Hi. destruct i as [|i].
  - cbn [nth_error]. f_equal. change (0 + 1)%nat with 1%nat. cbn [vsum]. replace (j + 1 + 0)%nat with (S j) by lia. v3ring.
  - cbn [nth_error]. rewrite IH1 by lia. f_equal. change (S i + 1)%nat with (S (i + 1)). rewrite (vsum_first (i + 1)).
    replace (j + 1 + 0)%nat with (S j) by lia. rewrite (vsum_ext (i + 1) (fun m => leg a theta s v (j + 1 + S m)) (fun m => leg a theta s v (S j + 1 + m))) by (intros m _; f_equal; lia).
    v3ring.
Qed.
Lemma generate_spec : forall a theta s n p v, vdot a a = 1 -> (1 <= n)%nat -> exists cp,
  generateClassA n p v (fun x => rotate a theta x *v s) = Some cp /\ length cp = (n + 1)%nat /\
  forall i, (i <= n)%nat -> nth_error cp i = Some (p +v vsum i (leg a theta s v)).
Proof.
  intros a theta s n p v U Hn. destruct n as [|k]; [lia|]. cbn [generateClassA].
  destruct (arms_spec a theta s v U k 0%nat (p +v v)) as (A & L). rewrite leg_0 in A, L.
  eexists. split; [reflexivity|]. split; [cbn [length]; rewrite L; lia|]. intros i Hi. destruct i as [|[|i]].
  - cbn [nth_error vsum]. f_equal. v3ring.
  - cbn [nth_error vsum]. rewrite leg_0. f_equal. v3ring.
  - cbn [nth_error]. rewrite A by lia. f_equal. replace (i + 1)%nat with (S i) by lia. rewrite (vsum_first (S i)), leg_0.
    rewrite (vsum_ext (S i) (fun m => leg a theta s v (0 + 1 + m)) (fun m => leg a theta s v (S m))) by (intros m _; f_equal; lia). v3ring.
Qed.

(** What is known of the matrix. *)
Record turning (degree : nat) (v0 v1 : V3) (phi : R) (a : V3) (theta : R) : Prop := mkTurning {
  tu_unit : vdot a a = 1;
  tu_degree : (2 <= degree)%nat;
  tu_open : -1 < vdot v0 v1 < 1;
  tu_height : vdot a v0 = vdot a v1;
  tu_range : 0 <= INR (degree - 1) * theta <= PI;
  tu_turn : rotate a (INR (degree - 1) * theta) v0 = v1 <-> 0 <= cos phi;
  tu_bisector : 0 < (1 - vdot a v0 * vdot a v0) * cos (INR (degree - 1) * theta / 2) + vdot a v0 * vdot a v0;
  tu_slant : 0 < 1 - vdot a v0 * vdot a v0
}.

Lemma setup_spec : forall degree v0 v1 phi s M, vdot v0 v0 = 1 -> vdot v1 v1 = 1 -> setupMatrix degree v0 v1 phi s = Some M ->
  exists a theta, turning degree v0 v1 phi a theta /\ M = (fun v => rotate a theta v *v s).
Proof.
  intros degree v0 v1 phi s M U0 U1 E. unfold setupMatrix in E.
  destruct (vnormalize (v1 -v v0)) as [e|] eqn:Ee; cbn [bind] in E; [|discriminate].
  destruct (vnormalize (rotate e phi (vcross v0 v1))) as [a|] eqn:Ea; cbn [bind] in E; [|discriminate].
  destruct (projected v0 v1 U0 U1 e a phi Ee Ea) as (w0 & w1 & E0 & E1 & D). rewrite E0, E1 in E. cbn [bind] in E. rewrite D in E.
  unfold fdiv in E. destruct (Req_EM_T (INR (degree - 1)) 0) as [Z|Z]; cbn [bind] in E; [discriminate|].
  assert (Hd : (2 <= degree)%nat). { destruct degree as [|[|d]]; [exfalso; apply Z; reflexivity..|lia]. }
  injection E as <-. eexists a, _. split; [|reflexivity].
  change (acos (clamp _ (- 1) 1)) with (alpha v0 v1 a).
  assert (T : INR (degree - 1) * (alpha v0 v1 a / INR (degree - 1)) = alpha v0 v1 a) by (field; exact Z).
  split; rewrite ?T.
  - apply (axis_unit v0 v1 e a phi Ea).
  - exact Hd.
  - apply (not_parallel v0 v1 U0 U1 e a phi Ee Ea).
  - symmetry. apply (same_height v0 v1 e a phi Ee Ea).
  - apply alpha_range.
  - apply (turn v0 v1 U0 U1 e a phi Ee Ea).
  - apply (open_turn v0 v1 U0 U1 e a phi Ee Ea).
  - apply (height_lt v0 v1 U0 U1 e a phi Ee Ea).
Qed.
Lemma setup_total : forall degree v0 v1 phi s, vdot v0 v0 = 1 -> vdot v1 v1 = 1 -> -1 < vdot v0 v1 < 1 -> (2 <= degree)%nat ->
  exists M, setupMatrix degree v0 v1 phi s = Some M.
Proof.
  intros degree v0 v1 phi s U0 U1 NP Hd. unfold setupMatrix.
  assert (N : v1 -v v0 <> vzero).
  { intros Z. assert (v1 = v0) by (apply V3_ext; [apply (f_equal vx) in Z|apply (f_equal vy) in Z|apply (f_equal vz) in Z]; cbn [vx vy vz vsub vzero] in Z; lra). subst v1. lra. }
  destruct (normalize_some _ N) as (e & Ee). rewrite Ee. cbn [bind].
  assert (Ue : vdot e e = 1) by apply (normalize_inv _ _ Ee).
  assert (Na : rotate e phi (vcross v0 v1) <> vzero).
  { intros Z. assert (X : vdot (rotate e phi (vcross v0 v1)) (rotate e phi (vcross v0 v1)) = 0) by (rewrite Z; unfold vdot; cbn [vx vy vz vzero]; ring).
    rewrite rotate_norm in X by exact Ue. rewrite (lagrange v0 v1 U0 U1) in X. nra. }
  destruct (normalize_some _ Na) as (a & Ea). rewrite Ea. cbn [bind].
  destruct (projected v0 v1 U0 U1 e a phi Ee Ea) as (w0 & w1 & E0 & E1 & _). rewrite E0, E1. cbn [bind].
  rewrite fdiv_some; [cbn [bind]; eexists; reflexivity|]. apply not_0_INR. lia.
Qed.

(** For a nonnegative scaling the chord does not vanish. *)
Lemma chord_nonzero : forall degree v0 v1 phi a theta s, vdot v0 v0 = 1 -> turning degree v0 v1 phi a theta -> 0 <= s ->
  vsum degree (leg a theta s v0) <> vzero.
Proof.
  intros degree v0 v1 phi a theta s U0 T Hs Z. destruct T as [U Hd _ _ (R0 & R1) _ B _].
  set (A := INR (degree - 1) * theta) in *. set (m := rotate a (A / 2) v0).
  assert (D : forall j, vdot (leg a theta s v0 j) m = ((1 - vdot a v0 * vdot a v0) * cos (INR j * theta - A / 2) + vdot a v0 * vdot a v0) * s ^ j).
  { intros j. unfold leg, m. rewrite vdot_sym, vdot_scaler, vdot_sym, rotate_dot by exact U. rewrite U0. reflexivity. }
  assert (H2 : vdot a v0 * vdot a v0 <= 1). { pose proof (cauchy a v0) as C. rewrite U, U0 in C. lra. }
  assert (P : 0 < vdot (vsum degree (leg a theta s v0)) m).
  { rewrite vdot_vsum. destruct degree as [|k]; [lia|]. rewrite rsum_first.
    assert (F : 0 < vdot (leg a theta s v0 0) m). { rewrite D. cbn [INR pow]. replace (0 * theta - A / 2) with (- (A / 2)) by ring. rewrite cos_neg. lra. }
    assert (G : 0 <= rsum k (fun i => vdot (leg a theta s v0 (S i)) m)); [|lra].
    apply rsum_nonneg. intros i Hi. rewrite D. apply Rmult_le_pos; [|apply pow_le; exact Hs].
    assert (0 <= cos (INR (S i) * theta - A / 2)); [|nra].
    assert (T0 : 0 <= theta).
    { unfold A in R0. replace (S k - 1)%nat with k in R0 by lia. assert (0 < INR k) by (apply lt_0_INR; lia). nra. }
    assert (X : INR (S i) * theta <= A). { unfold A. replace (S k - 1)%nat with k by lia. apply Rmult_le_compat_r; [exact T0|]. apply le_INR. lia. }
    assert (0 <= INR (S i) * theta) by (apply Rmult_le_pos; [apply pos_INR|exact T0]).
    apply cos_ge_0; lra. }
  rewrite Z in P. unfold vdot in P; cbn [vx vy vz vzero] in P. lra.
Qed.

Lemma eval_spec : forall n pa pb v0 a theta s, vdot a a = 1 -> (1 <= n)%nat -> pb <> pa -> vsum n (leg a theta s v0) <> vzero ->
  exists cp u1 u2, evalMatrix n pa pb v0 (fun x => rotate a theta x *v s) = Some (cp, vdot u1 u2 - 1) /\
  length cp = (n + 1)%nat /\ (forall i, (i <= n)%nat -> nth_error cp i = Some (pa +v vsum i (leg a theta s v0))) /\
  vnormalize (vsum n (leg a theta s v0)) = Some u1 /\ vnormalize (pb -v pa) = Some u2.
Proof.
  intros n pa pb v0 a theta s U Hn Np Nc. destruct (generate_spec a theta s n pa v0 U Hn) as (cp & E & L & C).
  unfold evalMatrix. rewrite E. cbn [bind]. rewrite (C n) by lia. rewrite (C 0%nat) by lia. cbn [bind vsum].
  replace (pa +v vsum n (leg a theta s v0) -v (pa +v vzero)) with (vsum n (leg a theta s v0)) by v3ring.
  destruct (normalize_some _ Nc) as (u1 & E1). rewrite E1. cbn [bind].
  assert (N2 : pb -v pa <> vzero).
  { intros Z. apply Np. apply V3_ext; [apply (f_equal vx) in Z|apply (f_equal vy) in Z|apply (f_equal vz) in Z]; cbn [vx vy vz vsub vzero] in Z; lra. }
  destruct (normalize_some _ N2) as (u2 & E2). rewrite E2. cbn [bind]. exists cp, u1, u2. repeat split; try assumption; reflexivity.
Qed.
Lemma eval_inv : forall n pa pb v0 a theta s cp v, vdot a a = 1 -> (1 <= n)%nat -> evalMatrix n pa pb v0 (fun x => rotate a theta x *v s) = Some (cp, v) ->
  pb <> pa /\ vsum n (leg a theta s v0) <> vzero.
Proof.
  intros n pa pb v0 a theta s cp v U Hn. destruct (generate_spec a theta s n pa v0 U Hn) as (cp' & E & L & C).
  unfold evalMatrix. rewrite E. cbn [bind]. rewrite (C n) by lia. rewrite (C 0%nat) by lia. cbn [bind vsum].
  replace (pa +v vsum n (leg a theta s v0) -v (pa +v vzero)) with (vsum n (leg a theta s v0)) by v3ring.
  destruct (vnormalize (vsum n (leg a theta s v0))) as [u1|] eqn:E1; [|discriminate]. cbn [bind].
  destruct (vnormalize (pb -v pa)) as [u2|] eqn:E2; [|discriminate]. intros _. split.
  - intros ->. destruct (normalize_inv _ _ E2) as (_ & N & _). apply N. unfold vnorm. replace (vdot (pa -v pa) (pa -v pa)) with 0 by (unfold vdot; cbn [vx vy vz vsub]; ring). apply sqrt_0.
  - intros Z. destruct (normalize_inv _ _ E1) as (_ & N & _). apply N. rewrite Z. unfold vnorm. replace (vdot vzero vzero) with 0 by (unfold vdot; cbn [vx vy vz vzero]; ring). apply sqrt_0.
Qed.

(** ** The result of one round *)
Record fitted (degree : nat) (pa va pb vb : V3) (phi s err : R) (v0 v1 a : V3) (theta c : R) (cp : list V3) : Prop := mkFitted {
  fi_v0 : vnormalize va = Some v0;
  fi_v1 : vnormalize vb = Some v1;
  fi_turning : turning degree v0 v1 phi a theta;
  fi_c : 0 < c;
  fi_length : length cp = (degree + 1)%nat;
  fi_points : forall i, (i < degree)%nat -> nth_error cp i = Some (pa +v vsum i (leg a theta s (v0 *v c)));
  fi_last : nth_error cp degree = Some pb;
  fi_gap : vnorm2 (pa +v vsum degree (leg a theta s (v0 *v c)) -v pb) = 2 * err * vnorm2 (pb -v pa);
  fi_err : 0 <= err
}.

Lemma finish_spec : forall degree pa va pb vb v0 v1 phi s M cp err cp',
  vnormalize va = Some v0 -> vnormalize vb = Some v1 ->
  setupMatrix degree v0 v1 phi s = Some M -> (exists v, evalMatrix degree pa pb v0 M = Some (cp, v) /\ err = Rabs v) ->
  finishClassA degree pa pb v0 M cp = Some cp' -> exists a theta c, fitted degree pa va pb vb phi s err v0 v1 a theta c cp'.
Proof.
  intros degree pa va pb vb v0 v1 phi s M cp err cp' E0 E1 EM (v & EV & Er) EF.
  assert (U0 : vdot v0 v0 = 1) by apply (normalize_inv _ _ E0). assert (U1 : vdot v1 v1 = 1) by apply (normalize_inv _ _ E1).
  destruct (setup_spec _ _ _ _ _ _ U0 U1 EM) as (a & theta & T & ->). pose proof (tu_unit _ _ _ _ _ _ T) as U. pose proof (tu_degree _ _ _ _ _ _ T) as Hd.
  assert (H1 : (1 <= degree)%nat) by lia.
  destruct (eval_inv _ _ _ _ _ _ _ _ _ U H1 EV) as (Np & Nc).
  destruct (eval_spec degree pa pb v0 a theta s U ltac:(lia) Np Nc) as (cq & u1 & u2 & EV' & Lq & Cq & E3 & E4). rewrite EV in EV'. injection EV' as <- ->.
  unfold finishClassA in EF. rewrite (Cq degree), (Cq 0%nat) in EF by lia. cbn [bind vsum] in EF.
  replace (pa +v vsum degree (leg a theta s v0) -v (pa +v vzero)) with (vsum degree (leg a theta s v0)) in EF by v3ring.
  destruct (normalize_inv _ _ E3) as (V1 & N1 & F1). destruct (normalize_inv _ _ E4) as (V2 & N2 & F2).
  rewrite fdiv_some in EF by exact N1. cbn [bind] in EF. set (c := vnorm (pb -v pa) / vnorm (vsum degree (leg a theta s v0))) in *.
  assert (Hc : 0 < c).
  { unfold c. pose proof (vnorm_nonneg (pb -v pa)). pose proof (vnorm_nonneg (vsum degree (leg a theta s v0))). apply Rdiv_lt_0_compat; lra. }
  destruct (generate_spec a theta s degree pa (v0 *v c) U ltac:(lia)) as (cr & Er' & Lr & Cr). rewrite Er' in EF. cbn [bind] in EF.
  destruct (upd_spec _ cr degree pb ltac:(lia)) as (cs & Es & Ls & Cs). rewrite Es in EF. injection EF as <-.
  exists a, theta, c. split; try assumption.
  - lia.
  - intros i Hi. rewrite Cs. destruct (Nat.eqb_spec i degree); [lia|]. apply Cr. lia.
  - rewrite Cs, Nat.eqb_refl. reflexivity.
  - assert (G : pa +v vsum degree (leg a theta s (v0 *v c)) -v pb = (u1 -v u2) *v vnorm (pb -v pa)).
    { rewrite (vsum_ext degree _ (fun j => leg a theta s v0 j *v c)) by (intros j _; apply leg_scale). rewrite vsum_scale. rewrite F1, F2. unfold c.
      generalize dependent (vsum degree (leg a theta s v0)). intros w Nc Lq' E3 N1 F1' Cc. 
      assert (Z : pb -v pa = (pb -v pa) *v / vnorm (pb -v pa) *v vnorm (pb -v pa)) by (v3field; exact N2).
      transitivity (w *v (vnorm (pb -v pa) / vnorm w) -v (pb -v pa)); [v3ring|]. rewrite Z at 2. unfold Rdiv. generalize (/ vnorm w), (/ vnorm (pb -v pa)), (vnorm (pb -v pa)). intros. v3ring. }
    rewrite G. unfold vnorm2.
    assert (C1 : vdot u1 u2 <= 1). { pose proof (cauchy u1 u2) as C. rewrite V1, V2 in C. nra. }
    rewrite Er, Rabs_left1 by lra. rewrite <- (vnorm_sqr (pb -v pa)).
    transitivity ((vdot u1 u1 + vdot u2 u2 - 2 * vdot u1 u2) * (vnorm (pb -v pa) * vnorm (pb -v pa))); [unfold vdot; cbn [vx vy vz vsub vscale]; ring|].
    rewrite V1, V2. ring.
  - rewrite Er. apply Rabs_pos.
Qed.
