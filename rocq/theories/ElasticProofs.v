(** Beams: curves over an interval with given end points and end derivatives, and
    their bending energy.  The cubic has the least one. *)
From Verif Require Import Base UtilModel UtilSpec DomainModel ParamModel RibbonModel SurfaceModel SurfaceEval FEMSpec FEMSolve ElasticModel.
From Coq Require Import Reals List Lra Lia.
Import ListNotations.
Open Scope R_scope.

(** [E] is the integral of the squared length of the second derivative of a twice
    differentiable curve over [0, L] from [P] with derivative [T] to [q] with
    derivative [D]; [G] is an antiderivative of the integrand. *)
Definition beam (L : R) (P T q D : V3) (E : R) : Prop :=
  exists (g g1 g2 : R -> V3) (G : R -> R),
    (forall t, 0 <= t <= L -> vderiv g t (g1 t) /\ vderiv g1 t (g2 t) /\ derivable_pt_lim G t (vnorm2 (g2 t))) /\
    g 0 = P /\ g1 0 = T /\ g L = q /\ g1 L = D /\ E = G L - G 0.

(** The energy of the cubic, by the change [y] of the point and the scaled end
    derivatives. *)
Definition cubicEnergy (L : R) (P T q D : V3) : R :=
  let y := q -v P in let a := T *v L in let b := D *v L in
  (12 * vdot y y - 12 * vdot y (a +v b) + 4 * (vdot a a + vdot a b + vdot b b)) * / L ^ 3.

Lemma poly_deriv : forall c0 c1 c2 c3 t, derivable_pt_lim (fun x => c0 + c1 * x + c2 * x ^ 2 + c3 * x ^ 3) t (c1 + 2 * c2 * t + 3 * c3 * t ^ 2).
Proof.
  intros c0 c1 c2 c3 t.
  replace (c1 + 2 * c2 * t + 3 * c3 * t ^ 2) with (0 + c1 * 1 + c2 * (INR 2 * t ^ 1) + c3 * (INR 3 * t ^ 2)) by (simpl INR; ring).
  repeat apply derivable_pt_lim_plus.
  - apply derivable_pt_lim_const.
  - apply (derivable_pt_lim_scal (fun x => x)). apply derivable_pt_lim_id.
  - apply (derivable_pt_lim_scal (fun x => x ^ 2)). apply (derivable_pt_lim_pow t 2).
  - apply (derivable_pt_lim_scal (fun x => x ^ 3)). apply (derivable_pt_lim_pow t 3).
Qed.

Lemma poly_deriv_to : forall c0 c1 c2 c3 t f d, (forall x, c0 + c1 * x + c2 * x ^ 2 + c3 * x ^ 3 = f x) -> c1 + 2 * c2 * t + 3 * c3 * t ^ 2 = d -> derivable_pt_lim f t d.
Proof. intros c0 c1 c2 c3 t f d E <-. eapply derivable_pt_lim_ext; [exact E|]. apply poly_deriv. Qed.

Lemma cubic_d1 : forall P T c2 c3 t, vderiv (fun x => P +v T *v x +v c2 *v x ^ 2 +v c3 *v x ^ 3) t (T +v c2 *v (2 * t) +v c3 *v (3 * t ^ 2)).
Proof.
  intros P T c2 c3 t. split; [|split].
  - apply (poly_deriv_to (vx P) (vx T) (vx c2) (vx c3)); [intros x|]; simpl; ring.
  - apply (poly_deriv_to (vy P) (vy T) (vy c2) (vy c3)); [intros x|]; simpl; ring.
  - apply (poly_deriv_to (vz P) (vz T) (vz c2) (vz c3)); [intros x|]; simpl; ring.
Qed.
Lemma cubic_d2 : forall T c2 c3 t, vderiv (fun x => T +v c2 *v (2 * x) +v c3 *v (3 * x ^ 2)) t (c2 *v 2 +v c3 *v (6 * t)).
Proof.
  intros T c2 c3 t. split; [|split].
  - apply (poly_deriv_to (vx T) (2 * vx c2) (3 * vx c3) 0); [intros x|]; simpl; ring.
  - apply (poly_deriv_to (vy T) (2 * vy c2) (3 * vy c3) 0); [intros x|]; simpl; ring.
  - apply (poly_deriv_to (vz T) (2 * vz c2) (3 * vz c3) 0); [intros x|]; simpl; ring.
Qed.
Lemma cubic_d3 : forall c2 c3 t, vderiv (fun x => c2 *v 2 +v c3 *v (6 * x)) t (c3 *v 6).
Proof.
  intros c2 c3 t. split; [|split].
  - apply (poly_deriv_to (2 * vx c2) (6 * vx c3) 0 0); [intros x|]; simpl; ring.
  - apply (poly_deriv_to (2 * vy c2) (6 * vy c3) 0 0); [intros x|]; simpl; ring.
  - apply (poly_deriv_to (2 * vz c2) (6 * vz c3) 0 0); [intros x|]; simpl; ring.
Qed.
Lemma cubic_e : forall c2 c3 t, derivable_pt_lim (fun x => 4 * vdot c2 c2 * x + 12 * vdot c2 c3 * x ^ 2 + 12 * vdot c3 c3 * x ^ 3) t (vnorm2 (c2 *v 2 +v c3 *v (6 * t))).
Proof. intros c2 c3 t. apply (poly_deriv_to 0 (4 * vdot c2 c2) (12 * vdot c2 c3) (12 * vdot c3 c3)); [intros x; ring|]. unfold vnorm2, vdot; simpl; ring. Qed.

Section Cubic.
Variables (L : R) (P T q D : V3).
Hypothesis HL : 0 < L.
Definition cubic2 : V3 := ((q -v P) *v (3 / L) -v T *v 2 -v D) *v / L.
Definition cubic3 : V3 := ((P -v q) *v (2 / L) +v T +v D) *v / L ^ 2.

Lemma cubic_end : P +v T *v L +v cubic2 *v L ^ 2 +v cubic3 *v L ^ 3 = q.
Proof. unfold cubic2, cubic3. v3field; lra. Qed.
Lemma cubic_end1 : T +v cubic2 *v (2 * L) +v cubic3 *v (3 * L ^ 2) = D.
Proof. unfold cubic2, cubic3. v3field; lra. Qed.
Lemma cubic_energy : 4 * vdot cubic2 cubic2 * L + 12 * vdot cubic2 cubic3 * L ^ 2 + 12 * vdot cubic3 cubic3 * L ^ 3 = cubicEnergy L P T q D.
Proof. unfold cubicEnergy, cubic2, cubic3, vdot. simpl. field. lra. Qed.

(** The cubic. *)
Lemma cubic_beam : beam L P T q D (cubicEnergy L P T q D).
Proof.
  exists (fun x => P +v T *v x +v cubic2 *v x ^ 2 +v cubic3 *v x ^ 3), (fun x => T +v cubic2 *v (2 * x) +v cubic3 *v (3 * x ^ 2)),
    (fun x => cubic2 *v 2 +v cubic3 *v (6 * x)),
    (fun x => 4 * vdot cubic2 cubic2 * x + 12 * vdot cubic2 cubic3 * x ^ 2 + 12 * vdot cubic3 cubic3 * x ^ 3).
  split; [|split; [|split; [|split; [|split]]]].
  - intros t _. split; [apply cubic_d1|]. split; [apply cubic_d2|apply cubic_e].
  - v3ring.
  - v3ring.
  - exact cubic_end.
  - exact cubic_end1.
  - rewrite cubic_energy. simpl. ring.
Qed.

Lemma vdot_deriv : forall f g t f' g', vderiv f t f' -> vderiv g t g' -> derivable_pt_lim (fun x => vdot (f x) (g x)) t (vdot f' (g t) + vdot (f t) g').
Proof.
  intros f g t f' g' (A1 & A2 & A3) (B1 & B2 & B3). unfold vdot.
  replace (vx f' * vx (g t) + vy f' * vy (g t) + vz f' * vz (g t) + (vx (f t) * vx g' + vy (f t) * vy g' + vz (f t) * vz g'))
    with (vx f' * vx (g t) + vx (f t) * vx g' + (vy f' * vy (g t) + vy (f t) * vy g') + (vz f' * vz (g t) + vz (f t) * vz g')) by ring.
  repeat apply derivable_pt_lim_plus.
  - apply (derivable_pt_lim_mult (fun x => vx (f x)) (fun x => vx (g x))); assumption.
  - apply (derivable_pt_lim_mult (fun x => vy (f x)) (fun x => vy (g x))); assumption.
  - apply (derivable_pt_lim_mult (fun x => vz (f x)) (fun x => vz (g x))); assumption.
Qed.
Lemma vderiv_sub : forall f g t f' g', vderiv f t f' -> vderiv g t g' -> vderiv (fun x => f x -v g x) t (f' -v g').
Proof. intros f g t f' g' (A1 & A2 & A3) (B1 & B2 & B3). split; [|split]; simpl; [exact (derivable_pt_lim_minus _ _ _ _ _ A1 B1)|exact (derivable_pt_lim_minus _ _ _ _ _ A2 B2)|exact (derivable_pt_lim_minus _ _ _ _ _ A3 B3)]. Qed.

(** No other beam has less. *)
Lemma beam_least : forall E, beam L P T q D E -> cubicEnergy L P T q D <= E.
Proof.
  intros E (g & g1 & g2 & G & Dg & E0 & E1 & E2 & E3 & ->).
  set (h := fun x => P +v T *v x +v cubic2 *v x ^ 2 +v cubic3 *v x ^ 3).
  set (h1 := fun x => T +v cubic2 *v (2 * x) +v cubic3 *v (3 * x ^ 2)).
  set (h2 := fun x => cubic2 *v 2 +v cubic3 *v (6 * x)).
  set (H := fun x => 4 * vdot cubic2 cubic2 * x + 12 * vdot cubic2 cubic3 * x ^ 2 + 12 * vdot cubic3 cubic3 * x ^ 3).
  set (K := fun x => G x - H x - 2 * (vdot (h2 x) (g1 x -v h1 x) - vdot (cubic3 *v 6) (g x -v h x))).
  assert (DK : forall t, 0 <= t <= L -> derivable_pt_lim K t (vnorm2 (g2 t -v h2 t))).
  { intros t Ht. destruct (Dg t Ht) as (D1 & D2 & D3).
    assert (C3 : vderiv (fun _ => cubic3 *v 6) t vzero) by (split; [|split]; simpl; apply derivable_pt_lim_const).
    pose proof (vdot_deriv _ _ t _ _ (cubic_d3 cubic2 cubic3 t) (vderiv_sub _ _ t _ _ D2 (cubic_d2 T cubic2 cubic3 t))) as X.
    pose proof (vdot_deriv _ _ t _ _ C3 (vderiv_sub _ _ t _ _ D1 (cubic_d1 P T cubic2 cubic3 t))) as Y.
    replace (vnorm2 (g2 t -v h2 t)) with (vnorm2 (g2 t) - vnorm2 (cubic2 *v 2 +v cubic3 *v (6 * t)) -
      2 * (vdot (cubic3 *v 6) (g1 t -v (T +v cubic2 *v (2 * t) +v cubic3 *v (3 * t ^ 2))) + vdot (cubic2 *v 2 +v cubic3 *v (6 * t)) (g2 t -v (cubic2 *v 2 +v cubic3 *v (6 * t)))
           - (vdot vzero (g t -v (P +v T *v t +v cubic2 *v t ^ 2 +v cubic3 *v t ^ 3)) + vdot (cubic3 *v 6) (g1 t -v (T +v cubic2 *v (2 * t) +v cubic3 *v (3 * t ^ 2))))))
      by (unfold h2, vnorm2, vdot; simpl; ring).
    unfold K. apply (derivable_pt_lim_minus (fun x => G x - H x) (fun x => 2 * (vdot (h2 x) (g1 x -v h1 x) - vdot (cubic3 *v 6) (g x -v h x)))).
    - apply (derivable_pt_lim_minus G H); [exact D3|apply cubic_e].
    - apply (derivable_pt_lim_scal (fun x => vdot (h2 x) (g1 x -v h1 x) - vdot (cubic3 *v 6) (g x -v h x))).
      apply (derivable_pt_lim_minus (fun x => vdot (h2 x) (g1 x -v h1 x)) (fun x => vdot (cubic3 *v 6) (g x -v h x))); assumption. }
  destruct (MVT_cor2 K (fun t => vnorm2 (g2 t -v h2 t)) 0 L HL DK) as (c & EK & _).
  assert (N : 0 <= vnorm2 (g2 c -v h2 c)) by (unfold vnorm2, vdot; nra).
  assert (M : 0 <= K L - K 0) by (rewrite EK; apply Rmult_le_pos; lra).
  unfold K in M. rewrite E0, E1, E2, E3 in M. unfold h, h1 in M. rewrite cubic_end, cubic_end1 in M.
  assert (HL' : H L = cubicEnergy L P T q D) by exact cubic_energy.
  assert (H0 : H 0 = 0) by (unfold H; simpl; ring). rewrite HL', H0 in M.
  replace (vdot (h2 L) (D -v D)) with 0 in M by (unfold vdot; simpl; ring).
  replace (vdot (cubic3 *v 6) (q -v q)) with 0 in M by (unfold vdot; simpl; ring).
  replace (vdot (h2 0) (T -v (T +v cubic2 *v (2 * 0) +v cubic3 *v (3 * 0 ^ 2)))) with 0 in M by (unfold vdot; simpl; ring).
  replace (vdot (cubic3 *v 6) (P -v (P +v T *v 0 +v cubic2 *v 0 ^ 2 +v cubic3 *v 0 ^ 3))) with 0 in M by (unfold vdot; simpl; ring).
  lra.
Qed.
End Cubic.

(** ** The system *)
Lemma loop_state : forall (S : Type) (acc : S -> V2 -> V3 -> V3 -> R -> S) solve tol sf vs uv sds foot P T k j st,
  (forall i, (j <= i < j + k)%nat -> exists sd a b r, nth_error sds i = Some sd /\ nth_error vs (prv (sf_n sf) i) = Some a /\ nth_error vs i = Some b /\
     nth_error (sf_ribbons sf) i = Some r /\ let s := Rmin (Rmax (px sd) 0) 1 in foot i = a *p (1 - s) +p b *p s /\ P i = cpt (sr_curve r) s /\ sr_cross r s = Some (T i)) ->
  (forall i, (j <= i < j + k)%nat -> tol <= pnorm (uv -p foot i) /\ pnorm (uv -p foot i) <> 0) ->
  elasticLoop S acc solve tol sf vs uv sds (seq j k) st =
  solve (fold_left (fun st i => acc st (foot i) (P i) (T i *v pnorm (uv -p foot i)) (/ pnorm (uv -p foot i) ^ 3)) (seq j k) st).
Proof.
  intros S acc solve tol sf vs uv sds foot P T k. induction k as [|k IH]; intros j st H F; [reflexivity|]. cbn [seq elasticLoop fold_left].
  destruct (H j ltac:(lia)) as (sd & a & b & r & E1 & E2 & E3 & E4 & Ef & EP & ET). destruct (F j ltac:(lia)) as (F1 & F2).
  rewrite E1. cbn [bind]. rewrite E2, E3. cbn [bind]. rewrite E4. cbn [bind].
  assert (Cl : clamp (px sd) 0 1 = Rmin (Rmax (px sd) 0) 1).
  { unfold clamp, Rmin, Rmax. repeat destruct Rle_dec; repeat destruct Rlt_dec; lra. }
  rewrite Cl. set (s := Rmin (Rmax (px sd) 0) 1) in *.
  unfold ribbonEval. cbn [px py]. rewrite ET. cbn [bind].
  replace (affine2 a s b) with (foot j) by (rewrite Ef; unfold affine2; apply V2_ext; simpl; ring).
  replace (cpt (sr_curve r) s +v T j *v 0) with (P j) by (rewrite EP; v3ring).
  destruct (Rlt_dec (pnorm (uv -p foot j)) tol) as [C|_]; [lra|].
  unfold fdiv at 1. destruct (Req_EM_T (pnorm (uv -p foot j) ^ 3) 0) as [C|_]; [exfalso; exact (pow_nonzero _ 3 F2 C)|]. cbn [bind].
  apply IH; intros i Hi; [apply H|apply F]; lia.
Qed.

Lemma acc_state : forall uv (foot : nat -> V2) (P T : nat -> V3) (w : nat -> R) k j st,
  let st' := fold_left (fun st i => elasticAcc uv st (foot i) (P i) (T i) (w i)) (seq j k) st in
  (forall a b, es_A st' a b = es_A st a b + rsum k (fun i => elasticEntry (px uv - px (foot (j + i)%nat)) (py uv - py (foot (j + i)%nat)) a b * w (j + i)%nat)) /\
  (forall a, es_b st' a = es_b st a +v vsum k (fun i => elasticRhs (px uv - px (foot (j + i)%nat)) (py uv - py (foot (j + i)%nat)) (P (j + i)%nat) (T (j + i)%nat) a *v w (j + i)%nat)).
Proof.
  intros uv foot P T w k. induction k as [|k IH]; intros j st; cbn [seq fold_left].
  - split; intros; cbn [rsum]; [ring|]. unfold vsum. v3ring.
  - specialize (IH (S j) (elasticAcc uv st (foot j) (P j) (T j) (w j))). cbv zeta in IH. destruct IH as (I1 & I2). split.
    + intros a b. rewrite I1. rewrite rsum_first. rewrite Nat.add_0_r. unfold elasticAcc at 1. cbn [es_A]. rewrite Rplus_assoc. apply f_equal. apply f_equal.
      apply rsum_ext. intros i _. replace (S j + i)%nat with (j + S i)%nat by lia. reflexivity.
    + intros a. rewrite I2. rewrite vsum_first. rewrite Nat.add_0_r. unfold elasticAcc at 1. cbn [es_b].
      rewrite (vsum_ext k _ (fun i => elasticRhs (px uv - px (foot (j + S i)%nat)) (py uv - py (foot (j + S i)%nat)) (P (j + S i)%nat) (T (j + S i)%nat) a *v w (j + S i)%nat))
        by (intros i _; replace (S j + i)%nat with (j + S i)%nat by lia; reflexivity).
      v3ring.
Qed.

(** ** Quadratic functions *)
Section Quadratic.
Variables (n : nat) (w x y : nat -> R).
Hypothesis Hw : forall i, (i < n)%nat -> 0 < w i.

Definition phi (P a : nat -> R) (q K1 K2 : R) (i : nat) : R :=
  (12 * (q - P i) ^ 2 - 12 * (q - P i) * (a i + (K1 * x i + K2 * y i)) + 4 * (a i ^ 2 + a i * (K1 * x i + K2 * y i) + (K1 * x i + K2 * y i) ^ 2)) * w i.
Definition quad (de k1 k2 : R) (i : nat) : R := (12 * de ^ 2 - 12 * de * (k1 * x i + k2 * y i) + 4 * (k1 * x i + k2 * y i) ^ 2) * w i.

Lemma phi_difference : forall P a p J1 J2 q K1 K2,
  rsum n (fun i => (2 * p - (J1 * x i + J2 * y i)) * w i) = rsum n (fun i => (2 * P i + a i) * w i) ->
  rsum n (fun i => x i * (3 * p - 2 * (J1 * x i + J2 * y i)) * w i) = rsum n (fun i => x i * (3 * P i + a i) * w i) ->
  rsum n (fun i => y i * (3 * p - 2 * (J1 * x i + J2 * y i)) * w i) = rsum n (fun i => y i * (3 * P i + a i) * w i) ->
  rsum n (phi P a q K1 K2) = rsum n (phi P a p J1 J2) + rsum n (quad (q - p) (K1 - J1) (K2 - J2)).
Proof.
  intros P a p J1 J2 q K1 K2 N0 N1 N2.
  rewrite (rsum_ext n (phi P a q K1 K2) (fun i => phi P a p J1 J2 i + quad (q - p) (K1 - J1) (K2 - J2) i +
     (12 * (q - p) * ((2 * p - (J1 * x i + J2 * y i)) * w i - (2 * P i + a i) * w i) -
      (4 * (K1 - J1) * (x i * (3 * p - 2 * (J1 * x i + J2 * y i)) * w i - x i * (3 * P i + a i) * w i) +
       4 * (K2 - J2) * (y i * (3 * p - 2 * (J1 * x i + J2 * y i)) * w i - y i * (3 * P i + a i) * w i)))))
    by (intros i _; unfold phi, quad; ring).
  rewrite !rsum_plus, rsum_minus, rsum_plus, !rsum_scal, !rsum_minus, N0, N1, N2. ring.
Qed.

Lemma quad_nonneg : forall de k1 k2 i, (i < n)%nat -> 0 <= quad de k1 k2 i.
Proof.
  intros de k1 k2 i Hi. unfold quad. apply Rmult_le_pos; [|specialize (Hw i Hi); lra].
  replace (12 * de ^ 2 - 12 * de * (k1 * x i + k2 * y i) + 4 * (k1 * x i + k2 * y i) ^ 2) with (3 * de ^ 2 + (3 * de - 2 * (k1 * x i + k2 * y i)) ^ 2) by ring.
  pose proof (pow2_ge_0 de). pose proof (pow2_ge_0 (3 * de - 2 * (k1 * x i + k2 * y i))). lra.
Qed.

Lemma quad_zero : forall de k1 k2, (exists i j, (i < n)%nat /\ (j < n)%nat /\ x i * y j - y i * x j <> 0) ->
  rsum n (quad de k1 k2) = 0 -> de = 0 /\ k1 = 0 /\ k2 = 0.
Proof.
  intros de k1 k2 (i & j & Hi & Hj & N) Z.
  assert (Q : forall m, (m < n)%nat -> quad de k1 k2 m = 0).
  { intros m Hm. rewrite (rsum_split1 n _ m Hm) in Z. pose proof (quad_nonneg de k1 k2 m Hm).
    assert (0 <= rsum n (fun k => if (k =? m)%nat then 0 else quad de k1 k2 k)).
    { apply rsum_nonneg. intros k Hk. destruct (k =? m)%nat; [lra|apply quad_nonneg; exact Hk]. }
    lra. }
  assert (R : forall m, (m < n)%nat -> de = 0 /\ k1 * x m + k2 * y m = 0).
  { intros m Hm. specialize (Q m Hm). specialize (Hw m Hm). unfold quad in Q.
    assert (Q' : 3 * de ^ 2 + (3 * de - 2 * (k1 * x m + k2 * y m)) ^ 2 = 0).
    { apply (Rmult_eq_reg_r (w m)); [|lra]. rewrite Rmult_0_l, <- Q. ring. }
    set (z := k1 * x m + k2 * y m) in *. clearbody z.
    pose proof (pow2_ge_0 de) as A1. pose proof (pow2_ge_0 (3 * de - 2 * z)) as A2.
    assert (D : de = 0) by (apply Rsqr_0_uniq; unfold Rsqr; nra). split; [exact D|]. subst de.
    apply Rsqr_0_uniq. unfold Rsqr. nra. }
  destruct (R i Hi) as (D & Ri). destruct (R j Hj) as (_ & Rj). split; [exact D|]. split.
  - apply (Rmult_eq_reg_r (x i * y j - y i * x j)); [|exact N].
    replace (k1 * (x i * y j - y i * x j)) with ((k1 * x i + k2 * y i) * y j - (k1 * x j + k2 * y j) * y i) by ring. rewrite Ri, Rj. ring.
  - apply (Rmult_eq_reg_r (x i * y j - y i * x j)); [|exact N].
    replace (k2 * (x i * y j - y i * x j)) with ((k1 * x j + k2 * y j) * x i - (k1 * x i + k2 * y i) * x j) by ring. rewrite Ri, Rj. ring.
Qed.

(** The matrix. *)
Definition sysA (a b : nat) : R := rsum n (fun i => elasticEntry (x i) (y i) a b * w i).

Lemma sys_rows : forall z, 
  mapply 3 sysA z 0 = rsum n (fun i => (2 * z 0%nat + (z 1%nat * x i + z 2%nat * y i)) * w i) /\
  mapply 3 sysA z 1 = rsum n (fun i => x i * (3 * z 0%nat + 2 * (z 1%nat * x i + z 2%nat * y i)) * w i) /\
  mapply 3 sysA z 2 = rsum n (fun i => y i * (3 * z 0%nat + 2 * (z 1%nat * x i + z 2%nat * y i)) * w i).
Proof.
  intros z. unfold mapply, sysA. cbn [rsum elasticEntry]. rewrite <- !rsum_scal_r, Rplus_0_l, <- !rsum_plus.
  rewrite Rplus_0_l, <- !rsum_plus. rewrite Rplus_0_l, <- !rsum_plus.
  repeat split; apply rsum_ext; intros i _; ring.
Qed.

Lemma sys_invertible : (exists i j, (i < n)%nat /\ (j < n)%nat /\ x i * y j - y i * x j <> 0) -> invertible 3 sysA.
Proof.
  intros Sp. apply kernel_invertible. intros z Hz.
  destruct (sys_rows z) as (R0 & R1 & R2). rewrite (Hz 0%nat ltac:(lia)) in R0. rewrite (Hz 1%nat ltac:(lia)) in R1. rewrite (Hz 2%nat ltac:(lia)) in R2.
  assert (Q : rsum n (quad (z 0%nat) (- z 1%nat) (- z 2%nat)) = 0).
  { rewrite (rsum_ext n _ (fun i => 6 * z 0%nat * ((2 * z 0%nat + (z 1%nat * x i + z 2%nat * y i)) * w i) +
      (2 * z 1%nat * (x i * (3 * z 0%nat + 2 * (z 1%nat * x i + z 2%nat * y i)) * w i) + 2 * z 2%nat * (y i * (3 * z 0%nat + 2 * (z 1%nat * x i + z 2%nat * y i)) * w i))))
      by (intros i _; unfold quad; ring).
    rewrite !rsum_plus, !rsum_scal, <- R0, <- R1, <- R2. ring. }
  destruct (quad_zero _ _ _ Sp Q) as (Z0 & Z1 & Z2). intros [|[|[|i]]] Hi; [exact Z0|lra|lra|lia].
Qed.
End Quadratic.
