(** Properties of the corner data and of the corner interpolants: C64. *)
From Verif Require Import Base UtilModel DomainModel ParamModel RibbonModel SurfaceModel SurfaceSpec SurfaceProofs BlendProofs UtilProofs BlendProps.
From Coq Require Import Reals List Lia Lra.
Import ListNotations.
Open Scope R_scope.

(** Derivative of a space curve, coordinate by coordinate. *)
Definition vderives (f : R -> V3) (t : R) (d : V3) : Prop :=
  derivable_pt_lim (fun u => vx (f u)) t (vx d) /\ derivable_pt_lim (fun u => vy (f u)) t (vy d) /\ derivable_pt_lim (fun u => vz (f u)) t (vz d).

(** Each coordinate of [w] is the one of [f] somewhere strictly between [a] and [b]. *)
Definition mean_of (f : R -> V3) (a b : R) (w : V3) : Prop :=
  (exists t, a < t < b /\ vx w = vx (f t)) /\ (exists t, a < t < b /\ vy w = vy (f t)) /\ (exists t, a < t < b /\ vz w = vz (f t)).

Lemma mean_quotient : forall f f' a b, a < b -> (forall t, a <= t <= b -> vderives f t (f' t)) ->
  mean_of f' a b ((f b -v f a) *v / (b - a)).
Proof.
  intros f f' a b L D.
  assert (G : forall g g' : R -> R, (forall t, a <= t <= b -> derivable_pt_lim g t (g' t)) -> exists t, a < t < b /\ (g b - g a) * / (b - a) = g' t).
  { intros g g' Dg. destruct (MVT_cor2 g g' a b L Dg) as (t & E & T). exists t. split; [exact T|]. rewrite E. field. lra. }
  split; [|split]; cbn [vx vy vz vscale vsub].
  - apply (G (fun u => vx (f u)) (fun u => vx (f' u))). intros t T. apply (D t T).
  - apply (G (fun u => vy (f u)) (fun u => vy (f' u))). intros t T. apply (D t T).
  - apply (G (fun u => vz (f u)) (fun u => vz (f' u))). intros t T. apply (D t T).
Qed.

(** ** C64: the twists are derivatives of the cross derivatives next to the
    corner: of side [i] running backwards, and of the next side running forwards. *)
Theorem C64_corner_data : forall n rs i r rp X Y X' Y', nth_error rs i = Some r -> nth_error rs (nxt n i) = Some rp ->
  (forall t, 0 <= t <= 1 -> sr_cross r t = Some (X t) /\ sr_cross rp t = Some (Y t)) ->
  (forall t, 0 <= t <= 1 -> vderives X t (X' t) /\ vderives Y t (Y' t)) ->
  exists c, updateCorner n rs i = Some c /\
    cn_point c = cpt (sr_curve r) 1 /\ cn_tan1 c = cder (sr_curve r) 1 *v (-1) /\ cn_tan2 c = cder (sr_curve rp) 0 /\
    mean_of X' (1 - / 10000) 1 (cn_twist1 c *v (-1)) /\ mean_of Y' 0 (/ 10000) (cn_twist2 c).
Proof.
  intros n rs i r rp X Y X' Y' Er Ep Cr Dr.
  assert (St : 0 < corner_step < 1) by (unfold corner_step; lra).
  unfold updateCorner. rewrite Er, Ep. cbn [bind].
  rewrite (proj1 (Cr 1 ltac:(lra))), (proj1 (Cr (1 - corner_step) ltac:(lra))), (proj2 (Cr 0 ltac:(lra))), (proj2 (Cr corner_step ltac:(lra))). cbn [bind].
  eexists. split; [reflexivity|]. cbn [cn_point cn_tan1 cn_tan2 cn_twist1 cn_twist2].
  split; [reflexivity|]. split; [v3ring|]. split; [reflexivity|]. split.
  - pose proof (mean_quotient X X' (1 - corner_step) 1 ltac:(lra)) as M.
    replace (((X (1 - corner_step) -v X 1) *v / corner_step) *v -1) with ((X 1 -v X (1 - corner_step)) *v / (1 - (1 - corner_step))).
    + apply M. intros t T. apply Dr. lra.
    + replace (1 - (1 - corner_step)) with corner_step by ring. v3ring.
  - pose proof (mean_quotient Y Y' 0 corner_step ltac:(lra)) as M. rewrite Rminus_0_r in M. apply M. intros t T. apply Dr. lra.
Qed.
Print Assumptions C64_corner_data.

(** Exact for cross derivatives that are linear along the side. *)
Theorem C64_linear : forall n rs i r rp A B A' B', nth_error rs i = Some r -> nth_error rs (nxt n i) = Some rp ->
  (forall t, 0 <= t <= 1 -> sr_cross r t = Some (A +v B *v t) /\ sr_cross rp t = Some (A' +v B' *v t)) ->
  exists c, updateCorner n rs i = Some c /\ cn_twist1 c = B *v (-1) /\ cn_twist2 c = B'.
Proof.
  intros n rs i r rp A B A' B' Er Ep Cr.
  assert (St : 0 < corner_step < 1) by (unfold corner_step; lra).
  unfold updateCorner. rewrite Er, Ep. cbn [bind].
  rewrite (proj1 (Cr 1 ltac:(lra))), (proj1 (Cr (1 - corner_step) ltac:(lra))), (proj2 (Cr 0 ltac:(lra))), (proj2 (Cr corner_step ltac:(lra))). cbn [bind].
  eexists. split; [reflexivity|]. cbn [cn_twist1 cn_twist2]. split; v3field; lra.
Qed.
Print Assumptions C64_linear.

(** ** The correction term next to its two sides: linear, with the slope that the
    ribbon of the neighbouring side has there, up to a quadratic remainder. *)
Theorem C64_correction : forall eps sf i c s x, 0 < eps -> sf_gamma sf = false -> nth_error (sf_corners sf) i = Some c ->
  0 <= s <= 1 -> 0 <= x <= 1 -> eps <= s + x ->
  exists l, 0 <= l <= 1 /\
    cornerCorrection eps sf i s x = Some (cn_point c +v cn_tan1 c *v s +v (cn_tan2 c +v cn_twist2 c *v s) *v x +v (cn_twist1 c -v cn_twist2 c) *v (l * x * x)) /\
    cornerCorrection eps sf i x s = Some (cn_point c +v cn_tan2 c *v s +v (cn_tan1 c +v cn_twist1 c *v s) *v x +v (cn_twist2 c -v cn_twist1 c) *v (l * x * x)).
Proof.
  intros eps sf i c s x He G Ec Hs Hx Hsx. exists (s / (s + x)). split.
  - split; [apply Rmult_le_pos; [lra|left; apply Rinv_0_lt_compat; lra]|].
    apply (Rmult_le_reg_r (s + x)); [lra|]. unfold Rdiv. rewrite Rmult_assoc, Rinv_l by lra. lra.
  - unfold cornerCorrection, gamma. rewrite G. cbn [bind]. rewrite Ec. cbn [bind]. rewrite (clamp_id s 0 1), (clamp_id x 0 1) by lra.
    unfold rationalTwist. destruct (Rlt_dec (Rabs (s + x)) eps) as [L|_]; [rewrite Rabs_right in L by lra; lra|].
    destruct (Rlt_dec (Rabs (x + s)) eps) as [L|_]; [rewrite Rabs_right in L by lra; lra|].
    rewrite !vdiv_some by lra. cbn [bind]. split; (apply f_equal; v3field; lra).
Qed.
Print Assumptions C64_correction.

(** ** The corner interpolant that works with distances instead of side parameters
    contains both curves of its corner. *)
Theorem C64_interpolant_d : forall eps sf i sds s, 0 < eps -> (2 <= sf_n sf)%nat -> ready sf -> (i < sf_n sf)%nat -> 0 <= s <= 1 ->
  (forall p s0 s1, side_point sf i s p -> nth_error sds i = Some (mkV2 s0 0) -> nth_error sds (nxt (sf_n sf) i) = Some (mkV2 s1 (1 - s)) ->
     cornerInterpolantD eps sf i sds = Some p) /\
  (forall p s0 s1, side_point sf (nxt (sf_n sf) i) s p -> nth_error sds i = Some (mkV2 s0 s) ->
     nth_error sds (nxt (sf_n sf) i) = Some (mkV2 s1 0) -> cornerInterpolantD eps sf i sds = Some p).
Proof.
  intros eps sf i sds s He H2 Rd Hi Hs. destruct (proj1 Rd) as (L & C & _). pose proof (nxt_lt (sf_n sf) i ltac:(lia)) as Ln. split.
  - intros p s0 s1 (r & E & <-) E0 E1. unfold cornerInterpolantD. rewrite E0, E1. cbn [bind px py].
    rewrite (side_value sf L C i) by (assumption || (apply gok_nonneg; lra)). cbn [bind].
    rewrite (side_value sf L C (nxt (sf_n sf) i)) by (assumption || (apply gok_nonneg; lra)). cbn [bind].
    rewrite (correction_first eps sf He L C H2 Rd i (1 - s) Hi) by lra. cbn [bind].
    rewrite siv_boundary, clamp_id by lra. unfold cv. rewrite (rb_nth sf L i Hi) in E. injection E as <-.
    replace (1 - (1 - s)) with s by ring. apply f_equal. v3ring.
  - intros p s0 s1 (r & E & <-) E0 E1. unfold cornerInterpolantD. rewrite E0, E1. cbn [bind px py].
    rewrite (side_value sf L C i) by (assumption || (apply gok_nonneg; lra)). cbn [bind].
    rewrite (side_value sf L C (nxt (sf_n sf) i)) by (assumption || (apply gok_nonneg; lra)). cbn [bind].
    rewrite (correction_second eps sf He L C H2 Rd i s Hi Hs). cbn [bind].
    rewrite siv_boundary, clamp_id by lra. unfold cv. rewrite (rb_nth sf L _ Ln) in E. injection E as <-.
    replace (1 - 0) with 1 by ring. apply f_equal. v3ring.
Qed.
Print Assumptions C64_interpolant_d.

(** A triangle with straight sides: the twists are the exact derivatives. *)
Example C64_example : forall a b c, exists k, updateCorner 3 (lineRibs [a; b; c]) 0 = Some k /\
  cn_point k = a /\ cn_tan1 k = c -v a /\ cn_tan2 k = b -v a /\ cn_twist1 k = (b -v c) -v (b -v a) /\ cn_twist2 k = (c -v b) -v (c -v a).
Proof.
  intros a b c.
  assert (St : corner_step <> 0) by (unfold corner_step; lra).
  unfold updateCorner. simpl. eexists. split; [reflexivity|]. cbn [cn_point cn_tan1 cn_tan2 cn_twist1 cn_twist2].
  repeat split; unfold affine3; v3field; exact St.
Qed.
