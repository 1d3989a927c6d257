(** How closely the corner based patches follow the ribbon of a side: C65. *)
From Verif Require Import Base UtilModel DomainModel ParamModel RibbonModel SurfaceModel SurfaceSpec SurfaceProofs SurfacePatches BlendProofs UtilProofs BlendProps PropsCorner.
From Coq Require Import Reals List Lia Lra.
Import ListNotations.
Open Scope R_scope.

(** The ribbon of side [i]: its curve, the derivative of the curve, and its cross derivative. *)
Definition side_data (sf : surf) (i : nat) (c c' X : R -> V3) : Prop :=
  exists r, nth_error (sf_ribbons sf) i = Some r /\ (forall t, cpt (sr_curve r) t = c t /\ cder (sr_curve r) t = c' t) /\
    forall t, 0 <= t <= 1 -> sr_cross r t = Some (X t).

(** Seen along [v], [f] leaves its tangent at [a] in the direction [m] (1 or -1) at most quadratically. *)
Definition bends (f : R -> V3) (a m : R) (d v : V3) (K : R) : Prop :=
  forall t, 0 <= t <= 1 -> Rabs (vdot (f (a + m * t) -v f a -v d *v (m * t)) v) <= K * t ^ 2.

Lemma side_data_at : forall sf i c c' X, length (sf_ribbons sf) = sf_n sf -> (i < sf_n sf)%nat -> side_data sf i c c' X ->
  forall t, 0 <= t <= 1 -> cv sf i t = c t /\ xv sf i t = X t /\ cder (sr_curve (rb sf i)) t = c' t.
Proof.
  intros sf i c c' X L Hi (r & E & C & X0) t T. rewrite (rb_nth sf L i Hi) in E. injection E as <-.
  unfold cv, xv. rewrite (X0 t T). destruct (C t) as [A B]. auto.
Qed.

Lemma siv_plain : forall sf i s d, sf_gamma sf = false -> 0 <= s <= 1 -> 0 <= d -> siv sf i s d = cv sf i s +v xv sf i s *v d.
Proof. intros sf i s d G Hs Hd. unfold siv. rewrite G, clamp_id by lra. unfold gv. rewrite Rmax_left by lra. reflexivity. Qed.

Lemma abs3 : forall a b c A B C, Rabs a <= A -> Rabs b <= B -> Rabs c <= C -> Rabs (a + b + c) <= A + B + C.
Proof. intros a b c A B C Ha Hb Hc. pose proof (Rabs_triang (a + b) c). pose proof (Rabs_triang a b). lra. Qed.

(** The finite difference against the derivative. *)
Lemma step_error : forall f a m d v K, bends f a m d v K -> (m = 1 \/ m = -1) ->
  Rabs (vdot ((f (a + m * corner_step) -v f a) *v / corner_step -v d *v m) v) <= K * corner_step.
Proof.
  intros f a m d v K B M. assert (St : 0 < corner_step < 1) by (unfold corner_step; lra).
  specialize (B corner_step ltac:(lra)). set (h := corner_step) in *. clearbody h.
  replace (vdot ((f (a + m * h) -v f a) *v / h -v d *v m) v) with (/ h * vdot (f (a + m * h) -v f a -v d *v (m * h)) v)
    by (unfold vdot; simpl; field; lra).
  rewrite Rabs_mult, (Rabs_right (/ h)) by (apply Rle_ge; left; apply Rinv_0_lt_compat; lra).
  apply (Rmult_le_reg_l h); [lra|]. rewrite <- Rmult_assoc, Rinv_r, Rmult_1_l by lra. nra.
Qed.

Lemma scaled_abs : forall a A w, Rabs a <= A -> 0 <= w <= 1 -> Rabs (a * w) <= A.
Proof. intros a A w H W. rewrite Rabs_mult, (Rabs_right w) by lra. pose proof (Rabs_pos a). nra. Qed.

Section Contact.
Variables (eps : R) (sf : surf).
Let n := sf_n sf.
Hypothesis He : 0 < eps.
Hypothesis H2 : (2 <= n)%nat.
Hypothesis Rd : ready sf.
Hypothesis G : sf_gamma sf = false.
Let L : length (sf_ribbons sf) = n.
Proof. apply Rd. Qed.
Let C : crosses_defined (sf_ribbons sf).
Proof. apply Rd. Qed.

Lemma twists : forall i k, (i < n)%nat -> nth_error (sf_corners sf) i = Some k ->
  cn_point k = cv sf i 1 /\ cn_tan1 k = xv sf (nxt n i) 0 /\ cn_tan2 k = xv sf i 1 /\
  cn_twist1 k = (xv sf i (1 - corner_step) -v xv sf i 1) *v / corner_step /\
  cn_twist2 k = (xv sf (nxt n i) corner_step -v xv sf (nxt n i) 0) *v / corner_step.
Proof.
  intros i k Hi Ek. destruct Rd as [_ U]. fold n in U. unfold updateCorners in U.
  assert (S := mapM_nth _ _ _ i i U). rewrite S in Ek by
    (rewrite (nth_error_nth' (seq 0 n) 0%nat) by (rewrite seq_length; exact Hi); rewrite seq_nth by exact Hi; reflexivity).
  unfold updateCorner in Ek. pose proof (nxt_lt n i ltac:(lia)) as Ln.
  rewrite (rb_nth sf L i Hi), (rb_nth sf L _ Ln) in Ek. cbn [bind] in Ek.
  assert (K : 0 < corner_step < 1) by (unfold corner_step; lra).
  rewrite !(xv_some sf L C) in Ek by (assumption || lra). cbn [bind] in Ek. injection Ek as <-.
  cbn [cn_point cn_tan1 cn_tan2 cn_twist1 cn_twist2]. destruct (ends sf L H2 Rd i Hi) as (E1 & E2 & E3).
  fold n in E2, E3. rewrite <- E2, <- E3. auto.
Qed.

(** The part of the second ribbon of a corner that the correction does not cancel. *)
Lemma rest_first : forall i k c c' X D v K s x q, (i < n)%nat -> nth_error (sf_corners sf) i = Some k ->
  side_data sf (nxt n i) c c' X -> bends c 0 1 (c' 0) v K -> bends X 0 1 D v K ->
  0 <= s <= 1 -> 0 <= x <= 1 -> eps <= (1 - s) + x -> cornerCorrection eps sf i (1 - s) x = Some q ->
  Rabs (vdot (c x +v X x *v (1 - s) -v q) v) <= (2 * K + Rabs (vdot (cn_twist1 k -v cn_twist2 k) v)) * x ^ 2 + K / 10000 * x.
Proof.
  intros i k c c' X D v K s x q Hi Ek Sd Bc BX Hs Hx Hsx Eq.
  destruct (C64_correction eps sf i k (1 - s) x He G Ek ltac:(lra) Hx Hsx) as (l & Hl & E & _).
  rewrite E in Eq. injection Eq as <-. destruct (twists i k Hi Ek) as (P & T1 & T2 & _ & W2).
  pose proof (nxt_lt n i ltac:(lia)) as Ln. pose proof (side_data_at sf _ c c' X L Ln Sd) as At.
  assert (St : 0 < corner_step < 1) by (unfold corner_step; lra).
  destruct (ends sf L H2 Rd i Hi) as (E1 & E2 & E3). fold n in E1, E2, E3.
  destruct (At 0 ltac:(lra)) as (A1 & A2 & A3). destruct (At corner_step ltac:(lra)) as (_ & A4 & _).
  rewrite P, T1, T2, E1, E2, A1, A2, A3.
  pose proof (step_error X 0 1 D v K BX (or_introl eq_refl)) as SE. rewrite Rplus_0_l, Rmult_1_l in SE.
  rewrite A2, A4 in W2. rewrite <- W2 in SE.
  pose proof (Bc x Hx) as B1. pose proof (BX x Hx) as B2. rewrite Rplus_0_l, Rmult_1_l in B1, B2.
  set (w1 := cn_twist1 k) in *. set (w2 := cn_twist2 k) in *. clearbody w1 w2.
  replace (vdot (c x +v X x *v (1 - s) -v (c 0 +v X 0 *v (1 - s) +v (c' 0 +v w2 *v (1 - s)) *v x +v (w1 -v w2) *v (l * x * x))) v)
    with (vdot (c x -v c 0 -v c' 0 *v x) v + vdot (X x -v X 0 -v D *v x) v * (1 - s) + (- vdot (w2 -v D *v 1) v * x * (1 - s) - vdot (w1 -v w2) v * x ^ 2 * l))
    by (unfold vdot; simpl; ring).
  eapply Rle_trans; [apply abs3; [exact B1|apply scaled_abs; [exact B2|lra]|]|].
  - unfold Rminus at 1. eapply Rle_trans; [apply Rabs_triang|]. apply Rplus_le_compat.
    + apply (scaled_abs _ (K * corner_step * x)); [|lra]. rewrite Rabs_mult, Rabs_Ropp, (Rabs_right x) by lra. apply Rmult_le_compat_r; [lra|exact SE].
    + rewrite Rabs_Ropp. apply (scaled_abs _ (Rabs (vdot (w1 -v w2) v) * x ^ 2)); [|lra].
      rewrite Rabs_mult, (Rabs_right (x ^ 2)) by (pose proof (pow2_ge_0 x); lra). lra.
  - unfold corner_step, Rdiv. lra.
Qed.

Lemma rest_second : forall i k c c' X D v K s x q, (i < n)%nat -> nth_error (sf_corners sf) i = Some k ->
  side_data sf i c c' X -> bends c 1 (-1) (c' 1) v K -> bends X 1 (-1) D v K ->
  0 <= s <= 1 -> 0 <= x <= 1 -> eps <= s + x -> cornerCorrection eps sf i x s = Some q ->
  Rabs (vdot (c (1 - x) +v X (1 - x) *v s -v q) v) <= (2 * K + Rabs (vdot (cn_twist1 k -v cn_twist2 k) v)) * x ^ 2 + K / 10000 * x.
Proof.
  intros i k c c' X D v K s x q Hi Ek Sd Bc BX Hs Hx Hsx Eq.
  destruct (C64_correction eps sf i k s x He G Ek Hs Hx Hsx) as (l & Hl & _ & E).
  rewrite E in Eq. injection Eq as <-. destruct (twists i k Hi Ek) as (P & T1 & T2 & W1 & _).
  pose proof (side_data_at sf _ c c' X L Hi Sd) as At.
  assert (St : 0 < corner_step < 1) by (unfold corner_step; lra).
  destruct (ends sf L H2 Rd i Hi) as (E1 & E2 & E3). fold n in E1, E2, E3.
  destruct (At 1 ltac:(lra)) as (A1 & A2 & A3). destruct (At (1 - corner_step) ltac:(lra)) as (_ & A4 & _).
  rewrite P, T1, T2, E3, A1, A2, A3.
  pose proof (step_error X 1 (-1) D v K BX (or_intror eq_refl)) as SE. replace (1 + -1 * corner_step) with (1 - corner_step) in SE by ring.
  rewrite A2, A4 in W1. rewrite <- W1 in SE.
  pose proof (Bc x Hx) as B1. pose proof (BX x Hx) as B2. replace (1 + -1 * x) with (1 - x) in B1, B2 by ring.
  set (w1 := cn_twist1 k) in *. set (w2 := cn_twist2 k) in *. clearbody w1 w2.
  replace (vdot (c (1 - x) +v X (1 - x) *v s -v (c 1 +v X 1 *v s +v (vopp (c' 1) +v w1 *v s) *v x +v (w2 -v w1) *v (l * x * x))) v)
    with (vdot (c (1 - x) -v c 1 -v c' 1 *v (-1 * x)) v + vdot (X (1 - x) -v X 1 -v D *v (-1 * x)) v * s + (- vdot (w1 -v D *v -1) v * x * s - - vdot (w1 -v w2) v * x ^ 2 * l))
    by (unfold vdot; simpl; ring).
  eapply Rle_trans; [apply abs3; [exact B1|apply scaled_abs; [exact B2|lra]|]|].
  - unfold Rminus at 1. eapply Rle_trans; [apply Rabs_triang|]. apply Rplus_le_compat.
    + apply (scaled_abs _ (K * corner_step * x)); [|lra]. rewrite Rabs_mult, Rabs_Ropp, (Rabs_right x) by lra. apply Rmult_le_compat_r; [lra|exact SE].
    + rewrite Rabs_Ropp. apply (scaled_abs _ (Rabs (vdot (w1 -v w2) v) * x ^ 2)); [|lra].
      rewrite Rabs_mult, Rabs_Ropp, (Rabs_right (x ^ 2)) by (pose proof (pow2_ge_0 x); lra). lra.
  - unfold corner_step, Rdiv. lra.
Qed.
End Contact.

(** ** C65: the interpolant of the corner at the end of side [e], against the ribbon
    of side [e].  Seen along any direction [v] the distance is quadratic in the side
    parameter [x] of the next side, plus [K x / 10000] from the difference quotient
    that stands for the twist, plus what [x] differs from the distance parameter. *)
Theorem C65_end_corner : forall eps sf e k c c' X c1 c1' X1 D v K sds s d x d1 q r,
  0 < eps -> (2 <= sf_n sf)%nat -> ready sf -> sf_gamma sf = false -> (e < sf_n sf)%nat ->
  nth_error (sf_corners sf) e = Some k -> side_data sf e c c' X -> side_data sf (nxt (sf_n sf) e) c1 c1' X1 ->
  bends c1 0 1 (c1' 0) v K -> bends X1 0 1 D v K ->
  nth_error sds e = Some (mkV2 s d) -> nth_error sds (nxt (sf_n sf) e) = Some (mkV2 x d1) ->
  0 <= s <= 1 -> 0 <= x <= 1 -> 0 <= d -> eps <= (1 - s) + x ->
  cornerInterpolant eps sf e sds = Some q -> sideInterpolant sf e s d = Some r ->
  Rabs (vdot (q -v r) v) <=
    (2 * K + Rabs (vdot (cn_twist1 k -v cn_twist2 k) v)) * x ^ 2 + K / 10000 * x + Rabs (vdot (X s) v) * Rabs (x - d).
Proof.
  intros eps sf e k c c' X c1 c1' X1 D v K sds s d x d1 q r He H2 Rd G Hi Ek Se Sn Bc BX E0 E1 Hs Hx Hd Hsx Eq Er.
  destruct (proj1 Rd) as (L & C & _). pose proof (nxt_lt (sf_n sf) e ltac:(lia)) as Ln.
  destruct (correction_total eps sf He L C H2 Rd e (1 - s) x Hi) as [z Ez]; try (apply gok_nonneg; lra).
  rewrite (interp_value eps sf L C H2 e sds _ _ z Hi E0 E1) in Eq by (cbn [px]; assumption). cbn [px] in Eq. injection Eq as <-.
  rewrite (side_value sf L C e) in Er by (assumption || (apply gok_nonneg; lra)). injection Er as <-.
  rewrite !siv_plain by (assumption || lra).
  destruct (side_data_at sf e c c' X L Hi Se s Hs) as (A1 & A2 & _). destruct (side_data_at sf _ c1 c1' X1 L Ln Sn x Hx) as (B1 & B2 & _).
  rewrite A1, A2, B1, B2.
  pose proof (rest_first eps sf He H2 Rd G e k c1 c1' X1 D v K s x z Hi Ek Sn Bc BX Hs Hx Hsx Ez) as Q.
  replace (vdot (c s +v X s *v x +v (c1 x +v X1 x *v (1 - s)) -v z -v (c s +v X s *v d)) v)
    with (vdot (c1 x +v X1 x *v (1 - s) -v z) v + vdot (X s) v * (x - d)) by (unfold vdot; simpl; ring).
  eapply Rle_trans; [apply Rabs_triang|]. apply Rplus_le_compat; [exact Q|]. rewrite Rabs_mult. lra.
Qed.
Print Assumptions C65_end_corner.

(** The same at the beginning of side [nxt i]; [x] is measured back from the end of side [i]. *)
Theorem C65_start_corner : forall eps sf i k c c' X c1 c1' X1 D v K sds s d x d1 q r,
  0 < eps -> (2 <= sf_n sf)%nat -> ready sf -> sf_gamma sf = false -> (i < sf_n sf)%nat ->
  nth_error (sf_corners sf) i = Some k -> side_data sf (nxt (sf_n sf) i) c c' X -> side_data sf i c1 c1' X1 ->
  bends c1 1 (-1) (c1' 1) v K -> bends X1 1 (-1) D v K ->
  nth_error sds (nxt (sf_n sf) i) = Some (mkV2 s d) -> nth_error sds i = Some (mkV2 (1 - x) d1) ->
  0 <= s <= 1 -> 0 <= x <= 1 -> 0 <= d -> eps <= s + x ->
  cornerInterpolant eps sf i sds = Some q -> sideInterpolant sf (nxt (sf_n sf) i) s d = Some r ->
  Rabs (vdot (q -v r) v) <=
    (2 * K + Rabs (vdot (cn_twist1 k -v cn_twist2 k) v)) * x ^ 2 + K / 10000 * x + Rabs (vdot (X s) v) * Rabs (x - d).
Proof.
  intros eps sf i k c c' X c1 c1' X1 D v K sds s d x d1 q r He H2 Rd G Hi Ek Se Sn Bc BX E0 E1 Hs Hx Hd Hsx Eq Er.
  destruct (proj1 Rd) as (L & C & _). pose proof (nxt_lt (sf_n sf) i ltac:(lia)) as Ln.
  destruct (correction_total eps sf He L C H2 Rd i x s Hi) as [z Ez]; try (apply gok_nonneg; lra).
  rewrite (interp_value eps sf L C H2 i sds _ _ z Hi E1 E0) in Eq; cbn [px] in *; try lra.
  2:{ replace (1 - (1 - x)) with x by ring. exact Ez. }
  injection Eq as <-. replace (1 - (1 - x)) with x by ring.
  rewrite (side_value sf L C _) in Er by (assumption || (apply gok_nonneg; lra)). injection Er as <-.
  rewrite !siv_plain by (assumption || lra).
  destruct (side_data_at sf _ c c' X L Ln Se s Hs) as (A1 & A2 & _). destruct (side_data_at sf i c1 c1' X1 L Hi Sn (1 - x) ltac:(lra)) as (B1 & B2 & _).
  rewrite A1, A2, B1, B2.
  pose proof (rest_second eps sf He H2 Rd G i k c1 c1' X1 D v K s x z Hi Ek Sn Bc BX Hs Hx Hsx Ez) as Q.
  replace (vdot (c1 (1 - x) +v X1 (1 - x) *v s +v (c s +v X s *v x) -v z -v (c s +v X s *v d)) v)
    with (vdot (c1 (1 - x) +v X1 (1 - x) *v s -v z) v + vdot (X s) v * (x - d)) by (unfold vdot; simpl; ring).
  eapply Rle_trans; [apply Rabs_triang|]. apply Rplus_le_compat; [exact Q|]. rewrite Rabs_mult. lra.
Qed.
Print Assumptions C65_start_corner.

(** A corner blended mixture against any point: the two corners of side [e] dominate. *)
Lemma corner_mixture : forall eps sds n b e (Q : nat -> V3) p v M, 0 < eps -> length sds = n -> (2 <= n)%nat -> (e < n)%nat ->
  (forall i, (i < n)%nat -> eps <= dpar sds i) -> blendCorner eps n sds = Some b ->
  Rabs (vdot (Q e -v p) v) <= M -> Rabs (vdot (Q (prv n e) -v p) v) <= M ->
  Rabs (vdot (vsum n (fun i => Q i *v nth i b 0) -v p) v) <=
    M + dpar sds e ^ 2 * rsum n (fun j => if Nat.eqb j e then 0 else if Nat.eqb j (prv n e) then 0 else
      Rabs (vdot (Q j -v p) v) * dpar sds (nxt n e) ^ 2 / (dpar sds j * dpar sds (nxt n j)) ^ 2).
Proof.
  intros eps sds n b e Q p v M He Ls H2 Hi F E M1 M2.
  destruct (corner_far eps sds n He Ls H2 F) as [V P]. rewrite E in V.
  set (w := fun i => 1 / (dpar sds i * dpar sds (nxt n i)) ^ 2) in *. set (W := rsum n w) in *.
  assert (WP : 0 < W) by (apply rsum_pos; [lia|exact P]).
  pose proof (prv_lt n e ltac:(lia)) as Lp. pose proof (prv_neq n e H2 Hi) as Np.
  assert (Bv : forall j, (j < n)%nat -> nth j b 0 = w j / W) by (intros j Hj; apply (some_tab_nth b n _ j V Hj)).
  set (z := fun j => vdot (Q j -v p) v).
  assert (X : vdot (vsum n (fun i => Q i *v nth i b 0) -v p) v = rsum n (fun j => z j * (w j / W))).
  { replace (vdot (vsum n (fun i => Q i *v nth i b 0) -v p) v) with (vdot (vsum n (fun i => Q i *v nth i b 0)) v - vdot p v) by (unfold vdot; simpl; ring).
    rewrite vdot_vsum. replace (vdot p v) with (rsum n (fun j => vdot p v * (w j / W))).
    2:{ rewrite rsum_scal, rsum_div. fold W. field. lra. }
    rewrite <- rsum_minus. apply rsum_ext. intros j Hj. rewrite Bv by exact Hj. unfold z, vdot; simpl; ring. }
  rewrite X. eapply Rle_trans; [apply rsum_abs|].
  assert (Y : forall j, (j < n)%nat -> Rabs (z j * (w j / W)) = Rabs (z j) * (w j / W)).
  { intros j Hj. rewrite Rabs_mult, (Rabs_right (w j / W)); [reflexivity|]. apply Rle_ge. left. apply Rdiv_lt_0_compat; [apply P; exact Hj|exact WP]. }
  cbv beta. rewrite (rsum_ext n _ (fun j => Rabs (z j) * (w j / W)) Y).
  rewrite (rsum_split1 _ _ e Hi). rewrite (rsum_split1 _ _ (prv n e) Lp).
  destruct (Nat.eqb_spec (prv n e) e) as [|_]; [contradiction|].
  assert (Two : w e + w (prv n e) <= W).
  { unfold W. rewrite (rsum_split1 n w e Hi), (rsum_split1 n _ (prv n e) Lp). destruct (Nat.eqb_spec (prv n e) e) as [|_]; [contradiction|].
    assert (0 <= rsum n (fun j => if Nat.eqb j (prv n e) then 0 else if Nat.eqb j e then 0 else w j)); [|lra].
    apply rsum_nonneg. intros j Hj. destruct (Nat.eqb j (prv n e)); [lra|]. destruct (Nat.eqb j e); [lra|]. left. apply P. exact Hj. }
  assert (Pe : 0 < w e) by exact (P e Hi). assert (Pp : 0 < w (prv n e)) by exact (P _ Lp).
  assert (M0 : 0 <= M) by (pose proof (Rabs_pos (vdot (Q e -v p) v)); lra).
  rewrite <- Rplus_assoc. apply Rplus_le_compat.
  - change (Rabs (z e) <= M) in M1. change (Rabs (z (prv n e)) <= M) in M2.
    apply Rle_trans with (M * (w e / W) + M * (w (prv n e) / W)).
    + apply Rplus_le_compat; (apply Rmult_le_compat_r; [left; apply Rdiv_lt_0_compat; assumption|assumption]).
    + replace (M * (w e / W) + M * (w (prv n e) / W)) with (M * ((w e + w (prv n e)) / W)) by (field; lra).
      rewrite <- (Rmult_1_r M) at 2. apply Rmult_le_compat_l; [exact M0|]. apply (Rmult_le_reg_r W); [exact WP|]. unfold Rdiv. rewrite Rmult_assoc, Rinv_l by lra. lra.
  - rewrite <- rsum_scal. apply rsum_le. intros j Hj.
    destruct (Nat.eqb_spec j (prv n e)) as [->|N1]; [destruct (Nat.eqb_spec (prv n e) e); lra|].
    destruct (Nat.eqb_spec j e) as [->|N2]; [lra|]. fold (z j).
    assert (Dj : 0 < dpar sds j) by (specialize (F j Hj); lra).
    assert (Dj1 : 0 < dpar sds (nxt n j)) by (specialize (F _ (nxt_lt n j ltac:(lia))); lra).
    assert (De : 0 < dpar sds e) by (specialize (F e Hi); lra).
    assert (De1 : 0 < dpar sds (nxt n e)) by (specialize (F _ (nxt_lt n e ltac:(lia))); lra).
    assert (Q2 : / W <= (dpar sds e * dpar sds (nxt n e)) ^ 2).
    { replace ((dpar sds e * dpar sds (nxt n e)) ^ 2) with (/ w e) by (unfold w; field; split; apply Rgt_not_eq; assumption).
      apply Rinv_le_contravar; [exact Pe|lra]. }
    pose proof (Rabs_pos (z j)) as Ra. assert (Pj : 0 < w j) by exact (P j Hj). set (A := Rabs (z j)) in *. clearbody A.
    replace (dpar sds e ^ 2 * (A * dpar sds (nxt n e) ^ 2 / (dpar sds j * dpar sds (nxt n j)) ^ 2)) with (A * w j * (dpar sds e * dpar sds (nxt n e)) ^ 2)
      by (unfold w; field; split; apply Rgt_not_eq; assumption).
    replace (A * (w j / W)) with (A * w j * / W) by (unfold Rdiv; ring).
    apply Rmult_le_compat_l; [|exact Q2]. apply Rmult_le_pos; lra.
Qed.

(** What is known of the two neighbours of side [e]: seen along [v] their curves and
    cross derivatives bend at most quadratically (factor [K]) where they meet side
    [e], and the two twists differ by at most [T] at the ends of [e]. *)
Definition neighbours_bend (sf : surf) (e : nat) (v : V3) (K T : R) : Prop :=
  let n := sf_n sf in
  (exists c c' X D, side_data sf (nxt n e) c c' X /\ bends c 0 1 (c' 0) v K /\ bends X 0 1 D v K) /\
  (exists c c' X D, side_data sf (prv n e) c c' X /\ bends c 1 (-1) (c' 1) v K /\ bends X 1 (-1) D v K) /\
  (forall k, nth_error (sf_corners sf) e = Some k \/ nth_error (sf_corners sf) (prv n e) = Some k ->
     Rabs (vdot (cn_twist1 k -v cn_twist2 k) v) <= T).

(** The distance parameters around a point near side [e]: [z] bounds how far the
    neighbouring side parameters are from [e], [m] how much they differ from the distance. *)
Definition near_side (n e : nat) (sds : list V2) (s d z m : R) : Prop :=
  nth_error sds e = Some (mkV2 s d) /\
  (forall x d1, nth_error sds (nxt n e) = Some (mkV2 x d1) -> x <= z /\ Rabs (x - d) <= m) /\
  (forall y d1, nth_error sds (prv n e) = Some (mkV2 y d1) -> 1 - y <= z /\ Rabs (1 - y - d) <= m).

Lemma contact_pair : forall eps sf e c c' X v K T sds s d z m r q,
  0 < eps -> (2 <= sf_n sf)%nat -> ready sf -> sf_gamma sf = false -> (e < sf_n sf)%nat -> length sds = sf_n sf -> tame sds ->
  0 <= K -> neighbours_bend sf e v K T -> side_data sf e c c' X -> near_side (sf_n sf) e sds s d z m -> eps <= s <= 1 - eps ->
  sideInterpolant sf e s d = Some r ->
  forall j, j = e \/ j = prv (sf_n sf) e -> cornerInterpolant eps sf j sds = Some q ->
  Rabs (vdot (q -v r) v) <= (2 * K + T) * z ^ 2 + K / 10000 * z + Rabs (vdot (X s) v) * m.
Proof.
  intros eps sf e c c' X v K T sds s d z m r q He H2 Rd G Hi Ls Tm K0 ((c1 & c1' & X1 & D1 & S1 & B1 & B1') & (c2 & c2' & X2 & D2 & S2 & B2 & B2') & HT) Se (E0 & N1 & N2) Hs Er j Hj Eq.
  pose proof (nxt_lt (sf_n sf) e ltac:(lia)) as Ln. pose proof (prv_lt (sf_n sf) e ltac:(lia)) as Lp.
  destruct (proj1 Rd) as (L & C & _).
  destruct (Tm _ _ E0) as [T0 T0']. cbn [px py] in T0, T0'.
  assert (fin : forall x w, 0 <= x -> x <= z -> 0 <= w <= T -> Rabs (x - d) <= m ->
    (2 * K + w) * x ^ 2 + K / 10000 * x + Rabs (vdot (X s) v) * Rabs (x - d) <= (2 * K + T) * z ^ 2 + K / 10000 * z + Rabs (vdot (X s) v) * m).
  { intros x w X0 Xz W D. assert (x ^ 2 <= z ^ 2) by (apply pow_incr; lra). pose proof (pow2_ge_0 x).
    assert ((2 * K + w) * x ^ 2 <= (2 * K + T) * z ^ 2) by (apply Rmult_le_compat; lra).
    assert (K / 10000 * x <= K / 10000 * z) by (apply Rmult_le_compat_l; lra).
    assert (Rabs (vdot (X s) v) * Rabs (x - d) <= Rabs (vdot (X s) v) * m) by (apply Rmult_le_compat_l; [apply Rabs_pos|exact D]). lra. }
  destruct Hj as [->| ->].
  - destruct (nth_error_ex _ sds (nxt (sf_n sf) e) ltac:(lia)) as [[x d1] E1]. destruct (Tm _ _ E1) as [T1 _]. cbn [px] in T1.
    destruct (N1 _ _ E1) as [Nz Nm]. destruct (corner_data sf L C H2 Rd e Hi) as (t1 & t2 & Ek). set (kk := mkCorner _ _ _ t1 t2) in Ek.
    eapply Rle_trans; [apply (C65_end_corner eps sf e kk c c' X c1 c1' X1 D1 v K sds s d x d1 q r); try eassumption; lra|].
    apply fin; try lra. split; [apply Rabs_pos|]. apply HT. left. exact Ek.
  - destruct (nth_error_ex _ sds (prv (sf_n sf) e) ltac:(lia)) as [[y d1] E1]. destruct (Tm _ _ E1) as [T1 _]. cbn [px] in T1.
    destruct (N2 _ _ E1) as [Nz Nm]. destruct (corner_data sf L C H2 Rd _ Lp) as (t1 & t2 & Ek). set (kk := mkCorner _ _ _ t1 t2) in Ek.
    pose proof (nxt_prv (sf_n sf) e Hi) as NP.
    eapply Rle_trans; [apply (C65_start_corner eps sf (prv (sf_n sf) e) kk c c' X c2 c2' X2 D2 v K sds s d (1 - y) d1 q r); try rewrite NP; try eassumption; try lra|].
    + rewrite E1. do 2 f_equal. ring.
    + apply fin; try lra. split; [apply Rabs_pos|]. apply HT. right. exact Ek.
Qed.

(** ** C65: the corner based patch against the ribbon of side [e], seen along any
    direction: quadratic in the distance from the side, except for the two linear
    terms that come from the difference quotient and from neighbouring side
    parameters that do not follow the distance. *)
Theorem C65_corner_based : forall eps sf e c c' X v K T sds s d z m r q,
  0 < eps -> (3 <= sf_n sf)%nat -> ready sf -> sf_gamma sf = false -> (e < sf_n sf)%nat -> length sds = sf_n sf -> tame sds ->
  (forall j sd, nth_error sds j = Some sd -> eps <= py sd) ->
  0 <= K -> neighbours_bend sf e v K T -> side_data sf e c c' X -> near_side (sf_n sf) e sds s d z m -> eps <= s <= 1 - eps ->
  sideInterpolant sf e s d = Some r -> (forall j, (j < sf_n sf)%nat -> cornerInterpolant eps sf j sds = Some (q j)) ->
  exists p, cornerBased eps sf sds = Some p /\
    Rabs (vdot (p -v r) v) <= (2 * K + T) * z ^ 2 + K / 10000 * z + Rabs (vdot (X s) v) * m +
      d ^ 2 * rsum (sf_n sf) (fun j => if Nat.eqb j e then 0 else if Nat.eqb j (prv (sf_n sf) e) then 0 else
        Rabs (vdot (q j -v r) v) * dpar sds (nxt (sf_n sf) e) ^ 2 / (dpar sds j * dpar sds (nxt (sf_n sf) j)) ^ 2).
Proof.
  intros eps sf e c c' X v K T sds s d z m r q He H3 Rd G Hi Ls Tm F K0 NB Se NS Hs Er Hq.
  pose proof (prv_lt (sf_n sf) e ltac:(lia)) as Lp.
  pose proof (contact_pair eps sf e c c' X v K T sds s d z m r (q e) He ltac:(lia) Rd G Hi Ls Tm K0 NB Se NS Hs Er e (or_introl eq_refl) (Hq e Hi)) as M1.
  pose proof (contact_pair eps sf e c c' X v K T sds s d z m r (q (prv (sf_n sf) e)) He ltac:(lia) Rd G Hi Ls Tm K0 NB Se NS Hs Er _ (or_intror eq_refl) (Hq _ Lp)) as M2.
  destruct (corner_total eps sds (sf_n sf) He Ls ltac:(lia)) as (b & E & Lb & _).
  eexists; split; [apply (cornerBased_value eps sf H3 Rd sds Ls b E Lb q Hq)|].
  assert (Dd : dpar sds e = d). { destruct NS as [Es _]. rewrite nth_sd in Es by lia. injection Es as _ ->. reflexivity. }
  assert (F' : forall i, (i < sf_n sf)%nat -> eps <= dpar sds i) by (intros i Li; apply (F i _ (nth_sd sds i ltac:(lia)))).
  pose proof (corner_mixture eps sds (sf_n sf) b e q r v _ He Ls ltac:(lia) Hi F' E M1 M2) as Y. rewrite Dd in Y. exact Y.
Qed.
Print Assumptions C65_corner_based.

(** What the generalized Coons patch needs in addition: along side [e] the distance
    parameters of its neighbours run against and along its own side parameter, up to
    [g]; seen along [v] the neighbouring cross derivatives are at most [N]. *)
Definition neighbours_follow (sf : surf) (e : nat) (sds : list V2) (s : R) (v : V3) (N g : R) : Prop :=
  let n := sf_n sf in
  (forall x d, nth_error sds (nxt n e) = Some (mkV2 x d) -> Rabs (d - (1 - s)) <= g) /\
  (forall x d, nth_error sds (prv n e) = Some (mkV2 x d) -> Rabs (d - s) <= g) /\
  (forall j c c' X t, j = nxt n e \/ j = prv n e -> side_data sf j c c' X -> 0 <= t <= 1 -> Rabs (vdot (X t) v) <= N).

Lemma prod_le : forall a A b B, Rabs a <= A -> Rabs b <= B -> Rabs (a * b) <= A * B.
Proof. intros a A b B Ha Hb. rewrite Rabs_mult. apply Rmult_le_compat; try apply Rabs_pos; assumption. Qed.

(** ** C65: the generalized Coons patch against the ribbon of side [e]. *)
Theorem C65_generalized_coons : forall eps sf e v K T N g sds s d z m r k,
  0 < eps -> (3 <= sf_n sf)%nat -> ready sf -> sf_gamma sf = false -> (e < sf_n sf)%nat -> length sds = sf_n sf -> tame sds ->
  (forall j sd, nth_error sds j = Some sd -> eps <= py sd) ->
  0 <= K -> neighbours_bend sf e v K T -> near_side (sf_n sf) e sds s d z m -> neighbours_follow sf e sds s v N g -> eps <= s <= 1 - eps ->
  (forall j sd, nth_error sds j = Some sd -> sideInterpolant sf j (px sd) (py sd) = Some (r j)) ->
  (forall j sd sd1, nth_error sds j = Some sd -> nth_error sds (nxt (sf_n sf) j) = Some sd1 -> cornerCorrection eps sf j (1 - px sd) (px sd1) = Some (k j)) ->
  exists p, generalizedCoons eps sf sds = Some p /\
    Rabs (vdot (p -v r e) v) <= (2 * K + T) * z ^ 2 + K / 10000 * z + N * g +
      d ^ 2 * rsum (sf_n sf) (fun j => if Nat.eqb j e then 0 else if Nat.eqb j (prv (sf_n sf) e) then 0 else
        Rabs (vdot (r j +v r (nxt (sf_n sf) j) -v k j -v r e) v) * dpar sds (nxt (sf_n sf) e) ^ 2 / (dpar sds j * dpar sds (nxt (sf_n sf) j)) ^ 2).
Proof.
  intros eps sf e v K T N g sds s d z m r k He H3 Rd G Hi Ls Tm F K0 NB (E0 & N1 & N2) (F1 & F2 & F3) Hs Hr Hk.
  set (n := sf_n sf) in *. pose proof (prv_lt n e ltac:(lia)) as Lp. pose proof (nxt_lt n e ltac:(lia)) as Ln.
  destruct (proj1 Rd) as (L & C & _). assert (H2 : (2 <= sf_n sf)%nat) by (fold n; lia).
  destruct (corner_total eps sds n He Ls ltac:(lia)) as (b & E & Lb & _).
  destruct (coonsTerm_value eps sf He H3 Rd sds Ls Tm b Lb) as (cc & Hc & V). fold n in Hc, V.
  unfold generalizedCoons. fold n. rewrite E. cbn [bind]. rewrite V. eexists; split; [reflexivity|].
  assert (Kc : forall j, (j < n)%nat -> cc j = k j).
  { intros j Hj. specialize (Hk j _ _ (nth_sd sds j ltac:(lia)) (nth_sd sds (nxt n j) ltac:(rewrite Ls; apply nxt_lt; lia))).
    cbn [px] in Hk. rewrite Hc in Hk by exact Hj. injection Hk as Hk. exact Hk. }
  assert (Rc : forall j, (j < n)%nat -> siv sf j (spar sds j) (dpar sds j) = r j).
  { intros j Hj. pose proof (nth_sd sds j ltac:(lia)) as Ej. destruct (Tm _ _ Ej) as [_ T0]. specialize (Hr j _ Ej). cbn [px py] in Hr, T0.
    rewrite (side_value sf L C j) in Hr by (assumption || (apply gok_nonneg; exact T0)). injection Hr as Hr. exact Hr. }
  assert (S : vsum n (fun i => siv sf i (spar sds i) (dpar sds i) *v (nth i b 0 + nth (prv n i) b 0) -v cc i *v nth i b 0) =
              vsum n (fun i => (r i +v r (nxt n i) -v k i) *v nth i b 0)).
  { rewrite (vsum_ext n _ (fun i => (r i -v k i) *v nth i b 0 +v r i *v nth (prv n i) b 0)).
    2:{ intros i Li. rewrite Kc, Rc by exact Li. v3ring. }
    rewrite vsum_add. rewrite <- (vsum_nxt n (fun i => r i *v nth (prv n i) b 0)). rewrite <- vsum_add. apply vsum_ext.
    intros i Li. rewrite (prv_nxt n i Li). v3ring. }
  rewrite S.
  assert (Dd : dpar sds e = d). { rewrite nth_sd in E0 by lia. injection E0 as _ ->. reflexivity. }
  assert (F' : forall i, (i < n)%nat -> eps <= dpar sds i) by (intros i Li; apply (F i _ (nth_sd sds i ltac:(lia)))).
  rewrite <- Dd. apply (corner_mixture eps sds n b e (fun j => r j +v r (nxt n j) -v k j) (r e) v _ He Ls ltac:(lia) Hi F' E).
  all: cbv beta.
  all: destruct NB as ((c1 & c1' & X1 & D1 & S1 & B1 & B1') & (c2 & c2' & X2 & D2 & S2 & B2 & B2') & HT); fold n in S1, S2, HT.
  all: destruct (Tm _ _ E0) as [T0 T0']; cbn [px py] in T0, T0'.
  all: assert (fin : forall x w, 0 <= x -> x <= z -> 0 <= w <= T -> (2 * K + w) * x ^ 2 + K / 10000 * x <= (2 * K + T) * z ^ 2 + K / 10000 * z) by
    (intros x w X0 Xz W; assert (x ^ 2 <= z ^ 2) by (apply pow_incr; lra); pose proof (pow2_ge_0 x);
     assert ((2 * K + w) * x ^ 2 <= (2 * K + T) * z ^ 2) by (apply Rmult_le_compat; lra);
     assert (K / 10000 * x <= K / 10000 * z) by (apply Rmult_le_compat_l; lra); lra).
  - destruct (nth_error_ex _ sds (nxt n e) ltac:(lia)) as [[x d1] E1]. destruct (Tm _ _ E1) as [T1 T1']. cbn [px py] in T1, T1'.
    destruct (N1 _ _ E1) as [Nz Nm]. destruct (corner_data sf L C H2 Rd e Hi) as (t1 & t2 & Ek). set (kk := mkCorner _ _ _ t1 t2) in Ek.
    pose proof (Hk e _ _ E0 E1) as Hke. cbn [px] in Hke.
    pose proof (Hr _ _ E1) as Hrn. cbn [px py] in Hrn. rewrite (side_value sf L C _) in Hrn by (assumption || (apply gok_nonneg; lra)). injection Hrn as Hrn.
    rewrite <- Hrn, siv_plain by (assumption || lra). destruct (side_data_at sf _ c1 c1' X1 L Ln S1 x T1) as (A1 & A2 & _). rewrite A1, A2.
    pose proof (rest_first eps sf He H2 Rd G e kk c1 c1' X1 D1 v K s x (k e) Hi Ek S1 B1 B1' T0 T1 ltac:(lra) Hke) as Q.
    replace (vdot (r e +v (c1 x +v X1 x *v d1) -v k e -v r e) v) with (vdot (c1 x +v X1 x *v (1 - s) -v k e) v + vdot (X1 x) v * (d1 - (1 - s))) by (unfold vdot; simpl; ring).
    eapply Rle_trans; [apply Rabs_triang|]. apply Rplus_le_compat.
    + eapply Rle_trans; [exact Q|]. apply fin; try lra. split; [apply Rabs_pos|]. apply HT. left. exact Ek.
    + apply prod_le; [apply (F3 (nxt n e) c1 c1' X1); auto|apply (F1 _ _ E1)].
  - destruct (nth_error_ex _ sds (prv n e) ltac:(lia)) as [[y d1] E1]. destruct (Tm _ _ E1) as [T1 T1']. cbn [px py] in T1, T1'.
    destruct (N2 _ _ E1) as [Nz Nm]. destruct (corner_data sf L C H2 Rd _ Lp) as (t1 & t2 & Ek). set (kk := mkCorner _ _ _ t1 t2) in Ek.
    pose proof (nxt_prv n e Hi) as NP. rewrite NP.
    pose proof (Hk (prv n e) _ (mkV2 s d) E1 ltac:(rewrite NP; exact E0)) as Hke. cbn [px] in Hke.
    pose proof (Hr _ _ E1) as Hrn. cbn [px py] in Hrn. rewrite (side_value sf L C _) in Hrn by (assumption || (apply gok_nonneg; lra)). injection Hrn as Hrn.
    rewrite <- Hrn, siv_plain by (assumption || lra). destruct (side_data_at sf _ c2 c2' X2 L Lp S2 y T1) as (A1 & A2 & _). rewrite A1, A2.
    pose proof (rest_second eps sf He H2 Rd G (prv n e) kk c2 c2' X2 D2 v K s (1 - y) (k (prv n e)) Lp Ek S2 B2 B2' T0 ltac:(lra) ltac:(lra) Hke) as Q.
    replace (1 - (1 - y)) with y in Q by ring.
    replace (vdot (c2 y +v X2 y *v d1 +v r e -v k (prv n e) -v r e) v) with (vdot (c2 y +v X2 y *v s -v k (prv n e)) v + vdot (X2 y) v * (d1 - s)) by (unfold vdot; simpl; ring).
    eapply Rle_trans; [apply Rabs_triang|]. apply Rplus_le_compat.
    + eapply Rle_trans; [exact Q|]. apply fin; try lra. split; [apply Rabs_pos|]. apply HT. right. exact Ek.
    + apply prod_le; [apply (F3 (prv n e) c2 c2' X2); auto|apply (F2 _ _ E1)].
Qed.
Print Assumptions C65_generalized_coons.

(** A triangle with straight sides, on the line from the middle of its first side: the
    patch leaves the ribbon quadratically, there is no linear remainder. *)
Example C65_example : forall a b c v eps d cs, 0 < eps -> eps <= 1 / 2 -> eps <= d <= 1 / 2 ->
  updateCorners 3 (lineRibs [a; b; c]) = Some cs ->
  let sf := mkSurf 3 false (lineRibs [a; b; c]) cs in
  let sds := [mkV2 (1 / 2) d; mkV2 d (1 / 2); mkV2 (1 - d) (1 / 2)] in
  exists p r q, cornerBased eps sf sds = Some p /\ sideInterpolant sf 0 (1 / 2) d = Some r /\ cornerInterpolant eps sf 1 sds = Some q /\
    Rabs (vdot (p -v r) v) <= (Rabs (vdot (b -v c) v) + Rabs (vdot (a -v b) v) + 4 * Rabs (vdot (q -v r) v)) * d ^ 2.
Proof.
  intros a b c v eps d cs He He2 Hd U sf sds.
  destruct (lineRibs_ok [a; b; c] ltac:(simpl; lia)) as [Cl _]. cbn [length] in Cl.
  assert (Rd : ready sf) by (split; [exact Cl|exact U]).
  destruct Cl as (L & C & _). assert (C' : crosses_defined (sf_ribbons sf)) by exact C.
  assert (Sd : forall j sd, nth_error sds j = Some sd -> 0 <= px sd <= 1 /\ eps <= py sd).
  { intros [|[|[|j]]] sd E; unfold sds in E; cbn [nth_error] in E; try discriminate; [injection E as <-..|destruct j; discriminate]; cbn [px py]; lra. }
  assert (Tm : tame sds) by (intros j sd E; destruct (Sd j sd E); split; lra).
  assert (Fr : forall j sd, nth_error sds j = Some sd -> eps <= py sd) by (intros j sd E; apply (Sd j sd E)).
  destruct (civ eps sf He ltac:(cbn; lia) Rd sds eq_refl Tm) as [q Hq].
  assert (Er := side_value sf L C' 0 (1 / 2) d ltac:(cbn; lia) (gok_nonneg (sf_gamma sf) d ltac:(lra))).
  set (r := siv sf 0 (1 / 2) d) in *. clearbody r.
  set (T := Rabs (vdot (b -v c) v) + Rabs (vdot (a -v b) v)).
  assert (NB : neighbours_bend sf 0 v 0 T).
  { split; [|split].
    - eexists (fun s => affine3 a s b), (fun _ => b -v a), (fun s => affine3 (c -v a) s (c -v b)), (a -v b).
      split; [eexists; split; [reflexivity|split; [intros t; split; reflexivity|intros t _; reflexivity]]|].
      split; intros t _; unfold affine3, vdot; simpl; right; rewrite Rmult_0_l; rewrite <- Rabs_R0; f_equal; ring.
    - eexists (fun s => affine3 b s c), (fun _ => c -v b), (fun s => affine3 (a -v b) s (a -v c)), (b -v c).
      split; [eexists; split; [reflexivity|split; [intros t; split; reflexivity|intros t _; reflexivity]]|].
      split; intros t _; unfold affine3, vdot; simpl; right; rewrite Rmult_0_l; rewrite <- Rabs_R0; f_equal; ring.
    - pose proof (twists sf ltac:(cbn; lia) Rd) as Tw. assert (St : 0 < corner_step) by (unfold corner_step; lra). intros k [Ek|Ek].
      + destruct (Tw 0%nat k ltac:(cbn; lia) Ek) as (_ & _ & _ & -> & ->). unfold T.
        match goal with |- Rabs ?x <= _ => replace x with (vdot (b -v c) v) end; [pose proof (Rabs_pos (vdot (a -v b) v)); lra|].
        unfold xv, vdot, affine3; simpl; field; lra.
      + destruct (Tw 2%nat k ltac:(cbn; lia) Ek) as (_ & _ & _ & -> & ->). unfold T.
        match goal with |- Rabs ?x <= _ => replace x with (vdot (a -v b) v) end; [pose proof (Rabs_pos (vdot (b -v c) v)); lra|].
        unfold xv, vdot, affine3; simpl; field; lra. }
  assert (NS : near_side 3 0 sds (1 / 2) d d 0).
  { split; [reflexivity|]. split; intros x d1 E; unfold sds in E; cbn in E; injection E as <- <-; split; try lra; right; rewrite <- Rabs_R0; f_equal; ring. }
  destruct (C65_corner_based eps sf 0 (fun s => affine3 c s a) (fun _ => a -v c) (fun s => affine3 (b -v c) s (b -v a)) v 0 T sds (1 / 2) d d 0 r q He
    ltac:(cbn; lia) Rd eq_refl ltac:(cbn; lia) eq_refl Tm Fr ltac:(lra) NB) as (p & Ep & B); try assumption; try lra.
  { eexists; split; [reflexivity|]. split; [intros t; split; reflexivity|intros t _; reflexivity]. }
  exists p, r, (q 1%nat). split; [exact Ep|]. split; [exact Er|]. split; [apply Hq; cbn; lia|].
  eapply Rle_trans; [exact B|]. unfold T. change (sf_n sf) with 3%nat. cbn [rsum Nat.eqb prv nxt]. unfold dpar, sds. cbn. right. field.
Qed.
