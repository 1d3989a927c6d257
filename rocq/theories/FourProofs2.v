(** Coons patches with four sides. *)
From Verif Require Import Base MeshModel MeshSpec GeomSpec DomainModel DomainProofs DomainPolygons UtilModel UtilSpec UtilProofs ParamModel ParamSide.
From Verif Require Import RibbonModel SurfaceModel SurfaceSpec SurfaceEval BlendProofs SurfaceProofs FourSpec FourProofs.
Open Scope R_scope.

Lemma hermite_hpoly : forall t, hermite 0 t = hpoly t.
Proof. intros t. unfold hermite, hpoly. ring. Qed.
Lemma hpoly_sum : forall t, hpoly t + hpoly (1 - t) = 1.
Proof. intros t. unfold hpoly. ring. Qed.

Section Ribbons.
Variables (eps : R) (sf : surf).
Hypothesis He : 0 < eps.
Hypothesis Hn : sf_n sf = 4%nat.
Hypothesis Hr : ready sf.

Lemma four_len : length (sf_ribbons sf) = sf_n sf.
Proof. exact (proj1 (proj1 Hr)). Qed.
Lemma four_cross : crosses_defined (sf_ribbons sf).
Proof. exact (proj1 (proj2 (proj1 Hr))). Qed.

Lemma corrected_gv : forall g x, corrected g x = gv g x.
Proof. reflexivity. Qed.
Lemma side4 : forall i s h, (i < 4)%nat -> 0 <= s <= 1 -> 0 <= h <= 1 -> sideInterpolant sf i s h = Some (ribbonAt sf i s h).
Proof.
  intros i s h Hi Hs Hh. rewrite (side_value sf four_len four_cross i s h) by (rewrite ?Hn; auto; apply gok_nonneg; lra).
  unfold siv, ribbonAt, cv, xv. rewrite (rb_nth sf four_len i) by lia. rewrite clamp_id by lra.
  pose proof (gv_range (sf_gamma sf) h ltac:(lra)). rewrite Rmax_left by lra. reflexivity.
Qed.
Lemma corner4 : forall i h k, (i < 4)%nat -> 0 <= h <= 1 -> 0 <= k <= 1 -> cornerCorrection eps sf i k h = Some (cornerAt eps sf i h k).
Proof.
  intros i h k Hi Hh Hk. unfold cornerCorrection, cornerAt. rewrite !gamma_value by (apply gok_nonneg; lra). cbn [bind].
  destruct (corner_data sf four_len four_cross ltac:(lia) Hr i ltac:(lia)) as (t1 & t2 & ->). cbn [bind cn_twist1 cn_twist2 cn_point cn_tan1 cn_tan2].
  change (corrected (sf_gamma sf)) with (gv (sf_gamma sf)). pose proof (gv_range (sf_gamma sf) h ltac:(lra)). pose proof (gv_range (sf_gamma sf) k ltac:(lra)).
  rewrite !clamp_id by lra. set (a := gv _ k) in *. set (b := gv _ h) in *. unfold rationalTwist. rewrite Rabs_right by lra.
  destruct (Rlt_dec (a + b) eps) as [L|L].
  - cbn [bind]. apply (f_equal Some). apply V3_ext; cbn; ring.
  - rewrite vdiv_some by lra. cbn [bind]. apply (f_equal Some). apply V3_ext; cbn; field; lra.
Qed.

Variables (u v : R).
Hypothesis Hu : 0 <= u <= 1.
Hypothesis Hv : 0 <= v <= 1.
Let R0 := ribbonAt sf 0 u v.
Let R1 := ribbonAt sf 1 v (1 - u).
Let R2 := ribbonAt sf 2 (1 - u) (1 - v).
Let R3 := ribbonAt sf 3 (1 - v) u.
Let K0 := cornerAt eps sf 0 v (1 - u).
Let K1 := cornerAt eps sf 1 (1 - u) (1 - v).
Let K2 := cornerAt eps sf 2 (1 - v) u.
Let K3 := cornerAt eps sf 3 u v.

Lemma interpolant4 : forall i, (i < 4)%nat -> cornerInterpolant eps sf i (sides4 u v) =
  Some (nth i [R0 +v R1 -v K0; R1 +v R2 -v K1; R2 +v R3 -v K2; R3 +v R0 -v K3] vzero).
Proof.
  intros i Hi. unfold cornerInterpolant. rewrite Hn. destruct i as [|[|[|[|i]]]]; [| | | |lia];
  cbn [nxt Nat.add Nat.sub Nat.modulo Nat.divmod fst snd nth_error bind sides4 px py nth];
  rewrite !side4 by (try lia; lra); cbn [bind]; rewrite !corner4 by (try lia; lra); cbn [bind]; apply (f_equal Some).
  all: unfold R0, R1, R2, R3, K0, K1, K2, K3; repeat f_equal; ring.
Qed.
Lemma term4 : forall bl i b bp, (i < 4)%nat -> nth_error bl i = Some b -> nth_error bl (prv 4 i) = Some bp -> coonsTerm eps sf (sides4 u v) bl i =
  Some (nth i [R0; R1; R2; R3] vzero *v (b + bp) -v nth i [K0; K1; K2; K3] vzero *v b).
Proof.
  intros bl i b bp Hi Eb Ep. unfold coonsTerm. rewrite Hn. rewrite Eb, Ep. destruct i as [|[|[|[|i]]]]; [| | | |lia];
  cbn [nxt Nat.add Nat.sub Nat.modulo Nat.divmod fst snd nth_error bind sides4 px py nth];
  rewrite !side4 by (try lia; lra); cbn [bind]; rewrite !corner4 by (try lia; lra); cbn [bind]; apply (f_equal Some).
  all: unfold R0, R1, R2, R3, K0, K1, K2, K3; repeat f_equal; ring.
Qed.

(** Corner based and Coons sums with the same weights agree. *)
Definition blended (b0 b1 b2 b3 : R) : V3 :=
  (R0 +v R1 -v K0) *v b0 +v (R1 +v R2 -v K1) *v b1 +v (R2 +v R3 -v K2) *v b2 +v (R3 +v R0 -v K3) *v b3.
Lemma sum_corner : forall b0 b1 b2 b3,
  osum 4 (fun i => b <- nth_error [b0; b1; b2; b3] i ;; p <- cornerInterpolant eps sf i (sides4 u v) ;; Some (p *v b)) = Some (blended b0 b1 b2 b3).
Proof.
  intros. cbn [osum]. rewrite !interpolant4 by lia. cbn [nth_error nth bind]. apply (f_equal Some). unfold blended. v3ring.
Qed.
Lemma sum_coons : forall b0 b1 b2 b3, osum 4 (coonsTerm eps sf (sides4 u v) [b0; b1; b2; b3]) = Some (blended b0 b1 b2 b3).
Proof.
  intros. cbn [osum]. rewrite (term4 _ 0 b0 b3), (term4 _ 1 b1 b0), (term4 _ 2 b2 b1), (term4 _ 3 b3 b2) by (lia || reflexivity).
  cbn [nth bind]. apply (f_equal Some). unfold blended. v3ring.
Qed.

Lemma blends_four : forall bl : list R, length bl = 4%nat -> exists b0 b1 b2 b3, bl = [b0; b1; b2; b3].
Proof. intros [|b0 [|b1 [|b2 [|b3 [|x l]]]]] L; try discriminate L. eauto. Qed.
Lemma corner_is_coons : cornerBased eps sf (sides4 u v) = generalizedCoons eps sf (sides4 u v).
Proof.
  unfold cornerBased, generalizedCoons. rewrite Hn. destruct (blendCorner eps 4 (sides4 u v)) as [bl|] eqn:E; [|reflexivity]. cbn [bind].
  destruct (blends_four bl) as (b0 & b1 & b2 & b3 & ->).
  { unfold blendCorner in E. destruct (0 <? closeCount eps (sides4 u v))%nat; [apply mapM_length in E; exact E|]. destruct (mapM _ (seq 0 4)) as [bl'|] eqn:E' in E; [|discriminate E]. cbn [bind] in E. apply mapM_length in E. rewrite E.
    apply mapM_length in E'. exact E'. }
  rewrite sum_corner, sum_coons. reflexivity.
Qed.
Lemma midpoint_is_coons : forall cp, midpointPatch eps sf cp (sides4 u v) = midpointCoons eps sf cp (sides4 u v).
Proof.
  intros cp. unfold midpointPatch, midpointCoons. rewrite Hn. destruct (blendCornerDeficient eps 4 (sides4 u v)) as [bl|] eqn:E; [|reflexivity]. cbn [bind].
  destruct (blends_four bl) as (b0 & b1 & b2 & b3 & ->).
  { unfold blendCornerDeficient in E. apply mapM_length in E. exact E. }
  rewrite sum_corner, sum_coons. reflexivity.
Qed.

Definition near (a b : R) : R := if Rlt_dec a eps then if Rlt_dec b eps then 1 else 0 else 0.
Definition cw (a b : R) : R := hpoly a * hpoly b + near a b * (1 - hpoly a * hpoly b).
Lemma deficient4 : blendCornerDeficient eps 4 (sides4 u v) = Some [cw v (1 - u); cw (1 - u) (1 - v); cw (1 - v) u; cw u v].
Proof.
  unfold blendCornerDeficient. cbn [seq mapM nxt Nat.add Nat.sub Nat.modulo Nat.divmod fst snd nth_error bind sides4 px py]. rewrite !hermite_hpoly.
  assert (G : forall a b x y, 0 <= a -> 0 <= b -> x = b -> y = a ->
    (if Rlt_dec a eps then if Rlt_dec b eps then Some 1 else fdiv (b * hpoly x * hpoly a + a * hpoly y * hpoly b) (a + b)
     else fdiv (b * hpoly x * hpoly a + a * hpoly y * hpoly b) (a + b)) = Some (cw a b)).
  { intros a b x y Ha Hb -> ->. unfold cw, near. destruct (Rlt_dec a eps); [destruct (Rlt_dec b eps)|].
    - apply (f_equal Some). ring.
    - rewrite fdiv_some by lra. apply (f_equal Some). field. lra.
    - rewrite fdiv_some by lra. apply (f_equal Some). field. lra. }
  rewrite (G v (1 - u)), (G (1 - u) (1 - v)), (G (1 - v) u), (G u v) by lra. reflexivity.
Qed.

Lemma midpoint4 : forall cp, midpointPatch eps sf cp (sides4 u v) = Some (coonsPatch eps sf u v
  +v (R0 +v R1 -v K0 -v cp) *v (near v (1 - u) * (1 - hpoly v * hpoly (1 - u)))
  +v (R1 +v R2 -v K1 -v cp) *v (near (1 - u) (1 - v) * (1 - hpoly (1 - u) * hpoly (1 - v)))
  +v (R2 +v R3 -v K2 -v cp) *v (near (1 - v) u * (1 - hpoly (1 - v) * hpoly u))
  +v (R3 +v R0 -v K3 -v cp) *v (near u v * (1 - hpoly u * hpoly v))).
Proof.
  intros cp. unfold midpointPatch. rewrite Hn, deficient4. cbn [bind]. rewrite sum_corner. cbn [bind]. apply (f_equal Some). unfold coonsPatch. fold R0 R1 R2 R3 K0 K1 K2 K3.
  unfold blended, cw, accumulate. cbn [fold_left]. pose proof (hpoly_sum u) as Su. pose proof (hpoly_sum v) as Sv.
  set (a := hpoly u) in *. set (b := hpoly v) in *. assert (Ea : hpoly (1 - u) = 1 - a) by lra. assert (Eb : hpoly (1 - v) = 1 - b) by lra. rewrite Ea, Eb. v3ring.
Qed.
End Ribbons.
