(** Properties of Super-D patches: C54. *)
From Verif Require Import Base MeshModel GeomSpec DomainModel UtilModel UtilSpec ParamModel SurfaceModel SuperDModel.
From Verif Require Import DomainProofs DomainPolygons UtilProofs ParamBary ParamMaps ParamRegular ParamSide ParamTame ParamFar PropsParam PropsSurface SuperDProofs.
Open Scope R_scope.

(** ** C54: Super-D patches *)

(** The curve of a corner-edge-corner triple for a fullness [f]: the quartic
    Bezier curve from [a] to [c] whose inner control points are pulled towards
    [b] by f(2f+3)/5 and f(9-2f)/7. *)
Definition quartic_curve (f : R) (a b c : V3) (s : R) : V3 :=
  let x := f * (2 * f + 3) / 5 in let y := f * (9 - 2 * f) / 7 in
  a *v (1 - s) ^ 4 +v (a *v (1 - x) +v b *v x) *v (4 * (1 - s) ^ 3 * s)
  +v ((a +v c) *v ((1 - y) / 2) +v b *v y) *v (6 * (1 - s) ^ 2 * s ^ 2)
  +v (c *v (1 - x) +v b *v x) *v (4 * (1 - s) * s ^ 3) +v c *v s ^ 4.

(** Side [i]: from face point i-1 to face point i, towards edge point i. *)
Definition sd_side (p : superd) (i : nat) (s : R) : V3 :=
  quartic_curve (su_full p) (nth (prv (su_n p) i) (su_f p) vzero) (nth i (su_e p) vzero) (nth i (su_f p) vzero) s.

(** All control points of [n] >= 3 sides. *)
Definition complete_net (p : superd) : Prop := (3 <= su_n p)%nat /\ length (su_f p) = su_n p /\ length (su_e p) = su_n p.

Lemma curve_bezier : forall f a b c s, bezier 4 (pt (quartic f a b c)) s = quartic_curve f a b c s.
Proof.
  intros. unfold bezier, quartic_curve, bern, pt, quartic, affine3. cbn [vsum Nat.add nth Nat.sub].
  change (choose 4 0) with 1%nat; change (choose 4 1) with 4%nat; change (choose 4 2) with 6%nat; change (choose 4 3) with 4%nat; change (choose 4 4) with 1%nat.
  replace (INR 4) with 4 by (simpl; lra). replace (INR 6) with 6 by (simpl; lra). v3field.
Qed.

(** The curves handed to setCurves are these; they form a closed loop. *)
Theorem C54_registered : forall p, complete_net p -> exists cs, sdCurves p = Some cs /\ length cs = su_n p /\
  (forall i, (i < su_n p)%nat -> exists c, nth_error cs i = Some c /\ length c = 5%nat /\ forall s, bcEval c s = Some (sd_side p i s)) /\
  (forall i, (i < su_n p)%nat -> sd_side p i 1 = sd_side p (nxt (su_n p) i) 0).
Proof.
  intros p W. unfold sdCurves. rewrite (mapM_seq _ _ _ (bq p)) by (intros i Hi; apply (base_value p W i Hi)).
  eexists. split; [reflexivity|]. split; [apply tabulate_length|]. split.
  - intros i Hi. exists (bq p i). split; [apply (tabulate_nth_error _ _ (bq p) i Hi)|]. split; [reflexivity|]. intros s.
    rewrite (bcEval_spec _ 4) by reflexivity. f_equal. apply curve_bezier.
  - intros i Hi. unfold sd_side. rewrite (prv_nxt _ i Hi). unfold quartic_curve. v3field.
Qed.
Print Assumptions C54_registered.

(** updateRibbons: every ribbon contains the curve of its own side and those of
    the two neighbouring sides, so neighbouring ribbons agree along both. *)
Theorem C54_ribbons : forall p, complete_net p -> exists p', sdUpdateRibbons p = Some p' /\
  su_n p' = su_n p /\ su_full p' = su_full p /\ su_f p' = su_f p /\ su_e p' = su_e p /\ su_v p' = su_v p /\ length (su_q p') = su_n p /\
  forall i, (i < su_n p)%nat -> exists r, nth_error (su_q p') i = Some r /\
    (forall s, sdBezier r s 0 = Some (sd_side p i s)) /\
    (forall t, sdBezier r 0 t = Some (sd_side p (prv (su_n p) i) (1 - t))) /\
    (forall t, sdBezier r 1 t = Some (sd_side p (nxt (su_n p) i) t)).
Proof.
  intros p W. unfold sdUpdateRibbons.
  rewrite (mapM_seq _ _ _ (fun i => tabulate 5 (fun j => tabulate 5 (rib p i j)))) by (intros i Hi; apply (ribbon_value p W i Hi)).
  cbn [bind]. eexists. split; [reflexivity|]. cbn [su_n su_full su_f su_e su_v su_q]. do 5 (split; [reflexivity|]). split; [apply tabulate_length|].
  intros i Hi. eexists. split; [rewrite tabulate_nth_error by exact Hi; reflexivity|].
  split; [|split]; intros t; rewrite bez_value; apply f_equal.
  - rewrite tens_bottom. unfold sd_side. rewrite <- curve_bezier. unfold bezier. apply vsum_ext. intros j Hj. f_equal. apply rib_bottom; [exact Hi|lia].
  - rewrite tens_left. unfold sd_side. rewrite <- curve_bezier, <- bezier_rev. unfold bezier. apply vsum_ext. intros j Hj. f_equal. apply (rib_left p W); [exact Hi|lia].
  - rewrite tens_right. unfold sd_side. rewrite <- curve_bezier. unfold bezier. apply vsum_ext. intros j Hj. f_equal. apply (rib_right p W); [exact Hi|lia].
Qed.
Print Assumptions C54_ribbons.

(** After updateRibbons the patch interpolates its boundary curves: at every
    point of every side up to six sides; with more sides except within the
    tolerance of the corners, which are themselves interpolated. *)
Theorem C54_boundary : forall p p' m vs d eps e s uv, complete_net p -> su_n p = m -> sdUpdateRibbons p = Some p' ->
  regularVertices m = Some vs -> domainFrames pzero vs = Some d -> (e < m)%nat -> 0 <= s <= 1 -> edgePoint d e s = Some uv ->
  let hw := sin (2 * PI / INR m) * sin (PI / INR m) in
  0 < eps <= hw / 2 -> (m <= 6)%nat \/ s = 0 \/ s = 1 \/ eps <= s * hw /\ eps <= (1 - s) * hw ->
  sdEval eps d p' uv = Some (sd_side p e s).
Proof.
  intros p p' m vs d eps e s uv W Hn U Hv Hd He Hs E hw Hp Q.
  assert (H3 : (3 <= m)%nat) by (rewrite <- Hn; apply W). destruct (regular_convex m vs H3 Hv) as (L & _).
  rewrite (edge_of_frames pzero vs d e s uv Hd ltac:(lia) E).
  rewrite (side_exact m vs d H3 Hv Hd p p' W Hn U eps e s Hp He Hs Q). f_equal. apply curve_bezier.
Qed.
Print Assumptions C54_boundary.

(** With more than six sides, next to a corner: the mean of the curve point and
    of the point at the parameter scaled by h/H, the heights of the second
    vertex and of the chosen middle vertex over a side. *)
Theorem C54_near_corner : forall p p' m vs d eps e s uv H, complete_net p -> su_n p = m -> sdUpdateRibbons p = Some p' ->
  regularVertices m = Some vs -> domainFrames pzero vs = Some d -> (e < m)%nat -> 0 <= s <= 1 -> edgePoint d e s = Some uv ->
  let h := sin (2 * PI / INR m) in
  (6 < m)%nat -> H = sin (INR ((m - 3) / 2) * PI / INR m) * sin ((INR ((m - 3) / 2) + 1) * PI / INR m) / sin (PI / INR m) ->
  0 < eps <= h * sin (PI / INR m) / 2 -> s * (h / H) < eps ->
  sdEval eps d p' uv = Some ((sd_side p e s +v sd_side p e (s * (h / H))) *v / 2).
Proof.
  intros p p' m vs d eps e s uv H W Hn U Hv Hd He Hs E h L6 EH Hp K.
  assert (H3 : (3 <= m)%nat) by (rewrite <- Hn; apply W). destruct (regular_convex m vs H3 Hv) as (L & _).
  rewrite (edge_of_frames pzero vs d e s uv Hd ltac:(lia) E).
  assert (EH' : sdH m vs = H).
  { unfold sdH, sdk. destruct (Nat.leb_spec m 6); [lia|]. assert (B := sdk_range m vs H3 Hv). unfold sdk in B. destruct (Nat.leb_spec m 6); [lia|].
    rewrite (hg_circ m vs H3 ltac:(lia) Hv) by lia. rewrite EH. assert (INR m <> 0) by (apply not_0_INR; lia). cbn [INR]. rewrite !Rminus_0_r.
    f_equal; [f_equal|]; f_equal; field; assumption. }
  rewrite <- EH' in K |- *.
  rewrite (side_start m vs d H3 Hv Hd p p' W Hn U eps e s Hp He Hs K). unfold bq. rewrite !curve_bezier. reflexivity.
Qed.
Print Assumptions C54_near_corner.

(** Four sides: the domain is the square with corners (+-1,+-1) and all ribbons
    are one tensor product surface, which is the patch. *)
Lemma curve_lin : forall f A B C (w : nat -> R) t n,
  vsum n (fun i => quartic_curve f (A i) (B i) (C i) t *v w i) =
  quartic_curve f (vsum n (fun i => A i *v w i)) (vsum n (fun i => B i *v w i)) (vsum n (fun i => C i *v w i)) t.
Proof.
  intros f A B C w t n. induction n as [|n IH]; [unfold quartic_curve; cbn [vsum]; v3field|]. cbn [vsum]. rewrite IH. unfold quartic_curve. v3field.
Qed.

Theorem C54_four_sided : forall p p' vs d eps x y, complete_net p -> su_n p = 4%nat -> sdUpdateRibbons p = Some p' ->
  regularVertices 4 = Some vs -> domainFrames pzero vs = Some d -> 0 < eps <= 1 -> -1 <= x <= 1 -> -1 <= y <= 1 ->
  let u := (1 + y) / 2 in let v := (1 - x) / 2 in
  let Q := quartic_curve (su_full p) in let f i := nth i (su_f p) vzero in let e i := nth i (su_e p) vzero in
  sdEval eps d p' (mkV2 x y) =
  Some (Q (Q (f 3%nat) (e 0%nat) (f 0%nat) u) (Q (e 3%nat) (su_v p) (e 1%nat) u) (Q (f 2%nat) (e 2%nat) (f 1%nat) u) v).
Proof.
  intros p p' vs d eps x y W Hn U Hv Hd He Hx Hy u v Q f e.
  assert (Evs : vs = [mkV2 1 1; mkV2 (-1) 1; mkV2 (-1) (-1); mkV2 1 (-1)]) by (cbn in Hv; congruence).
  assert (Hh : forall i, (i < 4)%nat -> hg vs i (mkV2 x y) = nth i [v; 1 - u; 1 - v; u] 0).
  { intros i Hi. subst vs. unfold hg, sarea, len2, sidevec, pnorm2, pdot, pcross, vtx, u, v.
    destruct i as [|[|[|[|i]]]]; try lia;
      cbn [length prv nxt Nat.add Nat.sub Nat.modulo Nat.divmod nth fst snd px py padd psub pscale]; simpl; field. }
  assert (U1 : 0 <= u <= 1) by (unfold u; lra). assert (V1 : 0 <= v <= 1) by (unfold v; lra).
  assert (Cl : closed_in vs (mkV2 x y)).
  { destruct (regular_convex 4 vs ltac:(lia) Hv) as (L & Cv & _). intros k Hk. rewrite L in Hk. specialize (Hh k Hk). unfold hg in Hh.
    assert (P := len2_pos vs ltac:(lia) Cv k ltac:(lia)). set (a := sarea _ _ _) in *.
    assert (0 <= a / len2 vs k) by (rewrite Hh; destruct k as [|[|[|[|k]]]]; try lia; cbn [nth]; lra).
    replace a with (a / len2 vs k * len2 vs k) by (field; lra). apply Rmult_le_pos; lra. }
  assert (H1 : sdH 4 vs = 1).
  { rewrite (sdH_small 4 vs ltac:(lia) Hv) by lia. replace (2 * PI / INR 4) with (PI / 2) by (simpl; field). apply sin_PI2. }
  assert (Sx : forall i, (i < 4)%nat -> sx 4 vs eps (mkV2 x y) i = nth i [u; v; 1 - u; 1 - v] 0).
  { intros i Hi. unfold sx. rewrite !Hh by (apply prv_lt || apply nxt_lt; lia).
    destruct i as [|[|[|[|i]]]]; try lia; cbn [prv nxt Nat.add Nat.sub Nat.modulo Nat.divmod nth fst snd];
    match goal with |- (if Rlt_dec ?a ?b then _ else _) = _ => destruct (Rlt_dec a b); [lra|field; lra] end. }
  assert (T : forall i, (i < 4)%nat -> (nxt 4 i < 4)%nat -> tens (rib p (nxt 4 i)) (sx 4 vs eps (mkV2 x y) (nxt 4 i)) (hg vs (nxt 4 i) (mkV2 x y) / 1) =
    tens (rib p i) (sx 4 vs eps (mkV2 x y) i) (hg vs i (mkV2 x y) / 1)).
  { intros i Hi Hi'. unfold Rdiv. rewrite Rinv_1, !Rmult_1_r. assert (B := rib_turn p W Hn i). rewrite Hn in B.
    rewrite <- (tens_turn (rib p i) (rib p (nxt 4 i))) by (intros j k Hj Hk; apply B; assumption).
    f_equal.
    - rewrite Sx by exact Hi'. rewrite Hh by exact Hi. destruct i as [|[|[|[|i]]]]; try lia; reflexivity.
    - rewrite Sx by exact Hi. rewrite Hh by exact Hi'. destruct i as [|[|[|[|i]]]]; try lia; cbn [nxt Nat.add Nat.modulo Nat.divmod nth fst snd Nat.sub]; ring. }
  set (P := tens (rib p 0) u v).
  assert (P0 : tens (rib p 0) (sx 4 vs eps (mkV2 x y) 0) (hg vs 0 (mkV2 x y) / 1) = P) by (rewrite Sx, Hh by lia; cbn [nth]; unfold Rdiv; rewrite Rinv_1, Rmult_1_r; reflexivity).
  rewrite (all_same 4 vs d ltac:(lia) Hv Hd p p' W Hn U eps (mkV2 x y) ltac:(lra) Cl P).
  - f_equal. unfold P, tens. unfold rib. rewrite Hn. change (4 <? 4)%nat with false. cbv iota.
    rewrite (vsum_ext 5 _ (fun i => quartic_curve (su_full p) (pt (bq p 0) i) (pt (mq p 0) i) (pt (oq p 0) i) v *v bern 4 i u)).
    2: { intros i Hi. rewrite <- curve_bezier. unfold bezier. rewrite <- vsum_scale. apply vsum_ext. intros j Hj. v3ring. }
    rewrite curve_lin. unfold Q. rewrite <- !(curve_bezier _ _ _ _ u).
    unfold bq, mq, oq. rewrite Hn. change (4 =? 3)%nat with false. cbv iota. unfold bq. rewrite Hn.
    f_equal. apply vsum_ext. intros i Hi. f_equal.
    change (prv 4 (nxt 4 (nxt 4 0))) with 1%nat. change (nxt 4 (nxt 4 0)) with 2%nat.
    destruct i as [|[|[|[|[|i]]]]]; try lia; cbv [pt nth rev app quartic affine3 fp ep f e]; v3field.
  - intros i Hi. rewrite H1. destruct i as [|[|[|[|i]]]]; try lia; [exact P0| | |].
    + exact (eq_trans (T 0%nat ltac:(lia) ltac:(cbn; lia)) P0).
    + exact (eq_trans (T 1%nat ltac:(lia) ltac:(cbn; lia)) (eq_trans (T 0%nat ltac:(lia) ltac:(cbn; lia)) P0)).
    + exact (eq_trans (T 2%nat ltac:(lia) ltac:(cbn; lia)) (eq_trans (T 1%nat ltac:(lia) ltac:(cbn; lia)) (eq_trans (T 0%nat ltac:(lia) ltac:(cbn; lia)) P0))).
Qed.
Print Assumptions C54_four_sided.

(** The patch is evaluated from the stored ribbons only: before the first
    updateRibbons there is nothing to evaluate (an access out of range), and
    later changes of the control points are not seen. *)
Theorem C54_needs_update : forall v0 n eps d uv, (0 < n)%nat -> sdEval eps d (sdInit v0 (sdEmpty v0) n) uv = None.
Proof.
  intros v0 n eps d uv Hn. unfold sdEval. destruct (mapToRibbons _ _ _ _) as [sds|]; [|reflexivity]. cbn [bind].
  destruct (blendSideSingular _ _) as [b|]; [|reflexivity]. cbn [bind su_n su_q sdInit sdEmpty].
  induction n as [|n IH]; [lia|]. cbn [osum]. destruct n as [|n]; [reflexivity|]. rewrite IH by lia. reflexivity.
Qed.
Print Assumptions C54_needs_update.

Theorem C54_stale : forall eps d p uv,
  (forall x, sdEval eps d (sdSetVertex p x) uv = sdEval eps d p uv) /\
  (forall i x p', sdSetFace p i x = Some p' -> sdEval eps d p' uv = sdEval eps d p uv) /\
  (forall i x p', sdSetEdge p i x = Some p' -> sdEval eps d p' uv = sdEval eps d p uv) /\
  (forall x, sdEval eps d (sdSetFullness p x) uv = sdEval eps d p uv).
Proof.
  intros eps d p uv. repeat split.
  - intros i x p'. unfold sdSetFace. destruct (upd _ _ _); [|discriminate]. intros [= <-]. reflexivity.
  - intros i x p'. unfold sdSetEdge. destruct (upd _ _ _); [|discriminate]. intros [= <-]. reflexivity.
Qed.
Print Assumptions C54_stale.

(** A three-sided patch with fullness 1/2. *)
Definition sd3 : superd := mkSD 3 (/ 2) [mkV3 4 0 0; mkV3 0 4 0; mkV3 0 0 0] [mkV3 2 0 2; mkV3 2 2 2; mkV3 0 2 2] (mkV3 1 1 4) [].
Example C54_example : complete_net sd3 /\ sd_side sd3 1 (1/2) = mkV3 2 2 (29/35) /\
  (exists p', sdUpdateRibbons sd3 = Some p' /\ exists r, nth_error (su_q p') 1 = Some r /\ sdBezier r (1/2) 0 = Some (mkV3 2 2 (29/35)) /\
    sdBezier r 1 (1/2) = Some (sd_side sd3 2 (1/2))).
Proof.
  assert (W : complete_net sd3) by (repeat split; simpl; lia).
  assert (S1 : sd_side sd3 1 (1/2) = mkV3 2 2 (29/35)).
  { unfold sd_side, quartic_curve, sd3. cbn [su_n su_full su_f su_e prv Nat.add Nat.sub Nat.modulo Nat.divmod fst snd nth]. apply V3_ext; simpl; field. }
  split; [exact W|]. split; [exact S1|]. destruct (C54_ribbons sd3 W) as (p' & E & _ & _ & _ & _ & _ & _ & R). exists p'. split; [exact E|].
  destruct (R 1%nat ltac:(simpl; lia)) as (r & Er & A & _ & B). exists r. split; [exact Er|]. split; [rewrite A, S1; reflexivity|apply B].
Qed.
