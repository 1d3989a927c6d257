(** Properties of the transfinite patches: C33 and C40 - C44. *)
From Verif Require Import Base MeshModel GeomSpec DomainModel UtilModel UtilSpec ParamModel.
From Verif Require Import DomainProofs DomainPolygons UtilProofs ParamBary ParamMaps ParamRegular ParamSide.
From Verif Require Import RibbonModel SurfaceModel SurfaceSpec BlendProofs ParamTame ParamFar ParamFar2 SurfaceProofs SurfacePatches SurfaceSide
  SurfaceEval SurfaceCentre SurfaceC0 SurfaceBase BlendProps PropsParam.
Open Scope R_scope.

Lemma edge_total : forall c vs d e s, domainFrames c vs = Some d -> (e < length vs)%nat -> edgePoint d e s = Some (sidePt vs e s).
Proof.
  intros c vs d e s Hd He. unfold edgePoint. rewrite (d_n_eq c vs d Hd), (d_verts_eq c vs d Hd).
  rewrite (nth_error_nth' vs pzero He), (nth_error_nth' vs pzero (prv_lt (length vs) e ltac:(lia))). reflexivity.
Qed.

(** ** C33: Coons ribbons *)

(** The ribbon of side [i] of a closed loop of curves. *)
Definition closed_curves (cs : list curve) : Prop :=
  forall i c cn, nth_error cs i = Some c -> nth_error cs (nxt (length cs) i) = Some cn -> cpt c 1 = cpt cn 0.

Lemma closed_crv : forall cs, closed_curves cs -> forall i, (i < length cs)%nat -> cpt (crv cs i) 1 = cpt (crv cs (nxt (length cs) i)) 0.
Proof. intros cs H i Hi. apply (H i); apply crv_nth; [exact Hi|apply nxt_lt; lia]. Qed.

Theorem C33_coons_ribbon : forall cs i c cp cn, (3 <= length cs)%nat -> closed_curves cs ->
  nth_error cs i = Some c -> nth_error cs (prv (length cs) i) = Some cp -> nth_error cs (nxt (length cs) i) = Some cn ->
  exists ev, coonsRibbon cs i = Some ev /\
    (forall s, 0 <= s <= 1 -> ev (mkV2 s 0) = Some (cpt c s)) /\
    (forall t, 0 <= t <= 1 -> ev (mkV2 0 t) = Some (cpt cp (1 - t))) /\
    (forall t, 0 <= t <= 1 -> ev (mkV2 1 t) = Some (cpt cn t)) /\
    (forall sd, exists p, ev sd = Some p).
Proof.
  intros cs i c cp cn H3 Hc E Ep En. pose proof (closed_crv cs Hc) as Cl.
  assert (Hi : (i < length cs)%nat) by (apply nth_error_Some; congruence).
  assert (Lp : (prv (length cs) i < length cs)%nat) by (apply prv_lt; lia). assert (Ln : (nxt (length cs) i < length cs)%nat) by (apply nxt_lt; lia).
  rewrite (crv_nth cs i Hi) in E. rewrite (crv_nth cs _ Lp) in Ep. rewrite (crv_nth cs _ Ln) in En.
  injection E as <-. injection Ep as <-. injection En as <-.
  rewrite (coonsRibbon_value cs H3 i Hi). eexists. split; [reflexivity|]. split; [|split; [|split]].
  - intros s Hs. apply coons_bottom; [exact Hs| |symmetry; apply Cl; exact Hi]. rewrite (Cl _ Lp), (nxt_prv _ _ Hi). reflexivity.
  - intros t Ht. apply coons_left; exact Ht.
  - intros t Ht. apply coons_right; [|exact Ht]. apply tri_same; assumption.
  - intros sd. apply coons_total.
Qed.
Print Assumptions C33_coons_ribbon.

(** The fourth boundary: a cubic from the end of the next curve to the start of
    the previous one, with the end tangents of the curves beyond those; in a
    three-sided loop a single point. *)
Theorem C33_far_side : forall l2 l c r r2 same s, 0 <= s <= 1 ->
  coonsEval c (coonsUpdate l2 l c r r2 same) (mkV2 s 1) =
  Some (if same then cpt l 0
        else cpt r 1 *v s ^ 3 +v (cpt r 1 +v cder r2 0 *v / 3) *v (3 * (1 - s) * s ^ 2)
          +v (cpt l 0 -v cder l2 1 *v / 3) *v (3 * (1 - s) ^ 2 * s) +v cpt l 0 *v (1 - s) ^ 3).
Proof.
  intros l2 l c r r2 same s Hs. rewrite coons_top by exact Hs. unfold coonsUpdate. destruct same; cbn [co_top].
  - apply const_value.
  - rewrite cubic_value. apply (f_equal Some). v3field.
Qed.
Print Assumptions C33_far_side.

(** A unit square of straight sides. *)
Definition square_curves : list curve :=
  [lineCurve (mkV3 0 0 0) (mkV3 1 0 0); lineCurve (mkV3 1 0 0) (mkV3 1 1 0);
   lineCurve (mkV3 1 1 0) (mkV3 0 1 0); lineCurve (mkV3 0 1 0) (mkV3 0 0 0)].
Lemma square_closed : closed_curves square_curves.
Proof.
  intros i c cn E E'. destruct i as [|[|[|[|i]]]]; [| | | |destruct i; discriminate];
    simpl in E; injection E as <-; cbv [length square_curves nxt Nat.add Nat.sub Nat.modulo Nat.divmod fst snd nth_error] in E'; injection E' as <-;
    unfold lineCurve; cbn [cpt]; unfold affine3; apply V3_ext; simpl; ring.
Qed.
Example C33_example : exists ev, coonsRibbon square_curves 1 = Some ev /\ ev (mkV2 (1/3) 0) = Some (mkV3 1 (1/3) 0).
Proof.
  destruct (C33_coons_ribbon square_curves 1 _ _ _ ltac:(simpl; lia) square_closed eq_refl eq_refl eq_refl) as (ev & E & B & _).
  exists ev. split; [exact E|]. rewrite B by lra. apply (f_equal Some). unfold lineCurve; cbn [cpt]; unfold affine3. apply V3_ext; simpl; field.
Qed.

(** ** C40: side-based and elastic patches *)

(** On any convex domain, wherever the other sides are further than the
    tolerance.  [solvable] is the condition under which the bilinear equation of
    the side itself is solved properly (see C22). *)
Theorem C40_side_based : forall c vs d eps sf e s uv sds p,
  domainFrames c vs = Some d -> (3 <= length vs)%nat -> strictly_convex vs -> inside vs c ->
  sf_n sf = length vs -> length (sf_ribbons sf) = length vs -> crosses_defined (sf_ribbons sf) ->
  0 < eps -> (e < length vs)%nat -> 0 <= s <= 1 -> solvable vs eps e s 0 -> edgePoint d e s = Some uv ->
  mapToRibbons KParallel eps d uv = Some sds -> others_far eps e sds ->
  side_point sf e s p -> sideBasedEval eps d sf uv = Some p.
Proof.
  intros c vs d eps sf e s uv sds p Hd H3 C I Hn Hl Hc Hp He Hs Sv E M F P.
  rewrite (edge_of_frames c vs d e s uv Hd He E) in *. rewrite (side_point_value sf e s p P).
  apply (sideBasedEval_side c vs d Hd H3 C I eps sf e s sds); assumption.
Qed.
Print Assumptions C40_side_based.

(** At a corner two sides are near; the patch interpolates the common point. *)
Theorem C40_side_based_corner : forall c vs d eps sf e uv sds p,
  domainFrames c vs = Some d -> (3 <= length vs)%nat -> strictly_convex vs -> inside vs c ->
  sf_n sf = length vs -> length (sf_ribbons sf) = length vs -> crosses_defined (sf_ribbons sf) ->
  0 < eps -> (e < length vs)%nat -> solvable vs eps e 0 0 -> solvable vs eps (prv (length vs) e) 1 0 -> edgePoint d e 0 = Some uv ->
  mapToRibbons KParallel eps d uv = Some sds ->
  (forall j sd, nth_error sds j = Some sd -> j <> e -> j <> prv (length vs) e -> eps <= py sd) ->
  side_point sf e 0 p -> side_point sf (prv (length vs) e) 1 p -> sideBasedEval eps d sf uv = Some p.
Proof.
  intros c vs d eps sf e uv sds p Hd H3 C I Hn Hl Hc Hp He S1 S2 E M F P P'.
  rewrite (edge_of_frames c vs d e 0 uv Hd He E) in *. rewrite (side_point_value sf e 0 p P) in *.
  apply (sideBasedEval_corner c vs d Hd H3 C I eps sf e sds); try assumption. symmetry. apply side_point_value; exact P'.
Qed.
Print Assumptions C40_side_based_corner.

(** On the regular domain the distances are known. *)
Theorem C40_side_based_regular : forall m vs d eps sf e s uv p,
  (3 <= m)%nat -> regularVertices m = Some vs -> domainFrames pzero vs = Some d ->
  sf_n sf = m -> length (sf_ribbons sf) = m -> crosses_defined (sf_ribbons sf) ->
  (e < m)%nat -> 0 <= s <= 1 ->
  let hw := sin (2 * PI / INR m) * sin (PI / INR m) in
  0 < eps -> eps <= hw / 2 -> eps <= s * hw -> eps <= (1 - s) * hw ->
  edgePoint d e s = Some uv -> side_point sf e s p -> sideBasedEval eps d sf uv = Some p.
Proof.
  intros m vs d eps sf e s uv p H3 Hv Hd Hn Hl Hc He Hs hw Hp A B B' E P. destruct (regular_convex m vs H3 Hv) as (L & _).
  rewrite (edge_of_frames pzero vs d e s uv Hd ltac:(lia) E). rewrite (side_point_value sf e s p P).
  apply (sideBased_regular m vs d H3 Hv Hd); auto.
Qed.
Print Assumptions C40_side_based_regular.

Theorem C40_elastic : forall (S : Type) acc solve m vs d tol eps sf e s uv st0 p,
  (3 <= m)%nat -> regularVertices m = Some vs -> domainFrames pzero vs = Some d ->
  sf_n sf = m -> length (sf_ribbons sf) = m -> crosses_defined (sf_ribbons sf) ->
  (e < m)%nat -> 0 <= s <= 1 -> 0 < eps -> eps <= sin (2 * PI / INR m) * sin (PI / INR m) / 2 -> 0 < tol ->
  edgePoint d e s = Some uv ->
  (forall i t q, (i < e)%nat -> 0 <= t <= 1 -> edgePoint d i t = Some q -> tol <= pnorm (uv -p q)) ->
  side_point sf e s p -> elasticEval S acc solve tol eps d sf uv st0 = Some p.
Proof.
  intros S acc solve m vs d tol eps sf e s uv st0 p H3 Hv Hd Hn Hl Hc He Hs Hp A Ht E F P. destruct (regular_convex m vs H3 Hv) as (L & _).
  rewrite (edge_of_frames pzero vs d e s uv Hd ltac:(lia) E) in *. rewrite (side_point_value sf e s p P).
  apply (elastic_regular m vs d H3 Hv Hd); auto.
  intros i t Hi Ht'. apply (F i t _ Hi Ht'). apply (edge_total pzero vs d); [exact Hd|lia].
Qed.
Print Assumptions C40_elastic.

(** The unit square's data, at the middle of a side. *)
Lemma four_vertices : exists vs, regularVertices 4 = Some vs.
Proof. eexists. reflexivity. Qed.
Definition corners4 : list V3 := [mkV3 1 0 0; mkV3 1 1 0; mkV3 0 1 1; mkV3 0 0 0].
Example C40_example : forall eps, 0 < eps <= 1/4 -> exists vs d uv, regularVertices 4 = Some vs /\ domainFrames pzero vs = Some d /\
  edgePoint d 2 (1/2) = Some uv /\ sideBasedEval eps d (mkSurf 4 true (lineRibs corners4) []) uv = Some (mkV3 (1/2) 1 (1/2)).
Proof.
  intros eps Hp. destruct four_vertices as [vs Hv]. exists vs. destruct (regular_convex 4 vs ltac:(lia) Hv) as (L & _ & _).
  rewrite frames_closed. eexists.
  assert (E := edge_total pzero vs _ 2 (1/2) (frames_closed pzero vs) ltac:(lia)). eexists. split; [exact Hv|]. split; [reflexivity|]. split; [exact E|].
  destruct (lineRibs_ok corners4 ltac:(simpl; lia)) as ((Ll & Cr & _) & _).
  assert (S2 : sin (2 * PI / INR 4) = 1) by (replace (2 * PI / INR 4) with (PI / 2) by (simpl; field); apply sin_PI2).
  assert (S4 : 1/2 <= sin (PI / INR 4)).
  { replace (PI / INR 4) with (PI / 4) by (simpl; field). rewrite <- sin_PI6. pose proof PI_RGT_0. apply sin_incr_1; lra. }
  apply (C40_side_based_regular 4 vs _ eps (mkSurf 4 true (lineRibs corners4) []) 2 (1/2) _ _ ltac:(lia) Hv (frames_closed pzero vs) eq_refl); try assumption; try lia; try lra.
  - rewrite S2. lra.
  - rewrite S2. lra.
  - rewrite S2. lra.
  - eexists. split; [reflexivity|]. unfold lineRib, lineCurve. cbn [sr_curve cpt]. unfold affine3. apply V3_ext; simpl; field.
Qed.

(** ** C41: corner-based, generalized Coons and composite ribbon patches *)
Theorem C41_corner_based : forall m vs d eps sf e s uv p,
  (3 <= m)%nat -> regularVertices m = Some vs -> domainFrames pzero vs = Some d -> sf_n sf = m -> ready sf ->
  fine_tolerance m eps -> end_tolerance m eps s \/ 1 - s < eps -> (e < m)%nat -> 0 <= s <= 1 ->
  edgePoint d e s = Some uv -> side_point sf e s p -> cornerBasedEval eps d sf uv = Some p.
Proof.
  intros m vs d eps sf e s uv p H3 Hv Hd Hn Hr [Hp Ht] He3 He Hs E P. destruct (regular_convex m vs H3 Hv) as (L & _).
  rewrite (edge_of_frames pzero vs d e s uv Hd ltac:(lia) E). rewrite (side_point_value sf e s p P).
  destruct (tol_facts m vs H3 Hv eps Hp Ht) as (T1 & T2 & _).
  destruct (bilinear_coords m vs d H3 Hv Hd e s eps He Hs ltac:(lra) T2) as (sds & M & SC & T).
  { destruct (le_lt_dec 4 m); [left; assumption|right]. destruct He3 as [X|X]; [left; apply X; lia|right; exact X]. }
  unfold cornerBasedEval. rewrite M. cbn [bind]. apply cornerBased_side; rewrite ?Hn; try assumption. lra.
Qed.
Print Assumptions C41_corner_based.

Theorem C41_generalized_coons : forall m vs d eps sf e s uv p,
  (3 <= m)%nat -> regularVertices m = Some vs -> domainFrames pzero vs = Some d -> sf_n sf = m -> ready sf ->
  fine_tolerance m eps -> end_tolerance m eps s -> (e < m)%nat -> 0 <= s <= 1 ->
  edgePoint d e s = Some uv -> side_point sf e s p -> generalizedCoonsEval eps d sf uv = Some p.
Proof.
  intros m vs d eps sf e s uv p H3 Hv Hd Hn Hr [Hp Ht] He3 He Hs E P. destruct (regular_convex m vs H3 Hv) as (L & _).
  rewrite (edge_of_frames pzero vs d e s uv Hd ltac:(lia) E). rewrite (side_point_value sf e s p P).
  destruct (tol_facts m vs H3 Hv eps Hp Ht) as (T1 & T2 & T3 & _).
  destruct (interconnected_coords m vs d H3 Hv Hd e s eps He Hs ltac:(lra) T2 T3) as (sds & M & SC & T).
  { destruct (le_lt_dec 4 m); [left; assumption|right]. apply He3; lia. }
  unfold generalizedCoonsEval. rewrite M. cbn [bind]. apply generalizedCoons_side; rewrite ?Hn; try assumption. lra.
Qed.
Print Assumptions C41_generalized_coons.

(** The composite ribbon patch: any convex domain, no condition on [s]. *)
Theorem C41_composite_ribbon : forall c vs d eps sf e s uv p,
  domainFrames c vs = Some d -> (3 <= length vs)%nat -> strictly_convex vs -> inside vs c -> sf_n sf = length vs -> ready sf ->
  0 < eps <= 1 / 2 -> (e < length vs)%nat -> 0 <= s <= 1 ->
  edgePoint d e s = Some uv -> side_point sf e s p -> compositeRibbonEval eps d sf uv = Some p.
Proof.
  intros c vs d eps sf e s uv p Hd H3 C I Hn Hr Hp He Hs E P.
  rewrite (edge_of_frames c vs d e s uv Hd He E). rewrite (side_point_value sf e s p P).
  destruct (bary_side_coords c vs d Hd H3 C I eps e s He Hp Hs) as (sds & M & SC & T & _).
  unfold compositeRibbonEval. rewrite M. cbn [bind]. apply compositePatch_side; rewrite ?Hn; assumption.
Qed.
Print Assumptions C41_composite_ribbon.

Example C41_example : forall eps, 0 < eps <= 1/2 -> exists cs vs d uv, regularVertices 4 = Some vs /\ domainFrames pzero vs = Some d /\
  edgePoint d 2 (1/3) = Some uv /\ compositeRibbonEval eps d (mkSurf 4 true (lineRibs corners4) cs) uv = Some (mkV3 (2/3) 1 (1/3)).
Proof.
  intros eps Hp. destruct four_vertices as [vs Hv]. destruct (regular_convex 4 vs ltac:(lia) Hv) as (L & C & I).
  destruct (lineRibs_ok corners4 ltac:(simpl; lia)) as (Cl & cs & U). exists cs, vs.
  rewrite frames_closed. eexists. assert (E := edge_total pzero vs _ 2 (1/3) (frames_closed pzero vs) ltac:(lia)).
  eexists. split; [exact Hv|]. split; [reflexivity|]. split; [exact E|].
  apply (C41_composite_ribbon pzero vs _ eps _ 2 (1/3) _ _ (frames_closed pzero vs)); try assumption; try lia; try lra.
  - symmetry; exact L.
  - split; [exact Cl|exact U].
  - eexists. split; [reflexivity|]. unfold lineRib, lineCurve. cbn [sr_curve cpt]. unfold affine3. apply V3_ext; simpl; field.
Qed.

(** ** C42: midpoint and midpoint Coons patches *)
Lemma wsum_inner : forall eps s, 0 < eps -> eps <= s -> s <= 1 - eps -> wfirst eps s + wlast eps s - 1 = 0.
Proof.
  intros eps s Hp A B. unfold wfirst, wlast. destruct (Rlt_dec (1 - s) eps); [lra|]. destruct (Rlt_dec s eps); [lra|].
  rewrite hermite0_sym. ring.
Qed.
Lemma wsum_start : forall eps, 0 < eps <= 1/2 -> wfirst eps 0 + wlast eps 0 - 1 = 0.
Proof.
  intros eps Hp. unfold wfirst, wlast. destruct (Rlt_dec (1 - 0) eps); [lra|]. destruct (Rlt_dec 0 eps); [|lra].
  rewrite hermite0_sym, hermite0_0. ring.
Qed.

(** Ribbon coordinates of both kinds, with the values the central term needs. *)
Lemma mid_coords : forall k m vs d eps e s, (3 <= m)%nat -> regularVertices m = Some vs -> domainFrames pzero vs = Some d ->
  fine_tolerance m eps -> (e < m)%nat -> 0 <= s <= 1 ->
  exists sds, mapToRibbons (mparam k) eps d (sidePt vs e s) = Some sds /\ side_coords eps m e s sds /\ tame sds /\
    (forall j sd, nth_error sds j = Some sd -> j <> e -> j <> nxt m e -> j <> prv m e -> py sd = 1) /\
    ((4 <= m)%nat \/ s <= 1 - eps -> nth_error sds (prv m e) = Some (mkV2 1 s)).
Proof.
  intros k m vs d eps e s H3 Hv Hd [Hp Ht] He Hs. destruct (regular_convex m vs H3 Hv) as (L & C & I).
  destruct (tol_facts m vs H3 Hv eps Hp Ht) as (T1 & _).
  assert (W : forall sds, side_coords eps m e s sds -> s <= 1 - eps -> nth_error sds (prv m e) = Some (mkV2 1 s)).
  { intros sds (_ & _ & _ & (sp & dp & Ep & A & _) & _) B. destruct A as [-> ->]; [lra|exact Ep]. }
  destruct k; cbn [mparam].
  - pose proof (bary_side_coords pzero vs d Hd ltac:(lia) C I eps e s ltac:(lia) ltac:(lra) Hs) as (sds & M & SC & T & F & sp & Ep).
    rewrite L in *. exists sds. repeat (split; [assumption|]). intros [H4|B]; [|apply W; assumption].
    pose proof (bary_prev m vs d H3 Hv Hd e s eps He Hs Hp Ht H4) as B.
    unfold mapToRibbons in M. rewrite (reg_n m vs d H3 Hv Hd) in M. assert (Lp : (prv m e < m)%nat) by (apply prv_lt; lia).
    rewrite (mapM_nth _ _ _ (prv m e) (prv m e) M).
    + exact B.
    + rewrite (nth_error_nth' (seq 0 m) 0%nat) by (rewrite seq_length; exact Lp). rewrite seq_nth by exact Lp. reflexivity.
  - destruct (constrained_coords m vs d H3 Hv Hd e s eps He Hs Hp Ht) as (sds & M & SC & T & F & Ep).
    exists sds. repeat (split; [assumption|]). intros [H4|B]; [exact (Ep H4)|apply W; assumption].
Qed.

Lemma mid_value : forall k m vs d eps sf cp e s, (3 <= m)%nat -> regularVertices m = Some vs -> domainFrames pzero vs = Some d ->
  sf_n sf = m -> ready sf -> fine_tolerance m eps -> (e < m)%nat -> 0 <= s <= 1 -> (4 <= m)%nat \/ s <= 1 - eps ->
  mEval k eps d sf cp (sidePt vs e s) = Some (cv sf e s +v (cv sf e s -v cp) *v (wfirst eps s + wlast eps s - 1)).
Proof.
  intros k m vs d eps sf cp e s H3 Hv Hd Hn Hr HT He Hs Q. destruct (mid_coords k m vs d eps e s H3 Hv Hd HT He Hs) as (sds & M & SC & T & F & Ep).
  destruct HT as [Hp Ht]. destruct (tol_facts m vs H3 Hv eps Hp Ht) as (T1 & _). specialize (Ep Q).
  assert (FO : far_one sf sds e).
  { intros j Hj A B D. rewrite Hn in *. assert (Ls : length sds = m) by apply SC. apply (F j _ (nth_sd sds j ltac:(lia)) A B D). }
  destruct k; cbn [mEval]; [unfold midpointEval|unfold midpointCoonsEval]; cbn [mparam] in M; rewrite M; cbn [bind];
    [apply midpoint_side|apply midpointCoons_side]; rewrite ?Hn; try assumption; lra.
Qed.

(** Exact at both corners and everywhere at least the tolerance from them. *)
Theorem C42_boundary : forall k m vs d eps sf cp e s uv p,
  (3 <= m)%nat -> regularVertices m = Some vs -> domainFrames pzero vs = Some d -> sf_n sf = m -> ready sf ->
  fine_tolerance m eps -> (e < m)%nat -> s = 0 \/ s = 1 \/ eps <= s <= 1 - eps ->
  edgePoint d e s = Some uv -> side_point sf e s p -> mEval k eps d sf cp uv = Some p.
Proof.
  intros k m vs d eps sf cp e s uv p H3 Hv Hd Hn Hr HT He Hs E P. destruct (regular_convex m vs H3 Hv) as (L & _).
  rewrite (edge_of_frames pzero vs d e s uv Hd ltac:(lia) E). rewrite (side_point_value sf e s p P).
  assert (T := HT). destruct T as [Hp Ht]. destruct (tol_facts m vs H3 Hv eps Hp Ht) as (T1 & _).
  destruct Hs as [->|[->|Hs]].
  - rewrite (mid_value k m vs d eps sf cp e 0 H3 Hv Hd Hn Hr HT He) by (try right; lra). rewrite wsum_start by lra. apply (f_equal Some). v3ring.
  - replace (sidePt vs e 1) with (sidePt vs (nxt m e) 0).
    2:{ unfold sidePt. rewrite L, (prv_nxt m e He). apply V2_ext; simpl; ring. }
    rewrite (mid_value k m vs d eps sf cp (nxt m e) 0 H3 Hv Hd Hn Hr HT (nxt_lt m e ltac:(lia))) by (try right; lra). rewrite wsum_start by lra.
    assert (X : cv sf e 1 = cv sf (nxt m e) 0).
    { destruct Hr as [(Lr & _ & J) _]. rewrite Hn in *. apply (J e (rb sf e) (rb sf (nxt m e))); apply nth_error_nth'; [lia|rewrite Lr; apply nxt_lt; lia]. }
    rewrite X. apply (f_equal Some). v3ring.
  - rewrite (mid_value k m vs d eps sf cp e s H3 Hv Hd Hn Hr HT He) by (try right; lra). rewrite wsum_inner by lra. apply (f_equal Some). v3ring.
Qed.
Print Assumptions C42_boundary.

(** Closer to a corner than the tolerance, but not at it, the weights add up to
    more than one, and the surface is pushed away from the central control point:
    the boundary is missed unless the two coincide. *)
Theorem C42_overshoot : forall k m vs d eps sf cp e s uv p,
  (4 <= m)%nat -> regularVertices m = Some vs -> domainFrames pzero vs = Some d -> sf_n sf = m -> ready sf ->
  fine_tolerance m eps -> (e < m)%nat -> edgePoint d e s = Some uv -> side_point sf e s p ->
  (0 < s < eps -> mEval k eps d sf cp uv = Some (p +v (p -v cp) *v (s ^ 2 * (3 - 2 * s)))) /\
  (1 - eps < s < 1 -> mEval k eps d sf cp uv = Some (p +v (p -v cp) *v ((1 - s) ^ 2 * (1 + 2 * s)))).
Proof.
  intros k m vs d eps sf cp e s uv p H4 Hv Hd Hn Hr HT He E P. assert (H3 : (3 <= m)%nat) by lia. destruct (regular_convex m vs H3 Hv) as (L & _).
  rewrite (edge_of_frames pzero vs d e s uv Hd ltac:(lia) E). rewrite (side_point_value sf e s p P).
  assert (T := HT). destruct T as [Hp Ht]. destruct (tol_facts m vs H3 Hv eps Hp Ht) as (T1 & _).
  split; intros Hs; rewrite (mid_value k m vs d eps sf cp e s H3 Hv Hd Hn Hr HT He) by (try (left; assumption); lra); apply (f_equal Some);
    unfold wfirst, wlast.
  - destruct (Rlt_dec (1 - s) eps); [lra|]. destruct (Rlt_dec s eps); [|lra].
    replace (hermite 0 (1 - s) + 1 - 1) with (s ^ 2 * (3 - 2 * s)) by (simpl; ring). reflexivity.
  - destruct (Rlt_dec (1 - s) eps); [|lra]. destruct (Rlt_dec s eps); [lra|].
    replace (1 + hermite 0 s - 1) with ((1 - s) ^ 2 * (1 + 2 * s)) by (simpl; ring). reflexivity.
Qed.
Print Assumptions C42_overshoot.

Corollary C42_missed : forall k m vs d eps sf cp e s uv p,
  (4 <= m)%nat -> regularVertices m = Some vs -> domainFrames pzero vs = Some d -> sf_n sf = m -> ready sf ->
  fine_tolerance m eps -> (e < m)%nat -> edgePoint d e s = Some uv -> side_point sf e s p ->
  0 < s < eps -> cp <> p -> mEval k eps d sf cp uv <> Some p.
Proof.
  intros k m vs d eps sf cp e s uv p H4 Hv Hd Hn Hr HT He E P Hs N X.
  assert (T := HT). destruct T as [Hp Ht]. destruct (tol_facts m vs ltac:(lia) Hv eps Hp Ht) as (T1 & _).
  destruct (C42_overshoot k m vs d eps sf cp e s uv p H4 Hv Hd Hn Hr HT He E P) as [O _]. rewrite (O Hs) in X. clear O. apply N.
  set (c := s ^ 2 * (3 - 2 * s)) in *. assert (0 < c) by (unfold c; apply Rmult_lt_0_compat; [apply pow_lt|]; lra). clearbody c.
  assert (Q : forall a b : R, a + (a - b) * c = a -> b = a) by (intros a b Y; assert (Z : (a - b) * c = 0) by lra; apply Rmult_integral in Z; destruct Z; lra).
  apply V3_ext; apply Q; (assert (Y := X); apply (f_equal (fun o => match o with Some q => q | None => p end)) in Y;
    first [apply (f_equal vx) in Y; exact Y|apply (f_equal vy) in Y; exact Y|apply (f_equal vz) in Y; exact Y]).
Qed.
Print Assumptions C42_missed.

(** A tolerance for the square, and the value just inside of it. *)
Example C42_example : forall cp, exists cs vs d uv, regularVertices 4 = Some vs /\ domainFrames pzero vs = Some d /\
  edgePoint d 2 (1/10) = Some uv /\
  let sf := mkSurf 4 false (lineRibs corners4) cs in
  midpointEval (1/20) d sf cp uv = Some (mkV3 (9/10) 1 (1/10)) /\
  midpointEval (1/8) d sf cp uv = Some (mkV3 (9/10) 1 (1/10) +v (mkV3 (9/10) 1 (1/10) -v cp) *v (28 / 1000)).
Proof.
  intros cp. destruct four_vertices as [vs Hv]. destruct (regular_convex 4 vs ltac:(lia) Hv) as (L & _ & _).
  destruct (lineRibs_ok corners4 ltac:(simpl; lia)) as (Cl & cs & U). exists cs, vs.
  rewrite frames_closed. eexists. assert (E := edge_total pzero vs _ 2 (1/10) (frames_closed pzero vs) ltac:(lia)).
  eexists. split; [exact Hv|]. split; [reflexivity|]. split; [exact E|].
  set (sf := mkSurf 4 false (lineRibs corners4) cs). cbv zeta.
  assert (T : forall eps, 0 < eps <= 1/8 -> fine_tolerance 4 eps).
  { intros eps Hp. split; [lra|].
    assert (S2 : sin (2 * PI / INR 4) = 1) by (replace (2 * PI / INR 4) with (PI / 2) by (simpl; field); apply sin_PI2).
    assert (S4 : 1/2 <= sin (PI / INR 4)).
    { replace (PI / INR 4) with (PI / 4) by (simpl; field). rewrite <- sin_PI6. pose proof PI_RGT_0. apply sin_incr_1; lra. }
    rewrite S2. lra. }
  assert (P : side_point sf 2 (1/10) (mkV3 (9/10) 1 (1/10))).
  { eexists. split; [reflexivity|]. unfold lineRib, lineCurve. cbn [sr_curve cpt]. unfold affine3. apply V3_ext; simpl; field. }
  assert (Rd : ready sf) by (split; assumption).
  assert (T20 : fine_tolerance 4 (1/20)) by (apply T; lra). assert (T8 : fine_tolerance 4 (1/8)) by (apply T; lra). clear T. split.
  - apply (C42_boundary MKMidpoint 4 vs _ (1/20) sf cp 2 (1/10) _ _ ltac:(lia) Hv (frames_closed pzero vs) eq_refl Rd T20 ltac:(lia) ltac:(lra) E P).
  - destruct (C42_overshoot MKMidpoint 4 vs _ (1/8) sf cp 2 (1/10) _ _ ltac:(lia) Hv (frames_closed pzero vs) eq_refl Rd T8 ltac:(lia) E P) as [A _].
    assert (X := A ltac:(lra)). cbn [mEval] in X. rewrite X. replace ((1/10) ^ 2 * (3 - 2 * (1/10))) with (28/1000) by field. reflexivity.
Qed.

(** ** C43: the C0 Coons patch *)
Theorem C43_boundary : forall c vs d eps cs e s uv crv,
  domainFrames c vs = Some d -> (3 <= length vs)%nat -> strictly_convex vs -> inside vs c ->
  length cs = length vs -> closed_curves cs -> 0 < eps <= 1/2 -> s <= 1 - eps \/ s = 1 -> 0 <= s ->
  nth_error cs e = Some crv -> edgePoint d e s = Some uv -> c0coonsEval eps d cs uv = Some (cpt crv s).
Proof.
  intros c vs d eps cs e s uv cu Hd H3 C I Lc Hc Hp Hs1 Hs0 Ec E. assert (Hs : 0 <= s <= 1) by lra.
  assert (He : (e < length vs)%nat) by (rewrite <- Lc; apply nth_error_Some; congruence).
  rewrite (edge_of_frames c vs d e s uv Hd He E).
  destruct (bary_side_coords c vs d Hd H3 C I eps e s He Hp Hs) as (sds & M & SC & T & F & sp & Ep).
  unfold c0coonsEval. rewrite M. cbn [bind].
  rewrite (crv_nth cs e ltac:(lia)) in Ec. injection Ec as <-.
  destruct SC as (Ls & S1 & S2 & (sp' & dp' & Ep' & A & _) & _).
  apply c0coons_side with (sds := sds); rewrite ?Lc; try assumption.
  - intros i Hi. rewrite <- Lc. apply closed_crv; [exact Hc|lia].
  - exists sp. split; [exact Ep|]. destruct Hs1 as [Hs1|Hs1]; [left|right; exact Hs1]. destruct (A ltac:(lra)) as [A1 _].
    assert (X : mkV2 sp s = mkV2 sp' dp') by congruence. injection X; congruence.
Qed.
Print Assumptions C43_boundary.

(** On the regular domain with at least four sides, for every point of the side. *)
Theorem C43_regular : forall m vs d eps cs e s uv crv,
  (3 <= m)%nat -> regularVertices m = Some vs -> domainFrames pzero vs = Some d ->
  length cs = m -> closed_curves cs -> fine_tolerance m eps -> 0 <= s <= 1 -> (4 <= m)%nat \/ s <= 1 - eps \/ s = 1 ->
  nth_error cs e = Some crv -> edgePoint d e s = Some uv -> c0coonsEval eps d cs uv = Some (cpt crv s).
Proof.
  intros m vs d eps cs e s uv cu H3 Hv Hd Lc Hc HT Hs Q Ec E.
  assert (T := HT). destruct T as [Hp Ht]. destruct (tol_facts m vs H3 Hv eps Hp Ht) as (T1 & _).
  destruct (regular_convex m vs H3 Hv) as (L & C & I).
  destruct Q as [H4|Q]; [|apply (C43_boundary pzero vs d eps cs e s uv cu Hd); try assumption; try lia; lra].
  assert (He : (e < m)%nat) by (rewrite <- Lc; apply nth_error_Some; congruence).
  rewrite (edge_of_frames pzero vs d e s uv Hd ltac:(lia) E).
  destruct (mid_coords MKMidpoint m vs d eps e s H3 Hv Hd HT He Hs) as (sds & M & SC & _ & F & Ep). cbn [mparam] in M.
  unfold c0coonsEval. rewrite M. cbn [bind]. rewrite (crv_nth cs e ltac:(lia)) in Ec. injection Ec as <-.
  destruct SC as (Ls & S1 & S2 & _).
  apply c0coons_side with (sds := sds); rewrite ?Lc; try assumption.
  - intros i Hi. rewrite <- Lc. apply closed_crv; [exact Hc|lia].
  - exists 1. split; [apply Ep; left; exact H4|left; reflexivity].
Qed.
Print Assumptions C43_regular.

(** The weights (1 - d)/2 add up to one wherever the barycentric coordinates do. *)
Theorem C43_weights : forall t eps d uv l sds, d_n d = length l -> barycentric t eps d uv = Some l ->
  rsum (length l) (fun i => nth i l 0) = 1 -> mapToRibbons (KBary t) eps d uv = Some sds ->
  length sds = length l /\ rsum (length sds) (fun i => (1 - py (nth i sds pzero)) / 2) = 1.
Proof.
  intros t eps d uv l sds Hn B S M. assert (Ls : length sds = length l).
  { unfold mapToRibbons in M. rewrite Hn in M. rewrite (mapM_length _ _ _ M), seq_length. reflexivity. }
  split; [exact Ls|]. rewrite Ls. apply (eq_trans (y := rsum (length l) (fun i => (1 - dpar sds i) * / 2))); [|apply (bary_weights t eps d uv sds l Hn B S M)].
  apply rsum_ext. intros i Hi. reflexivity.
Qed.
Print Assumptions C43_weights.

Example C43_example : forall eps, 0 < eps <= 1/2 -> exists vs d uv, regularVertices 4 = Some vs /\ domainFrames pzero vs = Some d /\
  edgePoint d 1 (1/2) = Some uv /\ c0coonsEval eps d square_curves uv = Some (mkV3 1 (1/2) 0).
Proof.
  intros eps Hp. destruct (regularVertices 4) as [vs|] eqn:Hv; [|discriminate]. exists vs.
  destruct (regular_convex 4 vs ltac:(lia) Hv) as (L & C & I). rewrite frames_closed. eexists. 
  assert (E := edge_total pzero vs _ 1 (1/2) (frames_closed pzero vs) ltac:(lia)). eexists. repeat (split; [reflexivity || exact E|]).
  rewrite (C43_boundary pzero vs _ eps square_curves 1 (1/2) _ _ (frames_closed pzero vs) ltac:(lia) C I ltac:(simpl; lia) square_closed Hp ltac:(lra) ltac:(lra) eq_refl E).
  apply (f_equal Some). unfold lineCurve; cbn [cpt]; unfold affine3. apply V3_ext; simpl; field.
Qed.

(** ** C44: midpoint control *)
Theorem C44_deficiency : forall m vs d eps, (3 <= m)%nat -> regularVertices m = Some vs -> domainFrames pzero vs = Some d ->
  0 < eps <= 1/3 -> eps <= 2 / INR m ->
  exists sds, mapToRibbons (KBary Wachspress) eps d (d_center d) = Some sds /\
    deficiency eps m sds = Some ((1 - 2 / INR m) * (1 - 4 / INR m)).
Proof.
  intros m vs d eps H3 Hv Hd Hp Hm. rewrite (frames_center _ _ _ Hd). exists (tabulate m (fun _ => mkV2 (1/2) (centerDist m MKMidpoint))).
  split; [apply (center_sds m vs d H3 Hv Hd eps Hp Hm MKMidpoint)|].
  rewrite (center_def m vs H3 Hv eps Hp MKMidpoint). rewrite center_def_midpoint by exact H3. reflexivity.
Qed.
Print Assumptions C44_deficiency.

(** What a history of calls asks for: the last setMidpoint that no unsetMidpoint
    followed, and the boundary data of the last update. *)
Definition requested (m0 : option V3) (ops : list mop) : option V3 :=
  fold_left (fun r o => match o with MSet p => Some p | MUnset => None | MUpdate _ => r end) ops m0.
Definition boundary_data (sf0 : surf) (ops : list mop) : surf :=
  fold_left (fun r o => match o with MUpdate sf => sf | _ => r end) ops sf0.
Definition well_formed (m : nat) (st : mstate) (ops : list mop) : Prop :=
  sf_n (mst_sf st) = m /\ ready (mst_sf st) /\ forall sf, In (MUpdate sf) ops -> sf_n sf = m /\ ready sf.

Lemma run_facts : forall k m vs d eps, (3 <= m)%nat -> regularVertices m = Some vs -> domainFrames pzero vs = Some d ->
  0 < eps <= 1/3 -> eps <= 2 / INR m -> forall ops st, well_formed m st ops ->
  exists st', mrun k eps d st ops = Some st' /\ mst_sf st' = boundary_data (mst_sf st) ops /\ mst_mid st' = requested (mst_mid st) ops /\
    sf_n (mst_sf st') = m /\ ready (mst_sf st') /\
    (ops <> [] -> centralControl k eps d (mst_sf st') (mst_mid st') = Some (mst_cp st')).
Proof.
  intros k m vs d eps H3 Hv Hd Hp Hm. induction ops as [|o ops IH]; intros st (Hn & Hr & Hu).
  - exists st. unfold mrun. cbn [foldM]. repeat (split; [reflexivity || assumption|]). congruence.
  - unfold mrun. cbn [foldM].
    set (st1 := match o with MSet p => mkMst (mst_sf st) (Some p) (mst_cp st) | MUnset => mkMst (mst_sf st) None (mst_cp st) | MUpdate sf => mkMst sf (mst_mid st) (mst_cp st) end).
    assert (W1 : sf_n (mst_sf st1) = m /\ ready (mst_sf st1)).
    { destruct o; cbn [mst_sf st1]; try (split; assumption). apply Hu. left; reflexivity. }
    destruct W1 as [Hn1 Hr1].
    destruct (central_total m vs d H3 Hv Hd eps Hp Hm (mst_sf st1) Hn1 Hr1 k (mst_mid st1)) as [cp E].
    assert (St : mstep k eps d st o = Some (mkMst (mst_sf st1) (mst_mid st1) cp)) by (unfold mstep; fold st1; rewrite E; reflexivity).
    rewrite St. cbn [bind]. destruct (IH (mkMst (mst_sf st1) (mst_mid st1) cp)) as (st' & R & A & B & C & D & F).
    { split; [exact Hn1|]. split; [exact Hr1|]. intros sf I. apply Hu. right; exact I. }
    exists st'. split; [exact R|]. cbn [mst_sf mst_mid] in A, B. split; [rewrite A; destruct o; reflexivity|]. split; [rewrite B; destruct o; reflexivity|].
    split; [exact C|]. split; [exact D|]. intros _. destruct ops as [|o' ops'].
    + unfold mrun in R. cbn [foldM] in R. injection R as <-. exact E.
    + apply F; discriminate.
Qed.

Theorem C44_interpolates : forall k m vs d eps st ops p,
  (3 <= m)%nat -> m <> 4%nat -> regularVertices m = Some vs -> domainFrames pzero vs = Some d ->
  0 < eps <= 1/200 -> eps <= 2 / INR m -> well_formed m st ops -> ops <> [] -> requested (mst_mid st) ops = Some p ->
  exists st', mrun k eps d st ops = Some st' /\ mst_sf st' = boundary_data (mst_sf st) ops /\
    mEval k eps d (mst_sf st') (mst_cp st') (d_center d) = Some p.
Proof.
  intros k m vs d eps st ops p H3 N4 Hv Hd Hp Hm W No Rq.
  destruct (run_facts k m vs d eps H3 Hv Hd ltac:(lra) Hm ops st W) as (st' & R & A & B & C & D & F).
  exists st'. split; [exact R|]. split; [exact A|]. rewrite (frames_center _ _ _ Hd).
  rewrite (central_interpolates m vs d H3 Hv Hd eps ltac:(lra) Hm (mst_sf st') C D k (mst_mid st') (mst_cp st') N4 ltac:(lra) (F No)).
  rewrite B, Rq. reflexivity.
Qed.
Print Assumptions C44_interpolates.

(** Without a request the surface passes through the average of the side
    interpolants at (1/2, 1/2). *)
Theorem C44_default : forall k m vs d eps st ops,
  (3 <= m)%nat -> m <> 4%nat -> regularVertices m = Some vs -> domainFrames pzero vs = Some d ->
  0 < eps <= 1/200 -> eps <= 2 / INR m -> well_formed m st ops -> ops <> [] -> requested (mst_mid st) ops = None ->
  exists st' q, mrun k eps d st ops = Some st' /\
    osum m (fun i => sideInterpolant (boundary_data (mst_sf st) ops) i (1/2) (1/2)) = Some (q *v INR m) /\
    mEval k eps d (mst_sf st') (mst_cp st') (d_center d) = Some q.
Proof.
  intros k m vs d eps st ops H3 N4 Hv Hd Hp Hm W No Rq.
  destruct (run_facts k m vs d eps H3 Hv Hd ltac:(lra) Hm ops st W) as (st' & R & A & B & C & D & F).
  destruct (default_total (mst_sf st') D) as [v V]. assert (Pm : INR m <> 0) by (apply not_0_INR; lia).
  exists st', (v *v / INR m). split; [exact R|]. rewrite C in V. rewrite <- A. split.
  - rewrite V. apply (f_equal Some). v3field; exact Pm.
  - rewrite (frames_center _ _ _ Hd).
    rewrite (central_interpolates m vs d H3 Hv Hd eps ltac:(lra) Hm (mst_sf st') C D k (mst_mid st') (mst_cp st') N4 ltac:(lra) (F No)).
    rewrite B, Rq. unfold wanted. rewrite C, V. cbn [bind]. rewrite vdiv_some by exact Pm. apply (f_equal Some). v3field; exact Pm.
Qed.
Print Assumptions C44_default.

(** With four sides the deficiency is zero, and the surface at the center does
    not depend on the requested midpoint: at most one request is interpolated. *)
Theorem C44_quad : forall k vs d eps st, regularVertices 4 = Some vs -> domainFrames pzero vs = Some d -> 0 < eps <= 1/3 ->
  sf_n (mst_sf st) = 4%nat -> ready (mst_sf st) ->
  exists q, forall p, exists st', mstep k eps d st (MSet p) = Some st' /\ mst_mid st' = Some p /\
    mEval k eps d (mst_sf st') (mst_cp st') (d_center d) = Some q.
Proof.
  intros k vs d eps st Hv Hd Hp Hn Hr. assert (H3 : (3 <= 4)%nat) by lia. assert (Hm : eps <= 2 / INR 4) by (simpl; lra).
  rewrite (frames_center _ _ _ Hd).
  destruct (center_value 4 vs H3 Hv eps Hp (mst_sf st) Hn Hr k) as [v V].
  assert (Q : exists q, mEval k eps d (mst_sf st) vzero pzero = Some q).
  { rewrite (center_eval 4 vs d H3 Hv Hd eps Hp Hm). rewrite V. eexists; reflexivity. }
  destruct Q as [q Q]. exists q. intros p.
  destruct (run_facts k 4 vs d eps H3 Hv Hd Hp Hm [MSet p] st) as (st' & R & A & B & C & D & F).
  { split; [exact Hn|]. split; [exact Hr|]. intros sf [X|[]]; discriminate. }
  exists st'. split; [|split; [exact B|]].
  - unfold mrun in R. cbn [foldM] in R. destruct (mstep k eps d st (MSet p)); [exact R|discriminate].
  - rewrite (quad_center 4 vs d H3 Hv Hd eps Hp Hm (mst_sf st') C D k _ eq_refl). rewrite A. exact Q.
Qed.
Print Assumptions C44_quad.

(** A history on a three-sided surface with straight sides. *)
Example C44_example : forall eps a b c p q, 0 < eps <= 1/200 -> exists cs vs d st', regularVertices 3 = Some vs /\ domainFrames pzero vs = Some d /\
  let sf := mkSurf 3 false (lineRibs [a; b; c]) cs in
  mrun MKMidpoint eps d (mkMst sf None vzero) [MSet q; MUnset; MSet p; MUpdate sf] = Some st' /\
  midpointEval eps d sf (mst_cp st') pzero = Some p.
Proof.
  intros eps a b c p q Hp. destruct (lineRibs_ok [a; b; c] ltac:(simpl; lia)) as (C & cs & U). exists cs.
  pose proof (regular_closed 3 ltac:(lia) ltac:(lia)) as Hv. set (vs := tabulate 3 _) in Hv. exists vs. rewrite Hv, frames_closed. eexists.
  set (sf := mkSurf 3 false (lineRibs [a; b; c]) cs). assert (Rd : ready sf) by (split; assumption).
  destruct (C44_interpolates MKMidpoint 3 vs _ eps (mkMst sf None vzero) [MSet q; MUnset; MSet p; MUpdate sf] p ltac:(lia) ltac:(lia) Hv (frames_closed pzero vs) Hp) as (st' & R & B & E).
  - simpl. lra.
  - split; [reflexivity|]. split; [exact Rd|]. intros sf' [X|[X|[X|[X|[]]]]]; try discriminate. injection X as <-. split; [reflexivity|exact Rd].
  - discriminate.
  - reflexivity.
  - exists st'. split; [reflexivity|]. split; [reflexivity|]. split; [exact R|]. rewrite B in E. exact E.
Qed.
