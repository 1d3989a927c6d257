(** Patches have a value at every point of the closed domain, and a mesh at
    every resolution: C84. *)
From Verif Require Import Base MeshModel MeshSpec MeshParams MeshGeom2 GeomSpec DomainModel UtilModel DomainProofs DomainPolygons.
From Verif Require Import JoinModel JoinProofs TotalSpec TotalProofs.
From Verif Require Import RibbonModel SurfaceModel SurfaceSpec SurfaceEval ParamBary ParamMaps ParamRegular ParamSide ParamTame ParamFar ParamModel.
From Verif Require Import GBModel GBSpec GBProofs HybridModel SuperDModel.
From Verif Require BlendProps MeshGeom PatchContact PropsParam PropsJoin SPatchModel SPatchProofs PropsSPatch SuperDProofs PropsSuperD ParamCircular PropsGeom.
Open Scope R_scope.

(** ** C84 *)

(** The closed polygon is the convex hull of its vertices. *)
Theorem C84_polygon : forall c vs d p, convex_domain c vs d -> (in_polygon vs p <-> in_hull vs p).
Proof.
  intros c vs d p (Hd & H3 & C & I). split; [|apply hull_polygon; assumption]. intros Hp.
  destruct (polygon_cases vs H3 C p Hp) as [Ip|(e & s & He & Hs & ->)].
  - destruct (domainFrames p vs) as [d'|] eqn:E; [|rewrite frames_closed in E; discriminate]. apply (inside_hull p vs d' E H3 C Ip).
  - unfold sidePt. apply hull_mix; try lra; apply hull_vertex; [exact He|apply prv_lt; lia].
Qed.
Print Assumptions C84_polygon.

(** The domain of a polygon as made by update() is such a domain. *)
Theorem C84_domain : forall vs, (3 <= length vs)%nat -> strictly_convex vs -> exists c d, domainUpdate vs = Some d /\ convex_domain c vs d.
Proof.
  intros vs H3 C. destruct (computeCenter_exists vs H3 C) as [c E]. unfold domainUpdate. rewrite E. cbn [bind]. exists c. rewrite frames_closed. eexists. split; [reflexivity|].
  split; [apply frames_closed|]. split; [exact H3|]. split; [exact C|]. apply (center_inside vs c H3 C E).
Qed.
Print Assumptions C84_domain.

(** Wachspress coordinates exist in the whole closed polygon, are not negative
    and add up to one. *)
Theorem C84_barycentric : forall c vs d eps uv, convex_domain c vs d -> 0 < eps <= 1 -> in_polygon vs uv ->
  exists l, barycentric Wachspress eps d uv = Some l /\ length l = length vs /\ (forall x, In x l -> 0 <= x) /\ rsum (length vs) (fun i => nth i l 0) = 1.
Proof.
  intros c vs d eps uv (Hd & H3 & C & _) He Hp. destruct (bary_polygon c vs d Hd H3 C eps uv He Hp) as (l & B & L & P & S). exists l. split; [exact B|]. split; [exact L|]. split; [|exact S].
  intros x Hx. apply In_nth_error in Hx. destruct Hx as (k & Hk). pose proof (P k) as Z. rewrite (nth_error_nth _ _ 0 Hk) in Z. exact Z.
Qed.
Print Assumptions C84_barycentric.

(** The ribbon coordinates of the two barycentric kinds exist and are in the
    unit square. *)
Theorem C84_coordinates : forall c vs d eps uv k, convex_domain c vs d -> 0 < eps <= 1 -> in_polygon vs uv -> k = KBary Wachspress \/ k = KConstrained Wachspress ->
  exists sds, mapToRibbons k eps d uv = Some sds /\ length sds = length vs /\ forall i sd, nth_error sds i = Some sd -> 0 <= px sd <= 1 /\ 0 <= py sd <= 1.
Proof.
  intros c vs d eps uv k (Hd & H3 & C & I) He Hp [-> | ->].
  - apply (bary_total c vs d Hd H3 C I eps uv He Hp).
  - apply (constrained_total c vs d Hd H3 C I eps uv He Hp).
Qed.
Print Assumptions C84_coordinates.

(** The bilinear coordinates: undefined exactly at stuck points; side parameters
    in [0,1] and distances not negative when the discriminant is not cut off. *)
Theorem C84_bilinear : forall c vs d eps uv i, convex_domain c vs d -> 0 < eps -> in_polygon vs uv -> (i < length vs)%nat ->
  (bilinearMap eps d i uv = None <-> stuck vs eps i uv) /\
  (separated vs eps i uv -> exists s t, bilinearMap eps d i uv = Some (mkV2 s t) /\ 0 <= t /\ 0 <= s /\
     (eps <= Rabs (over vs i (vtx vs (prv (length vs) i)) (vtx vs i) (vtx vs (prv (length vs) (prv (length vs) i))) -
                   over vs i (vtx vs (prv (length vs) i)) (vtx vs i) (vtx vs (nxt (length vs) i))) -> s <= 1)).
Proof.
  intros c vs d eps uv i (Hd & H3 & C & I) He Hp Hi. split; [apply (bilinear_stuck c vs d Hd H3 C I eps uv i He Hp Hi)|].
  intros S. destruct (bilinear_polygon c vs d Hd H3 C I eps uv i He Hp Hi S) as (s & t & E & T & S0 & S1). exists s, t. split; [exact E|]. split; [exact T|]. split; [exact S0|]. intros Z. apply S1. right. exact Z.
Qed.
Print Assumptions C84_bilinear.

(** ** Regular polygons: bilinear and interconnected coordinates *)
Lemma regular_convex : forall m vs d, (3 <= m)%nat -> regularVertices m = Some vs -> domainFrames pzero vs = Some d -> length vs = m /\ convex_domain pzero vs d.
Proof. intros m vs d H3 Hv Hd. destruct (reg_facts m vs H3 Hv) as (L & C & I). split; [exact L|]. split; [exact Hd|]. split; [rewrite L; exact H3|]. split; assumption. Qed.
Lemma regular_bilinear : forall m vs d eps uv i, (3 <= m)%nat -> regularVertices m = Some vs -> domainFrames pzero vs = Some d -> 0 < eps -> in_polygon vs uv -> (i < m)%nat ->
  exists s t, bilinearMap eps d i uv = Some (mkV2 s t) /\ 0 <= s <= 1 /\ 0 <= t.
Proof.
  intros m vs d eps uv i H3 Hv Hd He Hp Hi. destruct (regular_convex m vs d H3 Hv Hd) as (L & _ & Hn & C & I). destruct (regular_heights m vs i H3 Hv Hi) as [E1 E2].
  destruct (bilinear_polygon pzero vs d Hd Hn C I eps uv i He Hp ltac:(lia)) as (s & t & E & T & S0 & S1).
  - apply separated_equal; try assumption; try lia. congruence.
  - exists s, t. split; [exact E|]. split; [|exact T]. split; [exact S0|]. apply S1. left. rewrite E1, E2. lra.
Qed.

Theorem C84_regular_coordinates : forall m vs d eps uv k, (3 <= m)%nat -> regularVertices m = Some vs -> domainFrames pzero vs = Some d -> 0 < eps -> in_polygon vs uv ->
  k = KBilinear \/ k = KInterconnected ->
  exists sds, mapToRibbons k eps d uv = Some sds /\ length sds = m /\ forall i sd, nth_error sds i = Some sd -> 0 <= px sd <= 1 /\ 0 <= py sd.
Proof.
  intros m vs d eps uv k H3 Hv Hd He Hp Hk. destruct (regular_convex m vs d H3 Hv Hd) as (L & _ & Hn & C & I).
  assert (X : exists sds, mapToRibbons k eps d uv = Some sds /\ length sds = length vs /\ forall i sd, nth_error sds i = Some sd -> 0 <= px sd <= 1 /\ 0 <= py sd).
  { apply (map_total pzero vs d Hd k eps uv (fun sd => 0 <= px sd <= 1 /\ 0 <= py sd)). rewrite L. intros i Hi.
    destruct (regular_bilinear m vs d eps uv i H3 Hv Hd He Hp Hi) as (s & t & B & S & T). destruct Hk as [-> | ->]; cbn [mapToRibbon].
    - exists (mkV2 s t). split; [exact B|]. cbn [px py]. split; assumption.
    - unfold interconnectedMap. rewrite (d_n_eq pzero vs d Hd), L, B.
      destruct (regular_bilinear m vs d eps uv (prv m i) H3 Hv Hd He Hp ltac:(apply prv_lt; lia)) as (sp & tp & -> & Sp & _).
      destruct (regular_bilinear m vs d eps uv (nxt m i) H3 Hv Hd He Hp ltac:(apply nxt_lt; lia)) as (sn & tn & -> & Sn & _). cbn [bind px py].
      eexists. split; [reflexivity|]. cbn [px py]. split; [exact S|]. pose proof (PatchContact.herm_lo s S). assert (0 <= (1 - sp) * hermite 0 s) by (apply Rmult_le_pos; lra). assert (0 <= sn * (1 - hermite 0 s)) by (apply Rmult_le_pos; lra). lra. }
  rewrite L in X. exact X.
Qed.
Print Assumptions C84_regular_coordinates.

(** ** Patches on convex domains *)
Lemma unit_tame : forall sds : list V2, (forall i sd, nth_error sds i = Some sd -> 0 <= px sd <= 1 /\ 0 <= py sd <= 1) -> tame sds.
Proof. intros sds H i sd E. destruct (H i sd E). split; [assumption|lra]. Qed.

Theorem C84_composite_ribbon : forall c vs d eps sf, convex_domain c vs d -> sf_n sf = length vs -> ready sf -> 0 < eps <= 1 -> total_on d vs (compositeRibbonEval eps d sf).
Proof.
  intros c vs d eps sf D Hn Hr He. pose proof D as (Hd & H3 & C & I). apply (total_on_intro c vs d _ Hd H3 C I). intros uv Hp. unfold compositeRibbonEval.
  destruct (C84_coordinates c vs d eps uv _ D He Hp (or_introl eq_refl)) as (sds & -> & L & U). cbn [bind]. apply compositePatch_ex; try assumption; [lra|lia|lia|apply unit_tame; exact U].
Qed.
Print Assumptions C84_composite_ribbon.

Theorem C84_midpoint : forall k c vs d eps sf m, convex_domain c vs d -> sf_n sf = length vs -> ready sf -> 0 < eps <= 1 ->
  exists cp, centralControl k eps d sf m = Some cp /\ total_on d vs (mEval k eps d sf cp).
Proof.
  intros k c vs d eps sf m D Hn Hr He. pose proof D as (Hd & H3 & C & I).
  assert (K : forall uv, in_polygon vs uv -> exists sds, mapToRibbons (mparam k) eps d uv = Some sds /\ length sds = sf_n sf /\ tame sds).
  { intros uv Hp. destruct (C84_coordinates c vs d eps uv (mparam k) D He Hp) as (sds & E & L & U); [destruct k; [left|right]; reflexivity|].
    exists sds. split; [exact E|]. split; [congruence|apply unit_tame; exact U]. }
  assert (Ec : d_center d = c) by (apply (PropsJoin.dom_parts c vs d Hd)).
  destruct (K c (inside_closed vs c I)) as (sds & E & L & T). unfold centralControl. rewrite Ec, E. cbn [bind].
  destruct (updateCentral_ex eps sf sds ltac:(lra) ltac:(lia) Hr L T k m) as [r ->]. cbn [bind]. exists (snd r). split; [reflexivity|].
  apply (total_on_intro c vs d _ Hd H3 C I). intros uv Hp. destruct (K uv Hp) as (sds' & E' & L' & T').
  destruct (mpatch_ex eps sf sds' ltac:(lra) ltac:(lia) Hr L' T' k (snd r)) as [p P]. exists p.
  destruct k; cbn [mEval mparam mpatch] in *; [unfold midpointEval|unfold midpointCoonsEval]; rewrite E'; cbn [bind]; exact P.
Qed.
Print Assumptions C84_midpoint.

Theorem C84_c0coons : forall c vs d eps cs, convex_domain c vs d -> length cs = length vs -> 0 < eps <= 1 -> total_on d vs (c0coonsEval eps d cs).
Proof.
  intros c vs d eps cs D Hn He. pose proof D as (Hd & H3 & C & I). apply (total_on_intro c vs d _ Hd H3 C I). intros uv Hp. unfold c0coonsEval.
  destruct (C84_coordinates c vs d eps uv _ D He Hp (or_introl eq_refl)) as (sds & -> & L & U). cbn [bind]. apply c0coons_ex; lia.
Qed.
Print Assumptions C84_c0coons.

Theorem C84_generalized_bezier : forall c vs d eps g deg, convex_domain c vs d -> shaped (length vs) deg g -> (1 <= deg)%nat -> 0 < eps <= 1 -> total_on d vs (gbSurfaceEval eps d g).
Proof.
  intros c vs d eps g deg D Hs Hg He. pose proof D as (Hd & H3 & C & I). apply (total_on_intro c vs d _ Hd H3 C I). intros uv Hp. unfold gbSurfaceEval.
  destruct (C84_coordinates c vs d eps uv _ D He Hp (or_introl eq_refl)) as (sds & -> & L & U). cbn [bind]. apply (gbEval_ex eps (length vs) deg); try assumption; lra.
Qed.
Print Assumptions C84_generalized_bezier.

Theorem C84_hybrid : forall c vs d eps g deg sf, convex_domain c vs d -> shaped (length vs) deg g -> (1 <= deg)%nat -> sf_n sf = length vs -> ready sf -> 0 < eps <= 1 ->
  total_on d vs (hybridSurfaceEval eps d g sf).
Proof.
  intros c vs d eps g deg sf D Hs Hg Hn Hr He. pose proof D as (Hd & H3 & C & I). apply (total_on_intro c vs d _ Hd H3 C I). intros uv Hp. unfold hybridSurfaceEval.
  destruct (C84_coordinates c vs d eps uv _ D He Hp (or_introl eq_refl)) as (sds & -> & L & U). cbn [bind]. destruct Hr as ((Lr & Cr & _) & _).
  apply (hybrid_ex eps (length vs) deg); try assumption; try lra; try congruence. intros i sd E. destruct (U i sd E) as [_ Z]. lra.
Qed.
Print Assumptions C84_hybrid.

Theorem C84_spatch : forall c vs d eps deg ws, convex_domain c vs d -> (deg <= 20)%nat -> PropsSPatch.full (length vs) deg (PropsSPatch.written ws) -> 0 < eps <= 1 ->
  total_on d vs (SPatchModel.spEval eps d (PropsSPatch.written ws)).
Proof.
  intros c vs d eps deg ws D Hg Hf He. pose proof D as (Hd & H3 & C & I). apply (total_on_intro c vs d _ Hd H3 C I). intros uv Hp. unfold SPatchModel.spEval.
  destruct (C84_barycentric c vs d eps uv D He Hp) as (l & -> & L & _). cbn [bind]. eexists. apply SPatchProofs.spSum_value.
  intros ix p In. destruct (SPatchProofs.complete_entry _ _ _ _ _ (PropsSPatch.full_complete _ _ _ Hf) In) as [E1 E2]. split; lia.
Qed.
Print Assumptions C84_spatch.

(** The side based patch has no value exactly at the stuck points. *)
Theorem C84_side_based : forall c vs d eps sf, convex_domain c vs d -> sf_n sf = length vs -> ready sf -> 0 < eps ->
  (forall uv, in_polygon vs uv -> (sideBasedEval eps d sf uv = None <-> exists i, (i < length vs)%nat /\ stuck vs eps i uv)) /\
  ((forall uv i, in_polygon vs uv -> (i < length vs)%nat -> ~ stuck vs eps i uv) -> total_on d vs (sideBasedEval eps d sf)).
Proof.
  intros c vs d eps sf D Hn Hr He. pose proof D as (Hd & H3 & C & I). destruct Hr as ((Lr & Cr & _) & _).
  assert (T : forall uv, in_polygon vs uv -> (forall i, (i < length vs)%nat -> ~ stuck vs eps i uv) -> exists p, sideBasedEval eps d sf uv = Some p).
  { intros uv Hp S. unfold sideBasedEval. destruct (parallel_polygon c vs d Hd H3 C I eps uv He Hp S) as (sds & -> & L & U). cbn [bind].
    apply sideBased_ex; try assumption; try congruence. lia. }
  split.
  - intros uv Hp. split.
    + intros E. assert (Q : forall m, (m <= length vs)%nat -> (exists i, (i < m)%nat /\ stuck vs eps i uv) \/ forall i, (i < m)%nat -> ~ stuck vs eps i uv).
      { induction m as [|m IH]; intros Hm; [right; intros; lia|]. destruct (IH ltac:(lia)) as [(i & Hi & S)|X]; [left; exists i; split; [lia|exact S]|].
        pose proof (bilinear_stuck c vs d Hd H3 C I eps uv m He Hp ltac:(lia)) as B. destruct (bilinearMap eps d m uv) as [r|].
        - right. intros i Hi S. destruct (Nat.eq_dec i m) as [->|]; [apply B in S; discriminate|apply (X i ltac:(lia) S)].
        - left. exists m. split; [lia|apply B; reflexivity]. }
      destruct (Q (length vs) (Nat.le_refl _)) as [X|X]; [exact X|exfalso]. destruct (T uv Hp X) as [p P]. congruence.
    + intros (i & Hi & S). unfold sideBasedEval. rewrite (parallel_none c vs d Hd H3 C I eps uv i He Hp Hi S). reflexivity.
  - intros S. apply (total_on_intro c vs d _ Hd H3 C I). intros uv Hp. apply T; [exact Hp|]. intros i Hi. apply S; assumption.
Qed.
Print Assumptions C84_side_based.

(** ** Patches on regular domains *)
Theorem C84_regular : forall m vs d eps sf, (3 <= m)%nat -> regularVertices m = Some vs -> domainFrames pzero vs = Some d -> sf_n sf = m -> ready sf -> 0 < eps ->
  total_on d vs (sideBasedEval eps d sf) /\ total_on d vs (cornerBasedEval eps d sf) /\ total_on d vs (generalizedCoonsEval eps d sf).
Proof.
  intros m vs d eps sf H3 Hv Hd Hn Hr He. destruct (regular_convex m vs d H3 Hv Hd) as (L & D). pose proof D as (_ & Hq & C & I).
  split; [|split].
  - apply (C84_side_based pzero vs d eps sf D ltac:(congruence) Hr He). intros uv i _ Hi (Z & _).
    destruct (regular_heights m vs i H3 Hv ltac:(lia)) as [E1 E2].
    change (eps <= Rabs (heightPrev vs i - heightNext vs i)) in Z. rewrite E1, E2, Rminus_diag_eq, Rabs_R0 in Z by reflexivity. lra.
  - apply (total_on_intro pzero vs d _ Hd Hq C I). intros uv Hp. unfold cornerBasedEval.
    destruct (C84_regular_coordinates m vs d eps uv _ H3 Hv Hd He Hp (or_introl eq_refl)) as (sds & -> & Ls & U). cbn [bind]. apply cornerBased_ex; try assumption; try lia.
  - apply (total_on_intro pzero vs d _ Hd Hq C I). intros uv Hp. unfold generalizedCoonsEval.
    destruct (C84_regular_coordinates m vs d eps uv _ H3 Hv Hd He Hp (or_intror eq_refl)) as (sds & -> & Ls & U). cbn [bind]. apply coons_ex; try assumption; try lia.
Qed.
Print Assumptions C84_regular.

Theorem C84_superd : forall m vs d eps p p', (3 <= m)%nat -> regularVertices m = Some vs -> domainFrames pzero vs = Some d -> PropsSuperD.complete_net p -> su_n p = m ->
  sdUpdateRibbons p = Some p' -> 0 < eps -> total_on d vs (sdEval eps d p').
Proof.
  intros m vs d eps p p' H3 Hv Hd Hc Hn Hu He. destruct (regular_convex m vs d H3 Hv Hd) as (L & D). pose proof D as (_ & Hq & C & I).
  apply (total_on_intro pzero vs d _ Hd Hq C I). intros uv Hp.
  destruct (SuperDProofs.sdEval_value m vs d H3 Hv Hd p p' Hc Hn Hu eps uv He Hp) as (b & _ & _ & _ & E). eexists. exact E.
Qed.
Print Assumptions C84_superd.

(** ** The circular domain: everywhere *)
Theorem C84_circle : forall n deg g eps, (3 <= n)%nat -> (1 <= deg)%nat -> shaped n deg g ->
  (forall uv, exists p, gbcSurfaceEval eps g uv = Some p) /\
  (forall r, (1 <= r)%nat -> exists m, surfaceMeshCircle n (gbcSurfaceEval eps g) r = Some m /\ length (pm_points m) = meshSizeCircle n r).
Proof.
  intros n deg g eps H3 Hg Hs.
  assert (T : forall uv, exists p, gbcSurfaceEval eps g uv = Some p).
  { intros uv. unfold gbcSurfaceEval. pose proof Hs as (En & _). rewrite En. destruct (mapM_total_nth _ (fun i => circularMap eps n i uv) n) as (sds & E & L & _).
    { intros i _. destruct (ParamCircular.circular_range eps n i uv ltac:(lia)) as (h & -> & _). eexists; reflexivity. }
    rewrite E. cbn [bind]. apply (gbc_ex n deg g sds); try assumption. }
  split; [exact T|]. intros r Hr. destruct (parameters_length_circle n r ltac:(lia) Hr) as (ps & E & L). unfold surfaceMeshCircle. rewrite E. cbn [bind].
  assert (M : exists pts, mapM (gbcSurfaceEval eps g) ps = Some pts /\ length pts = length ps).
  { clear E L. induction ps as [|p ps IH]; [exists []; split; reflexivity|]. destruct (T p) as [q Q]. destruct IH as (pts & M & Lp).
    exists (q :: pts). cbn [mapM]. rewrite Q. cbn [bind]. rewrite M. split; [reflexivity|simpl; rewrite Lp; reflexivity]. }
  destruct M as (pts & M & Lp). rewrite M. cbn [bind]. eexists. split; [reflexivity|]. cbn [pm_points]. lia.
Qed.
Print Assumptions C84_circle.

(** ** The boundary: a convex quadrilateral with a vertex where the side based
    patch has no value, so it has no mesh at any resolution. *)
Lemma thin_convex : forall q, 0 < q -> strictly_convex (thin q).
Proof.
  intros q Hq k i Hk Hi N1 N2. cbn [length thin] in *.
  destruct k as [|[|[|[|k]]]]; [| | | |lia]; destruct i as [|[|[|[|i]]]]; try lia; try (exfalso; apply N2; reflexivity); try (exfalso; apply N1; reflexivity);
    unfold sarea, pcross, vtx, prv, thin; simpl; lra.
Qed.
Lemma thin_stuck : forall q, 0 < q <= 1 / 5 -> stuck (thin q) (q * q) 2 (mkV2 1 (2 / 5 * q)).
Proof.
  intros q Hq. unfold stuck, over. cbn [length thin]. change (prv 4 2) with 1%nat. change (prv 4 1) with 0%nat. change (nxt 4 2) with 3%nat.
  unfold vtx, sarea, pcross, pdot. simpl.
  match goal with |- ?e <= Rabs ?x /\ _ => replace x with (q / 5) by field end. rewrite Rabs_right by lra. split; [nra|]. split; [|field].
  match goal with |- ?x < _ => replace x with (16 / 25 * (q * q)) by field end. nra.
Qed.
Theorem C84_thin : forall q sf, 0 < q <= 1 / 5 -> sf_n sf = 4%nat -> ready sf ->
  exists c d, domainUpdate (thin q) = Some d /\ convex_domain c (thin q) d /\ sideBasedEval (q * q) d sf (mkV2 1 (2 / 5 * q)) = None /\
    forall r, (1 <= r)%nat -> surfaceMesh (d_n d) (d_center d) (d_verts d) (sideBasedEval (q * q) d sf) r = None.
Proof.
  intros q sf Hq Hn Hr. destruct (C84_domain (thin q) ltac:(simpl; lia) (thin_convex q ltac:(lra))) as (c & d & E & D). exists c, d. split; [exact E|]. split; [exact D|].
  pose proof D as (Hd & H3 & C & I).
  assert (N : sideBasedEval (q * q) d sf (mkV2 1 (2 / 5 * q)) = None).
  { apply (C84_side_based c (thin q) d (q * q) sf D Hn Hr ltac:(nra)); [|exists 2%nat; split; [simpl; lia|apply thin_stuck; exact Hq]].
    change (mkV2 1 (2 / 5 * q)) with (vtx (thin q) 3). apply (vtx_closed (thin q) C 3%nat ltac:(simpl; lia)). }
  split; [exact N|]. intros r Rr. destruct (surfaceMesh _ _ _ _ r) as [m|] eqn:M; [exfalso|reflexivity].
  destruct (PropsJoin.dom_parts c (thin q) d Hd) as (E1 & E2 & E3). rewrite E1, E2, E3 in M. unfold surfaceMesh in M.
  destruct (parametersImpl (length (thin q)) c (thin q) r) as [ps|] eqn:Ep; [|discriminate]. cbn [bind] in M.
  destruct (mapM _ ps) as [pts|] eqn:Em; [|discriminate].
  pose proof (loop_params (thin q) c r ps 2 r H3 Rr Ep ltac:(simpl; lia) ltac:(lia)) as X.
  assert (Y : MeshModel.edgePoint (length (thin q)) (thin q) (loopSide (length (thin q)) 2) (INR r / INR r) = Some (mkV2 1 (2 / 5 * q))).
  { change (loopSide (length (thin q)) 2) with 3%nat. rewrite MeshGeom.edgePoint_some by (simpl; lia). f_equal. cbn [length thin]. change (prv 4 3) with 2%nat. unfold vtx, thin. cbn [nth].
    assert (INR r <> 0) by (apply not_0_INR; lia). apply V2_ext; simpl; field; assumption. }
  rewrite Y in X. destruct (mapM_nth _ _ _ _ _ Em _ _ X) as (y & Ey & _). congruence.
Qed.
Print Assumptions C84_thin.

(** ** Examples: a trapezoid.  Its patches exist in the whole closed trapezoid,
    while on the line through the intersection of its legs there are no
    barycentric coordinates. *)
Definition trap : list V2 := [mkV2 (-2) 0; mkV2 2 0; mkV2 1 1; mkV2 (-1) 1].
Lemma trap_convex : strictly_convex trap.
Proof.
  intros k i Hk Hi N1 N2. cbn [length trap] in *.
  destruct k as [|[|[|[|k]]]]; [| | | |lia]; destruct i as [|[|[|[|i]]]]; try lia; try (exfalso; apply N2; reflexivity); try (exfalso; apply N1; reflexivity);
    unfold sarea, pcross, vtx, prv, trap; simpl; lra.
Qed.
Example C84_example : forall eps a b c e, 0 < eps <= 1 -> exists cs d, domainUpdate trap = Some d /\
  let sf := mkSurf 4 true (lineRibs [a; b; c; e]) cs in
  (exists p, compositeRibbonEval eps d sf (mkV2 (3/2) (1/2)) = Some p) /\
  (exists m, surfaceMesh (d_n d) (d_center d) (d_verts d) (compositeRibbonEval eps d sf) 15 = Some m /\ length (pm_points m) = 256%nat) /\
  (forall x, compositeRibbonEval eps d sf (mkV2 x 2) = None).
Proof.
  intros eps a b c e He. destruct (BlendProps.lineRibs_ok [a; b; c; e] ltac:(simpl; lia)) as (C & cs & U). exists cs.
  destruct (C84_domain trap ltac:(simpl; lia) trap_convex) as (ce & d & E & D). exists d. split; [exact E|]. cbv zeta. set (sf := mkSurf 4 true _ cs).
  destruct (C84_composite_ribbon ce trap d eps sf D eq_refl) as [T1 T2]; [split; [exact C|exact U]|exact He|]. split; [|split].
  - apply T1. intros k Hk. destruct k as [|[|[|[|k]]]]; [| | | |simpl in Hk; lia]; unfold sarea, pcross, vtx, prv, trap; simpl; lra.
  - destruct (T2 15%nat ltac:(lia)) as (m & M & L). exists m. split; [exact M|]. rewrite L. reflexivity.
  - intros x. unfold compositeRibbonEval, mapToRibbons. destruct D as (Hd & _). rewrite (d_n_eq ce trap d Hd). cbn [length trap seq mapM mapToRibbon]. unfold baryMap.
    rewrite (bary_closed trap (mkV2 x 2) d (d_verts_eq ce trap d Hd) ltac:(simpl; lia)) by (intros; cbn [baryRadius]; lra).
    assert (Z : rsum (length trap) (wfun trap (mkV2 x 2) Wachspress) = 0).
    { cbn [length trap rsum]. unfold wfun, prodBut, prodBut2, bcr, tri, svec, vtx, sarea, pcross, baryRadius, rprod.
      cbv [length trap prv nxt Nat.add Nat.sub Nat.modulo Nat.divmod fst snd nth Nat.eqb seq map fold_right rprod]. simpl. field. }
    rewrite Z. destruct (Req_EM_T 0 0); [reflexivity|contradiction].
Qed.
