(** Properties of patches whose sides are counted from another one: C77. *)
From Coq Require Import FunctionalExtensionality.
From Verif Require Import Base MeshModel GeomSpec UtilModel UtilSpec UtilProofs DomainModel DomainProofs DomainPolygons ParamModel RibbonModel SurfaceModel SurfaceEval.
From Verif Require Import PropsSurface SurfaceSpec BlendProps.
From Verif Require Import GBModel GBSpec HybridModel FEMSpec ElasticModel PropsElastic PolarPatchModel SuperDModel.
From Verif Require Import RotSpec RotProofs RotParam RotMotion RotPatches RotPatches2 RotDomains.
Open Scope R_scope.

(** The patches that are determined by ribbons, with [cp] the central control
    point of those that have one. *)
Inductive tpatch := TSide | TCorner | TCoons | TComposite | TMidpoint (cp : V3) | TMidpointCoons (cp : V3).
Definition tEval (k : tpatch) : R -> dom -> surf -> V2 -> option V3 :=
  match k with
  | TSide => sideBasedEval | TCorner => cornerBasedEval | TCoons => generalizedCoonsEval | TComposite => compositeRibbonEval
  | TMidpoint cp => fun eps d sf => midpointEval eps d sf cp
  | TMidpointCoons cp => fun eps d sf => midpointCoonsEval eps d sf cp
  end.

Lemma wachspress_near : forall eps vs uv, eps <= 1 -> one_near Wachspress eps vs uv.
Proof. intros eps vs uv H i j p q _ _ A. cbn [baryRadius] in A. lra. Qed.
Lemma ribbons_length : forall k eps d uv sds, mapToRibbons k eps d uv = Some sds -> length sds = d_n d.
Proof. intros k eps d uv sds H. apply mapM_length in H. rewrite seq_length in H. exact H. Qed.

Section Relabel.
Variables (eps : R) (d : dom) (sf : surf) (uv : V2).
Hypothesis He : eps <= 1.
Hypothesis Fu : full d.
Hypothesis H2 : (2 <= d_n d)%nat.
Hypothesis En : sf_n sf = d_n d.
Hypothesis Lr : length (sf_ribbons sf) = sf_n sf.
Hypothesis Lc : length (sf_corners sf) = sf_n sf.
Lemma by_ribbons : forall k (F : surf -> list V2 -> option V3), k <> KSuperD -> kind_near k eps (d_verts d) uv ->
  (forall sds, complete sf sds -> F (rotSurf sf) (rot sds) = F sf sds) ->
  bind (mapToRibbons k eps (rotDom d) uv) (F (rotSurf sf)) = bind (mapToRibbons k eps d uv) (F sf).
Proof.
  intros k F K N H. rewrite (ribbons_rot d Fu) by assumption. rewrite bind_map_some. apply bind_cong. intros sds E. apply H. apply ribbons_length in E.
  repeat split; congruence.
Qed.
Lemma tEval_rot : forall k, tEval k eps (rotDom d) (rotSurf sf) uv = tEval k eps d sf uv.
Proof.
  intros [| | | |cp|cp]; cbn [tEval].
  - apply (by_ribbons KParallel (sideBased eps)); [discriminate|exact I|intros; apply sideBased_rot; assumption].
  - apply (by_ribbons KBilinear (cornerBased eps)); [discriminate|exact I|intros; apply cornerBased_rot; assumption].
  - apply (by_ribbons KInterconnected (generalizedCoons eps)); [discriminate|exact I|intros; apply generalizedCoons_rot; assumption].
  - apply (by_ribbons (KBary Wachspress) (compositeRibbonPatch eps)); [discriminate|apply wachspress_near; exact He|intros; apply compositePatch_rot; assumption].
  - apply (by_ribbons (KBary Wachspress) (fun sf => midpointPatch eps sf cp)); [discriminate|apply wachspress_near; exact He|intros; apply midpoint_rot; assumption].
  - apply (by_ribbons (KConstrained Wachspress) (fun sf => midpointCoons eps sf cp)); [discriminate|apply wachspress_near; exact He|intros; apply midpointCoons_rot; assumption].
Qed.
End Relabel.
Lemma tEval_move : forall c s t k eps d sf uv, c * c + s * s = 1 -> tEval k eps (moveDom c s t d) sf (turned c s t uv) = tEval k eps d sf uv.
Proof.
  intros c s t k eps d sf uv Un. destruct k; cbn [tEval]; unfold sideBasedEval, cornerBasedEval, generalizedCoonsEval, compositeRibbonEval, midpointEval, midpointCoonsEval; rewrite (ribbons_move c s t Un); reflexivity.
Qed.

(** ** C77: no side is first.

    The same polygon with its vertices listed from the second one, the ribbons
    and the corners likewise: the domain has the same centre, and the patch is
    the same at every domain point. *)
Theorem C77_relabel : forall k eps c vs d sf uv, eps <= 1 -> domainFrames c vs = Some d -> (2 <= length vs)%nat ->
  sf_n sf = length vs -> length (sf_ribbons sf) = length vs -> length (sf_corners sf) = length vs ->
  exists d', domainFrames c (rot vs) = Some d' /\ tEval k eps d' (rotSurf sf) uv = tEval k eps d sf uv.
Proof.
  intros k eps c vs d sf uv He E H2 En Lr Lc. exists (rotDom d). split; [rewrite frames_rot, E; reflexivity|].
  assert (Ed : d_n d = length vs) by (rewrite frames_closed in E; injection E as <-; reflexivity).
  apply tEval_rot; try congruence; try lia. eapply frames_full; exact E.
Qed.
Print Assumptions C77_relabel.
(** The centre of the polygon and the corner data are the same, too. *)
Theorem C77_center : forall vs, computeCenter (rot vs) = computeCenter vs.
Proof. exact center_rot. Qed.
Print Assumptions C77_center.
Theorem C77_corners : forall n rs cs, length rs = n -> updateCorners n rs = Some cs -> updateCorners n (rot rs) = Some (rot cs).
Proof. intros n rs cs L H. rewrite (updateCorners_rot n rs L), H. reflexivity. Qed.
Print Assumptions C77_corners.
Theorem C77_central : forall k eps c vs d sf m, eps <= 1 -> domainFrames c vs = Some d -> (2 <= length vs)%nat ->
  sf_n sf = length vs -> length (sf_ribbons sf) = length vs -> length (sf_corners sf) = length vs ->
  exists d', domainFrames c (rot vs) = Some d' /\ centralControl k eps d' (rotSurf sf) m = centralControl k eps d sf m.
Proof.
  intros k eps c vs d sf m He E H2 En Lr Lc. exists (rotDom d). split; [rewrite frames_rot, E; reflexivity|].
  assert (Ed : d_n d = length vs) by (rewrite frames_closed in E; injection E as <-; reflexivity).
  unfold centralControl. cbn [rotDom d_center]. fold (rotDom d).
  apply (by_ribbons eps d sf (d_center d) (frames_full _ _ _ E) ltac:(lia) ltac:(congruence) ltac:(congruence) ltac:(congruence) (mparam k)
    (fun sf sds => r <- updateCentral eps sf (mpatch k eps sf) sds m ;; Some (snd r))).
  - destruct k; discriminate.
  - destruct k; apply wachspress_near; exact He.
  - intros sds Cm. rewrite (central_rot eps sf sds Cm (mpatch k eps sf)); [reflexivity|]. destruct k; cbn [mpatch]; [apply midpoint_rot|apply midpointCoons_rot]; exact Cm.
Qed.
Print Assumptions C77_central.

(** The plane has no preferred place or direction: a polygon that is moved
    gives the same patch at the moved points. *)
Theorem C77_motion : forall k c s t eps ce vs d sf uv, c * c + s * s = 1 -> domainFrames ce vs = Some d ->
  exists d', domainFrames (turned c s t ce) (map (turned c s t) vs) = Some d' /\ tEval k eps d' sf (turned c s t uv) = tEval k eps d sf uv.
Proof.
  intros k c s t eps ce vs d sf uv Un E. exists (moveDom c s t d). split; [rewrite (frames_move c s t Un), E; reflexivity|]. apply tEval_move. exact Un.
Qed.
Print Assumptions C77_motion.
Theorem C77_motion_center : forall c s t vs, c * c + s * s = 1 -> computeCenter (map (turned c s t) vs) = option_map (turned c s t) (computeCenter vs).
Proof. intros c s t vs Un. apply center_move. exact Un. Qed.
Print Assumptions C77_motion_center.

(** Hence on a regular domain, which stays where it is, a patch with shifted
    ribbons is the patch turned by one side. *)
Lemma regular_dom : forall n vs d, (3 <= n)%nat -> regularVertices n = Some vs -> domainFrames pzero vs = Some d ->
  rotDom d = moveDom (cos (2 * PI / INR n)) (sin (2 * PI / INR n)) pzero d.
Proof.
  intros n vs d H3 Hv E. apply some_eq.
  change (Some (rotDom d)) with (option_map rotDom (Some d)). rewrite <- E, <- frames_rot, (regular_rot n vs H3 Hv).
  replace pzero with (turned (cos (2 * PI / INR n)) (sin (2 * PI / INR n)) pzero pzero) at 1 by (unfold turned, pzero; apply V2_ext; simpl; ring).
  rewrite (frames_move _ _ _ (turn_unit _)), E. reflexivity.
Qed.
Lemma regular_length : forall n vs, regularVertices n = Some vs -> length vs = n.
Proof.
  intros n vs H. unfold regularVertices in H. destruct (Nat.eqb_spec n 4) as [->|]; [injection H as <-; reflexivity|].
  destruct (fdiv (2 * PI) (INR n)); [cbn [bind] in H|discriminate]. injection H as <-. apply tabulate_length.
Qed.
Lemma frames_n : forall c vs d, domainFrames c vs = Some d -> d_n d = length vs.
Proof. intros c vs d E. rewrite frames_closed in E. injection E as <-. reflexivity. Qed.
Lemma frames_verts : forall c vs d, domainFrames c vs = Some d -> d_verts d = vs.
Proof. intros c vs d E. rewrite frames_closed in E. injection E as <-. reflexivity. Qed.
Theorem C77_regular : forall k n eps vs d sf uv, (3 <= n)%nat -> eps <= 1 -> regularVertices n = Some vs -> domainFrames pzero vs = Some d ->
  sf_n sf = n -> length (sf_ribbons sf) = n -> length (sf_corners sf) = n ->
  tEval k eps d (rotSurf sf) uv = tEval k eps d sf (turned (cos (2 * PI / INR n)) (sin (2 * PI / INR n)) pzero uv).
Proof.
  intros k n eps vs d sf uv H3 He Hv E En Lr Lc. pose proof (regular_length n vs Hv) as Lv. pose proof (frames_n _ _ _ E) as Ed.
  rewrite <- (tEval_move (cos (2 * PI / INR n)) (sin (2 * PI / INR n)) pzero) by apply turn_unit. rewrite <- (regular_dom n vs d H3 Hv E).
  apply tEval_rot; try congruence; try lia. eapply frames_full; exact E.
Qed.
Print Assumptions C77_regular.
(** A circular domain starts at the first side: with the arc lengths shifted it
    is turned back by the arc of the side that was first, and so is the patch. *)
Theorem C77_circular : forall k eps l ls vs ce d sf uv, eps <= 1 -> (2 <= length (l :: ls))%nat -> circularVertices (l :: ls) = Some vs ->
  computeCenter vs = Some ce -> domainFrames ce vs = Some d ->
  sf_n sf = length (l :: ls) -> length (sf_ribbons sf) = length (l :: ls) -> length (sf_corners sf) = length (l :: ls) ->
  let b := - (l * (2 * PI / accumulate (l :: ls))) in let T := turned (cos b) (sin b) pzero in
  exists vs' ce' d', circularVertices (rot (l :: ls)) = Some vs' /\ computeCenter vs' = Some ce' /\ domainFrames ce' vs' = Some d' /\
    tEval k eps d' (rotSurf sf) (T uv) = tEval k eps d sf uv.
Proof.
  intros k eps l ls vs ce d sf uv He H2 Hv Ec E En Lr Lc b T. assert (Lv : length vs = length (l :: ls)).
  { unfold circularVertices in Hv. destruct (fdiv _ _); [cbn [bind] in Hv|discriminate]. apply some_eq in Hv. subst vs. rewrite circularLoop_length, map_length. reflexivity. }
  exists (map T (rot vs)), (T ce), (moveDom (cos b) (sin b) pzero (rotDom d)). split; [apply circular_rot; exact Hv|].
  split; [unfold T; rewrite (center_move _ _ _ (turn_unit b)), center_rot, Ec; reflexivity|].
  split; [unfold T; rewrite (frames_move _ _ _ (turn_unit b)), frames_rot, E; reflexivity|].
  unfold T. rewrite tEval_move by apply turn_unit. pose proof (frames_n _ _ _ E) as Ed. apply tEval_rot; try congruence; try lia. eapply frames_full; exact E.
Qed.
Print Assumptions C77_circular.

(** ** The other patches *)

(** C0 Coons patches. *)
Theorem C77_c0coons : forall eps c vs d cs uv, eps <= 1 -> domainFrames c vs = Some d -> (2 <= length vs)%nat -> length cs = length vs ->
  exists d', domainFrames c (rot vs) = Some d' /\ c0coonsEval eps d' (rot cs) uv = c0coonsEval eps d cs uv.
Proof.
  intros eps c vs d cs uv He E H2 Lc. exists (rotDom d). split; [rewrite frames_rot, E; reflexivity|]. pose proof (frames_n _ _ _ E) as Ed.
  unfold c0coonsEval. rewrite (ribbons_rot d (frames_full _ _ _ E)) by (try discriminate; try lia; apply wachspress_near; exact He).
  rewrite bind_map_some. apply bind_cong. intros sds Es. apply ribbons_length in Es. rewrite coonsRibbons_rot, bind_map_some. apply bind_cong. intros rs Er.
  apply mapM_length in Er. rewrite seq_length in Er. rewrite rot_length. apply c0coons_rot; congruence.
Qed.
Print Assumptions C77_c0coons.

(** Generalized Bezier patches with matching corner points, away from points that
    are near two corners at once; and hybrid patches. *)
Theorem C77_generalized_bezier : forall n deg eps vs d g uv, (3 <= n)%nat -> (1 <= deg)%nat -> 0 < eps <= 1 ->
  regularVertices n = Some vs -> domainFrames pzero vs = Some d -> shaped n deg g -> consistent n deg g ->
  let T := turned (cos (2 * PI / INR n)) (sin (2 * PI / INR n)) pzero in
  (forall sds, mapToRibbons (KBary Wachspress) eps d (T uv) = Some sds -> one_corner eps sds) ->
  gbSurfaceEval eps d (rotGB g) uv = gbSurfaceEval eps d g (T uv).
Proof.
  intros n deg eps vs d g uv H3 Hd He Hv E Sh Co T On. unfold gbSurfaceEval. pose proof (regular_length n vs Hv) as Lv. pose proof (frames_n _ _ _ E) as Ed.
  rewrite <- (ribbons_move _ _ pzero (turn_unit (2 * PI / INR n))). rewrite <- (regular_dom n vs d H3 Hv E). fold T.
  rewrite (ribbons_rot d (frames_full _ _ _ E)) by (try discriminate; try lia; apply wachspress_near; lra).
  rewrite bind_map_some. apply bind_cong. intros sds Es. apply (gbEval_rot n deg); try assumption; try lia; try lra; [apply ribbons_length in Es; congruence|apply On; exact Es].
Qed.
Print Assumptions C77_generalized_bezier.
Theorem C77_hybrid : forall n deg eps vs d g sf uv, (3 <= n)%nat -> 0 < eps <= 1 ->
  regularVertices n = Some vs -> domainFrames pzero vs = Some d -> shaped n deg g -> length (sf_ribbons sf) = n ->
  hybridSurfaceEval eps d (rotGB g) (rotSurf sf) uv = hybridSurfaceEval eps d g sf (turned (cos (2 * PI / INR n)) (sin (2 * PI / INR n)) pzero uv).
Proof.
  intros n deg eps vs d g sf uv H3 He Hv E Sh Lr. unfold hybridSurfaceEval. pose proof (regular_length n vs Hv) as Lv. pose proof (frames_n _ _ _ E) as Ed.
  rewrite <- (ribbons_move _ _ pzero (turn_unit (2 * PI / INR n))). rewrite <- (regular_dom n vs d H3 Hv E).
  rewrite (ribbons_rot d (frames_full _ _ _ E)) by (try discriminate; try lia; apply wachspress_near; lra).
  rewrite bind_map_some. apply bind_cong. intros sds Es. apply (hybridEval_rot n deg); try assumption; try lra. apply ribbons_length in Es; congruence.
Qed.
Print Assumptions C77_hybrid.
(** The corner variant lives on the disc; points are given by radius and angle,
    and the angle is taken between minus and plus half a turn. *)
Theorem C77_disc : forall n deg eps g r phi phi', (3 <= n)%nat -> shaped n deg g ->
  - PI <= phi <= PI -> - PI <= phi' <= PI -> phi' = phi - 2 * PI / INR n \/ phi' = phi - 2 * PI / INR n + 2 * PI ->
  gbcSurfaceEval eps (rotGB g) (mkV2 r phi') = gbcSurfaceEval eps g (mkV2 r phi).
Proof.
  intros n deg eps g r phi phi' H3 Sh B1 B2 B3. unfold gbcSurfaceEval. cbn [rotGB gb_n]. fold (rotGB g). assert (En : gb_n g = n) by apply Sh. rewrite En.
  rewrite (mapM_rot _ n (fun i => circularMap eps n i (mkV2 r phi))) by (intros i Hi; apply circularMap_rot; [exact H3|exact Hi|split; [exact B1|split; [exact B2|exact B3]]]).
  rewrite bind_map_some. apply bind_cong. intros sds Es. apply mapM_length in Es. rewrite seq_length in Es. apply (gbcEval_rot n deg g sds); assumption.
Qed.
Print Assumptions C77_disc.
(** Super-D patches; the ribbons are computed again. *)
Theorem C77_superd : forall n eps vs d p q uv, (3 <= n)%nat -> regularVertices n = Some vs -> domainFrames pzero vs = Some d ->
  su_n p = n -> length (su_f p) = n -> length (su_e p) = n -> sdUpdateRibbons p = Some q ->
  sdUpdateRibbons (rotSD p) = Some (rotSD q) /\
  sdEval eps d (rotSD q) uv = sdEval eps d q (turned (cos (2 * PI / INR n)) (sin (2 * PI / INR n)) pzero uv).
Proof.
  intros n eps vs d p q uv H3 Hv E En Lf Le U. split; [rewrite sdUpdate_rot by congruence; rewrite U; reflexivity|].
  pose proof (regular_length n vs Hv) as Lv. pose proof (frames_n _ _ _ E) as Ed. pose proof (regular_dom n vs d H3 Hv E) as Rd.
  unfold sdEval. rewrite <- (ribbons_move _ _ pzero (turn_unit (2 * PI / INR n))). rewrite <- Rd.
  assert (Q : su_n q = n /\ length (su_q q) = n). { unfold sdUpdateRibbons in U. destruct (mapM _ _) as [l|] eqn:El; [cbn [bind] in U|discriminate]. apply some_eq in U. subst q. cbn [su_n su_q]. apply mapM_length in El. rewrite seq_length in El. split; congruence. }
  destruct Q as (Qn & Lq).
  assert (Sm : superdMultipliers (rotDom d) = superdMultipliers d) by (rewrite Rd; apply superd_move, turn_unit).
  destruct (superdMultipliers d) as [ms|] eqn:M.
  - rewrite (superd_rot d (frames_full _ _ _ E) ms) by (try congruence; lia). rewrite bind_map_some. apply bind_cong. intros sds Es. apply ribbons_length in Es.
    apply (sdSum_rot eps q sds); congruence.
  - assert (Z : forall d0 u, d_n d0 = n -> superdMultipliers d0 = None -> mapToRibbons KSuperD eps d0 u = None).
    { intros d0 u N0 M0. unfold mapToRibbons. rewrite N0. destruct n; [lia|]. cbn [seq mapM mapToRibbon]. rewrite M0. reflexivity. }
    rewrite !Z by (try exact M; try congruence; cbn [rotDom d_n]; congruence). reflexivity.
Qed.
Print Assumptions C77_superd.
(** Polar patches. *)
Theorem C77_polar : forall solve m eps c vs d sf uv, domainFrames c vs = Some d -> (2 <= length vs)%nat ->
  sf_n sf = length vs -> length (sf_ribbons sf) = length vs -> (forall q, one_near MeanValue eps vs q) ->
  exists d', domainFrames c (rot vs) = Some d' /\ polarEval solve m eps d' (rotSurf sf) uv = polarEval solve m eps d sf uv.
Proof.
  intros solve m eps c vs d sf uv E H2 En Lr On. exists (rotDom d). split; [rewrite frames_rot, E; reflexivity|]. pose proof (frames_n _ _ _ E) as Ed.
  assert (Ev : d_verts d = vs) by (eapply frames_verts; exact E).
  apply polarEval_rot; try congruence; try lia; [eapply frames_full; exact E|rewrite Ev; exact On].
Qed.
Print Assumptions C77_polar.
Theorem C77_polar_regular : forall solve m n eps vs d sf uv, (3 <= n)%nat -> regularVertices n = Some vs -> domainFrames pzero vs = Some d ->
  sf_n sf = n -> length (sf_ribbons sf) = n -> (forall q, one_near MeanValue eps vs q) ->
  polarEval solve m eps d (rotSurf sf) uv = polarEval solve m eps d sf (turned (cos (2 * PI / INR n)) (sin (2 * PI / INR n)) pzero uv).
Proof.
  intros solve m n eps vs d sf uv H3 Hv E En Lr On. pose proof (regular_length n vs Hv) as Lv. pose proof (frames_n _ _ _ E) as Ed.
  rewrite <- (polarEval_move _ _ pzero (turn_unit (2 * PI / INR n))). rewrite <- (regular_dom n vs d H3 Hv E).
  assert (Ev : d_verts d = vs) by (eapply frames_verts; exact E).
  apply polarEval_rot; try congruence; try lia; [eapply frames_full; exact E|rewrite Ev; exact On].
Qed.
Print Assumptions C77_polar_regular.
(** Elastic patches, away from the boundary, with an exact solver. *)
Theorem C77_elastic : forall solve c s t tol eps ce vs d sf uv foot P X, exact_solver solve -> c * c + s * s = 1 -> 0 < tol ->
  domainFrames ce vs = Some d -> (2 <= length vs)%nat -> sf_n sf = length vs -> length (sf_ribbons sf) = length vs ->
  feet eps d sf uv foot P X -> (forall i, (i < length vs)%nat -> tol <= pnorm (uv -p foot i)) -> spanning (length vs) uv foot ->
  exists d', domainFrames (turned c s t ce) (map (turned c s t) (rot vs)) = Some d' /\
    elasticSurfaceEval solve tol eps d' (rotSurf sf) (turned c s t uv) = elasticSurfaceEval solve tol eps d sf uv.
Proof.
  intros solve c s t tol eps ce vs d sf uv foot P X HS Un Ht E H2 En Lr Fe Far Sp. pose proof (frames_n _ _ _ E) as Ed.
  exists (moveDom c s t (rotDom d)). split; [rewrite (frames_move c s t Un), frames_rot, E; reflexivity|].
  apply (elastic_rot solve HS c s t Un tol eps d sf uv foot P X Ht); try congruence; try lia; try assumption; [eapply frames_full; exact E|intros i Hi; apply Far; congruence].
Qed.
Print Assumptions C77_elastic.

(** The square with four straight sides: side 2 of the patch, one third along,
    is found on side 1 of the patch with shifted ribbons. *)
Example C77_example : forall eps, 0 < eps <= 1/2 -> exists cs vs d, updateCorners 4 (lineRibs corners4) = Some cs /\
  regularVertices 4 = Some vs /\ domainFrames pzero vs = Some d /\
  let sf := mkSurf 4 true (lineRibs corners4) cs in
  compositeRibbonEval eps d sf (mkV2 (-1) (1/3)) = Some (mkV3 (2/3) 1 (1/3)) /\
  compositeRibbonEval eps d (rotSurf sf) (mkV2 (1/3) 1) = Some (mkV3 (2/3) 1 (1/3)).
Proof.
  intros eps Hp. destruct (lineRibs_ok corners4 ltac:(simpl; lia)) as (Cl & cs & U). exists cs.
  destruct (regularVertices 4) as [vs|] eqn:Hv; [|discriminate]. exists vs. destruct (regular_convex 4 vs ltac:(lia) Hv) as (L & C & I). 
  pose proof (frames_closed pzero vs) as E. destruct (domainFrames pzero vs) as [d|] eqn:Ed; [|discriminate]. exists d. split; [exact U|]. split; [reflexivity|]. split; [reflexivity|]. cbv zeta.
  assert (A : compositeRibbonEval eps d (mkSurf 4 true (lineRibs corners4) cs) (mkV2 (-1) (1/3)) = Some (mkV3 (2/3) 1 (1/3))).
  { apply (C41_composite_ribbon pzero vs d eps _ 2 (1/3) _ _ Ed); try assumption; try lia; try lra.
    - symmetry; exact L.
    - split; [exact Cl|exact U].
    - unfold ParamModel.edgePoint. rewrite (frames_verts _ _ _ Ed), (frames_n _ _ _ Ed), L. cbn in Hv. injection Hv as <-. cbn. f_equal. apply V2_ext; simpl; field.
    - eexists. split; [reflexivity|]. unfold lineRib, lineCurve. cbn [sr_curve cpt]. unfold affine3. apply V3_ext; simpl; field. }
  split; [exact A|]. assert (Lc : length cs = 4%nat) by (unfold updateCorners in U; apply mapM_length in U; rewrite seq_length in U; exact U).
  pose proof (C77_regular TComposite 4 eps vs d (mkSurf 4 true (lineRibs corners4) cs) (mkV2 (1/3) 1) ltac:(lia) ltac:(lra) Hv Ed eq_refl eq_refl Lc) as Q.
  cbn [tEval] in Q. rewrite Q, <- A. f_equal. replace (2 * PI / INR 4) with (PI / 2) by (simpl INR; field). rewrite cos_PI2, sin_PI2. unfold turned. apply V2_ext; simpl; ring.
Qed.
