(** C75: moving the boundary curves moves the patch. *)
Require Import Verif.Base Verif.UtilModel Verif.DomainModel Verif.ParamModel Verif.RibbonModel Verif.RibbonSpec Verif.SurfaceModel Verif.SurfaceObj Verif.SurfaceSpec Verif.SurfaceEval.
Require Import Verif.GeomSpec Verif.DomainProofs Verif.DomainPolygons Verif.ParamSide Verif.ParamTame Verif.ParamMaps Verif.PropsParam Verif.PropsSurface Verif.ObjSpec Verif.PropsObjects.
Require Import Verif.RibbonProofs Verif.BlendProofs Verif.BlendProps Verif.PropsBlend Verif.PropsRibbon Verif.PropsSPatch Verif.SPatchModel Verif.SPatchProofs Verif.SuperDModel Verif.GBModel Verif.HybridModel.
Require Import Verif.MoveSpec Verif.MoveProofs Verif.MovePatches Verif.MovePatches2 Verif.MoveLine.
Open Scope R_scope.

(** ** Isometries *)
Definition turnZ (a : R) (v : V3) : V3 := mkV3 (cos a * vx v - sin a * vy v) (sin a * vx v + cos a * vy v) (vz v).
Definition flipY (v : V3) : V3 := mkV3 (vx v) (- vy v) (vz v).
Lemma turnZ_rotation : forall a, orthogonal (turnZ a) 1.
Proof.
  intros a. assert (C : sin a * sin a + cos a * cos a = 1) by (assert (T := sin2_cos2 a); unfold Rsqr in T; exact T).
  repeat split; [intros; unfold turnZ, vadd; simpl; f_equal; ring|intros; unfold turnZ, vscale; simpl; f_equal; ring|left; reflexivity| |].
  - intros [x y z] [x' y' z']. unfold turnZ, vdot; simpl. transitivity ((sin a * sin a + cos a * cos a) * (x * x' + y * y') + z * z'); [ring|]. rewrite C. ring.
  - intros [x y z] [x' y' z']. unfold turnZ, vcross, vscale; simpl. f_equal; try ring. transitivity ((sin a * sin a + cos a * cos a) * (x * y' - y * x')); [ring|]. rewrite C. ring.
Qed.
Lemma flipY_reflection : orthogonal flipY (-1).
Proof.
  repeat split; [intros; unfold flipY, vadd; simpl; f_equal; ring|intros; unfold flipY, vscale; simpl; f_equal; ring|right; reflexivity| |].
  - intros [x y z] [x' y' z']. unfold flipY, vdot; simpl. ring.
  - intros [x y z] [x' y' z']. unfold flipY, vcross, vscale; simpl. f_equal; ring.
Qed.

(** ** Normals and cross derivatives *)

(** Normals turn with the curves; the image under a reflection gets the opposite sign, as the
    orientation of the loop changes.  Under reflections no side may have opposite normals at its
    ends. *)
Theorem C75_normals : forall L o t eps res prev c next s, orthogonal L o -> o = 1 \/ tie_free eps res prev c next ->
  (m <- ribbonUpdate eps res (mvCurve L t prev) (mvCurve L t c) (mvCurve L t next) ;; rmfEval eps m s) =
  option_map (fun n => L n *v o) (m <- ribbonUpdate eps res prev c next ;; rmfEval eps m s).
Proof.
  intros L o t eps res prev c next s HO H. rewrite (ribbon_move L o t HO eps res prev c next H), bind_map, map_bind. apply bind_ext. intros m _. apply (eval_move L o t HO).
Qed.
Print Assumptions C75_normals.

(** All three cross derivative rules, with or without fence and handler. *)
Theorem C75_cross : forall L o t kd eps res prev c next mult h fence s, orthogonal L o -> o = 1 \/ tie_free eps res prev c next ->
  (d <- ribDerive kd eps res (mvCurve L t prev) (mvCurve L t c) (mvCurve L t next) mult (option_map L h) (option_map (fun f x => L (f x) *v o) fence) ;;
   ribCross kd eps (mvCurve L t c) (option_map (fun f x => L (f x) *v o) fence) d s) =
  option_map L (d <- ribDerive kd eps res prev c next mult h fence ;; ribCross kd eps c fence d s).
Proof.
  intros L o t kd eps res prev c next mult h fence s HO H. assert (D := derive_move L o t HO kd eps res prev c next mult h fence H). unfold mvFence, mvNormal in D. rewrite D, bind_map, map_bind. apply bind_ext. intros d _.
  apply (ribCross_move L o t HO kd eps c fence d s).
Qed.
Print Assumptions C75_cross.

(** A straight side between an inner and an outer corner: the normals at its ends are opposite.
    The half turn is made in the same direction whatever the other sides are, so that the mirror
    image of the input does not give the mirror image of the normals. *)
Theorem C75_half_turn : forall eps res j, 0 < eps -> (0 < j < res)%nat -> eps * (INR res * INR res) <= 1 ->
  let down := mkCurve (fun u => mkV3 0 (- u) 0) (fun _ => mkV3 0 (-1) 0) (fun a b => b - a) in
  let u := INR j / INR res in
  exists n n', (m <- ribbonUpdate eps res down line down ;; rmfEval eps m u) = Some n /\
    (m <- ribbonUpdate eps res (mvCurve flipY vzero down) (mvCurve flipY vzero line) (mvCurve flipY vzero down) ;; rmfEval eps m u) = Some n' /\
    n = mkV3 0 (- sin (PI * u)) (cos (PI * u)) /\ n' = mkV3 0 (sin (PI * u)) (- cos (PI * u)) /\ n' <> flipY n *v -1.
Proof.
  intros eps res j He Hj Hs down u. assert (Hr : (1 <= res)%nat) by lia. unfold ribbonUpdate. change (cder down 1) with (mkV3 0 (-1) 0). change (cder down 0) with (mkV3 0 (-1) 0). change (cder line 0) with (mkV3 1 0 0). change (cder line 1) with (mkV3 1 0 0).
  change (cder (mvCurve flipY vzero down) 1) with (flipY (mkV3 0 (-1) 0)). change (cder (mvCurve flipY vzero down) 0) with (flipY (mkV3 0 (-1) 0)). change (cder (mvCurve flipY vzero line) 0) with (flipY (mkV3 1 0 0)). change (cder (mvCurve flipY vzero line) 1) with (flipY (mkV3 1 0 0)).
  assert (Z : forall z, z = 1 \/ z = -1 -> vnormalize (mkV3 0 0 z) = Some (mkV3 0 0 z)).
  { intros z Hz. unfold vnormalize. replace (vnorm (mkV3 0 0 z)) with 1; [rewrite vdiv_some by lra; f_equal; unfold vscale; simpl; f_equal; field|]. unfold vnorm, vdot; simpl. replace (0 * 0 + 0 * 0 + z * z) with 1 by (destruct Hz as [-> | ->]; ring). rewrite sqrt_1. reflexivity. }
  assert (FL : mvCurve flipY vzero line = line).
  { unfold mvCurve, line. cbn [cpt cder clen]. f_equal; apply FunctionalExtensionality.functional_extensionality; intros x; unfold mvPoint, flipY, vadd, vzero; simpl; f_equal; ring. }
  assert (G : forall z, z = 1 \/ z = -1 -> (m <- rmfUpdate eps res line (mkV3 0 0 z) (mkV3 0 0 (- z)) ;; rmfEval eps m u) = Some (mkV3 0 (- z * sin (PI * u)) (z * cos (PI * u)))).
  { intros z Hz. destruct (line_update eps res (mkV3 0 0 z) Hr Hs eq_refl (mkV3 0 0 (- z))) as (l & Fl & Ll & ->). cbn [bind].
    assert (A : endAngle (mkV3 0 0 (- z)) (mkFrame 1 1 (mkV3 1 0 0) (mkV3 1 0 0) (mkV3 0 0 z)) = PI).
    { unfold endAngle. cbn [fr_n fr_d]. replace (vdot (mkV3 0 0 (- z)) (mkV3 0 0 z)) with (-1) by (unfold vdot; simpl; destruct Hz as [-> | ->]; ring). 
      replace (vdot (vcross (mkV3 0 0 z -v mkV3 0 0 (- z)) (mkV3 0 0 (- z))) (mkV3 1 0 0)) with 0 by (unfold vdot, vcross, vsub; simpl; ring). destruct (Rlt_dec 0 0); [lra|].
      unfold clamp. destruct (Rlt_dec (-1) (-1)); [lra|]. destruct (Rlt_dec 1 (-1)); [lra|]. replace (-1) with (Ropp 1) by ring. rewrite acos_opp, acos_1. ring. }
    rewrite A. assert (E := line_eval eps res (mkV3 0 0 z) He Hr l PI j Fl Ll ltac:(lia)). cbv zeta in E. etransitivity; [exact E|]. f_equal.
    rewrite rotate_general. replace (INR j / INR res * PI) with (PI * u) by (unfold u; ring). apply V3_ext; unfold vcross, vdot; simpl; ring. }
  exists (mkV3 0 (- sin (PI * u)) (cos (PI * u))), (mkV3 0 (sin (PI * u)) (- cos (PI * u))).
  replace (vcross (mkV3 0 (-1) 0) (mkV3 1 0 0)) with (mkV3 0 0 1) by (unfold vcross; simpl; f_equal; ring).
  replace (vcross (mkV3 1 0 0) (mkV3 0 (-1) 0)) with (mkV3 0 0 (-1)) by (unfold vcross; simpl; f_equal; ring).
  replace (vcross (flipY (mkV3 0 (-1) 0)) (flipY (mkV3 1 0 0))) with (mkV3 0 0 (-1)) by (unfold vcross, flipY; simpl; f_equal; ring).
  replace (vcross (flipY (mkV3 1 0 0)) (flipY (mkV3 0 (-1) 0))) with (mkV3 0 0 1) by (unfold vcross, flipY; simpl; f_equal; ring).
  rewrite !Z by (auto; right; ring). cbn [bind]. rewrite FL.
  split; [|split; [|split; [reflexivity|split; [reflexivity|]]]].
  - assert (G' := G 1 (or_introl eq_refl)). replace (- (1)) with (-1) in G' by ring. rewrite G'. f_equal. f_equal; ring.
  - assert (G' := G (-1) (or_intror eq_refl)). replace (- -1) with 1 in G' by ring. rewrite G'. f_equal. f_equal; ring.
  - assert (Rp : 0 < INR res) by (apply lt_0_INR; lia). assert (U : 0 < u < 1).
    { unfold u. split; [apply Rdiv_lt_0_compat; [apply lt_0_INR; lia|exact Rp]|]. apply (Rmult_lt_reg_r (INR res)); [exact Rp|]. unfold Rdiv. rewrite Rmult_assoc, Rinv_l, Rmult_1_l, Rmult_1_r by lra. apply lt_INR. lia. }
    assert (P := PI_RGT_0). assert (Sp : 0 < sin (PI * u)) by (apply sin_gt_0; nra). unfold flipY, vscale; simpl. intros X. injection X as X. lra.
Qed.
Print Assumptions C75_half_turn.

(** ** Surface objects *)

(** Whatever sequence of calls is made, on however many surfaces, curves, ribbons and domains: if
    all curves, handlers and fences are turned and shifted, so is everything computed. *)
Theorem C75_history : forall L t kd eps res w xs k, orthogonal L 1 ->
  wrun kd eps res (mvWorld L 1 t w) (map (mvOp L 1) xs) = option_map (mvWorld L 1 t) (wrun kd eps res w xs) /\
  (w' <- wrun kd eps res (mvWorld L 1 t w) (map (mvOp L 1) xs) ;; surfAt kd eps w' k) = option_map (mvSurf L t) (w' <- wrun kd eps res w xs ;; surfAt kd eps w' k).
Proof.
  intros L t kd eps res w xs k HO. assert (E := wrun_move L 1 t HO kd eps res eq_refl xs w). split; [exact E|]. rewrite E, bind_map, map_bind. apply bind_ext. intros w' _. apply (surfAt_move L 1 t HO).
Qed.
Print Assumptions C75_history.

(** Domains made from the curves do not change. *)
Theorem C75_domains : forall L o t cs, orthogonal L o ->
  let ang c := mkAngCurve (clen c 0 1) (cder c 0) (cder c 1) in
  angularVertices (map ang (map (mvCurve L t) cs)) = angularVertices (map ang cs) /\
  circularVertices (map (fun c => clen c 0 1) (map (mvCurve L t) cs)) = circularVertices (map (fun c => clen c 0 1) cs).
Proof.
  intros L o t cs HO ang. split; [|rewrite map_map; reflexivity]. unfold angularVertices. rewrite !map_map. cbn [mvCurve clen ang ac_len]. rewrite !map_length.
  replace (angularAngles (map (fun x => ang (mvCurve L t x)) cs)) with (angularAngles (map ang cs)); [reflexivity|].
  unfold angularAngles. rewrite !map_length. apply mapM_ext. intros i _. rewrite !nth_map. destruct (nth_error cs i) as [c|]; [cbn [bind option_map]|reflexivity]. destruct (nth_error cs (nxt (length cs) i)) as [c'|]; [cbn [bind option_map]|reflexivity].
  cbn [ang mvCurve ac_der0 ac_der1 cder clen]. rewrite !(L_normalize L o HO), bind_map. apply bind_ext. intros v1 _. rewrite bind_map. apply bind_ext. intros v2 _. rewrite <- (L_opp L (proj1 HO)), (L_dot L o HO). reflexivity.
Qed.
Print Assumptions C75_domains.

(** ** Patches *)

(** Affine maps, with ribbons and corner data mapped: the side based patch always moves. *)
Theorem C75_side_based : forall L t eps sf sds, linear L -> 0 < eps -> (1 <= length sds)%nat -> sf_n sf = length sds ->
  sideBased eps (mvSurf L t sf) sds = option_map (mvPoint L t) (sideBased eps sf sds).
Proof.
  intros L t eps sf sds HL He H1 Hn. destruct (C26_partition eps sds He) as (b & E & _ & _ & W); [destruct sds; simpl in H1; [lia|congruence]|]. apply (sideBased_aff L t HL eps sf sds b E); [congruence|exact W].
Qed.
Print Assumptions C75_side_based.

(** The corner based ones move where the corner blends add up to one (C27). *)
Theorem C75_corner_based : forall L t eps sf sds b, linear L -> blendCorner eps (sf_n sf) sds = Some b -> SurfaceSpec.weights_sum b 1 ->
  cornerBased eps (mvSurf L t sf) sds = option_map (mvPoint L t) (cornerBased eps sf sds) /\
  generalizedCoons eps (mvSurf L t sf) sds = option_map (mvPoint L t) (generalizedCoons eps sf sds) /\
  compositeRibbonPatch eps (mvSurf L t sf) sds = option_map (mvPoint L t) (compositeRibbonPatch eps sf sds).
Proof.
  intros L t eps sf sds b HL E W. split; [apply (cornerBased_aff L t HL eps sf sds b E W)|]. split; [apply (coons_aff L t HL eps sf sds b E W)|apply (compositePatch_aff L t HL eps sf sds b E W)].
Qed.
Print Assumptions C75_corner_based.

(** Where they do not, the patch does not follow: near two sides without a common corner the
    value, if there is one, is the origin of space wherever the curves are. *)
Theorem C75_origin : forall eps sf sds e f, 0 < eps -> length sds = sf_n sf -> (2 <= sf_n sf)%nat -> (e < sf_n sf)%nat -> (f < sf_n sf)%nat ->
  f <> e -> f <> nxt (sf_n sf) e -> e <> nxt (sf_n sf) f -> near eps sds e -> near eps sds f ->
  (forall j, (j < sf_n sf)%nat -> j <> e -> j <> f -> away eps sds j) ->
  (forall p, cornerBased eps sf sds = Some p -> p = vzero) /\ (forall p, compositeRibbonPatch eps sf sds = Some p -> p = vzero).
Proof.
  intros eps sf sds e f He Ls H2 Hi Hf N1 N2 N3 Ne Nf F. destruct (C27_nonadjacent_zero eps sds (sf_n sf) e f He Ls H2 Hi Hf N1 N2 N3 Ne Nf F) as (b & E & _ & Zb).
  assert (Z : forall n g p, (forall i q, (i < n)%nat -> g i = Some q -> q = vzero) -> osum n g = Some p -> p = vzero).
  { intros n g. induction n as [|n IH]; intros p G E'; [injection E' as <-; reflexivity|]. cbn [osum] in E'. destruct (osum n g) as [a|] eqn:Ea; [|discriminate]. cbn [bind] in E'. destruct (g n) as [c|] eqn:Ec; [|discriminate]. cbn [bind] in E'.
    assert (Za : a = vzero) by (apply IH; [intros i q Hq; apply G; lia|reflexivity]). assert (Zc : c = vzero) by (apply (G n); [lia|exact Ec]). rewrite Za, Zc in E'. injection E' as <-. v3ring. }
  assert (Q : forall i w, nth_error b i = Some w -> w = 0) by (intros i w H; apply Zb; apply nth_error_In in H; exact H).
  split; intros p Ep.
  - unfold cornerBased in Ep. rewrite E in Ep. cbn [bind] in Ep. apply (Z (sf_n sf) _ p) in Ep; [exact Ep|]. intros i q _ Eq. destruct (nth_error b i) as [w|] eqn:Ew; [|discriminate]. cbn [bind] in Eq. destruct (cornerInterpolant eps sf i sds) as [x|]; [|discriminate]. cbn [bind] in Eq. rewrite (Q i w Ew) in Eq. injection Eq as <-. v3ring.
  - unfold compositeRibbonPatch in Ep. rewrite E in Ep. cbn [bind] in Ep. match type of Ep with bind (osum _ ?g) _ = _ => destruct (osum (sf_n sf) g) as [r|] eqn:Er; [|discriminate]; apply (Z (sf_n sf) g r) in Er end.
    + cbn [bind] in Ep. injection Ep as <-. rewrite Er. v3ring.
    + intros i q _ Eq. destruct (nth_error sds i) as [sd|]; [|discriminate]. cbn [bind] in Eq. destruct (nth_error b i) as [w|] eqn:Ew; [|discriminate]. cbn [bind] in Eq. destruct (nth_error b (prv (sf_n sf) i)) as [w'|] eqn:Ew'; [|discriminate]. cbn [bind] in Eq.
      destruct (compositeRibbon eps sf i sd) as [x|]; [|discriminate]. cbn [bind] in Eq. rewrite (Q i w Ew), (Q _ w' Ew') in Eq. injection Eq as <-. v3ring.
Qed.
Print Assumptions C75_origin.

(** Patches with a central control point always move, and so does the central point found by
    update(), given or by default. *)
Theorem C75_midpoint : forall L t k eps sf cp sds, linear L ->
  mpatch k eps (mvSurf L t sf) (mvPoint L t cp) sds = option_map (mvPoint L t) (mpatch k eps sf cp sds) /\
  (0 < eps -> (1 <= sf_n sf)%nat -> forall m, updateCentral eps (mvSurf L t sf) (mpatch k eps (mvSurf L t sf)) sds (option_map (mvPoint L t) m) =
    option_map (fun r => (mvPoint L t (fst r), mvPoint L t (snd r))) (updateCentral eps sf (mpatch k eps sf) sds m)).
Proof. intros L t k eps sf cp sds HL. split; [apply (mpatch_aff L t HL)|]. intros He Hn m. apply (updateCentral_aff L t HL); assumption. Qed.
Print Assumptions C75_midpoint.

(** Patches with control nets move with the net, whatever their weights add up to. *)
Theorem C75_nets : forall L t eps g sf sds, linear L ->
  gbEval eps (mvGB L t g) sds = option_map (mvPoint L t) (gbEval eps g sds) /\
  gbcEval (mvGB L t g) sds = option_map (mvPoint L t) (gbcEval g sds) /\
  hybridEval eps (mvGB L t g) (mvSurf L t sf) sds = option_map (mvPoint L t) (hybridEval eps g sf sds).
Proof. intros L t eps g sf sds HL. split; [apply (gb_aff L t HL)|]. split; [apply (gbc_aff L t HL)|apply (hybrid_aff L t HL)]. Qed.
Print Assumptions C75_nets.

(** S-patches inside the domain. *)
Theorem C75_spatch : forall L t n d ws eps vs dm uv, linear L -> (3 <= n)%nat -> (d <= 20)%nat -> full n d (written ws) -> 0 < eps <= 1 ->
  regularVertices n = Some vs -> domainFrames pzero vs = Some dm -> inside vs uv ->
  spEval eps dm (mvNet L t (written ws)) uv = option_map (mvPoint L t) (spEval eps dm (written ws) uv).
Proof.
  intros L t n d ws eps vs dm uv HL H3 Hd F He Hv Hdm I. pose proof (full_complete n d ws F) as C. destruct (regular_convex n vs H3 Hv) as (Lv & Cv & I0).
  destruct (C19_wachspress vs dm eps uv (d_verts_eq _ _ _ Hdm) ltac:(lia) Cv I He) as (l & B & Ll & Pl & Sl). unfold spEval. rewrite B. cbn [bind]. apply (spSum_aff L t HL n d _ l C Hd); [congruence|]. rewrite Ll, Lv in Sl. exact Sl.
Qed.
Print Assumptions C75_spatch.

(** Super-D patches: the ribbons follow the control points, the patch follows the ribbons. *)
Theorem C75_superd : forall L t p, linear L ->
  sdUpdateRibbons (mvSD L t p) = option_map (mvSD L t) (sdUpdateRibbons p) /\
  forall eps d uv sds, 0 < eps -> mapToRibbons KSuperD eps d uv = Some sds -> (1 <= length sds)%nat -> su_n p = length sds ->
    sdEval eps d (mvSD L t p) uv = option_map (mvPoint L t) (sdEval eps d p uv).
Proof.
  intros L t p HL. split; [apply (update_aff L t HL)|]. intros eps d uv sds He M H1 Hn. destruct (C26_partition eps sds He) as (b & E & Lb & _ & W); [destruct sds; simpl in H1; [lia|congruence]|].
  apply (superd_aff L t HL eps d p uv sds b M E); [congruence|exact W].
Qed.
Print Assumptions C75_superd.

(** C0 Coons patches on convex polygons. *)
Theorem C75_c0coons : forall L t eps d cs uv l, linear L -> (1 <= length cs)%nat -> length l = length cs -> d_n d = length cs ->
  barycentric Wachspress eps d uv = Some l -> rsum (length l) (fun i => nth i l 0) = 1 ->
  c0coonsEval eps d (map (mvCurve L t) cs) uv = option_map (mvPoint L t) (c0coonsEval eps d cs uv).
Proof.
  intros L t eps d cs uv l HL Hn Ll Hd B S1. destruct (mapToRibbons (KBary Wachspress) eps d uv) as [sds|] eqn:M; [|unfold c0coonsEval; rewrite M; reflexivity].
  destruct (C43_weights Wachspress eps d uv l sds ltac:(congruence) B S1 M) as [Ls W]. apply (c0_aff L t HL eps d cs uv sds Hn M). rewrite Ls, Ll in W. exact W.
Qed.
Print Assumptions C75_c0coons.

(** ** The whole way: from the calls to the point *)
Corollary C75_rigid : forall L t kd eps res w xs k sds, orthogonal L 1 -> 0 < eps -> (1 <= length sds)%nat ->
  (forall w' sf, wrun kd eps res w xs = Some w' -> surfAt kd eps w' k = Some sf -> sf_n sf = length sds) ->
  (w' <- wrun kd eps res (mvWorld L 1 t w) (map (mvOp L 1) xs) ;; sf <- surfAt kd eps w' k ;; sideBased eps sf sds) =
  option_map (mvPoint L t) (w' <- wrun kd eps res w xs ;; sf <- surfAt kd eps w' k ;; sideBased eps sf sds).
Proof.
  intros L t kd eps res w xs k sds HO He H1 Hn. rewrite (proj1 (C75_history L t kd eps res w xs k HO)), bind_map, map_bind. apply bind_ext. intros w' Ew. rewrite (surfAt_move L 1 t HO), bind_map, map_bind. apply bind_ext. intros sf Es.
  apply C75_side_based; [apply HO|exact He|exact H1|apply (Hn w' sf Ew Es)].
Qed.
Print Assumptions C75_rigid.

(** The turned square: the same calls work and give the turned world. *)
Example C75_example : forall kd eps res a t, 0 < eps <= 1 -> (1 <= res)%nat -> kd <> RKHandler ->
  orthogonal (turnZ a) 1 /\ exists w, let os := [ONew; OSetCurves 0 [0; 1; 2; 3]%nat; OSetupLoop 0; OUpdate 0; OSet 0 1 (SMult 2); OUpdateSide 0 1] in
  wrun kd eps res (startWorld slowCurves) os = Some w /\ wrun kd eps res (startWorld (map (mvCurve (turnZ a) t) slowCurves)) os = Some (mvWorld (turnZ a) 1 t w).
Proof.
  intros kd eps res a t He Hr Hk. split; [apply turnZ_rotation|]. destruct (C38_example kd eps res He Hr Hk) as (w & E & _). exists w. split; [exact E|].
  assert (H := proj1 (C75_history (turnZ a) t kd eps res (startWorld slowCurves) [ONew; OSetCurves 0 [0; 1; 2; 3]%nat; OSetupLoop 0; OUpdate 0; OSet 0 1 (SMult 2); OUpdateSide 0 1] 0 (turnZ_rotation a))). rewrite E in H. exact H.
Qed.
(** A control net and its mirror image. *)
Example C75_mirror : orthogonal flipY (-1) /\ sdBase (mvSD flipY (mkV3 0 0 1) (mkSD 3 0 [mkV3 0 0 0; mkV3 0 2 0; mkV3 2 2 0] [mkV3 1 0 0; mkV3 1 1 0; mkV3 2 1 0] vzero [])) 1 =
  Some [mkV3 0 0 1; mkV3 0 0 1; mkV3 0 (-1) 1; mkV3 0 (-2) 1; mkV3 0 (-2) 1].
Proof.
  split; [apply flipY_reflection|]. rewrite base_aff by apply flipY_reflection. unfold sdBase. change (prv (su_n _) 1) with 0%nat. cbn [su_f su_e su_full nth_error bind option_map quartic map]. f_equal.
  repeat (apply (f_equal2 cons)); try reflexivity; unfold mvPoint, flipY, affine3, vadd, vscale; simpl; f_equal; field.
Qed.
