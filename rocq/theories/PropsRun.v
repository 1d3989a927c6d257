(** C93: what the remaining runs of the test driver write: the plain run for a model,
    hybridTest, cornerBezierTest, classATest and deviationTest. *)
From Verif Require Import Base MeshModel MeshSpec UtilModel UtilSpec UtilProofs DomainModel ParamModel RibbonModel RibbonSpec RibbonProofs SurfaceModel SurfaceSpec SurfaceEval SurfaceObj.
From Verif Require Import ObjSpec ObjProofs JoinModel JoinSpec DriverModel ChainModel ChainSpec ChainProofs GBModel GBSpec GBProofs GBEnum HybridModel ClassAModel.
From Verif Require Import BezierTestModel BezierTestProofs CommandModel RunModel RunProofs PropsJoin PropsJoinKinds PropsDriver2 PropsChain.
From Verif Require PropsBezierTest PropsTotal PropsClassA PropsGB PropsGB2 PropsCommand PropsUtil.
From Coq Require Import String FunctionalExtensionality.
Open Scope R_scope.

(** ** A surface that is used again *)

(** setCurves, setupLoop and update on any surface of any history without copies: the result
    is the surface that a new object with these curves would have, except for use_gamma_,
    which is kept.  Other curves are not touched. *)
Theorem C93_reuse : forall kd eps res given ops w k s ls cs, 0 < eps -> (1 <= res)%nat ->
  Forall (fun o => ~ isCopy o) ops -> wrun kd eps res (startWorld given) ops = Some w -> nth_error (w_surfs w) k = Some s ->
  NoDup ls -> Forall2 (fun l c => exists g, nth_error (w_curves w) l = Some g /\ (g = c \/ g = reverseCurve c)) ls cs ->
  good_loop eps res cs -> kd = RKCompatible \/ kd = RKHandler /\ all_bisected eps res cs ->
  exists w' sf sf0, wrun kd eps res w [OSetCurves k ls; OSetupLoop k; OUpdate k] = Some w' /\ viewSurface kd eps w' k = Some sf /\
    buildSurface kd eps res cs = Some sf0 /\ sf_gamma sf0 = true /\ sf = mkSurf (sf_n sf0) (so_gamma s) (sf_ribbons sf0) (sf_corners sf0) /\
    forall l, ~ In l ls -> nth_error (w_curves w') l = nth_error (w_curves w) l.
Proof.
  intros kd eps res given ops w k s ls cs Hp Hres NC R Hs Nd F HL K.
  assert (W : wf1 w) by (apply (run_wf1 kd eps res ops (startWorld given) w NC (start_wf1 given) R)).
  destruct (loop_run eps res Hp Hres cs HL k (so_gamma s) kd w ls s W Hs eq_refl Nd F K) as (w1 & w' & A & U & E & O).
  destruct (view_ready eps res Hp Hres cs HL k (so_gamma s) kd w1 w' A U K) as (sf & V & _).
  assert (Hg : given_as cs cs) by (clear; unfold given_as; induction cs; constructor; auto).
  destruct (build_run eps res Hp Hres cs cs Hg HL kd K) as (v1 & v' & A0 & U0 & E0).
  destruct (view_ready eps res Hp Hres cs HL 0 true kd v1 v' A0 U0 K) as (sf0 & V0 & _ & G0 & _).
  exists w', sf, sf0. split; [exact E|]. split; [exact V|]. split; [unfold buildSurface; rewrite E0; exact V0|]. split; [exact G0|]. split; [|exact O].
  exact (surf_unique eps res cs kd 0 k true (so_gamma s) v1 v' w1 w' sf0 sf Hp Hres HL K A0 U0 V0 A U V).
Qed.
Print Assumptions C93_reuse.

(** ** Fences and ribbons *)

(** Posts of the same height along the curves, two triangles between neighbours, and all
    around: the fence is an oriented strip, and its boundary consists of the chords of the
    curves and of the polygon of the tips.  The posts at the corners are perpendicular to
    both curves there. *)
Definition fence_along (cs : list curve) (r : nat) (scaling : R) (m : pmesh) : Prop :=
  let n := List.length cs in
  List.length (pm_points m) = (2 * (n * r))%nat /\ List.length (pm_tris m) = (2 * (n * r))%nat /\ oriented_manifold (pm_tris m) /\
  (forall e, boundary_edge (pm_tris m) e <-> exists k, (k < n * r)%nat /\
     (e = (2 * ((k + 1) mod (n * r)), 2 * k) \/ e = (2 * k + 1, 2 * ((k + 1) mod (n * r)) + 1))%nat) /\
  forall i j, (i < n)%nat -> (j < r)%nat -> let u := INR j / INR r in exists x, unitv x /\
    nth_error (pm_points m) (2 * (i * r + j)) = Some (side_of cs i u) /\
    nth_error (pm_points m) (2 * (i * r + j) + 1) = Some (side_of cs i u +v x *v scaling) /\
    (j = 0%nat -> forall cp c, nth_error cs (prv n i) = Some cp -> nth_error cs i = Some c -> directs x (vcross (cder cp 1) (cder c 0))).
(** A strip for each side; it starts on the curve, and at its ends it runs along the
    neighbours. *)
Definition ribbons_along (cs : list curve) (r : nat) (length : R) (m : pmesh) : Prop :=
  let n := List.length cs in
  List.length (pm_points m) = (2 * (n * (r + 1)))%nat /\ List.length (pm_tris m) = (2 * (n * r))%nat /\ oriented_manifold (pm_tris m) /\
  (forall t, In t (pm_tris m) -> exists i, (i < n)%nat /\ forall k, In k (corners t) -> (2 * (i * (r + 1)) <= k < 2 * (i * (r + 1)) + 2 * (r + 1))%nat) /\
  forall i j, (i < n)%nat -> (j <= r)%nat -> let u := INR j / INR r in exists x,
    nth_error (pm_points m) (2 * (i * (r + 1) + j)) = Some (side_of cs i u) /\
    nth_error (pm_points m) (2 * (i * (r + 1) + j) + 1) = Some (side_of cs i u +v x *v length) /\
    (j = 0%nat -> forall cp, nth_error cs (prv n i) = Some cp -> x = vopp (cder cp 1)) /\
    (j = r -> forall cn, nth_error cs (nxt n i) = Some cn -> x = cder cn 0).

Section Runs.
Variables (eps : R) (res : nat) (len : list V3 -> R -> R -> R).
Hypothesis Hres : (1 <= res)%nat.

Lemma ribbon_test : forall r scaling length cs w w' filename, 0 < eps -> (1 <= r)%nat -> good_loop eps res cs -> all_bisected eps res cs ->
  around cs 0 true w -> updateAll RKHandler eps res w 0 = Some w' ->
  exists fence ribbons, ribbonTest eps r scaling length w' filename =
      Some [(inModels (filename ++ "-fence.obj"), CMesh fence); (inModels (filename ++ "-ribbons.obj"), CMesh ribbons)] /\
    fence_along cs r scaling fence /\ ribbons_along cs r length ribbons.
Proof.
  intros r scaling length cs w w' filename Hp Hr HL Hb Aw U. pose proof (proj1 HL) as H3. set (n := List.length cs) in *.
  destruct (view_ready eps res Hp Hres cs HL 0 true RKHandler w w' Aw U (or_intror (conj eq_refl Hb))) as (sf & V & Sn & _ & Sc & Sr). fold n in Sn.
  unfold ribbonTest. rewrite V. cbn [bind]. rewrite Sn.
  assert (Sp : forall i s, (i < n)%nat -> sidePoint sf i s = side_of cs i s).
  { intros i s Hi. unfold sidePoint, side_of. rewrite <- Sc, nth_error_map. destruct (nth_error (sf_ribbons sf) i); reflexivity. }
  pose proof (side_normal eps res Hp Hres cs HL 0 true w w' Aw U) as N. fold n in N.
  destruct (C74_fence_points n r (sidePoint sf) (sideNormal eps w' 0) scaling Hr) as (fp & Ef & Lf & Nf).
  { intros i u Hi Hu. destruct (proj1 (N i Hi) u ltac:(lra)) as (x & Ex & _). exists x. exact Ex. }
  destruct (C74_fence n r ltac:(nia)) as (ft & Et & Lt & Mt & _ & Bt). rewrite Ef, Et. cbn [bind].
  destruct Sr as ((Lr & Cd & Cc) & _).
  destruct (C74_ribbon_points n r (sidePoint sf) (sideRibbon sf) length Hr) as (rp & Er & Lp & Nr).
  { intros i u Hi Hu. destruct (nth_error_ex _ (sf_ribbons sf) i ltac:(lia)) as [rb Erb]. unfold sideRibbon. rewrite Erb. cbn [bind]. unfold ribbonEval. cbn [px py].
    destruct (Cd i rb u Erb Hu) as [x ->]. eexists; reflexivity. }
  rewrite Er. cbn [bind]. destruct (C74_ribbons n r) as (Lt' & Mt' & Ct'). eexists. eexists. split; [reflexivity|]. split.
  - unfold fence_along. fold n. cbn [pm_points pm_tris]. split; [exact Lf|]. split; [exact Lt|]. split; [exact Mt|]. split; [exact Bt|].
    intros i j Hi Hj. set (u := INR j / INR r). destruct (Nf i j Hi Hj) as (x & Ex & P0 & P1). fold u in Ex, P0, P1. exists x.
    assert (Hu : 0 <= u <= 1).
    { unfold u. assert (0 < INR r) by (apply lt_0_INR; lia). pose proof (pos_INR j). assert (INR j <= INR r) by (apply le_INR; lia).
      split; [apply Rmult_le_pos; [lra|]; left; apply Rinv_0_lt_compat; lra|]. apply (Rmult_le_reg_r (INR r)); [lra|]. unfold Rdiv. rewrite Rmult_assoc, Rinv_l by lra. lra. }
    destruct (proj1 (N i Hi) u Hu) as (x' & Ex' & Ux). assert (x' = x) by congruence. subst x'. split; [exact Ux|]. rewrite Sp in P0, P1 by exact Hi. split; [exact P0|]. split; [exact P1|].
    intros J0 cp c Ecp Ec. destruct (proj2 (N i Hi)) as (x0 & cp' & c' & Ecp' & Ec' & E0 & D0). assert (cp' = cp) by congruence. assert (c' = c) by congruence. subst cp' c'.
    assert (Z : u = 0) by (unfold u; rewrite J0; change (INR 0) with 0; unfold Rdiv; ring). rewrite Z in Ex. congruence.
  - unfold ribbons_along. fold n. cbn [pm_points pm_tris]. split; [exact Lp|]. split; [exact Lt'|]. split; [exact Mt'|].
    split; [intros t It; apply (proj2 (Ct' t It))|]. intros i j Hi Hj. set (u := INR j / INR r). destruct (Nr i j Hi Hj) as [P0 P1]. fold u in P0, P1.
    destruct (nth_error_ex _ (sf_ribbons sf) i ltac:(lia)) as [rb Erb]. assert (Hrp : (0 < INR r)) by (apply lt_0_INR; lia).
    assert (Hu : 0 <= u <= 1).
    { unfold u. pose proof (pos_INR j). assert (INR j <= INR r) by (apply le_INR; lia).
      split; [apply Rmult_le_pos; [lra|]; left; apply Rinv_0_lt_compat; lra|]. apply (Rmult_le_reg_r (INR r)); [lra|]. unfold Rdiv. rewrite Rmult_assoc, Rinv_l by lra. lra. }
    destruct (Cd i rb u Erb Hu) as [x Ex]. exists x. assert (Cr : nth_error cs i = Some (sr_curve rb)) by (rewrite <- Sc, nth_error_map, Erb; reflexivity).
    rewrite Sp in P0 by exact Hi. split; [exact P0|]. split.
    { rewrite P1. unfold sideRibbon. rewrite Erb. cbn [bind]. unfold ribbonEval. cbn [px py]. rewrite Ex. cbn [bind]. unfold side_of. rewrite Cr. reflexivity. }
    rewrite Sn in Cc. split.
    + intros J0 cp Ecp. assert (Z : u = 0) by (unfold u; rewrite J0; change (INR 0) with 0; unfold Rdiv; ring). rewrite Z in Ex.
      destruct (nth_error_ex _ (sf_ribbons sf) (prv n i) ltac:(rewrite Lr, Sn; apply prv_lt; lia)) as [rb' Erb']. assert (cp = sr_curve rb') by (rewrite <- Sc, nth_error_map, Erb' in Ecp; injection Ecp as <-; reflexivity). subst cp.
      assert (Ern : nth_error (sf_ribbons sf) (nxt n (prv n i)) = Some rb) by (rewrite nxt_prv by exact Hi; exact Erb).
      destruct (Cc (prv n i) rb' rb Erb' Ern) as (_ & _ & C0). congruence.
    + intros Jr cn Ecn. assert (Z : u = 1) by (unfold u; rewrite Jr; field; lra). rewrite Z in Ex.
      destruct (nth_error_ex _ (sf_ribbons sf) (nxt n i) ltac:(rewrite Lr, Sn; apply nxt_lt; lia)) as [rb' Erb']. assert (cn = sr_curve rb') by (rewrite <- Sc, nth_error_map, Erb' in Ecn; injection Ecn as <-; reflexivity). subst cn.
      destruct (Cc i rb rb' Erb Erb') as (_ & C1 & _). congruence.
Qed.

(** ** The plain run *)
Theorem C93_model : forall p type r scaling length filename given cs, (1 <= r)%nat ->
  given_as given cs -> good_loop eps res cs -> all_bisected eps res cs -> small_tolerance (List.length cs) eps -> resolved (List.length cs) r eps ->
  exists fence ribbons mesh, modelTest eps res p type r scaling length filename given =
      Some [("../../models/" ++ filename ++ "-fence.obj", CMesh fence); ("../../models/" ++ filename ++ "-ribbons.obj", CMesh ribbons);
            ("../../models/" ++ filename ++ "-" ++ type ++ ".obj", CMesh mesh)]%string /\
    fence_along cs r scaling fence /\ ribbons_along cs r length ribbons /\
    List.length (pm_points mesh) = meshSize (List.length cs) r /\ chords mesh (List.length cs) r (side_of cs).
Proof.
  intros p type r scaling length filename given cs Hr Hg HL Hb ST RR. pose proof (proj1 (proj1 ST)) as Hp. pose proof (proj1 HL) as H3. set (n := List.length cs) in *.
  assert (K : RKHandler = RKCompatible \/ RKHandler = RKHandler /\ all_bisected eps res cs) by (right; split; [reflexivity|exact Hb]).
  destruct (build_run eps res Hp Hres given cs Hg HL RKHandler K) as (w & w' & A & U & E).
  assert (Lg : List.length given = n) by (apply (given_length given cs Hg)).
  destruct (ribbon_test r scaling length cs w w' filename Hp Hr HL Hb A U) as (fence & ribbons & Et & F1 & F2).
  destruct (view_ready eps res Hp Hres cs HL 0 true RKHandler w w' A U K) as (sf & V & Sn & _ & Sc & Sr). fold n in Sn.
  destruct (PropsCommand.regular_domain n H3) as (vs & d & Hv & Hd).
  destruct (patch_facts p n vs d eps sf cs H3 Hv Hd Sn eq_refl Sc Sr ST) as (ev & Ev & T & Lo & Fo).
  destruct (PropsCommand.mesh_of n vs d ev (side_of cs) r H3 Hr Hv Hd T (Fo r RR) Lo) as (m & Em & Lm & Cm).
  exists fence, ribbons, m. split; [|split; [exact F1|split; [exact F2|split; [exact Lm|exact Cm]]]].
  unfold modelTest. rewrite Lg. destruct (Nat.eqb_spec n 0) as [Z|_]; [lia|]. change (builtWorld eps res given) with (wrun RKHandler eps res (startWorld given) [ONew; OSetCurves 0 (seq 0 (List.length given)); OSetupLoop 0; OUpdate 0]).
  rewrite E. cbn [bind]. rewrite Et, V. cbn [bind]. unfold regularDomain. rewrite Hv. cbn [bind]. rewrite Hd. cbn [bind]. rewrite Ev. cbn [bind]. rewrite Em. reflexivity.
Qed.

(** Without curves nothing is written. *)
Theorem C93_model_empty : forall p type r scaling length filename, modelTest eps res p type r scaling length filename [] = Some [].
Proof. reflexivity. Qed.

(** ** The run for hybrid patches *)

(** The curves handed to the base class are those of the outer rows of the net, and they
    meet whatever the file contains. *)
Theorem C93_boundary : forall n deg v0 d0 l0 c0 f, (3 <= n)%nat -> (1 <= deg)%nat -> readable n deg f ->
  exists g cs, loadBezier v0 f (useSquared (gbNew d0 l0 c0) true) = Some g /\ gbCurves len g = Some cs /\ List.length cs = n /\
    (forall i c, nth_error cs i = Some c -> (forall u, cpt c u = boundaryCurve g deg i u) /\ forall u, vderiv (cpt c) u (cder c u)) /\
    forall i c c', nth_error cs i = Some c -> nth_error cs (nxt n i) = Some c' -> cpt c 1 = cpt c' 0.
Proof. clear Hres.
  intros n deg v0 d0 l0 c0 f H3 Hd Rd. destruct (load_into n deg f v0 (useSquared (gbNew d0 l0 c0) true) eq_refl ltac:(lia) Hd Rd) as (g & El & (Sh & Co & Dm) & _).
  destruct (boundary_rows len n deg g Hd Sh) as (rows & Eb & Lr & B). exists g, (map (bezierCurve len) rows). split; [exact El|]. unfold gbCurves. rewrite Eb. split; [reflexivity|].
  split; [rewrite map_length; exact Lr|].
  assert (At : forall i c, nth_error (map (bezierCurve len) rows) i = Some c -> (i < n)%nat /\ (forall u, cpt c u = boundaryCurve g deg i u) /\ forall u, vderiv (cpt c) u (cder c u)).
  { intros i c E. rewrite nth_error_map in E. destruct (nth_error rows i) as [row|] eqn:Er; [|discriminate E]. injection E as <-. assert (Hi : (i < n)%nat) by (rewrite <- Lr; eapply nth_lt; exact Er).
    destruct (B i Hi) as (row' & Er' & Ll & Br). assert (row' = row) by congruence. subst row'. split; [exact Hi|]. split; [exact Br|]. intros u. apply bezier_curve_derives. destruct row; [cbn in Ll; lia|discriminate]. }
  split; [intros i c E; apply (At i c E)|]. intros i c c' E E'. destruct (At i c E) as (Hi & P & _). destruct (At _ c' E') as (_ & P' & _). rewrite P, P'.
  apply (boundary_loop n deg g H3 ltac:(lia) Co i Hi).
Qed.

Theorem C93_hybrid : forall fmt v0 c0 d0 l0 r scaling length filename f n deg, (3 <= n)%nat -> (2 <= deg)%nat -> (1 <= r)%nat -> eps <= 1 / 2 -> resolved n r eps ->
  readable n deg f ->
  (forall g cs, loadBezier v0 f (useSquared (gbNew d0 l0 c0) true) = Some g -> gbCurves len g = Some cs -> good_loop eps res cs /\ all_bisected eps res cs) ->
  exists g cs fence ribbons mesh vs faces,
    loadBezier v0 f (useSquared (gbNew d0 l0 c0) true) = Some g /\ gbCurves len g = Some cs /\
    hybridTest eps res len fmt v0 c0 d0 l0 r scaling length filename f =
      Some [("../../models/" ++ filename ++ "-fence.obj", CMesh fence); ("../../models/" ++ filename ++ "-ribbons.obj", CMesh ribbons);
            ("../../models/" ++ filename ++ "-HB.obj", CMesh mesh); ("../../models/hybrid-cpts.obj", CNet vs faces)]%string /\
    fence_along cs r scaling fence /\ ribbons_along cs r length ribbons /\
    List.length (pm_points mesh) = meshSize n r /\ chords mesh n r (boundaryCurve g deg) /\
    writeControlPoints fmt g = Some (vs, faces) /\ List.length vs = gbCount n deg /\ forall t a, In t faces -> In a t -> (1 <= a <= List.length vs)%nat.
Proof.
  intros fmt v0 c0 d0 l0 r scaling length filename f n deg H3 Hd Hr He RR Rd Hgood.
  destruct (C93_boundary n deg v0 d0 l0 c0 f H3 ltac:(lia) Rd) as (g & cs & El & Eg & Ln & P & _). destruct (Hgood g cs El Eg) as [HL Hb]. pose proof (proj1 RR) as Hp.
  destruct (load_into n deg f v0 (useSquared (gbNew d0 l0 c0) true) eq_refl ltac:(lia) ltac:(lia) Rd) as (g' & El' & (Sh & Co & Dm) & _). assert (g' = g) by congruence. subst g'. clear El'.
  assert (K : RKHandler = RKCompatible \/ RKHandler = RKHandler /\ all_bisected eps res cs) by (right; split; [reflexivity|exact Hb]).
  assert (Hg : given_as cs cs) by (clear; unfold given_as; induction cs; constructor; auto).
  destruct (build_run eps res Hp Hres cs cs Hg HL RKHandler K) as (w & w' & A & U & E).
  destruct (ribbon_test r scaling length cs w w' filename Hp Hr HL Hb A U) as (fence & ribbons & Et & F1 & F2).
  destruct (view_ready eps res Hp Hres cs HL 0 true RKHandler w w' A U K) as (sf & V & Sn & _ & Sc & Sr). rewrite Ln in Sn.
  destruct (PropsCommand.regular_domain n H3) as (vs & d & Hv & Hf). destruct (PropsTotal.regular_convex n vs d H3 Hv Hf) as (L & CD).
  assert (B : bounds sf (side_of cs)) by (apply sides_bound; [exact Sc|congruence]).
  destruct (C82_hybrid n deg g sf vs d eps r (side_of cs) H3 Hd Sh Sn ltac:(rewrite <- Sn; apply Sr) Hv Hf He RR B) as (Fo & Lo).
  pose proof (PropsTotal.C84_hybrid pzero vs d eps g deg sf CD ltac:(rewrite L; exact Sh) ltac:(lia) ltac:(congruence) Sr ltac:(lra)) as T.
  destruct (PropsCommand.mesh_of n vs d _ (side_of cs) r H3 Hr Hv Hf T Fo Lo) as (m & Em & Lm & Cm).
  destruct (PropsGB2.C51_faces n deg fmt g ltac:(lia) ltac:(lia) Sh Co Dm) as (ps & fs & Ew & Lv & _ & Ff & _).
  exists g, cs, fence, ribbons, m, ps, fs. split; [exact El|]. split; [exact Eg|]. split.
  - unfold hybridTest. rewrite El. cbn [bind]. rewrite Eg. cbn [bind]. change (builtWorld eps res cs) with (wrun RKHandler eps res (startWorld cs) [ONew; OSetCurves 0 (seq 0 (List.length cs)); OSetupLoop 0; OUpdate 0]).
    rewrite E. cbn [bind]. rewrite Et, V. cbn [bind]. unfold regularDomain. rewrite Dm, Hv. cbn [bind]. rewrite Hf. cbn [bind]. rewrite Em. cbn [bind]. rewrite Ew. reflexivity.
  - split; [exact F1|]. split; [exact F2|]. split; [exact Lm|]. split; [|split; [exact Ew|split; [exact Lv|exact Ff]]].
    assert (Q : forall e s, (e < n)%nat -> side_of cs e s = boundaryCurve g deg e s).
    { intros e s Hen. unfold side_of. destruct (nth_error_ex _ cs e ltac:(lia)) as [c Ec]. rewrite Ec. apply (P e c Ec). }
    intros X Y. rewrite (Cm X Y). split; intros (e & i & Hen & Hi & EX & EY); exists e, i; rewrite Q in * || rewrite <- !Q by exact Hen; repeat split; try assumption; rewrite ?Q in * by exact Hen; assumption.
Qed.

(** ** The run for the corner variant *)

(** On the circle the rim of a mesh follows the boundary, except for three sides, where
    the opposite corner disturbs it. *)
Definition corner_rim (n deg : nat) (g : gbsurf) (e : nat) (s : R) : V3 :=
  boundaryCurve g deg e s +v if (n =? 3)%nat then PropsGB.opposite_corner deg g (nxt n e) s else vzero.
Lemma opposite_ends : forall deg g i, (1 <= deg)%nat -> PropsGB.opposite_corner deg g i 0 = vzero /\ PropsGB.opposite_corner deg g i 1 = vzero.
Proof. clear Hres.
  intros deg g i Hd. unfold PropsGB.opposite_corner. assert (Hl : ((deg + 1) / 2 <= deg)%nat) by (apply Nat.div_le_upper_bound; lia). cbv zeta.
  split.
  - rewrite (vsum_ext _ _ (fun _ => vzero)); [clear; induction ((deg + 1) / 2)%nat as [|m IH]; [reflexivity|cbn [vsum]; rewrite IH; v3ring]|]. intros j Hj.
    rewrite (vsum_ext _ _ (fun _ => vzero)); [clear; induction ((deg + 1) / 2)%nat as [|m IH]; [reflexivity|cbn [vsum]; rewrite IH; v3ring]|]. intros k Hk.
    rewrite Rminus_0_r, (GBEval.bern_at_1 deg k) by lia. v3ring.
  - rewrite (vsum_ext _ _ (fun _ => vzero)); [clear; induction ((deg + 1) / 2)%nat as [|m IH]; [reflexivity|cbn [vsum]; rewrite IH; v3ring]|]. intros j Hj.
    rewrite (vsum_ext _ _ (fun _ => vzero)); [clear; induction ((deg + 1) / 2)%nat as [|m IH]; [reflexivity|cbn [vsum]; rewrite IH; v3ring]|]. intros k Hk.
    rewrite (GBEval.bern_at_1 deg j) by lia. v3ring.
Qed.
Lemma corner_follows : forall n deg g r, (3 <= n)%nat -> (deg mod 2 = 1)%nat -> shaped n deg g -> consistent n deg g -> 0 < eps ->
  follows n r (edgePointCircle n) (gbcSurfaceEval eps g) (corner_rim n deg g) /\ loop_of n (corner_rim n deg g).
Proof. clear Hres.
  intros n deg g r H3 Od S Co He. assert (Hd : (1 <= deg)%nat) by (destruct deg; [discriminate Od|lia]). split.
  - intros e i uv Hen Hi E. destruct (sample r i Hi) as (_ & _ & S2). unfold edgePointCircle in E. assert (Nz : INR n <> 0) by (apply not_0_INR; lia).
    rewrite fdiv_some in E by exact Nz. cbn [bind] in E. injection E as <-.
    replace ((INR e + INR i / INR r) * 2 * PI / INR n) with (2 * PI * (INR e + INR i / INR r) / INR n) by (unfold Rdiv; ring).
    apply (PropsGB.C48_side n deg g eps e _ ltac:(lia) Od S Co Hen He S2).
  - intros e Hen. unfold corner_rim. rewrite (boundary_loop n deg g H3 Hd Co e Hen). destruct (n =? 3)%nat; [|reflexivity].
    rewrite (proj1 (opposite_ends deg g _ Hd)), (proj2 (opposite_ends deg g _ Hd)). reflexivity.
Qed.
Lemma load_corner : forall n deg f v0 d0 l0 c0, readable n deg f -> (deg mod 2 = 1)%nat ->
  loadBezierCorner v0 f (gbNew d0 l0 c0) = loadBezier v0 f (gbNew d0 l0 c0).
Proof. clear Hres. intros n deg f v0 d0 l0 c0 (xs & rest & -> & _) Od. cbn [loadBezierCorner]. rewrite Od. reflexivity. Qed.

Theorem C93_corner : forall fmt v0 c0 d0 l0 fine r filename f n deg, (3 <= n)%nat -> (3 <= deg)%nat -> (deg mod 2 = 1)%nat -> 0 < eps -> (1 <= r)%nat -> (1 <= fine)%nat ->
  readable n deg f ->
  exists g m1 m2 vs faces, loadBezier v0 f (gbNew d0 l0 c0) = Some g /\
    cornerBezierTest eps fmt v0 c0 d0 l0 fine r filename f =
      Some [("../../models/" ++ filename ++ "-GBC.obj", CMesh m1); ("../../models/bezier.obj", CMesh m2); ("../../models/bezier-cpts.obj", CNet vs faces)]%string /\
    List.length (pm_points m1) = meshSizeCircle n fine /\ chords m1 n fine (corner_rim n deg g) /\
    List.length (pm_points m2) = meshSizeCircle n r /\ chords m2 n r (corner_rim n deg g) /\
    ((4 <= n)%nat -> forall e s, corner_rim n deg g e s = boundaryCurve g deg e s) /\
    writeControlPoints fmt g = Some (vs, faces) /\ List.length vs = gbCount n deg /\ forall t a, In t faces -> In a t -> (1 <= a <= List.length vs)%nat.
Proof. clear Hres.
  intros fmt v0 c0 d0 l0 fine r filename f n deg H3 Hd Od He Hr Hf Rd. destruct (load_good n deg f v0 d0 l0 c0 ltac:(lia) ltac:(lia) Rd) as (g & El & G & _). pose proof G as (Sh & Co & Dm).
  destruct (PropsTotal.C84_circle n deg g eps H3 ltac:(lia) Sh) as (_ & T). destruct (T fine Hf) as (m1 & E1 & L1). destruct (T r Hr) as (m2 & E2 & L2).
  destruct (inner_some n deg g Hd G) as [rows Ei]. destruct (PropsGB2.C51_faces n deg fmt g ltac:(lia) ltac:(lia) Sh Co Dm) as (ps & fs & Ew & Lv & _ & Ff & _).
  exists g, m1, m2, ps, fs. split; [exact El|]. split.
  { unfold cornerBezierTest. rewrite (load_corner n deg f v0 d0 l0 c0 Rd Od), El. cbn [bind]. rewrite Dm, E1. cbn [bind]. rewrite Ei. cbn [bind]. rewrite E2. cbn [bind]. rewrite Ew. reflexivity. }
  split; [exact L1|]. split; [destruct (corner_follows n deg g fine H3 Od Sh Co He) as [Fo Lo]; exact (C82_rim_circle n fine _ _ m1 H3 Hf E1 Fo Lo)|].
  split; [exact L2|]. split; [destruct (corner_follows n deg g r H3 Od Sh Co He) as [Fo Lo]; exact (C82_rim_circle n r _ _ m2 H3 Hr E2 Fo Lo)|].
  split; [intros H4 e s; unfold corner_rim; destruct (Nat.eqb_spec n 3); [lia|]; v3ring|]. auto.
Qed.

(** Even degrees stop at the assertion of initNetwork, and degree one at the second row that
    showDeviations reads. *)
Theorem C93_corner_stops : forall fmt v0 c0 d0 l0 fine r filename f n deg, (3 <= n)%nat -> readable n deg f -> (deg mod 2 = 0)%nat \/ deg = 1%nat ->
  cornerBezierTest eps fmt v0 c0 d0 l0 fine r filename f = None.
Proof. clear Hres.
  intros fmt v0 c0 d0 l0 fine r filename f n deg H3 Rd [Ev| ->]; unfold cornerBezierTest.
  - destruct Rd as (xs & rest & -> & _). cbn [loadBezierCorner]. rewrite Ev. reflexivity.
  - rewrite (load_corner n 1 f v0 d0 l0 c0 Rd eq_refl). destruct (load_good n 1 f v0 d0 l0 c0 ltac:(lia) ltac:(lia) Rd) as (g & El & G & _). rewrite El. cbn [bind].
    destruct (surfaceMeshCircle (gb_dom g) (gbcSurfaceEval eps g) fine); [|reflexivity]. cbn [bind]. rewrite (inner_none n 1 g ltac:(lia) ltac:(lia) G). reflexivity.
Qed.

(** ** The run for class A curves *)

(** The cubics keep the ends and the end derivatives of the curves, so they meet where the
    curves meet, at the same angles; the class A curves keep the ends and the direction at
    the start. *)
Theorem C93_class_a_curves : forall search degree c cp, classACurve search degree c = Some cp ->
  let h := bezierCurve len (hermite c) in let a := bezierCurve len cp in
  cpt h 0 = cpt c 0 /\ cpt h 1 = cpt c 1 /\ cder h 0 = cder c 0 /\ cder h 1 = cder c 1 /\
  cpt a 0 = cpt c 0 /\ cpt a 1 = cpt c 1 /\ exists t, 0 < t /\ cder a 0 = cder c 0 *v t.
Proof. clear Hres.
  intros search degree c cp E h a. destruct (hermite_ends len c) as (A & B & C & D). fold h in A, B, C, D. repeat (split; [assumption|]).
  destruct (PropsClassA.C70_curve search degree _ _ _ _ cp E) as (P0 & P1 & (der & t & Ed & Nd & Ht) & _). unfold a. cbn [bezierCurve cpt cder]. rewrite P0, P1, Ed.
  split; [reflexivity|]. split; [reflexivity|]. exists t. split; [exact Ht|]. rewrite (nth_error_nth _ _ _ Nd). reflexivity.
Qed.

(** The run comes to its end exactly with curves whose end tangents are not parallel and
    whose ends differ, if the search returns nonnegative scalings; a straight side stops
    it. *)
Theorem C93_class_a_defined : forall search degree cs, (2 <= degree)%nat -> (forall target x, exists phi s, search target x = [phi; s] /\ 0 <= s) ->
  (exists rows, mapM (classACurve search degree) cs = Some rows) <-> forall c, In c cs -> cpt c 1 <> cpt c 0 /\ vcross (cder c 0) (cder c 1) <> vzero.
Proof. clear Hres.
  intros search degree cs Hd HS. split.
  - intros [rows E] c I. apply In_nth_error in I. destruct I as [i Ei]. 
    assert (D : exists cp, classACurve search degree c = Some cp).
    { revert rows i E Ei. induction cs as [|b cs IH]; intros rows i E Ei; [destruct i; discriminate|]. cbn [mapM] in E. binv E. binv E. destruct i as [|i]; cbn in Ei; [injection Ei as <-; exists x; exact E0|apply (IH _ i E1 Ei)]. }
    destruct D as [cp D]. unfold classACurve in D. split; intros Z.
    + rewrite (PropsClassA.C70_undefined search degree) in D by (right; left; exact Z). discriminate D.
    + rewrite (PropsClassA.C70_undefined search degree) in D by (right; right; exact Z). discriminate D.
  - intros H. destruct (mapM_ex _ _ (classACurve search degree) cs) as (rows & E & _); [|exists rows; exact E]. intros c I. destruct (H c I) as [A B].
    apply (PropsClassA.C70_defined search degree _ _ _ _ Hd A B HS).
Qed.

Lemma corner_mesh : forall r cs w w', (1 <= r)%nat -> good_loop eps res cs -> all_bisected eps res cs -> small_tolerance (List.length cs) eps -> resolved (List.length cs) r eps ->
  around cs 0 true w -> updateAll RKHandler eps res w 0 = Some w' ->
  exists m, cornerBasedMesh eps (List.length cs) r w' = Some m /\ List.length (pm_points m) = meshSize (List.length cs) r /\ chords m (List.length cs) r (side_of cs).
Proof.
  intros r cs w w' Hr HL Hb ST RR A U. pose proof (proj1 (proj1 ST)) as Hp. pose proof (proj1 HL) as H3. set (n := List.length cs) in *.
  destruct (view_ready eps res Hp Hres cs HL 0 true RKHandler w w' A U (or_intror (conj eq_refl Hb))) as (sf & V & Sn & _ & Sc & Sr). fold n in Sn.
  destruct (PropsCommand.regular_domain n H3) as (vs & d & Hv & Hd).
  destruct (patch_facts PCorner n vs d eps sf cs H3 Hv Hd Sn eq_refl Sc Sr ST) as (ev & Ev & T & Lo & Fo). cbn [patchEval] in Ev. injection Ev as <-.
  destruct (PropsCommand.mesh_of n vs d _ (side_of cs) r H3 Hr Hv Hd T (Fo r RR) Lo) as (m & Em & Lm & Cm). exists m. split; [|split; [exact Lm|exact Cm]].
  unfold cornerBasedMesh. rewrite V. cbn [bind]. unfold regularDomain. rewrite Hv. cbn [bind]. rewrite Hd. cbn [bind]. exact Em.
Qed.

(** One side with parallel end tangents, such as a straight one, or with equal ends, and
    nothing is written. *)
Theorem C93_class_a_stops : forall search degree r cs c, In c cs -> cpt c 1 = cpt c 0 \/ vcross (cder c 0) (cder c 1) = vzero ->
  classATest eps res len search degree r cs = None.
Proof. clear Hres.
  intros search degree r cs c I H. unfold classATest. destruct (mapM (classACurve search degree) cs) as [rows|] eqn:E; [exfalso|reflexivity].
  assert (D : exists cp, classACurve search degree c = Some cp).
  { apply In_nth_error in I. destruct I as [i Ei]. clear H. revert rows i E Ei. induction cs as [|b cs IH]; intros rows i E Ei; [destruct i; discriminate|]. cbn [mapM] in E. binv E. binv E. destruct i as [|i]; cbn in Ei; [injection Ei as <-; exists x; exact E0|apply (IH _ i E1 Ei)]. }
  destruct D as [cp D]. unfold classACurve in D. rewrite (PropsClassA.C70_undefined search degree) in D by (right; exact H). discriminate D.
Qed.

(** Two meshes of one and the same surface object, each with the chords of its own loop of
    curves, although the second loop is set after the first one. *)
Theorem C93_class_a : forall search degree r cs rows loop1 loop2, (1 <= r)%nat ->
  mapM (classACurve search degree) cs = Some rows ->
  given_as (map (fun c => bezierCurve len (hermite c)) cs) loop1 -> good_loop eps res loop1 -> all_bisected eps res loop1 ->
  given_as (map (bezierCurve len) rows) loop2 -> good_loop eps res loop2 -> all_bisected eps res loop2 ->
  small_tolerance (List.length cs) eps -> resolved (List.length cs) r eps ->
  exists m m', classATest eps res len search degree r cs = Some [("../../models/bezier-normal.obj", CMesh m); ("../../models/bezier-class-a.obj", CMesh m')]%string /\
    List.length (pm_points m) = meshSize (List.length cs) r /\ chords m (List.length cs) r (side_of loop1) /\
    List.length (pm_points m') = meshSize (List.length cs) r /\ chords m' (List.length cs) r (side_of loop2).
Proof.
  intros search degree r cs rows loop1 loop2 Hr Er G1 L1 B1 G2 L2 B2 ST RR. pose proof (proj1 (proj1 ST)) as Hp. set (n := List.length cs) in *.
  assert (N1 : List.length loop1 = n) by (pose proof (given_length _ _ G1) as X; rewrite map_length in X; symmetry; exact X).
  assert (Nr : List.length rows = n) by (apply (mapM_length _ _ _ Er)).
  assert (N2 : List.length loop2 = n) by (pose proof (given_length _ _ G2) as X; rewrite map_length in X; congruence).
  set (A := map (fun c => bezierCurve len (hermite c)) cs) in *. set (C := map (bezierCurve len) rows) in *.
  assert (LA : List.length A = n) by (unfold A; rewrite map_length; reflexivity). assert (LC : List.length C = n) by (unfold C; rewrite map_length; exact Nr).
  assert (H1 : Forall2 (holds (firstWorld (A ++ C))) (seq 0 n) loop1).
  { pose proof (first_holds res Hres A loop1 G1) as X. rewrite LA in X. assert (In' : forall l c, In l (seq 0 n) -> holds (firstWorld A) l c -> holds (firstWorld (A ++ C)) l c).
    { intros l c I (g & Eg & Q). exists g. split; [|exact Q]. cbn [firstWorld w_curves] in Eg |- *. rewrite nth_error_app1; [exact Eg|]. apply in_seq in I. lia. }
    clear -X In'. revert X In'. generalize (seq 0 n) as l. intros l X. induction X; intros I; constructor; [apply I; [left; reflexivity|assumption]|apply IHX; intros; apply I; [right|]; assumption]. }
  assert (K1 : RKHandler = RKCompatible \/ RKHandler = RKHandler /\ all_bisected eps res loop1) by (right; split; [reflexivity|exact B1]).
  assert (K2 : RKHandler = RKCompatible \/ RKHandler = RKHandler /\ all_bisected eps res loop2) by (right; split; [reflexivity|exact B2]).
  destruct (loop_run eps res Hp Hres loop1 L1 0 true RKHandler (firstWorld (A ++ C)) (seq 0 n) (mkSob 0%nat true 0%nat [] []) (first_wf eps res (A ++ C)) eq_refl eq_refl (seq_NoDup _ _) H1 K1) as (w1 & w & Aw & U & E & O).
  rewrite <- N1 in ST, RR. destruct (corner_mesh r loop1 w1 w Hr L1 B1 ST RR Aw U) as (m & Em & Lm & Cm). rewrite N1 in *.
  pose proof (around_after eps res loop1 0 true w1 Aw RKHandler w U) as Aw'. destruct (ar_surf loop1 0 true w Aw') as (s & Hs & _ & Sg).
  assert (H2 : Forall2 (holds w) (seq n n) loop2).
  { assert (X : forall l l', given_as l l' -> forall p, Forall2 (fun x c => exists g, nth_error (p ++ l) x = Some g /\ (g = c \/ g = reverseCurve c)) (seq (List.length p) (List.length l)) l').
    { intros l l' F. induction F as [|g c l l' H F IH]; intros p; [constructor|]. cbn [List.length seq]. constructor.
      - exists g. split; [|exact H]. rewrite nth_error_app2, Nat.sub_diag by lia. reflexivity.
      - specialize (IH (p ++ [g])). rewrite app_length in IH. cbn [List.length] in IH. rewrite Nat.add_1_r in IH. rewrite <- app_assoc in IH. exact IH. }
    specialize (X C loop2 G2 A). rewrite LA, LC in X.
    assert (In' : forall l c, In l (seq n n) -> (exists g, nth_error (A ++ C) l = Some g /\ (g = c \/ g = reverseCurve c)) -> holds w l c).
    { intros l c I (g & Eg & Q). exists g. split; [|exact Q]. rewrite O; [exact Eg|]. apply in_seq in I. rewrite in_seq. lia. }
    clear -X In'. revert X In'. generalize (seq n n) as l. intros l X. induction X; intros I; constructor; [apply I; [left; reflexivity|assumption]|apply IHX; intros; apply I; [right|]; assumption]. }
  destruct (loop_run eps res Hp Hres loop2 L2 0 true RKHandler w (seq n n) s (ar_wf loop1 0 true w Aw') Hs Sg (seq_NoDup _ _) H2 K2) as (w2 & w' & Aw2 & U2 & E2 & _).
  rewrite <- N2 in ST, RR. destruct (corner_mesh r loop2 w2 w' Hr L2 B2 ST RR Aw2 U2) as (m' & Em' & Lm' & Cm'). rewrite N2 in *.
  exists m, m'. split; [|auto]. unfold classATest. rewrite Er. cbn [bind]. fold n. fold A. fold C. rewrite first_new. unfold loopOps. rewrite E. cbn [bind]. rewrite Em. cbn [bind]. rewrite E2. cbn [bind]. rewrite Em'. reflexivity.
Qed.

(** ** The run for deviations *)

(** For a good loop and triangles that are not degenerate, the printed statistics are those
    of the distances of the points from the planes of their triangles, one for each point. *)
Theorem C93_deviation : forall p closest r given cs points, (1 <= r)%nat -> given_as given cs -> good_loop eps res cs -> all_bisected eps res cs ->
  small_tolerance (List.length cs) eps -> resolved (List.length cs) r eps ->
  (forall m q, List.length (pm_points m) = meshSize (List.length cs) r -> In q points -> exists i j k a b c, closest m q = (i, j, k) /\
     nth_error (pm_points m) i = Some a /\ nth_error (pm_points m) j = Some b /\ nth_error (pm_points m) k = Some c /\ vcross (b -v a) (c -v a) <> vzero) ->
  exists m dev, chords m (List.length cs) r (side_of cs) /\
    deviationTest eps res p closest r given points = option_map Some (printStatistics dev) /\
    Forall2 (fun q e => exists i j k a b c, closest m q = (i, j, k) /\
      nth_error (pm_points m) i = Some a /\ nth_error (pm_points m) j = Some b /\ nth_error (pm_points m) k = Some c /\
      (exists s t, e = vnorm (q -v (a +v (b -v a) *v s +v (c -v a) *v t))) /\ forall s t, e <= vnorm (q -v (a +v (b -v a) *v s +v (c -v a) *v t))) points dev.
Proof.
  intros p closest r given cs points Hr Hg HL Hb ST RR Hc. pose proof (proj1 (proj1 ST)) as Hp. pose proof (proj1 HL) as H3. set (n := List.length cs) in *.
  assert (K : RKHandler = RKCompatible \/ RKHandler = RKHandler /\ all_bisected eps res cs) by (right; split; [reflexivity|exact Hb]).
  destruct (build_run eps res Hp Hres given cs Hg HL RKHandler K) as (w & w' & A & U & E).
  assert (Lg : List.length given = n) by (apply (given_length given cs Hg)).
  destruct (view_ready eps res Hp Hres cs HL 0 true RKHandler w w' A U K) as (sf & V & Sn & _ & Sc & Sr). fold n in Sn.
  destruct (PropsCommand.regular_domain n H3) as (vs & d & Hv & Hd).
  destruct (patch_facts p n vs d eps sf cs H3 Hv Hd Sn eq_refl Sc Sr ST) as (ev & Ev & T & Lo & Fo).
  destruct (PropsCommand.mesh_of n vs d ev (side_of cs) r H3 Hr Hv Hd T (Fo r RR) Lo) as (m & Em & Lm & Cm).
  assert (D : exists dev, deviationFromMesh (closest m) (pm_points m) points = Some dev /\
    Forall2 (fun q e => exists i j k a b c, closest m q = (i, j, k) /\
      nth_error (pm_points m) i = Some a /\ nth_error (pm_points m) j = Some b /\ nth_error (pm_points m) k = Some c /\
      (exists s t, e = vnorm (q -v (a +v (b -v a) *v s +v (c -v a) *v t))) /\ forall s t, e <= vnorm (q -v (a +v (b -v a) *v s +v (c -v a) *v t))) points dev).
  { specialize (Hc m). clear -Hc Lm. unfold deviationFromMesh. induction points as [|q points IH]; [exists []; split; [reflexivity|constructor]|].
    destruct IH as (dev & Ed & F); [intros q' H I; apply Hc; [exact H|right; exact I]|]. destruct (Hc q Lm (or_introl eq_refl)) as (i & j & k & a & b & c & E1 & E2 & E3 & E4 & Nz).
    destruct (C74_deviation a b c q Nz) as (e & Ee & X & Y). exists (e :: dev). cbn [mapM]. rewrite E1, E2, E3, E4. cbn [bind]. rewrite Ee. cbn [bind]. rewrite Ed. split; [reflexivity|].
    constructor; [|exact F]. exists i, j, k, a, b, c. auto 10. }
  destruct D as (dev & Ed & F). exists m, dev. split; [exact Cm|]. split; [|exact F].
  unfold deviationTest. rewrite Lg. destruct (Nat.eqb_spec n 0) as [Z|_]; [lia|]. change (builtWorld eps res given) with (wrun RKHandler eps res (startWorld given) [ONew; OSetCurves 0 (seq 0 (List.length given)); OSetupLoop 0; OUpdate 0]).
  rewrite E. cbn [bind]. rewrite V. cbn [bind]. unfold regularDomain. rewrite Hv. cbn [bind]. rewrite Hd. cbn [bind]. rewrite Ev. cbn [bind]. rewrite Em. cbn [bind]. rewrite Ed. cbn [bind].
  destruct (printStatistics dev); reflexivity.
Qed.

(** ** The names are those of the command *)
Theorem C93_written : forall fmt v0 c0 d0 l0 fine r scaling length p search degree x f given a b c out,
  (modelTest eps res p "mc" r scaling length x given = Some out -> given <> [] -> map fst out = writes 0 (Model x a b c)) /\
  (hybridTest eps res len fmt v0 c0 d0 l0 r scaling length x f = Some out -> map fst out = writes 0 (Hybrid x)) /\
  (cornerBezierTest eps fmt v0 c0 d0 l0 fine r x f = Some out -> map fst out = writes 0 (BezierCorner x)) /\
  (classATest eps res len search degree r given = Some out -> map fst out = writes 0 ClassA).
Proof. clear Hres.
  intros fmt v0 c0 d0 l0 fine r scaling length p search degree x f given a b c out.
  assert (RT : forall w fs, ribbonTest eps r scaling length w x = Some fs -> map fst fs = [inModels (x ++ "-fence.obj"); inModels (x ++ "-ribbons.obj")]%string).
  { intros w fs E. unfold ribbonTest in E. do 4 binv E. injection E as <-. reflexivity. }
  split; [|split; [|split]].
  - intros E Ne. unfold modelTest in E. destruct (Nat.eqb_spec (List.length given) 0) as [Z|_]; [destruct given; [contradiction|discriminate Z]|].
    binv E. binv E. do 4 binv E. injection E as <-. rewrite map_app, (RT _ _ E1). reflexivity.
  - intros E. unfold hybridTest in E. do 3 binv E. binv E. do 3 binv E. binv E. destruct x7 as [vs faces]. injection E as <-. rewrite map_app, (RT _ _ E3). reflexivity.
  - intros E. unfold cornerBezierTest in E. do 5 binv E. destruct x4 as [vs faces]. injection E as <-. reflexivity.
  - intros E. unfold classATest in E. do 5 binv E. injection E as <-. reflexivity.
Qed.
End Runs.
Print Assumptions C93_model.
Print Assumptions C93_boundary.
Print Assumptions C93_hybrid.
Print Assumptions C93_corner.
Print Assumptions C93_corner_stops.
Print Assumptions C93_class_a_curves.
Print Assumptions C93_class_a_defined.
Print Assumptions C93_class_a.
Print Assumptions C93_deviation.
Print Assumptions C93_written.
Print Assumptions C93_class_a_stops.

(** ** Examples *)

(** The triangle with sides 3, 4, 5: the plain run writes three files, and the class A run
    none, since the sides are straight. *)
Lemma resolved_triangle : resolved 3 10 (1 / 1000) /\ small_tolerance 3 (1 / 1000).
Proof.
  assert (S1 : sin (PI / INR 3) = sqrt 3 / 2) by (replace (INR 3) with 3 by (simpl; ring); apply sin_PI3).
  assert (S2 : sin (2 * PI / INR 3) = sqrt 3 / 2) by (replace (2 * PI / INR 3) with (2 * (PI / 3)) by (simpl; field); apply sin_2PI3).
  assert (Q : 1 < sqrt 3) by (rewrite <- sqrt_1; apply sqrt_lt_1; lra). assert (Q2 : sqrt 3 * sqrt 3 = 3) by (apply sqrt_sqrt; lra).
  assert (I10 : INR 10 = 10) by (simpl; ring).
  split; [split; [lra|]; rewrite S1, S2, I10; nra|]. split; [split; [lra|]; rewrite S1, S2; nra|lra].
Qed.
Lemma right_triangle : forall a b, 1 <= a -> 1 <= b -> let ps := [mkV3 a 0 0; mkV3 0 b 0; mkV3 0 0 0] in
  good_loop (1 / 1000) 10 (polygonCurves ps) /\ all_bisected (1 / 1000) 10 (polygonCurves ps).
Proof.
  intros a b Ha Hb ps. assert (I10 : INR 10 = 10) by (simpl; ring).
  assert (C : cornered (1 / 1000) 10 ps).
  { split; [simpl; lia|]. split; intros i Hi; simpl in Hi; (destruct i as [|[|[|i]]]; [| | |lia]).
    1-3: unfold side_vector, corner_at, vdot; rewrite I10; cbn; nra.
    all: unfold side_vector, corner_at, vcross, vzero; cbn; intros X; injection X; intros; nra. }
  assert (LT : left_turning (mkV3 0 0 1) 0 ps).
  { split; [unfold unitv, vdot; simpl; ring|]. split; [unfold ps; repeat (apply Forall_cons; [unfold FlatSpec.in_plane, vdot; simpl; ring|]); apply Forall_nil|].
    intros i Hi; simpl in Hi; (destruct i as [|[|[|i]]]; [| | |lia]); unfold side_vector, corner_at, vdot, vcross; cbn; nra. }
  assert (E4 : 0 < 1 / 1000 <= 4) by lra. assert (R1 : (1 <= 10)%nat) by lia. split; [exact (C85_polygon _ _ _ E4 R1 C)|exact (C85_convex _ _ _ _ _ E4 R1 C LT)].
Qed.
Example C93_triangle : forall p type x len search degree, let cs := polygonCurves [mkV3 3 0 0; mkV3 0 4 0; mkV3 0 0 0] in
  (exists fence ribbons mesh, modelTest (1 / 1000) 10 p type 10 2 3 x (map reverseCurve cs) =
     Some [("../../models/" ++ x ++ "-fence.obj", CMesh fence); ("../../models/" ++ x ++ "-ribbons.obj", CMesh ribbons); ("../../models/" ++ x ++ "-" ++ type ++ ".obj", CMesh mesh)]%string /\
     List.length (pm_points mesh) = meshSize 3 10) /\
  classATest (1 / 1000) 10 len search degree 10 cs = None.
Proof.
  intros p type x len search degree cs. destruct (right_triangle 3 4 ltac:(lra) ltac:(lra)) as [HL HB]. destruct resolved_triangle as [RR ST]. split.
  - destruct (C93_model (1 / 1000) 10 ltac:(lia) p type 10 2 3 x (map reverseCurve cs) cs ltac:(lia)) as (fence & ribbons & mesh & E & _ & _ & L & _); try assumption.
    { unfold cs, polygonCurves. cbn [map seq List.length]. repeat constructor; right; reflexivity. }
    exists fence, ribbons, mesh. split; [exact E|exact L].
  - apply (C93_class_a_stops (1 / 1000) 10 len search degree 10 cs (segment (mkV3 0 0 0) (mkV3 3 0 0))).
    + left. reflexivity.
    + right. unfold vcross, vzero. cbn. f_equal; ring.
Qed.

(** The cubic net of the example of C91, whose rows are evenly spaced: the arc length of
    each is the distance of its ends. *)
Definition evenLength (row : list V3) (a b : R) : R := (b - a) * vnorm (last row vzero -v hd vzero row).
Lemma even_row : forall p q, bezierCurve evenLength [p; p +v (q -v p) *v / 3; p +v (q -v p) *v (2 / 3); q] = segment p q.
Proof.
  intros p q. set (row := [p; p +v (q -v p) *v / 3; p +v (q -v p) *v (2 / 3); q]).
  assert (P : cpt (bezierCurve evenLength row) = cpt (segment p q)).
  { extensionality u. rewrite (bezier_curve_point evenLength row 3 eq_refl). unfold bezier, pnth, row, bern. cbn -[Rmult Rplus Rminus Rinv]. destruct p, q. unfold vadd, vsub, vscale. cbn -[Rmult Rplus Rminus Rinv]. f_equal; field. }
  assert (D : cder (bezierCurve evenLength row) = cder (segment p q)).
  { extensionality u. rewrite (bezier_curve_der evenLength row 3 eq_refl ltac:(lia)). unfold bezier, pnth, row, bern. cbn -[Rmult Rplus Rminus Rinv]. destruct p, q. unfold vadd, vsub, vscale. cbn -[Rmult Rplus Rminus Rinv]. f_equal; field. }
  change (mkCurve (cpt (bezierCurve evenLength row)) (cder (bezierCurve evenLength row)) (clen (bezierCurve evenLength row)) = segment p q). rewrite P, D. reflexivity.
Qed.
Example C93_triangle_hybrid : forall fmt v0 c0 d0 l0 x, exists fence ribbons mesh vs faces,
  hybridTest (1 / 1000) 10 evenLength fmt v0 c0 d0 l0 10 2 3 x PropsBezierTest.triangleFile =
    Some [("../../models/" ++ x ++ "-fence.obj", CMesh fence); ("../../models/" ++ x ++ "-ribbons.obj", CMesh ribbons);
          ("../../models/" ++ x ++ "-HB.obj", CMesh mesh); ("../../models/hybrid-cpts.obj", CNet vs faces)]%string /\
  List.length (pm_points mesh) = meshSize 3 10 /\ List.length vs = 13%nat.
Proof.
  intros fmt v0 c0 d0 l0 x. destruct (right_triangle 3 3 ltac:(lra) ltac:(lra)) as [HL HB]. destruct resolved_triangle as [RR ST].
  destruct (C93_hybrid (1 / 1000) 10 evenLength ltac:(lia) fmt v0 c0 d0 l0 10 2 3 x PropsBezierTest.triangleFile 3 3) as (g & cs & fence & ribbons & mesh & vs & faces & _ & _ & E & _ & _ & L & _ & _ & Lv & _); try lia; try lra; try exact RR.
  - eexists _, []. split; reflexivity.
  - intros g cs E Eg. unfold PropsBezierTest.triangleFile in E. injection E as <-. injection Eg as <-.
    match goal with |- good_loop _ _ ?l /\ _ => replace l with (polygonCurves [mkV3 3 0 0; mkV3 0 3 0; mkV3 0 0 0]); [split; assumption|] end.
    unfold polygonCurves. cbn [map seq List.length]. rewrite <- !even_row.
    repeat f_equal; unfold corner_at; cbn; unfold vadd, vsub, vscale; cbn; f_equal; try field; lra.
  - exists fence, ribbons, mesh, vs, faces. split; [exact E|]. split; [exact L|exact Lv].
Qed.

(** Corner variant: the same file has an odd degree. *)
Example C93_triangle_corner : forall fmt v0 c0 d0 l0 x, exists m1 m2 vs faces,
  cornerBezierTest (1 / 1000) fmt v0 c0 d0 l0 10 5 x PropsBezierTest.triangleFile =
    Some [("../../models/" ++ x ++ "-GBC.obj", CMesh m1); ("../../models/bezier.obj", CMesh m2); ("../../models/bezier-cpts.obj", CNet vs faces)]%string /\
  List.length (pm_points m2) = meshSizeCircle 3 5.
Proof.
  intros fmt v0 c0 d0 l0 x.
  destruct (C93_corner (1 / 1000) fmt v0 c0 d0 l0 10 5 x PropsBezierTest.triangleFile 3 3) as (g & m1 & m2 & vs & faces & _ & E & _ & _ & L & _); try lia; try lra; try reflexivity.
  - eexists _, []. split; reflexivity.
  - exists m1, m2, vs, faces. split; [exact E|exact L].
Qed.
