(** C85: from the curves of a file to the output of the test driver. *)
From Verif Require Import Base MeshModel MeshParams MeshGeom UtilModel GeomSpec DomainModel DomainProofs ParamModel RibbonModel RibbonSpec RibbonProofs PropsRibbon.
From Verif Require Import SurfaceModel SurfaceSpec SurfaceEval SurfaceObj ObjSpec ObjProofs JoinModel JoinSpec JoinProofs PropsJoin PropsJoinKinds TotalSpec PropsTotal PropsSurface.
From Verif Require Import DriverModel PropsDriver2 FlatSpec PropsFlat ChainModel ChainSpec ChainProofs.
From Verif Require PropsDomain ObjLinks ObjUpdate TotalProofs MeshGeom2 ParamTame SurfaceCentre PropsObjects2.
Open Scope R_scope.

(** ** The surface *)

(** Curves that form a loop, in any directions: after setCurves, setupLoop and
    update the surface has the curves of the loop in one direction, its ribbons
    fit together, and its corner data belong to them.  This holds for the simple
    ribbons always; for the ribbons with a handler that was not set it holds when
    the inward tangents of every side have a bisector that is not along the
    normal, and otherwise update() computes with values that are not numbers. *)
Theorem C85_surface : forall eps res given cs, 0 < eps -> (1 <= res)%nat -> given_as given cs -> good_loop eps res cs ->
  (exists sf, buildSurface RKCompatible eps res given = Some sf /\ sf_n sf = length cs /\ map sr_curve (sf_ribbons sf) = cs /\ ready sf) /\
  (all_bisected eps res cs ->
   exists sf, buildSurface RKHandler eps res given = Some sf /\ sf_n sf = length cs /\ map sr_curve (sf_ribbons sf) = cs /\ ready sf) /\
  (~ all_bisected eps res cs -> buildSurface RKHandler eps res given = None).
Proof.
  intros eps res given cs Hp Hr Hg HL. split; [|split].
  - destruct (build_ready eps res Hp Hr given cs Hg HL RKCompatible (or_introl eq_refl)) as (sf & A & B & _ & C & D). exists sf. auto.
  - intros Hb. destruct (build_ready eps res Hp Hr given cs Hg HL RKHandler (or_intror (conj eq_refl Hb))) as (sf & A & B & _ & C & D). exists sf. auto.
  - intros Nb. destruct (buildSurface RKHandler eps res given) as [sf|] eqn:E; [|reflexivity]. exfalso. apply Nb. apply (build_bisected eps res Hp Hr given cs Hg HL sf E).
Qed.
Print Assumptions C85_surface.

(** A side between neighbours that run in the same direction there (as a side
    between an outer and an inner right angle) has no default handler: nothing
    is written for such boundaries. *)
Theorem C85_opposite : forall p eps res r samples len given cs i cp c cn t, 0 < eps -> (1 <= res)%nat -> given_as given cs -> good_loop eps res cs ->
  nth_error cs (prv (length cs) i) = Some cp -> nth_error cs i = Some c -> nth_error cs (nxt (length cs) i) = Some cn ->
  directs t (cder cp 1) -> directs t (cder cn 0) ->
  surfaceTest p eps res r samples len given = None /\ cloudTest eps res r given = None /\
  exists sf, buildSurface RKCompatible eps res given = Some sf.
Proof.
  intros p eps res r samples len given cs i cp c cn t Hp Hr Hg HL Ep Ec En Dp Dn.
  destruct (C85_surface eps res given cs Hp Hr Hg HL) as ((sf & A & _) & _ & N).
  assert (B : buildSurface RKHandler eps res given = None).
  { apply N. intros Bs. specialize (Bs i cp c cn Ep Ec En). destruct (loop_side eps res cs HL i cp c cn Ep Ec En) as (Gc & X0 & X1 & _).
    destruct (side_frames eps res Hp Hr cp c cn Gc X0 X1) as (st & m & Eu & Us & (en & Em) & _). destruct Gc as (Rg & _).
    destruct (C30_eval_defined eps res c st en m (1 / 2) Hp Hr Em Us ltac:(lra) ltac:(apply Rg; lra)) as (n & En' & _).
    assert (Do : directs (vopp t) (vopp (cder cp 1))).
    { destruct Dp as (U & P & E). assert (V : vnorm (vopp (cder cp 1)) = vnorm (cder cp 1)) by (unfold vnorm; f_equal; unfold vdot, vopp; simpl; ring).
      split; [unfold unitv in *; rewrite <- U; unfold vdot, vopp; simpl; ring|]. split; [rewrite V; exact P|]. rewrite V. rewrite E at 1. unfold vopp, vscale; simpl. f_equal; ring. }
    apply (Bs m n (vopp t) t Eu En' Do Dn). unfold vcross, vadd, vopp, vzero; simpl. f_equal; ring. }
  unfold surfaceTest, cloudTest. rewrite B. split; [reflexivity|]. split; [reflexivity|]. exists sf. exact A.
Qed.
Print Assumptions C85_opposite.

(** ** The patches on it *)

(** A tolerance that is small for a regular domain of [n] sides. *)
Definition small_tolerance (n : nat) (eps : R) : Prop := fine_tolerance n eps /\ eps <= 1 / 200.
Definition side_of (cs : list curve) (e : nat) (s : R) : V3 := match nth_error cs e with Some c => cpt c s | None => vzero end.

Lemma small_quotient : forall n eps, (3 <= n)%nat -> small_tolerance n eps -> eps <= 2 / INR n.
Proof.
  intros n eps H3 ((Hp & H) & _). assert (P : 3 <= INR n) by (replace 3 with (INR 3) by (simpl; ring); apply le_INR; exact H3).
  destruct (hw_range n H3) as [A B]. pose proof PI_RGT_0 as P0. pose proof PI_4 as P4.
  assert (S : sin (PI / INR n) < PI / INR n) by (apply sin_lt_x; apply Rdiv_lt_0_compat; lra).
  assert (T : PI / INR n <= 4 / INR n) by (unfold Rdiv; apply Rmult_le_compat_r; [left; apply Rinv_0_lt_compat|]; lra).
  assert (Q : sin (2 * PI / INR n) * sin (2 * PI / INR n) <= 1) by nra.
  assert (K : sin (2 * PI / INR n) * sin (2 * PI / INR n) * sin (PI / INR n) <= sin (PI / INR n)) by nra.
  assert (E : 4 / INR n = 2 * (2 / INR n)) by (field; lra). lra.
Qed.
Lemma sides_bound : forall sf cs, map sr_curve (sf_ribbons sf) = cs -> sf_n sf = length cs -> bounds sf (side_of cs).
Proof.
  intros sf cs E Hn e s He _. rewrite Hn in He. unfold side_point, side_of. rewrite <- E in *. rewrite map_length in He. destruct (nth_error_ex _ _ _ He) as [r Er].
  exists r. split; [exact Er|]. rewrite nth_error_map, Er. reflexivity.
Qed.
Lemma patch_facts : forall p m vs d eps sf cs, (3 <= m)%nat -> regularVertices m = Some vs -> domainFrames pzero vs = Some d ->
  sf_n sf = m -> length cs = m -> map sr_curve (sf_ribbons sf) = cs -> ready sf -> small_tolerance m eps ->
  exists ev, patchEval p eps d sf = Some ev /\ total_on d vs ev /\ loop_of m (side_of cs) /\
    forall r, resolved m r eps -> follows m r (edgePoint d) ev (side_of cs).
Proof.
  intros p m vs d eps sf cs H3 Hv Hd Hn Lc Cs Hr ST. pose proof (small_quotient m eps H3 ST) as Sq. destruct ST as [FT S2]. pose proof (proj1 FT) as Hp.
  destruct (PropsTotal.regular_convex m vs d H3 Hv Hd) as (L & CD). pose proof CD as (_ & _ & C & I). assert (B : bounds sf (side_of cs)) by (apply sides_bound; congruence).
  assert (Lo : loop_of m (side_of cs)) by (rewrite <- Hn; apply bounds_loop; [lia|apply Hr|exact B]).
  destruct (C84_regular m vs d eps sf H3 Hv Hd Hn Hr Hp) as (T1 & T2 & T3).
  destruct p as [| | | |k]; cbn [patchEval].
  - eexists. split; [reflexivity|]. split; [exact T1|]. split; [exact Lo|]. intros r HR. destruct (hw_range m H3) as [A1 A2].
    apply (C82_side_based m vs d eps sf r (side_of cs) H3 Hv Hd Hn); [rewrite <- Hn; apply Hr| |exact HR|exact B]. destruct FT as [_ F]. eapply Rle_trans; [exact F|]. nra.
  - eexists. split; [reflexivity|]. split; [exact T2|]. split; [exact Lo|]. intros r HR. apply (C82_corner_based m vs d eps sf r (side_of cs) H3 Hv Hd Hn Hr FT HR B).
  - eexists. split; [reflexivity|]. split; [exact T3|]. split; [exact Lo|]. intros r HR. apply (C82_generalized_coons m vs d eps sf r (side_of cs) H3 Hv Hd Hn Hr FT HR B).
  - eexists. split; [reflexivity|]. split; [apply (C84_composite_ribbon pzero vs d eps sf CD); [congruence|exact Hr|lra]|]. split; [exact Lo|]. intros r HR.
    rewrite <- L. apply (C82_composite_ribbon pzero vs d eps sf r (side_of cs) Hd); try assumption; [lia|congruence|lra].
  - destruct (C84_midpoint k pzero vs d eps sf None CD ltac:(congruence) Hr ltac:(lra)) as (cp & Ecp & T). unfold mrun. cbn [foldM]. unfold mstep. cbn [mst_sf mst_mid mst_cp].
    rewrite Ecp. cbn [bind mst_sf mst_cp]. eexists. split; [reflexivity|]. split; [exact T|]. split; [exact Lo|]. intros r HR.
    apply (C82_midpoint k m vs d eps sf cp r (side_of cs) H3 Hv Hd Hn Hr FT HR B).
Qed.

Definition sideAt (vs : list V2) (i : nat) (s : R) : V2 :=
  (vtx vs i *p s) +p (vtx vs (prv (length vs) i) *p (1 - s)).
Lemma positional_zero : forall m vs d eps k ev bd, (3 <= m)%nat -> length vs = m -> domainFrames pzero vs = Some d -> (1 <= k)%nat -> resolved m k eps ->
  (forall uv, in_polygon vs uv -> exists p, ev uv = Some p) -> strictly_convex vs -> follows m k (edgePoint d) ev bd -> loop_of m bd ->
  forall cv, (forall e s, (e < m)%nat -> cv e s = bd e s) -> positionalError d k ev cv = Some 0.
Proof.
  intros m vs d eps k ev bd H3 L Hd Hk HR Tot Cv F Lo cv Cb. assert (Kp : INR k <> 0) by (apply not_0_INR; lia).
  assert (EP : forall i s, (i < m)%nat -> edgePoint d i s = Some (sideAt vs i s)).
  { intros i s Hi. destruct (PropsJoin.dom_parts pzero vs d Hd) as (N & _ & V). unfold edgePoint. rewrite N, V, !L.
    destruct (nth_error_ex _ vs i ltac:(lia)) as [a Ea]. destruct (nth_error_ex _ vs (prv m i) ltac:(rewrite L; apply prv_lt; lia)) as [b Eb]. rewrite Ea, Eb. cbn [bind].
    unfold sideAt. rewrite L. unfold vtx. rewrite (nth_error_nth _ _ _ Ea), (nth_error_nth _ _ _ Eb). reflexivity. }
  assert (V : forall i j, (i < m)%nat -> (j <= k)%nat -> ev (sideAt vs i (INR j / INR k)) = Some (bd i (INR j / INR k))).
  { intros i j Hi Hj. destruct (Nat.eq_dec j k) as [-> |Ne]; [|apply F; [exact Hi|lia|apply EP; exact Hi]].
    assert (Hx : (nxt m i < m)%nat) by (apply nxt_lt; lia). replace (INR k / INR k) with 1 by (field; exact Kp). rewrite (Lo i Hi), <- nxt_mod.
    pose proof (F (nxt m i) 0%nat (sideAt vs (nxt m i) (INR 0 / INR k)) Hx ltac:(lia) ltac:(apply EP; exact Hx)) as Q. change (INR 0) with 0 in Q. replace (0 / INR k) with 0 in Q by (field; exact Kp).
    rewrite <- Q. f_equal. unfold sideAt. rewrite L, (prv_nxt m i Hi). apply V2_ext; simpl; ring. }
  destruct (C74_positional pzero vs d k ev cv Hd Hk) as (e & E & P & Q).
  { intros i s uv Hi Hs Eu. rewrite EP in Eu by lia. injection Eu as <-. apply Tot. unfold sideAt. apply TotalProofs.hull_polygon; [lia|exact Cv|]. apply MeshGeom2.hull_mix; try lra; apply MeshGeom2.hull_vertex; [exact Hi|apply prv_lt; lia]. }
  rewrite E. apply (f_equal Some). assert (Z : e <= 0); [|lra]. apply Q. split; [lra|]. intros i j uv p Hi Hj Eu Ep. rewrite EP in Eu by lia. injection Eu as <-.
  rewrite (V i j ltac:(lia) Hj) in Ep. injection Ep as <-. rewrite Cb by lia. replace (bd i (INR j / INR k) -v bd i (INR j / INR k)) with vzero by (destruct (bd i (INR j / INR k)); unfold vsub, vzero; simpl; f_equal; ring).
  unfold vnorm, vdot, vzero; simpl. replace (0 * 0 + 0 * 0 + 0 * 0) with 0 by ring. rewrite sqrt_0. lra.
Qed.

(** surfaceTest on a good loop: everything is defined, the rows of the ribbon
    mesh start on the curves, the mesh has the expected number of points and its
    rim consists of the chords of the curves, the positional error is zero, and
    so is the error of the midpoint, for all numbers of sides but four. *)
Theorem C85_report : forall p eps res r samples len given cs, (1 <= res)%nat -> (1 <= r)%nat -> (1 <= samples)%nat ->
  given_as given cs -> good_loop eps res cs -> all_bisected eps res cs ->
  small_tolerance (length cs) eps -> resolved (length cs) r eps -> resolved (length cs) samples eps ->
  exists rp, surfaceTest p eps res r samples len given = Some rp /\
    (length (rp_ribbons rp) = 2 * (length cs * (r + 1)))%nat /\
    (forall i j, (i < length cs)%nat -> (j <= r)%nat -> nth_error (rp_ribbons rp) (2 * (i * (r + 1) + j)) = Some (side_of cs i (INR j / INR r))) /\
    length (pm_points (rp_mesh rp)) = meshSize (length cs) r /\
    chords (rp_mesh rp) (length cs) r (side_of cs) /\
    rp_pos rp = 0 /\
    match p with PMid _ => length cs <> 4%nat -> rp_mid rp = Some 0 | _ => rp_mid rp = None end.
Proof.
  intros p eps res r samples len given cs Hres Hr Hs Hg HL Hb ST RR RS. pose proof (proj1 (proj1 ST)) as Hp. pose proof (proj1 HL) as H3.
  set (n := length cs) in *.
  destruct (C85_surface eps res given cs Hp Hres Hg HL) as (_ & SF & _). destruct (SF Hb) as (sf & Eb & Sn & Sc & Sr). fold n in Sn.
  assert (Lg : length given = n) by (apply (given_length given cs Hg)).
  destruct (PropsDomain.C12_regular_convex n H3) as (vs & Hv & L & C & I & _).
  assert (Hd : exists d, domainFrames pzero vs = Some d) by (rewrite frames_closed; eexists; reflexivity). destruct Hd as [d Hd].
  destruct (patch_facts p n vs d eps sf cs H3 Hv Hd Sn eq_refl Sc Sr ST) as (ev & Ev & (T1 & T2) & Lo & Fo).
  unfold surfaceTest. rewrite Eb, Lg, Hv. cbn [bind]. rewrite Hd. cbn [bind]. rewrite Ev. cbn [bind].
  assert (Sp : forall i s, (i < n)%nat -> sidePoint sf i s = side_of cs i s).
  { intros i s Hi. unfold sidePoint, side_of. rewrite <- Sc, nth_error_map. destruct (nth_error (sf_ribbons sf) i); reflexivity. }
  assert (Sx : forall i sd, (i < n)%nat -> 0 <= px sd <= 1 -> exists q, sideRibbon sf i sd = Some q).
  { intros i sd Hi Hsd. destruct Sr as ((Lr & Cd & _) & _). destruct (nth_error_ex _ (sf_ribbons sf) i ltac:(lia)) as [rb Er]. unfold sideRibbon. rewrite Er. cbn [bind]. unfold ribbonEval.
    destruct (Cd i rb (px sd) Er Hsd) as [x ->]. eexists; reflexivity. }
  destruct (C74_ribbon_points n r (sidePoint sf) (sideRibbon sf) len Hr) as (rp & Erp & Lrp & Nrp).
  { intros i u Hi Hu. apply Sx; [exact Hi|exact Hu]. }
  rewrite Erp. cbn [bind]. destruct (T2 r Hr) as (m & Em & Lm). rewrite Em. cbn [bind].
  rewrite (positional_zero n vs d eps samples ev (side_of cs) H3 L Hd Hs RS T1 C (Fo samples RS) Lo (sidePoint sf) Sp). cbn [bind].
  assert (Ch : chords m n r (side_of cs)).
  { intros P Q. rewrite <- L. apply (C82_rim pzero vs d r ev (side_of cs) m Hd ltac:(lia) Hr Em); rewrite L; [apply Fo; exact RR|exact Lo]. }
  assert (Mid : exists mid, match p with PMid k => x <- midpointError k eps d sf ;; Some (Some x) | _ => Some None end = Some mid /\
                match p with PMid _ => n <> 4%nat -> mid = Some 0 | _ => mid = None end).
  { destruct p as [| | | |k]; try (eexists; split; reflexivity).
    assert (M : exists q, newMidpoint sf = Some q).
    { unfold newMidpoint. destruct (TotalProofs.osum_ex (sf_n sf) (fun i => sideRibbon sf i (mkV2 (6 / 10) (4 / 10)))) as [q ->]; [intros i Hi; apply Sx; [lia|simpl; lra]|]. cbn [bind].
      rewrite vdiv_some by (apply not_0_INR; lia). eexists; reflexivity. }
    destruct M as [q Eq]. unfold midpointError. rewrite Eq. cbn [bind].
    assert (W : well_formed n (mkMst sf None vzero) [MUpdate sf; MSet q]).
    { split; [exact Sn|]. split; [exact Sr|]. intros sf' [X|[X|[]]]; [injection X as <-; auto|discriminate X]. }
    pose proof (small_quotient n eps H3 ST) as Sq. destruct ST as [_ S2].
    destruct (Nat.eq_dec n 4) as [N4|N4].
    - destruct (run_facts k n vs d eps H3 Hv Hd ltac:(lra) Sq [MUpdate sf; MSet q] _ W) as (st & R & A & _ & _ & _ & Cc). rewrite R. cbn [bind].
      destruct (PropsTotal.regular_convex n vs d H3 Hv Hd) as (_ & CD). cbn in A. rewrite A in Cc |- *.
      destruct (C84_midpoint k pzero vs d eps sf (mst_mid st) CD ltac:(congruence) Sr ltac:(lra)) as (cp & Ecp & T). rewrite (Cc ltac:(discriminate)) in Ecp. injection Ecp as Ecp. subst cp.
      destruct (proj1 T pzero ltac:(apply ParamTame.inside_closed; exact I)) as [x Ex]. rewrite (SurfaceCentre.frames_center _ _ _ Hd), Ex. cbn [bind]. eexists. split; [reflexivity|]. intros X. contradiction.
    - destruct (C44_interpolates k n vs d eps (mkMst sf None vzero) [MUpdate sf; MSet q] q H3 N4 Hv Hd ltac:(lra) Sq W ltac:(discriminate) eq_refl) as (st & R & A & E).
      rewrite R. cbn [bind]. rewrite E. cbn [bind]. eexists. split; [reflexivity|]. intros _. apply (f_equal Some). unfold vdot, vsub; simpl; ring. }
  destruct Mid as (mid & Emid & Pm). rewrite Emid. cbn [bind]. eexists. split; [reflexivity|]. cbn [rp_ribbons rp_mesh rp_pos rp_mid].
  split; [exact Lrp|]. split; [intros i j Hi Hj; rewrite (proj1 (Nrp i j Hi Hj)); rewrite Sp by exact Hi; reflexivity|]. split; [rewrite Lm, L; reflexivity|].
  split; [exact Ch|]. split; [reflexivity|]. exact Pm.
Qed.
Print Assumptions C85_report.

(** ** cloudTest *)

(** Rows are written for lists of the same length, and for more points than
    parameters; with fewer points the function reads past their end. *)
Theorem C85_rows : forall uvs pts, 
  (writePCP uvs pts <> None <-> (length uvs <= length pts)%nat) /\
  forall rows, writePCP uvs pts = Some rows -> map snd rows = uvs /\ map fst rows = firstn (length uvs) pts.
Proof.
  intros uvs pts.
  assert (F : forall i, (i < length uvs)%nat -> (i < length pts)%nat -> exists uv p, nth_error uvs i = Some uv /\ nth_error pts i = Some p /\
     (uv <- nth_error uvs i ;; p <- nth_error pts i ;; Some (p, uv)) = Some (p, uv)).
  { intros i H1 H2. destruct (nth_error_ex _ _ _ H1) as [uv Eu]. destruct (nth_error_ex _ _ _ H2) as [p Ep]. exists uv, p. rewrite Eu, Ep. auto. }
  assert (A : (length uvs <= length pts)%nat \/ writePCP uvs pts = None).
  { destruct (le_lt_dec (length uvs) (length pts)) as [G|G]; [left; exact G|right]. unfold writePCP. apply (ObjUpdate.mapM_none _ _ _ _ (length pts)); [apply in_seq; lia|].
    destruct (nth_error uvs (length pts)); [|reflexivity]. cbn [bind]. rewrite (proj2 (nth_error_None _ _)) by lia. reflexivity. }
  split.
  - split; [intros N; destruct A as [A|A]; [exact A|contradiction]|]. intros G. unfold writePCP.
    destruct (ObjLinks.mapM_some _ _ (fun i => uv <- nth_error uvs i ;; p <- nth_error pts i ;; Some (p, uv)) (seq 0 (length uvs))) as [l ->]; [|discriminate].
    intros i I. apply in_seq in I. destruct (F i ltac:(lia) ltac:(lia)) as (uv & p & _ & _ & E). eexists; exact E.
  - intros rows E. destruct A as [G|A]; [|congruence]. pose proof (mapM_length _ _ _ E) as L. rewrite seq_length in L.
    assert (N : forall j, (j < length uvs)%nat -> exists uv p, nth_error uvs j = Some uv /\ nth_error pts j = Some p /\ nth_error rows j = Some (p, uv)).
    { intros j Hj. destruct (PropsObjects2.mapM_at _ _ _ _ j E Hj) as (b & Eb & Fb). destruct (F j Hj ltac:(lia)) as (uv & p & Eu & Ep & Er). rewrite Er in Fb. exists uv, p. split; [exact Eu|]. split; [exact Ep|congruence]. }
    split; apply ObjProofs.list_ext; intros j; rewrite nth_error_map.
    + destruct (le_lt_dec (length uvs) j) as [Hj|Hj]; [rewrite !(proj2 (nth_error_None _ _)) by lia; reflexivity|]. destruct (N j Hj) as (uv & p & Eu & _ & ->). rewrite Eu. reflexivity.
    + destruct (le_lt_dec (length uvs) j) as [Hj|Hj].
      * rewrite (proj2 (nth_error_None rows j)) by lia. rewrite (proj2 (nth_error_None _ _)); [reflexivity|]. rewrite firstn_length. lia.
      * destruct (N j Hj) as (uv & p & _ & Ep & ->). rewrite <- (firstn_skipn (length uvs) pts) in Ep. rewrite nth_error_app1 in Ep by (rewrite firstn_length; lia). rewrite Ep. reflexivity.
Qed.
Print Assumptions C85_rows.

(** The rows of cloudTest: the parameters of the mesh with their points; for
    parameters on the sides of the domain the points are on the curves. *)
Theorem C85_cloud : forall eps res r given cs, (1 <= res)%nat -> (1 <= r)%nat ->
  given_as given cs -> good_loop eps res cs -> all_bisected eps res cs -> small_tolerance (length cs) eps -> resolved (length cs) r eps ->
  exists rows sf vs d, cloudTest eps res r given = Some rows /\ length rows = meshSize (length cs) r /\
    buildSurface RKHandler eps res given = Some sf /\ regularVertices (length cs) = Some vs /\ domainFrames pzero vs = Some d /\
    parametersImpl (length cs) pzero vs r = Some (map snd rows) /\
    (forall p uv, In (p, uv) rows -> generalizedCoonsEval eps d sf uv = Some p) /\
    (forall e i uv, (e < length cs)%nat -> (i < r)%nat -> edgePoint d e (INR i / INR r) = Some uv -> In (side_of cs e (INR i / INR r), uv) rows).
Proof.
  intros eps res r given cs Hres Hr Hg HL Hb ST RR. pose proof (proj1 (proj1 ST)) as Hp. pose proof (proj1 HL) as H3.
  set (n := length cs) in *.
  destruct (C85_surface eps res given cs Hp Hres Hg HL) as (_ & SF & _). destruct (SF Hb) as (sf & Eb & Sn & Sc & Sr). fold n in Sn.
  assert (Lg : length given = n) by (apply (given_length given cs Hg)).
  destruct (PropsDomain.C12_regular_convex n H3) as (vs & Hv & L & C & I & _).
  assert (Hd : exists d, domainFrames pzero vs = Some d) by (rewrite frames_closed; eexists; reflexivity). destruct Hd as [d Hd].
  destruct (patch_facts PCoons n vs d eps sf cs H3 Hv Hd Sn eq_refl Sc Sr ST) as (ev & Ev & (T1 & T2) & Lo & Fo). cbn [patchEval] in Ev. injection Ev as <-.
  destruct (T2 r Hr) as (m & Em & Lm). destruct (PropsJoin.dom_parts pzero vs d Hd) as (E1 & E2 & E3). unfold surfaceMesh in Em. rewrite E1, E2, E3, L in Em.
  destruct (parametersImpl n pzero vs r) as [uvs|] eqn:Eu; [|discriminate]. cbn [bind] in Em. destruct (mapM (generalizedCoonsEval eps d sf) uvs) as [pts|] eqn:Ep; [|discriminate]. cbn [bind] in Em. injection Em as <-.
  cbn [pm_points] in Lm. pose proof (mapM_length _ _ _ Ep) as Lp.
  destruct (C85_rows uvs pts) as [D Rw]. destruct (writePCP uvs pts) as [rows|] eqn:Er; [|exfalso; apply (proj2 D); [lia|reflexivity]]. destruct (Rw rows eq_refl) as [R1 R2].
  rewrite firstn_all2 in R2 by lia.
  assert (Lr : length rows = length uvs) by (rewrite <- R1, map_length; reflexivity).
  assert (Pt : forall k uv, nth_error uvs k = Some uv -> exists p, generalizedCoonsEval eps d sf uv = Some p /\ nth_error rows k = Some (p, uv)).
  { intros k uv Ek. destruct (JoinProofs.mapM_nth _ _ _ _ _ Ep k uv Ek) as (p & Gp & Np). exists p. split; [exact Gp|].
    rewrite <- R1, nth_error_map in Ek. rewrite <- R2, nth_error_map in Np. destruct (nth_error rows k) as [[a b]|]; cbn in *; congruence. }
  exists rows, sf, vs, d. split; [|split; [rewrite Lr, <- Lp, Lm, L; reflexivity|]].
  { unfold cloudTest. rewrite Eb, Lg, Hv. cbn [bind]. rewrite Hd. cbn [bind]. rewrite E1, E2, E3, L, Eu. cbn [bind]. rewrite Ep. cbn [bind]. exact Er. }
  split; [exact Eb|]. split; [exact Hv|]. split; [exact Hd|]. split; [rewrite R1; exact Eu|]. split.
  - intros p uv Hin. destruct (In_nth_error _ _ Hin) as [k Ek]. assert (Uk : nth_error uvs k = Some uv) by (rewrite <- R1, nth_error_map, Ek; reflexivity).
    destruct (Pt k uv Uk) as (q & Gq & Nq). congruence.
  - intros e i uv He Hi Ed. destruct (loopSide_onto n e H3 He) as (t & Ht & Et).
    assert (Eu' : parametersImpl (length vs) pzero vs r = Some uvs) by (rewrite L; exact Eu).
    pose proof (loop_params vs pzero r uvs t i ltac:(lia) Hr Eu' ltac:(lia) ltac:(lia)) as X. rewrite L, Et in X.
    assert (Y : MeshModel.edgePoint n vs e (INR i / INR r) = Some uv) by (rewrite <- Ed; unfold edgePoint, MeshModel.edgePoint, MeshModel.vertex; rewrite E1, E3, L; reflexivity).
    rewrite Y in X. destruct (Pt _ uv X) as (p & Gp & Np). rewrite (Fo r RR e i uv He Hi Ed) in Gp. injection Gp as <-. eapply nth_error_In; exact Np.
Qed.
Print Assumptions C85_cloud.

(** ** Polygons *)

(** Straight sides; side [i] ends in corner [i]. *)
Definition corner_at (ps : list V3) (i : nat) : V3 := nth i ps vzero.
Definition side_vector (ps : list V3) (i : nat) : V3 := corner_at ps i -v corner_at ps (prv (length ps) i).
Definition polygonCurves (ps : list V3) : list curve := map (fun i => segment (corner_at ps (prv (length ps) i)) (corner_at ps i)) (seq 0 (length ps)).
(** The sides are long compared to the tolerance, and neighbours are not parallel. *)
Definition cornered (eps : R) (res : nat) (ps : list V3) : Prop :=
  (3 <= length ps)%nat /\
  (forall i, (i < length ps)%nat -> eps * (INR res * INR res) <= vdot (side_vector ps i) (side_vector ps i)) /\
  (forall i, (i < length ps)%nat -> vcross (side_vector ps i) (side_vector ps (nxt (length ps) i)) <> vzero).
(** All corners of a plane polygon turn to the left, seen from the tip of [N]. *)
Definition left_turning (N : V3) (h : R) (ps : list V3) : Prop :=
  unitv N /\ Forall (in_plane N h) ps /\
  forall i, (i < length ps)%nat -> 0 < vdot N (vcross (side_vector ps i) (side_vector ps (nxt (length ps) i))).

Lemma polygon_side : forall ps i c, nth_error (polygonCurves ps) i = Some c -> (i < length ps)%nat /\ c = segment (corner_at ps (prv (length ps) i)) (corner_at ps i).
Proof.
  intros ps i c E. unfold polygonCurves in E. rewrite nth_error_map in E. destruct (nth_error (seq 0 (length ps)) i) as [j|] eqn:Es; [|discriminate].
  cbn [option_map] in E. injection E as <-. assert (Hi : (i < length ps)%nat) by (rewrite <- (seq_length (length ps) 0); apply nth_error_Some; congruence).
  split; [exact Hi|]. rewrite ObjUpdate.seq_In_nth in Es by exact Hi. injection Es as <-. reflexivity.
Qed.
Lemma polygon_nth : forall ps i, (i < length ps)%nat -> nth_error (polygonCurves ps) i = Some (segment (corner_at ps (prv (length ps) i)) (corner_at ps i)).
Proof.
  intros ps i Hi. unfold polygonCurves. rewrite nth_error_map, ObjUpdate.seq_In_nth by exact Hi. reflexivity.
Qed.
Lemma polygon_length : forall ps, length (polygonCurves ps) = length ps.
Proof. intros. unfold polygonCurves. rewrite map_length, seq_length. reflexivity. Qed.

Lemma segment_good : forall eps res p q, 0 < eps -> eps <= 4 -> (1 <= res)%nat -> eps * (INR res * INR res) <= vdot (q -v p) (q -v p) -> good_side eps res (segment p q).
Proof.
  intros eps res p q Hp H4 Hr HL. assert (Rp : 1 <= INR res) by (replace 1 with (INR 1) by reflexivity; apply le_INR; exact Hr).
  set (D := vdot (q -v p) (q -v p)) in *. assert (D0 : 0 < D) by (eapply Rlt_le_trans; [|exact HL]; apply Rmult_lt_0_compat; [exact Hp|apply Rmult_lt_0_compat; lra]). assert (Nz : q -v p <> vzero) by (intros E; unfold D in D0; rewrite E in D0; unfold vdot, vzero in D0; simpl in D0; lra).
  assert (Nn : vnorm (q -v p) * vnorm (q -v p) = D) by (unfold vnorm; apply sqrt_sqrt; lra). assert (Np : 0 < vnorm (q -v p)) by (unfold vnorm; apply sqrt_lt_R0; exact D0).
  split; [intros u _; exact Nz|]. split; [intros a b A B; cbn [segment clen]; apply Rmult_lt_0_compat; [lra|exact Np]|].
  intros j Hj a b v. assert (Ev : v = (q -v p) *v (/ INR res)).
  { unfold v, a, b, segment; cbn [cpt]. rewrite S_INR. apply V3_ext; simpl; field; lra. }
  assert (Vv : vdot v v = D * (/ INR res * / INR res)) by (rewrite Ev; unfold D, vdot; simpl; ring). rewrite Vv.
  assert (Ri : 0 < / INR res) by (apply Rinv_0_lt_compat; lra). set (k := / INR res) in *. assert (Rk : INR res * k = 1) by (unfold k; field; lra).
  split.
  - replace eps with (eps * (INR res * INR res) * (k * k)) at 1 by (replace (eps * (INR res * INR res) * (k * k)) with (eps * (INR res * k) * (INR res * k)) by ring; rewrite Rk; ring).
    apply Rmult_le_compat_r; [nra|exact HL].
  - intros t t' (U & _ & T) (U' & _ & T'). cbn [segment cder] in T, T'.
    assert (Vt : vdot (t +v t') v = 2 * vnorm (q -v p) * k).
    { rewrite Ev. transitivity (k * (vdot t (q -v p) + vdot t' (q -v p))); [unfold vdot; simpl; ring|]. rewrite T at 1. rewrite T' at 2.
      replace (vdot t (t *v vnorm (q -v p))) with (vdot t t * vnorm (q -v p)) by (unfold vdot; simpl; ring).
      replace (vdot t' (t' *v vnorm (q -v p))) with (vdot t' t' * vnorm (q -v p)) by (unfold vdot; simpl; ring). rewrite U, U'. ring. }
    rewrite Vt. replace (2 * vnorm (q -v p) * k * (2 * vnorm (q -v p) * k)) with (4 * (vnorm (q -v p) * vnorm (q -v p) * (k * k))) by ring. rewrite Nn.
    apply Rmult_le_compat_r; [|exact H4]. apply Rmult_le_pos; nra.
Qed.

(** The sides of such polygons form good loops. *)
Theorem C85_polygon : forall eps res ps, 0 < eps <= 4 -> (1 <= res)%nat -> cornered eps res ps -> good_loop eps res (polygonCurves ps).
Proof.
  intros eps res ps [Hp H4] Hr (H3 & HL & HX). set (n := length ps) in *. assert (Ln : length (polygonCurves ps) = n) by apply polygon_length.
  assert (R1 : 1 <= INR res) by (replace 1 with (INR 1) by reflexivity; apply le_INR; exact Hr).
  unfold good_loop. rewrite Ln. split; [exact H3|]. split; [|split].
  - intros i c E. destruct (polygon_side ps i c E) as [Hi ->]. fold n in Hi |- *. pose proof (HL i Hi) as G. split; [apply segment_good; assumption|].
    intros X. cbn [segment cpt] in X. assert (Z : side_vector ps i = vzero).
    { unfold side_vector. fold n. pose proof (f_equal vx X) as A1. pose proof (f_equal vy X) as A2. pose proof (f_equal vz X) as A3. simpl in A1, A2, A3. apply V3_ext; simpl; lra. }
    rewrite Z in G. assert (0 < eps * (INR res * INR res)) by (apply Rmult_lt_0_compat; [exact Hp|apply Rmult_lt_0_compat; lra]). unfold vdot, vzero in G; simpl in G. lra.
  - intros i c c' E E'. destruct (polygon_side ps i c E) as [Hi ->]. destruct (polygon_side ps _ c' E') as [Hi' ->]. fold n in Hi, Hi' |- *. rewrite (prv_nxt n i Hi).
    split; [cbn [segment cpt]; apply V3_ext; simpl; ring|]. cbn [segment cder]. pose proof (HX i Hi) as G. unfold side_vector in G. fold n in G. rewrite (prv_nxt n i Hi) in G. exact G.
  - intros c c' E E'. destruct (polygon_side ps 0%nat c E) as [_ ->]. destruct (polygon_side ps 1%nat c' E') as [_ ->]. fold n. cbn [segment cpt]. intros X.
    pose proof (HX 0%nat ltac:(lia)) as G. assert (N1 : nxt n 0 = 1%nat) by (unfold nxt; apply Nat.mod_small; lia).
    rewrite N1 in G. apply G. unfold side_vector. fold n.
    assert (P1 : prv n 1 = 0%nat) by (rewrite <- N1; apply (prv_nxt n 0); lia). rewrite P1.
    assert (Y : corner_at ps (prv n 0) = corner_at ps 1).
    { pose proof (f_equal vx X) as A1. pose proof (f_equal vy X) as A2. pose proof (f_equal vz X) as A3. simpl in A1, A2, A3. apply V3_ext; simpl; lra. }
    rewrite Y. unfold vcross, vsub, vzero; simpl. f_equal; ring.
Qed.
Print Assumptions C85_polygon.

(** Plane polygons with all corners turning to the same side have default
    handlers on all sides. *)
Theorem C85_convex : forall eps res ps N h, 0 < eps <= 4 -> (1 <= res)%nat -> cornered eps res ps -> left_turning N h ps -> all_bisected eps res (polygonCurves ps).
Proof.
  intros eps res ps N h Hp Hr Co (U & Pl & Tu). pose proof Co as (H3 & _). unfold all_bisected. rewrite polygon_length. set (n := length ps) in *.
  assert (Fl : forall i, (i < n)%nat -> flat_curve N h (segment (corner_at ps (prv n i)) (corner_at ps i))).
  { intros i Hi u. assert (A : forall j, (j < n)%nat -> vdot N (corner_at ps j) = h) by (intros j Hj; apply (proj1 (Forall_forall _ _) Pl); apply nth_In; exact Hj).
    pose proof (A i Hi) as A1. pose proof (A (prv n i) ltac:(apply prv_lt; lia)) as A2. unfold in_plane, along. cbn [segment cpt cder].
    set (x := corner_at ps i) in *. set (y := corner_at ps (prv n i)) in *. split.
    - replace (vdot N (y *v (1 - u) +v x *v u)) with (vdot N y * (1 - u) + vdot N x * u) by (unfold vdot; simpl; ring). rewrite A1, A2. ring.
    - replace (vdot N (x -v y)) with (vdot N x - vdot N y) by (unfold vdot; simpl; ring). lra. }
  intros i cp c cn Ep Ec En. destruct (polygon_side ps _ _ Ep) as [Hip Cp]. destruct (polygon_side ps _ _ Ec) as [Hi Cc]. destruct (polygon_side ps _ _ En) as [Hin Cn]. fold n in Hip, Hi, Hin, Cp, Cc, Cn.
  intros m nn a b Em Enn Da Db. pose proof (Fl _ Hip) as F1. pose proof (Fl _ Hi) as F2. pose proof (Fl _ Hin) as F3. rewrite <- Cp in F1. rewrite <- Cc in F2. rewrite <- Cn in F3.
  assert (T1 : 0 < corner_turn N cp c).
  { unfold corner_turn. rewrite Cp, Cc. cbn [segment cder]. pose proof (Tu _ Hip) as G. rewrite (nxt_prv n i Hi) in G. exact G. }
  assert (T2 : 0 < corner_turn N c cn) by (unfold corner_turn; rewrite Cc, Cn; cbn [segment cder]; exact (Tu _ Hi)).
  assert (X : nn = N) by (apply (proj1 (C83_normals N h eps res cp c cn m U F1 F2 F3 Em) T1 T2 _ _ Enn)). subst nn.
  set (t := cder c 0) in *. assert (Tc : cder c 1 = t) by (unfold t; rewrite Cc; reflexivity). unfold corner_turn in T1, T2. rewrite Tc in T2. fold t in T1.
  destruct Da as (Ua & Pa & Va). destruct Db as (Ub & Pb & Vb). set (p := cder cp 1) in *. set (q := cder cn 0) in *.
  set (la := vnorm (vopp p)) in *. set (lb := vnorm q) in *.
  assert (G1 : 0 < vdot N (vcross t a)).
  { assert (Q : vdot N (vcross p t) = la * vdot N (vcross t a)).
    { transitivity (vdot N (vcross t (vopp p))); [unfold vdot, vcross, vopp; simpl; ring|]. rewrite Va. unfold vdot, vcross; simpl; ring. }
    rewrite Q in T1. nra. }
  assert (G2 : 0 < vdot N (vcross t b)).
  { assert (Q : vdot N (vcross t q) = lb * vdot N (vcross t b)) by (rewrite Vb at 1; unfold vdot, vcross; simpl; ring). rewrite Q in T2. nra. }
  assert (Na : vdot N a = 0).
  { assert (Q : vdot N (vopp p) = la * vdot N a) by (rewrite Va at 1; unfold vdot; simpl; ring). pose proof (proj2 (F1 1)) as Z. unfold along in Z. fold p in Z.
    assert (vdot N (vopp p) = - vdot N p) by (unfold vdot, vopp; simpl; ring). nra. }
  assert (Nb : vdot N b = 0).
  { assert (Q : vdot N q = lb * vdot N b) by (rewrite Vb at 1; unfold vdot; simpl; ring). pose proof (proj2 (F3 0)) as Z. unfold along in Z. fold q in Z. nra. }
  intros Z. assert (Zs : a +v b = vzero).
  { assert (I : forall w, vdot N w = 0 -> w = vcross N (vcross w N)).
    { intros w Hw. unfold unitv in U. assert (E : vcross N (vcross w N) = w *v vdot N N -v N *v vdot N w) by (unfold vdot, vcross, vsub, vscale; simpl; f_equal; ring).
      rewrite E, U, Hw. apply V3_ext; simpl; ring. }
    rewrite (I (a +v b)); [|transitivity (vdot N a + vdot N b); [unfold vdot; simpl; ring|lra]]. rewrite Z. unfold vcross, vzero; simpl. f_equal; ring. }
  assert (Q : vdot N (vcross t a) + vdot N (vcross t b) = vdot N (vcross t (a +v b))) by (unfold vdot, vcross; simpl; ring).
  rewrite Zs in Q. replace (vdot N (vcross t vzero)) with 0 in Q by (unfold vdot, vcross, vzero; simpl; ring). lra.
Qed.
Print Assumptions C85_convex.

(** Hence for every plane polygon that turns to the left, with its sides given in
    any directions, all patches have meshes over the polygon. *)
Corollary C85_polygon_report : forall p eps res r samples len ps N h given, (1 <= res)%nat -> (1 <= r)%nat -> (1 <= samples)%nat ->
  cornered eps res ps -> left_turning N h ps -> given_as given (polygonCurves ps) ->
  small_tolerance (length ps) eps -> resolved (length ps) r eps -> resolved (length ps) samples eps ->
  exists rp, surfaceTest p eps res r samples len given = Some rp /\ length (pm_points (rp_mesh rp)) = meshSize (length ps) r /\
    chords (rp_mesh rp) (length ps) r (fun i s => corner_at ps (prv (length ps) i) *v (1 - s) +v corner_at ps i *v s) /\ rp_pos rp = 0.
Proof.
  intros p eps res r samples len ps N h given Hres Hr Hs Co Le Hg ST RR RS. assert (E4 : 0 < eps <= 4) by (destruct ST as [[A _] B]; lra).
  pose proof (C85_polygon eps res ps E4 Hres Co) as HL. pose proof (C85_convex eps res ps N h E4 Hres Co Le) as HB. pose proof (polygon_length ps) as L.
  rewrite <- L in ST, RR, RS.
  destruct (C85_report p eps res r samples len given (polygonCurves ps) Hres Hr Hs Hg HL HB ST RR RS) as (rp & E & _ & _ & M & Ch & P & _).
  rewrite L in M, Ch. exists rp. split; [exact E|]. split; [exact M|]. split; [|exact P].
  assert (Sd : forall e s, (e < length ps)%nat -> side_of (polygonCurves ps) e s = corner_at ps (prv (length ps) e) *v (1 - s) +v corner_at ps e *v s).
  { intros e s He. unfold side_of. rewrite (polygon_nth ps e He). reflexivity. }
  intros A B. rewrite (Ch A B). split; intros (e & i & He & Hi & X & Y); exists e, i; (split; [exact He|]); (split; [exact Hi|]).
  - rewrite (Sd e _ He) in X. rewrite (Sd e _ He) in Y. auto.
  - rewrite (Sd e (INR i / INR r) He), (Sd e (INR (S i) / INR r) He). auto.
Qed.
Print Assumptions C85_polygon_report.

(** ** Examples *)

(** The triangle with sides 3, 4, 5, with the second side given backwards. *)
Definition triangle345 : list V3 := [mkV3 0 0 0; mkV3 3 0 0; mkV3 0 4 0].
Definition triangleFile : list curve :=
  [segment (mkV3 0 4 0) (mkV3 0 0 0); reverseCurve (segment (mkV3 0 0 0) (mkV3 3 0 0)); segment (mkV3 3 0 0) (mkV3 0 4 0)].
Example C85_triangle_holds : forall p eps res r samples len, (1 <= res)%nat -> (1 <= r)%nat -> (1 <= samples)%nat ->
  eps * (INR res * INR res) <= 9 -> small_tolerance 3 eps -> resolved 3 r eps -> resolved 3 samples eps ->
  exists rp, surfaceTest p eps res r samples len triangleFile = Some rp /\ length (pm_points (rp_mesh rp)) = meshSize 3 r /\ rp_pos rp = 0.
Proof.
  intros p eps res r samples len Hres Hr Hs HL ST RR RS.
  assert (C : cornered eps res triangle345).
  { split; [simpl; lia|]. split; intros i Hi; simpl in Hi; (destruct i as [|[|[|i]]]; [| | |lia]).
    1-3: unfold side_vector, corner_at, vdot; cbn; nra.
    all: unfold side_vector, corner_at, vcross, vzero; cbn; intros X; injection X; intros; lra. }
  assert (LT : left_turning (mkV3 0 0 1) 0 triangle345).
  { split; [unfold unitv, vdot; simpl; ring|]. split; [repeat constructor; unfold in_plane, vdot; simpl; ring|].
    intros i Hi; simpl in Hi; (destruct i as [|[|[|i]]]; [| | |lia]); unfold side_vector, corner_at, vdot, vcross; cbn; lra. }
  assert (G : given_as triangleFile (polygonCurves triangle345)).
  { unfold triangleFile, polygonCurves. cbn. constructor; [left; reflexivity|]. constructor; [right; reflexivity|]. constructor; [left; reflexivity|constructor]. }
  destruct (C85_polygon_report p eps res r samples len triangle345 _ _ triangleFile Hres Hr Hs C LT G ST RR RS) as (rp & E & M & _ & P). exists rp. auto.
Qed.

(** The L shape with straight sides; the side from (2,1) to (1,1) lies between
    sides of the same direction: no output, though the ribbons without a handler
    exist. *)
Definition shapeL : list V3 := [mkV3 0 0 0; mkV3 2 0 0; mkV3 2 1 0; mkV3 1 1 0; mkV3 1 2 0; mkV3 0 2 0].
Example C85_L_fails : forall p eps res r samples len given, 0 < eps -> (1 <= res)%nat -> eps * (INR res * INR res) <= 1 -> given_as given (polygonCurves shapeL) ->
  surfaceTest p eps res r samples len given = None /\ exists sf, buildSurface RKCompatible eps res given = Some sf.
Proof.
  intros p eps res r samples len given Hp Hres HL Hg. assert (R1 : 1 <= INR res) by (replace 1 with (INR 1) by reflexivity; apply le_INR; exact Hres).
  assert (E4 : 0 < eps <= 4) by nra.
  assert (C : cornered eps res shapeL).
  { split; [simpl; lia|]. split; intros i Hi; simpl in Hi; (destruct i as [|[|[|[|[|[|i]]]]]]; [| | | | | |lia]).
    1-6: unfold side_vector, corner_at, vdot; cbn; nra.
    all: unfold side_vector, corner_at, vcross, vzero; cbn; intros X; injection X; intros; lra. }
  pose proof (C85_polygon eps res shapeL E4 Hres C) as GL.
  assert (D : forall w, w = mkV3 0 1 0 -> directs (mkV3 0 1 0) w).
  { intros w ->. assert (V : vnorm (mkV3 0 1 0) = 1) by (unfold vnorm, vdot; simpl; replace (0 * 0 + 1 * 1 + 0 * 0) with 1 by ring; apply sqrt_1).
    split; [unfold unitv, vdot; simpl; ring|]. rewrite V. split; [lra|]. apply V3_ext; simpl; ring. }
  destruct (C85_opposite p eps res r samples len given (polygonCurves shapeL) 3%nat _ _ _ (mkV3 0 1 0) Hp Hres Hg GL eq_refl eq_refl eq_refl) as (A & _ & B);
    [apply D; cbn; apply V3_ext; simpl; ring|apply D; cbn; apply V3_ext; simpl; ring|]. auto.
Qed.
(** For the second corner of the row, one point too few. *)
Example C85_rows_short : forall a b p, writePCP [a; b] [p] = None /\ writePCP [a] [p] = Some [(p, a)].
Proof. intros. split; reflexivity. Qed.
(** The conditions hold for instance with the tolerance 1/1000, ten samples per
    side and the resolution 10. *)
Example C85_triangle_runs : forall p len, exists rp, surfaceTest p (1 / 1000) 10 10 10 len triangleFile = Some rp /\ length (pm_points (rp_mesh rp)) = meshSize 3 10 /\ rp_pos rp = 0.
Proof.
  intros p len. assert (S1 : sin (PI / INR 3) = sqrt 3 / 2) by (replace (INR 3) with 3 by (simpl; ring); apply sin_PI3).
  assert (S2 : sin (2 * PI / INR 3) = sqrt 3 / 2) by (replace (2 * PI / INR 3) with (2 * (PI / 3)) by (simpl; field); apply sin_2PI3).
  assert (Q : 1 < sqrt 3) by (rewrite <- sqrt_1; apply sqrt_lt_1; lra). assert (Q2 : sqrt 3 * sqrt 3 = 3) by (apply sqrt_sqrt; lra).
  assert (I10 : INR 10 = 10) by (simpl; ring).
  assert (RR : resolved 3 10 (1 / 1000)) by (split; [lra|]; rewrite S1, S2, I10; nra).
  apply C85_triangle_holds; try lia; try exact RR; [rewrite I10; lra|].
  split; [split; [lra|]; rewrite S1, S2; nra|lra].
Qed.
