(** Hypotheses of C27, C77 and C94 on the local parameters, discharged for all points
    of a closed convex polygon with Wachspress coordinates. *)
From Verif Require Import Base MeshModel GeomSpec UtilModel UtilSpec UtilProofs DomainModel DomainProofs DomainPolygons ParamModel RibbonModel SurfaceModel SurfaceSpec SurfaceEval BlendProofs BlendProps PropsBlend.
From Verif Require Import GBModel GBSpec GBProofs GBEval GBContact2 TotalSpec PropsTotal RotSpec RotProofs RotParam RotDomains RotPatches PropsRot StabSpec StabProofs PropsStab PropsMirGB.
Open Scope R_scope.

Lemma distances_in : forall c vs d eps uv sds, convex_domain c vs d -> 0 < eps <= 1 -> in_polygon vs uv -> mapToRibbons (KBary Wachspress) eps d uv = Some sds ->
  let n := length vs in exists l, (forall k, (k < n)%nat -> nth_error sds k <> None /\ py (nth k sds pzero) = 1 - nth k l 0 - nth (prv n k) l 0) /\ (forall k, 0 <= nth k l 0) /\
    (forall ks, NoDup ks -> (forall k, In k ks -> (k < n)%nat) -> fold_right (fun k s => nth k l 0 + s) 0 ks <= 1).
Proof.
  intros c vs d eps uv sds D He Hp M n. destruct (C84_barycentric c vs d eps uv D He Hp) as (l & B & L & P & S). assert (E : domainFrames c vs = Some d) by apply D. assert (H3 : (3 <= length vs)%nat) by apply D.
  pose proof (frames_n _ _ _ E) as En. pose proof (ribbons_length _ _ _ _ _ M) as Ls. rewrite En in Ls. fold n in En, Ls, L, S, H3.
  assert (P' : forall k, 0 <= nth k l 0). { intros k. destruct (nth_in_or_default k l 0) as [I| ->]; [apply P; exact I|lra]. }
  exists l. split; [|split; [exact P'|]].
  - intros k Hk. split; [apply nth_error_Some; lia|]. assert (Hq : (prv n k < n)%nat) by (apply prv_lt; lia). destruct (nth_error sds k) as [sd|] eqn:Ek; [|apply nth_error_None in Ek; lia]. rewrite (nth_error_nth _ _ pzero Ek).
    unfold mapToRibbons in M. rewrite En in M. assert (Sq : nth_error (seq 0 n) k = Some k) by (rewrite (nth_error_nth' _ 0%nat) by (rewrite seq_length; exact Hk); rewrite seq_nth by exact Hk; reflexivity).
    rewrite (Base.mapM_nth _ _ _ _ _ M Sq) in Ek. cbn [mapToRibbon] in Ek. unfold baryMap in Ek. rewrite B in Ek. cbn [bind] in Ek. unfold baryRibbon in Ek. rewrite En in Ek.
    rewrite (nth_error_nth' l 0 (n := k)), (nth_error_nth' l 0 (n := prv n k)) in Ek by lia. cbn [bind] in Ek. destruct (if Rlt_dec _ eps then _ else _) as [s|] in Ek; [cbn [bind] in Ek|discriminate]. apply some_eq in Ek. subst sd. reflexivity.
  - intros ks Nd Lk. rewrite <- S. apply rsum_some; try assumption; intros; apply P'.
Qed.

(** Inside: no side is near, or one, or two neighbours. *)
Lemma near_cases : forall c vs d eps uv sds, convex_domain c vs d -> 0 < eps <= 1/3 -> in_polygon vs uv -> mapToRibbons (KBary Wachspress) eps d uv = Some sds ->
  let n := length vs in
  (forall i, (i < n)%nat -> away eps sds i) \/
  (exists e, (e < n)%nat /\ near eps sds e /\ forall j, (j < n)%nat -> j <> e -> away eps sds j) \/
  (exists e, (e < n)%nat /\ near eps sds e /\ near eps sds (nxt n e) /\ forall j, (j < n)%nat -> j <> e -> j <> nxt n e -> away eps sds j).
Proof.
  intros c vs d eps uv sds D He Hp M n. destruct (distances_in c vs d eps uv sds D ltac:(lra) Hp M) as (l & V & P & T). fold n in V, T. assert (H3 : (3 <= n)%nat) by apply D.
  assert (Ls : length sds = n) by (rewrite (ribbons_length _ _ _ _ _ M); apply (frames_n c vs d); apply D).
  assert (Aw : forall i, (i < n)%nat -> eps <= dpar sds i -> away eps sds i) by (intros i Hi Q; exists (nth i sds pzero); split; [apply nth_error_nth'; lia|exact Q]).
  assert (Ne : forall i, (i < n)%nat -> dpar sds i < eps -> near eps sds i) by (intros i Hi Q; exists (nth i sds pzero); split; [apply nth_error_nth'; lia|exact Q]).
  assert (Big : forall i, (i < n)%nat -> dpar sds i < eps -> 2/3 < nth i l 0 + nth (prv n i) l 0) by (intros i Hi Q; unfold dpar in Q; destruct (V i Hi) as (_ & X); lra).
  assert (Adj : forall i j, (i < n)%nat -> (j < n)%nat -> i <> j -> dpar sds i < eps -> dpar sds j < eps -> j = nxt n i \/ i = nxt n j).
  { intros i j Hi Hj N Qi Qj. destruct (Nat.eq_dec j (nxt n i)) as [|N1]; [left; assumption|]. destruct (Nat.eq_dec i (nxt n j)) as [|N2]; [right; assumption|exfalso].
    pose proof (Big i Hi Qi). pose proof (Big j Hj Qj). assert (Hpi : (prv n i < n)%nat) by (apply prv_lt; lia). assert (Hpj : (prv n j < n)%nat) by (apply prv_lt; lia).
    assert (X := T [i; prv n i; j; prv n j]). cbn [fold_right] in X. assert (nth i l 0 + (nth (prv n i) l 0 + (nth j l 0 + (nth (prv n j) l 0 + 0))) <= 1); [|lra]. apply X.
    - assert (i <> prv n i) by (intros Z; symmetry in Z; revert Z; apply prv_neq; lia). assert (j <> prv n j) by (intros Z; symmetry in Z; revert Z; apply prv_neq; lia).
      assert (i <> prv n j) by (intros ->; apply N1; rewrite nxt_prv by lia; reflexivity). assert (prv n i <> j) by (intros <-; apply N2; rewrite nxt_prv by lia; reflexivity).
      assert (prv n i <> prv n j) by (intros Z; apply N; rewrite <- (nxt_prv n i), <- (nxt_prv n j), Z by lia; reflexivity).
      repeat constructor; cbn [In]; intuition congruence.
    - cbn [In]; intros x Hx; intuition congruence. }
  assert (Two : forall a, (a < n)%nat -> dpar sds a < eps -> dpar sds (nxt n a) < eps -> forall j, (j < n)%nat -> j <> a -> j <> nxt n a -> eps <= dpar sds j).
  { intros a Ha Qa Qb j Hj N1 N2. destruct (Rlt_dec (dpar sds j) eps) as [Qj|]; [exfalso|lra]. assert (Hb : (nxt n a < n)%nat) by (apply nxt_lt; lia).
    destruct (Adj a j Ha Hj ltac:(congruence) Qa Qj) as [Z|Z1]; [contradiction|]. destruct (Adj (nxt n a) j Hb Hj ltac:(congruence) Qb Qj) as [Z2|Z2].
    2: { apply N1. rewrite <- (prv_nxt n a), <- (prv_nxt n j) by lia. rewrite Z2. reflexivity. }
    pose proof (Big a Ha Qa) as B1. pose proof (Big _ Hb Qb) as B2. pose proof (Big j Hj Qj) as B3.
    rewrite prv_nxt in B2 by exact Ha. replace (prv n j) with (nxt n a) in B3 by (rewrite Z2, prv_nxt by exact Hb; reflexivity). replace (prv n a) with j in B1 by (rewrite Z1 at 1; rewrite prv_nxt by exact Hj; reflexivity).
    assert (X := T [a; nxt n a; j]). cbn [fold_right] in X. assert (nth a l 0 + (nth (nxt n a) l 0 + (nth j l 0 + 0)) <= 1); [|lra]. apply X.
    - assert (nxt n a <> a) by (apply nxt_neq; lia). repeat constructor; cbn [In]; intuition congruence.
    - cbn [In]; intros x Hx; intuition congruence. }
  destruct (close_cases eps sds n Ls) as [F|[(e & Hi & De & F)|(e & f & Hi & Hf & N & De & Df)]]; [lia| | |].
  - left. intros i Hi. apply Aw; [exact Hi|apply F; exact Hi].
  - right. left. exists e. split; [exact Hi|]. split; [apply Ne; assumption|]. intros j Hj Nj. apply Aw; [exact Hj|apply F; assumption].
  - right. right. assert (K : forall a, (a < n)%nat -> dpar sds a < eps -> dpar sds (nxt n a) < eps -> exists e, (e < n)%nat /\ near eps sds e /\ near eps sds (nxt n e) /\ forall j, (j < n)%nat -> j <> e -> j <> nxt n e -> away eps sds j).
    { intros a Ha Qa Qb. exists a. split; [exact Ha|]. split; [apply Ne; assumption|]. split; [apply Ne; [apply nxt_lt; lia|exact Qb]|]. intros j Hj N1 N2. apply Aw; [exact Hj|]. apply (Two a); assumption. }
    destruct (Adj e f Hi Hf N De Df) as [Z|Z]; [apply (K e Hi De); rewrite <- Z; exact Df|apply (K f Hf Df); rewrite <- Z; exact De].
Qed.

(** The corner blends of the composite ribbon patch sum to one everywhere in the
    closed polygon. *)
Theorem C27_inside : forall c vs d eps uv, convex_domain c vs d -> 0 < eps <= 1/3 -> in_polygon vs uv ->
  exists sds b, mapToRibbons (KBary Wachspress) eps d uv = Some sds /\ blendCorner eps (length vs) sds = Some b /\ length b = length vs /\ (forall x, In x b -> 0 <= x) /\ weights_sum b 1.
Proof.
  intros c vs d eps uv D He Hp. destruct (C84_coordinates c vs d eps uv (KBary Wachspress) D ltac:(lra) Hp (or_introl eq_refl)) as (sds & M & L & U). assert (H3 : (3 <= length vs)%nat) by apply D.
  destruct (corner_total eps sds (length vs) ltac:(lra) L ltac:(lia)) as (b & Eb & Lb & P). exists sds, b. split; [exact M|]. split; [exact Eb|]. split; [exact Lb|]. split; [apply nth_In_pos; exact P|].
  apply (C27_partition eps sds (length vs) b ltac:(lra) L H3 Eb). apply (near_cases c vs d eps uv sds D He Hp M).
Qed.
Print Assumptions C27_inside.

(** Composite ribbon and midpoint patches of two sets of data, at every point of the
    closed polygon. *)
Theorem C94_inside : forall c vs d eps uv sf sf' e k t w, convex_domain c vs d -> 0 < eps <= 1/3 -> in_polygon vs uv -> sf_n sf = length vs -> 0 <= k -> 0 <= t -> 0 <= w ->
  ribbons_within e k sf sf' -> corners_within e t w sf sf' ->
  within (2 * side_bound (sf_gamma sf) e k + correction_bound (sf_gamma sf) e t w) (compositeRibbonEval eps d sf uv) (compositeRibbonEval eps d sf' uv).
Proof.
  intros c vs d eps uv sf sf' e k t w D He Hp En Hk Ht Hw Rb Cb. destruct (C27_inside c vs d eps uv D He Hp) as (sds & b & M & Eb & Lb & _ & Sb). assert (H3 : (3 <= length vs)%nat) by apply D.
  destruct (C84_coordinates c vs d eps uv (KBary Wachspress) D ltac:(lra) Hp (or_introl eq_refl)) as (sds' & M' & L & U). rewrite M in M'. injection M' as <-.
  unfold compositeRibbonEval. rewrite M. cbn [bind]. rewrite <- (Rmult_1_l (2 * _ + _)). apply (C94_composite_ribbon eps sf sf' e k t w sds b 1); rewrite ?En; try assumption; try lra; try lia.
Qed.
Print Assumptions C94_inside.
Theorem C94_midpoint_inside : forall c vs d eps uv sf sf' e k t w cp cp' m kd, convex_domain c vs d -> 0 < eps <= 1 -> in_polygon vs uv -> sf_n sf = length vs -> 0 <= k -> 0 <= t -> 0 <= w ->
  ribbons_within e k sf sf' -> corners_within e t w sf sf' -> apart cp cp' <= m ->
  exists sds b W, mapToRibbons (mparam kd) eps d uv = Some sds /\ blendCornerDeficient eps (length vs) sds = Some b /\ weights_sum b W /\ 0 <= W /\
    within (W * (2 * side_bound (sf_gamma sf) e k + correction_bound (sf_gamma sf) e t w) + Rabs (1 - W) * m) (mEval kd eps d sf cp uv) (mEval kd eps d sf' cp' uv).
Proof.
  intros c vs d eps uv sf sf' e k t w cp cp' m kd D He Hp En Hk Ht Hw Rb Cb Hm.
  destruct (C84_coordinates c vs d eps uv (mparam kd) D He Hp ltac:(destruct kd; [left|right]; reflexivity)) as (sds & M & L & U).
  destruct (C94_midpoint eps sf sf' e k t w cp cp' m sds ltac:(lra) Hk Ht Hw ltac:(congruence) U Rb Cb Hm) as (b & W & Eb & Sb & Pw & B1 & B2). rewrite En in Eb. exists sds, b, W.
  split; [exact M|]. split; [exact Eb|]. split; [exact Sb|]. split; [exact Pw|]. destruct kd; cbn [mEval mparam] in *; unfold midpointEval, midpointCoonsEval; rewrite M; cbn [bind]; assumption.
Qed.
Print Assumptions C94_midpoint_inside.

(** Turning the numbers of the sides of a generalized Bezier patch, at every point of
    the closed polygon. *)
Theorem C77_generalized_bezier_inside : forall n deg eps vs d g uv, (3 <= n)%nat -> (1 <= deg)%nat -> 0 < eps <= 1/2 ->
  regularVertices n = Some vs -> domainFrames pzero vs = Some d -> shaped n deg g -> consistent n deg g ->
  let T := turned (cos (2 * PI / INR n)) (sin (2 * PI / INR n)) pzero in in_polygon vs (T uv) ->
  gbSurfaceEval eps d (rotGB g) uv = gbSurfaceEval eps d g (T uv).
Proof.
  intros n deg eps vs d g uv H3 Hd He Hv E Sh Co T Hp. destruct (PropsTotal.regular_convex n vs d H3 Hv E) as (L & _ & Hn & C & I).
  apply (C77_generalized_bezier n deg eps vs d g uv); try assumption; try lra. intros sds M. apply (one_corner_in pzero vs d eps (T uv)); try assumption. split; [exact E|]. split; [lia|]. split; assumption.
Qed.
Print Assumptions C77_generalized_bezier_inside.

(** Four ribbons lifted by one tenth, with the corner points: every point of the
    composite ribbon patch over the square moves by at most three tenths. *)
Example C94_inside_example : forall g, exists vs d, regularVertices 4 = Some vs /\ domainFrames pzero vs = Some d /\ forall uv, in_polygon vs uv ->
  let data e := mkSurf 4 g (repeat (lifted e 0) 4) (repeat (mkCorner (mkV3 0 0 e) vzero vzero vzero vzero) 4) in
  within (3/10) (compositeRibbonEval (1/10) d (data 0) uv) (compositeRibbonEval (1/10) d (data (1/10)) uv).
Proof.
  intros g. destruct (regularVertices 4) as [vs|] eqn:Ev; [|vm_compute in Ev; discriminate]. exists vs. destruct (domainFrames pzero vs) as [d|] eqn:E; [|rewrite frames_closed in E; discriminate]. exists d. split; [reflexivity|]. split; [reflexivity|]. intros uv Hp data.
  destruct (PropsTotal.regular_convex 4 vs d ltac:(lia) Ev E) as (L & _ & Hn & C & I).
  assert (Z : forall a b, 0 <= b - a -> apart (mkV3 0 0 a) (mkV3 0 0 b) = b - a).
  { intros a b H. unfold apart, vnorm. replace (vdot _ _) with (Rsqr (b - a)) by (unfold vdot, vsub, Rsqr; simpl; ring). rewrite sqrt_Rsqr by exact H. reflexivity. }
  apply within_le with (2 * side_bound g (1/10) 0 + correction_bound g (1/10) 0 0); [|unfold side_bound, correction_bound; lra].
  apply (C94_inside pzero vs d (1/10) uv (data 0) (data (1/10)) (1/10) 0 0 0); try lra; try assumption.
  - split; [exact E|]. split; [lia|]. split; assumption.
  - symmetry. exact L.
  - split; [reflexivity|]. split; [reflexivity|]. split; [reflexivity|]. intros i r r' R R' s _. apply nth_error_In, repeat_spec in R, R'. subst r r'. cbn [lifted sr_curve sr_cross cpt within]. rewrite !Z by lra. lra.
  - split; [reflexivity|]. intros i c c' R R'. apply nth_error_In, repeat_spec in R, R'. subst c c'. cbn [cn_point cn_tan1 cn_tan2 cn_twist1 cn_twist2]. rewrite Z by lra. rewrite apart_zero. lra.
Qed.

(** ** S-patches *)
Lemma spatch_value : forall n d ws l eps dm uv, (d <= 20)%nat -> PropsSPatch.full n d (PropsSPatch.written ws) -> length l = n -> barycentric Wachspress eps dm uv = Some l ->
  SPatchModel.spEval eps dm (PropsSPatch.written ws) uv = Some (SPatchProofs.lvsum (fun ix => SPatchProofs.valAt vzero (PropsSPatch.written ws) ix *v SPatchProofs.weight ix l) (SPatchProofs.comps n d)).
Proof.
  intros n d ws l eps dm uv Hd F L B. pose proof (PropsSPatch.full_complete n d ws F) as C. unfold SPatchModel.spEval. rewrite B. cbn [bind].
  rewrite SPatchProofs.spSum_value by (intros ix p Hp; destruct (SPatchProofs.complete_entry n d _ ix p C Hp); lia). f_equal.
  rewrite <- (SPatchProofs.lvsum_perm _ _ _ _ (SPatchProofs.complete_perm n d _ C)), SPatchProofs.lvsum_map. apply SPatchProofs.lvsum_ext. intros (ix, p) Hp. cbn [fst snd]. destruct C as (O & _).
  apply (SPatchProofs.netAt_in _ _ _ O) in Hp. unfold SPatchProofs.valAt. rewrite Hp. reflexivity.
Qed.
Lemma lvsum_apart : forall A (f f' : A -> V3) (g : A -> R) l, (forall a, In a l -> apart (f a) (f' a) <= g a) -> apart (SPatchProofs.lvsum f l) (SPatchProofs.lvsum f' l) <= SPatchProofs.lsum g l.
Proof.
  intros A f f' g l. induction l as [|a l IH]; intros H; cbn; [rewrite apart_zero; lra|]. apply apart_le; [apply H; left; reflexivity|apply IH; intros b Hb; apply H; right; exact Hb].
Qed.

(** On every convex domain, at every point of the closed polygon, the value of an
    S-patch is a convex combination of its control points. *)
Theorem C53_inside : forall c vs dm eps uv d ws, convex_domain c vs dm -> 0 < eps <= 1 -> in_polygon vs uv -> (d <= 20)%nat -> PropsSPatch.full (length vs) d (PropsSPatch.written ws) ->
  exists w : SPatchModel.index -> R, (forall ix, 0 <= w ix) /\ SPatchProofs.lsum (fun cp => w (fst cp)) (PropsSPatch.written ws) = 1 /\
    SPatchModel.spEval eps dm (PropsSPatch.written ws) uv = Some (SPatchProofs.lvsum (fun cp => snd cp *v w (fst cp)) (PropsSPatch.written ws)).
Proof.
  intros c vs dm eps uv d ws D He Hp Hd F. pose proof (PropsSPatch.full_complete _ d ws F) as C. destruct (C84_barycentric c vs dm eps uv D He Hp) as (l & B & L & P & S). exists (fun ix => SPatchProofs.weight ix l). split; [|split].
  - intros ix. apply SPatchProofs.weight_nonneg. exact P.
  - apply (SPatchProofs.weights_sum (length vs) d _ l C L S).
  - unfold SPatchModel.spEval. rewrite B. cbn [bind]. apply SPatchProofs.spSum_value. intros ix p Hq. destruct (SPatchProofs.complete_entry _ d _ ix p C Hq). lia.
Qed.
Print Assumptions C53_inside.

(** S-patches whose control points move by at most [delta]. *)
Theorem C94_spatch : forall c vs dm eps uv d ws ws' delta, convex_domain c vs dm -> 0 < eps <= 1 -> in_polygon vs uv -> (d <= 20)%nat ->
  PropsSPatch.full (length vs) d (PropsSPatch.written ws) -> PropsSPatch.full (length vs) d (PropsSPatch.written ws') ->
  (forall ix p p', SPatchModel.netAt (PropsSPatch.written ws) ix = Some p -> SPatchModel.netAt (PropsSPatch.written ws') ix = Some p' -> apart p p' <= delta) ->
  exists p p', SPatchModel.spEval eps dm (PropsSPatch.written ws) uv = Some p /\ SPatchModel.spEval eps dm (PropsSPatch.written ws') uv = Some p' /\ apart p p' <= delta.
Proof.
  intros c vs dm eps uv d ws ws' delta D He Hp Hd F F' H. destruct (C84_barycentric c vs dm eps uv D He Hp) as (l & B & L & P & S).
  rewrite (spatch_value (length vs) d ws l eps dm uv Hd F L B), (spatch_value (length vs) d ws' l eps dm uv Hd F' L B). eexists; eexists. split; [reflexivity|]. split; [reflexivity|].
  apply Rle_trans with (SPatchProofs.lsum (fun ix => delta * SPatchProofs.weight ix l) (SPatchProofs.comps (length vs) d)).
  - apply lvsum_apart. intros ix Hix. pose proof (SPatchProofs.weight_nonneg ix l P) as W. rewrite (Rmult_comm delta). apply apart_scale_le; [lra|]. apply SPatchProofs.comps_in in Hix. unfold SPatchProofs.valAt.
    destruct (SPatchModel.netAt (PropsSPatch.written ws) ix) as [p|] eqn:E; [|exfalso; revert E; apply F; exact Hix]. destruct (SPatchModel.netAt (PropsSPatch.written ws') ix) as [p'|] eqn:E'; [|exfalso; revert E'; apply F'; exact Hix].
    exact (H ix p p' E E').
  - rewrite SPatchProofs.lsum_scal, SPatchProofs.multinomial_thm by exact L. rewrite S, pow1. lra.
Qed.
Print Assumptions C94_spatch.

(** ** Generalized Bezier patches *)

(** On every convex domain the weights are not negative, at every point of the closed
    polygon that is not at a corner. *)
Theorem C46_inside : forall c vs dm eps uv d g, convex_domain c vs dm -> 0 < eps <= 1 -> in_polygon vs uv -> shaped (length vs) d g ->
  exists sds, mapToRibbons (KBary Wachspress) eps dm uv = Some sds /\
    (PropsGB.off_corners eps (length vs) sds -> forall i j k, inRange (length vs) d (i, j, k) -> exists w, gbWeight eps g sds i j k = Some w /\ 0 <= w).
Proof.
  intros c vs dm eps uv d g D He Hp S. assert (H3 : (3 <= length vs)%nat) by apply D. destruct (C84_coordinates c vs dm eps uv (KBary Wachspress) D He Hp (or_introl eq_refl)) as (sds & M & L & U).
  exists sds. split; [exact M|]. intros (_ & O) i j k Rg. set (n := length vs) in *.
  set (f := fun i => px (nth i sds pzero)). set (h := fun i => py (nth i sds pzero)).
  assert (Hsd : forall i, (i < n)%nat -> nth_error sds i = Some (mkV2 (f i) (h i))) by (apply PropsGB.sds_fun; exact L).
  assert (Tm : forall i, (i < n)%nat -> 0 <= f i <= 1 /\ 0 <= h i <= 1) by (intros i' Hi'; exact (U i' _ (Hsd i' Hi'))).
  pose proof Rg as (Hi & Hj & Hk).
  assert (Hc : forall i, (i < n)%nat -> eps <= h i + h (nxt n i)).
  { intros i' Hi'. apply (O i' (mkV2 (f i') (h i')) (mkV2 (f (nxt n i')) (h (nxt n i')))); apply Hsd; [exact Hi'|apply nxt_lt; lia]. }
  assert (Hpr : (prv n i < n)%nat) by (apply prv_lt; lia). assert (Hx : (nxt n i < n)%nat) by (apply nxt_lt; lia).
  pose proof (Hc (prv n i) Hpr) as X. rewrite nxt_prv in X by exact Hi. pose proof (Hc i Hi) as Y.
  exists (wgt n d g f h i j k). split; [apply (weight_value n d g S f h sds Hsd eps ltac:(lra) i j k Hi Hj); [apply lay_le; exact Hk|exact Y|exact X]|].
  apply wgt_nonneg; try (apply Tm; assumption); lra.
Qed.
Print Assumptions C46_inside.

(** Generalized Bezier patches on any convex domain: the control points move by
    [delta], the central control point by [m]; [W] is the sum of the weights of the
    control points. *)
Theorem C94_generalized_bezier : forall c d g g' eps vs dm uv delta m, let n := length vs in convex_domain c vs dm -> in_polygon vs uv -> shaped n d g -> shaped n d g' -> gb_sq g = gb_sq g' -> 0 < eps <= 1 ->
  (forall i j k p p', inRange n d (i, j, k) -> controlPoint g i j k = Some p -> controlPoint g' i j k = Some p' -> apart p p' <= delta) -> apart (gb_cen g) (gb_cen g') <= m ->
  exists sds, mapToRibbons (KBary Wachspress) eps dm uv = Some sds /\ (PropsGB.off_corners eps n sds ->
    exists w W, (forall i j k, inRange n d (i, j, k) -> gbWeight eps g sds i j k = Some (w i j k)) /\
      W = rsum n (fun i => rsum ((d + 1) / 2) (fun k => rsum (d + 1) (fun j => w i j k))) /\ 0 <= W /\
      exists p p', gbSurfaceEval eps dm g uv = Some p /\ gbSurfaceEval eps dm g' uv = Some p' /\ apart p p' <= W * delta + Rabs (1 - W) * m).
Proof.
  intros c d g g' eps vs dm uv delta m n D Hp S S' Q He Hd Hm. destruct (C46_inside c vs dm eps uv d g D He Hp S) as (sds & Es & N). exists sds. split; [exact Es|]. intros O. specialize (N O).
  destruct (PropsGB.C46_formula n d g eps sds S ltac:(lra) O) as (w & Ew & Ev). destruct (PropsGB.C46_formula n d g' eps sds S' ltac:(lra) O) as (w' & Ew' & Ev').
  assert (Same : forall i j k, gbWeight eps g sds i j k = gbWeight eps g' sds i j k).
  { intros i j k. unfold gbWeight. destruct S as (-> & -> & _). destruct S' as (-> & -> & _). rewrite Q. reflexivity. }
  assert (lay : forall k, (k < (d + 1) / 2)%nat -> (2 * k + 1 <= d)%nat) by (intros k Hk; pose proof (Nat.div_mod (d + 1) 2 ltac:(lia)); pose proof (Nat.mod_upper_bound (d + 1) 2 ltac:(lia)); lia).
  assert (Rg : forall i j k, (i < n)%nat -> (k < (d + 1) / 2)%nat -> (j < d + 1)%nat -> inRange n d (i, j, k)) by (intros i j k A B C; split; [exact A|split; [lia|apply lay; exact B]]).
  assert (Weq : forall i j k, inRange n d (i, j, k) -> w' i j k = w i j k) by (intros i j k R; pose proof (Ew i j k R) as X; rewrite Same, (Ew' i j k R) in X; injection X as ->; reflexivity).
  assert (Wp : forall i j k, inRange n d (i, j, k) -> 0 <= w i j k) by (intros i j k R; destruct (N i j k R) as (x & Ex & Px); rewrite (Ew i j k R) in Ex; injection Ex as ->; exact Px).
  exists w. eexists. split; [exact Ew|]. split; [reflexivity|]. set (W := rsum n _).
  split; [unfold W; repeat (apply rsum_nonneg; intros); apply Wp, Rg; assumption|].
  exists (PropsGB.combined n d w g), (PropsGB.combined n d w' g'). unfold gbSurfaceEval. rewrite Es. cbn [bind]. split; [exact Ev|]. split; [exact Ev'|].
  assert (Eq : PropsGB.combined n d w' g' = PropsGB.combined n d w g').
  { unfold PropsGB.combined. f_equal; [|f_equal; f_equal]; repeat (first [apply vsum_ext|apply rsum_ext]; intros); [f_equal; apply Weq, Rg; assumption|apply Weq, Rg; assumption]. }
  rewrite Eq. unfold PropsGB.combined. fold W. apply apart_le; [|rewrite apart_scale_abs; apply Rmult_le_compat_l; [apply Rabs_pos|exact Hm]].
  apply Rle_trans with (rsum n (fun i => rsum ((d + 1) / 2) (fun k => rsum (d + 1) (fun j => w i j k * delta)))).
  - apply vsum_apart. intros i Hi. apply vsum_apart. intros k Hk. apply vsum_apart. intros j Hj. pose proof (Rg i j k Hi Hk Hj) as R. pose proof (Wp i j k R) as P.
    apply apart_scale_le; [lra|]. unfold PropsGB.point. pose proof (GBEval.cpv_some n d g i j k S R) as Ep. pose proof (GBEval.cpv_some n d g' i j k S' R) as Ep'. rewrite Ep, Ep'. exact (Hd i j k _ _ R Ep Ep').
  - unfold W. rewrite <- rsum_scal_r. apply Req_le, rsum_ext. intros i Hi. rewrite <- rsum_scal_r. apply rsum_ext. intros k Hk. apply rsum_scal_r.
Qed.
Print Assumptions C94_generalized_bezier.
