(** Properties of generalized Bezier, corner variant and hybrid patches whose
    boundary is gone round the other way: more of C90. *)
From Verif Require Import Base MeshModel GeomSpec UtilModel UtilSpec UtilProofs DomainModel DomainProofs DomainPolygons ParamModel RibbonModel SurfaceModel SurfaceEval.
From Verif Require Import GBModel GBSpec GBProofs GBEval GBEval2 GBContact2 HybridModel HybridProofs TotalSpec PropsTotal ParamMaps ParamFar ParamFar2.
From Verif Require Import RotSpec RotProofs RotParam RotMotion RotDomains RotPatches PropsRot MirSpec MirProofs MirParam MirDomains MirGB.
Open Scope R_scope.

(** Inside the polygon at most one corner is near. *)
Lemma one_corner_in : forall c vs d eps uv sds, convex_domain c vs d -> 0 < eps <= 1/2 -> in_polygon vs uv -> mapToRibbons (KBary Wachspress) eps d uv = Some sds -> one_corner eps sds.
Proof.
  intros c vs d eps uv sds D He Hp M. destruct (C84_barycentric c vs d eps uv D ltac:(lra) Hp) as (l & B & L & P & S). assert (E : domainFrames c vs = Some d) by apply D. assert (H3 : (3 <= length vs)%nat) by apply D.
  pose proof (frames_n _ _ _ E) as En. pose proof (ribbons_length _ _ _ _ _ M) as Ls. rewrite En in Ls. set (n := length vs) in *.
  assert (P' : forall k, 0 <= nth k l 0). { intros k. destruct (nth_in_or_default k l 0) as [I| ->]; [apply P; exact I|lra]. }
  assert (V : forall k, (k < n)%nat -> py (nth k sds pzero) = 1 - nth k l 0 - nth (prv n k) l 0).
  { intros k Hk. assert (Hq : (prv n k < n)%nat) by (apply prv_lt; lia). destruct (nth_error sds k) as [sd|] eqn:Ek; [|apply nth_error_None in Ek; lia]. rewrite (nth_error_nth _ _ pzero Ek).
    unfold mapToRibbons in M. rewrite En in M. assert (Sq : nth_error (seq 0 n) k = Some k) by (rewrite (nth_error_nth' _ 0%nat) by (rewrite seq_length; exact Hk); rewrite seq_nth by exact Hk; reflexivity).
    rewrite (Base.mapM_nth _ _ _ _ _ M Sq) in Ek. cbn [mapToRibbon] in Ek. unfold baryMap in Ek. rewrite B in Ek. cbn [bind] in Ek. unfold baryRibbon in Ek. rewrite En in Ek. fold n in Ek.
    rewrite (nth_error_nth' l 0 (n := k)), (nth_error_nth' l 0 (n := prv n k)) in Ek by lia. cbn [bind] in Ek. destruct (if Rlt_dec _ eps then _ else _) as [s|] in Ek; [cbn [bind] in Ek|discriminate]. apply some_eq in Ek. subst sd. reflexivity. }
  assert (T : forall ks, NoDup ks -> (forall k, In k ks -> (k < n)%nat) -> fold_right (fun k s => nth k l 0 + s) 0 ks <= 1) by (intros ks Nd Lk; rewrite <- S; apply rsum_some; try assumption; intros; apply P').
  assert (G : forall k, (k < n)%nat -> py (nth k sds pzero) + py (nth (nxt n k) sds pzero) < eps -> 1/2 < nth k l 0).
  { intros k Hk Q. assert (Hx : (nxt n k < n)%nat) by (apply nxt_lt; lia). assert (Hq : (prv n k < n)%nat) by (apply prv_lt; lia). rewrite !V, prv_nxt in Q by assumption.
    assert (X := T [prv n k; k; nxt n k]). cbn [fold_right] in X.
    assert (N1 : prv n k <> k) by (apply prv_neq; lia). assert (N2 : nxt n k <> k) by (apply nxt_neq; lia).
    assert (N3 : prv n k <> nxt n k) by (rewrite (prv_cases n k Hk), (nxt_cases n k Hk); destruct (Nat.eqb_spec k 0); destruct (Nat.eqb_spec (Datatypes.S k) n); lia).
    assert (nth (prv n k) l 0 + (nth k l 0 + (nth (nxt n k) l 0 + 0)) <= 1); [|lra]. apply X.
    - repeat constructor; cbn [In]; intuition congruence.
    - cbn [In]; intros x Hx'; intuition congruence. }
  intros i j Hi Hj Qi Qj. rewrite Ls in *. destruct (Nat.eq_dec i j) as [|Nij]; [assumption|exfalso].
  pose proof (G i Hi Qi). pose proof (G j Hj Qj). assert (X := T [i; j]). cbn [fold_right] in X. assert (nth i l 0 + (nth j l 0 + 0) <= 1); [|lra]. apply X.
  - repeat constructor; cbn [In]; intuition congruence.
  - cbn [In]; intros x Hx'; intuition congruence.
Qed.

(** ** Degrees of at least three

    Column [j] of side [i] is column [degree - j] of the side the other way round:
    [mirGB]; these are the control points of the reversed side. *)
Theorem C90_net : forall n deg g i j k, shaped n deg g -> (i < n)%nat -> (j <= deg)%nat ->
  controlPoint (mirGB g) i j k = controlPoint g (if (i =? 0)%nat then 0%nat else n - i) (deg - j) k /\ gb_cen (mirGB g) = gb_cen g /\ shaped n deg (mirGB g) /\ (consistent n deg g -> consistent n deg (mirGB g)).
Proof. intros n deg g i j k Sh Hi Hj. split; [apply (cp_mir n deg); assumption|]. split; [reflexivity|]. split; [apply shaped_mir; exact Sh|]. intros Co. apply consistent_mir; assumption. Qed.
Print Assumptions C90_net.

(** For the same local parameters, read from the other ends of the sides, a
    generalized Bezier patch gives the same point. *)
Theorem C90_bezier_patch : forall n deg g sds eps, shaped n deg g -> consistent n deg g -> length sds = n -> (2 <= n)%nat -> (3 <= deg)%nat -> 0 < eps -> one_corner eps sds ->
  gbEval eps (mirGB g) (mirSds sds) = gbEval eps g sds.
Proof. exact gbEval_mir. Qed.
Print Assumptions C90_bezier_patch.
(** So does a hybrid patch, where the net and the ribbons are both reversed. *)
Theorem C90_hybrid_patch : forall n deg g sf sds eps, shaped n deg g -> length sds = n -> sf_n sf = n -> length (sf_ribbons sf) = n -> (3 <= n)%nat -> (3 <= deg)%nat -> 0 < eps -> one_corner eps sds ->
  hybridEval eps (mirGB g) (mirSurf sf) (mirSds sds) = hybridEval eps g sf sds.
Proof. exact hybridEval_mir. Qed.
Print Assumptions C90_hybrid_patch.

(** On the domain: the polygon is mirrored, and the point with it. *)
Theorem C90_bezier : forall deg eps c vs d g uv, 0 < eps <= 1/2 -> convex_domain c vs d -> shaped (length vs) deg g -> consistent (length vs) deg g -> (3 <= deg)%nat -> in_polygon vs uv -> settledAt Wachspress eps d uv ->
  exists d', domainFrames (mirrored c) (rev (map mirrored vs)) = Some d' /\ gbSurfaceEval eps d' (mirGB g) (mirrored uv) = gbSurfaceEval eps d g uv.
Proof.
  intros deg eps c vs d g uv He D Sh Co Hd Hp F. assert (E : domainFrames c vs = Some d) by apply D. assert (H3 : (3 <= length vs)%nat) by apply D.
  destruct (domainFrames (M c) (mirVerts vs)) as [d'|] eqn:E'; [|rewrite frames_closed in E'; discriminate].
  exists d'. split; [exact E'|]. unfold gbSurfaceEval. rewrite (ribbons_mir c vs d d' E E'); [|lra|lia|cbn [kind_fair]; split; [intros v _; cbn [baryRadius]; lra|exact F]].
  rewrite bind_map_some. apply bind_cong. intros sds Es. pose proof (ribbons_length _ _ _ _ _ Es) as Ls. rewrite (frames_n _ _ _ E) in Ls.
  apply (gbEval_mir (length vs) deg); try assumption; try lra; try lia. apply (one_corner_in c vs d eps uv); assumption.
Qed.
Print Assumptions C90_bezier.
Theorem C90_hybrid : forall deg eps c vs d g sf uv, 0 < eps <= 1/2 -> convex_domain c vs d -> shaped (length vs) deg g -> (3 <= deg)%nat -> sf_n sf = length vs -> length (sf_ribbons sf) = length vs ->
  in_polygon vs uv -> settledAt Wachspress eps d uv ->
  exists d', domainFrames (mirrored c) (rev (map mirrored vs)) = Some d' /\ hybridSurfaceEval eps d' (mirGB g) (mirSurf sf) (mirrored uv) = hybridSurfaceEval eps d g sf uv.
Proof.
  intros deg eps c vs d g sf uv He D Sh Hd En Lr Hp F. assert (E : domainFrames c vs = Some d) by apply D. assert (H3 : (3 <= length vs)%nat) by apply D.
  destruct (domainFrames (M c) (mirVerts vs)) as [d'|] eqn:E'; [|rewrite frames_closed in E'; discriminate].
  exists d'. split; [exact E'|]. unfold hybridSurfaceEval. rewrite (ribbons_mir c vs d d' E E'); [|lra|lia|cbn [kind_fair]; split; [intros v _; cbn [baryRadius]; lra|exact F]].
  rewrite bind_map_some. apply bind_cong. intros sds Es. pose proof (ribbons_length _ _ _ _ _ Es) as Ls. rewrite (frames_n _ _ _ E) in Ls.
  apply (hybridEval_mir (length vs) deg); try assumption; try lra; try lia. apply (one_corner_in c vs d eps uv); assumption.
Qed.
Print Assumptions C90_hybrid.

(** On the regular domains with four sides or more no hypothesis on the point is
    left: it is any point of the polygon. *)
Theorem C90_bezier_regular : forall n deg eps vs d g sf uv, (4 <= n)%nat -> 0 < eps -> eps <= sin (2 * PI / INR n) * sin (2 * PI / INR n) * sin (PI / INR n) / 2 ->
  regularVertices n = Some vs -> domainFrames pzero vs = Some d -> shaped n deg g -> (3 <= deg)%nat -> in_polygon vs uv ->
  let q := if (n =? 4)%nat then mirrored uv else turned (cos (2 * PI / INR n)) (- sin (2 * PI / INR n)) pzero (mirrored uv) in
  (consistent n deg g -> gbSurfaceEval eps d (mirGB g) q = gbSurfaceEval eps d g uv) /\
  (sf_n sf = n -> length (sf_ribbons sf) = n -> hybridSurfaceEval eps d (mirGB g) (mirSurf sf) q = hybridSurfaceEval eps d g sf uv).
Proof.
  intros n deg eps vs d g sf uv H4 Hp He Hv E Sh Hd Pq q. assert (H3 : (3 <= n)%nat) by lia. pose proof (regular_length n vs Hv) as Lv.
  pose proof (h_pos n H3) as Ph. pose proof (w_pos n vs H3 Hv) as Pw. pose proof (SIN_bound (2 * PI / INR n)) as Bh. pose proof (SIN_bound (PI / INR n)) as Bw.
  assert (B1 : eps <= 1/2 /\ eps <= 2 * (sin (2 * PI / INR n) * sin (2 * PI / INR n) * sin (PI / INR n))).
  { set (h := sin (2 * PI / INR n)) in *. set (w := sin (PI / INR n)) in *. assert (0 < h * h * w) by (apply Rmult_lt_0_compat; [nra|lra]). assert (h * h <= 1) by nra. assert (h * h * w <= 1 * 1) by (apply Rmult_le_compat; nra). lra. }
  destruct B1 as (B1 & B2). assert (F : settledAt Wachspress eps d uv) by (apply (settled_regular n vs d H4 Hv E); assumption).
  assert (D : convex_domain pzero vs d) by (apply (regular_convex n vs d H3 Hv E)).
  assert (R : forall sds, mapToRibbons (KBary Wachspress) eps d uv = Some sds -> one_corner eps sds) by (intros sds; apply (one_corner_in pzero vs d); try assumption; lra).
  assert (K : mapToRibbons (KBary Wachspress) eps d q = option_map mirSds (mapToRibbons (KBary Wachspress) eps d uv)).
  { destruct (domainFrames (M pzero) (mirVerts vs)) as [d'|] eqn:E'; [|rewrite frames_closed in E'; discriminate].
    rewrite <- (ribbons_mir pzero vs d d' E E'); [|lra|lia|cbn [kind_fair]; split; [intros v _; cbn [baryRadius]; lra|exact F]].
    replace (M pzero) with pzero in E' by (unfold mirrored, pzero; apply V2_ext; simpl; ring). unfold q. destruct (Nat.eqb_spec n 4) as [E4|N4].
    - subst n. rewrite E4 in Hv. rewrite (square_mir vs Hv), E in E'. injection E' as <-. reflexivity.
    - rewrite (regular_mir n vs H3 N4 Hv), frames_rot, E in E'. cbn [option_map] in E'. injection E' as <-. rewrite (regular_dom n vs d H3 Hv E).
      set (p := turned (cos (2 * PI / INR n)) (- sin (2 * PI / INR n)) pzero (M uv)).
      replace (M uv) with (turned (cos (2 * PI / INR n)) (sin (2 * PI / INR n)) pzero p); [symmetry; apply ribbons_move, turn_unit|].
      unfold p, turned, pzero. pose proof (turn_unit (2 * PI / INR n)) as U. set (co := cos (2 * PI / INR n)) in *. set (z := sin (2 * PI / INR n)) in *. destruct (M uv) as [x y]. apply V2_ext; cbn [px py padd].
      + transitivity (x * (co * co + z * z)); [ring|rewrite U; ring].
      + transitivity (y * (co * co + z * z)); [ring|rewrite U; ring]. }
  pose proof (frames_n _ _ _ E) as En. split; [intros Co|intros Sn Lr].
  - unfold gbSurfaceEval. rewrite K, bind_map_some. apply bind_cong. intros sds Es. pose proof (ribbons_length _ _ _ _ _ Es) as Ls. apply (gbEval_mir n deg); try assumption; try lia; try congruence; apply R; exact Es.
  - unfold hybridSurfaceEval. rewrite K, bind_map_some. apply bind_cong. intros sds Es. pose proof (ribbons_length _ _ _ _ _ Es) as Ls. apply (hybridEval_mir n deg); try assumption; try lia; try congruence; apply R; exact Es.
Qed.
Print Assumptions C90_bezier_regular.

(** ** The corner variant

    It lives on the disc, points are (radius, angle); the mirror image is taken in
    the middle of side 0.  Here every degree will do. *)
Theorem C90_disc : forall n deg eps g r phi phi', (3 <= n)%nat -> shaped n deg g -> consistent n deg g ->
  - PI <= phi <= PI -> - PI <= phi' <= PI -> phi' = 2 * PI / INR n - phi \/ phi' = 2 * PI / INR n - phi - 2 * PI \/ phi' = 2 * PI / INR n - phi + 2 * PI ->
  gbcSurfaceEval eps (mirGB g) (mkV2 r phi') = gbcSurfaceEval eps g (mkV2 r phi).
Proof.
  intros n deg eps g r phi phi' H3 Sh Co B1 B2 B3. assert (E : exists m, phi' = 2 * PI / INR n - phi + 2 * PI * IZR m) by (destruct B3 as [B|[B|B]]; [exists 0%Z|exists (-1)%Z|exists 1%Z]; rewrite B; ring). destruct E as (m & E).
  unfold gbcSurfaceEval. cbn [mirGB gb_n]. fold (mirGB g). assert (En : gb_n g = n) by apply Sh. rewrite En.
  assert (C : forall i, (i < n)%nat -> circularMap eps n i (mkV2 r phi') = circularMap eps n (sid n i) (mkV2 r phi)) by (intros i Hi; apply (circularMap_mir eps n i r phi phi' m); assumption).
  assert (X : forall i, (i < n)%nat -> exists sd, circularMap eps n i (mkV2 r phi) = Some sd).
  { intros i Hi. assert (N : 3 <= INR n) by (replace 3 with (INR 3) by (simpl; lra); apply le_INR; exact H3). unfold circularMap, localPhi. cbn [px py]. rewrite !fdiv_some by lra. cbn [bind].
    destruct (Rlt_dec (1 - eps) r); [|eexists; reflexivity]. destruct (Rle_dec _ _); [eexists; reflexivity|]. destruct (Rle_dec _ _); eexists; reflexivity. }
  assert (Y : forall f, (forall i, (i < n)%nat -> exists sd, f i = Some sd) -> exists l, mapM (f : nat -> option V2) (seq 0 n) = Some l /\ length l = n /\ forall i, (i < n)%nat -> nth_error l i = f i).
  { intros f Hf. destruct (mapM f (seq 0 n)) as [l|] eqn:Q.
    - exists l. split; [reflexivity|]. split; [apply mapM_length in Q; rewrite seq_length in Q; exact Q|]. intros i Hi. apply (Base.mapM_nth _ _ _ _ _ Q). rewrite (nth_error_nth' _ 0%nat) by (rewrite seq_length; exact Hi). rewrite seq_nth by exact Hi. reflexivity.
    - exfalso. assert (G : forall js, (forall j, In j js -> (j < n)%nat) -> mapM f js <> None).
      { induction js as [|j js IH]; intros Hj; [discriminate|]. cbn [mapM]. destruct (Hf j (Hj j (or_introl eq_refl))) as (sd & ->). cbn [bind]. destruct (mapM f js) eqn:Z; [discriminate|]. exfalso. apply IH; [intros k Hk; apply Hj; right; exact Hk|reflexivity]. }
      apply (G (seq 0 n)); [|exact Q]. intros j Hj. apply in_seq in Hj. lia. }
  destruct (Y (fun i => circularMap eps n i (mkV2 r phi)) X) as (l & Q & L & V).
  destruct (Y (fun i => circularMap eps n i (mkV2 r phi'))) as (l' & Q' & L' & V'); [intros i Hi; rewrite C by exact Hi; apply X, sid_lt, Hi|].
  rewrite Q, Q'. cbn [bind]. apply (gbcEval_mir n deg); try assumption. intros i Hi. assert (Hs := sid_lt n i Hi). rewrite V', C, <- V by assumption. rewrite (sds_co n l L _ Hs). eexists. reflexivity.
Qed.
Print Assumptions C90_disc.

(** ** Where there is a preferred direction: degrees one and two

    The code asks whether a point is in the first two columns before it asks
    whether it is in the last two.  A point in both, the middle one of a quadratic
    side and all points of a linear side, is weighted with the distance from the
    previous side, and the next side has no say.  The two directions differ by the
    following, and by nothing else. *)
Theorem C90_bezier_low : forall n deg g eps (s h : nat -> R), shaped n deg g -> (1 <= deg <= 2)%nat -> 0 < eps -> (forall i, (i < n)%nat -> eps <= h i + h (nxt n i)) ->
  let sds := tabulate n (fun i => mkV2 (s i) (h i)) in
  let share x y := if gb_sq g then x * x / (x * x + y * y) else x / (x + y) in
  let gap i := share (h (nxt n i)) (h i) - share (h (prv n i)) (h i) in
  exists p p', gbEval eps g sds = Some p /\ gbEval eps (mirGB g) (mirSds sds) = Some p' /\
    p' -v p = if (deg =? 2)%nat then vsum n (fun i => (cpv g i 1 0 -v gb_cen g) *v (2 * s i * (1 - s i) * (1 - h i) ^ 2 * gap i))
              else vsum n (fun i => ((cpv g i 0 0 -v gb_cen g) *v (1 - s i) +v (cpv g i 1 0 -v gb_cen g) *v s i) *v ((1 - h i) * gap i)).
Proof.
  intros n deg g eps s h Sh Hd He F sds share gap. assert (L : length sds = n) by apply tabulate_length.
  assert (Q : forall i, (i < n)%nat -> co_s sds i = s i /\ co_d sds i = h i).
  { intros i Hi. assert (A := sds_co n sds L i Hi). unfold sds in A at 1. rewrite tabulate_nth_error in A by exact Hi. injection A as A1 A2. split; congruence. }
  destruct (gbEval_low n deg g sds eps Sh L He Hd) as (p & p' & P & P' & E).
  { intros i Hi. assert (Hx : (nxt n i < n)%nat) by (apply nxt_lt; lia). rewrite (proj2 (Q i Hi)), (proj2 (Q _ Hx)). apply F; exact Hi. }
  exists p, p'. split; [exact P|]. split; [exact P'|]. rewrite E.
  assert (G : forall i, (i < n)%nat -> rat (gb_sq g) (co_d sds (nxt n i)) (co_d sds i) - rat (gb_sq g) (co_d sds (prv n i)) (co_d sds i) = gap i).
  { intros i Hi. assert (Hx : (nxt n i < n)%nat) by (apply nxt_lt; lia). assert (Hp : (prv n i < n)%nat) by (apply prv_lt; lia). rewrite (proj2 (Q i Hi)), (proj2 (Q _ Hx)), (proj2 (Q _ Hp)). reflexivity. }
  set (T := vsum n _). assert (Z : p +v T -v p = T) by (v3ring). rewrite Z. clear Z. unfold T. clear T E P P'.
  assert (D : deg = 1%nat \/ deg = 2%nat) by lia. destruct D as [-> | ->]; cbn [Nat.eqb]; apply vsum_ext; intros i Hi; destruct (Q i Hi) as (Q1 & Q2); specialize (G i Hi);
    cbn [Nat.add vsum]; unfold low_gap; cbn [Nat.ltb Nat.leb Nat.sub andb]; rewrite G, Q1, Q2; clear; unfold bern, choose; simpl; generalize (gap i); intros x; unfold vzero; v3ring.
Qed.
Print Assumptions C90_bezier_low.

(** A triangle with quadratic sides, all of whose points are the origin but the
    middle one of side 0: the two directions give two points. *)
Example C90_low_example : let o := vzero in
  let g := mkGB 3 2 1 o [[[o]; [mkV3 1 0 0]; [o]]; [[o]; [o]; [o]]; [[o]; [o]; [o]]] false 3 in
  let sds := [mkV2 (1/2) (1/2); mkV2 (1/2) (1/6); mkV2 (1/2) (1/3)] in
  shaped 3 2 g /\ consistent 3 2 g /\ exists p p', gbEval (1/10) g sds = Some p /\ gbEval (1/10) (mirGB g) (mirSds sds) = Some p' /\ p' -v p = mkV3 (-3/160) 0 0.
Proof.
  intros o g sds. assert (Sh : shaped 3 2 g).
  { unfold shaped, g. cbn [gb_n gb_deg gb_lay gb_nets length]. repeat (split; [reflexivity|]). intros x [<-|[<-|[<-|[]]]]; (split; [reflexivity|]); intros y [<-|[<-|[<-|[]]]]; reflexivity. }
  split; [exact Sh|]. split.
  - intros p q P Q X. destruct X as [i j k Hj]. cbn [inRange] in P, Q. assert (j = 0%nat) by lia. assert (k = 0%nat) by lia. subst. assert (C : i = 0%nat \/ i = 1%nat \/ i = 2%nat) by lia. destruct C as [->|[->| ->]]; reflexivity.
  - set (h := fun i => match i with 0%nat => 1/2 | 1%nat => 1/6 | _ => 1/3 end).
    destruct (C90_bezier_low 3 2 g (1/10) (fun _ => 1/2) h Sh ltac:(lia) ltac:(lra)) as (p & p' & P & P' & E).
    { intros i Hi. destruct i as [|[|[|i]]]; [| | |lia]; unfold nxt; simpl; lra. }
    exists p, p'. split; [exact P|]. split; [exact P'|]. rewrite E. cbn [Nat.eqb]. unfold g at 4. cbn [gb_sq]. cbv [vsum cpv controlPoint get3 g gb_nets nth_error bind gb_cen o h nxt prv]. simpl. unfold vzero. apply V3_ext; simpl; field.
Qed.

(** A cubic triangle with one pair of points off the origin. *)
Example C90_bezier_example : let o := vzero in let v := mkV3 0 0 1 in
  let g := mkGB 3 3 2 o [[[o; o]; [o; v]; [o; o]; [o; o]]; [[o; o]; [o; o]; [o; o]; [o; o]]; [[o; o]; [o; o]; [o; v]; [o; o]]] false 3 in
  let sds := [mkV2 (1/2) (1/2); mkV2 (1/2) (1/6); mkV2 (1/3) (1/3)] in
  shaped 3 3 g /\ consistent 3 3 g /\ one_corner (1/10) sds /\ gbEval (1/10) g sds = Some (mkV3 0 0 (499/4320)) /\ gbEval (1/10) (mirGB g) (mirSds sds) = Some (mkV3 0 0 (499/4320)).
Proof.
  intros o v g sds. assert (Sh : shaped 3 3 g).
  { unfold shaped, g. cbn [gb_n gb_deg gb_lay gb_nets length]. repeat (split; [reflexivity|]). intros x [<-|[<-|[<-|[]]]]; (split; [reflexivity|]); intros y [<-|[<-|[<-|[<-|[]]]]]; reflexivity. }
  assert (Co : consistent 3 3 g).
  { intros p q P Q X. destruct X as [i j k Hj]. cbn [inRange] in P, Q. assert (C : i = 0%nat \/ i = 1%nat \/ i = 2%nat) by lia. assert (A : j = 0%nat \/ j = 1%nat) by lia. assert (B : k = 0%nat \/ k = 1%nat) by lia.
    destruct C as [->|[->| ->]]; destruct A as [-> | ->]; destruct B as [-> | ->]; reflexivity. }
  assert (F : forall i, (i < 3)%nat -> 1/10 <= co_d sds i + co_d sds (nxt 3 i)) by (intros i Hi; destruct i as [|[|[|i]]]; [| | |lia]; unfold co_d, nxt, sds; simpl; lra).
  assert (On : one_corner (1/10) sds). { intros i j Hi Hj Qi Qj. cbn [length sds] in *. specialize (F i Hi). unfold co_d in F. lra. }
  split; [exact Sh|]. split; [exact Co|]. split; [exact On|].
  assert (V : gbEval (1/10) g sds = Some (mkV3 0 0 (499/4320))).
  { rewrite (eval_sum 3 3 g Sh (co_s sds) (co_d sds) sds (sds_co 3 sds eq_refl) (1/10) ltac:(lra) F). f_equal.
    cbv [vsum rsum cpv controlPoint get3 g gb_nets nth_error bind gb_cen o v wgt gbFactor rat gb_sq]. simpl. cbv [Nat.div Nat.divmod snd fst vsum rsum bern choose]. simpl. unfold vzero, sds. cbn. apply V3_ext; simpl; field. }
  split; [exact V|]. rewrite (C90_bezier_patch 3 3) by (assumption || lra || lia || reflexivity). exact V.
Qed.
