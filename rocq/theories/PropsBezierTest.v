(** The files written by bezierTest and meshFitTest: C91. *)
From Verif Require Import Base MeshModel MeshSpec MeshParams GeomSpec DomainModel DomainProofs UtilModel UtilSpec UtilProofs ParamModel ParamMaps.
From Verif Require Import JoinModel JoinSpec GBModel GBSpec GBProofs GBElev GBEval GBFitModel GBParamModel LeastSquares GBFitTotal TotalSpec FourSpec BezierTestModel BezierTestProofs.
From Verif Require PropsJoin PropsTotal PropsGB PropsGB2 PropsGBFit PropsGBParam PropsFour PropsFourFit.
From Coq Require Import String.
Open Scope R_scope.

Lemma las_app : forall a b, list_ascii_of_string (a ++ b) = (list_ascii_of_string a ++ list_ascii_of_string b)%list.
Proof. intros a b; induction a as [|c a IH]; [reflexivity|]. cbn [append list_ascii_of_string app]. rewrite IH. reflexivity. Qed.
Lemma las_rev : forall a b, rev (list_ascii_of_string (a ++ b)) = (rev (list_ascii_of_string b) ++ rev (list_ascii_of_string a))%list.
Proof. intros a b. rewrite las_app. apply rev_app_distr. Qed.
Lemma append_inj : forall a b c, (a ++ c)%string = (b ++ c)%string -> a = b.
Proof.
  intros a b c E. apply (f_equal list_ascii_of_string) in E. rewrite !las_app in E. apply app_inv_tail in E.
  rewrite <- (string_of_list_ascii_of_string a), <- (string_of_list_ascii_of_string b), E. reflexivity.
Qed.
(** Both names end differently. *)
Ltac other_end E := exfalso; apply (f_equal (fun x => rev (list_ascii_of_string x))) in E; rewrite ?las_rev in E; discriminate E.

(** ** The trade-off between distance and smoothness *)
Section Props.
Variables lu svd : nat -> nat -> (nat -> nat -> R) -> (nat -> V3) -> nat -> V3.

Lemma distances_pos : forall eps h samples, 0 <= PropsGBFit.distances eps h samples.
Proof.
  intros eps h samples; induction samples as [|[sds p] ss IH]; cbn [PropsGBFit.distances]; [lra|].
  assert (forall v, 0 <= vnorm2 v) by (intros [x y z]; unfold vnorm2, vdot; cbn; pose proof (Rle_0_sqr x); pose proof (Rle_0_sqr y); pose proof (Rle_0_sqr z); unfold Rsqr in *; lra).
  destruct (gbEval eps h sds) as [v|]; [specialize (H (v -v p))|specialize (H p)]; lra.
Qed.
Lemma vnorm2_pos : forall v, 0 <= vnorm2 v.
Proof. intros [x y z]. unfold vnorm2, vdot. cbn. pose proof (Rle_0_sqr x). pose proof (Rle_0_sqr y). pose proof (Rle_0_sqr z). unfold Rsqr in *. lra. Qed.
Lemma rsum_pos : forall m F, (forall i, 0 <= F i) -> 0 <= rsum m F.
Proof. intros m F H; induction m as [|m IH]; cbn [rsum]; [lra|]. specialize (H m). lra. Qed.
Lemma roughness_pos : forall n d f h, 0 <= PropsGBFit.roughness n d f h.
Proof.
  intros n d f h. unfold PropsGBFit.roughness. pose proof (vnorm2_pos (gb_cen h -v vsum n (fun i => PropsGB2.latticePoint n d h i ((d + 1) / 2) ((d + 1) / 2 - 1)) *v (/ INR n))).
  assert (0 <= rsum ((d + 1) / 2 - f) (fun k => rsum n (fun i => rsum (d - 2 * (f + k)) (fun j => vnorm2 (PropsGBFit.bump n d h i (f + k + j) (f + k)))))); [|lra].
  apply rsum_pos. intros k. apply rsum_pos. intros i. apply rsum_pos. intros j. apply vnorm2_pos.
Qed.

(** Of two fits to the same samples, the one with the larger smoothing parameter is
    not rougher and not closer to the samples, whatever the patch, the samples, the
    smoothing parameters and the least squares solver are.  (Each fit minimizes the
    squared distances plus the squared parameter times the roughness: C68.) *)
Theorem C91_tradeoff : forall n d f o eps v0 c0 d0 l0 v1 c1 d1 l1 samples w w' g g',
  (3 <= n)%nat -> (3 <= d)%nat -> (1 <= f <= 2)%nat -> 0 < eps <= 1 -> shaped n d o -> consistent n d o -> gb_dom o = n -> least_squares_solver svd ->
  (forall s, In s samples -> proper eps n (fst s)) -> 0 <= w < w' ->
  fitWithOriginal lu svd 0 eps v0 c0 d0 l0 o samples w f = Some g -> fitWithOriginal lu svd 0 eps v1 c1 d1 l1 o samples w' f = Some g' ->
  PropsGBFit.distances eps g samples <= PropsGBFit.distances eps g' samples /\ PropsGBFit.roughness n d f g' <= PropsGBFit.roughness n d f g.
Proof.
  intros n d f o eps v0 c0 d0 l0 v1 c1 d1 l1 samples w w' g g' Hn Hd Hf He So Co Do Lsq Hs Hw E E'.
  destruct (PropsGBFit.C68_minimal lu svd n d f o eps v0 c0 d0 l0 samples w 0 Hn Hd Hf He So Co Do Lsq Hs) as (r & z & Er & Kr & _ & _ & _ & _ & _ & M).
  destruct (PropsGBFit.C68_minimal lu svd n d f o eps v1 c1 d1 l1 samples w' 0 Hn Hd Hf He So Co Do Lsq Hs) as (r' & z' & Er' & Kr' & _ & _ & _ & _ & _ & M').
  assert (r = g) by congruence. assert (r' = g') by congruence. subst r r'.
  specialize (M g' Kr'). specialize (M' g Kr). unfold PropsGBFit.objective in M, M'.
  pose proof (distances_pos eps g samples). pose proof (distances_pos eps g' samples). pose proof (roughness_pos n d f g). pose proof (roughness_pos n d f g').
  set (D := PropsGBFit.distances eps g samples) in *. set (D' := PropsGBFit.distances eps g' samples) in *.
  set (Q := PropsGBFit.roughness n d f g) in *. set (Q' := PropsGBFit.roughness n d f g') in *.
  assert (W : 0 <= w * w) by (apply Rmult_le_pos; lra). assert (W' : w * w < w' * w') by (apply Rmult_le_0_lt_compat; lra).
  assert (P1 : 0 <= w * w * Q') by (apply Rmult_le_pos; assumption). assert (P2 : 0 <= w' * w' * Q) by (apply Rmult_le_pos; lra).
  assert (M1 : D + w * w * Q <= D' + w * w * Q') by (destruct M as [M|M]; lra).
  assert (M2 : D' + w' * w' * Q' <= D + w' * w' * Q) by (destruct M' as [M'|M']; lra).
  assert (R' : Q' <= Q).
  { apply (Rmult_le_reg_l (w' * w' - w * w)); [lra|]. lra. }
  split; [|exact R']. assert (w * w * Q' <= w * w * Q) by (apply Rmult_le_compat_l; assumption). lra.
Qed.

(** ** What the files contain *)

(** A mesh of resolution [r], the net of a patch of degree [d], a .gbp file. *)
Inductive kind := KMesh (r : nat) | KNet (d : nat) | KGbp (d : nat).
(** The mesh has the rim of [bd]; the net, with its center first, is that of a patch with
    this boundary, and its faces refer to vertices that exist; the .gbp file loads into a
    patch with this boundary, up to printing. *)
Definition as_described (fmt : R -> R) (n : nat) (bd : nat -> R -> V3) (file : string * content) (e : string * kind) : Prop :=
  fst file = ("../../models/" ++ fst e)%string /\
  match snd file, snd e with
  | CMesh m, KMesh r => List.length (pm_points m) = meshSize n r /\ PropsJoin.chords m n r bd
  | CNet vs fs, KNet d => List.length vs = gbCount n d /\ (forall f a, In f fs -> In a f -> (1 <= a <= List.length vs)%nat) /\
      exists g, good n d g /\ writeControlPoints fmt g = Some (vs, fs) /\ forall i s, (i < n)%nat -> boundaryCurve g d i s = bd i s
  | CTokens t, KGbp d => exists g, good n d g /\ (forall i s, (i < n)%nat -> boundaryCurve g d i s = bd i s) /\
      forall v0 d0 l0 c0, exists g', loadBezier v0 t (gbNew d0 l0 c0) = Some g' /\ good n d g' /\
        forall i j k, inRange n d (i, j, k) -> controlPoint g' i j k = option_map (PropsGB2.rounded fmt) (controlPoint g i j k)
  | _, _ => False
  end.

Variables tol eps : R.
Variable fmt : R -> R.
Variables v0 c0 : nat -> V3.
Variables d0 l0 : nat -> nat.
Variable closest : pmesh -> V3 -> nat * nat * nat.
Variables resolution fine projection : nat.
Notation bezierTest := (bezierTest lu svd tol eps fmt v0 c0 d0 l0 closest resolution fine projection).
Notation meshFitTest := (meshFitTest lu svd tol eps fmt v0 c0 d0 l0 closest resolution projection).
Notation load f := (loadBezier (v0 0%nat) f (gbNew (d0 0%nat) (l0 0%nat) (c0 0%nat))).

Definition bezierFiles (more deg : nat) (filename : string) : list (string * kind) :=
  [((filename ++ "-GB.obj")%string, KMesh fine); ("bezier.obj"%string, KMesh resolution); ("bezier-cpts.obj"%string, KNet deg);
   ("bezier-elevated-cpts.obj"%string, KNet (deg + 1)); ("bezier-elevated.obj"%string, KMesh resolution);
   ("bezier-elevated-30-times.obj"%string, KNet (deg + more)); ("bezier-elevated-60-times.obj"%string, KNet (deg + 2 * more));
   ("bezier-sextic.obj"%string, KMesh resolution); ("bezier-sextic-cpts.obj"%string, KNet (deg + 1));
   ("bezier-sextic-projected.obj"%string, KMesh resolution); ("bezier-sextic-projected-cpts.obj"%string, KNet (deg + 1));
   ("bezier-sextic-projected-smooth.obj"%string, KMesh resolution); ("bezier-sextic-projected-smooth-cpts.obj"%string, KNet (deg + 1))].
Definition meshFitFiles (deg : nat) : list (string * kind) :=
  [("bezier.obj"%string, KMesh resolution); ("bezier-cpts.obj"%string, KNet deg);
   ("bezier-fitted.obj"%string, KMesh resolution); ("bezier-fitted-cpts.obj"%string, KNet deg); ("bezier-fitted.gbp"%string, KGbp deg);
   ("bezier-fitted-smooth02.obj"%string, KMesh resolution); ("bezier-fitted-smooth02-cpts.obj"%string, KNet deg); ("bezier-smooth02.gbp"%string, KGbp deg);
   ("bezier-fitted-smooth05.obj"%string, KMesh resolution); ("bezier-fitted-smooth05-cpts.obj"%string, KNet deg); ("bezier-smooth05.gbp"%string, KGbp deg);
   ("bezier-fitted-smooth10.obj"%string, KMesh resolution); ("bezier-fitted-smooth10-cpts.obj"%string, KNet deg); ("bezier-smooth10.gbp"%string, KGbp deg)].

Lemma mesh_file : forall n deg g name r bd, (3 <= n)%nat -> (2 <= deg)%nat -> good n deg g -> 0 < eps <= 1 / 2 -> (1 <= r)%nat -> eps * INR r <= 1 ->
  (forall i s, (i < n)%nat -> boundaryCurve g deg i s = bd i s) ->
  exists file, meshFile eps name g r = Some file /\ as_described fmt n bd file (name, KMesh r).
Proof.
  intros n deg g name r bd H3 Hd G He Hr Her B. destruct (mesh_some eps n deg g r H3 ltac:(lia) G ltac:(lra) Hr) as (m & Em & Lm & _). unfold meshFile. rewrite Em. cbn [bind].
  eexists. split; [reflexivity|]. split; [reflexivity|]. cbn [snd]. split; [exact Lm|]. pose proof (mesh_chords eps n deg g r m H3 Hd G He Hr Her Em) as C.
  intros P Q. rewrite (C P Q). split; intros (e & i & Hen & Hi & EP & EQ); exists e, i; rewrite B in * by exact Hen || rewrite <- B by exact Hen; repeat split; try assumption;
    rewrite ?B in * by exact Hen; assumption.
Qed.
Lemma net_file : forall n deg g name bd, (1 <= n)%nat -> (1 <= deg)%nat -> good n deg g ->
  (forall i s, (i < n)%nat -> boundaryCurve g deg i s = bd i s) ->
  exists file, netFile fmt name g = Some file /\ as_described fmt n bd file (name, KNet deg).
Proof.
  intros n deg g name bd Hn Hd G B. pose proof G as (Sh & Co & Dm). destruct (PropsGB2.C51_faces n deg fmt g Hn Hd Sh Co Dm) as (vs & fs & E & L & _ & F & _). unfold netFile. rewrite E. cbn [bind].
  eexists. split; [reflexivity|]. split; [reflexivity|]. cbn [snd]. split; [exact L|]. split; [exact F|]. exists g. split; [exact G|]. split; [exact E|exact B].
Qed.
Lemma gbp_file : forall n deg g name bd, (1 <= n)%nat -> (1 <= deg)%nat -> good n deg g ->
  (forall i s, (i < n)%nat -> boundaryCurve g deg i s = bd i s) ->
  exists file, gbpFile fmt name g = Some file /\ as_described fmt n bd file (name, KGbp deg).
Proof.
  intros n deg g name bd Hn Hd G B. pose proof G as (Sh & Co & Dm). unfold gbpFile.
  destruct (PropsGB2.C50_round_trip n deg fmt vzero g (gbNew 0 0 vzero) Hn Hd Sh Co Dm) as (t & _ & Et & _); [cbn; lia|]. rewrite Et. cbn [bind].
  eexists. split; [reflexivity|]. split; [reflexivity|]. cbn [snd]. exists g. split; [exact G|]. split; [exact B|]. intros w0 e0 m0 b0.
  destruct (PropsGB2.C50_round_trip n deg fmt w0 g (gbNew e0 m0 b0) Hn Hd Sh Co Dm) as (t' & g' & Et' & El & Sg & Dg & _ & V); [cbn; lia|].
  assert (t' = t) by congruence. subst t'. exists g'. split; [exact El|]. split; [split; [exact Sg|split; [|exact Dg]]|].
  - intros p q Rp Rq M. rewrite (V p Rp), (V q Rq), (Co p q Rp Rq M). reflexivity.
  - intros i j k R. apply (V (i, j, k) R).
Qed.
Lemma fit_some : forall k n deg g points uvs vs w, (3 <= n)%nat -> (3 <= deg)%nat -> good n deg g -> 0 < eps <= 1 -> regularVertices n = Some vs ->
  (forall uv, In uv uvs -> in_polygon vs uv) ->
  exists d sds r, gbDomain g = Some d /\ mapM (mapToRibbons (KBary Wachspress) eps d) uvs = Some sds /\ gbFit lu svd tol eps v0 c0 d0 l0 k g points uvs w = Some r /\
    fitWithOriginal lu svd tol eps (v0 k) (c0 k) (d0 k) (l0 k) g (combine sds points) w 2 = Some r /\
    PropsGBFit.keeps n deg 2 g r /\ good n deg r.
Proof.
  intros k n deg g points uvs vs w H3 Hd G He Hv I. destruct (domain_some n deg g H3 G) as (vs' & d & Hv' & Hf & Ed & L & CD). assert (vs' = vs) by congruence. subst vs'.
  assert (Mp : exists sds, mapM (mapToRibbons (KBary Wachspress) eps d) uvs = Some sds /\ forall s, In s sds -> List.length s = n).
  { clear -I CD He L. induction uvs as [|uv uvs IH]; [exists []; split; [reflexivity|intros s []]|]. destruct IH as (sds & E & Ls); [intros x X; apply I; right; exact X|].
    destruct (PropsTotal.C84_coordinates pzero vs d eps uv _ CD He (I uv (or_introl eq_refl)) (or_introl eq_refl)) as (s & Es & Lss & _).
    exists (s :: sds). cbn [mapM]. rewrite Es. cbn [bind]. rewrite E. split; [reflexivity|]. intros x [<-|X]; [congruence|apply Ls; exact X]. }
  destruct Mp as (sds & Em & Ls).
  destruct (fit_any lu svd n deg g eps (v0 k) (c0 k) (d0 k) (l0 k) (combine sds points) w tol H3 Hd He G) as (r & Er & Kr & Gr).
  { intros [s p] X. apply in_combine_l in X. apply Ls; exact X. }
  exists d, sds, r. split; [exact Ed|]. split; [exact Em|]. split; [unfold gbFit; rewrite Ed; cbn [bind]; rewrite Em; cbn [bind]; exact Er|]. split; [exact Er|]. split; assumption.
Qed.

(** bezierTest with a readable file whose patch has at least three sides and degree at
    least three: it writes its thirteen files, if the triangle found for each point of the
    mesh is not degenerate.  All meshes have the same rim, the chords of the boundary
    curves of the loaded patch, in their resolution, and all nets are those of patches
    with this boundary. *)
Theorem C91_bezier : forall more n deg filename f, (3 <= n)%nat -> (3 <= deg)%nat -> readable n deg f -> 0 < eps <= 1 / 2 ->
  (1 <= resolution)%nat -> (1 <= fine)%nat -> (1 <= projection)%nat -> eps * INR resolution <= 1 -> eps * INR fine <= 1 ->
  (forall surf sextic mesh m p, load f = Some surf -> elevateDegree (v0 1%nat) (c0 1%nat) (d0 1%nat) (l0 1%nat) surf = Some sextic ->
     gbMesh eps surf resolution = Some mesh -> gbMesh eps sextic projection = Some m -> In p (pm_points mesh) -> usable m (closest m) p) ->
  exists surf out, load f = Some surf /\ good n deg surf /\ bezierTest more filename f = Some out /\
    Forall2 (as_described fmt n (boundaryCurve surf deg)) out (bezierFiles more deg filename).
Proof.
  intros more n deg filename f H3 Hd Rd He Hr Hfi Hp Er Ef Us.
  destruct (load_good n deg f (v0 0%nat) (d0 0%nat) (l0 0%nat) (c0 0%nat) ltac:(lia) ltac:(lia) Rd) as (surf & El & G & _).
  exists surf. unfold BezierTestModel.bezierTest. rewrite El. cbn [bind]. set (bd := boundaryCurve surf deg).
  destruct (mesh_file n deg surf (filename ++ "-GB.obj") fine bd H3 ltac:(lia) G He Hfi Ef ltac:(reflexivity)) as (f1 & -> & D1). cbn [bind].
  destruct (inner_some n deg surf Hd G) as (rows & ->). cbn [bind].
  destruct (mesh_some eps n deg surf resolution H3 ltac:(lia) G ltac:(lra) Hr) as (mesh & Em & _). rewrite Em. cbn [bind].
  destruct (mesh_file n deg surf "bezier.obj" resolution bd H3 ltac:(lia) G He Hr Er ltac:(reflexivity)) as (f2 & -> & D2). cbn [bind].
  destruct (net_file n deg surf "bezier-cpts.obj" bd ltac:(lia) ltac:(lia) G ltac:(reflexivity)) as (f3 & -> & D3). cbn [bind].
  destruct (elevate_good (v0 1%nat) (c0 1%nat) (d0 1%nat) (l0 1%nat) n deg surf ltac:(lia) ltac:(lia) G) as (sextic & Es & Gs & Bs). rewrite Es. cbn [bind].
  destruct (net_file n (deg + 1) sextic "bezier-elevated-cpts.obj" bd ltac:(lia) ltac:(lia) Gs Bs) as (f4 & -> & D4). cbn [bind].
  destruct (mesh_file n (deg + 1) sextic "bezier-elevated.obj" resolution bd H3 ltac:(lia) Gs He Hr Er Bs) as (f5 & -> & D5). cbn [bind].
  destruct (more_good v0 c0 d0 l0 n more 5 deg surf ltac:(lia) ltac:(lia) G) as (e1 & -> & G1 & B1). cbn [bind].
  destruct (net_file n (deg + more) e1 "bezier-elevated-30-times.obj" bd ltac:(lia) ltac:(lia) G1 B1) as (f6 & -> & D6). cbn [bind].
  destruct (more_good v0 c0 d0 l0 n more (5 + more) (deg + more) e1 ltac:(lia) ltac:(lia) G1) as (e2 & -> & G2 & B2). cbn [bind].
  replace (deg + more + more)%nat with (deg + 2 * more)%nat in G2, B2 by lia.
  destruct (net_file n (deg + 2 * more) e2 "bezier-elevated-60-times.obj" bd ltac:(lia) ltac:(lia) G2 ltac:(intros i s Hi; rewrite (B2 i s Hi); apply B1; exact Hi)) as (f7 & -> & D7). cbn [bind].
  destruct (params_some n deg surf resolution H3 G Hr) as (vs & ps & Hv & -> & _ & Ip). cbn [bind].
  assert (Bk : forall r, PropsGBFit.keeps n (deg + 1) 2 sextic r -> forall i s, (i < n)%nat -> boundaryCurve r (deg + 1) i s = bd i s).
  { intros r Kr i s Hi. rewrite (keeps_boundary n (deg + 1) 2 sextic r i s) by (lia || assumption). apply Bs; exact Hi. }
  destruct (fit_some 2 n (deg + 1) sextic (pm_points mesh) ps vs 0 H3 ltac:(lia) Gs ltac:(lra) Hv Ip) as (_ & _ & s2 & _ & _ & -> & _ & K2 & Gs2). cbn [bind].
  destruct (mesh_file n (deg + 1) s2 "bezier-sextic.obj" resolution bd H3 ltac:(lia) Gs2 He Hr Er (Bk s2 K2)) as (f8 & -> & D8). cbn [bind].
  destruct (net_file n (deg + 1) s2 "bezier-sextic-cpts.obj" bd ltac:(lia) ltac:(lia) Gs2 (Bk s2 K2)) as (f9 & -> & D9). cbn [bind].
  destruct (mesh_some eps n (deg + 1) sextic projection H3 ltac:(lia) Gs ltac:(lra) Hp) as (m & Emp & _).
  destruct (project_some eps closest projection n (deg + 1) sextic vs (pm_points mesh) m H3 ltac:(lia) Gs ltac:(lra) Hp Hv Emp (fun p I => Us surf sextic mesh m p El Es Em Emp I)) as (uvs & -> & _ & Iu). cbn [bind].
  destruct (fit_some 3 n (deg + 1) sextic (pm_points mesh) uvs vs 0 H3 ltac:(lia) Gs ltac:(lra) Hv Iu) as (_ & _ & s3 & _ & _ & -> & _ & K3 & Gs3). cbn [bind].
  destruct (mesh_file n (deg + 1) s3 "bezier-sextic-projected.obj" resolution bd H3 ltac:(lia) Gs3 He Hr Er (Bk s3 K3)) as (f10 & -> & D10). cbn [bind].
  destruct (net_file n (deg + 1) s3 "bezier-sextic-projected-cpts.obj" bd ltac:(lia) ltac:(lia) Gs3 (Bk s3 K3)) as (f11 & -> & D11). cbn [bind].
  destruct (fit_some 4 n (deg + 1) sextic (pm_points mesh) uvs vs (2 / 10) H3 ltac:(lia) Gs ltac:(lra) Hv Iu) as (_ & _ & s4 & _ & _ & -> & _ & K4 & Gs4). cbn [bind].
  destruct (mesh_file n (deg + 1) s4 "bezier-sextic-projected-smooth.obj" resolution bd H3 ltac:(lia) Gs4 He Hr Er (Bk s4 K4)) as (f12 & -> & D12). cbn [bind].
  destruct (net_file n (deg + 1) s4 "bezier-sextic-projected-smooth-cpts.obj" bd ltac:(lia) ltac:(lia) Gs4 (Bk s4 K4)) as (f13 & -> & D13). cbn [bind].
  eexists. split; [reflexivity|]. split; [exact G|]. split; [reflexivity|]. unfold bezierFiles. repeat (constructor; [assumption|]). constructor.
Qed.

(** For a patch of degree one or two showDeviations reads the second row of a net that
    has one row only: after the first file, the run is undefined. *)
Theorem C91_low_degree : forall more n deg filename f, (3 <= n)%nat -> (1 <= deg <= 2)%nat -> readable n deg f -> bezierTest more filename f = None.
Proof.
  intros more n deg filename f H3 Hd Rd.
  destruct (load_good n deg f (v0 0%nat) (d0 0%nat) (l0 0%nat) (c0 0%nat) ltac:(lia) ltac:(lia) Rd) as (surf & El & G & _).
  unfold BezierTestModel.bezierTest. rewrite El. cbn [bind]. destruct (meshFile eps _ surf fine) as [f1|]; [|reflexivity]. cbn [bind].
  rewrite (inner_none n deg surf ltac:(lia) ltac:(lia) G). reflexivity.
Qed.

(** meshFitTest, for degrees from three on: fourteen files, all with the boundary of the
    loaded patch; the .gbp files load back; the four fitted patches keep the two outer
    rows of control points, and with exact least squares they are in this order farther
    and farther from the mesh, and smoother and smoother. *)
Theorem C91_mesh_fit : forall n deg f points, (3 <= n)%nat -> (3 <= deg)%nat -> readable n deg f -> 0 < eps <= 1 / 2 ->
  (1 <= resolution)%nat -> (1 <= projection)%nat -> eps * INR resolution <= 1 ->
  (forall surf m p, load f = Some surf -> gbMesh eps surf projection = Some m -> In p points -> usable m (closest m) p) ->
  exists surf out g0 g1 g2 g3 d uvs sds, load f = Some surf /\ good n deg surf /\ meshFitTest f points = Some ([g0; g1; g2; g3], out) /\
    Forall2 (as_described fmt n (boundaryCurve surf deg)) out (meshFitFiles deg) /\
    Forall (PropsGBFit.keeps n deg 2 surf) [g0; g1; g2; g3] /\
    gbDomain surf = Some d /\ gbProject eps closest projection surf points = Some uvs /\ mapM (mapToRibbons (KBary Wachspress) eps d) uvs = Some sds /\ List.length sds = List.length points /\
    let dist g := PropsGBFit.distances eps g (combine sds points) in let rough g := PropsGBFit.roughness n deg 2 g in
    (tol = 0 -> least_squares_solver svd -> (forall s, In s sds -> proper eps n s) ->
       dist g0 <= dist g1 <= dist g2 /\ dist g2 <= dist g3 /\ rough g3 <= rough g2 <= rough g1 /\ rough g1 <= rough g0).
Proof.
  intros n deg f points H3 Hd Rd He Hr Hp Er Us.
  destruct (load_good n deg f (v0 0%nat) (d0 0%nat) (l0 0%nat) (c0 0%nat) ltac:(lia) ltac:(lia) Rd) as (surf & El & G & _).
  unfold BezierTestModel.meshFitTest. rewrite El. cbn [bind]. set (bd := boundaryCurve surf deg).
  destruct (mesh_file n deg surf "bezier.obj" resolution bd H3 ltac:(lia) G He Hr Er ltac:(reflexivity)) as (f1 & -> & D1). cbn [bind].
  destruct (net_file n deg surf "bezier-cpts.obj" bd ltac:(lia) ltac:(lia) G ltac:(reflexivity)) as (f2 & -> & D2). cbn [bind].
  destruct (domain_some n deg surf H3 G) as (vs & d & Hv & _ & Ed & _).
  destruct (mesh_some eps n deg surf projection H3 ltac:(lia) G ltac:(lra) Hp) as (m & Emp & _).
  destruct (project_some eps closest projection n deg surf vs points m H3 ltac:(lia) G ltac:(lra) Hp Hv Emp (fun p I => Us surf m p El Emp I)) as (uvs & Eu & Lu & Iu).
  assert (Part : forall k w name gbp, exists g fs sds, meshFitPart lu svd tol eps fmt v0 c0 d0 l0 closest resolution projection k surf points w name gbp = Some (g, fs) /\
    Forall2 (as_described fmt n bd) fs [((name ++ ".obj")%string, KMesh resolution); ((name ++ "-cpts.obj")%string, KNet deg); ((gbp ++ ".gbp")%string, KGbp deg)] /\
    PropsGBFit.keeps n deg 2 surf g /\ mapM (mapToRibbons (KBary Wachspress) eps d) uvs = Some sds /\
    fitWithOriginal lu svd tol eps (v0 k) (c0 k) (d0 k) (l0 k) surf (combine sds points) w 2 = Some g).
  { intros k w name gbp. unfold meshFitPart. rewrite Eu. cbn [bind].
    destruct (fit_some k n deg surf points uvs vs w H3 ltac:(lia) G ltac:(lra) Hv Iu) as (d' & sds & g & Ed' & Es & Eg & Ew & Kg & Gg). assert (d' = d) by congruence. subst d'. rewrite Eg. cbn [bind].
    assert (B : forall i s, (i < n)%nat -> boundaryCurve g deg i s = bd i s) by (intros i s Hi; apply (keeps_boundary n deg 2 surf g i s); lia || assumption).
    destruct (mesh_file n deg g (name ++ ".obj") resolution bd H3 ltac:(lia) Gg He Hr Er B) as (h1 & -> & E1). cbn [bind].
    destruct (net_file n deg g (name ++ "-cpts.obj") bd ltac:(lia) ltac:(lia) Gg B) as (h2 & -> & E2). cbn [bind].
    destruct (gbp_file n deg g (gbp ++ ".gbp") bd ltac:(lia) ltac:(lia) Gg B) as (h3 & -> & E3). cbn [bind].
    exists g, [h1; h2; h3], sds. split; [reflexivity|]. split; [repeat (constructor; [assumption|]); constructor|]. split; [exact Kg|]. split; assumption. }
  destruct (Part 1%nat 0 "bezier-fitted"%string "bezier-fitted"%string) as (g0 & p0 & sds & -> & F0 & K0 & Es & W0). cbn [bind].
  destruct (Part 2%nat (2 / 10) "bezier-fitted-smooth02"%string "bezier-smooth02"%string) as (g1 & p1 & sd1 & -> & F1 & K1 & Es1 & W1). cbn [bind].
  destruct (Part 3%nat (5 / 10) "bezier-fitted-smooth05"%string "bezier-smooth05"%string) as (g2 & p2 & sd2 & -> & F2 & K2 & Es2 & W2). cbn [bind].
  destruct (Part 4%nat 1 "bezier-fitted-smooth10"%string "bezier-smooth10"%string) as (g3 & p3 & sd3 & -> & F3 & K3 & Es3 & W3). cbn [bind].
  assert (sd1 = sds) by congruence. assert (sd2 = sds) by congruence. assert (sd3 = sds) by congruence. subst sd1 sd2 sd3.
  exists surf. eexists. exists g0, g1, g2, g3, d, uvs, sds. split; [reflexivity|]. split; [exact G|]. split; [reflexivity|].
  split; [unfold meshFitFiles; constructor; [exact D1|]; constructor; [exact D2|]; exact (Forall2_app F0 (Forall2_app F1 (Forall2_app F2 F3)))|].
  split; [repeat (constructor; [assumption|]); constructor|]. split; [exact Ed|]. split; [exact Eu|]. split; [exact Es|]. split; [rewrite (mapM_length _ _ _ Es); exact Lu|].
  cbv zeta. intros Tz Lsq Pr. rewrite Tz in *. pose proof G as (Sh & Co & Dm).
  assert (Pc : forall s, In s (combine sds points) -> proper eps n (fst s)) by (intros [s p] I; apply in_combine_l in I; apply Pr; exact I).
  pose proof (fun w w' k k' g g' => C91_tradeoff n deg 2 surf eps (v0 k) (c0 k) (d0 k) (l0 k) (v0 k') (c0 k') (d0 k') (l0 k') (combine sds points) w w' g g' H3 Hd ltac:(lia) ltac:(lra) Sh Co Dm Lsq Pc) as T.
  destruct (T 0 (2 / 10) 1%nat 2%nat g0 g1 ltac:(lra) W0 W1). destruct (T (2 / 10) (5 / 10) 2%nat 3%nat g1 g2 ltac:(lra) W1 W2). destruct (T (5 / 10) 1 3%nat 4%nat g2 g3 ltac:(lra) W2 W3).
  repeat split; assumption.
Qed.

(** A degenerate triangle nearest to a point of the mesh: the run has no defined result
    (the normal vector of the triangle is divided by its zero length). *)
Theorem C91_degenerate : forall more filename f surf sextic mesh m i j k p a b c,
  load f = Some surf -> elevateDegree (v0 1%nat) (c0 1%nat) (d0 1%nat) (l0 1%nat) surf = Some sextic ->
  gbMesh eps surf resolution = Some mesh -> gbMesh eps sextic projection = Some m -> In p (pm_points mesh) -> closest m p = (i, j, k) ->
  nth_error (pm_points m) i = Some a -> nth_error (pm_points m) j = Some b -> nth_error (pm_points m) k = Some c -> vcross (b -v a) (c -v a) = vzero ->
  bezierTest more filename f = None.
Proof.
  intros more filename f surf sextic mesh m i j k p a b c El Es Em Emp Ip Ec Ea Eb Ecc Dg. unfold BezierTestModel.bezierTest. rewrite El. cbn [bind].
  destruct (meshFile eps _ surf fine); [|reflexivity]. cbn [bind]. destruct (innerRows surf) as [rows|]; [|reflexivity]. cbn [bind]. rewrite Em. cbn [bind]. destruct (meshFile eps _ surf resolution); [|reflexivity]. cbn [bind].
  destruct (netFile fmt _ surf); [|reflexivity]. cbn [bind]. rewrite Es. cbn [bind].
  assert (N : gbProject eps closest projection sextic (pm_points mesh) = None).
  { unfold gbProject. rewrite Emp. cbn [bind]. destruct (gbParameters sextic projection) as [ps|]; [|reflexivity]. cbn [bind]. unfold parameterizePoints.
    induction (pm_points mesh) as [|q l IH]; [destruct Ip|]. cbn [mapM]. destruct Ip as [->|Ip].
    - rewrite Ec, Ea, Eb, Ecc. cbn [bind]. destruct (nth_error ps i) as [ua|]; [|reflexivity]. cbn [bind]. destruct (nth_error ps j) as [ub|]; [|reflexivity]. cbn [bind].
      destruct (nth_error ps k) as [uc|]; [|reflexivity]. cbn [bind]. rewrite (PropsGBParam.C69_degenerate a b c ua ub uc p Dg). reflexivity.
    - destruct (let '(_, _, _) := closest m q in _); [|reflexivity]. cbn [bind]. rewrite (IH Ip). reflexivity. }
  destruct (netFile fmt _ sextic); [|reflexivity]. cbn [bind]. destruct (meshFile eps _ sextic resolution); [|reflexivity]. cbn [bind].
  destruct (elevateMore v0 c0 d0 l0 5 more surf) as [e|]; [|reflexivity]. cbn [bind]. destruct (netFile fmt _ e); [|reflexivity]. cbn [bind].
  destruct (elevateMore v0 c0 d0 l0 (5 + more) more e) as [e'|]; [|reflexivity]. cbn [bind]. destruct (netFile fmt _ e'); [|reflexivity]. cbn [bind].
  destruct (gbParameters surf resolution) as [ps|]; [|reflexivity]. cbn [bind]. destruct (gbFit _ _ _ _ _ _ _ _ 2 sextic _ ps 0) as [s2|]; [|reflexivity]. cbn [bind].
  destruct (meshFile eps _ s2 resolution); [|reflexivity]. cbn [bind]. destruct (netFile fmt _ s2); [|reflexivity]. cbn [bind]. rewrite N. reflexivity.
Qed.

(** Four sides and at least as many mesh points in a row as the elevated patch has control
    points: bezier-sextic.obj and bezier.obj are the same mesh. *)
Theorem C91_quads : forall more deg filename f out m m', tol = 0 -> least_squares_solver svd -> 0 < eps <= 1 / 3 -> (3 <= deg)%nat -> readable 4 deg f ->
  (deg + 1 <= resolution)%nat -> eps * INR resolution <= 1 ->
  bezierTest more filename f = Some out ->
  In ("../../models/bezier.obj"%string, CMesh m) out -> In ("../../models/bezier-sextic.obj"%string, CMesh m') out -> m' = m.
Proof.
  intros more deg filename f out m m' Tz Lsq He Hd Rd Hr Er E I1 I2. rewrite Tz in E.
  destruct (load_good 4 deg f (v0 0%nat) (d0 0%nat) (l0 0%nat) (c0 0%nat) ltac:(lia) ltac:(lia) Rd) as (surf & El & G & _). pose proof G as (Sh & Co & Dm).
  destruct PropsFour.C87_domain as (Hv & (d & Hdm) & Cov).
  assert (Eg : forall g, good 4 deg g \/ good 4 (deg + 1) g -> gbDomain g = Some d) by (intros g [(_ & _ & Q)|(_ & _ & Q)]; unfold gbDomain; rewrite Q, Hv; exact Hdm).
  destruct (PropsFourFit.C89_fit lu svd deg surf d eps (v0 1%nat) (c0 1%nat) (d0 1%nat) (l0 1%nat) (v0 2%nat) (c0 2%nat) (d0 2%nat) (l0 2%nat) resolution Hd Sh Co Dm Hdm Lsq He Hr Er)
    as (h & Eh & Shh & Coh & V).
  destruct (elevate_good (v0 1%nat) (c0 1%nat) (d0 1%nat) (l0 1%nat) 4 deg surf ltac:(lia) ltac:(lia) G) as (sextic & Es & Gs & _).
  unfold PropsFourFit.elevateAndFit in Eh. unfold BezierTestModel.bezierTest in E. rewrite El in E. cbn [bind] in E.
  assert (Em : exists mesh, gbMesh eps surf resolution = Some mesh) by (destruct (mesh_some eps 4 deg surf resolution ltac:(lia) ltac:(lia) G ltac:(lra) ltac:(lia)) as (x & Ex & _); exists x; exact Ex).
  destruct Em as [mesh Em]. unfold gbMesh in Em. rewrite (Eg surf (or_introl G)) in Em. cbn [bind] in Em. rewrite Em, Es in Eh. cbn [bind] in Eh.
  destruct (parametersImpl (d_n d) (d_center d) (d_verts d) resolution) as [ps|] eqn:Ep; [|discriminate Eh]. cbn [bind] in Eh.
  assert (Fit : gbFit lu svd 0 eps v0 c0 d0 l0 2 sextic (pm_points mesh) ps 0 = Some h) by (unfold gbFit; rewrite (Eg sextic (or_intror Gs)); exact Eh).
  assert (Gh : good 4 (deg + 1) h).
  { split; [exact Shh|]. split; [exact Coh|]. destruct (params_some 4 deg surf resolution ltac:(lia) G ltac:(lia)) as (vs & ps' & Hv' & Ep' & _ & Ip).
    unfold gbParameters in Ep'. rewrite (Eg surf (or_introl G)) in Ep'. cbn [bind] in Ep'. assert (ps' = ps) by congruence. subst ps'.
    pose proof (fit_some 2 4 (deg + 1) sextic (pm_points mesh) ps vs 0 ltac:(lia) ltac:(lia) Gs ltac:(lra) Hv' Ip) as X. rewrite Tz in X.
    destruct X as (_ & _ & r & _ & _ & Er' & _ & _ & (_ & _ & Dr)). assert (r = h) by congruence. subst r. exact Dr. }
  assert (Mh : gbMesh eps h resolution = Some mesh).
  { unfold gbMesh. rewrite (Eg h (or_intror Gh)). cbn [bind]. unfold surfaceMesh in Em |- *. rewrite Ep in Em |- *. cbn [bind] in Em |- *.
    replace (mapM (gbSurfaceEval eps d h) ps) with (mapM (gbSurfaceEval eps d surf) ps); [exact Em|]. symmetry.
    destruct (params_some 4 deg surf resolution ltac:(lia) G ltac:(lia)) as (vs & ps' & Hv' & Ep' & _ & Ip). unfold gbParameters in Ep'. rewrite (Eg surf (or_introl G)) in Ep'. cbn [bind] in Ep'.
    assert (ps' = ps) by congruence. subst ps'. assert (vs = unit4) by congruence. subst vs. clear -V Cov Ip. induction ps as [|u ps IH]; [reflexivity|]. cbn [mapM]. rewrite IH by (intros q Q; apply Ip; right; exact Q).
    assert (X : exists a b, 0 <= a <= 1 /\ 0 <= b <= 1 /\ u = at4 a b).
    { apply Cov; pose proof (Ip u (or_introl eq_refl)) as P; pose proof (P 0%nat ltac:(simpl; lia)) as P0; pose proof (P 1%nat ltac:(simpl; lia)) as P1; pose proof (P 2%nat ltac:(simpl; lia)) as P2;
        pose proof (P 3%nat ltac:(simpl; lia)) as P3; destruct u as [ux uy]; unfold sarea, pcross, vtx, unit4 in P0, P1, P2, P3; cbn in P0, P1, P2, P3 |- *; lra. }
    destruct X as (a & b & A & B & ->). rewrite (V a b A B). reflexivity. }
  assert (Em' : gbMesh eps surf resolution = Some mesh) by (unfold gbMesh; rewrite (Eg surf (or_introl G)); exact Em). 
  assert (MF : forall name g r x, meshFile eps name g r = Some x -> exists q, gbMesh eps g r = Some q /\ x = (inModels name, CMesh q)).
  { intros name g r x X. unfold meshFile in X. destruct (gbMesh eps g r) as [q|]; [|discriminate X]. injection X as <-. exists q. split; reflexivity. }
  repeat match type of E with
  | bind (meshFile ?a ?b ?c ?r) _ = _ => let X := fresh "X" in destruct (meshFile a b c r) as [?|] eqn:X; [|discriminate E]; apply MF in X; destruct X as (? & ? & ->); cbn [bind] in E
  | bind (gbMesh _ surf resolution) _ = _ => rewrite Em' in E; cbn [bind] in E
  | bind (netFile ?a ?b ?c) _ = _ => let X := fresh "X" in destruct (netFile a b c) as [?|] eqn:X; [|discriminate E]; unfold netFile in X; destruct (writeControlPoints a c) as [[? ?]|]; [|discriminate X]; cbn [bind] in X; injection X as <-; cbn [bind] in E
  | bind (elevateDegree _ _ _ _ _) _ = _ => rewrite Es in E; cbn [bind] in E
  | bind (gbParameters _ _) _ = _ => unfold gbParameters in E; rewrite (Eg surf (or_introl G)) in E; cbn [bind] in E; rewrite Ep in E; cbn [bind] in E
  | bind (gbFit _ _ _ _ _ _ _ _ 2 _ _ _ _) _ = _ => rewrite Fit in E; cbn [bind] in E
  | bind ?x _ = _ => destruct x as [?|]; [|discriminate E]; cbn [bind] in E
  end.
  injection E as <-.
  assert (T : forall x : string, inModels x = ("../../models/" ++ x)%string) by reflexivity.
  cbn [In] in I1, I2. rewrite !T in I1, I2.
  assert (A1 : m = mesh).
  { repeat match type of I1 with _ \/ _ => destruct I1 as [I1|I1] | False => destruct I1 end; try discriminate I1.
    - injection I1 as Q _. other_end Q.
    - injection I1 as <-. congruence. }
  assert (A2 : m' = mesh).
  { repeat match type of I2 with _ \/ _ => destruct I2 as [I2|I2] | False => destruct I2 end; try discriminate I2.
    - injection I2 as Q _. other_end Q.
    - injection I2 as <-. congruence. }
  congruence.
Qed.

(** ** The names *)
Lemma mesh_name : forall name g r x, meshFile eps name g r = Some x -> fst x = ("../../models/" ++ name)%string.
Proof. intros name g r x E. unfold meshFile in E. destruct (gbMesh eps g r); [|discriminate E]. injection E as <-. reflexivity. Qed.
Lemma net_name : forall name g x, netFile fmt name g = Some x -> fst x = ("../../models/" ++ name)%string.
Proof. intros name g x E. unfold netFile in E. destruct (writeControlPoints fmt g) as [[? ?]|]; [|discriminate E]. injection E as <-. reflexivity. Qed.
Lemma gbp_name : forall name g x, gbpFile fmt name g = Some x -> fst x = ("../../models/" ++ name)%string.
Proof. intros name g x E. unfold gbpFile in E. destruct (saveBezier fmt g); [|discriminate E]. injection E as <-. reflexivity. Qed.

(** No file is written twice, and the file that was loaded is not overwritten. *)
Theorem C91_bezier_names : forall more filename f out, bezierTest more filename f = Some out ->
  NoDup (map fst out) /\ ~ In ("../../models/" ++ filename ++ ".gbp")%string (map fst out).
Proof.
  intros more filename f out E.
  assert (N : map fst out = map (fun e => ("../../models/" ++ fst e)%string) (bezierFiles more 0 filename)).
  { unfold BezierTestModel.bezierTest in E.
    repeat match type of E with
    | bind (meshFile ?a ?b ?c ?d) _ = _ => let X := fresh "X" in destruct (meshFile a b c d) as [?|] eqn:X; [|discriminate E]; apply mesh_name in X; cbn [bind] in E
    | bind (netFile ?a ?b ?c) _ = _ => let X := fresh "X" in destruct (netFile a b c) as [?|] eqn:X; [|discriminate E]; apply net_name in X; cbn [bind] in E
    | bind ?x _ = _ => destruct x as [?|]; [|discriminate E]; cbn [bind] in E
    end.
    injection E as <-. cbn [map bezierFiles fst]. repeat match goal with H : fst ?p = _ |- context [fst ?p] => rewrite H; clear H end. reflexivity. }
  rewrite N. cbn [map bezierFiles fst]. split.
  - constructor.
    + cbn [In]. intros H. repeat match type of H with _ \/ _ => destruct H as [H|H] | False => destruct H end; symmetry in H; other_end H.
    + repeat (constructor; [cbn [In]; intros H; repeat match type of H with _ \/ _ => destruct H as [H|H] | False => destruct H end; discriminate H|]). constructor.
  - cbn [In]. intros H. repeat match type of H with _ \/ _ => destruct H as [H|H] | False => destruct H end; other_end H.
Qed.

(** meshFitTest overwrites the patch that was loaded, or the mesh, for exactly these
    names. *)
Theorem C91_mesh_fit_names : forall f points gs out, meshFitTest f points = Some (gs, out) ->
  NoDup (map fst out) /\
  (forall surfname, In ("../../models/" ++ surfname ++ ".gbp")%string (map fst out) <->
     In surfname ["bezier-fitted"; "bezier-smooth02"; "bezier-smooth05"; "bezier-smooth10"]%string) /\
  (forall meshname, In ("../../models/" ++ meshname ++ ".obj")%string (map fst out) <->
     In meshname ["bezier"; "bezier-cpts"; "bezier-fitted"; "bezier-fitted-cpts"; "bezier-fitted-smooth02"; "bezier-fitted-smooth02-cpts";
       "bezier-fitted-smooth05"; "bezier-fitted-smooth05-cpts"; "bezier-fitted-smooth10"; "bezier-fitted-smooth10-cpts"]%string).
Proof.
  intros f points gs out E.
  assert (P : forall k surf w name gbp g fs, meshFitPart lu svd tol eps fmt v0 c0 d0 l0 closest resolution projection k surf points w name gbp = Some (g, fs) ->
    map fst fs = ["../../models/" ++ name ++ ".obj"; "../../models/" ++ name ++ "-cpts.obj"; "../../models/" ++ gbp ++ ".gbp"]%string).
  { intros k surf w name gbp g fs X. unfold meshFitPart in X. destruct (gbProject _ _ _ _ _); [|discriminate X]. cbn [bind] in X. destruct (gbFit _ _ _ _ _ _ _ _ _ _ _ _ _) as [ft|]; [|discriminate X]. cbn [bind] in X.
    destruct (meshFile eps _ ft _) as [a|] eqn:A; [|discriminate X]. cbn [bind] in X. destruct (netFile fmt _ ft) as [b|] eqn:B; [|discriminate X]. cbn [bind] in X. destruct (gbpFile fmt _ ft) as [c|] eqn:C; [|discriminate X].
    cbn [bind] in X. injection X as _ <-. cbn [map]. rewrite (mesh_name _ _ _ _ A), (net_name _ _ _ B), (gbp_name _ _ _ C). reflexivity. }
  assert (N : map fst out = map (fun e => ("../../models/" ++ fst e)%string) (meshFitFiles 0)).
  { unfold BezierTestModel.meshFitTest in E. destruct (load f) as [surf|]; [|discriminate E]. cbn [bind] in E.
    destruct (meshFile eps _ surf _) as [a|] eqn:A; [|discriminate E]. cbn [bind] in E. destruct (netFile fmt _ surf) as [b|] eqn:B; [|discriminate E]. cbn [bind] in E.
    repeat match type of E with bind (meshFitPart ?a1 ?a2 ?a3 ?a4 ?a5 ?a6 ?a7 ?a8 ?a9 ?a10 ?a11 ?a12 ?k ?s ?p ?w ?n ?g) _ = _ =>
      let X := fresh "X" in destruct (meshFitPart a1 a2 a3 a4 a5 a6 a7 a8 a9 a10 a11 a12 k s p w n g) as [[? ?]|] eqn:X; [|discriminate E]; apply P in X; cbn [bind] in E end.
    injection E as _ <-. cbn [map]. rewrite !map_app, X, X0, X1, X2, (mesh_name _ _ _ _ A), (net_name _ _ _ B). reflexivity. }
  rewrite N. cbn [map meshFitFiles fst]. split; [|split].
  - repeat (constructor; [cbn [In]; intros H; repeat match type of H with _ \/ _ => destruct H as [H|H] | False => destruct H end; discriminate H|]). constructor.
  - intros surfname. split.
    + cbn [In]. intros H. repeat match type of H with _ \/ _ => destruct H as [H|H] | False => destruct H end; try (symmetry in H; other_end H);
        injection H as H; match type of H with ?c = _ => let l := eval compute in (substring 0 (String.length c - 4) c) in change c with (l ++ ".gbp")%string in H end; apply append_inj in H; rewrite <- H; tauto.
    + cbn [In]. intros H. repeat match type of H with _ \/ _ => destruct H as [H|H] | False => destruct H end; rewrite <- H; cbn [append]; tauto.
  - intros meshname. split.
    + cbn [In]. intros H. repeat match type of H with _ \/ _ => destruct H as [H|H] | False => destruct H end; try (symmetry in H; other_end H);
        injection H as H; match type of H with ?c = _ => let l := eval compute in (substring 0 (String.length c - 4) c) in change c with (l ++ ".obj")%string in H end; apply append_inj in H; rewrite <- H; tauto.
    + cbn [In]. intros H. repeat match type of H with _ \/ _ => destruct H as [H|H] | False => destruct H end; rewrite <- H; cbn [append]; tauto.
Qed.
End Props.
Print Assumptions C91_tradeoff.
Print Assumptions C91_bezier.
Print Assumptions C91_low_degree.
Print Assumptions C91_mesh_fit.
Print Assumptions C91_degenerate.
Print Assumptions C91_quads.
Print Assumptions C91_bezier_names.
Print Assumptions C91_mesh_fit_names.

(** ** Example: a cubic triangle with flat sides, meshes of one triangle *)
Definition triangleFile : list token := TNat 3 :: TNat 3 :: map TReal
  [1; 1; 1; 0; 0; 0; 1; 0; 0; 2; 0; 0; 3; 0; 0; 2; 1; 0; 1; 2; 0; 0; 3; 0; 0; 2; 0; 0; 1; 0; 1; 1; 1; 1; 1; 1; 1; 1; 1] ++ [].
Lemma corner_mesh : forall eps deg g m, (2 <= deg)%nat -> good 3 deg g -> 0 < eps <= 1 / 2 -> gbMesh eps g 1 = Some m ->
  pm_points m = [boundaryCurve g deg 0 0; boundaryCurve g deg 1 0; boundaryCurve g deg 2 0].
Proof.
  intros eps deg g m Hd G He E. destruct (domain_some 3 deg g ltac:(lia) G) as (vs & d & Hv & Hf & Ed & L & _). unfold gbMesh in E. rewrite Ed in E. cbn [bind] in E.
  destruct (PropsJoin.dom_parts pzero vs d Hf) as (N & Cn & V). rewrite N, Cn, V, L in E. unfold surfaceMesh in E. change (parametersImpl 3 pzero vs 1) with (params3 vs 1) in E.
  rewrite params3_closed in E by (assumption || lia). cbn [bind seq flat_map map app] in E. pose proof G as (Sh & Co & _).
  assert (P : forall e k q, (e < 3)%nat -> k = prv 3 e -> q = vtx vs k -> gbSurfaceEval eps d g q = Some (boundaryCurve g deg e 0)).
  { intros e k q Hen -> ->. apply (PropsGB.C47_ends 3 deg g vs d eps e 0 (vtx vs (prv 3 e))); try assumption; try lia; try lra.
    unfold ParamModel.edgePoint. rewrite N, V, L. pose proof (prv_lt 3 e ltac:(lia)). rewrite !vtx_nth by lia. cbn [bind]. apply (f_equal Some). destruct (vtx vs e), (vtx vs (prv 3 e)). apply V2_ext; cbn; ring. }
  assert (Q0 : pt3 vs 1 0 0 = vtx vs 2) by (unfold pt3; destruct (vtx vs 2), (vtx vs 0), (vtx vs 1); apply V2_ext; cbn; field).
  assert (Q1 : pt3 vs 1 1 0 = vtx vs 0) by (unfold pt3; destruct (vtx vs 2), (vtx vs 0), (vtx vs 1); apply V2_ext; cbn; field).
  assert (Q2 : pt3 vs 1 1 1 = vtx vs 1) by (unfold pt3; destruct (vtx vs 2), (vtx vs 0), (vtx vs 1); apply V2_ext; cbn; field).
  change (pt3 vs 1 0 0) with (pt3 vs 1 0 0) in E. cbn [mapM Nat.add seq map flat_map app] in E. cbn [mapM] in E. rewrite (P 0%nat 2%nat _ ltac:(lia) eq_refl Q0), (P 1%nat 0%nat _ ltac:(lia) eq_refl Q1), (P 2%nat 1%nat _ ltac:(lia) eq_refl Q2) in E.
  cbn [bind] in E. injection E as <-. reflexivity.
Qed.

Example C91_example : forall lu svd eps fmt v0 c0 d0 l0 filename points, 0 < eps <= 1 / 2 -> least_squares_solver svd ->
  readable 3 3 triangleFile /\
  (exists surf out, bezierTest lu svd 0 eps fmt v0 c0 d0 l0 (fun _ _ => (0, 1, 2)%nat) 1 1 1 30 filename triangleFile = Some out /\
     boundaryCurve surf 3 1 0 = mkV3 3 0 0 /\
     Forall2 (as_described fmt 3 (boundaryCurve surf 3)) out (bezierFiles 1 1 30 3 filename)) /\
  (exists surf gs out, meshFitTest lu svd 0 eps fmt v0 c0 d0 l0 (fun _ _ => (0, 1, 2)%nat) 1 1 triangleFile points = Some (gs, out) /\
     Forall2 (as_described fmt 3 (boundaryCurve surf 3)) out (meshFitFiles 1 3) /\ List.length gs = 4%nat).
Proof.
  intros lu svd eps fmt v0 c0 d0 l0 filename points He Lsq.
  assert (Rd : readable 3 3 triangleFile) by (eexists _, []; split; reflexivity). split; [exact Rd|].
  assert (Ld : forall v0 c0 d0 l0 surf, loadBezier v0 triangleFile (gbNew d0 l0 c0) = Some surf -> forall q, In q [(0, mkV3 0 0 0); (1, mkV3 3 0 0); (2, mkV3 0 3 0)]%nat -> boundaryCurve surf 3 (fst q) 0 = snd q).
  { intros w0 e0 d1 l1 surf E. unfold triangleFile in E. injection E as <-. intros q I. unfold boundaryCurve. rewrite PolarPatchProofs.bezier_at_0. cbn [In] in I.
    destruct I as [<-|[<-|[<-|[]]]]; reflexivity. }
  assert (Us : forall g deg m p, (2 <= deg)%nat -> good 3 deg g -> gbMesh eps g 1 = Some m -> (forall q, In q [(0, mkV3 0 0 0); (1, mkV3 3 0 0); (2, mkV3 0 3 0)]%nat -> boundaryCurve g deg (fst q) 0 = snd q) ->
    usable m (fun _ => (0, 1, 2)%nat) p).
  { intros g deg m p Hd G Em B. pose proof (corner_mesh eps deg g m Hd G He Em) as Pm. cbn [In] in B.
    pose proof (B (0%nat, mkV3 0 0 0) ltac:(tauto)) as B0. pose proof (B (1%nat, mkV3 3 0 0) ltac:(tauto)) as B1. pose proof (B (2%nat, mkV3 0 3 0) ltac:(tauto)) as B2. cbn [fst snd] in B0, B1, B2. rewrite B0, B1, B2 in Pm.
    exists 0%nat, 1%nat, 2%nat, (mkV3 0 0 0), (mkV3 3 0 0), (mkV3 0 3 0). rewrite Pm. repeat (split; [reflexivity|]). unfold PropsGBParam.degenerate. intros D. unfold vcross in D. cbn in D. injection D as _ _ D. lra. }
  split.
  - destruct (C91_bezier lu svd 0 eps fmt v0 c0 d0 l0 (fun _ _ => (0, 1, 2)%nat) 1 1 1 30 3 3 filename triangleFile ltac:(lia) ltac:(lia) Rd He ltac:(lia) ltac:(lia) ltac:(lia) ltac:(simpl; lra) ltac:(simpl; lra)) as (surf & out & El & G & Eo & F).
    { intros surf sextic mesh m p El Es _ Em _. destruct (load_good 3 3 triangleFile (v0 0%nat) (d0 0%nat) (l0 0%nat) (c0 0%nat) ltac:(lia) ltac:(lia) Rd) as (surf' & El' & G & _). assert (surf' = surf) by congruence. subst surf'.
      destruct (elevate_good (v0 1%nat) (c0 1%nat) (d0 1%nat) (l0 1%nat) 3 3 surf ltac:(lia) ltac:(lia) G) as (s' & Es' & Gs & B). assert (s' = sextic) by congruence. subst s'.
      apply (Us sextic 4%nat m p ltac:(lia) Gs Em). intros q I. change 4%nat with (3 + 1)%nat. rewrite B by (cbn [In] in I; destruct I as [<-|[<-|[<-|[]]]]; cbn; lia). apply (Ld _ _ _ _ surf El q I). }
    exists surf, out. split; [exact Eo|]. split; [apply (Ld _ _ _ _ surf El (1%nat, mkV3 3 0 0)); cbn; tauto|exact F].
  - destruct (C91_mesh_fit lu svd 0 eps fmt v0 c0 d0 l0 (fun _ _ => (0, 1, 2)%nat) 1 1 3 3 triangleFile points ltac:(lia) ltac:(lia) Rd He ltac:(lia) ltac:(lia) ltac:(simpl; lra)) as (surf & out & g0 & g1 & g2 & g3 & d & uvs & sds & El & G & Eo & F & _).
    { intros surf m p El Em _. destruct (load_good 3 3 triangleFile (v0 0%nat) (d0 0%nat) (l0 0%nat) (c0 0%nat) ltac:(lia) ltac:(lia) Rd) as (surf' & El' & G & _). assert (surf' = surf) by congruence. subst surf'.
      apply (Us surf 3%nat m p ltac:(lia) G Em). apply (Ld _ _ _ _ surf El). }
    exists surf, [g0; g1; g2; g3], out. split; [exact Eo|]. split; [exact F|reflexivity].
Qed.
