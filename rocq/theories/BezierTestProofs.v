(** Proofs about the files of bezierTest and meshFitTest. *)
From Verif Require Import Base MeshModel MeshSpec MeshParams MeshGeom2 GeomSpec DomainModel DomainProofs UtilModel UtilSpec UtilProofs ParamModel.
From Verif Require Import JoinModel JoinSpec GBModel GBSpec GBProofs GBEnum GBElev GBEval GBFitModel GBParamModel LeastSquares GBFitProofs GBFitSmooth GBFitTotal TotalSpec TotalProofs BezierTestModel.
From Verif Require PropsDomain PropsJoin PropsJoinKinds PropsFourElev PropsTotal PropsGB PropsGB2 PropsGBFit PropsGBParam.
From Coq Require Import String.
Open Scope R_scope.

(** A patch with [n] sides of degree [deg] in a usable state. *)
Definition good (n deg : nat) (g : gbsurf) : Prop := shaped n deg g /\ consistent n deg g /\ gb_dom g = n.

(** ** Loading *)
Definition readable (n d : nat) (f : list token) : Prop :=
  exists xs rest, f = TNat n :: TNat d :: map TReal xs ++ rest /\ List.length xs = (3 * gbCount n d)%nat.

Lemma read_some : forall xs rest, (3 <= List.length xs)%nat ->
  exists p xs', readPoint (map TReal xs ++ rest) = Some (p, map TReal xs' ++ rest) /\ List.length xs = (3 + List.length xs')%nat.
Proof.
  intros [|x [|y [|z xs]]] rest H; cbn in H; try lia. exists (mkV3 x y z), xs. split; reflexivity.
Qed.

Lemma load_into : forall n d f v0 old, gb_n old = 0%nat -> (1 <= n)%nat -> (1 <= d)%nat -> readable n d f ->
  exists g, loadBezier v0 f old = Some g /\ good n d g /\ gb_sq g = gb_sq old.
Proof.
  intros n d f v0 old Bn Hn Hd (xs & rest & -> & L). cbn [loadBezier].
  destruct (init_new v0 old n d ltac:(left; lia)) as [S0 V0].
  assert (Q0 : gb_sq (initNetwork v0 old n d) = gb_sq old).
  { unfold initNetwork. rewrite Bn. destruct (Nat.eqb_spec n 0); [lia|]. reflexivity. }
  set (g0 := initNetwork v0 old n d) in *.
  assert (C0 : consistent n d g0) by (intros p q Rp Rq _; rewrite !V0 by assumption; reflexivity).
  destruct (read_some xs rest ltac:(unfold gbCount in L; lia)) as (p & xs' & -> & L'). cbn [bind].
  assert (X : forall es xs g, (forall q, In q es -> inRange n d q) -> (3 * List.length es <= List.length xs)%nat -> shaped n d g -> consistent n d g -> gb_sq g = gb_sq old ->
    exists g' r, foldM (fun (st : gbsurf * list token) (q : position) => let '(i, j, k) := q in
        ' (p, r) <- readPoint (snd st) ;; g' <- setControlPoint (fst st) i j k p ;; Some (g', r)) (g, map TReal xs ++ rest) es = Some (g', r) /\
      shaped n d g' /\ consistent n d g' /\ gb_sq g' = gb_sq old).
  { clear. induction es as [|[[i j] k] es IH]; intros xs g R L S C Q; [exists g, (map TReal xs ++ rest); auto|].
    cbn [List.length] in L. destruct (read_some xs rest ltac:(lia)) as (p & xs' & E & L'). cbn [foldM snd fst]. rewrite E. cbn [bind].
    assert (Rq := R (i, j, k) (or_introl eq_refl)).
    destruct (set_spec n d g i j k p S Rq) as (g1 & E1 & S1 & _ & Q1 & _). rewrite E1. cbn [bind].
    apply IH; [intros q I; apply R; right; exact I|lia|exact S1|exact (set_consistent n d g i j k p g1 S Rq C E1)|congruence]. }
  destruct (X (enumerate n d) xs' (setCentral g0 p)) as (g1 & r & E1 & S1 & C1 & Q1).
  { intros q I. apply enum_range; assumption. }
  { rewrite enumerate_length. unfold gbCount in *. lia. }
  { exact S0. } { exact C0. } { exact Q0. }
  rewrite E1. cbn [bind]. unfold gbSetupLoop. destruct (boundary_some n d g1 Hd S1) as [b B]. rewrite B. cbn [bind].
  eexists. split; [reflexivity|]. pose proof S1 as (Sn & _). split; [split; [exact S1|split; [exact C1|exact Sn]]|exact Q1].
Qed.
Lemma load_good : forall n d f v0 d0 l0 c0, (1 <= n)%nat -> (1 <= d)%nat -> readable n d f ->
  exists g, loadBezier v0 f (gbNew d0 l0 c0) = Some g /\ good n d g /\ gb_sq g = false.
Proof. intros n d f v0 d0 l0 c0 Hn Hd Rd. apply (load_into n d f v0 (gbNew d0 l0 c0) eq_refl Hn Hd Rd). Qed.

(** ** Domains, meshes and their rims *)
Lemma domain_some : forall n deg g, (3 <= n)%nat -> good n deg g ->
  exists vs d, regularVertices n = Some vs /\ domainFrames pzero vs = Some d /\ gbDomain g = Some d /\ List.length vs = n /\ convex_domain pzero vs d.
Proof.
  intros n deg g H3 (_ & _ & Dm). destruct (PropsDomain.C12_regular_convex n H3) as (vs & Hv & _).
  assert (Hd : exists d, domainFrames pzero vs = Some d) by (rewrite frames_closed; eexists; reflexivity). destruct Hd as [d Hd]. exists vs, d.
  split; [exact Hv|]. split; [exact Hd|]. split; [unfold gbDomain; rewrite Dm, Hv; exact Hd|]. apply (PropsTotal.regular_convex n vs d H3 Hv Hd).
Qed.

Lemma mesh_some : forall eps n deg g r, (3 <= n)%nat -> (1 <= deg)%nat -> good n deg g -> 0 < eps <= 1 -> (1 <= r)%nat ->
  exists m, gbMesh eps g r = Some m /\ List.length (pm_points m) = meshSize n r /\ pm_tris m = meshTopology n r.
Proof.
  intros eps n deg g r H3 Hd G He Hr. destruct (domain_some n deg g H3 G) as (vs & d & Hv & Hf & E & L & CD). unfold gbMesh. rewrite E. cbn [bind].
  destruct (PropsTotal.C84_generalized_bezier pzero vs d eps g deg CD ltac:(rewrite L; apply G) Hd He) as (_ & T). destruct (T r Hr) as (m & Em & Lm).
  exists m. split; [exact Em|]. split; [rewrite <- L; exact Lm|]. destruct (PropsJoin.dom_parts pzero vs d Hf) as (N & _ & _). unfold surfaceMesh in Em.
  destruct (parametersImpl _ _ _ r) as [uvs|]; [|discriminate Em]. cbn [bind] in Em. destruct (mapM _ uvs) as [pts|]; [|discriminate Em]. cbn [bind] in Em. injection Em as <-.
  cbn [pm_tris]. rewrite N, L. reflexivity.
Qed.

Lemma params_some : forall n deg g r, (3 <= n)%nat -> good n deg g -> (1 <= r)%nat ->
  exists vs ps, regularVertices n = Some vs /\ gbParameters g r = Some ps /\ List.length ps = meshSize n r /\ forall p, In p ps -> in_polygon vs p.
Proof.
  intros n deg g r H3 G Hr. destruct (domain_some n deg g H3 G) as (vs & d & Hv & Hf & E & L & CD). pose proof CD as (_ & H3' & C & I).
  unfold gbParameters. rewrite E. cbn [bind]. destruct (PropsJoin.dom_parts pzero vs d Hf) as (N & Cn & V). rewrite N, Cn, V.
  destruct (parameters_length (List.length vs) pzero vs r H3' Hr eq_refl) as (ps & Ep & Lp). exists vs, ps. split; [exact Hv|]. split; [exact Ep|]. split; [rewrite <- L; exact Lp|].
  intros p Hp. apply hull_polygon; try assumption. apply (params_in_hull vs pzero r ps p H3' Hr); try assumption. intros _ _. apply (inside_hull pzero vs d); assumption.
Qed.

Lemma mesh_chords : forall eps n deg g r m, (3 <= n)%nat -> (2 <= deg)%nat -> good n deg g -> 0 < eps <= 1 / 2 -> (1 <= r)%nat -> eps * INR r <= 1 ->
  gbMesh eps g r = Some m -> PropsJoin.chords m n r (boundaryCurve g deg).
Proof.
  intros eps n deg g r m H3 Hd G He Hr Rs Em. destruct (domain_some n deg g H3 G) as (vs & d & Hv & Hf & E & L & CD). unfold gbMesh in Em. rewrite E in Em. cbn [bind] in Em.
  destruct G as (Sh & Co & _). assert (Lo : loop_of n (boundaryCurve g deg)) by (apply PropsJoinKinds.boundary_loop; try assumption; lia).
  assert (F : follows n r (ParamModel.edgePoint d) (gbSurfaceEval eps d g) (boundaryCurve g deg)).
  { intros e i uv Hen Hi Eu. assert (Rp : 0 < INR r) by (apply lt_0_INR; lia). destruct (PropsJoinKinds.sample r i Hi) as ([Z|Z] & U & S01).
    - rewrite Z in Eu |- *. apply (PropsGB.C47_ends n deg g vs d eps e 0 uv); try assumption; lra || lia.
    - assert (Q : eps <= 1 / INR r) by (apply (Rmult_le_reg_r (INR r)); [exact Rp|]; unfold Rdiv; rewrite Rmult_assoc, Rinv_l by lra; lra).
      apply (PropsGB.C47_boundary n deg g vs d eps e (INR i / INR r) uv); try assumption; lra. }
  intros P Q. rewrite <- L. apply (PropsJoin.C82_rim pzero vs d r (gbSurfaceEval eps d g) (boundaryCurve g deg) m Hf ltac:(lia) Hr Em); rewrite L; assumption.
Qed.

(** ** The fit has a result whatever the samples are *)
Section Fit.
Variables lu svd : nat -> nat -> (nat -> nat -> R) -> (nat -> V3) -> nat -> V3.

Lemma mapM_ex : forall A B (F : A -> option B) l, (forall a, In a l -> exists b, F a = Some b) -> exists bs, mapM F l = Some bs /\ List.length bs = List.length l.
Proof.
  intros A B F l; induction l as [|a l IH]; intros H; [exists []; split; reflexivity|]. destruct (H a (or_introl eq_refl)) as [b Eb].
  destruct IH as (bs & E & L); [intros x I; apply H; right; exact I|]. exists (b :: bs). cbn [mapM]. rewrite Eb. cbn [bind]. rewrite E. cbn [bind List.length]. split; [reflexivity|lia].
Qed.

Lemma sample_ex : forall n d g eps b s, (3 <= n)%nat -> (1 <= d)%nat -> 0 < eps -> shaped n d g -> List.length (fst s) = n -> exists e, fitSample eps g b s = Some e.
Proof.
  intros n d g eps b [sds p] Hn Hd He Sg Ls. cbn [fst] in Ls. unfold fitSample. cbn [fst snd]. pose proof Sg as (Gn & Gd & Gl & _). rewrite Gn, Gd.
  destruct (mapM_ex _ _ (fitBlend eps g sds) (enumerate n d)) as (bs & -> & _).
  { intros [[i j] k] I. pose proof (enum_range n d _ ltac:(lia) I) as (Ri & Rj & Rk). apply enum_In in I; [|lia]. unfold fitBlend. rewrite Gn, Gd, Gl.
    assert (HL : forall x, (2 * x + 1 <= d)%nat -> (x < (d + 1) / 2)%nat) by (intros x Hx; apply lay_le; lia).
    destruct (gbWeight_ex eps n d g sds He Hn Hd Sg Ls i j k Ri Rj (HL k Rk)) as [w ->]. cbn [bind].
    assert (A : exists a, (if (j <? (d + 1) / 2)%nat then gbWeight eps g sds (prv n i) (d - k) j else Some 0) = Some a).
    { destruct (Nat.ltb_spec j ((d + 1) / 2)); [|eexists; reflexivity]. apply (gbWeight_ex eps n d g sds He Hn Hd Sg Ls); [apply prv_lt; lia|lia|assumption]. }
    destruct A as [a ->]. cbn [bind].
    assert (B : exists b0, (if above j d ((d + 1) / 2) then gbWeight eps g sds (nxt n i) k (d - j) else Some 0) = Some b0).
    { destruct (above j d ((d + 1) / 2)) eqn:Ab; [|eexists; reflexivity]. apply above_iff in Ab; [|lia|lia].
      apply (gbWeight_ex eps n d g sds He Hn Hd Sg Ls); [apply nxt_lt; lia|lia|lia]. }
    destruct B as [b0 ->]. eexists; reflexivity. }
  cbn [bind]. destruct (mapM_ex _ _ (fun q : position => let '(i, j, k) := q in controlPoint g i j k) (firstn b (enumerate n d))) as (ps & -> & _).
  { intros q I. apply firstn_In' in I. pose proof (enum_range n d _ ltac:(lia) I) as Rq. eexists. destruct q as [[i j] k]. exact (gpv_some n d g (i, j, k) Sg Rq). }
  cbn [bind]. eexists; reflexivity.
Qed.

Lemma fit_any : forall n d o eps v0 c0 d0 l0 samples smoothing tol,
  (3 <= n)%nat -> (3 <= d)%nat -> 0 < eps <= 1 -> good n d o -> (forall s, In s samples -> List.length (fst s) = n) ->
  exists r, fitWithOriginal lu svd tol eps v0 c0 d0 l0 o samples smoothing 2 = Some r /\ PropsGBFit.keeps n d 2 o r /\ good n d r.
Proof.
  intros n d o eps v0 c0 d0 l0 samples w tol Hn Hd He (So & Co & Do) Hs.
  assert (Fl : (2 <= (d + 1) / 2)%nat).
  { pose proof (Nat.div_mod (d + 1) 2 ltac:(lia)). pose proof (Nat.mod_upper_bound (d + 1) 2 ltac:(lia)). lia. }
  destruct (start_spec n d o v0 c0 d0 l0 ltac:(lia) Hd So Co Do) as (g & Eg & Sg & Cg & Qg & Dg & _ & Kg & _).
  destruct (enum_tail n d 2 ltac:(lia) ltac:(lia)) as (_ & _ & _ & Lb & _). assert (Gc : (1 <= gbCount n d)%nat) by (unfold gbCount; lia).
  destruct (system_at n d 2 g eps w [] Hn ltac:(lia) ltac:(lia) He Sg Cg ltac:(intros s []) g) as (rows0 & E0 & _).
  { split; [exact Sg|]. split; [exact Cg|]. split; [reflexivity|]. intros a _. reflexivity. }
  assert (Sys : exists rows, fitSystem eps g 2 (n * (d + 1 - 2) * 2) w samples = Some rows).
  { unfold fitSystem in E0 |- *. cbn [mapM bind] in E0. destruct (mapM_ex _ _ (fitSample eps g (n * (d + 1 - 2) * 2)) samples) as (rs & -> & _).
    { intros s I. apply (sample_ex n d); try assumption; try lia; try lra. apply Hs; exact I. }
    cbn [bind]. destruct (smoothCenter g _ w); [|discriminate E0]. cbn [bind] in E0 |- *. destruct (mapM (smoothPoint g _ w) _); [|discriminate E0]. cbn [bind]. eexists; reflexivity. }
  destruct Sys as [rows Er]. pose proof Sg as (Gn & Gd & _).
  destruct (fill_spec n d 2 g (fitSolve lu svd tol (List.length rows) (gbCount n d - n * (d + 1 - 2) * 2)
    (fun j c => fst (nth j rows ((fun _ => 0), vzero)) c) (fun j => snd (nth j rows ((fun _ => 0), vzero)))) ltac:(lia) Fl Sg Cg) as (r & Ef & Sr & Cr & Qr & Dr & _ & Kr).
  exists r. split; [|split].
  - unfold fitWithOriginal. rewrite Eg. cbn [bind]. rewrite Gn, Gd. cbv zeta.
    destruct (Nat.ltb_spec (d + 1) 2); [lia|]. destruct (Nat.leb_spec (gbCount n d) (n * (d + 1 - 2) * 2)); [lia|]. rewrite Er. cbn [bind]. exact Ef.
  - split; [exact Sr|]. split; [exact Cr|]. split; [congruence|]. intros i j k R Hk.
    destruct (PropsGBFit.main_row n d i j k ltac:(lia) R) as (s & c & k' & I & Sm & Lk).
    exact (eq_trans (Kr s c k' (i, j, k) I ltac:(lia) R Sm) (Kg i j k R ltac:(lia))).
  - split; [exact Sr|]. split; [exact Cr|]. congruence.
Qed.
End Fit.

(** The boundary curves of a patch with the same first row. *)
Lemma keeps_boundary : forall n d f o r i s, (1 <= f)%nat -> (1 <= d)%nat -> (i < n)%nat -> PropsGBFit.keeps n d f o r -> boundaryCurve r d i s = boundaryCurve o d i s.
Proof.
  intros n d f o r i s Hf Hd Hi (_ & _ & _ & K). unfold boundaryCurve, bezier. apply vsum_ext. intros j Hj. rewrite (K i j 0%nat) by (cbn [inRange]; lia). reflexivity.
Qed.

(** ** Projection *)
Definition usable (m : pmesh) (closest : V3 -> nat * nat * nat) (p : V3) : Prop :=
  exists i j k a b c, closest p = (i, j, k) /\ nth_error (pm_points m) i = Some a /\ nth_error (pm_points m) j = Some b /\ nth_error (pm_points m) k = Some c /\
    ~ PropsGBParam.degenerate a b c.

Section Project.
Variable eps : R.
Variable closest : pmesh -> V3 -> nat * nat * nat.
Variable projection : nat.

Lemma project_some : forall n deg g vs points m, (3 <= n)%nat -> (1 <= deg)%nat -> good n deg g -> 0 < eps <= 1 -> (1 <= projection)%nat -> regularVertices n = Some vs ->
  gbMesh eps g projection = Some m -> (forall p, In p points -> usable m (closest m) p) ->
  exists uvs, gbProject eps closest projection g points = Some uvs /\ List.length uvs = List.length points /\ forall uv, In uv uvs -> in_polygon vs uv.
Proof.
  intros n deg g vs points m H3 Hd G He Hr Hv Em Us. unfold gbProject. rewrite Em. cbn [bind].
  destruct (params_some n deg g projection H3 G Hr) as (vs' & ps & Hv' & Ep & Lp & Ip). assert (vs' = vs) by congruence. subst vs'. rewrite Ep. cbn [bind].
  destruct (mesh_some eps n deg g projection H3 Hd G He Hr) as (m' & Em' & Lm & _). assert (m' = m) by congruence. subst m'.
  unfold parameterizePoints. assert (Lk : forall i v, nth_error (pm_points m) i = Some v -> exists u, nth_error ps i = Some u /\ in_polygon vs u).
  { intros i v Q. assert (i < List.length (pm_points m))%nat by (apply nth_error_Some; congruence). destruct (nth_error ps i) as [u|] eqn:U.
    - exists u. split; [reflexivity|]. apply Ip. apply (nth_error_In _ _ U).
    - apply nth_error_None in U. lia. }
  induction points as [|p points IH]; [exists []; split; [reflexivity|]; split; [reflexivity|intros uv []]|].
  destruct IH as (uvs & E & L & I); [intros x X; apply Us; right; exact X|]. cbn [mapM].
  destruct (Us p (or_introl eq_refl)) as (i & j & k & a & b & c & Ec & Ea & Eb & Ecc & ND). rewrite Ec, Ea, Eb, Ecc.
  destruct (Lk i a Ea) as (ua & Ua & Pa). destruct (Lk j b Eb) as (ub & Ub & Pb). destruct (Lk k c Ecc) as (uc & Uc & Pc). rewrite Ua, Ub, Uc. cbn [bind].
  destruct (PropsGBParam.C69_convex a b c ua ub uc p ND) as (uv & s & t & w & E1 & Euv & Hs & Ht & Hw & Sm). rewrite E1. cbn [bind]. rewrite E. cbn [bind].
  exists (uv :: uvs). split; [reflexivity|]. split; [cbn [List.length]; lia|]. intros x [<-|X]; [|apply I; exact X].
  intros q Hq. specialize (Pa q Hq). specialize (Pb q Hq). specialize (Pc q Hq). rewrite Euv.
  set (A := vtx vs (prv (List.length vs) q)) in *. set (B := vtx vs q) in *.
  replace (sarea A B (PropsGBParam.weighed2 ua ub uc s t w)) with (s * sarea A B ua + t * sarea A B ub + w * sarea A B uc).
  - pose proof (Rmult_le_pos _ _ Hs Pa). pose proof (Rmult_le_pos _ _ Ht Pb). pose proof (Rmult_le_pos _ _ Hw Pc). lra.
  - unfold PropsGBParam.weighed2, sarea. replace s with (1 - t - w) by lra. clearbody A B. destruct A, B, ua, ub, uc. unfold pcross. cbn. ring.
Qed.
End Project.

(** ** Repeated elevation *)
Lemma elevate_good : forall v0 c0 d0 l0 n deg g, (1 <= n)%nat -> (1 <= deg)%nat -> good n deg g ->
  exists g', elevateDegree v0 c0 d0 l0 g = Some g' /\ good n (deg + 1) g' /\ forall i s, (i < n)%nat -> boundaryCurve g' (deg + 1) i s = boundaryCurve g deg i s.
Proof.
  intros v0 c0 d0 l0 n deg g Hn Hd (Sh & Co & Dm). destruct (PropsGB2.C52_values n deg g v0 c0 d0 l0 Hn Hd Sh Co Dm) as (g' & E' & S' & D' & _ & C' & _).
  exists g'. split; [exact E'|]. split; [split; [exact S'|split; [exact C'|exact D']]|]. intros i s Hi. exact (PropsGB2.C52_boundary n deg g v0 c0 d0 l0 g' i s Hn Hd Sh Co Dm E' Hi).
Qed.
Lemma more_good : forall v0 c0 d0 l0 n k a deg g, (1 <= n)%nat -> (1 <= deg)%nat -> good n deg g ->
  exists g', elevateMore v0 c0 d0 l0 a k g = Some g' /\ good n (deg + k) g' /\ forall i s, (i < n)%nat -> boundaryCurve g' (deg + k) i s = boundaryCurve g deg i s.
Proof.
  intros v0 c0 d0 l0 n k; induction k as [|k IH]; intros a deg g Hn Hd G.
  - exists g. replace (deg + 0)%nat with deg by lia. split; [reflexivity|]. split; [exact G|]. reflexivity.
  - cbn [elevateMore]. destruct (elevate_good (v0 a) (c0 a) (d0 a) (l0 a) n deg g Hn Hd G) as (g1 & E1 & G1 & B1). rewrite E1. cbn [bind].
    destruct (IH (S a) (deg + 1)%nat g1 Hn ltac:(lia) G1) as (g' & E' & G' & B'). exists g'. replace (deg + S k)%nat with (deg + 1 + k)%nat by lia. split; [exact E'|]. split; [exact G'|].
    intros i s Hi. rewrite (B' i s Hi). apply B1. exact Hi.
Qed.

(** ** The second rows *)
Lemma inner_point : forall n deg g i j, good n deg g -> (i < n)%nat -> (j <= deg)%nat -> (3 <= deg)%nat -> exists p, controlPoint g i j 1 = Some p.
Proof.
  intros n deg g i j ((_ & _ & _ & L & B) & _) Hi Hj Hd. unfold controlPoint, get3. destruct (nth_error_ex _ (gb_nets g) i ltac:(lia)) as [x Ex]. rewrite Ex. cbn [bind].
  destruct (B x (nth_error_In _ _ Ex)) as [Lx By]. destruct (nth_error_ex _ x j ltac:(lia)) as [y Ey]. rewrite Ey. cbn [bind]. apply nth_error_ex. rewrite (By y (nth_error_In _ _ Ey)).
  pose proof (Nat.div_le_mono 4 (deg + 1) 2 ltac:(lia) ltac:(lia)) as X. change (4 / 2)%nat with 2%nat in X. lia.
Qed.
Lemma inner_some : forall n deg g, (3 <= deg)%nat -> good n deg g -> exists rows, innerRows g = Some rows.
Proof.
  intros n deg g Hd G. unfold innerRows. destruct G as (Sh & Co & Dm). pose proof Sh as (_ & Dg & _). rewrite Dm, Dg.
  assert (X : forall A B (F : A -> option B) l, (forall a, In a l -> exists b, F a = Some b) -> exists bs, mapM F l = Some bs) by (intros A B F l H; destruct (mapM_ex A B F l H) as (bs & E & _); exists bs; exact E).
  apply X. intros i Hi. apply in_seq in Hi. apply X. intros j Hj. apply in_seq in Hj. apply (inner_point n deg g i j (conj Sh (conj Co Dm))); lia.
Qed.
Lemma inner_none : forall n deg g, (1 <= n)%nat -> (deg <= 2)%nat -> good n deg g -> innerRows g = None.
Proof.
  intros n deg g Hn Hd ((_ & Dg & _ & L & B) & _ & Dm). unfold innerRows. rewrite Dm, Dg. destruct n as [|n]; [lia|]. cbn [seq mapM]. rewrite Nat.add_1_r. cbn [seq mapM].
  assert (X : controlPoint g 0 0 1 = None); [|rewrite X; reflexivity].
  unfold controlPoint, get3. destruct (nth_error_ex _ (gb_nets g) 0 ltac:(lia)) as [x Ex]. rewrite Ex. cbn [bind].
  destruct (B x (nth_error_In _ _ Ex)) as [Lx By]. destruct (nth_error_ex _ x 0 ltac:(lia)) as [y Ey]. rewrite Ey. cbn [bind]. apply nth_error_None. rewrite (By y (nth_error_In _ _ Ey)).
  pose proof (Nat.div_le_mono (deg + 1) 3 2 ltac:(lia) ltac:(lia)) as X. change (3 / 2)%nat with 1%nat in X. lia.
Qed.
