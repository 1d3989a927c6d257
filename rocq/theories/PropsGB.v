(** Properties of generalized Bezier patches: C45 - C48. *)
From Verif Require Import Base MeshModel GeomSpec DomainModel UtilModel UtilSpec ParamModel.
From Verif Require Import DomainProofs DomainPolygons UtilProofs ParamBary ParamMaps ParamRegular ParamSide SurfaceSpec ParamTame.
From Verif Require Import GBModel GBSpec GBProofs GBEval GBEval2 PropsParam.
Open Scope R_scope.

(** ** C45: shared control points

    After any sequence of writes, an address holds the value of the last write
    that concerned it: a write through either address of a control point with
    setControlPoint, a write to this very address with
    setIndividualControlPoint.  An address that no write concerned is
    unchanged. *)
Theorem C45_last_write : forall n d ops g, shaped n d g -> Forall (opOk n d) ops ->
  exists g', gbrun g ops = Some g' /\ shaped n d g' /\
    forall q, inRange n d q ->
      (forall ops1 o ops2 p, ops = ops1 ++ o :: ops2 -> writes n d o q p -> (forall o' p', In o' ops2 -> ~ writes n d o' q p') ->
         getp g' q = Some p) /\
      ((forall o p, In o ops -> ~ writes n d o q p) -> getp g' q = getp g q).
Proof.
  intros n d ops g S F. destruct (run_spec n d ops g S F) as (g' & E & S' & _ & W). exists g'. split; [exact E|]. split; assumption.
Qed.
Print Assumptions C45_last_write.

(** Both addresses keep the same value when only setControlPoint writes. *)
Theorem C45_consistent : forall n d ops g g', shaped n d g -> Forall (opOk n d) ops -> (forall q p, ~ In (OSetOne q p) ops) ->
  consistent n d g -> gbrun g ops = Some g' -> consistent n d g'.
Proof. exact run_consistent. Qed.
Print Assumptions C45_consistent.

(** An address out of range cannot be written or read. *)
Theorem C45_out_of_range : forall n d g i j k p, shaped n d g -> ~ inRange n d (i, j, k) ->
  setControlPoint g i j k p = None /\ controlPoint g i j k = None.
Proof.
  intros n d g i j k p S R. split; [exact (set_none n d g i j k p S R)|exact (getp_none n d g _ S R)].
Qed.
Print Assumptions C45_out_of_range.

(** A network initialized for other sizes has the right shape, is consistent,
    and every point has the default value; one initialized for the same sizes
    is left alone. *)
Theorem C45_init : forall v0 g n d, (gb_n g <> n \/ gb_deg g <> d) ->
  shaped n d (initNetwork v0 g n d) /\ consistent n d (initNetwork v0 g n d) /\
  forall q, inRange n d q -> getp (initNetwork v0 g n d) q = Some v0.
Proof.
  intros v0 g n d H. destruct (init_new v0 g n d H) as [S V]. split; [exact S|]. split; [|exact V].
  intros p q P Q _. rewrite !V by assumption. reflexivity.
Qed.
Print Assumptions C45_init.
Theorem C45_init_same : forall v0 g, initNetwork v0 g (gb_n g) (gb_deg g) = g.
Proof. exact init_same. Qed.
Print Assumptions C45_init_same.

(** Four sides, degree 3: the twist point of a corner written through one side
    and read through the other. *)
Example C45_example : let g0 := initNetwork vzero (gbNew 0 0 vzero) 4 3 in
  shaped 4 3 g0 /\
  exists g', gbrun g0 [OSet (0, 1, 1)%nat (mkV3 1 2 3); OSetOne (2, 1, 0)%nat (mkV3 4 5 6)] = Some g' /\
    controlPoint g' 0 1 1 = Some (mkV3 1 2 3) /\ controlPoint g' 3 2 1 = Some (mkV3 1 2 3) /\
    controlPoint g' 2 1 0 = Some (mkV3 4 5 6) /\ controlPoint g' 1 3 1 = Some vzero.
Proof.
  split; [apply init_new; left; cbn; lia|]. eexists. split; [reflexivity|]. repeat split.
Qed.

(** ** C46: the evaluator and the weights *)

(** The value given by the weights [W]. *)
Definition point (g : gbsurf) (i j k : nat) : V3 := match controlPoint g i j k with Some p => p | None => vzero end.
Definition combined (n d : nat) (W : nat -> nat -> nat -> R) (g : gbsurf) : V3 :=
  let l := ((d + 1) / 2)%nat in
  vsum n (fun i => vsum l (fun k => vsum (d + 1) (fun j => point g i j k *v W i j k)))
    +v gb_cen g *v (1 - rsum n (fun i => rsum l (fun k => rsum (d + 1) (fun j => W i j k)))).

(** The distances of consecutive sides are not both small. *)
Definition off_corners (eps : R) (n : nat) (sds : list V2) : Prop :=
  length sds = n /\
  forall i a b, nth_error sds i = Some a -> nth_error sds (nxt n i) = Some b -> eps <= py a + py b.

Lemma sds_fun : forall n (sds : list V2), length sds = n -> forall i, (i < n)%nat ->
  nth_error sds i = Some (mkV2 (px (nth i sds pzero)) (py (nth i sds pzero))).
Proof. intros n sds L i Hi. rewrite (nth_error_nth' sds pzero) by lia. destruct (nth i sds pzero); reflexivity. Qed.

Theorem C46_formula : forall n d g eps sds, shaped n d g -> 0 < eps -> off_corners eps n sds ->
  exists W, (forall i j k, inRange n d (i, j, k) -> gbWeight eps g sds i j k = Some (W i j k)) /\
    gbEval eps g sds = Some (combined n d W g).
Proof.
  intros n d g eps sds S He [L O].
  set (f := fun i => px (nth i sds pzero)). set (h := fun i => py (nth i sds pzero)).
  assert (Hsd : forall i, (i < n)%nat -> nth_error sds i = Some (mkV2 (f i) (h i))) by (apply sds_fun; exact L).
  assert (Hc : forall i, (i < n)%nat -> eps <= h i + h (nxt n i)).
  { intros i Hi. apply (O i (mkV2 (f i) (h i)) (mkV2 (f (nxt n i)) (h (nxt n i)))); apply Hsd; [exact Hi|apply nxt_lt; lia]. }
  exists (wgt n d g f h). split.
  - intros i j k (Hi & Hj & Hk). apply (weight_value n d g S f h sds Hsd eps He i j k Hi Hj); [apply lay_le; exact Hk|apply Hc; exact Hi|].
    pose proof (Hc (prv n i) ltac:(apply prv_lt; lia)) as X. rewrite nxt_prv in X by exact Hi. exact X.
  - exact (eval_sum n d g S f h sds Hsd eps He Hc).
Qed.
Print Assumptions C46_formula.

(** On the regular domain the weights are non-negative at every interior
    point. *)
Theorem C46_nonnegative : forall n d g eps vs dm uv, (3 <= n)%nat -> shaped n d g -> 0 < eps <= 1 ->
  regularVertices n = Some vs -> domainFrames pzero vs = Some dm -> inside vs uv ->
  exists sds, mapToRibbons (KBary Wachspress) eps dm uv = Some sds /\
    (off_corners eps n sds -> forall i j k, inRange n d (i, j, k) ->
       exists w, gbWeight eps g sds i j k = Some w /\ 0 <= w).
Proof.
  intros n d g eps vs dm uv H3 S He Hv Hdm I. destruct (regular_convex n vs H3 Hv) as (L & C & I0).
  destruct (C19_wachspress vs dm eps uv (d_verts_eq _ _ _ Hdm) ltac:(lia) C I He) as (l & B & Ll & Pl & Sl).
  assert (T : forall i, (i < n)%nat -> exists sd, mapToRibbon (KBary Wachspress) eps dm i uv = Some sd /\ 0 <= px sd <= 1 /\ 0 <= py sd <= 1).
  { intros i Hi. assert (Hp : (prv n i < n)%nat) by (apply prv_lt; lia).
    assert (Ei : nth_error l i = Some (nth i l 0)) by (apply nth_error_nth'; lia).
    assert (Ep : nth_error l (prv n i) = Some (nth (prv n i) l 0)) by (apply nth_error_nth'; lia).
    assert (Pi : 0 < nth i l 0) by (apply Pl, nth_In; lia). assert (Pp : 0 < nth (prv n i) l 0) by (apply Pl, nth_In; lia).
    rewrite <- L in Ep, Hi, Pp.
    destruct (bary_tame pzero vs dm Hdm ltac:(lia) C I0 eps l i uv (nth i l 0) (nth (prv (length vs) i) l 0) ltac:(lra) Hi
      (inside_closed vs uv I) Ei Ep ltac:(lra) ltac:(lra)) as (s & E & Hs).
    exists (mkV2 s (1 - nth i l 0 - nth (prv (length vs) i) l 0)). cbn [mapToRibbon]. unfold baryMap. rewrite B. cbn [bind]. split; [exact E|]. cbn [px py].
    split; [exact Hs|]. split; [|lra].
    assert (Q : nth i l 0 + nth (prv (length vs) i) l 0 <= rsum (length l) (fun i => nth i l 0)); [|lra].
    assert (Np : prv (length vs) i <> i) by (apply prv_neq; lia).
    set (F := fun k => if (k =? i)%nat then nth i l 0 else if (k =? prv (length vs) i)%nat then nth k l 0 else 0).
    replace (nth i l 0 + nth (prv (length vs) i) l 0) with (F i + F (prv (length vs) i)).
    2: { unfold F. rewrite !Nat.eqb_refl. destruct (Nat.eqb_spec (prv (length vs) i) i); [contradiction|reflexivity]. }
    rewrite <- (rsum_double (length l) F i (prv (length vs) i)); unfold F.
    + apply rsum_le. intros k Hk. assert (0 < nth k l 0) by (apply Pl, nth_In; exact Hk).
      destruct (Nat.eqb_spec k i) as [->|]; [lra|]. destruct (k =? _)%nat; lra.
    + lia.
    + rewrite Ll. apply prv_lt; lia.
    + congruence.
    + intros k Hk N1 N2. destruct (Nat.eqb_spec k i); [contradiction|]. destruct (Nat.eqb_spec k (prv (length vs) i)); [contradiction|reflexivity]. }
  destruct (mapM_total_nth _ (fun i => mapToRibbon (KBary Wachspress) eps dm i uv) n) as (sds & M1 & M2 & M3).
  { intros i Hi. destruct (T i Hi) as (sd & E & _). exists sd. exact E. }
  exists sds. unfold mapToRibbons. rewrite (d_n_eq _ _ _ Hdm), L. split; [exact M1|]. intros O i j k R.
  set (f := fun i => px (nth i sds pzero)). set (h := fun i => py (nth i sds pzero)).
  assert (Hsd : forall i, (i < n)%nat -> nth_error sds i = Some (mkV2 (f i) (h i))) by (apply sds_fun; exact M2).
  assert (Tm : forall i, (i < n)%nat -> 0 <= f i <= 1 /\ 0 <= h i <= 1).
  { intros i' Hi'. destruct (T i' Hi') as (sd & E & T1 & T2). pose proof (M3 i' Hi') as X. rewrite (Hsd i' Hi'), E in X. injection X as <-. split; assumption. }
  destruct O as [_ O]. pose proof R as (Hi & Hj & Hk).
  assert (Hc : forall i, (i < n)%nat -> eps <= h i + h (nxt n i)).
  { intros i' Hi'. apply (O i' (mkV2 (f i') (h i')) (mkV2 (f (nxt n i')) (h (nxt n i')))); apply Hsd; [exact Hi'|apply nxt_lt; lia]. }
  assert (Hp : (prv n i < n)%nat) by (apply prv_lt; lia). assert (Hx : (nxt n i < n)%nat) by (apply nxt_lt; lia).
  pose proof (Hc (prv n i) Hp) as X. rewrite nxt_prv in X by exact Hi. pose proof (Hc i Hi) as Y.
  exists (wgt n d g f h i j k). split; [apply (weight_value n d g S f h sds Hsd eps ltac:(lra) i j k Hi Hj); [apply lay_le; exact Hk|exact Y|exact X]|].
  apply wgt_nonneg; try (apply Tm; assumption); lra.
Qed.
Print Assumptions C46_nonnegative.

Lemma pick_v : forall l m (P : nat -> nat -> V3) b, (0 < l)%nat -> (b < m)%nat ->
  vsum l (fun k => vsum m (fun j => P j k *v (if ((j =? b) && (k =? 0))%nat%bool then 1/2 else 0))) = P b 0%nat *v (1/2).
Proof.
  intros l m P b Hl Hb. rewrite (vsum_single l _ 0%nat Hl).
  - rewrite (vsum_single m _ b Hb); [rewrite !Nat.eqb_refl; reflexivity|]. intros j Hj N. destruct (Nat.eqb_spec j b); [contradiction|v3ring].
  - intros k Hk N. apply vsum_zero. intros j Hj. destruct (Nat.eqb_spec k 0); [contradiction|]. rewrite andb_false_r. v3ring.
Qed.
Lemma pick_r : forall l m b, (0 < l)%nat -> (b < m)%nat ->
  rsum l (fun k => rsum m (fun j => if ((j =? b) && (k =? 0))%nat%bool then 1/2 else 0)) = 1/2.
Proof.
  intros l m b Hl Hb. rewrite (rsum_single l _ 0%nat Hl).
  - rewrite (rsum_single m _ b Hb); [rewrite !Nat.eqb_refl; reflexivity|]. intros j Hj N. destruct (Nat.eqb_spec j b); [contradiction|reflexivity].
  - intros k Hk N. apply rsum_zero. intros j Hj. destruct (Nat.eqb_spec k 0); [contradiction|]. rewrite andb_false_r. reflexivity.
Qed.

(** At a corner of the domain the two functions branch differently, but the
    formula still holds. *)
Theorem C46_corner : forall n d g eps sds e, (3 <= n)%nat -> (1 <= d)%nat -> shaped n d g -> consistent n d g -> 0 < eps <= 1 ->
  (e < n)%nat -> length sds = n ->
  (forall i sd, nth_error sds i = Some sd -> py sd = if ((i =? e) || (i =? nxt n e))%nat%bool then 0 else 1) ->
  exists W, (forall i j k, inRange n d (i, j, k) -> gbWeight eps g sds i j k = Some (W i j k)) /\
    gbEval eps g sds = Some (combined n d W g) /\ gbEval eps g sds = controlPoint g e d 0.
Proof.
  intros n d g eps sds e H3 Hd S Co He Hen L HD.
  set (f := fun i => px (nth i sds pzero)). set (h := fun i => py (nth i sds pzero)).
  assert (Hsd : forall i, (i < n)%nat -> nth_error sds i = Some (mkV2 (f i) (h i))) by (apply sds_fun; exact L).
  assert (Hv : forall i, (i < n)%nat -> h i = if ((i =? e) || (i =? nxt n e))%nat%bool then 0 else 1) by (intros i Hi; exact (HD i _ (Hsd i Hi))).
  assert (Hx : (nxt n e < n)%nat) by (apply nxt_lt; lia). assert (Nx : nxt n e <> e) by (apply nxt_neq; lia).
  assert (D0 : h e = 0) by (rewrite Hv by exact Hen; rewrite Nat.eqb_refl; reflexivity).
  assert (D1 : h (nxt n e) = 0) by (rewrite Hv by exact Hx; rewrite Nat.eqb_refl, orb_true_r; reflexivity).
  assert (DF : forall i, (i < n)%nat -> i <> e -> i <> nxt n e -> h i = 1).
  { intros i Hi N1 N2. rewrite Hv by exact Hi. destruct (Nat.eqb_spec i e); [contradiction|]. destruct (Nat.eqb_spec i (nxt n e)); [contradiction|reflexivity]. }
  exists (fun i j k => if (i =? e)%nat then if ((j =? d) && (k =? 0))%nat%bool then 1/2 else 0
        else if (i =? nxt n e)%nat then if ((j =? 0) && (k =? 0))%nat%bool then 1/2 else 0 else 0).
  assert (V : gbEval eps g sds = controlPoint g e d 0).
  { apply (loop_corner n d g f h sds eps S Hd H3 ltac:(lra) Hsd e Hen); [lra|exact Co|].
    intros i Hi N. exact (far_sum n d h eps e He H3 Hd Hen D0 D1 DF i Hi N). }
  assert (P : point g (nxt n e) 0 0 = point g e d 0).
  { unfold point. pose proof (Co (nxt n e, 0, 0)%nat (e, d, 0)%nat) as X. cbn [getp] in X. rewrite X; [reflexivity|cbn [inRange]; lia|cbn [inRange]; lia|].
    pose proof (mirror_prv n d (nxt n e) 0 0 Hx ltac:(lia)) as M. rewrite prv_nxt in M by exact Hen. rewrite Nat.sub_0_r in M. exact M. }
  assert (V' : controlPoint g e d 0 = Some (point g e d 0)) by (apply (cpv_some n d g e d 0 S); cbn [inRange]; lia).
  split; [|split; [|exact V]].
  - intros i j k (Hi & Hj & Hk). apply (corner_weight n d g S f h sds Hsd eps e He H3 Hd Hen D0 D1 DF i j k Hi Hj). apply lay_le; exact Hk.
  - rewrite V, V'. f_equal. unfold combined. set (l := ((d + 1) / 2)%nat). assert (Hl : (0 < l)%nat) by (apply lay_le; lia).
    rewrite (vsum_double n _ e (nxt n e) Hen Hx ltac:(congruence)).
    2: { intros i Hi N1 N2. apply vsum_zero. intros k Hk. apply vsum_zero. intros j Hj.
         destruct (Nat.eqb_spec i e); [contradiction|]. destruct (Nat.eqb_spec i (nxt n e)); [contradiction|]. v3ring. }
    rewrite (rsum_double n _ e (nxt n e) Hen Hx ltac:(congruence)).
    2: { intros i Hi N1 N2. apply rsum_zero. intros k Hk. apply rsum_zero. intros j Hj.
         destruct (Nat.eqb_spec i e); [contradiction|]. destruct (Nat.eqb_spec i (nxt n e)); [contradiction|]. reflexivity. }
    rewrite !Nat.eqb_refl. destruct (Nat.eqb_spec (nxt n e) e); [contradiction|].
    rewrite (pick_v l (d + 1) (fun j k => point g e j k) d), (pick_v l (d + 1) (fun j k => point g (nxt n e) j k) 0), !pick_r by lia.
    rewrite P. v3field.
Qed.
Print Assumptions C46_corner.

(** The corner variant: the value from the weights of one address of each
    control point; the other address has the same weight. *)
Theorem C46_corner_variant : forall n d g sds, shaped n d g -> (d mod 2 = 1)%nat -> length sds = n ->
  let l := ((d + 1) / 2)%nat in
  exists W, (forall i j k, inRange n d (i, j, k) -> gbcWeight g sds i j k = Some (W i j k)) /\
    (forall i j k, inRange n d (i, j, k) -> (2 * j + 1 <= d)%nat -> W i j k = W (prv n i) (d - k)%nat j) /\
    gbcEval g sds = Some (vsum n (fun i => vsum l (fun j => vsum l (fun k => point g i (d - j) k *v W i (d - j)%nat k)))
      +v gb_cen g *v (1 - rsum n (fun i => rsum l (fun j => rsum l (fun k => W i (d - j)%nat k))))).
Proof.
  intros n d g sds S Od L l. set (h := fun i => py (nth i sds pzero)).
  assert (Hsd : forall i, (i < n)%nat -> exists s, nth_error sds i = Some (mkV2 s (h i))) by (intros i Hi; eexists; apply (sds_fun n sds L i Hi)).
  assert (Dl : (d = 2 * l - 1 /\ 1 <= l)%nat).
  { unfold l. pose proof (Nat.div_mod d 2 ltac:(lia)). pose proof (Nat.div_mod (d + 1) 2 ltac:(lia)). pose proof (Nat.mod_upper_bound (d + 1) 2 ltac:(lia)). lia. }
  exists (fun i j k => if (j <? l)%nat then cwgt n d h (prv n i) k j else cwgt n d h i (d - j) k).
  split; [|split].
  - intros i j k (Hi & Hj & Hk). unfold gbcWeight. pose proof S as (Sn & Sd & Sl & _). rewrite Sn, Sd, Sl. fold l.
    destruct (Nat.ltb_spec j l) as [J|J].
    + apply (cornerWeight_value n d g S h sds Hsd); [apply prv_lt; lia|lia|lia].
    + destruct (Nat.ltb_spec d j); [lia|]. apply (cornerWeight_value n d g S h sds Hsd); lia.
  - intros i j k (Hi & Hj & Hk) Hj2. destruct (Nat.ltb_spec j l); [|lia]. destruct (Nat.ltb_spec (d - k) l); [lia|].
    replace (d - (d - k))%nat with k by lia. reflexivity.
  - rewrite (corner_eval n d g S h sds Hsd). fold l. f_equal. f_equal.
    + apply vsum_ext. intros i Hi. apply vsum_ext. intros j Hj. apply vsum_ext. intros k Hk. destruct (Nat.ltb_spec (d - j) l); [lia|].
      replace (d - (d - j))%nat with j by lia. reflexivity.
    + do 2 f_equal. apply rsum_ext. intros i Hi. apply rsum_ext. intros j Hj. apply rsum_ext. intros k Hk. destruct (Nat.ltb_spec (d - j) l); [lia|].
      replace (d - (d - j))%nat with j by lia. reflexivity.
Qed.
Print Assumptions C46_corner_variant.

Example C46_example : off_corners (1/4) 4 [mkV2 (1/2) (1/2); mkV2 (1/2) (1/2); mkV2 (1/2) (1/2); mkV2 (1/2) (1/2)] /\
  (let g := initNetwork (mkV3 1 0 0) (gbNew 0 0 (mkV3 0 1 0)) 4 2 in
   gbWeight (1/4) g [mkV2 (1/2) (1/2); mkV2 (1/2) (1/2); mkV2 (1/2) (1/2); mkV2 (1/2) (1/2)] 0 1 0 = Some (1 / 16)).
Proof.
  split.
  - split; [reflexivity|]. intros i a b A B. do 4 (destruct i as [|i]; [injection A as <-; injection B as <-; simpl; lra|]).
    destruct i; discriminate.
  - cbv zeta. unfold gbWeight. cbn -[Rlt_dec bernsteinSingle fdiv]. destruct (Rlt_dec _ _); [lra|].
    rewrite !bernsteinSingle_spec by lia. cbn [bind]. rewrite fdiv_some by lra. f_equal. unfold bern. simpl. field.
Qed.

(** ** C47: the boundary *)

(** The coordinates on a side, as functions. *)
Lemma side_functions : forall n vs dm eps e s uv, (3 <= n)%nat -> regularVertices n = Some vs -> domainFrames pzero vs = Some dm ->
  (e < n)%nat -> 0 < eps <= 1/2 -> 0 <= s <= 1 -> edgePoint dm e s = Some uv ->
  exists sds f h, mapToRibbons (KBary Wachspress) eps dm uv = Some sds /\
    (forall i, (i < n)%nat -> nth_error sds i = Some (mkV2 (f i) (h i))) /\
    f e = s /\ h e = 0 /\ f (nxt n e) = 0 /\ h (nxt n e) = 1 - s /\ (eps <= 1 - s -> f (prv n e) = 1) /\ h (prv n e) = s /\
    (forall i, (i < n)%nat -> i <> e -> i <> nxt n e -> i <> prv n e -> h i = 1).
Proof.
  intros n vs dm eps e s uv H3 Hv Hdm Hen He Hs E. destruct (regular_convex n vs H3 Hv) as (L & C & I0). subst n.
  rewrite (edge_of_frames pzero vs dm e s uv Hdm Hen E).
  destruct (bary_side_coords pzero vs dm Hdm H3 C I0 eps e s Hen He Hs) as (sds & M & (Ls & E0 & E1 & (sp & dp & E2 & E3 & _) & _) & _ & F & (sp' & E4)).
  set (f := fun i => px (nth i sds pzero)). set (h := fun i => py (nth i sds pzero)).
  assert (Hsd : forall i, (i < length vs)%nat -> nth_error sds i = Some (mkV2 (f i) (h i))) by (apply sds_fun; exact Ls).
  exists sds, f, h. split; [exact M|]. split; [exact Hsd|].
  assert (Hp : (prv (length vs) e < length vs)%nat) by (apply prv_lt; lia). assert (Hx : (nxt (length vs) e < length vs)%nat) by (apply nxt_lt; lia).
  rewrite (Hsd e Hen) in E0. injection E0 as A1 A2. rewrite (Hsd _ Hx) in E1. injection E1 as A3 A4.
  rewrite (Hsd _ Hp) in E2, E4. injection E2 as A5 A6. injection E4 as A7 A8.
  repeat split; try assumption.
  - intros X. destruct (E3 X) as [Y _]. congruence.
  - intros i Hi N1 N2 N3. exact (F i _ (Hsd i Hi) N1 N2 N3).
Qed.

Lemma edge_point_total : forall c vs d e s, domainFrames c vs = Some d -> (e < length vs)%nat -> edgePoint d e s = Some (sidePt vs e s).
Proof.
  intros c vs d e s Hd He. unfold edgePoint. rewrite (d_n_eq c vs d Hd), (d_verts_eq c vs d Hd).
  rewrite (nth_error_nth' vs pzero He), (nth_error_nth' vs pzero (prv_lt (length vs) e ltac:(lia))). reflexivity.
Qed.

(** Away from the ends of the side, for every net of degree at least two. *)
Theorem C47_boundary : forall n d g vs dm eps e s uv, (3 <= n)%nat -> (2 <= d)%nat -> shaped n d g ->
  regularVertices n = Some vs -> domainFrames pzero vs = Some dm -> (e < n)%nat -> 0 < eps <= 1/2 -> eps <= s <= 1 - eps ->
  edgePoint dm e s = Some uv ->
  gbSurfaceEval eps dm g uv = Some (boundaryCurve g d e s).
Proof.
  intros n d g vs dm eps e s uv H3 Hd S Hv Hdm Hen He Hs E.
  destruct (side_functions n vs dm eps e s uv H3 Hv Hdm Hen He ltac:(lra) E) as (sds & f & h & M & Hsd & F1 & F2 & F3 & F4 & F5 & F6 & F7).
  unfold gbSurfaceEval. rewrite M. cbn [bind].
  apply (side_eval n d g S f h sds Hsd eps ltac:(lra) e s H3 Hd Hen F1 F2 F3 F4 (F5 ltac:(lra)) F6 F7); lra.
Qed.
Print Assumptions C47_boundary.

(** Within the tolerance of an end of the side the value is the end of the
    curve, if the two addresses of the corner agree. *)
Theorem C47_ends : forall n d g vs dm eps e s uv, (3 <= n)%nat -> (1 <= d)%nat -> shaped n d g -> consistent n d g ->
  regularVertices n = Some vs -> domainFrames pzero vs = Some dm -> (e < n)%nat -> 0 < eps <= 1/2 -> 0 <= s <= 1 ->
  edgePoint dm e s = Some uv ->
  (s < eps -> gbSurfaceEval eps dm g uv = Some (boundaryCurve g d e 0)) /\
  (1 - eps < s -> gbSurfaceEval eps dm g uv = Some (boundaryCurve g d e 1)).
Proof.
  intros n d g vs dm eps e s uv H3 Hd S Co Hv Hdm Hen He Hs E.
  destruct (side_functions n vs dm eps e s uv H3 Hv Hdm Hen He ltac:(lra) E) as (sds & f & h & M & Hsd & F1 & F2 & F3 & F4 & F5 & F6 & F7).
  unfold gbSurfaceEval. rewrite M. cbn [bind].
  assert (Hp : (prv n e < n)%nat) by (apply prv_lt; lia). assert (Hx : (nxt n e < n)%nat) by (apply nxt_lt; lia).
  assert (Nx : nxt n e <> e) by (apply nxt_neq; lia). assert (Np : prv n e <> e) by (apply prv_neq; lia).
  assert (Nnp : nxt n e <> prv n e) by (apply nxt_prv_neq; assumption).
  assert (H0 : forall i, (i < n)%nat -> 0 <= h i).
  { intros i Hi. destruct (Nat.eq_dec i e) as [->|N1]; [lra|]. destruct (Nat.eq_dec i (nxt n e)) as [->|N2]; [lra|].
    destruct (Nat.eq_dec i (prv n e)) as [->|N3]; [lra|]. rewrite F7 by assumption. lra. }
  assert (B0 : boundaryCurve g d e 0 = point g e 0 0).
  { unfold boundaryCurve, bezier. rewrite (vsum_single (d + 1) _ 0%nat ltac:(lia)); [rewrite bern_0_first; unfold point; v3ring|].
    intros i Hi N. rewrite bern_at_0 by lia. v3ring. }
  assert (B1 : boundaryCurve g d e 1 = point g e d 0).
  { unfold boundaryCurve, bezier. rewrite (vsum_single (d + 1) _ d ltac:(lia)); [rewrite bern_1_last; unfold point; v3ring|].
    intros i Hi N. rewrite bern_at_1 by lia. v3ring. }
  split; intros X.
  - rewrite (loop_corner n d g f h sds eps S Hd H3 ltac:(lra) Hsd (prv n e) Hp).
    + rewrite B0. unfold point. pose proof (Co (e, 0, 0)%nat (prv n e, d, 0)%nat) as Y. cbn [getp] in Y. rewrite <- Y.
      * apply (cpv_some n d g e 0 0 S). cbn [inRange]. lia.
      * cbn [inRange]. lia.
      * cbn [inRange]. lia.
      * pose proof (mirror_prv n d e 0 0 Hen ltac:(lia)) as Mm. rewrite Nat.sub_0_r in Mm. exact Mm.
    + rewrite nxt_prv by exact Hen. lra.
    + exact Co.
    + intros i Hi N. assert (Hxi : (nxt n i < n)%nat) by (apply nxt_lt; lia). pose proof (H0 i Hi). pose proof (H0 _ Hxi).
      destruct (Nat.eq_dec i e) as [->|N1]; [lra|]. destruct (Nat.eq_dec i (nxt n e)) as [->|N2]; [lra|]. pose proof (F7 i Hi N1 N2 N). lra.
  - rewrite (loop_corner n d g f h sds eps S Hd H3 ltac:(lra) Hsd e Hen).
    + rewrite B1. apply (cpv_some n d g e d 0 S). cbn [inRange]. lia.
    + lra.
    + exact Co.
    + intros i Hi N. assert (Hxi : (nxt n i < n)%nat) by (apply nxt_lt; lia). pose proof (H0 i Hi). pose proof (H0 _ Hxi).
      destruct (Nat.eq_dec i (prv n e)) as [->|N1]; [lra|]. destruct (Nat.eq_dec i (nxt n e)) as [->|N2].
      * destruct (Nat.eq_dec (nxt n (nxt n e)) (prv n e)) as [Q|Q]; [rewrite Q; lra|]. rewrite (F7 _ Hxi); [lra| |apply nxt_neq; lia|exact Q].
        intros Y. apply Nnp. apply (nxt_inj n); [exact Hx|exact Hp|]. rewrite Y, nxt_prv by exact Hen. reflexivity.
      * pose proof (F7 i Hi N N2 N1). lra.
Qed.
Print Assumptions C47_ends.

(** Degree one: the previous side still contributes its last control point, so
    the boundary is hit only if that is the central control point. *)
Theorem C47_degree_one : forall n g vs dm eps e s uv, (3 <= n)%nat -> shaped n 1 g ->
  regularVertices n = Some vs -> domainFrames pzero vs = Some dm -> (e < n)%nat -> 0 < eps <= 1/2 -> eps <= s <= 1 - eps ->
  edgePoint dm e s = Some uv ->
  exists w, 0 < w /\ gbSurfaceEval eps dm g uv = Some (boundaryCurve g 1 e s +v (point g (prv n e) 1 0 -v gb_cen g) *v w).
Proof.
  intros n g vs dm eps e s uv H3 S Hv Hdm Hen He Hs E.
  destruct (side_functions n vs dm eps e s uv H3 Hv Hdm Hen He ltac:(lra) E) as (sds & f & h & M & Hsd & F1 & F2 & F3 & F4 & F5 & F6 & F7).
  unfold gbSurfaceEval. rewrite M. cbn [bind].
  eexists. split; [|apply (linear_eval n g S f h sds Hsd eps e s ltac:(lra) H3 Hen F1 F2 F4 (F5 ltac:(lra)) F6 F7); lra].
  eapply (w1_pos n g); first [eassumption | lra].
Qed.
Print Assumptions C47_degree_one.

(** The middle of a side of a square of degree 2, and of degree 1. *)
Definition quadNet (d : nat) : gbsurf :=
  setCentral (initNetwork vzero (gbNew 0 0 vzero) 4 d) (mkV3 0 0 1).
Example C47_example : forall eps, 0 < eps <= 1/4 -> exists vs dm uv g, regularVertices 4 = Some vs /\ domainFrames pzero vs = Some dm /\
  edgePoint dm 2 (1/2) = Some uv /\ setControlPoint (quadNet 2) 2 1 0 (mkV3 1 2 3) = Some g /\ shaped 4 2 g /\
  gbSurfaceEval eps dm g uv = Some (mkV3 (1/2) 1 (3/2)) /\
  exists w, 0 < w /\ gbSurfaceEval eps dm (quadNet 1) uv = Some (mkV3 0 0 (-w)).
Proof.
  intros eps He. assert (Hv : exists vs, regularVertices 4 = Some vs) by (eexists; reflexivity). destruct Hv as [vs Hv]. exists vs.
  destruct (regular_convex 4 vs ltac:(lia) Hv) as (L & _ & _). rewrite frames_closed. eexists.
  assert (E := edge_point_total pzero vs _ 2 (1/2) (frames_closed pzero vs) ltac:(lia)). eexists.
  assert (S : forall d, (1 <= d)%nat -> shaped 4 d (quadNet d)) by (intros d Hd; apply init_new; left; cbn; lia).
  destruct (set_spec 4 2 (quadNet 2) 2 1 0 (mkV3 1 2 3) (S 2%nat ltac:(lia)) ltac:(cbn; lia)) as (g & G & Sg & _). exists g.
  split; [exact Hv|]. split; [reflexivity|]. split; [exact E|]. split; [exact G|]. split; [exact Sg|]. split.
  - rewrite (C47_boundary 4 2 g vs _ eps 2 (1/2) _ ltac:(lia) ltac:(lia) Sg Hv (frames_closed pzero vs) ltac:(lia) ltac:(lra) ltac:(lra) E).
    f_equal. injection G as <-. unfold boundaryCurve, bezier, bern. simpl. v3field.
  - destruct (C47_degree_one 4 (quadNet 1) vs _ eps 2 (1/2) _ ltac:(lia) (S 1%nat ltac:(lia)) Hv (frames_closed pzero vs) ltac:(lia) ltac:(lra) ltac:(lra) E) as (w & W & X).
    exists w. split; [exact W|]. rewrite X. f_equal. unfold boundaryCurve, bezier, bern, point. simpl. v3field.
Qed.

(** ** C48: the corner variant on the circular domain *)

(** The curve plus what the opposite corner of a triangle contributes. *)
Definition opposite_corner (d : nat) (g : gbsurf) (i : nat) (s : R) : V3 :=
  let l := ((d + 1) / 2)%nat in
  vsum l (fun j => vsum l (fun k => (point g i (d - j) k -v gb_cen g) *v (bern d j s * bern d k (1 - s)))).

Theorem C48_side : forall n d g eps e s, (3 <= n)%nat -> (d mod 2 = 1)%nat -> shaped n d g -> consistent n d g ->
  (e < n)%nat -> 0 < eps -> 0 <= s <= 1 ->
  gbcSurfaceEval eps g (mkV2 1 (2 * PI * (INR e + s) / INR n)) =
  Some (boundaryCurve g d e s +v if (n =? 3)%nat then opposite_corner d g (nxt n e) s else vzero).
Proof.
  intros n d g eps e s H3 Od S Co Hen He Hs. unfold gbcSurfaceEval. pose proof S as (Sn & _). rewrite Sn.
  set (h := fun i => if (i =? e)%nat then 0 else if (i =? prv n e)%nat then s else if (i =? nxt n e)%nat then 1 - s else 1).
  rewrite (mapM_seq _ n _ (fun i => mkV2 (h i) (h i))).
  2: { intros i Hi. exact (C22_circular eps n e s i He H3 Hen Hi Hs). }
  cbn [bind].
  assert (Hsd : forall i, (i < n)%nat -> exists t, nth_error (tabulate n (fun i => mkV2 (h i) (h i))) i = Some (mkV2 t (h i))).
  { intros i Hi. exists (h i). apply tabulate_nth_error; exact Hi. }
  assert (Dl : (d = 2 * ((d + 1) / 2) - 1 /\ 1 <= (d + 1) / 2)%nat).
  { pose proof (Nat.div_mod d 2 ltac:(lia)). pose proof (Nat.div_mod (d + 1) 2 ltac:(lia)). pose proof (Nat.mod_upper_bound (d + 1) 2 ltac:(lia)). lia. }
  assert (Nx : nxt n e <> e) by (apply nxt_neq; lia). assert (Np : prv n e <> e) by (apply prv_neq; lia).
  assert (Nnp : nxt n e <> prv n e) by (apply nxt_prv_neq; assumption).
  rewrite (corner_side n d g S h _ Hsd e s H3 (proj1 Dl) (proj2 Dl) Hen Co).
  - f_equal. unfold opposite. destruct (n =? 3)%nat; cbn [fst snd]; [|v3ring]. unfold opposite_corner. change (cpv g) with (point g).
    set (l := ((d + 1) / 2)%nat).
    replace (vsum l (fun j => vsum l (fun k => (point g (nxt n e) (d - j) k -v gb_cen g) *v (bern d j s * bern d k (1 - s)))))
      with (vsum l (fun j => vsum l (fun k => point g (nxt n e) (d - j) k *v (bern d j s * bern d k (1 - s)))) -v
            gb_cen g *v rsum l (fun j => rsum l (fun k => bern d j s * bern d k (1 - s)))); [v3ring|].
    rewrite (vsum_ext l (fun j => vsum l (fun k => (_ -v _) *v _))
      (fun j => vsum l (fun k => point g (nxt n e) (d - j) k *v (bern d j s * bern d k (1 - s))) -v gb_cen g *v rsum l (fun k => bern d j s * bern d k (1 - s)))).
    + rewrite vsum_sub. f_equal. rewrite vsum_const. reflexivity.
    + intros j Hj. rewrite (vsum_ext l (fun k => (_ -v _) *v _) (fun k => point g (nxt n e) (d - j) k *v (bern d j s * bern d k (1 - s)) -v gb_cen g *v (bern d j s * bern d k (1 - s)))) by (intros; v3ring).
      rewrite vsum_sub, vsum_const. reflexivity.
  - unfold h. rewrite Nat.eqb_refl. reflexivity.
  - unfold h. destruct (Nat.eqb_spec (nxt n e) e); [contradiction|]. destruct (Nat.eqb_spec (nxt n e) (prv n e)); [contradiction|]. rewrite Nat.eqb_refl. reflexivity.
  - unfold h. destruct (Nat.eqb_spec (prv n e) e); [contradiction|]. rewrite Nat.eqb_refl. reflexivity.
  - intros i Hi N1 N2 N3. unfold h. destruct (Nat.eqb_spec i e); [contradiction|]. destruct (Nat.eqb_spec i (prv n e)); [contradiction|].
    destruct (Nat.eqb_spec i (nxt n e)); [contradiction|reflexivity].
Qed.
Print Assumptions C48_side.

Corollary C48_boundary : forall n d g eps e s, (4 <= n)%nat -> (d mod 2 = 1)%nat -> shaped n d g -> consistent n d g ->
  (e < n)%nat -> 0 < eps -> 0 <= s <= 1 ->
  gbcSurfaceEval eps g (mkV2 1 (2 * PI * (INR e + s) / INR n)) = Some (boundaryCurve g d e s).
Proof.
  intros n d g eps e s H4 Od S Co Hen He Hs. rewrite (C48_side n d g eps e s) by (try assumption; lia).
  destruct (Nat.eqb_spec n 3); [lia|]. f_equal. v3ring.
Qed.
Print Assumptions C48_boundary.

Lemma choose_pos : forall n k, (k <= n)%nat -> (0 < choose n k)%nat.
Proof.
  induction n as [|n IH]; intros k H; [replace k with 0%nat by lia; rewrite choose_0; lia|]. destruct k as [|k]; [rewrite choose_0; lia|].
  rewrite choose_S. pose proof (IH k ltac:(lia)). lia.
Qed.

(** Three sides: a patch with all control points at the origin except the
    central one leaves the boundary at every inner point of every side. *)
Theorem C48_triangle : forall d eps e s, (d mod 2 = 1)%nat -> (e < 3)%nat -> 0 < eps -> 0 < s < 1 ->
  let g := setCentral (initNetwork vzero (gbNew 0 0 vzero) 3 d) (mkV3 1 0 0) in
  shaped 3 d g /\ consistent 3 d g /\ boundaryCurve g d e s = vzero /\
  exists p, gbcSurfaceEval eps g (mkV2 1 (2 * PI * (INR e + s) / INR 3)) = Some p /\ p <> vzero.
Proof.
  intros d eps e s Od Hen He Hs g.
  destruct (init_new vzero (gbNew 0 0 vzero) 3 d) as [S V]; [left; cbn; lia|].
  assert (Sg : shaped 3 d g) by exact S.
  assert (Vg : forall q, inRange 3 d q -> getp g q = Some vzero) by exact V.
  assert (Cg : consistent 3 d g) by (intros p q P Q _; rewrite !Vg by assumption; reflexivity).
  assert (Dl : (d = 2 * ((d + 1) / 2) - 1 /\ 1 <= (d + 1) / 2)%nat).
  { pose proof (Nat.div_mod d 2 ltac:(lia)). pose proof (Nat.div_mod (d + 1) 2 ltac:(lia)). pose proof (Nat.mod_upper_bound (d + 1) 2 ltac:(lia)). lia. }
  set (l := ((d + 1) / 2)%nat) in Dl.
  assert (Z : forall i j k, point g i j k = vzero).
  { intros i j k. unfold point. destruct (controlPoint g i j k) as [p|] eqn:E; [|reflexivity].
    destruct (le_lt_dec i 2) as [A|A]; [destruct (le_lt_dec j d) as [B|B]; [destruct (le_lt_dec (2 * k + 1) d) as [C|C]|]|].
    - pose proof (Vg (i, j, k) ltac:(cbn [inRange]; lia)) as X. cbn [getp] in X. congruence.
    - pose proof (getp_none 3 d g (i, j, k) Sg ltac:(cbn [inRange]; lia)) as X. cbn [getp] in X. congruence.
    - pose proof (getp_none 3 d g (i, j, k) Sg ltac:(cbn [inRange]; lia)) as X. cbn [getp] in X. congruence.
    - pose proof (getp_none 3 d g (i, j, k) Sg ltac:(cbn [inRange]; lia)) as X. cbn [getp] in X. congruence. }
  assert (B0 : boundaryCurve g d e s = vzero).
  { unfold boundaryCurve, bezier. apply vsum_zero. intros j Hj. fold (point g e j 0). rewrite Z. v3ring. }
  split; [exact Sg|]. split; [exact Cg|]. split; [exact B0|].
  rewrite (C48_side 3 d g eps e s) by (try assumption; try lia; lra). eexists. split; [reflexivity|]. rewrite B0. cbn [Nat.eqb].
  unfold opposite_corner. fold l. intros X. apply (f_equal vx) in X.
  assert (P : 0 < rsum l (fun j => rsum l (fun k => bern d j s * bern d k (1 - s)))).
  { apply rsum_pos; [lia|]. intros j Hj. apply rsum_pos; [lia|]. intros k Hk.
    assert (Q : forall m t, (m <= d)%nat -> 0 < t < 1 -> 0 < bern d m t).
    { intros m t Hm Ht. unfold bern. repeat apply Rmult_lt_0_compat; try (apply pow_lt; lra). apply lt_0_INR, choose_pos; exact Hm. }
    apply Rmult_lt_0_compat; apply Q; lia || lra. }
  rewrite (vsum_ext l _ (fun j => mkV3 (- rsum l (fun k => bern d j s * bern d k (1 - s))) 0 0)) in X.
  2: { intros j Hj. rewrite (vsum_ext l _ (fun k => mkV3 (- (bern d j s * bern d k (1 - s))) 0 0)).
       - clear. induction l as [|m IH]; [cbn [vsum rsum]; unfold vzero; rewrite Ropp_0; reflexivity|]. cbn [vsum rsum]. rewrite IH. unfold vadd; cbn [vx vy vz]. f_equal; ring.
       - intros k Hk. rewrite Z. unfold vsub, vscale, vzero; cbn [vx vy vz gb_cen g setCentral]. f_equal; ring. }
  assert (Y : forall m (F : nat -> R), vx (vsum m (fun j => mkV3 (- F j) 0 0)) = - rsum m F).
  { intros m F; induction m as [|m IH]; [simpl; ring|]. cbn [vsum rsum]. unfold vadd; cbn [vx]. rewrite IH. ring. }
  unfold vadd in X; cbn [vx vzero] in X. rewrite (Y l (fun j => rsum l (fun k => bern d j s * bern d k (1 - s)))) in X. simpl in X. lra.
Qed.
Print Assumptions C48_triangle.

(** A square of degree 3 on which both statements apply. *)
Example C48_example : let g := initNetwork (mkV3 1 2 3) (gbNew 0 0 vzero) 4 3 in
  shaped 4 3 g /\ consistent 4 3 g /\ (3 mod 2 = 1)%nat /\ boundaryCurve g 3 1 (1/2) = mkV3 1 2 3.
Proof.
  cbv zeta. destruct (C45_init (mkV3 1 2 3) (gbNew 0 0 vzero) 4 3) as (S & C & _); [left; cbn; lia|].
  split; [exact S|]. split; [exact C|]. split; [reflexivity|]. unfold boundaryCurve, bezier, bern. simpl. v3field.
Qed.
