(** Fitting the elevated patch to the mesh of the original one, as the test
    driver does, for patches with four sides: C89. *)
From Verif Require Import Base MeshModel MeshSpec MeshParams GeomSpec DomainModel DomainProofs UtilModel UtilSpec UtilProofs ParamModel ParamMaps.
From Verif Require Import RibbonModel SurfaceModel JoinModel GBModel GBSpec GBProofs GBElev GBEval GBFitModel LeastSquares GBFitTotal FourSpec FourProofs FourElev FourFit.
From Verif Require PropsGB PropsGB2 PropsGBFit PropsFour PolarPatchProofs SurfaceC0.
Open Scope R_scope.

(** The part of bezierTest, test.cc:208-223, that makes [sextic2] from [surf]: the
    mesh of the patch, the elevated patch and its fit to the mesh at the
    parameters of the mesh, with the default arguments of fitWithOriginal
    (gb-fit.hh:12).  [v0], [c0], [d0], [l0] are the contents of new objects. *)
Definition elevateAndFit (lu svd : nat -> nat -> (nat -> nat -> R) -> (nat -> V3) -> nat -> V3) (tol eps : R)
    (v0 c0 : V3) (d0 l0 : nat) (v1 c1 : V3) (d1 l1 : nat) (d : dom) (g : gbsurf) (resolution : nat) : option gbsurf :=
  mesh <- surfaceMesh (d_n d) (d_center d) (d_verts d) (gbSurfaceEval eps d g) resolution ;;
  sextic <- elevateDegree v0 c0 d0 l0 g ;;
  uvs <- parametersImpl (d_n d) (d_center d) (d_verts d) resolution ;;
  sds <- mapM (mapToRibbons (KBary Wachspress) eps d) uvs ;;
  fitWithOriginal lu svd tol eps v1 c1 d1 l1 sextic (combine sds (pm_points mesh)) 0 2.

(** ** C89 *)

(** The four corners, or away from them. *)
Definition regular_place (eps u v : R) : Prop :=
  (forall x y, In x [u; 1 - u] -> In y [v; 1 - v] -> eps <= x + y) \/ (u = 0 \/ u = 1) /\ (v = 0 \/ v = 1).

Lemma tensor_corner : forall D G, tensor D G 0 0 = G 0%nat 0%nat /\ tensor D G 1 0 = G D 0%nat /\ tensor D G 1 1 = G D D /\ tensor D G 0 1 = G 0%nat D.
Proof. intros D G. unfold tensor. rewrite !PolarPatchProofs.bezier_at_0, !PolarPatchProofs.bezier_at_1, ?PolarPatchProofs.bezier_at_0, ?PolarPatchProofs.bezier_at_1. repeat split. Qed.

(** At these points the patch is the tensor product surface. *)
Lemma value4 : forall deg g d eps u v, (3 <= deg)%nat -> shaped 4 deg g -> consistent 4 deg g -> domainFrames pzero unit4 = Some d ->
  0 < eps <= 1 / 2 -> 0 <= u <= 1 -> 0 <= v <= 1 -> regular_place eps u v -> gbSurfaceEval eps d g (at4 u v) = Some (tensor deg (grid deg g) u v).
Proof.
  intros deg g d eps u v H3 Sh Co Hd He Hu Hv [Off|(U & V)]; [apply PropsFour.C87_tensor; (assumption || lra)|].
  destruct (PropsFour.C87_tensor_corner deg g d eps u v ltac:(lia) Sh Co Hd He Hu Hv) as (A & B & C & D).
  destruct (tensor_corner deg (grid deg g)) as (T1 & T2 & T3 & T4).
  destruct U as [->| ->]; destruct V as [->| ->].
  - rewrite A by lra. rewrite T1. rewrite <- (grid_side deg g Co 0 0 0) by lia. reflexivity.
  - rewrite D by lra. rewrite T4. rewrite <- (grid_side deg g Co 3 0 0) by lia. cbn [place4 fst snd]. rewrite Nat.sub_0_r. reflexivity.
  - rewrite B by lra. rewrite T2. rewrite <- (grid_side deg g Co 1 0 0) by lia. cbn [place4 fst snd]. rewrite Nat.sub_0_r. reflexivity.
  - rewrite C by lra. rewrite T3. rewrite <- (grid_side deg g Co 2 0 0) by lia. cbn [place4 fst snd]. rewrite !Nat.sub_0_r. reflexivity.
Qed.

Lemma proper4 : forall eps u v, regular_place eps u v -> proper eps 4 (sides4 u v).
Proof.
  intros eps u v [Off|(U & V)].
  - left. split; [reflexivity|]. intros i a b A B. destruct i as [|[|[|[|i]]]]; [| | | |destruct i; discriminate]; cbn in A, B; injection A as <-; injection B as <-; cbn [py];
      [specialize (Off (1 - u) v)|specialize (Off (1 - u) (1 - v))|specialize (Off u (1 - v))|specialize (Off u v)]; simpl in Off; lra.
  - right. split; [reflexivity|]. destruct U as [->| ->]; destruct V as [->| ->]; [exists 3%nat|exists 2%nat|exists 0%nat|exists 1%nat]; (split; [lia|]);
      intros i sd S0; (destruct i as [|[|[|[|i]]]]; [| | | |destruct i; discriminate]); cbn in S0; injection S0 as <-; cbn; ring.
Qed.

(** The elevated patch with the right central control point. *)
Lemma companion : forall deg g v0 c0 d0 l0 g', (3 <= deg)%nat -> shaped 4 deg g -> consistent 4 deg g -> gb_dom g = 4%nat ->
  elevateDegree v0 c0 d0 l0 g = Some g' ->
  shaped 4 (deg + 1) g' /\ consistent 4 (deg + 1) g' /\ gb_dom g' = 4%nat /\
  exists h, PropsGBFit.keeps 4 (deg + 1) 2 g' h /\ forall u v, tensor (deg + 1) (grid (deg + 1) h) u v = tensor deg (grid deg g) u v.
Proof.
  intros deg g v0 c0 d0 l0 g' H3 Sh Co Hdom El.
  destruct (PropsGB2.C52_values 4 deg g v0 c0 d0 l0 ltac:(lia) ltac:(lia) Sh Co Hdom) as (g1 & E1 & Sh' & Dm' & Val & Co' & _). rewrite El in E1. injection E1 as <-.
  destruct (elevate_all 4 deg g ltac:(lia) ltac:(lia) Sh Co v0 c0 d0 l0 Hdom) as (g1 & E1 & _ & _ & Sq & _). rewrite El in E1. injection E1 as <-.
  split; [exact Sh'|]. split; [exact Co'|]. split; [exact Dm'|].
  destruct (Nat.eq_dec (deg mod 2) 0) as [Ev|Od].
  - exists g'. split; [|exact (tensor_even deg g Co g' Val Ev)]. split; [exact Sh'|]. split; [exact Co'|]. split; [exact Sq|]. reflexivity.
  - set (m := ((deg + 1) / 2)%nat). assert (Em : (deg + 1 = 2 * m)%nat).
    { pose proof (Nat.div_mod deg 2 ltac:(lia)). pose proof (Nat.mod_upper_bound deg 2 ltac:(lia)). unfold m. replace (deg + 1)%nat with (0 + (deg / 2 + 1) * 2)%nat by lia. rewrite Nat.div_add by lia. cbn. lia. }
    set (c := (grid deg g (m - 1) (m - 1) +v grid deg g m (m - 1) +v grid deg g (m - 1) m +v grid deg g m m)%nat *v (1 / 4)).
    exists (setCentral g' c). split.
    + split; [exact Sh'|]. split; [exact Co'|]. split; [exact Sq|]. reflexivity.
    + intros u v. rewrite (tensor_odd deg g Co (setCentral g' c) Val m Em u v). change (gb_cen (setCentral g' c)) with c. fold c. apply V3_ext; cbn; ring.
Qed.

Lemma grid_ratios : forall r, (1 <= r)%nat -> NoDup (map (fun i => INR i / INR r) (seq 0 (r + 1))).
Proof.
  intros r Hr. apply FinFun.Injective_map_NoDup; [|apply seq_NoDup]. intros i j E. apply INR_eq.
  assert (0 < INR r) by (apply lt_0_INR; lia). apply (Rmult_eq_reg_r (/ INR r)); [exact E|]. apply Rinv_neq_0_compat. lra.
Qed.

Lemma grid_regular : forall r eps j k, (1 <= r)%nat -> eps * INR r <= 1 -> (j <= r)%nat -> (k <= r)%nat ->
  0 <= INR j / INR r <= 1 /\ 0 <= INR k / INR r <= 1 /\ regular_place eps (INR j / INR r) (INR k / INR r).
Proof.
  intros r eps j k Hr He Hj Hk. assert (R0 : 0 < INR r) by (apply lt_0_INR; lia).
  assert (I0 : 0 < / INR r) by (apply Rinv_0_lt_compat; exact R0).
  assert (Ie : eps <= / INR r) by (apply (Rmult_le_reg_r (INR r)); [exact R0|]; rewrite Rinv_l by lra; exact He).
  assert (N : forall i, (i <= r)%nat -> i = 0%nat \/ i = r \/ (/ INR r <= INR i / INR r /\ / INR r <= 1 - INR i / INR r)).
  { intros i Hi. destruct (Nat.eq_dec i 0) as [|N0]; [left; assumption|]. destruct (Nat.eq_dec i r) as [|N1]; [right; left; assumption|]. right; right.
    assert (1 <= INR i) by (change 1 with (INR 1); apply le_INR; lia). assert (INR i + 1 <= INR r) by (rewrite <- S_INR; apply le_INR; lia).
    split; (apply (Rmult_le_reg_r (INR r)); [exact R0|]); [|rewrite Rmult_minus_distr_r]; unfold Rdiv; rewrite ?Rmult_assoc, !Rinv_l by lra; lra. }
  assert (B : forall i, (i <= r)%nat -> 0 <= INR i / INR r <= 1).
  { intros i Hi. pose proof (pos_INR i). assert (INR i <= INR r) by (apply le_INR; lia). split; (apply (Rmult_le_reg_r (INR r)); [exact R0|]); unfold Rdiv; rewrite ?Rmult_assoc, ?Rinv_l by lra; lra. }
  split; [apply B; exact Hj|]. split; [apply B; exact Hk|]. pose proof (B j Hj). pose proof (B k Hk).
  assert (Z0 : INR 0 / INR r = 0) by (cbn; field; lra). assert (Z1 : INR r / INR r = 1) by (field; lra).
  destruct (N j Hj) as [J|[J|(J1 & J2)]]; [| |left; intros x y [<-|[<-|[]]] [<-|[<-|[]]]; lra];
  (destruct (N k Hk) as [K|[K|(K1 & K2)]]; [| |left; intros x y [<-|[<-|[]]] [<-|[<-|[]]]; lra]); right; subst; rewrite ?Z0, ?Z1; auto.
Qed.

Section Fit.
Variables lu svd : nat -> nat -> (nat -> nat -> R) -> (nat -> V3) -> nat -> V3.

(** At least as many mesh points in a row as the elevated patch has control
    points: the whole sequence has a result, which is the patch we started from,
    in higher degree.  (Elevation alone changes odd degrees, C88.) *)
Theorem C89_fit : forall deg g d eps v0 c0 d0 l0 v1 c1 d1 l1 r,
  (3 <= deg)%nat -> shaped 4 deg g -> consistent 4 deg g -> gb_dom g = 4%nat -> domainFrames pzero unit4 = Some d ->
  least_squares_solver svd -> 0 < eps <= 1 / 3 -> (deg + 1 <= r)%nat -> eps * INR r <= 1 ->
  exists h, elevateAndFit lu svd 0 eps v0 c0 d0 l0 v1 c1 d1 l1 d g r = Some h /\
    shaped 4 (deg + 1) h /\ consistent 4 (deg + 1) h /\
    forall u v, 0 <= u <= 1 -> 0 <= v <= 1 -> gbSurfaceEval eps d h (at4 u v) = gbSurfaceEval eps d g (at4 u v).
Proof.
  intros deg g d eps v0 c0 d0 l0 v1 c1 d1 l1 r H3 Sh Co Hdom Hd Lsq He Hr Her.
  destruct (PropsGB2.C52_values 4 deg g v0 c0 d0 l0 ltac:(lia) ltac:(lia) Sh Co Hdom) as (g' & El & _ & _ & Val & _).
  destruct (companion deg g v0 c0 d0 l0 g' H3 Sh Co Hdom El) as (Sh' & Co' & Dm' & h & Kh & Th).
  set (P := fun jk : nat * nat => at4 (1 - INR (snd jk) / INR r) (INR (fst jk) / INR r)).
  set (L := flat_map (fun j => map (fun k => (j, k)) (seq 0 (r + 1))) (seq 0 (r + 1))).
  assert (InL : forall j k, In (j, k) L <-> (j <= r)%nat /\ (k <= r)%nat).
  { intros j k. unfold L. rewrite in_flat_map. setoid_rewrite in_map_iff. split.
    - intros (x & Hx & y & E & Hy). injection E as -> ->. apply in_seq in Hx. apply in_seq in Hy. lia.
    - intros (A & B). exists j. split; [apply in_seq; lia|]. exists k. split; [reflexivity|apply in_seq; lia]. }
  assert (Cj : forall k, (k <= r)%nat -> 1 - INR k / INR r = INR (r - k) / INR r) by (intros k Hk; rewrite minus_INR by exact Hk; field; apply not_0_INR; lia).
  assert (Ps : parametersImpl (d_n d) (d_center d) (d_verts d) r = Some (map P L)).
  { rewrite (d_n_eq pzero unit4 d Hd), (d_verts_eq pzero unit4 d Hd). change (params4 unit4 r = Some (map P L)). rewrite params4_closed by (reflexivity || lia).
    apply (f_equal Some). unfold L. rewrite flat_map_concat_map, flat_map_concat_map, concat_map, map_map. f_equal. apply map_ext. intros j. rewrite map_map. apply map_ext. intros k.
    unfold pt4, P, at4, vtx. cbn [unit4 nth fst snd]. apply V2_ext; cbn; ring. }
  assert (Reg : forall j k, In (j, k) L -> 0 <= 1 - INR k / INR r <= 1 /\ 0 <= INR j / INR r <= 1 /\ regular_place eps (1 - INR k / INR r) (INR j / INR r)).
  { intros j k I. apply InL in I. rewrite Cj by lia. apply (grid_regular r eps (r - k) j); (assumption || lia). }
  set (T := fun jk : nat * nat => tensor deg (grid deg g) (1 - INR (snd jk) / INR r) (INR (fst jk) / INR r)).
  assert (Ms : mapM (gbSurfaceEval eps d g) (map P L) = Some (map T L)).
  { assert (X : forall l, (forall a, In a l -> In a L) -> mapM (gbSurfaceEval eps d g) (map P l) = Some (map T l)).
    { induction l as [|[j k] l IH]; intros H; [reflexivity|]. cbn [map mapM]. destruct (Reg j k (H _ (or_introl eq_refl))) as (A & B & C).
      change (P (j, k)) with (at4 (1 - INR k / INR r) (INR j / INR r)). rewrite (value4 deg g d eps _ _ H3 Sh Co Hd ltac:(lra) A B C). cbn [bind]. rewrite IH by (intros; apply H; right; assumption). reflexivity. }
    apply X. auto. }
  set (Sd := fun jk : nat * nat => sides4 (1 - INR (snd jk) / INR r) (INR (fst jk) / INR r)).
  assert (Ss : mapM (mapToRibbons (KBary Wachspress) eps d) (map P L) = Some (map Sd L)).
  { assert (X : forall l, (forall a, In a l -> In a L) -> mapM (mapToRibbons (KBary Wachspress) eps d) (map P l) = Some (map Sd l)).
    { induction l as [|[j k] l IH]; intros H; [reflexivity|]. cbn [map mapM]. destruct (Reg j k (H _ (or_introl eq_refl))) as (A & B & C).
      change (P (j, k)) with (at4 (1 - INR k / INR r) (INR j / INR r)). rewrite (bary4 d eps _ _ Hd) by lra. cbn [bind]. rewrite IH by (intros; apply H; right; assumption). reflexivity. }
    apply X. auto. }
  set (samples := combine (map Sd L) (map T L)).
  assert (Sam : forall sds p, In (sds, p) samples <-> exists jk, In jk L /\ sds = Sd jk /\ p = T jk).
  { intros sds p. unfold samples. rewrite <- (map_id L) at 1. clear. induction L as [|a l IH]; cbn; [split; [tauto|intros (? & [] & _)]|]. rewrite IH. split.
    - intros [E|(jk & I & E)]; [injection E as <- <-; exists a; auto|exists jk; tauto].
    - intros (jk & [<-|I] & E1 & E2); [left; congruence|right; exists jk; auto]. }
  assert (At : forall x, shaped 4 (deg + 1) x -> consistent 4 (deg + 1) x -> forall jk, In jk L ->
    gbEval eps x (Sd jk) = Some (tensor (deg + 1) (grid (deg + 1) x) (1 - INR (snd jk) / INR r) (INR (fst jk) / INR r))).
  { intros x Sx Cx [j k] I. destruct (Reg j k I) as (A & B & C). pose proof (value4 (deg + 1) x d eps _ _ ltac:(lia) Sx Cx Hd ltac:(lra) A B C) as V.
    unfold gbSurfaceEval in V. rewrite (bary4 d eps _ _ Hd) in V by lra. exact V. }
  destruct (PropsGBFit.C68_recovers lu svd 4 (deg + 1) 2 g' eps v1 c1 d1 l1 samples h ltac:(lia) ltac:(lia) ltac:(lia) ltac:(lra) Sh' Co' Dm' Lsq) as (x & Ex & Kx & Px & _).
  { intros [sds p] I. apply Sam in I. destruct I as ([j k] & I & -> & ->). apply proper4. apply (Reg j k I). }
  { exact Kh. }
  { intros sds p I. apply Sam in I. destruct I as (jk & I & -> & ->). rewrite (At h (proj1 Kh) (proj1 (proj2 Kh)) jk I). rewrite Th. reflexivity. }
  exists x. split; [unfold elevateAndFit, surfaceMesh; rewrite Ps; cbn [bind]; rewrite Ms; cbn [bind]; rewrite El; cbn [bind pm_points]; rewrite Ss; exact Ex|].
  destruct Kx as (Sx & Cx & _ & Rx). split; [exact Sx|]. split; [exact Cx|].
  assert (Tx : forall u v, tensor (deg + 1) (grid (deg + 1) x) u v = tensor deg (grid deg g) u v).
  { intros u v. rewrite <- (tensor_elevate deg (grid deg g)). apply (tensor_unique (deg + 1) _ _ (map (fun i => INR i / INR r) (seq 0 (r + 1))) (grid_ratios r ltac:(lia))).
    - rewrite map_length, seq_length. lia.
    - intros a b A B. apply in_map_iff in A. apply in_map_iff in B. destruct A as (k & <- & A). destruct B as (j & <- & B). apply in_seq in A. apply in_seq in B.
      assert (I : In (j, (r - k)%nat) L) by (apply InL; lia). pose proof (Px (Sd (j, (r - k)%nat)) (T (j, (r - k)%nat)) (proj2 (Sam _ _) (ex_intro _ _ (conj I (conj eq_refl eq_refl))))) as E.
      rewrite (At x Sx Cx _ I) in E. unfold T in E. cbn [fst snd] in E. rewrite (Cj (r - k)%nat) in E by lia. replace (r - (r - k))%nat with k in E by lia. injection E as E.
      rewrite E. symmetry. apply tensor_elevate. }
  assert (K : forall i, (i < 4)%nat -> gpoint x i 0 0 = gpoint g i 0 0).
  { intros i Hi. unfold gpoint. rewrite Rx by (unfold inRange; lia). rewrite Val by (unfold inRange; lia). unfold PropsGB2.elevatedPoint, PropsGB2.latticePoint. cbv zeta. destruct (Nat.leb_spec (2 * 0 + 1) deg); [|lia]. destruct (Nat.leb_spec (2 * (0 - 1) + 1) deg); [|lia].
    cbn [Nat.sub]. assert (N : INR (deg + 1) <> 0) by (apply not_0_INR; lia). cbn [INR]. apply V3_ext; cbn; field; exact N. }
  intros u v Hu Hv.
  destruct (PropsFour.C87_tensor_corner deg g d eps u v ltac:(lia) Sh Co Hd ltac:(lra) Hu Hv) as (A1 & A2 & A3 & A4).
  destruct (PropsFour.C87_tensor_corner (deg + 1) x d eps u v ltac:(lia) Sx Cx Hd ltac:(lra) Hu Hv) as (B1 & B2 & B3 & B4).
  destruct (Rlt_dec (u + v) eps) as [Q|L1]; [rewrite (A1 Q), (B1 Q), K by lia; reflexivity|].
  destruct (Rlt_dec (1 - u + v) eps) as [Q|L2]; [rewrite (A2 Q), (B2 Q), K by lia; reflexivity|].
  destruct (Rlt_dec (1 - u + (1 - v)) eps) as [Q|L3]; [rewrite (A3 Q), (B3 Q), K by lia; reflexivity|].
  destruct (Rlt_dec (u + (1 - v)) eps) as [Q|L4]; [rewrite (A4 Q), (B4 Q), K by lia; reflexivity|].
  assert (Off : regular_place eps u v) by (left; intros a b [<-|[<-|[]]] [<-|[<-|[]]]; lra).
  rewrite (value4 deg g d eps u v), (value4 (deg + 1) x d eps u v) by (assumption || lia || lra). rewrite Tx. reflexivity.
Qed.
Print Assumptions C89_fit.
End Fit.

(** ** Example: the cubic net of C88_example, with the default resolution of the
    test driver; elevation alone moves the middle from (9, 0, 18) to (135/16, 0,
    135/8), the fit moves it back. *)
Example C89_example : exists d g g1 h, domainFrames pzero unit4 = Some d /\
  setControlPoint (initNetwork vzero (gbNew 0 0 vzero) 4 3) 0 1 1 (mkV3 64 0 128) = Some g /\ gbSetupLoop g = Some g1 /\
  elevateAndFit projectSolver projectSolver 0 (1 / 100) vzero vzero 0 0 vzero vzero 0 0 d g1 15 = Some h /\
  gbSurfaceEval (1 / 100) d h (at4 (1 / 2) (1 / 2)) = Some (mkV3 9 0 18).
Proof.
  destruct (proj1 (proj2 PropsFour.C87_domain)) as [d Hd].
  set (g0 := initNetwork vzero (gbNew 0 0 vzero) 4 3).
  assert (Sh : shaped 4 3 g0) by (apply (init_new vzero (gbNew 0 0 vzero) 4 3); left; cbn; lia).
  assert (Co : consistent 4 3 g0) by (apply (PropsGB.C45_init vzero (gbNew 0 0 vzero) 4 3); left; cbn; lia).
  assert (Rg : inRange 4 3 (0, 1, 1)%nat) by (unfold inRange; lia).
  destruct (set_spec 4 3 g0 0 1 1 (mkV3 64 0 128) Sh Rg) as (g & E & S1 & _). pose proof (set_consistent 4 3 g0 0 1 1 (mkV3 64 0 128) g Sh Rg Co E) as C1.
  set (g1 := mkGB (gb_n g) (gb_deg g) (gb_lay g) (gb_cen g) (gb_nets g) (gb_sq g) (gb_n g)).
  assert (L1 : gbSetupLoop g = Some g1) by (injection E as <-; reflexivity).
  assert (P : forall i j k, gpoint g1 i j k = match controlPoint g i j k with Some p => p | None => vzero end) by reflexivity.
  assert (Dm : gb_dom g1 = 4%nat) by (injection E as <-; reflexivity).
  destruct (C89_fit projectSolver projectSolver 3 g1 d (1 / 100) vzero vzero 0 0 vzero vzero 0 0 15 ltac:(lia) S1 C1 Dm Hd project_least_squares ltac:(lra) ltac:(lia) ltac:(simpl; lra)) as (h & Eh & _ & _ & Vh).
  exists d, g, g1, h. split; [exact Hd|]. split; [exact E|]. split; [exact L1|]. split; [exact Eh|].
  rewrite Vh by lra. rewrite (PropsFour.C87_tensor 3 g1 d (1 / 100) (1 / 2) (1 / 2)); [|lia|exact S1|exact C1|exact Hd|lra|lra|lra|intros x y [<-|[<-|[]]] [<-|[<-|[]]]; lra].
  apply (f_equal Some). unfold tensor, bezier, grid. cbn [vsum Nat.add Nat.mul Nat.sub Nat.ltb Nat.leb]. rewrite !P. injection E as <-.
  destruct (SurfaceC0.bern_cubic (1 / 2)) as (-> & -> & -> & ->). unfold controlPoint, get3. simpl. v3field.
Qed.
