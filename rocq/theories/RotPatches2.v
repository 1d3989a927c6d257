(** Counting the sides from another one: C0 Coons, super-D, polar and elastic
    patches, and the disc. *)
From Coq Require Import FunctionalExtensionality.
From Verif Require Import Base MeshModel GeomSpec UtilModel UtilSpec UtilProofs DomainModel DomainProofs ParamModel RibbonModel SurfaceModel SurfaceEval.
From Verif Require Import FEMSpec ElasticModel ElasticProofs PropsElastic PolarModel PolarPatchModel SuperDModel.
From Verif Require Import RotSpec RotProofs RotParam RotMotion.
Open Scope R_scope.

(** ** C0 Coons patches *)
Lemma coonsRibbon_rot : forall cs i, (i < length cs)%nat -> coonsRibbon (rot cs) i = coonsRibbon cs (nxt (length cs) i).
Proof.
  intros cs i Hi. unfold coonsRibbon. rewrite rot_length. remember (length cs) as n eqn:L. symmetry in L.
  assert (Hx : (nxt n i < n)%nat) by (apply nxt_lt; lia). assert (Hp : (prv n i < n)%nat) by (apply prv_lt; lia).
  rewrite !(rot_nth _ cs n) by (try assumption; try (apply prv_lt; lia); apply nxt_lt; lia).
  rewrite (nxt_prv n (prv n i) Hp), (nxt_prv n i Hi), (prv_nxt n i Hi).
  replace (nxt n (nxt n (nxt n i)) =? i)%nat with (nxt n (nxt n i) =? prv n i)%nat; [reflexivity|].
  rewrite <- (eqb_nxt n (nxt n (nxt n i)) (prv n i)) by (try assumption; apply nxt_lt; lia). rewrite (nxt_prv n i Hi). reflexivity.
Qed.
Lemma coonsRibbons_rot : forall cs, mapM (coonsRibbon (rot cs)) (seq 0 (length (rot cs))) = option_map rot (mapM (coonsRibbon cs) (seq 0 (length cs))).
Proof. intros cs. rewrite rot_length. apply mapM_rot. intros i Hi. apply coonsRibbon_rot. exact Hi. Qed.

(** ** Super-D patches *)
Section SD.
Variables (p : superd).
Hypothesis Lf : length (su_f p) = su_n p.
Hypothesis Le : length (su_e p) = su_n p.
Let n := su_n p.
Lemma sdBase_rot : forall i, (i < n)%nat -> sdBase (rotSD p) i = sdBase p (nxt n i).
Proof. intros i Hi. unfold sdBase. cbn [rotSD su_n su_f su_e su_full]. fold n. rot_idx n i Hi. reflexivity. Qed.
Lemma sdMid_rot : forall i, (i < n)%nat -> sdMid (rotSD p) i = sdMid p (nxt n i).
Proof. intros i Hi. unfold sdMid. cbn [rotSD su_n su_e su_v su_full]. fold n. rot_idx n i Hi. reflexivity. Qed.
Lemma sdOpp_rot : forall i, (i < n)%nat -> sdOpp (rotSD p) i = sdOpp p (nxt n i).
Proof.
  intros i Hi. unfold sdOpp. cbn [rotSD su_n su_f]. fold n. fold (rotSD p). destruct (n =? 3)%nat.
  - rot_idx n i Hi. reflexivity.
  - destruct (n =? 4)%nat; [|reflexivity]. rewrite sdBase_rot by (apply nxt_lt; lia). reflexivity.
Qed.
Lemma sdRibbon_rot : forall i, (i < n)%nat -> sdRibbon (rotSD p) i = sdRibbon p (nxt n i).
Proof.
  intros i Hi. unfold sdRibbon. rewrite sdBase_rot by exact Hi. cbn [rotSD su_n su_full]. fold n. fold (rotSD p). apply bind_cong; intros b _. destruct (4 <? n)%nat.
  - rewrite !sdBase_rot by (try apply prv_lt; try apply nxt_lt; lia). rewrite (nxt_prv n i Hi), (prv_nxt n i Hi). reflexivity.
  - rewrite sdMid_rot, sdOpp_rot by exact Hi. reflexivity.
Qed.
Lemma sdUpdate_rot : sdUpdateRibbons (rotSD p) = option_map rotSD (sdUpdateRibbons p).
Proof.
  unfold sdUpdateRibbons. cbn [rotSD su_n]. fold n. fold (rotSD p). rewrite (mapM_rot _ n (sdRibbon p)) by (intros i Hi; apply sdRibbon_rot; exact Hi).
  rewrite bind_map_some, map_bind_out. apply bind_cong; intros q _. reflexivity.
Qed.
End SD.
Definition sdSum (eps : R) (p : superd) (sds : list V2) : option V3 :=
  blends <- blendSideSingular eps sds ;;
  osum (su_n p) (fun i => q <- nth_error (su_q p) i ;; sd <- nth_error sds i ;; b <- nth_error blends i ;; x <- sdBezier q (px sd) (py sd) ;; Some (x *v b)).
Lemma sdSum_rot : forall eps p sds, length (su_q p) = su_n p -> length sds = su_n p -> sdSum eps (rotSD p) (rot sds) = sdSum eps p sds.
Proof.
  intros eps p sds Lq Ls. unfold sdSum. rewrite sideSingular_rot, bind_map_some. apply bind_cong; intros b B. apply singular_length in B. rewrite Ls in B. cbn [rotSD su_n su_q].
  apply osum_rot. intros i Hi. rot_idx (su_n p) i Hi. reflexivity.
Qed.

(** ** Polar patches *)
Section PolarRot.
Variable d : dom.
Hypothesis Fu : full d.
Let n := d_n d.
Hypothesis H2 : (2 <= n)%nat.
Let Lv : length (d_verts d) = n. Proof. apply Fu. Qed.
Variable eps : R.
Hypothesis On : forall uv, one_near MeanValue eps (d_verts d) uv.
Notation d' := (rotDom d).

Lemma ray_rot : forall i p v, (i < n)%nat -> intersectEdgeWithRay eps d' i p v = intersectEdgeWithRay eps d (nxt n i) p v.
Proof. intros i p v Hi. unfold intersectEdgeWithRay. cbn [rotDom d_n d_verts]. fold n. rot_idx n i Hi. reflexivity. Qed.
Lemma firstHit_rot : forall js p v, (forall j, In j js -> (j < n)%nat) -> firstHit eps d' p v js = firstHit eps d p v (map (nxt n) js).
Proof.
  intros js p v; induction js as [|j js IH]; intros H; [reflexivity|]. cbn [firstHit map]. rewrite ray_rot by (apply H; left; reflexivity). apply bind_cong; intros [q|] _; [reflexivity|]. apply IH. intros; apply H; right; assumption.
Qed.
Lemma farSides_rot : forall i, (i < n)%nat -> map (nxt n) (farSides n i) = farSides n (nxt n i).
Proof.
  intros i Hi. unfold farSides. rewrite map_map. apply map_ext. intros k. rewrite <- !Nat.add_assoc. apply (nxt_plus d Fu). exact Hi.
Qed.
Lemma edgePoint_rot : forall i s, (i < n)%nat -> ParamModel.edgePoint d' i s = ParamModel.edgePoint d (nxt n i) s.
Proof. intros i s Hi. unfold ParamModel.edgePoint. cbn [rotDom d_n d_verts]. fold n. rot_idx n i Hi. reflexivity. Qed.
Lemma sweep_rot : forall i psi, (i < n)%nat -> sweepDir eps d' i psi = sweepDir eps d (nxt n i) psi.
Proof.
  intros i psi Hi. unfold sweepDir. rewrite (angle_rot d Fu) by exact Hi. cbn [rotDom d_n d_verts]. fold n. rot_idx n i Hi. reflexivity.
Qed.
Lemma polarBisect_ext : forall f g p q t k lo hi cur, (forall x, f x = g x) -> polarBisect f p q t lo hi cur k = polarBisect g p q t lo hi cur k.
Proof. intros f g p q t k; induction k as [|k IH]; intros lo hi cur H; [reflexivity|]. cbn [polarBisect]. rewrite H. apply bind_cong; intros x _. destruct (Rlt_dec t x); apply IH; exact H. Qed.
Lemma inverse_rot : forall i pd, (i < n)%nat -> polarInverse eps d' i pd = polarInverse eps d (nxt n i) pd.
Proof.
  intros i pd Hi. assert (Hx : (nxt n i < n)%nat) by (apply nxt_lt; lia). unfold polarInverse, polarInverseSteps. cbn [rotDom d_n d_verts]. fold n. fold (rotDom d). rewrite !edgePoint_rot by assumption.
  destruct (Rlt_dec (px pd) eps); [reflexivity|]. destruct (Rlt_dec (1 - eps) (px pd)); [reflexivity|]. rewrite sweep_rot by exact Hi. apply bind_cong; intros dir _.
  rot_idx n i Hi. apply bind_cong; intros p _. rewrite firstHit_rot, farSides_rot by (try exact Hi; intros j J; unfold farSides in J; apply in_map_iff in J; destruct J as (k & <- & _); apply Nat.mod_upper_bound; lia).
  apply bind_cong; intros q _. apply bind_cong; intros q' _. apply polarBisect_ext. intros uv. rewrite (polar_rot d Fu) by (try exact Hi; try exact H2; apply On). reflexivity.
Qed.
Section Patch.
Variable solve : nat -> (nat -> nat -> R) -> (nat -> V3) -> nat -> V3.
Variables (m : nat) (sf : surf).
Hypothesis En : sf_n sf = n.
Hypothesis Lr : length (sf_ribbons sf) = n.
Lemma polarRibbon_rot : forall i pd, (i < n)%nat -> polarRibbon solve m eps d' (rotSurf sf) i pd = polarRibbon solve m eps d sf (nxt n i) pd.
Proof.
  intros i pd Hi. assert (Hx : (nxt n i < n)%nat) by (apply nxt_lt; lia). unfold polarRibbon. cbn [rotSurf sf_n sf_ribbons]. rewrite En. rewrite !(edgeLength_rot d Fu) by assumption. cbn [rotDom d_verts]. fold (rotDom d). rot_idx n i Hi.
  rewrite (functional_extensionality (polarInverse eps d' i) (polarInverse eps d (nxt n i)) (fun q => inverse_rot i q Hi)). reflexivity.
Qed.
Lemma polarEval_rot : forall uv, polarEval solve m eps d' (rotSurf sf) uv = polarEval solve m eps d sf uv.
Proof.
  intros uv. unfold polarEval. cbn [rotDom d_n rotSurf sf_n]. fold n. fold (rotDom d). rewrite En.
  rewrite (mapM_rot _ n (fun i => polarMap eps d i uv)) by (intros i Hi; apply (polar_rot d Fu); [exact H2|apply On|exact Hi]).
  rewrite bind_map_some. apply bind_cong. intros pds E. apply mapM_length in E. rewrite seq_length in E.
  rewrite (osum_rot n (fun i => pd <- nth_error pds i ;; r <- polarRibbon solve m eps d sf i pd ;; Some (r *v (py pd ^ 2)))).
  - apply bind_cong; intros q _. f_equal.
    assert (Q : exists g, forall i, (i < n)%nat -> nth_error pds i = Some (g i)) by (exists (fun i => nth i pds pzero); intros i Hi; apply nth_error_nth'; lia). destruct Q as (g & G).
    rewrite (orsum_total n (fun i => pd <- nth_error pds i ;; Some (py pd ^ 2)) (fun i => py (g i) ^ 2)) by (intros i Hi; rewrite G by exact Hi; reflexivity).
    rewrite (orsum_total n _ (fun i => py (g (nxt n i)) ^ 2)) by (intros i Hi; rewrite (rot_nth _ pds n i E Hi), G by (apply nxt_lt; lia); reflexivity).
    f_equal. apply (rsum_nxt n (fun i => py (g i) ^ 2)).
  - intros i Hi. rot_idx n i Hi. apply bind_cong; intros pd _. fold (rotSurf sf). rewrite polarRibbon_rot by exact Hi. reflexivity.
Qed.
End Patch.
End PolarRot.

(** ** Elastic patches *)
Section Elastic.
Variable solve : nat -> (nat -> nat -> R) -> (nat -> V3) -> nat -> V3.
Hypothesis HS : exact_solver solve.
Variables (c s : R) (t : V2).
Hypothesis Un : c * c + s * s = 1.
Notation M := (turned c s t).
Variables (tol eps : R) (d : dom) (sf : surf) (uv : V2) (foot : nat -> V2) (P T : nat -> V3).
Hypothesis Ht : 0 < tol.
Hypothesis Fu : full d.
Let n := d_n d.
Hypothesis H2 : (2 <= n)%nat.
Hypothesis En : sf_n sf = n.
Hypothesis Lr : length (sf_ribbons sf) = n.
Hypothesis Fe : feet eps d sf uv foot P T.
Hypothesis Far : forall i, (i < n)%nat -> tol <= pnorm (uv -p foot i).
Hypothesis Sp : spanning n uv foot.
Let foot' i := M (foot (nxt n i)).
Let P' i := P (nxt n i).
Let T' i := T (nxt n i).
Notation d' := (moveDom c s t (rotDom d)).

Lemma feet_move : feet eps d' (rotSurf sf) (M uv) foot' P' T'.
Proof.
  destruct Fe as (sds & E & F). assert (Ls : length sds = n) by (apply mapM_length in E; rewrite seq_length in E; exact E).
  exists (rot sds). split.
  - rewrite (ribbons_move c s t Un). rewrite (ribbons_rot d Fu) by (try discriminate; try exact H2; exact I). rewrite E. reflexivity.
  - cbn [rotSurf sf_n sf_ribbons moveDom rotDom d_verts]. rewrite En. intros i Hi.
    assert (Hx : (nxt n i < n)%nat) by (apply nxt_lt; lia).
    destruct (F (nxt n i) ltac:(rewrite En; exact Hx)) as (sd & a & b & r & A1 & A2 & A3 & A4 & A5). rewrite En in A2. rewrite (prv_nxt n i Hi) in A2.
    exists sd, (M a), (M b), r. rewrite !nth_error_map.
    destruct Fu as (Lv & _). fold n in Lv. rewrite !(rot_nth _ (d_verts d) n) by (try exact Lv; try exact Hi; apply prv_lt; lia). rewrite (nxt_prv n i Hi), A2, A3.
    rewrite (rot_nth _ sds n i Ls Hi), (rot_nth _ (sf_ribbons sf) n i Lr Hi), A1, A4. do 4 (split; [reflexivity|]).
    cbv zeta in A5 |- *. destruct A5 as (B1 & B2 & B3). unfold foot', P', T'. split; [|split; assumption]. rewrite B1. unfold turned. apply V2_ext; simpl; ring.
Qed.
Lemma move_cross : forall i j, pcross (M uv -p foot' i) (M uv -p foot' j) = pcross (uv -p foot (nxt n i)) (uv -p foot (nxt n j)).
Proof. intros i j. unfold foot'. rewrite !T_sub. apply (lin_cross c s Un). Qed.
Lemma move_total : forall q Ku Kv, total n (M uv) foot' P' T' q Ku Kv = total n uv foot P T q (Ku *v c +v Kv *v s) (Kv *v c -v Ku *v s).
Proof.
  intros q Ku Kv. unfold total. etransitivity; [|apply rsum_nxt].
  apply rsum_ext. intros i Hi. cbv zeta. unfold foot', P', T'. rewrite T_sub, (lin_norm c s Un). f_equal. unfold lin. simpl px. simpl py. set (L := pnorm _). unfold Rdiv. apply V3_ext; simpl; ring.
Qed.
Lemma elastic_rot : elasticSurfaceEval solve tol eps d' (rotSurf sf) (M uv) = elasticSurfaceEval solve tol eps d sf uv.
Proof.
  pose proof (minimum solve HS tol eps d sf uv foot P T Ht Fe) as A. rewrite En in A. destruct (A Far Sp) as (p & Ju & Jv & Ep & Mp).
  pose proof (minimum solve HS tol eps d' (rotSurf sf) (M uv) foot' P' T' Ht feet_move) as B. cbn [rotSurf sf_n] in B. rewrite En in B.
  destruct B as (p' & Ju' & Jv' & Ep' & Mp').
  - intros i Hi. unfold foot'. rewrite T_sub, (lin_norm c s Un). apply Far. apply nxt_lt. lia.
  - destruct Sp as (i & j & Hi & Hj & X). exists (prv n i), (prv n j). repeat split; try (apply prv_lt; lia). rewrite move_cross, !nxt_prv by assumption. exact X.
  - fold (rotSurf sf) in Ep'. rewrite Ep, Ep'. f_equal. destruct (Mp p' (Ju' *v c +v Jv' *v s) (Jv' *v c -v Ju' *v s)) as (L1 & U1). rewrite <- move_total in L1, U1.
    destruct (Mp' p (Ju *v c -v Jv *v s) (Ju *v s +v Jv *v c)) as (L2 & _). rewrite (move_total p) in L2.
    replace ((Ju *v c -v Jv *v s) *v c +v (Ju *v s +v Jv *v c) *v s) with Ju in L2 by (apply V3_ext; simpl; [transitivity (vx Ju * (c * c + s * s))|transitivity (vy Ju * (c * c + s * s))|transitivity (vz Ju * (c * c + s * s))]; (rewrite Un; ring) || ring).
    replace ((Ju *v s +v Jv *v c) *v c -v (Ju *v c -v Jv *v s) *v s) with Jv in L2 by (apply V3_ext; simpl; [transitivity (vx Jv * (c * c + s * s))|transitivity (vy Jv * (c * c + s * s))|transitivity (vz Jv * (c * c + s * s))]; (rewrite Un; ring) || ring).
    apply U1. lra.
Qed.
End Elastic.

(** ** Polar patches on a moved domain *)
Section PolarMove.
Variables (c s : R) (t : V2).
Hypothesis Un : c * c + s * s = 1.
Notation T := (turned c s t).
Notation lin := (lin c s).
Variables (eps : R) (d : dom).
Notation d' := (moveDom c s t d).
Lemma T_combine : forall p q x, T p *p (1 - x) +p T q *p x = T (p *p (1 - x) +p q *p x).
Proof. intros p q x. unfold turned. apply V2_ext; simpl; ring. Qed.
Lemma ray_move : forall i p v, intersectEdgeWithRay eps d' i (T p) (lin v) = option_map (option_map T) (intersectEdgeWithRay eps d i p v).
Proof.
  intros i p v. unfold intersectEdgeWithRay. cbn [moveDom d_n d_verts]. rewrite !nth_error_map.
  destruct (nth_error (d_verts d) (prv (d_n d) i)) as [q1|]; [cbn [option_map bind]|reflexivity]. destruct (nth_error (d_verts d) i) as [q2|]; [cbn [option_map bind]|reflexivity].
  replace (px (lin v) * (py (T q2) - py (T q1)) - py (lin v) * (px (T q2) - px (T q1))) with (px v * (py q2 - py q1) - py v * (px q2 - px q1)).
  2:{ unfold turned, RotMotion.lin; simpl. transitivity ((c * c + s * s) * (px v * (py q2 - py q1) - py v * (px q2 - px q1))); [rewrite Un; ring|ring]. }
  replace (px (lin v) * (py (T p) - py (T q1)) - py (lin v) * (px (T p) - px (T q1))) with (px v * (py p - py q1) - py v * (px p - px q1)).
  2:{ unfold turned, RotMotion.lin; simpl. transitivity ((c * c + s * s) * (px v * (py p - py q1) - py v * (px p - px q1))); [rewrite Un; ring|ring]. }
  destruct (Rlt_dec (Rabs _) eps); [reflexivity|]. destruct (fdiv _ _) as [x|]; [cbn [bind]|reflexivity].
  destruct (Rlt_dec x (- eps)); [reflexivity|]. destruct (Rlt_dec (1 + eps) x); [reflexivity|]. cbn [option_map]. rewrite T_combine. reflexivity.
Qed.
Lemma firstHit_move : forall js p v, firstHit eps d' (T p) (lin v) js = option_map (option_map T) (firstHit eps d p v js).
Proof.
  intros js p v; induction js as [|j js IH]; [reflexivity|]. cbn [firstHit]. rewrite ray_move. destruct (intersectEdgeWithRay eps d j p v) as [[q|]|]; [reflexivity|exact IH|reflexivity].
Qed.
Lemma edgePoint_move : forall i x, ParamModel.edgePoint d' i x = option_map T (ParamModel.edgePoint d i x).
Proof.
  intros i x. unfold ParamModel.edgePoint. cbn [moveDom d_n d_verts]. rewrite !nth_error_map.
  destruct (nth_error (d_verts d) i) as [q1|]; [cbn [option_map bind]|reflexivity]. destruct (nth_error (d_verts d) (prv (d_n d) i)) as [q2|]; [cbn [option_map bind]|reflexivity].
  f_equal. unfold turned. apply V2_ext; simpl; ring.
Qed.
Lemma sweep_move : forall i psi, sweepDir eps d' i psi = option_map lin (sweepDir eps d i psi).
Proof.
  intros i psi. unfold sweepDir. rewrite (angle_move c s t Un). cbn [moveDom d_n d_verts]. rewrite !nth_error_map.
  destruct (nth_error (d_verts d) (prv (d_n d) i)) as [a|]; [cbn [option_map bind]|reflexivity]. destruct (nth_error (d_verts d) i) as [b|]; [cbn [option_map bind]|reflexivity].
  destruct (nth_error (d_verts d) (nxt (d_n d) i)) as [e|]; [cbn [option_map bind]|reflexivity]. rewrite !T_sub, !(lin_normalize c s Un).
  destruct (pnormalize (a -p b)) as [v1|]; [cbn [option_map bind]|reflexivity]. destruct (pnormalize (e -p b)) as [v2|]; [cbn [option_map bind]|reflexivity].
  destruct (angle d i) as [al|]; [cbn [option_map bind]|reflexivity]. cbv zeta. rewrite lin_turn, (lin_dot c s Un). f_equal.
  destruct (Rlt_dec _ _); rewrite ?lin_opp, !lin_scale, lin_add; reflexivity.
Qed.
Lemma bisect_move : forall f g p q x k lo hi cur, (forall u, f (T u) = g u) -> polarBisect f (T p) (T q) x lo hi (T cur) k = option_map T (polarBisect g p q x lo hi cur k).
Proof.
  intros f g p q x k; induction k as [|k IH]; intros lo hi cur H; [reflexivity|]. cbn [polarBisect]. cbv zeta. rewrite T_combine, H.
  destruct (g _) as [y|]; [cbn [bind]|reflexivity]. destruct (Rlt_dec x y); apply IH; exact H.
Qed.
Lemma inverse_move : forall i pd, polarInverse eps d' i pd = option_map T (polarInverse eps d i pd).
Proof.
  intros i pd. unfold polarInverse, polarInverseSteps. rewrite !edgePoint_move, sweep_move. cbn [moveDom d_n d_verts]. fold (moveDom c s t d). cbv zeta. destruct (Rlt_dec (px pd) eps); [reflexivity|]. destruct (Rlt_dec (1 - eps) (px pd)); [reflexivity|].
  destruct (sweepDir eps d i (px pd)) as [v|]; [cbn [option_map bind]|reflexivity]. rewrite nth_error_map. destruct (nth_error (d_verts d) i) as [p|]; [cbn [option_map bind]|reflexivity].
  rewrite firstHit_move. destruct (firstHit eps d p v _) as [[q|]|]; cbn [option_map bind]; [|reflexivity|reflexivity].
  apply bisect_move. intros u. rewrite (polar_move c s t Un). reflexivity.
Qed.
Section Patch.
Variable solve : nat -> (nat -> nat -> R) -> (nat -> V3) -> nat -> V3.
Lemma sample_move : forall inv cl cr psi p l deg crv lft rgt j, polarSample (fun q => option_map T (inv q)) cl cr psi (T p) l deg crv lft rgt j = polarSample inv cl cr psi p l deg crv lft rgt j.
Proof.
  intros. unfold polarSample. cbv zeta. destruct (inv _) as [q|]; [cbn [option_map bind]|reflexivity]. rewrite T_sub, (lin_norm c s Un). reflexivity.
Qed.
Lemma round_move : forall inv cl cr psi p l st deg, polarRound solve (fun q => option_map T (inv q)) cl cr psi (T p) l st deg = polarRound solve inv cl cr psi p l st deg.
Proof.
  intros inv cl cr psi p l [[crv lft] rgt] deg. unfold polarRound. do 3 (apply bind_cong; intros ? _).
  erewrite mapM_ext; [reflexivity|]. intros j _. apply sample_move.
Qed.
Lemma base_move : forall inv cl cr psi p l1 l2, polarBase (fun q => option_map T (inv q)) cl cr psi (T p) l1 l2 = polarBase inv cl cr psi p l1 l2.
Proof.
  intros. unfold polarBase. cbv zeta. do 2 (apply bind_cong; intros ? _). destruct (inv _) as [q|]; [cbn [option_map bind]|reflexivity]. rewrite T_sub, (lin_norm c s Un). reflexivity.
Qed.
Lemma polarRibbon_move : forall m sf i pd, polarRibbon solve m eps d' sf i pd = polarRibbon solve m eps d sf i pd.
Proof.
  intros m sf i pd. unfold polarRibbon. do 2 (apply bind_cong; intros ? _). rewrite !(edgeLength_move c s t Un). do 2 (apply bind_cong; intros ? _).
  cbn [moveDom d_verts]. fold (moveDom c s t d). rewrite nth_error_map, bind_some_map. apply bind_cong; intros p _.
  rewrite (functional_extensionality (polarInverse eps d' i) (fun q => option_map T (polarInverse eps d i q)) (inverse_move i)).
  rewrite base_move. apply bind_cong; intros [[[[P Q] P1] P2] l] _.
  erewrite foldM_ext; [reflexivity|]. intros; apply round_move.
Qed.
Lemma polarEval_move : forall m sf uv, polarEval solve m eps d' sf (T uv) = polarEval solve m eps d sf uv.
Proof.
  intros m sf uv. unfold polarEval. cbn [moveDom d_n]. fold (moveDom c s t d).
  rewrite (mapM_ext (fun i => polarMap eps d' i (T uv)) (fun i => polarMap eps d i uv)) by (intros i _; apply (polar_move c s t Un)).
  apply bind_cong; intros pds _.
  rewrite (osum_ext (sf_n sf) _ (fun i => pd <- nth_error pds i ;; r <- polarRibbon solve m eps d sf i pd ;; Some (r *v (py pd ^ 2)))); [reflexivity|].
  intros i Hi. apply bind_cong; intros pd _. rewrite polarRibbon_move. reflexivity.
Qed.
End Patch.
End PolarMove.
