(** Barycentric and constrained barycentric coordinates of boundary points of
    the regular domain. *)

From Verif Require Import Base MeshModel GeomSpec DomainModel UtilModel ParamModel.
From Verif Require Import DomainProofs DomainPolygons UtilProofs ParamBary ParamMaps ParamRegular ParamSide.
From Verif Require Import RibbonModel SurfaceModel SurfaceSpec BlendProofs ParamTame ParamFar.
Open Scope R_scope.

Lemma sin_between : forall u v, 0 < pnorm u -> 0 < pnorm v ->
  exists a b, pnormalize u = Some a /\ pnormalize v = Some b /\
    sin (acos (clamp (pdot a b) (-1) 1)) = Rabs (pcross u v) / (pnorm u * pnorm v).
Proof.
  intros u v Pu Pv. unfold pnormalize. rewrite !pdiv_some by lra. eexists; eexists. split; [reflexivity|]. split; [reflexivity|].
  set (x := pdot _ _).
  assert (Ex : x = pdot u v / (pnorm u * pnorm v)) by (unfold x, pdot; simpl; field; lra).
  assert (Q : pdot u v * pdot u v + pcross u v * pcross u v = (pnorm u * pnorm v) * (pnorm u * pnorm v)).
  { replace ((pnorm u * pnorm v) * (pnorm u * pnorm v)) with ((pnorm u * pnorm u) * (pnorm v * pnorm v)) by ring.
    rewrite !pnorm_sqr. unfold pdot, pcross; ring. }
  set (N := pnorm u * pnorm v) in *. assert (PN : 0 < N) by (apply Rmult_lt_0_compat; assumption).
  assert (E2 : 1 - x * x = (pcross u v / N) * (pcross u v / N)).
  { rewrite Ex. apply (Rmult_eq_reg_r (N * N)); [|nra]. field_simplify; [|lra|lra]. nra. }
  assert (Rx : -1 <= x <= 1) by nra. rewrite clamp_id by lra. rewrite sin_acos by exact Rx. unfold Rsqr. rewrite E2.
  change (sqrt ((pcross u v / N) * (pcross u v / N))) with (sqrt (Rsqr (pcross u v / N))). rewrite sqrt_Rsqr_abs.
  unfold Rdiv. rewrite Rabs_mult. f_equal. apply Rabs_pos_eq. left. apply Rinv_0_lt_compat. exact PN.
Qed.

(** The weights of parameterization-constrained-barycentric.cc. *)
Lemma singular_four : forall eps a b x y, 0 < eps -> exists b0 b1 b2 b3,
  singularBlend eps [a; b; x; y] = Some [b0; b1; b2; b3] /\ 0 <= b0 /\ 0 <= b1 /\ 0 <= b2 /\ 0 <= b3 /\ b0 + b1 + b2 + b3 = 1 /\
  (a < eps \/ b < eps \/ x < eps \/ y < eps ->
     (eps <= a -> b0 = 0) /\ (eps <= b -> b1 = 0) /\ (eps <= x -> b2 = 0) /\ (eps <= y -> b3 = 0)).
Proof.
  intros eps a b x y He. unfold singularBlend. cbn [filter].
  destruct (Rlt_dec a eps) as [A|A]; destruct (Rlt_dec b eps) as [B|B]; destruct (Rlt_dec x eps) as [X|X]; destruct (Rlt_dec y eps) as [Y|Y];
    cbn [length Nat.ltb Nat.leb]; try (rewrite fdiv_some by (simpl; lra); cbn [bind map];
      destruct (Rlt_dec a eps); try lra; destruct (Rlt_dec b eps); try lra; destruct (Rlt_dec x eps); try lra; destruct (Rlt_dec y eps); try lra;
      do 4 eexists; split; [reflexivity|]; simpl INR; repeat split; intros; try lra; field).
  assert (Q : forall t, eps <= t -> 0 < 1 / t ^ 2) by (intros t T; apply Rdiv_lt_0_compat; [lra|apply pow_lt; lra]).
  pose proof (Q a ltac:(lra)) as Qa. pose proof (Q b ltac:(lra)) as Qb. pose proof (Q x ltac:(lra)) as Qx. pose proof (Q y ltac:(lra)) as Qy.
  cbn [mapM]. rewrite !fdiv_some by (apply pow_nonzero; lra). cbn [bind].
  set (fa := 1 / a ^ 2) in *. set (fb := 1 / b ^ 2) in *. set (fx := 1 / x ^ 2) in *. set (fy := 1 / y ^ 2) in *.
  assert (S : accumulate [fa; fb; fx; fy] = fa + fb + fx + fy) by (unfold accumulate; simpl; ring). rewrite S.
  cbn [mapM]. rewrite !fdiv_some by lra. cbn [bind]. do 4 eexists; split; [reflexivity|].
  assert (P : forall t, 0 < t -> 0 <= t / (fa + fb + fx + fy)) by (intros t T; apply Rmult_le_pos; [lra|left; apply Rinv_0_lt_compat; lra]).
  repeat split; auto; try lra. field. lra.
Qed.

Section Reg.
Variables (m : nat) (vs : list V2) (d : dom).
Hypothesis H3 : (3 <= m)%nat.
Hypothesis Hv : regularVertices m = Some vs.
Hypothesis Hd : domainFrames pzero vs = Some d.
Let h : R := sin (2 * PI / INR m).
Let w : R := sin (PI / INR m).
Let Lv : length vs = m := proj1 (reg_facts m vs H3 Hv).
Let Cv : strictly_convex vs := proj1 (proj2 (reg_facts m vs H3 Hv)).
Let Iv : inside vs pzero := proj2 (proj2 (reg_facts m vs H3 Hv)).
Let Q3 : (3 <= length vs)%nat. Proof. rewrite Lv; exact H3. Qed.

Lemma side_len : forall i, (i < m)%nat -> 2 * w <= pnorm (sidevec vs i).
Proof.
  intros i Hi. pose proof (w_pos m vs H3 Hv) as Pw. fold w in Pw.
  assert (E : pnorm (sidevec vs i) * pnorm (sidevec vs i) = len2 vs i) by (rewrite pnorm_sqr; reflexivity).
  assert (L : 4 * w * w <= len2 vs i).
  { destruct (Nat.eq_dec m 4) as [E4|H4].
    - assert (W : w * w <= 1). { assert (w <= 1) by apply SIN_bound. nra. }
      enough (len2 vs i = 4) by lra. clear - E4 Hv Hi. subst m. unfold regularVertices in Hv. simpl in Hv. injection Hv as <-.
      unfold len2, sidevec, pnorm2, pdot, vtx. destruct i as [|[|[|[|i]]]]; [| | | |lia];
        cbn [length prv nxt Nat.add Nat.sub Nat.modulo Nat.divmod nth fst snd px py padd psub pscale]; simpl; ring.
    - rewrite (len2_circ m vs H3 H4 Hv i Hi). rewrite <- (w_half m vs H3 Hv). fold w. lra. }
  assert (P0 : 0 <= pnorm (sidevec vs i)) by apply sqrt_pos. nra.
Qed.

Lemma angle_regular : forall i a, (i < m)%nat -> angle d i = Some a -> sin a = h.
Proof.
  intros i a Hi E. unfold angle in E. rewrite (d_n_eq pzero vs d Hd), Lv in E.
  assert (Lp : (prv m i < m)%nat) by (apply prv_lt; lia). assert (Lx : (nxt m i < m)%nat) by (apply nxt_lt; lia).
  assert (V : forall k, (k < m)%nat -> nth_error (d_verts d) k = Some (vtx vs k)) by (intros k Hk; apply (verts_nth pzero vs d Hd); rewrite Lv; exact Hk).
  rewrite !V in E by assumption. cbn [bind] in E.
  assert (N1 : pnorm (vtx vs (prv m i) -p vtx vs i) = pnorm (sidevec vs i)).
  { unfold pnorm, sidevec. rewrite Lv. f_equal. unfold pdot; simpl; ring. }
  assert (N2 : pnorm (vtx vs (nxt m i) -p vtx vs i) = pnorm (sidevec vs (nxt m i))).
  { unfold sidevec. rewrite Lv, (prv_nxt m i Hi). reflexivity. }
  assert (P1 : 0 < pnorm (sidevec vs i)) by (apply sidelen_pos; rewrite ?Lv; assumption).
  assert (P2 : 0 < pnorm (sidevec vs (nxt m i))) by (apply sidelen_pos; rewrite ?Lv; assumption).
  assert (LL : pnorm (sidevec vs (nxt m i)) = pnorm (sidevec vs i)).
  { unfold pnorm. f_equal. exact (len2_same m vs H3 Hv _ _ Lx Hi). }
  destruct (sin_between (vtx vs (prv m i) -p vtx vs i) (vtx vs (nxt m i) -p vtx vs i)) as (p & q & Ep & Eq & S); [lra|lra|].
  rewrite Ep, Eq in E. cbn [bind] in E. injection E as <-. rewrite S, N1, N2, LL.
  destruct (regular_heights m vs i H3 Hv Hi) as [_ Hn]. fold h in Hn. unfold heightNext in Hn. rewrite Lv in Hn.
  assert (Pl : 0 < len2 vs i) by (apply len2_pos; rewrite ?Lv; assumption).
  pose proof (h_pos m H3) as Ph. fold h in Ph.
  assert (EA : sarea (vtx vs (prv m i)) (vtx vs i) (vtx vs (nxt m i)) = h * len2 vs i) by (rewrite <- Hn; field; lra).
  assert (EC : pcross (vtx vs (prv m i) -p vtx vs i) (vtx vs (nxt m i) -p vtx vs i) = - (h * len2 vs i)).
  { rewrite <- EA. unfold sarea, pcross; simpl; ring. }
  rewrite EC, Rabs_Ropp, Rabs_pos_eq by (apply Rmult_le_pos; lra).
  assert (EL : pnorm (sidevec vs i) * pnorm (sidevec vs i) = len2 vs i) by (rewrite pnorm_sqr; reflexivity).
  rewrite EL. field. lra.
Qed.

Section OnSide.
Variables (e : nat) (s eps : R).
Hypothesis He : (e < m)%nat.
Hypothesis Hs : 0 <= s <= 1.
Hypothesis Hp : 0 < eps.
Hypothesis Ht : eps <= h * h * w / 2.
Let p := sidePt vs e s.
Let Lx : (nxt m e < m)%nat. Proof. apply nxt_lt; lia. Qed.
Let Lp : (prv m e < m)%nat. Proof. apply prv_lt; lia. Qed.

Let hw : 0 < h <= 1 /\ 0 < w <= 1.
Proof.
  split; split; try apply SIN_bound; [apply (h_pos m H3)|apply (w_pos m vs H3 Hv)].
Qed.
Lemma tol_facts : eps <= 1/2 /\ eps <= h /\ eps <= h * w / 2 /\ eps <= h * w /\ eps <= 2 * (h * h * w).
Proof.
  destruct hw as [A B]. assert (h * h <= h) by nra. assert (h * h * w <= h * w) by nra. assert (h * w <= h) by nra. assert (h * w <= 1) by nra.
  assert (0 < h * h * w) by (apply Rmult_lt_0_compat; [nra|lra]). repeat split; lra.
Qed.

(** Far sides use the fallback of the barycentric map. *)
Lemma bary_far : forall i, (4 <= m)%nat -> (i < m)%nat -> i <> e -> i <> nxt m e -> i <> prv m e ->
  exists t, baryMap Wachspress eps d i p = Some (mkV2 t 1) /\ 0 <= t <= 1 /\
    (i <> nxt m (nxt m e) -> eps <= t) /\ (i <> prv m (prv m e) -> eps <= 1 - t).
Proof.
  intros i M Hi N1 N2 N3. destruct hw as [Bh Bw]. destruct tol_facts as (T1 & T2 & T3 & T4 & T5).
  assert (Ip : (prv m i < m)%nat) by (apply prv_lt; lia). assert (In : (nxt m i < m)%nat) by (apply nxt_lt; lia).
  assert (He' : (e < length vs)%nat) by (rewrite Lv; exact He).
  destruct (side_linear vs e s Cv Q3 He' Hs d eps (d_verts_eq pzero vs d Hd) ltac:(lra)) as (l & B & Ll & _ & _ & L0).
  rewrite Lv in L0, Ll.
  assert (Z1 : nth_error l i = Some 0) by (apply L0; assumption).
  assert (Z2 : nth_error l (prv m i) = Some 0).
  { apply L0; [exact Ip| |].
    - intros X. apply N2. rewrite <- X. symmetry. apply nxt_prv. exact Hi.
    - intros X. apply N1. rewrite <- (nxt_prv m i Hi), X, (nxt_prv m e He). reflexivity. }
  destruct (angle_some pzero vs d Hd Q3 Cv i) as [al Ea]; [rewrite Lv; exact Hi|].
  destruct (angle_some pzero vs d Hd Q3 Cv (prv m i)) as [be Eb]; [rewrite Lv; exact Ip|].
  pose proof (angle_regular i al Hi Ea) as Sa. pose proof (angle_regular _ be Ip Eb) as Sb.
  pose proof (baryRibbon_value pzero vs d Hd Q3 Cv Iv eps l i p 0 0 al be Hp) as V. rewrite Lv in V.
  specialize (V Hi Z1 Z2 Ea Eb). cbn zeta in V. unfold baryMap. fold p in B. rewrite B. cbn [bind]. rewrite V. clear V.
  destruct (Rlt_dec (0 + 0) eps) as [_|]; [|lra]. rewrite Sa, Sb.
  assert (LL : pnorm (sidevec vs (nxt m i)) = pnorm (sidevec vs (prv m i))).
  { unfold pnorm. f_equal. exact (len2_same m vs H3 Hv _ _ In Ip). }
  rewrite LL. set (L := pnorm (sidevec vs (prv m i))). assert (PL : 2 * w <= L) by (apply side_len; exact Ip).
  set (a := hg vs (prv m i) p). set (b := hg vs (nxt m i) p).
  assert (Qa : i <> nxt m (nxt m e) -> h <= a).
  { intros N. unfold a, p. apply (y_far m vs H3 Hv e s He Hs); [exact Ip| | |].
    - intros X. apply N2. rewrite <- X. symmetry. apply nxt_prv. exact Hi.
    - intros X. apply N. rewrite <- X. symmetry. apply nxt_prv. exact Hi.
    - intros X. apply N1. rewrite <- (nxt_prv m i Hi), X, (nxt_prv m e He). reflexivity. }
  assert (Qb : i <> prv m (prv m e) -> h <= b).
  { intros N. unfold b, p. apply (y_far m vs H3 Hv e s He Hs); [exact In| | |].
    - intros X. apply N3. rewrite <- X. symmetry. apply prv_nxt. exact Hi.
    - intros X. apply N1. rewrite <- (prv_nxt m i Hi), X, (prv_nxt m e He). reflexivity.
    - intros X. apply N. rewrite <- X. symmetry. apply prv_nxt. exact Hi. }
  assert (A0 : 0 <= a) by (apply (y_nonneg m vs H3 Hv e s He Hs); exact Ip).
  assert (B0 : 0 <= b) by (apply (y_nonneg m vs H3 Hv e s He Hs); exact In).
  assert (Aw : a <= / w) by (apply (y_bound m vs H3 Hv e s He Hs); exact Ip).
  assert (Bww : b <= / w) by (apply (y_bound m vs H3 Hv e s He Hs); exact In).
  assert (AB : h <= a + b).
  { destruct (Nat.eq_dec i (nxt m (nxt m e))) as [E1|E1]; [|specialize (Qa E1); lra].
    destruct (Nat.eq_dec i (prv m (prv m e))) as [E2|E2]; [|specialize (Qb E2); lra].
    assert (Ea' : a = (1 - s) * h). { unfold a, p. rewrite E1, (prv_nxt m _ Lx). apply (y_next m vs H3 Hv e s He). }
    assert (Eb' : b = s * h). { unfold b, p. rewrite E2, (nxt_prv m _ Lp). apply (y_prev m vs H3 Hv e s He). }
    rewrite Ea', Eb'. lra. }
  assert (D : eps <= h * (a * L) + h * (b * L)).
  { replace (h * (a * L) + h * (b * L)) with (h * (a + b) * L) by ring.
    assert (h * h * (2 * w) <= h * (a + b) * L); [|lra]. apply Rmult_le_compat; [nra|lra|apply Rmult_le_compat_l; lra|exact PL]. }
  destruct (Rlt_dec _ eps) as [X|_]; [lra|].
  replace (h * (a * L) / (h * (a * L) + h * (b * L))) with (a / (a + b)).
  2:{ field. split; [|lra]. apply Rgt_not_eq. apply Rlt_gt. replace (h * a * L + h * b * L) with (h * (a * L) + h * (b * L)) by ring. lra. }
  assert (Frac : forall x y, h <= x -> 0 <= y -> x <= / w -> y <= / w -> eps <= x / (x + y)).
  { intros x y X0 Y0 Xw Yw. apply Rle_trans with (h * w / 2); [exact T3|].
    assert ((x + y) * w <= 2).
    { assert (Iw : / w * w = 1) by (apply Rinv_l; lra). assert (x * w <= 1) by (rewrite <- Iw; apply Rmult_le_compat_r; lra).
      assert (y * w <= 1) by (rewrite <- Iw; apply Rmult_le_compat_r; lra). lra. }
    apply (Rmult_le_reg_r (x + y)); [lra|]. unfold Rdiv. rewrite (Rmult_assoc x), Rinv_l by lra.
    assert (h * w * / 2 * (x + y) = h * ((x + y) * w) / 2) by field. nra. }
  exists (a / (a + b)). split; [do 2 f_equal; ring|]. split; [apply ratio_range; lra|]. split.
  - intros N. apply Frac; auto.
  - intros N. replace (1 - a / (a + b)) with (b / (b + a)) by (field; lra). apply Frac; auto.
Qed.

Lemma bary_prev : (4 <= m)%nat -> baryMap Wachspress eps d (prv m e) p = Some (mkV2 1 s).
Proof.
  intros M. destruct hw as [Bh Bw]. destruct tol_facts as (T1 & T2 & T3 & T4 & T5).
  assert (He' : (e < length vs)%nat) by (rewrite Lv; exact He).
  destruct (bary_ribbon_values pzero vs d Hd Q3 Cv Iv eps e s He' ltac:(lra) Hs) as (al & Al & _ & _ & B & _).
  rewrite Lv in Al, B. fold p in B. rewrite B. destruct (Rlt_dec (1 - s) eps) as [L|L]; [|reflexivity].
  set (q := prv m (prv m e)) in *. assert (Lq : (q < m)%nat) by (apply prv_lt; lia).
  rewrite (angle_regular _ al Lp Al).
  replace (sarea (vtx vs (prv m q)) (vtx vs q) p / pnorm (sidevec vs q)) with (hg vs q p * pnorm (sidevec vs q)).
  2:{ unfold hg. rewrite Lv. assert (P1 : 0 < pnorm (sidevec vs q)) by (apply sidelen_pos; rewrite ?Lv; assumption).
      assert (EL : pnorm (sidevec vs q) * pnorm (sidevec vs q) = len2 vs q) by (rewrite pnorm_sqr; reflexivity).
      rewrite <- EL. field. lra. }
  assert (Hy : h <= hg vs q p).
  { unfold p. destruct (pp_far m vs H3 Hv e He M) as (A & B' & D). apply (y_far m vs H3 Hv e s He Hs); assumption. }
  pose proof (side_len q Lq) as PL. 
  assert (K : h * h * (2 * w) <= h * (hg vs q p * pnorm (sidevec vs q))).
  { rewrite Rmult_assoc. apply Rmult_le_compat_l; [apply Rlt_le; apply Bh|]. apply Rmult_le_compat; [apply Rlt_le; apply Bh|apply Rmult_le_pos; [apply Rlt_le, Rlt_0_2|apply Rlt_le; apply Bw]|exact Hy|exact PL]. }
  destruct (Rlt_dec (h * (hg vs q p * pnorm (sidevec vs q))) eps) as [X|_]; [exfalso; clear B; lra|reflexivity].
Qed.

Lemma constrained_coords : exists sds, mapToRibbons (KConstrained Wachspress) eps d p = Some sds /\ side_coords eps m e s sds /\ tame sds /\
  (forall j sd, nth_error sds j = Some sd -> j <> e -> j <> nxt m e -> j <> prv m e -> py sd = 1) /\
  ((4 <= m)%nat -> nth_error sds (prv m e) = Some (mkV2 1 s)).
Proof.
  destruct tol_facts as (T1 & T2 & T3 & T4 & T5).
  assert (He' : (e < length vs)%nat) by (rewrite Lv; exact He).
  destruct (bary_side_coords pzero vs d Hd Q3 Cv Iv eps e s He' ltac:(lra) Hs) as (bl & M1 & SC & Tm & F1 & (sp & Ep)).
  rewrite Lv in SC, F1, Ep. fold p in M1. unfold mapToRibbons in M1. rewrite (reg_n m vs d H3 Hv Hd) in M1. cbn [mapToRibbon] in M1.
  assert (NB : forall i, (i < m)%nat -> nth_error bl i = baryMap Wachspress eps d i p).
  { intros i Hi. rewrite <- (mapM_nth _ _ _ i i M1).
    - reflexivity.
    - rewrite (nth_error_nth' (seq 0 m) 0%nat) by (rewrite seq_length; exact Hi). rewrite seq_nth by exact Hi. reflexivity. }
  destruct SC as (Lb & E0 & E1 & (sp' & dp' & E2 & S1 & S2) & Ff).
  rewrite Ep in E2. injection E2 as <- <-.
  set (S := fun i => spar bl i). set (D := fun i => dpar bl i).
  assert (NS : forall i, (i < m)%nat -> baryMap Wachspress eps d i p = Some (mkV2 (S i) (D i))).
  { intros i Hi. rewrite <- NB by exact Hi. apply nth_sd. lia. }
  assert (TS : forall i, (i < m)%nat -> 0 <= S i <= 1 /\ 0 <= D i).
  { intros i Hi. apply (Tm i (mkV2 (S i) (D i))). rewrite NB by exact Hi. apply NS; exact Hi. }
  assert (SE : S e = s /\ D e = 0). { rewrite (NB e He), (NS e He) in E0. split; congruence. }
  assert (SN : S (nxt m e) = 0 /\ D (nxt m e) = 1 - s). { rewrite (NB _ Lx), (NS _ Lx) in E1. split; congruence. }
  assert (SP : S (prv m e) = sp /\ D (prv m e) = s). { rewrite (NB _ Lp), (NS _ Lp) in Ep. split; congruence. }
  assert (SP4 : (4 <= m)%nat -> S (prv m e) = 1). { intros M. pose proof (bary_prev M) as X. rewrite (NS _ Lp) in X. congruence. }
  assert (CV : forall i, (i < m)%nat -> exists b0 b1 b2 b3,
    singularBlend eps [D i; 1 - S i; 1 - D i; S i] = Some [b0; b1; b2; b3] /\
    constrainedMap Wachspress eps d i p = Some (mkV2 (S i) (D i * (b0 + b2) + S (nxt m i) * b1 + (1 - S (prv m i)) * b3)) /\
    0 <= b0 /\ 0 <= b1 /\ 0 <= b2 /\ 0 <= b3 /\ b0 + b1 + b2 + b3 = 1 /\
    (D i < eps \/ 1 - S i < eps \/ 1 - D i < eps \/ S i < eps ->
     (eps <= D i -> b0 = 0) /\ (eps <= 1 - S i -> b1 = 0) /\ (eps <= 1 - D i -> b2 = 0) /\ (eps <= S i -> b3 = 0))).
  { intros i Hi. destruct (singular_four eps (D i) (1 - S i) (1 - D i) (S i) Hp) as (b0 & b1 & b2 & b3 & B & R).
    exists b0, b1, b2, b3. split; [exact B|]. split; [|exact R].
    unfold constrainedMap. rewrite (reg_n m vs d H3 Hv Hd).
    rewrite !NS by (try apply nxt_lt; try apply prv_lt; lia). cbn [bind]. unfold constrainedRibbon. cbn [px py]. rewrite B. reflexivity. }
  destruct (mapM_total_nth _ (fun i => mapToRibbon (KConstrained Wachspress) eps d i p) m) as (l & L1 & L2 & L3).
  { intros i Hi. cbn [mapToRibbon]. destruct (CV i Hi) as (b0 & b1 & b2 & b3 & _ & -> & _). eexists; reflexivity. }
  exists l. unfold mapToRibbons. rewrite (reg_n m vs d H3 Hv Hd). split; [exact L1|]. cbn [mapToRibbon] in L3.
  assert (P1 : (4 <= m)%nat -> nth_error l (prv m e) = Some (mkV2 1 s)).
  { intros M. rewrite (L3 _ Lp). destruct (CV _ Lp) as (b0 & b1 & b2 & b3 & _ & -> & B0 & B1 & B2 & B3 & Bs & Z).
    rewrite (nxt_prv m e He). destruct SE as [-> _]. rewrite (SP4 M) in *. destruct SP as [_ Dp]. rewrite Dp in *.
    destruct Z as (_ & _ & _ & Z3); [right; left; lra|]. rewrite (Z3 ltac:(lra)) in *. do 2 f_equal. nra. }
  assert (FF : forall j, (j < m)%nat -> j <> e -> j <> nxt m e -> j <> prv m e -> exists t, nth_error l j = Some (mkV2 t 1)).
  { intros j Hj N1 N2 N3. assert (M : (4 <= m)%nat).
    { destruct (prv_spec m e He) as [[A B]|[A B]]; destruct (nxt_spec m e He) as [[A'' B'']|[A'' B'']]; lia. }
    rewrite (L3 j Hj). destruct (CV j Hj) as (b0 & b1 & b2 & b3 & _ & -> & B0 & B1 & B2 & B3 & Bs & Z).
    destruct (bary_far j M Hj N1 N2 N3) as (t & E & Rt & Ta & Tb). rewrite (NS j Hj) in E. injection E as Es Ed. rewrite Es, Ed in *.
    destruct Z as (Z0 & Z1 & Z2 & Z3); [right; right; left; lra|]. exists t. rewrite (Z0 ltac:(lra)) in *.
    do 2 f_equal.
    assert (K1 : S (nxt m j) * b1 = b1).
    { destruct (Nat.eq_dec j (prv m (prv m e))) as [Ej|Ej]; [|rewrite (Z1 (Tb Ej)); ring].
      rewrite Ej, (nxt_prv m _ Lp), (SP4 M). ring. }
    assert (K2 : (1 - S (prv m j)) * b3 = b3).
    { destruct (Nat.eq_dec j (nxt m (nxt m e))) as [Ej|Ej]; [|rewrite (Z3 (Ta Ej)); ring].
      rewrite Ej, (prv_nxt m _ Lx). destruct SN as [-> _]. ring. }
    rewrite K1, K2. lra. }
  split; [|split; [|split]].
  - split; [exact L2|]. split; [|split; [|split]].
    + rewrite (L3 e He). destruct (CV e He) as (b0 & b1 & b2 & b3 & _ & -> & B0 & B1 & B2 & B3 & Bs & Z).
      destruct SE as [Se De]. destruct SN as [Sn _]. destruct SP as [Spv _]. rewrite Se, De, Sn, Spv in *. do 2 f_equal.
      destruct (Rle_lt_dec eps (1 - s)) as [K|K].
      * destruct (S1 K) as [-> _]. ring.
      * destruct Z as (_ & _ & _ & Z3); [left; lra|]. rewrite (Z3 ltac:(lra)). ring.
    + rewrite (L3 _ Lx). destruct (CV _ Lx) as (b0 & b1 & b2 & b3 & _ & -> & B0 & B1 & B2 & B3 & Bs & Z).
      rewrite (prv_nxt m e He). destruct SE as [Se De]. destruct SN as [Sn Dn]. rewrite Se, Sn, Dn in *. do 2 f_equal.
      destruct Z as (_ & Z1 & _); [right; right; right; lra|]. rewrite (Z1 ltac:(lra)) in *. nra.
    + destruct (CV _ Lp) as (b0 & b1 & b2 & b3 & _ & EC & B0 & B1 & B2 & B3 & Bs & Z).
      rewrite (nxt_prv m e He) in EC. destruct SE as [Se De]. destruct SP as [Spv Dpv]. rewrite Se, Dpv, Spv in *.
      do 2 eexists. split; [rewrite (L3 _ Lp); exact EC|]. split.
      * intros K. destruct (S1 K) as [-> _]. split; [reflexivity|]. destruct Z as (_ & _ & _ & Z3); [right; left; lra|].
        rewrite (Z3 ltac:(lra)) in *. nra.
      * intros K. destruct (le_lt_dec 4 m) as [M|M].
        -- specialize (P1 M). rewrite (L3 _ Lp), EC in P1. injection P1 as _ P1. lra.
        -- assert (X : prv m (prv m e) = nxt m e).
           { destruct (prv_spec m e He) as [[A B]|[A B]]; destruct (prv_spec m (prv m e) Lp) as [[A' B']|[A' B']];
               destruct (nxt_spec m e He) as [[A'' B'']|[A'' B'']]; lia. }
           rewrite X. destruct SN as [-> _]. assert (s * (b0 + b1 + b2 + b3) <= s * (b0 + b2) + s * b1 + (1 - 0) * b3) by nra. 
           rewrite Bs in H. lra.
    + intros j sd Ej N1 N2 N3. assert (Hj : (j < m)%nat) by (rewrite <- L2; apply nth_error_Some; congruence).
      destruct (FF j Hj N1 N2 N3) as [t Et]. rewrite Et in Ej. injection Ej as <-. cbn [py]. lra.
  - intros j sd Ej. assert (Hj : (j < m)%nat) by (rewrite <- L2; apply nth_error_Some; congruence).
    rewrite (L3 j Hj) in Ej. destruct (CV j Hj) as (b0 & b1 & b2 & b3 & _ & EC & B0 & B1 & B2 & B3 & Bs & Z). rewrite EC in Ej. injection Ej as <-.
    cbn [px py]. destruct (TS j Hj) as [A B]. destruct (TS (nxt m j) (nxt_lt m j ltac:(lia))) as [A' _]. destruct (TS (prv m j) (prv_lt m j ltac:(lia))) as [A'' _].
    split; [exact A|]. assert (0 <= D j * (b0 + b2)) by (apply Rmult_le_pos; lra).
    assert (0 <= S (nxt m j) * b1) by (apply Rmult_le_pos; lra). assert (0 <= (1 - S (prv m j)) * b3) by (apply Rmult_le_pos; lra). lra.
  - intros j sd Ej N1 N2 N3. assert (Hj : (j < m)%nat) by (rewrite <- L2; apply nth_error_Some; congruence).
    destruct (FF j Hj N1 N2 N3) as [t Et]. rewrite Et in Ej. injection Ej as <-. reflexivity.
  - exact P1.
Qed.

End OnSide.
End Reg.
