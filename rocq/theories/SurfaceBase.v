(** Side-based and elastic patches on a side of the domain. *)
From Verif Require Import Base MeshModel GeomSpec DomainModel UtilModel UtilSpec ParamModel.
From Verif Require Import DomainProofs DomainPolygons UtilProofs ParamBary ParamMaps ParamRegular ParamSide.
From Verif Require Import RibbonModel SurfaceModel SurfaceSpec BlendProofs ParamTame ParamFar SurfaceProofs SurfacePatches SurfaceEval.
Open Scope R_scope.

Lemma side_point_value : forall sf e s p, side_point sf e s p -> p = cv sf e s.
Proof.
  intros sf e s p (r & E & <-). unfold cv, rb. rewrite (nth_error_nth (sf_ribbons sf) e _ E). reflexivity.
Qed.

(** ** The parallel coordinates of a point of the closed domain *)
Section Convex.
Variables (c : V2) (vs : list V2) (d : dom).
Hypothesis Hd : domainFrames c vs = Some d.
Hypothesis H3 : (3 <= length vs)%nat.
Hypothesis C : strictly_convex vs.
Hypothesis I : inside vs c.
Let n := length vs.

Lemma parallel_sds : forall eps uv sds, mapToRibbons KParallel eps d uv = Some sds ->
  length sds = n /\ exists ms, parallelMultipliers d = Some ms /\ forall i sd, nth_error sds i = Some sd ->
    exists b m, bilinearMap eps d i uv = Some b /\ nth_error ms i = Some m /\ 0 < m /\ sd = mkV2 (px b) (hg vs i uv * m).
Proof.
  intros eps uv sds M. unfold mapToRibbons in M. rewrite (d_n_eq c vs d Hd) in M. fold n in M.
  assert (Ls : length sds = n) by (rewrite (mapM_length _ _ _ M), seq_length; reflexivity). split; [exact Ls|].
  destruct (multipliers_some c vs d Hd H3 C I) as (ms & Em & Lm & Pm). exists ms. split; [exact Em|].
  intros i sd E. assert (Hi : (i < n)%nat) by (rewrite <- Ls; apply nth_error_Some; congruence).
  assert (X : mapToRibbon KParallel eps d i uv = Some sd).
  { rewrite <- E. symmetry. rewrite <- (mapM_nth _ _ _ i i M); [reflexivity|].
    rewrite (nth_error_nth' (seq 0 n) 0%nat) by (rewrite seq_length; exact Hi). rewrite seq_nth by exact Hi. reflexivity. }
  cbn [mapToRibbon] in X. rewrite Em in X. cbn [bind] in X. destruct (Pm i Hi) as (m & Hm & P).
  destruct (bilinearMap eps d i uv) as [b|] eqn:B; [|unfold parallelMap in X; rewrite B in X; discriminate].
  rewrite (parallel_any c vs d Hd H3 C I eps ms i m uv b Hi Hm B) in X. injection X as <-. exists b, m. auto.
Qed.

Lemma parallel_nonneg : forall eps uv sds, closed_in vs uv -> mapToRibbons KParallel eps d uv = Some sds ->
  forall i sd, nth_error sds i = Some sd -> 0 <= py sd.
Proof.
  intros eps uv sds Hc M i sd E. destruct (parallel_sds eps uv sds M) as (Ls & ms & _ & F).
  destruct (F i sd E) as (b & m & _ & _ & P & ->). cbn [py]. apply Rmult_le_pos; [|lra]. apply hg_nonneg; try assumption.
  fold n. rewrite <- Ls. apply nth_error_Some; congruence.
Qed.

(** The coordinates for the side itself. *)
Lemma parallel_own : forall eps e s sds, 0 < eps -> (e < n)%nat -> 0 <= s <= 1 -> solvable vs eps e s 0 ->
  mapToRibbons KParallel eps d (sidePt vs e s) = Some sds -> nth_error sds e = Some (mkV2 s 0).
Proof.
  intros eps e s sds Hp He Hs Sv M. destruct (parallel_sds eps _ sds M) as (Ls & ms & _ & F).
  destruct (nth_error sds e) as [sd|] eqn:E; [|apply nth_error_None in E; lia].
  destruct (F e sd E) as (b & m & B & _ & _ & ->).
  assert (B' : bilinearMap eps d e (sidePt vs e s) = Some (mkV2 s 0)).
  { rewrite (side_image vs e s He). apply (bilinear_in_quad c vs d Hd H3 C I); try assumption; [lra|right; lra]. }
  rewrite B' in B. injection B as <-. cbn [px].
  assert (Z : hg vs e (sidePt vs e s) = 0).
  { rewrite (hg_side vs e e s). fold n. unfold hg. fold n. unfold sarea, pcross. simpl. unfold Rdiv. ring. }
  rewrite Z. do 2 f_equal. ring.
Qed.
Lemma parallel_prev : forall eps e sds, 0 < eps -> (e < n)%nat -> solvable vs eps (prv n e) 1 0 ->
  mapToRibbons KParallel eps d (sidePt vs e 0) = Some sds -> nth_error sds (prv n e) = Some (mkV2 1 0).
Proof.
  intros eps e sds Hp He Sv M.
  assert (E : sidePt vs e 0 = sidePt vs (prv n e) 1) by (unfold sidePt; fold n; apply V2_ext; simpl; ring).
  rewrite E in M. apply (parallel_own eps (prv n e) 1 sds Hp (prv_lt n e ltac:(unfold n; lia)) ltac:(lra) Sv M).
Qed.

Lemma sideBasedEval_side : forall eps sf e s sds, sf_n sf = n -> length (sf_ribbons sf) = n -> crosses_defined (sf_ribbons sf) ->
  0 < eps -> (e < n)%nat -> 0 <= s <= 1 -> solvable vs eps e s 0 ->
  mapToRibbons KParallel eps d (sidePt vs e s) = Some sds -> others_far eps e sds ->
  sideBasedEval eps d sf (sidePt vs e s) = Some (cv sf e s).
Proof.
  intros eps sf e s sds Hn Hl Hc Hp He Hs Sv M F. unfold sideBasedEval. rewrite M. cbn [bind].
  apply sideBased_boundary; try assumption; try congruence.
  - rewrite Hn. apply (parallel_sds eps _ sds M).
  - apply (parallel_nonneg eps (sidePt vs e s)); [apply side_closed; assumption|exact M].
  - apply (parallel_own eps e s sds); assumption.
Qed.

Lemma sideBasedEval_corner : forall eps sf e sds, sf_n sf = n -> length (sf_ribbons sf) = n -> crosses_defined (sf_ribbons sf) ->
  cv sf (prv n e) 1 = cv sf e 0 ->
  0 < eps -> (e < n)%nat -> solvable vs eps e 0 0 -> solvable vs eps (prv n e) 1 0 ->
  mapToRibbons KParallel eps d (sidePt vs e 0) = Some sds ->
  (forall j sd, nth_error sds j = Some sd -> j <> e -> j <> prv n e -> eps <= py sd) ->
  sideBasedEval eps d sf (sidePt vs e 0) = Some (cv sf e 0).
Proof.
  intros eps sf e sds Hn Hl Hc Hcl Hp He S1 S2 M F. unfold sideBasedEval. rewrite M. cbn [bind].
  apply sideBased_corner; rewrite ?Hn; try assumption; try (unfold n in *; lia).
  - apply (parallel_sds eps _ sds M).
  - apply (parallel_nonneg eps (sidePt vs e 0)); [apply side_closed; [assumption..|lra]|exact M].
  - apply (parallel_own eps e 0 sds); try assumption; lra.
  - apply (parallel_prev eps e sds); assumption.
Qed.
End Convex.

(** ** On a regular domain *)
Section Reg.
Variables (m : nat) (vs : list V2) (d : dom).
Hypothesis H3 : (3 <= m)%nat.
Hypothesis Hv : regularVertices m = Some vs.
Hypothesis Hd : domainFrames pzero vs = Some d.
Let h : R := sin (2 * PI / INR m).
Let w : R := sin (PI / INR m).
Let Lv : length vs = m := proj1 (reg_facts m vs H3 Hv).
Let Cv : strictly_convex vs := proj1 (proj2 (reg_facts m vs H3 Hv)).
Let Iv : inside vs pzero := proj2 (proj2 (reg_facts m vs H3 Hv)).

Lemma mult_bound : forall ms i x, (i < m)%nat -> parallelMultipliers d = Some ms -> nth_error ms i = Some x -> w <= x.
Proof.
  intros ms i x Hi M E. unfold parallelMultipliers in M. rewrite (d_n_eq pzero vs d Hd), Lv in M.
  assert (X : (q <- maxDist d i ;; fdiv 1 q) = Some x).
  { rewrite <- E. symmetry. rewrite <- (mapM_nth _ _ _ i i M); [reflexivity|].
    rewrite (nth_error_nth' (seq 0 m) 0%nat) by (rewrite seq_length; exact Hi). rewrite seq_nth by exact Hi. reflexivity. }
  destruct (maxDist_some pzero vs d Hd ltac:(lia) Cv Iv i ltac:(lia)) as (q & Eq & Pq & _ & j & Hj & Ej).
  rewrite Eq in X. cbn [bind] in X. rewrite fdiv_some in X by lra. injection X as <-.
  assert (B : q <= / w). { rewrite Ej. apply (hg_bound m vs H3 Hv i j Hi). lia. }
  pose proof (w_pos m vs H3 Hv) as Pw. fold w in Pw. unfold Rdiv. rewrite Rmult_1_l.
  rewrite <- (Rinv_inv w) at 1. apply Rinv_le_contravar; lra.
Qed.

Section OnSide.
Variables (e : nat) (s eps : R).
Hypothesis He : (e < m)%nat.
Hypothesis Hs : 0 <= s <= 1.
Hypothesis Hp : 0 < eps <= h * w / 2.

Let Hw : 0 < w := w_pos m vs H3 Hv.
Let Hh : 0 < h := h_pos m H3.
Lemma small : eps <= 1/2 /\ eps <= h /\ eps <= h * w.
Proof.
  assert (h <= 1) by apply SIN_bound. assert (w <= 1) by apply SIN_bound. pose proof Hw. pose proof Hh.
  assert (0 < h * w) by (apply Rmult_lt_0_compat; assumption).
  assert (h * w <= h * 1) by (apply Rmult_le_compat_l; lra). lra.
Qed.

Lemma parallel_total : exists sds, mapToRibbons KParallel eps d (sidePt vs e s) = Some sds.
Proof.
  destruct small as (A & B & _). destruct (multipliers_some pzero vs d Hd ltac:(lia) Cv Iv) as (ms & Em & Lm & Pm).
  destruct (mapM_total_nth _ (fun i => mapToRibbon KParallel eps d i (sidePt vs e s)) m) as (l & L1 & _).
  { intros i Hi. cbn [mapToRibbon]. rewrite Em. cbn [bind]. destruct (Pm i ltac:(lia)) as (x & Ex & _).
    pose proof (bmap m vs d H3 Hv Hd e s eps He Hs ltac:(lra) i Hi) as Bm.
    eexists. apply (parallel_any pzero vs d Hd ltac:(lia) Cv Iv eps ms i x _ _ ltac:(lia) Ex Bm). }
  exists l. unfold mapToRibbons. rewrite (reg_n m vs d H3 Hv Hd). exact L1.
Qed.

Lemma parallel_heights : forall sds i sd, mapToRibbons KParallel eps d (sidePt vs e s) = Some sds -> nth_error sds i = Some sd ->
  (i < m)%nat /\ hg vs i (sidePt vs e s) * w <= py sd.
Proof.
  intros sds i sd M E. destruct (parallel_sds pzero vs d Hd ltac:(lia) Cv Iv eps _ sds M) as (Ls & ms & Em & F).
  assert (Hi : (i < m)%nat) by (rewrite <- Lv, <- Ls; apply nth_error_Some; congruence). split; [exact Hi|].
  destruct (F i sd E) as (b & x & _ & Ex & _ & ->). cbn [py]. apply Rmult_le_compat_l.
  - apply (y_nonneg m vs H3 Hv e s He Hs i Hi).
  - apply (mult_bound ms i x Hi Em Ex).
Qed.

Lemma parallel_others : forall sds, eps <= s * (h * w) -> eps <= (1 - s) * (h * w) ->
  mapToRibbons KParallel eps d (sidePt vs e s) = Some sds -> others_far eps e sds.
Proof.
  intros sds A B M j sd E N. destruct (parallel_heights sds j sd M E) as (Hj & Q). destruct small as (_ & _ & S3). pose proof Hw.
  destruct (Nat.eq_dec j (nxt m e)) as [->|N1].
  { rewrite (y_next m vs H3 Hv e s He) in Q. fold h in Q. lra. }
  destruct (Nat.eq_dec j (prv m e)) as [->|N2].
  { rewrite (y_prev m vs H3 Hv e s He) in Q. fold h in Q. lra. }
  pose proof (y_far m vs H3 Hv e s He Hs j Hj N N1 N2) as F. fold h in F.
  assert (h * w <= hg vs j (sidePt vs e s) * w) by (apply Rmult_le_compat_r; lra). lra.
Qed.

Lemma own_bilinear : bilinearMap eps d e (sidePt vs e s) = Some (mkV2 s 0).
Proof.
  destruct small as (A & B & _). rewrite (bmap m vs d H3 Hv Hd e s eps He Hs ltac:(lra) e He).
  rewrite (bs_e m vs H3 Hv e s eps He Hs ltac:(lra) B). rewrite (y_own m vs H3 Hv e s He). do 2 f_equal. unfold Rdiv. ring.
Qed.
Lemma own_parallel : forall sds, mapToRibbons KParallel eps d (sidePt vs e s) = Some sds -> nth_error sds e = Some (mkV2 s 0).
Proof.
  intros sds M. destruct (parallel_sds pzero vs d Hd ltac:(lia) Cv Iv eps _ sds M) as (Ls & ms & Em & F).
  destruct (nth_error sds e) as [sd|] eqn:E; [|apply nth_error_None in E; lia].
  destruct (F e sd E) as (b & x & B & _ & _ & ->). rewrite own_bilinear in B. injection B as <-. cbn [px].
  rewrite (y_own m vs H3 Hv e s He). do 2 f_equal. ring.
Qed.
End OnSide.

Lemma sideBased_regular : forall eps sf e s, sf_n sf = m -> length (sf_ribbons sf) = m -> crosses_defined (sf_ribbons sf) ->
  (e < m)%nat -> 0 <= s <= 1 -> 0 < eps <= h * w / 2 -> eps <= s * (h * w) -> eps <= (1 - s) * (h * w) ->
  sideBasedEval eps d sf (sidePt vs e s) = Some (cv sf e s).
Proof.
  intros eps sf e s Hn Hl Hc He Hs Hp A B. destruct (parallel_total e s eps He Hs Hp) as [sds M].
  unfold sideBasedEval. rewrite M. cbn [bind]. apply sideBased_boundary; rewrite ?Hn; try assumption; try lra.
  - rewrite <- Lv. apply (parallel_sds pzero vs d Hd ltac:(lia) Cv Iv eps _ sds M).
  - apply (parallel_nonneg pzero vs d Hd ltac:(lia) Cv Iv eps (sidePt vs e s)); [apply side_closed; first [exact Cv|exact Hs|lia]|exact M].
  - apply (own_parallel e s eps He Hs Hp sds M).
  - apply (parallel_others e s eps He Hs Hp sds A B M).
Qed.

Lemma sideBased_regular_corner : forall eps sf e, sf_n sf = m -> length (sf_ribbons sf) = m -> crosses_defined (sf_ribbons sf) ->
  cv sf (prv m e) 1 = cv sf e 0 -> (e < m)%nat -> 0 < eps <= h * w / 2 ->
  sideBasedEval eps d sf (sidePt vs e 0) = Some (cv sf e 0).
Proof.
  intros eps sf e Hn Hl Hc Hcl He Hp. assert (Hs : 0 <= 0 <= 1) by lra. destruct (parallel_total e 0 eps He Hs Hp) as [sds M].
  assert (Lp : (prv m e < m)%nat) by (apply prv_lt; lia).
  assert (M' := M). replace (sidePt vs e 0) with (sidePt vs (prv m e) 1) in M' by (unfold sidePt; rewrite Lv; apply V2_ext; simpl; ring).
  unfold sideBasedEval. rewrite M. cbn [bind]. apply sideBased_corner; rewrite ?Hn; try assumption; try lra; try lia.
  - rewrite <- Lv. apply (parallel_sds pzero vs d Hd ltac:(lia) Cv Iv eps _ sds M).
  - apply (parallel_nonneg pzero vs d Hd ltac:(lia) Cv Iv eps (sidePt vs e 0)); [apply side_closed; first [exact Cv|exact Hs|lia]|exact M].
  - apply (own_parallel e 0 eps He Hs Hp sds M).
  - apply (own_parallel (prv m e) 1 eps Lp ltac:(lra) Hp sds M').
  - intros j sd E N1 N2. destruct (parallel_heights e 0 eps He Hs sds j sd M E) as (Hj & Q).
    destruct (small eps Hp) as (_ & _ & S3). pose proof (w_pos m vs H3 Hv) as Pw. fold w in Pw.
    destruct (Nat.eq_dec j (nxt m e)) as [->|N3].
    { rewrite (y_next m vs H3 Hv e 0 He) in Q. fold h in Q. lra. }
    pose proof (y_far m vs H3 Hv e 0 He Hs j Hj N1 N3 N2) as F. fold h in F.
    assert (h * w <= hg vs j (sidePt vs e 0) * w) by (apply Rmult_le_compat_r; lra). lra.
Qed.

(** ** Elastic *)
Section Elastic.
Variables (S : Type) (acc : S -> V2 -> V3 -> V3 -> R -> S) (solve : S -> option V3).

Lemma elastic_regular : forall tol eps sf e s st0, sf_n sf = m -> length (sf_ribbons sf) = m -> crosses_defined (sf_ribbons sf) ->
  (e < m)%nat -> 0 <= s <= 1 -> 0 < eps <= h * w / 2 -> 0 < tol ->
  (forall i t, (i < e)%nat -> 0 <= t <= 1 -> tol <= pnorm (sidePt vs e s -p sidePt vs i t)) ->
  elasticEval S acc solve tol eps d sf (sidePt vs e s) st0 = Some (cv sf e s).
Proof.
  intros tol eps sf e s st0 Hn Hl Hc He Hs Hp Ht F. destruct (small eps Hp) as (A & B & _).
  unfold elasticEval.
  destruct (mapM_total_nth _ (fun i => mapToRibbon KBilinear eps d i (sidePt vs e s)) m) as (sds & L1 & L2 & L3).
  { intros i Hi. eexists. apply (bmap m vs d H3 Hv Hd e s eps He Hs ltac:(lra) i Hi). }
  unfold mapToRibbons. rewrite (reg_n m vs d H3 Hv Hd), L1. cbn [bind]. unfold elastic. rewrite Hn.
  assert (Loop : forall k j st, (j + k = m)%nat -> (j <= e)%nat ->
    elasticLoop S acc solve tol sf (d_verts d) (sidePt vs e s) sds (seq j k) st = Some (cv sf e s)).
  { induction k as [|k IH]; intros j st Hk Hj; [lia|]. cbn [seq elasticLoop].
    assert (Hjm : (j < m)%nat) by lia. rewrite (L3 j Hjm). cbn [mapToRibbon].
    rewrite (bmap m vs d H3 Hv Hd e s eps He Hs ltac:(lra) j Hjm). cbn [bind px]. rewrite Hn.
    assert (V : forall q, (q < m)%nat -> nth_error (d_verts d) q = Some (vtx vs q)) by (intros q Hq; apply (verts_nth pzero vs d Hd); lia).
    rewrite (V _ (prv_lt m j ltac:(lia))), (V j Hjm). cbn [bind].
    pose proof (bs_range m vs H3 Hv e s eps He Hs ltac:(lra) j Hjm) as R. rewrite (clamp_id (bs m vs e s eps j)) by lra.
    set (t := bs m vs e s eps j) in *.
    assert (Er : nth_error (sf_ribbons sf) j = Some (rb sf j)) by (apply nth_error_nth'; lia).
    rewrite Er. cbn [bind]. destruct (Hc j (rb sf j) t Er R) as [x Ex].
    assert (EP : ribbonEval (sr_curve (rb sf j)) (sr_cross (rb sf j)) (mkV2 t 0) = Some (cv sf j t)).
    { unfold ribbonEval. cbn [px py]. rewrite Ex. cbn [bind]. apply (f_equal Some). unfold cv. v3ring. }
    rewrite EP. cbn [bind].
    assert (AP : affine2 (vtx vs (prv m j)) t (vtx vs j) = sidePt vs j t) by (unfold sidePt, affine2; rewrite Lv; apply V2_ext; simpl; ring).
    rewrite AP. destruct (Nat.eq_dec j e) as [->|Nj].
    - assert (Et : t = s) by (apply (bs_e m vs H3 Hv e s eps He Hs ltac:(lra) B)). rewrite Et.
      assert (Z : pnorm (sidePt vs e s -p sidePt vs e s) = 0).
      { replace (sidePt vs e s -p sidePt vs e s) with pzero by (apply V2_ext; simpl; ring). unfold pnorm. replace (pdot pzero pzero) with 0 by (unfold pdot; simpl; ring). apply sqrt_0. }
      destruct (Rlt_dec _ tol); [reflexivity|lra].
    - pose proof (F j t ltac:(lia) R) as G. destruct (Rlt_dec _ tol); [lra|]. rewrite Ex. cbn [bind].
      rewrite fdiv_some by (apply pow_nonzero; lra). cbn [bind]. apply IH; lia. }
  apply Loop; lia.
Qed.
End Elastic.
End Reg.
