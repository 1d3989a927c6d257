(** Patches commute with affine maps where their weights add up to one. *)
Require Import Verif.Base Verif.UtilModel Verif.DomainModel Verif.ParamModel Verif.RibbonModel Verif.SurfaceModel Verif.SurfaceObj Verif.SurfaceSpec Verif.BlendProofs Verif.BlendProps Verif.SurfaceEval.
Require Import Verif.MoveSpec Verif.MoveProofs.
Open Scope R_scope.

Section Patches.
Variables (L : V3 -> V3) (t : V3).
Hypothesis HL : linear L.
Notation mvP := (mvPoint L t).
Notation mvS := (mvSurf L t).
(** A combination of points with total weight [w]. *)
Definition aff (w : R) (p : V3) : V3 := L p +v t *v w.
Lemma aff_one : forall p, aff 1 p = mvP p.
Proof. intros p. unfold aff, mvPoint. v3ring. Qed.
Lemma aff_one_map : forall x, option_map (aff 1) x = option_map mvP x.
Proof. intros [p|]; [|reflexivity]. simpl. rewrite aff_one. reflexivity. Qed.
Lemma osum_aff : forall n f f' w, (forall i, (i < n)%nat -> f' i = option_map (aff (w i)) (f i)) -> osum n f' = option_map (aff (rsum n w)) (osum n f).
Proof.
  intros n f f' w. induction n as [|n IH]; intros H; [simpl; unfold aff; rewrite (L_zero L HL); do 2 f_equal; v3ring|]. cbn [osum rsum].
  rewrite IH by (intros i Hi; apply H; lia). rewrite bind_map, map_bind. apply bind_ext. intros a _. rewrite H by lia. rewrite bind_map, map_bind. apply bind_ext. intros b _. simpl. f_equal. unfold aff. rewrite (L_add L HL). v3ring.
Qed.
Lemma aff_scale : forall p b, mvP p *v b = aff b (p *v b).
Proof. intros p b. unfold mvPoint, aff. rewrite (L_scale L HL). v3ring. Qed.

Lemma eval_aff : forall r sd, ribbonEval (sr_curve (mvRib L t r)) (sr_cross (mvRib L t r)) sd = option_map mvP (ribbonEval (sr_curve r) (sr_cross r) sd).
Proof.
  intros r sd. unfold ribbonEval. cbn [mvRib sr_curve sr_cross mvCurve cpt]. rewrite bind_map, map_bind. apply bind_ext. intros x _. simpl. f_equal. unfold mvPoint. rewrite (L_add L HL), (L_scale L HL). v3ring.
Qed.
Lemma side_aff : forall sf i s d, sideInterpolant (mvS sf) i s d = option_map mvP (sideInterpolant sf i s d).
Proof.
  intros sf i s d. unfold sideInterpolant. cbn [mvSurf sf_gamma sf_ribbons]. rewrite map_bind. apply bind_ext. intros g _. rewrite nth_map, bind_map, map_bind. apply bind_ext. intros r _. apply eval_aff.
Qed.
Lemma correction_aff : forall eps sf i a b, cornerCorrection eps (mvS sf) i a b = option_map mvP (cornerCorrection eps sf i a b).
Proof.
  intros eps sf i a b. unfold cornerCorrection. cbn [mvSurf sf_gamma sf_corners]. rewrite map_bind. apply bind_ext. intros g1 _. rewrite map_bind. apply bind_ext. intros g2 _.
  rewrite nth_map, bind_map, map_bind. apply bind_ext. intros c _. cbn [mvCorner cn_twist1 cn_twist2 cn_point cn_tan1 cn_tan2].
  assert (E : forall u v f g, rationalTwist eps u v (L f) (L g) = option_map L (rationalTwist eps u v f g)).
  { intros u v f g. unfold rationalTwist. destruct (Rlt_dec (Rabs (u + v)) eps); [simpl; rewrite (L_zero L HL); reflexivity|]. rewrite <- !(L_scale L HL), <- (L_add L HL). apply L_div, HL. }
  rewrite E, bind_map, map_bind. apply bind_ext. intros tw _. simpl. f_equal. unfold mvPoint. rewrite !(L_add L HL), !(L_scale L HL). v3ring.
Qed.
Lemma P_abc : forall a b c, mvP a +v mvP b -v mvP c = mvP (a +v b -v c).
Proof. intros a b c. unfold mvPoint. rewrite (L_sub L HL), (L_add L HL). v3ring. Qed.
Lemma interpolant_aff : forall eps sf i sds, cornerInterpolant eps (mvS sf) i sds = option_map mvP (cornerInterpolant eps sf i sds).
Proof.
  intros eps sf i sds. unfold cornerInterpolant. cbn [mvSurf sf_n]. fold (mvS sf). rewrite map_bind. apply bind_ext. intros sd _. rewrite map_bind. apply bind_ext. intros sd1 _.
  change (mkSurf (sf_n sf) (sf_gamma sf) (map (mvRib L t) (sf_ribbons sf)) (map (mvCorner L t) (sf_corners sf))) with (mvS sf).
  rewrite !side_aff, correction_aff, bind_map, map_bind. apply bind_ext. intros a _. rewrite bind_map, map_bind. apply bind_ext. intros b _. rewrite bind_map, map_bind. apply bind_ext. intros c _. simpl. rewrite P_abc. reflexivity.
Qed.

(** ** Weights *)
Lemma nth_nth_error : forall {A} (l : list A) i x d, nth_error l i = Some x -> nth i l d = x.
Proof. intros A l i x d H. apply nth_error_nth, H. Qed.
Lemma blendSide_length : forall eps sds b, blendSideSingular eps sds = Some b -> length b = length sds.
Proof.
  intros eps sds b. unfold blendSideSingular. destruct (0 <? closeCount eps sds)%nat.
  - destruct (fdiv 1 _) as [v|]; [|discriminate]. cbn [bind]. intros E. injection E as <-. apply map_length.
  - destruct (mapM _ sds) as [l|] eqn:E; [|discriminate]. cbn [bind]. intros E2. apply mapM_length in E, E2. congruence.
Qed.
Lemma blendCorner_length : forall eps n sds b, blendCorner eps n sds = Some b -> length b = n.
Proof.
  intros eps n sds b. unfold blendCorner. destruct (0 <? closeCount eps sds)%nat.
  - intros E. apply mapM_length in E. rewrite seq_length in E. exact E.
  - destruct (mapM _ (seq 0 n)) as [l|] eqn:E; [|discriminate]. cbn [bind]. intros E2. apply mapM_length in E, E2. rewrite seq_length in E. congruence.
Qed.
Lemma deficient_length : forall eps n sds b, blendCornerDeficient eps n sds = Some b -> length b = n.
Proof. intros eps n sds b E. unfold blendCornerDeficient in E. apply mapM_length in E. rewrite seq_length in E. exact E. Qed.

Lemma sideBased_aff : forall eps sf sds b, blendSideSingular eps sds = Some b -> length sds = sf_n sf -> weights_sum b 1 -> sideBased eps (mvS sf) sds = option_map mvP (sideBased eps sf sds).
Proof.
  intros eps sf sds b E Ls W. unfold sideBased. rewrite E. cbn [bind]. cbn [mvSurf sf_n]. change (mkSurf (sf_n sf) (sf_gamma sf) (map (mvRib L t) (sf_ribbons sf)) (map (mvCorner L t) (sf_corners sf))) with (mvS sf).
  rewrite (osum_aff (sf_n sf) (fun i => sd <- nth_error sds i ;; b0 <- nth_error b i ;; p <- sideInterpolant sf i (px sd) (py sd) ;; Some (p *v b0)) _ (fun i => nth i b 0)).
  - apply sums_weights in W. unfold sumsTo in W. rewrite (blendSide_length _ _ _ E), Ls in W. rewrite W. apply aff_one_map.
  - intros i Hi. rewrite map_bind. apply bind_ext. intros sd _. rewrite map_bind. apply bind_ext. intros b0 Eb. rewrite side_aff, bind_map, map_bind. apply bind_ext. intros p _. simpl. rewrite (nth_nth_error _ _ _ 0 Eb), aff_scale. reflexivity.
Qed.
Lemma cornerBased_aff : forall eps sf sds b, blendCorner eps (sf_n sf) sds = Some b -> weights_sum b 1 -> cornerBased eps (mvS sf) sds = option_map mvP (cornerBased eps sf sds).
Proof.
  intros eps sf sds b E W. unfold cornerBased. cbn [mvSurf sf_n]. rewrite E. cbn [bind]. change (mkSurf (sf_n sf) (sf_gamma sf) (map (mvRib L t) (sf_ribbons sf)) (map (mvCorner L t) (sf_corners sf))) with (mvS sf).
  rewrite (osum_aff (sf_n sf) (fun i => b0 <- nth_error b i ;; p <- cornerInterpolant eps sf i sds ;; Some (p *v b0)) _ (fun i => nth i b 0)).
  - apply sums_weights in W. unfold sumsTo in W. rewrite (blendCorner_length _ _ _ _ E) in W. rewrite W. apply aff_one_map.
  - intros i Hi. rewrite map_bind. apply bind_ext. intros b0 Eb. rewrite interpolant_aff, bind_map, map_bind. apply bind_ext. intros p _. simpl. rewrite (nth_nth_error _ _ _ 0 Eb), aff_scale. reflexivity.
Qed.
Lemma coonsTerm_aff : forall eps sf sds b i, coonsTerm eps (mvS sf) sds b i = option_map (aff (nth (prv (sf_n sf) i) b 0)) (coonsTerm eps sf sds b i).
Proof.
  intros eps sf sds b i. unfold coonsTerm. cbn [mvSurf sf_n]. change (mkSurf (sf_n sf) (sf_gamma sf) (map (mvRib L t) (sf_ribbons sf)) (map (mvCorner L t) (sf_corners sf))) with (mvS sf).
  rewrite map_bind. apply bind_ext. intros sd _. rewrite map_bind. apply bind_ext. intros sd1 _. rewrite map_bind. apply bind_ext. intros b0 _. rewrite map_bind. apply bind_ext. intros bp Ebp.
  rewrite side_aff, correction_aff, bind_map, map_bind. apply bind_ext. intros p _. rewrite bind_map, map_bind. apply bind_ext. intros c _. simpl. f_equal. rewrite (nth_nth_error _ _ _ 0 Ebp).
  unfold aff, mvPoint. rewrite (L_sub L HL), !(L_scale L HL). v3ring.
Qed.
Lemma rsum_prv : forall n (f : nat -> R), rsum n (fun i => f (prv n i)) = rsum n f.
Proof.
  intros n f. destruct n as [|m]; [reflexivity|]. assert (F : forall k, (k <= m)%nat -> rsum (S k) (fun i => f (prv (S m) i)) = f m + rsum k f).
  { intros k. induction k as [|k IH]; intros Hk; [change (0 + f (prv (S m) 0) = f m + 0); replace (prv (S m) 0) with m; [ring|]; unfold prv; replace (0 + S m - 1)%nat with m by lia; symmetry; apply Nat.mod_small; lia|].
    change (rsum (S k) (fun i => f (prv (S m) i)) + f (prv (S m) (S k)) = f m + (rsum k f + f k)). rewrite IH by lia.
    replace (prv (S m) (S k)) with k; [ring|]. unfold prv. replace (S k + S m - 1)%nat with (k + 1 * S m)%nat by lia. rewrite Nat.mod_add by lia. symmetry. apply Nat.mod_small. lia. }
  rewrite (F m) by lia. cbn [rsum]. ring.
Qed.
Lemma coons_aff : forall eps sf sds b, blendCorner eps (sf_n sf) sds = Some b -> weights_sum b 1 -> generalizedCoons eps (mvS sf) sds = option_map mvP (generalizedCoons eps sf sds).
Proof.
  intros eps sf sds b E W. unfold generalizedCoons. cbn [mvSurf sf_n]. rewrite E. cbn [bind]. change (mkSurf (sf_n sf) (sf_gamma sf) (map (mvRib L t) (sf_ribbons sf)) (map (mvCorner L t) (sf_corners sf))) with (mvS sf).
  rewrite (osum_aff (sf_n sf) (coonsTerm eps sf sds b) _ (fun i => nth (prv (sf_n sf) i) b 0)) by (intros i _; apply coonsTerm_aff).
  apply sums_weights in W. unfold sumsTo in W. rewrite (blendCorner_length _ _ _ _ E) in W. rewrite (rsum_prv (sf_n sf) (fun i => nth i b 0)), W. apply aff_one_map.
Qed.
Lemma composite_aff : forall eps sf i sd, compositeRibbon eps (mvS sf) i sd = option_map mvP (compositeRibbon eps sf i sd).
Proof.
  intros eps sf i sd. unfold compositeRibbon. cbn [mvSurf sf_n]. change (mkSurf (sf_n sf) (sf_gamma sf) (map (mvRib L t) (sf_ribbons sf)) (map (mvCorner L t) (sf_corners sf))) with (mvS sf).
  rewrite !side_aff, !correction_aff, bind_map, map_bind. apply bind_ext. intros a _. rewrite bind_map, map_bind. apply bind_ext. intros b _. rewrite bind_map, map_bind. apply bind_ext. intros c _.
  rewrite bind_map, map_bind. apply bind_ext. intros e _. rewrite bind_map, map_bind. apply bind_ext. intros f _. simpl. f_equal. unfold mvPoint. rewrite !(L_sub L HL), !(L_add L HL), !(L_scale L HL). v3ring.
Qed.
Lemma compositePatch_aff : forall eps sf sds b, blendCorner eps (sf_n sf) sds = Some b -> weights_sum b 1 -> compositeRibbonPatch eps (mvS sf) sds = option_map mvP (compositeRibbonPatch eps sf sds).
Proof.
  intros eps sf sds b E W. unfold compositeRibbonPatch. cbn [mvSurf sf_n]. rewrite E. cbn [bind]. change (mkSurf (sf_n sf) (sf_gamma sf) (map (mvRib L t) (sf_ribbons sf)) (map (mvCorner L t) (sf_corners sf))) with (mvS sf).
  rewrite (osum_aff (sf_n sf) (fun i => sd <- nth_error sds i ;; b0 <- nth_error b i ;; bp <- nth_error b (prv (sf_n sf) i) ;; q <- compositeRibbon eps sf i sd ;; Some (q *v (b0 + bp))) _ (fun i => nth i b 0 + nth (prv (sf_n sf) i) b 0)).
  - assert (X : rsum (sf_n sf) (fun i => nth i b 0 + nth (prv (sf_n sf) i) b 0) = 2).
    { rewrite rsum_plus, (rsum_prv (sf_n sf) (fun i => nth i b 0)). apply sums_weights in W. unfold sumsTo in W. rewrite (blendCorner_length _ _ _ _ E) in W. rewrite W. ring. }
    rewrite X, bind_map, map_bind. apply bind_ext. intros p _. simpl. f_equal. unfold aff, mvPoint. rewrite (L_scale L HL). v3field.
  - intros i Hi. rewrite map_bind. apply bind_ext. intros sd _. rewrite map_bind. apply bind_ext. intros b0 Eb. rewrite map_bind. apply bind_ext. intros bp Ebp. rewrite composite_aff, bind_map, map_bind. apply bind_ext. intros q _. simpl.
    rewrite (nth_nth_error _ _ _ 0 Eb), (nth_nth_error _ _ _ 0 Ebp), aff_scale. reflexivity.
Qed.

(** The midpoint patches need no condition, as the central control point gets what is missing. *)
Definition msum (k : mkind) (eps : R) (sf : surf) (sds : list V2) (b : list R) : option V3 :=
  match k with
  | MKMidpoint => osum (sf_n sf) (fun i => b0 <- nth_error b i ;; q <- cornerInterpolant eps sf i sds ;; Some (q *v b0))
  | MKCoons => osum (sf_n sf) (coonsTerm eps sf sds b)
  end.
Lemma mpatch_eq : forall k eps sf cp sds, mpatch k eps sf cp sds = b <- blendCornerDeficient eps (sf_n sf) sds ;; p <- msum k eps sf sds b ;; Some (p +v cp *v (1 - accumulate b)).
Proof. intros [|] eps sf cp sds; reflexivity. Qed.
Lemma msum_aff : forall k eps sf sds b, length b = sf_n sf -> msum k eps (mvS sf) sds b = option_map (aff (accumulate b)) (msum k eps sf sds b).
Proof.
  intros k eps sf sds b Lb. rewrite DomainPolygons.accumulate_rsum, Lb. destruct k; unfold msum; cbn [mvSurf sf_n];
    change (mkSurf (sf_n sf) (sf_gamma sf) (map (mvRib L t) (sf_ribbons sf)) (map (mvCorner L t) (sf_corners sf))) with (mvS sf).
  - apply osum_aff. intros i Hi. rewrite map_bind. apply bind_ext. intros b0 Eb. rewrite interpolant_aff, bind_map, map_bind. apply bind_ext. intros p _. simpl. rewrite (nth_nth_error _ _ _ 0 Eb), aff_scale. reflexivity.
  - rewrite <- (rsum_prv (sf_n sf) (fun i => nth i b 0)). apply osum_aff. intros i _. apply coonsTerm_aff.
Qed.
Lemma mpatch_aff : forall k eps sf cp sds, mpatch k eps (mvS sf) (mvP cp) sds = option_map mvP (mpatch k eps sf cp sds).
Proof.
  intros k eps sf cp sds. rewrite !mpatch_eq. change (sf_n (mvS sf)) with (sf_n sf). rewrite map_bind. apply bind_ext. intros b E. rewrite msum_aff by (apply (deficient_length _ _ _ _ E)). rewrite bind_map, map_bind. apply bind_ext. intros p _. simpl. f_equal.
  unfold aff, mvPoint. rewrite (L_add L HL), (L_scale L HL). v3ring.
Qed.
(** Evaluation with the central control point at the origin is an affine combination short of the deficiency. *)
Lemma mpatch_lin : forall k eps sf sds def, deficiency eps (sf_n sf) sds = Some def -> mpatch k eps (mvS sf) vzero sds = option_map (aff (1 - def)) (mpatch k eps sf vzero sds).
Proof.
  intros k eps sf sds def D. rewrite !mpatch_eq. change (sf_n (mvS sf)) with (sf_n sf). unfold deficiency in D. destruct (blendCornerDeficient eps (sf_n sf) sds) as [b|] eqn:Eb; [|discriminate]. cbn [bind] in *. injection D as <-.
  rewrite msum_aff by (apply (deficient_length _ _ _ _ Eb)). rewrite bind_map, map_bind. apply bind_ext. intros p _. simpl. f_equal. unfold aff. rewrite (L_add L HL), (L_scale L HL), (L_zero L HL). v3ring.
Qed.
Lemma updateCentral_aff : forall k eps sf sds m, (1 <= sf_n sf)%nat -> 0 < eps ->
  updateCentral eps (mvS sf) (mpatch k eps (mvS sf)) sds (option_map mvP m) = option_map (fun r => (mvP (fst r), mvP (snd r))) (updateCentral eps sf (mpatch k eps sf) sds m).
Proof.
  intros k eps sf sds m Hn He. unfold updateCentral. cbn [mvSurf sf_n]. change (mkSurf (sf_n sf) (sf_gamma sf) (map (mvRib L t) (sf_ribbons sf)) (map (mvCorner L t) (sf_corners sf))) with (mvS sf).
  set (mid := match m with Some p => Some p | None => p <- osum (sf_n sf) (fun i => sideInterpolant sf i (1 / 2) (1 / 2)) ;; vdiv p (INR (sf_n sf)) end).
  assert (In0 : INR (sf_n sf) <> 0) by (apply not_0_INR; lia).
  assert (Em : match option_map mvP m with Some p => Some p | None => p <- osum (sf_n sf) (fun i => sideInterpolant (mvS sf) i (1 / 2) (1 / 2)) ;; vdiv p (INR (sf_n sf)) end = option_map mvP mid).
  { unfold mid. destruct m as [p|]; [reflexivity|]. cbn [option_map]. rewrite (osum_aff (sf_n sf) (fun i => sideInterpolant sf i (1 / 2) (1 / 2)) _ (fun _ => 1)) by (intros i _; rewrite aff_one_map; apply side_aff).
    rewrite bind_map, map_bind. apply bind_ext. intros p _. rewrite !vdiv_some by exact In0. simpl. f_equal. assert (X : rsum (sf_n sf) (fun _ => 1) = INR (sf_n sf)) by (clear; induction (sf_n sf) as [|q IH]; [reflexivity|rewrite S_INR; simpl; rewrite IH; reflexivity]).
    rewrite X. unfold aff, mvPoint. rewrite (L_scale L HL). v3field; exact In0. }
  rewrite Em, bind_map, map_bind. apply bind_ext. intros md _. destruct (deficiency eps (sf_n sf) sds) as [def|] eqn:D.
  - rewrite (mpatch_lin k eps sf sds def D), bind_map, map_bind. apply bind_ext. intros p _. cbn [bind]. destruct (Rlt_dec (Rabs def) eps) as [B|B]; [reflexivity|]. assert (def <> 0) by (intros Z; apply B; rewrite Z, Rabs_R0; exact He).
    rewrite !vdiv_some by assumption. simpl. do 2 f_equal. unfold aff, mvPoint. rewrite (L_scale L HL), (L_sub L HL). v3field; assumption.
  - destruct (mpatch k eps (mvS sf) vzero sds), (mpatch k eps sf vzero sds); reflexivity.
Qed.
End Patches.
