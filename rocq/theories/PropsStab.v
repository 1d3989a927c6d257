(** C94: how far the patches move when their data move. *)
From Verif Require Import Base GeomSpec UtilModel UtilSpec UtilProofs DomainModel DomainPolygons ParamModel RibbonModel SurfaceModel SurfaceSpec SurfaceEval BlendProofs BlendProps GBModel GBSpec PropsGB StabSpec StabProofs.
From Verif Require GBEval PolarPatchProofs.
Open Scope R_scope.

Lemma sum_acc : forall b x, weights_sum b x -> accumulate b = x.
Proof. intros b x H. apply sums_weights in H. unfold sumsTo in H. rewrite accumulate_rsum. exact H. Qed.
Lemma nth_In_pos : forall (b : list R), (forall i w, nth_error b i = Some w -> 0 <= w) -> forall x, In x b -> 0 <= x.
Proof. intros b H x Hx. apply In_nth_error in Hx. destruct Hx as (i & E). exact (H i x E). Qed.

(** The side based patch moves by at most what one ribbon moves. *)
Theorem C94_side_based : forall eps sf sf' e k sds, 0 < eps -> 0 <= k -> (0 < sf_n sf)%nat -> length sds = sf_n sf -> unit_params sds ->
  ribbons_within e k sf sf' -> within (side_bound (sf_gamma sf) e k) (sideBased eps sf sds) (sideBased eps sf' sds).
Proof.
  intros eps sf sf' e k sds He Hk Hn L U Rb. unfold sideBased. destruct (sideSingular_partition eps sds He ltac:(lia)) as (b & -> & Lb & P & S). cbn [bind]. pose proof Rb as (En & _). rewrite En.
  apply within_le with (rsum (sf_n sf) (fun i => nth i b 0 * side_bound (sf_gamma sf) e k)).
  - apply within_osum. intros i Hi. rewrite (nth_error_nth' sds pzero) by lia. cbn [bind]. rewrite (nth_error_nth' b 0) by lia. cbn [bind].
    destruct (U i (nth i sds pzero) ltac:(apply nth_error_nth'; lia)) as (A1 & A2). apply within_scale; [apply (P i); apply nth_error_nth'; lia|]. exact (side_within sf sf' e k Rb i _ _ A2).
  - rewrite rsum_scal_r. unfold sumsTo in S. rewrite <- L, <- Lb, S. lra.
Qed.
Print Assumptions C94_side_based.

(** The bound of the side based patch is reached, for every number of sides. *)
Definition lifted (e k : R) : sribbon := mkRib (mkCurve (fun _ => mkV3 0 0 e) (fun _ => vzero) (fun _ _ => 0)) (fun _ => Some (mkV3 0 0 k)).
Theorem C94_side_sharp : forall eps n g e k, 0 < eps <= 1 -> (0 < n)%nat -> 0 <= e -> 0 <= k ->
  let sf := mkSurf n g (repeat (lifted 0 0) n) [] in let sf' := mkSurf n g (repeat (lifted e k) n) [] in let sds := repeat (mkV2 (1/2) 1) n in
  ribbons_within e k sf sf' /\ unit_params sds /\ exists p p', sideBased eps sf sds = Some p /\ sideBased eps sf' sds = Some p' /\ apart p p' = side_bound g e k.
Proof.
  intros eps n g e k He Hn Pe Pk sf sf' sds.
  assert (Z : forall a b, 0 <= b - a -> apart (mkV3 0 0 a) (mkV3 0 0 b) = b - a).
  { intros a b H. unfold apart, vnorm. replace (vdot _ _) with (Rsqr (b - a)) by (unfold vdot, vsub, Rsqr; simpl; ring). rewrite sqrt_Rsqr by exact H. reflexivity. }
  assert (Ls : length sds = n) by apply repeat_length.
  assert (V : forall a c, sideBased eps (mkSurf n g (repeat (lifted a c) n) []) sds = Some (mkV3 0 0 (side_bound g a c))).
  { intros a c. unfold sideBased. destruct (sideSingular_partition eps sds ltac:(lra) ltac:(lia)) as (b & -> & Lb & _ & S). cbn [bind sf_n].
    rewrite (osum_total n _ (fun i => mkV3 0 0 (side_bound g a c) *v nth i b 0)).
    - f_equal. unfold sumsTo in S. rewrite Lb, Ls in S. rewrite vsum_const, S. v3ring.
    - intros i Hi. unfold sds. rewrite (nth_error_repeat _ Hi). cbn [bind]. rewrite (nth_error_nth' b 0) by lia. cbn [bind]. unfold sideInterpolant. cbn [sf_gamma sf_ribbons px py].
      rewrite (nth_error_repeat _ Hi). assert (G : gamma g 1 = Some (reach g)) by (destruct g; unfold gamma, reach; [rewrite fdiv_some by lra; f_equal; lra|reflexivity]). rewrite G. cbn [bind]. unfold ribbonEval. cbn [lifted sr_curve sr_cross cpt px py bind].
      rewrite Rmax_left by (pose proof (reach_pos g); lra). f_equal. unfold side_bound. v3ring. }
  split; [|split].
  - split; [reflexivity|]. split; [reflexivity|]. split; [unfold sf, sf'; cbn [sf_ribbons]; rewrite !repeat_length; reflexivity|]. intros i r r' E E' s _. unfold sf, sf' in E, E'. cbn [sf_ribbons] in E, E'.
    apply nth_error_In, repeat_spec in E, E'. subst r r'. cbn [lifted sr_curve sr_cross cpt within]. rewrite !Z by lra. lra.
  - intros i sd E. apply nth_error_In, repeat_spec in E. subst sd. cbn [px py]. lra.
  - exists (mkV3 0 0 (side_bound g 0 0)), (mkV3 0 0 (side_bound g e k)). split; [apply V|]. split; [apply V|]. pose proof (reach_pos g) as Rp.
    assert (0 <= reach g * k) by (apply Rmult_le_pos; lra). rewrite Z; unfold side_bound; lra.
Qed.
Print Assumptions C94_side_sharp.

(** The corner based patch, the generalized Coons patch and the composite ribbon
    patch move by at most what one corner interpolant moves, times the sum of the
    blends (one in the cases of C27_partition). *)
Theorem C94_corner_based : forall eps sf sf' e k t w sds b W, 0 < eps -> 0 <= k -> 0 <= t -> 0 <= w -> (2 <= sf_n sf)%nat -> length sds = sf_n sf -> unit_params sds ->
  ribbons_within e k sf sf' -> corners_within e t w sf sf' -> blendCorner eps (sf_n sf) sds = Some b -> weights_sum b W ->
  within (W * (2 * side_bound (sf_gamma sf) e k + correction_bound (sf_gamma sf) e t w)) (cornerBased eps sf sds) (cornerBased eps sf' sds).
Proof.
  intros eps sf sf' e k t w sds b W He Hk Ht Hw Hn L U Rb Cb Eb Sb. unfold cornerBased. pose proof Rb as (En & _). rewrite En, Eb. cbn [bind].
  destruct (corner_total eps sds (sf_n sf) He L Hn) as (b' & Eb' & Lb & P). rewrite Eb in Eb'. injection Eb' as <-. rewrite <- (sum_acc _ _ Sb).
  apply (weighted_within (sf_n sf) b (fun i => cornerInterpolant eps sf i sds) (fun i => cornerInterpolant eps sf' i sds)); [exact Lb|apply nth_In_pos; exact P|].
  intros i Hi. apply corner_within; assumption.
Qed.
Print Assumptions C94_corner_based.
Theorem C94_generalized_coons : forall eps sf sf' e k t w sds b W, 0 < eps -> 0 <= k -> 0 <= t -> 0 <= w -> (2 <= sf_n sf)%nat -> length sds = sf_n sf -> unit_params sds ->
  ribbons_within e k sf sf' -> corners_within e t w sf sf' -> blendCorner eps (sf_n sf) sds = Some b -> weights_sum b W ->
  within (W * (2 * side_bound (sf_gamma sf) e k + correction_bound (sf_gamma sf) e t w)) (generalizedCoons eps sf sds) (generalizedCoons eps sf' sds).
Proof.
  intros eps sf sf' e k t w sds b W He Hk Ht Hw Hn L U Rb Cb Eb Sb. unfold generalizedCoons. pose proof Rb as (En & _). rewrite En, Eb. cbn [bind].
  destruct (corner_total eps sds (sf_n sf) He L Hn) as (b' & Eb' & Lb & P). rewrite Eb in Eb'. injection Eb' as <-.
  eapply within_le; [apply within_osum; intros i Hi; apply (coonsTerm_within sf sf' eps e k t w); try assumption; apply nth_In_pos; exact P|].
  rewrite rsum_plus, !rsum_scal_r, rsum_plus, (nth_prv_sum (sf_n sf) b Lb), <- (sum_acc _ _ Sb), accumulate_rsum, Lb. lra.
Qed.
Print Assumptions C94_generalized_coons.
Theorem C94_composite_ribbon : forall eps sf sf' e k t w sds b W, 0 < eps -> 0 <= k -> 0 <= t -> 0 <= w -> (2 <= sf_n sf)%nat -> length sds = sf_n sf -> unit_params sds ->
  ribbons_within e k sf sf' -> corners_within e t w sf sf' -> blendCorner eps (sf_n sf) sds = Some b -> weights_sum b W ->
  within (W * (2 * side_bound (sf_gamma sf) e k + correction_bound (sf_gamma sf) e t w)) (compositeRibbonPatch eps sf sds) (compositeRibbonPatch eps sf' sds).
Proof.
  intros eps sf sf' e k t w sds b W He Hk Ht Hw Hn L U Rb Cb Eb Sb. unfold compositeRibbonPatch. cbv zeta. pose proof Rb as (En & _). rewrite En, Eb. cbn [bind].
  destruct (corner_total eps sds (sf_n sf) He L Hn) as (b' & Eb' & Lb & P). rewrite Eb in Eb'. injection Eb' as <-.
  set (X := 2 * side_bound (sf_gamma sf) e k + correction_bound (sf_gamma sf) e t w).
  apply within_le with (/ 2 * rsum (sf_n sf) (fun i => (nth i b 0 + nth (prv (sf_n sf) i) b 0) * X)).
  - apply within_scale; [lra|]. apply within_osum. intros i Hi. assert (Hp : (prv (sf_n sf) i < sf_n sf)%nat) by (apply prv_lt; lia).
    rewrite (nth_error_nth' sds pzero) by lia. cbn [bind]. rewrite !(nth_error_nth' b 0) by lia. cbn [bind].
    destruct (U i (nth i sds pzero) ltac:(apply nth_error_nth'; lia)) as (A1 & A2).
    apply within_scale; [apply Rplus_le_le_0_compat; eapply P; apply nth_error_nth'; lia|]. apply composite_within; assumption.
  - rewrite rsum_scal_r, rsum_plus, (nth_prv_sum (sf_n sf) b Lb), <- (sum_acc _ _ Sb), accumulate_rsum, Lb. lra.
Qed.
Print Assumptions C94_composite_ribbon.

(** The midpoint patches: the blends need not sum to one, the rest of the weight
    belongs to the central control point, which moves by at most [m]. *)
Theorem C94_midpoint : forall eps sf sf' e k t w cp cp' m sds, 0 < eps -> 0 <= k -> 0 <= t -> 0 <= w -> length sds = sf_n sf -> unit_params sds ->
  ribbons_within e k sf sf' -> corners_within e t w sf sf' -> apart cp cp' <= m ->
  exists b W, blendCornerDeficient eps (sf_n sf) sds = Some b /\ weights_sum b W /\ 0 <= W /\
    let B := W * (2 * side_bound (sf_gamma sf) e k + correction_bound (sf_gamma sf) e t w) + Rabs (1 - W) * m in
    within B (midpointPatch eps sf cp sds) (midpointPatch eps sf' cp' sds) /\ within B (midpointCoons eps sf cp sds) (midpointCoons eps sf' cp' sds).
Proof.
  intros eps sf sf' e k t w cp cp' m sds He Hk Ht Hw L U Rb Cb Hm. destruct (deficient_value eps (sf_n sf) sds He L U) as (b & Eb & Lb & P).
  exists b, (accumulate b). split; [exact Eb|]. split; [apply sums_weights; unfold sumsTo; rewrite accumulate_rsum; reflexivity|].
  split; [rewrite accumulate_rsum; apply rsum_nonneg; intros i Hi; apply P, nth_In; exact Hi|]. cbv zeta. unfold midpointPatch, midpointCoons. pose proof Rb as (En & _). rewrite En, Eb. cbn [bind]. split.
  - apply within_central; [|exact Hm]. apply (weighted_within (sf_n sf) b (fun i => cornerInterpolant eps sf i sds) (fun i => cornerInterpolant eps sf' i sds)); [exact Lb|exact P|].
    intros i Hi. apply corner_within; assumption.
  - apply within_central; [|exact Hm]. eapply within_le; [apply within_osum; intros i Hi; apply (coonsTerm_within sf sf' eps e k t w); try assumption|].
    rewrite rsum_plus, !rsum_scal_r, rsum_plus, (nth_prv_sum (sf_n sf) b Lb), accumulate_rsum, Lb. lra.
Qed.
Print Assumptions C94_midpoint.

(** The central control point: it is chosen such that the patch runs through the
    midpoint, which is given or the mean of the ribbon points at (1/2, 1/2).  [sds]
    are the local parameters of the centre. *)
Theorem C94_central : forall eps sf sf' e k t w sds kd m m' M mid cp mid' cp', 0 < eps -> 0 <= k -> 0 <= t -> 0 <= w -> length sds = sf_n sf -> unit_params sds ->
  ribbons_within e k sf sf' -> corners_within e t w sf sf' ->
  (match m, m' with Some p, Some p' => apart p p' <= M | None, None => M = side_bound (sf_gamma sf) e k | _, _ => False end) ->
  updateCentral eps sf (mpatch kd eps sf) sds m = Some (mid, cp) -> updateCentral eps sf' (mpatch kd eps sf') sds m' = Some (mid', cp') ->
  apart mid mid' <= M /\
  exists b W, blendCornerDeficient eps (sf_n sf) sds = Some b /\ weights_sum b W /\ 0 <= W /\
    (Rabs (1 - W) < eps -> apart cp cp' <= M) /\
    (eps <= Rabs (1 - W) -> apart cp cp' <= (M + W * (2 * side_bound (sf_gamma sf) e k + correction_bound (sf_gamma sf) e t w)) / Rabs (1 - W)).
Proof.
  intros eps sf sf' e k t w sds kd m m' M mid cp mid' cp' He Hk Ht Hw L U Rb Cb Hm E E'. pose proof Rb as (En & _).
  destruct (C94_midpoint eps sf sf' e k t w vzero vzero 0 sds He Hk Ht Hw L U Rb Cb ltac:(rewrite apart_zero; lra)) as (b & W & Eb & Sb & Pw & B1 & B2).
  set (X := 2 * side_bound (sf_gamma sf) e k + correction_bound (sf_gamma sf) e t w) in *. cbv zeta in B1, B2.
  assert (Bp : within (W * X) (mpatch kd eps sf vzero sds) (mpatch kd eps sf' vzero sds)) by (destruct kd; cbn [mpatch]; eapply within_le; [exact B1|lra|exact B2|lra]). clear B1 B2.
  unfold updateCentral, deficiency in E, E'. rewrite En, Eb in E'. rewrite Eb in E. cbn [bind] in E, E'. rewrite (sum_acc _ _ Sb) in E, E'.
  destruct (mpatch kd eps sf vzero sds) as [s|] eqn:Es; [|destruct m; cbn [bind] in E; [discriminate|destruct (osum _ _) in E; cbn [bind] in E; [destruct (vdiv _ _) in E; discriminate|discriminate]]].
  destruct (within_some _ _ _ Bp) as (s' & Es' & Hs). rewrite Es' in E'. cbn [bind] in E, E'.
  set (o := match m with Some p => Some p | None => _ end) in E. set (o' := match m' with Some p => Some p | None => _ end) in E'.
  assert (Wm : within M o o').
  { unfold o, o'. destruct m as [p|], m' as [p'|]; try contradiction; [exact Hm|]. subst M.
    pose proof (within_osum (sf_n sf) _ _ (fun _ => side_bound (sf_gamma sf) e k) (fun i _ => side_within sf sf' e k Rb i (1/2) (1/2) ltac:(lra))) as Q. rewrite rsum_const in Q.
    destruct (osum (sf_n sf) (fun i => sideInterpolant sf i _ _)) as [q|], (osum (sf_n sf) (fun i => sideInterpolant sf' i _ _)) as [q'|]; cbn [within bind] in *; try contradiction; try exact I.
    unfold vdiv. destruct (Req_EM_T (INR (sf_n sf)) 0) as [|Nz]; [exact I|]. cbn [within]. assert (0 < INR (sf_n sf)) by (pose proof (pos_INR (sf_n sf)); lra).
    rewrite apart_scale by (left; apply Rinv_0_lt_compat; assumption). apply (Rmult_le_reg_l (INR (sf_n sf))); [assumption|]. rewrite <- Rmult_assoc, Rinv_r, Rmult_1_l by exact Nz. exact Q. }
  destruct o as [mm|]; [cbn [bind] in E|discriminate]. destruct o' as [mm'|]; [cbn [bind] in E'|discriminate]. cbn [within] in Wm.
  destruct (Rlt_dec (Rabs (1 - W)) eps) as [Sm|Lg]; cbn [bind] in E, E'.
  - injection E as <- <-. injection E' as <- <-. split; [exact Wm|]. exists b, W. split; [exact Eb|]. split; [exact Sb|]. split; [exact Pw|]. split; [intros _; exact Wm|intros; lra].
  - unfold vdiv in E, E'. destruct (Req_EM_T (1 - W) 0) as [Z|Nz]; [discriminate|]. cbn [bind] in E, E'. injection E as <- <-. injection E' as <- <-. split; [exact Wm|]. exists b, W. split; [exact Eb|]. split; [exact Sb|]. split; [exact Pw|].
    split; [intros; lra|intros _]. rewrite apart_scale_abs, Rabs_inv. unfold Rdiv. rewrite Rmult_comm. apply Rmult_le_compat_r; [left; apply Rinv_0_lt_compat, Rabs_pos_lt; exact Nz|].
    eapply Rle_trans; [apply apart_sub|]. lra.
Qed.
Print Assumptions C94_central.

(** The corner data of the two sets of ribbons.  The twists are difference
    quotients of the cross derivatives with the step 1.0e-4. *)
Theorem C94_corner_data : forall sf sf' e k t cs cs', ribbons_within e k sf sf' ->
  (forall i r r', nth_error (sf_ribbons sf) i = Some r -> nth_error (sf_ribbons sf') i = Some r' ->
     apart (cder (sr_curve r) 0) (cder (sr_curve r') 0) <= t /\ apart (cder (sr_curve r) 1) (cder (sr_curve r') 1) <= t) ->
  updateCorners (sf_n sf) (sf_ribbons sf) = Some cs -> updateCorners (sf_n sf) (sf_ribbons sf') = Some cs' ->
  corners_within e t (20000 * k) (mkSurf (sf_n sf) (sf_gamma sf) (sf_ribbons sf) cs) (mkSurf (sf_n sf) (sf_gamma sf) (sf_ribbons sf') cs').
Proof.
  intros sf sf' e k t cs cs' (_ & _ & _ & Q) D E E'. unfold updateCorners in E, E'. split; cbn [sf_corners].
  - rewrite (mapM_length _ _ _ E), (mapM_length _ _ _ E'). reflexivity.
  - intros i c c' Hc Hc'. assert (Hi : (i < sf_n sf)%nat) by (rewrite <- (seq_length (sf_n sf) 0), <- (mapM_length _ _ _ E); apply nth_error_Some; congruence).
    assert (Sq : nth_error (seq 0 (sf_n sf)) i = Some i) by (rewrite (nth_error_nth' _ 0%nat) by (rewrite seq_length; exact Hi); rewrite seq_nth by exact Hi; reflexivity).
    pose proof (mapM_nth _ _ _ _ _ E Sq) as X. pose proof (mapM_nth _ _ _ _ _ E' Sq) as X'. rewrite Hc in X. rewrite Hc' in X'. symmetry in X, X'. unfold updateCorner in X, X'.
    destruct (nth_error (sf_ribbons sf) i) as [r|] eqn:Er; [cbn [bind] in X|discriminate]. destruct (nth_error (sf_ribbons sf') i) as [r'|] eqn:Er'; [cbn [bind] in X'|discriminate].
    destruct (nth_error (sf_ribbons sf) (nxt _ _)) as [q|] eqn:Eq; [cbn [bind] in X|discriminate]. destruct (nth_error (sf_ribbons sf') (nxt _ _)) as [q'|] eqn:Eq'; [cbn [bind] in X'|discriminate].
    assert (Cs : 0 < corner_step < 1) by (unfold corner_step; lra).
    destruct (Q i r r' Er Er' 1 ltac:(lra)) as (P1 & A1). destruct (Q i r r' Er Er' (1 - corner_step) ltac:(lra)) as (_ & A2).
    destruct (Q _ q q' Eq Eq' 0 ltac:(lra)) as (_ & B1). destruct (Q _ q q' Eq Eq' corner_step ltac:(lra)) as (_ & B2).
    destruct (D i r r' Er Er') as (_ & D1). destruct (D _ q q' Eq Eq') as (D0 & _).
    destruct (sr_cross r 1) as [a1|], (sr_cross r' 1) as [a1'|]; cbn [bind] in X, X'; try discriminate. destruct (sr_cross r _) as [a2|], (sr_cross r' _) as [a2'|]; cbn [bind] in X, X'; try discriminate.
    destruct (sr_cross q 0) as [b1|], (sr_cross q' 0) as [b1'|]; cbn [bind] in X, X'; try discriminate. destruct (sr_cross q _) as [b2|], (sr_cross q' _) as [b2'|]; cbn [bind] in X, X'; try discriminate.
    injection X as <-. injection X' as <-. cbn [within cn_point cn_tan1 cn_tan2 cn_twist1 cn_twist2] in *.
    assert (T : forall x y x' y', apart x x' <= k -> apart y y' <= k -> apart ((y -v x) *v / corner_step) ((y' -v x') *v / corner_step) <= 20000 * k).
    { intros x y x' y' Hx Hy. rewrite apart_scale by (unfold corner_step; lra). pose proof (apart_sub y x y' x'). unfold corner_step. rewrite Rinv_inv. lra. }
    repeat split; try assumption; [|apply T; assumption|apply T; assumption].
    unfold apart. replace (vopp (cder (sr_curve r) 1) -v vopp (cder (sr_curve r') 1)) with (vopp (cder (sr_curve r) 1 -v cder (sr_curve r') 1)) by v3ring. rewrite norm_opp. exact D1.
Qed.
Print Assumptions C94_corner_data.

(** The factor 20000 is reached, by ribbons whose cross derivatives are continuous
    functions: one ribbon has cross derivative zero, the other one swings from
    [k] to [-k] within the step at its end. *)
Definition still : sribbon := mkRib (mkCurve (fun _ => vzero) (fun _ => vzero) (fun _ _ => 0)) (fun _ => Some vzero).
Definition swing (k : R) : sribbon := mkRib (mkCurve (fun _ => vzero) (fun _ => vzero) (fun _ _ => 0)) (fun s => Some (mkV3 0 0 (k * Rmax (-1) (1 - 20000 * (1 - s))))).
Theorem C94_twist_sharp : forall k g, 0 <= k -> let rs := [still; still; still] in let rs' := [swing k; still; still] in
  ribbons_within 0 k (mkSurf 3 g rs []) (mkSurf 3 g rs' []) /\
  exists cs cs' c c', updateCorners 3 rs = Some cs /\ updateCorners 3 rs' = Some cs' /\ nth_error cs 0 = Some c /\ nth_error cs' 0 = Some c' /\
    apart (cn_twist1 c) (cn_twist1 c') = 20000 * k.
Proof.
  intros k g Hk rs rs'. assert (Z : forall z, apart vzero (mkV3 0 0 z) = Rabs z).
  { intros z. unfold apart, vnorm. replace (vdot _ _) with (Rsqr z) by (unfold vdot, vzero, vsub, Rsqr; simpl; ring). apply sqrt_Rsqr_abs. }
  split.
  - split; [reflexivity|]. split; [reflexivity|]. split; [reflexivity|]. intros i r r' E E' s Hs. cbn [sf_ribbons] in E, E'. destruct i as [|[|[|i]]]; cbn in E, E'; [| | |destruct i; discriminate]; injection E as <-; injection E' as <-; cbn [still swing sr_curve sr_cross cpt within]; split; try (rewrite apart_zero; lra).
    rewrite Z, Rabs_mult, (Rabs_pos_eq k) by exact Hk. rewrite <- (Rmult_1_r k) at 2. apply Rmult_le_compat_l; [exact Hk|]. apply Rabs_le. split; [apply Rmax_l|]. apply Rmax_lub; lra.
  - do 4 eexists. split; [reflexivity|]. split; [reflexivity|]. split; [reflexivity|]. split; [reflexivity|]. cbn [cn_twist1]. unfold corner_step. rewrite Rinv_inv.
    replace ((vzero -v vzero) *v 10000) with vzero by v3ring.
    replace (Rmax (-1) (1 - 20000 * (1 - (1 - / 10000)))) with (-1) by (rewrite Rmax_left by lra; reflexivity). replace (Rmax (-1) (1 - 20000 * (1 - 1))) with 1 by (rewrite Rmax_right by lra; lra).
    replace ((mkV3 0 0 (k * -1) -v mkV3 0 0 (k * 1)) *v 10000) with (mkV3 0 0 (- (20000 * k))) by (unfold vsub, vscale; simpl; f_equal; ring). rewrite Z, Rabs_Ropp, Rabs_pos_eq; lra.
Qed.
Print Assumptions C94_twist_sharp.

(** A patch with corner data taken from its ribbons: curves that move by [e], end
    derivatives by [t], cross derivatives by [k]. *)
Corollary C94_updated : forall eps sf sf' e k t cs cs' sds b W, 0 < eps -> 0 <= k -> 0 <= t -> (2 <= sf_n sf)%nat -> length sds = sf_n sf -> unit_params sds ->
  ribbons_within e k sf sf' ->
  (forall i r r', nth_error (sf_ribbons sf) i = Some r -> nth_error (sf_ribbons sf') i = Some r' ->
     apart (cder (sr_curve r) 0) (cder (sr_curve r') 0) <= t /\ apart (cder (sr_curve r) 1) (cder (sr_curve r') 1) <= t) ->
  updateCorners (sf_n sf) (sf_ribbons sf) = Some cs -> updateCorners (sf_n sf) (sf_ribbons sf') = Some cs' ->
  blendCorner eps (sf_n sf) sds = Some b -> weights_sum b W ->
  let with_corners s c := mkSurf (sf_n sf) (sf_gamma sf) (sf_ribbons s) c in
  let x := if sf_gamma sf then 1/3 else 1 in
  let B := W * (3 * e + 2 * x * (k + t) + 20000 * x ^ 2 * k) in
  within B (cornerBased eps (with_corners sf cs) sds) (cornerBased eps (with_corners sf' cs') sds) /\
  within B (generalizedCoons eps (with_corners sf cs) sds) (generalizedCoons eps (with_corners sf' cs') sds) /\
  within B (compositeRibbonPatch eps (with_corners sf cs) sds) (compositeRibbonPatch eps (with_corners sf' cs') sds).
Proof.
  intros eps sf sf' e k t cs cs' sds b W He Hk Ht Hn L U Rb D Ec Ec' Eb Sb wc x B. pose proof (C94_corner_data sf sf' e k t cs cs' Rb D Ec Ec') as Cb.
  assert (Rb' : ribbons_within e k (wc sf cs) (wc sf' cs')) by (destruct Rb as (_ & _ & A & Q); split; [reflexivity|split; [reflexivity|split; [exact A|exact Q]]]).
  replace B with (W * (2 * side_bound (sf_gamma sf) e k + correction_bound (sf_gamma sf) e t (20000 * k))) by (unfold B, side_bound, correction_bound, reach; fold x; ring).
  split; [|split].
  - apply (C94_corner_based eps (wc sf cs) (wc sf' cs') e k t (20000 * k) sds b W); try assumption; lra.
  - apply (C94_generalized_coons eps (wc sf cs) (wc sf' cs') e k t (20000 * k) sds b W); try assumption; lra.
  - apply (C94_composite_ribbon eps (wc sf cs) (wc sf' cs') e k t (20000 * k) sds b W); try assumption; lra.
Qed.
Print Assumptions C94_updated.

(** ** Bezier data *)

Lemma vsum_apart : forall n (f f' : nat -> V3) (b : nat -> R), (forall i, (i < n)%nat -> apart (f i) (f' i) <= b i) -> apart (vsum n f) (vsum n f') <= rsum n b.
Proof.
  induction n as [|n IH]; intros f f' b H; cbn [vsum rsum]; [rewrite apart_zero; lra|]. apply apart_le; [apply IH; intros; apply H; lia|apply H; lia].
Qed.
Lemma vderiv_unique : forall f u v v', vderiv f u v -> vderiv f u v' -> v = v'.
Proof.
  intros f u [x y z] [x' y' z'] (A & B & C) (A' & B' & C'). cbn in *.
  rewrite (uniqueness_limite _ _ _ _ A A'), (uniqueness_limite _ _ _ _ B B'), (uniqueness_limite _ _ _ _ C C'). reflexivity.
Qed.
(** Points and derivatives of Bezier curves. *)
Theorem C94_bezier_curve : forall d P P' delta u, 0 <= u <= 1 -> (forall i, (i <= d)%nat -> apart (P i) (P' i) <= delta) ->
  apart (bezier d P u) (bezier d P' u) <= delta /\
  forall v v', vderiv (bezier d P) u v -> vderiv (bezier d P') u v' -> apart v v' <= 2 * INR d * delta.
Proof.
  assert (K : forall d P P' delta u, 0 <= u <= 1 -> (forall i, (i <= d)%nat -> apart (P i) (P' i) <= delta) -> apart (bezier d P u) (bezier d P' u) <= delta).
  { intros d P P' delta u Hu H. unfold bezier. apply Rle_trans with (rsum (d + 1) (fun i => bern d i u * delta)); [|rewrite rsum_scal_r, bern_sum; lra].
    apply vsum_apart. intros i Hi. pose proof (bern_nonneg d i u Hu). apply apart_scale_le; [lra|apply H; lia]. }
  intros d P P' delta u Hu H. split; [apply K; assumption|]. intros v v' Hv Hv'. destruct d as [|d].
  - rewrite (vderiv_unique _ _ _ _ Hv (bezier_derive0 P u)), (vderiv_unique _ _ _ _ Hv' (bezier_derive0 P' u)), apart_zero. simpl. lra.
  - rewrite (vderiv_unique _ _ _ _ Hv (bezier_derive d P u)), (vderiv_unique _ _ _ _ Hv' (bezier_derive d P' u)). apply K; [exact Hu|]. intros i Hi.
    rewrite apart_scale by apply pos_INR. pose proof (apart_sub (P (S i)) (P i) (P' (S i)) (P' i)). pose proof (H (S i) ltac:(lia)). pose proof (H i ltac:(lia)).
    replace (2 * INR (S d) * delta) with (INR (S d) * (2 * delta)) by ring. apply Rmult_le_compat_l; [apply pos_INR|lra].
Qed.
Print Assumptions C94_bezier_curve.

(** Twenty units of error in the cross derivative of one ribbon of a triangle, at
    one thousandth of a unit, are twenty units of the twist; with the gamma
    correction the patch bound has a ninth of it. *)
Example C94_example : (exists cs', updateCorners 3 [swing (1/1000); still; still] = Some cs' /\ exists c', nth_error cs' 0 = Some c' /\ vz (cn_twist1 c') = -20) /\
  20000 * reach true ^ 2 * (1/1000) = 20/9 /\ 20000 * reach false ^ 2 * (1/1000) = 20.
Proof.
  split; [|unfold reach; split; lra]. eexists. split; [reflexivity|]. eexists. split; [reflexivity|]. cbn. unfold corner_step. rewrite Rinv_inv.
  replace (Rmax (-1) _) with (-1) by (rewrite Rmax_left by lra; reflexivity). replace (Rmax (-1) (1 - 20000 * (1 - 1))) with 1 by (rewrite Rmax_right by lra; lra). lra.
Qed.
(** A cubic whose control points move by one tenth: the derivative at the start
    moves by six tenths. *)
Example C94_curve_example : let P := fun _ : nat => vzero in let P' := fun i : nat => if (i =? 0)%nat then mkV3 0 0 (-1/10) else mkV3 0 0 (1/10) in
  (forall i, (i <= 3)%nat -> apart (P i) (P' i) <= 1/10) /\ exists v v', vderiv (bezier 3 P) 0 v /\ vderiv (bezier 3 P') 0 v' /\ apart v v' = 2 * INR 3 * (1/10).
Proof.
  intros P P'. assert (Z : forall z, apart vzero (mkV3 0 0 z) = Rabs z).
  { intros z. unfold apart, vnorm. replace (vdot _ _) with (Rsqr z) by (unfold vdot, vzero, vsub, Rsqr; simpl; ring). apply sqrt_Rsqr_abs. }
  split; [intros i _; unfold P, P'; destruct (i =? 0)%nat; rewrite Z; apply Rabs_le; lra|].
  do 2 eexists. split; [apply bezier_derive|]. split; [apply bezier_derive|]. unfold P, P'. 
  rewrite !PolarPatchProofs.bezier_at_0. cbn [Nat.eqb].
  replace ((vzero -v vzero) *v INR 3) with vzero by v3ring. replace ((mkV3 0 0 (1/10) -v mkV3 0 0 (-1/10)) *v INR 3) with (mkV3 0 0 (6/10)) by (unfold vsub, vscale; simpl; f_equal; field).
  rewrite Z, Rabs_pos_eq by lra. simpl. lra.
Qed.
