(** C81: the normal fences of the patches on the two sides of a curve. *)
From Verif Require Import Base UtilModel UtilSpec UtilProofs RibbonModel RibbonSpec RibbonProofs PropsRibbon SurfaceObj FenceSpec FenceProofs.
Open Scope R_scope.

Lemma directs_normalize : forall d v, directs d v -> vnormalize v = Some d.
Proof.
  intros d v (U & N & E). unfold vnormalize. rewrite vdiv_some by lra. f_equal. rewrite E at 1. apply V3_ext; simpl; field; lra.
Qed.
Definition dirAt (res : nat) (c : curve) (k : nat) : V3 :=
  match vnormalize (cder c (INR k / INR res)) with Some t => t | None => vzero end.
Lemma sampled_data : forall eps res c, (1 <= res)%nat -> well_sampled eps res c ->
  (forall k, (k <= res)%nat -> vnormalize (cder c (INR k / INR res)) = Some (dirAt res c k)) /\
  (forall k, (k < res)%nat -> eps <= vdot (sv res c k) (sv res c k)) /\
  (forall k, (k < res)%nat -> eps <= vdot (sw res c (dirAt res c) k) (sw res c (dirAt res c) k)).
Proof.
  intros eps res c Hr W.
  assert (A : forall k, (k <= res)%nat -> vnormalize (cder c (INR k / INR res)) = Some (dirAt res c k)).
  { intros k Hk. unfold dirAt. destruct (Nat.eq_dec k res) as [->|E].
    - destruct (W (res - 1)%nat ltac:(lia)) as (t & t' & _ & D & _). replace (S (res - 1)) with res in D by lia. rewrite (directs_normalize _ _ D). reflexivity.
    - destruct (W k ltac:(lia)) as (t & t' & D & _). rewrite (directs_normalize _ _ D). reflexivity. }
  split; [exact A|]. split; intros k Hk; destruct (W k Hk) as (t & t' & D & D' & V & Q).
  - exact V.
  - unfold sw. apply directs_normalize in D. apply directs_normalize in D'. rewrite (A k) in D by lia. rewrite (A (S k)) in D' by lia.
    injection D as ->. injection D' as ->. exact Q.
Qed.
Lemma perp_dir : forall a v d, vnormalize v = Some d -> perpv a v -> vdot a d = 0.
Proof. intros a v d N P. apply (directs_perp a d v (normalize_directs _ _ N)). exact P. Qed.
Lemma ratio_0 : forall res, INR 0 / INR res = 0.
Proof. intros res. simpl. unfold Rdiv. ring. Qed.
Lemma ratio_1 : forall res, (1 <= res)%nat -> INR res / INR res = 1.
Proof. intros res H. assert (0 < INR res) by (apply lt_0_INR; lia). field. lra. Qed.

(** A curve and the same curve in the other direction, with the end normals
    exchanged: the two fences agree at all sample parameters. *)
Theorem C81_samples : forall eps res c c' a b m, 0 < eps -> (1 <= res)%nat -> well_sampled eps res c -> opposite c c' ->
  unitv a -> perpv a (cder c 0) -> unitv b -> perpv b (cder c 1) -> rmfUpdate eps res c a b = Some m ->
  exists m', rmfUpdate eps res c' b a = Some m' /\
  forall k, (k <= res)%nat -> exists n, unitv n /\ perpv n (cder c (INR k / INR res)) /\
    rmfEval eps m (INR k / INR res) = Some n /\ rmfEval eps m' (1 - INR k / INR res) = Some n.
Proof.
  intros eps res c c' a b m He Hr W Ho Ua Pa Ub Pb Hm. destruct (sampled_data eps res c Hr W) as (HT & Hv & Hw).
  assert (Pa' : vdot a (dirAt res c 0) = 0). { apply (perp_dir a (cder c 0)); [|exact Pa]. rewrite <- (HT 0%nat) by lia. rewrite ratio_0. reflexivity. }
  assert (Pb' : vdot b (dirAt res c res) = 0). { apply (perp_dir b (cder c 1)); [|exact Pb]. rewrite <- (HT res) by lia. rewrite ratio_1 by exact Hr. reflexivity. }
  assert (Hs : ss res c res <> 0) by (apply (fr_update_inv eps res c (dirAt res c) a He Hr HT Hv Hw b m Hm)).
  pose proof (r_T res c c' (dirAt res c) Hr HT Ho) as HT'.
  pose proof (r_Hv eps res c c' Hr Hv Ho) as Hv'.
  pose proof (r_Hw eps res c c' (dirAt res c) He Hr Hv Hw Ho) as Hw'.
  assert (Hs' : ss res c' res <> 0).
  { rewrite (r_ss res c c' Hr Ho) by lia. rewrite Nat.sub_diag. simpl. rewrite Rminus_0_r. exact Hs. }
  eexists. split; [apply (fr_update eps res c' _ b He Hr HT' Hv' Hw' a Hs')|]. intros k Hk.
  destruct (reverse_frames eps res c c' (dirAt res c) a b m He Hr HT Hv Hw Ho Ua Pa' Ub Pb' Hm _
    (fr_update eps res c' _ b He Hr HT' Hv' Hw' a Hs') k Hk) as (n & E1 & E2).
  exists n. split; [|split; [|split; assumption]].
  - pose proof (ratio_range res Hr k Hk). apply (eval_unit eps c res a b m He Hr Hm Ua (INR k / INR res) n ltac:(lra) E1).
  - rewrite (fr_update eps res c _ a He Hr HT Hv Hw b Hs) in Hm. apply some_eq in Hm. rewrite <- Hm in E1.
    rewrite (fr_eval eps res c _ a He Hr) in E1 by exact Hk. apply some_eq in E1. subst n.
    destruct (sn_facts eps res c _ a He Hr HT Hv Hw Ua Pa' k Hk) as [_ N2].
    pose proof (HT k Hk) as Tk. pose proof (vnormalize_unit _ _ Tk) as Tu. apply (directs_perp _ _ _ (normalize_directs _ _ Tk)).
    unfold perpv. rewrite rotate_perp by exact N2. set (n := sn res c (dirAt res c) a k) in *. set (t := dirAt res c k) in *.
    replace (vdot (n *v cos _ +v vcross t n *v sin _) t) with (vdot n t * cos (ss res c k * (endAngle b (fr res c (dirAt res c) a res) / ss res c res)))
      by (unfold vdot, vcross; simpl; ring). rewrite N2. ring.
Qed.
Print Assumptions C81_samples.

(** The straight segment, with a quarter turn. *)
Lemma line_sampled : forall res, (1 <= res)%nat -> well_sampled (/ (INR res * INR res)) res line.
Proof.
  intros res Hr k Hk. exists (mkV3 1 0 0), (mkV3 1 0 0). assert (R1 : 1 <= INR res) by (change 1 with (INR 1); apply le_INR; lia).
  assert (D : directs (mkV3 1 0 0) (mkV3 1 0 0)).
  { split; [unfold unitv, vdot; simpl; ring|]. unfold vnorm. replace (vdot (mkV3 1 0 0) (mkV3 1 0 0)) with 1 by (unfold vdot; simpl; ring). rewrite sqrt_1. split; [lra|].
    apply V3_ext; simpl; ring. }
  split; [exact D|]. split; [exact D|]. cbn zeta. cbn [line cpt].
  replace (mkV3 (INR (S k) / INR res) 0 0 -v mkV3 (INR k / INR res) 0 0) with (mkV3 (/ INR res) 0 0) by (rewrite S_INR; apply V3_ext; simpl; field; lra).
  split; [unfold vdot; simpl; rewrite Rinv_mult_distr by lra; lra|].
  replace (mkV3 1 0 0 -v mirror (mkV3 (/ INR res) 0 0) (mkV3 1 0 0)) with (mkV3 2 0 0) by (assert (Ri : 0 < / INR res) by (apply Rinv_0_lt_compat; lra); generalize dependent (/ INR res); intros r Ri; unfold mirror, vdot; apply V3_ext; simpl; field; nra).
  unfold vdot; simpl. assert (/ (INR res * INR res) <= 1); [|lra]. apply (Rle_trans _ (/ 1)); [apply Rinv_le_contravar; nra|rewrite Rinv_1; lra].
Qed.
Example C81_samples_example : exists m m', rmfUpdate (1 / 100) 5 line (mkV3 0 0 1) (mkV3 0 1 0) = Some m /\
  rmfUpdate (1 / 100) 5 (reverseCurve line) (mkV3 0 1 0) (mkV3 0 0 1) = Some m' /\
  exists n, unitv n /\ rmfEval (1 / 100) m (INR 2 / INR 5) = Some n /\ rmfEval (1 / 100) m' (1 - INR 2 / INR 5) = Some n.
Proof.
  assert (W : well_sampled (1 / 100) 5 line).
  { intros k Hk. exists (mkV3 1 0 0), (mkV3 1 0 0).
    assert (D : directs (mkV3 1 0 0) (mkV3 1 0 0)).
    { split; [unfold unitv, vdot; simpl; ring|]. unfold vnorm. replace (vdot (mkV3 1 0 0) (mkV3 1 0 0)) with 1 by (unfold vdot; simpl; ring). rewrite sqrt_1. split; [lra|].
      apply V3_ext; simpl; ring. }
    split; [exact D|]. split; [exact D|]. cbn zeta. cbn [line cpt].
    replace (mkV3 (INR (S k) / INR 5) 0 0 -v mkV3 (INR k / INR 5) 0 0) with (mkV3 (/ 5) 0 0) by (rewrite S_INR; apply V3_ext; simpl; field).
    split; [unfold vdot; simpl; lra|]. replace (mkV3 1 0 0 -v mirror (mkV3 (/ 5) 0 0) (mkV3 1 0 0)) with (mkV3 2 0 0) by (unfold mirror, vdot; apply V3_ext; simpl; field).
    unfold vdot; simpl; lra. }
  assert (O : opposite line (reverseCurve line)).
  { intros u _. split; [reflexivity|]. split; [reflexivity|]. intros x _. reflexivity. }
  destruct (C30_defined (1 / 100) 5 line (mkV3 0 0 1) (mkV3 0 1 0) ltac:(lra) ltac:(lia)) as [m Hm].
  - intros u _ E. apply (f_equal vx) in E. simpl in E. lra.
  - intros a b H _. simpl. lra.
  - exists 5%nat. split; [lia|]. unfold vdot. simpl. lra.
  - destruct (C81_samples (1 / 100) 5 line (reverseCurve line) (mkV3 0 0 1) (mkV3 0 1 0) m) as (m' & Hm' & S); try assumption; try lra; try lia;
      try (unfold unitv, perpv, vdot; simpl; ring).
    exists m, m'. split; [exact Hm|]. split; [exact Hm'|]. destruct (S 2%nat ltac:(lia)) as (n & U & _ & E1 & E2). exists n. split; [exact U|]. split; assumption.
Qed.

(** ** Ribbons *)
Lemma normalize_pos : forall v k, 0 < k -> vnormalize (v *v k) = vnormalize v.
Proof.
  intros v k Hk. assert (N : vnorm (v *v k) = vnorm v * k).
  { unfold vnorm. replace (vdot (v *v k) (v *v k)) with (vdot v v * (k * k)) by (unfold vdot; simpl; ring).
    rewrite sqrt_mult by (unfold vdot; nra). rewrite sqrt_square by lra. reflexivity. }
  unfold vnormalize. rewrite N. unfold vdiv. destruct (Req_EM_T (vnorm v) 0) as [Z|Z].
  - rewrite Z. destruct (Req_EM_T (0 * k) 0); [reflexivity|lra].
  - destruct (Req_EM_T (vnorm v * k) 0) as [Q|Q]; [apply Rmult_integral in Q; lra|]. f_equal. apply V3_ext; simpl; field; lra.
Qed.
Lemma ends_of : forall c c', opposite c c' -> cder c' 0 = vopp (cder c 1) /\ cder c' 1 = vopp (cder c 0).
Proof.
  intros c c' Ho. destruct (Ho 0 ltac:(lra)) as (_ & A & _). destruct (Ho 1 ltac:(lra)) as (_ & B & _).
  rewrite A, B. rewrite Rminus_0_r. replace (1 - 1) with 0 by ring. split; reflexivity.
Qed.

(** Two patches on the two sides of a curve.  At both ends the side of one
    patch continues the side of the other one, up to a vector along the common
    curve.  The default fences of the two ribbons agree at the samples. *)
Theorem C81_ribbons : forall eps res prev c next prev' c' next' m, 0 < eps -> (1 <= res)%nat -> well_sampled eps res c -> opposite c c' ->
  (exists al be, 0 < al /\ cder prev' 1 = cder next 0 *v al +v cder c 1 *v be) ->
  (exists al be, 0 < al /\ cder next' 0 = cder prev 1 *v al +v cder c 0 *v be) ->
  ribbonUpdate eps res prev c next = Some m ->
  exists m', ribbonUpdate eps res prev' c' next' = Some m' /\
  forall k, (k <= res)%nat -> exists n, unitv n /\ perpv n (cder c (INR k / INR res)) /\
    rmfEval eps m (INR k / INR res) = Some n /\ rmfEval eps m' (1 - INR k / INR res) = Some n.
Proof.
  intros eps res prev c next prev' c' next' m He Hr W Ho (al & be & Pa & Ea) (al' & be' & Pb & Eb) H. unfold ribbonUpdate in *.
  destruct (vnormalize (vcross (cder prev 1) (cder c 0))) as [start|] eqn:E0; [|discriminate]. cbn [bind] in H.
  destruct (vnormalize (vcross (cder c 1) (cder next 0))) as [stop|] eqn:E1; [|discriminate]. cbn [bind] in H.
  destruct (ends_of c c' Ho) as [D0 D1]. rewrite Ea, Eb, D0, D1.
  replace (vcross (cder next 0 *v al +v cder c 1 *v be) (vopp (cder c 1))) with (vcross (cder c 1) (cder next 0) *v al) by (unfold vcross; apply V3_ext; simpl; ring).
  replace (vcross (vopp (cder c 0)) (cder prev 1 *v al' +v cder c 0 *v be')) with (vcross (cder prev 1) (cder c 0) *v al') by (unfold vcross; apply V3_ext; simpl; ring).
  rewrite !normalize_pos by assumption. rewrite E0, E1. cbn [bind].
  destruct (normalize_inv _ _ E0) as (U0 & N0 & F0). destruct (normalize_inv _ _ E1) as (U1 & N1 & F1).
  apply (C81_samples eps res c c' start stop m); try assumption.
  - unfold perpv. rewrite F0. unfold vdot, vcross. simpl. ring.
  - unfold perpv. rewrite F1. unfold vdot, vcross. simpl. ring.
Qed.
Print Assumptions C81_ribbons.

Lemma half_sample : forall h, (1 <= h)%nat -> INR h / INR (2 * h) = 1 / 2.
Proof. intros h H. assert (0 < INR h) by (apply lt_0_INR; lia). rewrite mult_INR. simpl. field. lra. Qed.
Lemma project_opp : forall n v, projectOut n (vopp v) = vopp (projectOut n v).
Proof. intros n v. unfold projectOut, vdot. apply V3_ext; simpl; ring. Qed.
Lemma vopp_norm : forall v, vnorm (vopp v) = vnorm v.
Proof. intros v. unfold vnorm. f_equal. unfold vdot. simpl. ring. Qed.
Lemma vdiv_opp : forall v k x, vdiv v k = Some x -> vdiv (vopp v) k = Some (vopp x).
Proof. intros v k x H. unfold vdiv in *. destruct (Req_EM_T k 0); [discriminate|]. injection H as <-. f_equal. v3ring. Qed.
Lemma opp_normalize : forall v x, vnormalize v = Some x -> vnormalize (vopp v) = Some (vopp x).
Proof. intros v x H. unfold vnormalize in *. rewrite vopp_norm. apply vdiv_opp. exact H. Qed.

(** When the sides of one patch go on smoothly as the sides of the other one,
    with the same end tangents, the cross derivatives of the two ribbons are
    opposite to each other wherever the fences agree, so the two ribbons
    continue each other there with first derivatives. *)
Section Cross.
Variables (prev c next prev' c' next' : curve) (normal normal' : R -> option V3) (s : R) (n : V3).
Hypothesis Ho : opposite c c'.
Hypothesis Hs : 0 <= s <= 1.
Hypothesis Ea : cder prev' 1 = cder next 0.
Hypothesis Eb : cder next' 0 = cder prev 1.
Hypothesis En : normal s = Some n.
Hypothesis En' : normal' (1 - s) = Some n.
Lemma cross_compatible_back : exists x, crossCompatible normal (prevTangent prev) (nextTangent next) s = Some x /\
  crossCompatible normal' (prevTangent prev') (nextTangent next') (1 - s) = Some (vopp x).
Proof.
  unfold crossCompatible. rewrite En, En'. cbn [bind]. eexists. split; [reflexivity|]. unfold prevTangent, nextTangent. rewrite Ea, Eb, !project_opp. f_equal. v3ring.
Qed.
Lemma cross_handler_back : forall h, exists x, crossHandler normal (prevTangent prev) (nextTangent next) h s = Some x /\
  crossHandler normal' (prevTangent prev') (nextTangent next') (vopp h) (1 - s) = Some (vopp x).
Proof.
  intros h. unfold crossHandler. rewrite En, En'. cbn [bind]. eexists. split; [reflexivity|]. unfold prevTangent, nextTangent. rewrite Ea, Eb, !project_opp. f_equal. generalize (projectOut n (cder prev 1)) (projectOut n (cder next 0)) (projectOut n h). intros x y z. apply V3_ext; simpl; field.
Qed.
Lemma direction_back : forall t, vnormalize (cder c s) = Some t -> vnormalize (cder c' (1 - s)) = Some (vopp t).
Proof.
  intros t H. destruct (Ho (1 - s) ltac:(lra)) as (_ & D & _). rewrite D. replace (1 - (1 - s)) with s by ring. apply opp_normalize. exact H.
Qed.
Lemma cross_nsided_back : cder c s <> vzero -> exists x, crossNSided normal c s = Some x /\ crossNSided normal' c' (1 - s) = Some (vopp x).
Proof.
  intros Nz. destruct (normalize_some _ Nz) as [t T]. unfold crossNSided. rewrite En, En'. cbn [bind]. rewrite !clamp_id by lra. rewrite T, (direction_back t T). cbn [bind].
  destruct (Req_EM_T s s); [|contradiction]. destruct (Req_EM_T (1 - s) (1 - s)); [|contradiction]. eexists. split; [reflexivity|]. f_equal. unfold vcross. apply V3_ext; simpl; ring.
Qed.
Lemma cross_perpendicular_back : forall k n0 n1, cder c s <> vzero ->
  normal 0 = Some n0 -> normal' 1 = Some n0 -> normal 1 = Some n1 -> normal' 0 = Some n1 -> perpUpdate normal prev c next = Some k ->
  exists k' x, perpUpdate normal' prev' c' next' = Some k' /\ crossPerpendicular normal c k s = Some x /\ crossPerpendicular normal' c' k' (1 - s) = Some (vopp x).
Proof.
  intros k n0 n1 Nz A0 A0' A1 A1' K. destruct (normalize_some _ Nz) as [t T]. unfold perpUpdate in *. destruct (ends_of c c' Ho) as [D0 D1].
  destruct (vnormalize (cder c 0)) as [t0|] eqn:T0; [|discriminate]. cbn [bind] in K.
  destruct (vnormalize (cder c 1)) as [t1|] eqn:T1; [|discriminate]. cbn [bind] in K.
  rewrite A0, A1 in K. rewrite A0', A1', D0, D1, Ea, Eb, (opp_normalize _ _ T0), (opp_normalize _ _ T1), !vopp_norm. rewrite vopp_norm in K. cbn [bind] in K |- *.
  destruct (vdiv (vopp (cder prev 1)) (vnorm (cder prev 1))) as [p|] eqn:Ep; [|discriminate]. cbn [bind] in K.
  destruct (vdiv (cder next 0) (vnorm (cder next 0))) as [q|] eqn:Eq; [|discriminate]. cbn [bind] in K. injection K as <-.
  assert (Ep' := vdiv_opp _ _ _ Ep). replace (vopp (vopp (cder prev 1))) with (cder prev 1) in Ep' by v3ring.
  rewrite Ep', (vdiv_opp _ _ _ Eq). cbn [bind]. eexists. eexists. split; [reflexivity|].
  unfold crossPerpendicular. rewrite T, (direction_back t T), En, En'. cbn [bind pp_norm pn_norm pp_alpha pn_alpha pp_beta pn_beta]. split; [reflexivity|].
  f_equal. unfold vdot, vcross. apply V3_ext; simpl; field.
Qed.
End Cross.

Theorem C81_cross : forall eps res prev c next prev' c' next' m, 0 < eps -> (1 <= res)%nat -> well_sampled eps res c -> opposite c c' ->
  cder prev' 1 = cder next 0 -> cder next' 0 = cder prev 1 -> ribbonUpdate eps res prev c next = Some m ->
  exists m', ribbonUpdate eps res prev' c' next' = Some m' /\ let normal := rmfEval eps m in let normal' := rmfEval eps m' in
  forall k, (k <= res)%nat -> let s := INR k / INR res in
  (exists x, crossCompatible normal (prevTangent prev) (nextTangent next) s = Some x /\
             crossCompatible normal' (prevTangent prev') (nextTangent next') (1 - s) = Some (vopp x)) /\
  (forall h, exists x, crossHandler normal (prevTangent prev) (nextTangent next) h s = Some x /\
             crossHandler normal' (prevTangent prev') (nextTangent next') (vopp h) (1 - s) = Some (vopp x)) /\
  (exists x, crossNSided normal c s = Some x /\ crossNSided normal' c' (1 - s) = Some (vopp x)) /\
  (forall d, perpUpdate normal prev c next = Some d -> exists d' x, perpUpdate normal' prev' c' next' = Some d' /\
     crossPerpendicular normal c d s = Some x /\ crossPerpendicular normal' c' d' (1 - s) = Some (vopp x)).
Proof.
  intros eps res prev c next prev' c' next' m He Hr W Ho Ea Eb Hm.
  destruct (C81_ribbons eps res prev c next prev' c' next' m He Hr W Ho) as (m' & Hm' & F); [| |exact Hm|].
  - exists 1, 0. split; [lra|]. rewrite Ea. v3ring.
  - exists 1, 0. split; [lra|]. rewrite Eb. v3ring.
  - exists m'. split; [exact Hm'|]. intros normal normal' k Hk s. destruct (F k Hk) as (n & U & P & E1 & E2). fold s normal in E1. fold s normal' in E2.
    assert (Hs : 0 <= s <= 1) by (apply ratio_range; assumption).
    assert (Nz : cder c s <> vzero).
    { destruct (sampled_data eps res c Hr W) as (HT & _). specialize (HT k Hk). fold s in HT. intros Z. rewrite Z in HT. unfold vnormalize, vdiv in HT.
      replace (vnorm vzero) with 0 in HT; [destruct (Req_EM_T 0 0); [discriminate|contradiction]|]. unfold vnorm, vdot. simpl. replace (0 * 0 + 0 * 0 + 0 * 0) with 0 by ring. symmetry. apply sqrt_0. }
    destruct (F 0%nat ltac:(lia)) as (n0 & _ & _ & A0 & A0'). rewrite ratio_0 in A0, A0'. rewrite Rminus_0_r in A0'.
    destruct (F res (le_n _)) as (n1 & _ & _ & A1 & A1'). rewrite ratio_1 in A1, A1' by exact Hr. replace (1 - 1) with 0 in A1' by ring.
    split; [apply (cross_compatible_back prev next prev' next' normal normal' s n); assumption|].
    split; [apply (cross_handler_back prev next prev' next' normal normal' s n); assumption|].
    split; [apply (cross_nsided_back c c' normal normal' s n); assumption|].
    intros d Hd. apply (cross_perpendicular_back prev c next prev' c' next' normal normal' s n Ho Hs Ea Eb E1 E2 d n0 n1); assumption.
Qed.
Print Assumptions C81_cross.

(** The default handlers are opposite, too, when the middle is a sample. *)
Theorem C81_handler : forall eps half prev c next prev' c' next' m h, 0 < eps -> (1 <= half)%nat -> well_sampled eps (2 * half) c -> opposite c c' ->
  cder prev' 1 = cder next 0 -> cder next' 0 = cder prev 1 -> ribbonUpdate eps (2 * half) prev c next = Some m ->
  handlerValue (rmfEval eps m) (prevTangent prev) (nextTangent next) None = Some h ->
  exists m', ribbonUpdate eps (2 * half) prev' c' next' = Some m' /\
    handlerValue (rmfEval eps m') (prevTangent prev') (nextTangent next') None = Some (vopp h) /\
    forall mult, centralValue (prevTangent prev') (nextTangent next') (vopp h) mult = vopp (centralValue (prevTangent prev) (nextTangent next) h mult).
Proof.
  intros eps half prev c next prev' c' next' m h He Hr W Ho Ea Eb Hm Hh.
  destruct (C81_ribbons eps (2 * half) prev c next prev' c' next' m He ltac:(lia) W Ho) as (m' & Hm' & F); [| |exact Hm|].
  - exists 1, 0. split; [lra|]. rewrite Ea. v3ring.
  - exists 1, 0. split; [lra|]. rewrite Eb. v3ring.
  - exists m'. split; [exact Hm'|]. destruct (F half ltac:(lia)) as (n & _ & _ & E1 & E2). rewrite half_sample in E1, E2 by exact Hr. replace (1 - 1 / 2) with (1 / 2) in E2 by field.
    unfold prevTangent, nextTangent in *. split.
    + unfold handlerValue in *. rewrite E1 in Hh. rewrite E2. cbn [bind] in *. rewrite Ea, Eb. rewrite vopp_norm in *.
      destruct (vdiv (vopp (cder prev 1)) (vnorm (cder prev 1))) as [p|] eqn:Ep; [|discriminate]. cbn [bind] in Hh.
      destruct (vdiv (cder next 0) (vnorm (cder next 0))) as [q|] eqn:Eq; [|discriminate]. cbn [bind] in Hh.
      assert (Ep' := vdiv_opp _ _ _ Ep). replace (vopp (vopp (cder prev 1))) with (cder prev 1) in Ep' by v3ring.
      rewrite Ep', (vdiv_opp _ _ _ Eq). cbn [bind]. replace (vopp q +v vopp p) with (vopp (p +v q)) by v3ring. rewrite project_opp. apply opp_normalize. exact Hh.
    + intros mult. unfold centralValue. rewrite Ea, Eb, !vopp_norm. v3ring.
Qed.
Print Assumptions C81_handler.

(** A straight side with a twisted neighbourhood on the two sides. *)
Definition arm (v : V3) : curve := mkCurve (fun u => v *v u) (fun _ => v) (fun a b => (b - a) * vnorm v).
Example C81_cross_example : exists m m', ribbonUpdate (/ (INR 6 * INR 6)) 6 (arm (mkV3 0 (- (1)) 0)) line (arm (mkV3 0 1 1)) = Some m /\
  ribbonUpdate (/ (INR 6 * INR 6)) 6 (arm (mkV3 0 1 1)) (reverseCurve line) (arm (mkV3 0 (- (1)) 0)) = Some m' /\
  exists x, crossCompatible (rmfEval (/ (INR 6 * INR 6)) m) (mkV3 0 1 0) (mkV3 0 1 1) (INR 2 / INR 6) = Some x /\
    crossCompatible (rmfEval (/ (INR 6 * INR 6)) m') (mkV3 0 (- (1)) (- (1))) (mkV3 0 (- (1)) 0) (1 - INR 2 / INR 6) = Some (vopp x).
Proof.
  set (eps := / (INR 6 * INR 6)). assert (He : 0 < eps) by (unfold eps; apply Rinv_0_lt_compat; simpl; lra).
  pose proof (line_sampled 6 ltac:(lia)) as W. fold eps in W.
  assert (E : exists m, ribbonUpdate eps 6 (arm (mkV3 0 (- (1)) 0)) line (arm (mkV3 0 1 1)) = Some m).
  { unfold ribbonUpdate. cbn [arm line cder].
    destruct (normalize_some (vcross (mkV3 0 (- (1)) 0) (mkV3 1 0 0))) as [p Ep]. { intros Z. apply (f_equal vz) in Z. unfold vcross in Z. simpl in Z. lra. }
    destruct (normalize_some (vcross (mkV3 1 0 0) (mkV3 0 1 1))) as [q Eq]. { intros Z. apply (f_equal vz) in Z. unfold vcross in Z. simpl in Z. lra. }
    rewrite Ep, Eq. cbn [bind]. apply C30_defined; [exact He|lia| | |].
    - intros u _ Z. apply (f_equal vx) in Z. simpl in Z. lra.
    - intros a b H _. simpl. lra.
    - exists 6%nat. split; [lia|]. unfold eps, vdot. simpl. lra. }
  destruct E as [m Hm].
  destruct (C81_cross eps 6 (arm (mkV3 0 (- (1)) 0)) line (arm (mkV3 0 1 1)) (arm (mkV3 0 1 1)) (reverseCurve line) (arm (mkV3 0 (- (1)) 0)) m He ltac:(lia) W
    (fun u _ => conj eq_refl (conj eq_refl (fun a _ => eq_refl))) eq_refl eq_refl Hm) as (m' & Hm' & C).
  exists m, m'. split; [exact Hm|]. split; [exact Hm'|]. destruct (C 2%nat ltac:(lia)) as ((x & X1 & X2) & _). exists x. unfold prevTangent, nextTangent in X1, X2. cbn [arm cder] in X1, X2.
  replace (vopp (mkV3 0 (- (1)) 0)) with (mkV3 0 1 0) in X1 by (apply V3_ext; simpl; ring).
  replace (vopp (mkV3 0 1 1)) with (mkV3 0 (- (1)) (- (1))) in X2 by (apply V3_ext; simpl; ring). split; assumption.
Qed.

(** ** Between the samples *)
Definition bentPt (v : R) : V3 := mkV3 (3 * v) (3 * v ^ 2) (2 * v ^ 3).
Definition bentDir (v : R) : V3 := mkV3 (1 / (1 + 2 * v ^ 2)) (2 * v / (1 + 2 * v ^ 2)) (2 * v ^ 2 / (1 + 2 * v ^ 2)).
(** A cubic curve with rational unit tangents, with its true derivative and arc length. *)
Definition bent (res : nat) : curve :=
  mkCurve (fun u => bentPt (INR res * u)) (fun u => mkV3 3 (6 * (INR res * u)) (6 * (INR res * u) ^ 2) *v INR res)
    (fun a b => (3 * (INR res * b) + 2 * (INR res * b) ^ 3) - (3 * (INR res * a) + 2 * (INR res * a) ^ 3)).
Lemma bent_dir : forall res u, (1 <= res)%nat -> vnormalize (cder (bent res) u) = Some (bentDir (INR res * u)).
Proof.
  intros res u H. assert (Rp : 0 < INR res) by (apply lt_0_INR; lia). cbn [bent cder]. rewrite normalize_pos by exact Rp. set (v := INR res * u).
  assert (P : 0 < 1 + 2 * v ^ 2) by (pose proof (pow2_ge_0 v); lra). unfold vnormalize.
  assert (N : vnorm (mkV3 3 (6 * v) (6 * v ^ 2)) = 3 * (1 + 2 * v ^ 2)).
  { unfold vnorm. replace (vdot (mkV3 3 (6 * v) (6 * v ^ 2)) (mkV3 3 (6 * v) (6 * v ^ 2))) with ((3 * (1 + 2 * v ^ 2)) * (3 * (1 + 2 * v ^ 2))) by (unfold vdot; simpl; ring). apply sqrt_square. lra. }
  rewrite N, vdiv_some by lra. f_equal. unfold bentDir. apply V3_ext; cbn [vx vy vz vscale]; field; lra.
Qed.
Lemma bent_apart : forall x y, 0 <= x < y -> let v := bentPt y -v bentPt x in let w := bentDir y -v mirror v (bentDir x) in 0 < vdot v v /\ 0 < vdot w w.
Proof.
  intros x y H v w. assert (Px : 0 < 1 + 2 * x ^ 2) by (pose proof (pow2_ge_0 x); lra). assert (Py : 0 < 1 + 2 * y ^ 2) by (pose proof (pow2_ge_0 y); lra).
  assert (V1 : 0 < vx v) by (unfold v; simpl; lra). assert (V2 : 0 <= vy v) by (unfold v; simpl; nra).
  assert (V3' : 0 <= vz v). { unfold v; simpl. assert (0 <= (y - x) * (y * y + x * y + x * x)) by (apply Rmult_le_pos; nra). lra. }
  assert (Nv : 0 < vdot v v) by (unfold vdot; nra). split; [exact Nv|].
  assert (D : forall z, 0 <= z -> 0 < vdot v (bentDir z)).
  { intros z Hz. assert (Pz : 0 < 1 + 2 * z ^ 2) by (pose proof (pow2_ge_0 z); lra). assert (Iz := Rinv_0_lt_compat _ Pz). pose proof (pow2_ge_0 z).
    replace (vdot v (bentDir z)) with ((vx v + vy v * (2 * z) + vz v * (2 * z ^ 2)) * / (1 + 2 * z ^ 2)) by (unfold vdot, bentDir; simpl; field; nra).
    apply Rmult_lt_0_compat; [|exact Iz]. assert (0 <= vy v * (2 * z)) by (apply Rmult_le_pos; lra). assert (0 <= vz v * (2 * z ^ 2)) by (apply Rmult_le_pos; lra). lra. }
  assert (U : forall z, vdot (bentDir z) (bentDir z) = 1).
  { intros z. assert (Pz : 0 < 1 + 2 * z ^ 2) by (pose proof (pow2_ge_0 z); lra). unfold vdot, bentDir; simpl. field. simpl in Pz. lra. }
  set (dx := bentDir x) in *. set (dy := bentDir y) in *.
  replace (vdot w w) with (vdot dy dy + vdot (mirror v dx) (mirror v dx) - 2 * vdot dy dx + 4 * (vdot v dx * vdot v dy / vdot v v)).
  - rewrite mirror_dot by lra. replace (vdot dx dx) with 1 by (symmetry; apply U). replace (vdot dy dy) with 1 by (symmetry; apply U).
    assert (C : vdot dy dx <= 1). { pose proof (cauchy dy dx) as C. assert (Ux : vdot dx dx = 1) by apply U. assert (Uy : vdot dy dy = 1) by apply U. rewrite Ux, Uy in C. nra. }
    assert (0 < vdot v dx * vdot v dy / vdot v v). { apply Rmult_lt_0_compat; [apply Rmult_lt_0_compat; apply D; lra|apply Rinv_0_lt_compat; exact Nv]. } lra.
  - unfold w. set (z := mirror v dx) at 1 2 3 4. replace (vdot (dy -v z) (dy -v z)) with (vdot dy dy + vdot z z - 2 * vdot dy z) by (unfold vdot; simpl; ring).
    unfold z at 5. replace (vdot dy (mirror v dx)) with (vdot dy dx - 2 * vdot v dx / vdot v v * vdot v dy) by (unfold mirror, vdot; simpl; ring). field. lra.
Qed.
Lemma positive_bound : forall (g : nat -> R) n, (forall k, (k < n)%nat -> 0 < g k) -> exists e, 0 < e /\ forall k, (k < n)%nat -> e <= g k.
Proof.
  intros g n. induction n as [|n IH]; intros H; [exists 1; split; [lra|intros; lia]|]. destruct IH as (e & P & E); [intros; apply H; lia|].
  exists (Rmin e (g n)). split; [apply Rmin_glb_lt; [exact P|apply H; lia]|]. intros k Hk. destruct (Nat.eq_dec k n) as [->|N]; [apply Rmin_r|].
  apply Rle_trans with e; [apply Rmin_l|apply E; lia].
Qed.
Lemma res_ratio : forall res x, (1 <= res)%nat -> INR res * (x / INR res) = x.
Proof. intros res x H. assert (0 < INR res) by (apply lt_0_INR; lia). field. lra. Qed.
Lemma bent_sp : forall res k, (1 <= res)%nat -> sp res (bent res) k = bentPt (INR k).
Proof. intros res k H. unfold sp. cbn [bent cpt]. rewrite res_ratio by exact H. reflexivity. Qed.
Lemma bent_ss : forall res k, (1 <= res)%nat -> ss res (bent res) k = 3 * INR k + 2 * INR k ^ 3.
Proof.
  intros res k H. induction k as [|k IH]; [simpl; ring|]. change (ss res (bent res) (S k)) with (ss res (bent res) k + clen (bent res) (INR k / INR res) (INR (S k) / INR res)).
  rewrite IH. cbn [bent clen]. rewrite !res_ratio by exact H. ring.
Qed.
Lemma endAngle_self : forall f, vdot (fr_n f) (fr_n f) = 1 -> endAngle (fr_n f) f = 0.
Proof.
  intros f N. unfold endAngle. rewrite N, clamp_id by lra. rewrite acos_1. destruct (Rlt_dec _ _); ring.
Qed.
Lemma opposite_reverse : forall c, opposite c (reverseCurve c).
Proof. intros c u _. split; [reflexivity|]. split; [reflexivity|]. intros a _. reflexivity. Qed.

(** For every number of samples there is a curve where the two fences differ between two samples. *)
Theorem C81_between : forall res, (1 <= res)%nat -> exists c a b u eps0, 0 < u < 1 /\ 0 < eps0 /\
  unitv a /\ perpv a (cder c 0) /\ unitv b /\ perpv b (cder c 1) /\
  forall eps, 0 < eps <= eps0 -> well_sampled eps res c /\
  exists m m' n n', rmfUpdate eps res c a b = Some m /\ rmfUpdate eps res (reverseCurve c) b a = Some m' /\
    rmfEval eps m u = Some n /\ rmfEval eps m' (1 - u) = Some n' /\ n <> n'.
Proof.
  intros res Hr. assert (Rp : 0 < INR res) by (apply lt_0_INR; lia). set (c := bent res). set (T := fun k => bentDir (INR k)). set (a := mkV3 0 0 1).
  assert (HT : forall k, (k <= res)%nat -> vnormalize (cder c (INR k / INR res)) = Some (T k)).
  { intros k _. unfold c. rewrite bent_dir by exact Hr. rewrite res_ratio by exact Hr. reflexivity. }
  assert (App : forall k, 0 < vdot (sv res c k) (sv res c k) /\ 0 < vdot (sw res c T k) (sw res c T k)).
  { intros k. unfold sw, sv, c. rewrite !bent_sp by exact Hr. unfold T. apply bent_apart. rewrite S_INR. pose proof (pos_INR k). lra. }
  destruct (positive_bound (fun k => Rmin (vdot (sv res c k) (sv res c k)) (vdot (sw res c T k) (sw res c T k))) res) as (e & Pe & Be).
  { intros k _. destruct (App k). apply Rmin_glb_lt; assumption. }
  assert (Ua : vdot a a = 1) by (unfold a, vdot; simpl; ring).
  assert (Pa : vdot a (T 0%nat) = 0) by (unfold a, T, bentDir, vdot; simpl; field).
  set (b := sn res c T a res).
  assert (Hv : forall eps k, eps <= e -> (k < res)%nat -> eps <= vdot (sv res c k) (sv res c k)).
  { intros eps k L Hk. specialize (Be k Hk). cbn beta in Be. pose proof (Rmin_l (vdot (sv res c k) (sv res c k)) (vdot (sw res c T k) (sw res c T k))). lra. }
  assert (Hw : forall eps k, eps <= e -> (k < res)%nat -> eps <= vdot (sw res c T k) (sw res c T k)).
  { intros eps k L Hk. specialize (Be k Hk). cbn beta in Be. pose proof (Rmin_r (vdot (sv res c k) (sv res c k)) (vdot (sw res c T k) (sw res c T k))). lra. }
  destruct (sn_facts e res c T a Pe Hr HT (fun k => Hv e k (Rle_refl e)) (fun k => Hw e k (Rle_refl e)) Ua Pa res (le_n _)) as [Ub Pb]. fold b in Ub, Pb.
  assert (Ss : ss res c res <> 0). { unfold c. rewrite bent_ss by exact Hr. assert (0 < INR res ^ 3) by (apply pow_lt; exact Rp). lra. }
  set (u := 1 / 2 / INR res). assert (Hu : INR res * u = 1 / 2) by (unfold u; apply res_ratio; exact Hr).
  assert (R1 : 1 <= INR res) by (change 1 with (INR 1); apply le_INR; lia).
  assert (Hu1 : 0 < u < 1).
  { unfold u, Rdiv. assert (0 < / INR res <= 1). { split; [apply Rinv_0_lt_compat; exact Rp|]. apply (Rle_trans _ (/ 1)); [apply Rinv_le_contravar; lra|rewrite Rinv_1; lra]. } nra. }
  exists c, a, b, u, (Rmin e 1). split; [exact Hu1|]. split; [apply Rmin_glb_lt; lra|]. split; [exact Ua|].
  assert (HD : forall k, (k <= res)%nat -> directs (T k) (cder c (INR k / INR res))) by (intros k Hk; apply normalize_directs, HT, Hk).
  split. { rewrite <- (ratio_0 res). apply (directs_perp a _ _ (HD 0%nat ltac:(lia))). exact Pa. }
  split; [exact Ub|]. split. { rewrite <- (ratio_1 res Hr). apply (directs_perp b _ _ (HD res (le_n _))). exact Pb. }
  intros eps [He Le]. assert (Lee : eps <= e) by (pose proof (Rmin_l e 1); lra). assert (Le1 : eps <= 1) by (pose proof (Rmin_r e 1); lra).
  split. { intros k Hk. exists (T k), (T (S k)). split; [apply HD; lia|]. split; [apply HD; lia|]. cbn zeta. split; [apply (Hv eps k Lee Hk)|apply (Hw eps k Lee Hk)]. }
  set (hv := fun k => Hv eps k Lee). set (hw := fun k => Hw eps k Lee). set (c' := reverseCurve c). pose proof (opposite_reverse c) as Ho. fold c' in Ho.
  pose proof (fr_update eps res c T a He Hr HT hv hw b Ss) as Em.
  assert (Th : endAngle b (fr res c T a res) = 0) by (apply (endAngle_self (fr res c T a res)); exact Ub).
  assert (Z : 0 / ss res c res = 0) by (unfold Rdiv; ring). 
  pose proof (r_T res c c' T Hr HT Ho) as HT'. pose proof (r_Hv eps res c c' Hr hv Ho) as Hv'. pose proof (r_Hw eps res c c' T He Hr hv hw Ho) as Hw'.
  assert (Ss' : ss res c' res = ss res c res) by (rewrite (r_ss res c c' Hr Ho) by lia; rewrite Nat.sub_diag; simpl; ring).
  assert (Em' := fr_update eps res c' (rT res T) b He Hr HT' Hv' Hw' a ltac:(rewrite Ss'; exact Ss)).
  assert (Th' := r_angle eps res c c' T a b _ He Hr HT hv hw Ho Ua Pa Ub Pb Em). rewrite Th in Th'.
  assert (Sn := r_sn eps res c c' T a b _ He Hr HT hv hw Ho Ua Pa Ub Pb Em (res - 1)%nat ltac:(lia)). rewrite Th, rotate_zero in Sn. replace (res - (res - 1))%nat with 1%nat in Sn by lia.
  rewrite Th, Z in Em. rewrite Th', Ss', Z in Em'.
  assert (P0 : sp res c 0 = vzero). { unfold c. rewrite bent_sp by exact Hr. unfold bentPt. apply V3_ext; simpl; ring. }
  assert (P1 : sp res c 1 = mkV3 3 3 2). { unfold c. rewrite bent_sp by exact Hr. unfold bentPt. apply V3_ext; simpl; ring. }
  assert (Ph : cpt c u = mkV3 (3 / 2) (3 / 4) (1 / 4)). { unfold c. cbn [bent cpt]. rewrite Hu. unfold bentPt. apply V3_ext; simpl; field. }
  assert (T0 : T 0%nat = mkV3 1 0 0) by (unfold T, bentDir; apply V3_ext; simpl; field).
  assert (T1 : T 1%nat = mkV3 (1 / 3) (2 / 3) (2 / 3)) by (unfold T, bentDir; apply V3_ext; simpl; field).
  assert (Dh : vnormalize (cder c u) = Some (mkV3 (2 / 3) (2 / 3) (1 / 3))). { unfold c. rewrite bent_dir by exact Hr. rewrite Hu. f_equal. unfold bentDir. apply V3_ext; simpl; field. }
  assert (V0 : cpt c u -v sp res c 0 = mkV3 (3 / 2) (3 / 4) (1 / 4)) by (rewrite P0, Ph; apply V3_ext; simpl; ring).
  assert (W0 : mkV3 (2 / 3) (2 / 3) (1 / 3) -v mirror (mkV3 (3 / 2) (3 / 4) (1 / 4)) (T 0%nat) = mkV3 (2 / 3 + 13 / 23) (2 / 3 + 18 / 23) (1 / 3 + 6 / 23)).
  { rewrite T0. unfold mirror, vdot. apply V3_ext; simpl; field. }
  assert (V1 : cpt c' (1 - u) -v sp res c' (res - 1) = mkV3 (- (3 / 2)) (- (9 / 4)) (- (7 / 4))).
  { rewrite (r_sp res c c' Hr Ho) by lia. replace (res - (res - 1))%nat with 1%nat by lia. rewrite P1. unfold c'. cbn [reverseCurve cpt]. replace (1 - (1 - u)) with u by ring. rewrite Ph. apply V3_ext; simpl; field. }
  assert (Dh' : vnormalize (cder c' (1 - u)) = Some (vopp (mkV3 (2 / 3) (2 / 3) (1 / 3)))).
  { unfold c'. cbn [reverseCurve cder]. replace (1 - (1 - u)) with u by ring. apply opp_normalize. exact Dh. }
  assert (Tl : rT res T (res - 1) = vopp (mkV3 (1 / 3) (2 / 3) (2 / 3))) by (unfold rT; replace (res - (res - 1))%nat with 1%nat by lia; rewrite T1; reflexivity).
  assert (W1 : vopp (mkV3 (2 / 3) (2 / 3) (1 / 3)) -v mirror (mkV3 (- (3 / 2)) (- (9 / 4)) (- (7 / 4))) (vopp (mkV3 (1 / 3) (2 / 3) (2 / 3))) =
    mkV3 (- (1 / 3) - 228 / 249) (- (342 / 249)) (1 / 3 - 266 / 249)).
  { unfold mirror, vdot. apply V3_ext; simpl; field. }
  assert (N1 : sn res c T a 1 = mkV3 (- (6 / 11) + 20 / 2013) (- (6 / 11) + 196 / 2013) (7 / 11 + 160 / 2013)).
  { cbn [sn]. unfold sw, sv. rewrite P0, P1, T0, T1. unfold turn.
    replace (mkV3 3 3 2 -v vzero) with (mkV3 3 3 2) by (apply V3_ext; simpl; ring).
    replace (mirror (mkV3 3 3 2) (mkV3 1 0 0)) with (mkV3 (2 / 11) (- (9 / 11)) (- (6 / 11))) by (unfold mirror, vdot; apply V3_ext; simpl; field).
    replace (mirror (mkV3 3 3 2) a) with (mkV3 (- (6 / 11)) (- (6 / 11)) (7 / 11)) by (unfold a, mirror, vdot; apply V3_ext; simpl; field).
    unfold mirror, vdot. apply V3_ext; simpl; field. }
  eexists _, _, _, _. split; [exact Em|]. split; [exact Em'|]. split; [|split].
  - apply (between_eval eps res c T a He Hr 0 u 0 (mkV3 (2 / 3) (2 / 3) (1 / 3)) ltac:(lia)); [rewrite ratio_0; split; [lra|unfold u; simpl] |exact Dh| |].
    + unfold Rdiv. apply Rmult_lt_compat_r; [apply Rinv_0_lt_compat; exact Rp|lra].
    + rewrite V0. unfold vdot; simpl; lra.
    + rewrite V0, W0. unfold vdot; simpl; lra.
  - apply (between_eval eps res c' (rT res T) b He Hr 0 (1 - u) (res - 1) (vopp (mkV3 (2 / 3) (2 / 3) (1 / 3))) ltac:(lia)); [|exact Dh'| |].
    + replace (S (res - 1)) with res by lia. rewrite ratio_1 by exact Hr. split; [|lra].
      rewrite <- (ratio_back res Hr 1) by lia. unfold u. simpl. unfold Rdiv. assert (0 < / INR res) by (apply Rinv_0_lt_compat; exact Rp). lra.
    + rewrite V1. unfold vdot; simpl; lra.
    + rewrite V1, Tl, W1. unfold vdot; simpl; lra.
  - rewrite V0, W0, V1, Tl, W1, !Rmult_0_r, !rotate_zero, Sn, N1. cbn [sn]. intros E. apply (f_equal vx) in E.
    assert (F1 : vx (turn (mkV3 (3 / 2) (3 / 4) (1 / 4)) (mkV3 (2 / 3 + 13 / 23) (2 / 3 + 18 / 23) (1 / 3 + 6 / 23)) a) = - (122 / 411)) by (unfold turn, mirror, vdot, a; simpl; field).
    rewrite F1 in E. clear F1. match type of E with _ = vx ?x => assert (F2 : vx x = - (87382 / 272487)) by (unfold turn, mirror, vdot; simpl; field) end.
    rewrite F2 in E. lra.
Qed.
Print Assumptions C81_between.
