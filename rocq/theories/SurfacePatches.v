(** The transfinite patches on the boundary of the domain. *)
Require Import Verif.Base Verif.UtilModel Verif.DomainModel Verif.DomainPolygons Verif.ParamModel Verif.ParamSide
  Verif.RibbonModel Verif.SurfaceModel Verif.SurfaceSpec Verif.BlendProofs Verif.SurfaceProofs.
Require Import Reals List Lia Lra Psatz.
Import ListNotations.
Open Scope R_scope.

Lemma hermite0_0 : hermite 0 0 = 1. Proof. simpl; ring. Qed.
Lemma hermite0_1 : hermite 0 1 = 0. Proof. simpl; ring. Qed.
Lemma hermite0_sym : forall t, hermite 0 (1 - t) = 1 - hermite 0 t.
Proof. intros t; simpl; ring. Qed.

Lemma some_tab_nth : forall b n w i, Some b = Some (tabulate n w) -> (i < n)%nat -> nth i b 0 = w i.
Proof. intros b n w i E Hi. injection E as ->. apply nth_error_nth. apply (tabulate_nth_error R n w i Hi). Qed.

(** ** Side-based patch *)
Section Side.
Variables (eps : R) (sf : surf).
Hypothesis Heps : 0 < eps.
Let n := sf_n sf.
Hypothesis Hlen : length (sf_ribbons sf) = n.
Hypothesis Hcross : crosses_defined (sf_ribbons sf).
Variable (sds : list V2).
Hypothesis Lsd : length sds = n.
Hypothesis Hnn : forall i sd, nth_error sds i = Some sd -> 0 <= py sd.

Lemma dist_nonneg : forall i, (i < n)%nat -> 0 <= dpar sds i.
Proof. intros i Hi. rewrite <- Lsd in Hi. exact (Hnn i _ (nth_sd sds i Hi)). Qed.

Lemma sideBased_value : (0 < n)%nat -> exists b, blendSideSingular eps sds = Some b /\ length b = n /\
  sideBased eps sf sds = Some (vsum n (fun i => siv sf i (spar sds i) (dpar sds i) *v nth i b 0)).
Proof.
  intros Hn. destruct (sideSingular_partition eps sds Heps ltac:(lia)) as (b & E & Lb & _ & _).
  exists b. split; [exact E|]. rewrite Lsd in Lb. split; [exact Lb|].
  unfold sideBased. rewrite E. cbn [bind]. apply osum_total. fold n. intros i Hi.
  rewrite nth_sd by lia. cbn [bind px py]. rewrite (nth_error_nth' b 0) by lia. cbn [bind].
  rewrite (side_value sf Hlen Hcross i); [reflexivity|exact Hi|]. apply gok_nonneg. apply dist_nonneg; exact Hi.
Qed.

Lemma sideBased_boundary : forall e s, (e < n)%nat -> 0 <= s <= 1 -> nth_error sds e = Some (mkV2 s 0) ->
  others_far eps e sds -> sideBased eps sf sds = Some (cv sf e s).
Proof.
  intros e s He Hs Ee F. destruct (sideBased_value ltac:(lia)) as (b & E & Lb & ->).
  apply (f_equal Some). pose proof (sideSingular_value eps sds Heps ltac:(lia)) as V. cbn zeta in V.
  assert (De : dpar sds e = 0 /\ spar sds e = s).
  { rewrite nth_sd in Ee by lia. injection Ee as A B. auto. }
  assert (C : closeCount eps sds = 1%nat).
  { apply (close_one eps sds e); [lia|lra|]. intros j Hj Hne. apply (F j _ (nth_sd sds j Hj) Hne). }
  pose proof (closeCount_rsum eps sds) as CR. rewrite C in V, CR. rewrite <- CR in V. cbn [Nat.ltb Nat.leb] in V.
  rewrite E in V.
  assert (W : forall i, (i < n)%nat -> nth i b 0 = isclose eps sds i).
  { intros i Hi. rewrite (some_tab_nth b _ _ i V) by lia. simpl. field. }
  rewrite (vsum_single n _ e He).
  - rewrite (W e He). destruct De as [D1 D2]. rewrite D1, D2, siv_boundary, clamp_id by lra.
    unfold isclose. rewrite D1. destruct (Rlt_dec 0 eps); [v3ring|lra].
  - intros j Hj Hne. rewrite (W j Hj). unfold isclose. destruct (Rlt_dec (dpar sds j) eps) as [L|_]; [|v3ring].
    assert (X := F j _ (nth_sd sds j ltac:(lia)) Hne). cbn [py] in X. lra.
Qed.

(** At a corner two sides share the weight. *)
Lemma sideBased_corner : forall e, (2 <= n)%nat -> (e < n)%nat -> cv sf (prv n e) 1 = cv sf e 0 ->
  nth_error sds e = Some (mkV2 0 0) -> nth_error sds (prv n e) = Some (mkV2 1 0) ->
  (forall j sd, nth_error sds j = Some sd -> j <> e -> j <> prv n e -> eps <= py sd) ->
  sideBased eps sf sds = Some (cv sf e 0).
Proof.
  intros e H2 He Cl Ee Ep F. destruct (sideBased_value ltac:(lia)) as (b & E & Lb & ->).
  apply (f_equal Some). pose proof (sideSingular_value eps sds Heps ltac:(lia)) as V. cbn zeta in V.
  pose proof (prv_lt n e ltac:(lia)) as Lp. pose proof (prv_neq n e H2 He) as Np.
  rewrite nth_sd in Ee by lia. rewrite nth_sd in Ep by lia. injection Ee as A0 A1. injection Ep as B0 B1.
  assert (CP : (0 < closeCount eps sds)%nat) by (apply (close_some eps sds e); [lia|lra]).
  destruct (Nat.ltb_spec 0 (closeCount eps sds)); [|lia].
  assert (IY : isclose eps sds e = 1 /\ isclose eps sds (prv n e) = 1).
  { unfold isclose. rewrite A1, B1. destruct (Rlt_dec 0 eps); [split; reflexivity|lra]. }
  assert (IN : forall j, (j < n)%nat -> j <> e -> j <> prv n e -> isclose eps sds j = 0).
  { intros j Hj J1 J2. unfold isclose. destruct (Rlt_dec (dpar sds j) eps) as [L|]; [|reflexivity].
    assert (X := F j _ (nth_sd sds j ltac:(lia)) J1 J2). cbn [py] in X. lra. }
  assert (SUM : rsum (length sds) (isclose eps sds) = 2).
  { rewrite Lsd, (rsum_double n _ e (prv n e)); auto. destruct IY as [-> ->]. ring. }
  rewrite SUM in V. rewrite E in V.
  assert (W : forall i, (i < n)%nat -> nth i b 0 = isclose eps sds i / 2).
  { intros i Hi. rewrite (some_tab_nth b _ _ i V) by lia. reflexivity. }
  destruct IY as [Y1 Y2]. rewrite (vsum_double n _ e (prv n e)); auto.
  - rewrite (W e He), (W (prv n e) Lp), Y1, Y2, A0, A1, B0, B1, !siv_boundary, !clamp_id by lra. rewrite Cl. v3field.
  - intros j Hj J1 J2. rewrite (W j Hj), (IN j Hj J1 J2). v3field.
Qed.
End Side.

(** ** Patches with corner data *)
Section Patches.
Variables (eps : R) (sf : surf).
Hypothesis Heps : 0 < eps.
Let n := sf_n sf.
Hypothesis H3 : (3 <= n)%nat.
Hypothesis Hready : ready sf.
Variable (sds : list V2).
Hypothesis Lsd : length sds = n.
Hypothesis Htame : tame sds.

Let Hlen : length (sf_ribbons sf) = n.
Proof. apply Hready. Qed.
Let Hcross : crosses_defined (sf_ribbons sf).
Proof. apply Hready. Qed.
Let H2 : (2 <= sf_n sf)%nat.
Proof. fold n; lia. Qed.

Let ts : forall i, (i < n)%nat -> 0 <= spar sds i <= 1 /\ 0 <= dpar sds i.
Proof. intros i Hi. rewrite <- Lsd in Hi. destruct (Htame i _ (nth_sd sds i Hi)) as [A B]. split; assumption. Qed.

Lemma civ : exists f, forall i, (i < n)%nat -> cornerInterpolant eps sf i sds = Some (f i).
Proof.
  exists (fun i => match cornerInterpolant eps sf i sds with Some p => p | None => vzero end).
  intros i Hi. destruct (interp_total eps sf Heps Hlen Hcross H2 Hready i sds Hi Lsd Htame) as [p ->]. reflexivity.
Qed.

(** The corner blends on a side: only the two corners of that side count. *)
Lemma blend_on_side : forall e, (e < n)%nat -> dpar sds e = 0 -> others_far eps e sds ->
  exists b we wp, blendCorner eps n sds = Some b /\ length b = n /\ we + wp = 1 /\
    nth e b 0 = we /\ nth (prv n e) b 0 = wp /\ (forall i, (i < n)%nat -> i <> e -> i <> prv n e -> nth i b 0 = 0).
Proof.
  intros e He De F. destruct (corner_one eps sds n Heps Lsd ltac:(lia) e He ltac:(lra)) as (A & B & E).
  { intros j Hj Hne. apply (F j _ (nth_sd sds j ltac:(lia)) Hne). }
  set (a := 1 / dpar sds (nxt n e) ^ 2) in *. set (b := 1 / dpar sds (prv n e) ^ 2) in *.
  eexists; exists (a / (a + b)), (b / (b + a)). split; [exact E|]. split; [apply tabulate_length|].
  assert (W : forall i, (i < n)%nat -> nth i (tabulate n (fun i => if Nat.eqb i e then a / (a + b)
     else if Nat.eqb i (prv n e) then b / (b + a) else 0)) 0 = if Nat.eqb i e then a / (a + b)
     else if Nat.eqb i (prv n e) then b / (b + a) else 0).
  { intros i Hi. apply nth_error_nth. rewrite (tabulate_nth_error R n _ i Hi). reflexivity. }
  pose proof (prv_neq n e ltac:(lia) He). pose proof (prv_lt n e ltac:(lia)).
  split; [field; lra|]. rewrite !W by assumption. rewrite !Nat.eqb_refl. split; [reflexivity|].
  split; [destruct (Nat.eqb_spec (prv n e) e); [contradiction|reflexivity]|].
  intros i Hi I1 I2. rewrite (W i Hi). destruct (Nat.eqb_spec i e); [contradiction|].
  destruct (Nat.eqb_spec i (prv n e)); [contradiction|reflexivity].
Qed.

(** The corner blends at a corner. *)
Lemma blend_at_corner : forall e, (e < n)%nat -> dpar sds e = 0 -> dpar sds (prv n e) = 0 ->
  (forall j sd, nth_error sds j = Some sd -> j <> e -> j <> prv n e -> eps <= py sd) ->
  exists b, blendCorner eps n sds = Some b /\ length b = n /\
    nth (prv n e) b 0 = 1 /\ (forall i, (i < n)%nat -> i <> prv n e -> nth i b 0 = 0).
Proof.
  intros e He De Dp F. pose proof (prv_lt n e ltac:(lia)) as Lp.
  assert (E := corner_adjacent eps sds n Lsd H2 H3 (prv n e) Lp). rewrite (nxt_prv n e He) in E.
  rewrite E; [|lra|lra|intros j Hj J1 J2; apply (F j _ (nth_sd sds j ltac:(lia)) J2 J1)].
  eexists; split; [reflexivity|]. split; [apply tabulate_length|].
  assert (W : forall i, (i < n)%nat -> nth i (tabulate n (fun i => if Nat.eqb i (prv n e) then 1 else 0)) 0 =
    if Nat.eqb i (prv n e) then 1 else 0).
  { intros i Hi. apply nth_error_nth. rewrite (tabulate_nth_error R n _ i Hi). reflexivity. }
  split; [rewrite (W _ Lp), Nat.eqb_refl; reflexivity|].
  intros i Hi I. rewrite (W i Hi). destruct (Nat.eqb_spec i (prv n e)); [contradiction|reflexivity].
Qed.

Lemma sd_at : forall i a b, (i < n)%nat -> nth_error sds i = Some (mkV2 a b) -> spar sds i = a /\ dpar sds i = b.
Proof. intros i a b Hi E. rewrite nth_sd in E by lia. injection E as A B. auto. Qed.

(** *** Corner-based *)
Lemma cornerBased_value : forall b, blendCorner eps n sds = Some b -> length b = n ->
  forall f, (forall i, (i < n)%nat -> cornerInterpolant eps sf i sds = Some (f i)) ->
  cornerBased eps sf sds = Some (vsum n (fun i => f i *v nth i b 0)).
Proof.
  intros b E Lb f Hf. unfold cornerBased. fold n. rewrite E. cbn [bind]. apply osum_total. intros i Hi.
  rewrite (nth_error_nth' b 0) by lia. cbn [bind]. rewrite (Hf i Hi). reflexivity.
Qed.

Lemma cornerBased_boundary : forall e s, (e < n)%nat -> 0 <= s <= 1 -> boundary_sds n e s sds ->
  others_far eps e sds -> cornerBased eps sf sds = Some (cv sf e s).
Proof.
  intros e s He Hs (_ & Ee & (dn & En) & (dp & Ep)) F. destruct (sd_at e s 0 He Ee) as [_ De].
  destruct (blend_on_side e He De F) as (b & we & wp & E & Lb & W & We & Wp & W0). destruct civ as [f Hf].
  rewrite (cornerBased_value b E Lb f Hf). apply (f_equal Some).
  pose proof (prv_lt n e ltac:(lia)) as Lp. pose proof (prv_neq n e ltac:(lia) He) as Np.
  assert (Fe := interp_first eps sf Heps Hlen Hcross H2 Hready e sds s 0 dn He Hs Ee En).
  rewrite (Hf e He) in Fe. injection Fe as Fe.
  assert (Fp := interp_second eps sf Heps Hlen Hcross H2 Hready (prv n e) sds s dp 0 Lp Hs Ep).
  fold n in Fp. rewrite (nxt_prv n e He) in Fp. specialize (Fp Ee). rewrite (Hf _ Lp) in Fp. injection Fp as Fp.
  rewrite (vsum_double n _ e (prv n e)); auto.
  - rewrite Fe, Fp, We, Wp. replace wp with (1 - we) by lra. v3ring.
  - intros k Hk K1 K2. rewrite (W0 k Hk K1 K2). v3ring.
Qed.

Lemma cornerBased_corner : forall e, (e < n)%nat -> 
  nth_error sds e = Some (mkV2 0 0) -> nth_error sds (prv n e) = Some (mkV2 1 0) ->
  (forall j sd, nth_error sds j = Some sd -> j <> e -> j <> prv n e -> eps <= py sd) ->
  cornerBased eps sf sds = Some (cv sf e 0).
Proof.
  intros e He Ee Ep F. pose proof (prv_lt n e ltac:(lia)) as Lp.
  destruct (sd_at e 0 0 He Ee) as [_ De]. destruct (sd_at _ 1 0 Lp Ep) as [_ Dp].
  destruct (blend_at_corner e He De Dp F) as (b & E & Lb & W1 & W0). destruct civ as [f Hf].
  rewrite (cornerBased_value b E Lb f Hf). apply (f_equal Some).
  assert (Fp := interp_second eps sf Heps Hlen Hcross H2 Hready (prv n e) sds 0 0 0 Lp ltac:(lra) Ep).
  fold n in Fp. rewrite (nxt_prv n e He) in Fp. specialize (Fp Ee). rewrite (Hf _ Lp) in Fp. injection Fp as Fp.
  rewrite (vsum_single n _ (prv n e) Lp).
  - rewrite Fp, W1. v3ring.
  - intros k Hk K1. rewrite (W0 k Hk K1). v3ring.
Qed.

(** *** Generalized Coons and midpoint Coons: the common loop body *)
Lemma coonsTerm_value : forall b, length b = n -> exists c, 
  (forall i, (i < n)%nat -> cornerCorrection eps sf i (1 - spar sds i) (spar sds (nxt n i)) = Some (c i)) /\
  osum n (coonsTerm eps sf sds b) = Some (vsum n (fun i =>
    siv sf i (spar sds i) (dpar sds i) *v (nth i b 0 + nth (prv n i) b 0) -v c i *v nth i b 0)).
Proof.
  intros b Lb.
  assert (T : forall i, (i < n)%nat -> exists p, cornerCorrection eps sf i (1 - spar sds i) (spar sds (nxt n i)) = Some p).
  { intros i Hi. destruct (ts i Hi). destruct (ts (nxt n i) (nxt_lt n i ltac:(lia))).
    apply (correction_total eps sf Heps Hlen Hcross H2 Hready i); [exact Hi| |]; apply gok_nonneg; lra. }
  set (c := fun i => match cornerCorrection eps sf i (1 - spar sds i) (spar sds (nxt n i)) with Some p => p | None => vzero end).
  assert (Hc : forall i, (i < n)%nat -> cornerCorrection eps sf i (1 - spar sds i) (spar sds (nxt n i)) = Some (c i)).
  { intros i Hi. unfold c. destruct (T i Hi) as [p ->]. reflexivity. }
  exists c. split; [exact Hc|]. apply osum_total. intros i Hi. unfold coonsTerm. fold n.
  pose proof (nxt_lt n i ltac:(lia)). pose proof (prv_lt n i ltac:(lia)).
  rewrite !nth_sd by lia. cbn [bind px py]. rewrite !(nth_error_nth' b 0) by lia. cbn [bind].
  rewrite (side_value sf Hlen Hcross i); [|exact Hi|apply gok_nonneg; apply ts; exact Hi]. cbn [bind].
  rewrite (Hc i Hi). reflexivity.
Qed.

(** On a side, with the weights of that side's two corners adding up to one. *)
Lemma coons_on_side : forall e s b we wp, (e < n)%nat -> 0 <= s <= 1 -> constrained_sds n e s sds -> length b = n ->
  we + wp = 1 -> nth e b 0 = we -> nth (prv n e) b 0 = wp ->
  (forall i, (i < n)%nat -> i <> e -> i <> prv n e -> nth i b 0 = 0) ->
  osum n (coonsTerm eps sf sds b) = Some (cv sf e s).
Proof.
  intros e s b we wp He Hs (_ & Ee & En & Ep) Lb W We Wp W0. destruct (coonsTerm_value b Lb) as (c & Hc & ->).
  apply (f_equal Some). pose proof (prv_lt n e ltac:(lia)) as Lp. pose proof (nxt_lt n e ltac:(lia)) as Ln.
  pose proof (prv_neq n e ltac:(lia) He) as Np. pose proof (nxt_neq n e ltac:(lia) He) as Nn.
  pose proof (nxt_prv_neq n e H3 He) as Nnp.
  destruct (sd_at e _ _ He Ee) as [S0 D0]. destruct (sd_at _ _ _ Ln En) as [S1 D1]. destruct (sd_at _ _ _ Lp Ep) as [S2 D2].
  assert (Ce := Hc e He). rewrite S0, S1 in Ce.
  rewrite (correction_first eps sf Heps Hlen Hcross H2 Hready e (1 - s) He ltac:(lra)) in Ce. injection Ce as Ce.
  assert (Cp := Hc _ Lp). rewrite (nxt_prv n e He), S0, S2 in Cp. replace (1 - 1) with 0 in Cp by ring.
  rewrite (correction_second eps sf Heps Hlen Hcross H2 Hready (prv n e) s Lp ltac:(lra)) in Cp. injection Cp as Cp.
  rewrite (vsum_triple n _ e (nxt n e) (prv n e)); auto.
  - rewrite S0, D0, S1, D1, S2, D2, <- Ce, <- Cp, (prv_nxt n e He), We, Wp, siv_boundary, clamp_id by lra. fold n.
    assert (X : nth (nxt n e) b 0 = 0) by (apply W0; auto).
    assert (Y : nth (prv n (prv n e)) b 0 = 0).
    { apply W0; [apply prv_lt; lia| |apply prv_neq; [lia|exact Lp]].
      intros E. apply Nnp. rewrite <- E at 1. apply nxt_prv. exact Lp. }
    rewrite X, Y. replace wp with (1 - we) by lra. v3ring.
  - intros k Hk K1 K2 K3. rewrite (W0 k Hk K1 K3).
    assert (X : nth (prv n k) b 0 = 0).
    { apply W0; [apply prv_lt; lia| |].
      - intros E. apply K2. rewrite <- E. rewrite nxt_prv by exact Hk. reflexivity.
      - intros E. apply K1. rewrite <- (nxt_prv n k Hk), E. apply nxt_prv. exact He. }
    rewrite X. v3ring.
Qed.

Lemma coons_at_corner : forall e b, (e < n)%nat -> 
  nth_error sds e = Some (mkV2 0 0) -> nth_error sds (prv n e) = Some (mkV2 1 0) -> length b = n ->
  nth (prv n e) b 0 = 1 -> (forall i, (i < n)%nat -> i <> prv n e -> nth i b 0 = 0) ->
  osum n (coonsTerm eps sf sds b) = Some (cv sf e 0).
Proof.
  intros e b He Ee Ep Lb W1 W0. destruct (coonsTerm_value b Lb) as (c & Hc & ->).
  apply (f_equal Some). pose proof (prv_lt n e ltac:(lia)) as Lp.
  pose proof (prv_neq n e ltac:(lia) He) as Np.
  destruct (sd_at e _ _ He Ee) as [S0 D0]. destruct (sd_at _ _ _ Lp Ep) as [S2 D2].
  assert (Cp := Hc _ Lp). rewrite (nxt_prv n e He), S0, S2 in Cp. replace (1 - 1) with 0 in Cp by ring.
  rewrite (correction_second eps sf Heps Hlen Hcross H2 Hready (prv n e) 0 Lp ltac:(lra)) in Cp. injection Cp as Cp.
  rewrite siv_boundary, clamp_1 in Cp.
  rewrite (vsum_double n _ e (prv n e)); auto.
  - rewrite S0, D0, S2, D2, <- Cp, !siv_boundary, clamp_0, clamp_1, W1, (W0 e He) by auto.
    rewrite (W0 (prv n (prv n e))); [|apply prv_lt; lia|apply prv_neq; [lia|exact Lp]]. v3ring.
  - intros k Hk K1 K2. rewrite (W0 k Hk K2).
    rewrite (W0 (prv n k)); [v3ring|apply prv_lt; lia|].
    intros E. apply K1. rewrite <- (nxt_prv n k Hk), E. apply nxt_prv. exact He.
Qed.

Lemma generalizedCoons_boundary : forall e s, (e < n)%nat -> 0 <= s <= 1 -> constrained_sds n e s sds ->
  others_far eps e sds -> generalizedCoons eps sf sds = Some (cv sf e s).
Proof.
  intros e s He Hs B F. assert (Ee := proj1 (proj2 B)). destruct (sd_at e s 0 He Ee) as [_ De].
  destruct (blend_on_side e He De F) as (b & we & wp & E & Lb & W & We & Wp & W0).
  unfold generalizedCoons. fold n. rewrite E. cbn [bind].
  apply (coons_on_side e s b we wp); assumption.
Qed.

Lemma generalizedCoons_corner : forall e, (e < n)%nat -> 
  nth_error sds e = Some (mkV2 0 0) -> nth_error sds (prv n e) = Some (mkV2 1 0) ->
  (forall j sd, nth_error sds j = Some sd -> j <> e -> j <> prv n e -> eps <= py sd) ->
  generalizedCoons eps sf sds = Some (cv sf e 0).
Proof.
  intros e He Ee Ep F. pose proof (prv_lt n e ltac:(lia)) as Lp.
  destruct (sd_at e 0 0 He Ee) as [_ De]. destruct (sd_at _ 1 0 Lp Ep) as [_ Dp].
  destruct (blend_at_corner e He De Dp F) as (b & E & Lb & W1 & W0).
  unfold generalizedCoons. fold n. rewrite E. cbn [bind]. apply coons_at_corner; assumption.
Qed.

(** *** Composite ribbons *)
Lemma composite_total : forall i sd, (i < n)%nat -> 0 <= px sd <= 1 -> 0 <= py sd -> exists p, compositeRibbon eps sf i sd = Some p.
Proof.
  intros i sd Hi Hs Hd. unfold compositeRibbon. fold n. pose proof (nxt_lt n i ltac:(lia)). pose proof (prv_lt n i ltac:(lia)).
  rewrite !(side_value sf Hlen Hcross) by (assumption || (apply gok_nonneg; lra)). cbn [bind].
  destruct (correction_total eps sf Heps Hlen Hcross H2 Hready (prv n i) (py sd) (px sd)) as [p ->]; try assumption; try (apply gok_nonneg; lra).
  destruct (correction_total eps sf Heps Hlen Hcross H2 Hready i (1 - px sd) (py sd)) as [q ->]; try assumption; try (apply gok_nonneg; lra).
  cbn [bind]. eexists; reflexivity.
Qed.

(** The three boundaries of a composite ribbon. *)
Lemma composite_base : forall i s, (i < n)%nat -> 0 <= s <= 1 -> compositeRibbon eps sf i (mkV2 s 0) = Some (cv sf i s).
Proof.
  intros i s Hi Hs. unfold compositeRibbon. fold n. cbn [px py]. pose proof (nxt_lt n i ltac:(lia)). pose proof (prv_lt n i ltac:(lia)).
  rewrite !(side_value sf Hlen Hcross) by (assumption || (apply gok_nonneg; lra)). cbn [bind].
  rewrite (correction_second eps sf Heps Hlen Hcross H2 Hready (prv n i) s) by assumption. cbn [bind].
  rewrite (correction_first eps sf Heps Hlen Hcross H2 Hready i (1 - s)) by (assumption || lra). cbn [bind].
  fold n. replace (1 - 0) with 1 by ring. rewrite hermite0_0, siv_boundary, clamp_id by lra.
  apply (f_equal Some). v3ring.
Qed.

Lemma composite_left : forall i d, (i < n)%nat -> 0 <= d <= 1 ->
  compositeRibbon eps sf i (mkV2 0 d) = Some (cv sf (prv n i) (1 - d)).
Proof.
  intros i d Hi Hd. unfold compositeRibbon. fold n. cbn [px py]. pose proof (nxt_lt n i ltac:(lia)). pose proof (prv_lt n i ltac:(lia)) as Lp.
  rewrite !(side_value sf Hlen Hcross) by (assumption || (apply gok_nonneg; lra)). cbn [bind].
  rewrite (correction_first eps sf Heps Hlen Hcross H2 Hready (prv n i) d) by assumption. cbn [bind].
  fold n. rewrite (nxt_prv n i Hi).
  destruct (correction_total eps sf Heps Hlen Hcross H2 Hready i (1 - 0) d) as [q ->]; try assumption; try (apply gok_nonneg; lra).
  cbn [bind]. rewrite hermite0_0, siv_boundary, clamp_id by lra.
  apply (f_equal Some). v3ring.
Qed.

Lemma composite_right : forall i d, (i < n)%nat -> 0 <= d <= 1 ->
  compositeRibbon eps sf i (mkV2 1 d) = Some (cv sf (nxt n i) d).
Proof.
  intros i d Hi Hd. unfold compositeRibbon. fold n. cbn [px py]. pose proof (nxt_lt n i ltac:(lia)). pose proof (prv_lt n i ltac:(lia)) as Lp.
  rewrite !(side_value sf Hlen Hcross) by (assumption || (apply gok_nonneg; lra)). cbn [bind].
  destruct (correction_total eps sf Heps Hlen Hcross H2 Hready (prv n i) d 1) as [q ->]; try assumption; try (apply gok_nonneg; lra).
  cbn [bind]. replace (1 - 1) with 0 by ring.
  rewrite (correction_second eps sf Heps Hlen Hcross H2 Hready i d) by assumption. cbn [bind].
  rewrite hermite0_1, siv_boundary, (clamp_id d) by lra.
  apply (f_equal Some). v3ring.
Qed.

Lemma compositePatch_value : forall b, blendCorner eps n sds = Some b -> length b = n -> exists f,
  (forall i, (i < n)%nat -> compositeRibbon eps sf i (mkV2 (spar sds i) (dpar sds i)) = Some (f i)) /\
  compositeRibbonPatch eps sf sds = Some (vsum n (fun i => f i *v (nth i b 0 + nth (prv n i) b 0)) *v / 2).
Proof.
  intros b E Lb.
  set (f := fun i => match compositeRibbon eps sf i (mkV2 (spar sds i) (dpar sds i)) with Some p => p | None => vzero end).
  assert (Hf : forall i, (i < n)%nat -> compositeRibbon eps sf i (mkV2 (spar sds i) (dpar sds i)) = Some (f i)).
  { intros i Hi. unfold f. destruct (ts i Hi) as [A B].
    destruct (composite_total i (mkV2 (spar sds i) (dpar sds i)) Hi A B) as [p ->]. reflexivity. }
  exists f; split; [exact Hf|]. unfold compositeRibbonPatch. fold n. rewrite E. cbn [bind].
  rewrite (osum_total n _ (fun i => f i *v (nth i b 0 + nth (prv n i) b 0))); [reflexivity|].
  intros i Hi. pose proof (prv_lt n i ltac:(lia)). rewrite nth_sd by lia. cbn [bind].
  rewrite !(nth_error_nth' b 0) by lia. cbn [bind]. rewrite (Hf i Hi). reflexivity.
Qed.

Lemma compositePatch_boundary : forall e s, (e < n)%nat -> 0 <= s <= 1 -> constrained_sds n e s sds ->
  others_far eps e sds -> compositeRibbonPatch eps sf sds = Some (cv sf e s).
Proof.
  intros e s He Hs (_ & Ee & En & Ep) F.
  pose proof (prv_lt n e ltac:(lia)) as Lp. pose proof (nxt_lt n e ltac:(lia)) as Ln.
  pose proof (prv_neq n e ltac:(lia) He) as Np. pose proof (nxt_neq n e ltac:(lia) He) as Nn.
  pose proof (nxt_prv_neq n e H3 He) as Nnp.
  destruct (sd_at e _ _ He Ee) as [S0 D0]. destruct (sd_at _ _ _ Ln En) as [S1 D1]. destruct (sd_at _ _ _ Lp Ep) as [S2 D2].
  destruct (blend_on_side e He D0 F) as (b & we & wp & E & Lb & W & We & Wp & W0).
  destruct (compositePatch_value b E Lb) as (f & Hf & ->). apply (f_equal Some).
  assert (Fe := Hf e He). rewrite S0, D0, (composite_base e s He Hs) in Fe. injection Fe as Fe.
  assert (Fn := Hf _ Ln). rewrite S1, D1, (composite_left _ (1 - s) Ln ltac:(lra)), (prv_nxt n e He) in Fn.
  injection Fn as Fn. replace (1 - (1 - s)) with s in Fn by ring.
  assert (Fp := Hf _ Lp). rewrite S2, D2, (composite_right _ s Lp ltac:(lra)), (nxt_prv n e He) in Fp.
  injection Fp as Fp.
  rewrite (vsum_triple n _ e (nxt n e) (prv n e)); auto.
  - rewrite <- Fe, <- Fn, <- Fp, (prv_nxt n e He), We, Wp.
    assert (X : nth (nxt n e) b 0 = 0) by (apply W0; auto).
    assert (Y : nth (prv n (prv n e)) b 0 = 0).
    { apply W0; [apply prv_lt; lia| |apply prv_neq; [lia|exact Lp]].
      intros E'. apply Nnp. rewrite <- E' at 1. apply nxt_prv. exact Lp. }
    rewrite X, Y. replace wp with (1 - we) by lra. v3field.
  - intros k Hk K1 K2 K3. rewrite (W0 k Hk K1 K3).
    assert (X : nth (prv n k) b 0 = 0).
    { apply W0; [apply prv_lt; lia| |].
      - intros E'. apply K2. rewrite <- E'. rewrite nxt_prv by exact Hk. reflexivity.
      - intros E'. apply K1. rewrite <- (nxt_prv n k Hk), E'. apply nxt_prv. exact He. }
    rewrite X. v3ring.
Qed.

Lemma compositePatch_corner : forall e, (e < n)%nat -> 
  nth_error sds e = Some (mkV2 0 0) -> nth_error sds (prv n e) = Some (mkV2 1 0) ->
  (forall j sd, nth_error sds j = Some sd -> j <> e -> j <> prv n e -> eps <= py sd) ->
  compositeRibbonPatch eps sf sds = Some (cv sf e 0).
Proof.
  intros e He Ee Ep F. pose proof (prv_lt n e ltac:(lia)) as Lp. pose proof (prv_neq n e ltac:(lia) He) as Np.
  destruct (sd_at e 0 0 He Ee) as [S0 D0]. destruct (sd_at _ 1 0 Lp Ep) as [S2 D2].
  destruct (blend_at_corner e He D0 D2 F) as (b & E & Lb & W1 & W0).
  destruct (compositePatch_value b E Lb) as (f & Hf & ->). apply (f_equal Some).
  assert (Fe := Hf e He). rewrite S0, D0, (composite_base e 0 He ltac:(lra)) in Fe. injection Fe as Fe.
  assert (Fp := Hf _ Lp). rewrite S2, D2, (composite_right _ 0 Lp ltac:(lra)), (nxt_prv n e He) in Fp.
  injection Fp as Fp.
  rewrite (vsum_double n _ e (prv n e)); auto.
  - rewrite <- Fe, <- Fp, W1, (W0 e He) by auto.
    rewrite (W0 (prv n (prv n e))); [|apply prv_lt; lia|apply prv_neq; [lia|exact Lp]]. v3field.
  - intros k Hk K1 K2. rewrite (W0 k Hk K2).
    rewrite (W0 (prv n k)); [v3ring|apply prv_lt; lia|].
    intros E'. apply K1. rewrite <- (nxt_prv n k Hk), E'. apply nxt_prv. exact He.
Qed.

(** *** Midpoint patches *)

Definition wdef (i : nat) : R :=
  if Rlt_dec (dpar sds i) eps then
    if Rlt_dec (dpar sds (nxt n i)) eps then 1
    else (dpar sds (nxt n i) * hermite 0 (1 - spar sds i) * hermite 0 (dpar sds i)
          + dpar sds i * hermite 0 (spar sds (nxt n i)) * hermite 0 (dpar sds (nxt n i))) / (dpar sds i + dpar sds (nxt n i))
  else (dpar sds (nxt n i) * hermite 0 (1 - spar sds i) * hermite 0 (dpar sds i)
          + dpar sds i * hermite 0 (spar sds (nxt n i)) * hermite 0 (dpar sds (nxt n i))) / (dpar sds i + dpar sds (nxt n i)).

Lemma deficient_value : blendCornerDeficient eps n sds = Some (tabulate n wdef).
Proof.
  unfold blendCornerDeficient. apply mapM_seq. intros i Hi. pose proof (nxt_lt n i ltac:(lia)) as Ln.
  rewrite !nth_sd by lia. cbn [bind px py]. unfold wdef.
  destruct (ts i Hi) as [_ D0]. destruct (ts _ Ln) as [_ D1].
  destruct (Rlt_dec (dpar sds i) eps) as [L0|L0]; [destruct (Rlt_dec (dpar sds (nxt n i)) eps) as [L1|L1]; [reflexivity|]|];
    apply fdiv_some; lra.
Qed.

Lemma wdef_nth : forall i, (i < n)%nat -> nth i (tabulate n wdef) 0 = wdef i.
Proof. intros i Hi. apply nth_error_nth. rewrite (tabulate_nth_error R n _ i Hi). reflexivity. Qed.

(** On a side [e], with the other side distances as in a Wachspress parameterization. *)
Definition far_one (e : nat) : Prop :=
  forall j, (j < n)%nat -> j <> e -> j <> nxt n e -> j <> prv n e -> dpar sds j = 1.

Lemma deficient_on_side : forall e s, eps <= 1 -> (e < n)%nat -> boundary_sds n e s sds -> others_far eps e sds -> far_one e ->
  wdef e = hermite 0 (1 - s) /\ wdef (prv n e) = hermite 0 s /\
  (forall i, (i < n)%nat -> i <> e -> i <> prv n e -> wdef i = 0).
Proof.
  intros e s E1 He (_ & Ee & (dn & En) & (dp & Ep)) F O.
  pose proof (prv_lt n e ltac:(lia)) as Lp. pose proof (nxt_lt n e ltac:(lia)) as Ln.
  pose proof (prv_neq n e ltac:(lia) He) as Np. pose proof (nxt_neq n e ltac:(lia) He) as Nn.
  pose proof (nxt_prv_neq n e H3 He) as Nnp.
  destruct (sd_at e _ _ He Ee) as [S0 D0]. destruct (sd_at _ _ _ Ln En) as [S1 D1]. destruct (sd_at _ _ _ Lp Ep) as [S2 D2].
  assert (Fn := F _ _ En Nn). assert (Fp := F _ _ Ep Np). cbn [py] in Fn, Fp.
  split; [|split].
  - unfold wdef. rewrite S0, D0, S1, D1. destruct (Rlt_dec 0 eps); [|lra]. destruct (Rlt_dec dn eps); [lra|].
    rewrite hermite0_0. field. lra.
  - unfold wdef. rewrite (nxt_prv n e He), S0, D0, S2, D2. destruct (Rlt_dec dp eps); [lra|].
    rewrite hermite0_0. field. lra.
  - intros i Hi I1 I2. pose proof (nxt_lt n i ltac:(lia)) as Li.
    assert (Ie : nxt n i <> e). { intros E. apply I2. rewrite <- E, prv_nxt by exact Hi. reflexivity. }
    assert (F0 := F i _ (nth_sd sds i ltac:(lia)) I1). assert (F1 := F (nxt n i) _ (nth_sd sds (nxt n i) ltac:(lia)) Ie). cbn [py] in F0, F1.
    assert (In1 : nxt n i <> nxt n e) by (intros E; apply I1; apply (nxt_inj n i e Hi He E)).
    (* either i is the next side, with s_i = 0, or its distance is one *)
    assert (A : hermite 0 (1 - spar sds i) * hermite 0 (dpar sds i) = 0).
    { destruct (Nat.eq_dec i (nxt n e)) as [-> |J].
      - rewrite S1. replace (1 - 0) with 1 by ring. rewrite hermite0_1. ring.
      - rewrite (O i Hi I1 J I2), hermite0_1. ring. }
    assert (B : hermite 0 (spar sds (nxt n i)) * hermite 0 (dpar sds (nxt n i)) = 0).
    { destruct (Nat.eq_dec (nxt n i) (prv n e)) as [-> |J].
      - rewrite S2, hermite0_1. ring.
      - rewrite (O _ Li Ie In1 J), hermite0_1. ring. }
    unfold wdef. destruct (Rlt_dec (dpar sds i) eps); [lra|].
    rewrite (Rmult_assoc _ (hermite 0 (1 - spar sds i))), A, (Rmult_assoc _ (hermite 0 (spar sds (nxt n i)))), B. field. lra.
Qed.

Lemma midpoint_boundary : forall cp e s, eps <= 1 -> (e < n)%nat -> 0 <= s <= 1 -> boundary_sds n e s sds -> others_far eps e sds -> far_one e ->
  midpointPatch eps sf cp sds = Some (cv sf e s).
Proof.
  intros cp e s E1 He Hs B F O. destruct (deficient_on_side e s E1 He B F O) as (We & Wp & W0).
  destruct B as (_ & Ee & (dn & En) & (dp & Ep)). destruct civ as [f Hf].
  unfold midpointPatch. fold n. rewrite deficient_value. cbn [bind].
  pose proof (prv_lt n e ltac:(lia)) as Lp. pose proof (prv_neq n e ltac:(lia) He) as Np.
  rewrite (osum_total n _ (fun i => f i *v wdef i)).
  - cbn [bind]. rewrite accumulate_tab. apply (f_equal Some).
    assert (Fe := interp_first eps sf Heps Hlen Hcross H2 Hready e sds s 0 dn He Hs Ee En).
    rewrite (Hf e He) in Fe. injection Fe as Fe.
    assert (Fp := interp_second eps sf Heps Hlen Hcross H2 Hready (prv n e) sds s dp 0 Lp Hs Ep).
    fold n in Fp. rewrite (nxt_prv n e He) in Fp. specialize (Fp Ee). rewrite (Hf _ Lp) in Fp. injection Fp as Fp.
    rewrite (vsum_double n _ e (prv n e)); auto; [|intros k Hk K1 K2; rewrite (W0 k Hk K1 K2); v3ring].
    rewrite (rsum_double n _ e (prv n e)); auto.
    rewrite Fe, Fp, We, Wp, hermite0_sym. v3ring.
  - intros i Hi. rewrite (tabulate_nth_error R n _ i Hi). cbn [bind]. rewrite (Hf i Hi). reflexivity.
Qed.

Lemma midpointCoons_boundary : forall cp e s, eps <= 1 -> (e < n)%nat -> 0 <= s <= 1 -> constrained_sds n e s sds -> others_far eps e sds -> far_one e ->
  midpointCoons eps sf cp sds = Some (cv sf e s).
Proof.
  intros cp e s E1 He Hs B F O. destruct (deficient_on_side e s E1 He (constrained_boundary _ _ _ _ B) F O) as (We & Wp & W0).
  pose proof (prv_lt n e ltac:(lia)) as Lp. pose proof (prv_neq n e ltac:(lia) He) as Np.
  unfold midpointCoons. fold n. rewrite deficient_value. cbn [bind].
  rewrite (coons_on_side e s (tabulate n wdef) (hermite 0 (1 - s)) (hermite 0 s)); try assumption.
  - cbn [bind]. rewrite accumulate_tab. rewrite (rsum_double n _ e (prv n e)); auto.
    rewrite We, Wp, hermite0_sym. apply (f_equal Some). v3ring.
  - apply tabulate_length.
  - rewrite hermite0_sym. ring.
  - rewrite wdef_nth by exact He. exact We.
  - rewrite wdef_nth by exact Lp. exact Wp.
  - intros i Hi I1 I2. rewrite wdef_nth by exact Hi. apply W0; assumption.
Qed.

(** At a corner. *)
Lemma deficient_at_corner : forall e, eps <= 1 -> (e < n)%nat -> nth_error sds e = Some (mkV2 0 0) -> nth_error sds (prv n e) = Some (mkV2 1 0) ->
  (forall j, (j < n)%nat -> j <> e -> j <> prv n e -> dpar sds j = 1) ->
  wdef (prv n e) = 1 /\ (forall i, (i < n)%nat -> i <> prv n e -> wdef i = 0).
Proof.
  intros e E1 He Ee Ep O. pose proof (prv_lt n e ltac:(lia)) as Lp. pose proof (prv_neq n e ltac:(lia) He) as Np.
  destruct (sd_at e _ _ He Ee) as [S0 D0]. destruct (sd_at _ _ _ Lp Ep) as [S2 D2].
  split.
  - unfold wdef. rewrite (nxt_prv n e He), D0, D2. destruct (Rlt_dec 0 eps); [reflexivity|lra].
  - intros i Hi I. pose proof (nxt_lt n i ltac:(lia)) as Li.
    assert (Ie : nxt n i <> e). { intros E. apply I. rewrite <- E, prv_nxt by exact Hi. reflexivity. }
    destruct (Nat.eq_dec i e) as [-> |I1].
    + assert (nxt n e <> prv n e) by (apply nxt_prv_neq; assumption).
      unfold wdef. rewrite S0, D0, (O (nxt n e)) by auto. destruct (Rlt_dec 0 eps); [|lra]. destruct (Rlt_dec 1 eps); [lra|].
      replace (1 - 0) with 1 by ring. rewrite hermite0_1. field.
    + unfold wdef. rewrite (O i Hi I1 I). destruct (Rlt_dec 1 eps); [lra|]. rewrite hermite0_1.
      destruct (Nat.eq_dec (nxt n i) (prv n e)) as [-> |J].
      * rewrite S2, D2, hermite0_1. field.
      * rewrite (O _ Li Ie J), hermite0_1. field.
Qed.

Lemma midpoint_corner : forall cp e, eps <= 1 -> (e < n)%nat -> nth_error sds e = Some (mkV2 0 0) -> nth_error sds (prv n e) = Some (mkV2 1 0) ->
  (forall j, (j < n)%nat -> j <> e -> j <> prv n e -> dpar sds j = 1) ->
  midpointPatch eps sf cp sds = Some (cv sf e 0).
Proof.
  intros cp e E1 He Ee Ep O. destruct (deficient_at_corner e E1 He Ee Ep O) as (W1 & W0). destruct civ as [f Hf].
  unfold midpointPatch. fold n. rewrite deficient_value. cbn [bind].
  pose proof (prv_lt n e ltac:(lia)) as Lp.
  rewrite (osum_total n _ (fun i => f i *v wdef i)).
  - cbn [bind]. rewrite accumulate_tab. apply (f_equal Some).
    assert (Fp := interp_second eps sf Heps Hlen Hcross H2 Hready (prv n e) sds 0 0 0 Lp ltac:(lra) Ep).
    fold n in Fp. rewrite (nxt_prv n e He) in Fp. specialize (Fp Ee). rewrite (Hf _ Lp) in Fp. injection Fp as Fp.
    rewrite (vsum_single n _ (prv n e) Lp); auto; [|intros k Hk K1; rewrite (W0 k Hk K1); v3ring].
    rewrite (rsum_single n _ (prv n e) Lp); auto.
    rewrite Fp, W1. v3ring.
  - intros i Hi. rewrite (tabulate_nth_error R n _ i Hi). cbn [bind]. rewrite (Hf i Hi). reflexivity.
Qed.

Lemma midpointCoons_corner : forall cp e, eps <= 1 -> (e < n)%nat -> nth_error sds e = Some (mkV2 0 0) -> nth_error sds (prv n e) = Some (mkV2 1 0) ->
  (forall j, (j < n)%nat -> j <> e -> j <> prv n e -> dpar sds j = 1) ->
  midpointCoons eps sf cp sds = Some (cv sf e 0).
Proof.
  intros cp e E1 He Ee Ep O. destruct (deficient_at_corner e E1 He Ee Ep O) as (W1 & W0).
  pose proof (prv_lt n e ltac:(lia)) as Lp.
  unfold midpointCoons. fold n. rewrite deficient_value. cbn [bind].
  rewrite (coons_at_corner e (tabulate n wdef)); try assumption.
  - cbn [bind]. rewrite accumulate_tab. rewrite (rsum_single n _ (prv n e) Lp); auto. rewrite W1. apply (f_equal Some). v3ring.
  - apply tabulate_length.
  - rewrite wdef_nth by exact Lp. exact W1.
  - intros i Hi I. rewrite wdef_nth by exact Hi. apply W0; assumption.
Qed.
End Patches.
