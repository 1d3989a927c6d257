(** The patches with corner data on a whole side of the domain, ends included. *)
Require Import Verif.Base Verif.UtilModel Verif.DomainModel Verif.DomainPolygons Verif.ParamModel Verif.ParamSide
  Verif.RibbonModel Verif.SurfaceModel Verif.SurfaceSpec Verif.BlendProofs Verif.SurfaceProofs Verif.SurfacePatches.
Require Import Reals List Lia Lra Psatz.
Import ListNotations.
Open Scope R_scope.

Section Side.
Variables (eps : R) (sf : surf).
Hypothesis Heps : 0 < eps <= 1/2.
Let n := sf_n sf.
Hypothesis H3 : (3 <= n)%nat.
Hypothesis Hready : ready sf.
Variable (sds : list V2).
Hypothesis Htame : tame sds.
Variables (e : nat) (s : R).
Hypothesis He : (e < n)%nat.
Hypothesis Hs : 0 <= s <= 1.
Hypothesis SC : side_coords eps n e s sds.

Let Hp : 0 < eps. Proof. lra. Qed.
Let Lsd : length sds = n. Proof. apply SC. Qed.
Let Hlen : length (sf_ribbons sf) = n. Proof. apply Hready. Qed.
Let Hcross : crosses_defined (sf_ribbons sf). Proof. apply Hready. Qed.
Let H2 : (2 <= sf_n sf)%nat. Proof. fold n; lia. Qed.
Let Lp : (prv n e < n)%nat. Proof. apply prv_lt; lia. Qed.
Let Ln : (nxt n e < n)%nat. Proof. apply nxt_lt; lia. Qed.
Let Np : prv n e <> e. Proof. apply prv_neq; [lia|exact He]. Qed.
Let Nn : nxt n e <> e. Proof. apply nxt_neq; [lia|exact He]. Qed.
Let Nnp : nxt n e <> prv n e. Proof. apply nxt_prv_neq; assumption. Qed.
Let Ee : nth_error sds e = Some (mkV2 s 0). Proof. apply SC. Qed.
Let En : nth_error sds (nxt n e) = Some (mkV2 0 (1 - s)). Proof. apply SC. Qed.
Let far : forall j, (j < n)%nat -> j <> e -> j <> nxt n e -> j <> prv n e -> eps <= dpar sds j.
Proof.
  intros j Hj J1 J2 J3. destruct SC as (_ & _ & _ & _ & F). exact (F j _ (nth_sd sds j ltac:(lia)) J1 J2 J3).
Qed.

Lemma blend_side : exists b we wp, blendCorner eps n sds = Some b /\ length b = n /\ we + wp = 1 /\
    nth e b 0 = we /\ nth (prv n e) b 0 = wp /\ (forall i, (i < n)%nat -> i <> e -> i <> prv n e -> nth i b 0 = 0) /\
    (wp = 0 \/ nth_error sds (prv n e) = Some (mkV2 1 s)).
Proof.
  destruct SC as (_ & _ & _ & (sp & dp & Ep & S1 & S2) & _).
  destruct (sd_at sf H3 Hready sds Lsd e _ _ He Ee) as [A0 A1]. destruct (sd_at sf H3 Hready sds Lsd _ _ _ Ln En) as [B0 B1].
  destruct (sd_at sf H3 Hready sds Lsd _ _ _ Lp Ep) as [C0 C1].
  assert (NT : forall f : nat -> R, forall i, (i < n)%nat -> nth i (tabulate n f) 0 = f i).
  { intros f i Hi. apply nth_error_nth. rewrite (tabulate_nth_error R n _ i Hi). reflexivity. }
  destruct (Rlt_dec (1 - s) eps) as [L|L]; [|destruct (Rlt_dec s eps) as [L'|L']].
  - (* the last corner of the side *)
    rewrite (corner_adjacent eps sds n Lsd H2 H3 e He); [|lra|lra|].
    + eexists; exists 1, 0. split; [reflexivity|]. split; [apply tabulate_length|]. split; [ring|]. rewrite !NT by assumption.
      rewrite Nat.eqb_refl. destruct (Nat.eqb_spec (prv n e) e) as [X|_]; [contradiction|]. split; [reflexivity|]. split; [reflexivity|].
      split; [|left; reflexivity]. intros i Hi I1 _. rewrite NT by exact Hi. destruct (Nat.eqb_spec i e); [contradiction|reflexivity].
    + intros j Hj J1 J2. destruct (Nat.eq_dec j (prv n e)) as [-> |J3]; [rewrite C1; apply S2; lra|apply far; assumption].
  - (* the first corner of the side *)
    destruct (S1 ltac:(lra)) as [E1 E2]. rewrite E1, E2 in *.
    pose proof (corner_adjacent eps sds n Lsd H2 H3 (prv n e) Lp) as E. rewrite (nxt_prv n e He) in E.
    rewrite E; [|lra|lra|].
    + eexists; exists 0, 1. split; [reflexivity|]. split; [apply tabulate_length|]. split; [ring|]. rewrite !NT by assumption.
      rewrite Nat.eqb_refl. destruct (Nat.eqb_spec e (prv n e)) as [X|_]; [symmetry in X; contradiction|]. split; [reflexivity|]. split; [reflexivity|].
      split; [|right; exact Ep]. intros i Hi _ I2. rewrite NT by exact Hi. destruct (Nat.eqb_spec i (prv n e)); [contradiction|reflexivity].
    + intros j Hj J1 J2. destruct (Nat.eq_dec j (nxt n e)) as [-> |J3]; [rewrite B1; lra|apply far; assumption].
  - destruct (S1 ltac:(lra)) as [E1 E2]. rewrite E1, E2 in *.
    destruct (blend_on_side eps sf Hp H3 Hready sds Lsd e He A1) as (b & we & wp & E & Lb & W & We & Wp & W0).
    { intros j sd Ej J. assert (Hj : (j < n)%nat) by (rewrite <- Lsd; apply nth_error_Some; congruence).
      rewrite nth_sd in Ej by lia. injection Ej as <-. cbn [py].
      destruct (Nat.eq_dec j (nxt n e)) as [-> |J3]; [rewrite B1; lra|].
      destruct (Nat.eq_dec j (prv n e)) as [-> |J4]; [rewrite C1; lra|]. apply far; assumption. }
    exists b, we, wp. repeat (split; [assumption|]). right; exact Ep.
Qed.

Lemma cornerBased_side : cornerBased eps sf sds = Some (cv sf e s).
Proof.
  destruct blend_side as (b & we & wp & E & Lb & W & We & Wp & W0 & P).
  destruct (civ eps sf Hp H3 Hready sds Lsd Htame) as [f Hf].
  rewrite (cornerBased_value eps sf H3 Hready sds Lsd b E Lb f Hf). apply (f_equal Some).
  assert (Fe := interp_first eps sf Hp Hlen Hcross H2 Hready e sds s 0 (1 - s) He Hs Ee En).
  rewrite (Hf e He) in Fe. injection Fe as Fe.
  fold n. rewrite (vsum_double n _ e (prv n e)); auto.
  - destruct P as [P|Ep].
    + rewrite Fe, We, Wp, P. replace we with 1 by lra. v3ring.
    + assert (Fp := interp_second eps sf Hp Hlen Hcross H2 Hready (prv n e) sds s s 0 Lp Hs Ep).
      fold n in Fp. rewrite (nxt_prv n e He) in Fp. specialize (Fp Ee). rewrite (Hf _ Lp) in Fp. injection Fp as Fp.
      rewrite Fe, Fp, We, Wp. replace wp with (1 - we) by lra. v3ring.
  - intros k Hk K1 K2. rewrite (W0 k Hk K1 K2). v3ring.
Qed.

(** The loop of the generalized Coons patches with weights on the two corners
    of the side. *)
Lemma coons_side : forall b we wp, length b = n -> nth e b 0 = we -> nth (prv n e) b 0 = wp ->
  (forall i, (i < n)%nat -> i <> e -> i <> prv n e -> nth i b 0 = 0) ->
  (wp = 0 \/ nth_error sds (prv n e) = Some (mkV2 1 s)) ->
  osum n (coonsTerm eps sf sds b) = Some (cv sf e s *v (we + wp)).
Proof.
  intros b we wp Lb We Wp W0 P. destruct (coonsTerm_value eps sf Hp H3 Hready sds Lsd Htame b Lb) as (c & Hc & Q). fold n in Q, Hc. rewrite Q.
  apply (f_equal Some).
  destruct (sd_at sf H3 Hready sds Lsd e _ _ He Ee) as [S0 D0]. destruct (sd_at sf H3 Hready sds Lsd _ _ _ Ln En) as [S1 D1].
  assert (Ce := Hc e He). rewrite S0, S1 in Ce.
  rewrite (correction_first eps sf Hp Hlen Hcross H2 Hready e (1 - s) He ltac:(lra)) in Ce. injection Ce as Ce. fold n in Ce.
  assert (X : nth (nxt n e) b 0 = 0) by (apply W0; auto).
  assert (Y : nth (prv n (prv n e)) b 0 = 0).
  { apply W0; [apply prv_lt; lia| |apply prv_neq; [lia|exact Lp]].
    intros E. apply Nnp. rewrite <- E at 1. apply nxt_prv. exact Lp. }
  rewrite (vsum_triple n _ e (nxt n e) (prv n e)); auto.
  - rewrite S0, D0, S1, D1, <- Ce, (prv_nxt n e He), We, Wp, siv_boundary, clamp_id, X, Y by lra.
    destruct P as [P|Ep].
    + rewrite P. v3ring.
    + destruct (sd_at sf H3 Hready sds Lsd _ _ _ Lp Ep) as [S2 D2].
      assert (Cp := Hc _ Lp). rewrite (nxt_prv n e He), S0, S2 in Cp. replace (1 - 1) with 0 in Cp by ring.
      rewrite (correction_second eps sf Hp Hlen Hcross H2 Hready (prv n e) s Lp ltac:(lra)) in Cp. injection Cp as Cp.
      rewrite S2, D2, <- Cp. v3ring.
  - intros k Hk K1 K2 K3. rewrite (W0 k Hk K1 K3).
    assert (Z : nth (prv n k) b 0 = 0).
    { apply W0; [apply prv_lt; lia| |].
      - intros E. apply K2. rewrite <- E. rewrite nxt_prv by exact Hk. reflexivity.
      - intros E. apply K1. rewrite <- (nxt_prv n k Hk), E. apply nxt_prv. exact He. }
    rewrite Z. v3ring.
Qed.

Lemma generalizedCoons_side : generalizedCoons eps sf sds = Some (cv sf e s).
Proof.
  destruct blend_side as (b & we & wp & E & Lb & W & We & Wp & W0 & P).
  unfold generalizedCoons. fold n. rewrite E. cbn [bind]. rewrite (coons_side b we wp Lb We Wp W0 P), W. apply (f_equal Some). v3ring.
Qed.

Lemma compositePatch_side : compositeRibbonPatch eps sf sds = Some (cv sf e s).
Proof.
  destruct blend_side as (b & we & wp & E & Lb & W & We & Wp & W0 & P).
  destruct (compositePatch_value eps sf Hp H3 Hready sds Lsd Htame b E Lb) as (f & Hf & Q). rewrite Q. clear Q. apply (f_equal Some). fold n.
  destruct (sd_at sf H3 Hready sds Lsd e _ _ He Ee) as [S0 D0]. destruct (sd_at sf H3 Hready sds Lsd _ _ _ Ln En) as [S1 D1].
  assert (Fe := Hf e He). rewrite S0, D0, (composite_base eps sf Hp H3 Hready sds Lsd e s He Hs) in Fe. injection Fe as Fe.
  assert (Fn := Hf _ Ln). rewrite S1, D1, (composite_left eps sf Hp H3 Hready sds Lsd _ (1 - s) Ln ltac:(lra)) in Fn. fold n in Fn. rewrite (prv_nxt n e He) in Fn.
  injection Fn as Fn. replace (1 - (1 - s)) with s in Fn by ring.
  assert (X : nth (nxt n e) b 0 = 0) by (apply W0; auto).
  assert (Y : nth (prv n (prv n e)) b 0 = 0).
  { apply W0; [apply prv_lt; lia| |apply prv_neq; [lia|exact Lp]].
    intros E'. apply Nnp. rewrite <- E' at 1. apply nxt_prv. exact Lp. }
  rewrite (vsum_triple n _ e (nxt n e) (prv n e)); auto.
  - rewrite <- Fe, <- Fn, (prv_nxt n e He), We, Wp, X, Y. destruct P as [P|Ep].
    + rewrite P. replace we with 1 by lra. v3field.
    + destruct (sd_at sf H3 Hready sds Lsd _ _ _ Lp Ep) as [S2 D2].
      assert (Fp := Hf _ Lp). rewrite S2, D2, (composite_right eps sf Hp H3 Hready sds Lsd _ s Lp ltac:(lra)) in Fp. fold n in Fp. rewrite (nxt_prv n e He) in Fp.
      injection Fp as Fp. rewrite <- Fp. replace wp with (1 - we) by lra. v3field.
  - intros k Hk K1 K2 K3. rewrite (W0 k Hk K1 K3).
    assert (Z : nth (prv n k) b 0 = 0).
    { apply W0; [apply prv_lt; lia| |].
      - intros E'. apply K2. rewrite <- E'. rewrite nxt_prv by exact Hk. reflexivity.
      - intros E'. apply K1. rewrite <- (nxt_prv n k Hk), E'. apply nxt_prv. exact He. }
    rewrite Z. v3ring.
Qed.

(** *** Deficient blends *)

Section Deficient.
Hypothesis Hone : far_one sf sds e.
Hypothesis Ep : nth_error sds (prv n e) = Some (mkV2 1 s).

Let S0 : spar sds e = s. Proof. apply (sd_at sf H3 Hready sds Lsd e _ _ He Ee). Qed.
Let D0 : dpar sds e = 0. Proof. apply (sd_at sf H3 Hready sds Lsd e _ _ He Ee). Qed.
Let S1 : spar sds (nxt n e) = 0. Proof. apply (sd_at sf H3 Hready sds Lsd _ _ _ Ln En). Qed.
Let D1 : dpar sds (nxt n e) = 1 - s. Proof. apply (sd_at sf H3 Hready sds Lsd _ _ _ Ln En). Qed.
Let S2 : spar sds (prv n e) = 1. Proof. apply (sd_at sf H3 Hready sds Lsd _ _ _ Lp Ep). Qed.
Let D2 : dpar sds (prv n e) = s. Proof. apply (sd_at sf H3 Hready sds Lsd _ _ _ Lp Ep). Qed.

Definition wfirst : R := if Rlt_dec (1 - s) eps then 1 else hermite 0 (1 - s).
Definition wlast : R := if Rlt_dec s eps then 1 else hermite 0 s.

Lemma deficient_side : wdef eps sf sds e = wfirst /\ wdef eps sf sds (prv n e) = wlast /\
  (forall i, (i < n)%nat -> i <> e -> i <> prv n e -> wdef eps sf sds i = 0).
Proof.
  split; [|split].
  - unfold wdef, wfirst. fold n. rewrite S0, D0, S1, D1. destruct (Rlt_dec 0 eps); [|lra]. destruct (Rlt_dec (1 - s) eps); [reflexivity|].
    rewrite hermite0_0. field. lra.
  - unfold wdef, wlast. fold n. rewrite (nxt_prv n e He), S0, D0, S2, D2. destruct (Rlt_dec 0 eps); [|lra].
    destruct (Rlt_dec s eps); [reflexivity|]. rewrite hermite0_0. field. lra.
  - intros i Hi I1 I2. pose proof (nxt_lt n i ltac:(lia)) as Li.
    assert (Ie : nxt n i <> e). { intros E. apply I2. rewrite <- E, prv_nxt by exact Hi. reflexivity. }
    assert (In1 : nxt n i <> nxt n e) by (intros E; apply I1; apply (nxt_inj n i e Hi He E)).
    assert (A : hermite 0 (1 - spar sds i) * hermite 0 (dpar sds i) = 0 /\ (i = nxt n e \/ dpar sds i = 1)).
    { destruct (Nat.eq_dec i (nxt n e)) as [-> |J].
      - rewrite S1. replace (1 - 0) with 1 by ring. rewrite hermite0_1. split; [ring|auto].
      - rewrite (Hone i Hi I1 J I2), hermite0_1. split; [ring|auto]. }
    assert (B : hermite 0 (spar sds (nxt n i)) * hermite 0 (dpar sds (nxt n i)) = 0 /\ (nxt n i = prv n e \/ dpar sds (nxt n i) = 1)).
    { destruct (Nat.eq_dec (nxt n i) (prv n e)) as [-> |J].
      - rewrite S2, hermite0_1. split; [ring|auto].
      - rewrite (Hone _ Li Ie In1 J), hermite0_1. split; [ring|auto]. }
    destruct A as [A A']. destruct B as [B B'].
    assert (DA : dpar sds i = 1 \/ i = nxt n e /\ dpar sds i = 1 - s) by (destruct A' as [-> |X]; [right; auto|left; exact X]).
    assert (DB : dpar sds (nxt n i) = 1 \/ nxt n i = prv n e /\ dpar sds (nxt n i) = s).
    { destruct B' as [X|X]; [right; split; [exact X|rewrite X; exact D2]|left; exact X]. }
    assert (NB : eps <= dpar sds i \/ eps <= dpar sds (nxt n i)) by (destruct DA as [X|[_ X]]; destruct DB as [Y|[_ Y]]; rewrite X, Y; lra).
    assert (Nz : dpar sds i + dpar sds (nxt n i) <> 0) by (destruct DA as [X|[_ X]]; destruct DB as [Y|[_ Y]]; rewrite X, Y; lra).
    unfold wdef. fold n. rewrite (Rmult_assoc _ (hermite 0 (1 - spar sds i))), A, (Rmult_assoc _ (hermite 0 (spar sds (nxt n i)))), B.
    destruct (Rlt_dec (dpar sds i) eps); [destruct (Rlt_dec (dpar sds (nxt n i)) eps); [lra|]|]; field; exact Nz.
Qed.

(** The weights on the side add up to [wfirst + wlast]: one, except strictly
    within the tolerance of a corner. *)
Lemma midpoint_side : forall cp, midpointPatch eps sf cp sds = Some (cv sf e s +v (cv sf e s -v cp) *v (wfirst + wlast - 1)).
Proof.
  intros cp. destruct deficient_side as (We & Wp & W0). destruct (civ eps sf Hp H3 Hready sds Lsd Htame) as [f Hf].
  unfold midpointPatch. fold n. pose proof (deficient_value eps sf Hp H3 Hready sds Lsd Htame) as DV. fold n in DV. rewrite DV. cbn [bind]. clear DV.
  rewrite (osum_total n _ (fun i => f i *v wdef eps sf sds i)).
  - cbn [bind]. rewrite accumulate_tab. apply (f_equal Some).
    assert (Fe := interp_first eps sf Hp Hlen Hcross H2 Hready e sds s 0 (1 - s) He Hs Ee En).
    rewrite (Hf e He) in Fe. injection Fe as Fe.
    assert (Fp := interp_second eps sf Hp Hlen Hcross H2 Hready (prv n e) sds s s 0 Lp Hs Ep).
    fold n in Fp. rewrite (nxt_prv n e He) in Fp. specialize (Fp Ee). rewrite (Hf _ Lp) in Fp. injection Fp as Fp.
    rewrite (vsum_double n _ e (prv n e)); auto; [|intros k Hk K1 K2; rewrite (W0 k Hk K1 K2); v3ring].
    rewrite (rsum_double n _ e (prv n e)); auto.
    rewrite Fe, Fp, We, Wp. v3ring.
  - intros i Hi. rewrite (tabulate_nth_error R n _ i Hi). cbn [bind]. rewrite (Hf i Hi). reflexivity.
Qed.

Lemma midpointCoons_side : forall cp, midpointCoons eps sf cp sds = Some (cv sf e s +v (cv sf e s -v cp) *v (wfirst + wlast - 1)).
Proof.
  intros cp. destruct deficient_side as (We & Wp & W0).
  unfold midpointCoons. fold n. pose proof (deficient_value eps sf Hp H3 Hready sds Lsd Htame) as DV. fold n in DV. rewrite DV. cbn [bind]. clear DV.
  rewrite (coons_side (tabulate n (wdef eps sf sds)) wfirst wlast).
  - cbn [bind]. rewrite accumulate_tab. rewrite (rsum_double n _ e (prv n e)); auto.
    rewrite We, Wp. apply (f_equal Some). v3ring.
  - apply tabulate_length.
  - pose proof (wdef_nth eps sf sds) as WN; fold n in WN; rewrite (WN _ He). exact We.
  - pose proof (wdef_nth eps sf sds) as WN; fold n in WN; rewrite (WN _ Lp). exact Wp.
  - intros i Hi I1 I2. pose proof (wdef_nth eps sf sds) as WN; fold n in WN; rewrite (WN _ Hi). apply W0; assumption.
  - right; exact Ep.
Qed.
End Deficient.

(** At the last corner the previous side does not matter. *)
Section LastCorner.
Hypothesis Hone : far_one sf sds e.
Hypothesis H1 : s = 1.
Hypothesis Edp : dpar sds (prv n e) = 1.

Let S0 : spar sds e = s. Proof. apply (sd_at sf H3 Hready sds Lsd e _ _ He Ee). Qed.
Let D0 : dpar sds e = 0. Proof. apply (sd_at sf H3 Hready sds Lsd e _ _ He Ee). Qed.
Let S1 : spar sds (nxt n e) = 0. Proof. apply (sd_at sf H3 Hready sds Lsd _ _ _ Ln En). Qed.
Let D1 : dpar sds (nxt n e) = 0. Proof. rewrite (proj2 (sd_at sf H3 Hready sds Lsd _ _ _ Ln En)). lra. Qed.

Lemma deficient_last : wdef eps sf sds e = 1 /\ (forall i, (i < n)%nat -> i <> e -> wdef eps sf sds i = 0).
Proof.
  split.
  - unfold wdef. fold n. rewrite D0, D1. destruct (Rlt_dec 0 eps); [reflexivity|lra].
  - intros i Hi I1. pose proof (nxt_lt n i ltac:(lia)) as Li.
    assert (In1 : nxt n i <> nxt n e) by (intros E; apply I1; apply (nxt_inj n i e Hi He E)).
    assert (DA : i = nxt n e \/ dpar sds i = 1).
    { destruct (Nat.eq_dec i (nxt n e)) as [J|J]; [left; exact J|right].
      destruct (Nat.eq_dec i (prv n e)) as [-> |J']; [exact Edp|apply (Hone i Hi I1 J J')]. }
    assert (DB : nxt n i = e \/ dpar sds (nxt n i) = 1).
    { destruct (Nat.eq_dec (nxt n i) e) as [J|J]; [left; exact J|right].
      destruct (Nat.eq_dec (nxt n i) (prv n e)) as [-> |J']; [exact Edp|apply (Hone _ Li J In1 J')]. }
    unfold wdef. fold n. destruct DA as [-> |DA].
    + rewrite S1, D1. destruct DB as [DB|DB].
      * exfalso. apply Nnp. symmetry. rewrite <- DB at 1. apply prv_nxt. exact Ln.
      * rewrite DB. destruct (Rlt_dec 0 eps); [|lra]. destruct (Rlt_dec 1 eps); [lra|]. replace (1 - 0) with 1 by ring. rewrite hermite0_1. field.
    + rewrite DA. destruct (Rlt_dec 1 eps); [lra|]. rewrite hermite0_1. destruct DB as [DB|DB].
      * rewrite DB, S0, D0, H1, hermite0_1. field.
      * rewrite DB, hermite0_1. field.
Qed.

Lemma midpoint_last : forall cp, midpointPatch eps sf cp sds = Some (cv sf e s).
Proof.
  intros cp. destruct deficient_last as (We & W0). destruct (civ eps sf Hp H3 Hready sds Lsd Htame) as [f Hf].
  unfold midpointPatch. fold n. pose proof (deficient_value eps sf Hp H3 Hready sds Lsd Htame) as DV. fold n in DV. rewrite DV. cbn [bind]. clear DV.
  rewrite (osum_total n _ (fun i => f i *v wdef eps sf sds i)).
  - cbn [bind]. rewrite accumulate_tab. apply (f_equal Some).
    assert (Fe := interp_first eps sf Hp Hlen Hcross H2 Hready e sds s 0 (1 - s) He Hs Ee En).
    rewrite (Hf e He) in Fe. injection Fe as Fe.
    rewrite (vsum_single n _ e He); auto; [|intros k Hk K1; rewrite (W0 k Hk K1); v3ring].
    rewrite (rsum_single n _ e He); auto.
    rewrite Fe, We. v3ring.
  - intros i Hi. rewrite (tabulate_nth_error R n _ i Hi). cbn [bind]. rewrite (Hf i Hi). reflexivity.
Qed.

Lemma midpointCoons_last : forall cp, midpointCoons eps sf cp sds = Some (cv sf e s).
Proof.
  intros cp. destruct deficient_last as (We & W0).
  unfold midpointCoons. fold n. pose proof (deficient_value eps sf Hp H3 Hready sds Lsd Htame) as DV. fold n in DV. rewrite DV. cbn [bind]. clear DV.
  rewrite (coons_side (tabulate n (wdef eps sf sds)) 1 0).
  - cbn [bind]. rewrite accumulate_tab. rewrite (rsum_single n _ e He); auto.
    rewrite We. apply (f_equal Some). v3ring.
  - apply tabulate_length.
  - pose proof (wdef_nth eps sf sds) as WN; fold n in WN; rewrite (WN _ He). exact We.
  - pose proof (wdef_nth eps sf sds) as WN; fold n in WN; rewrite (WN _ Lp). apply W0; [exact Lp|exact Np].
  - intros i Hi I1 I2. pose proof (wdef_nth eps sf sds) as WN; fold n in WN; rewrite (WN _ Hi). apply W0; assumption.
  - left; reflexivity.
Qed.
End LastCorner.
End Side.
