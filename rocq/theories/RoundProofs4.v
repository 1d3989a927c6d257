(** Blends and the side based patch in rounded arithmetic. *)

From Verif Require Import Base UtilModel UtilSpec UtilProofs DomainModel DomainPolygons RibbonModel SurfaceModel BlendProofs
  RoundModel RoundSpec RoundProofs RoundProofs2 RoundProofs3.
Open Scope R_scope.

(** The factor by which a weight may be off when [pow] has relative error
    [rho] and [n] weights are normalised. *)
Definition drift (u rho : R) (n : nat) : R := (1 + rho) / (1 - rho) * (1 + gam u (n + 1)) - 1.

Lemma get_tab : forall n f i, (i < n)%nat -> get (tabulate n f) i = f i.
Proof. intros n f i H. unfold get. apply nth_error_nth. apply tabulate_nth_error. exact H. Qed.

Section Rounded.
Variables (rd : R -> R) (u eta : R).
Hypothesis HR : rounding rd u eta.
Let U : 0 < u < 1 := ro_u _ _ _ HR.
Let ETA : 0 <= eta := ro_eta _ _ _ HR.

Lemma quot_pert : forall n f e rho i, 0 <= rho < 1 -> (i < n)%nat -> (forall i, (i < n)%nat -> 0 < e i) ->
  (forall i, (i < n)%nat -> Rabs (f i - e i) <= rho * e i) ->
  (1 - rho) / (1 + rho) * (e i / rsum n e) <= f i / rsum n f <= (1 + rho) / (1 - rho) * (e i / rsum n e).
Proof.
  intros n f e rho i Hr Hi He Hf.
  assert (SE : 0 < rsum n e) by (apply rsum_pos; [lia|exact He]).
  assert (F : forall i, (i < n)%nat -> (1 - rho) * e i <= f i <= (1 + rho) * e i).
  { intros j Hj. pose proof (rabs_both _ _ (Hf j Hj)). lra. }
  assert (S1 : (1 - rho) * rsum n e <= rsum n f) by (rewrite <- rsum_scal; apply rsum_le; intros; apply F; assumption).
  assert (S2 : rsum n f <= (1 + rho) * rsum n e) by (rewrite <- rsum_scal; apply rsum_le; intros; apply F; assumption).
  assert (SF : 0 < rsum n f) by nra. destruct (F i Hi) as [A B]. specialize (He i Hi).
  set (s := rsum n e) in *. set (x := rsum n f) in *.
  assert (0 < e i / s) by (apply Rdiv_lt_0_compat; assumption).
  split.
  - apply Rmult_le_reg_r with x; [exact SF|]. replace (f i / x * x) with (f i) by (field; lra).
    apply Rle_trans with ((1 - rho) / (1 + rho) * (e i / s) * ((1 + rho) * s)).
    + apply Rmult_le_compat_l; [|exact S2]. apply Rmult_le_pos; [|lra].
      apply Rmult_le_pos; [lra|left; apply Rinv_0_lt_compat; lra].
    + replace ((1 - rho) / (1 + rho) * (e i / s) * ((1 + rho) * s)) with ((1 - rho) * e i) by (field; lra). exact A.
  - apply Rmult_le_reg_r with x; [exact SF|]. replace (f i / x * x) with (f i) by (field; lra).
    apply Rle_trans with ((1 + rho) / (1 - rho) * (e i / s) * ((1 - rho) * s)).
    + replace ((1 + rho) / (1 - rho) * (e i / s) * ((1 - rho) * s)) with ((1 + rho) * e i) by (field; lra). exact B.
    + apply Rmult_le_compat_l; [|exact S1]. apply Rmult_le_pos; [|lra].
      apply Rmult_le_pos; [lra|left; apply Rinv_0_lt_compat; lra].
Qed.

Lemma drift_ge : forall rho n, 0 <= rho < 1 -> INR (n + 1) * u < 1 -> gam u (n + 1) <= drift u rho n /\
  1 - (1 - rho) / (1 + rho) * (1 - gam u (n + 1)) <= drift u rho n /\ u <= drift u rho n.
Proof.
  intros rho n Hr Hn. pose proof (gam_nonneg u (n + 1) ltac:(lra) Hn) as G.
  assert (Q : 1 <= (1 + rho) / (1 - rho)).
  { apply Rmult_le_reg_r with (1 - rho); [lra|]. replace ((1 + rho) / (1 - rho) * (1 - rho)) with (1 + rho) by (field; lra). lra. }
  assert (V : (1 - rho) / (1 + rho) = / ((1 + rho) / (1 - rho))) by (field; lra).
  assert (GU : u <= gam u (n + 1)).
  { unfold gam. rewrite plus_INR in *. simpl INR in *. pose proof (pos_INR n).
    apply Rmult_le_reg_r with (1 - (INR n + 1) * u); [lra|].
    replace ((INR n + 1) * u / (1 - (INR n + 1) * u) * (1 - (INR n + 1) * u)) with ((INR n + 1) * u) by (field; lra). nra. }
  unfold drift. rewrite V. set (q := (1 + rho) / (1 - rho)) in *. set (g := gam u (n + 1)) in *.
  assert (IQ : 0 < / q <= 1).
  { split; [apply Rinv_0_lt_compat; lra|]. rewrite <- Rinv_1. apply Rinv_le_contravar; lra. }
  assert (QQ : 2 <= q + / q).
  { apply Rmult_le_reg_r with q; [lra|]. rewrite Rmult_plus_distr_r, Rinv_l by lra. nra. }
  split; [nra|]. split; [|nra]. nra.
Qed.

Lemma blendSideF : forall pw rho eps sds, 0 < eps -> 0 <= rho < 1 -> (0 < length sds)%nat ->
  INR (length sds + 1) * u < 1 ->
  (forall sd, In sd sds -> eps <= py sd -> rd (pw (py sd)) = pw (py sd) /\ Rabs (pw (py sd) - 1 / py sd ^ 2) <= rho * (1 / py sd ^ 2)) ->
  exists b w, blendSideSingular eps sds = Some b /\ blendSideSingularF rd pw eps sds = Some w /\
    length b = length sds /\ length w = length sds /\ rsum (length sds) (get b) = 1 /\
    forall i, (i < length sds)%nat -> 0 <= get w i <= 1 /\ 0 <= get b i /\
      Rabs (get w i - get b i) <= drift u rho (length sds) * get b i + eta.
Proof.
  intros pw rho eps sds He Hr Hn Hnu Hpw. pose proof (sideSingular_value eps sds He Hn) as V. cbn zeta in V.
  set (n := length sds) in *. rewrite V.
  destruct (drift_ge rho n Hr Hnu) as (D1 & D2 & D3).
  destruct (Nat.ltb_spec 0 (closeCount eps sds)) as [K|K].
  - assert (C : 0 < INR (closeCount eps sds)) by (apply lt_0_INR; exact K).
    assert (C1 : 1 <= INR (closeCount eps sds)) by (change 1 with (INR 1); apply le_INR; lia).
    set (c := INR (closeCount eps sds)) in *.
    assert (IC : 0 < 1 / c <= 1).
    { split; [apply Rdiv_lt_0_compat; lra|]. apply Rmult_le_reg_r with c; [lra|]. replace (1 / c * c) with 1 by (field; lra). lra. }
    eexists _, (tabulate n (fun i => if Rlt_dec (dpar sds i) eps then rd (1 / c) else 0)). split; [reflexivity|]. split.
    { unfold blendSideSingularF. destruct (Nat.ltb_spec 0 (closeCount eps sds)); [|lia].
      unfold fdivF. rewrite fdiv_some by (fold c; lra). cbn [bind]. rewrite map_tab. reflexivity. }
    split; [apply tabulate_length|]. split; [apply tabulate_length|]. split.
    { rewrite (rsum_ext _ _ (fun i => isclose eps sds i / rsum n (isclose eps sds))) by (intros; apply get_tab; assumption).
      rewrite rsum_div. unfold n. rewrite <- closeCount_rsum. fold c. field. lra. }
    intros i Hi. rewrite !get_tab by exact Hi. unfold n. rewrite <- closeCount_rsum. fold c.
    unfold isclose. destruct (Rlt_dec (dpar sds i) eps).
    + split; [split; [apply (rd_nonneg rd u eta HR)|apply (rd_le1 rd u eta HR)]; lra|]. split; [lra|].
      pose proof (rd_bounds rd u eta HR (1 / c) ltac:(lra)) as B. apply Rabs_le.
      assert (u * (1 / c) <= drift u rho (length sds) * (1 / c)) by (apply Rmult_le_compat_r; [lra|exact D3]). lra.
    + split; [lra|]. unfold Rdiv. rewrite Rmult_0_l, Rminus_0_r, Rabs_R0. split; [lra|]. lra.
  - assert (N : forall i, (i < n)%nat -> eps <= dpar sds i).
    { destruct (some_close_dec eps sds) as [X|N]; [|exact N]. apply close_pos_iff in X. lia. }
    set (e := fun i => 1 / dpar sds i ^ 2) in *.
    assert (EP : forall i, (i < n)%nat -> 0 < e i) by (intros i Hi; apply inv_sq_pos; specialize (N i Hi); lra).
    assert (SE : 0 < rsum n e) by (apply rsum_pos; assumption).
    set (l := map (fun sd => pw (py sd)) sds).
    assert (Ll : length l = n) by apply map_length.
    assert (Lg : forall i, (i < n)%nat -> get l i = pw (dpar sds i)).
    { intros i Hi. unfold l. rewrite map_tab. apply get_tab. exact Hi. }
    assert (PE : forall i, (i < n)%nat -> Rabs (get l i - e i) <= rho * e i).
    { intros i Hi. rewrite Lg by exact Hi. apply (Hpw (nth i sds pzero) (nth_In _ _ Hi) (N i Hi)). }
    assert (PF : forall i, (i < n)%nat -> 0 < get l i).
    { intros i Hi. pose proof (rabs_both _ _ (PE i Hi)). specialize (EP i Hi). nra. }
    assert (SL : 0 < rsum (length l) (get l)) by (rewrite Ll; apply rsum_pos; assumption).
    destruct (normalizeF_spec rd u eta HR l) as (w & Ew & Lw & Hw).
    { intros x Hx. apply (In_nth _ _ 0) in Hx. destruct Hx as (i & Hi & <-). rewrite Ll in Hi.
      change (nth i l 0) with (get l i). split; [left; apply PF; exact Hi|]. rewrite Lg by exact Hi.
      apply (Hpw (nth i sds pzero) (nth_In _ _ Hi) (N i Hi)). }
    { exact SL. }
    { rewrite Ll; exact Hnu. }
    rewrite Ll in *.
    eexists _, w. split; [reflexivity|]. split.
    { unfold blendSideSingularF. destruct (Nat.ltb_spec 0 (closeCount eps sds)); [lia|]. exact Ew. }
    split; [apply tabulate_length|]. split; [exact Lw|]. split.
    { rewrite (rsum_ext _ _ (fun i => e i / rsum n e)) by (intros; apply get_tab; assumption).
      rewrite rsum_div. field. lra. }
    intros i Hi. rewrite get_tab by exact Hi. destruct (Hw i Hi) as (_ & R01 & R2). split; [exact R01|].
    pose proof (EP i Hi) as Ei.
    assert (Bp : 0 < e i / rsum n e) by (apply Rdiv_lt_0_compat; assumption).
    change (1 / dpar sds i ^ 2) with (e i). split; [lra|].
    pose proof (quot_pert n (get l) e rho i Hr Hi EP PE) as [Q1 Q2].
    pose proof (gam_nonneg u (n + 1) ltac:(lra) Hnu) as G. apply rabs_both in R2.
    set (b := e i / rsum n e) in *. set (v := get l i / rsum n (get l)) in *. set (g := gam u (n + 1)) in *.
    apply Rabs_le. split.
    + destruct (Rle_dec g 1) as [G1|G1].
      * assert ((1 - g) * ((1 - rho) / (1 + rho) * b) <= (1 - g) * v) by (apply Rmult_le_compat_l; lra).
        assert ((1 - (1 - rho) / (1 + rho) * (1 - g)) * b <= drift u rho n * b) by (apply Rmult_le_compat_r; lra). lra.
      * assert (1 * b <= drift u rho n * b) by (apply Rmult_le_compat_r; lra). lra.
    + assert ((1 + g) * v <= (1 + g) * ((1 + rho) / (1 - rho) * b)) by (apply Rmult_le_compat_l; lra).
      unfold drift. fold g. lra.
Qed.

(** The side based patch: the computed weighted sum. *)
Lemma sideBasedF_err : forall pw rho eps sf sds q M b, 0 < eps -> 0 <= rho < 1 -> length sds = sf_n sf -> (0 < length sds)%nat ->
  INR (length sds + 1) * u < 1 ->
  (forall sd, In sd sds -> eps <= py sd -> rd (pw (py sd)) = pw (py sd) /\ Rabs (pw (py sd) - 1 / py sd ^ 2) <= rho * (1 / py sd ^ 2)) ->
  (forall i, (i < sf_n sf)%nat -> sideInterpolantF rd sf i (spar sds i) (dpar sds i) = Some (q i)) ->
  (forall i, (i < sf_n sf)%nat -> within M (q i)) ->
  blendSideSingular eps sds = Some b ->
  exists p, sideBasedF rd pw eps sf sds = Some p /\
    within (((1 + u) ^ (length sds + 1) * (1 + (drift u rho (length sds) + INR (length sds) * eta)) - 1) * M
       + (1 + u) ^ length sds * (INR (length sds) * eta)) (p -v vsum (sf_n sf) (fun i => q i *v get b i)).
Proof.
  intros pw rho eps sf sds q M b He Hr HL Hn Hnu Hpw Hq HM Eb.
  destruct (blendSideF pw rho eps sds He Hr Hn Hnu Hpw) as (b' & w & Eb' & Ew & Lb & Lw & Sb & Hw).
  rewrite Eb in Eb'. injection Eb' as <-. rewrite HL in *. set (n := sf_n sf) in *.
  assert (MP : 0 <= M) by (destruct (HM 0%nat Hn) as [A _]; eapply Rle_trans; [apply Rabs_pos|exact A]).
  destruct (sum_close eta n (get w) (get b) (drift u rho n) Sb) as [SC _]; [intros; apply Hw; assumption|].
  exists (mkV3 (rsumF rd n (fun i => rd (vx (q i) * get w i))) (rsumF rd n (fun i => rd (vy (q i) * get w i)))
     (rsumF rd n (fun i => rd (vz (q i) * get w i)))).
  split.
  - unfold sideBasedF. rewrite Ew. cbn [bind]. fold n. rewrite (osumF_coords rd n _ (fun i => vscaleF rd (q i) (get w i))); [reflexivity|].
    intros i Hi. rewrite nth_sd by lia. cbn [bind]. rewrite get_nth by lia. cbn [bind px py]. rewrite Hq by exact Hi. reflexivity.
  - assert (VS : vsum n (fun i => q i *v get b i) =
      mkV3 (rsum n (fun i => vx (q i) * get b i)) (rsum n (fun i => vy (q i) * get b i)) (rsum n (fun i => vz (q i) * get b i))).
    { clear. induction n as [|n IH]; [reflexivity|]. simpl. rewrite IH. reflexivity. }
    rewrite VS. unfold within. cbn [vsub vx vy vz].
    split; [|split]; apply (combine_err rd u eta HR); try assumption; intros i Hi; try (apply Hw; exact Hi); apply (HM i Hi).
Qed.

(** When exactly one side is near its ribbon is returned bit for bit. *)
Lemma sideBasedF_one : forall pw eps sf sds e q, length sds = sf_n sf -> (e < length sds)%nat -> dpar sds e < eps ->
  (forall j, (j < length sds)%nat -> j <> e -> eps <= dpar sds j) ->
  (forall i, (i < sf_n sf)%nat -> sideInterpolantF rd sf i (spar sds i) (dpar sds i) = Some (q i)) ->
  sideBasedF rd pw eps sf sds = Some (q e).
Proof.
  intros pw eps sf sds e q HL Hi Hd Ho Hq. unfold sideBasedF, blendSideSingularF.
  rewrite (close_one eps sds e Hi Hd Ho). cbn [Nat.ltb Nat.leb]. unfold fdivF. simpl INR. rewrite fdiv_some by lra. cbn [bind].
  replace (1 / 1) with 1 by field. rewrite (ro_1 _ _ _ HR), map_tab.
  assert (B : forall i, (i < length sds)%nat -> nth_error (tabulate (length sds) (fun i => if Rlt_dec (py (nth i sds pzero)) eps then 1 else 0)) i =
     Some (if Rlt_dec (dpar sds i) eps then 1 else 0)) by (intros; apply tabulate_nth_error; assumption).
  assert (RQ : repr3 rd (q e)).
  { specialize (Hq e ltac:(lia)). unfold sideInterpolantF in Hq.
    destruct (gammaF rd (sf_gamma sf) (dpar sds e)) as [g|]; [|discriminate]. cbn [bind] in Hq.
    destruct (nth_error (sf_ribbons sf) e) as [r|]; [|discriminate]. cbn [bind] in Hq.
    destruct (sr_cross r (clamp (spar sds e) 0 1)); [|discriminate]. cbn [bind] in Hq. injection Hq as <-.
    apply (repr3_add rd u eta HR). }
  apply (osumF_single rd u eta HR _ _ e); [lia| |exact RQ|].
  - rewrite nth_sd, B by exact Hi. cbn [bind px py]. destruct (Rlt_dec (dpar sds e) eps); [|lra].
    rewrite Hq by lia. cbn [bind]. rewrite (vscaleF_1 rd) by exact RQ. reflexivity.
  - intros j Hj Hne. rewrite nth_sd, B by lia. cbn [bind px py]. destruct (Rlt_dec (dpar sds j) eps) as [L|L].
    + specialize (Ho j ltac:(lia) Hne). lra.
    + rewrite Hq by lia. cbn [bind]. rewrite (vscaleF_0 rd u eta HR). reflexivity.
Qed.

(** A ribbon at distance zero is the boundary curve. *)
Lemma sideInterpolantF_0 : forall sf i s d r x, nth_error (sf_ribbons sf) i = Some r -> sr_cross r (clamp s 0 1) = Some x ->
  - (1/4) <= d <= 0 -> (sf_gamma sf = true -> rd (2 * d) = 2 * d) -> repr3 rd (cpt (sr_curve r) (clamp s 0 1)) ->
  sideInterpolantF rd sf i s d = Some (cpt (sr_curve r) (clamp s 0 1)).
Proof.
  intros sf i s d r x Hr Hx Hd H2 Hc. unfold sideInterpolantF.
  assert (G : exists g, gammaF rd (sf_gamma sf) d = Some g /\ g <= 0).
  { unfold gammaF. destruct (sf_gamma sf); [|exists d; split; [reflexivity|lra]].
    rewrite (H2 eq_refl). pose proof (ro_mono _ _ _ HR) as MO.
    assert (P : 0 < rd (2 * d + 1)).
    { pose proof (rd_bounds_add rd u eta HR (2 * d) 1 (H2 eq_refl) (ro_1 _ _ _ HR) ltac:(lra)) as [B _]. nra. }
    unfold fdivF. rewrite fdiv_some by lra. cbn [bind]. eexists; split; [reflexivity|].
    rewrite <- (ro_0 _ _ _ HR). apply MO. assert (IP := Rinv_0_lt_compat _ P). unfold Rdiv. nra. }
  destruct G as (g & -> & Hg). cbn [bind]. rewrite Hr. cbn [bind]. rewrite Hx. cbn [bind].
  rewrite Rmax_right by exact Hg. rewrite (vscaleF_0 rd u eta HR), (vaddF_0r rd) by exact Hc. reflexivity.
Qed.

(** ** Affine combinations *)
Lemma affine_coord : forall p q x M, rd x = x -> 0 <= x <= 1 -> Rabs p <= M -> Rabs q <= M ->
  Rabs (rd (rd (p * rd (1 - x)) + rd (q * x)) - (p * (1 - x) + q * x)) <= ((1 + u) ^ 3 - 1) * M + (1 + u) * (2 * eta).
Proof.
  intros p q x M Rx Hx Hp Hq. set (r := rd (1 - x)).
  pose proof (rd_bounds_1m rd u eta HR x Rx ltac:(lra)) as B. fold r in B.
  assert (U' : 0 < u < 1) by exact (ro_u _ _ _ HR).
  assert (E0 : Rabs (p * r - p * (1 - x)) <= u * (M * (1 - x))).
  { rewrite <- Rmult_minus_distr_l, Rabs_mult. replace (u * (M * (1 - x))) with (M * (u * (1 - x))) by ring.
    apply Rmult_le_compat; try apply Rabs_pos; [exact Hp|]. apply Rabs_le. lra. }
  assert (A0 : Rabs (p * r) <= (1 + u) * (M * (1 - x))).
  { rewrite Rabs_mult. replace ((1 + u) * (M * (1 - x))) with (M * ((1 + u) * (1 - x))) by ring.
    apply Rmult_le_compat; try apply Rabs_pos; [exact Hp|]. assert (0 <= (1 - u) * (1 - x)) by (apply Rmult_le_pos; lra).
    rewrite Rabs_pos_eq by lra. lra. }
  pose proof (ro_err _ _ _ HR (p * r)) as E1. pose proof (ro_err _ _ _ HR (q * x)) as E2.
  assert (A2 : Rabs (q * x) <= M * x) by (rewrite Rabs_mult, (Rabs_pos_eq x) by lra; apply Rmult_le_compat_r; lra).
  pose proof (ro_add _ _ _ HR _ _ (ro_idem _ _ _ HR (p * r)) (ro_idem _ _ _ HR (q * x))) as E3.
  assert (F1 : Rabs (rd (p * r) - p * (1 - x)) <= ((1 + u) ^ 2 - 1) * (M * (1 - x)) + eta).
  { replace (rd (p * r) - p * (1 - x)) with ((rd (p * r) - p * r) + (p * r - p * (1 - x))) by ring.
    eapply Rle_trans; [apply Rabs_triang|]. assert (u * Rabs (p * r) <= u * ((1 + u) * (M * (1 - x)))) by (apply Rmult_le_compat_l; lra). lra. }
  assert (F2 : Rabs (rd (q * x) - q * x) <= u * (M * x) + eta).
  { assert (u * Rabs (q * x) <= u * (M * x)) by (apply Rmult_le_compat_l; lra). lra. }
  assert (MP : 0 <= M) by (eapply Rle_trans; [apply Rabs_pos|exact Hp]).
  assert (M1 : 0 <= M * x) by (apply Rmult_le_pos; lra). assert (M2 : 0 <= M * (1 - x)) by (apply Rmult_le_pos; lra).
  assert (U2 : 0 <= u * u * (M * x)) by (apply Rmult_le_pos; [apply Rmult_le_pos; lra|exact M1]).
  assert (U3 : 0 <= u * (M * x)) by (apply Rmult_le_pos; lra).
  set (a := rd (p * r)) in *. set (b := rd (q * x)) in *.
  assert (F : Rabs (a + b - (p * (1 - x) + q * x)) <= ((1 + u) ^ 2 - 1) * M + 2 * eta).
  { replace (a + b - (p * (1 - x) + q * x)) with ((a - p * (1 - x)) + (b - q * x)) by ring.
    eapply Rle_trans; [apply Rabs_triang|]. 
    replace (((1 + u) ^ 2 - 1) * M) with (((1 + u) ^ 2 - 1) * (M * (1 - x)) + (u * (M * x) + u * (M * x) + u * u * (M * x))) by ring. lra. }
  assert (X : Rabs (p * (1 - x) + q * x) <= M).
  { eapply Rle_trans; [apply Rabs_triang|]. rewrite (Rabs_mult p), (Rabs_pos_eq (1 - x)) by lra.
    assert (Rabs p * (1 - x) <= M * (1 - x)) by (apply Rmult_le_compat_r; lra). lra. }
  assert (G : Rabs (a + b) <= (1 + u) ^ 2 * M + 2 * eta).
  { replace (a + b) with ((a + b - (p * (1 - x) + q * x)) + (p * (1 - x) + q * x)) by ring.
    eapply Rle_trans; [apply Rabs_triang|]. lra. }
  replace (rd (a + b) - (p * (1 - x) + q * x)) with ((rd (a + b) - (a + b)) + (a + b - (p * (1 - x) + q * x))) by ring.
  eapply Rle_trans; [apply Rabs_triang|].
  assert (u * Rabs (a + b) <= u * ((1 + u) ^ 2 * M + 2 * eta)) by (apply Rmult_le_compat_l; lra).
  replace (((1 + u) ^ 3 - 1) * M + (1 + u) * (2 * eta)) with (u * ((1 + u) ^ 2 * M + 2 * eta) + (((1 + u) ^ 2 - 1) * M + 2 * eta)) by ring.
  lra.
Qed.

(** ** Corner blends *)
Lemma gam_mono : forall m k, (m <= k)%nat -> INR k * u < 1 -> gam u m <= gam u k.
Proof.
  intros m k H Hk. unfold gam. assert (INR m <= INR k) by (apply le_INR; exact H).
  assert (M : INR m * u <= INR k * u) by (apply Rmult_le_compat_r; lra).
  assert (0 <= INR m * u) by (apply Rmult_le_pos; [apply pos_INR|lra]).
  unfold Rdiv. apply Rmult_le_compat; [assumption|left; apply Rinv_0_lt_compat; lra|exact M|].
  apply Rinv_le_contravar; lra.
Qed.

Lemma tab_sum : forall n f, fold_right Rplus 0 (tabulate n f) = rsum n f.
Proof.
  intros n f. unfold tabulate. replace (rsum n f) with (rsum n (fun i => f (0 + i)%nat)) by (apply rsum_ext; intros; reflexivity).
  generalize 0%nat. induction n as [|n IH]; intros s; [reflexivity|]. rewrite rsum_first. cbn [seq map fold_right].
  rewrite IH, Nat.add_0_r. f_equal. apply rsum_ext. intros i _. f_equal. lia.
Qed.

Lemma pair_bounds : forall a b, 0 < a -> 0 < b -> rd a = a -> rd b = b -> INR 3 * u < 1 ->
  0 <= rd (a / rd (a + b)) <= 1 /\ Rabs (rd (a / rd (a + b)) - a / (a + b)) <= gam u 3 * (a / (a + b)) + eta.
Proof.
  intros a b Ha Hb Ra Rb H3. set (f := fun i => match i with O => a | _ => b end).
  assert (S2 : rsum 2 f = a + b) by (simpl; ring).
  assert (F2 : rsumF rd 2 f = rd (a + b)) by (simpl; rewrite Rplus_0_l, Ra; reflexivity).
  pose proof (weight_bounds rd u eta HR 2 f 0%nat) as W. rewrite S2, F2 in W. apply W; [|lra|lia|exact H3].
  intros [|i] _; simpl; split; lra || assumption.
Qed.

Section CornerF.
Variables (pw : R -> R) (eps : R) (sds : list V2) (n : nat).
Hypothesis Heps : 0 < eps.
Hypothesis HL : length sds = n.
Hypothesis H2 : (2 <= n)%nat.
Hypothesis Hnu : INR (n + 1) * u < 1.
Hypothesis Hee : 0 < rd (eps * eps).
Hypothesis Hpw : forall x, 0 < x ->
  (exists sd, In sd sds /\ (x = py sd \/ exists sd', In sd' sds /\ x = rd (py sd * py sd'))) -> 0 < pw x /\ rd (pw x) = pw x.
Let d := dpar sds.

Lemma cornerF_far : (forall i, (i < n)%nat -> eps <= d i) ->
  exists w, blendCornerF rd pw eps n sds = Some w /\ length w = n /\ (forall x, In x w -> 0 <= x <= 1) /\
    Rabs (fold_right Rplus 0 w - 1) <= gam u (n + 1) + INR n * eta.
Proof.
  intros F. set (f := fun i => pw (rd (d i * d (nxt n i)))).
  assert (FP : forall i, (i < n)%nat -> 0 < f i /\ rd (f i) = f i).
  { intros i Hi. assert (Ln : (nxt n i < n)%nat) by (apply nxt_lt; lia). unfold f. apply Hpw.
    2:{ exists (nth i sds pzero). split; [apply nth_In; lia|]. right. exists (nth (nxt n i) sds pzero). split; [apply nth_In; lia|reflexivity]. }
    eapply Rlt_le_trans; [exact Hee|]. apply (ro_mono _ _ _ HR).
    pose proof (F i Hi). pose proof (F (nxt n i) (nxt_lt n i ltac:(lia))). apply Rmult_le_compat; lra. }
  assert (G : forall i, (i < n)%nat -> get (tabulate n f) i = f i) by (intros; apply get_tab; assumption).
  assert (SF : rsum n (get (tabulate n f)) = rsum n f) by (apply rsum_ext; exact G).
  assert (SP : 0 < rsum n f) by (apply rsum_pos; [lia|intros; apply FP; assumption]).
  destruct (normalizeF_spec rd u eta HR (tabulate n f)) as (w & Ew & Lw & Hw).
  - intros x Hx. apply (In_nth _ _ 0) in Hx. destruct Hx as (i & Hi & <-). rewrite tabulate_length in Hi.
    change (nth i (tabulate n f) 0) with (get (tabulate n f) i). rewrite G by exact Hi. destruct (FP i Hi). split; [lra|assumption].
  - rewrite tabulate_length, SF. exact SP.
  - rewrite tabulate_length. exact Hnu.
  - rewrite tabulate_length, ?SF in *. exists w. split; [|split; [exact Lw|split]].
    + unfold blendCornerF. rewrite close_none by (rewrite HL; exact F). cbn [Nat.ltb Nat.leb].
      rewrite (mapM_seq _ n _ f); [exact Ew|]. intros i Hi. rewrite !nth_sd by (rewrite HL; try apply nxt_lt; lia). reflexivity.
    + intros x Hx. apply (In_nth _ _ 0) in Hx. destruct Hx as (i & Hi & <-). rewrite Lw in Hi. apply (Hw i Hi).
    + replace (fold_right Rplus 0 w) with (rsum n (get w)).
      * apply (sum_close eta n (get w) (fun i => get (tabulate n f) i / rsum n f)).
        -- rewrite rsum_div, SF. field. lra.
        -- intros i Hi. apply (Hw i Hi).
      * rewrite <- tab_sum. f_equal. symmetry. rewrite <- Lw. apply (list_as_tabulate R w 0).
Qed.

Lemma cornerF_one : (3 <= n)%nat -> forall e, (e < n)%nat -> d e < eps -> (forall j, (j < n)%nat -> j <> e -> eps <= d j) ->
  exists w, blendCornerF rd pw eps n sds = Some w /\ length w = n /\ (forall x, In x w -> 0 <= x <= 1) /\
    Rabs (fold_right Rplus 0 w - 1) <= gam u (n + 1) + INR n * eta.
Proof.
  intros H3 e He De F.
  assert (Pn : eps <= d (nxt n e)) by (apply F; [apply nxt_lt; lia|apply nxt_neq; lia]).
  assert (Pp : eps <= d (prv n e)) by (apply F; [apply prv_lt; lia|apply prv_neq; lia]).
  assert (HI : forall i, (i < n)%nat -> exists sd, In sd sds /\ (d i = py sd \/ exists sd', In sd' sds /\ d i = rd (py sd * py sd'))).
  { intros i Hi. exists (nth i sds pzero). split; [apply nth_In; lia|left; reflexivity]. }
  destruct (Hpw (d (nxt n e)) ltac:(lra) (HI _ (nxt_lt n e ltac:(lia)))) as [A RA].
  destruct (Hpw (d (prv n e)) ltac:(lra) (HI _ (prv_lt n e ltac:(lia)))) as [B RB].
  set (a := pw (d (nxt n e))) in *. set (b := pw (d (prv n e))) in *.
  assert (H3u : INR 3 * u < 1).
  { eapply Rle_lt_trans; [|exact Hnu]. apply Rmult_le_compat_r; [lra|]. apply le_INR. lia. }
  assert (Dp : 0 < rd (a + b)).
  { eapply Rlt_le_trans; [exact A|]. rewrite <- RA at 1. apply (ro_mono _ _ _ HR). lra. }
  set (f := fun i => if Nat.eqb i e then rd (a / rd (a + b)) else if Nat.eqb i (prv n e) then rd (b / rd (b + a)) else 0).
  destruct (pair_bounds a b A B RA RB H3u) as [PA EA]. destruct (pair_bounds b a B A RB RA H3u) as [PB EB].
  exists (tabulate n f). split; [|split; [apply tabulate_length|split]].
  - unfold blendCornerF. rewrite (close_one eps sds e) by (rewrite ?HL; assumption). cbn [Nat.ltb Nat.leb].
    apply mapM_seq. intros i Hi. rewrite !nth_sd by (rewrite HL; try apply nxt_lt; lia). cbn [bind py]. fold d. unfold f.
    destruct (Nat.eqb_spec i e) as [-> |Ne].
    + destruct (Rlt_dec (d e) eps) as [_|]; [|lra]. rewrite nth_sd by (rewrite HL; apply prv_lt; lia). cbn [bind py].
      fold d. fold a b. unfold fdivF. rewrite fdiv_some by lra. reflexivity.
    + destruct (Rlt_dec (d i) eps) as [L|_]; [specialize (F i Hi Ne); lra|].
      destruct (Nat.eqb_spec i (prv n e)) as [-> |Np].
      * rewrite (nxt_prv n e He). destruct (Rlt_dec (d e) eps) as [_|]; [|lra].
        rewrite nth_sd by (rewrite HL; apply nxt_lt; lia). cbn [bind py].
        fold d. fold a b. unfold fdivF. rewrite fdiv_some by (rewrite Rplus_comm; lra). reflexivity.
      * destruct (Rlt_dec (d (nxt n i)) eps) as [L|_]; [|reflexivity]. exfalso.
        assert (X : nxt n i <> e). { intros E. apply Np. rewrite <- E. rewrite prv_nxt by exact Hi. reflexivity. }
        specialize (F (nxt n i) (nxt_lt n i ltac:(lia)) X). lra.
  - intros x Hx. apply (In_nth _ _ 0) in Hx. destruct Hx as (i & Hi & <-). rewrite tabulate_length in Hi.
    change (nth i (tabulate n f) 0) with (get (tabulate n f) i). rewrite get_tab by exact Hi. unfold f.
    destruct (Nat.eqb i e); [exact PA|]. destruct (Nat.eqb i (prv n e)); [exact PB|lra].
  - rewrite tab_sum. assert (Np : prv n e <> e) by (apply prv_neq; lia).
    rewrite (rsum_double n f e (prv n e)); try assumption; [|apply prv_lt; lia|auto|].
    + unfold f. rewrite Nat.eqb_refl. destruct (Nat.eqb_spec (prv n e) e); [congruence|]. rewrite Nat.eqb_refl.
      pose proof (gam_mono 3 (n + 1) ltac:(lia) Hnu) as GM. apply rabs_both in EA. apply rabs_both in EB.
      replace (b + a) with (a + b) in * by ring.
      assert (S1 : a / (a + b) + b / (a + b) = 1) by (field; lra).
      assert (0 < a / (a + b)) by (apply Rdiv_lt_0_compat; lra). assert (0 < b / (a + b)) by (apply Rdiv_lt_0_compat; lra).
      assert (2 * eta <= INR n * eta) by (apply Rmult_le_compat_r; [exact ETA|]; change 2 with (INR 2); apply le_INR; lia).
      set (x := a / (a + b)) in *. set (y := b / (a + b)) in *.
      assert (gam u 3 * x + gam u 3 * y = gam u 3) by (rewrite <- Rmult_plus_distr_l, S1; ring).
      apply Rabs_le. lra.
    + intros k _ K1 K2. unfold f. destruct (Nat.eqb_spec k e); [congruence|]. destruct (Nat.eqb_spec k (prv n e)); [congruence|reflexivity].
Qed.

Lemma cornerF_many : (1 < closeCount eps sds)%nat -> blendCornerF rd pw eps n sds = blendCorner eps n sds.
Proof.
  intros H. unfold blendCornerF, blendCorner. destruct (Nat.ltb_spec 0 (closeCount eps sds)); [|lia].
  destruct (Nat.ltb_spec 1 (closeCount eps sds)); [|lia]. reflexivity.
Qed.
End CornerF.
End Rounded.
