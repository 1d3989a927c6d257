(** Normalised weights, ribbon parameters and the side based patch in rounded
    arithmetic. *)

From Verif Require Import Base UtilModel UtilSpec UtilProofs DomainModel RibbonModel SurfaceModel RoundModel RoundSpec RoundProofs RoundProofs2.
Open Scope R_scope.

Section Rounded.
Variables (rd : R -> R) (u eta : R).
Hypothesis HR : rounding rd u eta.
Let U : 0 < u < 1 := ro_u _ _ _ HR.
Let ETA : 0 <= eta := ro_eta _ _ _ HR.

Lemma rsumF_ext : forall n f g, (forall i, (i < n)%nat -> f i = g i) -> rsumF rd n f = rsumF rd n g.
Proof.
  intros n f g H; induction n as [|n IH]; [reflexivity|]. simpl. rewrite IH by (intros; apply H; lia).
  rewrite H by lia. reflexivity.
Qed.
Lemma accumulateF_sum : forall l, accumulateF rd l = rsumF rd (length l) (get l).
Proof.
  intros l; induction l as [|x l IH] using rev_ind; [reflexivity|].
  unfold accumulateF in *. rewrite fold_left_app, IH, app_length, Nat.add_1_r. simpl.
  f_equal. f_equal.
  - apply rsumF_ext. intros i Hi. unfold get. rewrite app_nth1 by exact Hi. reflexivity.
  - unfold get. rewrite app_nth2, Nat.sub_diag by lia. reflexivity.
Qed.

(** ** Sums of nonnegative numbers *)
Lemma rsumF_bounds : forall n f, (forall i, (i < n)%nat -> 0 <= f i /\ rd (f i) = f i) ->
  (1 - u) ^ n * rsum n f <= rsumF rd n f <= (1 + u) ^ n * rsum n f.
Proof.
  intros n f H; induction n as [|n IH]; [simpl; lra|].
  specialize (IH ltac:(intros; apply H; lia)). destruct (H n ltac:(lia)) as [P Rf].
  simpl rsumF. rewrite rsum_S. cbn [pow].
  assert (S0 : 0 <= rsum n f) by (apply rsum_nonneg; intros; apply H; lia).
  assert (A : 0 <= (1 - u) ^ n <= 1).
  { split; [apply pow_le; lra|]. apply Rle_trans with (1 ^ n); [apply pow_incr; lra|rewrite pow1; lra]. }
  assert (B : 1 <= (1 + u) ^ n) by (apply pow_R1_Rle; lra).
  assert (Sh : 0 <= rsumF rd n f) by nra.
  pose proof (rd_bounds_add rd u eta HR _ _ (rsumF_repr rd u eta HR n f) Rf ltac:(lra)) as C.
  set (x := rsumF rd n f) in *. set (a := (1 - u) ^ n) in *. set (b := (1 + u) ^ n) in *. set (s := rsum n f) in *.
  split.
  - assert (a * (s + f n) <= x + f n) by nra.
    assert ((1 - u) * (a * (s + f n)) <= (1 - u) * (x + f n)) by (apply Rmult_le_compat_l; lra). lra.
  - assert (x + f n <= b * (s + f n)) by nra.
    assert ((1 + u) * (x + f n) <= (1 + u) * (b * (s + f n))) by (apply Rmult_le_compat_l; lra). lra.
Qed.
Lemma rsumF_ge : forall n f, (forall i, (i < n)%nat -> 0 <= f i /\ rd (f i) = f i) ->
  0 <= rsumF rd n f /\ forall i, (i < n)%nat -> f i <= rsumF rd n f.
Proof.
  intros n f H; induction n as [|n IH]; [simpl; split; [lra|intros; lia]|].
  destruct (IH ltac:(intros; apply H; lia)) as [P Q]. destruct (H n ltac:(lia)) as [Pn Rn]. simpl.
  assert (A : rsumF rd n f <= rd (rsumF rd n f + f n)).
  { rewrite <- (rsumF_repr rd u eta HR n f) at 1. apply (ro_mono _ _ _ HR). lra. }
  assert (B : f n <= rd (rsumF rd n f + f n)).
  { rewrite <- Rn at 1. apply (ro_mono _ _ _ HR). lra. }
  split; [lra|]. intros i Hi. destruct (Nat.eq_dec i n) as [->|Hne]; [exact B|].
  specialize (Q i ltac:(lia)). lra.
Qed.

(** ** Normalised weights *)
Lemma gam_up : forall n, INR (n + 1) * u < 1 -> (1 + u) / (1 - u) ^ n <= 1 + gam u (n + 1).
Proof.
  intros n H. assert (P : 0 < (1 - u) ^ n) by (apply pow_lt; lra).
  pose proof (bernoulli u (n + 1) ltac:(lra)) as B. rewrite Nat.add_1_r in *. cbn [pow] in B.
  assert (X : 0 < 1 - INR (S n) * u) by lra.
  unfold gam. replace (1 + INR (S n) * u / (1 - INR (S n) * u)) with (/ (1 - INR (S n) * u)) by (field; lra).
  apply Rmult_le_reg_r with ((1 - u) ^ n); [exact P|]. replace ((1 + u) / (1 - u) ^ n * (1 - u) ^ n) with (1 + u) by (field; lra).
  apply Rmult_le_reg_l with (1 - INR (S n) * u); [exact X|].
  replace ((1 - INR (S n) * u) * (/ (1 - INR (S n) * u) * (1 - u) ^ n)) with ((1 - u) ^ n) by (field; lra). nra.
Qed.
Lemma gam_lo : forall n, INR (n + 1) * u < 1 -> 1 - gam u (n + 1) <= (1 - u) / (1 + u) ^ n.
Proof.
  intros n H. assert (P : 1 <= (1 + u) ^ n) by (apply pow_R1_Rle; lra).
  eapply Rle_trans; [apply one_minus; [lra|exact H]|]. rewrite Nat.add_1_r. cbn [pow].
  assert (Q : (1 - u) ^ n * (1 + u) ^ n <= 1).
  { rewrite <- Rpow_mult_distr. apply Rle_trans with (1 ^ n); [apply pow_incr; nra|rewrite pow1; lra]. }
  apply Rmult_le_reg_r with ((1 + u) ^ n); [lra|]. replace ((1 - u) / (1 + u) ^ n * (1 + u) ^ n) with (1 - u) by (field; lra). nra.
Qed.

Lemma weight_bounds : forall n f i, (forall i, (i < n)%nat -> 0 <= f i /\ rd (f i) = f i) -> 0 < rsum n f -> (i < n)%nat ->
  INR (n + 1) * u < 1 ->
  0 <= rd (f i / rsumF rd n f) <= 1 /\
  Rabs (rd (f i / rsumF rd n f) - f i / rsum n f) <= gam u (n + 1) * (f i / rsum n f) + eta.
Proof.
  intros n f i H HS Hi Hn. destruct (rsumF_ge n f H) as [P Q]. specialize (Q i Hi).
  pose proof (rsumF_bounds n f H) as [B1 B2]. destruct (H i Hi) as [Fp _].
  assert (A : 0 < (1 - u) ^ n) by (apply pow_lt; lra).
  assert (X : 0 < rsumF rd n f) by nra.
  set (s := rsum n f) in *. set (x := rsumF rd n f) in *.
  assert (Wp : 0 <= f i / x) by (apply Rmult_le_pos; [exact Fp|left; apply Rinv_0_lt_compat; exact X]).
  split.
  - split; [apply (rd_nonneg rd u eta HR); exact Wp|]. apply (rd_le1 rd u eta HR).
    apply Rmult_le_reg_r with x; [exact X|]. unfold Rdiv. rewrite Rmult_assoc, Rinv_l by lra. lra.
  - pose proof (rd_bounds rd u eta HR _ Wp) as [C1 C2].
    assert (Vp : 0 <= f i / s) by (apply Rmult_le_pos; [exact Fp|left; apply Rinv_0_lt_compat; exact HS]).
    assert (D1 : f i / x <= f i / s / (1 - u) ^ n).
    { apply Rmult_le_reg_r with x; [exact X|]. replace (f i / x * x) with (f i) by (field; lra).
      replace (f i) with (f i / s / (1 - u) ^ n * ((1 - u) ^ n * s)) at 1 by (field; lra).
      apply Rmult_le_compat_l; [|exact B1]. apply Rmult_le_pos; [exact Vp|left; apply Rinv_0_lt_compat; exact A]. }
    assert (E1 : 1 <= (1 + u) ^ n) by (apply pow_R1_Rle; lra).
    assert (D2 : f i / s / (1 + u) ^ n <= f i / x).
    { apply Rmult_le_reg_r with x; [exact X|]. replace (f i / x * x) with (f i) by (field; lra).
      replace (f i) with (f i / s / (1 + u) ^ n * ((1 + u) ^ n * s)) at 2 by (field; lra).
      apply Rmult_le_compat_l; [|exact B2]. apply Rmult_le_pos; [exact Vp|left; apply Rinv_0_lt_compat; lra]. }
    pose proof (gam_up n Hn) as G1. pose proof (gam_lo n Hn) as G2.
    set (v := f i / s) in *.
    assert (H1 : (1 + u) * (f i / x) <= (1 + gam u (n + 1)) * v).
    { apply Rle_trans with ((1 + u) * (v / (1 - u) ^ n)); [apply Rmult_le_compat_l; lra|].
      replace ((1 + u) * (v / (1 - u) ^ n)) with ((1 + u) / (1 - u) ^ n * v) by (field; lra).
      apply Rmult_le_compat_r; assumption. }
    assert (H2 : (1 - gam u (n + 1)) * v <= (1 - u) * (f i / x)).
    { apply Rle_trans with ((1 - u) * (v / (1 + u) ^ n)); [|apply Rmult_le_compat_l; lra].
      replace ((1 - u) * (v / (1 + u) ^ n)) with ((1 - u) / (1 + u) ^ n * v) by (field; lra).
      apply Rmult_le_compat_r; assumption. }
    apply Rabs_le. lra.
Qed.

(** The vector divided by its sum. *)
Lemma normalizeF_spec : forall l, (forall x, In x l -> 0 <= x /\ rd x = x) -> 0 < rsum (length l) (get l) ->
  INR (length l + 1) * u < 1 ->
  exists w, normalizeF rd l = Some w /\ length w = length l /\
    (forall i, (i < length l)%nat -> get w i = rd (get l i / rsumF rd (length l) (get l)) /\ 0 <= get w i <= 1 /\
       Rabs (get w i - get l i / rsum (length l) (get l)) <= gam u (length l + 1) * (get l i / rsum (length l) (get l)) + eta).
Proof.
  intros l H HS Hn.
  assert (F : forall i, (i < length l)%nat -> 0 <= get l i /\ rd (get l i) = get l i).
  { intros i Hi. apply H. unfold get. apply nth_In. exact Hi. }
  assert (X : 0 < rsumF rd (length l) (get l)).
  { pose proof (rsumF_bounds _ _ F) as [B _]. assert (0 < (1 - u) ^ length l) by (apply pow_lt; lra). nra. }
  exists (map (fun x => rd (x / accumulateF rd l)) l). split; [|split].
  - unfold normalizeF. apply mapM_total. intros x _. unfold fdivF. rewrite fdiv_some; [reflexivity|].
    rewrite accumulateF_sum. lra.
  - apply map_length.
  - intros i Hi.
    assert (G : get (map (fun x => rd (x / accumulateF rd l)) l) i = rd (get l i / rsumF rd (length l) (get l))).
    { unfold get at 1. rewrite (nth_indep _ 0 ((fun x => rd (x / accumulateF rd l)) 0)) by (rewrite map_length; exact Hi).
      rewrite (map_nth (fun x => rd (x / accumulateF rd l))). rewrite accumulateF_sum. reflexivity. }
    rewrite G. split; [reflexivity|]. apply weight_bounds; assumption.
Qed.

(** Weights that are each close to weights with sum 1 have a sum close to 1. *)
Lemma sum_close : forall n w b g, rsum n b = 1 -> (forall i, (i < n)%nat -> Rabs (w i - b i) <= g * b i + eta) ->
  rsum n (fun i => Rabs (w i - b i)) <= g + INR n * eta /\ Rabs (rsum n w - 1) <= g + INR n * eta.
Proof.
  intros n w b g Hb H.
  assert (A : rsum n (fun i => Rabs (w i - b i)) <= g + INR n * eta).
  { eapply Rle_trans; [apply (rsum_le _ _ (fun i => g * b i + eta)); exact H|].
    rewrite (rsum_plus _ (fun i => g * b i)), rsum_scal, Hb, rsum_const. lra. }
  split; [exact A|]. rewrite <- Hb, <- rsum_minus. eapply Rle_trans; [apply rabs_rsum|exact A].
Qed.

(** A combination of numbers of size at most [M] with such weights. *)
Lemma combine_err : forall n w b c M del, (forall i, (i < n)%nat -> 0 <= w i) -> rsum n b = 1 ->
  rsum n (fun i => Rabs (w i - b i)) <= del -> 0 <= M -> (forall i, (i < n)%nat -> Rabs (c i) <= M) ->
  Rabs (rsumF rd n (fun i => rd (c i * w i)) - rsum n (fun i => c i * b i))
  <= ((1 + u) ^ (n + 1) * (1 + del) - 1) * M + (1 + u) ^ n * (INR n * eta).
Proof.
  intros n w b c M del Wp Hb Hd HM Hc. set (f := fun k => rd (c k * w k)).
  pose proof (rsumF_err rd u eta HR n f ltac:(intros; apply (ro_idem _ _ _ HR))) as A.
  assert (SW : rsum n w <= 1 + del).
  { assert (rsum n w - 1 <= del); [|lra]. rewrite <- Hb, <- rsum_minus.
    eapply Rle_trans; [apply Rle_abs|]. eapply Rle_trans; [apply rabs_rsum|exact Hd]. }
  assert (cb : forall k, (k < n)%nat -> Rabs (c k * w k) <= M * w k).
  { intros k Hk. rewrite Rabs_mult, (Rabs_pos_eq (w k)) by (apply Wp; exact Hk).
    apply Rmult_le_compat_r; [apply Wp; exact Hk|apply Hc; exact Hk]. }
  assert (F1 : rsum n (fun i => Rabs (f i)) <= (1 + u) * M * rsum n w + INR n * eta).
  { eapply Rle_trans; [apply (rsum_le _ _ (fun k => (1 + u) * M * w k + eta))|].
    - intros k Hk. unfold f. pose proof (ro_err _ _ _ HR (c k * w k)) as E. specialize (cb k Hk).
      pose proof (Rabs_triang (rd (c k * w k) - c k * w k) (c k * w k)) as T.
      replace (rd (c k * w k) - c k * w k + c k * w k) with (rd (c k * w k)) in T by ring. nra.
    - rewrite (rsum_plus _ (fun k => (1 + u) * M * w k)), rsum_scal, rsum_const. lra. }
  assert (F2 : Rabs (rsum n f - rsum n (fun k => c k * w k)) <= u * M * rsum n w + INR n * eta).
  { rewrite <- rsum_minus. eapply Rle_trans; [apply rabs_rsum|].
    eapply Rle_trans; [apply (rsum_le _ _ (fun k => u * M * w k + eta))|].
    - intros k Hk. unfold f. pose proof (ro_err _ _ _ HR (c k * w k)) as E. specialize (cb k Hk).
      assert (u * Rabs (c k * w k) <= u * (M * w k)) by (apply Rmult_le_compat_l; lra). lra.
    - rewrite (rsum_plus _ (fun k => u * M * w k)), rsum_scal, rsum_const. lra. }
  assert (F3 : Rabs (rsum n (fun k => c k * w k) - rsum n (fun k => c k * b k)) <= M * del).
  { rewrite <- rsum_minus. eapply Rle_trans; [apply rabs_rsum|].
    eapply Rle_trans; [apply (rsum_le _ _ (fun k => M * Rabs (w k - b k)))|].
    - intros k Hk. replace (c k * w k - c k * b k) with (c k * (w k - b k)) by ring.
      rewrite Rabs_mult. apply Rmult_le_compat_r; [apply Rabs_pos|apply Hc; exact Hk].
    - rewrite rsum_scal. apply Rmult_le_compat_l; assumption. }
  assert (T : Rabs (rsumF rd n f - rsum n (fun k => c k * b k)) <=
    ((1 + u) ^ n - 1) * rsum n (fun i => Rabs (f i)) + (u * M * rsum n w + INR n * eta) + M * del).
  { replace (rsumF rd n f - rsum n (fun k => c k * b k)) with
      ((rsumF rd n f - rsum n f) + ((rsum n f - rsum n (fun k => c k * w k))
       + (rsum n (fun k => c k * w k) - rsum n (fun k => c k * b k)))) by ring.
    eapply Rle_trans; [apply Rabs_triang|].
    pose proof (Rabs_triang (rsum n f - rsum n (fun k => c k * w k))
      (rsum n (fun k => c k * w k) - rsum n (fun k => c k * b k))). lra. }
  fold f. eapply Rle_trans; [exact T|]. clear T A F2 F3.
  assert (E1 : 1 <= (1 + u) ^ n) by (apply pow_R1_Rle; lra).
  assert (G1 : ((1 + u) ^ n - 1) * rsum n (fun i => Rabs (f i)) <=
               ((1 + u) ^ n - 1) * ((1 + u) * M * rsum n w + INR n * eta)) by (apply Rmult_le_compat_l; lra).
  assert (K : 0 <= (((1 + u) ^ n - 1) * (1 + u) + u) * M).
  { apply Rmult_le_pos; [|exact HM]. nra. }
  assert (G2 : (((1 + u) ^ n - 1) * (1 + u) + u) * M * rsum n w <=
               (((1 + u) ^ n - 1) * (1 + u) + u) * M * (1 + del)) by (apply Rmult_le_compat_l; assumption).
  rewrite Nat.add_1_r. cbn [pow].
  set (e1 := (1 + u) ^ n) in *. set (sb := rsum n w) in *. nra.
Qed.

(** ** Ribbon parameters *)
Lemma baryRibbonF_spec : forall eps lp li, 0 < eps -> rd lp = lp -> rd li = li -> 0 <= lp <= 1 -> 0 <= li <= 1 -> eps <= rd (lp + li) ->
  exists s d, baryRibbonF rd eps lp li = Some (mkV2 s d) /\ 0 <= s <= 1 /\ (li = 0 -> s = 0) /\ (lp = 0 -> s = 1) /\
    -1 <= d <= 1 /\ Rabs (d - (1 - li - lp)) <= 2 * u /\ (lp + li = 1 -> d = 0).
Proof.
  intros eps lp li He Rp Ri Hp Hi Hd. unfold baryRibbonF. destruct (Rlt_dec _ _); [lra|].
  set (D := rd (lp + li)) in *. unfold fdivF. rewrite fdiv_some by lra. cbn [bind].
  eexists _, _. split; [reflexivity|].
  assert (Q : li <= D) by (unfold D; rewrite <- Ri at 1; apply (ro_mono _ _ _ HR); lra).
  assert (T : 0 <= rd (1 - li) <= 1) by (split; [apply (rd_nonneg rd u eta HR)|apply (rd_le1 rd u eta HR)]; lra).
  split; [|split; [|split; [|split; [|split]]]].
  - split; [apply (rd_nonneg rd u eta HR)|apply (rd_le1 rd u eta HR)].
    + apply Rmult_le_pos; [lra|left; apply Rinv_0_lt_compat; lra].
    + apply Rmult_le_reg_r with D; [lra|]. unfold Rdiv. rewrite Rmult_assoc, Rinv_l by lra. lra.
  - intros ->. unfold Rdiv. rewrite Rmult_0_l. apply (ro_0 _ _ _ HR).
  - intros ->. unfold D in *. rewrite Rplus_0_l, Ri in *. unfold Rdiv. rewrite Rinv_r by lra. apply (ro_1 _ _ _ HR).
  - split.
    + assert (N : rd (- (1)) = -1) by (rewrite (ro_opp _ _ _ HR), (ro_1 _ _ _ HR); lra).
      rewrite <- N. apply (ro_mono _ _ _ HR). lra.
    + apply (rd_le1 rd u eta HR). lra.
  - pose proof (rd_bounds_1m rd u eta HR li Ri ltac:(lra)) as A.
    pose proof (rd_sub rd u eta HR (rd (1 - li)) lp (ro_idem _ _ _ HR _) Rp) as B.
    assert (C : Rabs (rd (1 - li) - lp) <= 1) by (apply Rabs_le; lra).
    apply rabs_both in B. pose proof (Rabs_pos (rd (1 - li) - lp)).
    assert (u * Rabs (rd (1 - li) - lp) <= u * 1) by (apply Rmult_le_compat_l; lra).
    apply Rabs_le. nra.
  - intros E. replace (1 - li) with lp by lra. rewrite Rp. rewrite Rminus_diag_eq by reflexivity. apply (ro_0 _ _ _ HR).
Qed.
End Rounded.
