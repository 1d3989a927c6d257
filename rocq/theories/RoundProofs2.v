(** The single Bernstein evaluator, Bezier points and weights in rounded
    arithmetic. *)

From Verif Require Import Base UtilModel UtilSpec UtilProofs DomainModel RibbonModel SurfaceModel RoundModel RoundSpec RoundProofs.
Open Scope R_scope.

(** A list is determined by its length and its values. *)
Lemma get_ext : forall l l' : list R, length l = length l' -> (forall k, (k < length l)%nat -> get l k = get l' k) -> l = l'.
Proof.
  intros l; induction l as [|x l IH]; intros [|y l'] HL HK; simpl in HL; try lia; [reflexivity|].
  f_equal; [apply (HK 0%nat); simpl; lia|]. apply IH; [lia|]. intros k Hk. apply (HK (S k)). simpl; lia.
Qed.

Section Rounded.
Variables (rd : R -> R) (u eta : R).
Hypothesis HR : rounding rd u eta.
Let U : 0 < u < 1 := ro_u _ _ _ HR.
Let ETA : 0 <= eta := ro_eta _ _ _ HR.

(** ** The single evaluator *)
Lemma inner_roundF : forall t m k tmp, (1 <= k)%nat -> (k + m <= length tmp)%nat ->
  exists tmp', foldM (bernsteinStepF rd t) tmp (rev (seq k m)) = Some tmp' /\ length tmp' = length tmp /\
    forall j, get tmp' j = if ((k <=? j) && (j <? k + m))%nat
      then rd (rd (get tmp (j - 1) * t) + rd (get tmp j * rd (1 - t))) else get tmp j.
Proof.
  intros t m k; induction m as [|m IH]; intros tmp Hk Hm.
  - exists tmp. split; [reflexivity|]. split; [reflexivity|]. intros j.
    destruct (Nat.leb_spec k j); destruct (Nat.ltb_spec j (k + 0)); simpl; try reflexivity; lia.
  - rewrite seq_S, rev_app_distr. cbn [rev app foldM].
    unfold bernsteinStepF at 1. rewrite !get_nth by lia. cbn [bind].
    destruct (upd_spec _ tmp (k + m) (rd (rd (get tmp (k + m - 1) * t) + rd (get tmp (k + m) * rd (1 - t))))) as (t1 & E1 & _); [lia|].
    rewrite E1. cbn [bind]. apply upd_get in E1; [|lia]. destruct E1 as [L1 N1].
    destruct (IH t1 Hk ltac:(lia)) as (t2 & E2 & L2 & N2). exists t2. split; [exact E2|]. split; [lia|].
    intros j. rewrite N2.
    destruct (Nat.leb_spec k j); destruct (Nat.ltb_spec j (k + m)); destruct (Nat.ltb_spec j (k + S m)); simpl; rewrite ?N1;
      repeat match goal with |- context [(?a =? ?b)%nat] => destruct (Nat.eqb_spec a b) end; try lia; try reflexivity.
    subst j. reflexivity.
Qed.

Lemma roundsF : forall t n i m tmp, length tmp = (n + 1)%nat -> (i <= n)%nat -> (m <= n)%nat ->
  (forall j, get tmp j = if (j =? n - i)%nat then 1 else 0) ->
  exists tmp', foldM (bernsteinRoundF rd n t) tmp (seq 1 m) = Some tmp' /\ length tmp' = (n + 1)%nat /\
    forall j, (m <= j <= n)%nat -> get tmp' j = if (n - i <=? j)%nat then get (bernsteinListF rd m t) (j - (n - i)) else 0.
Proof.
  intros t n i m; induction m as [|m IH]; intros tmp L Hi Hm HT.
  - exists tmp. split; [reflexivity|]. split; [exact L|]. intros j Hj. rewrite HT.
    destruct (Nat.eqb_spec j (n - i)); destruct (Nat.leb_spec (n - i) j); try lia; try reflexivity.
    + subst j. rewrite Nat.sub_diag. reflexivity.
    + unfold get. rewrite nth_overflow; [reflexivity|]. simpl; lia.
  - rewrite seq_S, foldM_app. destruct (IH tmp L Hi ltac:(lia) HT) as (t1 & E1 & L1 & N1). rewrite E1. cbn [bind foldM].
    unfold bernsteinRoundF.
    destruct (inner_roundF t (n + 1 - (1 + m)) (1 + m) t1) as (t2 & E2 & L2 & N2); [lia|lia|].
    rewrite E2. exists t2. split; [reflexivity|]. split; [lia|]. intros j Hj. rewrite N2.
    destruct (Nat.leb_spec (1 + m) j); [|lia]. destruct (Nat.ltb_spec j (1 + m + (n + 1 - (1 + m)))); [|lia]. cbn [andb].
    rewrite !N1 by lia.
    destruct (Nat.leb_spec (n - i) (j - 1)) as [A|A]; destruct (Nat.leb_spec (n - i) j) as [B|B]; try lia.
    + replace (j - (n - i))%nat with (S (j - 1 - (n - i))) by lia. rewrite (bernF_S rd u eta HR). reflexivity.
    + replace (j - (n - i))%nat with 0%nat by lia. rewrite (bernF_0 rd u eta HR).
      rewrite Rmult_0_l, (ro_0 _ _ _ HR), Rplus_0_l. apply (ro_idem _ _ _ HR).
    + rewrite !Rmult_0_l, !(ro_0 _ _ _ HR), Rplus_0_l. apply (ro_0 _ _ _ HR).
Qed.

Lemma bernsteinSingleF_spec : forall i n t, (i <= n)%nat ->
  bernsteinSingleF rd i n t = nth_error (bernsteinListF rd n t) i.
Proof.
  intros i n t H. unfold bernsteinSingleF. destruct (Nat.ltb_spec n i); [lia|].
  assert (L0 : length (repeat 0 (n + 1)) = (n + 1)%nat) by apply repeat_length.
  destruct (upd_spec _ (repeat 0 (n + 1)) (n - i) 1) as (x & E & L & _); [lia|].
  rewrite E. cbn [bind]. apply upd_get in E; [|lia]. destruct E as [_ N].
  destruct (roundsF t n i n x ltac:(lia) H ltac:(lia)) as (t' & E' & L' & N').
  { intros j. rewrite N. unfold get. rewrite nth_repeat. reflexivity. }
  rewrite E'. cbn [bind]. rewrite get_nth by lia.
  rewrite get_nth by (rewrite bernsteinListF_length; lia). f_equal. rewrite N' by lia.
  destruct (Nat.leb_spec (n - i) n); [|lia]. f_equal. lia.
Qed.

(** ** At the ends *)
Lemma bernF_at0 : forall n, bernsteinListF rd n 0 = 1 :: repeat 0 n.
Proof.
  intros n. apply get_ext; [rewrite bernsteinListF_length; simpl; rewrite repeat_length; reflexivity|].
  intros k _. revert k. induction n as [|n IH]; intros k; [reflexivity|].
  assert (V : rd (1 - 0) = 1) by (rewrite Rminus_0_r; apply (ro_1 _ _ _ HR)).
  destruct k as [|k].
  - rewrite (bernF_0 rd u eta HR), IH, V. unfold get; simpl. rewrite Rmult_1_r. apply (ro_1 _ _ _ HR).
  - rewrite (bernF_S rd u eta HR), !IH, V, Rmult_0_r, (ro_0 _ _ _ HR), Rplus_0_l, Rmult_1_r.
    change (get (1 :: repeat 0 n) (S k)) with (nth k (repeat 0 n) 0).
    change (get (1 :: repeat 0 (S n)) (S k)) with (nth k (repeat 0 (S n)) 0).
    rewrite !nth_repeat, !(ro_0 _ _ _ HR). reflexivity.
Qed.
Lemma bernF_at1 : forall n, bernsteinListF rd n 1 = repeat 0 n ++ [1].
Proof.
  intros n. apply get_ext; [rewrite bernsteinListF_length, app_length, repeat_length; simpl; lia|].
  intros k _. revert k. induction n as [|n IH]; intros k; [reflexivity|].
  assert (V : rd (1 - 1) = 0) by (rewrite Rminus_diag_eq by reflexivity; apply (ro_0 _ _ _ HR)).
  assert (W : forall m j, rd (get (repeat 0 m ++ [1]) j) = get (repeat 0 m ++ [1]) j).
  { intros m; induction m as [|m IHm]; intros [|j]; unfold get in *; simpl.
    - apply (ro_1 _ _ _ HR). - destruct j; apply (ro_0 _ _ _ HR). - apply (ro_0 _ _ _ HR). - apply IHm. }
  destruct k as [|k].
  - rewrite (bernF_0 rd u eta HR), V, Rmult_0_r. unfold get; simpl. apply (ro_0 _ _ _ HR).
  - rewrite (bernF_S rd u eta HR), !IH, V, Rmult_0_r, (ro_0 _ _ _ HR), Rplus_0_r, Rmult_1_r, (ro_idem _ _ _ HR), W.
    reflexivity.
Qed.

(** ** Sums *)
Lemma vscaleF_1 : forall p, repr3 rd p -> vscaleF rd p 1 = p.
Proof. intros [x y z] (A & B & C). unfold vscaleF; simpl in *. rewrite !Rmult_1_r, A, B, C; reflexivity. Qed.
Lemma vscaleF_0 : forall p, vscaleF rd p 0 = vzero.
Proof. intros p. unfold vscaleF. rewrite !Rmult_0_r, (ro_0 _ _ _ HR); reflexivity. Qed.
Lemma vaddF_0l : forall p, repr3 rd p -> vaddF rd vzero p = p.
Proof. intros [x y z] (A & B & C). unfold vaddF; simpl in *. rewrite !Rplus_0_l, A, B, C; reflexivity. Qed.
Lemma vaddF_0r : forall p, repr3 rd p -> vaddF rd p vzero = p.
Proof. intros [x y z] (A & B & C). unfold vaddF; simpl in *. rewrite !Rplus_0_r, A, B, C; reflexivity. Qed.
Lemma repr3_0 : repr3 rd vzero.
Proof. repeat split; apply (ro_0 _ _ _ HR). Qed.
Lemma repr3_scale : forall p s, repr3 rd (vscaleF rd p s).
Proof. intros; repeat split; apply (ro_idem _ _ _ HR). Qed.
Lemma repr3_add : forall p q, repr3 rd (vaddF rd p q).
Proof. intros; repeat split; apply (ro_idem _ _ _ HR). Qed.

(** A sum with a single term that is not zero is that term. *)
Lemma osumF_single : forall n f i p, (i < n)%nat -> f i = Some p -> repr3 rd p ->
  (forall j, (j < n)%nat -> j <> i -> f j = Some vzero) -> osumF rd n f = Some p.
Proof.
  intros n f i p Hi Hf Hp Ho.
  assert (Z : forall m, (m <= i)%nat -> osumF rd m f = Some vzero).
  { induction m as [|m IH]; intros Hm; [reflexivity|]. simpl. rewrite IH by lia. rewrite Ho by lia. cbn [bind].
    rewrite (vaddF_0l vzero repr3_0). reflexivity. }
  assert (Y : forall m, (i < m)%nat -> (m <= n)%nat -> osumF rd m f = Some p); [|apply Y; lia].
  induction m as [|m IH]; intros Hm Hn; [lia|]. simpl. destruct (Nat.eq_dec i m) as [<-|Hne].
  - rewrite Z, Hf by lia. cbn [bind]. rewrite vaddF_0l by exact Hp. reflexivity.
  - rewrite IH, Ho by lia. cbn [bind]. rewrite vaddF_0r by exact Hp. reflexivity.
Qed.

Lemma bcEvalF_at0 : forall p cp, repr3 rd p -> bcEvalF rd (p :: cp) 0 = Some p.
Proof.
  intros p cp Hp. unfold bcEvalF, bcDegree. cbn [bind length]. 
  replace (S (length cp) - 1)%nat with (length cp) by lia.
  rewrite bernF_at0. apply (osumF_single _ _ 0%nat); [lia| |exact Hp|].
  - simpl. rewrite vscaleF_1 by exact Hp. reflexivity.
  - intros [|j] Hj Hne; [lia|]. cbn [nth_error].
    destruct (nth_error_ex _ cp j) as (q & ->); [lia|]. cbn [bind].
    rewrite (nth_error_nth' _ 0) by (rewrite repeat_length; lia). rewrite nth_repeat. cbn [bind].
    rewrite vscaleF_0. reflexivity.
Qed.
Lemma bcEvalF_at1 : forall p cp, repr3 rd p -> bcEvalF rd (cp ++ [p]) 1 = Some p.
Proof.
  intros p cp Hp. unfold bcEvalF, bcDegree. assert (L : length (cp ++ [p]) = S (length cp)) by (rewrite app_length; simpl; lia).
  destruct (cp ++ [p]) as [|c0 cr] eqn:E; [discriminate|]. rewrite L. clear L. rewrite <- E. clear E c0 cr. cbn [bind].
  replace (S (length cp) - 1)%nat with (length cp) by lia.
  rewrite bernF_at1. apply (osumF_single _ _ (length cp)); [lia| |exact Hp|].
  - rewrite nth_error_app2, Nat.sub_diag by lia. cbn [nth_error bind].
    rewrite nth_error_app2, repeat_length, Nat.sub_diag by (rewrite repeat_length; lia). cbn [nth_error bind].
    rewrite vscaleF_1 by exact Hp. reflexivity.
  - intros j Hj Hne. rewrite nth_error_app1 by lia. destruct (nth_error_ex _ cp j) as (q & ->); [lia|]. cbn [bind].
    rewrite nth_error_app1 by (rewrite repeat_length; lia).
    rewrite (nth_error_nth' _ 0) by (rewrite repeat_length; lia). rewrite nth_repeat. cbn [bind].
    rewrite vscaleF_0. reflexivity.
Qed.

(** The sum of [n] rounded terms, one coordinate. *)
Fixpoint rsumF (n : nat) (f : nat -> R) : R :=
  match n with O => 0 | S m => rd (rsumF m f + f m) end.
Lemma rsumF_repr : forall n f, rd (rsumF n f) = rsumF n f.
Proof. intros [|n] f; simpl; [apply (ro_0 _ _ _ HR)|apply (ro_idem _ _ _ HR)]. Qed.
Lemma rabs_rsum : forall n f, Rabs (rsum n f) <= rsum n (fun i => Rabs (f i)).
Proof.
  intros n f; induction n as [|n IH]; simpl; [rewrite Rabs_R0; lra|].
  eapply Rle_trans; [apply Rabs_triang|]. lra.
Qed.
Lemma rsumF_err : forall n f, (forall i, (i < n)%nat -> rd (f i) = f i) ->
  Rabs (rsumF n f - rsum n f) <= ((1 + u) ^ n - 1) * rsum n (fun i => Rabs (f i)).
Proof.
  intros n f H; induction n as [|n IH].
  - simpl. rewrite Rminus_0_r, Rabs_R0. lra.
  - specialize (IH ltac:(intros; apply H; lia)). simpl rsumF. rewrite !rsum_S.
    pose proof (ro_add _ _ _ HR (rsumF n f) (f n) (rsumF_repr n f) (H n ltac:(lia))) as A.
    set (T := rsum n (fun i => Rabs (f i))) in *. set (S0 := rsum n f) in *. set (Sh := rsumF n f) in *.
    assert (HT : Rabs S0 <= T) by apply rabs_rsum.
    assert (B : Rabs (Sh + f n) <= Rabs (Sh - S0) + T + Rabs (f n)).
    { replace (Sh + f n) with ((Sh - S0) + S0 + f n) by ring.
      eapply Rle_trans; [apply Rabs_triang|]. pose proof (Rabs_triang (Sh - S0) S0). lra. }
    assert (C : Rabs (rd (Sh + f n) - (S0 + f n)) <= u * Rabs (Sh + f n) + Rabs (Sh - S0)).
    { replace (rd (Sh + f n) - (S0 + f n)) with ((rd (Sh + f n) - (Sh + f n)) + (Sh - S0)) by ring.
      eapply Rle_trans; [apply Rabs_triang|]. lra. }
    assert (P1 : 1 <= (1 + u) ^ n) by (apply pow_R1_Rle; lra).
    assert (T0 : 0 <= T) by (eapply Rle_trans; [apply Rabs_pos|exact HT]).
    pose proof (Rabs_pos (f n)) as F0. cbn [pow].
    assert (u * Rabs (Sh + f n) <= u * (Rabs (Sh - S0) + T + Rabs (f n))) by (apply Rmult_le_compat_l; lra).
    assert (u * Rabs (Sh - S0) <= u * (((1 + u) ^ n - 1) * T)) by (apply Rmult_le_compat_l; lra).
    set (P := (1 + u) ^ n) in *.
    assert (u * Rabs (f n) <= (P * (1 + u) - 1) * Rabs (f n)) by (apply Rmult_le_compat_r; [exact F0|nra]).
    replace ((1 + u) * P - 1) with (P * (1 + u) - 1) by ring. nra.
Qed.

(** One coordinate of a Bezier point. *)
Lemma bern_sum_abs : forall n t, rd t = t -> 0 <= t <= 1 ->
  rsum (n + 1) (fun k => Rabs (get (bernsteinListF rd n t) k - bern n k t)) <=
    (1 + u) ^ (3 * n) - 1 + INR (n + 1) * Dn u eta n /\
  rsum (n + 1) (fun k => get (bernsteinListF rd n t) k) <= (1 + u) ^ (3 * n) + INR (n + 1) * Dn u eta n.
Proof.
  intros n t Rt Ht.
  assert (E2 : 1 - (1 - u) ^ (3 * n) <= (1 + u) ^ (3 * n) - 1).
  { generalize (3 * n)%nat; intros m; induction m as [|m IH]; [simpl; lra|]. cbn [pow].
    assert (1 <= (1 + u) ^ m) by (apply pow_R1_Rle; lra).
    assert (0 <= (1 - u) ^ m <= 1).
    { split; [apply pow_le; lra|]. apply Rle_trans with (1 ^ m); [apply pow_incr; lra|rewrite pow1; lra]. } nra. }
  split.
  - eapply Rle_trans; [apply (rsum_le _ _ (fun k => ((1 + u) ^ (3 * n) - 1) * bern n k t + Dn u eta n))|].
    + intros k _. pose proof (bernF_bounds rd u eta HR t Rt Ht n k) as [A B].
      pose proof (bern_nonneg n k t Ht). apply Rabs_le. split; nra.
    + rewrite (rsum_plus _ (fun k => ((1 + u) ^ (3 * n) - 1) * bern n k t)), rsum_scal, bern_sum, rsum_const. lra.
  - eapply Rle_trans; [apply (rsum_le _ _ (fun k => (1 + u) ^ (3 * n) * bern n k t + Dn u eta n))|].
    + intros k _. apply (bernF_bounds rd u eta HR t Rt Ht n k).
    + rewrite (rsum_plus _ (fun k => (1 + u) ^ (3 * n) * bern n k t)), rsum_scal, bern_sum, rsum_const. lra.
Qed.

Lemma bezier_coord : forall n t M c, rd t = t -> 0 <= t <= 1 -> 0 <= M -> (forall k, (k <= n)%nat -> Rabs (c k) <= M) ->
  Rabs (rsumF (n + 1) (fun k => rd (c k * get (bernsteinListF rd n t) k)) - rsum (n + 1) (fun k => c k * bern n k t))
  <= ((1 + u) ^ (4 * n + 2) * (1 + 2 * INR n * INR (n + 1) * eta) - 1) * M + (1 + u) ^ (n + 1) * (INR (n + 1) * eta).
Proof.
  intros n t M c Rt Ht HM Hc.
  set (b := get (bernsteinListF rd n t)). set (f := fun k => rd (c k * b k)).
  destruct (bern_sum_abs n t Rt Ht) as [S1 S2]. fold b in S1, S2.
  pose proof (rsumF_err (n + 1) f ltac:(intros; apply (ro_idem _ _ _ HR))) as A.
  assert (bp : forall k, 0 <= b k) by (intros; apply (bernF_nonneg rd u eta HR); exact Ht).
  assert (cb : forall k, (k <= n)%nat -> Rabs (c k * b k) <= M * b k).
  { intros k Hk. rewrite Rabs_mult, (Rabs_pos_eq (b k)) by apply bp. apply Rmult_le_compat_r; [apply bp|apply Hc; exact Hk]. }
  assert (F1 : rsum (n + 1) (fun i => Rabs (f i)) <= (1 + u) * M * rsum (n + 1) b + INR (n + 1) * eta).
  { eapply Rle_trans; [apply (rsum_le _ _ (fun k => (1 + u) * M * b k + eta))|].
    - intros k Hk. unfold f. pose proof (ro_err _ _ _ HR (c k * b k)) as E. specialize (cb k ltac:(lia)).
      pose proof (Rabs_triang (rd (c k * b k) - c k * b k) (c k * b k)) as T.
      replace (rd (c k * b k) - c k * b k + c k * b k) with (rd (c k * b k)) in T by ring. nra.
    - rewrite (rsum_plus _ (fun k => (1 + u) * M * b k)), rsum_scal, rsum_const. lra. }
  assert (F2 : Rabs (rsum (n + 1) f - rsum (n + 1) (fun k => c k * b k)) <= u * M * rsum (n + 1) b + INR (n + 1) * eta).
  { rewrite <- rsum_minus. eapply Rle_trans; [apply rabs_rsum|].
    eapply Rle_trans; [apply (rsum_le _ _ (fun k => u * M * b k + eta))|].
    - intros k Hk. unfold f. pose proof (ro_err _ _ _ HR (c k * b k)) as E. specialize (cb k ltac:(lia)).
      assert (u * Rabs (c k * b k) <= u * (M * b k)) by (apply Rmult_le_compat_l; lra). lra.
    - rewrite (rsum_plus _ (fun k => u * M * b k)), rsum_scal, rsum_const. lra. }
  assert (F3 : Rabs (rsum (n + 1) (fun k => c k * b k) - rsum (n + 1) (fun k => c k * bern n k t)) <=
    M * ((1 + u) ^ (3 * n) - 1 + INR (n + 1) * Dn u eta n)).
  { rewrite <- rsum_minus. eapply Rle_trans; [apply rabs_rsum|].
    eapply Rle_trans; [apply (rsum_le _ _ (fun k => M * Rabs (b k - bern n k t)))|].
    - intros k Hk. replace (c k * b k - c k * bern n k t) with (c k * (b k - bern n k t)) by ring.
      rewrite Rabs_mult. apply Rmult_le_compat_r; [apply Rabs_pos|apply Hc; lia].
    - rewrite rsum_scal. apply Rmult_le_compat_l; assumption. }
  assert (T : Rabs (rsumF (n + 1) f - rsum (n + 1) (fun k => c k * bern n k t)) <=
    ((1 + u) ^ (n + 1) - 1) * rsum (n + 1) (fun i => Rabs (f i)) + (u * M * rsum (n + 1) b + INR (n + 1) * eta)
     + M * ((1 + u) ^ (3 * n) - 1 + INR (n + 1) * Dn u eta n)).
  { replace (rsumF (n + 1) f - rsum (n + 1) (fun k => c k * bern n k t)) with
      ((rsumF (n + 1) f - rsum (n + 1) f) + ((rsum (n + 1) f - rsum (n + 1) (fun k => c k * b k))
       + (rsum (n + 1) (fun k => c k * b k) - rsum (n + 1) (fun k => c k * bern n k t)))) by ring.
    eapply Rle_trans; [apply Rabs_triang|].
    pose proof (Rabs_triang (rsum (n + 1) f - rsum (n + 1) (fun k => c k * b k))
      (rsum (n + 1) (fun k => c k * b k) - rsum (n + 1) (fun k => c k * bern n k t))). lra. }
  fold f. eapply Rle_trans; [exact T|]. clear T A F2 F3.
  assert (E1 : 1 <= (1 + u) ^ (n + 1)) by (apply pow_R1_Rle; lra).
  assert (G1 : ((1 + u) ^ (n + 1) - 1) * rsum (n + 1) (fun i => Rabs (f i)) <=
               ((1 + u) ^ (n + 1) - 1) * ((1 + u) * M * rsum (n + 1) b + INR (n + 1) * eta)) by (apply Rmult_le_compat_l; lra).
  assert (D : INR (n + 1) * Dn u eta n = (1 + u) ^ (3 * n) * (2 * INR n * INR (n + 1) * eta)) by (unfold Dn; ring).
  rewrite D in *.
  set (h := 2 * INR n * INR (n + 1) * eta) in *. set (e3 := (1 + u) ^ (3 * n)) in *.
  assert (K : 0 <= (((1 + u) ^ (n + 1) - 1) * (1 + u) + u) * M).
  { apply Rmult_le_pos; [|exact HM]. nra. }
  assert (G2 : (((1 + u) ^ (n + 1) - 1) * (1 + u) + u) * M * rsum (n + 1) b <=
               (((1 + u) ^ (n + 1) - 1) * (1 + u) + u) * M * (e3 + e3 * h)) by (apply Rmult_le_compat_l; assumption).
  replace ((1 + u) ^ (4 * n + 2)) with (e3 * ((1 + u) ^ (n + 1) * (1 + u))).
  - set (e1 := (1 + u) ^ (n + 1)) in *. set (sb := rsum (n + 1) b) in *. nra.
  - unfold e3. rewrite <- (pow_1 (1 + u)) at 3. rewrite <- !pow_add. f_equal. lia.
Qed.

Lemma osumF_coords : forall n f g, (forall i, (i < n)%nat -> f i = Some (g i)) ->
  osumF rd n f = Some (mkV3 (rsumF n (fun i => vx (g i))) (rsumF n (fun i => vy (g i))) (rsumF n (fun i => vz (g i)))).
Proof.
  intros n f g H; induction n as [|n IH]; [reflexivity|]. simpl.
  rewrite IH by (intros; apply H; lia). rewrite H by lia. reflexivity.
Qed.
End Rounded.
