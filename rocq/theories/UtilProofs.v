(** Proofs about the numeric utilities. *)

From Coq Require Import NArith FinFun.
From Verif Require Import Base UtilModel UtilSpec.
Open Scope R_scope.

(** ** Binomial coefficients *)
Lemma choose_0 : forall n, choose n 0 = 1%nat.
Proof. intros [|n]; reflexivity. Qed.
Lemma choose_S : forall n k, choose (S n) (S k) = (choose n k + choose n (S k))%nat.
Proof. reflexivity. Qed.
Lemma choose_gt : forall n k, (n < k)%nat -> choose n k = 0%nat.
Proof.
  induction n as [|n IH]; intros [|k] H; try lia; [reflexivity|].
  rewrite choose_S, !IH by lia; reflexivity.
Qed.
Lemma choose_diag : forall n, choose n n = 1%nat.
Proof. induction n as [|n IH]; [reflexivity|]. rewrite choose_S, IH, choose_gt by lia; reflexivity. Qed.

Lemma sublists_count : forall A k (l : list A), length (sublists k l) = choose (length l) k.
Proof.
  intros A k l; revert k; induction l as [|a l IH]; intros [|k]; try reflexivity.
  cbn [sublists length]. rewrite app_length, map_length, !IH. reflexivity.
Qed.

Lemma choose_absorb : forall n k, (S k * choose n (S k) = choose n k * (n - k))%nat.
Proof.
  induction n as [|n IH]; intros k.
  - destruct k; simpl; lia.
  - destruct k as [|k].
    + rewrite choose_S, !choose_0. specialize (IH 0%nat). rewrite choose_0 in IH. lia.
    + rewrite choose_S. pose proof (IH (S k)) as H1. rewrite (choose_S n k). pose proof (IH k) as H2.
      destruct (Nat.le_gt_cases n k) as [L|L].
      * rewrite (choose_gt n (S k)), (choose_gt n (S (S k))) by lia.
        replace (S n - S k)%nat with 0%nat by lia. lia.
      * assert (E : (n - k = S (n - S k))%nat) by lia. change (S n - S k)%nat with (n - k)%nat.
        rewrite E in *. nia.
Qed.

Lemma choose_sym : forall n k, (k <= n)%nat -> choose n (n - k) = choose n k.
Proof.
  induction n as [|n IH]; intros k H.
  - replace k with 0%nat by lia. reflexivity.
  - destruct k as [|k].
    + rewrite Nat.sub_0_r, choose_diag, choose_0; reflexivity.
    + change (S n - S k)%nat with (n - k)%nat. rewrite choose_S.
      destruct (Nat.eq_dec k n) as [->|E].
      * rewrite Nat.sub_diag, choose_0, choose_diag, choose_gt by lia; reflexivity.
      * replace (n - k)%nat with (S (n - S k)) by lia. rewrite choose_S.
        replace (S (n - S k)) with (n - k)%nat by lia. rewrite !IH by lia. lia.
Qed.

Lemma binomialLoop_spec : forall n k j, (j + k <= n)%nat ->
  (forall d, (j < d <= j + k)%nat -> (N.of_nat (choose n (d - 1)) * N.of_nat (n - (d - 1)) < two64)%N) ->
  binomialLoop (N.of_nat (choose n j)) (N.of_nat (n - j)) (N.of_nat (S j)) k = N.of_nat (choose n (j + k)).
Proof.
  intros n k; induction k as [|k IH]; intros j Hj Hd; cbn [binomialLoop].
  - rewrite Nat.add_0_r; reflexivity.
  - assert (B := Hd (S j) ltac:(lia)). replace (S j - 1)%nat with j in B by lia.
    rewrite N.mod_small by exact B.
    rewrite <- Nat2N.inj_mul, <- choose_absorb, Nat2N.inj_mul.
    rewrite N.mul_comm, N.div_mul by lia.
    replace (N.of_nat (n - j) - 1)%N with (N.of_nat (n - S j)) by lia.
    replace (N.of_nat (S j) + 1)%N with (N.of_nat (S (S j))) by lia.
    rewrite IH; [f_equal; f_equal; lia|lia|]. intros d H; apply Hd; lia.
Qed.

Lemma binomial64_spec : forall n k,
  (forall d, (1 <= d <= k)%nat -> (N.of_nat (choose n (d - 1)) * N.of_nat (n - (d - 1)) < two64)%N) ->
  binomial64 (N.of_nat n) (N.of_nat k) = N.of_nat (choose n k).
Proof.
  intros n k H. unfold binomial64. destruct (N.ltb_spec (N.of_nat n) (N.of_nat k)) as [L|L].
  - rewrite choose_gt by lia; reflexivity.
  - rewrite Nat2N.id. pose proof (binomialLoop_spec n k 0 ltac:(lia)) as G.
    rewrite choose_0, Nat.sub_0_r in G. apply G. intros d Hd; apply H; lia.
Qed.

(** Rows of Pascal's triangle, for computing with large values. *)
Fixpoint nextRow (prev : N) (row : list N) : list N :=
  match row with [] => [prev] | x :: r => (prev + x)%N :: nextRow x r end.
Fixpoint pascalRow (n : nat) : list N :=
  match n with O => [1%N] | S m => nextRow 0 (pascalRow m) end.

Lemma nextRow_nth : forall row prev k, (k <= length row)%nat ->
  nth k (nextRow prev row) 0%N = (match k with O => prev | S j => nth j row 0%N end + nth k row 0%N)%N.
Proof.
  induction row as [|x row IH]; intros prev k Hk; simpl in Hk.
  - replace k with 0%nat by lia. simpl. lia.
  - destruct k as [|k]; [reflexivity|]. simpl. rewrite IH by lia. destruct k; reflexivity.
Qed.
Lemma nextRow_length : forall row prev, length (nextRow prev row) = S (length row).
Proof. induction row as [|x row IH]; intros prev; simpl; [reflexivity|rewrite IH; reflexivity]. Qed.
Lemma pascalRow_length : forall n, length (pascalRow n) = S n.
Proof. induction n as [|n IH]; [reflexivity|]. cbn [pascalRow]. rewrite nextRow_length, IH; reflexivity. Qed.
Lemma pascalRow_nth : forall n k, nth k (pascalRow n) 0%N = N.of_nat (choose n k).
Proof.
  induction n as [|n IH]; intros k.
  - destruct k as [|[|k]]; reflexivity.
  - cbn [pascalRow]. destruct (Nat.le_gt_cases k (S n)) as [L|L].
    + rewrite nextRow_nth by (rewrite pascalRow_length; lia). rewrite IH. destruct k as [|k].
      * rewrite !choose_0; reflexivity.
      * rewrite IH, choose_S. lia.
    + rewrite nth_overflow by (rewrite nextRow_length, pascalRow_length; lia).
      rewrite choose_gt by lia; reflexivity.
Qed.

Lemma binomial_wrong : exists n k : nat,
  (N.of_nat (choose n k) < two64)%N /\ binomial64 (N.of_nat n) (N.of_nat k) <> N.of_nat (choose n k).
Proof.
  exists 64%nat, 32%nat. rewrite <- pascalRow_nth. split; [reflexivity|].
  vm_compute. discriminate.
Qed.

(** ** Bernstein polynomials *)
Lemma bern_gt : forall n i u, (n < i)%nat -> bern n i u = 0.
Proof. intros; unfold bern; rewrite choose_gt by assumption; simpl; ring. Qed.
Lemma bern_0_0 : forall u, bern 0 0 u = 1.
Proof. intros; unfold bern; simpl; ring. Qed.
Lemma bern_S0 : forall n u, bern (S n) 0 u = (1 - u) * bern n 0 u.
Proof. intros; unfold bern; rewrite !choose_0, !Nat.sub_0_r; simpl; ring. Qed.
Lemma bern_SS : forall n i u, bern (S n) (S i) u = u * bern n i u + (1 - u) * bern n (S i) u.
Proof.
  intros n i u. destruct (Nat.lt_trichotomy i n) as [L|[->|L]].
  - unfold bern. rewrite choose_S, plus_INR. change (S n - S i)%nat with (n - i)%nat.
    replace (n - i)%nat with (S (n - S i)) by lia. simpl; ring.
  - rewrite (bern_gt n (S n)) by lia. unfold bern. rewrite !choose_diag, !Nat.sub_diag. simpl; ring.
  - rewrite !bern_gt by lia; ring.
Qed.
Lemma bern_nonneg : forall n i u, 0 <= u <= 1 -> 0 <= bern n i u.
Proof.
  intros n i u H; unfold bern. apply Rmult_le_pos; [apply Rmult_le_pos|].
  - apply pos_INR. - apply pow_le; lra. - apply pow_le; lra.
Qed.
Lemma bern_sym : forall n i u, (i <= n)%nat -> bern n i (1 - u) = bern n (n - i) u.
Proof.
  intros n i u H; unfold bern. rewrite choose_sym by exact H.
  replace (1 - (1 - u)) with u by ring. replace (n - (n - i))%nat with i by lia. ring.
Qed.
Lemma bern_sum : forall n u, rsum (n + 1) (fun i => bern n i u) = 1.
Proof.
  induction n as [|n IH]; intros u.
  - simpl. rewrite bern_0_0; ring.
  - replace (S n + 1)%nat with (S (n + 1)) by lia. rewrite rsum_first.
    rewrite (rsum_ext _ _ (fun i => u * bern n i u + (1 - u) * bern n (S i) u)) by (intros; apply bern_SS).
    rewrite (rsum_plus _ (fun i => u * bern n i u) (fun i => (1 - u) * bern n (S i) u)), !rsum_scal, IH, bern_S0.
    assert (X := rsum_first (n + 1) (fun i => bern n i u)).
    rewrite rsum_S, IH, (bern_gt n (n + 1)) in X by lia.
    replace (rsum (n + 1) (fun i => bern n (S i) u)) with (1 - bern n 0 u) by lra. ring.
Qed.

Lemma bernsteinInner_nth : forall u u1 l saved k, (k <= length l)%nat ->
  nth_error (bernsteinInner u u1 saved l) k =
  Some (match k with O => saved | S j => nth j l 0 * u end + nth k l 0 * u1).
Proof.
  induction l as [|x l IH]; intros saved k Hk; simpl in Hk.
  - replace k with 0%nat by lia. simpl. f_equal; ring.
  - destruct k as [|k]; [reflexivity|]. simpl. rewrite IH by lia. destruct k; reflexivity.
Qed.
Lemma bernsteinInner_length : forall u u1 l saved, length (bernsteinInner u u1 saved l) = S (length l).
Proof. induction l as [|x l IH]; intros; simpl; [reflexivity|rewrite IH; reflexivity]. Qed.
Lemma bernsteinList_length : forall n u, length (bernsteinList n u) = S n.
Proof. induction n as [|n IH]; intros; [reflexivity|]. cbn [bernsteinList]. rewrite bernsteinInner_length, IH; reflexivity. Qed.
Lemma bernsteinList_nth : forall n u i, (i <= n)%nat -> nth_error (bernsteinList n u) i = Some (bern n i u).
Proof.
  induction n as [|n IH]; intros u i H.
  - replace i with 0%nat by lia. simpl. rewrite bern_0_0; reflexivity.
  - cbn [bernsteinList]. rewrite bernsteinInner_nth by (rewrite bernsteinList_length; lia).
    assert (N : forall j, nth j (bernsteinList n u) 0 = bern n j u).
    { intros j. destruct (Nat.le_gt_cases j n) as [L|L].
      - apply nth_error_nth. apply IH; exact L.
      - rewrite nth_overflow by (rewrite bernsteinList_length; lia). rewrite bern_gt by lia; reflexivity. }
    f_equal. destruct i as [|i]; rewrite !N; [rewrite bern_S0|rewrite bern_SS]; ring.
Qed.

(** The single evaluator: de Casteljau on the array. *)
Lemma foldM_app : forall A S (f : S -> A -> option S) l1 l2 s,
  foldM f s (l1 ++ l2) = (s' <- foldM f s l1 ;; foldM f s' l2).
Proof.
  intros A S f l1; induction l1 as [|a l1 IH]; intros l2 s; simpl; [reflexivity|].
  destruct (f s a); simpl; [apply IH|reflexivity].
Qed.

Definition get (l : list R) (j : nat) : R := nth j l 0.
Lemma get_nth : forall l j, (j < length l)%nat -> nth_error l j = Some (get l j).
Proof. intros l j H. unfold get. apply nth_error_nth'; exact H. Qed.

Lemma upd_get : forall l i a l', upd l i a = Some l' -> (i < length l)%nat ->
  length l' = length l /\ forall j, get l' j = if (j =? i)%nat then a else get l j.
Proof.
  intros l i a l' H Hi. destruct (upd_spec _ l i a Hi) as (l2 & E & L & N).
  rewrite H in E; injection E as <-. split; [exact L|]. intros j. unfold get.
  destruct (Nat.lt_ge_cases j (length l)) as [J|J].
  - specialize (N j). destruct (j =? i)%nat.
    + apply nth_error_nth; exact N.
    + apply nth_error_nth. rewrite N. apply nth_error_nth'; exact J.
  - destruct (Nat.eqb_spec j i); [lia|]. rewrite !nth_overflow by lia; reflexivity.
Qed.

Lemma inner_round : forall u m k tmp, (1 <= k)%nat -> (k + m <= length tmp)%nat ->
  exists tmp', foldM (bernsteinStep u) tmp (rev (seq k m)) = Some tmp' /\ length tmp' = length tmp /\
    forall j, get tmp' j = if ((k <=? j) && (j <? k + m))%nat then get tmp (j - 1) * u + get tmp j * (1 - u) else get tmp j.
Proof.
  intros u m k; induction m as [|m IH]; intros tmp Hk Hm.
  - exists tmp. split; [reflexivity|]. split; [reflexivity|]. intros j.
    destruct (Nat.leb_spec k j); destruct (Nat.ltb_spec j (k + 0)); simpl; try reflexivity; lia.
  - rewrite seq_S, rev_app_distr. cbn [rev app foldM].
    unfold bernsteinStep at 1. rewrite !get_nth by lia. cbn [bind].
    destruct (upd_spec _ tmp (k + m) (get tmp (k + m - 1) * u + get tmp (k + m) * (1 - u))) as (t1 & E1 & _); [lia|].
    rewrite E1. cbn [bind]. apply upd_get in E1; [|lia]. destruct E1 as [L1 N1].
    destruct (IH t1 Hk ltac:(lia)) as (t2 & E2 & L2 & N2). exists t2. split; [exact E2|]. split; [lia|].
    intros j. rewrite N2.
    destruct (Nat.leb_spec k j); destruct (Nat.ltb_spec j (k + m)); destruct (Nat.ltb_spec j (k + S m)); simpl; rewrite ?N1;
      repeat match goal with |- context [(?a =? ?b)%nat] => destruct (Nat.eqb_spec a b) end; try lia; try reflexivity.
    subst j. reflexivity.
Qed.

(** After [m] rounds entry [j >= m] is the Bernstein combination of the
    initial entries. *)
Lemma rounds : forall u n m tmp, length tmp = (n + 1)%nat -> (m <= n)%nat ->
  exists tmp', foldM (bernsteinRound n u) tmp (seq 1 m) = Some tmp' /\ length tmp' = (n + 1)%nat /\
    forall j, (m <= j <= n)%nat -> get tmp' j = rsum (m + 1) (fun i => bern m i u * get tmp (j - i)).
Proof.
  intros u n m; induction m as [|m IH]; intros tmp L Hm.
  - exists tmp. split; [reflexivity|]. split; [exact L|]. intros j Hj. simpl. rewrite bern_0_0, Nat.sub_0_r. ring.
  - rewrite seq_S, foldM_app. destruct (IH tmp L ltac:(lia)) as (t1 & E1 & L1 & N1). rewrite E1. cbn [bind foldM].
    unfold bernsteinRound.
    destruct (inner_round u (n + 1 - (1 + m)) (1 + m) t1) as (t2 & E2 & L2 & N2); [lia|lia|].
    rewrite E2. exists t2. split; [reflexivity|]. split; [lia|]. intros j Hj. rewrite N2.
    destruct (Nat.leb_spec (1 + m) j); [|lia]. destruct (Nat.ltb_spec j (1 + m + (n + 1 - (1 + m)))); [|lia]. cbn [andb].
    rewrite !N1 by lia. replace (S m + 1)%nat with (S (m + 1)) by lia. rewrite rsum_first.
    rewrite (rsum_ext (m + 1) (fun i => bern (S m) (S i) u * get tmp (j - S i))
      (fun i => u * (bern m i u * get tmp (j - 1 - i)) + (1 - u) * (bern m (S i) u * get tmp (j - S i)))).
    + rewrite (rsum_plus _ (fun i => u * (bern m i u * get tmp (j - 1 - i)))), !rsum_scal.
      assert (X := rsum_first (m + 1) (fun i => bern m i u * get tmp (j - i))).
      rewrite rsum_S, (bern_gt m (m + 1)) in X by lia. rewrite bern_S0. rewrite Nat.sub_0_r in *.
      rewrite Rmult_0_l, Rplus_0_r in X. rewrite X. ring.
    + intros i Hi. rewrite bern_SS. replace (j - 1 - i)%nat with (j - S i)%nat by lia. ring.
Qed.

Lemma bernsteinSingle_spec : forall i n u, (i <= n)%nat -> bernsteinSingle i n u = Some (bern n i u).
Proof.
  intros i n u H. unfold bernsteinSingle. destruct (Nat.ltb_spec n i); [lia|].
  assert (L0 : length (repeat 0 (n + 1)) = (n + 1)%nat) by apply repeat_length.
  destruct (upd_spec _ (repeat 0 (n + 1)) (n - i) 1) as (t & E & L & _); [lia|].
  rewrite E. cbn [bind]. apply upd_get in E; [|lia]. destruct E as [_ N].
  destruct (rounds u n n t ltac:(lia) ltac:(lia)) as (t' & E' & L' & N'). rewrite E'. cbn [bind].
  rewrite get_nth by lia. f_equal. rewrite N' by lia.
  rewrite (rsum_single _ _ i).
  - rewrite N, Nat.eqb_refl. ring.
  - lia.
  - intros j Hj Hne. rewrite N. destruct (Nat.eqb_spec (n - j) (n - i)); [lia|].
    unfold get. rewrite nth_repeat. ring.
Qed.

Lemma bernsteinSingle_none : forall i n u, (n < i)%nat -> bernsteinSingle i n u = None.
Proof. intros i n u H; unfold bernsteinSingle. destruct (Nat.ltb_spec n i); [reflexivity|lia]. Qed.

(** ** Degree elevation *)
Lemma elevateLoop_spec : forall n rest i tmp, (1 <= i)%nat -> (i + length rest = n)%nat ->
  exists r, elevateLoop n i tmp rest = Some r /\ length r = S (length rest) /\
    forall j, (j < length rest)%nat ->
      pnth r j = (pnth (tmp :: rest) j *v (INR (i + j) / INR n)) +v (pnth rest j *v (INR (n - (i + j)) / INR n)).
Proof.
  intros n rest; induction rest as [|c rest IH]; intros i tmp Hi Hn.
  - exists [tmp]. split; [reflexivity|]. split; [reflexivity|]. simpl; lia.
  - cbn [elevateLoop]. simpl in Hn.
    assert (N : INR n <> 0) by (apply not_0_INR; lia).
    rewrite !vdiv_some by exact N. cbn [bind].
    destruct (IH (S i) c ltac:(lia) ltac:(lia)) as (r & E & L & F). rewrite E. cbn [bind].
    eexists; split; [reflexivity|]. split; [simpl; lia|]. intros [|j] Hj.
    + unfold pnth; simpl. rewrite Nat.add_0_r. v3field; exact N.
    + change (pnth (_ :: r) (S j)) with (pnth r j). simpl in Hj. rewrite F by lia.
      replace (i + S j)%nat with (S i + j)%nat by lia. reflexivity.
Qed.

Lemma elevateLoop_last : forall n rest i tmp r, elevateLoop n i tmp rest = Some r ->
  pnth r (length rest) = pnth (tmp :: rest) (length rest).
Proof.
  intros n rest; induction rest as [|c rest IH]; intros i tmp r H; simpl in H.
  - injection H as <-; reflexivity.
  - destruct (vdiv (tmp *v INR i) (INR n)); simpl in H; [|discriminate].
    destruct (vdiv (c *v INR (n - i)) (INR n)); simpl in H; [|discriminate].
    destruct (elevateLoop n (S i) c rest) as [r'|] eqn:E; simpl in H; [|discriminate]. injection H as <-.
    exact (IH (S i) c r' E).
Qed.

(** (1-u) B_i^n + ... in degree n+1 *)
Lemma bern_elevate : forall n i u, (i <= n)%nat ->
  bern n i u = bern (S n) i u * (INR (n + 1 - i) / INR (n + 1)) + bern (S n) (S i) u * (INR (i + 1) / INR (n + 1)).
Proof.
  intros n i u H.
  assert (N : INR (n + 1) <> 0) by (apply not_0_INR; lia).
  assert (A : INR (choose (S n) i) * INR (n + 1 - i) = INR (choose n i) * INR (n + 1)).
  { rewrite <- !mult_INR. f_equal. replace (n + 1)%nat with (S n) by lia.
    (* (n+1-i) C(n+1,i) = (n+1) C(n,i) *)
    pose proof (choose_absorb (S n) i) as X. rewrite <- X. rewrite choose_S.
    pose proof (choose_absorb n i) as Y. nia. }
  assert (B : INR (choose (S n) (S i)) * INR (i + 1) = INR (choose n i) * INR (n + 1)).
  { rewrite <- !mult_INR. f_equal. rewrite choose_S. pose proof (choose_absorb n i) as Y. nia. }
  unfold bern. replace (S n - i)%nat with (S (n - i)) by lia. change (S n - S i)%nat with (n - i)%nat.
  transitivity ((INR (choose (S n) i) * INR (n + 1 - i) * (u ^ i * (1 - u) ^ (S (n - i)))
    + INR (choose (S n) (S i)) * INR (i + 1) * (u ^ (S i) * (1 - u) ^ (n - i))) / INR (n + 1)).
  - rewrite A, B. simpl. field; exact N.
  - field; exact N.
Qed.

Lemma elevate_spec : forall cp n, length cp = (n + 1)%nat -> exists cp', bezierElevate cp = Some cp' /\
  length cp' = (n + 2)%nat /\ pnth cp' 0 = pnth cp 0 /\ pnth cp' (n + 1) = pnth cp n /\
  forall u, bezier (n + 1) (pnth cp') u = bezier n (pnth cp) u.
Proof.
  intros cp n L. destruct cp as [|p0 rest]; [simpl in L; lia|]. simpl in L.
  cbn [bezierElevate]. destruct (elevateLoop_spec (length (p0 :: rest)) rest 1 p0 ltac:(lia) ltac:(simpl; lia))
    as (r & E & Lr & F).
  rewrite E. cbn [bind]. eexists; split; [reflexivity|]. split; [simpl; lia|]. split; [reflexivity|].
  pose proof (elevateLoop_last _ _ _ _ _ E) as La.
  assert (Ln : length rest = n) by lia. rewrite Ln in La.
  split. { replace (n + 1)%nat with (S n) by lia. exact La. }
  (* closed form for all indices *)
  assert (G : forall k, (k <= n + 1)%nat -> pnth (p0 :: r) k =
    (match k with O => vzero | S j => pnth (p0 :: rest) j end) *v (INR k / INR (n + 1))
    +v pnth (p0 :: rest) k *v (INR (n + 1 - k) / INR (n + 1))).
  { assert (N : INR (n + 1) <> 0) by (apply not_0_INR; lia).
    intros [|k] Hk.
    - unfold pnth at 1; simpl nth. rewrite Nat.sub_0_r. unfold pnth; simpl nth. v3field; exact N.
    - change (pnth (p0 :: r) (S k)) with (pnth r k). destruct (Nat.eq_dec k n) as [->|Hne].
      + rewrite La. replace (S n) with (n + 1)%nat by lia. rewrite Nat.sub_diag. simpl (INR 0). v3field; exact N.
      + rewrite F by lia. change (length (p0 :: rest)) with (S (length rest)). rewrite Ln.
        replace (S n) with (n + 1)%nat by lia. change (1 + k)%nat with (S k).
        change (pnth (p0 :: rest) (S k)) with (pnth rest k). reflexivity. }
  intros u. unfold bezier.
  rewrite (vsum_ext _ _ (fun k =>
    (match k with O => vzero | S j => pnth (p0 :: rest) j end) *v (INR k / INR (n + 1) * bern (n + 1) k u)
    +v pnth (p0 :: rest) k *v (INR (n + 1 - k) / INR (n + 1) * bern (n + 1) k u))).
  2:{ intros k Hk. rewrite G by lia. v3ring. }
  rewrite vsum_add. replace (n + 1 + 1)%nat with (S (n + 1)) by lia.
  rewrite (vsum_first (n + 1) (fun k => (match k with O => vzero | S j => pnth (p0 :: rest) j end) *v (INR k / INR (n + 1) * bern (n + 1) k u))).
  cbn [vsum].
  rewrite Nat.sub_diag.
  assert (T : forall k, (k < n + 1)%nat ->
    pnth (p0 :: rest) k *v bern n k u =
    pnth (p0 :: rest) k *v (INR (S k) / INR (n + 1) * bern (n + 1) (S k) u)
    +v pnth (p0 :: rest) k *v (INR (n + 1 - k) / INR (n + 1) * bern (n + 1) k u)).
  { intros k Hk. rewrite (bern_elevate n k u) by lia.
    replace (n + 1)%nat with (S n) by lia. replace (k + 1)%nat with (S k) by lia. v3ring. }
  rewrite (vsum_ext _ _ _ T), vsum_add. simpl (INR 0). unfold Rdiv. v3ring.
Qed.

(** ** Bezier curves *)
Lemma bcDegree_some : forall cp n, length cp = (n + 1)%nat -> bcDegree cp = Some n.
Proof. intros [|p cp] n H; simpl in *; [lia|]. f_equal; lia. Qed.

Lemma pnth_nth : forall cp k, (k < length cp)%nat -> nth_error cp k = Some (pnth cp k).
Proof. intros cp k H; apply nth_error_nth'; exact H. Qed.

Lemma bcEval_spec : forall cp n u, length cp = (n + 1)%nat -> bcEval cp u = Some (bezier n (pnth cp) u).
Proof.
  intros cp n u L. unfold bcEval. rewrite (bcDegree_some cp n L). cbn [bind]. unfold bezier.
  apply osum_total. intros k Hk. rewrite pnth_nth by lia. cbn [bind].
  rewrite bernsteinList_nth by lia. reflexivity.
Qed.

Lemma vsum_rev : forall n f, vsum n f = vsum n (fun i => f (n - 1 - i)%nat).
Proof.
  intros; vcoords; [apply (rsum_rev n (fun i => vx (f i)))|apply (rsum_rev n (fun i => vy (f i)))
    |apply (rsum_rev n (fun i => vz (f i)))].
Qed.

Lemma reverse_spec : forall cp n u, length cp = (n + 1)%nat ->
  bezier n (pnth (bcReverse cp)) u = bezier n (pnth cp) (1 - u).
Proof.
  intros cp n u L. unfold bezier, bcReverse. rewrite vsum_rev. apply vsum_ext; intros i Hi.
  replace (n + 1 - 1 - i)%nat with (n - i)%nat by lia.
  unfold pnth. rewrite rev_nth by lia. rewrite <- (bern_sym n i u) by lia.
  do 2 f_equal. lia.
Qed.

(** Derivatives. *)
Lemma bern_derivative : forall n i u,
  derivable_pt_lim (bern (S n) (S i)) u (INR (S n) * (bern n i u - bern n (S i) u)) /\
  derivable_pt_lim (bern (S n) 0) u (- INR (S n) * bern n 0 u).
Proof.
  intros n; induction n as [|n IH]; intros i u.
  - split.
    + apply (derivable_pt_lim_ext (fun v => bern 0 i 0 * v)).
      * intros v. rewrite bern_SS, (bern_gt 0 (S i)) by lia.
        destruct i as [|i]; [rewrite !bern_0_0|rewrite !bern_gt by lia]; ring.
      * replace (INR 1 * (bern 0 i u - bern 0 (S i) u)) with (bern 0 i 0 * 1).
        -- apply (derivable_pt_lim_scal id (bern 0 i 0) u 1), derivable_pt_lim_id.
        -- rewrite (bern_gt 0 (S i)) by lia. destruct i as [|i]; [rewrite !bern_0_0|rewrite !bern_gt by lia]; simpl; ring.
    + apply (derivable_pt_lim_ext (fun v => 1 - v)).
      * intros v. rewrite bern_S0, bern_0_0; ring.
      * replace (- INR 1 * bern 0 0 u) with (0 - 1) by (rewrite bern_0_0; simpl; ring).
        apply (derivable_pt_lim_minus (fun _ => 1) id); [apply derivable_pt_lim_const|apply derivable_pt_lim_id].
  - (* derivative of u * f + (1 - u) * g *)
    assert (K : forall f g f' g', derivable_pt_lim f u f' -> derivable_pt_lim g u g' ->
      derivable_pt_lim (fun v => v * f v + (1 - v) * g v) u (f u - g u + u * f' + (1 - u) * g')).
    { intros f g f' g' Hf Hg.
      replace (f u - g u + u * f' + (1 - u) * g') with ((1 * f u + u * f') + ((0 - 1) * g u + (1 - u) * g')) by ring.
      apply (derivable_pt_lim_plus (fun v => v * f v) (fun v => (1 - v) * g v)).
      - apply (derivable_pt_lim_mult id f); [apply derivable_pt_lim_id|exact Hf].
      - apply (derivable_pt_lim_mult (fun v => 1 - v) g); [|exact Hg].
        apply (derivable_pt_lim_minus (fun _ => 1) id); [apply derivable_pt_lim_const|apply derivable_pt_lim_id]. }
    split.
    + apply (derivable_pt_lim_ext (fun v => v * bern (S n) i v + (1 - v) * bern (S n) (S i) v)).
      * intros v; rewrite (bern_SS (S n) i); reflexivity.
      * destruct i as [|i].
        -- replace (INR (S (S n)) * (bern (S n) 0 u - bern (S n) 1 u))
             with (bern (S n) 0 u - bern (S n) 1 u + u * (- INR (S n) * bern n 0 u)
               + (1 - u) * (INR (S n) * (bern n 0 u - bern n 1 u))).
           ++ apply K; apply (IH 0%nat).
           ++ rewrite (S_INR (S n)). rewrite bern_S0, (bern_SS n 0). ring.
        -- replace (INR (S (S n)) * (bern (S n) (S i) u - bern (S n) (S (S i)) u))
             with (bern (S n) (S i) u - bern (S n) (S (S i)) u + u * (INR (S n) * (bern n i u - bern n (S i) u))
               + (1 - u) * (INR (S n) * (bern n (S i) u - bern n (S (S i)) u))).
           ++ apply K; [apply (IH i)|apply (IH (S i))].
           ++ rewrite (S_INR (S n)). rewrite (bern_SS n i), (bern_SS n (S i)). ring.
    + apply (derivable_pt_lim_ext (fun v => v * (fun _ => 0) v + (1 - v) * bern (S n) 0 v)).
      * intros v; rewrite (bern_S0 (S n)); ring.
      * replace (- INR (S (S n)) * bern (S n) 0 u) with ((fun _ => 0) u - bern (S n) 0 u + u * 0 + (1 - u) * (- INR (S n) * bern n 0 u)).
        -- apply K; [apply derivable_pt_lim_const|apply (IH 0%nat)].
        -- rewrite (S_INR (S n)), bern_S0. ring.
Qed.

Definition dbern (n i : nat) (u : R) : R :=
  match n with
  | O => 0
  | S m => INR (S m) * (match i with O => 0 | S j => bern m j u end - bern m i u)
  end.

Lemma bern_derive : forall n i u, derivable_pt_lim (bern n i) u (dbern n i u).
Proof.
  intros [|n] i u; unfold dbern.
  - destruct i as [|i].
    + apply (derivable_pt_lim_ext (fun _ => 1)); [intros; rewrite bern_0_0; reflexivity|apply derivable_pt_lim_const].
    + apply (derivable_pt_lim_ext (fun _ => 0)); [intros; rewrite bern_gt by lia; reflexivity|apply derivable_pt_lim_const].
  - destruct i as [|i].
    + replace (INR (S n) * (0 - bern n 0 u)) with (- INR (S n) * bern n 0 u) by ring.
      apply (bern_derivative n 0 u).
    + apply (bern_derivative n i u).
Qed.

Lemma rsum_derive : forall n (f f' : nat -> R -> R) u, (forall i, derivable_pt_lim (f i) u (f' i u)) ->
  derivable_pt_lim (fun v => rsum n (fun i => f i v)) u (rsum n (fun i => f' i u)).
Proof.
  intros n f f' u H; induction n as [|n IH]; simpl; [apply derivable_pt_lim_const|].
  apply (derivable_pt_lim_plus (fun v => rsum n (fun i => f i v)) (f n)); [exact IH|apply H].
Qed.

Lemma vderiv_ext : forall F G u d, (forall v, F v = G v) -> vderiv F u d -> vderiv G u d.
Proof.
  intros F G u d H (A & B & C). repeat split.
  - apply (derivable_pt_lim_ext (fun v => vx (F v))); [intros; rewrite H; reflexivity|exact A].
  - apply (derivable_pt_lim_ext (fun v => vy (F v))); [intros; rewrite H; reflexivity|exact B].
  - apply (derivable_pt_lim_ext (fun v => vz (F v))); [intros; rewrite H; reflexivity|exact C].
Qed.

Lemma dbern_sum : forall n (w : nat -> R) u,
  rsum (n + 1) (fun i => w i * dbern n i u) =
  match n with O => 0 | S m => rsum n (fun i => (w (S i) - w i) * INR n * bern m i u) end.
Proof.
  intros [|m] w u; [simpl; ring|].
  replace (S m + 1)%nat with (S (S m)) by lia.
  rewrite (rsum_ext _ _ (fun i => INR (S m) * (w i * match i with O => 0 | S j => bern m j u end) - INR (S m) * (w i * bern m i u))).
  - rewrite rsum_minus, !rsum_scal.
    rewrite (rsum_first (S m) (fun i => w i * match i with O => 0 | S j => bern m j u end)).
    rewrite (rsum_S (S m) (fun i => w i * bern m i u)), (bern_gt m (S m)) by lia.
    rewrite (rsum_ext _ (fun i => (w (S i) - w i) * INR (S m) * bern m i u)
      (fun i => INR (S m) * (w (S i) * bern m i u) - INR (S m) * (w i * bern m i u))) by (intros; ring).
    rewrite rsum_minus, !rsum_scal. ring.
  - intros i Hi. unfold dbern. ring.
Qed.

Lemma bezier_derive : forall n P u, vderiv (bezier (S n) P) u (bezier n (fun i => (P (S i) -v P i) *v INR (S n)) u).
Proof.
  intros n P u.
  assert (G : forall w, derivable_pt_lim (fun v => rsum (S n + 1) (fun i => w i * bern (S n) i v)) u
    (rsum (n + 1) (fun i => (w (S i) - w i) * INR (S n) * bern n i u))).
  { intros w. replace (n + 1)%nat with (S n) by lia. rewrite <- (dbern_sum (S n) w u).
    apply (rsum_derive (S n + 1) (fun i v => w i * bern (S n) i v) (fun i v => w i * dbern (S n) i v)).
    intros i. apply (derivable_pt_lim_scal (bern (S n) i) (w i) u). apply bern_derive. }
  unfold vderiv, bezier. repeat split.
  - rewrite vsum_x. eapply derivable_pt_lim_ext; [|apply (G (fun i => vx (P i)))]. intros v; rewrite vsum_x; reflexivity.
  - rewrite vsum_y. eapply derivable_pt_lim_ext; [|apply (G (fun i => vy (P i)))]. intros v; rewrite vsum_y; reflexivity.
  - rewrite vsum_z. eapply derivable_pt_lim_ext; [|apply (G (fun i => vz (P i)))]. intros v; rewrite vsum_z; reflexivity.
Qed.

Lemma bezier_derive0 : forall P u, vderiv (bezier 0 P) u vzero.
Proof.
  intros P u. apply (vderiv_ext (fun _ => P 0%nat)).
  - intros v. unfold bezier; simpl. rewrite bern_0_0. v3ring.
  - repeat split; apply derivable_pt_lim_const.
Qed.

(** The control points of the k-th derivative. *)
Fixpoint dcps (n k : nat) (P : nat -> V3) : nat -> V3 :=
  match k with
  | O => P
  | S j => fun i => (dcps n j P (S i) -v dcps n j P i) *v INR (n - j)
  end.

Lemma dcpFrom_spec : forall n (P : nat -> V3) d k row, (k + d <= n)%nat -> length row = (n - k + 1)%nat ->
  (forall i, (i <= n - k)%nat -> pnth row i = dcps n k P i) ->
  exists rows, dcpFrom n row k d = Some rows /\ length rows = (d + 1)%nat /\
    forall j, (j <= d)%nat -> exists r, nth_error rows j = Some r /\ length r = (n - (k + j) + 1)%nat /\
      forall i, (i <= n - (k + j))%nat -> pnth r i = dcps n (k + j) P i.
Proof.
  intros n P d; induction d as [|d IH]; intros k row Hk L Hr.
  - exists [row]. split; [reflexivity|]. split; [reflexivity|]. intros j Hj. replace j with 0%nat by lia.
    rewrite Nat.add_0_r. exists row. auto.
  - cbn [dcpFrom].
    rewrite (mapM_seq _ _ _ (fun i => (pnth row (i + 1) -v pnth row i) *v INR (n - (k + 1) + 1))).
    2:{ intros i Hi. rewrite !pnth_nth by lia. reflexivity. }
    cbn [bind].
    destruct (IH (k + 1)%nat (tabulate (n - (k + 1) + 1) (fun i => (pnth row (i + 1) -v pnth row i) *v INR (n - (k + 1) + 1))))
      as (rows & E & Ll & F).
    + lia.
    + apply tabulate_length.
    + intros i Hi. unfold pnth at 1. erewrite nth_error_nth by (apply tabulate_nth_error; lia).
      rewrite !Hr by lia. replace (k + 1)%nat with (S k) by lia. cbn [dcps].
      replace (i + 1)%nat with (S i) by lia. replace (n - S k + 1)%nat with (n - k)%nat by lia. reflexivity.
    + rewrite E. cbn [bind]. eexists; split; [reflexivity|]. split; [simpl; lia|].
      intros [|j] Hj.
      * rewrite Nat.add_0_r. exists row. auto.
      * cbn [nth_error]. replace (k + S j)%nat with (k + 1 + j)%nat by lia. apply F; lia.
Qed.

Lemma bernsteinAllFrom_nth : forall u m n j row, row = bernsteinList m u -> (j <= n)%nat ->
  nth_error (bernsteinAllFrom u row n) j = Some (bernsteinList (m + j) u).
Proof.
  intros u m n; revert m; induction n as [|n IH]; intros m j row E Hj.
  - replace j with 0%nat by lia. simpl. rewrite Nat.add_0_r, E; reflexivity.
  - destruct j as [|j]; [simpl; rewrite Nat.add_0_r, E; reflexivity|].
    cbn [bernsteinAllFrom nth_error]. rewrite (IH (S m)) by (try lia; rewrite E; reflexivity).
    do 2 f_equal; lia.
Qed.

Lemma bcEvalDer_spec : forall cp n u nr, length cp = (n + 1)%nat -> exists der, bcEvalDer cp u nr = Some der /\
  length der = (nr + 1)%nat /\
  forall k, (k <= nr)%nat -> nth_error der k = Some (if (k <=? n)%nat then bezier (n - k) (dcps n k (pnth cp)) u else vzero).
Proof.
  intros cp n u nr L. unfold bcEvalDer. rewrite (bcDegree_some cp n L). cbn [bind].
  unfold derivativeControlPoints.
  destruct (dcpFrom_spec n (pnth cp) (Nat.min nr n) 0 cp ltac:(lia) ltac:(lia)) as (rows & E & Lr & F); [reflexivity|].
  rewrite E. cbn [bind].
  rewrite (mapM_seq _ _ _ (fun k => bezier (n - k) (dcps n k (pnth cp)) u)).
  - cbn [bind]. eexists; split; [reflexivity|]. split.
    + rewrite app_length, tabulate_length, repeat_length. lia.
    + intros k Hk. destruct (Nat.leb_spec k n) as [B|B].
      * rewrite nth_error_app1 by (rewrite tabulate_length; lia). apply tabulate_nth_error; lia.
      * rewrite nth_error_app2 by (rewrite tabulate_length; lia). rewrite tabulate_length.
        rewrite (nth_error_nth' _ vzero) by (rewrite repeat_length; lia). rewrite nth_repeat. reflexivity.
  - intros k Hk. destruct (F k ltac:(lia)) as (r & En & Lk & Fk). unfold bezier. apply osum_total. intros j Hj.
    rewrite En. cbn [bind]. rewrite pnth_nth by lia. cbn [bind].
    unfold bernsteinAll. rewrite (bernsteinAllFrom_nth u 0) by (try reflexivity; lia). cbn [bind Nat.add].
    rewrite bernsteinList_nth by lia. cbn [bind]. rewrite Fk by lia. reflexivity.
Qed.

Lemma dcps_step : forall n k P u, (k < n)%nat ->
  vderiv (bezier (n - k) (dcps n k P)) u (bezier (n - S k) (dcps n (S k) P) u).
Proof.
  intros n k P u H. replace (n - k)%nat with (S (n - S k)) by lia.
  pose proof (bezier_derive (n - S k) (dcps n k P) u) as G.
  replace (bezier (n - S k) (dcps n (S k) P) u)
    with (bezier (n - S k) (fun i => (dcps n k P (S i) -v dcps n k P i) *v INR (S (n - S k))) u); [exact G|].
  unfold bezier. apply vsum_ext; intros i Hi. cbn [dcps]. replace (S (n - S k)) with (n - k)%nat by lia. reflexivity.
Qed.

Lemma sublists_sound : forall A (l : list A) k s, In s (sublists k l) <-> sublist s l /\ length s = k.
Proof.
  intros A l; induction l as [|a l IH]; intros k s.
  - destruct k as [|k]; simpl; split.
    + intros [<-|[]]. split; [constructor|reflexivity].
    + intros [H E]. inversion H; left; reflexivity.
    + intros [].
    + intros [H E]. inversion H; subst; discriminate.
  - destruct k as [|k]; cbn [sublists].
    + split.
      * intros [<-|[]]. split; [|reflexivity]. clear IH. induction (a :: l) as [|b m IHm]; constructor; exact IHm.
      * intros [_ E]. destruct s; [left; reflexivity|discriminate].
    + rewrite in_app_iff, in_map_iff. split.
      * intros [(s' & <- & H)|H].
        -- apply IH in H. destruct H as [H E]. split; [constructor; exact H|simpl; lia].
        -- apply IH in H. destruct H as [H E]. split; [constructor; exact H|exact E].
      * intros [H E]. inversion H; subst.
        -- left. eexists; split; [reflexivity|]. apply IH. split; [assumption|]. simpl in E; lia.
        -- right. apply IH. split; assumption.
Qed.

Lemma sublist_in : forall A (s l : list A) x, sublist s l -> In x s -> In x l.
Proof.
  intros A s l x H; induction H; intros I; [destruct I|destruct I as [->|I]|]; simpl; auto.
Qed.

Lemma sublists_nodup : forall A (l : list A) k, NoDup l -> NoDup (sublists k l).
Proof.
  intros A l; induction l as [|a l IH]; intros k H.
  - destruct k; simpl; repeat constructor; simpl; tauto.
  - inversion H as [|? ? Na Nl]; subst. destruct k as [|k]; cbn [sublists].
    + repeat constructor; simpl; tauto.
    + assert (G : forall X Y : list (list A), NoDup X -> NoDup Y -> (forall s, In s X -> ~ In s Y) -> NoDup (X ++ Y)).
      { intros X Y; induction X as [|x X IX]; intros NX NY D; [exact NY|]. inversion NX; subst. simpl. constructor.
        - rewrite in_app_iff. intros [I|I]; [contradiction|]. exact (D x (or_introl eq_refl) I).
        - apply IX; [assumption|assumption|]. intros s I; apply D; right; exact I. }
      apply G.
      * apply FinFun.Injective_map_NoDup; [|apply IH; exact Nl]. intros x y E; congruence.
      * apply IH; exact Nl.
      * intros s I J. apply in_map_iff in I. destruct I as (s' & <- & _).
        apply (sublists_sound A l (S k)) in J. destruct J as [J _].
        apply Na. apply (sublist_in _ _ _ a J). left; reflexivity.
Qed.

(** ** Hermite blends *)
Ltac dlim :=
  lazymatch goal with
  | |- derivable_pt_lim (fun t => t) _ _ => apply derivable_pt_lim_id
  | |- derivable_pt_lim (fun t => @?f t + @?g t) _ _ => apply (derivable_pt_lim_plus f g); dlim
  | |- derivable_pt_lim (fun t => @?f t - @?g t) _ _ => apply (derivable_pt_lim_minus f g); dlim
  | |- derivable_pt_lim (fun t => @?f t * @?g t) _ _ => apply (derivable_pt_lim_mult f g); dlim
  | |- derivable_pt_lim (fun t => - @?f t) _ _ => apply (derivable_pt_lim_opp f); dlim
  | |- derivable_pt_lim (fun t => ?c) _ _ => apply derivable_pt_lim_const
  end.

Lemma dlim_eq : forall f x l l', derivable_pt_lim f x l -> l = l' -> derivable_pt_lim f x l'.
Proof. intros; subst; assumption. Qed.

Lemma hermite_derive : forall t,
  derivable_pt_lim (hermite 0) t (- 6 * t * (1 - t)) /\
  derivable_pt_lim (hermite 1) t ((1 - t) * (1 - 3 * t)) /\
  derivable_pt_lim (hermite 2) t (t * (2 - 3 * t)) /\
  derivable_pt_lim (hermite 3) t (6 * t * (1 - t)).
Proof.
  intros t. repeat split.
  - apply (derivable_pt_lim_ext (fun t => (1 - t) * (1 - t) * (1 - t) + 3 * ((1 - t) * (1 - t)) * t)).
    + intros v; simpl; ring.
    + eapply dlim_eq; [dlim|simpl; ring].
  - apply (derivable_pt_lim_ext (fun t => (1 - t) * (1 - t) * t)).
    + intros v; simpl; ring.
    + eapply dlim_eq; [dlim|simpl; ring].
  - apply (derivable_pt_lim_ext (fun t => (1 - t) * (t * t))).
    + intros v; simpl; ring.
    + eapply dlim_eq; [dlim|simpl; ring].
  - apply (derivable_pt_lim_ext (fun t => 3 * (1 - t) * (t * t) + t * t * t)).
    + intros v; simpl; ring.
    + eapply dlim_eq; [dlim|simpl; ring].
Qed.

Lemma hermite0_decreasing : forall s t, 0 <= s -> s < t -> t <= 1 -> hermite 0 t < hermite 0 s.
Proof.
  intros s t H1 H2 H3. unfold hermite.
  assert (E : (1 - s) ^ 3 + 3 * (1 - s) ^ 2 * s - ((1 - t) ^ 3 + 3 * (1 - t) ^ 2 * t)
    = (t - s) * (3 * (t + s) - 2 * (t * t + t * s + s * s))) by ring.
  assert (0 < 3 * (t + s) - 2 * (t * t + t * s + s * s)) by nra.
  nra.
Qed.
