(** Proofs about the rounded arithmetic kernels. *)

From Verif Require Import Base UtilModel UtilSpec UtilProofs MeshSqrt RoundModel RoundSpec.
From Coq Require Import ZArith.
From Flocq Require Import Core Relative Plus_error.
Open Scope R_scope.

(** ** The doubles *)
Lemma rnd64_rounding : rounding rnd64 (/ 2 ^ 53) (/ 2 ^ 1075).
Proof.
  assert (P : Prec_gt_0 53) by (unfold Prec_gt_0; lia).
  assert (PW : forall k, bpow radix2 (- Z.of_nat k) = / 2 ^ k).
  { intros k. rewrite bpow_opp. f_equal. induction k as [|k IH]; [reflexivity|].
    rewrite Nat2Z.inj_succ. unfold Z.succ. rewrite bpow_plus, IH. cbn [pow]. change (bpow radix2 1) with 2. ring. }
  assert (HB : forall k, / 2 * bpow radix2 (- Z.of_nat k) = / 2 ^ (S k)).
  { intros k. rewrite PW. cbn [pow]. rewrite Rinv_mult. reflexivity. }
  assert (B : / 2 * bpow radix2 (-53 + 1) = / 2 ^ 53) by exact (HB 52%nat).
  assert (E : / 2 * bpow radix2 (-1074) = / 2 ^ 1075) by exact (HB 1074%nat).
  assert (UP : 0 < / 2 ^ 53 < 1).
  { split; [apply Rinv_0_lt_compat; apply pow_lt; lra|]. rewrite <- Rinv_1. apply Rinv_lt_contravar.
    - rewrite Rmult_1_l; apply pow_lt; lra. - apply Rlt_pow_R1; [lra|lia]. }
  assert (F : forall x, rnd64 x = x -> generic_format radix2 (FLT_exp (-1074) 53) x).
  { intros x <-. apply generic_format_round; [apply FLT_exp_valid; exact P|apply valid_rnd_N]. }
  split.
  - exact UP.
  - left. apply Rinv_0_lt_compat. apply pow_lt; lra.
  - intros x y H. apply round_le; [apply FLT_exp_valid; exact P|apply valid_rnd_N|exact H].
  - intros x. apply round_generic; [apply valid_rnd_N|]. apply generic_format_round; [apply FLT_exp_valid; exact P|apply valid_rnd_N].
  - apply round_0. apply valid_rnd_N.
  - apply (double_int 1). reflexivity.
  - intros x. unfold rnd64. apply round_NE_opp.
  - intros x. destruct (error_N_FLT radix2 (-1074) 53 P (fun z => negb (Z.even z)) x) as (e & h & He & Hh & _ & Hx).
    unfold rnd64. rewrite Hx. replace (x * (1 + e) + h - x) with (e * x + h) by ring.
    assert (He' : Rabs e <= / 2 ^ 53) by (rewrite <- B; exact He).
    assert (Hh' : Rabs h <= / 2 ^ 1075) by (rewrite <- E; exact Hh).
    eapply Rle_trans; [apply Rabs_triang|]. apply Rplus_le_compat; [|exact Hh'].
    rewrite Rabs_mult. apply Rmult_le_compat_r; [apply Rabs_pos|exact He'].
  - intros x y Hx Hy. destruct (FLT_plus_error_N_ex radix2 (-1074) 53 (fun z => negb (Z.even z)) x y (F x Hx) (F y Hy)) as (e & He & Hs).
    unfold rnd64. rewrite Hs. replace ((x + y) * (1 + e) - (x + y)) with (e * (x + y)) by ring.
    rewrite Rabs_mult. apply Rmult_le_compat_r; [apply Rabs_pos|]. eapply Rle_trans; [exact He|].
    replace (u_ro radix2 53) with (/ 2 ^ 53) by (rewrite <- B; reflexivity). apply Rmult_le_reg_r with (1 + / 2 ^ 53); [lra|].
    unfold Rdiv. rewrite Rmult_assoc, Rinv_l by lra. nra.
Qed.

Lemma rabs_both : forall x y, Rabs x <= y -> - y <= x <= y.
Proof. intros x y H. pose proof (Rle_abs x). pose proof (Rle_abs (- x)). rewrite Rabs_Ropp in *. lra. Qed.

(** ** Powers *)
Lemma bernoulli : forall u m, 0 <= u <= 1 -> 1 - INR m * u <= (1 - u) ^ m.
Proof.
  intros u m H; induction m as [|m IH]; [simpl; lra|]. rewrite S_INR. cbn [pow].
  assert (0 <= INR m) by apply pos_INR. assert (0 <= (1 - u) ^ m) by (apply pow_le; lra).
  destruct (Rle_dec 0 (1 - INR m * u)) as [L|L]; nra.
Qed.
Lemma one_plus : forall u m, 0 <= u <= 1 -> INR m * u < 1 -> (1 + u) ^ m <= 1 + gam u m.
Proof.
  intros u m H L. pose proof (bernoulli u m H) as B.
  assert (P : (1 + u) ^ m * (1 - u) ^ m <= 1).
  { rewrite <- Rpow_mult_distr. replace ((1 + u) * (1 - u)) with (1 - u * u) by ring.
    apply Rle_trans with (1 ^ m); [apply pow_incr; nra|rewrite pow1; lra]. }
  assert (0 < (1 + u) ^ m) by (apply pow_lt; lra).
  unfold gam. apply Rmult_le_reg_r with (1 - INR m * u); [lra|].
  replace ((1 + INR m * u / (1 - INR m * u)) * (1 - INR m * u)) with 1 by (field; lra). nra.
Qed.
Lemma gam_nonneg : forall u m, 0 <= u -> INR m * u < 1 -> 0 <= gam u m.
Proof.
  intros u m H L. unfold gam. apply Rmult_le_pos; [apply Rmult_le_pos; [apply pos_INR|exact H]|].
  left; apply Rinv_0_lt_compat; lra.
Qed.
Lemma one_minus : forall u m, 0 <= u <= 1 -> INR m * u < 1 -> 1 - gam u m <= (1 - u) ^ m.
Proof.
  intros u m H L. eapply Rle_trans; [|apply bernoulli; exact H].
  unfold gam. assert (0 <= INR m * u) by (apply Rmult_le_pos; [apply pos_INR|lra]).
  assert (INR m * u <= INR m * u / (1 - INR m * u)); [|lra].
  apply Rmult_le_reg_r with (1 - INR m * u); [lra|].
  replace (INR m * u / (1 - INR m * u) * (1 - INR m * u)) with (INR m * u) by (field; lra). nra.
Qed.

Section Rounded.
Variables (rd : R -> R) (u eta : R).
Hypothesis HR : rounding rd u eta.

Let U : 0 < u < 1 := ro_u _ _ _ HR.
Let ETA : 0 <= eta := ro_eta _ _ _ HR.

Lemma rd_nonneg : forall x, 0 <= x -> 0 <= rd x.
Proof. intros x H. rewrite <- (ro_0 _ _ _ HR). apply (ro_mono _ _ _ HR). exact H. Qed.
Lemma rd_le1 : forall x, x <= 1 -> rd x <= 1.
Proof. intros x H. rewrite <- (ro_1 _ _ _ HR). apply (ro_mono _ _ _ HR). exact H. Qed.
Lemma rd_sub : forall x y, rd x = x -> rd y = y -> Rabs (rd (x - y) - (x - y)) <= u * Rabs (x - y).
Proof.
  intros x y Hx Hy. apply (ro_add _ _ _ HR); [exact Hx|]. rewrite (ro_opp _ _ _ HR), Hy; reflexivity.
Qed.
Lemma rd_bounds : forall x, 0 <= x -> (1 - u) * x - eta <= rd x <= (1 + u) * x + eta.
Proof.
  intros x H. pose proof (ro_err _ _ _ HR x) as E. rewrite (Rabs_pos_eq x) in E by exact H.
  apply rabs_both in E. lra.
Qed.
Lemma rd_bounds_add : forall x y, rd x = x -> rd y = y -> 0 <= x + y ->
  (1 - u) * (x + y) <= rd (x + y) <= (1 + u) * (x + y).
Proof.
  intros x y Hx Hy H. pose proof (ro_add _ _ _ HR x y Hx Hy) as E. rewrite (Rabs_pos_eq (x + y)) in E by exact H.
  apply rabs_both in E. lra.
Qed.
Lemma rd_bounds_1m : forall x, rd x = x -> x <= 1 -> (1 - u) * (1 - x) <= rd (1 - x) <= (1 + u) * (1 - x).
Proof.
  intros x Hx H. apply (rd_bounds_add 1 (- x)); [apply (ro_1 _ _ _ HR)| |lra].
  rewrite (ro_opp _ _ _ HR), Hx; reflexivity.
Qed.

(** ** Bernstein values *)
Lemma bernsteinInnerF_length : forall t t1 l saved, length (bernsteinInnerF rd t t1 saved l) = S (length l).
Proof. induction l as [|x l IH]; intros; simpl; [reflexivity|rewrite IH; reflexivity]. Qed.
Lemma bernsteinListF_length : forall n t, length (bernsteinListF rd n t) = S n.
Proof. induction n as [|n IH]; intros; [reflexivity|]. cbn [bernsteinListF]. rewrite bernsteinInnerF_length, IH; reflexivity. Qed.

Lemma bernsteinInnerF_get : forall t t1 l saved k, rd saved = saved -> (k <= length l)%nat ->
  get (bernsteinInnerF rd t t1 saved l) k =
  rd (match k with O => saved | S j => rd (get l j * t) end + rd (get l k * t1)).
Proof.
  induction l as [|x l IH]; intros saved k Hs Hk; simpl in Hk.
  - replace k with 0%nat by lia. unfold get; simpl. rewrite Rmult_0_l, (ro_0 _ _ _ HR), Rplus_0_r. symmetry; exact Hs.
  - destruct k as [|k]; [reflexivity|]. unfold get in *. simpl. rewrite IH by (lia || apply (ro_idem _ _ _ HR)).
    destruct k; reflexivity.
Qed.

(** The recurrence, with the values outside the range zero. *)
Lemma bernF_0 : forall n t, get (bernsteinListF rd (S n) t) 0 = rd (get (bernsteinListF rd n t) 0 * rd (1 - t)).
Proof.
  intros n t. cbn [bernsteinListF]. rewrite bernsteinInnerF_get by (lia || apply (ro_0 _ _ _ HR)).
  rewrite Rplus_0_l. apply (ro_idem _ _ _ HR).
Qed.
Lemma bernF_S : forall n t k, get (bernsteinListF rd (S n) t) (S k) =
  rd (rd (get (bernsteinListF rd n t) k * t) + rd (get (bernsteinListF rd n t) (S k) * rd (1 - t))).
Proof.
  intros n t k. destruct (Nat.le_gt_cases (S k) (S n)) as [L|L].
  - cbn [bernsteinListF]. rewrite bernsteinInnerF_get; [reflexivity|apply (ro_0 _ _ _ HR)|rewrite bernsteinListF_length; exact L].
  - unfold get. rewrite !nth_overflow by (rewrite bernsteinListF_length; lia).
    rewrite !Rmult_0_l, !(ro_0 _ _ _ HR), Rplus_0_l, (ro_0 _ _ _ HR); reflexivity.
Qed.
Lemma bernF_repr : forall n t k, rd (get (bernsteinListF rd n t) k) = get (bernsteinListF rd n t) k.
Proof.
  intros n t k. destruct n as [|n].
  - destruct k as [|[|k]]; unfold get; simpl; [apply (ro_1 _ _ _ HR)| |]; apply (ro_0 _ _ _ HR).
  - destruct k as [|k]; [rewrite bernF_0|rewrite bernF_S]; apply (ro_idem _ _ _ HR).
Qed.
Lemma bernF_nonneg : forall t, 0 <= t <= 1 -> forall n k, 0 <= get (bernsteinListF rd n t) k.
Proof.
  intros t Ht n; induction n as [|n IH]; intros k.
  - destruct k as [|[|k]]; unfold get; simpl; lra.
  - assert (T1 : 0 <= rd (1 - t)) by (apply rd_nonneg; lra).
    destruct k as [|k]; [rewrite bernF_0|rewrite bernF_S]; apply rd_nonneg.
    + apply Rmult_le_pos; [apply IH|exact T1].
    + apply Rplus_le_le_0_compat; apply rd_nonneg; apply Rmult_le_pos; try apply IH; lra.
Qed.

Definition Dn (n : nat) : R := 2 * INR n * eta * (1 + u) ^ (3 * n).
Lemma Dn_nonneg : forall n, 0 <= Dn n.
Proof.
  intros n; unfold Dn. apply Rmult_le_pos; [|apply pow_le; lra].
  apply Rmult_le_pos; [|exact ETA]. pose proof (pos_INR n); lra.
Qed.
Lemma Dn_S : forall n, (1 + u) ^ 3 * (Dn n + 2 * eta) <= Dn (S n).
Proof.
  intros n. unfold Dn. replace (3 * S n)%nat with (3 + 3 * n)%nat by lia. rewrite pow_add, S_INR.
  assert (A : 1 <= (1 + u) ^ (3 * n)) by (apply pow_R1_Rle; lra).
  assert (B : 0 < (1 + u) ^ 3) by (apply pow_lt; lra).
  assert (C : 2 * eta <= 2 * eta * (1 + u) ^ (3 * n)) by nra.
  replace (2 * (INR n + 1) * eta * ((1 + u) ^ 3 * (1 + u) ^ (3 * n))) with
    ((1 + u) ^ 3 * (2 * INR n * eta * (1 + u) ^ (3 * n) + 2 * eta * (1 + u) ^ (3 * n))) by ring.
  apply Rmult_le_compat_l; lra.
Qed.

(** One product of the recurrence: [b] approximates [B], [t] multiplies. *)
Lemma prod_up : forall b B D A t s, 0 <= t -> 0 <= B -> 0 <= b -> b <= A * B + D -> 0 <= D -> 0 <= A -> t <= (1 + u) * s -> 0 <= s ->
  rd (b * t) <= (1 + u) ^ 2 * s * (A * B + D) + eta.
Proof.
  intros b B D A t s Ht HB Hb Hu HD HA Hts Hs.
  assert (X := rd_bounds (b * t) ltac:(apply Rmult_le_pos; assumption)).
  assert (0 <= A * B + D) by nra.
  assert (b * t <= (A * B + D) * ((1 + u) * s)) by (apply Rmult_le_compat; assumption).
  assert ((1 + u) * (b * t) <= (1 + u) * ((A * B + D) * ((1 + u) * s))) by (apply Rmult_le_compat_l; lra).
  replace ((1 + u) ^ 2 * s * (A * B + D)) with ((1 + u) * ((A * B + D) * ((1 + u) * s))) by ring. lra.
Qed.
Lemma prod_lo : forall b B D A t s, 0 <= t -> 0 <= B -> 0 <= b -> A * B - D <= b -> 0 <= D -> 0 <= A <= 1 -> (1 - u) * s <= t -> 0 <= s ->
  (1 - u) ^ 2 * s * (A * B) - s * D - eta <= rd (b * t).
Proof.
  intros b B D A t s Ht HB Hb Hu HD HA Hts Hs.
  assert (X := rd_bounds (b * t) ltac:(apply Rmult_le_pos; assumption)).
  assert (Y : (1 - u) * s * (A * B) - s * D <= b * t).
  { assert (b * ((1 - u) * s) <= b * t) by (apply Rmult_le_compat_l; assumption).
    assert (0 <= (1 - u) * s) by (apply Rmult_le_pos; lra).
    assert ((A * B - D) * ((1 - u) * s) <= b * ((1 - u) * s)) by (apply Rmult_le_compat_r; assumption).
    assert (0 <= s * D) by (apply Rmult_le_pos; assumption).
    assert (0 <= u * (s * D)) by (apply Rmult_le_pos; lra). nra. }
  assert ((1 - u) * ((1 - u) * s * (A * B) - s * D) <= (1 - u) * (b * t)) by (apply Rmult_le_compat_l; lra).
  assert (0 <= s * D) by (apply Rmult_le_pos; assumption).
  assert (0 <= u * (s * D)) by (apply Rmult_le_pos; lra). nra.
Qed.

Lemma bernF_bounds : forall t, rd t = t -> 0 <= t <= 1 -> forall n k,
  (1 - u) ^ (3 * n) * bern n k t - Dn n <= get (bernsteinListF rd n t) k <= (1 + u) ^ (3 * n) * bern n k t + Dn n.
Proof.
  intros t Rt Ht n; induction n as [|n IH]; intros k.
  - unfold Dn. destruct k as [|[|k]]; unfold get; simpl; [rewrite bern_0_0|rewrite bern_gt by lia|rewrite bern_gt by lia]; lra.
  - pose proof (rd_bounds_1m t Rt ltac:(lra)) as T1.
    assert (T1p : 0 <= rd (1 - t)) by (apply rd_nonneg; lra).
    pose proof (Dn_nonneg n) as HD. pose proof (Dn_S n) as HS.
    assert (E1 : 1 <= (1 + u) ^ (3 * n)) by (apply pow_R1_Rle; lra).
    assert (E2 : 0 <= (1 - u) ^ (3 * n) <= 1).
    { split; [apply pow_le; lra|]. apply Rle_trans with (1 ^ (3 * n)); [apply pow_incr; lra|rewrite pow1; lra]. }
    replace (3 * S n)%nat with (3 + 3 * n)%nat by lia. rewrite !pow_add.
    set (P := (1 + u) ^ (3 * n)) in *. set (Q := (1 - u) ^ (3 * n)) in *.
    assert (CUBE : 1 <= (1 + u) ^ 3) by (apply pow_R1_Rle; lra).
    assert (QQ : (1 - u) ^ 3 <= (1 - u) ^ 2 <= 1).
    { assert (0 <= (1 - u) ^ 2) by (apply pow_le; lra).
      assert ((1 - u) ^ 2 <= 1) by (replace ((1 - u) ^ 2) with ((1 - u) * (1 - u)) by ring; nra).
      split; [|assumption]. replace ((1 - u) ^ 3) with ((1 - u) ^ 2 * (1 - u)) by ring. nra. }
    destruct k as [|k].
    + rewrite bernF_0, bern_S0. set (b := get (bernsteinListF rd n t) 0).
      assert (Bp : 0 <= bern n 0 t) by (apply bern_nonneg; exact Ht).
      assert (bp : 0 <= b) by (apply bernF_nonneg; exact Ht).
      destruct (IH 0%nat) as [L1 L2]. fold b in L1, L2.
      pose proof (prod_up b (bern n 0 t) (Dn n) P (rd (1 - t)) (1 - t) T1p Bp bp L2 HD ltac:(lra) (proj2 T1) ltac:(lra)) as X1.
      pose proof (prod_lo b (bern n 0 t) (Dn n) Q (rd (1 - t)) (1 - t) T1p Bp bp L1 HD E2 (proj1 T1) ltac:(lra)) as X2.
      set (B := bern n 0 t) in *.
      assert (0 <= P * B) by (apply Rmult_le_pos; lra). assert (0 <= Q * B) by (apply Rmult_le_pos; lra).
      assert (0 <= (1 - t) * (P * B)) by (apply Rmult_le_pos; lra).
      assert (0 <= (1 - t) * (Q * B)) by (apply Rmult_le_pos; lra).
      split.
      * assert ((1 - u) ^ 3 * ((1 - t) * (Q * B)) <= (1 - u) ^ 2 * ((1 - t) * (Q * B))) by (apply Rmult_le_compat_r; lra).
        assert ((1 - t) * Dn n <= Dn n) by nra.
        assert (Dn n + eta <= (1 + u) ^ 3 * (Dn n + 2 * eta)) by nra. nra.
      * assert (S1 : (1 + u) ^ 2 <= (1 + u) ^ 3) by (apply Rle_pow; [lra|lia]).
        assert ((1 + u) ^ 2 * ((1 - t) * (P * B)) <= (1 + u) ^ 3 * ((1 - t) * (P * B))) by (apply Rmult_le_compat_r; lra).
        assert ((1 + u) ^ 2 * ((1 - t) * Dn n) <= (1 + u) ^ 3 * Dn n).
        { apply Rmult_le_compat; [apply pow_le; lra|nra|exact S1|nra]. }
        assert (eta <= (1 + u) ^ 3 * (2 * eta)) by nra. nra.
    + rewrite bernF_S, bern_SS. set (a := get (bernsteinListF rd n t) k). set (b := get (bernsteinListF rd n t) (S k)).
      assert (Ap : 0 <= bern n k t) by (apply bern_nonneg; exact Ht).
      assert (Bp : 0 <= bern n (S k) t) by (apply bern_nonneg; exact Ht).
      assert (ap : 0 <= a) by (apply bernF_nonneg; exact Ht).
      assert (bp : 0 <= b) by (apply bernF_nonneg; exact Ht).
      destruct (IH k) as [K1 K2]. destruct (IH (S k)) as [L1 L2]. fold a in K1, K2. fold b in L1, L2.
      pose proof (prod_up b _ (Dn n) P (rd (1 - t)) (1 - t) T1p Bp bp L2 HD ltac:(lra) (proj2 T1) ltac:(lra)) as X1.
      pose proof (prod_lo b _ (Dn n) Q (rd (1 - t)) (1 - t) T1p Bp bp L1 HD E2 (proj1 T1) ltac:(lra)) as X2.
      pose proof (prod_up a _ (Dn n) P t t ltac:(lra) Ap ap K2 HD ltac:(lra) ltac:(nra) ltac:(lra)) as Y1.
      pose proof (prod_lo a _ (Dn n) Q t t ltac:(lra) Ap ap K1 HD E2 ltac:(nra) ltac:(lra)) as Y2.
      assert (Z := rd_bounds_add (rd (a * t)) (rd (b * rd (1 - t))) (ro_idem _ _ _ HR _) (ro_idem _ _ _ HR _)
        ltac:(apply Rplus_le_le_0_compat; apply rd_nonneg; apply Rmult_le_pos; lra)).
      set (A := bern n k t) in *. set (B := bern n (S k) t) in *.
      set (x := rd (a * t)) in *. set (y := rd (b * rd (1 - t))) in *.
      assert (M : 0 <= t * A + (1 - t) * B) by (apply Rplus_le_le_0_compat; apply Rmult_le_pos; lra).
      split.
      * assert (V : (1 - u) ^ 2 * (Q * (t * A + (1 - t) * B)) - Dn n - 2 * eta <= x + y) by nra.
        assert (V2 : (1 - u) * ((1 - u) ^ 2 * (Q * (t * A + (1 - t) * B)) - Dn n - 2 * eta) <= (1 - u) * (x + y)) by (apply Rmult_le_compat_l; lra).
        assert (Dn n + 2 * eta <= (1 + u) ^ 3 * (Dn n + 2 * eta)) by nra. nra.
      * assert (V : x + y <= (1 + u) ^ 2 * (P * (t * A + (1 - t) * B)) + (1 + u) ^ 2 * Dn n + 2 * eta) by nra.
        assert (V2 : (1 + u) * (x + y) <= (1 + u) * ((1 + u) ^ 2 * (P * (t * A + (1 - t) * B)) + (1 + u) ^ 2 * Dn n + 2 * eta)) by (apply Rmult_le_compat_l; lra).
        assert ((1 + u) * (2 * eta) <= (1 + u) ^ 3 * (2 * eta)) by nra. nra.
Qed.
End Rounded.
