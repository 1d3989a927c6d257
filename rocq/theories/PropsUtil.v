(** Properties of the numeric utilities and Bezier curves: C14 - C18. *)

From Coq Require Import NArith.
From Verif Require Import Base UtilModel UtilSpec UtilProofs.
Open Scope R_scope.

(** ** C14: binomial. *)
Theorem C14_binomial : forall (A : Type) (l : list A) k, NoDup l ->
  (forall d, (1 <= d <= k)%nat ->
     (N.of_nat (length (sublists (d - 1) l)) * N.of_nat (length l - (d - 1)) < 2 ^ 64)%N) ->
  binomial64 (N.of_nat (length l)) (N.of_nat k) = N.of_nat (length (sublists k l)).
Proof.
  intros A l k _ H. rewrite sublists_count. apply binomial64_spec.
  intros d Hd. rewrite <- (sublists_count A). apply H; exact Hd.
Qed.
Print Assumptions C14_binomial.

(** What is counted: the list [sublists k l] contains each subset of size [k]
    exactly once. *)
Theorem C14_subsets : forall (A : Type) (l : list A) k, NoDup l ->
  NoDup (sublists k l) /\ forall s, In s (sublists k l) <-> sublist s l /\ length s = k.
Proof. intros A l k H. split; [apply sublists_nodup; exact H|intros s; apply sublists_sound]. Qed.
Print Assumptions C14_subsets.

(** Every division of the loop is exact: the product it divides is the divisor
    times the next binomial coefficient. *)
Theorem C14_exact_division : forall n d, (1 <= d <= n)%nat ->
  (choose n (d - 1) * (n - (d - 1)) = d * choose n d)%nat.
Proof. intros n d H. rewrite <- choose_absorb. replace (S (d - 1)) with d by lia. reflexivity. Qed.
Print Assumptions C14_exact_division.

Theorem C14_wrong_below_64_bits : exists n k : nat,
  (N.of_nat (length (sublists k (seq 0 n))) < 2 ^ 64)%N /\
  binomial64 (N.of_nat n) (N.of_nat k) <> N.of_nat (length (sublists k (seq 0 n))).
Proof.
  destruct binomial_wrong as (n & k & H). exists n, k. rewrite sublists_count, seq_length. exact H.
Qed.
Print Assumptions C14_wrong_below_64_bits.

Example C14_example : binomial64 10 4 = 210%N.
Proof. reflexivity. Qed.

(** ** C15: Bernstein polynomials. *)
Theorem C15_list : forall n u, length (bernsteinList n u) = (n + 1)%nat /\
  forall i, (i <= n)%nat -> nth_error (bernsteinList n u) i = Some (INR (choose n i) * u ^ i * (1 - u) ^ (n - i)).
Proof.
  intros n u. split; [rewrite bernsteinList_length; lia|]. intros i H; apply bernsteinList_nth; exact H.
Qed.
Print Assumptions C15_list.

Theorem C15_single : forall i n u,
  bernsteinSingle i n u =
    if (i <=? n)%nat then Some (INR (choose n i) * u ^ i * (1 - u) ^ (n - i)) else None.
Proof.
  intros i n u. destruct (Nat.leb_spec i n) as [H|H]; [apply bernsteinSingle_spec; exact H|apply bernsteinSingle_none; exact H].
Qed.
Print Assumptions C15_single.

Theorem C15_partition : forall n u, fold_right Rplus 0 (bernsteinList n u) = 1.
Proof.
  intros n u.
  assert (G : forall l : list R, fold_right Rplus 0 l = rsum (length l) (fun i => nth i l 0)).
  { induction l as [|x l IH]; [reflexivity|]. cbn [length]. rewrite rsum_first. simpl. rewrite IH. reflexivity. }
  rewrite G, bernsteinList_length, <- (bern_sum n u). replace (n + 1)%nat with (S n) by lia.
  apply rsum_ext. intros i Hi. apply nth_error_nth. apply bernsteinList_nth; lia.
Qed.
Print Assumptions C15_partition.

Theorem C15_nonnegative : forall n u, 0 <= u <= 1 -> Forall (fun b => 0 <= b) (bernsteinList n u).
Proof.
  intros n u H. apply Forall_forall. intros x I. apply In_nth_error in I. destruct I as [i E].
  assert (i < length (bernsteinList n u))%nat by (apply nth_error_Some; congruence).
  rewrite bernsteinList_length in *. rewrite bernsteinList_nth in E by lia. injection E as <-.
  apply bern_nonneg; exact H.
Qed.
Print Assumptions C15_nonnegative.

Theorem C15_symmetric : forall n u, bernsteinList n (1 - u) = rev (bernsteinList n u).
Proof.
  intros n u. apply (nth_ext _ _ 0 0); [rewrite rev_length, !bernsteinList_length; reflexivity|].
  intros i Hi. rewrite bernsteinList_length in Hi. rewrite rev_nth by (rewrite bernsteinList_length; lia).
  rewrite bernsteinList_length.
  erewrite nth_error_nth by (apply bernsteinList_nth; lia).
  erewrite nth_error_nth by (apply bernsteinList_nth; lia).
  rewrite bern_sym by lia. f_equal; lia.
Qed.
Print Assumptions C15_symmetric.

Example C15_example : bernsteinList 2 (1/4) = [9/16; 6/16; 1/16] /\ bernsteinSingle 1 2 (1/4) = Some (6/16).
Proof.
  split; [simpl; repeat (apply (f_equal2 cons); [lra|]); reflexivity|].
  rewrite C15_single. simpl. f_equal; lra.
Qed.

(** ** C16: Hermite blends.

    Function 2 has derivative -1 at the end: it is the opposite of the
    classical basis function, and multiplies derivatives that point backwards. *)
Theorem C16_end_values :
  hermite 0 0 = 1 /\ hermite 1 0 = 0 /\ hermite 2 0 = 0 /\ hermite 3 0 = 0 /\
  hermite 0 1 = 0 /\ hermite 1 1 = 0 /\ hermite 2 1 = 0 /\ hermite 3 1 = 1.
Proof. unfold hermite; repeat split; ring. Qed.
Print Assumptions C16_end_values.

Theorem C16_end_derivatives :
  derivable_pt_lim (hermite 0) 0 0 /\ derivable_pt_lim (hermite 1) 0 1 /\
  derivable_pt_lim (hermite 2) 0 0 /\ derivable_pt_lim (hermite 3) 0 0 /\
  derivable_pt_lim (hermite 0) 1 0 /\ derivable_pt_lim (hermite 1) 1 0 /\
  derivable_pt_lim (hermite 2) 1 (-1) /\ derivable_pt_lim (hermite 3) 1 0.
Proof.
  destruct (hermite_derive 0) as (A & B & C & D). destruct (hermite_derive 1) as (A1 & B1 & C1 & D1).
  repeat split; (eapply dlim_eq; [eassumption|ring]).
Qed.
Print Assumptions C16_end_derivatives.

Theorem C16_blend : (forall t, hermite 0 t + hermite 3 t = 1) /\ (forall t, hermite 0 (1 - t) = hermite 3 t) /\
  (forall s t, 0 <= s -> s < t -> t <= 1 -> hermite 0 t < hermite 0 s) /\
  (forall t, 0 <= t <= 1 -> 0 <= hermite 0 t <= 1).
Proof.
  split; [intros; unfold hermite; ring|]. split; [intros; unfold hermite; ring|].
  split; [exact hermite0_decreasing|]. intros t [H0 H1]. split.
  - replace 0 with (hermite 0 1) at 1 by (unfold hermite; ring).
    destruct (Rle_lt_or_eq_dec t 1 H1) as [L| ->]; [|lra]. left; apply hermite0_decreasing; lra.
  - replace 1 with (hermite 0 0) by (unfold hermite; ring).
    destruct (Rle_lt_or_eq_dec 0 t H0) as [L|<-]; [|lra]. left; apply hermite0_decreasing; lra.
Qed.
Print Assumptions C16_blend.

Example C16_example : hermite 0 (1/2) = 1/2 /\ hermite 0 (1/4) = 27/32.
Proof. unfold hermite; split; lra. Qed.

(** ** C17: degree elevation. *)
Theorem C17_elevate : forall cp d, length cp = (d + 1)%nat -> exists cp', bezierElevate cp = Some cp' /\
  length cp' = (d + 2)%nat /\ pnth cp' 0 = pnth cp 0 /\ pnth cp' (d + 1) = pnth cp d /\
  forall u, bezier (d + 1) (pnth cp') u = bezier d (pnth cp) u.
Proof. exact elevate_spec. Qed.
Print Assumptions C17_elevate.

Example C17_example : bezierElevate [mkV3 0 0 0; mkV3 2 0 0] = Some [mkV3 0 0 0; mkV3 1 0 0; mkV3 2 0 0].
Proof.
  cbn [bezierElevate elevateLoop length]. rewrite !vdiv_some by (simpl; lra). cbn [bind]. apply f_equal.
  repeat (apply (f_equal2 cons); [apply V3_ext; simpl; lra|]). reflexivity.
Qed.

(** ** C18: Bezier curves. *)
Theorem C18_eval : forall cp n u, length cp = (n + 1)%nat -> bcEval cp u = Some (bezier n (pnth cp) u).
Proof. exact bcEval_spec. Qed.
Print Assumptions C18_eval.

(** [D k] is the k-th derivative of the curve. *)
Theorem C18_derivatives : forall cp n, length cp = (n + 1)%nat -> exists D : nat -> R -> V3,
  (forall u, bcEval cp u = Some (D 0%nat u)) /\
  (forall k u, vderiv (D k) u (D (S k) u)) /\
  (forall k u, (n < k)%nat -> D k u = vzero) /\
  forall u nr, exists der, bcEvalDer cp u nr = Some der /\ length der = (nr + 1)%nat /\
    forall k, (k <= nr)%nat -> nth_error der k = Some (D k u).
Proof.
  intros cp n L.
  exists (fun k u => if (k <=? n)%nat then bezier (n - k) (dcps n k (pnth cp)) u else vzero).
  split; [|split; [|split]].
  - intros u. cbn [Nat.leb dcps]. rewrite Nat.sub_0_r. apply bcEval_spec; exact L.
  - intros k u. destruct (Nat.leb_spec k n) as [A|A]; destruct (Nat.leb_spec (S k) n) as [B|B]; try lia.
    + apply dcps_step; lia.
    + replace k with n by lia. rewrite Nat.sub_diag. apply bezier_derive0.
    + repeat split; apply derivable_pt_lim_const.
  - intros k u H. destruct (Nat.leb_spec k n); [lia|reflexivity].
  - intros u nr. apply bcEvalDer_spec; exact L.
Qed.
Print Assumptions C18_derivatives.

Theorem C18_reverse : forall cp u, bcEval (bcReverse cp) u = bcEval cp (1 - u).
Proof.
  intros cp u. destruct cp as [|p cp]; [reflexivity|].
  rewrite (bcEval_spec (p :: cp) (length cp)) by (simpl; lia).
  rewrite (bcEval_spec (bcReverse (p :: cp)) (length cp)) by (unfold bcReverse; rewrite rev_length; simpl; lia).
  f_equal. apply reverse_spec. simpl; lia.
Qed.
Print Assumptions C18_reverse.

Theorem C18_reverse_twice : forall cp, bcReverse (bcReverse cp) = cp.
Proof. exact (@rev_involutive V3). Qed.
Print Assumptions C18_reverse_twice.

Example C18_example : bcEval [mkV3 0 0 0; mkV3 1 2 0; mkV3 4 0 0] (1/2) = Some (mkV3 (3/2) 1 0).
Proof. unfold bcEval; simpl. apply f_equal. apply V3_ext; simpl; lra. Qed.
