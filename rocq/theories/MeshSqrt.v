(** The perfect square test of Domain::onEdge in double precision. *)

From Verif Require Import Base MeshModel MeshSpec MeshProofs MeshEdge.
From Coq Require Import ZArith.
From Flocq Require Import Core.
Open Scope R_scope.

(** Rounding of a real number to the nearest double (ties to even, with
    gradual underflow; overflow cannot happen below 2^64). *)
Definition rnd64 (x : R) : R := round radix2 (FLT_exp (-1074) 53) ZnearestE x.

(** [std::round(std::sqrt(n))] for a size_t [n], domain.cc:150: the integer is
    converted to double, the correctly rounded square root is taken, and the
    result is rounded to an integer (halfway cases away from zero). *)
Definition rsqrt_double (n : nat) : nat :=
  Z.to_nat (ZnearestA (rnd64 (sqrt (rnd64 (INR n))))).

Lemma double_int : forall z : Z, (Z.abs z < 2 ^ 53)%Z -> rnd64 (IZR z) = IZR z.
Proof.
  intros z H. apply round_generic; [apply valid_rnd_N|].
  apply generic_format_FLT. exists (Float radix2 z 0).
  - unfold F2R; simpl. rewrite Rmult_1_r; reflexivity.
  - exact H.
  - simpl; lia.
Qed.

Lemma rsqrt_double_square : forall k, (Z.of_nat (k * k) < 2 ^ 53)%Z -> rsqrt_double (k * k) = k.
Proof.
  intros k H; unfold rsqrt_double. rewrite INR_IZR_INZ.
  rewrite double_int by (rewrite Z.abs_eq; lia).
  rewrite Nat2Z.inj_mul, mult_IZR, sqrt_square by (apply IZR_le; lia).
  rewrite double_int.
  - rewrite (Znearest_imp _ _ (Z.of_nat k)); [apply Nat2Z.id|]. rewrite Rminus_diag_eq, Rabs_R0 by reflexivity; lra.
  - rewrite Z.abs_eq by lia. nia.
Qed.

Lemma onEdge_double : forall r k, (k < meshSize 3 r)%nat -> (Z.of_nat (8 * k + 9) < 2 ^ 53)%Z ->
  (onEdge rsqrt_double 3 r k = true <->
   exists row col, (col <= row <= r)%nat /\ (2 * k = row * (row + 1) + 2 * col)%nat /\
     (row = r \/ col = 0 \/ col = row)%nat).
Proof.
  intros r k Hk Hz. rewrite meshSize3 in Hk. destruct (ix3_surj r k Hk) as (i & j & Hj & Hi & ->).
  rewrite onEdge3_spec; [|exact Hj|exact Hi|].
  - split.
    + intros H; exists i, j. split; [lia|]. split; [|exact H].
      unfold ix3; cbn [fst snd]. pose proof (tg_double i); lia.
    + intros (row & col & Hr & E & H).
      assert (X : ix3 (i, j) = ix3 (row, col)).
      { unfold ix3 at 2; cbn [fst snd]. pose proof (tg_double row); lia. }
      apply ix3_inj in X; [|lia|lia]. destruct X; subst; exact H.
  - intros m Hm. apply rsqrt_double_square. lia.
Qed.
