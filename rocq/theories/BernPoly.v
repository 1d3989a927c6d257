(** Polynomials with as many zeros as coefficients, and what that means for
    Bezier curves. *)
From Verif Require Import Base UtilModel UtilSpec UtilProofs.
From Coq Require Import Reals List Lia Lra.
Import ListNotations.
Open Scope R_scope.

Definition poly (m : nat) (a : nat -> R) (t : R) : R := rsum m (fun j => a j * t ^ j).
Definition distinct (m : nat) (ts : nat -> R) : Prop := forall i j, (i < m)%nat -> (j < m)%nat -> ts i = ts j -> i = j.

Lemma poly_S : forall m a t, poly (S m) a t = poly m a t + a m * t ^ m.
Proof. reflexivity. Qed.

Lemma poly_div : forall m a r, exists b, forall t, poly (S m) a t = (t - r) * poly m b t + poly (S m) a r.
Proof.
  induction m as [|m IH]; intros a r.
  - exists (fun _ => 0). intros t. unfold poly. cbn [rsum pow]. ring.
  - set (a' := fun j => if (j =? m)%nat then a m + a (S m) * r else a j).
    destruct (IH a' r) as [b Hb]. exists (fun j => if (j =? m)%nat then a (S m) else b j). intros t.
    assert (E : forall t, poly (S m) a' t = poly (S m) a t + a (S m) * r * t ^ m).
    { intros x. rewrite !poly_S. unfold a' at 2. rewrite Nat.eqb_refl.
      replace (poly m a' x) with (poly m a x); [ring|]. apply rsum_ext. intros j Hj. unfold a'. destruct (Nat.eqb_spec j m); [lia|reflexivity]. }
    rewrite (poly_S (S m) a t), (poly_S (S m) a r), (poly_S m (fun j => if (j =? m)%nat then a (S m) else b j) t), Nat.eqb_refl.
    replace (poly m (fun j => if (j =? m)%nat then a (S m) else b j) t) with (poly m b t).
    2:{ apply rsum_ext. intros j Hj. destruct (Nat.eqb_spec j m); [lia|reflexivity]. }
    specialize (Hb t). rewrite !E in Hb. cbn [pow]. set (X := poly (S m) a t) in *. set (Y := poly (S m) a r) in *. set (Z := poly m b t) in *.
    replace X with ((t - r) * Z + (Y + a (S m) * r * r ^ m) - a (S m) * r * t ^ m) by lra. ring.
Qed.

(** A polynomial with more zeros than its degree is zero everywhere. *)
Lemma poly_zeros : forall m a ts, distinct m ts -> (forall k, (k < m)%nat -> poly m a (ts k) = 0) -> forall t, poly m a t = 0.
Proof.
  induction m as [|m IH]; intros a ts D Z t; [reflexivity|].
  destruct (poly_div m a (ts m)) as [b Hb]. rewrite Hb, (Z m ltac:(lia)).
  rewrite (IH b ts); [ring|intros i j Hi Hj E; apply D; [lia|lia|exact E]|].
  intros k Hk. pose proof (Hb (ts k)) as E. rewrite (Z k ltac:(lia)), (Z m ltac:(lia)) in E.
  destruct (Rmult_integral (ts k - ts m) (poly m b (ts k)) ltac:(lra)) as [C|C]; [|exact C].
  exfalso. assert (X : k = m) by (apply D; [lia|lia|lra]). lia.
Qed.

Lemma poly_shift : forall m a t, poly (S m) a t = a 0%nat + t * poly m (fun j => a (S j)) t.
Proof.
  intros m a t. unfold poly. rewrite rsum_first. cbn [pow]. rewrite Rmult_1_r. f_equal. rewrite <- rsum_scal. apply rsum_ext. intros j Hj. cbn [pow]. ring.
Qed.

(** A polynomial that is zero at enough points has zero coefficients. *)
Lemma poly_coeffs : forall m a, (forall t, 0 < t -> poly m a t = 0) -> forall j, (j < m)%nat -> a j = 0.
Proof.
  induction m as [|m IH]; intros a Z j Hj; [lia|].
  assert (Z' : forall t, poly (S m) a t = 0).
  { apply (poly_zeros (S m) a (fun k => INR k + 1)); [|intros k Hk; apply Z; pose proof (pos_INR k); lra].
    intros x y Hx Hy E. apply INR_eq. lra. }
  assert (A0 : a 0%nat = 0) by (pose proof (Z' 0) as E; rewrite poly_shift in E; lra).
  destruct j as [|j]; [exact A0|]. apply (IH (fun j => a (S j))); [|lia].
  intros t Ht. pose proof (Z' t) as E. rewrite poly_shift, A0 in E. destruct (Rmult_integral t (poly m (fun j => a (S j)) t) ltac:(lra)); [lra|assumption].
Qed.

(** Functions that are polynomials of degree at most [m]. *)
Definition isPoly (m : nat) (f : R -> R) : Prop := exists a, forall t, f t = poly (m + 1) a t.

Lemma isPoly_ext : forall m f g, (forall t, f t = g t) -> isPoly m f -> isPoly m g.
Proof. intros m f g E [a H]. exists a. intros t. rewrite <- E. apply H. Qed.
Lemma isPoly_zero : forall m, isPoly m (fun _ => 0).
Proof. intros m. exists (fun _ => 0). intros t. unfold poly. symmetry. apply rsum_zero. intros; ring. Qed.
Lemma isPoly_const : forall m c, isPoly m (fun _ => c).
Proof.
  intros m c. exists (fun j => if (j =? 0)%nat then c else 0). intros t. unfold poly. rewrite (rsum_single (m + 1) _ 0%nat ltac:(lia)); [cbn [Nat.eqb pow]; ring|].
  intros j Hj N. destruct (Nat.eqb_spec j 0); [contradiction|ring].
Qed.
Lemma isPoly_add : forall m f g, isPoly m f -> isPoly m g -> isPoly m (fun t => f t + g t).
Proof.
  intros m f g [a A] [b B]. exists (fun j => a j + b j). intros t. rewrite A, B. unfold poly. rewrite <- rsum_plus. apply rsum_ext. intros; ring.
Qed.
Lemma isPoly_scal : forall m f c, isPoly m f -> isPoly m (fun t => c * f t).
Proof. intros m f c [a A]. exists (fun j => c * a j). intros t. rewrite A. unfold poly. rewrite <- rsum_scal. apply rsum_ext. intros; ring. Qed.
Lemma isPoly_up : forall m k f, (m <= k)%nat -> isPoly m f -> isPoly k f.
Proof.
  intros m k f L [a A]. exists (fun j => if (j <=? m)%nat then a j else 0). intros t. rewrite A. unfold poly.
  replace (k + 1)%nat with ((m + 1) + (k - m))%nat by lia. rewrite (rsum_app (m + 1) (k - m)).
  rewrite (rsum_zero (k - m)). 2:{ intros j Hj. destruct (Nat.leb_spec (m + 1 + j) m); [lia|ring]. }
  rewrite Rplus_0_r. apply rsum_ext. intros j Hj. destruct (Nat.leb_spec j m); [reflexivity|lia].
Qed.
Lemma isPoly_mul : forall m f, isPoly m f -> isPoly (S m) (fun t => t * f t).
Proof.
  intros m f [a A]. exists (fun j => match j with O => 0 | S j => a j end). intros t. rewrite A. cbn [Nat.add]. rewrite poly_shift. cbv beta iota. change (fun j => a j) with a. ring.
Qed.
Lemma isPoly_sum : forall m n f, (forall i, (i < n)%nat -> isPoly m (f i)) -> isPoly m (fun t => rsum n (fun i => f i t)).
Proof.
  intros m n f H. induction n as [|n IH]; [apply isPoly_zero|]. cbn [rsum]. apply isPoly_add; [apply IH; intros; apply H; lia|apply H; lia].
Qed.
Lemma isPoly_bern : forall m i, isPoly m (bern m i).
Proof.
  induction m as [|m IH]; intros i.
  - destruct i as [|i]; [apply (isPoly_ext 0 (fun _ => 1)); [intros; rewrite bern_0_0; reflexivity|apply isPoly_const]|].
    apply (isPoly_ext 0 (fun _ => 0)); [intros; rewrite bern_gt by lia; reflexivity|apply isPoly_zero].
  - assert (U : forall i, isPoly (S m) (fun u => (1 - u) * bern m i u)).
    { intros k. apply (isPoly_ext _ (fun u => bern m k u + (-1) * (u * bern m k u))); [intros; ring|]. apply isPoly_add.
      - apply (isPoly_up m); [lia|apply IH].
      - apply isPoly_scal, isPoly_mul, IH. }
    destruct i as [|i].
    + apply (isPoly_ext _ (fun u => (1 - u) * bern m 0 u)); [intros; rewrite bern_S0; reflexivity|apply U].
    + apply (isPoly_ext _ (fun u => u * bern m i u + (1 - u) * bern m (S i) u)); [intros; rewrite bern_SS; reflexivity|].
      apply isPoly_add; [apply isPoly_mul, IH|apply U].
Qed.

(** Two polynomials that agree at more points than their degree are equal. *)
Lemma isPoly_unique : forall m f g ts, isPoly m f -> isPoly m g -> distinct (m + 1) ts ->
  (forall k, (k <= m)%nat -> f (ts k) = g (ts k)) -> forall t, f t = g t.
Proof.
  intros m f g ts F G D E t.
  assert (P : isPoly m (fun t => f t + (-1) * g t)) by (apply isPoly_add; [exact F|apply isPoly_scal; exact G]).
  destruct P as [a A]. pose proof (poly_zeros (m + 1) a ts D) as Z. specialize (A t) as At. rewrite Z in At; [lra|].
  intros k Hk. rewrite <- A, (E k) by lia. ring.
Qed.

(** A combination of Bernstein polynomials that vanishes everywhere is trivial. *)
Lemma bern_independent : forall m x, (forall t, rsum (m + 1) (fun i => x i * bern m i t) = 0) -> forall i, (i <= m)%nat -> x i = 0.
Proof.
  intros m x Z i Hi.
  assert (C : INR (choose m i) <> 0).
  { apply not_0_INR. clear Z x. revert i Hi. induction m as [|m IH]; intros [|i] H; try (cbn; lia). rewrite choose_S.
    destruct (Nat.eq_dec i m) as [->|]; [rewrite choose_diag; lia|]. pose proof (IH (S i) ltac:(lia)). lia. }
  assert (X : x i * INR (choose m i) = 0).
  { apply (poly_coeffs (m + 1) (fun j => x j * INR (choose m j))); [|lia]. intros t Ht. set (u := t / (1 + t)).
    assert (U1 : 1 - u = / (1 + t)) by (unfold u; field; lra).
    assert (N : (1 + t) ^ m <> 0) by (apply pow_nonzero; lra).
    rewrite <- (Rmult_0_r ((1 + t) ^ m)), <- (Z u). unfold poly. rewrite <- rsum_scal. apply rsum_ext. intros j Hj. unfold bern. rewrite U1.
    replace ((1 + t) ^ m) with ((1 + t) ^ j * (1 + t) ^ (m - j)) by (rewrite <- pow_add; f_equal; lia).
    replace (u ^ j) with (t ^ j * / (1 + t) ^ j) by (unfold u, Rdiv; rewrite Rpow_mult_distr, pow_inv by lra; reflexivity).
    rewrite pow_inv by lra. field. split; apply pow_nonzero; lra. }
  destruct (Rmult_integral _ _ X) as [E|E]; [exact E|contradiction].
Qed.

(** Vector valued: each coordinate a polynomial. *)
Definition vpoly (m : nat) (f : R -> V3) : Prop :=
  isPoly m (fun t => vx (f t)) /\ isPoly m (fun t => vy (f t)) /\ isPoly m (fun t => vz (f t)).


Lemma vpoly_bezier : forall m P, vpoly m (bezier m P).
Proof.
  intros m P. unfold vpoly, bezier. split; [|split].
  - apply (isPoly_ext m (fun t => rsum (m + 1) (fun i => vx (P i) * bern m i t))); [intros; rewrite vsum_x; reflexivity|].
    apply isPoly_sum. intros; apply isPoly_scal, isPoly_bern.
  - apply (isPoly_ext m (fun t => rsum (m + 1) (fun i => vy (P i) * bern m i t))); [intros; rewrite vsum_y; reflexivity|].
    apply isPoly_sum. intros; apply isPoly_scal, isPoly_bern.
  - apply (isPoly_ext m (fun t => rsum (m + 1) (fun i => vz (P i) * bern m i t))); [intros; rewrite vsum_z; reflexivity|].
    apply isPoly_sum. intros; apply isPoly_scal, isPoly_bern.
Qed.
Lemma vpoly_add : forall m f g, vpoly m f -> vpoly m g -> vpoly m (fun t => f t +v g t).
Proof. intros m f g (A & B & C) (A' & B' & C'). repeat split; simpl; apply isPoly_add; assumption. Qed.
Lemma vpoly_line : forall m v, (1 <= m)%nat -> vpoly m (fun t => v *v t).
Proof.
  intros m v H. assert (L : forall c, isPoly m (fun t => c * t)).
  { intros c. apply (isPoly_ext m (fun t => c * (t * 1))); [intros; ring|]. apply isPoly_scal. apply (isPoly_up 1); [exact H|]. apply isPoly_mul, isPoly_const. }
  repeat split; simpl; apply L.
Qed.
Lemma isPoly_rev : forall m f, isPoly m f -> isPoly m (fun t => f (1 - t)).
Proof.
  intros m f [a A]. apply (isPoly_ext m (fun t => rsum (m + 1) (fun j => a j * (1 - t) ^ j))); [intros; rewrite A; reflexivity|].
  apply isPoly_sum. intros j Hj. apply isPoly_scal, (isPoly_up j); [lia|]. clear.
  induction j as [|j IH]; [apply (isPoly_const 0 1)|]. cbn [pow].
  apply (isPoly_ext (S j) (fun t => (1 - t) ^ j + (-1) * (t * (1 - t) ^ j))); [intros; ring|].
  apply isPoly_add; [apply (isPoly_up j); [lia|exact IH]|apply isPoly_scal, isPoly_mul, IH].
Qed.
Lemma vpoly_rev : forall m f, vpoly m f -> vpoly m (fun t => f (1 - t)).
Proof.
  intros m f (A & B & C). repeat split.
  - exact (isPoly_rev m (fun t => vx (f t)) A). - exact (isPoly_rev m (fun t => vy (f t)) B). - exact (isPoly_rev m (fun t => vz (f t)) C).
Qed.
Lemma vpoly_unique : forall m f g ts, vpoly m f -> vpoly m g -> distinct (m + 1) ts ->
  (forall k, (k <= m)%nat -> f (ts k) = g (ts k)) -> forall t, f t = g t.
Proof.
  intros m f g ts (F1 & F2 & F3) (G1 & G2 & G3) D E t. apply V3_ext.
  - apply (isPoly_unique m (fun t => vx (f t)) (fun t => vx (g t)) ts F1 G1 D). intros k Hk. rewrite E by exact Hk. reflexivity.
  - apply (isPoly_unique m (fun t => vy (f t)) (fun t => vy (g t)) ts F2 G2 D). intros k Hk. rewrite E by exact Hk. reflexivity.
  - apply (isPoly_unique m (fun t => vz (f t)) (fun t => vz (g t)) ts F3 G3 D). intros k Hk. rewrite E by exact Hk. reflexivity.
Qed.

(** The inner Bernstein collocation matrix has a trivial kernel when the nodes are
    distinct and none is an end. *)
Lemma collocation_kernel : forall m us x, distinct m us -> (forall i, (i < m)%nat -> us i <> 0 /\ us i <> 1) ->
  (forall i, (i < m)%nat -> rsum m (fun j => bern (m + 1) (j + 1) (us i) * x j) = 0) -> forall j, (j < m)%nat -> x j = 0.
Proof.
  intros m us x D Hu Z j Hj.
  set (c := fun i => if (i =? 0)%nat then 0 else if (i =? m + 1)%nat then 0 else x (i - 1)%nat).
  assert (S : forall t, rsum (m + 1 + 1) (fun i => c i * bern (m + 1) i t) = rsum m (fun j => bern (m + 1) (j + 1) t * x j)).
  { intros t. replace (m + 1 + 1)%nat with (S (S m)) by lia. rewrite rsum_first. cbn [rsum].
    unfold c at 1. cbn [Nat.eqb]. replace (c (S m)) with 0. 2:{ unfold c. replace (m + 1)%nat with (S m) by lia. rewrite Nat.eqb_refl. destruct (S m =? 0)%nat; reflexivity. }
    rewrite Rmult_0_l, Rmult_0_l, Rplus_0_l, Rplus_0_r. apply rsum_ext. intros k Hk. unfold c. destruct (Nat.eqb_spec (S k) 0); [lia|].
    destruct (Nat.eqb_spec (S k) (m + 1)); [lia|]. replace (S k - 1)%nat with k by lia. replace (k + 1)%nat with (S k) by lia. ring. }
  assert (A : forall t, rsum (m + 1 + 1) (fun i => c i * bern (m + 1) i t) = 0).
  { set (ts := fun k => if (k =? 0)%nat then 0 else if (k =? m + 1)%nat then 1 else us (k - 1)%nat).
    apply (isPoly_unique (m + 1) (fun t => rsum (m + 1 + 1) (fun i => c i * bern (m + 1) i t)) (fun _ => 0) ts).
    - apply isPoly_sum. intros; apply isPoly_scal, isPoly_bern.
    - apply isPoly_zero.
    - intros a b Ha Hb. unfold ts. destruct (Nat.eqb_spec a 0), (Nat.eqb_spec b 0), (Nat.eqb_spec a (m + 1)), (Nat.eqb_spec b (m + 1)); intros E; try lia; try lra.
      + destruct (Hu (b - 1)%nat ltac:(lia)); congruence.
      + destruct (Hu (a - 1)%nat ltac:(lia)); congruence.
      + destruct (Hu (b - 1)%nat ltac:(lia)); congruence.
      + destruct (Hu (a - 1)%nat ltac:(lia)); congruence.
      + assert (a - 1 = b - 1)%nat by (apply D; [lia|lia|exact E]). lia.
    - intros k Hk. cbv beta. rewrite S. unfold ts. destruct (Nat.eqb_spec k 0) as [->|N0]; [|destruct (Nat.eqb_spec k (m + 1)) as [->|N1]].
      + apply rsum_zero. intros i Hi. unfold bern. replace (i + 1)%nat with (Datatypes.S i) by lia. cbn [pow]. ring.
      + apply rsum_zero. intros i Hi. unfold bern. replace (m + 1 - (i + 1))%nat with (Datatypes.S (m - i - 1)) by lia. cbn [pow]. ring.
      + apply Z. lia. }
  pose proof (bern_independent (m + 1) c A (j + 1) ltac:(lia)) as E. unfold c in E.
  destruct (Nat.eqb_spec (j + 1) 0); [lia|]. destruct (Nat.eqb_spec (j + 1) (m + 1)); [lia|]. replace (j + 1 - 1)%nat with j in E by lia. exact E.
Qed.
