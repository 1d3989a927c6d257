(** An exact solver exists: elimination over the reals.  It shows that the
    assumption [exact_solver] of the theorems on harmonic and biharmonic
    patches can be met. *)
From Verif Require Import Base FEMSpec LinAlg.
Open Scope R_scope.

(** First position below [n] with a nonzero entry. *)
Fixpoint pivot (n : nat) (a : nat -> R) : option nat :=
  match n with
  | 0%nat => None
  | S n => match pivot n a with Some p => Some p | None => if Req_EM_T (a n) 0 then None else Some n end
  end.

Fixpoint gauss (n : nat) (A : nat -> nat -> R) (b : nat -> R) : nat -> R :=
  match n with
  | 0%nat => fun _ => 0
  | S n' => match pivot n (A 0%nat) with
    | None => fun _ => 0
    | Some p =>
      let f := fun i => A (S i) p / A 0%nat p in
      let y := gauss n' (fun i j => A (S i) (skip p j) - f i * A 0%nat (skip p j)) (fun i => b (S i) - f i * b 0%nat) in
      fun k => if (k =? p)%nat then (b 0%nat - rsum n' (fun j => A 0%nat (skip p j) * y j)) / A 0%nat p
               else if (k <? p)%nat then y k else y (k - 1)%nat
    end
  end.

Lemma pivot_some : forall n a p, pivot n a = Some p -> (p < n)%nat /\ a p <> 0.
Proof.
  induction n as [|n IH]; cbn [pivot]; intros a p E; [discriminate|]. destruct (pivot n a) as [q|] eqn:Q.
  - injection E as <-. destruct (IH a q Q). split; [lia|assumption].
  - destruct (Req_EM_T (a n) 0); [discriminate|]. injection E as <-. split; [lia|assumption].
Qed.
Lemma pivot_none : forall n a, pivot n a = None -> forall j, (j < n)%nat -> a j = 0.
Proof.
  induction n as [|n IH]; cbn [pivot]; intros a E j Hj; [lia|]. destruct (pivot n a) as [q|] eqn:Q; [discriminate|].
  destruct (Req_EM_T (a n) 0); [|discriminate]. destruct (Nat.eq_dec j n) as [->|]; [assumption|]. apply IH; [exact Q|lia].
Qed.

Lemma gauss_solves : forall n A, (forall b, exists x, solves n A b x) -> forall b, solves n A b (gauss n A b).
Proof.
  induction n as [|n IH]; intros A H b i Hi; [lia|]. cbn [gauss]. destruct (pivot (S n) (A 0%nat)) as [p|] eqn:Pv.
  2: { exfalso. destruct (H (fun _ => 1)) as (x & Hx). pose proof (pivot_none _ _ Pv) as Z. specialize (Hx 0%nat ltac:(lia)). unfold mapply in Hx.
       rewrite rsum_zero in Hx; [lra|]. intros j Hj. rewrite Z by exact Hj. ring. }
  destruct (pivot_some _ _ _ Pv) as [Lp Np].
  set (f := fun i => A (S i) p / A 0%nat p). set (A' := fun i j => A (S i) (skip p j) - f i * A 0%nat (skip p j)). set (b' := fun i => b (S i) - f i * b 0%nat).
  assert (SP : forall M x j, mapply (S n) M x j = M j p * x p + rsum n (fun k => M j (skip p k) * x (skip p k))).
  { intros M x j. unfold mapply. rewrite (rsum_skip n p) by lia. reflexivity. }
  assert (H' : forall c, exists x, solves n A' c x).
  { intros c. destruct (H (fun k => match k with 0%nat => 0 | S k => c k end)) as (x & Hx). exists (fun j => x (skip p j)). intros k Hk.
    pose proof (Hx 0%nat ltac:(lia)) as E0. pose proof (Hx (S k) ltac:(lia)) as E1. rewrite SP in E0, E1. unfold mapply, A'.
    rewrite (rsum_ext _ _ (fun j => A (S k) (skip p j) * x (skip p j) - f k * (A 0%nat (skip p j) * x (skip p j)))) by (intros; ring).
    rewrite rsum_minus, rsum_scal. cbn beta iota in E0, E1.
    set (s0 := rsum n (fun k0 => A 0%nat (skip p k0) * x (skip p k0))) in *. set (s1 := rsum n (fun k0 => A (S k) (skip p k0) * x (skip p k0))) in *.
    replace s1 with (c k - A (S k) p * x p) by lra. replace s0 with (- (A 0%nat p * x p)) by lra. unfold f. field. exact Np. }
  pose proof (IH A' H' b') as Y. set (y := gauss n A' b') in *.
  set (x := fun k => if (k =? p)%nat then (b 0%nat - rsum n (fun j => A 0%nat (skip p j) * y j)) / A 0%nat p else if (k <? p)%nat then y k else y (k - 1)%nat).
  change (mapply (S n) A x i = b i). rewrite SP.
  assert (XS : forall j, x (skip p j) = y j).
  { intros j. unfold x. destruct (skip_spec p j) as [S1 S2]. destruct (Nat.ltb_spec j p) as [L|L].
    - rewrite (S1 L). destruct (Nat.eqb_spec j p); [lia|]. destruct (Nat.ltb_spec j p); [reflexivity|lia].
    - rewrite (S2 L). destruct (Nat.eqb_spec (S j) p); [lia|]. destruct (Nat.ltb_spec (S j) p); [lia|]. f_equal. lia. }
  rewrite (rsum_ext _ _ (fun k => A i (skip p k) * y k)) by (intros; rewrite XS; reflexivity).
  assert (XP : x p = (b 0%nat - rsum n (fun j => A 0%nat (skip p j) * y j)) / A 0%nat p) by (unfold x; rewrite Nat.eqb_refl; reflexivity).
  rewrite XP. destruct i as [|k]; [field; exact Np|]. specialize (Y k ltac:(lia)). unfold mapply, A', b' in Y.
  rewrite (rsum_ext _ _ (fun j => A (S k) (skip p j) * y j - f k * (A 0%nat (skip p j) * y j))) in Y by (intros; ring).
  rewrite rsum_minus, rsum_scal in Y. set (s0 := rsum n (fun j => A 0%nat (skip p j) * y j)) in *. set (s1 := rsum n (fun k0 => A (S k) (skip p k0) * y k0)) in *.
  replace s1 with (b (S k) - f k * b 0%nat + f k * s0) by lra. unfold f. field. exact Np.
Qed.

(** The three right hand sides one after the other. *)
Definition gaussSolver (n : nat) (M : nat -> nat -> R) (b : nat -> V3) (i : nat) : V3 :=
  mkV3 (gauss n M (fun j => vx (b j)) i) (gauss n M (fun j => vy (b j)) i) (gauss n M (fun j => vz (b j)) i).

Theorem gauss_exact : exact_solver gaussSolver.
Proof.
  intros n M b INV. assert (H : forall c, exists x, solves n M c x) by (intros c; destruct (INV c) as (x & Hx & _); exists x; exact Hx).
  unfold gaussSolver; cbn [vx vy vz]. repeat split; apply gauss_solves; exact H.
Qed.
