(** Least squares solutions of linear systems with three right hand sides, and a solver
    (Gram-Schmidt orthogonalization) that finds one for every system. *)
From Verif Require Import Base.
From Coq Require Import Reals.
Open Scope R_scope.

Definition residual (rows cols : nat) (A : nat -> nat -> R) (b x : nat -> V3) : R :=
  rsum rows (fun j => vnorm2 (vsum cols (fun c => x c *v A j c) -v b j)).
Definition least_squares_solver (solve : nat -> nat -> (nat -> nat -> R) -> (nat -> V3) -> nat -> V3) : Prop :=
  forall rows cols A b x, residual rows cols A b (solve rows cols A b) <= residual rows cols A b x.

(** ** The instance *)
Section Project.
Variable rows : nat.
Variable A : nat -> nat -> R.
Definition inner (a b : nat -> R) : R := rsum rows (fun j => a j * b j).
Definition comb (m : nat) (x : nat -> R) (j : nat) : R := rsum m (fun c => x c * A j c).

Fixpoint project (m : nat) (b : nat -> R) : nat -> R :=
  match m with
  | O => fun _ => 0
  | S m =>
    let c := project m (fun j => A j m) in
    let r j := A j m - comb m c j in
    let x := project m b in
    if Req_EM_T (inner r r) 0 then fun i => if (i =? m)%nat then 0 else x i
    else let t := inner b r / inner r r in fun i => if (i =? m)%nat then t else x i - t * c i
  end.

Lemma inner_ext : forall a b a' b', (forall j, (j < rows)%nat -> a j = a' j) -> (forall j, (j < rows)%nat -> b j = b' j) -> inner a b = inner a' b'.
Proof. intros a b a' b' H H'. apply rsum_ext. intros j Hj. rewrite H, H' by exact Hj. reflexivity. Qed.
Lemma inner_sub : forall a b c, inner (fun j => a j - b j) c = inner a c - inner b c.
Proof. intros. unfold inner. rewrite <- rsum_minus. apply rsum_ext. intros; ring. Qed.
Lemma inner_scal : forall t a c, inner (fun j => t * a j) c = t * inner a c.
Proof. intros. unfold inner. rewrite <- rsum_scal. apply rsum_ext. intros; ring. Qed.
Lemma inner_sym : forall a b, inner a b = inner b a.
Proof. intros. apply rsum_ext. intros; ring. Qed.
Lemma inner_comb : forall m x c, inner (comb m x) c = rsum m (fun i => x i * inner (fun j => A j i) c).
Proof.
  intros m x c. induction m as [|m IH]; cbn [rsum].
  - apply rsum_zero. intros. unfold comb. cbn [rsum]. ring.
  - rewrite <- IH. unfold inner at 2 3. rewrite <- rsum_scal, <- rsum_plus. apply rsum_ext. intros j Hj. unfold comb. cbn [rsum]. ring.
Qed.
Lemma inner_zero : forall r, inner r r = 0 -> forall j, (j < rows)%nat -> r j = 0.
Proof.
  intros r H j Hj. destruct (Req_dec (r j) 0) as [E|N]; [exact E|]. exfalso.
  assert (P : 0 < r j * r j) by (pose proof (Rsqr_pos_lt _ N) as Q; unfold Rsqr in Q; exact Q).
  assert (Q : r j * r j <= inner r r).
  { pose proof (rsum_le rows (fun i => if (i =? j)%nat then r j * r j else 0) (fun i => r i * r i)) as L.
    rewrite (rsum_single rows _ j Hj) in L by (intros i _ Ni; destruct (Nat.eqb_spec i j); [contradiction|reflexivity]). rewrite Nat.eqb_refl in L. apply L.
    intros i _. destruct (Nat.eqb_spec i j) as [->|_]; [lra|]. pose proof (Rle_0_sqr (r i)) as Q; unfold Rsqr in Q; exact Q. }
  lra.
Qed.

(** What is left of [b] is orthogonal to the columns. *)
Lemma project_orthogonal : forall m b i, (i < m)%nat -> inner (fun j => b j - comb m (project m b) j) (fun j => A j i) = 0.
Proof.
  induction m as [|m IH]; intros b i Hi; [lia|]. cbn [project]. set (c := project m (fun j => A j m)). set (r := fun j => A j m - comb m c j). set (x := project m b).
  assert (Or : forall k, (k < m)%nat -> inner r (fun j => A j k) = 0) by (intros k Hk; exact (IH (fun j => A j m) k Hk)).
  assert (Ob : forall k, (k < m)%nat -> inner (fun j => b j - comb m x j) (fun j => A j k) = 0) by (intros k Hk; exact (IH b k Hk)).
  assert (Oc : forall y v, (forall k, (k < m)%nat -> inner v (fun j => A j k) = 0) -> inner v (comb m y) = 0).
  { intros y v Hv. rewrite inner_sym, inner_comb. apply rsum_zero. intros k Hk. rewrite inner_sym, Hv by exact Hk. ring. }
  assert (Split : forall v, inner v (fun j => A j m) = inner v r + inner v (comb m c)).
  { intros v. unfold inner. rewrite <- rsum_plus. apply rsum_ext. intros j Hj. unfold r. ring. }
  destruct (Req_EM_T (inner r r) 0) as [Z|N].
  - rewrite (inner_ext _ _ (fun j => b j - comb m x j) (fun j => A j i)); [| |reflexivity].
    2: { intros j _. f_equal. unfold comb. cbn [rsum]. rewrite Nat.eqb_refl. rewrite (rsum_ext m _ (fun k => x k * A j k)); [ring|].
         intros k Hk. destruct (Nat.eqb_spec k m); [lia|reflexivity]. }
    destruct (Nat.eq_dec i m) as [->|Ni]; [|apply Ob; lia]. rewrite Split, (Oc c) by exact Ob.
    rewrite (inner_ext _ r (fun j => b j - comb m x j) (fun _ => 0)); [|reflexivity|exact (inner_zero r Z)]. unfold inner. rewrite (rsum_zero _ (fun j => _ * 0)) by (intros; ring). ring.
  - set (t := inner b r / inner r r).
    rewrite (inner_ext _ _ (fun j => (b j - comb m x j) - t * r j) (fun j => A j i)); [| |reflexivity].
    2: { intros j _. unfold comb at 1. cbn [rsum]. rewrite Nat.eqb_refl. rewrite (rsum_ext m _ (fun k => x k * A j k - t * (c k * A j k))).
         - rewrite rsum_minus, rsum_scal. unfold r, comb. ring.
         - intros k Hk. destruct (Nat.eqb_spec k m); [lia|]. ring. }
    rewrite inner_sub, inner_scal. destruct (Nat.eq_dec i m) as [->|Ni].
    + rewrite !Split, (Oc c _ Ob), (Oc c _ Or). rewrite inner_sub. rewrite (inner_sym (comb m x) r), (Oc x r Or). unfold t. field. exact N.
    + rewrite Ob, Or by lia. ring.
Qed.

Lemma project_least : forall m b y,
  rsum rows (fun j => (comb m (project m b) j - b j) * (comb m (project m b) j - b j)) <= rsum rows (fun j => (comb m y j - b j) * (comb m y j - b j)).
Proof.
  intros m b y. set (x := project m b). set (v := fun j => b j - comb m x j). set (w := fun j => comb m x j - comb m y j).
  assert (O : inner v w = 0).
  { unfold w. rewrite inner_sym, inner_sub, !inner_comb. rewrite !rsum_zero; [ring| |]; intros i Hi; rewrite inner_sym; unfold v, x; rewrite project_orthogonal by exact Hi; ring. }
  assert (E : rsum rows (fun j => (comb m y j - b j) * (comb m y j - b j)) = inner v v + 2 * inner v w + inner w w).
  { unfold inner. rewrite <- rsum_scal, <- !rsum_plus. apply rsum_ext. intros j _. unfold v, w. ring. }
  rewrite E, O. assert (0 <= inner w w) by (apply rsum_nonneg; intros j _; pose proof (Rle_0_sqr (w j)) as Q; unfold Rsqr in Q; exact Q).
  rewrite (rsum_ext rows _ (fun j => v j * v j)) by (intros; unfold v; ring). fold (inner v v). lra.
Qed.
End Project.

Definition projectSolver (rows cols : nat) (A : nat -> nat -> R) (b : nat -> V3) (c : nat) : V3 :=
  mkV3 (project rows A cols (fun j => vx (b j)) c) (project rows A cols (fun j => vy (b j)) c) (project rows A cols (fun j => vz (b j)) c).

Theorem project_least_squares : least_squares_solver projectSolver.
Proof.
  intros rows cols A b x. unfold residual.
  assert (E : forall y, rsum rows (fun j => vnorm2 (vsum cols (fun c => y c *v A j c) -v b j)) =
    rsum rows (fun j => (comb A cols (fun c => vx (y c)) j - vx (b j)) * (comb A cols (fun c => vx (y c)) j - vx (b j))) +
    rsum rows (fun j => (comb A cols (fun c => vy (y c)) j - vy (b j)) * (comb A cols (fun c => vy (y c)) j - vy (b j))) +
    rsum rows (fun j => (comb A cols (fun c => vz (y c)) j - vz (b j)) * (comb A cols (fun c => vz (y c)) j - vz (b j)))).
  { intros y. rewrite <- !rsum_plus. apply rsum_ext. intros j _. unfold vnorm2, vdot, comb. cbn [vx vy vz vsub]. rewrite vsum_x, vsum_y, vsum_z. reflexivity. }
  rewrite !E. unfold projectSolver. cbn [vx vy vz].
  pose proof (project_least rows A cols (fun j => vx (b j)) (fun c => vx (x c))) as H1.
  pose proof (project_least rows A cols (fun j => vy (b j)) (fun c => vy (x c))) as H2.
  pose proof (project_least rows A cols (fun j => vz (b j)) (fun c => vz (x c))) as H3.
  apply Rplus_le_compat; [apply Rplus_le_compat; [exact H1|exact H2]|exact H3].
Qed.
