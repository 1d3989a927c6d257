(** Square linear systems over the reals with trivial kernel have exactly one
    solution. *)
From Verif Require Import Base.
From Coq Require Import Permutation.
Open Scope R_scope.

Definition skip (p j : nat) : nat := if (j <? p)%nat then j else S j.

Lemma skip_spec : forall p j, ((j < p)%nat -> skip p j = j) /\ ((p <= j)%nat -> skip p j = S j).
Proof. intros p j. unfold skip. destruct (Nat.ltb_spec j p); split; intros; lia. Qed.

Lemma rsum_skip : forall n p f, (p <= n)%nat -> rsum (S n) f = f p + rsum n (fun j => f (skip p j)).
Proof.
  induction n as [|n IH]; intros p f Hp.
  - replace p with 0%nat by lia. cbn [rsum]. ring.
  - destruct (Nat.eq_dec p (S n)) as [->|N].
    + rewrite rsum_S, Rplus_comm. f_equal. apply rsum_ext. intros j Hj. unfold skip. destruct (Nat.ltb_spec j (S n)); [reflexivity|lia].
    + rewrite rsum_S, (IH p f) by lia. rewrite (rsum_S n (fun j => f (skip p j))). destruct (skip_spec p n) as [_ ->]; [ring|lia].
Qed.

Lemma row_zero_dec : forall n (a : nat -> R), (forall j, (j < n)%nat -> a j = 0) \/ exists p, (p < n)%nat /\ a p <> 0.
Proof.
  induction n as [|n IH]; intros a; [left; intros; lia|]. destruct (IH a) as [Z|(p & Hp & N)]; [|right; exists p; split; [lia|exact N]].
  destruct (Req_EM_T (a n) 0) as [E|E]; [left; intros j Hj; destruct (Nat.eq_dec j n) as [->|]; [exact E|apply Z; lia]|right; exists n; split; [lia|exact E]].
Qed.

(** More unknowns than equations: a nonzero solution. *)
Lemma kernel : forall m n (A : nat -> nat -> R), (m < n)%nat ->
  exists x, (exists j, (j < n)%nat /\ x j <> 0) /\ forall i, (i < m)%nat -> rsum n (fun j => A i j * x j) = 0.
Proof.
  induction m as [|m IH]; intros n A Hn.
  - exists (fun _ => 1). split; [exists 0%nat; split; [lia|lra]|intros; lia].
  - destruct (row_zero_dec n (A m)) as [Z|(p & Hp & N)].
    + destruct (IH n A ltac:(lia)) as (x & Nx & Kx). exists x. split; [exact Nx|]. intros i Hi. destruct (Nat.eq_dec i m) as [->|]; [|apply Kx; lia].
      apply rsum_zero. intros j Hj. rewrite Z by exact Hj. ring.
    + destruct n as [|n]; [lia|]. destruct (IH n (fun i j => A i (skip p j) - A i p / A m p * A m (skip p j)) ltac:(lia)) as (x' & (j0 & Hj0 & N0) & Kx).
      set (unskip := fun j => if (j <? p)%nat then j else (j - 1)%nat).
      set (x := fun j => if (j =? p)%nat then - rsum n (fun j => A m (skip p j) * x' j) / A m p else x' (unskip j)).
      assert (Xp : x p = - rsum n (fun j => A m (skip p j) * x' j) / A m p) by (unfold x; rewrite Nat.eqb_refl; reflexivity).
      assert (Xs : forall j, x (skip p j) = x' j).
      { intros j. unfold x, unskip, skip. destruct (Nat.ltb_spec j p).
        - destruct (Nat.eqb_spec j p); [lia|]. destruct (Nat.ltb_spec j p); [reflexivity|lia].
        - destruct (Nat.eqb_spec (S j) p); [lia|]. destruct (Nat.ltb_spec (S j) p); [lia|]. f_equal. lia. }
      exists x. split.
      * exists (skip p j0). split; [unfold skip; destruct (j0 <? p)%nat; lia|rewrite Xs; exact N0].
      * assert (Sm : forall i, rsum (S n) (fun j => A i j * x j) = A i p * x p + rsum n (fun j => A i (skip p j) * x' j)).
        { intros i. rewrite (rsum_skip n p) by lia. f_equal. apply rsum_ext. intros j Hj. rewrite Xs. reflexivity. }
        intros i Hi. rewrite Sm, Xp. destruct (Nat.eq_dec i m) as [->|Ni]; [field; exact N|].
        specialize (Kx i ltac:(lia)). cbv beta in Kx.
        rewrite (rsum_ext n _ (fun j => A i (skip p j) * x' j - A i p / A m p * (A m (skip p j) * x' j))) in Kx by (intros; ring).
        rewrite rsum_minus, rsum_scal in Kx. rewrite <- Kx. field. exact N.
Qed.

(** A square system with trivial kernel can be solved. *)
Lemma solvable : forall N (A : nat -> nat -> R),
  (forall x, (forall i, (i < N)%nat -> rsum N (fun j => A i j * x j) = 0) -> forall j, (j < N)%nat -> x j = 0) ->
  forall b, exists x, forall i, (i < N)%nat -> rsum N (fun j => A i j * x j) = b i.
Proof.
  intros N A I b. destruct (kernel N (S N) (fun i j => if (j <? N)%nat then A i j else - b i) ltac:(lia)) as (x & (j0 & Hj0 & N0) & K).
  assert (K' : forall i, (i < N)%nat -> rsum N (fun j => A i j * x j) = b i * x N).
  { intros i Hi. specialize (K i Hi). rewrite rsum_S in K. cbv beta in K. rewrite Nat.ltb_irrefl in K.
    rewrite (rsum_ext N _ (fun j => A i j * x j)) in K by (intros j Hj; destruct (Nat.ltb_spec j N); [reflexivity|lia]). lra. }
  destruct (Req_EM_T (x N) 0) as [Z|Z].
  - exfalso. apply N0. destruct (Nat.eq_dec j0 N) as [->|]; [exact Z|]. apply I; [|lia]. intros i Hi. rewrite K' by exact Hi. rewrite Z. ring.
  - exists (fun j => x j / x N). intros i Hi. rewrite (rsum_ext N _ (fun j => A i j * x j * / x N)) by (intros; unfold Rdiv; ring).
    rewrite rsum_scal_r, K' by exact Hi. field. exact Z.
Qed.

(** Sums over lists. *)
Fixpoint lsum {T : Type} (f : T -> R) (l : list T) : R := match l with [] => 0 | a :: l => f a + lsum f l end.

Section Lsum.
Context {T : Type}.
Implicit Types (f g : T -> R) (l : list T).
Lemma lsum_app : forall f l l', lsum f (l ++ l') = lsum f l + lsum f l'.
Proof. intros f l l'. induction l as [|a l IH]; cbn [lsum app]; [ring|rewrite IH; ring]. Qed.
Lemma lsum_ext : forall f g l, (forall a, In a l -> f a = g a) -> lsum f l = lsum g l.
Proof. intros f g l H. induction l as [|a l IH]; cbn [lsum]; [reflexivity|]. rewrite H by (left; reflexivity). rewrite IH; [reflexivity|]. intros b Hb. apply H. right. exact Hb. Qed.
Lemma lsum_plus : forall f g l, lsum (fun a => f a + g a) l = lsum f l + lsum g l.
Proof. intros f g l. induction l as [|a l IH]; cbn [lsum]; [ring|rewrite IH; ring]. Qed.
Lemma lsum_minus : forall f g l, lsum (fun a => f a - g a) l = lsum f l - lsum g l.
Proof. intros f g l. induction l as [|a l IH]; cbn [lsum]; [ring|rewrite IH; ring]. Qed.
Lemma lsum_scal : forall c f l, lsum (fun a => c * f a) l = c * lsum f l.
Proof. intros c f l. induction l as [|a l IH]; cbn [lsum]; [ring|rewrite IH; ring]. Qed.
Lemma lsum_zero : forall f l, (forall a, In a l -> f a = 0) -> lsum f l = 0.
Proof. intros f l H. induction l as [|a l IH]; cbn [lsum]; [reflexivity|]. rewrite H by (left; reflexivity). rewrite IH; [ring|]. intros b Hb. apply H. right. exact Hb. Qed.
Lemma lsum_le : forall f g l, (forall a, In a l -> f a <= g a) -> lsum f l <= lsum g l.
Proof. intros f g l H. induction l as [|a l IH]; cbn [lsum]; [lra|]. pose proof (H a (or_introl eq_refl)). assert (lsum f l <= lsum g l) by (apply IH; intros b Hb; apply H; right; exact Hb). lra. Qed.
Lemma lsum_nonneg : forall f l, (forall a, In a l -> 0 <= f a) -> 0 <= lsum f l.
Proof. intros f l H. induction l as [|a l IH]; cbn [lsum]; [lra|]. pose proof (H a (or_introl eq_refl)). assert (0 <= lsum f l) by (apply IH; intros b Hb; apply H; right; exact Hb). lra. Qed.
Lemma lsum_null : forall f l, (forall a, In a l -> 0 <= f a) -> lsum f l <= 0 -> forall a, In a l -> f a = 0.
Proof.
  intros f l H. induction l as [|b l IH]; cbn [lsum]; intros Z a; [intros []|]. pose proof (H b (or_introl eq_refl)).
  assert (P : 0 <= lsum f l) by (apply lsum_nonneg; intros c Hc; apply H; right; exact Hc). intros [<-|Ha]; [lra|].
  apply IH; [intros c Hc; apply H; right; exact Hc|lra|exact Ha].
Qed.
Lemma lsum_pos : forall f l, l <> [] -> (forall a, In a l -> 0 < f a) -> 0 < lsum f l.
Proof.
  intros f l N H. destruct l as [|a l]; [contradiction|]. cbn [lsum]. pose proof (H a (or_introl eq_refl)).
  assert (0 <= lsum f l) by (apply lsum_nonneg; intros b Hb; apply Rlt_le, H; right; exact Hb). lra.
Qed.
Lemma rsum_lsum : forall n (f : nat -> T -> R) l, rsum n (fun i => lsum (f i) l) = lsum (fun a => rsum n (fun i => f i a)) l.
Proof. intros n f l. induction l as [|a l IH]; cbn [lsum]; [apply rsum_zero; reflexivity|]. rewrite rsum_plus, IH. reflexivity. Qed.
Lemma lsum_perm : forall f l l', Permutation l l' -> lsum f l = lsum f l'.
Proof. intros f l l' P. induction P; cbn [lsum]; lra. Qed.
End Lsum.
Lemma lsum_map : forall (T U : Type) (h : T -> U) (f : U -> R) l, lsum f (map h l) = lsum (fun a => f (h a)) l.
Proof. intros T U h f l. induction l as [|a l IH]; cbn [lsum map]; [reflexivity|rewrite IH; reflexivity]. Qed.
Lemma lsum_flat : forall (T U : Type) (h : T -> list U) (f : U -> R) l, lsum f (flat_map h l) = lsum (fun a => lsum f (h a)) l.
Proof. intros T U h f l. induction l as [|a l IH]; cbn [lsum flat_map]; [reflexivity|rewrite lsum_app, IH; reflexivity]. Qed.
