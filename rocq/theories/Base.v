(** Common vocabulary of the model: partial computations, sums, cyclic
    indices, and 2D / 3D real vectors.  Nothing in this file is specific to a
    function of the modelled code, except for the index arithmetic [nxt],
    [prv] and the arithmetic of libgeom vectors. *)

From Coq Require Export List Arith Lia Reals Lra Psatz Bool.
Export ListNotations.

(** ** Partial computations

    [None] stands for an operation that leaves the defined world: a vector
    access out of range, a null pointer, or a division by zero. *)

Definition bind {A B : Type} (x : option A) (f : A -> option B) : option B :=
  match x with Some a => f a | None => None end.

Notation "x <- e ;; f" := (bind e (fun x => f))
  (at level 61, e at next level, right associativity).
Notation "' p <- e ;; f" := (bind e (fun x => match x with p => f end))
  (at level 61, p pattern, e at next level, right associativity).

Fixpoint mapM {A B : Type} (f : A -> option B) (l : list A) : option (list B) :=
  match l with
  | [] => Some []
  | a :: l' => b <- f a ;; bs <- mapM f l' ;; Some (b :: bs)
  end.

Lemma mapM_total : forall {A B : Type} (f : A -> option B) (g : A -> B) l,
  (forall a, In a l -> f a = Some (g a)) -> mapM f l = Some (map g l).
Proof.
  intros A B f g l H; induction l as [|a l IH]; simpl; [reflexivity|].
  rewrite (H a) by (left; reflexivity); simpl.
  rewrite IH; [reflexivity|]. intros b Hb; apply H; right; exact Hb.
Qed.

Lemma mapM_ext : forall {A B : Type} (f g : A -> option B) l,
  (forall a, In a l -> f a = g a) -> mapM f l = mapM g l.
Proof.
  intros A B f g l H; induction l as [|a l IH]; simpl; [reflexivity|].
  rewrite (H a) by (left; reflexivity).
  rewrite IH; [reflexivity|]. intros b Hb; apply H; right; exact Hb.
Qed.

Lemma mapM_length : forall {A B : Type} (f : A -> option B) l r,
  mapM f l = Some r -> length r = length l.
Proof.
  intros A B f l; induction l as [|a l IH]; simpl; intros r H.
  - injection H as <-; reflexivity.
  - destruct (f a) as [b|]; simpl in H; [|discriminate].
    destruct (mapM f l) as [bs|]; simpl in H; [|discriminate].
    injection H as <-; simpl; f_equal; apply IH; reflexivity.
Qed.

Lemma mapM_nth : forall {A B : Type} (f : A -> option B) l r i a,
  mapM f l = Some r -> nth_error l i = Some a -> nth_error r i = f a.
Proof.
  intros A B f l; induction l as [|x l IH]; simpl; intros r i a H Hn.
  - destruct i; discriminate.
  - destruct (f x) as [b|] eqn:E; simpl in H; [|discriminate].
    destruct (mapM f l) as [bs|]; simpl in H; [|discriminate].
    injection H as <-. destruct i as [|i]; simpl in *.
    + injection Hn as <-; symmetry; exact E.
    + apply IH; [reflexivity|exact Hn].
Qed.

(** The list [f 0; ...; f (n-1)]: the result of a loop of [push_back]s. *)
Definition tabulate {A : Type} (n : nat) (f : nat -> A) : list A := map f (seq 0 n).

Lemma tabulate_length : forall A n (f : nat -> A), length (tabulate n f) = n.
Proof. intros; unfold tabulate; rewrite map_length, seq_length; reflexivity. Qed.

Lemma tabulate_nth_error : forall A n (f : nat -> A) i,
  (i < n)%nat -> nth_error (tabulate n f) i = Some (f i).
Proof.
  intros A n f i H; unfold tabulate.
  rewrite nth_error_map.
  rewrite (nth_error_nth' _ 0%nat) by (rewrite seq_length; exact H).
  rewrite seq_nth by exact H; reflexivity.
Qed.

Lemma tabulate_ext : forall A n (f g : nat -> A),
  (forall i, (i < n)%nat -> f i = g i) -> tabulate n f = tabulate n g.
Proof.
  intros A n f g H; unfold tabulate; apply map_ext_in.
  intros i Hi; apply in_seq in Hi; apply H; lia.
Qed.

Lemma mapM_seq : forall B n (f : nat -> option B) (g : nat -> B),
  (forall i, (i < n)%nat -> f i = Some (g i)) -> mapM f (seq 0 n) = Some (tabulate n g).
Proof.
  intros B n f g H; apply mapM_total; intros i Hi; apply in_seq in Hi; apply H; lia.
Qed.

Lemma list_as_tabulate : forall A (l : list A) (d : A),
  l = tabulate (length l) (fun i => nth i l d).
Proof.
  intros A l d; induction l as [|x l IH]; [reflexivity|].
  unfold tabulate in *; simpl. f_equal.
  rewrite <- seq_shift, map_map. exact IH.
Qed.

Lemma nth_error_ex : forall A (l : list A) i, (i < length l)%nat ->
  exists a, nth_error l i = Some a.
Proof.
  intros A l i H. destruct (nth_error l i) as [a|] eqn:E; [exists a; reflexivity|].
  apply nth_error_None in E; lia.
Qed.

(** Overwrite position [i] of a vector (operator[] used as an lvalue). *)
Fixpoint upd {A : Type} (l : list A) (i : nat) (a : A) : option (list A) :=
  match l, i with
  | [], _ => None
  | _ :: l', O => Some (a :: l')
  | x :: l', S i' => r <- upd l' i' a ;; Some (x :: r)
  end.

Lemma upd_spec : forall A (l : list A) i a, (i < length l)%nat ->
  exists l', upd l i a = Some l' /\ length l' = length l /\
    forall j, nth_error l' j = if Nat.eqb j i then Some a else nth_error l j.
Proof.
  intros A l; induction l as [|x l IH]; intros i a H; simpl in H; [lia|].
  destruct i as [|i]; simpl.
  - exists (a :: l); split; [reflexivity|]; split; [reflexivity|].
    intros [|j]; reflexivity.
  - destruct (IH i a) as (l' & E & Hl & Hj); [lia|].
    rewrite E; simpl. exists (x :: l'); split; [reflexivity|]; split; [simpl; lia|].
    intros [|j]; simpl; [reflexivity|apply Hj].
Qed.

Lemma upd_none : forall A (l : list A) i a, (length l <= i)%nat -> upd l i a = None.
Proof.
  intros A l; induction l as [|x l IH]; intros i a H; simpl in *; [reflexivity|].
  destruct i as [|i]; [lia|]. rewrite IH by lia; reflexivity.
Qed.

(** ** Cyclic indices: Surface / Domain / Parameterization [next], [prev]
    src/transfinite/surface.hh, domain.hh, parameterization.hh:
    [next(i,j) = (i+j) % n_], [prev(i,j) = (i+n_-j) % n_]. *)

Definition nxt (n i : nat) : nat := ((i + 1) mod n)%nat.
Definition prv (n i : nat) : nat := ((i + n - 1) mod n)%nat.

Lemma nxt_lt : forall n i, (0 < n)%nat -> (nxt n i < n)%nat.
Proof. intros; apply Nat.mod_upper_bound; lia. Qed.
Lemma prv_lt : forall n i, (0 < n)%nat -> (prv n i < n)%nat.
Proof. intros; apply Nat.mod_upper_bound; lia. Qed.

Lemma nxt_cases : forall n i, (i < n)%nat ->
  nxt n i = if (S i =? n)%nat then 0%nat else S i.
Proof.
  intros n i H; unfold nxt. destruct (Nat.eqb_spec (S i) n) as [E|E].
  - replace (i + 1)%nat with n by lia. apply Nat.mod_same; lia.
  - rewrite Nat.mod_small by lia; lia.
Qed.

Lemma prv_cases : forall n i, (i < n)%nat ->
  prv n i = if (i =? 0)%nat then (n - 1)%nat else (i - 1)%nat.
Proof.
  intros n i H; unfold prv. destruct (Nat.eqb_spec i 0) as [E|E].
  - subst; rewrite Nat.mod_small by lia; lia.
  - replace (i + n - 1)%nat with ((i - 1) + 1 * n)%nat by lia.
    rewrite Nat.mod_add by lia. apply Nat.mod_small; lia.
Qed.

Lemma nxt_prv : forall n i, (i < n)%nat -> nxt n (prv n i) = i.
Proof.
  intros n i H. rewrite (prv_cases n i H).
  rewrite nxt_cases by (destruct (i =? 0)%nat; lia).
  destruct (Nat.eqb_spec i 0); destruct (Nat.eqb_spec (S (n-1)) n);
    destruct (Nat.eqb_spec (S (i-1)) n); lia.
Qed.

Lemma prv_nxt : forall n i, (i < n)%nat -> prv n (nxt n i) = i.
Proof.
  intros n i H. rewrite (nxt_cases n i H).
  rewrite prv_cases by (destruct (Nat.eqb_spec (S i) n); lia).
  destruct (Nat.eqb_spec (S i) n); simpl; lia.
Qed.

Lemma nxt_neq : forall n i, (2 <= n)%nat -> (i < n)%nat -> nxt n i <> i.
Proof. intros n i Hn H; rewrite nxt_cases by exact H; destruct (Nat.eqb_spec (S i) n); lia. Qed.
Lemma prv_neq : forall n i, (2 <= n)%nat -> (i < n)%nat -> prv n i <> i.
Proof. intros n i Hn H; rewrite prv_cases by exact H; destruct (Nat.eqb_spec i 0); lia. Qed.
Lemma nxt_prv_neq : forall n i, (3 <= n)%nat -> (i < n)%nat -> nxt n i <> prv n i.
Proof.
  intros n i Hn H; rewrite nxt_cases, prv_cases by exact H.
  destruct (Nat.eqb_spec (S i) n); destruct (Nat.eqb_spec i 0); lia.
Qed.
Lemma nxt_inj : forall n i j, (i < n)%nat -> (j < n)%nat -> nxt n i = nxt n j -> i = j.
Proof. intros n i j Hi Hj H. rewrite <- (prv_nxt n i Hi), H. apply prv_nxt; exact Hj. Qed.
Lemma prv_inj : forall n i j, (i < n)%nat -> (j < n)%nat -> prv n i = prv n j -> i = j.
Proof. intros n i j Hi Hj H. rewrite <- (nxt_prv n i Hi), H. apply nxt_prv; exact Hj. Qed.

Open Scope R_scope.

(** ** Division with an explicit error outcome *)

Definition fdiv (a b : R) : option R := if Req_EM_T b 0 then None else Some (a / b).

Lemma fdiv_some : forall a b, b <> 0 -> fdiv a b = Some (a / b).
Proof. intros a b H; unfold fdiv; destruct (Req_EM_T b 0); [contradiction|reflexivity]. Qed.
Lemma fdiv_zero : forall a, fdiv a 0 = None.
Proof. intros a; unfold fdiv; destruct (Req_EM_T 0 0); [reflexivity|contradiction]. Qed.

(** std::clamp *)
Definition clamp (x lo hi : R) : R :=
  if Rlt_dec x lo then lo else if Rlt_dec hi x then hi else x.

Lemma clamp_id : forall x lo hi, lo <= x <= hi -> clamp x lo hi = x.
Proof.
  intros x lo hi H; unfold clamp.
  destruct (Rlt_dec x lo); [lra|]; destruct (Rlt_dec hi x); lra.
Qed.
Lemma clamp_range : forall x lo hi, lo <= hi -> lo <= clamp x lo hi <= hi.
Proof.
  intros x lo hi H; unfold clamp.
  destruct (Rlt_dec x lo); [lra|]; destruct (Rlt_dec hi x); lra.
Qed.

(** ** Finite sums, added in loop order *)

Fixpoint rsum (n : nat) (f : nat -> R) : R :=
  match n with O => 0 | S m => rsum m f + f m end.

Lemma rsum_ext : forall n f g, (forall i, (i < n)%nat -> f i = g i) -> rsum n f = rsum n g.
Proof.
  intros n f g H; induction n as [|n IH]; simpl; [reflexivity|].
  rewrite IH by (intros; apply H; lia). rewrite H by lia; reflexivity.
Qed.
Lemma rsum_plus : forall n f g, rsum n (fun i => f i + g i) = rsum n f + rsum n g.
Proof. intros n f g; induction n as [|n IH]; simpl; [ring|rewrite IH; ring]. Qed.
Lemma rsum_minus : forall n f g, rsum n (fun i => f i - g i) = rsum n f - rsum n g.
Proof. intros n f g; induction n as [|n IH]; simpl; [ring|rewrite IH; ring]. Qed.
Lemma rsum_scal : forall n c f, rsum n (fun i => c * f i) = c * rsum n f.
Proof. intros n c f; induction n as [|n IH]; simpl; [ring|rewrite IH; ring]. Qed.
Lemma rsum_scal_r : forall n c f, rsum n (fun i => f i * c) = rsum n f * c.
Proof. intros n c f; induction n as [|n IH]; simpl; [ring|rewrite IH; ring]. Qed.
Lemma rsum_div : forall n c f, rsum n (fun i => f i / c) = rsum n f / c.
Proof. intros; unfold Rdiv; apply rsum_scal_r. Qed.
Lemma rsum_const : forall n c, rsum n (fun _ => c) = INR n * c.
Proof. intros n c; induction n as [|n IH]; [simpl; ring|]. rewrite S_INR; simpl rsum; rewrite IH; ring. Qed.
Lemma rsum_zero : forall n f, (forall i, (i < n)%nat -> f i = 0) -> rsum n f = 0.
Proof.
  intros n f H; induction n as [|n IH]; simpl; [reflexivity|].
  rewrite IH by (intros; apply H; lia). rewrite H by lia; ring.
Qed.
Lemma rsum_nonneg : forall n f, (forall i, (i < n)%nat -> 0 <= f i) -> 0 <= rsum n f.
Proof.
  intros n f H; induction n as [|n IH]; simpl; [lra|].
  assert (0 <= rsum n f) by (apply IH; intros; apply H; lia).
  assert (0 <= f n) by (apply H; lia). lra.
Qed.
Lemma rsum_le : forall n f g, (forall i, (i < n)%nat -> f i <= g i) -> rsum n f <= rsum n g.
Proof.
  intros n f g H; induction n as [|n IH]; simpl; [lra|].
  assert (rsum n f <= rsum n g) by (apply IH; intros; apply H; lia).
  assert (f n <= g n) by (apply H; lia). lra.
Qed.
Lemma rsum_pos : forall n f, (0 < n)%nat -> (forall i, (i < n)%nat -> 0 < f i) -> 0 < rsum n f.
Proof.
  intros n f Hn H; destruct n as [|n]; [lia|]. simpl.
  assert (0 <= rsum n f) by (apply rsum_nonneg; intros; apply Rlt_le, H; lia).
  assert (0 < f n) by (apply H; lia). lra.
Qed.
Lemma rsum_S : forall n f, rsum (S n) f = rsum n f + f n.
Proof. reflexivity. Qed.
Lemma rsum_first : forall n f, rsum (S n) f = f 0%nat + rsum n (fun i => f (S i)).
Proof. intros n f; induction n as [|n IH]; [simpl; ring|]. rewrite rsum_S, IH, rsum_S; ring. Qed.
Lemma rsum_app : forall m n f, rsum (m + n) f = rsum m f + rsum n (fun i => f (m + i)%nat).
Proof.
  intros m n f; induction n as [|n IH]; [rewrite Nat.add_0_r; simpl; ring|].
  rewrite Nat.add_succ_r; simpl; rewrite IH; ring.
Qed.

(** A sum with one nonzero term, resp. two nonzero terms. *)
Lemma rsum_single : forall n f i, (i < n)%nat ->
  (forall j, (j < n)%nat -> j <> i -> f j = 0) -> rsum n f = f i.
Proof.
  intros n f i Hi H; induction n as [|n IH]; [lia|]. simpl.
  destruct (Nat.eq_dec i n) as [->|E].
  - rewrite rsum_zero by (intros j Hj; apply H; lia). ring.
  - rewrite IH by (try lia; intros; apply H; lia). rewrite (H n) by lia; ring.
Qed.
Lemma rsum_split1 : forall n f i, (i < n)%nat ->
  rsum n f = f i + rsum n (fun j => if Nat.eqb j i then 0 else f j).
Proof.
  intros n f i Hi; induction n as [|n IH]; [lia|]. simpl.
  destruct (Nat.eq_dec i n) as [->|E].
  - rewrite Nat.eqb_refl.
    rewrite (rsum_ext n (fun j => if (j =? n)%nat then 0 else f j) f).
    + ring.
    + intros j Hj; destruct (Nat.eqb_spec j n); [lia|reflexivity].
  - rewrite IH by lia. destruct (Nat.eqb_spec n i); [lia|]. ring.
Qed.
Lemma rsum_double : forall n f i j, (i < n)%nat -> (j < n)%nat -> i <> j ->
  (forall k, (k < n)%nat -> k <> i -> k <> j -> f k = 0) -> rsum n f = f i + f j.
Proof.
  intros n f i j Hi Hj Hij H. rewrite (rsum_split1 n f i Hi).
  rewrite (rsum_single n _ j Hj).
  - destruct (Nat.eqb_spec j i); [congruence|reflexivity].
  - intros k Hk Hkj; destruct (Nat.eqb_spec k i); [reflexivity|apply H; assumption].
Qed.
Lemma rsum_triple : forall n f i j k, (i < n)%nat -> (j < n)%nat -> (k < n)%nat ->
  i <> j -> i <> k -> j <> k ->
  (forall l, (l < n)%nat -> l <> i -> l <> j -> l <> k -> f l = 0) -> rsum n f = f i + f j + f k.
Proof.
  intros n f i j k Hi Hj Hk Hij Hik Hjk H. rewrite (rsum_split1 n f i Hi).
  rewrite (rsum_double n _ j k Hj Hk Hjk).
  - destruct (Nat.eqb_spec j i); [congruence|]. destruct (Nat.eqb_spec k i); [congruence|]. ring.
  - intros l Hl H1 H2; destruct (Nat.eqb_spec l i); [reflexivity|apply H; assumption].
Qed.

Lemma rsum_swap : forall m n f,
  rsum m (fun i => rsum n (fun j => f i j)) = rsum n (fun j => rsum m (fun i => f i j)).
Proof.
  intros m n f; induction m as [|m IH]; simpl.
  - symmetry; apply rsum_zero; reflexivity.
  - rewrite IH, <- rsum_plus; reflexivity.
Qed.

Lemma rsum_rev : forall n f, rsum n f = rsum n (fun i => f (n - 1 - i)%nat).
Proof.
  intros n; induction n as [|n IH]; intros f; [reflexivity|].
  rewrite rsum_first. rewrite (IH (fun i => f (S i))). simpl rsum.
  rewrite Rplus_comm. f_equal.
  - apply rsum_ext; intros i Hi; f_equal; lia.
  - f_equal; lia.
Qed.

(** Rotating a cyclic sum. *)
Lemma rsum_nxt : forall n f, rsum n (fun i => f (nxt n i)) = rsum n f.
Proof.
  intros n f; destruct n as [|n]; [reflexivity|].
  rewrite rsum_S, rsum_first. rewrite nxt_cases by lia. rewrite Nat.eqb_refl.
  rewrite Rplus_comm; f_equal. apply rsum_ext; intros i Hi.
  rewrite nxt_cases by lia. destruct (Nat.eqb_spec (S i) (S n)); [lia|reflexivity].
Qed.
Lemma rsum_prv : forall n f, rsum n (fun i => f (prv n i)) = rsum n f.
Proof.
  intros n f. rewrite <- (rsum_nxt n (fun i => f (prv n i))).
  apply rsum_ext; intros i Hi; rewrite prv_nxt by exact Hi; reflexivity.
Qed.

(** Finite products. *)
Fixpoint rprod (n : nat) (f : nat -> R) : R :=
  match n with O => 1 | S m => rprod m f * f m end.

Lemma rprod_ext : forall n f g, (forall i, (i < n)%nat -> f i = g i) -> rprod n f = rprod n g.
Proof.
  intros n f g H; induction n as [|n IH]; simpl; [reflexivity|].
  rewrite IH by (intros; apply H; lia). rewrite H by lia; reflexivity.
Qed.
Lemma rprod_zero : forall n f i, (i < n)%nat -> f i = 0 -> rprod n f = 0.
Proof.
  intros n f i Hi H; induction n as [|n IH]; [lia|]. simpl.
  destruct (Nat.eq_dec i n) as [->|E]; [rewrite H; ring|rewrite IH by lia; ring].
Qed.
Lemma rprod_pos : forall n f, (forall i, (i < n)%nat -> 0 < f i) -> 0 < rprod n f.
Proof.
  intros n f H; induction n as [|n IH]; simpl; [lra|].
  apply Rmult_lt_0_compat; [apply IH; intros; apply H; lia|apply H; lia].
Qed.
Lemma rprod_neq0 : forall n f, (forall i, (i < n)%nat -> f i <> 0) -> rprod n f <> 0.
Proof.
  intros n f H; induction n as [|n IH]; simpl; [lra|].
  apply Rmult_integral_contrapositive; split; [apply IH; intros; apply H; lia|apply H; lia].
Qed.
Lemma rprod_const1 : forall n, rprod n (fun _ => 1) = 1.
Proof. intros n; induction n as [|n IH]; simpl; [reflexivity|rewrite IH; ring]. Qed.
Lemma rprod_mult : forall n f g, rprod n (fun i => f i * g i) = rprod n f * rprod n g.
Proof. intros n f g; induction n as [|n IH]; simpl; [ring|rewrite IH; ring]. Qed.
Lemma rprod_split1 : forall n f i, (i < n)%nat ->
  rprod n f = f i * rprod n (fun j => if Nat.eqb j i then 1 else f j).
Proof.
  intros n f i Hi; induction n as [|n IH]; [lia|]. simpl.
  destruct (Nat.eq_dec i n) as [->|E].
  - rewrite Nat.eqb_refl.
    rewrite (rprod_ext n (fun j => if (j =? n)%nat then 1 else f j) f).
    + ring.
    + intros j Hj; destruct (Nat.eqb_spec j n); [lia|reflexivity].
  - rewrite IH by lia. destruct (Nat.eqb_spec n i); [lia|]. ring.
Qed.

(** ** Vectors (libgeom Vector2D / Vector3D arithmetic) *)

Record V2 := mkV2 { px : R; py : R }.
Record V3 := mkV3 { vx : R; vy : R; vz : R }.

Definition padd (a b : V2) : V2 := mkV2 (px a + px b) (py a + py b).
Definition psub (a b : V2) : V2 := mkV2 (px a - px b) (py a - py b).
Definition pscale (a : V2) (s : R) : V2 := mkV2 (px a * s) (py a * s).
Definition popp (a : V2) : V2 := mkV2 (- px a) (- py a).
Definition pdot (a b : V2) : R := px a * px b + py a * py b.
Definition pcross (a b : V2) : R := px a * py b - py a * px b.
Definition pnorm2 (a : V2) : R := pdot a a.
Definition pnorm (a : V2) : R := sqrt (pdot a a).
Definition pzero : V2 := mkV2 0 0.

Definition vadd (a b : V3) : V3 := mkV3 (vx a + vx b) (vy a + vy b) (vz a + vz b).
Definition vsub (a b : V3) : V3 := mkV3 (vx a - vx b) (vy a - vy b) (vz a - vz b).
Definition vscale (a : V3) (s : R) : V3 := mkV3 (vx a * s) (vy a * s) (vz a * s).
Definition vopp (a : V3) : V3 := mkV3 (- vx a) (- vy a) (- vz a).
Definition vdot (a b : V3) : R := vx a * vx b + vy a * vy b + vz a * vz b.
Definition vcross (a b : V3) : V3 :=
  mkV3 (vy a * vz b - vz a * vy b) (vz a * vx b - vx a * vz b) (vx a * vy b - vy a * vx b).
Definition vnorm2 (a : V3) : R := vdot a a.
Definition vnorm (a : V3) : R := sqrt (vdot a a).
Definition vzero : V3 := mkV3 0 0 0.

Declare Scope vec_scope.
Delimit Scope vec_scope with V.
Infix "+v" := vadd (at level 50, left associativity) : vec_scope.
Infix "-v" := vsub (at level 50, left associativity) : vec_scope.
Infix "*v" := vscale (at level 40, left associativity) : vec_scope.
Infix "+p" := padd (at level 50, left associativity) : vec_scope.
Infix "-p" := psub (at level 50, left associativity) : vec_scope.
Infix "*p" := pscale (at level 40, left associativity) : vec_scope.
Open Scope vec_scope.

Lemma V2_ext : forall a b : V2, px a = px b -> py a = py b -> a = b.
Proof. intros [] []; simpl; intros -> ->; reflexivity. Qed.
Lemma V3_ext : forall a b : V3, vx a = vx b -> vy a = vy b -> vz a = vz b -> a = b.
Proof. intros [] []; simpl; intros -> -> ->; reflexivity. Qed.

Ltac v2ring := apply V2_ext; simpl; ring.
Ltac v3ring := apply V3_ext; simpl; ring.
Ltac v2field := apply V2_ext; simpl; field.
Ltac v3field := apply V3_ext; simpl; field.

Definition vdiv (a : V3) (s : R) : option V3 :=
  if Req_EM_T s 0 then None else Some (a *v (/ s)).
Definition pdiv (a : V2) (s : R) : option V2 :=
  if Req_EM_T s 0 then None else Some (a *p (/ s)).

Lemma vdiv_some : forall a s, s <> 0 -> vdiv a s = Some (a *v (/ s)).
Proof. intros a s H; unfold vdiv; destruct (Req_EM_T s 0); [contradiction|reflexivity]. Qed.
Lemma pdiv_some : forall a s, s <> 0 -> pdiv a s = Some (a *p (/ s)).
Proof. intros a s H; unfold pdiv; destruct (Req_EM_T s 0); [contradiction|reflexivity]. Qed.

(** normalize(): division by the norm *)
Definition vnormalize (a : V3) : option V3 := vdiv a (vnorm a).
Definition pnormalize (a : V2) : option V2 := pdiv a (pnorm a).

Lemma vnorm2_pos : forall a, 0 <= vdot a a.
Proof. intros [x y z]; unfold vdot; simpl; nra. Qed.
Lemma pnorm2_pos : forall a, 0 <= pdot a a.
Proof. intros [x y]; unfold pdot; simpl; nra. Qed.
Lemma vdot_zero : forall a, vdot a a = 0 -> a = vzero.
Proof. intros [x y z]; unfold vdot, vzero; simpl; intros H; apply V3_ext; simpl; nra. Qed.
Lemma pdot_zero : forall a, pdot a a = 0 -> a = pzero.
Proof. intros [x y]; unfold pdot, pzero; simpl; intros H; apply V2_ext; simpl; nra. Qed.
Lemma vnorm_sqr : forall a, vnorm a * vnorm a = vdot a a.
Proof. intros a; unfold vnorm; apply sqrt_sqrt, vnorm2_pos. Qed.
Lemma pnorm_sqr : forall a, pnorm a * pnorm a = pdot a a.
Proof. intros a; unfold pnorm; apply sqrt_sqrt, pnorm2_pos. Qed.
Lemma vnorm_zero : forall a, vnorm a = 0 -> a = vzero.
Proof. intros a H; apply vdot_zero; rewrite <- vnorm_sqr, H; ring. Qed.
Lemma pnorm_zero : forall a, pnorm a = 0 -> a = pzero.
Proof. intros a H; apply pdot_zero; rewrite <- pnorm_sqr, H; ring. Qed.
Lemma vnorm_nonneg : forall a, 0 <= vnorm a.
Proof. intros; apply sqrt_pos. Qed.
Lemma pnorm_nonneg : forall a, 0 <= pnorm a.
Proof. intros; apply sqrt_pos. Qed.

Lemma vnormalize_unit : forall a b, vnormalize a = Some b -> vdot b b = 1.
Proof.
  intros a b; unfold vnormalize, vdiv. destruct (Req_EM_T (vnorm a) 0) as [E|E]; [discriminate|].
  intros H; injection H as <-.
  assert (Hs := vnorm_sqr a). unfold vdot, vscale in *; simpl in *.
  replace (vx a * / vnorm a * (vx a * / vnorm a) + vy a * / vnorm a * (vy a * / vnorm a)
    + vz a * / vnorm a * (vz a * / vnorm a))
    with ((vx a * vx a + vy a * vy a + vz a * vz a) * (/ vnorm a * / vnorm a)) by ring.
  rewrite <- Hs. field; exact E.
Qed.

(** Vector sums in loop order. *)
Fixpoint vsum (n : nat) (f : nat -> V3) : V3 :=
  match n with O => vzero | S m => vsum m f +v f m end.
Fixpoint psum (n : nat) (f : nat -> V2) : V2 :=
  match n with O => pzero | S m => psum m f +p f m end.

Lemma vsum_x : forall n f, vx (vsum n f) = rsum n (fun i => vx (f i)).
Proof. intros n f; induction n as [|n IH]; simpl; [reflexivity|rewrite IH; reflexivity]. Qed.
Lemma vsum_y : forall n f, vy (vsum n f) = rsum n (fun i => vy (f i)).
Proof. intros n f; induction n as [|n IH]; simpl; [reflexivity|rewrite IH; reflexivity]. Qed.
Lemma vsum_z : forall n f, vz (vsum n f) = rsum n (fun i => vz (f i)).
Proof. intros n f; induction n as [|n IH]; simpl; [reflexivity|rewrite IH; reflexivity]. Qed.
Lemma psum_x : forall n f, px (psum n f) = rsum n (fun i => px (f i)).
Proof. intros n f; induction n as [|n IH]; simpl; [reflexivity|rewrite IH; reflexivity]. Qed.
Lemma psum_y : forall n f, py (psum n f) = rsum n (fun i => py (f i)).
Proof. intros n f; induction n as [|n IH]; simpl; [reflexivity|rewrite IH; reflexivity]. Qed.

(** Reduce an equation between vector sums to its coordinates. *)
Ltac vcoords := apply V3_ext; rewrite ?vsum_x, ?vsum_y, ?vsum_z; simpl;
  rewrite ?vsum_x, ?vsum_y, ?vsum_z; simpl.

Lemma vsum_ext : forall n f g, (forall i, (i < n)%nat -> f i = g i) -> vsum n f = vsum n g.
Proof.
  intros n f g H; induction n as [|n IH]; simpl; [reflexivity|].
  rewrite IH by (intros; apply H; lia). rewrite H by lia; reflexivity.
Qed.
Lemma psum_ext : forall n f g, (forall i, (i < n)%nat -> f i = g i) -> psum n f = psum n g.
Proof.
  intros n f g H; induction n as [|n IH]; simpl; [reflexivity|].
  rewrite IH by (intros; apply H; lia). rewrite H by lia; reflexivity.
Qed.
Lemma vsum_add : forall n f g, vsum n (fun i => f i +v g i) = vsum n f +v vsum n g.
Proof. intros; vcoords; apply rsum_plus. Qed.
Lemma vsum_sub : forall n f g, vsum n (fun i => f i -v g i) = vsum n f -v vsum n g.
Proof. intros; vcoords; apply rsum_minus. Qed.
Lemma vsum_scale : forall n f c, vsum n (fun i => f i *v c) = vsum n f *v c.
Proof. intros; vcoords; apply rsum_scal_r. Qed.
Lemma vsum_const : forall n v (w : nat -> R), vsum n (fun i => v *v w i) = v *v rsum n w.
Proof. intros; vcoords; apply rsum_scal. Qed.
Lemma vsum_zero : forall n f, (forall i, (i < n)%nat -> f i = vzero) -> vsum n f = vzero.
Proof.
  intros n f H; induction n as [|n IH]; simpl; [reflexivity|].
  rewrite IH by (intros; apply H; lia). rewrite H by lia; v3ring.
Qed.
Lemma vsum_single : forall n f i, (i < n)%nat ->
  (forall j, (j < n)%nat -> j <> i -> f j = vzero) -> vsum n f = f i.
Proof.
  intros n f i Hi H; vcoords;
    [apply (rsum_single n (fun i => vx (f i)))|apply (rsum_single n (fun i => vy (f i)))
    |apply (rsum_single n (fun i => vz (f i)))]; try exact Hi;
    intros j Hj Hne; rewrite (H j Hj Hne); reflexivity.
Qed.
Lemma vsum_double : forall n f i j, (i < n)%nat -> (j < n)%nat -> i <> j ->
  (forall k, (k < n)%nat -> k <> i -> k <> j -> f k = vzero) -> vsum n f = f i +v f j.
Proof.
  intros n f i j Hi Hj Hij H; vcoords;
    [apply (rsum_double n (fun i => vx (f i)))|apply (rsum_double n (fun i => vy (f i)))
    |apply (rsum_double n (fun i => vz (f i)))]; try assumption;
    intros k Hk H1 H2; rewrite (H k Hk H1 H2); reflexivity.
Qed.
Lemma vsum_triple : forall n f i j k, (i < n)%nat -> (j < n)%nat -> (k < n)%nat ->
  i <> j -> i <> k -> j <> k ->
  (forall l, (l < n)%nat -> l <> i -> l <> j -> l <> k -> f l = vzero) ->
  vsum n f = f i +v f j +v f k.
Proof.
  intros n f i j k Hi Hj Hk H1 H2 H3 H; vcoords;
    [apply (rsum_triple n (fun i => vx (f i)))|apply (rsum_triple n (fun i => vy (f i)))
    |apply (rsum_triple n (fun i => vz (f i)))]; try assumption;
    intros l Hl Hli Hlj Hlk; rewrite (H l Hl Hli Hlj Hlk); reflexivity.
Qed.
Lemma vsum_nxt : forall n f, vsum n (fun i => f (nxt n i)) = vsum n f.
Proof.
  intros; vcoords;
    [apply (rsum_nxt n (fun i => vx (f i)))|apply (rsum_nxt n (fun i => vy (f i)))
    |apply (rsum_nxt n (fun i => vz (f i)))].
Qed.
Lemma vsum_prv : forall n f, vsum n (fun i => f (prv n i)) = vsum n f.
Proof.
  intros; vcoords;
    [apply (rsum_prv n (fun i => vx (f i)))|apply (rsum_prv n (fun i => vy (f i)))
    |apply (rsum_prv n (fun i => vz (f i)))].
Qed.
Lemma vsum_first : forall n f, vsum (S n) f = f 0%nat +v vsum n (fun i => f (S i)).
Proof.
  intros; apply V3_ext; rewrite ?vsum_x, ?vsum_y, ?vsum_z; unfold vadd; cbn [vx vy vz];
    rewrite ?vsum_x, ?vsum_y, ?vsum_z;
    [apply (rsum_first n (fun i => vx (f i)))|apply (rsum_first n (fun i => vy (f i)))
    |apply (rsum_first n (fun i => vz (f i)))].
Qed.
Lemma vsum_app : forall m n f, vsum (m + n) f = vsum m f +v vsum n (fun i => f (m + i)%nat).
Proof. 
  intros; vcoords;
    [apply (rsum_app m n (fun i => vx (f i)))|apply (rsum_app m n (fun i => vy (f i)))
    |apply (rsum_app m n (fun i => vz (f i)))].
 Qed.

(** Sums of partial terms: a loop [p += term(i)] in which a term may fail. *)
Fixpoint osum (n : nat) (f : nat -> option V3) : option V3 :=
  match n with O => Some vzero | S m => a <- osum m f ;; b <- f m ;; Some (a +v b) end.
Fixpoint orsum (n : nat) (f : nat -> option R) : option R :=
  match n with O => Some 0 | S m => a <- orsum m f ;; b <- f m ;; Some (a + b) end.

Lemma osum_total : forall n f g, (forall i, (i < n)%nat -> f i = Some (g i)) ->
  osum n f = Some (vsum n g).
Proof.
  intros n f g H; induction n as [|n IH]; simpl; [reflexivity|].
  rewrite IH by (intros; apply H; lia). simpl. rewrite H by lia; reflexivity.
Qed.
Lemma orsum_total : forall n f g, (forall i, (i < n)%nat -> f i = Some (g i)) ->
  orsum n f = Some (rsum n g).
Proof.
  intros n f g H; induction n as [|n IH]; simpl; [reflexivity|].
  rewrite IH by (intros; apply H; lia). simpl. rewrite H by lia; reflexivity.
Qed.

(** affineCombine, src/transfinite/utilities.cc:7-15 *)
Definition affine2 (p : V2) (x : R) (q : V2) : V2 := p *p (1 - x) +p q *p x.
Definition affine3 (p : V3) (x : R) (q : V3) : V3 := p *v (1 - x) +v q *v x.

Lemma V2_eq_dec_zero : forall a : V2, {a = pzero} + {a <> pzero}.
Proof.
  intros [x y]. destruct (Req_EM_T x 0) as [->|E]; [destruct (Req_EM_T y 0) as [->|E]|].
  - left; reflexivity.
  - right; intros X; apply E; exact (f_equal py X).
  - right; intros X; apply E; exact (f_equal px X).
Defined.
