(** Bezier curves and tensor product surfaces are determined by their values at
    enough parameters. *)
From Verif Require Import Base MeshModel UtilModel UtilSpec UtilProofs FourSpec FourElev.
Open Scope R_scope.

(** ** Polynomials as lists of coefficients *)
Fixpoint peval (c : list R) (t : R) : R := match c with [] => 0 | a :: c' => a + t * peval c' t end.
Fixpoint padd (c e : list R) : list R := match c, e with [], _ => e | _, [] => c | a :: c', b :: e' => (a + b) :: padd c' e' end.
Definition pscale (x : R) (c : list R) : list R := map (fun a => x * a) c.
Lemma padd_eval : forall c e t, peval (padd c e) t = peval c t + peval e t.
Proof. induction c as [|a c IH]; intros [|b e] t; cbn [padd peval]; try rewrite IH; ring. Qed.
Lemma padd_length : forall c e, length (padd c e) = Nat.max (length c) (length e).
Proof. induction c as [|a c IH]; intros [|b e]; cbn [padd length]; try rewrite IH; lia. Qed.
Lemma pscale_eval : forall x c t, peval (pscale x c) t = x * peval c t.
Proof. intros x c t; induction c as [|a c IH]; cbn [pscale map peval]; [ring|]. unfold pscale in IH. rewrite IH. ring. Qed.

(** Division by [t - r]. *)
Fixpoint pdiv (r : R) (c : list R) : list R :=
  match c with [] => [] | a :: c' => match c' with [] => [] | _ => peval c' r :: pdiv r c' end end.
Lemma pdiv_length : forall r c, length (pdiv r c) = (length c - 1)%nat.
Proof. intros r; induction c as [|a [|b c] IH]; [reflexivity..|]. cbn [pdiv length] in *. rewrite IH. lia. Qed.
Lemma pdiv_eval : forall r c t, peval c t - peval c r = (t - r) * peval (pdiv r c) t.
Proof.
  intros r; induction c as [|a [|b c] IH]; intros t; [cbn; ring..|].
  change (pdiv r (a :: b :: c)) with (peval (b :: c) r :: pdiv r (b :: c)).
  change (peval (a :: b :: c) t) with (a + t * peval (b :: c) t). change (peval (a :: b :: c) r) with (a + r * peval (b :: c) r).
  change (peval (peval (b :: c) r :: pdiv r (b :: c)) t) with (peval (b :: c) r + t * peval (pdiv r (b :: c)) t).
  specialize (IH t). set (X := peval (b :: c) t) in *. set (Y := peval (b :: c) r) in *. set (Z := peval (pdiv r (b :: c)) t) in *.
  replace X with (Y + (t - r) * Z) by lra. ring.
Qed.
(** More roots than the degree. *)
Lemma peval_zero : forall xs c, NoDup xs -> (length c <= length xs)%nat -> (forall x, In x xs -> peval c x = 0) -> forall t, peval c t = 0.
Proof.
  induction xs as [|r xs IH]; intros c N L Z t.
  - destruct c; [reflexivity|cbn in L; lia].
  - assert (Q : forall s, peval (pdiv r c) s = 0).
    { apply IH; [inversion N; assumption|rewrite pdiv_length; cbn in L; lia|]. intros x Hx. pose proof (pdiv_eval r c x) as E.
      rewrite (Z x), (Z r) in E by (cbn; tauto). assert (x <> r) by (inversion N; intros ->; contradiction).
      destruct (Rmult_integral _ _ (eq_sym (eq_trans (eq_sym (Rminus_diag_eq 0 0 eq_refl)) E))) as [A|A]; [lra|exact A]. }
    pose proof (pdiv_eval r c t) as E. rewrite Q, (Z r) in E by (left; reflexivity). lra.
Qed.

(** ** Functions that are polynomials of at most the given degree *)
Definition pol (d : nat) (f : R -> R) : Prop := exists c, (length c <= d + 1)%nat /\ forall t, f t = peval c t.
Lemma pol_add : forall d f g, pol d f -> pol d g -> pol d (fun t => f t + g t).
Proof. intros d f g (c & L & E) (e & M & F). exists (padd c e). rewrite padd_length. split; [lia|]. intros t. rewrite padd_eval, E, F. reflexivity. Qed.
Lemma pol_scale : forall d f x, pol d f -> pol d (fun t => x * f t).
Proof. intros d f x (c & L & E). exists (pscale x c). unfold pscale at 1. rewrite map_length. split; [exact L|]. intros t. rewrite pscale_eval, E. reflexivity. Qed.
Lemma pol_shift : forall d f, pol d f -> pol (d + 1) (fun t => t * f t).
Proof. intros d f (c & L & E). exists (0 :: c). split; [cbn; lia|]. intros t. cbn [peval]. rewrite E. ring. Qed.
Lemma pol_more : forall d e f, (d <= e)%nat -> pol d f -> pol e f.
Proof. intros d e f H (c & L & E). exists c. split; [lia|exact E]. Qed.
Lemma pol_ext : forall d f g, (forall t, f t = g t) -> pol d f -> pol d g.
Proof. intros d f g H (c & L & E). exists c. split; [exact L|]. intros t. rewrite <- H. apply E. Qed.
Lemma pol_const : forall d x, pol d (fun _ => x).
Proof. intros d x. exists [x]. split; [cbn; lia|]. intros t. cbn. ring. Qed.
Lemma pol_co : forall k, pol k (fun t => (1 - t) ^ k).
Proof.
  induction k as [|k IH]; [exact (pol_const 0 1)|]. replace (S k) with (k + 1)%nat by lia.
  refine (pol_ext _ (fun t => (1 - t) ^ k + -1 * (t * (1 - t) ^ k)) _ _ (pol_add _ _ _ (pol_more k (k + 1) _ ltac:(lia) IH) (pol_scale _ _ _ (pol_shift _ _ IH)))).
  intros t. rewrite pow_add. ring.
Qed.
Lemma pol_pow : forall j k, pol (j + k) (fun t => t ^ j * (1 - t) ^ k).
Proof.
  induction j as [|j IH]; intros k; [exact (pol_ext _ _ _ (fun t => eq_sym (Rmult_1_l ((1 - t) ^ k))) (pol_co k))|]. replace (S j + k)%nat with (j + k + 1)%nat by lia.
  refine (pol_ext _ _ _ _ (pol_shift _ _ (IH k))). intros t. cbn [pow]. ring.
Qed.
Lemma pol_bern : forall d k, (k <= d)%nat -> pol d (bern d k).
Proof.
  intros d k Hk. pose proof (pol_scale _ _ (INR (choose d k)) (pol_pow k (d - k))) as P. replace (k + (d - k))%nat with d in P by lia.
  refine (pol_ext _ _ _ _ P). intros t. unfold bern. ring.
Qed.
Lemma pol_vsum : forall d m (F : nat -> V3) (w : nat -> R -> R) (co : V3 -> R), (forall a b, co (a +v b) = co a + co b) -> (forall a x, co (a *v x) = x * co a) -> co vzero = 0 ->
  (forall i, (i < m)%nat -> pol d (w i)) -> pol d (fun t => co (vsum m (fun i => F i *v w i t))).
Proof.
  intros d m F w co A S0 Z H. induction m as [|m IH].
  - refine (pol_ext _ _ _ _ (pol_const d 0)). intros t. cbn. symmetry. exact Z.
  - refine (pol_ext _ _ _ _ (pol_add _ _ _ (IH (fun i Hi => H i ltac:(lia))) (pol_scale _ _ (co (F m)) (H m ltac:(lia))))). intros t. cbn [vsum]. rewrite A, S0. ring.
Qed.

(** ** Bezier curves *)
Lemma bezier_zero : forall d P xs, NoDup xs -> (d + 1 <= length xs)%nat -> (forall x, In x xs -> bezier d P x = vzero) -> forall t, bezier d P t = vzero.
Proof.
  intros d P xs N L Z t.
  assert (K : forall co : V3 -> R, (forall a b, co (a +v b) = co a + co b) -> (forall a x, co (a *v x) = x * co a) -> co vzero = 0 -> co (bezier d P t) = 0).
  { intros co A S0 Z0. destruct (pol_vsum d (d + 1) P (bern d) co A S0 Z0 (fun i Hi => pol_bern d i ltac:(lia))) as (c & Lc & E).
    unfold bezier. rewrite E. apply (peval_zero xs c N ltac:(lia)). intros x Hx. rewrite <- E. change (co (bezier d P x) = 0). rewrite (Z x Hx). exact Z0. }
  apply V3_ext; (apply K; [intros; cbn; ring|intros; cbn; ring|reflexivity]).
Qed.
Lemma bezier_unique : forall d P Q xs, NoDup xs -> (d + 1 <= length xs)%nat -> (forall x, In x xs -> bezier d P x = bezier d Q x) -> forall t, bezier d P t = bezier d Q t.
Proof.
  intros d P Q xs N L E t.
  assert (D : forall s, bezier d (fun k => P k +v Q k *v (-1)) s = bezier d P s +v bezier d Q s *v (-1)) by (intros s; rewrite bezier_add, bezier_scale; reflexivity).
  assert (X : bezier d P t +v bezier d Q t *v (-1) = vzero) by (rewrite <- D; apply (bezier_zero d _ xs N L); intros x Hx; rewrite D, (E x Hx); apply V3_ext; cbn; ring).
  apply V3_ext; [pose proof (f_equal vx X) as Y|pose proof (f_equal vy X) as Y|pose proof (f_equal vz X) as Y]; cbn in Y; lra.
Qed.

Lemma vsum_swap : forall m n (F : nat -> nat -> V3), vsum m (fun i => vsum n (fun j => F i j)) = vsum n (fun j => vsum m (fun i => F i j)).
Proof.
  intros m n F. induction m as [|m IH]; cbn [vsum].
  - induction n as [|n IHn]; cbn [vsum]; [reflexivity|]. rewrite <- IHn. apply V3_ext; cbn; ring.
  - rewrite IH, <- vsum_add. reflexivity.
Qed.
Lemma tensor_swap : forall d P u v, tensor d P u v = bezier d (fun a => bezier d (fun b => P a b) v) u.
Proof.
  intros d P u v. unfold tensor, bezier.
  transitivity (vsum (d + 1) (fun b => vsum (d + 1) (fun a => P a b *v (bern d a u * bern d b v)))).
  - apply vsum_ext. intros b Hb. rewrite <- vsum_scale. apply vsum_ext. intros a Ha. apply V3_ext; cbn; ring.
  - rewrite vsum_swap. apply vsum_ext. intros a Ha. rewrite <- vsum_scale. apply vsum_ext. intros b Hb. apply V3_ext; cbn; ring.
Qed.
Lemma tensor_unique : forall d P Q xs, NoDup xs -> (d + 1 <= length xs)%nat -> (forall x y, In x xs -> In y xs -> tensor d P x y = tensor d Q x y) ->
  forall u v, tensor d P u v = tensor d Q u v.
Proof.
  intros d P Q xs N L E u v. rewrite !tensor_swap. apply (bezier_unique d _ _ xs N L). intros x Hx. rewrite <- !tensor_swap. unfold tensor.
  apply (bezier_unique d _ _ xs N L). intros y Hy. exact (E x y Hx Hy).
Qed.
