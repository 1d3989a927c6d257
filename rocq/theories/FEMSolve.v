(** The systems with Lagrange multipliers: entries, solvability, solutions. *)
From Verif Require Import Base UtilModel LinAlg MeshModel MeshSpec GeomSpec HarmonicModel FEMSpec FEMProofs.
Open Scope R_scope.

(** ** Entries of the constrained matrix *)
Lemma mset_same : forall A i j v, mset A i j v i j = v.
Proof. intros. unfold mset. rewrite !Nat.eqb_refl. reflexivity. Qed.
Lemma mset_row : forall A i j v a b, a <> i -> mset A i j v a b = A a b.
Proof. intros A i j v a b N. unfold mset. destruct (Nat.eqb_spec a i); [contradiction|reflexivity]. Qed.
Lemma mset_col : forall A i j v a b, b <> j -> mset A i j v a b = A a b.
Proof. intros A i j v a b N. unfold mset. destruct (Nat.eqb_spec b j); [contradiction|]. rewrite andb_false_r. reflexivity. Qed.

Lemma constrain_inner : forall bnd n A a b, (forall i, In i bnd -> (i < n)%nat) -> (a < n)%nat -> (b < n)%nat -> constrain n bnd A a b = A a b.
Proof.
  induction bnd as [|i bnd IH]; intros n A a b H Ha Hb; cbn [constrain]; [reflexivity|]. pose proof (H i (or_introl eq_refl)).
  rewrite IH; [|intros k Hk; specialize (H k (or_intror Hk)); lia|lia|lia]. rewrite mset_col by lia. apply mset_row. lia.
Qed.

Lemma constrain_col : forall bnd n A a j, (forall i, In i bnd -> (i < n)%nat) -> (a < n)%nat -> (j < length bnd)%nat -> (forall k, A a (n + k)%nat = 0) ->
  constrain n bnd A a (n + j)%nat = dl a (nth j bnd 0%nat).
Proof.
  induction bnd as [|i bnd IH]; intros n A a j H Ha Hj Z; cbn [constrain length nth] in *; [lia|]. pose proof (H i (or_introl eq_refl)) as Hi.
  destruct j as [|j].
  - rewrite Nat.add_0_r, constrain_inner; [|intros k Hk; specialize (H k (or_intror Hk)); lia|lia|lia].
    destruct (Nat.eq_dec a i) as [->|N]; [rewrite mset_same, dl_same; reflexivity|]. rewrite mset_row, mset_row, dl_diff by lia. specialize (Z 0%nat). rewrite Nat.add_0_r in Z. exact Z.
  - replace (n + S j)%nat with (S n + j)%nat by lia. apply IH; [intros k Hk; specialize (H k (or_intror Hk)); lia|lia|lia|].
    intros k. rewrite mset_col, mset_row by lia. replace (S n + k)%nat with (n + S k)%nat by lia. apply Z.
Qed.

Lemma constrain_row : forall bnd n A a j, (forall i, In i bnd -> (i < n)%nat) -> (a < n)%nat -> (j < length bnd)%nat -> (forall k, A (n + k)%nat a = 0) ->
  constrain n bnd A (n + j)%nat a = dl a (nth j bnd 0%nat).
Proof.
  induction bnd as [|i bnd IH]; intros n A a j H Ha Hj Z; cbn [constrain length nth] in *; [lia|]. pose proof (H i (or_introl eq_refl)) as Hi.
  destruct j as [|j].
  - rewrite Nat.add_0_r, constrain_inner; [|intros k Hk; specialize (H k (or_intror Hk)); lia|lia|lia]. rewrite mset_row by lia.
    destruct (Nat.eq_dec a i) as [->|N]; [rewrite mset_same, dl_same; reflexivity|]. rewrite mset_col, dl_diff by lia. specialize (Z 0%nat). rewrite Nat.add_0_r in Z. exact Z.
  - replace (n + S j)%nat with (S n + j)%nat by lia. apply IH; [intros k Hk; specialize (H k (or_intror Hk)); lia|lia|lia|].
    intros k. rewrite mset_row, mset_row by lia. replace (S n + k)%nat with (n + S k)%nat by lia. apply Z.
Qed.

Lemma constrain_corner : forall bnd n A j k, (forall i, In i bnd -> (i < n)%nat) -> (j < length bnd)%nat -> (k < length bnd)%nat -> (forall j k, A (n + j)%nat (n + k)%nat = 0) ->
  constrain n bnd A (n + j)%nat (n + k)%nat = 0.
Proof.
  induction bnd as [|i bnd IH]; intros n A j k H Hj Hk Z; cbn [constrain length] in *; [lia|]. pose proof (H i (or_introl eq_refl)) as Hi.
  assert (H' : forall k, In k bnd -> (k < S n)%nat) by (intros x Hx; specialize (H x (or_intror Hx)); lia).
  assert (Nb : forall x, (x < length bnd)%nat -> n <> nth x bnd 0%nat).
  { intros x Hx E. specialize (H n). rewrite E in H at 1. specialize (H (or_intror (nth_In bnd 0%nat Hx))). lia. }
  set (A' := mset (mset A n i 1) i n 1).
  assert (ZA : forall x y, (n <= x)%nat -> (n <= y)%nat -> A' x y = 0).
  { intros x y Hx Hy. unfold A'. rewrite mset_row, mset_col by lia. replace x with (n + (x - n))%nat by lia. replace y with (n + (y - n))%nat by lia. apply Z. }
  destruct j as [|j], k as [|k].
  - rewrite Nat.add_0_r, constrain_inner; [apply ZA; lia|exact H'|lia|lia].
  - rewrite Nat.add_0_r. replace (n + S k)%nat with (S n + k)%nat by lia. rewrite constrain_col; [apply dl_diff, Nb; lia|exact H'|lia|lia|intros; apply ZA; lia].
  - rewrite Nat.add_0_r. replace (n + S j)%nat with (S n + j)%nat by lia. rewrite constrain_row; [apply dl_diff, Nb; lia|exact H'|lia|lia|intros; apply ZA; lia].
  - replace (n + S k)%nat with (S n + k)%nat by lia. replace (n + S j)%nat with (S n + j)%nat by lia. apply IH; [exact H'|lia|lia|intros; apply ZA; lia].
Qed.

(** ** Systems with trivial kernel *)
Lemma mapply_minus : forall n M x y i, mapply n M (fun k => x k - y k) i = mapply n M x i - mapply n M y i.
Proof. intros. unfold mapply. rewrite <- rsum_minus. apply rsum_ext. intros; ring. Qed.

Lemma kernel_invertible : forall n M, (forall x, solves n M (fun _ => 0) x -> forall i, (i < n)%nat -> x i = 0) -> invertible n M.
Proof.
  intros n M K b. destruct (solvable n M K b) as (x & Hx). change (solves n M b x) in Hx. exists x. split; [exact Hx|]. intros y Hy i Hi.
  assert (Z : y i - x i = 0); [|lra]. apply (K (fun k => y k - x k)); [|exact Hi]. intros k Hk. rewrite mapply_minus, (Hx k Hk), (Hy k Hk). ring.
Qed.

Section System.
Variables (n : nat) (bnd : list nat) (A : mat).
Hypothesis Hb : forall i, In i bnd -> (i < n)%nat.
Hypothesis Nb : NoDup bnd.
Hypothesis Z1 : forall i j, (n <= i)%nat -> A i j = 0.
Hypothesis Z2 : forall i j, (n <= j)%nat -> A i j = 0.
Let C := constrain n bnd A.
Let m := length bnd.

Lemma row_vertex : forall z i, (i < n)%nat -> mapply (n + m) C z i = mapply n A z i + rsum m (fun j => dl i (nth j bnd 0%nat) * z (n + j)%nat).
Proof.
  intros z i Hi. unfold mapply. rewrite rsum_app. f_equal.
  - apply rsum_ext. intros j Hj. unfold C. rewrite constrain_inner by assumption. reflexivity.
  - apply rsum_ext. intros j Hj. unfold C. rewrite constrain_col; [reflexivity|exact Hb|exact Hi|exact Hj|intros; apply Z2; lia].
Qed.

Lemma row_constraint : forall z j, (j < m)%nat -> mapply (n + m) C z (n + j)%nat = z (nth j bnd 0%nat).
Proof.
  intros z j Hj. unfold mapply. rewrite rsum_app.
  rewrite (rsum_ext n _ (fun i => dl i (nth j bnd 0%nat) * z i)).
  - rewrite rsum_dl by (apply Hb, nth_In; exact Hj). rewrite rsum_zero; [ring|]. intros k Hk. unfold C. rewrite constrain_corner; [ring|exact Hb|exact Hj|exact Hk|intros; apply Z1; lia].
  - intros i Hi. unfold C. rewrite constrain_row; [reflexivity|exact Hb|exact Hi|exact Hj|intros; apply Z1; lia].
Qed.

Lemma not_boundary_row : forall z i, (i < n)%nat -> ~ In i bnd -> mapply (n + m) C z i = mapply n A z i.
Proof.
  intros z i Hi N. rewrite row_vertex by exact Hi. rewrite (rsum_zero m); [ring|]. intros j Hj. rewrite dl_diff; [ring|]. intros E. apply N. rewrite E. apply nth_In. exact Hj.
Qed.

(** The solutions of the Dirichlet problem. *)
Definition dirichlet (b p : nat -> R) (x : nat -> R) : Prop :=
  (forall j, (j < m)%nat -> x (nth j bnd 0%nat) = p j) /\ forall i, (i < n)%nat -> ~ In i bnd -> mapply n A x i = b i.
Definition dirichlet_unique : Prop := forall x, dirichlet (fun _ => 0) (fun _ => 0) x -> forall i, (i < n)%nat -> x i = 0.

Lemma system_dirichlet : forall b z, solves (n + m) C b z -> dirichlet b (fun j => b (n + j)%nat) z.
Proof.
  intros b z H. split.
  - intros j Hj. rewrite <- (H (n + j)%nat) by lia. symmetry. apply row_constraint. exact Hj.
  - intros i Hi N. rewrite <- (H i) by lia. symmetry. apply not_boundary_row; assumption.
Qed.

Lemma boundary_index : forall i j, (j < m)%nat -> (i < m)%nat -> dl (nth i bnd 0%nat) (nth j bnd 0%nat) = dl j i.
Proof.
  intros i j Hj Hi. destruct (Nat.eq_dec i j) as [->|N]; [rewrite !dl_same; reflexivity|]. rewrite !dl_diff; [reflexivity|lia|].
  intros E. apply N. exact (proj1 (NoDup_nth bnd 0%nat) Nb i j Hi Hj E).
Qed.

(** A solution of the Dirichlet problem is one of the system, with suitable
    multipliers. *)
Lemma dirichlet_system : forall b x, dirichlet b (fun j => b (n + j)%nat) x ->
  exists z, solves (n + m) C b z /\ forall i, (i < n)%nat -> z i = x i.
Proof.
  intros b x [D1 D2]. set (z := fun k => if (k <? n)%nat then x k else b (nth (k - n) bnd 0%nat) - mapply n A x (nth (k - n) bnd 0%nat)).
  assert (Zx : forall i, (i < n)%nat -> z i = x i) by (intros i Hi; unfold z; destruct (Nat.ltb_spec i n); [reflexivity|lia]).
  assert (ZA : forall i, mapply n A z i = mapply n A x i) by (intros i; apply rsum_ext; intros j Hj; rewrite Zx by exact Hj; reflexivity).
  exists z. split; [|exact Zx]. intros i Hi. destruct (Nat.lt_ge_cases i n) as [L|G].
  - destruct (in_dec Nat.eq_dec i bnd) as [I|I].
    + rewrite row_vertex, ZA by exact L. destruct (In_nth bnd i 0%nat I) as (j & Hj & E).
      rewrite (rsum_ext m _ (fun k => dl k j * z (n + k)%nat)) by (intros k Hk; rewrite <- E, boundary_index by assumption; reflexivity).
      rewrite rsum_dl by exact Hj. unfold z. destruct (Nat.ltb_spec (n + j) n); [lia|]. replace (n + j - n)%nat with j by lia. rewrite E. ring.
    + rewrite not_boundary_row, ZA by assumption. apply D2; assumption.
  - replace i with (n + (i - n))%nat by lia. rewrite row_constraint by (fold m; lia). rewrite Zx by (apply Hb, nth_In; fold m; lia). apply D1. lia.
Qed.

Lemma dirichlet_invertible : dirichlet_unique -> invertible (n + m) C.
Proof.
  intros U. apply kernel_invertible. intros z Hz. pose proof (U z (system_dirichlet (fun _ => 0) z Hz)) as Z.
  intros i Hi. destruct (Nat.lt_ge_cases i n) as [L|G]; [apply Z; exact L|].
  set (j := (i - n)%nat). assert (Hj : (j < m)%nat) by (unfold j; lia). replace i with (n + j)%nat by (unfold j; lia).
  assert (Hij : (nth j bnd 0 < n)%nat) by (apply Hb, nth_In; exact Hj). specialize (Hz (nth j bnd 0%nat) ltac:(lia)). rewrite row_vertex in Hz by exact Hij.
  rewrite (rsum_ext m _ (fun k => dl k j * z (n + k)%nat)) in Hz by (intros k Hk; rewrite boundary_index by assumption; reflexivity).
  rewrite rsum_dl in Hz by exact Hj. assert (E : mapply n A z (nth j bnd 0%nat) = 0) by (apply rsum_zero; intros k Hk; rewrite Z by exact Hk; ring). lra.
Qed.

Lemma dirichlet_same : dirichlet_unique -> forall b p x y, dirichlet b p x -> dirichlet b p y -> forall i, (i < n)%nat -> y i = x i.
Proof.
  intros U b p x y [X1 X2] [Y1 Y2] i Hi. assert (Z : y i - x i = 0); [|lra]. apply (U (fun k => y k - x k)); [|exact Hi]. split.
  - intros j Hj. rewrite X1, Y1 by exact Hj. ring.
  - intros k Hk N. rewrite mapply_minus, X2, Y2 by assumption. ring.
Qed.

(** Each Dirichlet problem has a solution. *)
Lemma dirichlet_exists : dirichlet_unique -> forall b p, exists x, dirichlet b p x.
Proof.
  intros U b p. destruct (dirichlet_invertible U (fun i => if (i <? n)%nat then b i else p (i - n)%nat)) as (z & Hz & _). exists z.
  destruct (system_dirichlet _ z Hz) as [D1 D2]. split.
  - intros j Hj. rewrite D1 by exact Hj. destruct (Nat.ltb_spec (n + j) n); [lia|]. f_equal. lia.
  - intros i Hi N. rewrite D2 by assumption. destruct (Nat.ltb_spec i n); [reflexivity|lia].
Qed.
End System.

(** ** The Laplacian of a mesh *)
Section Laplace.
Variables (n : nat) (ts : list tri) (P : nat -> V2) (bnd : list nat).
Hypothesis M : plane_mesh n ts P (fun k => In k bnd).
Variables (Q : nat -> V3) (wt : tri -> R * R * R) (A : mat).
Hypothesis HW : forall a b c, In (a, b, c) ts -> half_cots (Q a) (Q b) (Q c) (wt (a, b, c)).
Hypothesis VA : forall i j, A i j = lsum (fun t => tcoef t (wt t) i j) ts.

Lemma PTm : forall t, In t ts -> proper_triangle n t.
Proof. destruct M as (PT & _). exact PT. Qed.

Lemma A_outside : forall i j, (n <= i \/ n <= j)%nat -> A i j = 0.
Proof.
  intros i j H. rewrite VA. apply lsum_zero. intros [[a b] c] Ht. destruct (PTm _ Ht) as ((Ha & Hb & Hc) & _). destruct (wt (a, b, c)) as [[v1 v2] v3].
  unfold tcoef. destruct H as [H|H].
  - rewrite !(dl_diff i) by lia. ring.
  - rewrite !(dl_diff j) by lia. ring.
Qed.

Lemma form_nonneg : forall x t, In t ts -> 0 <= tform t (wt t) x x.
Proof. intros x [[a b] c] Ht. exact (tform_nonneg _ _ _ _ a b c x (HW a b c Ht)). Qed.

(** Zero energy and zero boundary values. *)
Lemma energy_zero : forall x, (forall k, In k bnd -> x k = 0) -> lsum (fun t => tform t (wt t) x x) ts <= 0 -> forall k, (k < n)%nat -> x k = 0.
Proof.
  intros x Bx E. apply (constant_zero n ts P _ M).
  - intros a b c Ht. apply (tform_zero _ _ _ _ a b c x (HW a b c Ht)). exact (lsum_null _ ts (form_nonneg x) E _ Ht).
  - intros k _ Hk. apply Bx. exact Hk.
Qed.

Lemma laplace_unique : dirichlet_unique n bnd A.
Proof.
  intros x [D1 D2]. assert (Bx : forall k, In k bnd -> x k = 0).
  { intros k Hk. destruct (In_nth bnd k 0%nat Hk) as (j & Hj & <-). apply D1. exact Hj. }
  apply energy_zero; [exact Bx|]. rewrite <- (A_form n ts wt A PTm VA x x). apply Req_le, rsum_zero. intros i Hi.
  destruct (in_dec Nat.eq_dec i bnd) as [I|I]; [rewrite Bx by exact I; ring|]. rewrite D2 by assumption. ring.
Qed.

(** The maximum principle, when no weight is negative. *)
Lemma maximum : (forall t, In t ts -> let '(v1, v2, v3) := wt t in 0 <= v1 /\ 0 <= v2 /\ 0 <= v3) ->
  forall x top, (forall i, (i < n)%nat -> ~ In i bnd -> mapply n A x i = 0) -> (forall k, In k bnd -> x k <= top) -> forall k, (k < n)%nat -> x k <= top.
Proof.
  intros W x top Hx Bx. set (u := fun k => Rmax (x k - top) 0).
  assert (Z : forall k, (k < n)%nat -> u k = 0).
  { apply energy_zero.
    - intros k Hk. unfold u. apply Rmax_right. specialize (Bx k Hk). lra.
    - apply Rle_trans with (lsum (fun t => tform t (wt t) x u) ts).
      + apply lsum_le. intros [[a b] c] Ht. specialize (W _ Ht). unfold tform. destruct (wt (a, b, c)) as [[v1 v2] v3]. destruct W as (W1 & W2 & W3).
        assert (K : forall i j, (u i - u j) * (u i - u j) <= (x i - x j) * (u i - u j)).
        { intros i j. unfold u, Rmax. destruct (Rle_dec (x i - top) 0), (Rle_dec (x j - top) 0); nra. }
        pose proof (Rmult_le_compat_l v3 _ _ W3 (K a b)). pose proof (Rmult_le_compat_l v2 _ _ W2 (K a c)). pose proof (Rmult_le_compat_l v1 _ _ W1 (K b c)). lra.
      + rewrite <- (A_form n ts wt A PTm VA x u). apply Req_le, rsum_zero. intros i Hi. destruct (in_dec Nat.eq_dec i bnd) as [I|I]; [|rewrite Hx by assumption; ring].
        replace (u i) with 0; [ring|]. unfold u. symmetry. apply Rmax_right. specialize (Bx i I). lra. }
  intros k Hk. specialize (Z k Hk). unfold u in Z. pose proof (Rmax_l (x k - top) 0). lra.
Qed.

(** Linear functions on a flat, oriented mesh are harmonic inside. *)
Lemma linear_precision : forall N g c0, (forall a b c, In (a, b, c) ts -> vcross (Q b -v Q a) (Q c -v Q a) = N *v vnorm (vcross (Q b -v Q a) (Q c -v Q a))) ->
  forall i, (i < n)%nat -> ~ In i bnd -> mapply n A (fun k => vdot g (Q k) + c0) i = 0.
Proof.
  intros N g c0 HO i Hi Ni. rewrite (A_row n ts wt A PTm VA). set (F := fun k => vdot g (vcross N (Q k)) / 2).
  rewrite <- (closed_fan n ts P _ M F i Hi Ni). apply lsum_ext. intros [[a b] c] Ht. specialize (HO a b c Ht). specialize (HW a b c Ht).
  destruct (wt (a, b, c)) as [[v1 v2] v3]. unfold half_cots in HW. set (S := vnorm (vcross (Q b -v Q a) (Q c -v Q a))) in *. destruct HW as (HS & E1 & E2 & E3).
  unfold trow. set (f := fun k => vdot g (Q k) + c0).
  assert (T1 : (v3 * (f a - f b) + v2 * (f a - f c)) * (2 * S) = (F c - F b) * (2 * S)).
  { replace ((v3 * (f a - f b) + v2 * (f a - f c)) * (2 * S)) with (v3 * (2 * S) * (f a - f b) + v2 * (2 * S) * (f a - f c)) by ring. rewrite E3, E2.
    replace ((F c - F b) * (2 * S)) with (vdot g (vcross (N *v S) (Q c -v Q b))) by (unfold F, vdot, vcross, vsub, vscale; simpl; field).
    rewrite <- HO. unfold f, vdot, vcross, vsub; simpl. ring. }
  assert (T2 : (- (v3 * (f a - f b)) + v1 * (f b - f c)) * (2 * S) = (F a - F c) * (2 * S)).
  { replace ((- (v3 * (f a - f b)) + v1 * (f b - f c)) * (2 * S)) with (- (v3 * (2 * S) * (f a - f b)) + v1 * (2 * S) * (f b - f c)) by ring. rewrite E3, E1.
    replace ((F a - F c) * (2 * S)) with (vdot g (vcross (N *v S) (Q a -v Q c))) by (unfold F, vdot, vcross, vsub, vscale; simpl; field).
    rewrite <- HO. unfold f, vdot, vcross, vsub; simpl. ring. }
  apply Rmult_eq_reg_r in T1; [|lra]. apply Rmult_eq_reg_r in T2; [|lra].
  assert (T3 : - (v2 * (f a - f c)) - v1 * (f b - f c) = F b - F a) by lra.
  rewrite <- T1, <- T2, <- T3. fold (f a). fold (f b). fold (f c). unfold f. ring.
Qed.
End Laplace.
