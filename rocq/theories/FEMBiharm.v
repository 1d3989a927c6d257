(** The systems of the biharmonic patch. *)
From Verif Require Import Base UtilModel LinAlg MeshModel MeshSpec GeomSpec HarmonicModel FEMSpec FEMProofs FEMSolve FEMVoronoi.
Open Scope R_scope.

Lemma block_in : forall n A i j, (i < n)%nat -> (j < n)%nat -> block n A i j = A i j.
Proof. intros n A i j Hi Hj. unfold block. apply Nat.ltb_lt in Hi, Hj. rewrite Hi, Hj. reflexivity. Qed.
Lemma block_row : forall n A i j, (n <= i)%nat -> block n A i j = 0.
Proof. intros n A i j Hi. unfold block. destruct (Nat.ltb_spec i n); [lia|reflexivity]. Qed.
Lemma block_col : forall n A i j, (n <= j)%nat -> block n A i j = 0.
Proof. intros n A i j Hj. unfold block. destruct (Nat.ltb_spec j n); [lia|rewrite andb_false_r; reflexivity]. Qed.
Lemma block_apply : forall n A x i, (i < n)%nat -> mapply n (block n A) x i = mapply n A x i.
Proof. intros n A x i Hi. apply rsum_ext. intros j Hj. rewrite block_in by assumption. reflexivity. Qed.

Lemma rsum_null : forall n f, (forall i, (i < n)%nat -> 0 <= f i) -> rsum n f = 0 -> forall i, (i < n)%nat -> f i = 0.
Proof.
  intros n f H Z i Hi. rewrite (rsum_split1 n f i Hi) in Z. pose proof (H i Hi).
  assert (0 <= rsum n (fun j => if (j =? i)%nat then 0 else f j)) by (apply rsum_nonneg; intros j Hj; destruct (j =? i)%nat; [lra|apply H; exact Hj]). lra.
Qed.

Section Biharm.
Variables (n : nat) (bnd : list nat) (Ls : mat) (m1 : nat -> R).
Hypothesis Sym : forall i j, Ls i j = Ls j i.
Hypothesis U : dirichlet_unique n bnd Ls.
Hypothesis M0 : forall k, In k bnd -> m1 k = 0.
Hypothesis M1 : forall k, (k < n)%nat -> ~ In k bnd -> 0 < m1 k.
Let L : mat := fun i j => m1 i * Ls i j.

Lemma m1_nonneg : forall k, (k < n)%nat -> 0 <= m1 k.
Proof. intros k Hk. destruct (in_dec Nat.eq_dec k bnd) as [I|I]; [rewrite M0 by exact I; lra|]. apply Rlt_le, M1; assumption. Qed.

Definition KP : mat := fun i j => rsum n (fun k => Ls i k * L k j).
Definition KQ : mat := fun i j => rsum n (fun k => L k i * L k j).

Lemma KP_apply : forall x i, mapply n KP x i = rsum n (fun k => Ls i k * (m1 k * mapply n Ls x k)).
Proof.
  intros x i. unfold mapply, KP. rewrite (rsum_ext n _ (fun j => rsum n (fun k => Ls i k * m1 k * (Ls k j * x j)))).
  - rewrite rsum_swap. apply rsum_ext. intros k Hk. rewrite rsum_scal. ring.
  - intros j Hj. rewrite <- rsum_scal_r. apply rsum_ext. intros k Hk. unfold L. ring.
Qed.

Lemma KQ_apply : forall x i, mapply n KQ x i = rsum n (fun k => Ls k i * (m1 k * m1 k * mapply n Ls x k)).
Proof.
  intros x i. unfold mapply, KQ. rewrite (rsum_ext n _ (fun j => rsum n (fun k => Ls k i * (m1 k * m1 k) * (Ls k j * x j)))).
  - rewrite rsum_swap. apply rsum_ext. intros k Hk. rewrite rsum_scal. ring.
  - intros j Hj. rewrite <- rsum_scal_r. apply rsum_ext. intros k Hk. unfold L. ring.
Qed.

(** Both quadratic forms. *)
Lemma form_of : forall (K : mat) (w : nat -> R) x, (forall i, mapply n K x i = rsum n (fun k => Ls i k * (w k * mapply n Ls x k))) ->
  rsum n (fun i => x i * mapply n K x i) = rsum n (fun k => w k * (mapply n Ls x k * mapply n Ls x k)).
Proof.
  intros K w x H. rewrite (rsum_ext n _ (fun i => rsum n (fun k => x i * Ls i k * (w k * mapply n Ls x k)))).
  - rewrite rsum_swap. apply rsum_ext. intros k Hk.
    rewrite (rsum_ext n _ (fun i => (Ls k i * x i) * (w k * mapply n Ls x k))) by (intros i Hi; rewrite (Sym i k); ring).
    rewrite rsum_scal_r. fold (mapply n Ls x k). ring.
  - intros i Hi. rewrite H, <- rsum_scal. apply rsum_ext. intros k Hk. ring.
Qed.

Lemma unique_of : forall (K : mat) (w : nat -> R), (forall x i, mapply n K x i = rsum n (fun k => Ls i k * (w k * mapply n Ls x k))) ->
  (forall k, (k < n)%nat -> 0 <= w k) -> (forall k, (k < n)%nat -> ~ In k bnd -> 0 < w k) -> dirichlet_unique n bnd (block n K).
Proof.
  intros K w H W0 W1 x [D1 D2]. apply U. split; [exact D1|]. intros i Hi N.
  assert (Bx : forall k, In k bnd -> x k = 0). { intros k Hk. destruct (In_nth bnd k 0%nat Hk) as (j & Hj & <-). apply D1. exact Hj. }
  assert (Z : rsum n (fun k => w k * (mapply n Ls x k * mapply n Ls x k)) = 0).
  { rewrite <- (form_of K w x (H x)). apply rsum_zero. intros k Hk. destruct (in_dec Nat.eq_dec k bnd) as [I|I]; [rewrite Bx by exact I; ring|].
    rewrite <- (block_apply n K x k Hk), D2 by assumption. ring. }
  assert (P : forall k, (k < n)%nat -> 0 <= w k * (mapply n Ls x k * mapply n Ls x k)) by (intros k Hk; apply Rmult_le_pos; [apply W0; exact Hk|nra]).
  pose proof (rsum_null n _ P Z i Hi) as Zi. cbv beta in Zi. pose proof (W1 i Hi N).
  apply Rmult_integral in Zi. destruct Zi as [Zi|Zi]; [lra|]. apply Rmult_integral in Zi. tauto.
Qed.

Lemma KP_unique : dirichlet_unique n bnd (block n KP).
Proof. apply (unique_of KP m1); [apply KP_apply|apply m1_nonneg|apply M1]. Qed.

Lemma KQ_unique : dirichlet_unique n bnd (block n KQ).
Proof.
  apply (unique_of KQ (fun k => m1 k * m1 k)).
  - intros x i. rewrite KQ_apply. apply rsum_ext. intros k Hk. rewrite (Sym k i). reflexivity.
  - intros k Hk. pose proof (m1_nonneg k Hk). nra.
  - intros k Hk N. pose proof (M1 k Hk N). nra.
Qed.

(** Functions that are harmonic inside solve both systems. *)
Lemma KP_zero : forall x i, (forall k, (k < n)%nat -> ~ In k bnd -> mapply n Ls x k = 0) -> mapply n KP x i = 0.
Proof.
  intros x i H. rewrite KP_apply. apply rsum_zero. intros k Hk. destruct (in_dec Nat.eq_dec k bnd) as [I|I]; [rewrite M0 by exact I; ring|rewrite H by assumption; ring].
Qed.
Lemma KQ_zero : forall x i, (forall k, (k < n)%nat -> ~ In k bnd -> mapply n Ls x k = 0) -> mapply n KQ x i = 0.
Proof.
  intros x i H. rewrite KQ_apply. apply rsum_zero. intros k Hk. destruct (in_dec Nat.eq_dec k bnd) as [I|I]; [rewrite M0 by exact I; ring|rewrite H by assumption; ring].
Qed.
End Biharm.

(** ** Solvers *)
Lemma solve_functional : forall solve n M b g, exact_solver solve -> invertible n M ->
  solves n M (fun i => vdot g (b i)) (fun i => vdot g (solve n M b i)).
Proof.
  intros solve n M b g X I i Hi. destruct (X n M b I) as (Ex & Ey & Ez). specialize (Ex i Hi). specialize (Ey i Hi). specialize (Ez i Hi).
  unfold vdot at 2. rewrite <- Ex, <- Ey, <- Ez. unfold mapply. rewrite <- !rsum_scal, <- !rsum_plus. apply rsum_ext. intros j Hj. unfold vdot. ring.
Qed.

Lemma vdot_ext : forall u v, (forall g, vdot g u = vdot g v) -> u = v.
Proof.
  intros u v H. pose proof (H (mkV3 1 0 0)) as X. pose proof (H (mkV3 0 1 0)) as Y. pose proof (H (mkV3 0 0 1)) as Z. unfold vdot in X, Y, Z; simpl in X, Y, Z.
  apply V3_ext; lra.
Qed.

(** ** prepareSolver *)
Section Prepare.
Variables (ts : list tri) (P : nat -> V2) (bnd : list nat) (Q : list V3).
Let n := length Q.
Hypothesis M : plane_mesh n ts P (fun k => In k bnd).
Hypothesis Hb : forall i, In i bnd -> (i < n)%nat.
Hypothesis Nb : NoDup bnd.
Hypothesis ND : forall a b c, In (a, b, c) ts -> twice_area (at3 Q a) (at3 Q b) (at3 Q c) <> 0.

Definition wq (t : tri) : R * R * R := let '(a, b, c) := t in wcots (at3 Q a) (at3 Q b) (at3 Q c).

Lemma cross_nonzero : forall p1 p2 p3, twice_area p1 p2 p3 <> 0 -> vcross (p2 -v p1) (p3 -v p1) <> vzero.
Proof. intros p1 p2 p3 H E. apply H. unfold twice_area. rewrite E. transitivity (sqrt 0); [unfold vnorm; f_equal; unfold vdot; simpl; ring|apply sqrt_0]. Qed.

Lemma wq_half : forall a b c, In (a, b, c) ts -> half_cots (at3 Q a) (at3 Q b) (at3 Q c) (wq (a, b, c)).
Proof. intros a b c I. apply wcots_half, cross_nonzero, ND. exact I. Qed.

Lemma tri_range : forall a b c, In (a, b, c) ts -> (a < n /\ b < n /\ c < n)%nat.
Proof. intros a b c I. destruct M as (PT & _). apply (PT _ I). Qed.

Lemma laplacianB_value : exists Ls, laplacian cotsB Q ts = Some Ls /\ forall i j, Ls i j = lsum (fun t => tcoef t (wq t) i j) ts.
Proof.
  apply laplacian_value. intros a b c I. split; [apply tri_range; exact I|]. apply cotsB_some, cross_nonzero, ND. exact I.
Qed.

Lemma laplacianH_value : exists Ls, laplacian cotsH Q ts = Some Ls /\ forall i j, Ls i j = lsum (fun t => tcoef t (wq t) i j) ts.
Proof.
  apply laplacian_value. intros a b c I. split; [apply tri_range; exact I|]. apply cotsH_some, cross_nonzero, ND. exact I.
Qed.

Lemma areas_ok : exists ar, voronoiAreas Q ts = Some ar /\ forall k, (k < n)%nat -> 0 < ar k.
Proof.
  destruct (areas_value Q ts) as (ar & E & V); [intros a b c I; split; [apply tri_range; exact I|apply ND; exact I]|].
  exists ar. split; [exact E|]. intros k Hk. rewrite V. apply areas_pos; [exact ND|]. destruct M as (_ & US & _). apply US. exact Hk.
Qed.

Definition mass (ar : nat -> R) (k : nat) : R := if existsb (Nat.eqb k) bnd then 0 else / ar k.

Lemma existsb_in : forall k l, existsb (Nat.eqb k) l = true <-> In k l.
Proof. intros k l. rewrite existsb_exists. split; [intros (x & I & E); apply Nat.eqb_eq in E; subst; exact I|intros I; exists k; split; [exact I|apply Nat.eqb_refl]]. Qed.

Lemma mass_in : forall ar k, In k bnd -> mass ar k = 0.
Proof. intros ar k I. unfold mass. apply existsb_in in I. rewrite I. reflexivity. Qed.
Lemma mass_out : forall ar k, ~ In k bnd -> mass ar k = / ar k.
Proof. intros ar k N. unfold mass. destruct (existsb (Nat.eqb k) bnd) eqn:E; [apply existsb_in in E; contradiction|reflexivity]. Qed.

Lemma reciprocals_ok : forall ar ks, (forall k, In k ks -> 0 < ar k) -> exists l, reciprocals ar ks = Some l.
Proof.
  intros ar ks H. exists (map (fun k => 1 / ar k) ks). apply mapM_total. intros k Hk. apply fdiv_some. specialize (H k Hk). lra.
Qed.

Lemma prepare_value : forall prop, exists Ls ar, laplacian cotsB Q ts = Some Ls /\ (forall i j, Ls i j = lsum (fun t => tcoef t (wq t) i j) ts) /\
  voronoiAreas Q ts = Some ar /\ (forall k, (k < n)%nat -> 0 < ar k) /\
  prepareSolver Q ts bnd prop = Some (constrain n bnd (block n (if prop then KP n Ls (mass ar) else KQ n Ls (mass ar)))).
Proof.
  intros prop. destruct laplacianB_value as (Ls & EL & VL). destruct areas_ok as (ar & EA & PA). exists Ls, ar.
  split; [exact EL|]. split; [exact VL|]. split; [exact EA|]. split; [exact PA|]. unfold prepareSolver. fold n. rewrite EL. cbn [bind]. rewrite EA. cbn [bind].
  unfold inverseMass. destruct (reciprocals_ok ar (filter (fun k => negb (existsb (Nat.eqb k) bnd)) (seq 0 n))) as (l & ->).
  - intros k Hk. apply filter_In in Hk. destruct Hk as [Hk _]. apply PA. apply in_seq in Hk. lia.
  - cbn [bind]. destruct prop; reflexivity.
Qed.

Lemma Ls_unique : forall Ls : mat, (forall i j, Ls i j = lsum (fun t => tcoef t (wq t) i j) ts) -> dirichlet_unique n bnd Ls.
Proof. intros Ls VL. exact (laplace_unique n ts P bnd M (at3 Q) wq Ls wq_half VL). Qed.

Lemma mass_pos : forall ar, (forall k, (k < n)%nat -> 0 < ar k) -> forall k, (k < n)%nat -> ~ In k bnd -> 0 < mass ar k.
Proof. intros ar PA k Hk N. rewrite mass_out by exact N. apply Rinv_0_lt_compat, PA. exact Hk. Qed.

Lemma prepare_unique : forall (prop : bool) (Ls : mat) ar, (forall i j, Ls i j = lsum (fun t => tcoef t (wq t) i j) ts) -> (forall k, (k < n)%nat -> 0 < ar k) ->
  dirichlet_unique n bnd (block n (if prop then KP n Ls (mass ar) else KQ n Ls (mass ar))).
Proof.
  intros prop Ls ar VL PA. pose proof (A_sym ts wq Ls VL) as Sy. pose proof (Ls_unique Ls VL) as Un.
  destruct prop; [apply KP_unique|apply KQ_unique]; try assumption; try apply mass_in; apply mass_pos; exact PA.
Qed.

Lemma prepare_invertible : forall prop, exists A, prepareSolver Q ts bnd prop = Some A /\ invertible (n + length bnd) A.
Proof.
  intros prop. destruct (prepare_value prop) as (Ls & ar & EL & VL & EA & PA & E). eexists. split; [exact E|].
  apply dirichlet_invertible; [exact Hb|exact Nb|intros; apply block_row; assumption|intros; apply block_col; assumption|]. apply prepare_unique; assumption.
Qed.
End Prepare.
