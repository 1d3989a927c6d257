(** Proofs about polar patches. *)
From Verif Require Import Base UtilModel UtilSpec UtilProofs LinAlg FEMSpec BernPoly HybridProofs DomainModel ParamModel PolarModel RibbonModel SurfaceModel PolarPatchModel.
From Coq Require Import Reals List Lia Lra.
Import ListNotations.
Open Scope R_scope.

Lemma bezier_at_0 : forall n P, bezier n P 0 = P 0%nat.
Proof.
  intros n P. unfold bezier. rewrite (vsum_single (n + 1) _ 0%nat ltac:(lia)).
  - unfold bern. rewrite choose_0. replace (1 - 0) with 1 by ring. rewrite pow1. simpl. v3ring.
  - intros i Hi N. unfold bern. destruct i as [|i]; [contradiction|]. cbn [pow]. v3ring.
Qed.
Lemma bezier_at_1 : forall n P, bezier n P 1 = P n.
Proof.
  intros n P. unfold bezier. rewrite (vsum_single (n + 1) _ n ltac:(lia)).
  - unfold bern. rewrite choose_diag, Nat.sub_diag, pow1. simpl. v3ring.
  - intros i Hi N. unfold bern. destruct (n - i)%nat as [|k] eqn:K; [lia|]. replace (1 - 1) with 0 by ring. cbn [pow]. v3ring.
Qed.

Lemma invertible_kernel : forall n M, (forall x, (forall i, (i < n)%nat -> rsum n (fun j => M i j * x j) = 0) -> forall j, (j < n)%nat -> x j = 0) -> invertible n M.
Proof.
  intros n M K b. destruct (solvable n M K b) as [x Hx]. exists x. split; [exact Hx|]. intros y Hy i Hi.
  assert (E : y i - x i = 0); [|lra]. apply (K (fun j => y j - x j)); [|exact Hi]. intros k Hk.
  rewrite (rsum_ext n _ (fun j => M k j * y j - M k j * x j)) by (intros; ring). rewrite rsum_minus.
  specialize (Hx k Hk). specialize (Hy k Hk). unfold mapply in Hy. lra.
Qed.

Section Refit.
Variable solve : nat -> (nat -> nat -> R) -> (nat -> V3) -> nat -> V3.

(** The result keeps the ends whatever the solver returns. *)
Lemma refit_total : forall cpts d us ps, length cpts = (d + 1)%nat -> (1 <= d)%nat -> length us = (d - 1)%nat -> length ps = (d - 1)%nat ->
  let A i j := nth (j + 1) (bernsteinList d (nth i us 0)) 0 in
  let b i := nth i ps vzero -v pnth cpts 0 *v bern d 0 (nth i us 0) -v pnth cpts d *v bern d d (nth i us 0) in
  exists A' b' r, (forall i, (i < d - 1)%nat -> A' i = A i /\ b' i = b i) /\
    bezierRefit solve cpts us ps = Some r /\ length r = (d + 1)%nat /\ pnth r 0 = pnth cpts 0 /\ pnth r d = pnth cpts d /\
    forall i, (i < d - 1)%nat -> pnth r (i + 1) = solve (d - 1)%nat A' b' i.
Proof.
  intros cpts d us ps L Hd Lu Lp A b. unfold bezierRefit. rewrite L. replace (d + 1 - 1)%nat with d by lia.
  set (row := fun i => (bernsteinList d (nth i us 0), b i)).
  rewrite (mapM_seq _ (d - 1) _ row).
  2:{ intros i Hi. unfold refitRow. rewrite (nth_error_nth' us 0) by lia. rewrite (nth_error_nth' ps vzero) by lia. cbn [bind].
      rewrite !pnth_nth by lia. cbn [bind]. rewrite !bernsteinList_nth by lia. reflexivity. }
  cbn [bind]. rewrite !pnth_nth by lia. cbn [bind].
  set (rows := tabulate (d - 1) row).
  assert (Rn : forall i, (i < d - 1)%nat -> nth i rows ([], vzero) = row i) by (intros i Hi; erewrite nth_error_nth by (apply tabulate_nth_error; exact Hi); reflexivity).
  exists (fun i j => nth (j + 1) (fst (nth i rows ([], vzero))) 0), (fun i => snd (nth i rows ([], vzero))).
  eexists. split; [|split; [reflexivity|]].
  { intros i Hi. rewrite Rn by exact Hi. split; reflexivity. }
  split; [cbn [length]; rewrite app_length, map_length, seq_length; cbn [length]; lia|]. split; [reflexivity|]. split.
  - unfold pnth at 1. destruct d as [|d]; [lia|]. cbn [nth]. rewrite app_nth2 by (rewrite map_length, seq_length; lia). rewrite map_length, seq_length.
    replace (d - (S d - 1))%nat with 0%nat by lia. reflexivity.
  - intros i Hi. unfold pnth. replace (i + 1)%nat with (S i) by lia. cbn [nth]. rewrite app_nth1 by (rewrite map_length, seq_length; lia).
    rewrite nth_indep with (d' := solve (d - 1)%nat (fun i j => nth (j + 1) (fst (nth i rows ([], vzero))) 0) (fun i => snd (nth i rows ([], vzero))) 0%nat) by (rewrite map_length, seq_length; lia).
    rewrite map_nth, seq_nth by lia. reflexivity.
Qed.

(** With an exact solver the new curve passes through the given points. *)
Lemma refit_spec : exact_solver solve -> forall cpts d us ps, length cpts = (d + 1)%nat -> (1 <= d)%nat -> length us = (d - 1)%nat -> length ps = (d - 1)%nat ->
  distinct (d - 1) (fun i => nth i us 0) -> (forall i, (i < d - 1)%nat -> nth i us 0 <> 0 /\ nth i us 0 <> 1) ->
  exists r, bezierRefit solve cpts us ps = Some r /\ length r = (d + 1)%nat /\ pnth r 0 = pnth cpts 0 /\ pnth r d = pnth cpts d /\
    forall i, (i < d - 1)%nat -> bezier d (pnth r) (nth i us 0) = nth i ps vzero.
Proof.
  intros X cpts d us ps L Hd Lu Lp D Hu. destruct (refit_total cpts d us ps L Hd Lu Lp) as (A & b & r & AB & E & Lr & R0 & Rd & Ri).
  exists r. split; [exact E|]. split; [exact Lr|]. split; [exact R0|]. split; [exact Rd|].
  assert (AE : forall i j, (i < d - 1)%nat -> (j < d - 1)%nat -> A i j = bern d (j + 1) (nth i us 0)).
  { intros i j Hi Hj. destruct (AB i Hi) as [-> _]. apply nth_error_nth. apply bernsteinList_nth. lia. }
  assert (INV : invertible (d - 1) A).
  { apply invertible_kernel. intros x Z. apply (collocation_kernel (d - 1) (fun i => nth i us 0) x D Hu).
    intros i Hi. etransitivity; [|exact (Z i Hi)]. apply rsum_ext. intros j Hj. rewrite AE by assumption. replace (d - 1 + 1)%nat with d by lia. reflexivity. }
  destruct (X (d - 1)%nat A b INV) as (SX & SY & SZ). intros i Hi.
  assert (F : bezier d (pnth r) (nth i us 0) = pnth cpts 0 *v bern d 0 (nth i us 0) +v vsum (d - 1) (fun j => solve (d - 1)%nat A b j *v A i j) +v pnth cpts d *v bern d d (nth i us 0)).
  { unfold bezier. replace (d + 1)%nat with (S (S (d - 1))) by lia. rewrite vsum_first. cbn [vsum]. rewrite R0. replace (S (d - 1)) with d by lia. rewrite Rd.
    rewrite (vsum_ext (d - 1) _ (fun j => solve (d - 1)%nat A b j *v A i j)); [v3ring|]. intros j Hj. rewrite AE by assumption.
    rewrite <- Ri by exact Hj. replace (S j) with (j + 1)%nat by lia. reflexivity. }
  rewrite F. destruct (AB i Hi) as [_ Bi]. specialize (SX i Hi). specialize (SY i Hi). specialize (SZ i Hi). cbv beta in SX, SY, SZ. rewrite Bi in SX, SY, SZ. unfold mapply in SX, SY, SZ.
  assert (V : vsum (d - 1) (fun j => solve (d - 1)%nat A b j *v A i j) = nth i ps vzero -v pnth cpts 0 *v bern d 0 (nth i us 0) -v pnth cpts d *v bern d d (nth i us 0)).
  { apply V3_ext.
    - rewrite <- SX, vsum_x. apply rsum_ext. intros; simpl; ring.
    - rewrite <- SY, vsum_y. apply rsum_ext. intros; simpl; ring.
    - rewrite <- SZ, vsum_z. apply rsum_ext. intros; simpl; ring. }
  rewrite V. v3ring.
Qed.
End Refit.

(** The uniform nodes. *)
Definition nodes (k : nat) : list R := map (fun j => INR j / INR k) (seq 1 (k - 1)).
Lemma nodes_length : forall k, length (nodes k) = (k - 1)%nat.
Proof. intros. unfold nodes. rewrite map_length, seq_length. reflexivity. Qed.
Lemma nth_seq_map : forall A (f : nat -> A) n a d0 i, (i < n)%nat -> nth i (map f (seq a n)) d0 = f (a + i)%nat.
Proof.
  intros A f n a d0 i Hi. rewrite (nth_indep _ d0 (f a)) by (rewrite map_length, seq_length; exact Hi). rewrite map_nth, seq_nth by exact Hi. reflexivity.
Qed.
Lemma node_distinct : forall k, (1 <= k)%nat -> distinct (k + 1) (fun j => INR j / INR k).
Proof.
  intros k Hk i j _ _ E. apply INR_eq. assert (N : 0 < INR k) by (apply lt_0_INR; lia).
  apply (Rmult_eq_reg_r (/ INR k)); [exact E|]. apply Rinv_neq_0_compat. lra.
Qed.
Lemma node_unit : forall k j, (1 <= j)%nat -> (j < k)%nat -> 0 < INR j / INR k < 1.
Proof.
  intros k j H1 H2. assert (0 < INR j) by (apply lt_0_INR; lia). assert (INR j < INR k) by (apply lt_INR; lia).
  split; [apply Rdiv_lt_0_compat; lra|]. apply (Rmult_lt_reg_r (INR k)); [lra|]. unfold Rdiv. rewrite Rmult_assoc, Rinv_l by lra. lra.
Qed.

(** An interpolant of degree [m] at the uniform nodes. *)
Section Rounds.
Variable solve : nat -> (nat -> nat -> R) -> (nat -> V3) -> nat -> V3.
Hypothesis X : exact_solver solve.
Variables (inv : V2 -> option V2) (cl cr : curve) (psi : R) (p z : V2).
Hypothesis Hinv : forall x, inv (mkV2 psi x) = Some (p *p x +p z *p (1 - x)).
Hypothesis Hl : 0 < pnorm (z -p p).
Let l := pnorm (z -p p).

Lemma pos_on : forall u, 0 <= u -> exists qu, inv (mkV2 psi (1 - u)) = Some qu /\ fdiv (pnorm (qu -p p)) l = Some u.
Proof.
  intros u Hu. eexists. split; [apply Hinv|].
  replace (p *p (1 - u) +p z *p (1 - (1 - u)) -p p) with ((z -p p) *p u) by (apply V2_ext; simpl; ring).
  assert (N : pnorm ((z -p p) *p u) = u * l).
  { unfold l, pnorm, pdot. replace (px ((z -p p) *p u) * px ((z -p p) *p u) + py ((z -p p) *p u) * py ((z -p p) *p u)) with (Rsqr u * (px (z -p p) * px (z -p p) + py (z -p p) * py (z -p p))) by (unfold Rsqr; simpl; ring).
    rewrite sqrt_mult; [rewrite sqrt_Rsqr by exact Hu; reflexivity|apply Rle_0_sqr|]. nra. }
  rewrite N. unfold fdiv. fold l in Hl. destruct (Req_EM_T l 0); [lra|]. f_equal. field. assumption.
Qed.

Lemma round_spec : forall k crv lft rgt, (1 <= k)%nat -> length crv = (k + 1)%nat -> length lft = (k + 1)%nat -> length rgt = (k + 1)%nat ->
  exists crv' lft' rgt', polarRound solve inv cl cr psi p l (crv, lft, rgt) (k + 1) = Some (crv', lft', rgt') /\
    length crv' = (k + 2)%nat /\ length lft' = (k + 2)%nat /\ length rgt' = (k + 2)%nat /\
    pnth crv' 0 = pnth crv 0 /\ pnth crv' (k + 1) = pnth crv k /\ pnth lft' 0 = pnth lft 0 /\ pnth lft' (k + 1) = pnth lft k /\
    pnth rgt' 0 = pnth rgt 0 /\ pnth rgt' (k + 1) = pnth rgt k /\
    forall j, (1 <= j)%nat -> (j <= k)%nat -> let u := INR j / INR (k + 1) in
      bezier (k + 1) (pnth lft') u = cpt cl (1 - u) /\ bezier (k + 1) (pnth rgt') u = cpt cr u /\
      bezier (k + 1) (pnth crv') u = bezier k (pnth crv) u +v ((cpt cl (1 - u) -v bezier k (pnth lft) u) *v (1 - psi) +v (cpt cr u -v bezier k (pnth rgt) u) *v psi).
Proof.
  intros k crv lft rgt Hk Lc Ll Lr.
  destruct (elevate_spec crv k Lc) as (c1 & Ec & Lc1 & C0 & Ck & Cu).
  destruct (elevate_spec lft k Ll) as (l1 & El & Ll1 & L0 & Lk & Lu).
  destruct (elevate_spec rgt k Lr) as (r1 & Er & Lr1 & R0 & Rk & Ru).
  unfold polarRound. rewrite Ec, El, Er. cbn [bind].
  set (u := fun j => INR j / INR (k + 1)).
  set (smp := fun j => bezier k (pnth crv) (u j) +v ((cpt cl (1 - u j) -v bezier k (pnth lft) (u j)) *v (1 - psi) +v (cpt cr (u j) -v bezier k (pnth rgt) (u j)) *v psi)).
  replace (k + 1 - 1)%nat with k by lia.
  rewrite (mapM_total _ (fun j => (u j, u j, smp j, cpt cl (1 - u j), cpt cr (u j)))).
  2:{ intros j Hj. apply in_seq in Hj. unfold polarSample. fold (u j). pose proof (node_unit (k + 1) j ltac:(lia) ltac:(lia)) as Hu. fold (u j) in Hu.
      destruct (pos_on (u j) ltac:(lra)) as (qu & Eq & Ep). rewrite Eq. cbn [bind]. rewrite Ep. cbn [bind].
      rewrite (bcEval_spec l1 (k + 1)) by lia. cbn [bind]. rewrite (bcEval_spec r1 (k + 1)) by lia. cbn [bind].
      rewrite (bcEval_spec c1 (k + 1)) by lia. cbn [bind]. rewrite Cu, Lu, Ru. reflexivity. }
  cbn [bind]. rewrite !map_map. cbv beta iota.
  change (map (fun x : nat => u x) (seq 1 k)) with (map u (seq 1 k)). change (map (fun x : nat => smp x) (seq 1 k)) with (map smp (seq 1 k)).
  assert (N : forall i, (i < k + 1 - 1)%nat -> nth i (map u (seq 1 k)) 0 = u (i + 1)%nat).
  { intros i Hi. rewrite nth_seq_map by lia. f_equal. lia. }
  assert (D : distinct (k + 1 - 1) (fun i => nth i (map u (seq 1 k)) 0)).
  { intros i j Hi Hj. rewrite !N by assumption. intros E. assert (i + 1 = j + 1)%nat by (apply (node_distinct (k + 1) ltac:(lia)); [lia|lia|exact E]). lia. }
  assert (U : forall i, (i < k + 1 - 1)%nat -> nth i (map u (seq 1 k)) 0 <> 0 /\ nth i (map u (seq 1 k)) 0 <> 1).
  { intros i Hi. rewrite N by exact Hi. pose proof (node_unit (k + 1) (i + 1) ltac:(lia) ltac:(lia)) as Hu. fold (u (i + 1)%nat) in Hu. lra. }
  assert (LL : forall A (f : nat -> A), length (map f (seq 1 k)) = (k + 1 - 1)%nat) by (intros; rewrite map_length, seq_length; lia).
  destruct (refit_spec solve X l1 (k + 1) (map u (seq 1 k)) (map (fun j => cpt cl (1 - u j)) (seq 1 k)) ltac:(lia) ltac:(lia) (LL _ _) (LL _ _) D U) as (l2 & -> & Ll2 & L20 & L2k & L2u).
  cbn [bind].
  destruct (refit_spec solve X r1 (k + 1) (map u (seq 1 k)) (map (fun j => cpt cr (u j)) (seq 1 k)) ltac:(lia) ltac:(lia) (LL _ _) (LL _ _) D U) as (r2 & -> & Lr2 & R20 & R2k & R2u).
  cbn [bind].
  destruct (refit_spec solve X c1 (k + 1) (map u (seq 1 k)) (map smp (seq 1 k)) ltac:(lia) ltac:(lia) (LL _ _) (LL _ _) D U) as (c2 & -> & Lc2 & C20 & C2k & C2u).
  cbn [bind]. exists c2, l2, r2. split; [reflexivity|]. split; [lia|]. split; [lia|]. split; [lia|].
  split; [congruence|]. split; [congruence|]. split; [congruence|]. split; [congruence|]. split; [congruence|]. split; [congruence|].
  intros j H1 H2. cbv zeta. specialize (L2u (j - 1)%nat ltac:(lia)). specialize (R2u (j - 1)%nat ltac:(lia)). specialize (C2u (j - 1)%nat ltac:(lia)).
  rewrite N in L2u, R2u, C2u by lia. rewrite nth_seq_map in L2u, R2u, C2u by lia.
  replace (j - 1 + 1)%nat with j in L2u, R2u, C2u by lia. replace (1 + (j - 1))%nat with j in L2u, R2u, C2u by lia.
  split; [exact L2u|]. split; [exact R2u|]. exact C2u.
Qed.

(** The three curves after the degree has reached [k]. *)
Definition reached (Q : V3) (k : nat) (st : list V3 * list V3 * list V3) : Prop :=
  let '(crv, lft, rgt) := st in
  length crv = (k + 1)%nat /\ length lft = (k + 1)%nat /\ length rgt = (k + 1)%nat /\
  (forall j, (j <= k)%nat -> let u := INR j / INR k in bezier k (pnth lft) u = cpt cl (1 - u) /\ bezier k (pnth rgt) u = cpt cr u) /\
  (forall t, bezier k (pnth crv) t = bezier k (pnth lft) t *v (1 - psi) +v bezier k (pnth rgt) t *v psi
     +v (Q -v (cpt cl 0 *v (1 - psi) +v cpt cr 1 *v psi)) *v t).

Lemma first_reached : forall Q, cpt cr 0 = cpt cl 1 -> reached Q 1 ([cpt cl 1; Q], [cpt cl 1; cpt cl 0], [cpt cl 1; cpt cr 1]).
Proof.
  intros Q C. unfold reached. split; [reflexivity|]. split; [reflexivity|]. split; [reflexivity|]. split.
  - intros j Hj. replace (INR 1) with 1 by reflexivity. assert (J : j = 0%nat \/ j = 1%nat) by lia. destruct J as [->| ->]; cbv zeta.
    + replace (INR 0 / 1) with 0 by (simpl; field). rewrite !bezier_at_0. cbn [pnth nth]. replace (1 - 0) with 1 by ring. unfold pnth; cbn [nth]. split; [reflexivity|congruence].
    + replace (INR 1 / 1) with 1 by (simpl; field). rewrite !bezier_at_1. unfold pnth; cbn [nth]. replace (1 - 1) with 0 by ring. split; reflexivity.
  - intros t. unfold bezier, bern, pnth. simpl. v3ring.
Qed.

Lemma vpoly_scale : forall m f c, vpoly m f -> vpoly m (fun t => f t *v c).
Proof.
  intros m f c (A & B & C). repeat split; simpl.
  - apply (isPoly_ext m (fun t => c * vx (f t))); [intros; ring|]. apply isPoly_scal; exact A.
  - apply (isPoly_ext m (fun t => c * vy (f t))); [intros; ring|]. apply isPoly_scal; exact B.
  - apply (isPoly_ext m (fun t => c * vz (f t))); [intros; ring|]. apply isPoly_scal; exact C.
Qed.

Lemma next_reached : forall Q k st, (1 <= k)%nat -> reached Q k st -> exists st', polarRound solve inv cl cr psi p l st (k + 1) = Some st' /\ reached Q (k + 1) st'.
Proof.
  intros Q k [[crv lft] rgt] Hk (Lc & Ll & Lr & Nd & Cv).
  destruct (round_spec k crv lft rgt Hk Lc Ll Lr) as (c2 & l2 & r2 & E & Lc2 & Ll2 & Lr2 & C0 & Ck & L0 & Lk & R0 & Rk & U).
  exists (c2, l2, r2). split; [exact E|]. unfold reached.
  split; [lia|]. split; [lia|]. split; [lia|].
  assert (K0 : INR k <> 0) by (apply not_0_INR; lia). assert (K1 : INR (k + 1) <> 0) by (apply not_0_INR; lia).
  assert (B0 : bezier k (pnth lft) 0 = cpt cl 1 /\ bezier k (pnth rgt) 0 = cpt cr 0).
  { destruct (Nd 0%nat ltac:(lia)) as [A B]. replace (INR 0 / INR k) with 0 in A, B by (simpl; field; exact K0). replace (1 - 0) with 1 in A by ring. split; assumption. }
  assert (B1 : bezier k (pnth lft) 1 = cpt cl 0 /\ bezier k (pnth rgt) 1 = cpt cr 1).
  { destruct (Nd k ltac:(lia)) as [A B]. replace (INR k / INR k) with 1 in A, B by (field; exact K0). replace (1 - 1) with 0 in A by ring. split; assumption. }
  destruct B0 as [B0 B0']. destruct B1 as [B1 B1'].
  assert (Nd' : forall j, (j <= k + 1)%nat -> bezier (k + 1) (pnth l2) (INR j / INR (k + 1)) = cpt cl (1 - INR j / INR (k + 1)) /\ bezier (k + 1) (pnth r2) (INR j / INR (k + 1)) = cpt cr (INR j / INR (k + 1))).
  { intros j Hj. destruct (Nat.eq_dec j 0) as [->|N0]; [|destruct (Nat.eq_dec j (k + 1)) as [->|N1]].
    - replace (INR 0 / INR (k + 1)) with 0 by (simpl; field; exact K1). replace (1 - 0) with 1 by ring. rewrite bezier_at_0 in B0, B0'. rewrite !bezier_at_0, L0, R0. split; assumption.
    - replace (INR (k + 1) / INR (k + 1)) with 1 by (field; exact K1). replace (1 - 1) with 0 by ring. rewrite bezier_at_1 in B1, B1'. rewrite !bezier_at_1, Lk, Rk. split; assumption.
    - destruct (U j ltac:(lia) ltac:(lia)) as (A & B & _). split; assumption. }
  split; [exact Nd'|].
  set (F := Q -v (cpt cl 0 *v (1 - psi) +v cpt cr 1 *v psi)) in *.
  apply (vpoly_unique (k + 1) _ (fun t => bezier (k + 1) (pnth l2) t *v (1 - psi) +v bezier (k + 1) (pnth r2) t *v psi +v F *v t) (fun j => INR j / INR (k + 1))).
  - apply vpoly_bezier.
  - apply vpoly_add; [apply vpoly_add; apply vpoly_scale, vpoly_bezier|apply vpoly_line; lia].
  - apply node_distinct. lia.
  - intros j Hj. cbv beta. destruct (Nd' j Hj) as [A B]. rewrite A, B.
    destruct (Nat.eq_dec j 0) as [->|N0]; [|destruct (Nat.eq_dec j (k + 1)) as [->|N1]].
    + replace (INR 0 / INR (k + 1)) with 0 by (simpl; field; exact K1). replace (1 - 0) with 1 by ring. rewrite bezier_at_0, C0.
      pose proof (Cv 0) as C. rewrite bezier_at_0, B0, B0' in C. rewrite C. reflexivity.
    + replace (INR (k + 1) / INR (k + 1)) with 1 by (field; exact K1). replace (1 - 1) with 0 by ring. rewrite bezier_at_1, Ck.
      pose proof (Cv 1) as C. rewrite bezier_at_1, B1, B1' in C. rewrite C. reflexivity.
    + destruct (U j ltac:(lia) ltac:(lia)) as (_ & _ & C). rewrite C, Cv. v3ring.
Qed.

Lemma all_reached : forall Q m, cpt cr 0 = cpt cl 1 ->
  exists st, foldM (polarRound solve inv cl cr psi p l) ([cpt cl 1; Q], [cpt cl 1; cpt cl 0], [cpt cl 1; cpt cr 1]) (seq 2 m) = Some st /\ reached Q (m + 1) st.
Proof.
  intros Q m C. induction m as [|m (st & E & Rc)].
  - eexists. split; [reflexivity|]. apply first_reached; exact C.
  - rewrite seq_S, foldM_app, E. cbn [bind]. destruct (next_reached Q (m + 1) st ltac:(lia) Rc) as (st' & E' & R'). exists st'.
    split; [|replace (S m + 1)%nat with (m + 1 + 1)%nat by lia; exact R']. cbn [foldM]. replace (2 + m)%nat with (m + 1 + 1)%nat by lia. rewrite E'. reflexivity.
Qed.
End Rounds.
