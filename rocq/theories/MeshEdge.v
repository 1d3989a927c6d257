(** [onEdge] against the boundary loops; counts; every vertex is used. *)

From Verif Require Import Base MeshModel MeshSpec MeshProofs MeshProofs4 MeshProofsRing.
Open Scope nat_scope.

(** A squared root test is exact for [m] when it recognises [m] iff it is a
    square. *)
Definition sqrt_exact_below (rsqrt : nat -> nat) (bound : nat) : Prop :=
  forall k, k * k <= bound -> rsqrt (k * k) = k.

Lemma issquare_spec : forall rsqrt b m, sqrt_exact_below rsqrt b -> m <= b ->
  (issquare rsqrt m = true <-> exists k, k * k = m).
Proof.
  intros rsqrt b m H Hm; unfold issquare; rewrite Nat.eqb_eq; split.
  - intros E; exists (rsqrt m); exact E.
  - intros (k & <-). rewrite (H k Hm). reflexivity.
Qed.

Lemma square_odd : forall a k, k * k = 8 * a + 1 -> a = tg (k / 2).
Proof.
  intros a k H. pose proof (Nat.div_mod k 2 ltac:(lia)) as D.
  pose proof (Nat.mod_upper_bound k 2 ltac:(lia)) as M.
  pose proof (tg_double (k / 2)) as T.
  generalize dependent (tg (k / 2)). generalize dependent (k / 2). generalize dependent (k mod 2).
  intros m Hm h D t T. assert (m = 0 \/ m = 1) as [-> | ->] by lia; subst k; nia.
Qed.

Lemma tg_square : forall i, (2 * i + 1) * (2 * i + 1) = 8 * tg i + 1.
Proof. intros i; pose proof (tg_double i); nia. Qed.

Lemma onEdge3_spec : forall rsqrt r i j, j <= i -> i <= r ->
  sqrt_exact_below rsqrt (8 * ix3 (i, j) + 9) ->
  (onEdge rsqrt 3 r (ix3 (i, j)) = true <-> i = r \/ j = 0 \/ j = i).
Proof.
  intros rsqrt r i j Hj Hi Hs; unfold onEdge; cbn [Nat.eqb].
  rewrite meshSize3. set (k := ix3 (i, j)) in *.
  assert (Hk : k = tg i + j) by reflexivity.
  destruct (Nat.leb_spec (tg (S r) - r - 1) k) as [L|L].
  - split; [intros _|reflexivity]. cbn [tg] in L. left.
    destruct (Nat.eq_dec i r) as [E|E]; [exact E|].
    assert (tg (S i) <= tg r) by (apply tg_mono; lia). cbn [tg] in *; lia.
  - rewrite Bool.orb_true_iff, !(issquare_spec _ _ _ Hs) by lia. split.
    + intros [(q & Hq)|(q & Hq)].
      * right; left. assert (G : k = tg (q / 2)) by (apply square_odd; lia).
        assert (X : ix3 (i, j) = ix3 (q / 2, 0)) by (unfold ix3 at 2; cbn [fst snd]; fold k; lia).
        apply ix3_inj in X; lia.
      * right; right. assert (G : k + 1 = tg (q / 2)) by (apply square_odd; lia).
        destruct (q / 2) as [|a]; [cbn [tg] in G; lia|]. cbn [tg] in G.
        assert (X : ix3 (i, j) = ix3 (a, a)) by (unfold ix3 at 2; cbn [fst snd]; fold k; lia).
        apply ix3_inj in X; lia.
    + intros [E|[E|E]].
      * exfalso. subst i. cbn [tg] in L; lia.
      * left; exists (2 * i + 1). rewrite tg_square. lia.
      * right; exists (2 * S i + 1). rewrite tg_square. cbn [tg]. lia.
Qed.

Lemma loop3_surj : forall r i j, 1 <= r -> j <= i -> i <= r ->
  (i = r \/ j = 0 \/ j = i) <-> exists p, p < 3 * r /\ loop3 r p = (i, j).
Proof.
  intros r i j Hr Hj Hi; split.
  - intros H. destruct (Nat.eq_dec i r) as [->|E].
    { exists j; split; [lia|]. unfold loop3. destruct (Nat.leb_spec j r); [reflexivity|lia]. }
    destruct (Nat.eq_dec j i) as [->|E'].
    { exists (2 * r - i); split; [lia|]. unfold loop3.
      destruct (Nat.leb_spec (2 * r - i) r); [lia|]. destruct (Nat.leb_spec (2 * r - i) (2 * r)); [|lia].
      teq. }
    exists (2 * r + i); split; [lia|]. unfold loop3.
    destruct (Nat.leb_spec (2 * r + i) r); [lia|]. destruct (Nat.leb_spec (2 * r + i) (2 * r)); [lia|]. teq.
  - intros (p & Hp & E). assert (E1 := f_equal fst E). assert (E2 := f_equal snd E). revert E1 E2.
    unfold loop3. destruct (Nat.leb_spec p r); destruct (Nat.leb_spec p (2 * r)); cbn [fst snd]; lia.
Qed.

Lemma onEdge3_loop : forall rsqrt r k, 1 <= r -> k < meshSize 3 r ->
  sqrt_exact_below rsqrt (8 * k + 9) ->
  (onEdge rsqrt 3 r k = true <-> exists p, p < 3 * r /\ ix3 (loop3 r p) = k).
Proof.
  intros rsqrt r k Hr Hk Hs. rewrite meshSize3 in Hk.
  destruct (ix3_surj r k Hk) as (i & j & Hj & Hi & ->).
  rewrite onEdge3_spec by assumption. rewrite loop3_surj by assumption. split.
  - intros (p & Hp & E); exists p; rewrite E; auto.
  - intros (p & Hp & E); exists p; split; [exact Hp|].
    apply (ix3_inj' r); [apply loop3_range; exact Hp|unfold ok3; cbn [fst snd]; lia|exact E].
Qed.

Lemma onEdge4_spec : forall rsqrt r i j, i <= r -> j <= r ->
  (onEdge rsqrt 4 r (ix4 r (i, j)) = true <-> i = 0 \/ i = r \/ j = 0 \/ j = r).
Proof.
  intros rsqrt r i j Hi Hj; unfold onEdge; cbn [Nat.eqb].
  unfold ix4; cbn [fst snd].
  assert (M : (i * (r + 1) + j) mod (r + 1) = j).
  { rewrite Nat.add_comm, Nat.mod_add by lia. apply Nat.mod_small; lia. }
  rewrite M, !Bool.orb_true_iff, !Nat.leb_le, !Nat.eqb_eq. split.
  - intros [[[H|H]|H]|H]; [|right; left|tauto|tauto].
    + destruct i; [tauto|]. right; right; left. nia.
    + destruct (Nat.eq_dec i r); [assumption|exfalso; nia].
  - intros [->|[->|[->| ->]]]; [left; left; left; lia|left; left; right; nia|tauto|tauto].
Qed.

Lemma loop4_surj : forall r i j, 1 <= r -> i <= r -> j <= r ->
  (i = 0 \/ i = r \/ j = 0 \/ j = r) <-> exists p, p < 4 * r /\ loop4 r p = (i, j).
Proof.
  intros r i j Hr Hi Hj; split.
  - intros H. destruct (Nat.eq_dec j 0) as [->|E].
    { exists i; split; [lia|]. unfold loop4. destruct (Nat.leb_spec i r); [reflexivity|lia]. }
    destruct (Nat.eq_dec i r) as [->|E1].
    { exists (r + j); split; [lia|]. unfold loop4. destruct (Nat.leb_spec (r + j) r); [lia|].
      destruct (Nat.leb_spec (r + j) (2 * r)); [|lia]. teq. }
    destruct (Nat.eq_dec j r) as [->|E2].
    { exists (3 * r - i); split; [lia|]. unfold loop4. destruct (Nat.leb_spec (3 * r - i) r); [lia|].
      destruct (Nat.leb_spec (3 * r - i) (2 * r)); [lia|].
      destruct (Nat.leb_spec (3 * r - i) (3 * r)); [|lia]. teq. }
    exists (4 * r - j); split; [lia|]. unfold loop4. destruct (Nat.leb_spec (4 * r - j) r); [lia|].
    destruct (Nat.leb_spec (4 * r - j) (2 * r)); [lia|].
    destruct (Nat.leb_spec (4 * r - j) (3 * r)); [lia|]. teq.
  - intros (p & Hp & E). assert (E1 := f_equal fst E). assert (E2 := f_equal snd E). revert E1 E2.
    unfold loop4. destruct (Nat.leb_spec p r); destruct (Nat.leb_spec p (2 * r));
      destruct (Nat.leb_spec p (3 * r)); cbn [fst snd]; lia.
Qed.

Lemma ix4_surj : forall r k, k < meshSize 4 r -> exists i j, i <= r /\ j <= r /\ k = ix4 r (i, j).
Proof.
  intros r k H. rewrite meshSize4 in H. exists (k / (r + 1)), (k mod (r + 1)).
  assert (k / (r + 1) < r + 1) by (apply Nat.div_lt_upper_bound; lia).
  assert (k mod (r + 1) < r + 1) by (apply Nat.mod_upper_bound; lia).
  repeat split; try lia. unfold ix4; cbn [fst snd]. rewrite Nat.mul_comm. apply Nat.div_mod; lia.
Qed.

Lemma onEdge4_loop : forall rsqrt r k, 1 <= r -> k < meshSize 4 r ->
  (onEdge rsqrt 4 r k = true <-> exists p, p < 4 * r /\ ix4 r (loop4 r p) = k).
Proof.
  intros rsqrt r k Hr Hk. destruct (ix4_surj r k Hk) as (i & j & Hi & Hj & ->).
  rewrite onEdge4_spec by assumption. rewrite loop4_surj by assumption. split.
  - intros (p & Hp & E); exists p; rewrite E; auto.
  - intros (p & Hp & E); exists p; split; [exact Hp|].
    apply (ix4_inj r); [apply loop4_ok; exact Hp|split; assumption|exact E].
Qed.

Lemma onEdgeR_loop : forall n r k, 1 <= n -> 1 <= r -> k < rs n (S r) ->
  ((rs n (S r) - n * r <=? k) = true <-> exists p, p < n * r /\ ri n (cpos n r p) = k).
Proof.
  intros n r k Hn Hr Hk. rewrite Nat.leb_le, rs_S in * by lia. split.
  - intros H. exists (k - rs n r). split; [lia|].
    unfold ri, cpos; cbn [fst snd]. rewrite red_id by lia. lia.
  - intros (p & Hp & <-). unfold ri; cbn [fst snd cpos]. lia.
Qed.

(** The boundary loops of the three layouts. *)
Definition mesh_loop (n r p : nat) : nat :=
  if n =? 3 then ix3 (loop3 r p) else if n =? 4 then ix4 r (loop4 r p) else ri n (cpos n r p).

Lemma mesh_boundary : forall n r, 3 <= n -> boundary_loop (meshTopology n r) (n * r) (mesh_loop n r).
Proof.
  intros n r Hn; unfold meshTopology, mesh_loop.
  destruct (Nat.eqb_spec n 3) as [->|]; [apply boundary3|].
  destruct (Nat.eqb_spec n 4) as [->|]; [apply boundary4|]. apply boundaryR; lia.
Qed.

Lemma mesh_onEdge : forall rsqrt n r k, 3 <= n -> 1 <= r -> k < meshSize n r ->
  (n = 3 -> sqrt_exact_below rsqrt (8 * k + 9)) ->
  (onEdge rsqrt n r k = true <-> exists p, p < n * r /\ mesh_loop n r p = k).
Proof.
  intros rsqrt n r k Hn Hr Hk Hs. unfold mesh_loop.
  destruct (Nat.eqb_spec n 3) as [->|H3]; [apply onEdge3_loop; auto|].
  destruct (Nat.eqb_spec n 4) as [->|H4]; [apply onEdge4_loop; auto|].
  unfold onEdge. destruct (Nat.eqb_spec n 3); [lia|]. destruct (Nat.eqb_spec n 4); [lia|].
  rewrite meshSizeRing in * by assumption. apply onEdgeR_loop; lia.
Qed.

Lemma mesh_manifold : forall n r, 3 <= n -> oriented_manifold (meshTopology n r).
Proof.
  intros n r Hn; unfold meshTopology.
  destruct (Nat.eqb_spec n 3) as [->|]; [apply manifold3|].
  destruct (Nat.eqb_spec n 4) as [->|]; [apply manifold4|]. apply manifoldR; lia.
Qed.

Lemma mesh_proper : forall n r t, 3 <= n -> In t (meshTopology n r) -> proper_triangle (meshSize n r) t.
Proof.
  intros n r t Hn; unfold meshTopology.
  destruct (Nat.eqb_spec n 3) as [->|]; [apply proper3|].
  destruct (Nat.eqb_spec n 4) as [->|]; [apply proper4|].
  rewrite meshSizeRing by assumption. apply properR; lia.
Qed.

Lemma mesh_count : forall n r, length (meshTopology n r) =
  (if n =? 3 then 1 else if n =? 4 then 2 else n) * (r * r).
Proof.
  intros n r; unfold meshTopology.
  destruct (Nat.eqb_spec n 3); [rewrite topology3_closed, map_length, idx3_length; lia|].
  destruct (Nat.eqb_spec n 4); [rewrite topology4_closed, map_length, idx4_length; lia|].
  rewrite topologyRing_closed, map_length, idxR_length; lia.
Qed.

Lemma mesh_euler : forall n r, 1 <= r ->
  2 * meshSize n r = length (meshTopology n r) + (if n =? 3 then 3 else if n =? 4 then 4 else n) * r + 2.
Proof.
  intros n r Hr. rewrite mesh_count.
  destruct (Nat.eqb_spec n 3) as [->|H3]; [rewrite meshSize3; pose proof (tg_double (S r)); nia|].
  destruct (Nat.eqb_spec n 4) as [->|H4]; [rewrite meshSize4; nia|].
  rewrite meshSizeRing by assumption. rewrite rs_double. nia.
Qed.

(** Every vertex is a corner of some triangle. *)
Lemma used3 : forall r k, 1 <= r -> k < meshSize 3 r -> exists t, In t (topology3 r) /\ In k (corners t).
Proof.
  intros r k Hr Hk. rewrite meshSize3 in Hk. destruct (ix3_surj r k Hk) as (i & j & Hj & Hi & ->).
  rewrite topology3_closed. destruct (Nat.eq_dec i r) as [->|E].
  - destruct (Nat.eq_dec j r) as [->|E'].
    + exists (tri3_of (r - 1, r - 1, true)). split; [apply in_map, in_idx3; repeat split; try lia; discriminate|].
      simpl. right; left. replace (r - 1 + 1) with r by lia. reflexivity.
    + exists (tri3_of (r - 1, j, true)). split; [apply in_map, in_idx3; repeat split; try lia; discriminate|].
      simpl. left. replace (r - 1 + 1) with r by lia. reflexivity.
  - exists (tri3_of (i, j, true)). split; [apply in_map, in_idx3; repeat split; try lia; discriminate|].
    simpl. tauto.
Qed.

Lemma used4 : forall r k, 1 <= r -> k < meshSize 4 r -> exists t, In t (topology4 r) /\ In k (corners t).
Proof.
  intros r k Hr Hk. destruct (ix4_surj r k Hk) as (i & j & Hi & Hj & ->).
  rewrite topology4_closed.
  destruct (Nat.eq_dec i r) as [->|E]; destruct (Nat.eq_dec j r) as [->|E'].
  - exists (tri4_of r (r - 1, r - 1, false)). split; [apply in_map, in_idx4; lia|].
    simpl. replace (r - 1 + 1) with r by lia. tauto.
  - exists (tri4_of r (r - 1, j, true)). split; [apply in_map, in_idx4; lia|].
    simpl. replace (r - 1 + 1) with r by lia. tauto.
  - exists (tri4_of r (i, r - 1, true)). split; [apply in_map, in_idx4; lia|].
    simpl. replace (r - 1 + 1) with r by lia. tauto.
  - exists (tri4_of r (i, j, true)). split; [apply in_map, in_idx4; lia|]. simpl. tauto.
Qed.

Lemma usedR : forall n r k, 3 <= n -> 1 <= r -> k < rs n (S r) ->
  exists t, In t (topologyRing n r) /\ In k (corners t).
Proof.
  intros n r k Hn Hr Hk. destruct (ri_surj n r k) as ([l p] & [Hl Hp] & ->); [lia|exact Hk|].
  cbn [fst snd] in *. rewrite topologyRing_closed.
  destruct l as [|l]; cbn [Nat.eqb] in Hp.
  - subst p. exists (triR_of n (1, 0, 0, true)).
    split; [apply in_map, in_idxR; repeat split; try lia; discriminate|]. simpl. left; reflexivity.
  - destruct (pos_decompose n Hn (S l) p Hp) as (s & v & Hs & Hv & ->).
    exists (triR_of n (S l, s, v, true)).
    split; [apply in_map, in_idxR; repeat split; try lia; discriminate|].
    cbn [triR_of corners]. right; left. unfold ri, cpos; cbn [fst snd]. rewrite red_id by lia. reflexivity.
Qed.

Lemma mesh_used : forall n r k, 3 <= n -> 1 <= r -> k < meshSize n r ->
  exists t, In t (meshTopology n r) /\ In k (corners t).
Proof.
  intros n r k Hn Hr; unfold meshTopology.
  destruct (Nat.eqb_spec n 3) as [->|]; [apply used3; lia|].
  destruct (Nat.eqb_spec n 4) as [->|]; [apply used4; lia|].
  rewrite meshSizeRing by assumption. apply usedR; lia.
Qed.

(** The circular domain uses the ring layout for every n. *)
Lemma circle_onEdge : forall n r k, 1 <= n -> 1 <= r -> k < meshSizeCircle n r ->
  (onEdgeCircle n r k = true <-> exists p, p < n * r /\ ri n (cpos n r p) = k).
Proof.
  intros n r k Hn Hr Hk. unfold onEdgeCircle. rewrite meshSizeCircle_rs in *. apply onEdgeR_loop; assumption.
Qed.

Lemma mesh_euler_n : forall n r, 3 <= n -> 1 <= r ->
  2 * meshSize n r = length (meshTopology n r) + n * r + 2.
Proof.
  intros n r Hn Hr; rewrite mesh_euler by exact Hr.
  destruct (Nat.eqb_spec n 3) as [-> |]; [reflexivity|].
  destruct (Nat.eqb_spec n 4) as [-> |]; reflexivity.
Qed.

Lemma mesh_counts : forall r,
  length (meshTopology 3 r) = r * r /\ length (meshTopology 4 r) = 2 * (r * r) /\
  (forall n, 5 <= n -> length (meshTopology n r) = n * (r * r)) /\
  (forall n, length (meshTopologyCircle n r) = n * (r * r)).
Proof.
  intros r; repeat split.
  - rewrite mesh_count; simpl; lia.
  - rewrite mesh_count; reflexivity.
  - intros n Hn; rewrite mesh_count.
    destruct (Nat.eqb_spec n 3); [lia|]. destruct (Nat.eqb_spec n 4); [lia|]. reflexivity.
  - intros n; unfold meshTopologyCircle; rewrite topologyRing_closed, map_length; apply idxR_length.
Qed.
