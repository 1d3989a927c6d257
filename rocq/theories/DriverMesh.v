(** The triangles of the test driver's fence and ribbon meshes. *)
From Verif Require Import Base MeshSpec MeshModel MeshProofs BlendProofs DriverModel.
Open Scope nat_scope.

(** A quad of two triangles between columns [a] and [b]. *)
Definition quad (a b : nat) : list triangle := [(2 * a, 2 * a + 1, 2 * b); (2 * a + 1, 2 * b + 1, 2 * b)].
Definition strip (m : nat) : list triangle := flat_map (fun k => quad k (nxt m k)) (seq 0 m).

Lemma fenceLoop_value : forall fuel k m, k < m -> m <= k + fuel ->
  fenceLoop fuel (2 * k) (m * 2) = (flat_map (fun j => quad j (j + 1)) (seq k (m - 1 - k)), 2 * (m - 1)).
Proof.
  intros fuel. induction fuel as [|f IH]; intros k m Hk Hf; [lia|]. cbn [fenceLoop]. destruct (Nat.ltb_spec (2 * k) (m * 2 - 2)).
  - replace (2 * k + 2) with (2 * (k + 1)) by lia. rewrite (IH (k + 1) m) by lia. replace (m - 1 - k) with (S (m - 1 - (k + 1))) by lia. cbn [seq flat_map].
    replace (S k) with (k + 1) by lia. unfold quad at 2. cbn [app]. replace (2 * k + 1 + 2) with (2 * (k + 1) + 1) by lia. replace (2 * k + 1 + 1) with (2 * (k + 1)) by lia. reflexivity.
  - replace (m - 1 - k) with 0 by lia. cbn [seq flat_map]. f_equal. lia.
Qed.
Lemma fence_value : forall n res, 1 <= n * res -> fenceTriangles n res = Some (strip (n * res)).
Proof.
  intros n res H. unfold fenceTriangles. set (m := n * res) in *. destruct (Nat.ltb_spec (m * 2) 2); [lia|].
  pose proof (fenceLoop_value (m * 2) 0 m ltac:(lia) ltac:(lia)) as E. change (2 * 0) with 0 in E. rewrite E. clear E. f_equal. unfold strip.
  replace (seq 0 m) with (seq 0 (m - 1) ++ [m - 1]) by (replace m with (S (m - 1)) at 3 by lia; rewrite seq_S; reflexivity).
  rewrite flat_map_app. f_equal.
  - replace (m - 1 - 0) with (m - 1) by lia. rewrite !flat_map_concat_map. f_equal. apply map_ext_in. intros k Hk. apply in_seq in Hk. f_equal.
    destruct (nxt_spec m k ltac:(lia)) as [[? ->]|[? ->]]; lia.
  - cbn [flat_map]. rewrite app_nil_r. unfold quad. destruct (nxt_spec m (m - 1) ltac:(lia)) as [[? ->]|[? ->]]; [|lia]. reflexivity.
Qed.

Definition quad_edges (a b : nat) : list (nat * nat) :=
  [(2 * a, 2 * a + 1); (2 * a + 1, 2 * b); (2 * b, 2 * a); (2 * a + 1, 2 * b + 1); (2 * b + 1, 2 * b); (2 * b, 2 * a + 1)].
Lemma strip_edges : forall m, mesh_edges (strip m) = flat_map (fun k => quad_edges k (nxt m k)) (seq 0 m).
Proof.
  intros m. unfold strip, mesh_edges. induction (seq 0 m) as [|k l IH]; [reflexivity|]. cbn [flat_map]. rewrite flat_map_app, IH. reflexivity.
Qed.
Lemma quad_in : forall a b e, In e (quad_edges a b) <->
  e = (2 * a, 2 * a + 1) \/ e = (2 * a + 1, 2 * b) \/ e = (2 * b, 2 * a) \/ e = (2 * a + 1, 2 * b + 1) \/ e = (2 * b + 1, 2 * b) \/ e = (2 * b, 2 * a + 1).
Proof. intros a b e. unfold quad_edges. simpl. intuition congruence. Qed.

Lemma nxt_inj : forall m a b, a < m -> b < m -> nxt m a = nxt m b -> a = b.
Proof. intros m a b Ha Hb E. rewrite <- (prv_nxt m a Ha), <- (prv_nxt m b Hb), E. reflexivity. Qed.
Lemma nxt_differs : forall m k, 2 <= m -> k < m -> nxt m k <> k.
Proof. intros m k Hm Hk. destruct (nxt_spec m k Hk) as [[? ->]|[? ->]]; lia. Qed.

Lemma strip_manifold : forall m, 2 <= m -> oriented_manifold (strip m).
Proof.
  intros m Hm. unfold oriented_manifold. rewrite strip_edges. apply NoDup_flat_map; [apply seq_NoDup| |].
  - intros k Hk. apply in_seq in Hk. assert (N := nxt_differs m k Hm ltac:(lia)). unfold quad_edges. set (b := nxt m k) in *. clearbody b.
    repeat constructor; simpl; intros C; repeat match type of C with _ \/ _ => destruct C as [C|C] end; try contradiction; injection C; intros; lia.
  - intros j k e Hj Hk Ej Ek. apply in_seq in Hj, Hk. destruct (Nat.eq_dec j k) as [|N]; [assumption|exfalso]. assert (Nj := nxt_differs m j Hm ltac:(lia)). assert (Nk := nxt_differs m k Hm ltac:(lia)).
    assert (Nx : nxt m j <> nxt m k) by (intros C; apply N, (nxt_inj m j k); [lia|lia|exact C]).
    apply quad_in in Ej. apply quad_in in Ek. set (b := nxt m j) in *. set (c := nxt m k) in *. clearbody b c.
    destruct Ej as [->|[->|[->|[->|[->| ->]]]]]; destruct Ek as [C|[C|[C|[C|[C|C]]]]]; injection C; intros; lia.
Qed.
Lemma strip_proper : forall m t, 2 <= m -> In t (strip m) -> proper_triangle (2 * m) t.
Proof.
  intros m t Hm H. unfold strip in H. apply in_flat_map in H. destruct H as (k & Hk & H). apply in_seq in Hk.
  assert (N := nxt_differs m k Hm ltac:(lia)). assert (L := nxt_lt m k ltac:(lia)). destruct H as [<-|[<-|[]]]; simpl; repeat split; lia.
Qed.
Lemma strip_boundary : forall m e, 3 <= m -> (boundary_edge (strip m) e <-> exists k, k < m /\ (e = (2 * nxt m k, 2 * k) \/ e = (2 * k + 1, 2 * nxt m k + 1))).
Proof.
  intros m e Hm. unfold boundary_edge. rewrite strip_edges, !in_flat_map. split.
  - intros ((k & Hk & E) & F). apply in_seq in Hk. exists k. split; [lia|].
    assert (F' : forall j, j < m -> ~ In (flip e) (quad_edges j (nxt m j))) by (intros j Hj C; apply F; exists j; split; [apply in_seq; lia|exact C]).
    apply quad_in in E. destruct E as [->|[->|[->|[->|[->| ->]]]]]; auto; exfalso; unfold flip in F'; cbn [fst snd] in F'.
    + apply (F' (prv m k)); [apply prv_lt; lia|]. apply quad_in. rewrite nxt_prv by lia. auto 10.
    + apply (F' k); [lia|]. apply quad_in. auto 10.
    + apply (F' (nxt m k)); [apply nxt_lt; lia|]. apply quad_in. auto 10.
    + apply (F' k); [lia|]. apply quad_in. auto 10.
  - intros (k & Hk & E). split; [exists k; split; [apply in_seq; lia|]; apply quad_in; destruct E as [->| ->]; auto 10|].
    intros (j & Hj & F). apply in_seq in Hj. apply quad_in in F.
    assert (Nk := nxt_differs m k ltac:(lia) ltac:(lia)). assert (Nj := nxt_differs m j ltac:(lia) ltac:(lia)).
    assert (A : j = k -> nxt m j = nxt m k) by congruence.
    assert (B : nxt m j = k -> nxt m k = j -> False).
    { intros B1 B2. destruct (nxt_spec m j ltac:(lia)) as [[? ?]|[? ?]]; destruct (nxt_spec m k Hk) as [[? ?]|[? ?]]; lia. }
    destruct E as [->| ->]; unfold flip in F; cbn [fst snd] in F; set (b := nxt m j) in *; set (c := nxt m k) in *; clearbody b c;
      destruct F as [C|[C|[C|[C|[C|C]]]]]; injection C; intros; try lia; apply B; lia.
Qed.

(** The ribbons: one strip of [res] quads for each side. *)
Lemma ribbonRow_value : forall res k, ribbonRow res (2 * k) = flat_map (fun j => quad j (j + 1)) (seq k res).
Proof.
  intros res. induction res as [|r IH]; intros k; [reflexivity|]. cbn [ribbonRow seq flat_map]. replace (2 * k + 2) with (2 * (k + 1)) by lia. rewrite (IH (k + 1)).
  replace (S k) with (k + 1) by lia. unfold quad at 2. cbn [app]. replace (2 * k + 1 + 2) with (2 * (k + 1) + 1) by lia. replace (2 * k + 1 + 1) with (2 * (k + 1)) by lia. reflexivity.
Qed.
Lemma ribbonRows_value : forall n res k, ribbonRows n res (2 * k) = flat_map (fun i => flat_map (fun j => quad j (j + 1)) (seq (k + i * (res + 1)) res)) (seq 0 n).
Proof.
  intros n. induction n as [|n IH]; intros res k; [reflexivity|]. cbn [ribbonRows]. rewrite ribbonRow_value. replace (2 * k + 2 * res + 2) with (2 * (k + (res + 1))) by lia. rewrite IH.
  cbn [seq flat_map]. replace (k + 0 * (res + 1)) with k by lia. f_equal. rewrite <- seq_shift, !flat_map_concat_map, map_map. f_equal. apply map_ext. intros i.
  replace (k + (res + 1) + i * (res + 1)) with (k + S i * (res + 1)) by lia. reflexivity.
Qed.
Definition columns (n res : nat) : list nat := flat_map (fun i => seq (i * (res + 1)) res) (seq 0 n).
Lemma ribbon_value : forall n res, ribbonTriangles n res = flat_map (fun c => quad c (c + 1)) (columns n res).
Proof.
  intros n res. unfold ribbonTriangles. pose proof (ribbonRows_value n res 0) as E. change (2 * 0) with 0 in E. rewrite E. clear E. unfold columns. induction (seq 0 n) as [|i l IH]; [reflexivity|].
  cbn [flat_map]. rewrite flat_map_app, IH. reflexivity.
Qed.
Lemma columns_in : forall n res c, In c (columns n res) <-> exists i j, i < n /\ j < res /\ c = i * (res + 1) + j.
Proof.
  intros n res c. unfold columns. rewrite in_flat_map. split.
  - intros (i & Hi & Hc). apply in_seq in Hi, Hc. exists i, (c - i * (res + 1)). lia.
  - intros (i & j & Hi & Hj & ->). exists i. split; apply in_seq; lia.
Qed.
Lemma columns_nodup : forall n res, NoDup (columns n res).
Proof.
  intros n res. apply NoDup_flat_map; [apply seq_NoDup|intros; apply seq_NoDup|]. intros i j c Hi Hj A B. apply in_seq in A, B. nia.
Qed.
Lemma ribbon_edges : forall n res, mesh_edges (ribbonTriangles n res) = flat_map (fun c => quad_edges c (c + 1)) (columns n res).
Proof.
  intros n res. rewrite ribbon_value. unfold mesh_edges. induction (columns n res) as [|k l IH]; [reflexivity|]. cbn [flat_map]. rewrite flat_map_app, IH. reflexivity.
Qed.
Lemma ribbon_manifold : forall n res, oriented_manifold (ribbonTriangles n res).
Proof.
  intros n res. unfold oriented_manifold. rewrite ribbon_edges. apply NoDup_flat_map; [apply columns_nodup| |].
  - intros k Hk. unfold quad_edges. repeat constructor; simpl; intros C; repeat match type of C with _ \/ _ => destruct C as [C|C] end; try contradiction; injection C; intros; lia.
  - intros j k e Hj Hk Ej Ek. apply quad_in in Ej. apply quad_in in Ek.
    destruct Ej as [->|[->|[->|[->|[->| ->]]]]]; destruct Ek as [C|[C|[C|[C|[C|C]]]]]; injection C; intros; lia.
Qed.
