(** Properties of the evaluation meshes: C02, C03, C04. *)

From Verif Require Import Base MeshModel MeshSpec MeshProofs MeshProofs4 MeshProofsRing MeshEdge.
Open Scope nat_scope.

(** C02: triangles use existing, pairwise different vertices; triangle count. *)
Theorem C02_triangles_valid : forall n r t, 3 <= n ->
  In t (meshTopology n r) -> proper_triangle (meshSize n r) t.
Proof. exact mesh_proper. Qed.
Print Assumptions C02_triangles_valid.

Theorem C02_triangles_valid_circle : forall n r t, 3 <= n ->
  In t (meshTopologyCircle n r) -> proper_triangle (meshSizeCircle n r) t.
Proof.
  intros n r t Hn; rewrite meshSizeCircle_rs; exact (properR n r Hn t).
Qed.
Print Assumptions C02_triangles_valid_circle.

Theorem C02_triangle_count : forall r,
  length (meshTopology 3 r) = r * r /\ length (meshTopology 4 r) = 2 * (r * r) /\
  (forall n, 5 <= n -> length (meshTopology n r) = n * (r * r)) /\
  (forall n, length (meshTopologyCircle n r) = n * (r * r)).
Proof. exact mesh_counts. Qed.
Print Assumptions C02_triangle_count.

(** No vertex is left out: each is a corner of some triangle. *)
Theorem C02_vertices_used : forall n r k, 3 <= n -> 1 <= r -> k < meshSize n r ->
  exists t, In t (meshTopology n r) /\ In k (corners t).
Proof. exact mesh_used. Qed.
Print Assumptions C02_vertices_used.

Example C02_example : In (5, 1, 2) (meshTopology 5 2) \/ In (0, 1, 2) (meshTopology 5 2).
Proof. right; simpl; auto. Qed.
Example C02_example_count : length (meshTopology 6 3) = 54.
Proof. reflexivity. Qed.

(** C03: no directed edge is used twice; an edge without partner is on the
    boundary loop, every other edge has exactly one triangle on each side. *)
Theorem C03_oriented_manifold : forall n r, 3 <= n -> oriented_manifold (meshTopology n r).
Proof. exact mesh_manifold. Qed.
Print Assumptions C03_oriented_manifold.

Theorem C03_oriented_manifold_circle : forall n r, 3 <= n ->
  oriented_manifold (meshTopologyCircle n r).
Proof. intros n r Hn; exact (manifoldR n r Hn). Qed.
Print Assumptions C03_oriented_manifold_circle.

(** Euler's formula of a disk: with V vertices, F triangles and B boundary
    edges, 2V = F + B + 2 (equivalent to V - E + F = 1 when 2E = 3F + B). *)
Theorem C03_euler : forall n r, 3 <= n -> 1 <= r ->
  2 * meshSize n r = length (meshTopology n r) + n * r + 2.
Proof. exact mesh_euler_n. Qed.
Print Assumptions C03_euler.

Example C03_example : length (mesh_edges (meshTopology 5 2)) = 60 /\
  In (1, 2) (mesh_edges (meshTopology 5 2)) /\ In (2, 1) (mesh_edges (meshTopology 5 2)).
Proof. repeat split; vm_compute; auto 70. Qed.

(** C04: the boundary is one closed loop of n*r vertices, exactly the onEdge
    ones.  [rsqrt] stands for [std::round(std::sqrt(.))], used for triangular
    domains only; it has to be right on perfect squares up to 8*index+9 (C05
    shows that double precision is, below 2^53). *)
Theorem C04_boundary_loop : forall n r, 3 <= n -> 1 <= r -> exists L,
  boundary_loop (meshTopology n r) (n * r) L /\
  forall rsqrt k, k < meshSize n r ->
    (n = 3 -> forall m, m * m <= 8 * k + 9 -> rsqrt (m * m) = m) ->
    (onEdge rsqrt n r k = true <-> exists p, p < n * r /\ L p = k).
Proof.
  intros n r Hn Hr; exists (mesh_loop n r); split; [exact (mesh_boundary n r Hn)|].
  intros rsqrt k; exact (mesh_onEdge rsqrt n r k Hn Hr).
Qed.
Print Assumptions C04_boundary_loop.

Theorem C04_boundary_loop_circle : forall n r, 3 <= n -> 1 <= r -> exists L,
  boundary_loop (meshTopologyCircle n r) (n * r) L /\
  forall k, k < meshSizeCircle n r ->
    (onEdgeCircle n r k = true <-> exists p, p < n * r /\ L p = k).
Proof.
  intros n r Hn Hr; exists (fun p => ri n (cpos n r p)); split; [exact (boundaryR n r Hn)|].
  intros k; apply circle_onEdge; lia.
Qed.
Print Assumptions C04_boundary_loop_circle.

Example C04_example : boundary_edge (meshTopology 3 2) (3, 4) /\
  onEdge Nat.sqrt 3 2 3 = true /\ onEdge Nat.sqrt 3 3 4 = false.
Proof.
  repeat split; try reflexivity.
  - simpl; auto 20.
  - vm_compute. intros H; repeat (destruct H as [H|H]; [discriminate|]); exact H.
Qed.
