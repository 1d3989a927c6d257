(** Vocabulary for the statements about meshes of several patches. *)
From Verif Require Import Base MeshSpec JoinModel.
Open Scope R_scope.

(** There is a triangle with an edge from the point [P] to the point [Q]. *)
Definition has_edge (m : pmesh) (P Q : V3) : Prop :=
  exists a b, In (a, b) (mesh_edges (pm_tris m)) /\ nth_error (pm_points m) a = Some P /\ nth_error (pm_points m) b = Some Q.

(** The same with no triangle on the other side in this mesh. *)
Definition has_rim (m : pmesh) (P Q : V3) : Prop :=
  exists a b, boundary_edge (pm_tris m) (a, b) /\ nth_error (pm_points m) a = Some P /\ nth_error (pm_points m) b = Some Q.

(** Two boundary functions run over the same points in opposite directions. *)
Definition facing (b b' : R -> V3) : Prop := forall s, 0 <= s <= 1 -> b' (1 - s) = b s.

(** At the parameters of the mesh on the sides of the domain the patch follows
    the boundary functions [bd]; [edge e s] is the point of the domain at the
    parameter [s] of side [e]. *)
Definition follows (n r : nat) (edge : nat -> R -> option V2) (eval : V2 -> option V3) (bd : nat -> R -> V3) : Prop :=
  forall e i uv, (e < n)%nat -> (i < r)%nat -> edge e (INR i / INR r) = Some uv -> eval uv = Some (bd e (INR i / INR r)).

(** The boundary functions form a closed loop. *)
Definition loop_of (n : nat) (bd : nat -> R -> V3) : Prop := forall e, (e < n)%nat -> bd e 1 = bd ((e + 1) mod n)%nat 0.
