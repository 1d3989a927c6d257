(** Specification vocabulary for triangle meshes, independent of how the
    meshes are generated. *)

From Verif Require Import Base.
Open Scope nat_scope.

(** A mesh is a list of triangles, each a triple of vertex indices. *)
Definition triangle : Type := (nat * nat * nat)%type.

(** The three directed edges of a triangle, in its orientation. *)
Definition dedges (t : triangle) : list (nat * nat) :=
  let '(a, b, c) := t in [(a, b); (b, c); (c, a)].

Definition mesh_edges (ts : list triangle) : list (nat * nat) := flat_map dedges ts.

Definition flip (e : nat * nat) : nat * nat := (snd e, fst e).

Definition corners (t : triangle) : list nat := let '(a, b, c) := t in [a; b; c].

(** A proper triangle over [size] vertices. *)
Definition proper_triangle (size : nat) (t : triangle) : Prop :=
  let '(a, b, c) := t in
  (a < size /\ b < size /\ c < size) /\ (a <> b /\ b <> c /\ c <> a).

(** Consistently oriented, edge-manifold: no directed edge is used twice. *)
Definition oriented_manifold (ts : list triangle) : Prop := NoDup (mesh_edges ts).

(** A boundary edge has a triangle on one side only. *)
Definition boundary_edge (ts : list triangle) (e : nat * nat) : Prop :=
  In e (mesh_edges ts) /\ ~ In (flip e) (mesh_edges ts).

(** [L 0, L 1, ..., L (len-1)] is a simple closed loop consisting of exactly
    the boundary edges. *)
Definition boundary_loop (ts : list triangle) (len : nat) (L : nat -> nat) : Prop :=
  (forall p q, p < len -> q < len -> L p = L q -> p = q) /\
  (forall e, boundary_edge ts e <->
     exists p, p < len /\ e = (L p, L ((p + 1) mod len))).
