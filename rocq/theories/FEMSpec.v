(** Vocabulary for the statements about harmonic and biharmonic patches. *)
From Verif Require Import Base MeshSpec GeomSpec.
Open Scope R_scope.

(** [M x] for a matrix of size [n]. *)
Definition mapply (n : nat) (M : nat -> nat -> R) (x : nat -> R) (i : nat) : R := rsum n (fun j => M i j * x j).
Definition solves (n : nat) (M : nat -> nat -> R) (b x : nat -> R) : Prop := forall i, (i < n)%nat -> mapply n M x i = b i.
(** The system of [M] has exactly one solution for each right hand side. *)
Definition invertible (n : nat) (M : nat -> nat -> R) : Prop :=
  forall b, exists x, solves n M b x /\ forall y, solves n M b y -> forall i, (i < n)%nat -> y i = x i.
(** A solver for three right hand sides that is right whenever the matrix is
    invertible. *)
Definition exact_solver (solve : nat -> (nat -> nat -> R) -> (nat -> V3) -> nat -> V3) : Prop :=
  forall n M b, invertible n M ->
    solves n M (fun i => vx (b i)) (fun i => vx (solve n M b i)) /\
    solves n M (fun i => vy (b i)) (fun i => vy (solve n M b i)) /\
    solves n M (fun i => vz (b i)) (fun i => vz (solve n M b i)).

(** A mesh in the plane whose vertices are 0 .. n-1, all used, with
    counter-clockwise triangles, no directed edge used twice, and all boundary
    edges between vertices with [bnd]. *)
Definition plane_mesh (n : nat) (ts : list triangle) (P : nat -> V2) (bnd : nat -> Prop) : Prop :=
  (forall t, In t ts -> proper_triangle n t) /\
  (forall k, (k < n)%nat -> exists t, In t ts /\ In k (corners t)) /\
  (forall a b c, In (a, b, c) ts -> 0 < sarea (P a) (P b) (P c)) /\
  oriented_manifold ts /\
  (forall e, boundary_edge ts e -> bnd (fst e) /\ bnd (snd e)).

(** An angle is not obtuse. *)
Definition non_obtuse (p q r : V3) : Prop := 0 <= vdot (q -v p) (r -v p).

(** The gradient of the function that is linear on the triangle [p q s] and
    has the values [x y z] at its corners. *)
Definition slope (p q s : V2) (x y z : R) : V2 :=
  mkV2 (((y - x) * (py s - py p) - (z - x) * (py q - py p)) / sarea p q s)
       (((z - x) * (px q - px p) - (y - x) * (px s - px p)) / sarea p q s).

(** Integral of its squared length over the mesh: the Dirichlet energy of the
    piecewise linear function with values [x]. *)
Fixpoint dirichlet_energy (P : nat -> V2) (x : nat -> R) (ts : list triangle) : R :=
  match ts with
  | [] => 0
  | (a, b, c) :: ts => pnorm2 (slope (P a) (P b) (P c) (x a) (x b) (x c)) * (sarea (P a) (P b) (P c) / 2) + dirichlet_energy P x ts
  end.
(** The energy of a surface given by its three coordinates. *)
Definition surface_energy (P : nat -> V2) (X : nat -> V3) (ts : list triangle) : R :=
  dirichlet_energy P (fun k => vx (X k)) ts + dirichlet_energy P (fun k => vy (X k)) ts + dirichlet_energy P (fun k => vz (X k)) ts.
