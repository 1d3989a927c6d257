(** Specification vocabulary for plane geometry. *)

From Verif Require Import Base.
Open Scope R_scope.

(** Twice the signed area of a triangle; positive when counter-clockwise. *)
Definition sarea (a b c : V2) : R := pcross (b -p a) (c -p a).

(** A polygon given by its vertex list: side [k] runs from vertex [k-1] to
    vertex [k] (cyclically). *)
Definition vtx (vs : list V2) (i : nat) : V2 := nth i vs pzero.

(** Strictly convex and counter-clockwise: every vertex that is not an end of
    side [k] is strictly to the left of it. *)
Definition strictly_convex (vs : list V2) : Prop :=
  let n := length vs in
  forall k i, (k < n)%nat -> (i < n)%nat -> i <> k -> i <> prv n k ->
    0 < sarea (vtx vs (prv n k)) (vtx vs k) (vtx vs i).

(** [p] is the combination of the vertices with weights [w]. *)
Definition combination (vs : list V2) (w : nat -> R) (p : V2) : Prop :=
  p = psum (length vs) (fun i => vtx vs i *p w i).

Definition convex_weights (n : nat) (w : nat -> R) : Prop :=
  (forall i, (i < n)%nat -> 0 <= w i) /\ rsum n w = 1.

(** [c] is strictly to the left of every side. *)
Definition inside (vs : list V2) (c : V2) : Prop :=
  forall k, (k < length vs)%nat -> 0 < sarea (vtx vs (prv (length vs) k)) (vtx vs k) c.

(** [p] is a convex combination of the vertices. *)
Definition in_hull (vs : list V2) (p : V2) : Prop :=
  exists w, convex_weights (length vs) w /\ combination vs w p.
