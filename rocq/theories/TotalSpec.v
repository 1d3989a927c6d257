(** Vocabulary for the statements about where patches have a value. *)
From Verif Require Import Base MeshModel MeshSpec GeomSpec DomainModel JoinModel.
Open Scope R_scope.

(** [p] is on the left of every side or on its line: the closed polygon. *)
Definition in_polygon (vs : list V2) (p : V2) : Prop :=
  forall k, (k < length vs)%nat -> 0 <= sarea (vtx vs (prv (length vs) k)) (vtx vs k) p.

(** A function has a value at every point of the polygon, and at every vertex
    of its mesh at every resolution. *)
Definition total_on (d : dom) (vs : list V2) (eval : V2 -> option V3) : Prop :=
  (forall uv, in_polygon vs uv -> exists p, eval uv = Some p) /\
  (forall r, (1 <= r)%nat -> exists m, surfaceMesh (d_n d) (d_center d) (d_verts d) eval r = Some m /\
     length (pm_points m) = meshSize (length vs) r).

(** Heights over side [i], in units of its length: of the vertices before and
    after the side, and of the point over the two neighbouring sides. *)
Definition over (vs : list V2) (i : nat) (a b p : V2) : R :=
  let v := vtx vs i -p vtx vs (prv (length vs) i) in sarea a b p / pdot v v.
(** The quadratic equation of the bilinear map for side [i] is treated as linear
    or has a discriminant of at least the tolerance. *)
Definition separated (vs : list V2) (eps : R) (i : nat) (p : V2) : Prop :=
  let n := length vs in
  let a := vtx vs (prv n i) in let b := vtx vs i in let a' := vtx vs (prv n (prv n i)) in let b' := vtx vs (nxt n i) in
  let diff := over vs i a b a' - over vs i a b b' in
  let A := over vs i a' a p in let B := over vs i b b' p in
  Rabs diff < eps \/ eps <= (diff + B - A) * (diff + B - A) + 4 * A * B.

(** The point where the bilinear map of side [i] divides by zero: the equation is
    quadratic, its discriminant is below the tolerance, and the heights of the
    point over the neighbouring sides add up to those of the neighbouring vertices. *)
Definition stuck (vs : list V2) (eps : R) (i : nat) (p : V2) : Prop :=
  let n := length vs in
  let a := vtx vs (prv n i) in let b := vtx vs i in let a' := vtx vs (prv n (prv n i)) in let b' := vtx vs (nxt n i) in
  let h1 := over vs i a b a' in let h2 := over vs i a b b' in
  let A := over vs i a' a p in let B := over vs i b b' p in
  eps <= Rabs (h1 - h2) /\ (h1 - h2 + B - A) * (h1 - h2 + B - A) + 4 * A * B < eps /\ A + B = h1 + h2.

(** A strictly convex polygon with a center inside; the one computed from the
    polygon is such a center (C07). *)
Definition convex_domain (c : V2) (vs : list V2) (d : dom) : Prop :=
  domainFrames c vs = Some d /\ (3 <= length vs)%nat /\ strictly_convex vs /\ inside vs c.

(** The thin quadrilateral of the counterexample. *)
Definition thin (q : R) : list V2 := [mkV2 (-1) (3 / 5 * q); mkV2 0 0; mkV2 1 0; mkV2 1 (2 / 5 * q)].
