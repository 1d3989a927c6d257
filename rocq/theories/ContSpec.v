(** Vocabulary for the continuity of patches. *)
From Verif Require Import Base DomainModel ParamModel RibbonModel SurfaceModel.
Open Scope R_scope.

Definition eventually (P : nat -> Prop) : Prop := exists N, forall k, (N <= k)%nat -> P k.
(** Sequences of points, vectors and lists of a fixed length that converge. *)
Definition cv2 (u : nat -> V2) (l : V2) : Prop := Un_cv (fun k => px (u k)) (px l) /\ Un_cv (fun k => py (u k)) (py l).
Definition cv3 (u : nat -> V3) (l : V3) : Prop :=
  Un_cv (fun k => vx (u k)) (vx l) /\ Un_cv (fun k => vy (u k)) (vy l) /\ Un_cv (fun k => vz (u k)) (vz l).
Definition cvL {T : Type} (C : (nat -> T) -> T -> Prop) (u : nat -> list T) (l : list T) : Prop :=
  (forall k, length (u k) = length l) /\
  forall i x, nth_error l i = Some x -> exists v, (forall k, nth_error (u k) i = Some (v k)) /\ C v x.
(** If there is a limit value, then all but finitely many members have values,
    and these converge to it. *)
Definition ocv {T : Type} (C : (nat -> T) -> T -> Prop) (u : nat -> option T) (o : option T) : Prop :=
  forall l, o = Some l -> exists v, eventually (fun k => u k = Some (v k)) /\ C v l.

(** A patch has a value at [p], and along every sequence of points that
    converges to [p] all but finitely many points have values, which converge to
    that at [p]. *)
Definition continuous_at (f : V2 -> option V3) (p : V2) : Prop :=
  exists y, f p = Some y /\
    forall q, cv2 q p -> exists v, eventually (fun k => f (q k) = Some (v k)) /\ cv3 v y.

(** A boundary curve and a cross derivative that are continuous along the side. *)
Definition steady_curve (c : curve) : Prop :=
  forall u s, (forall k, 0 <= u k <= 1) -> Un_cv u s -> cv3 (fun k => cpt c (u k)) (cpt c s).
Definition steady_ribbon (r : sribbon) : Prop :=
  steady_curve (sr_curve r) /\ forall u s, (forall k, 0 <= u k <= 1) -> Un_cv u s -> ocv cv3 (fun k => sr_cross r (u k)) (sr_cross r s).
Definition steady (sf : surf) : Prop := Forall steady_ribbon (sf_ribbons sf).

(** ** Where the tests against the tolerance do not switch

    Conditions on the ribbon coordinates [sds] at the point: no distance, and no
    sum that rationalTwist tests, is equal to the tolerance. *)
Definition off_sides (eps : R) (sds : list V2) : Prop := forall i sd, nth_error sds i = Some sd -> py sd <> eps.
Definition off_twist (eps : R) (g : bool) (s1 s2 : R) : Prop :=
  forall g1 g2, gamma g s1 = Some g1 -> gamma g s2 = Some g2 -> clamp g1 0 1 + clamp g2 0 1 <> eps.
Definition off_corners (eps : R) (sf : surf) (sds : list V2) : Prop :=
  forall i sd sd1, nth_error sds i = Some sd -> nth_error sds (nxt (sf_n sf) i) = Some sd1 -> off_twist eps (sf_gamma sf) (1 - px sd) (px sd1).
Definition off_ribbons (eps : R) (sf : surf) (sds : list V2) : Prop :=
  forall i sd, nth_error sds i = Some sd -> off_twist eps (sf_gamma sf) (py sd) (px sd) /\ off_twist eps (sf_gamma sf) (1 - px sd) (py sd).

(** Barycentric coordinates [l] at [uv]: the sum of the two coordinates of each
    side is not the tolerance; where it is smaller, neither is the weighted sum of
    the heights over the neighbouring sides that is used instead. *)
Definition off_bary (eps : R) (d : dom) (l : list R) (uv : V2) : Prop :=
  let n := d_n d in
  forall i li lp, nth_error l i = Some li -> nth_error l (prv n i) = Some lp -> lp + li <> eps /\
    (lp + li < eps -> forall alpha beta vp vi lop lenp lon lenn,
      angle d i = Some alpha -> angle d (prv n i) = Some beta -> nth_error (d_verts d) (prv n i) = Some vp -> nth_error (d_verts d) i = Some vi ->
      toLocal d (prv n i) (uv -p vp) = Some lop -> edgeLength d (prv n i) = Some lenp ->
      toLocal d (nxt n i) (uv -p vi) = Some lon -> edgeLength d (nxt n i) = Some lenn ->
      sin alpha * (py lop * lenp) + sin beta * (py lon * lenn) <> eps).
(** The quadratic equation of the bilinear map with coefficients [a], [b], [c]. *)
Definition off_quadratic (eps a b c : R) : Prop :=
  (Rabs a < eps -> Rabs b <> eps) /\
  (eps <= Rabs a -> b * b - 4 * a * c <> eps /\
    forall lo hi, lo <= hi -> lo + hi = - b / a -> (hi - lo) * (hi - lo) * (a * a) = (if Rlt_dec (b * b - 4 * a * c) eps then 0 else b * b - 4 * a * c) ->
      Rmax 0 (hi - 1) <> Rmax 0 (- lo)).
Definition off_bilinear (eps : R) (d : dom) (i : nat) (uv : V2) : Prop :=
  let n := d_n d in
  forall v0 v1 v2 v3 p1 p2 p, nth_error (d_verts d) (prv2 n i) = Some v0 -> nth_error (d_verts d) (prv n i) = Some v1 ->
    nth_error (d_verts d) i = Some v2 -> nth_error (d_verts d) (nxt n i) = Some v3 ->
    toLocal d i (v0 -p v1) = Some p1 -> toLocal d i (v3 -p v2) = Some p2 -> toLocal d i (uv -p v1) = Some p ->
    off_quadratic eps (py p1 - py p2) (px p * py p2 - (px p + 1) * py p1 + (px p1 - px p2) * py p) (px p * py p1 - py p * px p1).
(** None of the four distances that the constrained parameterization weights
    with is the tolerance. *)
Definition off_square (eps : R) (sd : V2) : Prop := py sd <> eps /\ 1 - px sd <> eps /\ 1 - py sd <> eps /\ px sd <> eps.
(** The tests of a parameterization at the point [uv]. *)
Definition off_coords (eps : R) (d : dom) (t : btype) (uv : V2) : Prop :=
  (forall v, In v (d_verts d) -> baryRadius t (uv -p v) <> eps) /\ forall l, barycentric t eps d uv = Some l -> off_bary eps d l uv.
Definition off_params (k : pkind) (eps : R) (d : dom) (uv : V2) : Prop :=
  match k with
  | KBary t => off_coords eps d t uv
  | KConstrained t => off_coords eps d t uv /\ forall i sd, baryMap t eps d i uv = Some sd -> off_square eps sd
  | KBilinear | KInterconnected | KParallel | KSuperD => forall i, off_bilinear eps d i uv
  | KOverlap _ => False
  end.
(** The tests for corners in generalized Bezier patches. *)
Definition off_pairs (eps : R) (n : nat) (sds : list V2) : Prop :=
  forall i sd sdn, nth_error sds i = Some sd -> nth_error sds (nxt n i) = Some sdn -> py sd + py sdn <> eps.
