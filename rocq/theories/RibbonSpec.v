(** Vocabulary for the statements about frames and ribbons. *)
From Verif Require Import Base RibbonModel.
Open Scope R_scope.

Definition unitv (v : V3) : Prop := vdot v v = 1.
Definition perpv (a b : V3) : Prop := vdot a b = 0.

(** The reflection in the plane through the origin with normal [v]. *)
Definition mirror (v x : V3) : V3 := x -v v *v (2 * vdot v x / vdot v v).

(** Between two consecutive frames the tangent mirrored in the bisector plane
    of the two points is not closer to the new tangent than the tolerance
    (unless it is the new tangent, or the frame was repeated).  For points close
    to each other on a smooth curve the mirrored tangent is almost the opposite
    of the new one. *)
Definition settled (eps : R) (f f' : frame) : Prop :=
  f' = f \/
  let dL := mirror (fr_p f' -v fr_p f) (fr_d f) in
  fr_d f' = dL \/ eps <= vdot (fr_d f' -v dL) (fr_d f' -v dL).
Definition all_settled (eps : R) (l : list frame) : Prop :=
  forall i f f', nth_error l i = Some f -> nth_error l (S i) = Some f' -> settled eps f f'.

(** [d] is the unit vector in the direction of [v]. *)
Definition directs (d v : V3) : Prop := unitv d /\ 0 < vnorm v /\ v = d *v vnorm v.

(** The straight segment from the origin to (1,0,0), for examples. *)
Definition line : curve := mkCurve (fun u => mkV3 u 0 0) (fun _ => mkV3 1 0 0) (fun a b => b - a).
