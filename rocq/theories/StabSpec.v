(** Two sets of boundary data that differ by a given amount.  No code of its own. *)
From Verif Require Import Base UtilModel ParamModel RibbonModel SurfaceModel GBModel.
Open Scope R_scope.

(** The distance of two points. *)
Definition apart (a b : V3) : R := vnorm (a -v b).
(** Two evaluations: both have a value and the values are at most [B] apart, or
    none has one. *)
Definition within (B : R) (o o' : option V3) : Prop :=
  match o, o' with Some p, Some p' => apart p p' <= B | None, None => True | _, _ => False end.

(** Curves at most [e] apart, cross derivatives at most [k] apart. *)
Definition ribbons_within (e k : R) (sf sf' : surf) : Prop :=
  sf_n sf' = sf_n sf /\ sf_gamma sf' = sf_gamma sf /\ length (sf_ribbons sf') = length (sf_ribbons sf) /\
  forall i r r', nth_error (sf_ribbons sf) i = Some r -> nth_error (sf_ribbons sf') i = Some r' ->
    forall s, 0 <= s <= 1 -> apart (cpt (sr_curve r) s) (cpt (sr_curve r') s) <= e /\ within k (sr_cross r s) (sr_cross r' s).
(** Corner points at most [e], tangents at most [t], twists at most [w] apart. *)
Definition corners_within (e t w : R) (sf sf' : surf) : Prop :=
  length (sf_corners sf') = length (sf_corners sf) /\
  forall i c c', nth_error (sf_corners sf) i = Some c -> nth_error (sf_corners sf') i = Some c' ->
    apart (cn_point c) (cn_point c') <= e /\ apart (cn_tan1 c) (cn_tan1 c') <= t /\ apart (cn_tan2 c) (cn_tan2 c') <= t /\
    apart (cn_twist1 c) (cn_twist1 c') <= w /\ apart (cn_twist2 c) (cn_twist2 c') <= w.

(** The local parameters are in the unit square. *)
Definition unit_params (sds : list V2) : Prop := forall i sd, nth_error sds i = Some sd -> 0 <= px sd <= 1 /\ 0 <= py sd <= 1.

(** The largest value of the distance correction on [0,1]. *)
Definition reach (g : bool) : R := if g then 1/3 else 1.
(** What the data of one side and of one corner contribute. *)
Definition side_bound (g : bool) (e k : R) : R := e + reach g * k.
Definition correction_bound (g : bool) (e t w : R) : R := e + 2 * reach g * t + reach g * reach g * w.
