(** Vocabulary for the statements about patches. *)
Require Import Verif.Base Verif.RibbonModel Verif.SurfaceModel.
Require Import Reals List.
Import ListNotations.
Open Scope R_scope.

(** A loop of ribbons around [n] sides: every curve ends where the next one
    starts, the cross derivative is defined over the whole side, and at its two
    ends it is the tangent of the neighbouring curve, pointing inwards. *)
Definition crosses_defined (rs : list sribbon) : Prop :=
  forall i r s, nth_error rs i = Some r -> 0 <= s <= 1 -> exists x, sr_cross r s = Some x.
Definition compatible_loop (n : nat) (rs : list sribbon) : Prop :=
  length rs = n /\ crosses_defined rs /\
  forall i r rp, nth_error rs i = Some r -> nth_error rs (nxt n i) = Some rp ->
    cpt (sr_curve r) 1 = cpt (sr_curve rp) 0 /\
    sr_cross r 1 = Some (cder (sr_curve rp) 0) /\
    sr_cross rp 0 = Some (vopp (cder (sr_curve r) 1)).

(** A surface after update(): its corner data comes from its ribbons. *)
Definition ready (sf : surf) : Prop :=
  compatible_loop (sf_n sf) (sf_ribbons sf) /\ updateCorners (sf_n sf) (sf_ribbons sf) = Some (sf_corners sf).

(** The i-th boundary curve. *)
Definition side_point (sf : surf) (i : nat) (s : R) (p : V3) : Prop :=
  exists r, nth_error (sf_ribbons sf) i = Some r /\ cpt (sr_curve r) s = p.

(** Ribbon coordinates inside the domain: the side parameter of every side is
    in [0,1] and no distance is negative. *)
Definition tame (sds : list V2) : Prop :=
  forall i sd, nth_error sds i = Some sd -> 0 <= px sd <= 1 /\ 0 <= py sd.

(** All sides but [e] are at a distance of at least the tolerance. *)
Definition others_far (eps : R) (e : nat) (sds : list V2) : Prop :=
  forall j sd, nth_error sds j = Some sd -> j <> e -> eps <= py sd.

(** The sum of a list of weights. *)
Definition weights_sum (b : list R) (x : R) : Prop := fold_right Rplus 0 b = x.

(** Side [i] is within the tolerance / at least at the tolerance. *)
Definition near (eps : R) (sds : list V2) (i : nat) : Prop := exists sd, nth_error sds i = Some sd /\ py sd < eps.
Definition away (eps : R) (sds : list V2) (i : nat) : Prop := exists sd, nth_error sds i = Some sd /\ eps <= py sd.

(** A sample surface: straight sides between the given points (side [i] ends at
    point [i]), the cross derivative blends linearly between the neighbouring sides. *)
Definition lineCurve (p q : V3) : curve := mkCurve (fun s => affine3 p s q) (fun _ => q -v p) (fun a b => vnorm (q -v p) * (b - a)).
Definition lineRib (ps : list V3) (i : nat) : sribbon :=
  let n := length ps in let p k := nth k ps vzero in
  mkRib (lineCurve (p (prv n i)) (p i))
    (fun s => Some (affine3 (p (prv n (prv n i)) -v p (prv n i)) s (p (nxt n i) -v p i))).
Definition lineRibs (ps : list V3) : list sribbon := tabulate (length ps) (lineRib ps).

(** Ribbon coordinates of the point of side [e] at [s], as the patches need
    them.  Next to the far end of the side nothing is said about the side
    parameter of the previous side, which is far there. *)
Definition side_coords (eps : R) (n e : nat) (s : R) (sds : list V2) : Prop :=
  length sds = n /\ nth_error sds e = Some (mkV2 s 0) /\ nth_error sds (nxt n e) = Some (mkV2 0 (1 - s)) /\
  (exists sp dp, nth_error sds (prv n e) = Some (mkV2 sp dp) /\
     (eps <= 1 - s -> sp = 1 /\ dp = s) /\ (1 - s < eps -> eps <= dp)) /\
  (forall j sd, nth_error sds j = Some sd -> j <> e -> j <> nxt n e -> j <> prv n e -> eps <= py sd).

(** A tolerance small enough for a regular domain of [n] sides (it is of order
    1/n^3; the code has 1e-8). *)
Definition fine_tolerance (n : nat) (eps : R) : Prop :=
  0 < eps /\ eps <= sin (2 * PI / INR n) * sin (2 * PI / INR n) * sin (PI / INR n) / 2.
(** For a triangle, additionally: away from the far end of the side. *)
Definition end_tolerance (n : nat) (eps s : R) : Prop :=
  n = 3%nat -> eps <= (1 - s) * sin (2 * PI / INR n).
