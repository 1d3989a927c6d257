(** Vocabulary for patches of plane boundary curves. *)
Require Import Verif.Base Verif.UtilModel Verif.RibbonModel Verif.SurfaceModel Verif.SurfaceObj.
Open Scope R_scope.

(** The plane of the points [x] with [N * x = h]. *)
Definition in_plane (N : V3) (h : R) (x : V3) : Prop := vdot N x = h.
Definition along (N : V3) (v : V3) : Prop := vdot N v = 0.
(** A curve in the plane, with its derivatives. *)
Definition flat_curve (N : V3) (h : R) (c : curve) : Prop := forall u, in_plane N h (cpt c u) /\ along N (cder c u).
(** How the boundary turns from one side to the next, seen from [N]: positive at
    outer corners of a counterclockwise boundary, negative at inner ones. *)
Definition corner_turn (N : V3) (c c' : curve) : R := vdot N (vcross (cder c 1) (cder c' 0)).

(** Everything that a patch uses is in the plane. *)
Definition flat_corner (N : V3) (h : R) (c : corner) : Prop :=
  in_plane N h (cn_point c) /\ along N (cn_tan1 c) /\ along N (cn_tan2 c) /\ along N (cn_twist1 c) /\ along N (cn_twist2 c).
Definition flat_ribbon (N : V3) (h : R) (r : sribbon) : Prop := flat_curve N h (sr_curve r) /\ forall s x, sr_cross r s = Some x -> along N x.
Definition flat_surf (N : V3) (h : R) (sf : surf) : Prop := Forall (flat_ribbon N h) (sf_ribbons sf) /\ Forall (flat_corner N h) (sf_corners sf).

(** The ribbons and corners that update() makes from a loop of curves; any
    multipliers and handlers, no overriding fences. *)
Definition made_from (kd : rkind) (eps : R) (res : nat) (cs : list curve) (sf : surf) : Prop :=
  let n := length cs in
  sf_n sf = n /\ length (sf_ribbons sf) = n /\
  (forall i r cp c cn, nth_error (sf_ribbons sf) i = Some r -> nth_error cs (prv n i) = Some cp -> nth_error cs i = Some c -> nth_error cs (nxt n i) = Some cn ->
    sr_curve r = c /\ exists mult h d, ribDerive kd eps res cp c cn mult h None = Some d /\ sr_cross r = ribCross kd eps c None d) /\
  SurfaceModel.updateCorners n (sf_ribbons sf) = Some (sf_corners sf).

(** A convex loop of curves in the plane: all corners turn to the same side. *)
Definition flat_loop (N : V3) (h : R) (cs : list curve) : Prop :=
  Forall (flat_curve N h) cs /\
  ((forall i c c', nth_error cs i = Some c -> nth_error cs (nxt (length cs) i) = Some c' -> 0 < corner_turn N c c') \/
   (forall i c c', nth_error cs i = Some c -> nth_error cs (nxt (length cs) i) = Some c' -> corner_turn N c c' < 0)).
