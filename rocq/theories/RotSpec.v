(** Counting the sides from another one: the lists of a patch turned by one
    place, and plane motions of domains.  No code of its own. *)
From Verif Require Import Base UtilModel DomainModel ParamModel RibbonModel SurfaceModel GBModel SuperDModel.
Open Scope R_scope.

(** The first element becomes the last. *)
Definition rot {A : Type} (l : list A) : list A := match l with [] => [] | a :: l' => l' ++ [a] end.

(** A surface whose side [i] is side [i+1] of [sf]. *)
Definition rotSurf (sf : surf) : surf := mkSurf (sf_n sf) (sf_gamma sf) (rot (sf_ribbons sf)) (rot (sf_corners sf)).
Definition rotGB (g : gbsurf) : gbsurf :=
  mkGB (gb_n g) (gb_deg g) (gb_lay g) (gb_cen g) (rot (gb_nets g)) (gb_sq g) (gb_dom g).

Definition rotSD (p : superd) : superd := mkSD (su_n p) (su_full p) (rot (su_f p)) (rot (su_e p)) (su_v p) (rot (su_q p)).

(** One ribbon, one corner and one pair of coordinates per side. *)
Definition complete (sf : surf) (sds : list V2) : Prop :=
  length (sf_ribbons sf) = sf_n sf /\ length (sf_corners sf) = sf_n sf /\ length sds = sf_n sf.

(** A turn of the plane about the origin with a shift. *)
Definition turned (c s : R) (t p : V2) : V2 := mkV2 (c * px p - s * py p + px t) (s * px p + c * py p + py t).

(** At most one vertex is so near that the coordinates are those of the
    vertex. *)
Definition one_near (t : btype) (eps : R) (vs : list V2) (uv : V2) : Prop :=
  forall i j p q, nth_error vs i = Some p -> nth_error vs j = Some q ->
    baryRadius t (uv -p p) < eps -> baryRadius t (uv -p q) < eps -> i = j.
(** The parameterizations that use barycentric coordinates need it. *)
Definition kind_near (k : pkind) (eps : R) (vs : list V2) (uv : V2) : Prop :=
  match k with KBary t | KConstrained t | KOverlap t => one_near t eps vs uv | _ => True end.
(** At most one corner is so near that a generalized Bezier patch is the corner
    point. *)
Definition one_corner (eps : R) (sds : list V2) : Prop :=
  forall i j, (i < length sds)%nat -> (j < length sds)%nat ->
    py (nth i sds pzero) + py (nth (nxt (length sds) i) sds pzero) < eps ->
    py (nth j sds pzero) + py (nth (nxt (length sds) j) sds pzero) < eps -> i = j.
