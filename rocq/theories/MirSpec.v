(** Going round the boundary the other way: the lists of a patch in reversed
    order, with reversed curves, and mirrored domains.  No code of its own. *)
From Verif Require Import Base UtilModel DomainModel ParamModel RibbonModel SurfaceModel.
Open Scope R_scope.

(** Side 0 stays, the others follow in reversed order. *)
Definition mir {A : Type} (l : list A) : list A := match l with [] => [] | a :: l' => a :: rev l' end.

(** The curve, the ribbon and the corner seen from the other direction. *)
Definition flipCurve (c : curve) : curve := mkCurve (fun s => cpt c (1 - s)) (fun s => vopp (cder c (1 - s))) (fun a b => clen c (1 - b) (1 - a)).
Definition flipRib (r : sribbon) : sribbon := mkRib (flipCurve (sr_curve r)) (fun s => sr_cross r (1 - s)).
Definition flipCorner (c : corner) : corner := mkCorner (cn_point c) (cn_tan2 c) (cn_tan1 c) (cn_twist2 c) (cn_twist1 c).
Definition flipSd (sd : V2) : V2 := mkV2 (1 - px sd) (py sd).

(** Corner [i] is between sides [i] and [i+1]. *)
Definition mirSurf (sf : surf) : surf :=
  mkSurf (sf_n sf) (sf_gamma sf) (map flipRib (mir (sf_ribbons sf))) (map flipCorner (rev (sf_corners sf))).
Definition mirSds (sds : list V2) : list V2 := map flipSd (mir sds).

(** The reflection of the plane in the first axis. *)
Definition mirrored (p : V2) : V2 := mkV2 (px p) (- py p).

(** The two points of the construction of the bilinear parameterization decide
    on a quadratic equation [a s^2 + b s + c = 0].  It has no preferred end of
    the side when it is linear and solvable, or when the point is strictly
    between the two lines and the equation is not taken for a linear one. *)
Definition balanced (eps : R) (p1 p2 p : V2) : Prop :=
  let a := py p1 - py p2 in
  let b := px p * py p2 - (px p + 1) * py p1 + (px p1 - px p2) * py p in
  let c := px p * py p1 - py p * px p1 in
  a = 0 /\ eps <= Rabs b \/ eps <= Rabs a /\ c * (a + b + c) < 0.
Definition balancedAt (eps : R) (d : dom) (uv : V2) : Prop :=
  forall i v0 v1 v2 v3 p1 p2 p, (i < d_n d)%nat ->
    nth_error (d_verts d) (prv2 (d_n d) i) = Some v0 -> nth_error (d_verts d) (prv (d_n d) i) = Some v1 ->
    nth_error (d_verts d) i = Some v2 -> nth_error (d_verts d) (nxt (d_n d) i) = Some v3 ->
    toLocal d i (v0 -p v1) = Some p1 -> toLocal d i (v3 -p v2) = Some p2 -> toLocal d i (uv -p v1) = Some p ->
    balanced eps p1 p2 p.

(** Where both coordinates of the ends of a side are small, the heights over
    the neighbouring sides are not. *)
Definition settledAt (t : btype) (eps : R) (d : dom) (uv : V2) : Prop :=
  forall i l li lp al be vp vi lop lenp lon lenn, (i < d_n d)%nat ->
    barycentric t eps d uv = Some l -> nth_error l i = Some li -> nth_error l (prv (d_n d) i) = Some lp -> lp + li < eps ->
    angle d i = Some al -> angle d (prv (d_n d) i) = Some be ->
    nth_error (d_verts d) (prv (d_n d) i) = Some vp -> nth_error (d_verts d) i = Some vi ->
    toLocal d (prv (d_n d) i) (uv -p vp) = Some lop -> edgeLength d (prv (d_n d) i) = Some lenp ->
    toLocal d (nxt (d_n d) i) (uv -p vi) = Some lon -> edgeLength d (nxt (d_n d) i) = Some lenn ->
    eps <= sin al * (py lop * lenp) + sin be * (py lon * lenn).

(** What the parameterizations need. *)
Definition kind_fair (k : pkind) (eps : R) (d : dom) (uv : V2) : Prop :=
  match k with
  | KBary t | KConstrained t => (forall v, In v (d_verts d) -> eps <= baryRadius t (uv -p v)) /\ settledAt t eps d uv
  | KBilinear | KInterconnected | KParallel => balancedAt eps d uv
  | KSuperD | KOverlap _ => False
  end.
