(** Generalized Bezier patches.
    Models surface-generalized-bezier.cc and surface-generalized-bezier-corner.cc
    (the default build, without USE_CONSTRAINED_BARYCENTRIC), the Bezier part
    of src/utils/io.cc and elevateDegree of src/utils/gb-fit.cc.

    Control points are addressed by (side, column, row).  As elsewhere, [None]
    is an access out of range or a division by zero.  The evaluators take the
    list [sds] returned by mapToRibbons. *)
From Verif Require Import Base UtilModel DomainModel ParamModel.
Open Scope R_scope.

Definition nets := list (list (list V3)).

(** nets_[i][j][k] as a value and as an lvalue. *)
Definition get3 (a : nets) (i j k : nat) : option V3 :=
  x <- nth_error a i ;; y <- nth_error x j ;; nth_error y k.
Definition set3 (a : nets) (i j k : nat) (p : V3) : option nets :=
  x <- nth_error a i ;; y <- nth_error x j ;;
  y' <- upd y k p ;; x' <- upd x j y' ;; upd a i x'.

(** The members n_ (surface.hh:66), degree_, layers_, central_cp_, nets_ and
    squared_weights_ (surface-generalized-bezier.hh:32-35), and the number of
    vertices of the domain object. *)
Record gbsurf := mkGB {
  gb_n : nat; gb_deg : nat; gb_lay : nat; gb_cen : V3; gb_nets : nets; gb_sq : bool; gb_dom : nat }.

(** surface-generalized-bezier.cc:23-27; degree_, layers_ and central_cp_ are
    not initialized, so they are arguments. *)
Definition gbNew (d0 l0 : nat) (c0 : V3) : gbsurf := mkGB 0 d0 l0 c0 [] false 0.

(** initNetwork, surface-generalized-bezier.cc:120-139; [v0] is the content of
    a default constructed point. *)
Definition initNetwork (v0 : V3) (g : gbsurf) (n d : nat) : gbsurf :=
  if ((n =? gb_n g) && (d =? gb_deg g))%nat%bool then g
  else
    let l := ((d + 1) / 2)%nat in
    mkGB n d l (gb_cen g) (repeat (repeat (repeat v0 l) (d + 1)) n) (gb_sq g) (gb_dom g).

(** surface-generalized-bezier-corner.cc:28-32; the failed assertion is [None]. *)
Definition initNetworkCorner (v0 : V3) (g : gbsurf) (n d : nat) : option gbsurf :=
  if (d mod 2 =? 1)%nat then Some (initNetwork v0 g n d) else None.

(** surface-generalized-bezier.cc:171-174, 161-164 *)
Definition setCentral (g : gbsurf) (p : V3) : gbsurf :=
  mkGB (gb_n g) (gb_deg g) (gb_lay g) p (gb_nets g) (gb_sq g) (gb_dom g).
Definition useSquared (g : gbsurf) (b : bool) : gbsurf :=
  mkGB (gb_n g) (gb_deg g) (gb_lay g) (gb_cen g) (gb_nets g) b (gb_dom g).
Definition withNets (g : gbsurf) (a : nets) : gbsurf :=
  mkGB (gb_n g) (gb_deg g) (gb_lay g) (gb_cen g) a (gb_sq g) (gb_dom g).

(** surface-generalized-bezier.cc:176-179 *)
Definition controlPoint (g : gbsurf) (i j k : nat) : option V3 := get3 (gb_nets g) i j k.

(** surface-generalized-bezier.cc:181-188.  The subtractions cannot wrap: the
    first assignment is defined only for [j <= degree_] and [k < layers_]. *)
Definition setControlPoint (g : gbsurf) (i j k : nat) (p : V3) : option gbsurf :=
  let n := gb_n g in let d := gb_deg g in let l := gb_lay g in
  a <- set3 (gb_nets g) i j k p ;;
  a' <- (if (j <? l)%nat then set3 a (prv n i) (d - k) j p
         else if (d - j <? l)%nat then set3 a (nxt n i) k (d - j) p
         else Some a) ;;
  Some (withNets g a').

(** surface-generalized-bezier.cc:190-195 *)
Definition setIndividual (g : gbsurf) (i j k : nat) (p : V3) : option gbsurf :=
  a <- set3 (gb_nets g) i j k p ;; Some (withNets g a).

(** setupLoop, surface-generalized-bezier.cc:141-159: the control polygons
    handed to the base class, and the surface with an updated domain.  Both
    domain classes get one vertex per curve. *)
Definition gbBoundary (g : gbsurf) : option (list (list V3)) :=
  mapM (fun i => mapM (fun j => controlPoint g i j 0) (seq 0 (gb_deg g + 1))) (seq 0 (gb_n g)).
Definition gbSetupLoop (g : gbsurf) : option gbsurf :=
  _ <- gbBoundary g ;;
  Some (mkGB (gb_n g) (gb_deg g) (gb_lay g) (gb_cen g) (gb_nets g) (gb_sq g) (gb_n g)).

(** [j > degree_ - k] on unsigned numbers: a difference that wraps around is
    larger than every index. *)
Definition above (j d k : nat) : bool := if (d <? k)%nat then false else (d - k <? j)%nat.
(** [j == degree_ - k] likewise. *)
Definition meets (j d k : nat) : bool := if (d <? k)%nat then false else (j =? d - k)%nat.

(** Lines 91-99: the factor of [blend]. *)
Definition gbFactor (d j k : nat) (alpha beta blend : R) : R :=
  if ((k <? 2)%nat && ((j <? 2)%nat || above j d 2))%bool then
    if (j <? 2)%nat then blend * alpha else blend * beta
  else if ((j =? k)%nat || meets j d k)%bool then blend * (1 / 2)
  else if ((j <? k)%nat || above j d k)%bool then 0
  else blend.

(** Lines 84-104: the two inner loops, from the state
    (surface_point, weight_sum). *)
Definition gbSide (net : list (list V3)) (d l : nat) (bs bd : list R) (alpha beta : R) (st : V3 * R)
    : option (V3 * R) :=
  foldM (fun st k => foldM (fun st j =>
      bj <- nth_error bs j ;; bk <- nth_error bd k ;;
      let blend := gbFactor d j k alpha beta (bj * bk) in
      row <- nth_error net j ;; p <- nth_error row k ;;
      Some (fst st +v p *v blend, snd st + blend))
    st (seq 0 (d + 1))) st (seq 0 l).

(** Lines 72-80 *)
Definition gbRatio (sq : bool) (a b : R) : option R :=
  if sq then fdiv (a * a) (a * a + b * b) else fdiv a (a + b).

(** Lines 61-105: [inl] is the early return. *)
Fixpoint gbLoop (eps : R) (g : gbsurf) (sds : list V2) (is : list nat) (st : V3 * R)
    : option (V3 + V3 * R) :=
  match is with
  | [] => Some (inr st)
  | i :: rest =>
    let n := gb_n g in
    sd <- nth_error sds i ;; sdp <- nth_error sds (prv n i) ;; sdn <- nth_error sds (nxt n i) ;;
    if Rlt_dec (py sd + py sdn) eps then p <- get3 (gb_nets g) i (gb_deg g) 0 ;; Some (inl p)
    else if Rlt_dec (py sdp + py sd) eps then p <- get3 (gb_nets g) i 0 0 ;; Some (inl p)
    else
      alpha <- gbRatio (gb_sq g) (py sdp) (py sd) ;;
      beta <- gbRatio (gb_sq g) (py sdn) (py sd) ;;
      net <- nth_error (gb_nets g) i ;;
      st' <- gbSide net (gb_deg g) (gb_lay g) (bernsteinList (gb_deg g) (px sd))
               (bernsteinList (gb_deg g) (py sd)) alpha beta st ;;
      gbLoop eps g sds rest st'
  end.

(** eval, surface-generalized-bezier.cc:56-108 *)
Definition gbEval (eps : R) (g : gbsurf) (sds : list V2) : option V3 :=
  r <- gbLoop eps g sds (seq 0 (gb_n g)) (vzero, 0) ;;
  Some (match r with inl p => p | inr (q, w) => q +v gb_cen g *v (1 - w) end).

(** weight, surface-generalized-bezier.cc:197-243 *)
Definition gbWeight (eps : R) (g : gbsurf) (sds : list V2) (i j k : nat) : option R :=
  let n := gb_n g in let d := gb_deg g in
  if ((2 <=? k)%nat && ((j <? k)%nat || above j d k))%bool then Some 0
  else
    sd <- nth_error sds i ;; sdp <- nth_error sds (prv n i) ;; sdn <- nth_error sds (nxt n i) ;;
    if Rlt_dec (py sd + py sdn) eps then Some (if ((j =? d) && (k =? 0))%nat%bool then 1 / 2 else 0)
    else if Rlt_dec (py sdp + py sd) eps then Some (if ((j =? 0) && (k =? 0))%nat%bool then 1 / 2 else 0)
    else
      bj <- bernsteinSingle j d (px sd) ;; bk <- bernsteinSingle k d (py sd) ;;
      let blend := bj * bk in
      if ((k <? 2)%nat && ((j <? 2)%nat || above j d 2))%bool then
        if (j <? 2)%nat then
          if gb_sq g then fdiv (blend * (py sdp * py sdp)) (py sdp * py sdp + py sd * py sd)
          else fdiv (blend * py sdp) (py sdp + py sd)
        else
          if gb_sq g then fdiv (blend * (py sdn * py sdn)) (py sdn * py sdn + py sd * py sd)
          else fdiv (blend * py sdn) (py sdn + py sd)
      else if ((j =? k)%nat || meets j d k)%bool then Some (blend * (1 / 2))
      else Some blend.

(** The evaluator in front of the parameterization of the class: Wachspress
    barycentric coordinates on the regular domain. *)
Definition gbSurfaceEval (eps : R) (d : dom) (g : gbsurf) (uv : V2) : option V3 :=
  sds <- mapToRibbons (KBary Wachspress) eps d uv ;; gbEval eps g sds.

(** ** The corner variant, surface-generalized-bezier-corner.cc:34-55 *)
Definition gbcCorner (net : list (list V3)) (d l : nat) (bdi bdi1 : list R) (st : V3 * R)
    : option (V3 * R) :=
  foldM (fun st j => foldM (fun st k =>
      bj <- nth_error bdi1 j ;; bk <- nth_error bdi k ;;
      let blend := bj * bk in
      row <- nth_error net (d - j) ;; p <- nth_error row k ;;
      Some (fst st +v p *v blend, snd st + blend))
    st (seq 0 l)) st (seq 0 l).

Definition gbcEval (g : gbsurf) (sds : list V2) : option V3 :=
  ' (q, w) <- foldM (fun st i =>
      sd <- nth_error sds i ;; sdn <- nth_error sds (nxt (gb_n g) i) ;;
      net <- nth_error (gb_nets g) i ;;
      gbcCorner net (gb_deg g) (gb_lay g) (bernsteinList (gb_deg g) (py sd)) (bernsteinList (gb_deg g) (py sdn)) st)
    (vzero, 0) (seq 0 (gb_n g)) ;;
  Some (q +v gb_cen g *v (1 - w)).

(** surface-generalized-bezier-corner.cc:57-74 *)
Definition cornerWeight (g : gbsurf) (sds : list V2) (i j k : nat) : option R :=
  sd <- nth_error sds i ;; sdn <- nth_error sds (nxt (gb_n g) i) ;;
  bj <- nth_error (bernsteinList (gb_deg g) (py sdn)) j ;;
  bk <- nth_error (bernsteinList (gb_deg g) (py sd)) k ;; Some (bj * bk).
Definition gbcWeight (g : gbsurf) (sds : list V2) (i j k : nat) : option R :=
  if (j <? gb_lay g)%nat then cornerWeight g sds (prv (gb_n g) i) k j
  else if (gb_deg g <? j)%nat then None
  else cornerWeight g sds i (gb_deg g - j) k.

(** The evaluator in front of ParameterizationCircular; [uv] is (r, phi). *)
Definition gbcSurfaceEval (eps : R) (g : gbsurf) (uv : V2) : option V3 :=
  sds <- mapM (fun i => circularMap eps (gb_n g) i uv) (seq 0 (gb_n g)) ;; gbcEval g sds.

(** ** Enumerating the control points

    The loop header shared by io.cc:118-125, 151-158, 174-181, 194-201 and
    gb-fit.cc:118-125, 145-152, 176-183, 201-208:
    [for (i, side, col, row; i < cp; ++i, ++col)] with the carry at the start
    of the body.  [enumLoop n d m side col row] are the [m] positions visited
    by the bodies. *)
Definition position : Type := nat * nat * nat.

(** [col >= d - row] on unsigned numbers: a wrapped difference is larger than
    every index. *)
Definition carry (n d side col row : nat) : position :=
  if (if (d <? row)%nat then false else (d - row <=? col)%nat) then
    if (n <=? S side)%nat then (0, S row, S row)%nat else (S side, row, row)
  else (side, col, row).

Fixpoint enumLoop (n d m side col row : nat) : list position :=
  match m with
  | O => []
  | S m' =>
    let '(s, c, r) := carry n d side col row in (s, c, r) :: enumLoop n d m' s (S c) r
  end.

(** [cp], io.cc:108-110, and the positions with index 1 .. cp - 1. *)
Definition gbCount (n d : nat) : nat := (n * (1 + d / 2) * ((d + 1) / 2) + 1)%nat.
Definition enumerate (n d : nat) : list position := enumLoop n d (gbCount n d - 1) 0 0 0.

(** ** Files

    A file of numbers is the list of the values that are parsed back.  [fmt]
    is the effect of printing and parsing one double.  The counts are printed
    and parsed exactly. *)
Inductive token := TNat (n : nat) | TReal (x : R).

Definition fmt3 (fmt : R -> R) (p : V3) : list token := [TReal (fmt (vx p)); TReal (fmt (vy p)); TReal (fmt (vz p))].

(** saveBezier, io.cc:134-163 *)
Definition saveBezier (fmt : R -> R) (g : gbsurf) : option (list token) :=
  let n := gb_dom g in let d := gb_deg g in
  ps <- mapM (fun q : position => let '(i, j, k) := q in controlPoint g i j k) (enumerate n d) ;;
  Some (TNat n :: TNat d :: fmt3 fmt (gb_cen g) ++ concat (map (fmt3 fmt) ps)).

(** Reading one point, and loadBezier, io.cc:99-132.  A file that ends too
    early or has a number of the wrong kind is outside of the model. *)
Definition readPoint (f : list token) : option (V3 * list token) :=
  match f with
  | TReal x :: TReal y :: TReal z :: rest => Some (mkV3 x y z, rest)
  | _ => None
  end.

Definition loadBezier (v0 : V3) (f : list token) (g : gbsurf) : option gbsurf :=
  match f with
  | TNat n :: TNat d :: rest =>
    let g0 := initNetwork v0 g n d in
    ' (p, rest') <- readPoint rest ;;
    ' (g1, _) <- foldM (fun st (q : position) =>
        let '(i, j, k) := q in
        ' (p, r) <- readPoint (snd st) ;;
        g' <- setControlPoint (fst st) i j k p ;; Some (g', r))
      (setCentral g0 p, rest') (enumerate n d) ;;
    gbSetupLoop g1
  | _ => None
  end.

(** ** writeBezierControlPoints, io.cc:165-233 *)

(** The lambda of lines 173-189: the search over the enumeration [es], whose
    first element has index [c]. *)
Definition matches (n d : nat) (i j k : nat) (q : position) : bool :=
  let '(side, col, row) := q in
  (((i =? side) && (j =? col) && (k =? row)) ||
   ((i =? prv n side) && meets j d row && (k =? col)) ||
   ((i =? nxt n side) && (j =? row) && meets k d col))%nat%bool.

Fixpoint findFrom (n d i j k c : nat) (es : list position) : nat :=
  match es with
  | [] => 0
  | q :: rest => if matches n d i j k q then (c + 1)%nat else findFrom n d i j k (c + 1) rest
  end.
Definition findControlPoint (n d i j k : nat) : nat := findFrom n d i j k 1 (enumerate n d).

(** The vertex lines and the face lines.  [l - 1] wraps around for degree 0:
    outside of the model. *)
Definition objFaces (n d l : nat) : list (list nat) :=
  concat (map (fun i => concat (map (fun j => map (fun k =>
    [findControlPoint n d i j k; findControlPoint n d i (j + 1) k;
     findControlPoint n d i (j + 1) (k + 1); findControlPoint n d i j (k + 1)])
    (seq 0 (l - 1))) (seq 0 (d / 2 + 1)))) (seq 0 n)) ++
  if (d mod 2 =? 0)%nat then
    map (fun i => [findControlPoint n d i (l - 1) (l - 1); findControlPoint n d i l (l - 1); 1%nat;
                   findControlPoint n d (prv n i) l (l - 1)]) (seq 0 n)
  else
    map (fun i => [findControlPoint n d i (l - 1) (l - 1); findControlPoint n d i l (l - 1); 1%nat]) (seq 0 n).

Definition writeControlPoints (fmt : R -> R) (g : gbsurf) : option (list V3 * list (list nat)) :=
  let n := gb_dom g in let d := gb_deg g in
  if (gb_lay g =? 0)%nat then None else
  ps <- mapM (fun q : position => let '(i, j, k) := q in controlPoint g i j k) (enumerate n d) ;;
  Some (map (fun p => mkV3 (fmt (vx p)) (fmt (vy p)) (fmt (vz p))) (gb_cen g :: ps), objFaces n d (gb_lay g)).

(** ** elevateDegree, gb-fit.cc:8-66 *)

(** Lines 36-49: the four old control points; [d] is the new degree. *)
Definition elevateCell (old : gbsurf) (n d i j k : nat) : option (V3 * V3 * V3 * V3) :=
  p1 <- controlPoint old i (j - 1) (k - 1) ;; p2 <- controlPoint old i j (k - 1) ;;
  if ((d mod 2 =? 0)%nat || (k <? d / 2)%nat)%bool then
    p3 <- controlPoint old i (j - 1) k ;; p4 <- controlPoint old i j k ;; Some (p1, p2, p3, p4)
  else
    let im := ((i + n - 1) mod n)%nat in
    p3 <- controlPoint old im (d - k - 1) (j - 1) ;;
    p4 <- (if (j =? d / 2)%nat then Some (gb_cen old) else controlPoint old im (d - k - 1) j) ;;
    Some (p1, p2, p3, p4).

Definition elevateDegree (v0 c0 : V3) (d0 l0 : nat) (old : gbsurf) : option gbsurf :=
  let n := gb_dom old in
  let d := (gb_deg old + 1)%nat in
  let r0 := initNetwork v0 (gbNew d0 l0 c0) n d in
  let l := gb_lay r0 in
  (* lines 15-17 *)
  r1 <- foldM (fun g i => p <- controlPoint old i 0 0 ;; setControlPoint g i 0 0 p) r0 (seq 0 n) ;;
  (* lines 19-26 *)
  r2 <- foldM (fun g j => foldM (fun g i =>
      let eta := INR j / INR d in
      a <- controlPoint old i (j - 1) 0 ;; b <- controlPoint old i j 0 ;;
      setControlPoint g i j 0 (a *v eta +v b *v (1 - eta))) g (seq 0 n)) r1 (seq 1 (d - 1)) ;;
  (* lines 31-55 *)
  r3 <- foldM (fun g j => foldM (fun g k => foldM (fun g i =>
      let eta := INR j / INR d in let theta := INR k / INR d in
      ' (p1, p2, p3, p4) <- elevateCell old n d i j k ;;
      setControlPoint g i j k (p1 *v eta *v theta +v p2 *v (1 - eta) *v theta +v
                               p3 *v eta *v (1 - theta) +v p4 *v (1 - eta) *v (1 - theta)))
      g (seq 0 n)) g (seq 1 (l - 1))) r2 (seq 1 (d / 2)) ;;
  (* lines 57-62; [l - 1] wraps around only for d = 0 *)
  s <- osum n (fun i => controlPoint r3 i l (l - 1)) ;;
  c <- vdiv s (INR n) ;;
  gbSetupLoop (setCentral r3 c).
