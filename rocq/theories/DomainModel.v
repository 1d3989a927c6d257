(** Domains: centre, local frames, ray intersection, the parameter cache, and
    the concrete polygons.  Models src/transfinite/domain.cc,
    domain-regular.cc, domain-circular.cc, domain-angular.cc and the cache
    behaviour of domain-circle.cc. *)

From Verif Require Import Base MeshModel.
Open Scope R_scope.

(** [std::accumulate(l.begin(), l.end(), 0.0)] *)
Definition accumulate (l : list R) : R := fold_left Rplus l 0.

(** Side lengths, domain.cc:233-236: [(vertices_[i] - vertices_[prev(i)]).norm()]. *)
Definition sideLengths (vertices : list V2) : option (list R) :=
  let n := length vertices in
  mapM (fun i =>
    vi <- nth_error vertices i ;; vp <- nth_error vertices (prv n i) ;;
    Some (pnorm (vi -p vp))) (seq 0 n).

(** Domain::computeCenter, domain.cc:231-241.  The accumulation into
    [center_] is the fold; the final division is by twice the perimeter. *)
Definition computeCenter (vertices : list V2) : option V2 :=
  let n := length vertices in
  lengths <- sideLengths vertices ;;
  terms <- mapM (fun i =>
    vi <- nth_error vertices i ;; li <- nth_error lengths i ;;
    ln <- nth_error lengths (nxt n i) ;; Some (vi *p (li + ln))) (seq 0 n) ;;
  pdiv (fold_left padd terms pzero) (accumulate lengths * 2).

(** The data of a Domain after update (domain.hh:46-53 without the cache). *)
Record dom := mkDom {
  d_n : nat; d_center : V2; d_verts : list V2; d_du : list V2; d_dv : list V2 }.

(** Domain::update, domain.cc:31-44, with [center] the result of the virtual
    computeCenter. *)
Definition domainFrames (center : V2) (vertices : list V2) : option dom :=
  let n := length vertices in
  frames <- mapM (fun i =>
    vi <- nth_error vertices i ;; vp <- nth_error vertices (prv n i) ;;
    let du := vi -p vp in
    let dv := mkV2 (py du) (- px du) in
    Some (du, if Rlt_dec (pdot (center -p vi) dv) 0 then popp dv else dv)) (seq 0 n) ;;
  Some (mkDom n center vertices (map fst frames) (map snd frames)).

(** Domain::update with Domain::computeCenter. *)
Definition domainUpdate (vertices : list V2) : option dom :=
  c <- computeCenter vertices ;; domainFrames c vertices.

(** Domain::toLocal, domain.cc:51-54 *)
Definition toLocal (d : dom) (i : nat) (v : V2) : option V2 :=
  du <- nth_error (d_du d) i ;; dv <- nth_error (d_dv d) i ;;
  pdiv (mkV2 (pdot v du) (pdot v dv)) (pnorm2 du).

(** Domain::fromLocal, domain.cc:56-59 *)
Definition fromLocal (d : dom) (i : nat) (v : V2) : option V2 :=
  du <- nth_error (d_du d) i ;; dv <- nth_error (d_dv d) i ;;
  Some (du *p px v +p dv *p py v).

(** Domain::intersectEdgeWithRay, domain.cc:61-78.  The outer option is
    undefined behaviour; the inner one is the boolean result with the point. *)
Definition intersectEdgeWithRay (eps : R) (d : dom) (i : nat) (p v : V2) : option (option V2) :=
  q1 <- nth_error (d_verts d) (prv (d_n d) i) ;;
  q2 <- nth_error (d_verts d) i ;;
  let denom := px v * (py q2 - py q1) - py v * (px q2 - px q1) in
  if Rlt_dec (Rabs denom) eps then Some None
  else
    t <- fdiv (px v * (py p - py q1) - py v * (px p - px q1)) denom ;;
    if Rlt_dec t (- eps) then Some None
    else if Rlt_dec (1 + eps) t then Some None
    else let t' := clamp t 0 1 in Some (Some (q1 *p (1 - t') +p q2 *p t')).

(** Domain::edgeLength, domain.cc:219-222 *)
Definition edgeLength (d : dom) (i : nat) : option R :=
  vi <- nth_error (d_verts d) i ;; vp <- nth_error (d_verts d) (prv (d_n d) i) ;;
  Some (pnorm (vi -p vp)).

(** Domain::angle, domain.cc:224-229 *)
Definition angle (d : dom) (i : nat) : option R :=
  vi <- nth_error (d_verts d) i ;; vp <- nth_error (d_verts d) (prv (d_n d) i) ;;
  vn <- nth_error (d_verts d) (nxt (d_n d) i) ;;
  a <- pnormalize (vp -p vi) ;; b <- pnormalize (vn -p vi) ;;
  Some (acos (clamp (pdot a b) (-1) 1)).

(** DomainRegular::update, domain-regular.cc:14-22: the vertices for [m]
    curves. *)
Definition regularVertices (m : nat) : option (list V2) :=
  if (m =? 4)%nat then Some [mkV2 1 1; mkV2 (-1) 1; mkV2 (-1) (-1); mkV2 1 (-1)]
  else
    alpha <- fdiv (2 * PI) (INR m) ;;
    Some (tabulate m (fun i => mkV2 (cos (alpha * INR i)) (sin (alpha * INR i)))).

(** DomainCircular::update, domain-circular.cc:15-27: vertices from the arc
    lengths of the curves.  The loop-carried [alpha] is the fold state. *)
Fixpoint circularLoop (alpha : R) (lengths : list R) : list V2 :=
  match lengths with
  | [] => []
  | l :: ls => let a := alpha + l in mkV2 (cos a) (sin a) :: circularLoop a ls
  end.

Definition circularVertices (arclens : list R) : option (list V2) :=
  normalizer <- fdiv (2 * PI) (accumulate arclens) ;;
  Some (circularLoop 0 (map (fun x => x * normalizer) arclens)).

(** DomainAngular::update, domain-angular.cc:12-79.  A curve is represented
    by what the function reads: its arc length and its first derivatives at
    both ends. *)
Record angCurve := mkAngCurve { ac_len : R; ac_der0 : V3; ac_der1 : V3 }.

(** Lines 22-33 *)
Definition angularAngles (cs : list angCurve) : option (list R) :=
  let n := length cs in
  mapM (fun i =>
    c <- nth_error cs i ;; c' <- nth_error cs (nxt n i) ;;
    v1 <- vnormalize (ac_der1 c) ;; v2 <- vnormalize (ac_der0 c') ;;
    Some (acos (clamp (vdot (vopp v1) v2) (-1) 1))) (seq 0 n).

(** Lines 34-36; [n_ - 2] is unsigned and is used for [n >= 2]. *)
Definition angularTurns (n : nat) (angles : list R) : option (list R) :=
  mult <- fdiv (INR (n - 2) * PI) (accumulate angles) ;;
  Some (map (fun x => PI - x * mult) angles).

(** Lines 38-46: open polygon; [dir] and [prev_v] are loop-carried. *)
Fixpoint openLoop (dir : R) (prev : V2) (steps : list (R * R)) : list V2 :=
  match steps with
  | [] => []
  | (len, ang) :: rest =>
    let v := prev +p (mkV2 (cos dir) (sin dir)) *p len in
    v :: openLoop (dir + ang) v rest
  end.

(** Lines 48-53: [last] is vertices_.back(), which keeps its value until the
    final iteration overwrites it. *)
Fixpoint closeLoop (acc : R) (last : V2) (total : R) (vs : list V2) (lens : list R)
    : option (list V2) :=
  match vs, lens with
  | [], _ => Some []
  | v :: vs', l :: ls =>
    let acc' := acc + l in
    corr <- pdiv (last *p acc') total ;;
    rest <- closeLoop acc' last total vs' ls ;;
    Some ((v -p corr) :: rest)
  | _, [] => None
  end.

Definition closedPolygon (lens turns : list R) : option (list V2) :=
  let vs := openLoop 0 pzero (combine lens turns) in
  last <- nth_error vs (length vs - 1) ;;
  closeLoop 0 last (accumulate lens) vs lens.

(** Lines 55-64 *)
Definition rescale (vs : list V2) : option (list V2) :=
  let minx := fold_left (fun m v => Rmin m (px v)) vs 0 in
  let miny := fold_left (fun m v => Rmin m (py v)) vs 0 in
  let maxx := fold_left (fun m v => Rmax m (px v)) vs 0 in
  let maxy := fold_left (fun m v => Rmax m (py v)) vs 0 in
  let width := Rmax (maxx - minx) (maxy - miny) in
  let minp := mkV2 minx miny in
  mapM (fun v => q <- pdiv ((v -p minp) *p 2) width ;; Some (mkV2 (-1) (-1) +p q)) vs.

(** Lines 66-73: the convexity test at corner [i]; [true] when the corner is
    flagged. *)
Definition cornerFlagged (vs : list V2) (i : nat) : option bool :=
  let n := length vs in
  vi <- nth_error vs i ;; vp <- nth_error vs (prv n i) ;; vn <- nth_error vs (nxt n i) ;;
  v1 <- pnormalize (vi -p vp) ;; v2 <- pnormalize (vn -p vi) ;;
  Some (if Rlt_dec 0 (px (v2 -p v1 *p pdot v1 v2) * py v1) then true else false).

Definition convexTest (vs : list V2) : option bool :=
  flags <- mapM (cornerFlagged vs) (seq 0 (length vs)) ;;
  Some (negb (existsb (fun b => b) flags)).

(** The whole function: the accepted polygon, or the circular one. *)
Definition angularVertices (cs : list angCurve) : option (list V2) :=
  let lens := map ac_len cs in
  angles <- angularAngles cs ;;
  turns <- angularTurns (length cs) angles ;;
  vs0 <- closedPolygon lens turns ;;
  vs <- rescale vs0 ;;
  convex <- convexTest vs ;;
  if convex then Some vs else circularVertices lens.

(** ** The parameter cache

    A domain object as a state machine.  [curves_] is the list of curves
    set by setSide / setSides; [layout] turns them into vertices and centre
    (computed by the update of the concrete domain class).  domain.hh:46-53. *)
Section Cache.
Variable Curve : Type.
Variable layout : list Curve -> option (V2 * list V2).

Record dstate := mkDstate {
  s_curves : list Curve; s_n : nat; s_center : V2; s_verts : list V2; s_cache : list V2 }.

Inductive dop :=
| SetSides (cs : list Curve)          (* domain.cc:24-27 *)
| SetSide (i : nat) (dflt c : Curve)  (* domain.cc:17-22; resize fills with [dflt] *)
| Update
| Query (r : nat).                    (* domain.cc:94-101 *)

(** std::vector resize followed by an assignment. *)
Definition setSide (cs : list Curve) (i : nat) (dflt c : Curve) : option (list Curve) :=
  upd (if (length cs <=? i)%nat then cs ++ repeat dflt (i + 1 - length cs) else cs) i c.

(** DomainCircular / DomainAngular: the vertices are recomputed on every
    update and Domain::update clears the cache (domain.cc:35). *)
Definition polyUpdate (s : dstate) : option dstate :=
  ' (c, vs) <- layout (s_curves s) ;;
  Some (mkDstate (s_curves s) (length vs) c vs []).

(** DomainRegular: nothing happens when the number of curves is unchanged
    (domain-regular.cc:8-26); the boolean is the return value. *)
Definition regularUpdateResult (s : dstate) : option (bool * dstate) :=
  if (s_n s =? length (s_curves s))%nat then Some (false, s)
  else s' <- polyUpdate s ;; Some (true, s').

Definition regularUpdate (s : dstate) : option dstate :=
  ' (_, s') <- regularUpdateResult s ;; Some s'.

(** DomainCircle: domain-circle.cc:8-13; the cache is left alone.  The
    vertices are not used by parametersImpl of the circle. *)
Definition circleUpdate (s : dstate) : option dstate :=
  Some (mkDstate (s_curves s) (length (s_curves s)) (s_center s) (s_verts s) (s_cache s)).

(** Domain::parameters, domain.cc:94-101 *)
Definition query (size : nat -> nat -> nat) (impl : nat -> V2 -> list V2 -> nat -> option (list V2))
    (s : dstate) (r : nat) : option (list V2 * dstate) :=
  if (length (s_cache s) =? size (s_n s) r)%nat then Some (s_cache s, s)
  else
    ps <- impl (s_n s) (s_center s) (s_verts s) r ;;
    Some (ps, mkDstate (s_curves s) (s_n s) (s_center s) (s_verts s) ps).

Definition step (update : dstate -> option dstate)
    (qry : dstate -> nat -> option (list V2 * dstate)) (s : dstate) (o : dop) : option dstate :=
  match o with
  | SetSides cs => Some (mkDstate cs (s_n s) (s_center s) (s_verts s) (s_cache s))
  | SetSide i d c =>
    cs <- setSide (s_curves s) i d c ;;
    Some (mkDstate cs (s_n s) (s_center s) (s_verts s) (s_cache s))
  | Update => update s
  | Query r => ' (_, s') <- qry s r ;; Some s'
  end.

Fixpoint run (update : dstate -> option dstate)
    (qry : dstate -> nat -> option (list V2 * dstate)) (s : dstate) (os : list dop) : option dstate :=
  match os with
  | [] => Some s
  | o :: os' => s' <- step update qry s o ;; run update qry s' os'
  end.

(** Domain::Domain(), domain.cc:10-12; the centre starts uninitialised, any
    value. *)
Definition initial (c0 : V2) : dstate := mkDstate [] 0 c0 [] [].

Definition polyQuery : dstate -> nat -> option (list V2 * dstate) := query meshSize parametersImpl.
Definition circleQuery : dstate -> nat -> option (list V2 * dstate) :=
  query meshSizeCircle (fun n _ _ r => parametersImplCircle n r).

End Cache.

(** DomainRegular's layout of a list of curves: domain-regular.cc:14-22 and
    computeCenter, domain-regular.cc:28-31. *)
Definition regularLayout {Curve : Type} (cs : list Curve) : option (V2 * list V2) :=
  vs <- regularVertices (length cs) ;; Some (pzero, vs).

(** DomainCircular's layout, with the arc lengths as curves:
    domain-circular.cc:15-27 and Domain::computeCenter. *)
Definition circularLayout (cs : list R) : option (V2 * list V2) :=
  vs <- circularVertices cs ;; c <- computeCenter vs ;; Some (c, vs).

(** DomainAngular's layout. *)
Definition angularLayout (cs : list angCurve) : option (V2 * list V2) :=
  vs <- angularVertices cs ;; c <- computeCenter vs ;; Some (c, vs).
