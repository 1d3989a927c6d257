(** Model of surface-polar.cc.  BSCurve(cpts) is the Bezier curve of the given
    control points; the LU solver is a parameter [solve size matrix rhs] for three
    right hand sides at once. *)
From Verif Require Import Base UtilModel DomainModel ParamModel PolarModel RibbonModel SurfaceModel.
From Coq Require Import Reals List.
Import ListNotations.
Open Scope R_scope.

Section Polar.
Variable solve : nat -> (nat -> nat -> R) -> (nat -> V3) -> nat -> V3.

(** One row of bezierRefit, surface-polar.cc:51-56: the coefficients and the right hand side. *)
Definition refitRow (cpts : list V3) (d : nat) (u : list R) (p : list V3) (i : nat) : option (list R * V3) :=
  ui <- nth_error u i ;; q <- nth_error p i ;;
  let coeff := bernsteinList d ui in
  a <- nth_error cpts 0 ;; c0 <- nth_error coeff 0 ;;
  z <- nth_error cpts d ;; cd <- nth_error coeff d ;;
  Some (coeff, q -v a *v c0 -v z *v cd).

(** bezierRefit, surface-polar.cc:44-61; the inner control points are replaced.
    Callers pass at least three control points. *)
Definition bezierRefit (cpts : list V3) (u : list R) (p : list V3) : option (list V3) :=
  let d := (length cpts - 1)%nat in
  rows <- mapM (refitRow cpts d u p) (seq 0 (d - 1)) ;;
  let A i j := nth (j + 1) (fst (nth i rows ([], vzero))) 0 in
  let b i := snd (nth i rows ([], vzero)) in
  let x := solve (d - 1) A b in
  a <- nth_error cpts 0 ;; z <- nth_error cpts d ;;
  Some (a :: map x (seq 0 (d - 1)) ++ [z]).

(** One sample of the inner loop, surface-polar.cc:98-109: u, the position, and the
    sample, the left sample and the right sample; [inv] is the inverse of the
    parameterization for the vertex. *)
Definition polarSample (inv : V2 -> option V2) (cl cr : curve) (psi : R) (p : V2) (l : R) (degree : nat)
    (crv lft rgt : list V3) (j : nat) : option (R * R * V3 * V3 * V3) :=
  let u := INR j / INR degree in
  qu <- inv (mkV2 psi (1 - u)) ;;
  pos <- fdiv (pnorm (qu -p p)) l ;;
  let sl := cpt cl (1 - u) in
  lu <- bcEval lft u ;;
  let sr := cpt cr u in
  ru <- bcEval rgt u ;;
  let displacement := (sl -v lu) *v (1 - psi) +v (sr -v ru) *v psi in
  cu <- bcEval crv pos ;;
  Some (u, pos, cu +v displacement, sl, sr).

(** The body of the loop surface-polar.cc:92-113. *)
Definition polarRound (inv : V2 -> option V2) (cl cr : curve) (psi : R) (p : V2) (l : R)
    (st : list V3 * list V3 * list V3) (degree : nat) : option (list V3 * list V3 * list V3) :=
  let '(crv, lft, rgt) := st in
  crv <- bezierElevate crv ;; lft <- bezierElevate lft ;; rgt <- bezierElevate rgt ;;
  samples <- mapM (polarSample inv cl cr psi p l degree crv lft rgt) (seq 1 (degree - 1)) ;;
  let uniform := map (fun '(u, _, _, _, _) => u) samples in
  let positions := map (fun '(_, pos, _, _, _) => pos) samples in
  lft <- bezierRefit lft uniform (map (fun '(_, _, _, sl, _) => sl) samples) ;;
  rgt <- bezierRefit rgt uniform (map (fun '(_, _, _, _, sr) => sr) samples) ;;
  crv <- bezierRefit crv positions (map (fun '(_, _, s, _, _) => s) samples) ;;
  Some (crv, lft, rgt).

(** The linear base, surface-polar.cc:75-88: P, Q, P1, P2 and the length l. *)
Definition polarBase (inv : V2 -> option V2) (cl cr : curve) (psi : R) (p : V2) (l1 l2 : R) : option (V3 * V3 * V3 * V3 * R) :=
  let P := cpt cl 1 in let P1 := cpt cl 0 in let P2 := cpt cr 1 in
  let L1 := vnorm (P1 -v P) in let L2 := vnorm (P2 -v P) in
  D1 <- vnormalize (P1 -v P) ;; D2 <- vnormalize (P2 -v P) ;;
  let N := vcross D1 D2 in let D1p := vcross N D1 in
  let ang := psi * acos (clamp (vdot D1 D2) (-1) 1) in
  let D := D1 *v cos ang +v D1p *v sin ang in
  q <- inv (mkV2 psi 0) ;;
  let l := pnorm (q -p p) in
  a <- fdiv ((1 - psi) * L1) l1 ;; b <- fdiv (psi * L2) l2 ;;
  let L := l * (a + b) in
  Some (P, P +v D *v L, P1, P2, l).

(** polarRibbon, surface-polar.cc:64-116; [m] is max_degree_. *)
Definition polarRibbon (m : nat) (eps : R) (dm : dom) (sf : surf) (i : nat) (pd : V2) : option V3 :=
  let psi := px pd in let d := clamp (py pd) 0 1 in
  let i1 := nxt (sf_n sf) i in
  rl <- nth_error (sf_ribbons sf) i ;; rr <- nth_error (sf_ribbons sf) i1 ;;
  l1 <- edgeLength dm i ;; l2 <- edgeLength dm i1 ;;
  p <- nth_error (d_verts dm) i ;;
  ' (P, Q, P1, P2, l) <- polarBase (polarInverse eps dm i) (sr_curve rl) (sr_curve rr) psi p l1 l2 ;;
  ' (crv, _, _) <- foldM (polarRound (polarInverse eps dm i) (sr_curve rl) (sr_curve rr) psi p l)
      ([P; Q], [P; P1], [P; P2]) (seq 2 (m - 1)) ;;
  bcEval crv (1 - d).

(** eval, surface-polar.cc:24-36; mapToRibbons is the one of the base class,
    parameterization.cc:30-36, with the polar map. *)
Definition polarEval (m : nat) (eps : R) (dm : dom) (sf : surf) (uv : V2) : option V3 :=
  pds <- mapM (fun i => polarMap eps dm i uv) (seq 0 (d_n dm)) ;;
  p <- osum (sf_n sf) (fun i => pd <- nth_error pds i ;; r <- polarRibbon m eps dm sf i pd ;; Some (r *v (py pd ^ 2))) ;;
  t <- orsum (sf_n sf) (fun i => pd <- nth_error pds i ;; Some (py pd ^ 2)) ;;
  vdiv p t.
End Polar.
