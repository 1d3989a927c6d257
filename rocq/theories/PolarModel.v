(** The inverse of the polar parameterization: parameterization-polar.cc:26-62. *)
From Coq Require Import Reals List Lra Lia.
From Verif Require Import Base UtilModel DomainModel ParamModel.
Import ListNotations.
Open Scope R_scope.

(** Lines 46-48: the sides next(next(i)), ..., prev(i) in this order; the result
    of the first one that is hit.  [None] inside is the uninitialised q. *)
Definition farSides (n i : nat) : list nat := map (fun k => ((i + 2 + k) mod n)%nat) (seq 0 (n - 2)).
Fixpoint firstHit (eps : R) (d : dom) (p v : V2) (js : list nat) : option (option V2) :=
  match js with
  | [] => Some None
  | j :: js' => h <- intersectEdgeWithRay eps d j p v ;;
    match h with Some q => Some (Some q) | None => firstHit eps d p v js' end
  end.

(** Lines 50-60; [dist] is the second coordinate of mapToRibbon. *)
Fixpoint polarBisect (dist : V2 -> option R) (p q : V2) (target lo hi : R) (cur : V2) (steps : nat) : option V2 :=
  match steps with
  | O => Some cur
  | S k =>
    let mid := (lo + hi) / 2 in
    let nx := p *p (1 - mid) +p q *p mid in
    x <- dist nx ;;
    if Rlt_dec target x then polarBisect dist p q target mid hi nx k
    else polarBisect dist p q target lo mid nx k
  end.

(** Lines 34-43: the direction of the sweep line. *)
Definition sweepDir (eps : R) (d : dom) (i : nat) (psi : R) : option V2 :=
  let n := d_n d in
  vp <- nth_error (d_verts d) (prv n i) ;; vi <- nth_error (d_verts d) i ;; vn <- nth_error (d_verts d) (nxt n i) ;;
  v1 <- pnormalize (vp -p vi) ;; v2 <- pnormalize (vn -p vi) ;;
  al <- angle d i ;;
  let phi := psi * al in
  let w := mkV2 (py v1) (- px v1) in
  let v1p := if Rlt_dec (pdot w v2) (- eps) then popp w else w in
  Some (v1 *p cos phi +p v1p *p sin phi).

(** Lines 26-62, with the number of bisection steps as a parameter; line 50 fixes it to 20. *)
Definition polarInverseSteps (steps : nat) (eps : R) (d : dom) (i : nat) (pd : V2) : option V2 :=
  let n := d_n d in
  if Rlt_dec (px pd) eps then edgePoint d i (py pd)
  else if Rlt_dec (1 - eps) (px pd) then edgePoint d (nxt n i) (1 - py pd)
  else
    dir <- sweepDir eps d i (px pd) ;;
    p <- nth_error (d_verts d) i ;;
    q <- firstHit eps d p dir (farSides n i) ;;
    q <- q ;;
    polarBisect (fun uv => sd <- polarMap eps d i uv ;; Some (py sd)) p q (py pd) 0 1 p steps.
Definition polarInverse : R -> dom -> nat -> V2 -> option V2 := polarInverseSteps 20.
