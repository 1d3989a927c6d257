(** parameterizePoints of gb-fit.cc.  The mesh of eval and the parameters of the domain are
    lists; [closest] is TriMesh::closestTriangle (libgeom). *)
From Verif Require Import Base UtilModel.
Open Scope R_scope.

(** gb-fit.cc:75-82: the point in a triangle [a b c] with parameters [ua ub uc]. *)
Definition paramInTriangle (a b c : V3) (ua ub uc : V2) (p : V3) : option V2 :=
  n <- vnormalize (vcross (b -v a) (c -v a)) ;;
  let q := p +v n *v vdot (a -v p) n in
  let x := vnorm (vcross (b -v q) (c -v q)) in
  let y := vnorm (vcross (a -v q) (c -v q)) in
  let z := vnorm (vcross (a -v q) (b -v q)) in
  pdiv (ua *p x +p ub *p y +p uc *p z) (x + y + z).

(** gb-fit.cc:68-86 *)
Definition parameterizePoints (closest : V3 -> nat * nat * nat) (vertices : list V3) (params : list V2) (points : list V3) : option (list V2) :=
  mapM (fun p =>
    let '(i, j, k) := closest p in
    a <- nth_error vertices i ;; b <- nth_error vertices j ;; c <- nth_error vertices k ;;
    ua <- nth_error params i ;; ub <- nth_error params j ;; uc <- nth_error params k ;;
    paramInTriangle a b c ua ub uc p) points.
