(** Harmonic and biharmonic patches: surface-harmonic.cc, surface-biharmonic.cc.
    A matrix is a function of row and column; positions that are not written
    are zero, as in an Eigen sparse matrix.  The reservation of nonzeros and
    the valences computed for it (surface-harmonic.cc:46-50, 67-74,
    surface-biharmonic.cc:52-65) only concern memory and are left out.  The
    solver is a parameter [solve size matrix rhs]. *)
From Verif Require Import Base MeshModel UtilModel DomainModel ParamModel.
Open Scope R_scope.

Notation mat := (nat -> nat -> R).
(** coeffRef(i, j) += v and coeffRef(i, j) = v *)
Definition madd (A : mat) (i j : nat) (v : R) : mat := fun a b => if ((a =? i) && (b =? j))%nat%bool then A a b + v else A a b.
Definition mset (A : mat) (i j : nat) (v : R) : mat := fun a b => if ((a =? i) && (b =? j))%nat%bool then v else A a b.
Definition mzero : mat := fun _ _ => 0.

(** from2D, surface-harmonic.cc:33-36; also surface-biharmonic.cc:331-332 *)
Definition from2D (p : V2) : V3 := mkV3 (px p) (py p) 0.

(** std::max_element: position of the first largest element. *)
Fixpoint maxFrom (l : list R) (best : R) (at_ i : nat) : nat :=
  match l with [] => at_ | x :: l => if Rlt_dec best x then maxFrom l x i (S i) else maxFrom l best at_ (S i) end.
Definition maxElement (l : list R) : option nat := match l with [] => None | x :: l => Some (maxFrom l x 0 1) end.

(** surface-harmonic.cc:55-58, surface-biharmonic.cc:222-226: side and
    parameter from barycentric coordinates. *)
Definition sideOf (n : nat) (bc : list R) : option (nat * R) :=
  j <- maxElement bc ;;
  bn <- nth_error bc (nxt n j) ;; bp <- nth_error bc (prv n j) ;;
  let j' := if Rlt_dec bp bn then nxt n j else j in
  u <- nth_error bc j' ;; Some (j', u).

(** surface-harmonic.cc:81-84 *)
Definition cotsH (p1 p2 p3 : V3) : option (R * R * R) :=
  let Ai := vnorm (vcross (p2 -v p1) (p3 -v p1)) in
  v1 <- fdiv (/ 2 * vdot (p2 -v p1) (p3 -v p1)) Ai ;;
  v2 <- fdiv (/ 2 * vdot (p1 -v p2) (p3 -v p2)) Ai ;;
  v3 <- fdiv (/ 2 * vdot (p2 -v p3) (p1 -v p3)) Ai ;;
  Some (v1, v2, v3).

(** surface-biharmonic.cc:70-74 *)
Definition cotsB (p1 p2 p3 : V3) : option (R * R * R) :=
  let a := p3 -v p2 in let b := p1 -v p3 in let c := p2 -v p1 in
  let Ai := vnorm (vcross b c) in
  v1 <- fdiv (- / 2 * vdot c b) Ai ;;
  v2 <- fdiv (- / 2 * vdot c a) Ai ;;
  v3 <- fdiv (- / 2 * vdot a b) Ai ;;
  Some (v1, v2, v3).

(** surface-harmonic.cc:86-96, surface-biharmonic.cc:76-86 *)
Definition addTri (A : mat) (t : tri) (w : R * R * R) : mat :=
  let '(a, b, c) := t in let '(v1, v2, v3) := w in
  let A := madd A a a (v3 + v2) in let A := madd A a b (- v3) in let A := madd A a c (- v2) in
  let A := madd A b a (- v3) in let A := madd A b b (v3 + v1) in let A := madd A b c (- v1) in
  let A := madd A c a (- v2) in let A := madd A c b (- v1) in madd A c c (v2 + v1).

(** The loop over the triangles, surface-harmonic.cc:79-97,
    surface-biharmonic.cc:68-87. *)
Definition laplacian (cots : V3 -> V3 -> V3 -> option (R * R * R)) (P : list V3) (ts : list tri) : option mat :=
  foldM (fun A t => let '(a, b, c) := t in
    p1 <- nth_error P a ;; p2 <- nth_error P b ;; p3 <- nth_error P c ;;
    w <- cots p1 p2 p3 ;; Some (addTri A t w)) mzero ts.

(** Constraint rows and columns, surface-harmonic.cc:100-106,
    surface-biharmonic.cc:176-180; [bnd] lists the boundary vertices. *)
Fixpoint constrain (n : nat) (bnd : list nat) (A : mat) : mat :=
  match bnd with
  | [] => A
  | i :: bnd => constrain (S n) bnd (mset (mset A n i 1) i n 1)
  end.

(** Right hand side: [top] in the rows of the vertices, then the values. *)
Definition rhs (n : nat) (top : nat -> V3) (vals : list V3) : nat -> V3 :=
  fun i => if (i <? n)%nat then top i else nth (i - n) vals vzero.

(** ** SurfaceHarmonic::eval(resolution), surface-harmonic.cc:39-120 *)
Section Harmonic.
Variable solve : nat -> mat -> (nat -> V3) -> nat -> V3.

Definition boundaryAt (eps : R) (d : dom) (uvs : list V2) (i : nat) : option (nat * R) :=
  uv <- nth_error uvs i ;; bc <- barycentric Wachspress eps d uv ;; sideOf (d_n d) bc.

Definition harmonicEval (rsqrt : nat -> nat) (eps : R) (d : dom) (curves : list (R -> V3)) (r : nat) : option (list tri * list V3) :=
  let ts := meshTopology (d_n d) r in
  uvs <- parametersImpl (d_n d) (d_center d) (d_verts d) r ;;
  let n_all := length uvs in
  let bnd := filter (onEdge rsqrt (d_n d) r) (seq 0 n_all) in
  vals <- mapM (fun i => ' (j, u) <- boundaryAt eps d uvs i ;; c <- nth_error curves j ;; Some (c u)) bnd ;;
  A <- laplacian cotsH (map from2D uvs) ts ;;
  let x := solve (n_all + length bnd)%nat (constrain n_all bnd A) (rhs n_all (fun _ => vzero) vals) in
  Some (ts, tabulate n_all x).
End Harmonic.

(** ** Voronoi areas, surface-biharmonic.cc:92-130 *)
Definition computeAngle (u v : V3) : option R :=
  u <- vnormalize u ;; v <- vnormalize v ;; Some (acos (Rmin (Rmax (vdot u v) (-1)) 1)).

Definition voronoiArea (p1 p2 p3 : V3) : option R :=
  let a2 := vnorm2 (p3 -v p2) in let b2 := vnorm2 (p1 -v p3) in let c2 := vnorm2 (p2 -v p1) in
  alpha <- computeAngle (p2 -v p1) (p3 -v p1) ;;
  if Rlt_dec (a2 + b2) c2 then Some (/ 8 * b2 * tan alpha)
  else if Rlt_dec (a2 + c2) b2 then Some (/ 8 * c2 * tan alpha)
  else if Rlt_dec (b2 + c2) a2 then
    let b := sqrt b2 in let c := sqrt c2 in
    let total_area := / 2 * b * c * sin alpha in
    beta <- computeAngle (p1 -v p2) (p3 -v p2) ;;
    gamma <- computeAngle (p1 -v p3) (p2 -v p3) ;;
    Some (total_area - / 8 * (b2 * tan gamma + c2 * tan beta))
  else
    r2 <- fdiv (/ 4 * a2) (sin alpha ^ 2) ;;
    let area := fun x2 => / 8 * sqrt x2 * sqrt (Rmax (4 * r2 - x2) 0) in
    Some (area b2 + area c2).

(** [v[i] += x] on a vector whose size is known to be large enough. *)
Definition accum (v : nat -> R) (i : nat) (x : R) : nat -> R := fun k => if (k =? i)%nat then v k + x else v k.
Definition vaccum (v : nat -> V3) (i : nat) (x : V3) : nat -> V3 := fun k => if (k =? i)%nat then v k +v x else v k.

Definition voronoiAreas (P : list V3) (ts : list tri) : option (nat -> R) :=
  foldM (fun areas t => let '(a, b, c) := t in
    p1 <- nth_error P a ;; p2 <- nth_error P b ;; p3 <- nth_error P c ;;
    x1 <- voronoiArea p1 p2 p3 ;; x2 <- voronoiArea p2 p3 p1 ;; x3 <- voronoiArea p3 p1 p2 ;;
    Some (accum (accum (accum areas a x1) b x2) c x3)) (fun _ => 0) ts.

(** Reciprocals of the areas, [None] if one of those listed is zero. *)
Definition reciprocals (areas : nat -> R) (ks : list nat) : option (list R) := mapM (fun k => fdiv 1 (areas k)) ks.

(** prepareSolver, surface-biharmonic.cc:157-183.  The reciprocals at the
    boundary are overwritten by zero, so only those inside must exist. *)
Definition inverseMass (n : nat) (bnd : list nat) (areas : nat -> R) : option (nat -> R) :=
  _ <- reciprocals areas (filter (fun k => negb (existsb (Nat.eqb k) bnd)) (seq 0 n)) ;;
  Some (fun k => if existsb (Nat.eqb k) bnd then 0 else / areas k).

Definition block (n : nat) (A : mat) : mat := fun i j => if ((i <? n) && (j <? n))%nat%bool then A i j else 0.

Definition prepareSolver (P : list V3) (ts : list tri) (bnd : list nat) (propagation : bool) : option mat :=
  let n := length P in
  Ls <- laplacian cotsB P ts ;;
  areas <- voronoiAreas P ts ;;
  M1 <- inverseMass n bnd areas ;;
  let L : mat := fun i j => M1 i * Ls i j in
  let A : mat := if propagation then fun i j => rsum n (fun k => Ls i k * L k j) else fun i j => rsum n (fun k => L k i * L k j) in
  Some (constrain n bnd (block n A)).

(** Eigen's normalized(): the zero vector is returned unchanged. *)
Definition normalized (v : V3) : V3 := match vnormalize v with Some u => u | None => v end.

(** computeCurvatures, surface-biharmonic.cc:132-155.  [None] if an area is zero. *)
Definition meanComponent (edge : nat -> bool) (X N : nat -> V3) (m : nat -> V3) (i1 i2 i3 : nat) : nat -> V3 :=
  let m := if edge i1 then
      let m := if edge i2 then vaccum m i1 (vcross (normalized (N i1 *v 2 +v N i2)) (X i2 -v X i1)) else m in
      if edge i3 then vaccum m i1 (vcross (normalized (N i1 *v 2 +v N i3)) (X i1 -v X i3)) else m
    else m in
  vaccum m i1 (vcross (normalized (N i1 +v N i2 +v N i3)) (X i3 -v X i2)).

Definition meanVectors (edge : nat -> bool) (X N : nat -> V3) (ts : list tri) : nat -> V3 :=
  fold_left (fun m t => let '(a, b, c) := t in
    meanComponent edge X N (meanComponent edge X N (meanComponent edge X N m a b c) b c a) c a b) ts (fun _ => vzero).

Definition curvatures (n : nat) (areas : nat -> R) (edge : nat -> bool) (X N : nat -> V3) (ts : list tri) : option (list R) :=
  mapM (fun i => fdiv (vnorm (meanVectors edge X N ts i)) (2 * areas i)) (seq 0 n).

(** ** SurfaceBiharmonic::eval, surface-biharmonic.cc:327-402, from the mesh,
    the parameters and for each boundary vertex its point and normal (lines
    343-354). *)
Section Biharmonic.
Variable solve : nat -> mat -> (nat -> V3) -> nat -> V3.

Definition biharmonicSolve (ts : list tri) (uvs : list V2) (edge : nat -> bool) (data : nat -> option (V3 * V3)) : option (list tri * list V3) :=
  let n := length uvs in
  let bnd := filter edge (seq 0 n) in
  let size := (n + length bnd)%nat in
  vals <- mapM data bnd ;;
  A <- prepareSolver (map from2D uvs) ts bnd true ;;
  let Vstar := solve size A (rhs n (fun _ => vzero) (map fst vals)) in
  let Nraw := solve size A (rhs n (fun _ => vzero) (map snd vals)) in
  let Nstar := fun i => normalized (Nraw i) in
  let points := tabulate n Vstar in
  A2 <- prepareSolver points ts bnd false ;;
  Ls <- laplacian cotsB points ts ;;
  areas <- voronoiAreas points ts ;;
  _ <- reciprocals areas (seq 0 n) ;;
  mean <- curvatures n areas edge Vstar Nstar ts ;;
  let H := fun i => vopp (Nstar i) *v nth i mean 0 in
  let LH := fun i => vsum n (fun j => H j *v (/ areas i * Ls i j)) in
  let x := solve size A2 (rhs n LH (map Vstar bnd)) in
  Some (ts, tabulate n x).

(** The default build: generateDomainOld (lines 213-229), without the Triangle
    library. *)
Definition biharmonicEval (rsqrt : nat -> nat) (eps : R) (d : dom) (curves normals : list (R -> V3)) (r : nat) : option (list tri * list V3) :=
  uvs <- parametersImpl (d_n d) (d_center d) (d_verts d) r ;;
  biharmonicSolve (meshTopology (d_n d) r) uvs (onEdge rsqrt (d_n d) r)
    (fun i => ' (j, u) <- boundaryAt eps d uvs i ;; c <- nth_error curves j ;; m <- nth_error normals j ;; Some (c u, m u)).
End Biharmonic.
