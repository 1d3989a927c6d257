(** bezierTest and meshFitTest of the test driver: the files they write.  The
    messages on the standard output, with the times and the deviations, are not
    modelled. *)
From Verif Require Import Base MeshModel DomainModel ParamModel JoinModel GBModel GBFitModel GBParamModel.
From Coq Require Import String.
Open Scope R_scope.

(** The content of a file: a mesh (writeOBJ, before printing), the control net
    with printed coordinates and the numbers of the faces
    (writeBezierControlPoints), or the tokens of a .gbp file. *)
Inductive content := CMesh (m : pmesh) | CNet (vs : list V3) (fs : list (list nat)) | CTokens (f : list token).

(** The names of test.cc:195-241 and 326-356. *)
Definition inModels (name : string) : string := ("../../models/" ++ name)%string.

Section Driver.
(** The two decompositions of Eigen and the tolerance of isApprox (gb-fit.cc:192-197);
    the epsilon of the library; printing; the contents of the default constructed
    points and of the uninitialized members of the [k]-th new surface;
    TriMesh::closestTriangle. *)
Variables lu svd : nat -> nat -> (nat -> nat -> R) -> (nat -> V3) -> nat -> V3.
Variables tol eps : R.
Variable fmt : R -> R.
Variables v0 c0 : nat -> V3.
Variables d0 l0 : nat -> nat.
Variable closest : pmesh -> V3 -> nat * nat * nat.
(** The global [resolution] (test.cc:34), the 100 of test.cc:199, the 15 of gb-fit.cc:69. *)
Variables resolution fine projection : nat.

(** The domain of a generalized Bezier surface: the regular polygon,
    surface-generalized-bezier.cc:23-27 and 141-159. *)
Definition gbDomain (g : gbsurf) : option dom := vs <- regularVertices (gb_dom g) ;; domainFrames pzero vs.

(** surf->eval(resolution) *)
Definition gbMesh (g : gbsurf) (r : nat) : option pmesh :=
  d <- gbDomain g ;; surfaceMesh (d_n d) (d_center d) (d_verts d) (gbSurfaceEval eps d g) r.
(** surf->domain()->parameters(resolution) *)
Definition gbParameters (g : gbsurf) (r : nat) : option (list V2) :=
  d <- gbDomain g ;; parametersImpl (d_n d) (d_center d) (d_verts d) r.
(** parameterizePoints(surf, points), gb-fit.cc:68-86 *)
Definition gbProject (g : gbsurf) (points : list V3) : option (list V2) :=
  mesh <- gbMesh g projection ;; params <- gbParameters g projection ;;
  parameterizePoints (closest mesh) (pm_points mesh) params points.
(** fitWithOriginal(original, points, params, smoothing) with two fixed rows
    (gb-fit.hh:12); [k] numbers the new surface. *)
Definition gbFit (k : nat) (g : gbsurf) (points : list V3) (params : list V2) (smoothing : R) : option gbsurf :=
  d <- gbDomain g ;; sds <- mapM (mapToRibbons (KBary Wachspress) eps d) params ;;
  fitWithOriginal lu svd tol eps (v0 k) (c0 k) (d0 k) (l0 k) g (combine sds points) smoothing 2.

Definition meshFile (name : string) (g : gbsurf) (r : nat) : option (string * content) :=
  m <- gbMesh g r ;; Some (inModels name, CMesh m).
Definition netFile (name : string) (g : gbsurf) : option (string * content) :=
  ' (vs, fs) <- writeControlPoints fmt g ;; Some (inModels name, CNet vs fs).
Definition gbpFile (name : string) (g : gbsurf) : option (string * content) :=
  f <- saveBezier fmt g ;; Some (inModels name, CTokens f).

(** showDeviations, test.cc:98-112: the second row of control points of every side.  The
    numbers it prints are not modelled, but it reads these points. *)
Definition innerRows (g : gbsurf) : option (list (list V3)) :=
  mapM (fun i => mapM (fun j => controlPoint g i j 1) (seq 0 (gb_deg g + 1))) (seq 0 (gb_dom g)).

(** Degree elevation [k] times, the loops of test.cc:214-219; the new surfaces are
    numbered from [a]. *)
Fixpoint elevateMore (a k : nat) (g : gbsurf) : option gbsurf :=
  match k with
  | O => Some g
  | S k' => g' <- elevateDegree (v0 a) (c0 a) (d0 a) (l0 a) g ;; elevateMore (S a) k' g'
  end.

(** bezierTest, test.cc:193-242, after line 194.  [f] is the content of the .gbp file,
    [more] the 30 of lines 214 and 217.  In the order in which they are written. *)
Definition bezierTest (more : nat) (filename : string) (f : list token) : option (list (string * content)) :=
  surf <- loadBezier (v0 0%nat) f (gbNew (d0 0%nat) (l0 0%nat) (c0 0%nat)) ;;
  f1 <- meshFile (filename ++ "-GB.obj") surf fine ;;
  _ <- innerRows surf ;;
  mesh <- gbMesh surf resolution ;;
  f2 <- meshFile "bezier.obj" surf resolution ;;
  f3 <- netFile "bezier-cpts.obj" surf ;;
  sextic <- elevateDegree (v0 1%nat) (c0 1%nat) (d0 1%nat) (l0 1%nat) surf ;;
  f4 <- netFile "bezier-elevated-cpts.obj" sextic ;;
  f5 <- meshFile "bezier-elevated.obj" sextic resolution ;;
  elevated <- elevateMore 5 more surf ;;
  f6 <- netFile "bezier-elevated-30-times.obj" elevated ;;
  elevated' <- elevateMore (5 + more) more elevated ;;
  f7 <- netFile "bezier-elevated-60-times.obj" elevated' ;;
  params <- gbParameters surf resolution ;;
  sextic2 <- gbFit 2 sextic (pm_points mesh) params 0 ;;
  f8 <- meshFile "bezier-sextic.obj" sextic2 resolution ;;
  f9 <- netFile "bezier-sextic-cpts.obj" sextic2 ;;
  projected <- gbProject sextic (pm_points mesh) ;;
  sextic3 <- gbFit 3 sextic (pm_points mesh) projected 0 ;;
  f10 <- meshFile "bezier-sextic-projected.obj" sextic3 resolution ;;
  f11 <- netFile "bezier-sextic-projected-cpts.obj" sextic3 ;;
  sextic4 <- gbFit 4 sextic (pm_points mesh) projected (2 / 10) ;;
  f12 <- meshFile "bezier-sextic-projected-smooth.obj" sextic4 resolution ;;
  f13 <- netFile "bezier-sextic-projected-smooth-cpts.obj" sextic4 ;;
  Some [f1; f2; f3; f4; f5; f6; f7; f8; f9; f10; f11; f12; f13].

(** One of the four parts of meshFitTest, test.cc:334-356: the fitted surface, its mesh,
    its net and its .gbp file. *)
Definition meshFitPart (k : nat) (surf : gbsurf) (points : list V3) (smoothing : R) (name gbp : string)
    : option (gbsurf * list (string * content)) :=
  params <- gbProject surf points ;;
  fitted <- gbFit k surf points params smoothing ;;
  f1 <- meshFile (name ++ ".obj") fitted resolution ;;
  f2 <- netFile (name ++ "-cpts.obj") fitted ;;
  f3 <- gbpFile (gbp ++ ".gbp") fitted ;;
  Some (fitted, [f1; f2; f3]).

(** meshFitTest, test.cc:326-357; [f] is the content of the .gbp file, [points] are the
    points of the mesh.  The fitted surfaces are given back too. *)
Definition meshFitTest (f : list token) (points : list V3) : option (list gbsurf * list (string * content)) :=
  surf <- loadBezier (v0 0%nat) f (gbNew (d0 0%nat) (l0 0%nat) (c0 0%nat)) ;;
  f1 <- meshFile "bezier.obj" surf resolution ;;
  f2 <- netFile "bezier-cpts.obj" surf ;;
  ' (g0, p0) <- meshFitPart 1 surf points 0 "bezier-fitted" "bezier-fitted" ;;
  ' (g1, p1) <- meshFitPart 2 surf points (2 / 10) "bezier-fitted-smooth02" "bezier-smooth02" ;;
  ' (g2, p2) <- meshFitPart 3 surf points (5 / 10) "bezier-fitted-smooth05" "bezier-smooth05" ;;
  ' (g3, p3) <- meshFitPart 4 surf points 1 "bezier-fitted-smooth10" "bezier-smooth10" ;;
  Some ([g0; g1; g2; g3], f1 :: f2 :: p0 ++ p1 ++ p2 ++ p3).
End Driver.
