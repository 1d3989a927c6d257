(** The remaining runs of the test driver: the plain run for a model, hybridTest,
    cornerBezierTest, classATest and deviationTest.  The messages on the standard output
    are not modelled, except for the statistics of deviationTest.  The curves of a .lop
    file are given as a list. *)
From Verif Require Import Base MeshModel UtilModel DomainModel ParamModel RibbonModel SurfaceModel SurfaceEval SurfaceObj JoinModel DriverModel ChainModel.
From Verif Require Import GBModel HybridModel ClassAModel BezierTestModel.
From Coq Require Import String.
Open Scope R_scope.

Section Runs.
(** epsilon; RMF::resolution_; the arc length of a Bezier curve in libgeom *)
Variables (eps : R) (res : nat) (len : list V3 -> R -> R -> R).

(** BSCurve(cpts) and BSCurve(degree, knots, cpts) with the knots 0 and 1 only, of libgeom:
    the Bezier curve with these control points. *)
Definition bezierCurve (cp : list V3) : curve :=
  mkCurve (fun u => match bcEval cp u with Some p => p | None => vzero end)
          (fun u => match bcEvalDer cp u 1 with Some der => nth 1 der vzero | None => vzero end)
          (len cp).

(** ** ribbonTest: test.cc:38-87 *)

(** surf->ribbon(i)->normal(s), with the frames of the last update() *)
Definition ribNormal (w : world) (r : rloc) (s : R) : option V3 :=
  o <- nth_error (w_ribs w) r ;; c <- nth_error (w_curves w) (ro_curve o) ;; d <- ro_data o ;;
  normalOf eps (ro_fence o) (Some (mkRmf c (rd_frames d) (rd_angle d))) s.
Definition sideNormal (w : world) (k i : nat) (s : R) : option V3 :=
  sf <- nth_error (w_surfs w) k ;; r <- sideRib sf i ;; ribNormal w r s.

(** The fence and the ribbons of surface 0, with the resolution [r]. *)
Definition ribbonTest (r : nat) (scaling length : R) (w : world) (filename : string) : option (list (string * content)) :=
  sf <- viewSurface RKHandler eps w 0 ;;
  let n := sf_n sf in
  fp <- fencePoints n r (sidePoint sf) (sideNormal w 0) scaling ;; ft <- fenceTriangles n r ;;
  rp <- ribbonPoints n r (sidePoint sf) (sideRibbon sf) length ;;
  Some [(inModels (filename ++ "-fence.obj"), CMesh (mkMesh ft fp));
        (inModels (filename ++ "-ribbons.obj"), CMesh (mkMesh (ribbonTriangles n r) rp))].

(** setCurves, setupLoop, update *)
Definition loopOps (k : nat) (ls : list cloc) : list wop := [OSetCurves k ls; OSetupLoop k; OUpdate k].
Definition builtWorld (cs : list curve) : option world :=
  wrun RKHandler eps res (startWorld cs) (ONew :: loopOps 0 (seq 0 (List.length cs))).

(** The regular domain of a surface with [n] sides *)
Definition regularDomain (n : nat) : option dom := vs <- regularVertices n ;; domainFrames pzero vs.

(** ** The plain run: test.cc:550 with surfaceTest, lines 159-172.  [p] is the class of the
    patch (in the code MidpointCoons) and [type] its tag (mc). *)
Definition modelTest (p : patch) (type : string) (r : nat) (scaling length : R) (filename : string) (cs : list curve)
    : option (list (string * content)) :=
  if (List.length cs =? 0)%nat then Some [] else
  w <- builtWorld cs ;;
  fs <- ribbonTest r scaling length w filename ;;
  sf <- viewSurface RKHandler eps w 0 ;;
  d <- regularDomain (List.length cs) ;; ev <- patchEval p eps d sf ;;
  m <- surfaceMesh (d_n d) (d_center d) (d_verts d) ev r ;;
  Some (fs ++ [(inModels (filename ++ "-" ++ type ++ ".obj"), CMesh m)]).

(** ** hybridTest: test.cc:264-280 *)

(** The curves made in surface-generalized-bezier.cc:143-152 *)
Definition gbCurves (g : gbsurf) : option (list curve) := rows <- gbBoundary g ;; Some (map bezierCurve rows).
(** surface-hybrid.cc:14-19, loadBezier with setupLoop of surface-generalized-bezier.cc:141-159,
    and update(): the net, and the world of the ribbons.  [v0] and [c0], [d0], [l0] are the
    contents of default constructed points and of uninitialized members. *)
Definition hybridTest (fmt : R -> R) (v0 c0 : V3) (d0 l0 r : nat) (scaling length : R) (filename : string) (f : list token)
    : option (list (string * content)) :=
  g <- loadBezier v0 f (useSquared (gbNew d0 l0 c0) true) ;;
  cs <- gbCurves g ;; w <- builtWorld cs ;;
  fs <- ribbonTest r scaling length w filename ;;
  sf <- viewSurface RKHandler eps w 0 ;;
  d <- regularDomain (gb_dom g) ;;
  m <- surfaceMesh (d_n d) (d_center d) (d_verts d) (hybridSurfaceEval eps d g sf) r ;;
  ' (vs, faces) <- writeControlPoints fmt g ;;
  Some (fs ++ [(inModels (filename ++ "-HB.obj"), CMesh m); (inModels "hybrid-cpts.obj", CNet vs faces)]).

(** ** cornerBezierTest: test.cc:244-262 *)

(** loadBezier with the initNetwork of surface-generalized-bezier-corner.cc:28-32; a failed
    assertion is [None]. *)
Definition loadBezierCorner (v0 : V3) (f : list token) (g : gbsurf) : option gbsurf :=
  match f with
  | TNat n :: TNat d :: _ => if (d mod 2 =? 1)%nat then loadBezier v0 f g else None
  | _ => None
  end.
(** showDeviations reads the second rows, see [innerRows]; [fine] is 100. *)
Definition cornerBezierTest (fmt : R -> R) (v0 c0 : V3) (d0 l0 fine r : nat) (filename : string) (f : list token)
    : option (list (string * content)) :=
  g <- loadBezierCorner v0 f (gbNew d0 l0 c0) ;;
  m1 <- surfaceMeshCircle (gb_dom g) (gbcSurfaceEval eps g) fine ;;
  _ <- innerRows g ;;
  m2 <- surfaceMeshCircle (gb_dom g) (gbcSurfaceEval eps g) r ;;
  ' (vs, faces) <- writeControlPoints fmt g ;;
  Some [(inModels (filename ++ "-GBC.obj"), CMesh m1); (inModels "bezier.obj", CMesh m2); (inModels "bezier-cpts.obj", CNet vs faces)].

(** ** classATest: test.cc:451-477 *)

(** Line 461 *)
Definition hermite (c : curve) : list V3 :=
  [cpt c 0; cpt c 0 +v cder c 0 *v / 3; cpt c 1 -v cder c 1 *v / 3; cpt c 1].
(** Line 463; [degree] is 14 and [search] the optimizer *)
Definition classACurve (search : searcher) (degree : nat) (c : curve) : option (list V3) :=
  fitClassA search degree (cpt c 0) (cder c 0) (cpt c 1) (cder c 1).
(** The mesh of surface 0, a SurfaceCornerBased; [r] is 30. *)
Definition cornerBasedMesh (n r : nat) (w : world) : option pmesh :=
  sf <- viewSurface RKHandler eps w 0 ;; d <- regularDomain n ;;
  surfaceMesh (d_n d) (d_center d) (d_verts d) (cornerBasedEval eps d sf) r.
(** The objects behind both lists of curves exist from the start; the surface is used twice. *)
Definition classATest (search : searcher) (degree r : nat) (cs : list curve) : option (list (string * content)) :=
  let n := List.length cs in
  as_ <- mapM (classACurve search degree) cs ;;
  w <- wrun RKHandler eps res (startWorld (map (fun c => bezierCurve (hermite c)) cs ++ map bezierCurve as_)) (ONew :: loopOps 0 (seq 0 n)) ;;
  m <- cornerBasedMesh n r w ;;
  w' <- wrun RKHandler eps res w (loopOps 0 (seq n n)) ;;
  m' <- cornerBasedMesh n r w' ;;
  Some [(inModels "bezier-normal.obj", CMesh m); (inModels "bezier-class-a.obj", CMesh m')].

(** ** deviationTest: test.cc:434-449.  Without curves nothing is printed; [points] are those of
    the mesh that is read, [r] is the 30 of line 419. *)
Definition deviationTest (p : patch) (closest : pmesh -> V3 -> nat * nat * nat) (r : nat) (cs : list curve) (points : list V3)
    : option (option stats) :=
  if (List.length cs =? 0)%nat then Some None else
  w <- builtWorld cs ;; sf <- viewSurface RKHandler eps w 0 ;;
  d <- regularDomain (List.length cs) ;; ev <- patchEval p eps d sf ;;
  m <- surfaceMesh (d_n d) (d_center d) (d_verts d) ev r ;;
  dev <- deviationFromMesh (closest m) (pm_points m) points ;;
  st <- printStatistics dev ;; Some (Some st).
End Runs.
