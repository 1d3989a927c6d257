(** From curves to the output of the test driver: the data that eval() reads
    from the objects of SurfaceObj, and the functions surfaceTest and cloudTest
    of test.cc. *)
From Verif Require Import Base MeshModel UtilModel DomainModel ParamModel RibbonModel SurfaceModel SurfaceEval SurfaceObj JoinModel DriverModel.
Open Scope R_scope.

(** ** The data behind the pointers *)

(** A ribbon as seen through ribbons_[i]->curve(), ->eval() and
    ->crossDerivative(); the frames and tangents are those of the last
    update(). *)
Definition viewRibbon (kd : rkind) (eps : R) (w : world) (r : rloc) : option sribbon :=
  o <- nth_error (w_ribs w) r ;; c <- nth_error (w_curves w) (ro_curve o) ;; d <- ro_data o ;;
  Some (mkRib c (ribCross kd eps c (ro_fence o) d)).
(** surface.hh:55-72: n_, use_gamma_, ribbons_ and corner_data_ *)
Definition viewSurface (kd : rkind) (eps : R) (w : world) (k : nat) : option surf :=
  s <- nth_error (w_surfs w) k ;;
  rs <- mapM (fun i => r <- sideRib s i ;; viewRibbon kd eps w r) (seq 0 (so_n s)) ;;
  Some (mkSurf (so_n s) (so_gamma s) rs (so_corners s)).

(** test.cc:161-169 and 310-317: a new surface with the curves of the file in
    their order; [res] is RMF::resolution_. *)
Definition buildSurface (kd : rkind) (eps : R) (res : nat) (cs : list curve) : option surf :=
  w <- wrun kd eps res (startWorld cs) [ONew; OSetCurves 0 (seq 0 (length cs)); OSetupLoop 0; OUpdate 0] ;;
  viewSurface kd eps w 0.

(** ** surfaceTest: test.cc:159-191 *)

(** The transfinite surface classes of test.cc:545-549 and 550: all on a regular
    domain, with ribbons of the class RibbonCompatibleWithHandler. *)
Inductive patch := PSide | PCorner | PCoons | PComposite | PMid (k : mkind).
Definition patchEval (p : patch) (eps : R) (d : dom) (sf : surf) : option (V2 -> option V3) :=
  match p with
  | PSide => Some (sideBasedEval eps d sf)
  | PCorner => Some (cornerBasedEval eps d sf)
  | PCoons => Some (generalizedCoonsEval eps d sf)
  | PComposite => Some (compositeRibbonEval eps d sf)
  | PMid k => st <- mrun k eps d (mkMst sf None vzero) [MUpdate sf] ;; Some (mEval k eps d (mst_sf st) (mst_cp st))
  end.

(** surf->ribbon(i)->curve()->eval(s) *)
Definition sidePoint (sf : surf) (i : nat) (s : R) : V3 :=
  match nth_error (sf_ribbons sf) i with Some r => cpt (sr_curve r) s | None => vzero end.
(** surf->ribbon(i)->eval(sd) *)
Definition sideRibbon (sf : surf) (i : nat) (sd : V2) : option V3 :=
  r <- nth_error (sf_ribbons sf) i ;; ribbonEval (sr_curve r) (sr_cross r) sd.

(** test.cc:182-190 *)
Definition newMidpoint (sf : surf) : option V3 :=
  p <- osum (sf_n sf) (fun i => sideRibbon sf i (mkV2 (6 / 10) (4 / 10))) ;; vdiv p (INR (sf_n sf)).
Definition midpointError (k : mkind) (eps : R) (d : dom) (sf : surf) : option R :=
  m <- newMidpoint sf ;;
  st <- mrun k eps d (mkMst sf None vzero) [MUpdate sf; MSet m] ;;
  p <- mEval k eps d (mst_sf st) (mst_cp st) (d_center d) ;;
  Some (vdot (p -v m) (p -v m)).

(** What surfaceTest writes and prints: the points of the ribbon mesh, the mesh
    of the patch, the positional error, and the midpoint error for the two
    classes with a midpoint.  The fence and the tangential error (C74) are left
    out.  [res] is RMF::resolution_, [r] is the resolution, [samples] is 40. *)
Record report := mkReport { rp_ribbons : list V3; rp_mesh : pmesh; rp_pos : R; rp_mid : option R }.
Definition surfaceTest (p : patch) (eps : R) (res r samples : nat) (len : R) (cs : list curve) : option report :=
  sf <- buildSurface RKHandler eps res cs ;;
  vs <- regularVertices (length cs) ;; d <- domainFrames pzero vs ;;
  ev <- patchEval p eps d sf ;;
  rp <- ribbonPoints (length cs) r (sidePoint sf) (sideRibbon sf) len ;;
  m <- surfaceMesh (d_n d) (d_center d) (d_verts d) ev r ;;
  e <- positionalError d samples ev (sidePoint sf) ;;
  mid <- match p with PMid k => x <- midpointError k eps d sf ;; Some (Some x) | _ => Some None end ;;
  Some (mkReport rp m e mid).

(** ** cloudTest: test.cc:309-324 and writePCP, io.cc:81-97 *)

(** The rows of the file; the number before them is the number of rows. *)
Definition writePCP (uvs : list V2) (points : list V3) : option (list (V3 * V2)) :=
  mapM (fun i => uv <- nth_error uvs i ;; p <- nth_error points i ;; Some (p, uv)) (seq 0 (length uvs)).
Definition cloudTest (eps : R) (res r : nat) (cs : list curve) : option (list (V3 * V2)) :=
  sf <- buildSurface RKHandler eps res cs ;;
  vs <- regularVertices (length cs) ;; d <- domainFrames pzero vs ;;
  uvs <- parametersImpl (d_n d) (d_center d) (d_verts d) r ;;
  pts <- mapM (generalizedCoonsEval eps d sf) uvs ;;
  writePCP uvs pts.
