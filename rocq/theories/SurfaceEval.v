(** The [eval] methods of the transfinite surfaces: ribbon coordinates of the
    domain point first, then the patch (SurfaceModel).  The parameterization
    goes with the surface class. *)
Require Import Verif.Base Verif.DomainModel Verif.UtilModel Verif.ParamModel Verif.RibbonModel Verif.SurfaceModel.
Require Import Reals List.
Import ListNotations.
Open Scope R_scope.

(** surface-side-based.cc:12-16, 22-29 *)
Definition sideBasedEval (eps : R) (d : dom) (sf : surf) (uv : V2) : option V3 :=
  sds <- mapToRibbons KParallel eps d uv ;; sideBased eps sf sds.
(** surface-corner-based.cc:12-16, 22-29 *)
Definition cornerBasedEval (eps : R) (d : dom) (sf : surf) (uv : V2) : option V3 :=
  sds <- mapToRibbons KBilinear eps d uv ;; cornerBased eps sf sds.
(** surface-generalized-coons.cc:12-16, 22-32 *)
Definition generalizedCoonsEval (eps : R) (d : dom) (sf : surf) (uv : V2) : option V3 :=
  sds <- mapToRibbons KInterconnected eps d uv ;; generalizedCoons eps sf sds.
(** surface-composite-ribbon.cc:13-17, 22-30 *)
Definition compositeRibbonEval (eps : R) (d : dom) (sf : surf) (uv : V2) : option V3 :=
  sds <- mapToRibbons (KBary Wachspress) eps d uv ;; compositeRibbonPatch eps sf sds.
(** surface-midpoint.cc:12-18, 36-45 *)
Definition midpointEval (eps : R) (d : dom) (sf : surf) (cp : V3) (uv : V2) : option V3 :=
  sds <- mapToRibbons (KBary Wachspress) eps d uv ;; midpointPatch eps sf cp sds.
(** surface-midpoint-coons.cc:14-18, 24-36 *)
Definition midpointCoonsEval (eps : R) (d : dom) (sf : surf) (cp : V3) (uv : V2) : option V3 :=
  sds <- mapToRibbons (KConstrained Wachspress) eps d uv ;; midpointCoons eps sf cp sds.
(** surface-elastic.cc:17-66 *)
Definition elasticEval (S : Type) (acc : S -> V2 -> V3 -> V3 -> R -> S) (solve : S -> option V3)
    (tol eps : R) (d : dom) (sf : surf) (uv : V2) (st0 : S) : option V3 :=
  sds <- mapToRibbons KBilinear eps d uv ;; elastic S acc solve tol sf (d_verts d) uv sds st0.

(** ribbon-coons.cc:12-34: the ribbons of a C0 Coons patch after update(); the
    test for three sides compares curve pointers, which are distinct objects. *)
Definition coonsRibbon (cs : list curve) (i : nat) : option (V2 -> option V3) :=
  let n := length cs in
  c <- nth_error cs i ;;
  left <- nth_error cs (prv n i) ;; right <- nth_error cs (nxt n i) ;;
  left2 <- nth_error cs (prv n (prv n i)) ;; right2 <- nth_error cs (nxt n (nxt n i)) ;;
  Some (coonsEval c (coonsUpdate left2 left c right right2 (nxt n (nxt n i) =? prv n i)%nat)).
(** surface-c0coons.cc:12-28 *)
Definition c0coonsEval (eps : R) (d : dom) (cs : list curve) (uv : V2) : option V3 :=
  sds <- mapToRibbons (KBary Wachspress) eps d uv ;;
  rs <- mapM (coonsRibbon cs) (seq 0 (length cs)) ;;
  c0coons rs (length cs) sds.

(** ** The central control point: surface-midpoint.cc:25-34, 48-58, 73-89 *)

(** The two classes with a central control point. *)
Inductive mkind := MKMidpoint | MKCoons.
Definition mparam (k : mkind) : pkind :=
  match k with MKMidpoint => KBary Wachspress | MKCoons => KConstrained Wachspress end.
Definition mpatch (k : mkind) (eps : R) (sf : surf) (cp : V3) (sds : list V2) : option V3 :=
  match k with MKMidpoint => midpointPatch eps sf cp sds | MKCoons => midpointCoons eps sf cp sds end.
Definition mEval (k : mkind) (eps : R) (d : dom) (sf : surf) (cp : V3) (uv : V2) : option V3 :=
  match k with MKMidpoint => midpointEval eps d sf cp uv | MKCoons => midpointCoonsEval eps d sf cp uv end.

(** surface data, midpoint_set_/midpoint_ and central_cp_ *)
Record mstate := mkMst { mst_sf : surf; mst_mid : option V3; mst_cp : V3 }.

(** updateCentralControlPoint(), surface-midpoint.cc:73-89; midpoint_ itself is
    only read when it has been set. *)
Definition centralControl (k : mkind) (eps : R) (d : dom) (sf : surf) (m : option V3) : option V3 :=
  sds <- mapToRibbons (mparam k) eps d (d_center d) ;;
  r <- updateCentral eps sf (mpatch k eps sf) sds m ;; Some (snd r).

(** setMidpoint(p), unsetMidpoint(), and update() with the given boundary data *)
Inductive mop := MSet (p : V3) | MUnset | MUpdate (sf : surf).
Definition mstep (k : mkind) (eps : R) (d : dom) (st : mstate) (o : mop) : option mstate :=
  let st' := match o with
             | MSet p => mkMst (mst_sf st) (Some p) (mst_cp st)
             | MUnset => mkMst (mst_sf st) None (mst_cp st)
             | MUpdate sf => mkMst sf (mst_mid st) (mst_cp st)
             end in
  cp <- centralControl k eps d (mst_sf st') (mst_mid st') ;;
  Some (mkMst (mst_sf st') (mst_mid st') cp).
Definition mrun (k : mkind) (eps : R) (d : dom) (st : mstate) (ops : list mop) : option mstate :=
  foldM (mstep k eps d) st ops.

(** surface-nsided.cc:38-48.  The loop after the return statement is never
    reached.  [normals i] is the normal fence of ribbon [i], [mults] belongs to
    the parallel parameterization of the blends. *)
Definition nsidedSurfaceEval (eps : R) (d : dom) (mults : list R) (normals : nat -> R -> option V3) (cs : list curve)
  (uv : V2) : option V3 :=
  sds <- mapM (fun i => perpPolarMap d i uv) (seq 0 (d_n d)) ;;
  bsds <- mapM (fun i => parallelMap eps d mults i uv) (seq 0 (d_n d)) ;;
  _ <- blendSideSingular eps bsds ;;
  c <- nth_error cs 3 ;; sd <- nth_error sds 3 ;; nsidedEval (normals 3%nat) c sd.
