(** Surfaces as objects: curves, ribbons and domains are reached through
    pointers and can be shared.  Models the setting, loop and update functions
    of surface.cc, ribbon.cc and the ribbon classes' update(), the copy
    operations of surface.hh:21-23 and the side curves of domain.cc:17-27.

    A pointer is an index into one of the lists of the [world].  Objects are
    never removed from these lists; that a weak pointer has expired is decided
    by [alive].  Null pointers, expired weak pointers and accesses out of range
    are [None]; so is a division by zero, as everywhere (in the code this gives
    values that are not numbers).

    Not modelled: pointers to ribbons held by the caller (they would keep a
    ribbon alive), the parameterization object (ParamModel), and the vertices of
    the domain: a domain remembers the curves its vertices were computed from. *)
Require Import Verif.Base Verif.UtilModel Verif.RibbonModel Verif.SurfaceModel.
Open Scope R_scope.

Definition cloc := nat.
Definition rloc := nat.
Definition dloc := nat.

(** curves.hh:27-30; the reversed B-spline curve runs over the same points from
    the other end. *)
Definition reverseCurve (c : curve) : curve :=
  mkCurve (fun u => cpt c (1 - u)) (fun u => vopp (cder c (1 - u))) (fun a b => clen c (1 - b) (1 - a)).

(** ** Ribbon objects *)

(** The classes with a normal fence: ribbon-compatible.cc,
    ribbon-compatible-with-handler.cc and ribbon-perpendicular.cc *)
Inductive rkind := RKCompatible | RKHandler | RKPerpendicular.

(** What update() leaves in a ribbon: the frames and the angle of rmf_,
    prev_tangent_, next_tangent_, central_, and the data of the perpendicular
    class. *)
Record rdata := mkRdata { rd_frames : list frame; rd_angle : R; rd_pt : V3; rd_nt : V3; rd_central : V3;
                          rd_perp : option perpData }.

(** ribbon.hh:36-42.  [ro_handler] is handler_ when handler_initialized_ is
    set. *)
Record ribObj := mkRob { ro_curve : cloc; ro_prev : option rloc; ro_next : option rloc; ro_mult : R;
                         ro_handler : option V3; ro_fence : option (R -> V3); ro_data : option rdata }.

(** ribbon.cc:5-6, 21-23 *)
Definition newRibbon (c : cloc) : ribObj := mkRob c None None 1 None None None.

(** The update() functions: ribbon.cc:68-88, ribbon-compatible.cc:9-17,
    ribbon-compatible-with-handler.cc:9-18, ribbon-perpendicular.cc:9-27;
    [res] is RMF::resolution_. *)
Definition ribDerive (k : rkind) (eps : R) (res : nat) (prev c next : curve) (mult : R) (handler : option V3)
    (fence : option (R -> V3)) : option rdata :=
  m <- ribbonUpdate eps res prev c next ;;
  let pt := prevTangent prev in let nt := nextTangent next in
  let normal := normalOf eps fence (Some m) in
  match k with
  | RKCompatible => Some (mkRdata (rm_frames m) (rm_angle m) pt nt vzero None)
  | RKHandler =>
      h <- handlerValue normal pt nt handler ;;
      Some (mkRdata (rm_frames m) (rm_angle m) pt nt (centralValue pt nt h mult) None)
  | RKPerpendicular =>
      p <- perpUpdate normal prev c next ;;
      Some (mkRdata (rm_frames m) (rm_angle m) pt nt vzero (Some p))
  end.

(** The crossDerivative() functions on the stored data; rmf_ evaluates the
    curve as it is now. *)
Definition ribCross (k : rkind) (eps : R) (c : curve) (fence : option (R -> V3)) (d : rdata) (s : R) : option V3 :=
  let normal := normalOf eps fence (Some (mkRmf c (rd_frames d) (rd_angle d))) in
  match k with
  | RKCompatible => crossCompatible normal (rd_pt d) (rd_nt d) s
  | RKHandler => crossHandler normal (rd_pt d) (rd_nt d) (rd_central d) s
  | RKPerpendicular => p <- rd_perp d ;; crossPerpendicular normal c p s
  end.

(** ** The world *)

(** Domain: curves_ (domain.hh:49) and the curves used by the last update. *)
Record domObj := mkDob { do_curves : list (option cloc); do_layout : option (list (option curve)) }.

(** surface.hh:55-72 *)
Record surfObj := mkSob { so_n : nat; so_gamma : bool; so_dom : dloc; so_ribs : list (option rloc);
                          so_corners : list corner }.

Record world := mkWorld { w_curves : list curve; w_ribs : list ribObj; w_doms : list domObj; w_surfs : list surfObj }.

(** Dereference ribbons_[i]. *)
Definition sideRib (s : surfObj) (i : nat) : option rloc := o <- nth_error (so_ribs s) i ;; o.

Definition setSurf (w : world) (k : nat) (s : surfObj) : option world :=
  l <- upd (w_surfs w) k s ;; Some (mkWorld (w_curves w) (w_ribs w) (w_doms w) l).
Definition setRib (w : world) (r : rloc) (o : ribObj) : option world :=
  l <- upd (w_ribs w) r o ;; Some (mkWorld (w_curves w) l (w_doms w) (w_surfs w)).
Definition setDom (w : world) (d : dloc) (o : domObj) : option world :=
  l <- upd (w_doms w) d o ;; Some (mkWorld (w_curves w) (w_ribs w) l (w_surfs w)).
Definition setCrv (w : world) (c : cloc) (o : curve) : option world :=
  l <- upd (w_curves w) c o ;; Some (mkWorld l (w_ribs w) (w_doms w) (w_surfs w)).
Definition addRib (w : world) (o : ribObj) : world :=
  mkWorld (w_curves w) (w_ribs w ++ [o]) (w_doms w) (w_surfs w).

(** std::vector::resize with null pointers *)
Definition resize {A : Type} (l : list (option A)) (m : nat) : list (option A) :=
  firstn m l ++ repeat None (m - length l).

(** Domain::setSide, domain.cc:17-22 *)
Definition domSide (o : domObj) (i : nat) (c : cloc) : option domObj :=
  l <- upd (if (length (do_curves o) <=? i)%nat then resize (do_curves o) (i + 1) else do_curves o) i (Some c) ;;
  Some (mkDob l (do_layout o)).

(** Surface::Surface() and the constructors of the classes, which make a new
    domain: surface.cc:14-16 *)
Definition newSurface (w : world) : world :=
  mkWorld (w_curves w) (w_ribs w) (w_doms w ++ [mkDob [] None])
    (w_surfs w ++ [mkSob 0 true (length (w_doms w)) [] []]).

(** The default copy constructor, surface.hh:21: the pointers are copied. *)
Definition copySurface (w : world) (k : nat) : option world :=
  s <- nth_error (w_surfs w) k ;;
  Some (mkWorld (w_curves w) (w_ribs w) (w_doms w) (w_surfs w ++ [s])).

(** Surface::setCurve, surface.cc:26-35 *)
Definition setCurve (w : world) (k i : nat) (c : cloc) : option world :=
  s <- nth_error (w_surfs w) k ;;
  let ribs := if (so_n s <=? i)%nat then resize (so_ribs s) (i + 1) else so_ribs s in
  let n := if (so_n s <=? i)%nat then (i + 1)%nat else so_n s in
  ribs' <- upd ribs i (Some (length (w_ribs w))) ;;
  let w1 := addRib w (newRibbon c) in
  d <- nth_error (w_doms w) (so_dom s) ;; d' <- domSide d i c ;;
  w2 <- setDom w1 (so_dom s) d' ;;
  setSurf w2 k (mkSob n (so_gamma s) (so_dom s) ribs' (so_corners s)).

(** Surface::setCurves, surface.cc:37-47; Domain::setSides, domain.cc:24-27 *)
Definition setCurves (w : world) (k : nat) (cs : list cloc) : option world :=
  s <- nth_error (w_surfs w) k ;;
  let ribs := map Some (seq (length (w_ribs w)) (length cs)) in
  let w1 := mkWorld (w_curves w) (w_ribs w ++ map newRibbon cs) (w_doms w) (w_surfs w) in
  d <- nth_error (w_doms w) (so_dom s) ;;
  w2 <- setDom w1 (so_dom s) (mkDob (map Some cs) (do_layout d)) ;;
  setSurf w2 k (mkSob (length cs) (so_gamma s) (so_dom s) ribs (so_corners s)).

(** ** setupLoop: surface.cc:49-77 *)

Definition vdist (a b : V3) : R := vnorm (a -v b).

(** The test for the first curve, lines 59-69 *)
Definition reverseFirst (c cn : curve) : bool :=
  let end_to_start := vdist (cpt c 1) (cpt cn 0) in let end_to_end := vdist (cpt c 1) (cpt cn 1) in
  let start_to_start := vdist (cpt c 0) (cpt cn 0) in let start_to_end := vdist (cpt c 0) (cpt cn 1) in
  if Rlt_dec (Rmin start_to_start start_to_end) (Rmin end_to_start end_to_end) then true else false.
(** The test for the others, lines 71-75 *)
Definition reverseNext (c cp : curve) : bool :=
  if Rlt_dec (vdist (cpt c 1) (cpt cp 1)) (vdist (cpt c 0) (cpt cp 1)) then true else false.

Definition withNeighbors (o : ribObj) (p n : rloc) : ribObj :=
  mkRob (ro_curve o) (Some p) (Some n) (ro_mult o) (ro_handler o) (ro_fence o) (ro_data o).

(** The curve of a ribbon object. *)
Definition ribCurve (w : world) (r : rloc) : option curve :=
  o <- nth_error (w_ribs w) r ;; nth_error (w_curves w) (ro_curve o).

(** One iteration.  A null neighbour is dereferenced in this or in another
    iteration in any case. *)
Definition setupSide (s : surfObj) (w : world) (i : nat) : option world :=
  rp <- sideRib s (prv (so_n s) i) ;; rn <- sideRib s (nxt (so_n s) i) ;; r <- sideRib s i ;;
  o <- nth_error (w_ribs w) r ;;
  w1 <- setRib w r (withNeighbors o rp rn) ;;
  c <- nth_error (w_curves w) (ro_curve o) ;;
  other <- ribCurve w (if (i =? 0)%nat then rn else rp) ;;
  if (if (i =? 0)%nat then reverseFirst c other else reverseNext c other)
  then setCrv w1 (ro_curve o) (reverseCurve c)
  else Some w1.

Definition setupLoop (w : world) (k : nat) : option world :=
  s <- nth_error (w_surfs w) k ;; foldM (setupSide s) w (seq 0 (so_n s)).

(** ** Settings: surface.cc:79-107, ribbon.cc:33-65 *)
Inductive setting := SMult (m : R) | SHandler (h : V3) | SFence (f : option (R -> V3)) | SReset.
Definition applySetting (o : ribObj) (x : setting) : option ribObj :=
  match x with
  | SMult m => Some (mkRob (ro_curve o) (ro_prev o) (ro_next o) m (ro_handler o) (ro_fence o) (ro_data o))
  | SHandler h =>
      h' <- vnormalize h ;;
      Some (mkRob (ro_curve o) (ro_prev o) (ro_next o) (ro_mult o) (Some h') (ro_fence o) (ro_data o))
  | SFence f => Some (mkRob (ro_curve o) (ro_prev o) (ro_next o) (ro_mult o) (ro_handler o) f (ro_data o))
  | SReset => Some (mkRob (ro_curve o) (ro_prev o) (ro_next o) 1 None (ro_fence o) (ro_data o))
  end.
Definition setRibbon (w : world) (k i : nat) (x : setting) : option world :=
  s <- nth_error (w_surfs w) k ;; r <- sideRib s i ;; o <- nth_error (w_ribs w) r ;;
  o' <- applySetting o x ;; setRib w r o'.

(** What the query functions report: surface.cc:79-82 and 94-97; the fence has
    no query, it is what normal() would use. *)
Definition ribbonAt (w : world) (k i : nat) : option ribObj :=
  s <- nth_error (w_surfs w) k ;; r <- sideRib s i ;; nth_error (w_ribs w) r.
Definition ribbonMultiplier (w : world) (k i : nat) : option R := o <- ribbonAt w k i ;; Some (ro_mult o).
Definition ribbonHandler (w : world) (k i : nat) : option (option V3) := o <- ribbonAt w k i ;; Some (ro_handler o).

(** ** Updates: surface.cc:109-125, 267-290 *)
Section Update.
Variables (kd : rkind) (eps : R) (res : nat).

(** A ribbon lives while a surface has it. *)
Definition owns (r : rloc) (s : surfObj) : bool :=
  existsb (fun o => match o with Some r' => (r' =? r)%nat | None => false end) (so_ribs s).
Definition alive (w : world) (r : rloc) : bool := existsb (owns r) (w_surfs w).
(** weak_ptr::lock *)
Definition lock (w : world) (p : option rloc) : option rloc := r <- p ;; if alive w r then Some r else None.

Definition updateRibbon (w : world) (r : rloc) : option world :=
  o <- nth_error (w_ribs w) r ;;
  rp <- lock w (ro_prev o) ;; rn <- lock w (ro_next o) ;;
  cp <- ribCurve w rp ;; c <- nth_error (w_curves w) (ro_curve o) ;; cn <- ribCurve w rn ;;
  d <- ribDerive kd eps res cp c cn (ro_mult o) (ro_handler o) (ro_fence o) ;;
  setRib w r (mkRob (ro_curve o) (ro_prev o) (ro_next o) (ro_mult o) (ro_handler o) (ro_fence o) (Some d)).

(** crossDerivative() of a ribbon object *)
Definition crossAt (w : world) (r : rloc) (x : R) : option V3 :=
  o <- nth_error (w_ribs w) r ;; c <- nth_error (w_curves w) (ro_curve o) ;; d <- ro_data o ;;
  ribCross kd eps c (ro_fence o) d x.

(** surface.cc:267-283 *)
Definition cornerOf (w : world) (s : surfObj) (i : nat) : option corner :=
  r <- sideRib s i ;; rp <- sideRib s (nxt (so_n s) i) ;;
  c <- ribCurve w r ;; cp <- ribCurve w rp ;;
  a1 <- crossAt w r 1 ;; a2 <- crossAt w r (1 - corner_step) ;;
  b1 <- crossAt w rp 0 ;; b2 <- crossAt w rp corner_step ;;
  Some (mkCorner (cpt c 1) (vopp (cder c 1)) (cder cp 0) ((a2 -v a1) *v / corner_step) ((b2 -v b1) *v / corner_step)).
Definition updateCorner (w : world) (k i : nat) : option world :=
  s <- nth_error (w_surfs w) k ;; c <- cornerOf w s i ;; l <- upd (so_corners s) i c ;;
  setSurf w k (mkSob (so_n s) (so_gamma s) (so_dom s) (so_ribs s) l).
(** surface.cc:285-290.  The elements added by resize are all overwritten;
    those present before are, too. *)
Definition updateCorners (w : world) (k : nat) : option world :=
  s <- nth_error (w_surfs w) k ;; l <- mapM (cornerOf w s) (seq 0 (so_n s)) ;;
  setSurf w k (mkSob (so_n s) (so_gamma s) (so_dom s) (so_ribs s) l).

(** domain_->update() *)
Definition updateDomain (w : world) (d : dloc) : option world :=
  o <- nth_error (w_doms w) d ;;
  setDom w d (mkDob (do_curves o) (Some (map (fun c => l <- c ;; nth_error (w_curves w) l) (do_curves o)))).

(** update(i), surface.cc:109-116 *)
Definition updateSide (w : world) (k i : nat) : option world :=
  s <- nth_error (w_surfs w) k ;; w1 <- updateDomain w (so_dom s) ;;
  r <- sideRib s i ;; w2 <- updateRibbon w1 r ;;
  w3 <- updateCorner w2 k (prv (so_n s) i) ;; updateCorner w3 k i.
(** update(), surface.cc:118-125 *)
Definition updateAll (w : world) (k : nat) : option world :=
  s <- nth_error (w_surfs w) k ;; w1 <- updateDomain w (so_dom s) ;;
  w2 <- foldM (fun w o => r <- o ;; updateRibbon w r) w1 (so_ribs s) ;;
  updateCorners w2 k.

(** ** Histories *)
Inductive wop :=
| ONew
| OCopy (k : nat)
| OGamma (k : nat) (b : bool)                (* surface.cc:21-24 *)
| OSetCurve (k i : nat) (c : cloc)
| OSetCurves (k : nat) (cs : list cloc)
| OSetupLoop (k : nat)
| OSet (k i : nat) (x : setting)
| OUpdateSide (k i : nat)
| OUpdate (k : nat).

Definition wstep (w : world) (o : wop) : option world :=
  match o with
  | ONew => Some (newSurface w)
  | OCopy k => copySurface w k
  | OGamma k b => s <- nth_error (w_surfs w) k ;;
                  setSurf w k (mkSob (so_n s) b (so_dom s) (so_ribs s) (so_corners s))
  | OSetCurve k i c => setCurve w k i c
  | OSetCurves k cs => setCurves w k cs
  | OSetupLoop k => setupLoop w k
  | OSet k i x => setRibbon w k i x
  | OUpdateSide k i => updateSide w k i
  | OUpdate k => updateAll w k
  end.
Definition wrun (w : world) (os : list wop) : option world := foldM wstep w os.

(** Nothing but curve objects. *)
Definition startWorld (cs : list curve) : world := mkWorld cs [] [] [].
End Update.
