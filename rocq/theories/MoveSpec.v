(** Rigid motions of everything: points are moved by [x |-> L x + t], vectors by [L], normals by
    [L] and the orientation. *)
Require Import Verif.Base Verif.UtilModel Verif.RibbonModel Verif.SurfaceModel Verif.SurfaceObj.
Open Scope R_scope.

(** Linear maps. *)
Definition linear (L : V3 -> V3) : Prop := (forall a b, L (a +v b) = L a +v L b) /\ forall a k, L (a *v k) = L a *v k.
(** Linear isometries of orientation [o]: 1 for rotations, -1 for reflections. *)
Definition orthogonal (L : V3 -> V3) (o : R) : Prop :=
  linear L /\ (o = 1 \/ o = -1) /\ (forall a b, vdot (L a) (L b) = vdot a b) /\ (forall a b, vcross (L a) (L b) = L (vcross a b) *v o).

Section Moved.
Variables (L : V3 -> V3) (o : R) (t : V3).
Definition mvPoint (x : V3) : V3 := L x +v t.
Definition mvNormal (n : V3) : V3 := L n *v o.
(** A moved curve has moved points and derivatives, and the same length. *)
Definition mvCurve (c : curve) : curve := mkCurve (fun u => mvPoint (cpt c u)) (fun u => L (cder c u)) (clen c).
Definition mvFrame (f : frame) : frame := mkFrame (fr_u f) (fr_s f) (mvPoint (fr_p f)) (L (fr_d f)) (mvNormal (fr_n f)).
Definition mvFence (f : R -> V3) : R -> V3 := fun s => mvNormal (f s).
Definition mvRmf (m : rmf) : rmf := mkRmf (mvCurve (rm_curve m)) (map mvFrame (rm_frames m)) (rm_angle m * o).
Definition mvData (d : rdata) : rdata :=
  mkRdata (map mvFrame (rd_frames d)) (rd_angle d * o) (L (rd_pt d)) (L (rd_nt d)) (L (rd_central d)) (rd_perp d).
Definition mvRibObj (r : ribObj) : ribObj :=
  mkRob (ro_curve r) (ro_prev r) (ro_next r) (ro_mult r) (option_map L (ro_handler r)) (option_map mvFence (ro_fence r)) (option_map mvData (ro_data r)).
Definition mvDomObj (d : domObj) : domObj := mkDob (do_curves d) (option_map (map (option_map mvCurve)) (do_layout d)).
Definition mvCorner (c : corner) : corner := mkCorner (mvPoint (cn_point c)) (L (cn_tan1 c)) (L (cn_tan2 c)) (L (cn_twist1 c)) (L (cn_twist2 c)).
Definition mvSurfObj (s : surfObj) : surfObj := mkSob (so_n s) (so_gamma s) (so_dom s) (so_ribs s) (map mvCorner (so_corners s)).
Definition mvWorld (w : world) : world := mkWorld (map mvCurve (w_curves w)) (map mvRibObj (w_ribs w)) (map mvDomObj (w_doms w)) (map mvSurfObj (w_surfs w)).
Definition mvSetting (x : setting) : setting :=
  match x with SMult m => SMult m | SHandler h => SHandler (L h) | SFence f => SFence (option_map mvFence f) | SReset => SReset end.
Definition mvOp (x : wop) : wop := match x with OSet k i s => OSet k i (mvSetting s) | _ => x end.
(** What evaluation sees. *)
Definition mvRib (r : sribbon) : sribbon := mkRib (mvCurve (sr_curve r)) (fun s => option_map L (sr_cross r s)).
Definition mvSurf (s : surf) : surf := mkSurf (sf_n s) (sf_gamma s) (map mvRib (sf_ribbons s)) (map mvCorner (sf_corners s)).
End Moved.

(** The surface object [k] of a world, as evaluation sees it. *)
Definition surfAt (kd : rkind) (eps : R) (w : world) (k : nat) : option surf :=
  s <- nth_error (w_surfs w) k ;;
  rs <- mapM (fun x => r <- x ;; c <- ribCurve w r ;; Some (mkRib c (crossAt kd eps w r))) (so_ribs s) ;;
  Some (mkSurf (so_n s) (so_gamma s) rs (so_corners s)).

(** Any number of sides, but not the half turn of the fence: the last frame of the curve does not
    lie opposite to the normal at the end, or in its plane with the tangent otherwise. *)
Definition no_half_turn (eps : R) (res : nat) (c : curve) (start stop : V3) : Prop :=
  forall f0 l f, firstFrame c start = Some f0 -> frameLoop eps c res res 1 f0 = Some l -> nth_error l res = Some f ->
    fr_n f = stop /\ vdot stop stop = 1 \/ vdot (vcross (fr_n f) stop) (fr_d f) <> 0.
