(** Model of rmf.cc and the ribbon classes (ribbon*.cc), pure part.

    A curve (curves.hh:9-16) is three functions: the point [cpt c u] computed by
    eval(u), the first derivative [cder c u] found in der[1] after
    eval(u, 1, der), and [clen c a b], the value of arcLength(a, b).  What these
    functions are is left open (BSCurve belongs to another library); theorems
    quantify over all of them.  Reversal is in SurfaceObj.v.

    As everywhere, doubles are reals, and an operation that would divide by zero
    gives [None]. *)
Require Import Verif.Base Verif.UtilModel.
Require Import Reals List Lia Lra.
Import ListNotations.
Open Scope R_scope.

(** curves.hh:9-16 *)
Record curve := mkCurve { cpt : R -> V3; cder : R -> V3; clen : R -> R -> R }.

(** ** Rotation minimizing frames *)

(** rmf.hh:18-25 *)
Record frame := mkFrame { fr_u : R; fr_s : R; fr_p : V3; fr_d : V3; fr_n : V3 }.

(** rmf.cc:61-77, the rows of the matrix *)
Definition rotationMatrix (u : V3) (theta : R) : V3 * V3 * V3 :=
  let x := vx u in let y := vy u in let z := vz u in
  let c := cos theta in let c1 := 1 - c in let s := sin theta in
  (mkV3 (c + x * x * c1) (x * y * c1 - z * s) (x * z * c1 + y * s),
   mkV3 (y * x * c1 + z * s) (c + y * y * c1) (y * z * c1 - x * s),
   mkV3 (z * x * c1 - y * s) (z * y * c1 + x * s) (c + z * z * c1)).

(** rmf.cc:80-87; only the normal of the rotated frame *)
Definition applyMatrix (m : V3 * V3 * V3) (n : V3) : V3 :=
  let '(r0, r1, r2) := m in mkV3 (vdot r0 n) (vdot r1 n) (vdot r2 n).
Definition rotateFrame (f : frame) (a : R) : frame :=
  mkFrame (fr_u f) (fr_s f) (fr_p f) (fr_d f) (applyMatrix (rotationMatrix (fr_d f) a) (fr_n f)).

(** rmf.cc:90-108.  The tangent is normalised before the test on [c1] in the
    code, but not used when the previous frame is returned. *)
Definition nextFrame (eps : R) (c : curve) (prev : frame) (u : R) : option frame :=
  let v1 := cpt c u -v fr_p prev in
  let c1 := vdot v1 v1 in
  if Rlt_dec c1 eps then Some prev
  else
    t <- vnormalize (cder c u) ;;
    v2 <- vdiv (v1 *v 2) c1 ;;
    let nL := fr_n prev -v v2 *v vdot v1 (fr_n prev) in
    let dL := fr_d prev -v v2 *v vdot v1 (fr_d prev) in
    let w := t -v dL in
    let c2 := vdot w w in
    nNext <- (if Rlt_dec c2 eps then Some nL
              else w2 <- vdiv (w *v 2) c2 ;; Some (nL -v w2 *v vdot w nL)) ;;
    Some (mkFrame u (fr_s prev + clen c (fr_u prev) u) (cpt c u) t nNext).

(** The loop of rmf.cc:35-40; [res] is RMF::resolution_, i.e. 100 (rmf.cc:9);
    [k] steps are left and the next one is step [i]. *)
Fixpoint frameLoop (eps : R) (c : curve) (res k i : nat) (f : frame) : option (list frame) :=
  match k with
  | O => Some [f]
  | S k' => f' <- nextFrame eps c f (INR i / INR res) ;;
            l <- frameLoop eps c res k' (S i) f' ;; Some (f :: l)
  end.

(** An updated RMF object. *)
Record rmf := mkRmf { rm_curve : curve; rm_frames : list frame; rm_angle : R }.

(** rmf.cc:27-49.  The initial frame is rmf.cc:34, the angle rmf.cc:44-48. *)
Definition firstFrame (c : curve) (start : V3) : option frame :=
  t <- vnormalize (cder c 0) ;; Some (mkFrame 0 0 (cpt c 0) t start).
Definition endAngle (stop : V3) (f : frame) : R :=
  let a := acos (clamp (vdot stop (fr_n f)) (-1) 1) in
  if Rlt_dec (vdot (vcross (fr_n f -v stop) stop) (fr_d f)) 0 then a * -1 else a.
Definition rmfUpdate (eps : R) (res : nat) (c : curve) (start stop : V3) : option rmf :=
  f0 <- firstFrame c start ;;
  l <- frameLoop eps c res res 1 f0 ;;
  f <- nth_error l res ;;
  a <- fdiv (endAngle stop f) (fr_s f) ;;
  Some (mkRmf c l a).

(** std::upper_bound in rmf.cc:53-54: the number of leading frames whose
    parameter is not above [u].  This is what the library function returns on
    lists sorted by parameter, which the frame list is (C30). *)
Fixpoint upperBound (u : R) (l : list frame) : nat :=
  match l with
  | [] => O
  | f :: l' => if Rlt_dec u (fr_u f) then O else S (upperBound u l')
  end.

(** rmf.cc:52-58; stepping back from the beginning of the list is undefined. *)
Definition rmfEval (eps : R) (m : rmf) (u : R) : option V3 :=
  match upperBound u (rm_frames m) with
  | O => None
  | S i =>
      f0 <- nth_error (rm_frames m) i ;;
      f <- nextFrame eps (rm_curve m) f0 u ;;
      Some (fr_n (rotateFrame f (fr_s f * rm_angle m)))
  end.

(** ** Ribbons *)

(** ribbon.cc:68-88; [None] when a normal or a frame is not a number. *)
Definition ribbonUpdate (eps : R) (res : nat) (prev c next : curve) : option rmf :=
  start <- vnormalize (vcross (cder prev 1) (cder c 0)) ;;
  stop <- vnormalize (vcross (cder c 1) (cder next 0)) ;;
  rmfUpdate eps res c start stop.

(** ribbon.cc:96-100; [fence] is the overriding normal fence, if any. *)
Definition normalOf (eps : R) (fence : option (R -> V3)) (m : option rmf) (s : R) : option V3 :=
  match fence with
  | Some f => Some (f s)
  | None => m' <- m ;; rmfEval eps m' s
  end.

(** ribbon.cc:91-93 *)
Definition ribbonEval (c : curve) (cross : R -> option V3) (sd : V2) : option V3 :=
  x <- cross (px sd) ;; Some (cpt c (px sd) +v x *v py sd).

(** The projections used in ribbon-compatible.cc:22-23 and
    ribbon-compatible-with-handler.cc:23-25. *)
Definition projectOut (n v : V3) : V3 := v -v n *v vdot v n.

(** ribbon-compatible.cc:9-17: the previous and the next tangent *)
Definition prevTangent (prev : curve) : V3 := vopp (cder prev 1).
Definition nextTangent (next : curve) : V3 := cder next 0.

(** ribbon-compatible.cc:20-25 *)
Definition crossCompatible (normal : R -> option V3) (pt nt : V3) (s : R) : option V3 :=
  n <- normal s ;;
  Some (projectOut n pt *v (1 - s) +v projectOut n nt *v s).

(** ribbon-compatible-with-handler.cc:11-16; [h] is the handler that was set, if any *)
Definition handlerValue (normal : R -> option V3) (pt nt : V3) (h : option V3) : option V3 :=
  match h with
  | Some h => Some h
  | None =>
      n <- normal (1 / 2) ;;
      a <- vdiv pt (vnorm pt) ;; b <- vdiv nt (vnorm nt) ;;
      vnormalize (projectOut n (a +v b))
  end.
(** ribbon-compatible-with-handler.cc:17 *)
Definition centralValue (pt nt h : V3) (mult : R) : V3 :=
  h *v (vnorm pt + vnorm nt) *v / 2 *v mult.
(** ribbon-compatible-with-handler.cc:21-29 *)
Definition crossHandler (normal : R -> option V3) (pt nt central : V3) (s : R) : option V3 :=
  n <- normal s ;;
  Some (projectOut n pt *v 2 *v (s - 1) *v (s - 1 / 2)
        +v projectOut n central *v -4 *v s *v (s - 1)
        +v projectOut n nt *v 2 *v s *v (s - 1 / 2)).

(** ribbon-perpendicular.cc:9-27 *)
Record perpData := mkPerp { pp_norm : R; pn_norm : R; pp_alpha : R; pn_alpha : R; pp_beta : R; pn_beta : R }.
Definition perpUpdate (normal : R -> option V3) (prev c next : curve) : option perpData :=
  t0 <- vnormalize (cder c 0) ;; t1 <- vnormalize (cder c 1) ;;
  let pt := vopp (cder prev 1) in let nt := cder next 0 in
  n0 <- normal 0 ;; n1 <- normal 1 ;;
  let b0 := vcross n0 t0 in let b1 := vcross n1 t1 in
  p <- vdiv pt (vnorm pt) ;; q <- vdiv nt (vnorm nt) ;;
  Some (mkPerp (vnorm pt) (vnorm nt) (vdot p b0) (vdot q b1) (vdot p t0) (vdot q t1)).
(** ribbon-perpendicular.cc:30-41 *)
Definition crossPerpendicular (normal : R -> option V3) (c : curve) (k : perpData) (s : R) : option V3 :=
  t <- vnormalize (cder c s) ;; n <- normal s ;;
  let size := pp_norm k * (1 - s) + pn_norm k * s in
  let alpha := pp_alpha k * 2 * (s - 1) * (s - 1 / 2) + pn_alpha k * 2 * s * (s - 1 / 2) - 4 * s * (s - 1) in
  let beta := pp_beta k * 2 * (s - 1) * (s - 1 / 2) + pn_beta k * 2 * s * (s - 1 / 2) in
  Some ((vcross n t *v alpha +v t *v beta) *v size).

(** ribbon-coons.cc:12-34.  [same] is the outcome of the pointer comparison
    right2 == left_.  A BSCurve made of a list of points is the Bezier curve
    with these control points. *)
Record coonsData := mkCoons { co_left : curve; co_right : curve; co_top : list V3;
                              co_bl : V3; co_br : V3; co_tl : V3; co_tr : V3 }.
Definition coonsUpdate (left2 left c right right2 : curve) (same : bool) : coonsData :=
  let p1 := cpt left 0 in let q1 := cpt right 1 in
  let top := if same then [p1]
             else [q1; q1 +v cder right2 0 *v / 3; p1 -v cder left2 1 *v / 3; p1] in
  mkCoons left right top (cpt c 0) (cpt c 1) (cpt left 0) (cpt right 1).
(** ribbon-coons.cc:43-50 *)
Definition coonsEval (c : curve) (k : coonsData) (sd : V2) : option V3 :=
  let s := clamp (px sd) 0 1 in let d := clamp (py sd) 0 1 in
  let s1 := clamp (1 - s) 0 1 in let d1 := clamp (1 - d) 0 1 in
  t <- bcEval (co_top k) s1 ;;
  let p1 := cpt c s *v d1 +v t *v d in
  let p2 := cpt (co_left k) d1 *v s1 +v cpt (co_right k) d *v s in
  let p12 := (co_bl k *v s1 +v co_br k *v s) *v d1 +v (co_tl k *v s1 +v co_tr k *v s) *v d in
  Some (p1 +v p2 -v p12).

(** ribbon-nsided.cc:20-35 *)
Definition crossNSided (normal : R -> option V3) (c : curve) (s : R) : option V3 :=
  n <- normal s ;;
  let u := clamp s 0 1 in
  d <- vnormalize (cder c u) ;;
  if Req_EM_T s u then Some (vcross n d)
  else
    let phi := if Rlt_dec s 0 then - s else s - 1 in
    let d' := if Rlt_dec s 0 then d *v -1 else d in
    let b := vcross d' n in
    Some (b *v cos phi +v d' *v sin phi).
(** ribbon-nsided.cc:12-17 and 38-46 *)
Definition nsidedEval (normal : R -> option V3) (c : curve) (sd : V2) : option V3 :=
  let u := clamp (px sd) 0 1 in
  let length := py sd * clen c 0 1 in
  x <- crossNSided normal c (px sd) ;;
  Some (cpt c u +v x *v length).
