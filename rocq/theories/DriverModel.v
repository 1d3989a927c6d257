(** The test driver, src/test/test.cc: statistics of a list of numbers, the meshes
    of fences and ribbons, and the errors measured on the boundary.  The surface is
    given by its functions; text output is left out. *)
From Verif Require Import Base MeshModel UtilModel DomainModel ParamModel.
Open Scope R_scope.

(** ** printStatistics *)

(** test.cc:366, std::sort *)
Fixpoint rinsert (x : R) (l : list R) : list R :=
  match l with
  | [] => [x]
  | y :: l' => if Rle_dec x y then x :: y :: l' else y :: rinsert x l'
  end.
Fixpoint rsort (l : list R) : list R :=
  match l with [] => [] | x :: l' => rinsert x (rsort l') end.

(** test.cc:370-377, one turn of the loop: [i] is 1, 2 or 3 *)
Definition quartile (sorted : list R) (i : nat) : option R :=
  let n := length sorted in
  let k := (n * i / 4)%nat in
  let mix a b := x <- nth_error sorted k ;; y <- nth_error sorted (k + 1) ;; Some (x * a + y * b) in
  match (n mod 4)%nat with
  | O => nth_error sorted k
  | S O => mix (3 / 4) (1 / 4)
  | S (S O) => mix (1 / 2) (1 / 2)
  | _ => mix (1 / 4) (3 / 4)
  end.

(** [++histogram[k]] *)
Fixpoint bump (h : list nat) (k : nat) : option (list nat) :=
  match h, k with
  | [], _ => None
  | x :: h', O => Some (S x :: h')
  | x :: h', S k' => r <- bump h' k' ;; Some (x :: r)
  end.
(** test.cc:391-402; [lo] and [hi] are current_bin_min and current_bin_max. *)
Fixpoint histLoop (bins : nat) (width : R) (bin : nat) (lo hi : R) (h : list nat) (sorted : list R) : option (list nat) :=
  match sorted with
  | [] => Some h
  | x :: l =>
      if Rlt_dec x lo then histLoop bins width bin lo hi h l
      else
        let '(bin, lo, hi) := if Rlt_dec hi x then (S bin, lo + width, hi + width) else (bin, lo, hi) in
        if (bins <=? bin)%nat then Some h
        else h' <- bump h bin ;; histLoop bins width bin lo hi h' l
  end.
(** test.cc:385-402 *)
Definition histogram (bins : nat) (q1 q3 : R) (sorted : list R) : option (list nat) :=
  width <- fdiv (q3 - q1) (INR bins) ;;
  histLoop bins width 0 q1 (q1 + width) (repeat 0%nat bins) sorted.
(** test.cc:403-405 *)
Definition bars (height : nat) (h : list nat) : option (list nat) :=
  let m := fold_right Nat.max 0%nat h in
  mapM (fun k => match m with O => None | _ => Some (k * height / m)%nat end) h.

Record stats := mkStats { st_mean : R; st_dev : R; st_min : R; st_q1 : R; st_q2 : R; st_q3 : R; st_max : R;
                          st_hist : list nat; st_bars : list nat }.
(** test.cc:359-405, with 25 bins and height 15 *)
Definition printStatistics (data : list R) : option stats :=
  let n := length data in
  mean <- fdiv (accumulate data) (INR n) ;;
  var <- fdiv (accumulate (map (fun x => (x - mean) ^ 2) data)) (INR n - 1) ;;
  let sorted := rsort data in
  mn <- nth_error sorted 0 ;; mx <- nth_error sorted (n - 1) ;;
  q1 <- quartile sorted 1 ;; q2 <- quartile sorted 2 ;; q3 <- quartile sorted 3 ;;
  h <- histogram 25 q1 q3 sorted ;;
  b <- bars 15 h ;;
  Some (mkStats mean (sqrt var) mn q1 q2 q3 mx h b).

(** ** ribbonTest *)
Section Ribbons.
Variables (n res : nat) (curve : nat -> R -> V3) (normal : nat -> R -> option V3) (ribbon : nat -> V2 -> option V3).
Variables (scaling len : R).
(** test.cc:43-52 *)
Definition fencePoints : option (list V3) :=
  flat_mapM (fun i => flat_mapM (fun j =>
    u <- ratio j res ;; nr <- normal i u ;;
    Some [curve i u; curve i u +v nr *v scaling]) (seq 0 res)) (seq 0 n).
(** test.cc:67-74 *)
Definition ribbonPoints : option (list V3) :=
  flat_mapM (fun i => flat_mapM (fun j =>
    u <- ratio j res ;; p <- ribbon i (mkV2 u len) ;;
    Some [curve i u; p]) (seq 0 (res + 1))) (seq 0 n).
End Ribbons.
(** test.cc:55-60: the loop for even sizes; two triangles and two steps in each turn *)
Fixpoint fenceLoop (fuel index size : nat) : list tri * nat :=
  match fuel with
  | O => ([], index)
  | S fuel' =>
      if (index <? size - 2)%nat
      then let '(ts, k) := fenceLoop fuel' (index + 2) size in
           ((index, index + 1, index + 2) :: (index + 1, index + 1 + 2, index + 1 + 1) :: ts, k)%nat
      else ([], index)
  end.
(** test.cc:54-62.  The size is unsigned: if it is 0, [size - 2] is the largest even
    number and the loop does not end before the memory does. *)
Definition fenceTriangles (n res : nat) : option (list tri) :=
  let size := (n * res * 2)%nat in
  if (size <? 2)%nat then None
  else let '(ts, index) := fenceLoop size 0 size in
       Some (ts ++ [(index, index + 1, 0); (index + 1, 1, 0)])%nat.
(** test.cc:76-85 *)
Fixpoint ribbonRow (res index : nat) : list tri :=
  match res with
  | O => []
  | S res' => (index, index + 1, index + 2)%nat :: (index + 1, index + 1 + 2, index + 1 + 1)%nat :: ribbonRow res' (index + 2)
  end.
Fixpoint ribbonRows (n res index : nat) : list tri :=
  match n with
  | O => []
  | S n' => ribbonRow res index ++ ribbonRows n' res (index + 2 * res + 2)
  end.
Definition ribbonTriangles (n res : nat) : list tri := ribbonRows n res 0.

(** ** showDeviations *)
Section Deviations.
Variables (d : dom) (res : nat) (step : R) (eval : V2 -> option V3) (curve deriv : nat -> R -> V3) (normal : nat -> R -> option V3).
(** test.cc:115, 121, 126, 150: the largest of a list of errors, none below zero *)
Definition largest (l : list R) : R := fold_left Rmax l 0.
(** test.cc:114-123; [res] is 40 *)
Definition positionalError : option R :=
  es <- flat_mapM (fun i => mapM (fun j =>
    s <- ratio j res ;; uv <- edgePoint d i s ;; p <- eval uv ;; Some (vnorm (p -v curve i s))) (seq 0 (res + 1))) (seq 0 (d_n d)) ;;
  Some (largest es).
(** test.cc:130-134 *)
Definition inwards (i : nat) : option V2 :=
  vi <- nth_error (d_verts d) i ;; vp <- nth_error (d_verts d) (prv (d_n d) i) ;;
  let e := vi -p vp in
  let perp := mkV2 (py e) (- px e) in
  let perp := if Rlt_dec (pdot (d_center d -p vi) perp) 0 then perp *p (-1) else perp in
  pdiv perp (pnorm perp).
(** test.cc:136-149; [step] is 1e-4; [normal] is the one of the ribbon, or for generalized Bezier
    patches the one of the second row of control points *)
Definition angleError (i j : nat) : option R :=
  perp <- inwards i ;;
  s <- ratio j res ;; uv <- edgePoint d i s ;;
  p <- eval uv ;; q <- eval (uv +p perp *p step) ;;
  sn <- vnormalize (vcross (deriv i s) (q -v p)) ;;
  nr <- normal i s ;;
  Some (acos (vdot sn nr)).
(** test.cc:125-152 *)
Definition tangentialError : option R :=
  es <- flat_mapM (fun i => mapM (angleError i) (seq 0 (res + 1))) (seq 0 (d_n d)) ;;
  Some (largest es).
End Deviations.
(** test.cc:100-112, 144-145: for generalized Bezier patches the normal comes from the
    Bezier curve of the second row [inner] *)
Definition rowNormal (curve deriv inner : nat -> R -> V3) (i : nat) (s : R) : option V3 :=
  vnormalize (vcross (deriv i s) (inner i s -v curve i s)).

(** ** deviationFromMesh *)
(** test.cc:426-429 *)
Definition planeDeviation (a b c p : V3) : option R :=
  n <- vnormalize (vcross (b -v a) (c -v a)) ;;
  let q := p +v n *v vdot (a -v p) n in
  Some (vnorm (p -v q)).
(** test.cc:419-432; [closest] is TriMesh::closestTriangle of the surface mesh. *)
Definition deviationFromMesh (closest : V3 -> nat * nat * nat) (vertices points : list V3) : option (list R) :=
  mapM (fun p =>
    let '(i, j, k) := closest p in
    a <- nth_error vertices i ;; b <- nth_error vertices j ;; c <- nth_error vertices k ;;
    planeDeviation a b c p) points.
