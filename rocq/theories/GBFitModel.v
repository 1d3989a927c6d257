(** fitWithOriginal of gb-fit.cc.  A sample is the list [sds] that mapToRibbons returns for
    its parameter, and its point.  The LU and the SVD solver of Eigen are parameters
    [solver rows columns matrix rhs], for three right hand sides at once, and so is the
    precision [tol] of isApprox. *)
From Verif Require Import Base UtilModel GBModel.
From Coq Require Import Reals List.
Import ListNotations.
Open Scope R_scope.

Section Fit.
Variables lu svd : nat -> nat -> (nat -> nat -> R) -> (nat -> V3) -> nat -> V3.
Variable tol : R.

(** Eigen's isApprox on matrices of [m] rows and three columns. *)
Definition isApprox (m : nat) (a b : nat -> V3) : bool :=
  if Rle_dec (rsum m (fun j => vnorm2 (a j -v b j))) (tol * tol * Rmin (rsum m (fun j => vnorm2 (a j))) (rsum m (fun j => vnorm2 (b j)))) then true else false.

(** gb-fit.cc:192-197 *)
Definition fitSolve (rows cols : nat) (A : nat -> nat -> R) (b : nat -> V3) : nat -> V3 :=
  let x := lu rows cols A b in
  if isApprox rows (fun j => vsum cols (fun c => x c *v A j c)) b then x else svd rows cols A b.

(** gb-fit.cc:101-108; for degree 0 the loop bound wraps around and the first access is
    out of range.  [v0], [c0], [d0], [l0] are what the new object contains. *)
Definition fitStart (v0 c0 : V3) (d0 l0 : nat) (o : gbsurf) : option gbsurf :=
  let n := gb_dom o in let d := gb_deg o in
  if (d =? 0)%nat then None else
  g <- foldM (fun g i => foldM (fun g j => foldM (fun g k =>
         p <- controlPoint o i j k ;; setControlPoint g i j k p) g (seq 0 2)) g (seq 0 (d - 1)))
       (initNetwork v0 (gbNew d0 l0 c0) n d) (seq 0 n) ;;
  gbSetupLoop g.

(** gb-fit.cc:126-130 *)
Definition fitBlend (eps : R) (g : gbsurf) (sds : list V2) (q : position) : option R :=
  let n := gb_n g in let d := gb_deg g in let l := gb_lay g in
  let '(side, col, row) := q in
  w <- gbWeight eps g sds side col row ;;
  a <- (if (col <? l)%nat then gbWeight eps g sds (prv n side) (d - row) col else Some 0) ;;
  b <- (if above col d l then gbWeight eps g sds (nxt n side) row (d - col) else Some 0) ;;
  Some (w + a + b).

(** One equation: its coefficients and its right hand side. *)
Definition equation : Type := (nat -> R) * V3.

(** gb-fit.cc:117-140; control point [i] of the code is element [i - 1] of the enumeration. *)
Definition fitSample (eps : R) (g : gbsurf) (bcp : nat) (sample : list V2 * V3) : option equation :=
  let es := enumerate (gb_n g) (gb_deg g) in
  bs <- mapM (fitBlend eps g (fst sample)) es ;;
  ps <- mapM (fun q : position => let '(i, j, k) := q in controlPoint g i j k) (firstn bcp es) ;;
  let B a := nth a bs 0 in
  Some (fun c => if (c =? 0)%nat then 1 - rsum (length bs) B else B (bcp + c - 1)%nat,
        snd sample -v vsum (length ps) (fun a => nth a ps vzero *v B a)).

(** findControlPoint, gb-fit.cc:144-160: 0 if there is none; [None] is an address one of
    whose indices wrapped around. *)
Definition fitFind (n d : nat) (q : option position) : nat :=
  match q with None => 0%nat | Some (i, j, k) => findFrom n d i j k 0 (enumerate n d) end.

(** setWeight, gb-fit.cc:161-172 *)
Definition setEntry (r : equation) (c : nat) (w : R) : equation := (fun x => if (x =? c)%nat then w else fst r x, snd r).
Definition setWeight (g : gbsurf) (bcp : nat) (r : equation) (q : option position) (w : R) : option equation :=
  let i := fitFind (gb_n g) (gb_deg g) q in
  if (bcp <? i)%nat then Some (setEntry r (i - bcp) w)
  else if (i =? 0)%nat then Some (setEntry r 0 w)
  else match q with
       | Some (side, col, row) => p <- controlPoint g side col row ;; Some (fst r, snd r -v p *v w)
       | None => None
       end.

(** gb-fit.cc:173-175 *)
Definition smoothCenter (g : gbsurf) (bcp : nat) (smoothing : R) : option equation :=
  let l := gb_lay g in
  r <- foldM (fun r j => setWeight g bcp r (Some (j, l, l - 1)%nat) (- smoothing / INR (gb_n g))) ((fun _ => 0), vzero) (seq 0 (gb_n g)) ;;
  Some (setEntry r 0 smoothing).

(** gb-fit.cc:184-189; a difference that wraps around is no index. *)
Definition before (i : nat) (f : nat -> position) : option position := match i with O => None | S i' => Some (f i') end.
Definition smoothPoint (g : gbsurf) (bcp : nat) (smoothing : R) (cq : nat * position) : option equation :=
  let '(c, (side, col, row)) := cq in
  let w := - smoothing / 4 in
  r <- setWeight g bcp ((fun _ => 0), vzero) (before col (fun j => (side, j, row))) w ;;
  r <- setWeight g bcp r (Some (side, col + 1, row)%nat) w ;;
  r <- setWeight g bcp r (before row (fun k => (side, col, k))) w ;;
  r <- setWeight g bcp r (Some (side, col, row + 1)%nat) w ;;
  Some (setEntry r c smoothing).

(** The loops of gb-fit.cc:176-183 and 201-208: the movable control points with their
    columns. *)
Definition movable (n d f bcp : nat) : list (nat * position) :=
  let m := (gbCount n d - 1 - bcp)%nat in combine (seq 1 m) (enumLoop n d m 0 f f).

(** gb-fit.cc:199-210 *)
Definition fitFill (g : gbsurf) (ms : list (nat * position)) (x : nat -> V3) : option gbsurf :=
  foldM (fun g (cq : nat * position) => let '(c, (i, j, k)) := cq in setControlPoint g i j k (x c)) (setCentral g (x 0%nat)) ms.

(** The equations, gb-fit.cc:110-190. *)
Definition fitSystem (eps : R) (g : gbsurf) (f bcp : nat) (smoothing : R) (samples : list (list V2 * V3)) : option (list equation) :=
  rows <- mapM (fitSample eps g bcp) samples ;;
  c <- smoothCenter g bcp smoothing ;;
  ss <- mapM (smoothPoint g bcp smoothing) (movable (gb_n g) (gb_deg g) f bcp) ;;
  Some (rows ++ c :: ss).

(** gb-fit.cc:88-213.  More fixed control points than control points: the sizes of the
    matrices wrap around. *)
Definition fitWithOriginal (eps : R) (v0 c0 : V3) (d0 l0 : nat) (o : gbsurf) (samples : list (list V2 * V3))
    (smoothing : R) (f : nat) : option gbsurf :=
  g <- fitStart v0 c0 d0 l0 o ;;
  let n := gb_n g in let d := gb_deg g in
  if (d + 1 <? f)%nat then None else
  let bcp := (n * (d + 1 - f) * f)%nat in
  if (gbCount n d <=? bcp)%nat then None else
  rows <- fitSystem eps g f bcp smoothing samples ;;
  let x := fitSolve (length rows) (gbCount n d - bcp)%nat (fun j c => fst (nth j rows ((fun _ => 0), vzero)) c) (fun j => snd (nth j rows ((fun _ => 0), vzero))) in
  fitFill g (movable n d f bcp) x.
End Fit.
