(** Class A curve fitting and the arc length of Bezier curves:
    src/utils/bezier.cc:57-130.

    Matrix3x3 is part of libgeom and not in the repository: the matrix
    [rotation(axis, angle)] is taken to be Rodrigues' rotation, and a matrix is
    represented by the linear map it stands for. *)
From Verif Require Import Base UtilModel NMModel.
Open Scope R_scope.

(** Matrix3x3::rotation(axis, angle) * v *)
Definition rotate (axis : V3) (angle : R) (v : V3) : V3 :=
  v *v cos angle +v vcross axis v *v sin angle +v axis *v (vdot axis v * (1 - cos angle)).

(** The loop of generateClassA, bezier.cc:91-94; [cur] is [cp_[i-1]]. *)
Fixpoint armsFrom (k : nat) (M : V3 -> V3) (next cur : V3) : list V3 :=
  match k with
  | O => []
  | S k' => (cur +v M next) :: armsFrom k' M (M next) (cur +v M next)
  end.

(** generateClassA, bezier.cc:87-95: the new contents of [cp_]; for degree 0
    the vector has one element only and cp_[1] is out of range. *)
Definition generateClassA (n : nat) (p v : V3) (M : V3 -> V3) : option (list V3) :=
  match n with
  | O => None
  | S k => Some (p :: (p +v v) :: armsFrom k M v (p +v v))
  end.

(** setupMatrix, bezier.cc:96-103; std::min(std::max(x, -1.0), 1.0) is
    [clamp].  For degree 1 theta is a quotient by zero. *)
Definition setupMatrix (degree : nat) (v0 v1 : V3) (phi s : R) : option (V3 -> V3) :=
  e <- vnormalize (v1 -v v0) ;;
  axis <- vnormalize (rotate e phi (vcross v0 v1)) ;;
  w0 <- vnormalize (v0 -v axis *v vdot v0 axis) ;;
  w1 <- vnormalize (v1 -v axis *v vdot v1 axis) ;;
  theta <- fdiv (acos (clamp (vdot w0 w1) (- 1) 1)) (INR (degree - 1)) ;;
  Some (fun v => rotate axis theta v *v s).

(** evalMatrix, bezier.cc:104-109: the control points and the value. *)
Definition evalMatrix (n : nat) (pa pb v0 : V3) (M : V3 -> V3) : option (list V3 * R) :=
  cp <- generateClassA n pa v0 M ;;
  cn <- nth_error cp n ;; c0 <- nth_error cp 0 ;;
  u1 <- vnormalize (cn -v c0) ;;
  u2 <- vnormalize (pb -v pa) ;;
  Some (cp, vdot u1 u2 - 1).

(** targetFunction, bezier.cc:113-116: the matrix, the control points and the
    value. *)
Definition classATarget (degree : nat) (pa pb v0 v1 : V3) (phi_s : npoint) : option ((V3 -> V3) * list V3 * R) :=
  phi <- nth_error phi_s 0 ;; s <- nth_error phi_s 1 ;;
  M <- setupMatrix degree v0 v1 phi s ;;
  ' (cp, v) <- evalMatrix degree pa pb v0 M ;;
  Some (M, cp, Rabs v).

(** The optimizer: it is given the target function and the start point
    (bezier.cc:117-118) and replaces the latter. *)
Definition searcher := (npoint -> option R) -> npoint -> npoint.

(** Postprocessing, bezier.cc:126-129 *)
Definition finishClassA (degree : nat) (pa pb v0 : V3) (M : V3 -> V3) (cp : list V3) : option (list V3) :=
  cn <- nth_error cp degree ;; c0 <- nth_error cp 0 ;;
  c <- fdiv (vnorm (pb -v pa)) (vnorm (cn -v c0)) ;;
  cp' <- generateClassA degree pa (v0 *v c) M ;;
  upd cp' degree pb.

(** fitClassA, bezier.cc:77-130; [rounds] bounds the depth of the recursion. *)
Fixpoint fitFrom (search : searcher) (rounds degree : nat) (pa va pb vb : V3) : option (list V3) :=
  match rounds with
  | O => None
  | S r =>
    v0 <- vnormalize va ;; v1 <- vnormalize vb ;;
    let target := fun x => ' (_, _, e) <- classATarget degree pa pb v0 v1 x ;; Some e in
    ' (M, cp, err) <- classATarget degree pa pb v0 v1 (search target [0; 1]) ;;
    if (if Rlt_dec (1 / 1000) err then (degree <? 50)%nat else false)
    then fitFrom search r (degree * 2) pa va pb vb
    else finishClassA degree pa pb v0 M cp
  end.

(** A positive degree is doubled at most six times before it is 50 or more,
    so seven rounds are enough; degree 0 fails in the first one. *)
Definition fitClassA (search : searcher) (degree : nat) (pa va pb vb : V3) : option (list V3) :=
  fitFrom search 7 degree pa va pb vb.

(** The search of bezier.cc:117-118 with NelderMead::optimize, see [NMModel].
    [hole] is the value taken where the target is not defined. *)
Definition nmSearch (hole : R) : searcher := fun target x =>
  match nmOptimize (fun p => match target p with Some v => v | None => hole end) x 100 (1 / 10 ^ 15) 1 with
  | Some (_, x') => x'
  | None => x
  end.

(** arcLength, bezier.cc:57-75 *)
Definition gaussTable : list (R * R) :=
  [(- 861136312 / 10 ^ 9, 347854845 / 10 ^ 9); (- 339981044 / 10 ^ 9, 652145155 / 10 ^ 9);
   (339981044 / 10 ^ 9, 652145155 / 10 ^ 9); (861136312 / 10 ^ 9, 347854845 / 10 ^ 9)].
Definition bcArcLength (cp : list V3) (from to : R) : option R :=
  if Rle_dec to from then Some 0
  else
    foldM (fun sum g =>
      let u := ((to - from) * fst g + from + to) * (1 / 2) in
      der <- bcEvalDer cp u 1 ;; d <- nth_error der 1 ;;
      Some (sum + vnorm d * snd g * (to - from) * (1 / 2))) 0 gaussTable.
