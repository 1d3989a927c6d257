(** Numeric utilities: binomials, Bernstein polynomials, Hermite blends,
    degree elevation, and Bezier curves.
    Models src/transfinite/utilities.cc and the evaluation part of
    src/utils/bezier.cc. *)

From Coq Require Import NArith.
From Verif Require Import Base.
Open Scope R_scope.

(** binomial, utilities.cc:17-25, over unsigned 64-bit integers: the product
    wraps around.  [n] is decremented once per step, at most [k <= n] times,
    so it does not wrap. *)
Definition two64 : N := (2 ^ 64)%N.

Fixpoint binomialLoop (result n d : N) (steps : nat) : N :=
  match steps with
  | O => result
  | S s => binomialLoop (((result * n) mod two64) / d)%N (n - 1)%N (d + 1)%N s
  end.

Definition binomial64 (n k : N) : N :=
  if (n <? k)%N then 0%N else binomialLoop 1 n 1 (N.to_nat k).

(** hermite, utilities.cc:27-37 *)
Definition hermite (i : nat) (t : R) : R :=
  match i with
  | 0%nat => (1 - t) ^ 3 + 3 * (1 - t) ^ 2 * t
  | 1%nat => (1 - t) ^ 2 * t
  | 2%nat => (1 - t) * t ^ 2
  | 3%nat => 3 * (1 - t) * t ^ 2 + t ^ 3
  | _ => -1
  end.

(** bernstein (list), utilities.cc:39-53, the same code as BCurve::bernstein,
    bezier.cc:132-146.  The inner loop runs over the whole current vector,
    overwriting in place and appending [saved] at the end. *)
Fixpoint bernsteinInner (u u1 saved : R) (coeff : list R) : list R :=
  match coeff with
  | [] => [saved]
  | tmp :: rest => (saved + tmp * u1) :: bernsteinInner u u1 (tmp * u) rest
  end.

Fixpoint bernsteinList (n : nat) (u : R) : list R :=
  match n with
  | O => [1]
  | S m => bernsteinInner u (1 - u) 0 (bernsteinList m u)
  end.

(** bernstein (single), utilities.cc:55-64.  One assignment of the inner
    loop, the inner loop ([j] from [n] down to [k]) and the outer loop.
    [tmp[n-i]] is out of range for [i > n]. *)
Definition bernsteinStep (u : R) (tmp : list R) (j : nat) : option (list R) :=
  a <- nth_error tmp (j - 1) ;; b <- nth_error tmp j ;;
  upd tmp j (a * u + b * (1 - u)).

Fixpoint foldM {A S : Type} (f : S -> A -> option S) (s : S) (l : list A) : option S :=
  match l with [] => Some s | a :: l' => s' <- f s a ;; foldM f s' l' end.

Definition bernsteinRound (n : nat) (u : R) (tmp : list R) (k : nat) : option (list R) :=
  foldM (bernsteinStep u) tmp (rev (seq k (n + 1 - k))).

Definition bernsteinSingle (i n : nat) (u : R) : option R :=
  if (n <? i)%nat then None
  else
    tmp <- upd (repeat 0 (n + 1)) (n - i) 1 ;;
    tmp' <- foldM (bernsteinRound n u) tmp (seq 1 n) ;;
    nth_error tmp' n.

(** bezierElevate, utilities.cc:66-75; [tmp] holds the previous old point. *)
Fixpoint elevateLoop (n i : nat) (tmp : V3) (cpts : list V3) : option (list V3) :=
  match cpts with
  | [] => Some [tmp]
  | c :: rest =>
    a <- vdiv (tmp *v INR i) (INR n) ;; b <- vdiv (c *v INR (n - i)) (INR n) ;;
    r <- elevateLoop n (S i) c rest ;; Some ((a +v b) :: r)
  end.

Definition bezierElevate (cpts : list V3) : option (list V3) :=
  match cpts with
  | [] => None
  | p0 :: rest => r <- elevateLoop (length cpts) 1 p0 rest ;; Some (p0 :: r)
  end.

(** BCurve::BCurve, bezier.cc:13-15, and eval, bezier.cc:17-24.  The degree
    of an empty control polygon wraps around: [None]. *)
Definition bcDegree (cp : list V3) : option nat :=
  match cp with [] => None | _ => Some (length cp - 1)%nat end.

Definition bcEval (cp : list V3) (u : R) : option V3 :=
  n <- bcDegree cp ;;
  let coeff := bernsteinList n u in
  osum (n + 1) (fun k => p <- nth_error cp k ;; c <- nth_error coeff k ;; Some (p *v c)).

(** BCurve::bernsteinAll, bezier.cc:148-163: all rows up to [n]; row [j] is
    built from row [j-1] by the loop of [bernsteinInner]. *)
Fixpoint bernsteinAllFrom (u : R) (row : list R) (n : nat) : list (list R) :=
  row :: match n with O => [] | S m => bernsteinAllFrom u (bernsteinInner u (1 - u) 0 row) m end.
Definition bernsteinAll (n : nat) (u : R) : list (list R) := bernsteinAllFrom u [1] n.

(** BCurve::derivativeControlPoints, bezier.cc:165-175 *)
Fixpoint dcpFrom (n : nat) (row : list V3) (k d : nat) : option (list (list V3)) :=
  match d with
  | O => Some [row]
  | S d' =>
    row' <- mapM (fun i =>
      a <- nth_error row (i + 1) ;; b <- nth_error row i ;;
      Some ((a -v b) *v INR (n - (k + 1) + 1))) (seq 0 (n - (k + 1) + 1)) ;;
    rest <- dcpFrom n row' (k + 1) d' ;; Some (row :: rest)
  end.
Definition derivativeControlPoints (cp : list V3) (n d : nat) : option (list (list V3)) :=
  dcpFrom n cp 0 d.

(** BCurve::eval with derivatives, bezier.cc:26-41; the result is the vector
    [der] (the returned point is its first element). *)
Definition bcEvalDer (cp : list V3) (u : R) (nr_der : nat) : option (list V3) :=
  n <- bcDegree cp ;;
  let du := Nat.min nr_der n in
  let coeff := bernsteinAll n u in
  dcp <- derivativeControlPoints cp n du ;;
  low <- mapM (fun k =>
    osum (n - k + 1) (fun j =>
      row <- nth_error dcp k ;; p <- nth_error row j ;;
      crow <- nth_error coeff (n - k) ;; c <- nth_error crow j ;; Some (p *v c)))
    (seq 0 (du + 1)) ;;
  Some (low ++ repeat vzero (nr_der - n)).

(** BCurve::reverse, bezier.cc:48-51 *)
Definition bcReverse (cp : list V3) : list V3 := rev cp.
