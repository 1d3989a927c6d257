(** Nelder-Mead optimization: src/utils/nelder-mead.cc.

    Points are lists of reals, the objective is any function from points to
    reals (so a double that is not a number is left out). *)
From Verif Require Import Base UtilModel.
Open Scope R_scope.

Notation npoint := (list R).

(** addmul, nelder-mead.cc:11-14: x[i] += d[i] * alpha; [None] when [d] is too
    short. *)
Fixpoint addmul (x d : npoint) (alpha : R) : option npoint :=
  match x, d with
  | [], _ => Some []
  | a :: x', b :: d' => r <- addmul x' d' alpha ;; Some (a + b * alpha :: r)
  | _ :: _, [] => None
  end.

(** average, nelder-mead.cc:16-19 *)
Fixpoint average (x d : npoint) : option npoint :=
  match x, d with
  | [], _ => Some []
  | a :: x', b :: d' => r <- average x' d' ;; Some ((a + b) / 2 :: r)
  | _ :: _, [] => None
  end.

(** The simplex and its values. *)
Record simplex := mkSx { sx_S : list npoint; sx_y : list R }.

(** nelder-mead.cc:25-27 *)
Definition startSimplex (x : npoint) (step : R) : option (list npoint) :=
  foldM (fun S i =>
    p <- nth_error S i ;; a <- nth_error p (i - 1) ;; p' <- upd p (i - 1) (a + step) ;; upd S i p')
    (repeat x (length x + 1)) (seq 1 (length x)).

(** One round of the search for the extremes, nelder-mead.cc:41-47. *)
Definition extremeStep (y : list R) (s : nat * nat * nat) (i : nat) : option (nat * nat * nat) :=
  let '(low, high, second) := s in
  yi <- nth_error y i ;; yl <- nth_error y low ;;
  if Rlt_dec yi yl then Some (i, high, second)
  else
    yh <- nth_error y high ;;
    if Rlt_dec yh yi then Some (low, i, high)
    else
      ys <- nth_error y second ;;
      if Rlt_dec ys yi then Some (low, high, i) else Some (low, high, second).
Definition extremes (y : list R) (n : nat) : option (nat * nat * nat) :=
  foldM (extremeStep y) (0, 0, 0)%nat (seq 0 (n + 1)).

(** nelder-mead.cc:38, 40, 49.  The factor 1/n is not used for n = 0. *)
Definition centroidOf (S : list npoint) (n high : nat) : option npoint :=
  c <- foldM (fun c i => p <- nth_error S i ;; addmul c p (/ INR n)) (repeat 0 n) (seq 0 (n + 1)) ;;
  ph <- nth_error S high ;;
  addmul c ph (- / INR n).

(** S[i] = p; y[i] = v *)
Definition put (s : simplex) (i : nat) (p : npoint) (v : R) : option simplex :=
  S <- upd (sx_S s) i p ;; y <- upd (sx_y s) i v ;; Some (mkSx S y).

(** nelder-mead.cc:84-89 *)
Definition shrink (f : npoint -> R) (n low : nat) (s : simplex) : option simplex :=
  foldM (fun s i =>
    if (i =? low)%nat then Some s
    else
      p <- nth_error (sx_S s) i ;; q <- nth_error (sx_S s) low ;; m <- average p q ;;
      put s i m (f m)) s (seq 0 (n + 1)).

(** One iteration, nelder-mead.cc:36-98; alpha = 1, beta = 2, gamma = 1/2. *)
Definition nmStep (f : npoint -> R) (n : nat) (s : simplex) : option simplex :=
  ' (low, high, second) <- extremes (sx_y s) n ;;
  c <- centroidOf (sx_S s) n high ;;
  ph <- nth_error (sx_S s) high ;;
  xr0 <- addmul c c 1 ;; xr <- addmul xr0 ph (- 1) ;;
  let yr := f xr in
  yl <- nth_error (sx_y s) low ;; ys <- nth_error (sx_y s) second ;; yh <- nth_error (sx_y s) high ;;
  if Rlt_dec yr yl then
    xe0 <- addmul c xr 2 ;; xe <- addmul xe0 c (- 2) ;;
    let ye := f xe in
    if Rlt_dec ye yr then put s high xe ye else put s high xr yr
  else if Rlt_dec ys yr then
    s1 <- (if Rle_dec yr yh then put s high xr yr else Some s) ;;
    ph1 <- nth_error (sx_S s1) high ;;
    xc0 <- addmul c ph1 (/ 2) ;; xc <- addmul xc0 c (- / 2) ;;
    let yc := f xc in
    yh1 <- nth_error (sx_y s1) high ;;
    if Rlt_dec yh1 yc then shrink f n low s1 else put s1 high xc yc
  else put s high xr yr.

(** nelder-mead.cc:101-105: the mean squared deviation of the values. *)
Definition nmDelta (n : nat) (y : list R) : R :=
  let mean := fold_left Rplus y 0 / (INR n + 1) in
  fold_left (fun a yi => a + (yi - mean) ^ 2) y 0 / INR (n + 1).

(** The loop, nelder-mead.cc:35-106; [None] for [Delta] is infinity. *)
Fixpoint nmLoop (f : npoint -> R) (n : nat) (tol : R) (fuel : nat) (delta : option R) (s : simplex) : option (option R * simplex) :=
  match fuel with
  | O => Some (delta, s)
  | S k =>
    if match delta with None => true | Some x => if Rle_dec tol x then true else false end then
      s' <- nmStep f n s ;; nmLoop f n tol k (Some (nmDelta n (sx_y s'))) s'
    else Some (delta, s)
  end.

(** nelder-mead.cc:109-112 *)
Definition argmin (y : list R) (n : nat) : option nat :=
  foldM (fun min i => yi <- nth_error y i ;; ym <- nth_error y min ;; Some (if Rlt_dec yi ym then i else min)) 0%nat (seq 1 n).

(** optimize, nelder-mead.cc:21-116: the result and the new value of [x]. *)
Definition nmOptimize (f : npoint -> R) (x : npoint) (max_iteration : nat) (tol step : R) : option (bool * npoint) :=
  let n := length x in
  S <- startSimplex x step ;;
  ' (delta, s) <- nmLoop f n tol max_iteration None (mkSx S (map f S)) ;;
  m <- argmin (sx_y s) n ;;
  x' <- nth_error (sx_S s) m ;;
  Some (match delta with None => false | Some v => if Rlt_dec v tol then true else false end, x').
