(** The linear system of surface-elastic.cc.  The loop is [elasticLoop] of
    SurfaceModel; the state is the pair of matrices A and b, and the solver
    (colPivHouseholderQr) is a parameter [solve size matrix rhs] for three right
    hand sides at once. *)
From Verif Require Import Base UtilModel DomainModel ParamModel RibbonModel SurfaceModel SurfaceEval.
From Coq Require Import Reals List.
Import ListNotations.
Open Scope R_scope.

Record esys := mkEsys { es_A : nat -> nat -> R; es_b : nat -> V3 }.
(** surface-elastic.cc:32 *)
Definition elasticZero : esys := mkEsys (fun _ _ => 0) (fun _ => vzero).

(** surface-elastic.cc:45-53, the factors of [denom]; [x] is u - ui, [y] is
    v - vi. *)
Definition elasticEntry (x y : R) (i j : nat) : R :=
  match i, j with
  | O, O => 2
  | O, S O => x
  | O, S (S O) => y
  | S O, O => 3 * x
  | S O, S O => 2 * x ^ 2
  | S O, S (S O) => 2 * x * y
  | S (S O), O => 3 * y
  | S (S O), S O => 2 * x * y
  | S (S O), S (S O) => 2 * y ^ 2
  | _, _ => 0
  end.
(** surface-elastic.cc:55-59 *)
Definition elasticRhs (x y : R) (P T : V3) (i : nat) : V3 :=
  match i with
  | O => P *v 2 +v T
  | S O => P *v (3 * x) +v T *v x
  | S (S O) => P *v (3 * y) +v T *v y
  | _ => vzero
  end.
(** surface-elastic.cc:44-59: one turn of the loop; [w] is denom. *)
Definition elasticAcc (uv : V2) (st : esys) (bp : V2) (P T : V3) (w : R) : esys :=
  let x := px uv - px bp in let y := py uv - py bp in
  mkEsys (fun i j => es_A st i j + elasticEntry x y i j * w) (fun i => es_b st i +v elasticRhs x y P T i *v w).

Section Solve.
Variable solve : nat -> (nat -> nat -> R) -> (nat -> V3) -> nat -> V3.
(** surface-elastic.cc:62-66 *)
Definition elasticSolve (st : esys) : option V3 := Some (solve 3 (es_A st) (es_b st) 0%nat).
(** surface-elastic.cc:27-67; [tol] is domain_tolerance, 1e-5 (line 17). *)
Definition elasticSurfaceEval (tol eps : R) (d : dom) (sf : surf) (uv : V2) : option V3 :=
  elasticEval esys (elasticAcc uv) elasticSolve tol eps d sf uv elasticZero.
End Solve.
