(** Independent specifications: binomial coefficients by Pascal's rule,
    Bernstein polynomials in closed form, Bezier curves. *)

From Coq Require Import NArith.
From Verif Require Import Base.
Open Scope R_scope.

Fixpoint choose (n k : nat) : nat :=
  match n, k with
  | _, O => 1
  | O, S _ => 0
  | S m, S j => choose m j + choose m (S j)
  end.

(** [s] is obtained from [l] by deleting elements. *)
Inductive sublist {A : Type} : list A -> list A -> Prop :=
| sub_nil : sublist [] []
| sub_keep : forall a s l, sublist s l -> sublist (a :: s) (a :: l)
| sub_drop : forall a s l, sublist s l -> sublist s (a :: l).

(** All [k]-element sublists. *)
Fixpoint sublists {A : Type} (k : nat) (l : list A) : list (list A) :=
  match k, l with
  | O, _ => [[]]
  | S _, [] => []
  | S j, a :: l' => map (cons a) (sublists j l') ++ sublists k l'
  end.

Definition bern (n i : nat) (u : R) : R := INR (choose n i) * u ^ i * (1 - u) ^ (n - i).

(** The Bezier curve of degree [n] with control points [P 0 .. P n]. *)
Definition bezier (n : nat) (P : nat -> V3) (u : R) : V3 :=
  vsum (n + 1) (fun i => P i *v bern n i u).

Definition pnth (cp : list V3) (i : nat) : V3 := nth i cp vzero.

(** A vector valued function has derivative [d] at [u]. *)
Definition vderiv (F : R -> V3) (u : R) (d : V3) : Prop :=
  derivable_pt_lim (fun v => vx (F v)) u (vx d) /\
  derivable_pt_lim (fun v => vy (F v)) u (vy d) /\
  derivable_pt_lim (fun v => vz (F v)) u (vz d).

