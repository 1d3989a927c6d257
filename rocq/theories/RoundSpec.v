(** What is assumed of a rounding function, and the vocabulary of the
    statements about rounded arithmetic. *)

From Verif Require Import Base UtilSpec.
Open Scope R_scope.

(** [rd] rounds to a set of numbers that contains 0 and 1 and is symmetric:
    the numbers with [rd x = x].  It is monotone, its error is at most
    [u |x| + eta], and the error of an addition or subtraction of two such
    numbers is at most [u] times the result.  This holds for the doubles with
    rounding to nearest, see C79_binary64. *)
Record rounding (rd : R -> R) (u eta : R) : Prop := mkRounding {
  ro_u : 0 < u < 1;
  ro_eta : 0 <= eta;
  ro_mono : forall x y, x <= y -> rd x <= rd y;
  ro_idem : forall x, rd (rd x) = rd x;
  ro_0 : rd 0 = 0;
  ro_1 : rd 1 = 1;
  ro_opp : forall x, rd (- x) = - rd x;
  ro_err : forall x, Rabs (rd x - x) <= u * Rabs x + eta;
  ro_add : forall x y, rd x = x -> rd y = y -> Rabs (rd (x + y) - (x + y)) <= u * Rabs (x + y)
}.

(** The usual bound [m u / (1 - m u)] of a chain of [m] roundings. *)
Definition gam (u : R) (m : nat) : R := INR m * u / (1 - INR m * u).

(** The coordinates of a point are numbers of the format. *)
Definition repr3 (rd : R -> R) (p : V3) : Prop := rd (vx p) = vx p /\ rd (vy p) = vy p /\ rd (vz p) = vz p.

(** No coordinate exceeds [M]. *)
Definition within (M : R) (p : V3) : Prop := Rabs (vx p) <= M /\ Rabs (vy p) <= M /\ Rabs (vz p) <= M.
