(** Vocabulary for functions that jump. *)
From Verif Require Import Base ContSpec.
Open Scope R_scope.

(** [f] has a value at [p], and the values along every sequence of points that
    converges to [p] exist from some point on and converge to it; [continuous_at]
    for any notion [C] of convergence of values. *)
Definition steady_at {T : Type} (C : (nat -> T) -> T -> Prop) (f : V2 -> option T) (p : V2) : Prop :=
  exists y, f p = Some y /\ forall q, cv2 q p -> exists v, eventually (fun k => f (q k) = Some (v k)) /\ C v y.
(** The points between [a] and [b]. *)
Definition between (a b : V2) (t : R) : V2 := a +p (b -p a) *p t.
