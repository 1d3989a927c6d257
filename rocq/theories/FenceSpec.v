(** Vocabulary for the statements about the fences of two patches on the two
    sides of a curve. *)
From Verif Require Import Base RibbonModel RibbonSpec.
Open Scope R_scope.

(** The curve is regular at the sample parameters [k / res], consecutive sample
    points are apart, and the tangents do not turn by almost a half circle from
    one to the next, all in terms of the tolerance. *)
Definition well_sampled (eps : R) (res : nat) (c : curve) : Prop :=
  forall k, (k < res)%nat -> exists t t',
    directs t (cder c (INR k / INR res)) /\ directs t' (cder c (INR (S k) / INR res)) /\
    let v := cpt c (INR (S k) / INR res) -v cpt c (INR k / INR res) in
    let w := t' -v mirror v t in
    eps <= vdot v v /\ eps <= vdot w w.

(** [c'] runs over the points of [c] in the other direction. *)
Definition opposite (c c' : curve) : Prop :=
  forall u, 0 <= u <= 1 -> cpt c' u = cpt c (1 - u) /\ cder c' u = vopp (cder c (1 - u)) /\
    forall a, 0 <= a <= u -> clen c' a u = clen c (1 - u) (1 - a).
