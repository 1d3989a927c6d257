(** Vocabulary for the way from curves to meshes. *)
From Verif Require Import Base UtilModel RibbonModel RibbonSpec SurfaceModel SurfaceObj.
Open Scope R_scope.

(** From one sample to the next the curve advances: the chord is longer than the
    tolerance, and not perpendicular to the sum of the two tangents. *)
Definition advancing (eps : R) (res : nat) (c : curve) : Prop :=
  forall j, (j < res)%nat -> let a := INR j / INR res in let b := INR (S j) / INR res in let v := cpt c b -v cpt c a in
    eps <= vdot v v /\
    forall t t', directs t (cder c a) -> directs t' (cder c b) -> eps * vdot v v <= vdot (t +v t') v * vdot (t +v t') v.
(** A curve without singular points, with arc lengths, advancing from sample to
    sample. *)
Definition good_side (eps : R) (res : nat) (c : curve) : Prop :=
  (forall u, 0 <= u <= 1 -> cder c u <> vzero) /\ (forall a b, 0 <= a < b -> b <= 1 -> 0 < clen c a b) /\ advancing eps res c.
(** A closed loop of such curves that meet at angles.  The last condition is the
    one setupLoop needs for its first curve. *)
Definition good_loop (eps : R) (res : nat) (cs : list curve) : Prop :=
  let n := length cs in
  (3 <= n)%nat /\ (forall i c, nth_error cs i = Some c -> good_side eps res c /\ cpt c 0 <> cpt c 1) /\
  (forall i c c', nth_error cs i = Some c -> nth_error cs (nxt n i) = Some c' -> cpt c 1 = cpt c' 0 /\ vcross (cder c 1) (cder c' 0) <> vzero) /\
  (forall c c', nth_error cs 0 = Some c -> nth_error cs 1 = Some c' -> cpt c 0 <> cpt c' 1).
(** The curves of a file: those of the loop, each in one of the two
    directions. *)
Definition given_as (given cs : list curve) : Prop := Forall2 (fun g c => g = c \/ g = reverseCurve c) given cs.

(** The inward tangents at the two ends of a side have a bisector that is not
    along the normal in the middle of the side. *)
Definition bisected (eps : R) (res : nat) (cp c cn : curve) : Prop :=
  forall m n a b, ribbonUpdate eps res cp c cn = Some m -> rmfEval eps m (1 / 2) = Some n ->
    directs a (vopp (cder cp 1)) -> directs b (cder cn 0) -> vcross (a +v b) n <> vzero.
Definition all_bisected (eps : R) (res : nat) (cs : list curve) : Prop :=
  let n := length cs in
  forall i cp c cn, nth_error cs (prv n i) = Some cp -> nth_error cs i = Some c -> nth_error cs (nxt n i) = Some cn -> bisected eps res cp c cn.
