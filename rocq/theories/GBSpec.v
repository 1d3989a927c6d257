(** Vocabulary for the statements about generalized Bezier patches. *)
From Verif Require Import Base UtilModel UtilSpec DomainModel ParamModel GBModel.
Open Scope R_scope.

(** A patch of [n] sides and degree [d]: number of rows and sizes of the
    vectors as left by initNetwork. *)
Definition shaped (n d : nat) (g : gbsurf) : Prop :=
  gb_n g = n /\ gb_deg g = d /\ gb_lay g = ((d + 1) / 2)%nat /\ length (gb_nets g) = n /\
  forall x, In x (gb_nets g) -> length x = (d + 1)%nat /\ forall y, In y x -> length y = ((d + 1) / 2)%nat.

Definition inRange (n d : nat) (q : position) : Prop :=
  let '(i, j, k) := q in (i < n /\ j <= d /\ 2 * k + 1 <= d)%nat.

(** Position (j, k) of a side, j small enough, is position (d - k, j) of the
    side before it. *)
Inductive mirror (n d : nat) : position -> position -> Prop :=
| mirror_intro : forall i j k, (2 * j + 1 <= d)%nat ->
    mirror n d ((i + 1) mod n, j, k)%nat (i, d - k, j)%nat.

(** Two addresses of one control point. *)
Definition same (n d : nat) (p q : position) : Prop := p = q \/ mirror n d p q \/ mirror n d q p.

Definition getp (g : gbsurf) (q : position) : option V3 := let '(i, j, k) := q in controlPoint g i j k.

(** The stored values agree at both addresses. *)
Definition consistent (n d : nat) (g : gbsurf) : Prop :=
  forall p q, inRange n d p -> inRange n d q -> mirror n d p q -> getp g p = getp g q.

(** Writes: through setControlPoint, setIndividualControlPoint, and the two
    settings that do not concern the net. *)
Inductive gbop := OSet (q : position) (p : V3) | OSetOne (q : position) (p : V3) | OCentral (p : V3) | OSquared (b : bool).
Definition gbstep (g : gbsurf) (o : gbop) : option gbsurf :=
  match o with
  | OSet (i, j, k) p => setControlPoint g i j k p
  | OSetOne (i, j, k) p => setIndividual g i j k p
  | OCentral p => Some (setCentral g p)
  | OSquared b => Some (useSquared g b)
  end.
Definition gbrun (g : gbsurf) (ops : list gbop) : option gbsurf := foldM gbstep g ops.
Definition opOk (n d : nat) (o : gbop) : Prop :=
  match o with OSet q _ | OSetOne q _ => inRange n d q | _ => True end.
(** [o] writes [p] to the control point at address [q]. *)
Definition writes (n d : nat) (o : gbop) (q : position) (p : V3) : Prop :=
  match o with OSet q' p' => same n d q' q /\ p' = p | OSetOne q' p' => q' = q /\ p' = p | _ => False end.

(** Row 0 of side [i] as a Bezier curve. *)
Definition boundaryCurve (g : gbsurf) (d i : nat) (s : R) : V3 :=
  bezier d (fun j => match controlPoint g i j 0 with Some p => p | None => vzero end) s.
