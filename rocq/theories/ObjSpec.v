(** Vocabulary for the statements about surface objects: what the caller can
    see of a side, and what it means that curves form a loop. *)
From Verif Require Import Base UtilModel RibbonModel SurfaceModel SurfaceObj.
Open Scope R_scope.

(** The curve object of side [i] of surface [k], as held by the ribbon and by
    the domain, and the numbers of sides. *)
Definition sideObj (w : world) (k i : nat) : option cloc := o <- ribbonAt w k i ;; Some (ro_curve o).
Definition domainObj (w : world) (k i : nat) : option cloc :=
  s <- nth_error (w_surfs w) k ;; d <- nth_error (w_doms w) (so_dom s) ;; o <- nth_error (do_curves d) i ;; o.
Definition sideCount (w : world) (k : nat) : option nat := s <- nth_error (w_surfs w) k ;; Some (so_n s).
Definition domainCount (w : world) (k : nat) : option nat :=
  s <- nth_error (w_surfs w) k ;; d <- nth_error (w_doms w) (so_dom s) ;; Some (length (do_curves d)).
(** The curve itself. *)
Definition sideCurve (w : world) (k i : nat) : option curve := l <- sideObj w k i ;; nth_error (w_curves w) l.
(** The fence that was set, if any. *)
Definition ribbonFence (w : world) (k i : nat) : option (option (R -> V3)) := o <- ribbonAt w k i ;; Some (ro_fence o).

(** Operations that are not copies, that give side [i] of surface [k] a new
    curve, and that are settings of this side. *)
Definition isCopy (o : wop) : Prop := match o with OCopy _ => True | _ => False end.
Definition replaces (k i : nat) (o : wop) : Prop :=
  match o with OSetCurve k' i' _ => k' = k /\ i' = i | OSetCurves k' _ => k' = k | _ => False end.
Definition setsMult (k i : nat) (o : wop) : Prop :=
  match o with OSet k' i' (SMult _) | OSet k' i' SReset => k' = k /\ i' = i | _ => False end.
Definition setsHandler (k i : nat) (o : wop) : Prop :=
  match o with OSet k' i' (SHandler _) | OSet k' i' SReset => k' = k /\ i' = i | _ => False end.
Definition setsFence (k i : nat) (o : wop) : Prop :=
  match o with OSet k' i' (SFence _) => k' = k /\ i' = i | _ => False end.

(** ** Loops *)
Definition close (delta : R) (a b : V3) : Prop := vnorm (a -v b) <= delta.
(** [c] runs from [p] to [q], up to [delta]. *)
Definition runs (delta : R) (c : curve) (p q : V3) : Prop := close delta (cpt c 0) p /\ close delta (cpt c 1) q.

(** Surface [k] has [n] sides with distinct curve objects, and the curve of side
    [i] connects corner [i - 1] with corner [i], in one direction or in the
    other. *)
Definition connects (delta : R) (w : world) (k n : nat) (P : nat -> V3) : Prop :=
  sideCount w k = Some n /\
  (forall i, (i < n)%nat -> exists c, sideCurve w k i = Some c /\
     (runs delta c (P (prv n i)) (P i) \/ runs delta c (P i) (P (prv n i)))) /\
  (forall i j, (i < n)%nat -> (j < n)%nat -> sideObj w k i = sideObj w k j -> i = j).
(** All curves run in the order of the sides. *)
Definition inOrder (delta : R) (w : world) (k n : nat) (P : nat -> V3) : Prop :=
  forall i, (i < n)%nat -> exists c, sideCurve w k i = Some c /\ runs delta c (P (prv n i)) (P i).

(** Every ribbon knows the ribbons before and after it. *)
Definition linked (w : world) (k n : nat) : Prop :=
  forall i s, (i < n)%nat -> nth_error (w_surfs w) k = Some s -> exists o, ribbonAt w k i = Some o /\
    ro_prev o = sideRib s (prv n i) /\ ro_next o = sideRib s (nxt n i).

(** The polyline segment from [p] to [q], for examples. *)
Definition segment (p q : V3) : curve :=
  mkCurve (fun u => p *v (1 - u) +v q *v u) (fun _ => q -v p) (fun a b => (b - a) * vnorm (q -v p)).

(** A curve without singular points that is longer than the tolerance. *)
Definition proper (eps : R) (res : nat) (c : curve) : Prop :=
  (forall u, 0 <= u <= 1 -> cder c u <> vzero) /\ (forall a b, 0 <= a < b -> b <= 1 -> 0 < clen c a b) /\
  exists j, (1 <= j <= res)%nat /\ eps <= vdot (cpt c (INR j / INR res) -v cpt c 0) (cpt c (INR j / INR res) -v cpt c 0).
(** The curves of the sides are proper, and the curves meeting at a corner have
    different directions there. *)
Definition properLoop (eps : R) (res : nat) (w : world) (k n : nat) : Prop :=
  forall i, (i < n)%nat -> exists c c', sideCurve w k i = Some c /\ sideCurve w k (nxt n i) = Some c' /\
    proper eps res c /\ vcross (cder c 1) (cder c' 0) <> vzero.
