(** Super-D patches: surface-superd.cc / surface-superd.hh.

    A QuarticCurve (std::array of 5 points) is a list, a QuarticSurface a list
    of such lists.  The domain is regular, the parameterization is [KSuperD] of
    ParamModel. *)
From Verif Require Import Base UtilModel DomainModel ParamModel SurfaceModel.
Open Scope R_scope.

(** Members, surface-superd.hh; [su_f], [su_e] and [su_v] are cp_f_, cp_e_ and
    cp_v_, [su_q] is quartic_ribbons_. *)
Record superd := mkSD {
  su_n : nat;
  su_full : R;
  su_f : list V3;
  su_e : list V3;
  su_v : V3;
  su_q : list (list (list V3)) }.

(** Constructor, surface-superd.cc:17-21; [v0] is a default constructed point. *)
Definition sdEmpty (v0 : V3) : superd := mkSD 0 (/ 2) [] [] v0 [].

(** std::vector::resize *)
Definition resize (v0 : V3) (l : list V3) (n : nat) : list V3 := firstn n l ++ repeat v0 (n - length l).

(** initNetwork, surface-superd.cc:122-127 *)
Definition sdInit (v0 : V3) (p : superd) (n : nat) : superd :=
  mkSD n (su_full p) (resize v0 (su_f p) n) (resize v0 (su_e p) n) (su_v p) (su_q p).

(** Setters, surface-superd.cc:159-191 *)
Definition sdSetVertex (p : superd) (x : V3) : superd := mkSD (su_n p) (su_full p) (su_f p) (su_e p) x (su_q p).
Definition sdSetFace (p : superd) (i : nat) (x : V3) : option superd :=
  f <- upd (su_f p) i x ;; Some (mkSD (su_n p) (su_full p) f (su_e p) (su_v p) (su_q p)).
Definition sdSetEdge (p : superd) (i : nat) (x : V3) : option superd :=
  e <- upd (su_e p) i x ;; Some (mkSD (su_n p) (su_full p) (su_f p) e (su_v p) (su_q p)).
Definition sdSetFullness (p : superd) (x : R) : superd := mkSD (su_n p) x (su_f p) (su_e p) (su_v p) (su_q p).

(** generateQuartic, surface-superd.cc:26-36 *)
Definition quartic (f : R) (a b c : V3) : list V3 :=
  let x1 := (2 / 5 * f + 3 / 5) * f in
  let x2 := (- 2 / 7 * f + 9 / 7) * f in
  [a; affine3 a x1 b; affine3 (affine3 a x2 b) (/ 2) (affine3 c x2 b); affine3 c x1 b; c].

(** generateBase, surface-superd.cc:38-41 *)
Definition sdBase (p : superd) (i : nat) : option (list V3) :=
  a <- nth_error (su_f p) (prv (su_n p) i) ;; b <- nth_error (su_e p) i ;; c <- nth_error (su_f p) i ;;
  Some (quartic (su_full p) a b c).

(** generateMid, surface-superd.cc:43-46 *)
Definition sdMid (p : superd) (i : nat) : option (list V3) :=
  a <- nth_error (su_e p) (prv (su_n p) i) ;; c <- nth_error (su_e p) (nxt (su_n p) i) ;;
  Some (quartic (su_full p) a (su_v p) c).

(** generateOpp, surface-superd.cc:48-61; [None] is the exception. *)
Definition sdOpp (p : superd) (i : nat) : option (list V3) :=
  if (su_n p =? 3)%nat then
    c <- nth_error (su_f p) (nxt (su_n p) i) ;; Some (repeat c 5)
  else if (su_n p =? 4)%nat then
    r <- sdBase p (nxt (su_n p) (nxt (su_n p) i)) ;; Some (rev r)
  else None.

(** generateRibbon, surface-superd.cc:80-98 *)
Definition sdRibbon (p : superd) (i : nat) : option (list (list V3)) :=
  base <- sdBase p i ;;
  if (4 <? su_n p)%nat then
    left <- sdBase p (prv (su_n p) i) ;;
    right <- sdBase p (nxt (su_n p) i) ;;
    mapM (fun j => mapM (fun k =>
      b <- nth_error base j ;; l <- nth_error left (4 - k) ;; l4 <- nth_error left 4 ;;
      r <- nth_error right k ;; r0 <- nth_error right 0 ;;
      Some (b +v (l -v l4) *v INR (4 - j) *v / 4 +v (r -v r0) *v INR j *v / 4)) (seq 0 5)) (seq 0 5)
  else
    mid <- sdMid p i ;;
    opp <- sdOpp p i ;;
    mapM (fun j =>
      b <- nth_error base j ;; m <- nth_error mid j ;; o <- nth_error opp j ;;
      Some (quartic (su_full p) b m o)) (seq 0 5).

(** bezierEvaluate, surface-superd.cc:100-110 *)
Definition sdBezier (s : list (list V3)) (u v : R) : option V3 :=
  osum 5 (fun i => osum 5 (fun j =>
    r <- nth_error s i ;; q <- nth_error r j ;;
    bu <- nth_error (bernsteinList 4 u) i ;; bv <- nth_error (bernsteinList 4 v) j ;;
    Some (q *v bu *v bv))).

(** eval, surface-superd.cc:112-120 *)
Definition sdEval (eps : R) (d : dom) (p : superd) (uv : V2) : option V3 :=
  sds <- mapToRibbons KSuperD eps d uv ;;
  blends <- blendSideSingular eps sds ;;
  osum (su_n p) (fun i =>
    q <- nth_error (su_q p) i ;; sd <- nth_error sds i ;; b <- nth_error blends i ;;
    x <- sdBezier q (px sd) (py sd) ;; Some (x *v b)).

(** setupLoop, surface-superd.cc:129-145: the control points of the curves given
    to setCurves; the rest is Surface::setupLoop and the domain update. *)
Definition sdCurves (p : superd) : option (list (list V3)) := mapM (sdBase p) (seq 0 (su_n p)).

(** updateRibbons, surface-superd.cc:147-152 *)
Definition sdUpdateRibbons (p : superd) : option superd :=
  q <- mapM (sdRibbon p) (seq 0 (su_n p)) ;;
  Some (mkSD (su_n p) (su_full p) (su_f p) (su_e p) (su_v p) q).
