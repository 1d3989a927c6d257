(** The arithmetic kernels with every floating point operation rounded.
    The definitions repeat those of UtilModel, SurfaceModel and ParamModel,
    operation by operation and in the order of the source, with the rounding
    function [rd] applied to the result of each addition, subtraction,
    multiplication and division.  The compiler is assumed not to contract or
    reorder (the default of GCC and Clang for the x86-64 baseline, whose SSE2
    unit rounds every operation to double).  Overflow, infinities, NaNs and
    the sign of zero are not represented. *)

From Verif Require Import Base UtilModel DomainModel RibbonModel SurfaceModel.
Open Scope R_scope.

(** bernstein (list), utilities.cc:39-53 and bezier.cc:132-146 *)
Fixpoint bernsteinInnerF (rd : R -> R) (u u1 saved : R) (coeff : list R) : list R :=
  match coeff with
  | [] => [saved]
  | tmp :: rest => rd (saved + rd (tmp * u1)) :: bernsteinInnerF rd u u1 (rd (tmp * u)) rest
  end.
Fixpoint bernsteinListF (rd : R -> R) (n : nat) (u : R) : list R :=
  match n with
  | O => [1]
  | S m => bernsteinInnerF rd u (rd (1 - u)) 0 (bernsteinListF rd m u)
  end.

(** bernstein (single), utilities.cc:55-64 *)
Definition bernsteinStepF (rd : R -> R) (u : R) (tmp : list R) (j : nat) : option (list R) :=
  a <- nth_error tmp (j - 1) ;; b <- nth_error tmp j ;;
  upd tmp j (rd (rd (a * u) + rd (b * rd (1 - u)))).
Definition bernsteinRoundF (rd : R -> R) (n : nat) (u : R) (tmp : list R) (k : nat) : option (list R) :=
  foldM (bernsteinStepF rd u) tmp (rev (seq k (n + 1 - k))).
Definition bernsteinSingleF (rd : R -> R) (i n : nat) (u : R) : option R :=
  if (n <? i)%nat then None
  else
    tmp <- upd (repeat 0 (n + 1)) (n - i) 1 ;;
    tmp' <- foldM (bernsteinRoundF rd n u) tmp (seq 1 n) ;;
    nth_error tmp' n.

(** Addition and scaling of libgeom vectors, coordinate by coordinate. *)
Definition vaddF (rd : R -> R) (a b : V3) : V3 :=
  mkV3 (rd (vx a + vx b)) (rd (vy a + vy b)) (rd (vz a + vz b)).
Definition vscaleF (rd : R -> R) (a : V3) (s : R) : V3 :=
  mkV3 (rd (vx a * s)) (rd (vy a * s)) (rd (vz a * s)).

(** The loop [p += ...] starting from the null vector. *)
Fixpoint osumF (rd : R -> R) (n : nat) (f : nat -> option V3) : option V3 :=
  match n with O => Some vzero | S m => a <- osumF rd m f ;; b <- f m ;; Some (vaddF rd a b) end.

(** BCurve::eval, bezier.cc:17-24 *)
Definition bcEvalF (rd : R -> R) (cp : list V3) (u : R) : option V3 :=
  n <- bcDegree cp ;;
  let coeff := bernsteinListF rd n u in
  osumF rd (n + 1) (fun k => p <- nth_error cp k ;; c <- nth_error coeff k ;; Some (vscaleF rd p c)).

(** affineCombine, utilities.cc:12-15 *)
Definition affineCombineF (rd : R -> R) (p : V3) (x : R) (q : V3) : V3 :=
  vaddF rd (vscaleF rd p (rd (1 - x))) (vscaleF rd q x).

(** std::accumulate from 0.0, or the loop [denominator += ...] *)
Definition accumulateF (rd : R -> R) (l : list R) : R := fold_left (fun a x => rd (a + x)) l 0.
(** The division of a vector by its sum: surface.cc:211-217 and 238-244,
    parameterization-barycentric.cc:108-109. *)
Definition fdivF (rd : R -> R) (a b : R) : option R := r <- fdiv a b ;; Some (rd r).
Definition normalizeF (rd : R -> R) (l : list R) : option (list R) :=
  mapM (fun x => fdivF rd x (accumulateF rd l)) l.

(** Surface::blendSideSingular, surface.cc:224-248.  [pw] is the library
    function [std::pow(x, -2)], which need not be correctly rounded. *)
Definition blendSideSingularF (rd pw : R -> R) (eps : R) (sds : list V2) : option (list R) :=
  let close := closeCount eps sds in
  if (0 <? close)%nat then
    val <- fdivF rd 1 (INR close) ;;
    Some (map (fun sd => if Rlt_dec (py sd) eps then val else 0) sds)
  else normalizeF rd (map (fun sd => pw (py sd)) sds).

(** Surface::blendCorner, surface.cc:187-221 *)
Definition blendCornerF (rd pw : R -> R) (eps : R) (n : nat) (sds : list V2) : option (list R) :=
  let close := closeCount eps sds in
  if (0 <? close)%nat then
    mapM (fun i =>
      let ip := nxt n i in
      sd <- nth_error sds i ;; sdp <- nth_error sds ip ;;
      if (1 <? close)%nat then
        Some (if Rlt_dec (py sd) eps then if Rlt_dec (py sdp) eps then 1 else 0 else 0)
      else if Rlt_dec (py sd) eps then
        sdm <- nth_error sds (prv n i) ;;
        fdivF rd (pw (py sdp)) (rd (pw (py sdp) + pw (py sdm)))
      else if Rlt_dec (py sdp) eps then
        sdq <- nth_error sds (nxt n ip) ;;
        fdivF rd (pw (py sd)) (rd (pw (py sd) + pw (py sdq)))
      else Some 0) (seq 0 n)
  else
    blf <- mapM (fun i =>
      sd <- nth_error sds i ;; sdp <- nth_error sds (nxt n i) ;;
      Some (pw (rd (py sd * py sdp)))) (seq 0 n) ;;
    normalizeF rd blf.

(** Surface::gamma, surface.cc:293-297; Surface::sideInterpolant with
    Ribbon::eval, surface.cc:166-170, ribbon.cc:91-93.  The values of the
    curve and of the cross derivative are those returned by their own code. *)
Definition gammaF (rd : R -> R) (g : bool) (d : R) : option R :=
  if g then fdivF rd d (rd (rd (2 * d) + 1)) else Some d.
Definition sideInterpolantF (rd : R -> R) (sf : surf) (i : nat) (si di : R) : option V3 :=
  let s := clamp si 0 1 in
  g <- gammaF rd (sf_gamma sf) di ;;
  r <- nth_error (sf_ribbons sf) i ;;
  x <- sr_cross r s ;;
  Some (vaddF rd (cpt (sr_curve r) s) (vscaleF rd x (Rmax g 0))).

(** SurfaceSideBased::eval, surface-side-based.cc:22-29 *)
Definition sideBasedF (rd pw : R -> R) (eps : R) (sf : surf) (sds : list V2) : option V3 :=
  blends <- blendSideSingularF rd pw eps sds ;;
  osumF rd (sf_n sf) (fun i =>
    sd <- nth_error sds i ;; b <- nth_error blends i ;;
    p <- sideInterpolantF rd sf i (px sd) (py sd) ;; Some (vscaleF rd p b)).

(** ParameterizationBarycentric::mapToRibbon,
    parameterization-barycentric.cc:18-40, from the coordinates [lp]
    and [li] of the two ends of the side; the workaround of lines 24-35, for
    a sum below epsilon, is not covered: [None]. *)
Definition baryRibbonF (rd : R -> R) (eps lp li : R) : option V2 :=
  let denom := rd (lp + li) in
  if Rlt_dec denom eps then None
  else s <- fdivF rd li denom ;; Some (mkV2 s (rd (rd (1 - li) - lp))).
