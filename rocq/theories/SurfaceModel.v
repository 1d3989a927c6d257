(** Model of the evaluation side of surface.cc and of the transfinite patches
    (surface-side-based.cc, surface-corner-based.cc, surface-generalized-coons.cc,
    surface-composite-ribbon.cc, surface-midpoint.cc, surface-midpoint-coons.cc,
    surface-c0coons.cc, surface-elastic.cc, surface-nsided.cc).

    The patch functions take the list [sds] that mapToRibbons returned; with
    ParamModel.mapToRibbons in front they are the eval functions of the
    classes (see the [..._eval] definitions). *)
Require Import Verif.Base Verif.UtilModel Verif.DomainModel Verif.ParamModel Verif.RibbonModel.
Require Import Reals List Lia Lra.
Import ListNotations.
Open Scope R_scope.

(** What evaluation needs of a ribbon: the curve and the cross derivative. *)
Record sribbon := mkRib { sr_curve : curve; sr_cross : R -> option V3 }.
(** surface.hh:61-64 *)
Record corner := mkCorner { cn_point : V3; cn_tan1 : V3; cn_tan2 : V3; cn_twist1 : V3; cn_twist2 : V3 }.

(** The members n_, use_gamma_, ribbons_ and corner_data_ of surface.hh:55-72. *)
Record surf := mkSurf { sf_n : nat; sf_gamma : bool; sf_ribbons : list sribbon; sf_corners : list corner }.

(** surface.cc:293-297 *)
Definition gamma (g : bool) (d : R) : option R := if g then fdiv d (2 * d + 1) else Some d.

(** surface.cc:300-304 *)
Definition rationalTwist (eps u v : R) (f g : V3) : option V3 :=
  if Rlt_dec (Rabs (u + v)) eps then Some vzero else vdiv (f *v u +v g *v v) (u + v).

(** surface.cc:154-163 *)
Definition cornerCorrection (eps : R) (sf : surf) (i : nat) (s1 s2 : R) : option V3 :=
  g1 <- gamma (sf_gamma sf) s1 ;; g2 <- gamma (sf_gamma sf) s2 ;;
  let a := clamp g1 0 1 in let b := clamp g2 0 1 in
  c <- nth_error (sf_corners sf) i ;;
  t <- rationalTwist eps a b (cn_twist2 c) (cn_twist1 c) ;;
  Some (cn_point c +v cn_tan1 c *v a +v cn_tan2 c *v b +v t *v a *v b).

(** surface.cc:166-170, with the eval of ribbon.cc:91-93 *)
Definition sideInterpolant (sf : surf) (i : nat) (si di : R) : option V3 :=
  let s := clamp si 0 1 in
  g <- gamma (sf_gamma sf) di ;;
  let d := Rmax g 0 in
  r <- nth_error (sf_ribbons sf) i ;;
  ribbonEval (sr_curve r) (sr_cross r) (mkV2 s d).

(** surface.cc:173-177 *)
Definition cornerInterpolant (eps : R) (sf : surf) (i : nat) (sds : list V2) : option V3 :=
  let ip := nxt (sf_n sf) i in
  sd <- nth_error sds i ;; sd1 <- nth_error sds ip ;;
  a <- sideInterpolant sf i (px sd) (px sd1) ;;
  b <- sideInterpolant sf ip (px sd1) (1 - px sd) ;;
  c <- cornerCorrection eps sf i (1 - px sd) (px sd1) ;;
  Some (a +v b -v c).

(** surface.cc:180-184 *)
Definition cornerInterpolantD (eps : R) (sf : surf) (i : nat) (sds : list V2) : option V3 :=
  let ip := nxt (sf_n sf) i in
  sd <- nth_error sds i ;; sd1 <- nth_error sds ip ;;
  a <- sideInterpolant sf i (1 - py sd1) (py sd) ;;
  b <- sideInterpolant sf ip (py sd) (py sd1) ;;
  c <- cornerCorrection eps sf i (py sd1) (py sd) ;;
  Some (a +v b -v c).

(** ** Blends *)

(** The counting loops surface.cc:190-194 and 227-231 *)
Definition closeCount (eps : R) (sds : list V2) : nat :=
  length (filter (fun sd => if Rlt_dec (py sd) eps then true else false) sds).

(** std::pow(x, -2) *)
Definition pow_2 (x : R) : option R := fdiv 1 (x ^ 2).

(** surface.cc:187-221 *)
Definition blendCorner (eps : R) (n : nat) (sds : list V2) : option (list R) :=
  let close := closeCount eps sds in
  if (0 <? close)%nat then
    mapM (fun i =>
      let ip := nxt n i in
      sd <- nth_error sds i ;; sdp <- nth_error sds ip ;;
      if (1 <? close)%nat then
        Some (if Rlt_dec (py sd) eps then if Rlt_dec (py sdp) eps then 1 else 0 else 0)
      else if Rlt_dec (py sd) eps then
        sdm <- nth_error sds (prv n i) ;;
        tmp <- pow_2 (py sdp) ;; q <- pow_2 (py sdm) ;; fdiv tmp (tmp + q)
      else if Rlt_dec (py sdp) eps then
        sdn <- nth_error sds (nxt n ip) ;;
        tmp <- pow_2 (py sd) ;; q <- pow_2 (py sdn) ;; fdiv tmp (tmp + q)
      else Some 0) (seq 0 n)
  else
    blf <- mapM (fun i =>
      sd <- nth_error sds i ;; sdp <- nth_error sds (nxt n i) ;; pow_2 (py sd * py sdp)) (seq 0 n) ;;
    mapM (fun x => fdiv x (accumulate blf)) blf.

(** surface.cc:224-248 *)
Definition blendSideSingular (eps : R) (sds : list V2) : option (list R) :=
  let close := closeCount eps sds in
  if (0 <? close)%nat then
    val <- fdiv 1 (INR close) ;;
    Some (map (fun sd => if Rlt_dec (py sd) eps then val else 0) sds)
  else
    blf <- mapM (fun sd => pow_2 (py sd)) sds ;;
    mapM (fun x => fdiv x (accumulate blf)) blf.

(** surface.cc:251-264 *)
Definition blendCornerDeficient (eps : R) (n : nat) (sds : list V2) : option (list R) :=
  mapM (fun i =>
    sd <- nth_error sds i ;; sdp <- nth_error sds (nxt n i) ;;
    if Rlt_dec (py sd) eps then
      if Rlt_dec (py sdp) eps then Some 1
      else fdiv (py sdp * hermite 0 (1 - px sd) * hermite 0 (py sd)
                 + py sd * hermite 0 (px sdp) * hermite 0 (py sdp)) (py sd + py sdp)
    else fdiv (py sdp * hermite 0 (1 - px sd) * hermite 0 (py sd)
               + py sd * hermite 0 (px sdp) * hermite 0 (py sdp)) (py sd + py sdp)) (seq 0 n).

(** ** Corner data: surface.cc:267-290; the step is 1.0e-4 *)
Definition corner_step : R := / 10000.
Definition updateCorner (n : nat) (rs : list sribbon) (i : nat) : option corner :=
  r <- nth_error rs i ;; rp <- nth_error rs (nxt n i) ;;
  a1 <- sr_cross r 1 ;; a2 <- sr_cross r (1 - corner_step) ;;
  b1 <- sr_cross rp 0 ;; b2 <- sr_cross rp corner_step ;;
  Some (mkCorner (cpt (sr_curve r) 1) (vopp (cder (sr_curve r) 1)) (cder (sr_curve rp) 0)
          ((a2 -v a1) *v / corner_step) ((b2 -v b1) *v / corner_step)).
Definition updateCorners (n : nat) (rs : list sribbon) : option (list corner) :=
  mapM (updateCorner n rs) (seq 0 n).

(** ** Patches *)

(** surface-side-based.cc:22-29 *)
Definition sideBased (eps : R) (sf : surf) (sds : list V2) : option V3 :=
  blends <- blendSideSingular eps sds ;;
  osum (sf_n sf) (fun i =>
    sd <- nth_error sds i ;; b <- nth_error blends i ;;
    p <- sideInterpolant sf i (px sd) (py sd) ;; Some (p *v b)).

(** surface-corner-based.cc:22-29 *)
Definition cornerBased (eps : R) (sf : surf) (sds : list V2) : option V3 :=
  blends <- blendCorner eps (sf_n sf) sds ;;
  osum (sf_n sf) (fun i =>
    b <- nth_error blends i ;; p <- cornerInterpolant eps sf i sds ;; Some (p *v b)).

(** The body of the loops surface-generalized-coons.cc:26-30 and
    surface-midpoint-coons.cc:29-33 *)
Definition coonsTerm (eps : R) (sf : surf) (sds : list V2) (blends : list R) (i : nat) : option V3 :=
  let n := sf_n sf in
  sd <- nth_error sds i ;; sd1 <- nth_error sds (nxt n i) ;;
  b <- nth_error blends i ;; bp <- nth_error blends (prv n i) ;;
  p <- sideInterpolant sf i (px sd) (py sd) ;;
  c <- cornerCorrection eps sf i (1 - px sd) (px sd1) ;;
  Some (p *v (b + bp) -v c *v b).

(** surface-generalized-coons.cc:22-32 *)
Definition generalizedCoons (eps : R) (sf : surf) (sds : list V2) : option V3 :=
  blends <- blendCorner eps (sf_n sf) sds ;;
  osum (sf_n sf) (coonsTerm eps sf sds blends).

(** surface-composite-ribbon.cc:38-46 *)
Definition compositeRibbon (eps : R) (sf : surf) (i : nat) (sd : V2) : option V3 :=
  let n := sf_n sf in
  let s := px sd in let d := py sd in let s1 := 1 - s in let d1 := 1 - d in
  let Hs := hermite 0 s in let Hd := hermite 0 d in let Hs1 := 1 - Hs in
  a <- sideInterpolant sf i s d ;;
  b <- sideInterpolant sf (prv n i) d1 s ;;
  c <- sideInterpolant sf (nxt n i) d s1 ;;
  e <- cornerCorrection eps sf (prv n i) d s ;;
  f <- cornerCorrection eps sf i s1 d ;;
  Some (a *v Hd +v b *v Hs +v c *v Hs1 -v e *v Hs *v Hd -v f *v Hs1 *v Hd).

(** surface-composite-ribbon.cc:23-30 *)
Definition compositeRibbonPatch (eps : R) (sf : surf) (sds : list V2) : option V3 :=
  let n := sf_n sf in
  blends <- blendCorner eps n sds ;;
  p <- osum n (fun i =>
    sd <- nth_error sds i ;; b <- nth_error blends i ;; bp <- nth_error blends (prv n i) ;;
    q <- compositeRibbon eps sf i sd ;; Some (q *v (b + bp))) ;;
  Some (p *v / 2).

(** surface-midpoint.cc:37-45; [cp] is central_cp_ *)
Definition midpointPatch (eps : R) (sf : surf) (cp : V3) (sds : list V2) : option V3 :=
  blends <- blendCornerDeficient eps (sf_n sf) sds ;;
  p <- osum (sf_n sf) (fun i =>
    b <- nth_error blends i ;; q <- cornerInterpolant eps sf i sds ;; Some (q *v b)) ;;
  Some (p +v cp *v (1 - accumulate blends)).

(** surface-midpoint-coons.cc:25-36 *)
Definition midpointCoons (eps : R) (sf : surf) (cp : V3) (sds : list V2) : option V3 :=
  blends <- blendCornerDeficient eps (sf_n sf) sds ;;
  p <- osum (sf_n sf) (coonsTerm eps sf sds blends) ;;
  Some (p +v cp *v (1 - accumulate blends)).

(** surface-midpoint.cc:61-65 *)
Definition deficiency (eps : R) (n : nat) (sds : list V2) : option R :=
  blends <- blendCornerDeficient eps n sds ;; Some (1 - accumulate blends).

(** surface-midpoint.cc:73-89; [patch] is the eval function of the class as a
    function of the central control point, [sds] the ribbon coordinates of the
    domain center, [m] the midpoint if one is set.  Returns the new midpoint
    and the new central control point. *)
Definition updateCentral (eps : R) (sf : surf) (patch : V3 -> list V2 -> option V3) (sds : list V2)
    (m : option V3) : option (V3 * V3) :=
  mid <- (match m with
          | Some p => Some p
          | None => p <- osum (sf_n sf) (fun i => sideInterpolant sf i (1 / 2) (1 / 2)) ;;
                    vdiv p (INR (sf_n sf))
          end) ;;
  s <- patch vzero sds ;;
  def <- deficiency eps (sf_n sf) sds ;;
  cp <- (if Rlt_dec (Rabs def) eps then Some mid else vdiv (mid -v s) def) ;;
  Some (mid, cp).

(** surface-c0coons.cc:22-28; [rs] are the evaluation functions of the ribbons *)
Definition c0coons (rs : list (V2 -> option V3)) (n : nat) (sds : list V2) : option V3 :=
  osum n (fun i => r <- nth_error rs i ;; sd <- nth_error sds i ;;
                   p <- r sd ;; Some (p *v (1 - py sd) *v / 2)).

(** surface-elastic.cc:27-67.  The matrices are [acc]umulated into an abstract
    state and [solve] stands for everything after the loop (lines 62-66). *)
Section Elastic.
Variables (S : Type) (acc : S -> V2 -> V3 -> V3 -> R -> S) (solve : S -> option V3).
Fixpoint elasticLoop (tol : R) (sf : surf) (vs : list V2) (uv : V2) (sds : list V2) (l : list nat) (st : S)
    : option V3 :=
  match l with
  | [] => solve st
  | i :: l' =>
      sd <- nth_error sds i ;;
      let s := clamp (px sd) 0 1 in
      vp <- nth_error vs (prv (sf_n sf) i) ;; v <- nth_error vs i ;;
      let bp := affine2 vp s v in
      let di := pnorm (uv -p bp) in
      r <- nth_error (sf_ribbons sf) i ;;
      Pi <- ribbonEval (sr_curve r) (sr_cross r) (mkV2 s 0) ;;
      if Rlt_dec di tol then Some Pi
      else
        t <- sr_cross r s ;; _ <- fdiv 1 (di ^ 3) ;;
        elasticLoop tol sf vs uv sds l' (acc st bp Pi (t *v di) (/ di ^ 3))
  end.
Definition elastic (tol : R) (sf : surf) (vs : list V2) (uv : V2) (sds : list V2) (st0 : S) : option V3 :=
  elasticLoop tol sf vs uv sds (seq 0 (sf_n sf)) st0.
End Elastic.

(** surface-nsided.cc:37-46: only the ribbon with index 3 is evaluated (the
    loop after the return statement is dead); the blends before it are
    computed but not used. *)
Definition nsidedPatch (rs : list (V2 -> option V3)) (sds : list V2) : option V3 :=
  r <- nth_error rs 3 ;; sd <- nth_error sds 3 ;; r sd.
