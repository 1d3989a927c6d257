(** Parameterizations: maps from the domain to ribbon coordinates.
    Models src/transfinite/parameterization*.cc.  Undefined operations
    (out of range accesses, divisions by zero) give [None]; [epsilon] is the
    parameter [eps]. *)

From Verif Require Import Base MeshModel DomainModel UtilModel.
Open Scope R_scope.

(** Parameterization::prev with two arguments, parameterization.hh:30. *)
Definition prv2 (n i : nat) : nat := ((i + n - 2) mod n)%nat.

(** Domain::edgePoint, domain.cc:214-217 *)
Definition edgePoint (d : dom) (i : nat) (s : R) : option V2 :=
  vi <- nth_error (d_verts d) i ;; vp <- nth_error (d_verts d) (prv (d_n d) i) ;;
  Some (vi *p s +p vp *p (1 - s)).

(** ** Barycentric coordinates: parameterization-barycentric.cc:48-113 *)
Inductive btype := Wachspress | MeanValue | Harmonic.

(** Lines 59-64 *)
Definition baryAreas (vectors : list V2) : option (list R) :=
  let n := length vectors in
  mapM (fun i =>
    si <- nth_error vectors i ;; si1 <- nth_error vectors (nxt n i) ;;
    Some ((px si * py si1 - py si * px si1) / 2)) (seq 0 n).

(** Lines 70-81: the three products, as the state (Ai, Ai_1, Ai_1i) of the
    loop over [j]. *)
Definition baryProducts (n i : nat) (areas : list R) : option (R * R * R) :=
  foldM (fun st j =>
    let '(Ai, Ai_1, Ai_1i) := st in
    a <- nth_error areas j ;;
    Some (if (j =? i)%nat then (Ai, Ai_1 * a, Ai_1i)
          else if (j =? prv n i)%nat then (Ai * a, Ai_1, Ai_1i)
          else (Ai * a, Ai_1 * a, Ai_1i * a)))
    (1, 1, 1) (seq 0 n).

(** Lines 85-99 *)
Definition baryRadius (t : btype) (v : V2) : R :=
  match t with Wachspress => 1 | MeanValue => pnorm v | Harmonic => pnorm2 v end.

(** Lines 82-105 for one [i]: [inl] is the weight, [inr] is the break at a
    vertex. *)
Definition baryWeight (t : btype) (eps : R) (vectors : list V2) (areas : list R) (i : nat)
    : option (R + unit) :=
  let n := length vectors in
  ' (Ai, Ai_1, Ai_1i) <- baryProducts n i areas ;;
  si_1 <- nth_error vectors (prv n i) ;; si <- nth_error vectors i ;; si1 <- nth_error vectors (nxt n i) ;;
  let Bi := (px si_1 * py si1 - py si_1 * px si1) / 2 in
  let ri_1 := baryRadius t si_1 in let ri := baryRadius t si in let ri1 := baryRadius t si1 in
  Some (if Rlt_dec ri eps then inr tt
        else inl (ri_1 * Ai_1 + ri1 * Ai - ri * Bi * Ai_1i)).

(** Lines 66-106: the loop over [i] with its early exit; [l] is the list so
    far. *)
Fixpoint baryLoop (t : btype) (eps : R) (vectors : list V2) (areas : list R) (l : list R) (is : list nat)
    : option (list R) :=
  match is with
  | [] => Some l
  | i :: rest =>
    w <- baryWeight t eps vectors areas i ;;
    match w with
    | inl x => baryLoop t eps vectors areas (l ++ [x]) rest
    | inr _ => upd (repeat 0 (length vectors)) i 1
    end
  end.

(** The whole computation without the cache; lines 108-109 normalise. *)
Definition barycentric (t : btype) (eps : R) (d : dom) (uv : V2) : option (list R) :=
  let vectors := map (fun p => uv -p p) (d_verts d) in
  areas <- baryAreas vectors ;;
  l <- baryLoop t eps vectors areas [] (seq 0 (length vectors)) ;;
  let sum := accumulate l in
  mapM (fun x => fdiv x sum) l.

(** ParameterizationBarycentric::mapToRibbon, lines 18-40, from the
    coordinates [l]. *)
Definition baryRibbon (eps : R) (d : dom) (l : list R) (i : nat) (uv : V2) : option V2 :=
  let n := d_n d in
  li <- nth_error l i ;; lp <- nth_error l (prv n i) ;;
  let denom := lp + li in
  s <- (if Rlt_dec denom eps then
          alpha <- angle d i ;; beta <- angle d (prv n i) ;;
          vp <- nth_error (d_verts d) (prv n i) ;; vi <- nth_error (d_verts d) i ;;
          lop <- toLocal d (prv n i) (uv -p vp) ;; lenp <- edgeLength d (prv n i) ;;
          lon <- toLocal d (nxt n i) (uv -p vi) ;; lenn <- edgeLength d (nxt n i) ;;
          let dprev := py lop * lenp in let dnext := py lon * lenn in
          let denom2 := sin alpha * dprev + sin beta * dnext in
          if Rlt_dec denom2 eps then Some 0 else fdiv (sin alpha * dprev) denom2
        else fdiv li denom) ;;
  Some (mkV2 s (1 - li - lp)).

Definition baryMap (t : btype) (eps : R) (d : dom) (i : nat) (uv : V2) : option V2 :=
  l <- barycentric t eps d uv ;; baryRibbon eps d l i uv.

(** ** Bilinear: parameterization-bilinear.cc:11-60 *)

(** Lines 31-56: the quadratic equation. *)
Definition bilinearSolve (eps a b c : R) : option R :=
  if Rlt_dec (Rabs a) eps then
    if Rlt_dec (Rabs b) eps then Some 0 else fdiv (- c) b
  else
    let D0 := b * b - 4 * a * c in
    let D1 := if Rlt_dec D0 eps then 0 else D0 in
    D <- fdiv (sqrt D1) (2 * a) ;; s <- fdiv (- b) (2 * a) ;;
    let s1 := s + D in let s2 := s - D in
    let hi := if Rlt_dec s1 s2 then s2 else s1 in
    let lo := if Rlt_dec s1 s2 then s1 else s2 in
    let dev1 := Rmax 0 (hi - 1) in let dev2 := Rmax 0 (- lo) in
    Some (if Rlt_dec dev1 dev2 then hi else lo).

(** Lines 25-27 and 58, in the local coordinates of the side. *)
Definition bilinearLocal (eps : R) (p1 p2 p : V2) : option V2 :=
  let a := py p1 - py p2 in
  let b := px p * py p2 - (px p + 1) * py p1 + (px p1 - px p2) * py p in
  let c := px p * py p1 - py p * px p1 in
  s <- bilinearSolve eps a b c ;;
  dd <- fdiv (py p) (py p1 * (1 - s) + py p2 * s) ;;
  Some (mkV2 s dd).

Definition bilinearMap (eps : R) (d : dom) (i : nat) (uv : V2) : option V2 :=
  let n := d_n d in
  v0 <- nth_error (d_verts d) (prv2 n i) ;; v1 <- nth_error (d_verts d) (prv n i) ;;
  v2 <- nth_error (d_verts d) i ;; v3 <- nth_error (d_verts d) (nxt n i) ;;
  p1 <- toLocal d i (v0 -p v1) ;; p2 <- toLocal d i (v3 -p v2) ;; p <- toLocal d i (uv -p v1) ;;
  bilinearLocal eps p1 p2 p.

(** ** Interconnected: parameterization-interconnected.cc:12-20 *)
Definition interconnectedMap (eps : R) (d : dom) (i : nat) (uv : V2) : option V2 :=
  sp <- bilinearMap eps d (prv (d_n d) i) uv ;;
  sn <- bilinearMap eps d (nxt (d_n d) i) uv ;;
  sd <- bilinearMap eps d i uv ;;
  let Hs := hermite 0 (px sd) in
  Some (mkV2 (px sd) ((1 - px sp) * Hs + px sn * (1 - Hs))).

(** parameterization-interconnected.cc:22-30, on the list [sds] returned by
    the base class.  The loop overwrites second coordinates only and reads
    first coordinates only. *)
Definition interconnectedFix (n : nat) (sds : list V2) : option (list V2) :=
  foldM (fun l i =>
    sd <- nth_error l i ;; sp <- nth_error l (prv n i) ;; sn <- nth_error l (nxt n i) ;;
    let Hs := hermite 0 (px sd) in
    upd l i (mkV2 (px sd) ((1 - px sp) * Hs + px sn * (1 - Hs)))) sds (seq 0 n).

(** ** Constrained barycentric: parameterization-constrained-barycentric.cc:11-39 *)
Definition singularBlend (eps : R) (weights : list R) : option (list R) :=
  let small := length (filter (fun w => if Rlt_dec w eps then true else false) weights) in
  if (0 <? small)%nat then
    val <- fdiv 1 (INR small) ;; Some (map (fun w => if Rlt_dec w eps then val else 0) weights)
  else
    blends <- mapM (fun w => fdiv 1 (w ^ 2)) weights ;;
    mapM (fun x => fdiv x (accumulate blends)) blends.

Definition constrainedRibbon (eps : R) (sd sp sn : V2) : option V2 :=
  blends <- singularBlend eps [py sd; 1 - px sd; 1 - py sd; px sd] ;;
  b0 <- nth_error blends 0 ;; b1 <- nth_error blends 1 ;;
  b2 <- nth_error blends 2 ;; b3 <- nth_error blends 3 ;;
  Some (mkV2 (px sd) (py sd * (b0 + b2) + px sn * b1 + (1 - px sp) * b3)).

Definition constrainedMap (t : btype) (eps : R) (d : dom) (i : nat) (uv : V2) : option V2 :=
  sd <- baryMap t eps d i uv ;; sp <- baryMap t eps d (prv (d_n d) i) uv ;;
  sn <- baryMap t eps d (nxt (d_n d) i) uv ;;
  constrainedRibbon eps sd sp sn.

(** ** Parallel: parameterization-parallel.cc:11-31 *)
Definition maxDist (d : dom) (i : nat) : option R :=
  vi <- nth_error (d_verts d) i ;;
  foldM (fun m p => l <- toLocal d i (p -p vi) ;; Some (if Rlt_dec m (py l) then py l else m))
    0 (d_verts d).

Definition parallelMultipliers (d : dom) : option (list R) :=
  mapM (fun i => m <- maxDist d i ;; fdiv 1 m) (seq 0 (d_n d)).

Definition parallelMap (eps : R) (d : dom) (mults : list R) (i : nat) (uv : V2) : option V2 :=
  sd <- bilinearMap eps d i uv ;;
  vi <- nth_error (d_verts d) i ;; l <- toLocal d i (uv -p vi) ;; m <- nth_error mults i ;;
  Some (mkV2 (px sd) (py l * m)).

(** ** SuperD: parameterization-superd.cc:11-18 *)
Definition superdMultipliers (d : dom) : option (list R) :=
  let n := d_n d in
  let k := if (n <=? 6)%nat then 1%nat else ((n - 3) / 2)%nat in
  vk <- nth_error (d_verts d) k ;; v0 <- nth_error (d_verts d) 0 ;;
  l <- toLocal d 0 (vk -p v0) ;; m <- fdiv 1 (py l) ;;
  Some (repeat m n).

(** ** Overlap: parameterization-overlap.cc:10-17; the assertion on the parity
    is [None]. *)
Definition overlapMap (t : btype) (eps : R) (d : dom) (i : nat) (uv : V2) : option V2 :=
  let n := d_n d in
  if Nat.odd n then None else
  bc <- barycentric t eps d uv ;;
  r <- orsum (n / 2) (fun j => nth_error bc ((i + j) mod n)%nat) ;;
  Some (mkV2 r 0).

(** ** Polar: parameterization-polar.cc:16-24 *)
Definition polarMap (eps : R) (d : dom) (i : nat) (uv : V2) : option V2 :=
  let n := d_n d in
  vp <- nth_error (d_verts d) (prv n i) ;; vi <- nth_error (d_verts d) i ;;
  let v1 := vp -p vi in let v2 := uv -p vi in
  if Rlt_dec (pnorm v2) eps then Some (mkV2 0 1)
  else
    a <- pnormalize v1 ;; b <- pnormalize v2 ;;
    let phi := acos (clamp (pdot a b) (-1) 1) in
    al <- angle d i ;; ratio <- fdiv phi al ;;
    l <- barycentric MeanValue eps d uv ;; li <- nth_error l i ;;
    Some (mkV2 ratio li).

(** ** Perpendicular-polar: parameterization-perp-polar.cc:13-37 *)
Definition perpPolarMap (d : dom) (i : nat) (uv : V2) : option V2 :=
  let n := d_n d in
  base <- nth_error (d_verts d) (prv n i) ;;
  p <- toLocal d i (uv -p base) ;;
  if Rle_dec 0 (px p) then
    if Rle_dec (px p) 1 then Some p
    else
      origin <- nth_error (d_verts d) i ;;
      vb <- fromLocal d i (mkV2 0 1) ;; len <- edgeLength d i ;;
      dd <- fdiv (pnorm (uv -p origin)) len ;;
      a <- pnormalize (popp vb) ;; b <- pnormalize (uv -p origin) ;;
      Some (mkV2 (1 + acos (clamp (pdot a b) (-1) 1)) dd)
  else
    vb <- fromLocal d i (mkV2 0 1) ;; len <- edgeLength d i ;;
    dd <- fdiv (pnorm (uv -p base)) len ;;
    a <- pnormalize vb ;; b <- pnormalize (uv -p base) ;;
    Some (mkV2 (- acos (clamp (pdot a b) (-1) 1)) dd).

(** ** Circular: parameterization-circular.cc:15-76

    A not-a-number result of [sqrt] is [None] in the function passed to the
    bisection; comparisons with it are false, so the loop stops. *)
Definition hcircle (eps : R) (n : nat) (h : R) : option (V2 * R) :=
  phi <- fdiv ((2 * h + 1) * PI) (INR n) ;;
  let p := mkV2 (cos phi) (sin phi) in
  let t := mkV2 (sin (h * PI - phi)) (cos (h * PI - phi)) in
  if Rlt_dec (Rabs (px t)) eps then Some (p, 0)
  else
    q <- fdiv (py p * py t) (px t) ;;
    let ctr := mkV2 (px p + q) 0 in
    Some (ctr, pnorm (ctr -p p)).

(** The loop of lines 27-39: [steps] iterations left; the second and third
    arguments are the bracket, the fourth is [xm]. *)
Fixpoint bisectLoop (eps : R) (f : R -> option R) (xl xh xm : R) (steps : nat) : R :=
  match steps with
  | O => xm
  | S k =>
    let xm' := (xl + xh) / 2 in
    let close := if Req_EM_T xm' 0 then false
                 else if Rlt_dec (Rabs ((xm' - xm) / xm')) eps then true else false in
    if close then xm'
    else
      match f xl, f xm' with
      | Some a, Some b =>
        if Rlt_dec (a * b) 0 then bisectLoop eps f xl xm' xm' k
        else if Rlt_dec 0 (a * b) then bisectLoop eps f xm' xh xm' k
        else xm'
      | _, _ => xm'
      end
  end.

Definition bisect (eps : R) (f : R -> option R) (xl xh : R) : R := bisectLoop eps f xl xh xl 100.

(** Lines 58-69 *)
Definition fsqrt (x : R) : option R := if Rlt_dec x 0 then None else Some (sqrt x).

Definition deviation (eps : R) (n : nat) (p : V2) (h : R) : option R :=
  ' (ctr, r) <- hcircle eps n h ;;
  if Req_EM_T r 0 then Some (px ctr - px p)
  else if Rlt_dec (8 / 10) h then Some (pnorm (ctr -p p) - r)
  else
    D <- fsqrt (r * r - (py p - py ctr) * (py p - py ctr)) ;;
    let x := px ctr + D in
    let x' := if Rlt_dec 1 x then px ctr - D else x in
    Some (x' - px p).

(** std::fmod for a positive second argument. *)
Definition fmod (x y : R) : R :=
  if Rle_dec 0 x then x - y * IZR (Int_part (x / y)) else - (- x - y * IZR (Int_part (- x / y))).

(** Lines 47-48; [uv] is (r, phi). *)
Definition localPhi (n i : nat) (phi : R) : option R :=
  q <- fdiv (INR i * 2 + 1) (INR n) ;;
  Some (fmod (phi + (3 - q) * PI) (2 * PI) - PI).

Definition circularMap (eps : R) (n i : nat) (uv : V2) : option V2 :=
  let r := px uv in
  phi <- localPhi n i (py uv) ;;
  if Rlt_dec (1 - eps) r then
    third <- fdiv PI (INR n) ;;
    if Rle_dec (Rabs phi) third then Some (mkV2 0 0)
    else
      third3 <- fdiv (3 * PI) (INR n) ;;
      if Rle_dec third3 (Rabs phi) then Some (mkV2 1 1)
      else
        let h := (Rabs phi * INR n / PI - 1) / 2 in Some (mkV2 h h)
  else
    let p := mkV2 (r * cos phi) (r * sin phi) in
    let h := if Rlt_dec (px p) 0 then bisect eps (deviation eps n p) (2 / 10) 1
             else bisect eps (deviation eps n p) 0 (8 / 10) in
    Some (mkV2 h h).

(** ** Caches: parameterization.cc:17-35, parameterization-barycentric.cc:42-52,
    111-112, parameterization-parallel.cc:33-38.

    An object holds a pointer to a domain, [n_], the two caches (associations
    from points; std::map with a lexicographic comparison of the exact
    coordinates) and the multipliers.  The functions above read the number of
    sides from the domain; in the code they read [n_], which is the same after
    an update. *)
Definition lookup {A : Type} (c : list (V2 * A)) (uv : V2) : option A :=
  match find (fun e => if Req_EM_T (px (fst e)) (px uv) then
                         if Req_EM_T (py (fst e)) (py uv) then true else false else false) c with
  | Some (_, a) => Some a | None => None end.

Record pstate := mkPstate {
  ps_n : nat; ps_rcache : list (V2 * list V2); ps_bcache : list (V2 * list R); ps_mults : list R }.

Inductive pkind :=
| KBary (t : btype) | KBilinear | KInterconnected | KConstrained (t : btype) | KParallel | KSuperD
| KOverlap (t : btype).

(** ParameterizationBarycentric::barycentric with its cache. *)
Definition baryCached (t : btype) (eps : R) (d : dom) (st : pstate) (uv : V2)
    : option (list R * pstate) :=
  match lookup (ps_bcache st) uv with
  | Some l => Some (l, st)
  | None =>
    l <- barycentric t eps d uv ;;
    Some (l, mkPstate (ps_n st) (ps_rcache st) ((uv, l) :: ps_bcache st) (ps_mults st))
  end.

Definition baryMapCached (t : btype) (eps : R) (d : dom) (st : pstate) (i : nat) (uv : V2)
    : option (V2 * pstate) :=
  ' (l, st') <- baryCached t eps d st uv ;; r <- baryRibbon eps d l i uv ;; Some (r, st').

(** The virtual mapToRibbon of each class on an object. *)
Definition mapToRibbonObj (k : pkind) (eps : R) (d : dom) (st : pstate) (i : nat) (uv : V2)
    : option (V2 * pstate) :=
  match k with
  | KBary t => baryMapCached t eps d st i uv
  | KBilinear => r <- bilinearMap eps d i uv ;; Some (r, st)
  | KInterconnected => r <- interconnectedMap eps d i uv ;; Some (r, st)
  | KConstrained t =>
    ' (sd, st1) <- baryMapCached t eps d st i uv ;;
    ' (sp, st2) <- baryMapCached t eps d st1 (prv (d_n d) i) uv ;;
    ' (sn, st3) <- baryMapCached t eps d st2 (nxt (d_n d) i) uv ;;
    r <- constrainedRibbon eps sd sp sn ;; Some (r, st3)
  | KParallel | KSuperD => r <- parallelMap eps d (ps_mults st) i uv ;; Some (r, st)
  | KOverlap t =>
    if Nat.odd (d_n d) then None else
    ' (bc, st') <- baryCached t eps d st uv ;;
    r <- orsum (d_n d / 2) (fun j => nth_error bc ((i + j) mod d_n d)%nat) ;;
    Some (mkV2 r 0, st')
  end.

(** Parameterization::mapToRibbons, parameterization.cc:23-35. *)
Definition baseRibbons (k : pkind) (eps : R) (d : dom) (st : pstate) (uv : V2)
    : option (list V2 * pstate) :=
  match lookup (ps_rcache st) uv with
  | Some l => Some (l, st)
  | None =>
    ' (l, st') <- foldM (fun acc i =>
        let '(l, s) := acc in
        ' (r, s') <- mapToRibbonObj k eps d s i uv ;; Some (l ++ [r], s'))
      ([], st) (seq 0 (ps_n st)) ;;
    Some (l, mkPstate (ps_n st') ((uv, l) :: ps_rcache st') (ps_bcache st') (ps_mults st'))
  end.

(** The virtual mapToRibbons: overridden by the interconnected kind. *)
Definition mapToRibbonsObj (k : pkind) (eps : R) (d : dom) (st : pstate) (uv : V2)
    : option (list V2 * pstate) :=
  ' (l, st') <- baseRibbons k eps d st uv ;;
  match k with
  | KInterconnected => l' <- interconnectedFix (ps_n st) l ;; Some (l', st')
  | _ => Some (l, st')
  end.

(** The virtual update. *)
Definition paramUpdate (k : pkind) (d : dom) (st : pstate) : option pstate :=
  mults <- match k with
           | KParallel => parallelMultipliers d
           | KSuperD => superdMultipliers d
           | _ => Some (ps_mults st)
           end ;;
  Some (mkPstate (length (d_verts d)) [] (match k with
      | KBary _ | KConstrained _ | KOverlap _ => [] | _ => ps_bcache st end) mults).

(** Operations on an object and its domain.  [PDomain] is a change of the
    domain object it points to (or setDomain). *)
Inductive pop := PDomain (d : dom) | PUpdate | PQuery (uv : V2).

Definition pstep (k : pkind) (eps : R) (s : dom * pstate) (o : pop) : option (dom * pstate) :=
  match o with
  | PDomain d => Some (d, snd s)
  | PUpdate => st <- paramUpdate k (fst s) (snd s) ;; Some (fst s, st)
  | PQuery uv => ' (_, st) <- mapToRibbonsObj k eps (fst s) (snd s) uv ;; Some (fst s, st)
  end.

Definition prun (k : pkind) (eps : R) (s : dom * pstate) (os : list pop) : option (dom * pstate) :=
  foldM (pstep k eps) s os.

(** The computation without caches. *)
Definition mapToRibbon (k : pkind) (eps : R) (d : dom) (i : nat) (uv : V2) : option V2 :=
  match k with
  | KBary t => baryMap t eps d i uv
  | KBilinear => bilinearMap eps d i uv
  | KInterconnected => interconnectedMap eps d i uv
  | KConstrained t => constrainedMap t eps d i uv
  | KParallel => m <- parallelMultipliers d ;; parallelMap eps d m i uv
  | KSuperD => m <- superdMultipliers d ;; parallelMap eps d m i uv
  | KOverlap t => overlapMap t eps d i uv
  end.

Definition mapToRibbons (k : pkind) (eps : R) (d : dom) (uv : V2) : option (list V2) :=
  mapM (fun i => mapToRibbon k eps d i uv) (seq 0 (d_n d)).
