(** File readers: readLOP, readOBJ, loadSPatch and loadSuperDModel of
    src/utils/io.cc.

    A file of numbers is a list of tokens (GBModel); counts are [TNat], doubles
    are [TReal].  A double can be read from both kinds.  Reading a count from a
    token that is not a whole number is outside of the model ([None]).  Reading
    at the end of the file sets the failure state and leaves the variable as it
    was; all later reads then do the same, so the empty token list represents
    the failed stream.  A variable that has not been assigned is [None], and
    using its value is undefined behaviour. *)
From Coq Require Import NArith ZArith.
From Verif Require Import Base UtilModel GBModel SPatchModel SuperDModel.
Open Scope R_scope.

(** f >> n for a size_t with the content [cur] *)
Definition readNat (cur : option nat) (f : list token) : option (option nat * list token) :=
  match f with
  | [] => Some (cur, [])
  | TNat n :: f' => Some (Some n, f')
  | TReal _ :: _ => None
  end.

Definition tokenReal (t : token) : R := match t with TNat n => INR n | TReal x => x end.

(** f >> x for a double with the content [cur] *)
Definition readReal {T : Type} (wrap : R -> T) (cur : T) (f : list token) : T * list token :=
  match f with [] => (cur, []) | t :: f' => (wrap (tokenReal t), f') end.
Definition readR : R -> list token -> R * list token := readReal (fun x => x).

(** f >> p[0] >> p[1] >> p[2] *)
Definition readV (p : V3) (f : list token) : V3 * list token :=
  let (x, f1) := readR (vx p) f in let (y, f2) := readR (vy p) f1 in let (z, f3) := readR (vz p) f2 in
  (mkV3 x y z, f3).

(** A loop that reads into the elements of a vector one after the other. *)
Fixpoint readInto {T : Type} (rd : T -> list token -> T * list token) (l : list T) (f : list token) : list T * list token :=
  match l with
  | [] => ([], f)
  | x :: l => let (x', f1) := rd x f in let (l', f2) := readInto rd l f1 in (x' :: l', f2)
  end.

(** std::vector::resize *)
Definition vresize {T : Type} (d : T) (l : list T) (n : nat) : list T := firstn n l ++ repeat d (n - length l).

(** ** readLOP, io.cc:10-38.  A curve is (degree, knots, control points); a
    file that cannot be opened is left out.  [v0] is a default constructed
    point. *)
Definition lopcurve : Type := nat * list R * list V3.

Record lopstate := mkLop {
  lp_deg : option nat; lp_nk : option nat; lp_nc : option nat; lp_knots : list R; lp_cpts : list V3;
  lp_file : list token; lp_result : list lopcurve }.

(** Lines 25-34 *)
Definition lopStep (v0 : V3) (s : lopstate) : option lopstate :=
  ' (deg, f1) <- readNat (lp_deg s) (lp_file s) ;;
  ' (nk, f2) <- readNat (lp_nk s) f1 ;;
  k <- nk ;;
  let (knots, f3) := readInto readR (vresize 0 (lp_knots s) k) f2 in
  ' (nc, f4) <- readNat (lp_nc s) f3 ;;
  c <- nc ;;
  let (cpts, f5) := readInto readV (vresize v0 (lp_cpts s) c) f4 in
  dg <- deg ;;
  Some (mkLop deg nk nc knots cpts f5 (lp_result s ++ [(dg, knots, cpts)])).

Definition readLOP (v0 : V3) (f : list token) : option (list lopcurve) :=
  ' (n, f1) <- readNat None f ;;
  n <- n ;;
  s <- foldM (fun s _ => lopStep v0 s) (mkLop None None None [] [] f1 []) (seq 0 n) ;;
  Some (lp_result s).

(** ** loadSPatch, io.cc:235-254.  The stream throws an exception when a read
    fails; this is [None] as well. *)
Definition takeNat (f : list token) : option (nat * list token) :=
  match f with TNat n :: f' => Some (n, f') | _ => None end.
Definition takeReal (f : list token) : option (R * list token) :=
  match f with t :: f' => Some (tokenReal t, f') | [] => None end.
Definition takePoint (f : list token) : option (V3 * list token) :=
  ' (x, f1) <- takeReal f ;; ' (y, f2) <- takeReal f1 ;; ' (z, f3) <- takeReal f2 ;; Some (mkV3 x y z, f3).
(** Lines 245-246; the whole vector is overwritten. *)
Fixpoint takeIndex (n : nat) (f : list token) : option (index * list token) :=
  match n with
  | O => Some ([], f)
  | S m => ' (k, f1) <- takeNat f ;; ' (ix, f2) <- takeIndex m f1 ;; Some (k :: ix, f2)
  end.

(** Line 240: n + d - 1 on 64 bits. *)
Definition spCount (n d : nat) : N := binomial64 ((N.of_nat n + N.of_nat d + (two64 - 1)) mod two64) (N.of_nat d).

Definition loadSPatch (v0 : V3) (f : list token) : option spatch :=
  ' (n, f1) <- takeNat f ;; ' (d, f2) <- takeNat f1 ;;
  ' (sp, _) <- foldM (fun s _ =>
      let '(sp, f) := s in
      ' (ix, g1) <- takeIndex n f ;; ' (p, g2) <- takePoint g1 ;;
      Some (spSet sp ix p, g2)) (spInit n d, f2) (seq 0 (N.to_nat (spCount n d))) ;;
  ' (sp', _) <- spCurves v0 sp ;; Some sp'.

(** ** loadSuperDModel, io.cc:256-286.  [n], [x], [y] and [z] are variables of
    the loop body. *)
Definition opt3 : Type := option R * option R * option R.
Definition readO : option R -> list token -> option R * list token := readReal (@Some R).
Definition readOpt3 (c : opt3) (f : list token) : opt3 * list token :=
  let '(x, y, z) := c in
  let (x', f1) := readO x f in let (y', f2) := readO y f1 in let (z', f3) := readO z f2 in ((x', y', z'), f3).
Definition point3 (c : opt3) : option V3 := let '(x, y, z) := c in x <- x ;; y <- y ;; z <- z ;; Some (mkV3 x y z).

Definition sdReadLoop (set : superd -> nat -> V3 -> option superd) (n : nat) (s : superd * opt3 * list token)
    : option (superd * opt3 * list token) :=
  foldM (fun s j =>
    let '(p, c, f) := s in
    let (c', f') := readOpt3 c f in
    x <- point3 c' ;; p' <- set p j x ;; Some (p', c', f')) s (seq 0 n).

Definition sdReadPatch (v0 : V3) (f : list token) : option (superd * list token) :=
  ' (n, f1) <- readNat None f ;;
  n <- n ;;
  s1 <- sdReadLoop sdSetFace n (sdInit v0 (sdEmpty v0) n, (None, None, None), f1) ;;
  ' (p, c, f2) <- sdReadLoop sdSetEdge n s1 ;;
  let (c', f3) := readOpt3 c f2 in
  x <- point3 c' ;;
  let p' := sdSetVertex p x in
  _ <- sdCurves p' ;; q <- sdUpdateRibbons p' ;; Some (q, f3).

Definition loadSuperDModel (v0 : V3) (f : list token) : option (list superd) :=
  ' (k, f1) <- readNat None f ;;
  k <- k ;;
  ' (res, _) <- foldM (fun s _ => let '(res, f) := s in ' (q, f') <- sdReadPatch v0 f ;; Some (res ++ [q], f')) ([], f1) (seq 0 k) ;;
  Some res.

(** ** readOBJ, io.cc:40-79

    A line is classified by its first character (line 57-58).  [LV] and [LF]
    hold what is after the first two characters, whatever the second one is;
    [None] means that there is only one character, so that the stream position
    2 does not exist.  The rest is split into pieces: a whole number, another
    number, a whole number directly followed by characters that do not belong
    to a number (as in 1/2/3), or something that is not a number at all.
    Reading a count from a number that is not whole is outside of the model. *)
Inductive otok := ONat (n : nat) | OReal (x : R) | OPart (n : nat) | OJunk.
Inductive oline := LEmpty | LOther | LV (rest : option (list otok)) | LF (rest : option (list otok)).

(** State of the string stream: unread pieces and the failure flag. *)
Definition ostream : Type := list otok * bool.

(** ss >> x.  In the failed state nothing happens; at the end of the string the
    flag is set; on something that is not a number the flag is set and the
    variable becomes 0. *)
Definition ossReal (cur : option R) (s : ostream) : option R * ostream :=
  let '(l, bad) := s in
  if bad then (cur, s)
  else match l with
  | [] => (cur, ([], true))
  | ONat n :: l' => (Some (INR n), (l', false))
  | OReal x :: l' => (Some x, (l', false))
  | OPart n :: l' => (Some (INR n), (OJunk :: l', false))
  | OJunk :: _ => (Some 0, (l, true))
  end.
Definition ossNat (cur : option nat) (s : ostream) : option (option nat * ostream) :=
  let '(l, bad) := s in
  if bad then Some (cur, s)
  else match l with
  | [] => Some (cur, ([], true))
  | ONat n :: l' => Some (Some n, (l', false))
  | OReal _ :: _ => None
  | OPart n :: l' => Some (Some n, (OJunk :: l', false))
  | OJunk :: _ => Some (Some 0%nat, (l, true))
  end.

(** ss.str(line); ss.seekg(2): the failure flag stays, and is set if position 2
    does not exist. *)
Definition ossLine (rest : option (list otok)) (bad : bool) : ostream :=
  match rest with Some l => (l, bad) | None => ([], true) end.

(** Lines 68-69: k - 1 on 64 bits. *)
Definition pred64 (k : nat) : Z := ((Z.of_nat k - 1) mod 2 ^ 64)%Z.

(** The variables p, t, pv, points_set, the failure flag of ss, and the mesh:
    its points and triangles. *)
Record objstate := mkObj {
  ob_p : opt3; ob_t : option nat * option nat * option nat; ob_pv : list V3; ob_set : bool; ob_bad : bool;
  ob_points : list V3; ob_tris : list (Z * Z * Z) }.

Definition objStep (s : objstate) (ln : oline) : option objstate :=
  match ln with
  | LEmpty | LOther => Some s
  | LV rest =>
    let '(x, y, z) := ob_p s in
    let (x', s1) := ossReal x (ossLine rest (ob_bad s)) in
    let (y', s2) := ossReal y s1 in
    let (z', s3) := ossReal z s2 in
    p <- point3 (x', y', z') ;;
    Some (mkObj (x', y', z') (ob_t s) (ob_pv s ++ [p]) (ob_set s) (snd s3) (ob_points s) (ob_tris s))
  | LF rest =>
    let pts := if ob_set s then ob_points s else ob_pv s in
    let '(a, b, c) := ob_t s in
    ' (a', s1) <- ossNat a (ossLine rest (ob_bad s)) ;;
    ' (b', s2) <- ossNat b s1 ;;
    ' (c', s3) <- ossNat c s2 ;;
    i <- a' ;; j <- b' ;; k <- c' ;;
    Some (mkObj (ob_p s) (a', b', c') (ob_pv s) true (snd s3) pts (ob_tris s ++ [(pred64 i, pred64 j, pred64 k)]))
  end.

(** [p0] is the content of a default constructed point. *)
Definition readOBJ (p0 : opt3) (lines : list oline) : option (list V3 * list (Z * Z * Z)) :=
  s <- foldM objStep (mkObj p0 (None, None, None) [] false false [] []) lines ;;
  Some (ob_points s, ob_tris s).
