(** S-patches: surface-spatch.cc / surface-spatch.hh, and loadSPatch of
    src/utils/io.cc.

    The control net is a std::map from index vectors to points.  It is modelled
    as the list of its entries in iteration order (increasing keys). *)
From Coq Require Import NArith ZArith.
From Verif Require Import Base UtilModel DomainModel ParamModel.
Open Scope R_scope.

Definition index := list nat.
Definition snet := list (index * V3).

(** std::vector's operator<. *)
Fixpoint lexLt (a b : index) : bool :=
  match a, b with
  | _, [] => false
  | [], _ :: _ => true
  | x :: a', y :: b' => ((x <? y) || ((x =? y) && lexLt a' b'))%nat%bool
  end.

(** net_.at(i), surface-spatch.cc:85-88; [None] is the exception. *)
Fixpoint netAt (m : snet) (i : index) : option V3 :=
  match m with
  | [] => None
  | (k, p) :: m' => if lexLt k i then netAt m' i else if lexLt i k then None else Some p
  end.

(** net_[i] = p, surface-spatch.cc:80-83. *)
Fixpoint netSet (m : snet) (i : index) (p : V3) : snet :=
  match m with
  | [] => [(i, p)]
  | (k, q) :: m' =>
    if lexLt k i then (k, q) :: netSet m' i p
    else if lexLt i k then (i, p) :: (k, q) :: m'
    else (k, p) :: m'
  end.

(** net_[i] as a value: a missing entry is created; [v0] is the content of a
    default constructed point. *)
Definition netRef (v0 : V3) (m : snet) (i : index) : snet * V3 :=
  match netAt m i with Some p => (m, p) | None => (netSet m i v0, v0) end.

(** surface-spatch.cc:26.  The Gamma function is taken as exact; a value above
    LONG_MAX (from 21! on) makes lround unspecified. *)
Fixpoint factorialN (n : nat) : N :=
  match n with O => 1%N | S m => (N.of_nat n * factorialN m)%N end.
Definition fact64 (n : nat) : option N := if (n <=? 20)%nat then Some (factorialN n) else None.

(** surface-spatch.cc:25-33; the product is a size_t. *)
Definition multinomialLoop (s : nat * N) (i : nat) : option (nat * N) :=
  let '(num, den) := s in
  f <- fact64 i ;; Some ((num + i)%nat, (den * f) mod two64)%N.
Definition multinomial (ix : index) : option N :=
  ' (num, den) <- foldM multinomialLoop (0%nat, 1%N) ix ;;
  f <- fact64 num ;;
  if (den =? 0)%N then None else Some (f / den)%N.

(** surface-spatch.cc:35-40. *)
Definition multiBernstein (ix : index) (bc : list R) : option R :=
  m <- multinomial ix ;;
  foldM (fun r i => b <- nth_error bc i ;; k <- nth_error ix i ;; Some (r * b ^ k)) (IZR (Z.of_N m)) (seq 0 (length ix)).

(** surface-spatch.cc:46-48. *)
Definition spSum (m : snet) (bc : list R) : option V3 :=
  foldM (fun p cp => w <- multiBernstein (fst cp) bc ;; Some (p +v snd cp *v w)) vzero m.

(** surface-spatch.cc:42-50, with the class's default coordinates. *)
Definition spEval (eps : R) (d : dom) (m : snet) (uv : V2) : option V3 :=
  bc <- barycentric Wachspress eps d uv ;; spSum m bc.

(** The members n_, depth_ and net_. *)
Record spatch := mkSP { sp_n : nat; sp_depth : nat; sp_net : snet }.
(** surface-spatch.cc:52-57. *)
Definition spInit (n d : nat) : spatch := mkSP n d [].
(** surface-spatch.cc:80-83. *)
Definition spSet (sp : spatch) (i : index) (p : V3) : spatch := mkSP (sp_n sp) (sp_depth sp) (netSet (sp_net sp) i p).

(** surface-spatch.cc:65-71: the walk along one side. *)
Fixpoint sideLoop (v0 : V3) (i ip : nat) (steps : nat) (m : snet) (ix : index) (pv : list V3) : option (snet * list V3) :=
  let '(m', p) := netRef v0 m ix in
  match steps with
  | O => Some (m', pv ++ [p])
  | S t =>
    (* --index[i]; index[i] counts down from depth_ *)
    a <- nth_error ix i ;; ix1 <- upd ix i (a - 1)%nat ;;
    (* ++index[ip] *)
    b <- nth_error ix1 ip ;; ix2 <- upd ix1 ip (b + 1)%nat ;;
    sideLoop v0 i ip t m' ix2 (pv ++ [p])
  end.

(** surface-spatch.cc:61-73: the control points of the curves registered for
    ribbons 0, 1, ...; what follows is the general setupLoop ([SurfaceObj]). *)
Definition spCurves (v0 : V3) (sp : spatch) : option (spatch * list (list V3)) :=
  let n := sp_n sp in
  ' (m, cs) <- foldM (fun s i =>
      let '(m, cs) := s in
      ix <- upd (repeat 0%nat n) i (sp_depth sp) ;;
      ' (m', pv) <- sideLoop v0 i ((i + 1) mod n)%nat (sp_depth sp) m ix [] ;;
      Some (m', cs ++ [pv])) (sp_net sp, []) (seq 0 n) ;;
  Some (mkSP n (sp_depth sp) m, cs).
