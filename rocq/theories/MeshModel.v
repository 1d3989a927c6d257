(** Mesh layouts of polygonal and circular domains: sizes, topology, edge
    classification and parameter lists.
    Models src/transfinite/domain.cc and src/transfinite/domain-circle.cc.
    [size_t] is [nat]; overflow of [meshSize] for astronomically large
    resolutions is treated separately in [meshSize64]. *)

From Verif Require Import Base.
From Coq Require Import NArith.

(** A triangle of TriMesh: three vertex indices in the order passed to
    addTriangle. *)
Definition tri : Type := (nat * nat * nat)%type.

Open Scope nat_scope.

(** Domain::meshSize, domain.cc:85-92 *)
Definition meshSize (n r : nat) : nat :=
  if n =? 3 then (r + 1) * (r + 2) / 2
  else if n =? 4 then (r + 1) * (r + 1)
  else 1 + n * r * (r + 1) / 2.

(** DomainCircle::meshSize, domain-circle.cc:15-18 *)
Definition meshSizeCircle (n r : nat) : nat := 1 + n * r * (r + 1) / 2.

(** Domain::meshTopology, triangular branch, domain.cc:168-178.
    The inner loop over [j] (lines 171-174). *)
Definition tri3_row (prev current i : nat) : list tri :=
  flat_map (fun j => [ (current + j, current + j + 1, prev + j);
                       (current + j + 1, prev + j + 1, prev + j) ]) (seq 0 i)
  ++ [ (current + i, current + i + 1, prev + i) ].

(** Outer loop (lines 170-178); [m] rows remain, the next row is [i];
    [prev] and [current] are the loop-carried variables. *)
Fixpoint tri3_rows (m i prev current : nat) : list tri :=
  match m with
  | O => []
  | S m' => tri3_row prev current i ++ tri3_rows m' (i + 1) current (current + (i + 2))
  end.

Definition topology3 (r : nat) : list tri := tri3_rows r 0 0 1.

(** Quadrangular branch, domain.cc:179-185 *)
Definition topology4 (r : nat) : list tri :=
  flat_map (fun i =>
    flat_map (fun j =>
      let index := i * (r + 1) + j in
      [ (index, index + r + 1, index + 1);
        (index + 1, index + r + 1, index + r + 2) ]) (seq 0 r)) (seq 0 r).

(** General branch, domain.cc:186-205 (identical code in
    domain-circle.cc:43-60).  The [while(true)] loop, lines 191-201: [k]
    bounds the remaining iterations (it is called with [k = layer], the loop
    leaves through the [break]).  [last] is [side == n_ - 1].  Returns the
    triangles added and the final [inner_vert], [outer_vert]. *)
Fixpoint ring_while (k : nat) (last : bool) (layer inner_start outer_start : nat)
    (vert inner_vert outer_vert : nat) : list tri * nat * nat :=
  match k with
  | O => ([], inner_vert, outer_vert)
  | S k' =>
    let next_vert := if last && (vert =? layer - 1) then outer_start else outer_vert + 1 in
    let t1 := (inner_vert, outer_vert, next_vert) in
    let outer_vert' := outer_vert + 1 in
    let vert' := vert + 1 in
    if vert' =? layer then ([t1], inner_vert, outer_vert')
    else
      let inner_next := if last && (vert' =? layer - 1) then inner_start else inner_vert + 1 in
      let t2 := (inner_vert, next_vert, inner_next) in
      let '(ts, iv, ov) :=
        ring_while k' last layer inner_start outer_start vert' inner_next outer_vert' in
      (t1 :: t2 :: ts, iv, ov)
  end.

(** The loop over sides, lines 190-202; [m] sides remain. *)
Fixpoint ring_sides (m n side layer inner_start outer_start inner_vert outer_vert : nat)
    : list tri * nat :=
  match m with
  | O => ([], outer_vert)
  | S m' =>
    let '(ts, iv, ov) :=
      ring_while layer (side =? n - 1) layer inner_start outer_start 0 inner_vert outer_vert in
    let '(ts', ov') := ring_sides m' n (side + 1) layer inner_start outer_start iv ov in
    (ts ++ ts', ov')
  end.

(** The loop over layers, lines 188-204; [m] layers remain. *)
Fixpoint ring_layers (m n layer inner_start outer_vert : nat) : list tri :=
  match m with
  | O => []
  | S m' =>
    let '(ts, ov) :=
      ring_sides n n 0 layer inner_start outer_vert inner_start outer_vert in
    ts ++ ring_layers m' n (layer + 1) outer_vert ov
  end.

Definition topologyRing (n r : nat) : list tri := ring_layers r n 1 0 1.

(** Domain::meshTopology, domain.cc:163-207 *)
Definition meshTopology (n r : nat) : list tri :=
  if n =? 3 then topology3 r else if n =? 4 then topology4 r else topologyRing n r.

(** DomainCircle::meshTopology, domain-circle.cc:39-62 *)
Definition meshTopologyCircle (n r : nat) : list tri := topologyRing n r.

(** Domain::onEdge, domain.cc:144-161.  [rsqrt n] is the value of
    [std::round(std::sqrt(n))]. *)
Definition issquare (rsqrt : nat -> nat) (n : nat) : bool := rsqrt n * rsqrt n =? n.

Definition onEdge (rsqrt : nat -> nat) (n r index : nat) : bool :=
  if n =? 3 then
    if meshSize n r - r - 1 <=? index then true
    else let m := index * 8 + 1 in issquare rsqrt m || issquare rsqrt (m + 8)
  else if n =? 4 then
    (index <=? r) || ((r + 1) * r <=? index)
    || (index mod (r + 1) =? 0) || (index mod (r + 1) =? r)
  else meshSize n r - n * r <=? index.

(** DomainCircle::onEdge, domain-circle.cc:64-68 *)
Definition onEdgeCircle (n r index : nat) : bool := meshSizeCircle n r - n * r <=? index.

(** Parameter lists.  A failing access or division makes the result [None]. *)
Definition flat_mapM {A B : Type} (f : A -> option (list B)) (l : list A) : option (list B) :=
  ls <- mapM f l ;; Some (concat ls).

(** [(double)j / resolution] *)
Definition ratio (j r : nat) : option R := fdiv (INR j) (INR r).

Section Params.
Open Scope R_scope.
Variable n : nat.
Variable center : V2.
Variable vertices : list V2.

Definition vertex (i : nat) : option V2 := nth_error vertices i.

(** Domain::parametersImpl, triangular branch, domain.cc:108-117 *)
Definition params3 (r : nat) : option (list V2) :=
  flat_mapM (fun j =>
    u <- ratio j r ;;
    v0 <- vertex 0 ;; v1 <- vertex 1 ;; v2 <- vertex 2 ;;
    let p := v0 *p u +p v2 *p (1 - u) in
    let q := v1 *p u +p v2 *p (1 - u) in
    mapM (fun k =>
      v <- (if (j =? 0)%nat then Some 1 else ratio k j) ;;
      Some (p *p (1 - v) +p q *p v)) (seq 0 (j + 1))) (seq 0 (r + 1)).

(** Quadrangular branch, domain.cc:118-127 *)
Definition params4 (r : nat) : option (list V2) :=
  flat_mapM (fun j =>
    u <- ratio j r ;;
    v0 <- vertex 0 ;; v1 <- vertex 1 ;; v2 <- vertex 2 ;; v3 <- vertex 3 ;;
    let p := v0 *p (1 - u) +p v1 *p u in
    let q := v3 *p (1 - u) +p v2 *p u in
    mapM (fun k =>
      v <- ratio k r ;;
      Some (p *p (1 - v) +p q *p v)) (seq 0 (r + 1))) (seq 0 (r + 1)).

(** General branch, domain.cc:128-140 *)
Definition paramsRing (r : nat) : option (list V2) :=
  rest <- flat_mapM (fun j =>
    u <- ratio j r ;;
    flat_mapM (fun k =>
      mapM (fun i =>
        v <- ratio i j ;;
        vp <- vertex (prv n k) ;; vk <- vertex k ;;
        let ep := vp *p (1 - v) +p vk *p v in
        Some (center *p (1 - u) +p ep *p u)) (seq 0 j)) (seq 0 n)) (seq 1 r) ;;
  Some (center :: rest).

(** Domain::parametersImpl, domain.cc:103-142 *)
Definition parametersImpl (r : nat) : option (list V2) :=
  if (n =? 3)%nat then params3 r else if (n =? 4)%nat then params4 r else paramsRing r.

(** DomainCircle::parametersImpl, domain-circle.cc:21-36: polar coordinates
    (radius, angle). *)
Definition parametersImplCircle (r : nat) : option (list V2) :=
  rest <- flat_mapM (fun j =>
    rad <- ratio j r ;;
    flat_mapM (fun k =>
      mapM (fun i =>
        v <- ratio i j ;;
        phi <- fdiv ((INR k + v) * 2 * PI) (INR n) ;;
        Some (mkV2 rad phi)) (seq 0 j)) (seq 0 n)) (seq 1 r) ;;
  Some (mkV2 0 0 :: rest).

(** Domain::edgePoint, domain.cc:214-217 *)
Definition edgePoint (i : nat) (s : R) : option V2 :=
  vi <- vertex i ;; vp <- vertex (prv n i) ;;
  Some (vi *p s +p vp *p (1 - s)).

(** DomainCircle::edgePoint, domain-circle.cc:75-78 *)
Definition edgePointCircle (i : nat) (s : R) : option V2 :=
  phi <- fdiv ((INR i + s) * 2 * PI) (INR n) ;; Some (mkV2 1 phi).

End Params.

(** Domain::meshSize evaluated in 64-bit unsigned arithmetic
    (domain.cc:85-92), every operation reduced modulo 2^64. *)
Open Scope N_scope.
Definition w64 (x : N) : N := x mod 2 ^ 64.
Definition meshSize64 (n r : N) : N :=
  if n =? 3 then w64 (w64 (r + 1) * w64 (r + 2)) / 2
  else if n =? 4 then w64 (w64 (r + 1) * w64 (r + 1))
  else w64 (1 + w64 (w64 (n * r) * w64 (r + 1)) / 2).
