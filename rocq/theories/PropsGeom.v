(** Properties of the evaluation parameters: C01, C05, C06, C07, C08. *)

From Coq Require Import ZArith.
From Verif Require Import Base MeshModel MeshSpec MeshProofs MeshProofs4 MeshProofsRing MeshEdge.
From Verif Require Import GeomSpec DomainModel MeshParams MeshGeom MeshGeom2 MeshSqrt.
Open Scope R_scope.

(** C01: one parameter point per mesh vertex. *)
Theorem C01_parameter_count : forall n c vs r, (3 <= n)%nat -> (1 <= r)%nat -> length vs = n ->
  exists ps, parametersImpl n c vs r = Some ps /\ length ps = meshSize n r.
Proof. exact parameters_length. Qed.
Print Assumptions C01_parameter_count.

Theorem C01_parameter_count_circle : forall n r, (1 <= n)%nat -> (1 <= r)%nat ->
  exists ps, parametersImplCircle n r = Some ps /\ length ps = meshSizeCircle n r.
Proof. exact parameters_length_circle. Qed.
Print Assumptions C01_parameter_count_circle.

(** Hence each corner of each triangle has a parameter point, and no
    parameter point is superfluous. *)
Theorem C01_vertices_have_points : forall n c vs r ps, (3 <= n)%nat -> (1 <= r)%nat -> length vs = n ->
  parametersImpl n c vs r = Some ps ->
  (forall t k, In t (meshTopology n r) -> In k (corners t) -> exists p, nth_error ps k = Some p) /\
  (forall k p, nth_error ps k = Some p -> exists t, In t (meshTopology n r) /\ In k (corners t)).
Proof.
  intros n c vs r ps Hn Hr Hl H.
  destruct (parameters_length n c vs r Hn Hr Hl) as (ps' & E & L).
  rewrite H in E; injection E as <-. split.
  - intros [[a b] c'] k Ht Hk. destruct (mesh_proper n r _ Hn Ht) as [(Ha & Hb & Hc) _].
    apply nth_error_ex. rewrite L. simpl in Hk. intuition subst; assumption.
  - intros k p Hp. apply mesh_used; [exact Hn|exact Hr|].
    rewrite <- L. apply nth_error_Some. rewrite Hp; discriminate.
Qed.
Print Assumptions C01_vertices_have_points.

(** Resolution 0 divides by zero on triangular and quadrilateral domains. *)
Theorem C01_resolution_zero : forall c vs,
  parametersImpl 3 c vs 0 = None /\ parametersImpl 4 c vs 0 = None /\
  forall n, (5 <= n)%nat -> parametersImpl n c vs 0 = Some [c].
Proof.
  intros c vs; repeat split.
  - unfold parametersImpl, params3, flat_mapM; simpl. unfold ratio; simpl INR. rewrite fdiv_zero; reflexivity.
  - unfold parametersImpl, params4, flat_mapM; simpl. unfold ratio; simpl INR. rewrite fdiv_zero; reflexivity.
  - intros n Hn; unfold parametersImpl.
    destruct (Nat.eqb_spec n 3); [lia|]. destruct (Nat.eqb_spec n 4); [lia|]. reflexivity.
Qed.
Print Assumptions C01_resolution_zero.

Definition square : list V2 := [mkV2 1 1; mkV2 (-1) 1; mkV2 (-1) (-1); mkV2 1 (-1)].

Example C01_example : exists ps, parametersImpl 4 pzero square 2 = Some ps /\ length ps = 9%nat.
Proof. destruct (C01_parameter_count 4 pzero square 2) as (ps & H & L); try lia; [reflexivity|]. exists ps; auto. Qed.

(** C05: rounding the double square root is exact here.  Indices of a
    triangular mesh are [row * (row + 1) / 2 + col]. *)
Theorem C05_double_sqrt : forall r k, (k < meshSize 3 r)%nat -> (Z.of_nat (8 * k + 9) < 2 ^ 53)%Z ->
  (onEdge rsqrt_double 3 r k = true <->
   exists row col, (col <= row <= r)%nat /\ (2 * k = row * (row + 1) + 2 * col)%nat /\
     (row = r \/ col = 0 \/ col = row)%nat).
Proof. exact onEdge_double. Qed.
Print Assumptions C05_double_sqrt.

(** Together with C04: with double precision square roots onEdge finds
    exactly the vertices of the boundary loop. *)
Theorem C05_double_boundary : forall r, (1 <= r)%nat -> exists L,
  boundary_loop (meshTopology 3 r) (3 * r) L /\
  forall k, (k < meshSize 3 r)%nat -> (Z.of_nat (8 * k + 9) < 2 ^ 53)%Z ->
    (onEdge rsqrt_double 3 r k = true <-> exists p, (p < 3 * r)%nat /\ L p = k).
Proof.
  intros r Hr. exists (mesh_loop 3 r); split; [apply (mesh_boundary 3 r); lia|].
  intros k Hk Hz. apply mesh_onEdge; [lia|exact Hr|exact Hk|].
  intros _ m Hm. apply rsqrt_double_square. lia.
Qed.
Print Assumptions C05_double_boundary.

Example C05_example : onEdge rsqrt_double 3 3 4 = false /\ onEdge rsqrt_double 3 3 5 = true.
Proof.
  split.
  - apply Bool.not_true_is_false. intros H.
    apply C05_double_sqrt in H; [|vm_compute; lia|reflexivity]. destruct H as (row & col & H1 & H2 & H3). destruct row as [|[|[|[|row]]]]; lia.
  - apply C05_double_sqrt; [vm_compute; lia|reflexivity|]. exists 2%nat, 2%nat. lia.
Qed.

(** C06: parameters of onEdge vertices are on the sides, at multiples of 1/r. *)
Theorem C06_edge_parameters : forall rsqrt vs c r ps k, (3 <= length vs)%nat -> (1 <= r)%nat ->
  (length vs = 3%nat -> forall m, (m * m <= 8 * k + 9)%nat -> rsqrt (m * m)%nat = m) ->
  parametersImpl (length vs) c vs r = Some ps -> (k < meshSize (length vs) r)%nat ->
  onEdge rsqrt (length vs) r k = true ->
  exists s i, (s < length vs)%nat /\ (i <= r)%nat /\
    nth_error ps k = Some (vtx vs (prv (length vs) s) *p (1 - INR i / INR r) +p vtx vs s *p (INR i / INR r)).
Proof.
  intros rsqrt vs c r ps k Hn Hr Hq H Hk He.
  apply (mesh_onEdge rsqrt _ _ _ Hn Hr Hk Hq) in He.
  destruct (edge_params vs c r ps k Hn Hr H Hk He) as (s & i & Hs & Hi & E).
  exists s, i. repeat split; try assumption. rewrite E, edgePoint_some by exact Hs.
  f_equal. unfold padd; f_equal; ring.
Qed.
Print Assumptions C06_edge_parameters.

(** Every such point is the parameter of some onEdge vertex, and edgePoint
    computes these points. *)
Theorem C06_edge_parameters_onto : forall vs c r ps s i, (3 <= length vs)%nat -> (1 <= r)%nat ->
  parametersImpl (length vs) c vs r = Some ps -> (s < length vs)%nat -> (i <= r)%nat ->
  exists k, (k < meshSize (length vs) r)%nat /\
    nth_error ps k = edgePoint (length vs) vs s (INR i / INR r) /\
    forall rsqrt, (length vs = 3%nat -> forall m, (m * m <= 8 * k + 9)%nat -> rsqrt (m * m)%nat = m) ->
      onEdge rsqrt (length vs) r k = true.
Proof.
  intros vs c r ps s i Hn Hr H Hs Hi.
  destruct (edge_params_onto vs c r ps s i Hn Hr H Hs Hi) as (p & Hp & E).
  exists (mesh_loop (length vs) r p).
  assert (B : (mesh_loop (length vs) r p < meshSize (length vs) r)%nat).
  { destruct (parameters_length (length vs) c vs r Hn Hr eq_refl) as (ps' & E' & L).
    rewrite H in E'; injection E' as <-. rewrite <- L. apply nth_error_Some.
    rewrite E, edgePoint_some by exact Hs. discriminate. }
  split; [exact B|]. split; [exact E|]. intros rsqrt Hq.
  apply (mesh_onEdge rsqrt _ _ _ Hn Hr B Hq). exists p; auto.
Qed.
Print Assumptions C06_edge_parameters_onto.

(** On a strictly convex polygon the other vertices are strictly inside, so
    on no side. *)
Theorem C06_interior_parameters : forall rsqrt vs c r ps k, (3 <= length vs)%nat -> (1 <= r)%nat ->
  (length vs = 3%nat -> forall m, (m * m <= 8 * k + 9)%nat -> rsqrt (m * m)%nat = m) ->
  parametersImpl (length vs) c vs r = Some ps -> strictly_convex vs -> inside vs c ->
  (k < meshSize (length vs) r)%nat -> onEdge rsqrt (length vs) r k = false ->
  exists q, nth_error ps k = Some q /\ inside vs q /\
    forall s t, (s < length vs)%nat ->
      q <> vtx vs (prv (length vs) s) *p (1 - t) +p vtx vs s *p t.
Proof.
  intros rsqrt vs c r ps k Hn Hr Hq H Hc Hin Hk He.
  destruct (interior_params vs c r ps k Hn Hr H Hc Hin Hk) as (q & Eq & Hi).
  { intros Hx. apply (mesh_onEdge rsqrt _ _ _ Hn Hr Hk Hq) in Hx. congruence. }
  exists q. split; [exact Eq|]. split; [exact Hi|]. intros s t Hs E.
  specialize (Hi s Hs). rewrite E in Hi. unfold sarea, pcross, psub, padd, pscale in Hi; simpl in Hi. nra.
Qed.
Print Assumptions C06_interior_parameters.

Example C06_example : exists ps, parametersImpl 4 pzero square 2 = Some ps /\
  nth_error ps 1 = Some (mkV2 1 0).
Proof.
  destruct (C01_parameter_count 4 pzero square 2) as (ps & H & L); try lia; [reflexivity|].
  exists ps; split; [exact H|].
  unfold parametersImpl in H; simpl in H.
  revert H. rewrite params4_closed; [|reflexivity|lia].
  intros H; injection H as <-. simpl nth_error. f_equal. unfold pt4, vtx, square; simpl.
  apply V2_ext; simpl; lra.
Qed.

(** C07: all parameters are convex combinations of the vertices. *)
Theorem C07_parameters_in_hull : forall vs d r ps p, (3 <= length vs)%nat -> (1 <= r)%nat ->
  domainUpdate vs = Some d ->
  parametersImpl (d_n d) (d_center d) (d_verts d) r = Some ps -> In p ps -> in_hull vs p.
Proof.
  intros vs d r ps p Hn Hr Hd. unfold domainUpdate in Hd.
  destruct (computeCenter vs) as [c|] eqn:Ec; simpl in Hd; [|discriminate].
  unfold domainFrames in Hd. destruct (mapM _ _); simpl in Hd; [|discriminate]. injection Hd as <-.
  cbn [d_n d_center d_verts]. apply params_in_hull; [exact Hn|exact Hr|].
  intros _ _. apply center_in_hull; exact Ec.
Qed.
Print Assumptions C07_parameters_in_hull.

(** The centre exists exactly when the polygon has positive perimeter. *)
Theorem C07_center : forall vs,
  (exists c, computeCenter vs = Some c) <-> perimeter vs <> 0.
Proof.
  intros vs; split.
  - intros [c H] E. rewrite computeCenter_none in H by exact E; discriminate.
  - intros H; eexists; apply computeCenter_closed; exact H.
Qed.
Print Assumptions C07_center.

Example C07_example : strictly_convex square /\ in_hull square (mkV2 (1/2) 0).
Proof.
  split.
  - intros k i Hk Hi Hik Hip. simpl in Hk, Hi.
    do 4 (try destruct k as [|k]); try lia; do 4 (try destruct i as [|i]); try lia;
      try (exfalso; apply Hip; reflexivity); unfold sarea, pcross, psub, vtx; simpl; lra.
  - exists (fun i => match i with 0%nat => 3/8 | 1%nat => 1/8 | 2%nat => 1/8 | _ => 3/8 end). split; [split|].
    + intros i _. destruct i as [|[|[|i]]]; lra.
    + simpl; lra.
    + unfold combination, vtx; simpl. apply V2_ext; simpl; lra.
Qed.

(** C08: no triangle is flipped. *)
Theorem C08_no_flipped_triangles : forall vs d r ps a b c, (3 <= length vs)%nat -> (1 <= r)%nat ->
  strictly_convex vs -> domainUpdate vs = Some d ->
  parametersImpl (d_n d) (d_center d) (d_verts d) r = Some ps ->
  In (a, b, c) (meshTopology (d_n d) r) -> exists p q s,
  nth_error ps a = Some p /\ nth_error ps b = Some q /\ nth_error ps c = Some s /\ 0 < sarea p q s.
Proof.
  intros vs d r ps a b c Hn Hr Hc Hd. unfold domainUpdate in Hd.
  destruct (computeCenter vs) as [cen|] eqn:Ec; simpl in Hd; [|discriminate].
  unfold domainFrames in Hd. destruct (mapM _ _); simpl in Hd; [|discriminate]. injection Hd as <-.
  cbn [d_n d_center d_verts]. intros H. apply (mesh_orientation vs cen r ps); try assumption; intros _.
  - exact Hc.
  - apply center_inside; assumption.
Qed.
Print Assumptions C08_no_flipped_triangles.

(** With five or more sides it is enough that the centre sees all sides
    counter-clockwise; the polygon need not be convex. *)
Theorem C08_no_flipped_triangles_star : forall vs cen r ps a b c, (5 <= length vs)%nat -> (1 <= r)%nat ->
  parametersImpl (length vs) cen vs r = Some ps -> inside vs cen ->
  In (a, b, c) (meshTopology (length vs) r) -> exists p q s,
  nth_error ps a = Some p /\ nth_error ps b = Some q /\ nth_error ps c = Some s /\ 0 < sarea p q s.
Proof.
  intros vs cen r ps a b c Hn Hr H Hin. apply (mesh_orientation vs cen r ps a b c); try lia; try assumption.
  intros _; exact Hin.
Qed.
Print Assumptions C08_no_flipped_triangles_star.

Example C08_example : exists d, domainUpdate square = Some d /\ strictly_convex square.
Proof.
  destruct (computeCenter_exists square) as (c & Hc); [simpl; lia|apply C07_example|].
  unfold domainUpdate; rewrite Hc; simpl. unfold domainFrames; simpl.
  eexists; split; [reflexivity|apply C07_example].
Qed.
