(** Properties of harmonic and biharmonic patches: C56, C57. *)
From Verif Require Import Base MeshModel MeshSpec MeshEdge MeshGeom MeshGeom2 GeomSpec UtilModel DomainModel DomainProofs DomainPolygons MeshParams.
From Verif Require Import ParamModel ParamMaps ParamBary PropsDomain PropsGeom PropsParam.
From Verif Require Import LinAlg HarmonicModel FEMSpec FEMProofs FEMSolve FEMVoronoi FEMBiharm FEMPatch FEMPatch2 LinSolve.
Open Scope R_scope.

(** ** C57: the cotangent matrix and the Voronoi areas *)

(** All indices of the triangles are valid, and no triangle is degenerate. *)
Definition nondegenerate (P : list V3) (ts : list triangle) : Prop :=
  forall a b c, In (a, b, c) ts -> exists p q s, nth_error P a = Some p /\ nth_error P b = Some q /\ nth_error P c = Some s /\ vcross (q -v p) (s -v p) <> vzero.

(** Squared gradient of the linear interpolant on each triangle in space,
    times its area, summed. *)
Fixpoint energy3 (P : list V3) (x : nat -> R) (ts : list triangle) : R :=
  match ts with
  | [] => 0
  | (a, b, c) :: ts =>
    let p := nth a P vzero in let q := nth b P vzero in let s := nth c P vzero in
    vnorm2 ((s -v p) *v (x b - x a) -v (q -v p) *v (x c - x a)) / (2 * vnorm (vcross (q -v p) (s -v p))) + energy3 P x ts
  end.

Lemma nondegenerate_use : forall P ts, nondegenerate P ts -> forall a b c, In (a, b, c) ts ->
  (a < length P /\ b < length P /\ c < length P)%nat /\ vcross (at3 P b -v at3 P a) (at3 P c -v at3 P a) <> vzero.
Proof.
  intros P ts H a b c Ht. destruct (H a b c Ht) as (p & q & s & E1 & E2 & E3 & D). unfold at3. rewrite (nth_error_nth _ _ _ E1), (nth_error_nth _ _ _ E2), (nth_error_nth _ _ _ E3).
  split; [|exact D]. repeat split; apply nth_error_Some; congruence.
Qed.

(** The matrix exists exactly for such meshes, in both files it is the same,
    it is symmetric, its rows add up to zero, and its quadratic form is the
    Dirichlet energy. *)
Theorem C57_laplacian : forall P ts, nondegenerate P ts -> (forall a b c, In (a, b, c) ts -> a <> b /\ b <> c /\ c <> a) ->
  exists A, laplacian cotsH P ts = Some A /\ laplacian cotsB P ts = Some A /\
    (forall i j, A i j = A j i) /\ (forall i, rsum (length P) (fun j => A i j) = 0) /\
    forall x, rsum (length P) (fun i => x i * rsum (length P) (fun j => A i j * x j)) = energy3 P x ts /\ 0 <= energy3 P x ts.
Proof.
  intros P ts ND PR. pose proof (nondegenerate_use P ts ND) as U.
  destruct (laplacian_value cotsH P ts (wq P)) as (A & EA & VA).
  { intros a b c Ht. destruct (U a b c Ht) as [L D]. split; [exact L|]. apply cotsH_some. exact D. }
  assert (EB : laplacian cotsB P ts = Some A).
  { rewrite <- EA. unfold laplacian. generalize mzero. clear EA VA PR ND. induction ts as [|[[a b] c] ts IH]; intros M; [reflexivity|]. cbn [foldM].
    destruct (U a b c (or_introl eq_refl)) as [(L1 & L2 & L3) D]. rewrite !at3_some by assumption. cbn [bind]. rewrite (cotsH_some _ _ _ D), (cotsB_some _ _ _ D). cbn [bind].
    apply IH. intros a' b' c' Ht. apply U. right. exact Ht. }
  assert (PT : forall t, In t ts -> proper_triangle (length P) t).
  { intros [[a b] c] Ht. destruct (U a b c Ht) as [L _]. split; [exact L|]. apply PR; exact Ht. }
  exists A. split; [exact EA|]. split; [exact EB|]. split; [exact (A_sym ts (wq P) A VA)|]. split.
  - intros i. rewrite <- (A_const (length P) ts (wq P) A PT VA 1 i). apply rsum_ext. intros; ring.
  - intros x.
    assert (G : forall l, (forall t, In t l -> In t ts) -> energy3 P x l = lsum (fun t => tform t (wq P t) x x) l /\ 0 <= energy3 P x l).
    { induction l as [|[[a b] c] l IH]; intros Hl; cbn [energy3 lsum]; [split; [reflexivity|lra]|].
      destruct (IH ltac:(intros t Ht; apply Hl; right; exact Ht)) as [E1 E2].
      destruct (U a b c (Hl _ (or_introl eq_refl))) as [_ D]. pose proof (wcots_half _ _ _ D) as W. pose proof (tform_square _ _ _ _ a b c x W) as F. pose proof (tform_nonneg _ _ _ _ a b c x W) as F0.
      change (nth a P vzero) with (at3 P a). change (nth b P vzero) with (at3 P b). change (nth c P vzero) with (at3 P c).
      rewrite <- F. pose proof (vnorm_pos _ D) as V. change (wq P (a, b, c)) with (wcots (at3 P a) (at3 P b) (at3 P c)).
      set (q := tform (a, b, c) (wcots (at3 P a) (at3 P b) (at3 P c)) x x) in *. set (v := vnorm (vcross (at3 P b -v at3 P a) (at3 P c -v at3 P a))) in *.
      replace (q * (2 * v) / (2 * v)) with q by (field; lra). rewrite E1 in *. split; [reflexivity|lra]. }
    destruct (G ts (fun t H => H)) as [E1 E2]. split; [|exact E2]. rewrite E1. exact (A_form (length P) ts (wq P) A PT VA x x).
Qed.
Print Assumptions C57_laplacian.

(** A degenerate triangle or a wrong index is a failure. *)
Theorem C57_laplacian_degenerate : forall P ts, ~ nondegenerate P ts -> laplacian cotsH P ts = None /\ laplacian cotsB P ts = None.
Proof.
  intros P ts H.
  assert (G : forall cots, (forall p q s, vcross (q -v p) (s -v p) = vzero -> cots p q s = None) -> laplacian cots P ts = None).
  { intros cots Hc. destruct (laplacian cots P ts) as [A|] eqn:E; [exfalso|reflexivity]. apply H. intros a b c Ht.
    assert (F : forall A0, (p1 <- nth_error P a ;; p2 <- nth_error P b ;; p3 <- nth_error P c ;; w <- cots p1 p2 p3 ;; Some (addTri A0 (a, b, c) w)) = None -> False).
    { intros A0 F. unfold laplacian in E. rewrite (foldM_none _ _ _ ts (a, b, c) Ht) in E; [discriminate|]. intros A1.
      destruct (nth_error P a); [|reflexivity]. destruct (nth_error P b); [|reflexivity]. destruct (nth_error P c); [|reflexivity]. cbn [bind] in *.
      destruct (cots _ _ _); [discriminate|reflexivity]. }
    destruct (nth_error P a) as [p|] eqn:E1; [|exfalso; apply (F mzero); reflexivity].
    destruct (nth_error P b) as [q|] eqn:E2; [|exfalso; apply (F mzero); reflexivity].
    destruct (nth_error P c) as [s|] eqn:E3; [|exfalso; apply (F mzero); reflexivity].
    exists p, q, s. repeat split; try reflexivity. intros Z. apply (F mzero). cbn [bind]. rewrite (Hc p q s Z). reflexivity. }
  split; apply G; intros p q s Z; apply (cots_degenerate p q s Z).
Qed.
Print Assumptions C57_laplacian_degenerate.

(** Functions that are linear in the plane are harmonic at all vertices that
    are not on the boundary. *)
Theorem C57_linear : forall n ts (ps : list V2) bnd A, length ps = n -> plane_mesh n ts (fun k => nth k ps pzero) (fun k => In k bnd) ->
  laplacian cotsH (map from2D ps) ts = Some A ->
  forall u v w i, (i < n)%nat -> ~ In i bnd -> rsum n (fun j => A i j * (u * px (nth j ps pzero) + v * py (nth j ps pzero) + w)) = 0.
Proof.
  intros n ts ps bnd A Hl M EA u v w i Hi Nb.
  assert (QA : forall k, at3 (map from2D ps) k = from2D (nth k ps pzero)) by (intros k; unfold at3; change vzero with (from2D pzero); apply map_nth).
  assert (D : forall a b c, In (a, b, c) ts -> twice_area (at3 (map from2D ps) a) (at3 (map from2D ps) b) (at3 (map from2D ps) c) = sarea (nth a ps pzero) (nth b ps pzero) (nth c ps pzero)).
  { intros a b c Ht. rewrite !QA. apply flat_area. exact (proj1 (proj2 (proj2 M)) a b c Ht). }
  assert (ND : forall a b c, In (a, b, c) ts -> twice_area (at3 (map from2D ps) a) (at3 (map from2D ps) b) (at3 (map from2D ps) c) <> 0).
  { intros a b c Ht. rewrite D by exact Ht. pose proof (proj1 (proj2 (proj2 M)) a b c Ht). cbn beta in *. lra. }
  assert (LQ : length (map from2D ps) = n) by (rewrite map_length; exact Hl).
  destruct (laplacianH_value ts (fun k => nth k ps pzero) bnd (map from2D ps) ltac:(rewrite LQ; exact M) ND) as (A' & EA' & VA). rewrite EA in EA'. injection EA' as <-.
  rewrite <- (linear_precision n ts (fun k => nth k ps pzero) bnd M (at3 (map from2D ps)) (wq (map from2D ps)) A (wq_half ts (map from2D ps) ND) VA (mkV3 0 0 1) (mkV3 u v 0) w) with (i := i); [| |exact Hi|exact Nb].
  - apply rsum_ext. intros j _. rewrite QA. unfold from2D, vdot; cbn [vx vy vz]. ring.
  - intros a b c Ht. fold (twice_area (at3 (map from2D ps) a) (at3 (map from2D ps) b) (at3 (map from2D ps) c)). rewrite D by exact Ht. rewrite !QA, flat_cross.
    apply V3_ext; cbn [vx vy vz vscale]; ring.
Qed.
Print Assumptions C57_linear.

(** The three areas of a triangle are positive and add up to its area. *)
Theorem C57_voronoi_sum : forall p1 p2 p3, vcross (p2 -v p1) (p3 -v p1) <> vzero ->
  exists x1 x2 x3, voronoiArea p1 p2 p3 = Some x1 /\ voronoiArea p2 p3 p1 = Some x2 /\ voronoiArea p3 p1 p2 = Some x3 /\
    0 < x1 /\ 0 < x2 /\ 0 < x3 /\ x1 + x2 + x3 = vnorm (vcross (p2 -v p1) (p3 -v p1)) / 2.
Proof.
  intros p1 p2 p3 D. assert (N1 : twice_area p1 p2 p3 <> 0) by (intros Z; apply D, vnorm_zero; exact Z).
  assert (N2 : twice_area p2 p3 p1 <> 0) by (rewrite twice_area_rot; exact N1).
  assert (N3 : twice_area p3 p1 p2 <> 0) by (rewrite twice_area_rot; exact N2).
  exists (vor p1 p2 p3), (vor p2 p3 p1), (vor p3 p1 p2). repeat split; try (apply voronoi_some; assumption); try (apply vor_pos; assumption).
  exact (vor_sum p1 p2 p3 N1).
Qed.
Print Assumptions C57_voronoi_sum.

(** Over a mesh the areas are positive and add up to the area of the mesh. *)
Fixpoint mesh_area (P : list V3) (ts : list triangle) : R :=
  match ts with [] => 0 | (a, b, c) :: ts => vnorm (vcross (nth b P vzero -v nth a P vzero) (nth c P vzero -v nth a P vzero)) / 2 + mesh_area P ts end.

Theorem C57_voronoi_areas : forall P ts, nondegenerate P ts -> (forall a b c, In (a, b, c) ts -> a <> b /\ b <> c /\ c <> a) ->
  (forall k, (k < length P)%nat -> exists t, In t ts /\ In k (corners t)) ->
  exists ar, voronoiAreas P ts = Some ar /\ (forall k, (k < length P)%nat -> 0 < ar k) /\ rsum (length P) ar = mesh_area P ts.
Proof.
  intros P ts ND PR US. pose proof (nondegenerate_use P ts ND) as U.
  assert (T : forall a b c, In (a, b, c) ts -> twice_area (at3 P a) (at3 P b) (at3 P c) <> 0).
  { intros a b c Ht Z. apply (proj2 (U a b c Ht)), vnorm_zero. exact Z. }
  destruct (areas_value P ts) as (ar & EA & VA). { intros a b c Ht. split; [apply (U a b c Ht)|apply T; exact Ht]. }
  exists ar. split; [exact EA|]. split.
  - intros k Hk. rewrite VA. apply areas_pos; [exact T|apply US; exact Hk].
  - rewrite (rsum_ext _ ar (fun k => lsum (fun t => tvor (at3 P) t k) ts)) by (intros; apply VA).
    rewrite (areas_total (length P) (at3 P) ts); [|intros [[a b] c] Ht; split; [apply (U a b c Ht)|apply PR; exact Ht]|exact T].
    clear. induction ts as [|[[a b] c] ts IH]; cbn [lsum mesh_area]; [reflexivity|]. rewrite IH. reflexivity.
Qed.
Print Assumptions C57_voronoi_areas.

(** What the areas are.  [m12] and [m13] are the midpoints at [p1]. Without
    an obtuse angle the region is the quadrilateral between [p1], the
    midpoints and the centre of the circumscribed circle; with an obtuse angle
    at [p3] it is the triangle cut off by the bisector of [p1] and [p3]; with
    an obtuse angle at [p1] it is what the other two leave. *)
Definition area3 (p q s : V3) : R := vnorm (vcross (q -v p) (s -v p)) / 2.
Definition midpoint (p q : V3) : V3 := (p +v q) *v (/ 2).

Lemma area_scaled : forall p q s p' q' s' h, 0 <= h -> vcross (q' -v p') (s' -v p') = vcross (q -v p) (s -v p) *v h -> area3 p' q' s' = h * area3 p q s.
Proof.
  intros p q s p' q' s' h Hh E. unfold area3. rewrite E. unfold vnorm, vnorm2.
  replace (vdot (vcross (q -v p) (s -v p) *v h) (vcross (q -v p) (s -v p) *v h)) with (vdot (vcross (q -v p) (s -v p)) (vcross (q -v p) (s -v p)) * (h * h)) by (unfold vdot; cbn [vx vy vz vscale]; ring).
  rewrite sqrt_mult_alt by (unfold vdot; nra). rewrite (sqrt_square h Hh). unfold Rdiv. ring.
Qed.

Theorem C57_voronoi_region : forall p1 p2 p3, vcross (p2 -v p1) (p3 -v p1) <> vzero ->
  let obtuse p q r := vdot (q -v p) (r -v p) < 0 in
  (~ obtuse p1 p2 p3 -> ~ obtuse p2 p3 p1 -> ~ obtuse p3 p1 p2 ->
    exists o w1 w2 w3, 0 <= w1 /\ 0 <= w2 /\ 0 <= w3 /\ w1 + w2 + w3 = 1 /\ o = p1 *v w1 +v p2 *v w2 +v p3 *v w3 /\
      vnorm2 (o -v p1) = vnorm2 (o -v p2) /\ vnorm2 (o -v p1) = vnorm2 (o -v p3) /\
      voronoiArea p1 p2 p3 = Some (area3 p1 (midpoint p1 p2) o + area3 p1 o (midpoint p1 p3))) /\
  (obtuse p3 p1 p2 -> exists x t, 0 <= t <= 1 /\ x = p1 *v (1 - t) +v p2 *v t /\ vnorm2 (x -v p1) = vnorm2 (x -v p3) /\
      voronoiArea p1 p2 p3 = Some (area3 p1 x (midpoint p1 p3))) /\
  (obtuse p2 p3 p1 -> exists x t, 0 <= t <= 1 /\ x = p1 *v (1 - t) +v p3 *v t /\ vnorm2 (x -v p1) = vnorm2 (x -v p2) /\
      voronoiArea p1 p2 p3 = Some (area3 p1 (midpoint p1 p2) x)) /\
  (obtuse p1 p2 p3 -> exists x2 x3, voronoiArea p2 p3 p1 = Some x2 /\ voronoiArea p3 p1 p2 = Some x3 /\
      voronoiArea p1 p2 p3 = Some (area3 p1 p2 p3 - x2 - x3)).
Proof.
  intros p1 p2 p3 D obtuse. assert (N1 : twice_area p1 p2 p3 <> 0) by (intros Z; apply D, vnorm_zero; exact Z).
  pose proof (triangle_products p1 p2 p3 N1) as (S0 & Hab & Hac & Hbc & SS).
  set (S := twice_area p1 p2 p3) in *. set (da := d1 p1 p2 p3) in *. set (db := d1 p2 p3 p1) in *. set (dc := d1 p3 p1 p2) in *.
  assert (V12 : vnorm2 (p2 -v p1) = da + db) by (unfold da, db, d1, vnorm2, vdot; cbn [vx vy vz vsub]; ring).
  assert (V13 : vnorm2 (p3 -v p1) = da + dc) by (unfold da, dc, d1, vnorm2, vdot; cbn [vx vy vz vsub]; ring).
  assert (AR : area3 p1 p2 p3 = S / 2) by reflexivity.
  split; [|split; [|split]].
  - intros O1 O2 O3. unfold obtuse in O1, O2, O3. fold (d1 p1 p2 p3) in O1. fold (d1 p2 p3 p1) in O2. fold (d1 p3 p1 p2) in O3. fold da in O1. fold db in O2. fold dc in O3.
    set (w2 := (da + dc) * db / (2 * (S * S))). set (w3 := (da + db) * dc / (2 * (S * S))).
    assert (SP : 0 < 2 * (S * S)) by nra.
    assert (W1 : 1 - w2 - w3 = (db + dc) * da / (2 * (S * S))).
    { apply (Rmult_eq_reg_r (2 * (S * S))); [|lra]. unfold w2, w3. replace ((1 - (da + dc) * db / (2 * (S * S)) - (da + db) * dc / (2 * (S * S))) * (2 * (S * S))) with (2 * (S * S) - (da + dc) * db - (da + db) * dc) by (field; lra).
      replace ((db + dc) * da / (2 * (S * S)) * (2 * (S * S))) with ((db + dc) * da) by (field; lra). rewrite SS. ring. }
    assert (P2 : 0 <= w2) by (apply Rmult_le_pos; [nra|apply Rlt_le, Rinv_0_lt_compat; exact SP]).
    assert (P3 : 0 <= w3) by (apply Rmult_le_pos; [nra|apply Rlt_le, Rinv_0_lt_compat; exact SP]).
    assert (P1 : 0 <= 1 - w2 - w3) by (rewrite W1; apply Rmult_le_pos; [nra|apply Rlt_le, Rinv_0_lt_compat; exact SP]).
    set (o := p1 *v (1 - w2 - w3) +v p2 *v w2 +v p3 *v w3).
    exists o, (1 - w2 - w3), w2, w3. split; [exact P1|]. split; [exact P2|]. split; [exact P3|]. split; [ring|]. split; [reflexivity|].
    assert (E2 : w2 * (2 * (S * S)) = (da + dc) * db) by (unfold w2; field; lra).
    assert (E3 : w3 * (2 * (S * S)) = (da + db) * dc) by (unfold w3; field; lra).
    assert (Q2 : 2 * (w2 * (da + db) + w3 * da) = da + db).
    { apply (Rmult_eq_reg_r (S * S)); [|nra]. replace (2 * (w2 * (da + db) + w3 * da) * (S * S)) with (w2 * (2 * (S * S)) * (da + db) + w3 * (2 * (S * S)) * da) by ring. rewrite E2, E3, SS. ring. }
    assert (Q3 : 2 * (w3 * (da + dc) + w2 * da) = da + dc).
    { apply (Rmult_eq_reg_r (S * S)); [|nra]. replace (2 * (w3 * (da + dc) + w2 * da) * (S * S)) with (w3 * (2 * (S * S)) * (da + dc) + w2 * (2 * (S * S)) * da) by ring. rewrite E2, E3, SS. ring. }
    assert (DI : forall p, vnorm2 (o -v p1) - vnorm2 (o -v p) = 2 * vdot (o -v p1) (p -v p1) - vnorm2 (p -v p1)) by (intros p; unfold vnorm2, vdot; cbn [vx vy vz vsub]; ring).
    assert (O12 : vdot (o -v p1) (p2 -v p1) = w2 * (da + db) + w3 * da).
    { rewrite <- V12. unfold o, da, d1, vnorm2, vdot; cbn [vx vy vz vsub vadd vscale]; ring. }
    assert (O13 : vdot (o -v p1) (p3 -v p1) = w3 * (da + dc) + w2 * da).
    { rewrite <- V13. unfold o, da, d1, vnorm2, vdot; cbn [vx vy vz vsub vadd vscale]; ring. }
    split; [pose proof (DI p2) as DD; rewrite O12, V12 in DD; lra|]. split; [pose proof (DI p3) as DD; rewrite O13, V13 in DD; lra|].
    rewrite voronoi_some by exact N1. f_equal. unfold vor. fold S da db dc.
    destruct (Rlt_dec dc 0); [lra|]. destruct (Rlt_dec db 0); [lra|]. destruct (Rlt_dec da 0); [lra|].
    rewrite (area_scaled p1 p2 p3 p1 (midpoint p1 p2) o (w3 / 2)), (area_scaled p1 p2 p3 p1 o (midpoint p1 p3) (w2 / 2)), AR.
    + unfold w2, w3. clearbody S da db dc. field. lra.
    + lra.
    + unfold o, midpoint. apply V3_ext; cbn [vx vy vz vcross vsub vadd vscale]; field.
    + lra.
    + unfold o, midpoint. apply V3_ext; cbn [vx vy vz vcross vsub vadd vscale]; field.
  - intros O. unfold obtuse in O. fold (d1 p3 p1 p2) in O. fold dc in O. assert (Pa : 0 < da) by lra. assert (Pb : 0 < db) by lra.
    set (t := (da + dc) / (2 * da)). exists (p1 *v (1 - t) +v p2 *v t), t.
    assert (Et : t * (2 * da) = da + dc) by (unfold t; field; lra).
    assert (Ht : 0 <= t <= 1). { split; [apply Rmult_le_pos; [lra|apply Rlt_le, Rinv_0_lt_compat; lra]|]. apply (Rmult_le_reg_r (2 * da)); [lra|]. rewrite Et. lra. }
    split; [exact Ht|]. split; [reflexivity|]. split.
    + assert (DI : vnorm2 ((p1 *v (1 - t) +v p2 *v t) -v p1) - vnorm2 ((p1 *v (1 - t) +v p2 *v t) -v p3) = t * (2 * da) - vnorm2 (p3 -v p1)).
      { unfold da, d1, vnorm2, vdot; cbn [vx vy vz vsub vadd vscale]; ring. }
      rewrite V13, Et in DI. lra.
    + rewrite voronoi_some by exact N1. f_equal. unfold vor. fold S da db dc. destruct (Rlt_dec dc 0); [|lra].
      rewrite (area_scaled p1 p2 p3 p1 (p1 *v (1 - t) +v p2 *v t) (midpoint p1 p3) (t / 2)), AR.
      * unfold t. clearbody S da db dc. field. lra.
      * lra.
      * unfold midpoint. apply V3_ext; cbn [vx vy vz vcross vsub vadd vscale]; field.
  - intros O. unfold obtuse in O. fold (d1 p2 p3 p1) in O. fold db in O. assert (Pa : 0 < da) by lra. assert (Pc : 0 < dc) by lra.
    set (t := (da + db) / (2 * da)). exists (p1 *v (1 - t) +v p3 *v t), t.
    assert (Et : t * (2 * da) = da + db) by (unfold t; field; lra).
    assert (Ht : 0 <= t <= 1). { split; [apply Rmult_le_pos; [lra|apply Rlt_le, Rinv_0_lt_compat; lra]|]. apply (Rmult_le_reg_r (2 * da)); [lra|]. rewrite Et. lra. }
    split; [exact Ht|]. split; [reflexivity|]. split.
    + assert (DI : vnorm2 ((p1 *v (1 - t) +v p3 *v t) -v p1) - vnorm2 ((p1 *v (1 - t) +v p3 *v t) -v p2) = t * (2 * da) - vnorm2 (p2 -v p1)).
      { unfold da, d1, vnorm2, vdot; cbn [vx vy vz vsub vadd vscale]; ring. }
      rewrite V12, Et in DI. lra.
    + rewrite voronoi_some by exact N1. f_equal. unfold vor. fold S da db dc. destruct (Rlt_dec dc 0); [lra|]. destruct (Rlt_dec db 0); [|lra].
      rewrite (area_scaled p1 p2 p3 p1 (midpoint p1 p2) (p1 *v (1 - t) +v p3 *v t) (t / 2)), AR.
      * unfold t. clearbody S da db dc. field. lra.
      * lra.
      * unfold midpoint. apply V3_ext; cbn [vx vy vz vcross vsub vadd vscale]; field.
  - intros _. assert (N2 : twice_area p2 p3 p1 <> 0) by (rewrite twice_area_rot; exact N1).
    assert (N3 : twice_area p3 p1 p2 <> 0) by (rewrite twice_area_rot; exact N2).
    exists (vor p2 p3 p1), (vor p3 p1 p2). split; [apply voronoi_some; exact N2|]. split; [apply voronoi_some; exact N3|]. rewrite voronoi_some by exact N1. f_equal.
    pose proof (vor_sum p1 p2 p3 N1) as E. fold S in E. rewrite AR. lra.
Qed.
Print Assumptions C57_voronoi_region.

(** Right isosceles triangle with legs 1: half of the area belongs to the
    right angle. *)
Lemma right_area : twice_area (mkV3 0 0 0) (mkV3 1 0 0) (mkV3 0 1 0) = 1.
Proof.
  unfold twice_area, vnorm, vnorm2, vdot; cbn [vx vy vz vcross vsub]. transitivity (sqrt 1); [f_equal; ring|apply sqrt_1].
Qed.
Example C57_right_angle : voronoiArea (mkV3 0 0 0) (mkV3 1 0 0) (mkV3 0 1 0) = Some (1 / 4).
Proof.
  rewrite voronoi_some by (rewrite right_area; lra). f_equal. unfold vor. rewrite right_area. unfold d1, vdot; cbn [vx vy vz vsub].
  destruct (Rlt_dec _ 0); [lra|]. destruct (Rlt_dec _ 0); [lra|]. destruct (Rlt_dec _ 0); [lra|]. field.
Qed.
(** The matrix of this triangle: 1, 1/2, 1/2 on the diagonal. *)
Example C57_right_matrix : exists A, laplacian cotsH [mkV3 0 0 0; mkV3 1 0 0; mkV3 0 1 0] [(0, 1, 2)%nat] = Some A /\ A 0%nat 0%nat = 1 /\ A 0%nat 1%nat = - (1 / 2) /\ A 1%nat 2%nat = 0 /\ A 2%nat 2%nat = 1 / 2.
Proof.
  destruct (laplacian_value cotsH [mkV3 0 0 0; mkV3 1 0 0; mkV3 0 1 0] [(0, 1, 2)%nat] (fun _ => (0, 1 / 2, 1 / 2))) as (A & E & V).
  - intros a b c [X|[]]. injection X as <- <- <-. split; [cbn; lia|]. unfold at3; cbn [nth].
    assert (NC : vcross (mkV3 1 0 0 -v mkV3 0 0 0) (mkV3 0 1 0 -v mkV3 0 0 0) <> vzero) by (intros Z; apply (f_equal vz) in Z; cbn in Z; lra).
    rewrite (cotsH_some _ _ _ NC). unfold wcots. fold (twice_area (mkV3 0 0 0) (mkV3 1 0 0) (mkV3 0 1 0)). rewrite right_area. unfold vdot; cbn [vx vy vz vsub].
    f_equal. f_equal; [f_equal|]; field.
  - exists A. split; [exact E|]. rewrite !V. cbn [lsum]. unfold tcoef, dl. cbn [Nat.eqb]. repeat split; field.
Qed.
Example C57_degenerate_triangle : laplacian cotsH [mkV3 0 0 0; mkV3 1 0 0; mkV3 2 0 0] [(0, 1, 2)%nat] = None.
Proof.
  apply C57_laplacian_degenerate. intros H. destruct (H 0%nat 1%nat 2%nat (or_introl eq_refl)) as (p & q & s & E1 & E2 & E3 & D).
  cbn in E1, E2, E3. injection E1 as <-. injection E2 as <-. injection E3 as <-. apply D. apply V3_ext; cbn; ring.
Qed.

(** ** C56: harmonic and biharmonic patches *)

(** A convex domain with its frames and the parameters of resolution [r].
    [rsqrt] is std::sqrt on unsigned integers, used for three sides only; it
    must be right on the perfect squares that occur. *)
Definition patch_domain (vs : list V2) (cen : V2) (d : dom) (r : nat) (rsqrt : nat -> nat) (eps : R) (ps : list V2) : Prop :=
  (3 <= length vs)%nat /\ (1 <= r)%nat /\ domainFrames cen vs = Some d /\ strictly_convex vs /\ inside vs cen /\
  (length vs = 3%nat -> forall m, (m * m <= 8 * meshSize 3 r + 1)%nat -> rsqrt (m * m)%nat = m) /\ 0 < eps <= 1 /\
  parametersImpl (length vs) cen vs r = Some ps.

(** The point of side [e] at parameter [s]. *)
Definition at_side (vs : list V2) (e : nat) (s : R) : V2 := vtx vs (prv (length vs) e) *p (1 - s) +p vtx vs e *p s.
Lemma at_side_pt : forall vs e s, at_side vs e s = sidePt vs e s.
Proof. intros. unfold at_side, sidePt. unfold padd; f_equal; cbn [px py]; ring. Qed.

(** Each boundary vertex gets the side on which it is and its parameter; a
    corner belongs to the side that ends there. *)
Theorem C56_boundary_side : forall vs cen d r rsqrt eps ps k e s, patch_domain vs cen d r rsqrt eps ps ->
  (e < length vs)%nat -> 0 < s <= 1 -> nth_error ps k = Some (at_side vs e s) -> boundaryAt eps d ps k = Some (e, s) /\ onEdge rsqrt (length vs) r k = true.
Proof.
  intros vs cen d r rsqrt eps ps k e s (H3 & Hr & Hd & C & I & Hq & Heps & Hps) He Hs E.
  pose proof (nth_error_lt _ _ _ E) as Hk. rewrite at_side_pt in E.
  assert (EU : uv ps k = sidePt vs e s) by (unfold uv; apply nth_error_nth; exact E). split.
  - exact (side_point vs cen d eps ps H3 Hd C Heps k e s Hk He Hs EU).
  - exact (proj2 (proj1 (in_bverts vs cen r rsqrt eps ps H3 Hr Hq Heps Hps k) (side_is_edge vs cen r rsqrt eps ps H3 Hr C I Hq Heps Hps k e s Hk He EU))).
Qed.
Print Assumptions C56_boundary_side.

(** All boundary vertices are of this form. *)
Theorem C56_boundary_vertices : forall vs cen d r rsqrt eps ps k, patch_domain vs cen d r rsqrt eps ps ->
  (k < meshSize (length vs) r)%nat -> onEdge rsqrt (length vs) r k = true ->
  exists e i, (e < length vs)%nat /\ (1 <= i <= r)%nat /\ nth_error ps k = Some (at_side vs e (INR i / INR r)).
Proof.
  intros vs cen d r rsqrt eps ps k (H3 & Hr & Hd & C & I & Hq & Heps & Hps) Hk O.
  destruct (edge_is_side vs cen r rsqrt eps ps H3 Hr Hq Heps Hps k) as (e & i & He & Hi & E).
  { apply (in_bverts vs cen r rsqrt eps ps H3 Hr Hq Heps Hps). split; assumption. }
  exists e, i. split; [exact He|]. split; [exact Hi|]. rewrite at_side_pt, <- E. apply uv_at. rewrite (ps_length vs cen r ps H3 Hr Hps). exact Hk.
Qed.
Print Assumptions C56_boundary_vertices.

(** The systems of both patches have exactly one solution. *)
Theorem C56_solvable : forall vs cen d r rsqrt eps ps, patch_domain vs cen d r rsqrt eps ps ->
  let bnd := filter (onEdge rsqrt (length vs) r) (seq 0 (length ps)) in
  (exists A, laplacian cotsH (map from2D ps) (meshTopology (length vs) r) = Some A /\ invertible (length ps + length bnd) (constrain (length ps) bnd A)) /\
  (exists A, prepareSolver (map from2D ps) (meshTopology (length vs) r) bnd true = Some A /\ invertible (length ps + length bnd) A).
Proof.
  intros vs cen d r rsqrt eps ps (H3 & Hr & Hd & C & I & Hq & Heps & Hps) bnd. split.
  - destruct (matrix vs cen r rsqrt eps ps H3 Hr C I Hq Heps Hps) as (A & EA & VA). exists A. split; [exact EA|].
    exact (A_invertible vs cen r rsqrt eps ps H3 Hr C I Hq Heps Hps A VA).
  - pose proof (Q_length ps) as QL.
    destruct (prepare_invertible (meshTopology (length vs) r) (uv ps) bnd (Q ps) (Q_mesh vs cen r rsqrt eps ps H3 Hr C I Hq Heps Hps) (Q_bverts vs cen r rsqrt eps ps H3 Hr Hq Heps Hps) (bverts_nodup vs r rsqrt ps) (Q_nondeg vs cen r rsqrt eps ps H3 Hr C I Hq Heps Hps) true) as (A & EA & INV).
    exists A. split; [exact EA|]. rewrite QL in INV. exact INV.
Qed.
Print Assumptions C56_solvable.

(** [X] has the points of the boundary curves at the boundary vertices. *)
Definition interpolates (vs : list V2) (r : nat) (ps : list V2) (curves : list (R -> V3)) (X : list V3) : Prop :=
  (forall k e s c, (e < length vs)%nat -> 0 < s <= 1 -> nth_error ps k = Some (at_side vs e s) -> nth_error curves e = Some c -> nth_error X k = Some (c s)) /\
  (forall e i c, (e < length vs)%nat -> (1 <= i <= r)%nat -> nth_error curves e = Some c ->
    exists k, nth_error ps k = Some (at_side vs e (INR i / INR r)) /\ nth_error X k = Some (c (INR i / INR r))).

Lemma ratio_in : forall i r, (1 <= i <= r)%nat -> 0 < INR i / INR r <= 1.
Proof.
  intros i r H. assert (R0 : 0 < INR r) by (apply lt_0_INR; lia). assert (R1 : 0 < INR i) by (apply lt_0_INR; lia). assert (R2 : INR i <= INR r) by (apply le_INR; lia).
  split; [apply Rdiv_lt_0_compat; assumption|]. apply (Rmult_le_reg_r (INR r)); [exact R0|]. unfold Rdiv. rewrite Rmult_assoc, Rinv_l by lra. lra.
Qed.

Lemma interpolates_of : forall vs cen d r rsqrt eps ps curves X, patch_domain vs cen d r rsqrt eps ps ->
  (forall k, In k (bverts vs r rsqrt ps) -> X k = bval d eps ps curves k) -> interpolates vs r ps curves (tabulate (length ps) X).
Proof.
  intros vs cen d r rsqrt eps ps curves X PD XB. pose proof PD as (H3 & Hr & Hd & C & I & Hq & Heps & Hps).
  assert (G : forall k e s c, (e < length vs)%nat -> 0 < s <= 1 -> nth_error ps k = Some (at_side vs e s) -> nth_error curves e = Some c -> nth_error (tabulate (length ps) X) k = Some (c s)).
  { intros k e s c He Hs E Ec. pose proof (nth_error_lt _ _ _ E) as Hk. rewrite tabulate_nth_error by exact Hk. f_equal. rewrite at_side_pt in E.
    assert (EU : uv ps k = sidePt vs e s) by (unfold uv; apply nth_error_nth; exact E).
    rewrite XB by exact (side_is_edge vs cen r rsqrt eps ps H3 Hr C I Hq Heps Hps k e s Hk He EU).
    rewrite (bval_side vs cen d eps ps H3 Hd C Heps curves k e s Hk He Hs EU). rewrite (nth_error_nth _ _ _ Ec). reflexivity. }
  split; [exact G|]. intros e i c He Hi Ec. destruct (side_hit vs cen r ps H3 Hr Hps e i He ltac:(lia)) as (k & Hk & E).
  assert (EP : nth_error ps k = Some (at_side vs e (INR i / INR r))) by (rewrite at_side_pt, <- E; apply uv_at; exact Hk).
  exists k. split; [exact EP|]. apply (G k e _ c He (ratio_in i r Hi) EP Ec).
Qed.

(** The harmonic patch exists, interpolates the boundary curves, and is the
    only surface of least Dirichlet energy among those with its boundary. *)
Theorem C56_harmonic : forall vs cen d r rsqrt eps ps curves solve, patch_domain vs cen d r rsqrt eps ps -> (length vs <= length curves)%nat -> exact_solver solve ->
  exists X, harmonicEval solve rsqrt eps d curves r = Some (meshTopology (length vs) r, X) /\ length X = meshSize (length vs) r /\
    interpolates vs r ps curves X /\
    forall Y, length Y = length X -> (forall k, onEdge rsqrt (length vs) r k = true -> nth_error Y k = nth_error X k) ->
      let P := fun k => nth k ps pzero in let ts := meshTopology (length vs) r in
      surface_energy P (fun k => nth k X vzero) ts <= surface_energy P (fun k => nth k Y vzero) ts /\
      (surface_energy P (fun k => nth k Y vzero) ts <= surface_energy P (fun k => nth k X vzero) ts -> Y = X).
Proof.
  intros vs cen d r rsqrt eps ps curves solve PD Hc ES. pose proof PD as (H3 & Hr & Hd & C & I & Hq & Heps & Hps).
  destruct (harmonic_result vs cen d r rsqrt eps ps H3 Hr Hd C I Hq Heps Hps curves solve Hc ES) as (A & X & VA & E & XB & XI).
  exists (tabulate (length ps) X). split; [exact E|]. pose proof (ps_length vs cen r ps H3 Hr Hps) as PL. split; [rewrite tabulate_length; exact PL|].
  split; [exact (interpolates_of vs cen d r rsqrt eps ps curves X PD XB)|].
  intros Y LY YB P ts. rewrite tabulate_length in LY.
  set (Xf := fun k => nth k (tabulate (length ps) X) vzero). set (Yf := fun k => nth k Y vzero).
  assert (XE : forall k, (k < length ps)%nat -> Xf k = X k).
  { intros k Hk. unfold Xf. apply nth_error_nth. rewrite tabulate_nth_error by exact Hk. reflexivity. }
  assert (BE : forall k, In k (bverts vs r rsqrt ps) -> Yf k = Xf k).
  { intros k Hk. apply (in_bverts vs cen r rsqrt eps ps H3 Hr Hq Heps Hps) in Hk. destruct Hk as [Hk O]. rewrite <- PL in Hk. specialize (YB k O). unfold Yf.
    rewrite (nth_error_nth' Y vzero) in YB by lia. rewrite (nth_error_nth' (tabulate (length ps) X) vzero) in YB by (rewrite tabulate_length; exact Hk). injection YB as YB. exact YB. }
  assert (HX : forall g i, (i < length ps)%nat -> ~ In i (bverts vs r rsqrt ps) -> mapply (length ps) A (fun k => vdot g (Xf k)) i = 0).
  { intros g i Hi Nb. rewrite <- (XI g i Hi Nb). apply rsum_ext. intros j Hj. rewrite XE by exact Hj. reflexivity. }
  assert (SP : forall pr, (exists g, forall v, pr v = vdot g v) -> dirichlet_energy P (fun k => pr (Yf k)) ts =
    dirichlet_energy P (fun k => pr (Xf k)) ts + dirichlet_energy P (fun k => pr (Yf k) - pr (Xf k)) ts).
  { intros pr (g & Hg). apply (energy_split vs cen r rsqrt eps ps H3 Hr C I Hq Heps Hps A (fun k => pr (Xf k)) (fun k => pr (Yf k)) VA).
    - intros i Hi Nb. rewrite <- (HX g i Hi Nb). apply rsum_ext. intros j _. rewrite Hg. reflexivity.
    - intros k Hk. rewrite BE by exact Hk. reflexivity. }
  assert (Gx : exists g, forall v, vx v = vdot g v) by (exists (mkV3 1 0 0); intros v; unfold vdot; cbn [vx vy vz]; ring).
  assert (Gy : exists g, forall v, vy v = vdot g v) by (exists (mkV3 0 1 0); intros v; unfold vdot; cbn [vx vy vz]; ring).
  assert (Gz : exists g, forall v, vz v = vdot g v) by (exists (mkV3 0 0 1); intros v; unfold vdot; cbn [vx vy vz]; ring).
  pose proof (SP vx Gx) as Sx. pose proof (SP vy Gy) as Sy. pose proof (SP vz Gz) as Sz. unfold surface_energy. rewrite Sx, Sy, Sz.
  pose proof (energy_nonneg vs cen r rsqrt eps ps H3 Hr C I Hq Heps Hps (fun k => vx (Yf k) - vx (Xf k))) as Nx.
  pose proof (energy_nonneg vs cen r rsqrt eps ps H3 Hr C I Hq Heps Hps (fun k => vy (Yf k) - vy (Xf k))) as Ny.
  pose proof (energy_nonneg vs cen r rsqrt eps ps H3 Hr C I Hq Heps Hps (fun k => vz (Yf k) - vz (Xf k))) as Nz.
  change (uv ps) with P in Nx, Ny, Nz. fold ts in Nx, Ny, Nz.
  split; [lra|]. intros LE.
  assert (Z : forall k, (k < length ps)%nat -> Yf k = Xf k).
  { intros k Hk.
    assert (Zx : vx (Yf k) - vx (Xf k) = 0) by (apply (energy_null vs cen r rsqrt eps ps H3 Hr C I Hq Heps Hps (fun k => vx (Yf k) - vx (Xf k))); [intros j Hj; rewrite BE by exact Hj; ring|change (uv ps) with P; fold ts; lra|exact Hk]).
    assert (Zy : vy (Yf k) - vy (Xf k) = 0) by (apply (energy_null vs cen r rsqrt eps ps H3 Hr C I Hq Heps Hps (fun k => vy (Yf k) - vy (Xf k))); [intros j Hj; rewrite BE by exact Hj; ring|change (uv ps) with P; fold ts; lra|exact Hk]).
    assert (Zz : vz (Yf k) - vz (Xf k) = 0) by (apply (energy_null vs cen r rsqrt eps ps H3 Hr C I Hq Heps Hps (fun k => vz (Yf k) - vz (Xf k))); [intros j Hj; rewrite BE by exact Hj; ring|change (uv ps) with P; fold ts; lra|exact Hk]).
    apply V3_ext; lra. }
  apply nth_ext with (d := vzero) (d' := vzero); [rewrite tabulate_length; exact LY|]. intros k Hk. apply Z. lia.
Qed.
Print Assumptions C56_harmonic.

(** Affine boundary data are extended affinely. *)
Theorem C56_harmonic_linear : forall vs cen d r rsqrt eps ps curves solve p0 U V, let aff := fun p : V2 => p0 +v U *v px p +v V *v py p in
  patch_domain vs cen d r rsqrt eps ps -> (length vs <= length curves)%nat -> exact_solver solve ->
  (forall e i c, (e < length vs)%nat -> (1 <= i <= r)%nat -> nth_error curves e = Some c -> c (INR i / INR r) = aff (at_side vs e (INR i / INR r))) ->
  harmonicEval solve rsqrt eps d curves r = Some (meshTopology (length vs) r, map aff ps).
Proof.
  intros vs cen d r rsqrt eps ps curves solve p0 U V aff PD Hc ES HB. pose proof PD as (H3 & Hr & Hd & C & I & Hq & Heps & Hps).
  destruct (harmonic_result vs cen d r rsqrt eps ps H3 Hr Hd C I Hq Heps Hps curves solve Hc ES) as (A & X & VA & E & XB & XI).
  rewrite E. f_equal. f_equal.
  assert (DA : forall g p, vdot g (aff p) = vdot g U * px p + vdot g V * py p + vdot g p0) by (intros g p; unfold aff, vdot; cbn [vx vy vz vadd vscale]; ring).
  assert (EX : forall k, (k < length ps)%nat -> X k = aff (uv ps k)).
  { intros k Hk. apply vdot_ext. intros g. rewrite DA.
    apply (linear_solution vs cen r rsqrt eps ps H3 Hr C I Hq Heps Hps A (fun k => vdot g (X k)) (vdot g U) (vdot g V) (vdot g p0) VA (XI g)); [|exact Hk].
    intros j Hj. rewrite <- DA. f_equal. rewrite XB by exact Hj. destruct (edge_is_side vs cen r rsqrt eps ps H3 Hr Hq Heps Hps j Hj) as (e & i & He & Hi & EU).
    pose proof (bverts_lt vs cen r rsqrt eps ps H3 Hr Hq Heps Hps j Hj) as Lj.
    rewrite (bval_side vs cen d eps ps H3 Hd C Heps curves j e _ Lj He (ratio_in i r Hi) EU). rewrite EU, <- at_side_pt. apply HB; [exact He|exact Hi|].
    apply nth_error_nth'. lia. }
  apply nth_ext with (d := vzero) (d' := aff pzero); [rewrite tabulate_length, map_length; reflexivity|]. intros k Hk. rewrite tabulate_length in Hk. rewrite map_nth.
  transitivity (X k); [|apply EX; exact Hk]. apply nth_error_nth. rewrite tabulate_nth_error by exact Hk. reflexivity.
Qed.
Print Assumptions C56_harmonic_linear.

(** Over a regular domain no angle of the mesh is obtuse, and the patch is in
    every half-space that contains its boundary points. *)
Theorem C56_harmonic_hull : forall m vs d r rsqrt eps ps curves solve X, regularVertices m = Some vs -> patch_domain vs pzero d r rsqrt eps ps ->
  (length vs <= length curves)%nat -> exact_solver solve -> harmonicEval solve rsqrt eps d curves r = Some (meshTopology m r, X) ->
  forall g top, (forall e i c, (e < m)%nat -> (1 <= i <= r)%nat -> nth_error curves e = Some c -> vdot g (c (INR i / INR r)) <= top) ->
  forall x, In x X -> vdot g x <= top.
Proof.
  intros m vs d r rsqrt eps ps curves solve X Hv PD Hc ES EX g top HB x Hx. pose proof PD as (H3 & Hr & Hd & C & I & Hq & Heps & Hps).
  assert (L : length vs = m).
  { destruct (Nat.eq_dec m 4) as [->|N4]; [injection Hv as <-; reflexivity|]. destruct (Nat.eq_dec m 0) as [->|N0].
    - unfold regularVertices in Hv. cbn [Nat.eqb] in Hv. unfold fdiv in Hv. destruct (Req_EM_T (INR 0) 0) as [_|Z]; [discriminate|]. exfalso; apply Z; reflexivity.
    - rewrite regular_closed in Hv by lia. injection Hv as <-. apply tabulate_length. }
  destruct (harmonic_result vs pzero d r rsqrt eps ps H3 Hr Hd C I Hq Heps Hps curves solve Hc ES) as (A & X' & VA & E & XB & XI).
  rewrite EX in E. injection E as _ ->. apply in_tabulate in Hx. destruct Hx as (k & Hk & ->).
  apply (half_space vs pzero r rsqrt eps ps H3 Hr C I Hq Heps Hps) with (A := A) (x := fun k => vdot g (X' k)); [|exact VA|exact (XI g)| |exact Hk].
  - intros a b c Ht. rewrite L in Ht. rewrite L in H3, Hps. exact (regular_acute m vs r ps H3 Hr Hv Hps a b c Ht).
  - intros j Hj. rewrite XB by exact Hj. destruct (edge_is_side vs pzero r rsqrt eps ps H3 Hr Hq Heps Hps j Hj) as (e & i & He & Hi & EU).
    pose proof (bverts_lt vs pzero r rsqrt eps ps H3 Hr Hq Heps Hps j Hj) as Lj.
    rewrite (bval_side vs pzero d eps ps H3 Hd C Heps curves j e _ Lj He (ratio_in i r Hi) EU). apply (HB e i); [lia|exact Hi|].
    apply nth_error_nth'. lia.
Qed.
Print Assumptions C56_harmonic_hull.

(** The inverse masses of the boundary vertices are set to zero, so the system
    that propagates points and normals into the interior is solved by the
    harmonic patch: the first stage of the biharmonic patch is the harmonic
    one. *)
Theorem C56_propagation : forall vs cen d r rsqrt eps ps curves solve X z, patch_domain vs cen d r rsqrt eps ps -> (length vs <= length curves)%nat -> exact_solver solve ->
  harmonicEval solve rsqrt eps d curves r = Some (meshTopology (length vs) r, X) ->
  let bnd := filter (onEdge rsqrt (length vs) r) (seq 0 (length ps)) in
  let b := rhs (length ps) (fun _ => vzero) (map (fun k => nth k X vzero) bnd) in
  exists A, prepareSolver (map from2D ps) (meshTopology (length vs) r) bnd true = Some A /\
    (solves (length ps + length bnd) A (fun i => vx (b i)) (fun i => vx (z i)) -> solves (length ps + length bnd) A (fun i => vy (b i)) (fun i => vy (z i)) ->
     solves (length ps + length bnd) A (fun i => vz (b i)) (fun i => vz (z i)) -> forall k, (k < length ps)%nat -> nth_error X k = Some (z k)).
Proof.
  intros vs cen d r rsqrt eps ps curves solve X z PD Hc ES EX bnd b. pose proof PD as (H3 & Hr & Hd & C & I & Hq & Heps & Hps).
  destruct (harmonic_result vs cen d r rsqrt eps ps H3 Hr Hd C I Hq Heps Hps curves solve Hc ES) as (A & X' & VA & E & XB & XI).
  rewrite EX in E. injection E as ->.
  destruct (proj2 (C56_solvable vs cen d r rsqrt eps ps PD)) as (A1 & EA & _). exists A1. split; [exact EA|]. intros Sx Sy Sz k Hk.
  rewrite tabulate_nth_error by exact Hk. f_equal.
  assert (XT : forall j, In j bnd -> nth j (tabulate (length ps) X') vzero = X' j).
  { intros j Hj. apply nth_error_nth. rewrite tabulate_nth_error by exact (bverts_lt vs cen r rsqrt eps ps H3 Hr Hq Heps Hps j Hj). reflexivity. }
  assert (G : forall pr : V3 -> R, (exists g, forall v, pr v = vdot g v) -> solves (length ps + length bnd) A1 (fun i => pr (b i)) (fun i => pr (z i)) -> pr (X' k) = pr (z k)).
  { intros pr (g & Hg) Sp. assert (P0 : pr vzero = 0) by (rewrite Hg; unfold vdot, vzero; cbn [vx vy vz]; ring).
    destruct (propagation_harmonic vs cen r rsqrt eps ps H3 Hr C I Hq Heps Hps A1 A (fun j => pr (X' j)) (fun i => pr (b i)) (fun i => pr (z i)) EA VA) as [Z1 Z2].
    - intros i Hi. unfold b, rhs. destruct (Nat.ltb_spec i (length ps)); [exact P0|lia].
    - intros j Hj. unfold b, rhs. destruct (Nat.ltb_spec (length ps + j) (length ps)); [lia|]. replace (length ps + j - length ps)%nat with j by lia.
      change (bverts vs r rsqrt ps) with bnd in *. f_equal.
      apply nth_error_nth. rewrite nth_error_map, (nth_error_nth' bnd 0%nat Hj). cbn [option_map]. f_equal. apply XT. apply nth_In. exact Hj.
    - exact Sp.
    - apply (dirichlet_same (length ps) bnd A (A_unique vs cen r rsqrt eps ps H3 Hr C I Hq Heps Hps A VA) (fun _ => 0) (fun j => pr (X' (nth j bnd 0%nat))) (fun k => pr (z k)) (fun k => pr (X' k))); [| |exact Hk].
      + split; [intros j Hj; apply Z1; apply nth_In; exact Hj|exact Z2].
      + split; [intros j Hj; reflexivity|]. intros i Hi Nb. rewrite <- (XI g i Hi Nb). apply rsum_ext. intros j _. rewrite Hg. reflexivity. }
  apply V3_ext.
  - apply (G vx); [exists (mkV3 1 0 0); intros v; unfold vdot; cbn [vx vy vz]; ring|exact Sx].
  - apply (G vy); [exists (mkV3 0 1 0); intros v; unfold vdot; cbn [vx vy vz]; ring|exact Sy].
  - apply (G vz); [exists (mkV3 0 0 1); intros v; unfold vdot; cbn [vx vy vz]; ring|exact Sz].
Qed.
Print Assumptions C56_propagation.

(** The biharmonic patch exists exactly if no triangle of the harmonic patch
    is degenerate, and then it interpolates the boundary curves. *)
Theorem C56_biharmonic : forall vs cen d r rsqrt eps ps curves normals solve X, patch_domain vs cen d r rsqrt eps ps ->
  (length vs <= length curves)%nat -> (length vs <= length normals)%nat -> exact_solver solve ->
  harmonicEval solve rsqrt eps d curves r = Some (meshTopology (length vs) r, X) ->
  (nondegenerate X (meshTopology (length vs) r) ->
    exists Y, biharmonicEval solve rsqrt eps d curves normals r = Some (meshTopology (length vs) r, Y) /\ length Y = meshSize (length vs) r /\ interpolates vs r ps curves Y) /\
  (~ nondegenerate X (meshTopology (length vs) r) -> biharmonicEval solve rsqrt eps d curves normals r = None).
Proof.
  intros vs cen d r rsqrt eps ps curves normals solve X PD Hc Hm ES EX. pose proof PD as (H3 & Hr & Hd & C & I & Hq & Heps & Hps).
  destruct (harmonic_result vs cen d r rsqrt eps ps H3 Hr Hd C I Hq Heps Hps curves solve Hc ES) as (A & X' & VA & E & XB & XI).
  rewrite EX in E. injection E as ->.
  destruct (proj2 (C56_solvable vs cen d r rsqrt eps ps PD)) as (A1 & EA & _).
  pose proof (surf_harmonic vs cen d r rsqrt eps ps H3 Hr C I Hq Heps Hps curves normals solve Hc Hm ES A1 A X' EA VA XB XI) as SE.
  pose proof (tri_lt vs cen r rsqrt eps ps H3 Hr C I Hq Heps Hps) as TL.
  assert (AT : forall k, (k < length ps)%nat -> nth_error (tabulate (length ps) X') k = Some (surf vs d r rsqrt eps ps curves solve A1 k)).
  { intros k Hk. rewrite tabulate_nth_error by exact Hk. rewrite SE by exact Hk. reflexivity. }
  split.
  - intros ND. destruct (eval_value vs cen d r rsqrt eps ps H3 Hr Hd C I Hq Heps Hps curves normals solve Hc Hm ES A1 EA) as (Ls & ar & Y & _ & _ & EY & YB & _ & _).
    { intros a b c Ht Z. destruct (TL a b c Ht) as (L1 & L2 & L3). destruct (ND a b c Ht) as (p & q & s & E1 & E2 & E3 & D). rewrite AT in E1, E2, E3 by assumption.
      injection E1 as <-. injection E2 as <-. injection E3 as <-. apply D, vnorm_zero. exact Z. }
    exists (tabulate (length ps) Y). split; [exact EY|]. split; [rewrite tabulate_length; exact (ps_length vs cen r ps H3 Hr Hps)|].
    apply (interpolates_of vs cen d r rsqrt eps ps curves Y PD). intros k Hk. rewrite YB by exact Hk.
    pose proof (bverts_lt vs cen r rsqrt eps ps H3 Hr Hq Heps Hps k Hk) as Lk. rewrite SE by exact Lk. apply XB. exact Hk.
  - intros ND.
    destruct (biharmonicEval solve rsqrt eps d curves normals r) as [res|] eqn:EB; [exfalso|reflexivity]. apply ND. intros a b c Ht. destruct (TL a b c Ht) as (L1 & L2 & L3).
    exists (surf vs d r rsqrt eps ps curves solve A1 a), (surf vs d r rsqrt eps ps curves solve A1 b), (surf vs d r rsqrt eps ps curves solve A1 c).
    rewrite !AT by assumption. repeat split. intros Z.
    rewrite (eval_degenerate vs cen d r rsqrt eps ps H3 Hr Hd C I Hq Heps Hps curves normals solve Hc Hm A1 a b c EA Ht) in EB; [discriminate|].
    unfold twice_area. rewrite Z. unfold vnorm, vnorm2, vdot, vzero; cbn [vx vy vz]. transitivity (sqrt 0); [f_equal; ring|apply sqrt_0].
Qed.
Print Assumptions C56_biharmonic.

(** Flat data: if the boundary is that of a plane, given by an injective affine
    map of the domain, and the normal is constant, the biharmonic patch is the
    plane. *)
Theorem C56_biharmonic_flat : forall vs cen d r rsqrt eps ps curves normals solve p0 U V nu, let aff := fun p : V2 => p0 +v U *v px p +v V *v py p in
  patch_domain vs cen d r rsqrt eps ps -> (length vs <= length curves)%nat -> (length vs <= length normals)%nat -> exact_solver solve -> vcross U V <> vzero ->
  (forall e i c, (e < length vs)%nat -> (1 <= i <= r)%nat -> nth_error curves e = Some c -> c (INR i / INR r) = aff (at_side vs e (INR i / INR r))) ->
  (forall e i f, (e < length vs)%nat -> (1 <= i <= r)%nat -> nth_error normals e = Some f -> f (INR i / INR r) = nu) ->
  biharmonicEval solve rsqrt eps d curves normals r = Some (meshTopology (length vs) r, map aff ps).
Proof.
  intros vs cen d r rsqrt eps ps curves normals solve p0 U V nu aff PD Hc Hm ES NUV HB HN. pose proof PD as (H3 & Hr & Hd & C & I & Hq & Heps & Hps).
  apply (flat_eval vs cen d r rsqrt eps ps H3 Hr Hd C I Hq Heps Hps curves normals solve Hc Hm ES p0 U V nu NUV).
  - intros j Hj. destruct (edge_is_side vs cen r rsqrt eps ps H3 Hr Hq Heps Hps j Hj) as (e & i & He & Hi & EU).
    pose proof (bverts_lt vs cen r rsqrt eps ps H3 Hr Hq Heps Hps j Hj) as Lj.
    rewrite (bval_side vs cen d eps ps H3 Hd C Heps curves j e _ Lj He (ratio_in i r Hi) EU). rewrite EU, <- at_side_pt. apply (HB e i); [exact He|exact Hi|].
    apply nth_error_nth'. lia.
  - intros j Hj. destruct (edge_is_side vs cen r rsqrt eps ps H3 Hr Hq Heps Hps j Hj) as (e & i & He & Hi & EU).
    pose proof (bverts_lt vs cen r rsqrt eps ps H3 Hr Hq Heps Hps j Hj) as Lj.
    rewrite (bval_side vs cen d eps ps H3 Hd C Heps normals j e _ Lj He (ratio_in i r Hi) EU). apply (HN e i); [exact He|exact Hi|].
    apply nth_error_nth'. lia.
Qed.
Print Assumptions C56_biharmonic_flat.

(** Every regular domain and every resolution is such a domain, and the solver
    by elimination is exact. *)
Example C56_regular_domains : exact_solver gaussSolver /\ forall m r, (3 <= m)%nat -> (1 <= r)%nat ->
  exists vs d ps, regularVertices m = Some vs /\ length vs = m /\ patch_domain vs pzero d r Nat.sqrt 1 ps /\ length ps = meshSize m r.
Proof.
  split; [exact gauss_exact|]. intros m r Hm Hr. destruct (C12_regular_convex m Hm) as (vs & Hv & L & C & I & _).
  destruct (parameters_length (length vs) pzero vs r ltac:(lia) Hr eq_refl) as (ps & Hp & Lp).
  exists vs, (mkDom (length vs) pzero vs (tabulate (length vs) (sidevec vs)) (tabulate (length vs) (frame_dv pzero vs))), ps.
  split; [exact Hv|]. split; [exact L|]. split; [|rewrite <- L; exact Lp].
  split; [lia|]. split; [exact Hr|]. split; [apply frames_closed|]. split; [exact C|]. split; [exact I|]. split; [|split; [lra|exact Hp]].
  intros _ k _. apply Nat.sqrt_square.
Qed.

(** A pentagon lifted to the plane z = 1 + 2x - y: the harmonic patch is flat
    and contains the centre, the biharmonic patch with the normal of the plane
    is the same, and if all boundary curves are one point there is no
    biharmonic patch. *)
Example C56_pentagon : forall r, (1 <= r)%nat -> exists vs d ps, regularVertices 5 = Some vs /\ patch_domain vs pzero d r Nat.sqrt 1 ps /\
  let lift := fun p : V2 => mkV3 (px p) (py p) (1 + 2 * px p - py p) in
  let curves := tabulate 5 (fun e s => lift (at_side vs e s)) in
  harmonicEval gaussSolver Nat.sqrt 1 d curves r = Some (meshTopology 5 r, map lift ps) /\
  biharmonicEval gaussSolver Nat.sqrt 1 d curves (tabulate 5 (fun _ _ => mkV3 (-2) 1 1)) r = Some (meshTopology 5 r, map lift ps) /\
  biharmonicEval gaussSolver Nat.sqrt 1 d (tabulate 5 (fun _ _ => vzero)) (tabulate 5 (fun _ _ => mkV3 0 0 1)) r = None.
Proof.
  intros r Hr. destruct C56_regular_domains as [ES H]. destruct (H 5%nat r ltac:(lia) Hr) as (vs & d & ps & Hv & L & PD & Lp).
  exists vs, d, ps. split; [exact Hv|]. split; [exact PD|]. intros lift curves.
  assert (AF : forall p, lift p = mkV3 0 0 1 +v mkV3 1 0 2 *v px p +v mkV3 0 1 (-1) *v py p) by (intros p; unfold lift; v3field).
  assert (LC : forall (T : Type) (f : nat -> T), (length vs <= length (tabulate 5 f))%nat) by (intros; rewrite tabulate_length; lia).
  assert (NT : forall (T : Type) (f : nat -> T) e c, nth_error (tabulate 5 f) e = Some c -> c = f e).
  { intros T f e c E. pose proof (nth_error_lt _ _ _ E) as He. rewrite tabulate_length in He. rewrite tabulate_nth_error in E by exact He. injection E as <-. reflexivity. }
  replace (meshTopology 5 r) with (meshTopology (length vs) r) by (rewrite L; reflexivity). split; [|split].
  - rewrite (map_ext _ _ AF). unfold curves.
    apply (C56_harmonic_linear vs pzero d r Nat.sqrt 1 ps _ gaussSolver (mkV3 0 0 1) (mkV3 1 0 2) (mkV3 0 1 (-1)) PD); [apply LC|exact ES|].
    intros e i c He Hi Ec. apply (NT (R -> V3)) in Ec. subst c. apply AF.
  - rewrite (map_ext _ _ AF). unfold curves.
    apply (C56_biharmonic_flat vs pzero d r Nat.sqrt 1 ps _ _ gaussSolver (mkV3 0 0 1) (mkV3 1 0 2) (mkV3 0 1 (-1)) (mkV3 (-2) 1 1) PD); [apply LC|apply LC|exact ES| | |].
    + intros Z. apply (f_equal vz) in Z. cbn in Z. lra.
    + intros e i c He Hi Ec. apply (NT (R -> V3)) in Ec. subst c. apply AF.
    + intros e i c He Hi Ec. apply (NT (R -> V3)) in Ec. subst c. reflexivity.
  - assert (EX : harmonicEval gaussSolver Nat.sqrt 1 d (tabulate 5 (fun _ _ => vzero)) r = Some (meshTopology (length vs) r, map (fun p : V2 => vzero +v vzero *v px p +v vzero *v py p) ps)).
    { apply (C56_harmonic_linear vs pzero d r Nat.sqrt 1 ps _ gaussSolver vzero vzero vzero PD); [apply LC|exact ES|].
      intros e i c He Hi Ec. apply (NT (R -> V3)) in Ec. subst c. unfold vzero. apply V3_ext; cbn [vx vy vz vadd vscale]; ring. }
    apply (proj2 (C56_biharmonic vs pzero d r Nat.sqrt 1 ps _ _ gaussSolver _ PD (LC _ _) (LC _ _) ES EX)).
    intros ND. pose proof PD as (H3 & _ & Hd & C & I & Hq & Heps & Hps).
    destruct (domain_mesh vs pzero r Nat.sqrt 1 ps H3 Hr C I Hq Heps Hps) as (_ & U & _ & _ & _).
    destruct (U 0%nat) as (((a & b) & c) & Ht & _).
    { rewrite (ps_length vs pzero r ps H3 Hr Hps), L. unfold meshSize. cbn [Nat.eqb]. lia. }
    destruct (ND a b c Ht) as (p & q & s & E1 & E2 & E3 & D). apply D. rewrite nth_error_map in E1, E2, E3.
    destruct (nth_error ps a); [|discriminate]. destruct (nth_error ps b); [|discriminate]. destruct (nth_error ps c); [|discriminate].
    cbn [option_map] in E1, E2, E3. injection E1 as <-. injection E2 as <-. injection E3 as <-. unfold vzero. v3field.
Qed.
