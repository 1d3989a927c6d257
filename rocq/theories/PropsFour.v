(** Patches with four sides: C87. *)
From Verif Require Import Base MeshModel MeshSpec GeomSpec DomainModel DomainProofs DomainPolygons UtilModel UtilSpec UtilProofs ParamModel.
From Verif Require Import RibbonModel SurfaceModel SurfaceSpec SurfaceEval SurfaceProofs BlendProps SurfaceC0 GBModel GBSpec GBProofs GBEval FourSpec FourProofs FourProofs2 FourProofs3.
From Verif Require PropsSurface PropsGB.
Open Scope R_scope.

(** ** C87 *)

(** The domain is a square, and in coordinates [u], [v] of the unit square five
    parameterizations give every side the same two numbers: along it and away
    from it. *)
Theorem C87_coordinates : forall d eps u v k, domainFrames pzero unit4 = Some d -> 0 < eps <= 1 / 3 -> 0 <= u <= 1 -> 0 <= v <= 1 ->
  In k [KBilinear; KParallel; KInterconnected; KBary Wachspress; KConstrained Wachspress] ->
  mapToRibbons k eps d (at4 u v) = Some [mkV2 u v; mkV2 v (1 - u); mkV2 (1 - u) (1 - v); mkV2 (1 - v) u].
Proof.
  intros d eps u v k Hd He Hu Hv [<-|[<-|[<-|[<-|[<-|[]]]]]].
  - apply bilinear4; (assumption || lra).
  - apply parallel4; (assumption || lra).
  - apply interconnected4; (assumption || lra).
  - apply bary4; (assumption || lra).
  - apply constrained4; (assumption || lra).
Qed.
Print Assumptions C87_coordinates.
Theorem C87_domain : regularVertices 4 = Some unit4 /\ (exists d, domainFrames pzero unit4 = Some d) /\
  (forall p, -1 <= px p <= 1 -> -1 <= py p <= 1 -> exists u v, 0 <= u <= 1 /\ 0 <= v <= 1 /\ p = at4 u v).
Proof.
  split; [reflexivity|]. split; [rewrite frames_closed; eexists; reflexivity|]. intros p Hx Hy. exists ((py p + 1) / 2), ((1 - px p) / 2). split; [lra|]. split; [lra|].
  unfold at4. apply V2_ext; cbn [px py]; field.
Qed.
Print Assumptions C87_domain.

(** *** Generalized Bezier patches *)
Theorem C87_tensor : forall deg g d eps u v, (3 <= deg)%nat -> shaped 4 deg g -> consistent 4 deg g -> domainFrames pzero unit4 = Some d ->
  0 < eps <= 1 -> 0 <= u <= 1 -> 0 <= v <= 1 ->
  (forall x y, In x [u; 1 - u] -> In y [v; 1 - v] -> eps <= x + y) ->
  gbSurfaceEval eps d g (at4 u v) = Some (tensor deg (grid deg g) u v).
Proof.
  intros deg g d eps u v Hd Sh Co Hdm He Hu Hv Off. unfold gbSurfaceEval. rewrite bary4 by (assumption || lra). cbn [bind].
  apply tensor4; try assumption; [lra|]. repeat split; apply Off; simpl; auto.
Qed.
Print Assumptions C87_tensor.

(** Closer to a corner the value is the corner of the net. *)
Theorem C87_tensor_corner : forall deg g d eps u v, (1 <= deg)%nat -> shaped 4 deg g -> consistent 4 deg g -> domainFrames pzero unit4 = Some d ->
  0 < eps <= 1 / 2 -> 0 <= u <= 1 -> 0 <= v <= 1 ->
  (u + v < eps -> gbSurfaceEval eps d g (at4 u v) = Some (gpoint g 0 0 0)) /\
  ((1 - u) + v < eps -> gbSurfaceEval eps d g (at4 u v) = Some (gpoint g 1 0 0)) /\
  ((1 - u) + (1 - v) < eps -> gbSurfaceEval eps d g (at4 u v) = Some (gpoint g 2 0 0)) /\
  (u + (1 - v) < eps -> gbSurfaceEval eps d g (at4 u v) = Some (gpoint g 3 0 0)).
Proof.
  intros deg g d eps u v Hd Sh Co Hdm He Hu Hv. unfold gbSurfaceEval. rewrite bary4 by (assumption || lra). cbn [bind].
  set (S := fun i : nat => nth i [u; v; 1 - u; 1 - v] 0). set (D := fun i : nat => nth i [v; 1 - u; 1 - v; u] 0).
  assert (Hsd : forall i, (i < 4)%nat -> nth_error (sides4 u v) i = Some (mkV2 (S i) (D i))) by (intros i Hi; destruct i as [|[|[|[|i]]]]; [reflexivity..|lia]).
  assert (K : forall e, (e < 4)%nat -> D e + D (nxt 4 e) < eps -> gbEval eps g (sides4 u v) = Some (gpoint g (nxt 4 e) 0 0)).
  { intros e Hen Hc. rewrite (loop_corner 4 deg g S D (sides4 u v) eps Sh Hd ltac:(lia) ltac:(lra) Hsd e Hen Hc Co).
    - assert (Hx : (nxt 4 e < 4)%nat) by (apply nxt_lt; lia).
      assert (Hg : inRange 4 deg (nxt 4 e, 0, 0)%nat) by (unfold inRange; lia). change (gpoint g) with (cpv g). rewrite <- (cpv_some 4 deg g _ _ _ Sh Hg).
      symmetry. apply (Co (nxt 4 e, 0, 0)%nat (e, deg, 0)%nat Hg ltac:(unfold inRange; lia)).
      pose proof (mirror_prv 4 deg (nxt 4 e) 0 0 Hx ltac:(lia)) as M. rewrite prv_nxt in M by exact Hen. rewrite Nat.sub_0_r in M. exact M.
    - intros i Hi N. revert Hc. unfold D. destruct e as [|[|[|[|e]]]]; [| | | |lia]; destruct i as [|[|[|[|i]]]]; try lia; cbn [nxt Nat.add Nat.modulo Nat.divmod fst snd Nat.sub nth]; intros; lra. }
  repeat split; intros X.
  - apply (K 3%nat); [lia|]. unfold D. cbn. lra.
  - apply (K 0%nat); [lia|]. unfold D. cbn. lra.
  - apply (K 1%nat); [lia|]. unfold D. cbn. lra.
  - apply (K 2%nat); [lia|]. unfold D. cbn. lra.
Qed.
Print Assumptions C87_tensor_corner.

(** With odd degrees the central control point has no influence, with even ones
    it is the middle point of the grid. *)
Theorem C87_central : forall deg g c, 
  (deg mod 2 = 1)%nat -> forall a b, grid deg (setCentral g c) a b = grid deg g a b.
Proof.
  intros deg g c Od a b. unfold grid. pose proof (Nat.div_mod deg 2 ltac:(lia)) as Q. destruct (2 * b <? deg)%nat eqn:B1; [reflexivity|]. destruct (deg <? 2 * b)%nat eqn:B2; [reflexivity|].
  apply Nat.ltb_ge in B1, B2. lia.
Qed.
Print Assumptions C87_central.

(** Degree two is not the biquadratic surface: the middle points of the sides
    lose weight to the central control point. *)
Theorem C87_quadratic : forall g d eps u v, shaped 4 2 g -> consistent 4 2 g -> domainFrames pzero unit4 = Some d ->
  0 < eps <= 1 -> 0 <= u <= 1 -> 0 <= v <= 1 ->
  (forall x y, In x [u; 1 - u] -> In y [v; 1 - v] -> eps <= x + y) ->
  let loss a b := if gb_sq g then b * b / (a * a + b * b) else b / (a + b) in
  gbSurfaceEval eps d g (at4 u v) = Some (tensor 2 (grid 2 g) u v
    +v (gb_cen g -v gpoint g 0 1 0) *v (2 * u * (1 - u) * (1 - v) ^ 2 * loss u v)
    +v (gb_cen g -v gpoint g 1 1 0) *v (2 * v * (1 - v) * u ^ 2 * loss v (1 - u))
    +v (gb_cen g -v gpoint g 2 1 0) *v (2 * u * (1 - u) * v ^ 2 * loss (1 - u) (1 - v))
    +v (gb_cen g -v gpoint g 3 1 0) *v (2 * v * (1 - v) * (1 - u) ^ 2 * loss (1 - v) u)).
Proof.
  intros g d eps u v Sh Co Hdm He Hu Hv Off loss. unfold gbSurfaceEval. rewrite bary4 by (assumption || lra). cbn [bind].
  apply (quadratic4 g eps u v Sh Co); [lra|]. repeat split; apply Off; simpl; auto.
Qed.
Print Assumptions C87_quadratic.

(** Cubic patches at the centre of the regular domain with [n] sides: the weight
    of the central control point is zero for four sides, and negative for three. *)
Theorem C87_center : forall n vs dm g eps, (3 <= n)%nat -> regularVertices n = Some vs -> domainFrames pzero vs = Some dm -> shaped n 3 g ->
  0 < eps <= 1/3 -> eps <= 2 / INR n -> let x := 2 / INR n in
  gbSurfaceEval eps dm g pzero = Some (
    vsum n (fun i =>
      (gpoint g i 0 0 +v gpoint g i 1 0 *v 3 +v gpoint g i 2 0 *v 3 +v gpoint g i 3 0) *v (x ^ 3 / 16)
      +v (gpoint g i 0 1 +v gpoint g i 1 1 *v 3 +v gpoint g i 2 1 *v 3 +v gpoint g i 3 1) *v (3 * (1 - x) * x ^ 2 / 16))
    +v gb_cen g *v ((1 - x) * (1 - 2 * x))).
Proof.
  intros n vs dm g eps H3 Hv Hd Sh He Hn x. rewrite (center3 n vs dm g eps H3 Hv Hd Sh He Hn). apply (f_equal Some).
  assert (In : INR n <> 0) by (apply not_0_INR; lia). f_equal.
  - apply vsum_ext. intros i Hi. cbv zeta. replace (1 - (1 - 2 / INR n)) with x by (unfold x; ring). reflexivity.
  - f_equal. unfold x. field. exact In.
Qed.
Print Assumptions C87_center.

(** *** Coons patches *)

(** Corner based and generalized Coons patches coincide, and so do midpoint and
    midpoint Coons patches, everywhere. *)
Theorem C87_same : forall d eps sf u v, domainFrames pzero unit4 = Some d -> 0 < eps <= 1 / 3 -> sf_n sf = 4%nat -> ready sf -> 0 <= u <= 1 -> 0 <= v <= 1 ->
  cornerBasedEval eps d sf (at4 u v) = generalizedCoonsEval eps d sf (at4 u v) /\
  forall cp, midpointEval eps d sf cp (at4 u v) = midpointCoonsEval eps d sf cp (at4 u v).
Proof.
  intros d eps sf u v Hd He Hn Hr Hu Hv. unfold cornerBasedEval, generalizedCoonsEval, midpointEval, midpointCoonsEval.
  rewrite bilinear4, interconnected4, bary4, constrained4 by (assumption || lra). cbn [bind]. split; [apply corner_is_coons; (assumption || lra)|].
  intros cp. apply midpoint_is_coons; (assumption || lra).
Qed.
Print Assumptions C87_same.

(** Away from the corners the midpoint patches are the Coons patch of the four
    ribbons, whatever the central control point is. *)
Theorem C87_midpoint : forall d eps sf k cp u v, domainFrames pzero unit4 = Some d -> 0 < eps <= 1 / 3 -> sf_n sf = 4%nat -> ready sf -> 0 <= u <= 1 -> 0 <= v <= 1 ->
  eps <= u <= 1 - eps \/ eps <= v <= 1 - eps ->
  mEval k eps d sf cp (at4 u v) = Some (coonsPatch eps sf u v).
Proof.
  intros d eps sf k cp u v Hd He Hn Hr Hu Hv Off. assert (E : midpointEval eps d sf cp (at4 u v) = Some (coonsPatch eps sf u v)).
  { unfold midpointEval. rewrite bary4 by (assumption || lra). cbn [bind]. rewrite midpoint4 by (assumption || lra). apply (f_equal Some).
    unfold near. destruct (Rlt_dec u eps), (Rlt_dec v eps), (Rlt_dec (1 - u) eps), (Rlt_dec (1 - v) eps); try lra; v3ring. }
  destruct k; [exact E|]. cbn [mEval]. rewrite <- (proj2 (C87_same d eps sf u v Hd He Hn Hr Hu Hv) cp). exact E.
Qed.
Print Assumptions C87_midpoint.

(** Within the tolerance of two sides the central control point comes in. *)
Theorem C87_midpoint_corner : forall d eps sf k cp u v, domainFrames pzero unit4 = Some d -> 0 < eps <= 1 / 3 -> sf_n sf = 4%nat -> ready sf -> 0 <= u <= 1 -> 0 <= v <= 1 ->
  (u < eps -> v < eps -> mEval k eps d sf cp (at4 u v) = Some (coonsPatch eps sf u v +v (ribbonAt sf 3 (1 - v) u +v ribbonAt sf 0 u v -v cornerAt eps sf 3 u v -v cp) *v (1 - hpoly u * hpoly v))) /\
  (1 - u < eps -> v < eps -> mEval k eps d sf cp (at4 u v) = Some (coonsPatch eps sf u v +v (ribbonAt sf 0 u v +v ribbonAt sf 1 v (1 - u) -v cornerAt eps sf 0 v (1 - u) -v cp) *v (1 - hpoly (1 - u) * hpoly v))) /\
  (1 - u < eps -> 1 - v < eps -> mEval k eps d sf cp (at4 u v) = Some (coonsPatch eps sf u v +v (ribbonAt sf 1 v (1 - u) +v ribbonAt sf 2 (1 - u) (1 - v) -v cornerAt eps sf 1 (1 - u) (1 - v) -v cp) *v (1 - hpoly (1 - u) * hpoly (1 - v)))) /\
  (u < eps -> 1 - v < eps -> mEval k eps d sf cp (at4 u v) = Some (coonsPatch eps sf u v +v (ribbonAt sf 2 (1 - u) (1 - v) +v ribbonAt sf 3 (1 - v) u -v cornerAt eps sf 2 (1 - v) u -v cp) *v (1 - hpoly u * hpoly (1 - v)))).
Proof.
  intros d eps sf k cp u v Hd He Hn Hr Hu Hv.
  assert (E : mEval k eps d sf cp (at4 u v) = midpointPatch eps sf cp (sides4 u v)).
  { destruct k; cbn [mEval]; [|rewrite <- (proj2 (C87_same d eps sf u v Hd He Hn Hr Hu Hv) cp)]; unfold midpointEval; rewrite bary4 by (assumption || lra); reflexivity. }
  rewrite E, midpoint4 by (assumption || lra).
  repeat split; intros A B; apply (f_equal Some); unfold near; destruct (Rlt_dec u eps), (Rlt_dec v eps), (Rlt_dec (1 - u) eps), (Rlt_dec (1 - v) eps); try lra; v3ring.
Qed.
Print Assumptions C87_midpoint_corner.

(** C0 Coons patches are Coons patches of the four curves, plus what the curves
    differ from the cubics with the same ends and end derivatives. *)
Theorem C87_c0coons : forall d eps c0 c1 c2 c3 u v, domainFrames pzero unit4 = Some d -> 0 < eps <= 1 -> 0 <= u <= 1 -> 0 <= v <= 1 ->
  cpt c0 1 = cpt c1 0 -> cpt c1 1 = cpt c2 0 -> cpt c2 1 = cpt c3 0 -> cpt c3 1 = cpt c0 0 ->
  let rest c s := cubicOf c s -v cpt c s in
  c0coonsEval eps d [c0; c1; c2; c3] (at4 u v) = Some (coonsCurves (fun i => cpt (nth i [c0; c1; c2; c3] c0)) u v
    +v (rest c0 u +v rest c2 (1 - u)) *v (v * (1 - v) / 2) +v (rest c1 v +v rest c3 (1 - v)) *v (u * (1 - u) / 2)).
Proof.
  intros d eps c0 c1 c2 c3 u v Hd He Hu Hv E0 E1 E2 E3 rest. unfold c0coonsEval. rewrite bary4 by (assumption || lra). cbn [bind length].
  apply c0coons4; (assumption || lra).
Qed.
Print Assumptions C87_c0coons.
Theorem C87_c0coons_cubic : forall d eps c0 c1 c2 c3 u v, domainFrames pzero unit4 = Some d -> 0 < eps <= 1 -> 0 <= u <= 1 -> 0 <= v <= 1 ->
  cpt c0 1 = cpt c1 0 -> cpt c1 1 = cpt c2 0 -> cpt c2 1 = cpt c3 0 -> cpt c3 1 = cpt c0 0 ->
  (forall c s, In c [c0; c1; c2; c3] -> 0 <= s <= 1 -> cpt c s = cubicOf c s) ->
  c0coonsEval eps d [c0; c1; c2; c3] (at4 u v) = Some (coonsCurves (fun i => cpt (nth i [c0; c1; c2; c3] c0)) u v).
Proof.
  intros d eps c0 c1 c2 c3 u v Hd He Hu Hv E0 E1 E2 E3 Q. rewrite C87_c0coons by (assumption || lra). apply (f_equal Some). cbv zeta.
  rewrite <- (Q c0), <- (Q c1), <- (Q c2), <- (Q c3) by (simpl; auto; lra). v3ring.
Qed.
Print Assumptions C87_c0coons_cubic.

(** ** Examples *)


(** A cubic net with one twist point: nine 64ths of it in the middle, for every
    central control point.  A quadratic net with all points but the central one
    at zero: half of the central point in the middle, while a biquadratic surface
    has a quarter of it. *)
Example C87_example_tensor : forall eps c, 0 < eps <= 1 / 3 -> exists d g, domainFrames pzero unit4 = Some d /\
  setControlPoint (setCentral (initNetwork vzero (gbNew 0 0 vzero) 4 3) c) 0 1 1 (mkV3 64 0 128) = Some g /\
  gbSurfaceEval eps d g (at4 (1 / 2) (1 / 2)) = Some (mkV3 9 0 18) /\
  let g2 := setCentral (initNetwork vzero (gbNew 0 0 vzero) 4 2) c in
  gbSurfaceEval eps d g2 (at4 (1 / 2) (1 / 2)) = Some (c *v (1 / 2)) /\ tensor 2 (grid 2 g2) (1 / 2) (1 / 2) = c *v (1 / 4).
Proof.
  intros eps c He. destruct (proj1 (proj2 C87_domain)) as [d Hd]. exists d. eexists. split; [exact Hd|]. split; [reflexivity|].
  assert (Off : forall x y, In x [1 / 2; 1 - 1 / 2] -> In y [1 / 2; 1 - 1 / 2] -> eps <= x + y) by (intros x y [<-|[<-|[]]] [<-|[<-|[]]]; lra).
  set (g0 := setCentral (initNetwork vzero (gbNew 0 0 vzero) 4 3) c).
  assert (Sh : shaped 4 3 g0) by (apply (init_new vzero (gbNew 0 0 vzero) 4 3); left; cbn; lia).
  assert (Co : consistent 4 3 g0) by (apply (PropsGB.C45_init vzero (gbNew 0 0 vzero) 4 3); left; cbn; lia).
  split; [|split].
  - match goal with |- gbSurfaceEval eps d ?h _ = _ => set (g := h); assert (E : setControlPoint g0 0 1 1 (mkV3 64 0 128) = Some g) by reflexivity end.
    assert (Rg : inRange 4 3 (0, 1, 1)%nat) by (unfold inRange; lia). destruct (set_spec 4 3 g0 0 1 1 (mkV3 64 0 128) Sh Rg) as (g' & E' & S' & _). rewrite E in E'. injection E' as E'. 
    rewrite (C87_tensor 3 g d eps (1 / 2) (1 / 2) ltac:(lia)); [| |exact (set_consistent 4 3 g0 0 1 1 _ g Sh Rg Co E)|exact Hd|lra|lra|lra|exact Off].
    + apply (f_equal Some). unfold tensor, bezier, grid, gpoint, controlPoint, get3. cbn [vsum Nat.add Nat.mul Nat.sub Nat.ltb Nat.leb].
      destruct (bern_cubic (1 / 2)) as (-> & -> & -> & ->). simpl. v3field.
    + exact (eq_ind_r (shaped 4 3) S' (f_equal (fun x => x) E')).
  - assert (S2 : shaped 4 2 (setCentral (initNetwork vzero (gbNew 0 0 vzero) 4 2) c)) by (apply (init_new vzero (gbNew 0 0 vzero) 4 2); left; cbn; lia).
    assert (C2 : consistent 4 2 (setCentral (initNetwork vzero (gbNew 0 0 vzero) 4 2) c)) by (apply (PropsGB.C45_init vzero (gbNew 0 0 vzero) 4 2); left; cbn; lia).
    rewrite (C87_quadratic _ d eps (1 / 2) (1 / 2) S2 C2 Hd ltac:(lra) ltac:(lra) ltac:(lra) Off). apply (f_equal Some).
    unfold tensor, bezier, grid, gpoint, controlPoint, get3. cbn [vsum Nat.add Nat.mul Nat.sub Nat.ltb Nat.leb]. destruct (bern2 (1 / 2)) as (-> & -> & ->). simpl. v3field.
  - unfold tensor, bezier, grid, gpoint, controlPoint, get3. cbn [vsum Nat.add Nat.mul Nat.sub Nat.ltb Nat.leb]. destruct (bern2 (1 / 2)) as (-> & -> & ->). simpl. v3field.
Qed.

(** A cubic patch over a triangle whose control points are all at height 0 or 9
    and whose centre is at height -1. *)
Example C87_example_triangle : forall eps, 0 < eps <= 1 / 3 -> exists vs d, regularVertices 3 = Some vs /\ domainFrames pzero vs = Some d /\
  gbSurfaceEval eps d (setCentral (initNetwork vzero (gbNew 0 0 vzero) 3 3) (mkV3 0 0 9)) pzero = Some (mkV3 0 0 (-1)).
Proof.
  intros eps He. assert (I3 : INR 3 = 3) by (simpl; ring).
  assert (Hv : exists vs, regularVertices 3 = Some vs) by (unfold regularVertices; cbn [Nat.eqb]; rewrite fdiv_some by (rewrite I3; lra); eexists; reflexivity).
  destruct Hv as [vs Hv]. exists vs. destruct (domainFrames pzero vs) as [d|] eqn:Hd; [|rewrite frames_closed in Hd; discriminate Hd]. exists d. split; [exact Hv|]. split; [reflexivity|].
  rewrite (C87_center 3 vs d _ eps ltac:(lia) Hv Hd); [|apply (init_new vzero (gbNew 0 0 vzero) 3 3); left; cbn; lia|lra|rewrite I3; lra].
  apply (f_equal Some). rewrite I3. unfold gpoint, controlPoint, get3. simpl. v3field.
Qed.

(** The midpoint patch of a skew quadrilateral in its middle. *)
Example C87_example_coons : forall eps k cp, 0 < eps <= 1 / 3 -> exists d cs, domainFrames pzero unit4 = Some d /\
  ready (mkSurf 4 false (lineRibs PropsSurface.corners4) cs) /\
  mEval k eps d (mkSurf 4 false (lineRibs PropsSurface.corners4) cs) cp (at4 (1 / 2) (1 / 2)) = Some (mkV3 (1 / 2) (1 / 2) (1 / 4)).
Proof.
  intros eps k cp He. destruct (proj1 (proj2 C87_domain)) as [d Hd]. exists d. destruct (lineRibs_ok PropsSurface.corners4 ltac:(simpl; lia)) as (Cl & cs & U). exists cs.
  assert (Rd : ready (mkSurf 4 false (lineRibs PropsSurface.corners4) cs)) by (split; [exact Cl|exact U]). split; [exact Hd|]. split; [exact Rd|].
  rewrite C87_midpoint by (assumption || reflexivity || lra). apply (f_equal Some). unfold coonsPatch, ribbonAt, cornerAt. cbn [sf_ribbons sf_corners sf_gamma corrected].
  unfold updateCorners in U. change (length PropsSurface.corners4) with 4%nat in U.
  assert (N : forall i, (i < 4)%nat -> nth_error cs i = updateCorner 4 (lineRibs PropsSurface.corners4) i).
  { intros i Hi. apply (Base.mapM_nth _ _ _ i i U). destruct i as [|[|[|[|i]]]]; [reflexivity..|lia]. }
  rewrite !N by lia. unfold updateCorner, lineRibs. cbn [nxt Nat.add Nat.sub Nat.modulo Nat.divmod fst snd]. rewrite !tabulate_nth_error by (simpl; lia).
  unfold lineRib. cbn [bind sr_cross sr_curve cpt cder lineCurve cn_point cn_tan1 cn_tan2 cn_twist1 cn_twist2].
  destruct (Rlt_dec (1 - 1 / 2 + 1 / 2) eps); [exfalso; lra|]. destruct (Rlt_dec (1 / 2 + (1 - 1 / 2)) eps); [exfalso; lra|].
  destruct (Rlt_dec (1 - 1 / 2 + (1 - 1 / 2)) eps); [exfalso; lra|]. destruct (Rlt_dec (1 / 2 + 1 / 2) eps); [exfalso; lra|].
  unfold affine3, hpoly, corner_step. cbv [length PropsSurface.corners4 prv nxt Nat.add Nat.sub Nat.modulo Nat.divmod nth fst snd]. apply V3_ext; simpl; field.
Qed.
