(** Degree elevation of generalized Bezier patches with four sides: C88. *)
From Verif Require Import Base MeshModel MeshSpec GeomSpec DomainModel DomainProofs UtilModel UtilSpec UtilProofs ParamModel.
From Verif Require Import RibbonModel SurfaceModel SurfaceC0 GBModel GBSpec GBProofs GBEval FourSpec FourProofs FourProofs3 FourElev.
From Verif Require PropsGB PropsGB2 PropsFour.
Open Scope R_scope.

(** ** C88 *)

(** Away from the tolerance around the corners. *)
Definition away (eps u v : R) : Prop := forall x y, In x [u; 1 - u] -> In y [v; 1 - v] -> eps <= x + y.

(** Even degrees from four on: the patch stays the same on the whole square,
    whatever the weight settings are. *)
Theorem C88_even : forall deg g v0 c0 d0 l0 g' d eps u v, (4 <= deg)%nat -> (deg mod 2 = 0)%nat -> shaped 4 deg g -> consistent 4 deg g -> gb_dom g = 4%nat ->
  elevateDegree v0 c0 d0 l0 g = Some g' -> domainFrames pzero unit4 = Some d -> 0 < eps <= 1 / 2 -> 0 <= u <= 1 -> 0 <= v <= 1 ->
  gbSurfaceEval eps d g' (at4 u v) = gbSurfaceEval eps d g (at4 u v).
Proof.
  intros deg g v0 c0 d0 l0 g' d eps u v H4 Ev Sh Co Hdom El Hd He Hu Hv.
  destruct (PropsGB2.C52_values 4 deg g v0 c0 d0 l0 ltac:(lia) ltac:(lia) Sh Co Hdom) as (g1 & E1 & Sh' & _ & Val & Co' & _). rewrite El in E1. injection E1 as <-.
  assert (K : forall i, (i < 4)%nat -> gpoint g' i 0 0 = gpoint g i 0 0).
  { intros i Hi. unfold gpoint. rewrite Val by (unfold inRange; lia). unfold PropsGB2.elevatedPoint, PropsGB2.latticePoint. cbv zeta. destruct (Nat.leb_spec (2 * 0 + 1) deg); [|lia]. destruct (Nat.leb_spec (2 * (0 - 1) + 1) deg); [|lia].
    cbn [Nat.sub]. assert (N : INR (deg + 1) <> 0) by (apply not_0_INR; lia). cbn [INR]. apply V3_ext; cbn; field; exact N. }
  destruct (PropsFour.C87_tensor_corner deg g d eps u v ltac:(lia) Sh Co Hd He Hu Hv) as (A1 & A2 & A3 & A4).
  destruct (PropsFour.C87_tensor_corner (deg + 1) g' d eps u v ltac:(lia) Sh' Co' Hd He Hu Hv) as (B1 & B2 & B3 & B4).
  destruct (Rlt_dec (u + v) eps) as [L|L1]; [rewrite (A1 L), (B1 L), K by lia; reflexivity|].
  destruct (Rlt_dec (1 - u + v) eps) as [L|L2]; [rewrite (A2 L), (B2 L), K by lia; reflexivity|].
  destruct (Rlt_dec (1 - u + (1 - v)) eps) as [L|L3]; [rewrite (A3 L), (B3 L), K by lia; reflexivity|].
  destruct (Rlt_dec (u + (1 - v)) eps) as [L|L4]; [rewrite (A4 L), (B4 L), K by lia; reflexivity|].
  assert (Off : forall x y, In x [u; 1 - u] -> In y [v; 1 - v] -> eps <= x + y) by (intros x y [<-|[<-|[]]] [<-|[<-|[]]]; lra).
  rewrite (PropsFour.C87_tensor deg g d eps u v), (PropsFour.C87_tensor (deg + 1) g' d eps u v) by (assumption || lia || lra).
  apply (f_equal Some). apply (tensor_even deg g Co g' Val Ev).
Qed.
Print Assumptions C88_even.

(** Odd degrees from three on: the new central control point is the mean of its
    neighbours, so the patch changes by this multiple of the product of the two
    middle Bernstein polynomials.  [ring8] is the mean of the eight control points
    around the four innermost ones. *)
Theorem C88_odd : forall deg m g v0 c0 d0 l0 g' d eps u v, (2 <= m)%nat -> (deg + 1 = 2 * m)%nat -> shaped 4 deg g -> consistent 4 deg g -> gb_dom g = 4%nat ->
  elevateDegree v0 c0 d0 l0 g = Some g' -> domainFrames pzero unit4 = Some d -> 0 < eps <= 1 / 2 -> 0 <= u <= 1 -> 0 <= v <= 1 -> away eps u v ->
  let G := grid deg g in
  let inner4 := ((G (m - 1) (m - 1) +v G m (m - 1) +v G (m - 1) m +v G m m) *v (1 / 4))%nat in
  let ring8 := ((G (m - 1) (m - 2) +v G m (m - 2) +v G (m + 1) (m - 1) +v G (m + 1) m +v G m (m + 1) +v G (m - 1) (m + 1) +v G (m - 2) m +v G (m - 2) (m - 1)) *v (1 / 8))%nat in
  exists p, gbSurfaceEval eps d g (at4 u v) = Some p /\
    gbSurfaceEval eps d g' (at4 u v) = Some (p +v (ring8 -v inner4) *v ((INR m - 1) / (2 * INR m)) *v (bern (2 * m) m u * bern (2 * m) m v)).
Proof.
  intros deg m g v0 c0 d0 l0 g' d eps u v Hm Em Sh Co Hdom El Hd He Hu Hv Off G inner4 ring8.
  destruct (PropsGB2.C52_values 4 deg g v0 c0 d0 l0 ltac:(lia) ltac:(lia) Sh Co Hdom) as (g1 & E1 & Sh' & _ & Val & Co' & Cen). rewrite El in E1. injection E1 as <-.
  exists (tensor deg G u v). rewrite (PropsFour.C87_tensor deg g d eps u v), (PropsFour.C87_tensor (deg + 1) g' d eps u v) by (assumption || lia || lra). split; [reflexivity|].
  apply (f_equal Some). rewrite (tensor_odd deg g Co g' Val m Em u v), Cen. rewrite (center_elevated deg g m Sh Co Hm Em). rewrite <- Em. reflexivity.
Qed.
Print Assumptions C88_odd.

(** Quadratic patches: elevation gives the biquadratic surface, which the
    quadratic patch itself is not (C87). *)
Theorem C88_quadratic : forall g v0 c0 d0 l0 g' d eps u v, shaped 4 2 g -> consistent 4 2 g -> gb_dom g = 4%nat ->
  elevateDegree v0 c0 d0 l0 g = Some g' -> domainFrames pzero unit4 = Some d -> 0 < eps <= 1 / 2 -> 0 <= u <= 1 -> 0 <= v <= 1 -> away eps u v ->
  gbSurfaceEval eps d g' (at4 u v) = Some (tensor 2 (grid 2 g) u v).
Proof.
  intros g v0 c0 d0 l0 g' d eps u v Sh Co Hdom El Hd He Hu Hv Off.
  destruct (PropsGB2.C52_values 4 2 g v0 c0 d0 l0 ltac:(lia) ltac:(lia) Sh Co Hdom) as (g1 & E1 & Sh' & _ & Val & Co' & _). rewrite El in E1. injection E1 as <-.
  rewrite (PropsFour.C87_tensor (2 + 1) g' d eps u v) by (assumption || lia || lra). apply (f_equal Some). apply (tensor_even 2 g Co g' Val eq_refl).
Qed.
Print Assumptions C88_quadratic.

(** Repeated elevation, test.cc:216-222: [v0], [c0], [d0], [l0] are the contents
    of the objects made in each round. *)
Fixpoint elevateTimes (v0 c0 : nat -> V3) (d0 l0 : nat -> nat) (k : nat) (g : gbsurf) : option gbsurf :=
  match k with
  | O => Some g
  | S k' => g' <- elevateTimes v0 c0 d0 l0 k' g ;; elevateDegree (v0 k') (c0 k') (d0 k') (l0 k') g'
  end.

(** Any number of elevations, with any number of sides, keeps the boundary
    curves. *)
Theorem C88_repeated : forall n deg g v0 c0 d0 l0 k, (1 <= n)%nat -> (1 <= deg)%nat -> shaped n deg g -> consistent n deg g -> gb_dom g = n ->
  exists g', elevateTimes v0 c0 d0 l0 k g = Some g' /\ shaped n (deg + k) g' /\ consistent n (deg + k) g' /\ gb_dom g' = n /\
    forall i s, (i < n)%nat -> boundaryCurve g' (deg + k) i s = boundaryCurve g deg i s.
Proof.
  intros n deg g v0 c0 d0 l0 k Hn Hd Sh Co Dm. induction k as [|k (g1 & E1 & S1 & C1 & D1 & B1)].
  - exists g. replace (deg + 0)%nat with deg by lia. split; [reflexivity|]. split; [exact Sh|]. split; [exact Co|]. split; [exact Dm|]. reflexivity.
  - destruct (PropsGB2.C52_values n (deg + k) g1 (v0 k) (c0 k) (d0 k) (l0 k) Hn ltac:(lia) S1 C1 D1) as (g' & E' & S' & D' & _ & C' & _).
    exists g'. cbn [elevateTimes]. rewrite E1. cbn [bind]. replace (deg + S k)%nat with (deg + k + 1)%nat by lia. split; [exact E'|]. split; [exact S'|]. split; [exact C'|]. split; [exact D'|].
    intros i s Hi. rewrite <- (B1 i s Hi). exact (PropsGB2.C52_boundary n (deg + k) g1 (v0 k) (c0 k) (d0 k) (l0 k) g' i s Hn ltac:(lia) S1 C1 D1 E' Hi).
Qed.
Print Assumptions C88_repeated.

(** ** Example: a cubic net with one twist point, before and after elevation *)
Example C88_example : forall eps c, 0 < eps <= 1 / 3 -> exists d g g1 g', domainFrames pzero unit4 = Some d /\
  setControlPoint (setCentral (initNetwork vzero (gbNew 0 0 vzero) 4 3) c) 0 1 1 (mkV3 64 0 128) = Some g /\ gbSetupLoop g = Some g1 /\
  elevateDegree vzero vzero 0 0 g1 = Some g' /\
  gbSurfaceEval eps d g1 (at4 (1 / 2) (1 / 2)) = Some (mkV3 9 0 18) /\
  gbSurfaceEval eps d g' (at4 (1 / 2) (1 / 2)) = Some (mkV3 (135 / 16) 0 (135 / 8)).
Proof.
  intros eps c He. destruct (proj1 (proj2 PropsFour.C87_domain)) as [d Hd]. exists d.
  assert (Off : away eps (1 / 2) (1 / 2)) by (intros x y [<-|[<-|[]]] [<-|[<-|[]]]; lra).
  set (g0 := setCentral (initNetwork vzero (gbNew 0 0 vzero) 4 3) c).
  assert (Sh : shaped 4 3 g0) by (apply (init_new vzero (gbNew 0 0 vzero) 4 3); left; cbn; lia).
  assert (Co : consistent 4 3 g0) by (apply (PropsGB.C45_init vzero (gbNew 0 0 vzero) 4 3); left; cbn; lia).
  assert (Rg : inRange 4 3 (0, 1, 1)%nat) by (unfold inRange; lia).
  destruct (set_spec 4 3 g0 0 1 1 (mkV3 64 0 128) Sh Rg) as (g & E & S1 & _). pose proof (set_consistent 4 3 g0 0 1 1 (mkV3 64 0 128) g Sh Rg Co E) as C1.
  set (g1 := mkGB (gb_n g) (gb_deg g) (gb_lay g) (gb_cen g) (gb_nets g) (gb_sq g) (gb_n g)).
  assert (L1 : gbSetupLoop g = Some g1) by (injection E as <-; reflexivity).
  assert (V : forall i j k, controlPoint g1 i j k = controlPoint g i j k) by reflexivity.
  assert (P : forall i j k, gpoint g1 i j k = match controlPoint g i j k with Some p => p | None => vzero end) by reflexivity.
  assert (Dm : gb_dom g1 = 4%nat) by (injection E as <-; reflexivity).
  destruct (PropsGB2.C52_values 4 3 g1 vzero vzero 0 0 ltac:(lia) ltac:(lia) S1 C1 Dm) as (g' & E' & _).
  exists g, g1, g'. split; [exact Hd|]. split; [exact E|]. split; [exact L1|]. split; [exact E'|].
  destruct (C88_odd 3 2 g1 vzero vzero 0 0 g' d eps (1 / 2) (1 / 2) ltac:(lia) ltac:(lia) S1 C1 Dm E' Hd ltac:(lra) ltac:(lra) ltac:(lra) Off) as (p & Ep & Eq).
  rewrite Ep, Eq. rewrite (PropsFour.C87_tensor 3 g1 d eps (1 / 2) (1 / 2)) in Ep by (assumption || lia || lra). injection Ep as Ep.
  assert (T : p = mkV3 9 0 18).
  { rewrite <- Ep. unfold tensor, bezier, grid. cbn [vsum Nat.add Nat.mul Nat.sub Nat.ltb Nat.leb]. rewrite !P. injection E as <-.
    destruct (bern_cubic (1 / 2)) as (-> & -> & -> & ->). unfold controlPoint, get3. simpl. v3field. }
  rewrite T. split; [reflexivity|]. apply (f_equal Some). unfold grid. cbn [Nat.add Nat.mul Nat.sub Nat.ltb Nat.leb]. rewrite !P. injection E as <-. unfold controlPoint, get3, bern, Binomial.C. simpl. v3field.
Qed.
