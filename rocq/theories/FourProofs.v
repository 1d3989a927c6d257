(** Patches with four sides. *)
From Verif Require Import Base MeshModel MeshSpec GeomSpec DomainModel DomainProofs DomainPolygons UtilModel UtilSpec UtilProofs ParamModel ParamBary ParamMaps ParamRegular ParamTame ParamFar ParamFar2.
From Verif Require Import RibbonModel SurfaceModel SurfaceSpec SurfaceEval BlendProofs SurfaceBase GBModel GBSpec GBProofs GBEval TotalSpec FourSpec.
From Verif Require SuperDProofs.
Open Scope R_scope.

Section Square.
Variables (d : dom) (eps u v : R).
Hypothesis Hd : domainFrames pzero unit4 = Some d.
Hypothesis He : 0 < eps <= 1.
Let uv := at4 u v.

Lemma reg4 : regularVertices 4 = Some unit4.
Proof. reflexivity. Qed.

Lemma lambda4 : barycentric Wachspress eps d uv = Some [u * (1 - v); u * v; (1 - u) * v; (1 - u) * (1 - v)].
Proof.
  rewrite (bary_closed unit4 uv d (d_verts_eq _ _ _ Hd) ltac:(simpl; lia)) by (intros; cbn [baryRadius]; lra).
  assert (W : forall i, (i < 4)%nat -> wfun unit4 uv Wachspress i = 8 * nth i [u * (1 - v); u * v; (1 - u) * v; (1 - u) * (1 - v)] 0).
  { intros i Hi. unfold wfun, prodBut, prodBut2, bcr, tri, svec, uv, at4, vtx, unit4. destruct i as [|[|[|[|i]]]]; [| | | |lia];
    cbn [length prv nxt Nat.add Nat.sub Nat.modulo Nat.divmod nth fst snd baryRadius rprod Nat.eqb]; unfold sarea, pcross; cbn [px py psub]; field. }
  change (length unit4) with 4%nat. assert (T : rsum 4 (wfun unit4 uv Wachspress) = 8).
  { cbn [rsum]. rewrite !W by lia. cbn [nth]. ring. }
  rewrite T. destruct (Req_EM_T 8 0); [lra|]. apply (f_equal Some). unfold tabulate. cbn [seq map]. rewrite !W by lia. cbn [nth].
  repeat (apply (f_equal2 cons); [field|]). reflexivity.
Qed.

Lemma in4 : 0 <= u <= 1 -> 0 <= v <= 1 -> in_polygon unit4 uv.
Proof.
  intros Hu Hv k Hk. change (k < 4)%nat in Hk. unfold sarea, pcross, vtx, unit4, uv, at4. destruct k as [|[|[|[|k]]]]; [| | | |lia];
  cbn [length prv nxt Nat.add Nat.sub Nat.modulo Nat.divmod nth fst snd px py padd psub pscale]; simpl; lra.
Qed.
Lemma height4 : forall i, (i < 4)%nat -> hg unit4 i uv = nth i [v; 1 - u; 1 - v; u] 0.
Proof.
  intros i Hi. unfold hg, len2, sidevec, pnorm2, sarea, pcross, pdot, vtx, unit4, uv, at4. destruct i as [|[|[|[|i]]]]; [| | | |lia];
  cbn [length prv nxt Nat.add Nat.sub Nat.modulo Nat.divmod nth fst snd px py padd psub pscale]; simpl; field.
Qed.
Lemma len4 : forall i, (i < 4)%nat -> len2 unit4 i = 4.
Proof.
  intros i Hi. unfold len2, sidevec, pnorm2, pdot, vtx, unit4. destruct i as [|[|[|[|i]]]]; [| | | |lia];
  cbn [length prv nxt Nat.add Nat.sub Nat.modulo Nat.divmod nth fst snd px py padd psub pscale]; simpl; ring.
Qed.
Lemma norm4 : forall i, (i < 4)%nat -> pnorm (sidevec unit4 i) = 2.
Proof. intros i Hi. apply Rsqr_inj; [apply sqrt_pos|lra|]. unfold Rsqr. assert (E : pnorm (sidevec unit4 i) * pnorm (sidevec unit4 i) = len2 unit4 i) by (rewrite pnorm_sqr; reflexivity). rewrite E, len4 by exact Hi. lra. Qed.
Lemma sin4 : sin (2 * PI / INR 4) = 1.
Proof. replace (2 * PI / INR 4) with (PI / 2) by (simpl; field). apply sin_PI2. Qed.

Hypothesis Hu : 0 <= u <= 1.
Hypothesis Hv : 0 <= v <= 1.

Lemma four : forall k, (forall i, (i < 4)%nat -> mapToRibbon k eps d i uv = Some (nth i (sides4 u v) pzero)) -> mapToRibbons k eps d uv = Some (sides4 u v).
Proof. intros k M. unfold mapToRibbons. rewrite (d_n_eq _ _ _ Hd). change (length unit4) with 4%nat. cbn [seq mapM]. rewrite !M by lia. reflexivity. Qed.

Lemma bary4_at : forall i, (i < 4)%nat -> baryMap Wachspress eps d i uv = Some (nth i (sides4 u v) pzero).
Proof.
  intros i Hi. destruct (regular_convex 4 unit4 ltac:(lia) reg4) as (L & C & Ic). unfold baryMap. rewrite lambda4. cbn [bind]. unfold baryRibbon. rewrite (d_n_eq _ _ _ Hd). change (length unit4) with 4%nat.
  assert (Hp : (prv 4 i < 4)%nat) by (apply prv_lt; lia). assert (Hx : (nxt 4 i < 4)%nat) by (apply nxt_lt; lia).
  destruct (angle_some pzero unit4 d Hd ltac:(simpl; lia) C i Hi) as [al Ea]. destruct (angle_some pzero unit4 d Hd ltac:(simpl; lia) C (prv 4 i) Hp) as [be Eb].
  pose proof (angle_regular 4 unit4 d ltac:(lia) reg4 Hd i al Hi Ea) as Sa. pose proof (angle_regular 4 unit4 d ltac:(lia) reg4 Hd (prv 4 i) be Hp Eb) as Sb. rewrite sin4 in Sa, Sb.
  rewrite Ea, Eb. cbn [bind]. rewrite !(verts_nth pzero unit4 d Hd) by assumption. cbn [bind]. rewrite !(local_closed pzero unit4 d Hd ltac:(simpl; lia) C Ic) by assumption. cbn [bind].
  rewrite !(edgeLength_some pzero unit4 d Hd ltac:(simpl; lia)) by assumption. cbn [bind]. rewrite Sa, Sb, !norm4, !len4 by assumption. clear Ea Eb Sa Sb.
  destruct i as [|[|[|[|i]]]]; [| | | |lia]; cbn [prv nxt Nat.add Nat.sub Nat.modulo Nat.divmod nth fst snd nth_error bind sides4];
  unfold sidevec, vtx, pcross, unit4, uv, at4; cbn [length prv nxt Nat.add Nat.sub Nat.modulo Nat.divmod nth fst snd px py padd psub pscale];
  (destruct (Rlt_dec _ eps); [destruct (Rlt_dec _ eps); [exfalso; lra|]|]); (rewrite fdiv_some by (intros ZZ; lra)); cbn [bind]; apply (f_equal Some); apply V2_ext; cbn [px py]; field; intros ZZ; lra.
Qed.
Lemma bary4 : mapToRibbons (KBary Wachspress) eps d uv = Some (sides4 u v).
Proof. apply four. exact bary4_at. Qed.

Lemma constrained4 : eps <= 1 / 3 -> mapToRibbons (KConstrained Wachspress) eps d uv = Some (sides4 u v).
Proof.
  intros He3. apply four. intros i Hi. cbn [mapToRibbon]. unfold constrainedMap. rewrite (d_n_eq _ _ _ Hd). change (length unit4) with 4%nat.
  rewrite !bary4_at by (try apply prv_lt; try apply nxt_lt; lia). cbn [bind]. unfold constrainedRibbon.
  assert (X : px (nth (nxt 4 i) (sides4 u v) pzero) = py (nth i (sides4 u v) pzero) /\ 1 - px (nth (prv 4 i) (sides4 u v) pzero) = py (nth i (sides4 u v) pzero)).
  { destruct i as [|[|[|[|i]]]]; [| | | |lia]; cbn [prv nxt Nat.add Nat.sub Nat.modulo Nat.divmod nth fst snd sides4 px py]; split; lra. }
  destruct X as [-> ->]. set (sd := nth i (sides4 u v) pzero).
  destruct (singular_four eps (py sd) (1 - px sd) (1 - py sd) (px sd) ltac:(lra)) as (b0 & b1 & b2 & b3 & -> & Q0 & Q1 & Q2 & Q3 & S & _). cbn [bind nth_error].
  apply (f_equal Some). apply V2_ext; cbn [px py]; [reflexivity|]. replace (py sd * (b0 + b2) + py sd * b1 + py sd * b3) with (py sd * (b0 + b1 + b2 + b3)) by ring. rewrite S. ring.
Qed.

Lemma bilinear4_at : forall i, (i < 4)%nat -> bilinearMap eps d i uv = Some (nth i (sides4 u v) pzero).
Proof.
  intros i Hi. pose proof (bilinear_value 4 unit4 d ltac:(lia) reg4 Hd eps i uv Hi ltac:(lra) (in4 Hu Hv)) as B. cbv zeta in B. rewrite sin4 in B.
  rewrite !height4 in B by (try apply prv_lt; try apply nxt_lt; lia). rewrite B. clear B.
  destruct i as [|[|[|[|i]]]]; [| | | |lia]; cbn [length prv nxt Nat.add Nat.sub Nat.modulo Nat.divmod nth fst snd sides4]; (destruct (Rlt_dec _ _) as [Z|_]; [exfalso; lra|]); apply (f_equal Some); apply V2_ext; cbn [px py]; field; lra.
Qed.
Lemma bilinear4 : mapToRibbons KBilinear eps d uv = Some (sides4 u v).
Proof. apply four. exact bilinear4_at. Qed.
Lemma interconnected4 : mapToRibbons KInterconnected eps d uv = Some (sides4 u v).
Proof.
  apply four. intros i Hi. cbn [mapToRibbon]. unfold interconnectedMap. rewrite (d_n_eq _ _ _ Hd). change (length unit4) with 4%nat.
  rewrite !bilinear4_at by (try apply prv_lt; try apply nxt_lt; lia). cbn [bind].
  destruct i as [|[|[|[|i]]]]; [| | | |lia]; cbn [length prv nxt Nat.add Nat.sub Nat.modulo Nat.divmod nth fst snd sides4]; apply (f_equal Some); apply V2_ext; cbn [px py]; ring.
Qed.
Lemma multipliers4 : parallelMultipliers d = Some [1; 1; 1; 1].
Proof.
  destruct (regular_convex 4 unit4 ltac:(lia) reg4) as (L & C & Ic). unfold parallelMultipliers. rewrite (d_n_eq pzero unit4 d Hd).
  assert (M : forall i, (i < 4)%nat -> (m <- maxDist d i ;; fdiv 1 m) = Some 1).
  { intros i Hi. destruct (maxDist_some pzero unit4 d Hd ltac:(simpl; lia) C Ic i Hi) as (m & -> & P & U & (j & Hj & Em)). cbn [bind].
    assert (M1 : m = 1).
    { change (j < 4)%nat in Hj. pose proof (U 0%nat ltac:(simpl; lia)) as U0. pose proof (U 1%nat ltac:(simpl; lia)) as U1. pose proof (U 2%nat ltac:(simpl; lia)) as U2. pose proof (U 3%nat ltac:(simpl; lia)) as U3.
      revert U0 U1 U2 U3 Em. unfold len2, sidevec, pnorm2, sarea, pcross, pdot, vtx, unit4.
      destruct i as [|[|[|[|i]]]]; [| | | |lia]; destruct j as [|[|[|[|j]]]]; try lia;
      cbn [length prv nxt Nat.add Nat.sub Nat.modulo Nat.divmod nth fst snd px py padd psub pscale]; simpl; intros; lra. }
    rewrite M1, fdiv_some by lra. apply (f_equal Some). lra. }
  change (length unit4) with 4%nat. cbn [seq mapM]. rewrite (M 0%nat), (M 1%nat), (M 2%nat), (M 3%nat) by lia. reflexivity.
Qed.
Lemma parallel4 : mapToRibbons KParallel eps d uv = Some (sides4 u v).
Proof.
  destruct (regular_convex 4 unit4 ltac:(lia) reg4) as (L & C & Ic). apply four. intros i Hi. cbn [mapToRibbon]. rewrite multipliers4. cbn [bind].
  rewrite (parallel_any pzero unit4 d Hd ltac:(simpl; lia) C Ic eps [1; 1; 1; 1] i 1 uv (nth i (sides4 u v) pzero) Hi); [|destruct i as [|[|[|[|i]]]]; [reflexivity..|lia]|exact (bilinear4_at i Hi)].
  change (sarea (vtx unit4 (prv (length unit4) i)) (vtx unit4 i) uv / len2 unit4 i) with (hg unit4 i uv). rewrite height4 by exact Hi.
  destruct i as [|[|[|[|i]]]]; [| | | |lia]; cbn [nth sides4]; apply (f_equal Some); apply V2_ext; cbn [px py]; ring.
Qed.
End Square.

(** ** Sums over the grid *)
Definition quad (d : nat) (F : nat -> nat -> V3) : V3 := vsum (d + 1) (fun b => vsum (d + 1) (fun a => F a b)).
Lemma quad_ext : forall d F G, (forall a b, (a <= d)%nat -> (b <= d)%nat -> F a b = G a b) -> quad d F = quad d G.
Proof. intros d F G H. unfold quad. apply vsum_ext. intros b Hb. apply vsum_ext. intros a Ha. apply H; lia. Qed.
Lemma quad_add : forall d F G, quad d (fun a b => F a b +v G a b) = quad d F +v quad d G.
Proof. intros d F G. unfold quad. rewrite <- vsum_add. apply vsum_ext. intros b Hb. apply vsum_add. Qed.
Lemma quad_swap : forall d F, quad d (fun a b => F b a) = quad d F.
Proof. intros d F. unfold quad. rewrite SuperDProofs.vsum_swap. reflexivity. Qed.
Lemma quad_flip : forall d F, quad d (fun a b => F (d - a)%nat b) = quad d F.
Proof.
  intros d F. unfold quad. apply vsum_ext. intros b Hb. rewrite (UtilProofs.vsum_rev (d + 1) (fun a => F a b)). apply vsum_ext. intros a Ha. f_equal. lia.
Qed.
Lemma quad_rot : forall d F, quad d (fun a b => F b (d - a)%nat) = quad d F.
Proof. intros d F. rewrite (quad_flip d (fun a b => F b a)). apply quad_swap. Qed.
Lemma quad_rows : forall d F, vsum ((d + 1) / 2) (fun k => vsum (d + 1) (fun j => F j k)) = quad d (fun a b => if (2 * b <? d)%nat then F a b else vzero).
Proof.
  intros d F. unfold quad. set (l := ((d + 1) / 2)%nat). assert (Hl : (2 * l <= d + 1 /\ d <= 2 * l)%nat) by (unfold l; pose proof (Nat.div_mod (d + 1) 2 ltac:(lia)); pose proof (Nat.mod_upper_bound (d + 1) 2 ltac:(lia)); lia).
  clearbody l. assert (T : forall G, (forall i, (l <= i < d + 1)%nat -> G i = vzero) -> vsum (d + 1) G = vsum l G).
  { intros G Z. replace (d + 1)%nat with (l + (d + 1 - l))%nat by lia. rewrite vsum_app, (vsum_zero (d + 1 - l)) by (intros i Hi; apply Z; lia). v3ring. }
  rewrite (T (fun b => vsum (d + 1) (fun a => if (2 * b <? d)%nat then F a b else vzero))).
  2: { intros i Hi. apply vsum_zero. intros a Ha. destruct (Nat.ltb_spec (2 * i) d); [lia|reflexivity]. }
  apply vsum_ext. intros b Hb. destruct (Nat.ltb_spec (2 * b) d); [reflexivity|].
  (* b < l, d <= 2 b *) exfalso. lia.
Qed.

(** ** Factors *)
Definition psi (al : R) (a b : nat) : R := if ((a <? 2) && (b <? 2))%nat%bool then al else if (a =? b)%nat then 1 / 2 else if (a <? b)%nat then 0 else 1.
Lemma psi_sum : forall al be a b, al + be = 1 -> psi al a b + psi be b a = 1.
Proof.
  intros al be a b H. unfold psi. destruct (Nat.ltb_spec a 2), (Nat.ltb_spec b 2), (Nat.eqb_spec a b), (Nat.eqb_spec b a), (Nat.ltb_spec a b), (Nat.ltb_spec b a); cbn [andb]; try lia; lra.
Qed.
Lemma factor_first : forall d al be w a b, (3 <= d)%nat -> (2 * a < d)%nat -> (2 * b < d)%nat -> gbFactor d a b al be w = psi al a b * w.
Proof.
  intros d al be w a b Hd Ha Hb. unfold gbFactor, psi, above, meets.
  destruct (Nat.ltb_spec b 2), (Nat.ltb_spec a 2), (Nat.ltb_spec d 2), (Nat.ltb_spec (d - 2) a), (Nat.ltb_spec d b), (Nat.ltb_spec (d - b) a), (Nat.eqb_spec a b), (Nat.eqb_spec a (d - b)), (Nat.ltb_spec a b); cbn [andb orb]; try lia; lra.
Qed.
Lemma factor_last : forall d al be w a b, (3 <= d)%nat -> (2 * a < d)%nat -> (2 * b < d)%nat -> gbFactor d (d - a) b al be w = psi be a b * w.
Proof.
  intros d al be w a b Hd Ha Hb. unfold gbFactor, psi, above, meets.
  destruct (Nat.ltb_spec b 2), (Nat.ltb_spec (d - a) 2), (Nat.ltb_spec a 2), (Nat.ltb_spec d 2), (Nat.ltb_spec (d - 2) (d - a)), (Nat.ltb_spec d b), (Nat.ltb_spec (d - b) (d - a)), (Nat.eqb_spec (d - a) b), (Nat.eqb_spec (d - a) (d - b)), (Nat.ltb_spec (d - a) b), (Nat.eqb_spec a b), (Nat.ltb_spec a b); cbn [andb orb]; try lia; lra.
Qed.
Lemma factor_middle : forall d al be w a b, (3 <= d)%nat -> (2 * a = d)%nat -> (2 * b < d)%nat -> gbFactor d a b al be w = w.
Proof.
  intros d al be w a b Hd Ha Hb. unfold gbFactor, above, meets.
  destruct (Nat.ltb_spec b 2), (Nat.ltb_spec a 2), (Nat.ltb_spec d 2), (Nat.ltb_spec (d - 2) a), (Nat.ltb_spec d b), (Nat.ltb_spec (d - b) a), (Nat.eqb_spec a b), (Nat.eqb_spec a (d - b)), (Nat.ltb_spec a b); cbn [andb orb]; try lia; reflexivity.
Qed.
Lemma rat_sum : forall sq a b, 0 < a + b -> rat sq a b + rat sq b a = 1.
Proof. intros sq a b H. unfold rat. pose proof (sumsq_pos a b H). destruct sq; field; lra. Qed.

(** ** The tensor product *)
Section Tensor.
Variables (d : nat) (g : gbsurf) (u v eps : R).
Hypothesis Hd : (3 <= d)%nat.
Hypothesis Sh : shaped 4 d g.
Hypothesis Co : consistent 4 d g.
Hypothesis He : 0 < eps.
Hypothesis Off : eps <= u + v /\ eps <= (1 - u) + v /\ eps <= u + (1 - v) /\ eps <= (1 - u) + (1 - v).
Let S (i : nat) : R := nth i [u; v; 1 - u; 1 - v] 0.
Let D (i : nat) : R := nth i [v; 1 - u; 1 - v; u] 0.
Let N (a b : nat) : R := bern d a u * bern d b v.
Let c := gb_cen g.

Lemma twin4 : forall i j k, (i < 4)%nat -> (2 * j < d)%nat -> (2 * k < d)%nat -> cpv g i j k = cpv g (prv 4 i) (d - k) j.
Proof using Co.
  clear Hd. intros i j k Hi Hj Hk. unfold cpv. assert (M : mirror 4 d (i, j, k)%nat (prv 4 i, d - k, j)%nat) by (apply mirror_prv; lia).
  assert (L : forall x, (2 * x < d)%nat -> (x < (d + 1) / 2)%nat) by (intros x Hx; pose proof (Nat.div_mod (d + 1) 2 ltac:(lia)); pose proof (Nat.mod_upper_bound (d + 1) 2 ltac:(lia)); lia).
  assert (R1 : inRange 4 d (i, j, k)) by (unfold inRange; pose proof (L k Hk); lia).
  assert (R2 : inRange 4 d (prv 4 i, d - k, j)%nat) by (unfold inRange; pose proof (L j Hj); pose proof (prv_lt 4 i ltac:(lia)); lia).
  pose proof (Co _ _ R1 R2 M) as E. cbn [getp] in E. rewrite E. reflexivity.
Qed.

(** The weights of the four sides at a place of the grid. *)
Let X (i j k : nat) : V3 := (cpv g i j k -v c) *v wgt 4 d g S D i j k.
Let Y (i j k : nat) : V3 := if (2 * k <? d)%nat then X i j k else vzero.

Lemma place : forall a b, (a <= d)%nat -> (b <= d)%nat ->
  Y 0 a b +v Y 1 b (d - a) +v Y 2 (d - a) (d - b) +v Y 3 (d - b) a = (grid d g a b -v c) *v N a b.
Proof.
  intros a b Ha Hb. unfold Y, grid. fold (cpv g). change (gpoint g) with (cpv g).
  assert (R1 : rat (gb_sq g) u v + rat (gb_sq g) v u = 1) by (apply rat_sum; lra).
  assert (R2 : rat (gb_sq g) (1 - u) v + rat (gb_sq g) v (1 - u) = 1) by (apply rat_sum; lra).
  assert (R3 : rat (gb_sq g) (1 - v) u + rat (gb_sq g) u (1 - v) = 1) by (apply rat_sum; lra).
  assert (R4 : rat (gb_sq g) (1 - u) (1 - v) + rat (gb_sq g) (1 - v) (1 - u) = 1) by (apply rat_sum; lra).
  assert (B0 : forall x, (x <= d)%nat -> bern d (d - x) (1 - u) = bern d x u) by (intros x Hx; rewrite bern_sym by lia; f_equal; lia).
  assert (B1 : forall x, (x <= d)%nat -> bern d (d - x) (1 - v) = bern d x v) by (intros x Hx; rewrite bern_sym by lia; f_equal; lia).
  assert (W0 : X 0 a b = (cpv g 0 a b -v c) *v gbFactor d a b (rat (gb_sq g) u v) (rat (gb_sq g) (1 - u) v) (N a b)) by reflexivity.
  assert (W1 : X 1 b (d - a) = (cpv g 1 b (d - a) -v c) *v gbFactor d b (d - a) (rat (gb_sq g) v (1 - u)) (rat (gb_sq g) (1 - v) (1 - u)) (N a b)).
  { unfold N. rewrite <- (B0 a Ha), Rmult_comm. reflexivity. }
  assert (W2 : X 2 (d - a) (d - b) = (cpv g 2 (d - a) (d - b) -v c) *v gbFactor d (d - a) (d - b) (rat (gb_sq g) (1 - u) (1 - v)) (rat (gb_sq g) u (1 - v)) (N a b)).
  { unfold N. rewrite <- (B0 a Ha), <- (B1 b Hb). reflexivity. }
  assert (W3 : X 3 (d - b) a = (cpv g 3 (d - b) a -v c) *v gbFactor d (d - b) a (rat (gb_sq g) (1 - v) u) (rat (gb_sq g) v u) (N a b)).
  { unfold N. rewrite <- (B1 b Hb), Rmult_comm. reflexivity. }
  rewrite W0, W1, W2, W3. clear W0 W1 W2 W3 B0 B1. generalize (N a b). intros w.
  assert (Z : forall q x y, x + y = 1 -> q *v (x * w) +v q *v (y * w) = q *v w) by (intros q x y H; replace y with (1 - x) by lra; v3ring).
  assert (F1 : forall x, (x <= d)%nat -> (d - (d - x))%nat = x) by (intros; lia).
  destruct (Nat.lt_trichotomy (2 * a) d) as [La|[La|La]], (Nat.lt_trichotomy (2 * b) d) as [Lb|[Lb|Lb]];
    destruct (Nat.ltb_spec (2 * b) d), (Nat.ltb_spec (2 * (d - a)) d), (Nat.ltb_spec (2 * (d - b)) d), (Nat.ltb_spec (2 * a) d), (Nat.ltb_spec d (2 * b)), (Nat.ltb_spec d (2 * a)); try lia.
  - pose proof (twin4 0 a b ltac:(lia) La Lb) as T. cbn [prv Nat.add Nat.sub Nat.modulo Nat.divmod fst snd] in T. rewrite <- T. rewrite factor_first, factor_last by lia. rewrite <- (Z _ _ _ (psi_sum _ _ a b R1)). v3ring.
  - rewrite factor_middle by lia. v3ring.
  - pose proof (twin4 3 (d - b) a ltac:(lia) ltac:(lia) ltac:(lia)) as T. cbn [prv Nat.add Nat.sub Nat.modulo Nat.divmod fst snd] in T. rewrite T. rewrite factor_last, factor_first by lia.
    rewrite <- (Z _ _ _ (psi_sum _ _ a (d - b) (eq_trans (Rplus_comm _ _) R3))). v3ring.
  - rewrite factor_middle by lia. v3ring.
  - unfold c. v3ring.
  - rewrite factor_middle by lia. v3ring.
  - pose proof (twin4 1 b (d - a) ltac:(lia) ltac:(lia) ltac:(lia)) as T. cbn [prv Nat.add Nat.sub Nat.modulo Nat.divmod fst snd] in T. rewrite (F1 a Ha) in T. rewrite T. rewrite (factor_first d _ _ _ b (d - a)) by lia.
    rewrite <- (F1 a Ha) at 2. rewrite (factor_last d _ _ _ (d - a) b) by lia. rewrite <- (Z _ _ _ (psi_sum _ _ (d - a) b R2)). v3ring.
  - rewrite factor_middle by lia. v3ring.
  - pose proof (twin4 2 (d - a) (d - b) ltac:(lia) ltac:(lia) ltac:(lia)) as T. cbn [prv Nat.add Nat.sub Nat.modulo Nat.divmod fst snd] in T. rewrite (F1 b Hb) in T. rewrite <- T. rewrite (factor_first d _ _ _ (d - a) (d - b)) by lia.
    rewrite <- (F1 b Hb) at 2. rewrite (factor_last d _ _ _ (d - b) (d - a)) by lia. rewrite <- (Z _ _ _ (psi_sum _ _ (d - a) (d - b) R4)). v3ring.
Qed.

Lemma tensor4 : gbEval eps g (sides4 u v) = Some (tensor d (grid d g) u v).
Proof.
  assert (Hsd : forall i, (i < 4)%nat -> nth_error (sides4 u v) i = Some (mkV2 (S i) (D i))) by (intros i Hi; destruct i as [|[|[|[|i]]]]; [reflexivity..|lia]).
  rewrite (eval_sum 4 d g Sh S D (sides4 u v) Hsd eps He).
  2: { intros i Hi. unfold D. destruct i as [|[|[|[|i]]]]; [| | | |lia]; cbn [nxt Nat.add Nat.modulo Nat.divmod fst snd Nat.sub nth]; lra. }
  apply (f_equal Some). fold c.
  assert (E : forall i, vsum ((d + 1) / 2) (fun k => vsum (d + 1) (fun j => cpv g i j k *v wgt 4 d g S D i j k)) =
    quad d (Y i) +v c *v rsum ((d + 1) / 2) (fun k => rsum (d + 1) (fun j => wgt 4 d g S D i j k))).
  { intros i. assert (QY : quad d (Y i) = vsum ((d + 1) / 2) (fun k => vsum (d + 1) (fun j => X i j k))) by (rewrite quad_rows; reflexivity). rewrite QY, <- vsum_const. rewrite <- vsum_add. apply vsum_ext. intros k Hk. rewrite <- vsum_const, <- vsum_add. apply vsum_ext. intros j Hj. unfold X. v3ring. }
  cbn [vsum rsum]. rewrite !E.
  transitivity (quad d (Y 0%nat) +v quad d (Y 1%nat) +v quad d (Y 2%nat) +v quad d (Y 3%nat) +v c); [v3ring|].
  assert (Q0 : quad d (Y 1%nat) = quad d (fun a b => Y 1%nat b (d - a)%nat)) by (rewrite quad_rot; reflexivity).
  assert (Q1 : quad d (Y 3%nat) = quad d (fun a b => Y 3%nat (d - b)%nat a)).
  { rewrite <- (quad_flip d (Y 3%nat)). symmetry. apply (quad_swap d (fun a b => Y 3%nat (d - a)%nat b)). }
  assert (Q2 : quad d (Y 2%nat) = quad d (fun a b => Y 2%nat (d - a)%nat (d - b)%nat)).
  { rewrite <- (quad_rot d (Y 2%nat)). rewrite <- (quad_rot d (fun a b => Y 2%nat b (d - a)%nat)). reflexivity. }
  rewrite Q0, Q1, Q2, <- !quad_add. rewrite (quad_ext d _ (fun a b => (grid d g a b -v c) *v N a b)) by (intros a b Ha Hb; exact (place a b Ha Hb)).
  unfold tensor, bezier, quad, N.
  rewrite (vsum_ext (d + 1) (fun b => vsum (d + 1) (fun a => grid d g a b *v bern d a u) *v bern d b v) (fun b => vsum (d + 1) (fun a => (grid d g a b -v c) *v (bern d a u * bern d b v)) +v c *v bern d b v)).
  - rewrite vsum_add, vsum_const, bern_sum. v3ring.
  - intros b Hb. rewrite <- vsum_scale. transitivity (vsum (d + 1) (fun a => (grid d g a b -v c) *v (bern d a u * bern d b v)) +v vsum (d + 1) (fun a => (c *v bern d b v) *v bern d a u)).
    + rewrite <- vsum_add. apply vsum_ext. intros a Ha. v3ring.
    + rewrite vsum_const, bern_sum. v3ring.
Qed.
End Tensor.
