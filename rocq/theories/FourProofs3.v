(** C0 Coons patches and generalized Bezier patches of low degree. *)
From Verif Require Import Base MeshModel MeshSpec GeomSpec DomainModel DomainProofs DomainPolygons UtilModel UtilSpec UtilProofs ParamModel ParamSide ParamBary ParamMaps.
From Verif Require Import RibbonModel SurfaceModel SurfaceSpec SurfaceEval BlendProofs SurfaceProofs SurfaceC0 SurfaceCentre GBModel GBSpec GBProofs GBEval FourSpec FourProofs FourProofs2.
Open Scope R_scope.

Section Curves.
Variables (c0 c1 c2 c3 : curve) (u v : R).
Hypothesis E0 : cpt c0 1 = cpt c1 0.
Hypothesis E1 : cpt c1 1 = cpt c2 0.
Hypothesis E2 : cpt c2 1 = cpt c3 0.
Hypothesis E3 : cpt c3 1 = cpt c0 0.
Hypothesis Hu : 0 <= u <= 1.
Hypothesis Hv : 0 <= v <= 1.
Let cs := [c0; c1; c2; c3].
Let cf (i : nat) (s : R) : V3 := cpt (nth i cs c0) s.

Lemma ribbon_four : forall l c r o s h, cpt l 1 = cpt c 0 -> cpt c 1 = cpt r 0 -> cpt r 1 = cpt o 0 -> cpt o 1 = cpt l 0 -> 0 <= s <= 1 -> 0 <= h <= 1 ->
  coonsEval c (coonsUpdate o l c r o false) (mkV2 s h) =
  Some (cpt c s *v (1 - h) +v cubicOf o (1 - s) *v h +v (cpt l (1 - h) *v (1 - s) +v cpt r h *v s)
        -v (cpt c 0 *v ((1 - s) * (1 - h)) +v cpt r 0 *v (s * (1 - h)) +v cpt o 0 *v (s * h) +v cpt l 0 *v ((1 - s) * h))).
Proof.
  intros l c r o s h Hl Hr Ho Hp Hs Hh. unfold coonsEval, coonsUpdate. cbn [px py co_top co_left co_right co_bl co_br co_tl co_tr].
  rewrite !(clamp_id s), !(clamp_id h), !(clamp_id (1 - s)), !(clamp_id (1 - h)) by lra. rewrite cubic_value. cbn [bind]. apply (f_equal Some).
  rewrite Hr, Ho, <- Hp. unfold cubicOf, hpoly. apply V3_ext; cbn; field.
Qed.

Lemma c0coons4 : (rs <- mapM (coonsRibbon cs) (seq 0 4) ;; c0coons rs 4 (sides4 u v)) = Some (coonsCurves cf u v
  +v ((cubicOf c0 u -v cpt c0 u) +v (cubicOf c2 (1 - u) -v cpt c2 (1 - u))) *v (v * (1 - v) / 2)
  +v ((cubicOf c1 v -v cpt c1 v) +v (cubicOf c3 (1 - v) -v cpt c3 (1 - v))) *v (u * (1 - u) / 2)).
Proof.
  cbn [seq mapM]. unfold coonsRibbon, cs. cbn [length prv nxt Nat.add Nat.sub Nat.modulo Nat.divmod fst snd nth_error bind Nat.eqb].
  unfold c0coons. cbn [osum nth_error sides4 bind]. rewrite !ribbon_four by (assumption || lra). cbn [bind py]. apply (f_equal Some).
  unfold coonsCurves, cf, cs. cbn [nth]. replace (1 - (1 - u)) with u by ring. replace (1 - (1 - v)) with v by ring. apply V3_ext; cbn; field.
Qed.
End Curves.

(** ** Degree two *)
Definition turnRatio (sq : bool) (a b : R) : R := if sq then b * b / (a * a + b * b) else b / (a + b).

Section Quadratic.
Variables (g : gbsurf) (eps u v : R).
Hypothesis Sh : shaped 4 2 g.
Hypothesis Co : consistent 4 2 g.
Hypothesis He : 0 < eps.
Hypothesis Off : eps <= u + v /\ eps <= (1 - u) + v /\ eps <= u + (1 - v) /\ eps <= (1 - u) + (1 - v).

Let S (i : nat) : R := nth i [u; v; 1 - u; 1 - v] 0.
Let D (i : nat) : R := nth i [v; 1 - u; 1 - v; u] 0.
Let c := gb_cen g.

Lemma bern2 : forall t, bern 2 0 t = (1 - t) ^ 2 /\ bern 2 1 t = 2 * t * (1 - t) /\ bern 2 2 t = t ^ 2.
Proof. intros t. unfold bern, Binomial.C. simpl. repeat split; field. Qed.
Lemma quad_twin : forall i, (i < 4)%nat -> cpv g i 0 0 = cpv g (prv 4 i) 2 0.
Proof. intros i Hi. exact (twin4 2 g Co i 0 0 Hi ltac:(lia) ltac:(lia)). Qed.

Lemma quadratic4 : gbEval eps g (sides4 u v) = Some (tensor 2 (grid 2 g) u v
  +v (gb_cen g -v gpoint g 0 1 0) *v (2 * u * (1 - u) * (1 - v) ^ 2 * turnRatio (gb_sq g) u v)
  +v (gb_cen g -v gpoint g 1 1 0) *v (2 * v * (1 - v) * u ^ 2 * turnRatio (gb_sq g) v (1 - u))
  +v (gb_cen g -v gpoint g 2 1 0) *v (2 * u * (1 - u) * v ^ 2 * turnRatio (gb_sq g) (1 - u) (1 - v))
  +v (gb_cen g -v gpoint g 3 1 0) *v (2 * v * (1 - v) * (1 - u) ^ 2 * turnRatio (gb_sq g) (1 - v) u)).
Proof.
  assert (Hsd : forall i, (i < 4)%nat -> nth_error (sides4 u v) i = Some (mkV2 (S i) (D i))) by (intros i Hi; destruct i as [|[|[|[|i]]]]; [reflexivity..|lia]).
  rewrite (eval_sum 4 2 g Sh S D (sides4 u v) Hsd eps He).
  2: { intros i Hi. unfold D. destruct i as [|[|[|[|i]]]]; [| | | |lia]; cbn [nxt Nat.add Nat.modulo Nat.divmod fst snd Nat.sub nth]; lra. }
  apply (f_equal Some). change ((2 + 1) / 2)%nat with 1%nat. unfold wgt, gbFactor, above, meets.
  cbn [vsum rsum Nat.add Nat.sub Nat.ltb Nat.leb andb orb Nat.eqb prv nxt Nat.modulo Nat.divmod fst snd].
  unfold S, D. cbn [nth]. destruct (bern2 u) as (-> & -> & ->). destruct (bern2 v) as (-> & -> & ->). destruct (bern2 (1 - u)) as (-> & -> & ->). destruct (bern2 (1 - v)) as (-> & -> & ->).
  assert (T : forall a b, 0 < a + b -> rat (gb_sq g) b a = 1 - rat (gb_sq g) a b) by (intros a b H; pose proof (rat_sum (gb_sq g) a b H); lra).
  assert (Q : forall a b, 0 < a + b -> turnRatio (gb_sq g) a b = 1 - rat (gb_sq g) a b).
  { intros a b H. rewrite <- (T a b H). unfold turnRatio, rat. destruct (gb_sq g); f_equal; ring. }
  rewrite !Q by lra. rewrite (T u v), (T v (1 - u)), (T (1 - u) (1 - v)), (T (1 - v) u) by lra.
  rewrite (quad_twin 0), (quad_twin 1), (quad_twin 2), (quad_twin 3) by lia. cbn [prv Nat.add Nat.modulo Nat.divmod fst snd Nat.sub].
  unfold tensor, bezier, grid. cbn [vsum Nat.add Nat.mul Nat.sub Nat.ltb Nat.leb]. change (gpoint g) with (cpv g).
  rewrite (quad_twin 0), (quad_twin 2) by lia. cbn [prv Nat.add Nat.modulo Nat.divmod fst snd Nat.sub].
  destruct (bern2 u) as (-> & -> & ->). destruct (bern2 v) as (-> & -> & ->). v3ring.
Qed.
End Quadratic.

(** ** Degree three at the centre *)
Lemma center3 : forall n vs dm g eps, (3 <= n)%nat -> regularVertices n = Some vs -> domainFrames pzero vs = Some dm -> shaped n 3 g ->
  0 < eps <= 1/3 -> eps <= 2 / INR n -> gbSurfaceEval eps dm g pzero = Some (
    vsum n (fun i => let h := 1 - 2 / INR n in
      (gpoint g i 0 0 +v gpoint g i 1 0 *v 3 +v gpoint g i 2 0 *v 3 +v gpoint g i 3 0) *v ((1 - h) ^ 3 / 16)
      +v (gpoint g i 0 1 +v gpoint g i 1 1 *v 3 +v gpoint g i 2 1 *v 3 +v gpoint g i 3 1) *v (3 * h * (1 - h) ^ 2 / 16))
    +v gb_cen g *v ((1 - 2 / INR n) * (1 - 4 / INR n))).
Proof.
  intros n vs dm g eps H3 Hv Hd Sh He Hn. unfold gbSurfaceEval.
  pose proof (center_sds n vs dm H3 Hv Hd eps He Hn MKMidpoint) as M. cbn [mparam centerDist] in M. rewrite M. cbn [bind].
  assert (Hsd : forall i, (i < n)%nat -> nth_error (tabulate n (fun _ => mkV2 (1 / 2) (1 - 2 / INR n))) i = Some (mkV2 ((fun _ : nat => 1/2) i) ((fun _ : nat => 1 - 2 / INR n) i))) by (intros i Hi; apply tabulate_nth_error; exact Hi).
  assert (In : 3 <= INR n) by (replace 3 with (INR 3) by (simpl; ring); apply le_INR; lia).
  assert (Q : 0 < 2 / INR n <= 2 / 3).
  { split; [apply Rdiv_lt_0_compat; lra|]. apply (Rmult_le_reg_r (INR n)); [lra|]. unfold Rdiv at 1. rewrite Rmult_assoc, Rinv_l by lra. lra. }
  rewrite (eval_sum n 3 g Sh (fun _ : nat => 1/2) (fun _ : nat => 1 - 2 / INR n) _ Hsd eps ltac:(lra)) by (intros; lra).
  apply (f_equal Some). change ((3 + 1) / 2)%nat with 2%nat. set (h := 1 - 2 / INR n) in *.
  assert (W : forall i, rsum 2 (fun k => rsum (3 + 1) (fun j => wgt n 3 g (fun _ : nat => 1/2) (fun _ : nat => h) i j k)) = ((1 - h) ^ 3 + 3 * h * (1 - h) ^ 2) / 2).
  { intros i. unfold wgt, gbFactor, above, meets. cbn [rsum Nat.add Nat.sub Nat.ltb Nat.leb andb orb Nat.eqb].
    destruct (bern_cubic (1/2)) as (-> & -> & -> & ->). destruct (bern_cubic h) as (-> & -> & _ & _).
    unfold rat. destruct (gb_sq g); field; unfold h; nra. }
  f_equal.
  - apply vsum_ext. intros i Hi. cbv zeta. unfold wgt, gbFactor, above, meets. cbn [vsum Nat.add Nat.sub Nat.ltb Nat.leb andb orb Nat.eqb].
    destruct (bern_cubic (1/2)) as (-> & -> & -> & ->). destruct (bern_cubic h) as (-> & -> & _ & _). change (cpv g) with (gpoint g).
    assert (Rh : rat (gb_sq g) h h = 1 / 2) by (unfold rat; destruct (gb_sq g); field; unfold h; nra). rewrite Rh. v3field.
  - f_equal. rewrite (rsum_ext n _ (fun _ => ((1 - h) ^ 3 + 3 * h * (1 - h) ^ 2) / 2)) by (intros i Hi; apply W).
    rewrite rsum_const. unfold h. field. lra.
Qed.
