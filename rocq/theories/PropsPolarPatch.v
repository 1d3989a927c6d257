(** Properties of polar patches: C67. *)
From Verif Require Import Base MeshModel GeomSpec UtilModel UtilSpec UtilProofs LinAlg FEMSpec LinSolve BernPoly DomainModel DomainProofs ParamModel ParamBary ParamMaps ParamTame PolarModel PolarProofs.
From Verif Require Import PropsParam PropsPolar PolarDefined RibbonModel RibbonProofs SurfaceModel SurfaceSpec BlendProofs BlendProps PolarPatchModel PolarPatchProofs.
From Coq Require Import Reals List Lia Lra.
Import ListNotations.
Open Scope R_scope.

(** A polynomial curve of degree at most [m] that agrees with [c] at 0, 1/m, ..., 1. *)
Definition interpolant (m : nat) (c I : R -> V3) : Prop :=
  vpoly m I /\ forall j, (j <= m)%nat -> I (INR j / INR m) = c (INR j / INR m).

(** The boundary curves form a closed loop of [n] curves, none of them closed itself. *)
Definition polar_loop (n : nat) (sf : surf) : Prop :=
  sf_n sf = n /\ length (sf_ribbons sf) = n /\
  (forall i r r', nth_error (sf_ribbons sf) i = Some r -> nth_error (sf_ribbons sf) (nxt n i) = Some r' -> cpt (sr_curve r') 0 = cpt (sr_curve r) 1) /\
  (forall i r, nth_error (sf_ribbons sf) i = Some r -> cpt (sr_curve r) 0 <> cpt (sr_curve r) 1).

(** What the second chord [b] is missed by: [a] and [b] are the chords of the two
    curves from their common corner. *)
Definition drift (a b : V3) : V3 :=
  let co := vdot a b / (vnorm a * vnorm b) in (a *v (co * vnorm b / vnorm a) -v b) *v (1 - sqrt (1 - co * co)).

Lemma chord_cos : forall a b, vnorm a <> 0 -> vnorm b <> 0 -> let co := vdot a b / (vnorm a * vnorm b) in co * co <= 1.
Proof.
  intros a b A B co. pose proof (cauchy a b) as C. pose proof (vnorm_sqr a) as SA. pose proof (vnorm_sqr b) as SB.
  assert (PA : 0 < vnorm a * vnorm a) by nra. assert (PB : 0 < vnorm b * vnorm b) by nra.
  unfold co. replace (vdot a b / (vnorm a * vnorm b) * (vdot a b / (vnorm a * vnorm b))) with (vdot a b * vdot a b / ((vnorm a * vnorm a) * (vnorm b * vnorm b))) by (field; split; assumption).
  apply (Rmult_le_reg_r ((vnorm a * vnorm a) * (vnorm b * vnorm b))); [nra|]. unfold Rdiv. rewrite Rmult_assoc, Rinv_l by nra. rewrite <- SA, <- SB in C. lra.
Qed.

Lemma vnorm_nz : forall a, a <> vzero -> vnorm a <> 0.
Proof. intros a N. destruct (normalize_some a N) as [b E]. destruct (normalize_inv a b E) as (_ & X & _). exact X. Qed.

(** ** C67: a drift of zero means perpendicular or parallel chords. *)
Theorem C67_drift : forall a b, a <> vzero -> b <> vzero -> (drift a b = vzero <-> vdot a b = 0 \/ vcross a b = vzero).
Proof.
  intros a b Na Nb. apply vnorm_nz in Na, Nb. pose proof (chord_cos a b Na Nb) as C. cbv zeta in C. pose proof (vnorm_sqr a) as SA. pose proof (vnorm_sqr b) as SB.
  set (A := vnorm a) in *. set (B := vnorm b) in *. unfold drift. fold A B. set (co := vdot a b / (A * B)) in *.
  assert (Dc : vdot a b = co * (A * B)) by (unfold co; field; split; assumption).
  split.
  - intros E. destruct (Req_dec (1 - sqrt (1 - co * co)) 0) as [Z|Z].
    + left. assert (Q : sqrt (1 - co * co) * sqrt (1 - co * co) = 1 - co * co) by (apply sqrt_sqrt; lra). rewrite Dc.
      assert (co * co = 0) by (replace (sqrt (1 - co * co)) with 1 in Q by lra; lra). assert (co = 0) by (destruct (Rmult_integral co co H); assumption). rewrite H0. ring.
    + right. set (k := co * B / A) in *. assert (Eb : b = a *v k).
      { apply (f_equal (fun v => v *v / (1 - sqrt (1 - co * co)))) in E.
        apply V3_ext; [apply (f_equal vx) in E|apply (f_equal vy) in E|apply (f_equal vz) in E]; simpl in E |- *;
          rewrite Rmult_0_l, Rmult_assoc, Rinv_r, Rmult_1_r in E by exact Z; lra. }
      rewrite Eb. unfold vcross. v3ring.
  - intros [D|D].
    + assert (Z : co = 0) by (unfold co; rewrite D; field; split; assumption). rewrite Z. replace (1 - 0 * 0) with 1 by ring. rewrite sqrt_1. v3ring.
    +
      assert (T : a *v vdot a b = b *v vdot a a).
      { assert (X : vcross (vcross a b) a = vzero) by (rewrite D; unfold vcross, vzero; v3ring).
        assert (Y : vcross (vcross a b) a = b *v vdot a a -v a *v vdot a b) by (unfold vcross, vdot; v3ring).
        rewrite Y in X. apply V3_ext; [apply (f_equal vx) in X|apply (f_equal vy) in X|apply (f_equal vz) in X]; simpl in X |- *; lra. }
      assert (G : a *v (co * B / A) = b).
      { rewrite Dc, <- SA in T. apply V3_ext; [apply (f_equal vx) in T|apply (f_equal vy) in T|apply (f_equal vz) in T]; simpl in T |- *.
        - apply (Rmult_eq_reg_r (A * A)); [|nra]. rewrite <- T. field. assumption.
        - apply (Rmult_eq_reg_r (A * A)); [|nra]. rewrite <- T. field. assumption.
        - apply (Rmult_eq_reg_r (A * A)); [|nra]. rewrite <- T. field. assumption. }
      rewrite G. v3ring.
Qed.
Print Assumptions C67_drift.

(** A curve that is a polynomial of degree at most [m] is its own interpolant. *)
Theorem C67_polynomial : forall m c I, (1 <= m)%nat -> interpolant m c I -> vpoly m c -> forall t, I t = c t.
Proof. intros m c I Hm [P N] C. apply (vpoly_unique m I c (fun j => INR j / INR m) P C (node_distinct m Hm)). intros k Hk. apply N. exact Hk. Qed.
Print Assumptions C67_polynomial.

Lemma interpolant_unique : forall m c I J, (1 <= m)%nat -> interpolant m c I -> interpolant m c J -> forall t, I t = J t.
Proof. intros m c I J Hm [P N] [P' N']. apply (vpoly_unique m I J (fun j => INR j / INR m) P P' (node_distinct m Hm)). intros k Hk. rewrite N, N' by exact Hk. reflexivity. Qed.

Lemma base_spec : forall inv cl cr psi p l1 l2 q, cpt cl 0 <> cpt cl 1 -> cpt cr 1 <> cpt cl 1 -> 0 < l1 -> 0 < l2 -> inv (mkV2 psi 0) = Some q ->
  exists Q, polarBase inv cl cr psi p l1 l2 = Some (cpt cl 1, Q, cpt cl 0, cpt cr 1, pnorm (q -p p)) /\
    (psi = 0 -> pnorm (q -p p) = l1 -> Q = cpt cl 0) /\
    (psi = 1 -> pnorm (q -p p) = l2 -> Q = cpt cr 1 +v drift (cpt cl 0 -v cpt cl 1) (cpt cr 1 -v cpt cl 1)).
Proof.
  intros inv cl cr psi p l1 l2 q N1 N2 H1 H2 Eq. unfold polarBase. set (a := cpt cl 0 -v cpt cl 1). set (b := cpt cr 1 -v cpt cl 1).
  assert (SubNz : forall x y : V3, x <> y -> x -v y <> vzero).
  { intros x y N E. apply N. apply V3_ext; [apply (f_equal vx) in E|apply (f_equal vy) in E|apply (f_equal vz) in E]; simpl in E; lra. }
  destruct (normalize_some a (SubNz _ _ N1)) as [D1 E1]. destruct (normalize_some b (SubNz _ _ N2)) as [D2 E2].
  rewrite E1, E2. cbn [bind]. rewrite Eq. cbn [bind]. rewrite !fdiv_some by lra. cbn [bind]. eexists. split; [reflexivity|].
  destruct (normalize_inv a D1 E1) as (U1 & A0 & F1). destruct (normalize_inv b D2 E2) as (U2 & B0 & F2).
  assert (F1' : D1 *v vnorm a = a) by (rewrite F1; apply V3_ext; simpl; field; assumption).
  assert (F2' : D2 *v vnorm b = b) by (rewrite F2; apply V3_ext; simpl; field; assumption).
  split.
  - intros -> L. rewrite Rmult_0_l, cos_0, sin_0, L.
    replace (cpt cl 0) with (cpt cl 1 +v D1 *v vnorm a) by (rewrite F1'; unfold a; v3ring).
    apply V3_ext; simpl; field; split; lra.
  - intros -> L. rewrite L, Rmult_1_l.
    assert (CB := cauchy D1 D2). rewrite U1, U2 in CB. rewrite clamp_id by nra. rewrite cos_acos by nra. rewrite sin_acos by nra.
    replace (l2 * ((1 - 1) * vnorm a / l1 + 1 * vnorm b / l2)) with (vnorm b) by (field; split; lra).
    assert (CO : vdot D1 D2 = vdot a b / (vnorm a * vnorm b)).
    { rewrite F1, F2. unfold vdot. simpl. field. split; assumption. }
    unfold drift. rewrite <- CO. set (co := vdot D1 D2) in *. unfold Rsqr. set (si := sqrt (1 - co * co)).
    replace (vcross (vcross D1 D2) D1) with (D2 -v D1 *v co).
    2:{ transitivity (D2 *v vdot D1 D1 -v D1 *v vdot D1 D2); [rewrite U1; fold co; v3ring|unfold vcross, vdot; v3ring]. }
    replace (cpt cr 1) with (cpt cl 1 +v D2 *v vnorm b) by (rewrite F2'; unfold b; v3ring).
    clearbody si. clear CO CB E1 E2. clearbody co. set (A := vnorm a) in *. set (B := vnorm b) in *. clearbody A B. rewrite <- F1', <- F2'. apply V3_ext; simpl; field; assumption.
Qed.

Section Ribbon.
Variable solve : nat -> (nat -> nat -> R) -> (nat -> V3) -> nat -> V3.
Hypothesis X : exact_solver solve.
Variables (M : nat) (eps : R) (dm : dom) (sf : surf) (i : nat) (rl rr : sribbon).
Let vs := d_verts dm.
Let n := length vs.
Hypothesis Dn : d_n dm = n.
Hypothesis H3 : (3 <= n)%nat.
Hypothesis C : strictly_convex vs.
Hypothesis Hi : (i < n)%nat.
Hypothesis He : 0 < eps <= 1/2.
Hypothesis Lp : polar_loop n sf.
Hypothesis El : nth_error (sf_ribbons sf) i = Some rl.
Hypothesis Er : nth_error (sf_ribbons sf) (nxt n i) = Some rr.
Let m := Nat.max 1 M.

Lemma side_length : forall j, (j < n)%nat -> edgeLength dm j = Some (pnorm (vtx vs j -p vtx vs (prv n j))) /\ 0 < pnorm (vtx vs j -p vtx vs (prv n j)).
Proof.
  intros j Hj. assert (Hp : (prv n j < n)%nat) by (apply prv_lt; lia). unfold edgeLength. rewrite Dn. fold vs.
  assert (V : forall k, (k < n)%nat -> nth_error vs k = Some (vtx vs k)) by (intros k Hk; apply nth_error_nth'; exact Hk).
  rewrite !V by assumption. cbn [bind]. split; [reflexivity|].
  exact (sidelen_pos vs H3 C j Hj).
Qed.

Lemma ends_differ : cpt (sr_curve rl) 0 <> cpt (sr_curve rl) 1 /\ cpt (sr_curve rr) 1 <> cpt (sr_curve rl) 1 /\ cpt (sr_curve rr) 0 = cpt (sr_curve rl) 1.
Proof.
  destruct Lp as (Ln & _ & Cl & Op). pose proof (Cl i rl rr El Er) as A. pose proof (Op _ _ El) as B. pose proof (Op _ _ Er) as B'. split; [exact B|]. split; [|exact A].
  rewrite A in B'. congruence.
Qed.

(** Common to both sides at the vertex. *)
Lemma ribbon_value : forall psi z dd, 0 <= dd <= 1 -> (forall x, polarInverse eps dm i (mkV2 psi x) = Some (vtx vs i *p x +p z *p (1 - x))) ->
  0 < pnorm (z -p vtx vs i) ->
  exists Q lft rgt, polarBase (polarInverse eps dm i) (sr_curve rl) (sr_curve rr) psi (vtx vs i) (pnorm (vtx vs i -p vtx vs (prv n i))) (pnorm (vtx vs (nxt n i) -p vtx vs i)) =
      Some (cpt (sr_curve rl) 1, Q, cpt (sr_curve rl) 0, cpt (sr_curve rr) 1, pnorm (z -p vtx vs i)) /\
    (psi = 0 -> pnorm (z -p vtx vs i) = pnorm (vtx vs i -p vtx vs (prv n i)) -> Q = cpt (sr_curve rl) 0) /\
    (psi = 1 -> pnorm (z -p vtx vs i) = pnorm (vtx vs (nxt n i) -p vtx vs i) -> Q = cpt (sr_curve rr) 1 +v drift (cpt (sr_curve rl) 0 -v cpt (sr_curve rl) 1) (cpt (sr_curve rr) 1 -v cpt (sr_curve rl) 1)) /\
    length lft = (m + 1)%nat /\ length rgt = (m + 1)%nat /\
    (forall j, (j <= m)%nat -> let u := INR j / INR m in bezier m (pnth lft) u = cpt (sr_curve rl) (1 - u) /\ bezier m (pnth rgt) u = cpt (sr_curve rr) u) /\
    forall dd, 0 <= dd <= 1 -> polarRibbon solve M eps dm sf i (mkV2 psi dd) = Some (bezier m (pnth lft) (1 - dd) *v (1 - psi) +v bezier m (pnth rgt) (1 - dd) *v psi
      +v (Q -v (cpt (sr_curve rl) 0 *v (1 - psi) +v cpt (sr_curve rr) 1 *v psi)) *v (1 - dd)).
Proof.
  intros psi z _ _ Hinv Hz. assert (Hx : (nxt n i < n)%nat) by (apply nxt_lt; lia).
  destruct (side_length i Hi) as [S1 P1]. destruct (side_length _ Hx) as [S2 P2]. rewrite prv_nxt in S2, P2 by exact Hi.
  destruct ends_differ as (N1 & N2 & N3).
  destruct (base_spec (polarInverse eps dm i) (sr_curve rl) (sr_curve rr) psi (vtx vs i) _ _ _ N1 N2 P1 P2 (Hinv 0)) as (Q & B & Q0 & Q1).
  replace (vtx vs i *p 0 +p z *p (1 - 0)) with z in B, Q0, Q1 by (apply V2_ext; simpl; ring).
  destruct (all_reached solve X (polarInverse eps dm i) (sr_curve rl) (sr_curve rr) psi (vtx vs i) z Hinv Hz Q (M - 1) N3) as (((crv & lft) & rgt) & F & Rc).
  replace (M - 1 + 1)%nat with m in Rc by (unfold m; lia). destruct Rc as (Lc & Ll & Lr & Nd & Cv).
  exists Q, lft, rgt. split; [exact B|]. split; [exact Q0|]. split; [exact Q1|]. split; [exact Ll|]. split; [exact Lr|]. split; [exact Nd|].
  intros dd Hd. unfold polarRibbon. cbn [px py]. destruct Lp as (Ln & _). rewrite Ln, El, Er. cbn [bind]. rewrite S1, S2. cbn [bind].
  assert (Vi : nth_error (d_verts dm) i = Some (vtx vs i)) by (apply nth_error_nth'; exact Hi). rewrite Vi. cbn [bind]. rewrite B. cbn [bind].
  rewrite F. cbn [bind]. rewrite (bcEval_spec crv m _ Lc), Cv, clamp_id by lra. reflexivity.
Qed.
End Ribbon.

(** The ribbon along the side that ends at the vertex: the interpolant of its curve. *)
Theorem C67_first : forall solve M eps dm sf i rl, let vs := d_verts dm in let n := length vs in let m := Nat.max 1 M in
  exact_solver solve -> d_n dm = n -> (3 <= n)%nat -> strictly_convex vs -> (i < n)%nat -> 0 < eps <= 1/2 -> polar_loop n sf ->
  nth_error (sf_ribbons sf) i = Some rl ->
  exists I, interpolant m (cpt (sr_curve rl)) I /\ forall dd, 0 <= dd <= 1 -> polarRibbon solve M eps dm sf i (mkV2 0 dd) = Some (I dd).
Proof.
  intros solve M eps dm sf i rl vs n m X Dn H3 C Hi He Lp El.
  assert (Hx : (nxt n i < n)%nat) by (apply nxt_lt; lia).
  assert (Er : exists rr, nth_error (sf_ribbons sf) (nxt n i) = Some rr).
  { destruct Lp as (_ & Ll & _). destruct (nth_error (sf_ribbons sf) (nxt n i)) as [rr|] eqn:E; [eexists; reflexivity|]. apply nth_error_None in E. lia. }
  destruct Er as [rr Er].
  destruct (side_length M dm i Dn H3 C Hi i Hi) as [_ P1]. fold vs n in P1.
  assert (Hsym : pnorm (vtx vs (prv n i) -p vtx vs i) = pnorm (vtx vs i -p vtx vs (prv n i))) by (unfold pnorm, pdot; f_equal; simpl; ring).
  destruct (ribbon_value solve X M eps dm sf i rl rr Dn H3 C Hi Lp El Er 0 (vtx vs (prv n i)) 0 ltac:(lra)) as (Q & lft & rgt & _ & Q0 & _ & Ll & Lr & Nd & V).
  - intros x. exact (proj1 (C61_inverse_sides dm i eps 0 x Dn H3 Hi He) ltac:(lra)).
  - fold vs. rewrite Hsym. exact P1.
  - fold vs n in Q0, V. rewrite (Q0 eq_refl Hsym) in V. clear Q0. fold m in Ll, Lr, Nd, V.
    exists (fun t => bezier m (pnth lft) (1 - t)). split.
    + split; [exact (vpoly_rev m (bezier m (pnth lft)) (vpoly_bezier m (pnth lft)))|]. intros j Hj. assert (Mz : INR m <> 0) by (apply not_0_INR; unfold m; lia).
      replace (1 - INR j / INR m) with (INR (m - j) / INR m) by (rewrite minus_INR by exact Hj; field; exact Mz).
      rewrite (proj1 (Nd (m - j)%nat ltac:(lia))). f_equal. rewrite minus_INR by exact Hj. field. exact Mz.
    + intros dd Hd. rewrite (V dd Hd). f_equal. v3ring.
Qed.
Print Assumptions C67_first.

(** The ribbon along the other side: the interpolant of that curve plus a drift that
    grows linearly from the vertex. *)
Theorem C67_second : forall solve M eps dm sf i rl rr, let vs := d_verts dm in let n := length vs in let m := Nat.max 1 M in
  exact_solver solve -> d_n dm = n -> (3 <= n)%nat -> strictly_convex vs -> (i < n)%nat -> 0 < eps <= 1/2 -> polar_loop n sf ->
  nth_error (sf_ribbons sf) i = Some rl -> nth_error (sf_ribbons sf) (nxt n i) = Some rr ->
  let a := cpt (sr_curve rl) 0 -v cpt (sr_curve rl) 1 in let b := cpt (sr_curve rr) 1 -v cpt (sr_curve rl) 1 in
  exists I, interpolant m (cpt (sr_curve rr)) I /\ forall dd, 0 <= dd <= 1 ->
    polarRibbon solve M eps dm sf i (mkV2 1 dd) = Some (I (1 - dd) +v drift a b *v (1 - dd)).
Proof.
  intros solve M eps dm sf i rl rr vs n m X Dn H3 C Hi He Lp El Er a b.
  assert (Hx : (nxt n i < n)%nat) by (apply nxt_lt; lia).
  destruct (side_length M dm i Dn H3 C Hi _ Hx) as [_ P2]. fold vs n in P2. rewrite prv_nxt in P2 by exact Hi.
  destruct (ribbon_value solve X M eps dm sf i rl rr Dn H3 C Hi Lp El Er 1 (vtx vs (nxt n i)) 0 ltac:(lra)) as (Q & lft & rgt & _ & _ & Q1 & Ll & Lr & Nd & V).
  - intros x. assert (E := proj2 (C61_inverse_sides dm i eps 1 x Dn H3 Hi He) ltac:(lra)). fold vs n in E |- *. rewrite E. f_equal. apply V2_ext; simpl; ring.
  - exact P2.
  - rewrite (Q1 eq_refl eq_refl) in V. clear Q1. fold m in Ll, Lr, Nd, V. fold a b in V.
    exists (bezier m (pnth rgt)). split.
    + split; [apply vpoly_bezier|]. intros j Hj. apply (Nd j Hj).
    + intros dd Hd. rewrite (V dd Hd). f_equal. v3ring.
Qed.
Print Assumptions C67_second.

(** The sweep line of the vertex at angle [th] is not too flat to the side it leaves through. *)
Definition sweep_clear (eps : R) (vs : list V2) (i : nat) (th : R) : Prop :=
  let n := length vs in let w := vtx vs (prv n i) -p vtx vs i in
  forall j, (j < n)%nat -> j <> i -> j <> nxt n i ->
    pcross (turned w th) (vtx vs (prv n j) -p vtx vs i) < 0 -> 0 <= pcross (turned w th) (vtx vs j -p vtx vs i) ->
    eps * pnorm w <= pcross (turned w th) (vtx vs j -p vtx vs (prv n j)).
Definition clear_domain (eps : R) (dm : dom) : Prop :=
  forall i al psi, (i < length (d_verts dm))%nat -> angle dm i = Some al -> eps <= psi <= 1 - eps -> sweep_clear eps (d_verts dm) i (psi * al).

Lemma round_total : forall solve inv cl cr psi p l k crv lft rgt, (forall x, exists q, inv (mkV2 psi x) = Some q) -> l <> 0 -> (1 <= k)%nat ->
  length crv = (k + 1)%nat -> length lft = (k + 1)%nat -> length rgt = (k + 1)%nat ->
  exists crv' lft' rgt', polarRound solve inv cl cr psi p l (crv, lft, rgt) (k + 1) = Some (crv', lft', rgt') /\
    length crv' = (k + 2)%nat /\ length lft' = (k + 2)%nat /\ length rgt' = (k + 2)%nat /\ pnth crv' 0 = pnth crv 0.
Proof.
  intros solve inv cl cr psi p l k crv lft rgt Hinv Hl Hk Lc Ll Lr.
  destruct (elevate_spec crv k Lc) as (c1 & Ec & Lc1 & C0 & _).
  destruct (elevate_spec lft k Ll) as (l1 & El & Ll1 & _).
  destruct (elevate_spec rgt k Lr) as (r1 & Er & Lr1 & _).
  unfold polarRound. rewrite Ec, El, Er. cbn [bind]. replace (k + 1 - 1)%nat with k by lia.
  assert (T : exists ss, mapM (polarSample inv cl cr psi p l (k + 1) c1 l1 r1) (seq 1 k) = Some ss).
  { set (f := polarSample inv cl cr psi p l (k + 1) c1 l1 r1).
    exists (map (fun j => match f j with Some x => x | None => (0, 0, vzero, vzero, vzero) end) (seq 1 k)). apply mapM_total. intros j _.
    assert (E : exists x, f j = Some x); [|destruct E as [x ->]; reflexivity].
    unfold f, polarSample. destruct (Hinv (1 - INR j / INR (k + 1))) as [q ->]. cbn [bind]. rewrite fdiv_some by exact Hl. cbn [bind].
    rewrite (bcEval_spec l1 (k + 1)) by lia. cbn [bind]. rewrite (bcEval_spec r1 (k + 1)) by lia. cbn [bind]. rewrite (bcEval_spec c1 (k + 1)) by lia. cbn [bind]. eexists; reflexivity. }
  destruct T as [ss Es]. rewrite Es. cbn [bind]. assert (Ls := mapM_length _ _ _ Es). rewrite seq_length in Ls.
  assert (LL : forall A (f : R * R * V3 * V3 * V3 -> A), length (map f ss) = (k + 1 - 1)%nat) by (intros; rewrite map_length; lia).
  destruct (refit_total solve l1 (k + 1) _ _ ltac:(lia) ltac:(lia) (LL R (fun '(u, _, _, _, _) => u)) (LL V3 (fun '(_, _, _, sl, _) => sl))) as (_ & _ & l2 & _ & -> & Ll2 & _). cbn [bind].
  destruct (refit_total solve r1 (k + 1) _ _ ltac:(lia) ltac:(lia) (LL R (fun '(u, _, _, _, _) => u)) (LL V3 (fun '(_, _, _, _, sr) => sr))) as (_ & _ & r2 & _ & -> & Lr2 & _). cbn [bind].
  destruct (refit_total solve c1 (k + 1) _ _ ltac:(lia) ltac:(lia) (LL R (fun '(_, pos, _, _, _) => pos)) (LL V3 (fun '(_, _, s, _, _) => s))) as (_ & _ & c2 & _ & -> & Lc2 & C2 & _). cbn [bind].
  exists c2, l2, r2. split; [reflexivity|]. split; [lia|]. split; [lia|]. split; [lia|]. congruence.
Qed.

Lemma rounds_total : forall solve inv cl cr psi p l P Q P1 P2 m, (forall x, exists q, inv (mkV2 psi x) = Some q) -> l <> 0 ->
  exists crv lft rgt, foldM (polarRound solve inv cl cr psi p l) ([P; Q], [P; P1], [P; P2]) (seq 2 m) = Some (crv, lft, rgt) /\
    length crv = (m + 2)%nat /\ length lft = (m + 2)%nat /\ length rgt = (m + 2)%nat /\ pnth crv 0 = P.
Proof.
  intros solve inv cl cr psi p l P Q P1 P2 m Hinv Hl. induction m as [|m (crv & lft & rgt & E & Lc & Ll & Lr & F)].
  - exists [P; Q], [P; P1], [P; P2]. repeat split; reflexivity.
  - rewrite seq_S, foldM_app, E. cbn [bind].
    destruct (round_total solve inv cl cr psi p l (m + 1) crv lft rgt Hinv Hl ltac:(lia) ltac:(lia) ltac:(lia) ltac:(lia)) as (c & a & b & E' & L1 & L2 & L3 & F').
    exists c, a, b. split; [|split; [lia|split; [lia|split; [lia|congruence]]]]. cbn [foldM]. replace (2 + m)%nat with (m + 1 + 1)%nat by lia. rewrite E'. reflexivity.
Qed.

(** On a domain without flat sweeps every ribbon is defined, and starts at its corner. *)
Theorem C67_defined : forall solve M eps dm sf i rl psi, let vs := d_verts dm in let n := length vs in
  d_n dm = n -> (3 <= n)%nat -> strictly_convex vs -> (i < n)%nat -> 0 < eps <= 1/2 -> polar_loop n sf -> clear_domain eps dm ->
  nth_error (sf_ribbons sf) i = Some rl ->
  forall dd, exists r, polarRibbon solve M eps dm sf i (mkV2 psi dd) = Some r /\ (1 <= dd -> r = cpt (sr_curve rl) 1).
Proof.
  intros solve M eps dm sf i rl psi vs n Dn H3 C Hi He Lp Cd El dd.
  assert (Hx : (nxt n i < n)%nat) by (apply nxt_lt; lia).
  assert (Er : exists rr, nth_error (sf_ribbons sf) (nxt n i) = Some rr).
  { destruct Lp as (_ & Ll & _). destruct (nth_error (sf_ribbons sf) (nxt n i)) as [rr|] eqn:E; [eexists; reflexivity|]. apply nth_error_None in E. lia. }
  destruct Er as [rr Er].
  destruct (side_length M dm i Dn H3 C Hi i Hi) as [S1 P1]. destruct (side_length M dm i Dn H3 C Hi _ Hx) as [S2 P2]. fold vs n in S1, P1, S2, P2. rewrite prv_nxt in S2, P2 by exact Hi.
  destruct (ends_differ dm sf i rl rr Lp El Er) as (N1 & N2 & N3).
  assert (Nz : forall p q : V2, q <> p -> 0 < pnorm (q -p p)).
  { intros p q N. apply sqrt_lt_R0. unfold pdot. simpl. destruct (Req_dec (px q) (px p)) as [A|A].
    - assert (B : py q <> py p) by (intros B; apply N; apply V2_ext; assumption). assert (K := Rsqr_pos_lt (py q - py p) ltac:(lra)). assert (K' := Rle_0_sqr (px q - px p)). unfold Rsqr in K, K'. simpl. nra.
    - assert (K := Rsqr_pos_lt (px q - px p) ltac:(lra)). assert (K' := Rle_0_sqr (py q - py p)). unfold Rsqr in K, K'. simpl. nra. }
  assert (Inv : exists z, polarInverse eps dm i (mkV2 psi 0) = Some z /\ z <> vtx vs i /\ forall x, exists q, polarInverse eps dm i (mkV2 psi x) = Some q).
  { destruct (Rlt_dec psi eps) as [L|L]; [|destruct (Rlt_dec (1 - eps) psi) as [L'|L']].
    - exists (vtx vs i *p 0 +p vtx vs (prv n i) *p (1 - 0)). split; [exact (proj1 (C61_inverse_sides dm i eps psi 0 Dn H3 Hi He) L)|]. split.
      + intros E. replace (vtx vs i *p 0 +p vtx vs (prv n i) *p (1 - 0)) with (vtx vs (prv n i)) in E by (apply V2_ext; simpl; ring).
        rewrite E in P1. unfold pnorm, pdot in P1. simpl in P1. rewrite !Rminus_eq_0, Rmult_0_l, Rplus_0_l, sqrt_0 in P1. lra.
      + intros x. eexists. exact (proj1 (C61_inverse_sides dm i eps psi x Dn H3 Hi He) L).
    - exists (vtx vs (nxt n i) *p (1 - 0) +p vtx vs i *p 0). split; [exact (proj2 (C61_inverse_sides dm i eps psi 0 Dn H3 Hi He) L')|]. split.
      + intros E. replace (vtx vs (nxt n i) *p (1 - 0) +p vtx vs i *p 0) with (vtx vs (nxt n i)) in E by (apply V2_ext; simpl; ring).
        rewrite E in P2. unfold pnorm, pdot in P2. simpl in P2. rewrite !Rminus_eq_0, Rmult_0_l, Rplus_0_l, sqrt_0 in P2. lra.
      + intros x. eexists. exact (proj2 (C61_inverse_sides dm i eps psi x Dn H3 Hi He) L').
    - assert (Hp : eps <= psi <= 1 - eps) by lra.
      destruct (C61_angle dm i Dn H3 C Hi) as (al & Ea & _).
      destruct (C61_hits dm i eps psi al Dn H3 C Hi ltac:(lra) ltac:(lra) Ea (Cd i al psi Hi Ea Hp)) as (dir & q & Sd & Fh).
      destruct (inverse_defined dm i eps Dn H3 C Hi ltac:(lra) psi dir q 0 Hp Sd Fh) as (z & Ez & Nz'). exists z. split; [exact Ez|]. split; [exact Nz'|].
      intros x. destruct (inverse_defined dm i eps Dn H3 C Hi ltac:(lra) psi dir q x Hp Sd Fh) as (y & Ey & _). exists y. exact Ey. }
  destruct Inv as (z & Ez & Nzi & Inv).
  destruct (base_spec (polarInverse eps dm i) (sr_curve rl) (sr_curve rr) psi (vtx vs i) _ _ _ N1 N2 P1 P2 Ez) as (Q & B & _).
  assert (Lz := Nz _ _ Nzi).
  destruct (rounds_total solve (polarInverse eps dm i) (sr_curve rl) (sr_curve rr) psi (vtx vs i) (pnorm (z -p vtx vs i)) (cpt (sr_curve rl) 1) Q (cpt (sr_curve rl) 0) (cpt (sr_curve rr) 1) (M - 1) Inv ltac:(lra)) as (crv & lft & rgt & F & Lc & _ & _ & F0).
  unfold polarRibbon. cbn [px py]. destruct Lp as (Ln & _). rewrite Ln, El, Er. cbn [bind]. rewrite S1, S2. cbn [bind].
  assert (Vi : nth_error (d_verts dm) i = Some (vtx vs i)) by (apply nth_error_nth'; exact Hi). rewrite Vi. cbn [bind]. rewrite B. cbn [bind].
  rewrite F. cbn [bind]. rewrite (bcEval_spec crv (M - 1 + 1)) by lia. eexists. split; [reflexivity|]. intros D1.
  assert (K : clamp dd 0 1 = 1) by (unfold clamp; destruct (Rlt_dec dd 0); [lra|]; destruct (Rlt_dec 1 dd); [reflexivity|lra]).
  rewrite K. replace (1 - 1) with 0 by ring. rewrite bezier_at_0. exact F0.
Qed.
Print Assumptions C67_defined.

Lemma eval_value : forall solve M eps dm sf uv pd rv, d_n dm = sf_n sf ->
  (forall i, (i < sf_n sf)%nat -> polarMap eps dm i uv = Some (pd i) /\ polarRibbon solve M eps dm sf i (pd i) = Some (rv i)) ->
  polarEval solve M eps dm sf uv = vdiv (vsum (sf_n sf) (fun i => rv i *v (py (pd i) ^ 2))) (rsum (sf_n sf) (fun i => py (pd i) ^ 2)).
Proof.
  intros solve M eps dm sf uv pd rv Dn H. unfold polarEval. rewrite Dn.
  rewrite (mapM_seq _ (sf_n sf) _ pd) by (intros i Hi; apply (H i Hi)). cbn [bind].
  rewrite (osum_total _ _ (fun i => rv i *v (py (pd i) ^ 2))).
  2:{ intros i Hi. rewrite tabulate_nth_error by exact Hi. cbn [bind]. destruct (H i Hi) as [_ E]. rewrite E. reflexivity. }
  cbn [bind]. rewrite (orsum_total _ _ (fun i => py (pd i) ^ 2)); [reflexivity|].
  intros i Hi. rewrite tabulate_nth_error by exact Hi. reflexivity.
Qed.

(** On a side, away from its ends: the interpolant of its curve, pulled off by the
    drift of the vertex at its start. *)
Theorem C67_side : forall solve M eps dm sf e s uv rp re, let vs := d_verts dm in let n := length vs in let m := Nat.max 1 M in
  exact_solver solve -> d_n dm = n -> (3 <= n)%nat -> strictly_convex vs -> (e < n)%nat -> 0 < s < 1 -> 0 < eps <= 1/2 ->
  polar_loop n sf -> clear_domain eps dm -> edgePoint dm e s = Some uv -> (forall v, In v vs -> eps <= pnorm (uv -p v)) ->
  nth_error (sf_ribbons sf) (prv n e) = Some rp -> nth_error (sf_ribbons sf) e = Some re ->
  let a := cpt (sr_curve rp) 0 -v cpt (sr_curve re) 0 in let b := cpt (sr_curve re) 1 -v cpt (sr_curve re) 0 in
  exists I, interpolant m (cpt (sr_curve re)) I /\
    polarEval solve M eps dm sf uv = Some (I s +v drift a b *v (s * (1 - s) ^ 2 / (s ^ 2 + (1 - s) ^ 2))).
Proof.
  intros solve M eps dm sf e s uv rp re vs n m X Dn H3 C Hen Hs He Lp Cd E Far Ep Ee a b.
  assert (Hp : (prv n e < n)%nat) by (apply prv_lt; lia). assert (Np : prv n e <> e) by (apply prv_neq; lia).
  destruct (C67_first solve M eps dm sf e re X Dn H3 C Hen He Lp Ee) as (I1 & In1 & V1).
  assert (Ee' : nth_error (sf_ribbons sf) (nxt n (prv n e)) = Some re) by (rewrite nxt_prv by exact Hen; exact Ee).
  destruct (C67_second solve M eps dm sf (prv n e) rp re X Dn H3 C Hp He Lp Ep Ee') as (I2 & In2 & W2).
  assert (Jn : cpt (sr_curve re) 0 = cpt (sr_curve rp) 1) by (destruct Lp as (_ & _ & Cl & _); apply (Cl _ _ _ Ep Ee')).
  rewrite <- Jn in W2. fold a b in W2.
  exists I1. split; [exact In1|]. fold m in In1, In2.
  assert (Mg : (1 <= m)%nat) by (unfold m; lia).
  assert (II := interpolant_unique m _ I1 I2 Mg In1 In2).
  destruct (C61_side dm e s eps uv Dn H3 C Hen Hs ltac:(lra) E Far) as (A1 & A2 & A3). fold vs n in A2, A3.
  set (pd := fun i => match polarMap eps dm i uv with Some x => x | None => mkV2 0 0 end).
  set (rv := fun i => match polarRibbon solve M eps dm sf i (pd i) with Some x => x | None => vzero end).
  assert (Sn : sf_n sf = n) by apply Lp.
  assert (PA : forall i, (i < n)%nat -> exists t d0, polarMap eps dm i uv = Some (mkV2 t d0) /\ (i <> e -> i <> prv n e -> d0 = 0)).
  { intros i Hi. destruct (Nat.eq_dec i e) as [->|N1]; [exists 0, s; split; [exact A1|congruence]|].
    destruct (Nat.eq_dec i (prv n e)) as [->|N2]; [exists 1, (1 - s); split; [exact A2|congruence]|]. destruct (A3 i Hi N1 N2) as (t & A & _). exists t, 0. split; [exact A|auto]. }
  rewrite (eval_value solve M eps dm sf uv pd rv).
  2:{ rewrite Sn. exact Dn. }
  2:{ rewrite Sn. intros i Hi. destruct (PA i Hi) as (t & d0 & A & _). unfold rv, pd. rewrite A. split; [reflexivity|].
      destruct (nth_error (sf_ribbons sf) i) as [ri|] eqn:Ei; [|apply nth_error_None in Ei; destruct Lp as (_ & Ll & _); lia].
      destruct (C67_defined solve M eps dm sf i ri t Dn H3 C Hi He Lp Cd Ei d0) as (r & R0 & _). rewrite R0. reflexivity. }
  rewrite Sn.
  assert (Z : forall i, (i < n)%nat -> i <> e -> i <> prv n e -> py (pd i) ^ 2 = 0).
  { intros i Hi N1 N2. destruct (PA i Hi) as (t & d0 & A & B). unfold pd. rewrite A, (B N1 N2). simpl. ring. }
  rewrite (vsum_double n _ e (prv n e)); try assumption; try congruence.
  2:{ intros i Hi N1 N2. rewrite Z by assumption. v3ring. }
  rewrite (rsum_double n _ e (prv n e)); try assumption; try congruence.
  assert (Pe : pd e = mkV2 0 s) by (unfold pd; rewrite A1; reflexivity). assert (Pp : pd (prv n e) = mkV2 1 (1 - s)) by (unfold pd; rewrite A2; reflexivity).
  assert (Re : rv e = I1 s) by (unfold rv; rewrite Pe, (V1 s) by lra; reflexivity).
  assert (Rp : rv (prv n e) = I1 s +v drift a b *v s).
  { unfold rv. rewrite Pp, (W2 (1 - s)) by lra. replace (1 - (1 - s)) with s by ring. rewrite II. reflexivity. }
  rewrite Re, Rp, Pe, Pp. cbn [py]. assert (Dz : s ^ 2 + (1 - s) ^ 2 <> 0) by nra. rewrite vdiv_some by exact Dz. f_equal. generalize (drift a b). intros w. apply V3_ext; simpl; field; nra.
Qed.
Print Assumptions C67_side.

(** At a vertex of the domain: the corner, whatever the solver returns. *)
Theorem C67_vertex : forall solve M eps dm sf i rl, let vs := d_verts dm in let n := length vs in
  d_n dm = n -> (3 <= n)%nat -> strictly_convex vs -> (i < n)%nat -> 0 < eps <= 1/2 -> polar_loop n sf -> clear_domain eps dm ->
  (forall j, (j < n)%nat -> j <> i -> eps <= pnorm (vtx vs i -p vtx vs j)) ->
  nth_error (sf_ribbons sf) i = Some rl -> polarEval solve M eps dm sf (vtx vs i) = Some (cpt (sr_curve rl) 1).
Proof.
  intros solve M eps dm sf i rl vs n Dn H3 C Hi He Lp Cd Far El.
  assert (N0 : pnorm (vtx vs i -p vtx vs i) < eps) by (unfold pnorm, pdot; simpl; rewrite !Rminus_eq_0, Rmult_0_l, Rplus_0_l, sqrt_0; lra).
  set (uv := vtx vs i) in *.
  destruct (C20_near_vertex MeanValue vs dm eps uv i eq_refl ltac:(fold n; lia) Hi ltac:(discriminate) N0) as (l & B & Ll & _ & Bl); [intros j Hj; apply Far; lia|].
  assert (Pi : polarMap eps dm i uv = Some (mkV2 0 1)) by (apply (polar_near vs dm i eq_refl Dn H3 Hi); exact N0).
  assert (PA : forall j, (j < n)%nat -> exists t, polarMap eps dm j uv = Some (mkV2 t (if (j =? i)%nat then 1 else 0))).
  { intros j Hj. destruct (Nat.eqb_spec j i) as [->|N]; [exists 0; exact Pi|].
    destruct (polar_total vs dm j eq_refl Dn C H3 Hj eps uv l 0) as (t & A & _); [split; [lra|apply Far; assumption]|exact B| |exists t; exact A].
    rewrite Bl by exact Hj. destruct (Nat.eqb_spec j i); [contradiction|reflexivity]. }
  set (pd := fun i => match polarMap eps dm i uv with Some x => x | None => mkV2 0 0 end).
  set (rv := fun i => match polarRibbon solve M eps dm sf i (pd i) with Some x => x | None => vzero end).
  assert (Sn : sf_n sf = n) by apply Lp.
  rewrite (eval_value solve M eps dm sf uv pd rv).
  2:{ rewrite Sn. exact Dn. }
  2:{ rewrite Sn. intros j Hj. destruct (PA j Hj) as (t & A). unfold rv, pd. rewrite A. split; [reflexivity|].
      destruct (nth_error (sf_ribbons sf) j) as [rj|] eqn:Ej; [|apply nth_error_None in Ej; destruct Lp as (_ & Lr & _); lia].
      destruct (C67_defined solve M eps dm sf j rj t Dn H3 C Hj He Lp Cd Ej (if (j =? i)%nat then 1 else 0)) as (r & R0 & _). rewrite R0. reflexivity. }
  rewrite Sn.
  assert (Z : forall j, (j < n)%nat -> j <> i -> py (pd j) ^ 2 = 0).
  { intros j Hj N. destruct (PA j Hj) as (t & A). unfold pd. rewrite A. destruct (Nat.eqb_spec j i); [contradiction|]. cbn [py]. ring. }
  rewrite (vsum_single n _ i Hi) by (intros j Hj N; rewrite Z by assumption; v3ring). rewrite (rsum_single n _ i Hi) by (intros j Hj N; apply Z; assumption).
  assert (Pd : pd i = mkV2 0 1) by (unfold pd; rewrite Pi; reflexivity).
  destruct (C67_defined solve M eps dm sf i rl 0 Dn H3 C Hi He Lp Cd El 1) as (r & R0 & R1).
  assert (Rv : rv i = cpt (sr_curve rl) 1) by (unfold rv; rewrite Pd, R0; apply R1; lra).
  rewrite Rv, Pd. cbn [py]. rewrite vdiv_some by lra. f_equal. v3field.
Qed.
Print Assumptions C67_vertex.

Lemma usq_clear : forall eps, 0 < eps <= 1/4 -> clear_domain eps usq_dom.
Proof.
  intros eps He i al psi Hi Ea Hp. change (i < 4)%nat in Hi.
  destruct (C61_angle usq_dom i eq_refl ltac:(simpl; lia) usq_convex Hi) as (al' & Ea' & Ra & Ca & _). rewrite Ea in Ea'. injection Ea' as <-.
  cbv zeta in Ca. change (d_verts usq_dom) with usq in *. change (length usq) with 4%nat in *.
  assert (U : forall k, (k < 4)%nat -> pnorm (vtx usq (prv 4 k) -p vtx usq k) = 1 /\ pnorm (vtx usq (nxt 4 k) -p vtx usq k) = 1 /\ pdot (vtx usq (prv 4 k) -p vtx usq k) (vtx usq (nxt 4 k) -p vtx usq k) = 0).
  { intros k Hk. unfold pnorm. destruct k as [|[|[|[|k]]]]; [| | | |lia]; unfold pdot, vtx, usq; simpl; (split; [apply sqrt_lem_1; lra|split; [apply sqrt_lem_1; lra|lra]]). }
  destruct (U i Hi) as (U1 & U2 & U3). rewrite U1, U2, U3 in Ca.
  assert (al = PI / 2).
  { rewrite <- (acos_cos al) by lra. replace (cos al) with 0 by lra. apply acos_0. }
  subst al. assert (Hc : 0 <= cos (psi * (PI / 2))) by (apply cos_ge_0; assert (P := PI_RGT_0); nra).
  assert (Hs : 0 <= sin (psi * (PI / 2))) by (apply sin_ge_0; assert (P := PI_RGT_0); nra).
  assert (SC := sin2_cos2 (psi * (PI / 2))). unfold Rsqr in SC. unfold sweep_clear, turned. set (c := cos (psi * (PI / 2))) in *. set (s := sin (psi * (PI / 2))) in *. clearbody c s.
  intros j Hj N1 N2. cbv zeta. change (length usq) with 4%nat in *. rewrite U1.
  assert (Gs : s >= c -> 1/4 <= s) by (intros; nra). assert (Gc : c >= s -> 1/4 <= c) by (intros; nra).
  destruct i as [|[|[|[|i]]]]; [| | | |lia]; destruct j as [|[|[|[|j]]]]; try lia;
    cbv [prv nxt Nat.add Nat.sub Nat.modulo Nat.divmod fst snd] in *; try lia; unfold pcross, vtx, usq; simpl; intros;
    first [exfalso; lra|assert (1/4 <= s) by (apply Gs; lra); lra|assert (1/4 <= c) by (apply Gc; lra); lra].
Qed.

(** A unit square domain, four straight sides; the sides 1 and 2 meet in the origin, with
    chords (1,0,0) and (3,4,0).  The side from the origin to (3,4,0) is missed in its
    middle, by (0,-1/5,0), for every degree; its two ends are met. *)
Example C67_example : forall M eps cs, 0 < eps <= 1/4 ->
  let sf := mkSurf 4 false (lineRibs [mkV3 1 0 0; mkV3 0 0 0; mkV3 3 4 0; mkV3 5 0 1]) cs in
  polar_loop 4 sf /\ clear_domain eps usq_dom /\
  polarEval gaussSolver M eps usq_dom sf (mkV2 1 (1/2)) = Some (mkV3 (3/2) (9/5) 0) /\
  polarEval gaussSolver M eps usq_dom sf (mkV2 1 0) = Some (mkV3 0 0 0) /\
  polarEval gaussSolver M eps usq_dom sf (mkV2 1 1) = Some (mkV3 3 4 0).
Proof.
  intros M eps cs He sf.
  assert (Lp : polar_loop 4 sf).
  { split; [reflexivity|]. split; [reflexivity|]. split.
    - intros i r r' E E'. unfold sf, lineRibs in E, E'. cbn [sf_ribbons] in E, E'. apply tab_inv in E, E'. destruct E as [Hi <-], E' as [_ <-].
      change (i < 4)%nat in Hi. destruct i as [|[|[|[|i]]]]; [| | | |lia]; cbn; unfold affine3; v3ring.
    - intros i r E. unfold sf, lineRibs in E. cbn [sf_ribbons] in E. apply tab_inv in E. destruct E as [Hi <-].
      change (i < 4)%nat in Hi. intros K. apply (f_equal vx) in K. destruct i as [|[|[|[|i]]]]; [| | | |lia]; cbn in K; lra. }
  assert (Cd := usq_clear eps He).
  split; [exact Lp|]. split; [exact Cd|]. 
  assert (Dist : forall p q r, 0 <= r -> r * r <= pdot (p -p q) (p -p q) -> r <= pnorm (p -p q)).
  { intros p q r R0 L. unfold pnorm. replace r with (sqrt (r * r)) by (apply sqrt_square; exact R0). apply sqrt_le_1_alt. exact L. }
  split; [|split].
  - destruct (C67_side gaussSolver M eps usq_dom sf 2 (1/2) (mkV2 1 (1/2)) _ _ gauss_exact eq_refl ltac:(simpl; lia) usq_convex ltac:(simpl; lia) ltac:(lra) ltac:(lra) Lp Cd
      ltac:(unfold edgePoint; simpl; f_equal; apply V2_ext; simpl; field)
      ltac:(intros v V; simpl in V; apply Rle_trans with (1/4); [lra|]; destruct V as [<-|[<-|[<-|[<-|[]]]]]; apply Dist; unfold pdot; simpl; lra) eq_refl eq_refl) as (I & In1 & V).
    rewrite V. clear V.
    rewrite (C67_polynomial (Nat.max 1 M) _ I ltac:(lia) In1).
    2:{ cbn [sr_curve lineRib lineCurve cpt]. unfold affine3. apply vpoly_add; [|apply vpoly_line; lia]. match goal with |- vpoly _ (fun t => ?p *v (1 - t)) => exact (vpoly_rev _ _ (vpoly_line (Nat.max 1 M) p ltac:(lia))) end. }
    cbn [sr_curve lineRib lineCurve cpt].
    match goal with |- Some (?x +v drift ?a ?b *v _) = _ => replace a with (mkV3 1 0 0) by (cbn; unfold affine3; v3ring); replace b with (mkV3 3 4 0) by (cbn; unfold affine3; v3ring) end.
    assert (N1 : vnorm (mkV3 1 0 0) = 1) by (apply sqrt_lem_1; unfold vdot; simpl; lra).
    assert (N5 : vnorm (mkV3 3 4 0) = 5) by (apply sqrt_lem_1; unfold vdot; simpl; lra).
    f_equal. unfold drift. rewrite N1, N5. unfold vdot. cbn [vx vy vz].
    replace (sqrt _) with (4/5) by (symmetry; apply sqrt_lem_1; lra).
    apply V3_ext; cbn; field.
  - etransitivity; [apply (C67_vertex gaussSolver M eps usq_dom sf 1 _ eq_refl ltac:(simpl; lia) usq_convex ltac:(simpl; lia) ltac:(lra) Lp Cd
      ltac:(intros j Hj N; apply Rle_trans with 1; [lra|]; apply Dist; [lra|]; change (j < 4)%nat in Hj; destruct j as [|[|[|[|j]]]]; try lia; unfold pdot; simpl; lra) eq_refl)|f_equal; cbn; unfold affine3; v3ring].
  - etransitivity; [apply (C67_vertex gaussSolver M eps usq_dom sf 2 _ eq_refl ltac:(simpl; lia) usq_convex ltac:(simpl; lia) ltac:(lra) Lp Cd
      ltac:(intros j Hj N; apply Rle_trans with 1; [lra|]; apply Dist; [lra|]; change (j < 4)%nat in Hj; destruct j as [|[|[|[|j]]]]; try lia; unfold pdot; simpl; lra) eq_refl)|f_equal; cbn; unfold affine3; v3ring].
Qed.
