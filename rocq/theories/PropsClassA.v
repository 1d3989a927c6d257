(** Properties of class A curve fitting (C70) and of the arc length of Bezier
    curves (C71). *)
From Verif Require Import Base UtilModel UtilSpec UtilProofs SuperDProofs NMModel NMProofs PropsNM RibbonProofs ClassAModel ClassAProofs.
Open Scope R_scope.

(** ** C70: class A fitting *)

(** The value of the target function for the parameters [x]. *)
Definition value_at (D : nat) (pa va pb vb : V3) (x : npoint) : option R :=
  v0 <- vnormalize va ;; v1 <- vnormalize vb ;; ' (_, _, e) <- classATarget D pa pb v0 v1 x ;; Some e.

(** The rounds: [k] doublings, after searches that end with an error above
    1/1000, and a last search. *)
Definition rounds_to (search : searcher) (degree k : nat) (pa va pb vb : V3) (best : npoint) (err : R) : Prop :=
  let D := fun j => (degree * 2 ^ j)%nat in
  (forall j, (j < k)%nat -> (D j < 50)%nat /\ exists e, value_at (D j) pa va pb vb (search (value_at (D j) pa va pb vb) [0; 1]) = Some e /\ 1 / 1000 < e) /\
  best = search (value_at (D k) pa va pb vb) [0; 1] /\ value_at (D k) pa va pb vb best = Some err /\
  (err <= 1 / 1000 \/ (50 <= D k)%nat).

Lemma round_inv : forall search r degree pa va pb vb cp, fitFrom search r degree pa va pb vb = Some cp ->
  exists k best err phi s v0 v1 a theta c, rounds_to search degree k pa va pb vb best err /\ nth_error best 0 = Some phi /\ nth_error best 1 = Some s /\
  fitted (degree * 2 ^ k) pa va pb vb phi s err v0 v1 a theta c cp.
Proof.
  intros search r. induction r as [|r IH]; intros degree pa va pb vb cp E; [discriminate|]. cbn [fitFrom] in E.
  destruct (vnormalize va) as [v0|] eqn:E0; cbn [bind] in E; [|discriminate]. destruct (vnormalize vb) as [v1|] eqn:E1; cbn [bind] in E; [|discriminate].
  assert (Ev : forall D x, value_at D pa va pb vb x = (' (_, _, e) <- classATarget D pa pb v0 v1 x ;; Some e)) by (intros D x; unfold value_at; rewrite E0, E1; reflexivity).
  assert (Et : (fun x => ' (_, _, e) <- classATarget degree pa pb v0 v1 x ;; Some e) = value_at degree pa va pb vb) by (unfold value_at; rewrite E0, E1; reflexivity).
  rewrite Et in E. set (best := search (value_at degree pa va pb vb) [0; 1]) in *.
  destruct (classATarget degree pa pb v0 v1 best) as [[[M cq] err]|] eqn:Ec; cbn [bind] in E; [|discriminate].
  destruct (if Rlt_dec (1 / 1000) err then (degree <? 50)%nat else false) eqn:B.
  - destruct (Rlt_dec (1 / 1000) err) as [L|]; [|discriminate]. apply Nat.ltb_lt in B.
    destruct (IH _ _ _ _ _ _ E) as (k & b & er & phi & s & w0 & w1 & a & theta & c & (R1 & R2 & R3 & R4) & P1 & P2 & F).
    exists (S k), b, er, phi, s, w0, w1, a, theta, c.
    assert (X : forall j, (degree * 2 * 2 ^ j = degree * 2 ^ S j)%nat) by (intros j; cbn [Nat.pow]; lia).
    rewrite X in F, R2, R3, R4. split; [|split; [exact P1|split; [exact P2|exact F]]]. split; [|split; [exact R2|split; [exact R3|exact R4]]].
    intros [|j] Hj; [|rewrite <- X; apply R1; lia]. replace (degree * 2 ^ 0)%nat with degree by (cbn [Nat.pow]; lia). split; [exact B|].
    exists err. fold best. rewrite Ev, Ec. split; [reflexivity|exact L].
  - assert (St : err <= 1 / 1000 \/ (50 <= degree)%nat). { destruct (Rlt_dec (1 / 1000) err); [right; apply Nat.ltb_ge; exact B|left; lra]. }
    pose proof Ec as Ec'. unfold classATarget in Ec'.
    destruct (nth_error best 0) as [phi|] eqn:P1; cbn [bind] in Ec'; [|discriminate]. destruct (nth_error best 1) as [s|] eqn:P2; cbn [bind] in Ec'; [|discriminate].
    destruct (setupMatrix degree v0 v1 phi s) as [M'|] eqn:EM; cbn [bind] in Ec'; [|discriminate].
    destruct (evalMatrix degree pa pb v0 M') as [[cq' v]|] eqn:EV; cbn [bind] in Ec'; [|discriminate]. injection Ec' as -> -> <-.
    destruct (finish_spec degree pa va pb vb v0 v1 phi s M cq (Rabs v) cp E0 E1 EM (ex_intro _ v (conj EV eq_refl)) E) as (a & theta & c & F).
    exists 0%nat, best, (Rabs v), phi, s, v0, v1, a, theta, c. replace (degree * 2 ^ 0)%nat with degree by (cbn [Nat.pow]; lia).
    split; [|split; [exact P1|split; [exact P2|exact F]]]. unfold rounds_to. cbv zeta. replace (degree * 2 ^ 0)%nat with degree by (cbn [Nat.pow]; lia).
    split; [intros j Hj; lia|]. split; [reflexivity|]. split; [rewrite Ev, Ec; reflexivity|exact St].
Qed.

(** Rotations: they keep the lengths, the axis and the height over the plane
    orthogonal to the axis, and a vector of this plane is turned by the angle,
    counterclockwise seen from the tip of the axis. *)
Theorem C70_rotation : forall a t v, vdot a a = 1 ->
  vnorm (rotate a t v) = vnorm v /\ rotate a t a = a /\ vdot a (rotate a t v) = vdot a v /\
  (vdot a v = 0 -> vdot v (rotate a t v) = vnorm2 v * cos t /\ vdot a (vcross v (rotate a t v)) = vnorm2 v * sin t).
Proof.
  intros a t v U. split; [unfold vnorm; rewrite rotate_norm by exact U; reflexivity|]. split; [|split; [apply axis_dot; exact U|]].
  - unfold rotate. rewrite vcross_self, U. v3ring.
  - intros Z. split.
    + rewrite <- (rotate_0 a v) at 1. rewrite rotate_dot by exact U. rewrite Z. replace (0 - t) with (- t) by ring. rewrite cos_neg. unfold vnorm2. ring.
    + unfold rotate. rewrite Z.
      transitivity ((vdot a a * vdot v v - vdot a v * vdot a v) * sin t); [unfold vdot, vcross; cbn [vx vy vz vadd vscale]; ring|]. rewrite U, Z. unfold vnorm2. ring.
Qed.
Print Assumptions C70_rotation.

(** The fitted polygon.  The degree is the given one, doubled after each search
    that ends above the tolerance.  All legs but the last come from the first one, which
    points in the first direction, by the repeated use of one rotation and one
    scaling; continuing so would miss the second point by a distance that is
    given by the error. *)
Theorem C70_polygon : forall search degree pa va pb vb cp, fitClassA search degree pa va pb vb = Some cp ->
  exists k best err phi s a theta c, let D := (degree * 2 ^ k)%nat in
  rounds_to search degree k pa va pb vb best err /\ nth_error best 0 = Some phi /\ nth_error best 1 = Some s /\
  (2 <= D)%nat /\ length cp = (D + 1)%nat /\ vdot a a = 1 /\ 0 < c /\ 0 <= err /\
  nth_error cp 0 = Some pa /\ nth_error cp D = Some pb /\
  let l := fun j => rotate a (INR j * theta) (va *v c) *v s ^ j in
  (forall i, (i < D)%nat -> nth_error cp i = Some (pa +v vsum i l)) /\
  (forall j, vnorm (l j) = vnorm va * c * Rabs s ^ j) /\
  vnorm (pa +v vsum D l -v pb) = sqrt (2 * err) * vnorm (pb -v pa) /\
  vdot a va / vnorm va = vdot a vb / vnorm vb /\ 0 <= INR (D - 1) * theta <= PI /\
  (0 <= cos phi -> l (D - 1)%nat = vb *v (vnorm va * c * s ^ (D - 1) / vnorm vb)) /\
  (cos phi < 0 -> s <> 0 -> forall x, 0 < x * s ^ (D - 1) -> l (D - 1)%nat <> vb *v x).
Proof.
  intros search degree pa va pb vb cp E. destruct (round_inv _ _ _ _ _ _ _ _ E) as (k & best & err & phi & s & v0 & v1 & a & theta & c & R & P1 & P2 & F).
  destruct F as [E0 E1 T Hc L C Cl G He]. destruct T as [U Hd NP Hh Rg Tn _ _].
  destruct (normalize_inv _ _ E0) as (U0 & N0 & F0). destruct (normalize_inv _ _ E1) as (U1 & N1 & F1).
  pose proof (vnorm_nonneg va) as Pa. pose proof (vnorm_nonneg vb) as Pb.
  exists k, best, err, phi, s, a, theta, (c / vnorm va). cbv zeta. set (D := (degree * 2 ^ k)%nat) in *.
  assert (Lg : forall j, rotate a (INR j * theta) (va *v (c / vnorm va)) *v s ^ j = leg a theta s (v0 *v c) j).
  { intros j. unfold leg. f_equal. f_equal. rewrite F0. unfold Rdiv. v3ring. }
  assert (Lv : forall i, vsum i (fun j => rotate a (INR j * theta) (va *v (c / vnorm va)) *v s ^ j) = vsum i (leg a theta s (v0 *v c))) by (intros i; apply vsum_ext; intros j _; apply Lg).
  split; [exact R|]. split; [exact P1|]. split; [exact P2|]. split; [exact Hd|]. split; [exact L|]. split; [exact U|]. split; [apply Rdiv_lt_0_compat; lra|]. split; [exact He|].
  split; [rewrite C by lia; cbn [vsum]; f_equal; v3ring|]. split; [exact Cl|].
  split; [intros i Hi; rewrite Lv; apply C; exact Hi|]. split.
  { intros j. rewrite Lg. unfold leg. rewrite rotate_scale. replace (vnorm va * (c / vnorm va)) with c by (field; exact N0).
    unfold vnorm. transitivity (sqrt ((c * Rabs s ^ j) * (c * Rabs s ^ j))).
    - f_equal. transitivity (vdot (rotate a (INR j * theta) v0) (rotate a (INR j * theta) v0) * ((c * s ^ j) * (c * s ^ j))); [unfold vdot; cbn [vx vy vz vscale]; ring|].
      rewrite rotate_norm by exact U. rewrite U0, RPow_abs. assert (X : Rabs (s ^ j) * Rabs (s ^ j) = s ^ j * s ^ j) by (rewrite <- Rabs_mult; apply Rabs_pos_eq; apply Rle_0_sqr).
      transitivity (c * c * (Rabs (s ^ j) * Rabs (s ^ j))); [rewrite X; ring|ring].
    - apply sqrt_square. apply Rmult_le_pos; [lra|]. apply pow_le, Rabs_pos. }
  split.
  { rewrite Lv. unfold vnorm. unfold vnorm2 in G. rewrite G. rewrite sqrt_mult; [reflexivity|lra|apply vnorm2_pos]. }
  split.
  { replace (vdot a va / vnorm va) with (vdot a v0) by (rewrite F0, vdot_scaler; reflexivity). replace (vdot a vb / vnorm vb) with (vdot a v1) by (rewrite F1, vdot_scaler; reflexivity). exact Hh. }
  split; [exact Rg|].
  assert (Ld : leg a theta s (v0 *v c) (D - 1) = rotate a (INR (D - 1) * theta) v0 *v (c * s ^ (D - 1))) by (unfold leg; rewrite rotate_scale; v3ring).
  split.
  - intros Q. apply Tn in Q. rewrite Lg, Ld, Q, F1. replace (vnorm va * (c / vnorm va)) with c by (field; exact N0). unfold Rdiv. v3ring.
  - intros Q Ns x Hx Eq. rewrite Lg, Ld in Eq. assert (Ps : s ^ (D - 1) <> 0) by (apply pow_nonzero; exact Ns).
    assert (Cs : c * s ^ (D - 1) <> 0) by (apply Rmult_integral_contrapositive; split; [lra|exact Ps]).
    assert (Eq' : rotate a (INR (D - 1) * theta) v0 = v1 *v (vnorm vb * x / (c * s ^ (D - 1)))).
    { assert (X : vb = v1 *v vnorm vb) by (rewrite F1; v3field; exact N1). rewrite X in Eq at 1.
      transitivity (rotate a (INR (D - 1) * theta) v0 *v (c * s ^ (D - 1)) *v / (c * s ^ (D - 1))); [v3field; (split; [exact Ps|lra])|]. rewrite Eq. unfold Rdiv. v3ring. }
    set (y := vnorm vb * x / (c * s ^ (D - 1))) in *.
    assert (Py : 0 < y).
    { unfold y. replace (vnorm vb * x / (c * s ^ (D - 1))) with (vnorm vb * (x * s ^ (D - 1)) / (c * (s ^ (D - 1) * s ^ (D - 1)))) by (field; split; [exact Ps|lra]).
      assert (0 < s ^ (D - 1) * s ^ (D - 1)) by (destruct (Rtotal_order (s ^ (D - 1)) 0) as [H|[H|H]]; [nra|contradiction|nra]).
      assert (Y1 : 0 < vnorm vb * (x * s ^ (D - 1))) by (apply Rmult_lt_0_compat; lra). apply Rdiv_lt_0_compat; [exact Y1|nra]. }
    assert (Y1 : y = 1).
    { pose proof (rotate_norm a U (INR (D - 1) * theta) v0) as N. rewrite Eq', U0 in N.
      assert (N' : vdot v1 v1 * (y * y) = 1) by (rewrite <- N; unfold vdot; cbn [vx vy vz vscale]; ring). rewrite U1 in N'. nra. }
    assert (W : rotate a (INR (D - 1) * theta) v0 = v1) by (rewrite Eq', Y1; v3ring). apply Tn in W. lra.
Qed.
Print Assumptions C70_polygon.

Lemma pnth_some : forall cp i p, nth_error cp i = Some p -> pnth cp i = p.
Proof. intros cp i p E. unfold pnth. apply nth_error_nth. exact E. Qed.
Lemma bezier_at_0 : forall n P, bezier n P 0 = P 0%nat.
Proof.
  intros n P. unfold bezier. rewrite (vsum_single (n + 1) _ 0%nat); [|lia|].
  - rewrite bern_at_0 by lia. rewrite Nat.eqb_refl. v3ring.
  - intros j Hj Nj. rewrite bern_at_0 by lia. destruct (Nat.eqb_spec j 0); [contradiction|]. v3ring.
Qed.
Lemma bezier_at_1 : forall n P, bezier n P 1 = P n.
Proof.
  intros n P. unfold bezier. rewrite (vsum_single (n + 1) _ n); [|lia|].
  - rewrite bern_at_1 by lia. rewrite Nat.eqb_refl. v3ring.
  - intros j Hj Nj. rewrite bern_at_1 by lia. destruct (Nat.eqb_spec j n); [contradiction|]. v3ring.
Qed.

(** The curve joins the two points and leaves the first one in the first
    direction.  It arrives at the second point in the second direction up to
    an error that vanishes with the error of the search, provided that the
    angle found by the search has a nonnegative cosine. *)
Theorem C70_curve : forall search degree pa va pb vb cp, fitClassA search degree pa va pb vb = Some cp ->
  bcEval cp 0 = Some pa /\ bcEval cp 1 = Some pb /\
  (exists der t, bcEvalDer cp 0 1 = Some der /\ nth_error der 1 = Some (va *v t) /\ 0 < t) /\
  exists k best err phi s, rounds_to search degree k pa va pb vb best err /\ best = phi :: s :: skipn 2 best /\
    (0 <= cos phi -> exists der d t, bcEvalDer cp 1 1 = Some der /\ nth_error der 1 = Some d /\ 0 < t /\
      vnorm (d -v vb *v (t * s ^ (degree * 2 ^ k - 1))) = INR (degree * 2 ^ k) * sqrt (2 * err) * vnorm (pb -v pa)).
Proof.
  intros search degree pa va pb vb cp E. destruct (C70_polygon _ _ _ _ _ _ _ E) as (k & best & err & phi & s & a & theta & c & H). cbv zeta in H.
  set (D := (degree * 2 ^ k)%nat) in *. set (l := fun j => rotate a (INR j * theta) (va *v c) *v s ^ j) in *.
  destruct H as (R & P1 & P2 & Hd & L & U & Hc & He & C0 & Cn & C & _ & G & _ & _ & Q & _).
  split; [rewrite (bcEval_spec cp D 0 L), bezier_at_0; f_equal; apply pnth_some; exact C0|].
  split; [rewrite (bcEval_spec cp D 1 L), bezier_at_1; f_equal; apply pnth_some; exact Cn|].
  assert (Der : forall u, exists der, bcEvalDer cp u 1 = Some der /\ nth_error der 1 = Some (bezier (D - 1) (fun i => (pnth cp (S i) -v pnth cp i) *v INR D) u)).
  { intros u. destruct (bcEvalDer_spec cp D u 1 L) as (der & Ed & _ & Fd). exists der. split; [exact Ed|]. rewrite (Fd 1%nat) by lia.
    destruct (Nat.leb_spec 1 D); [|lia]. cbn [dcps]. rewrite Nat.sub_0_r. reflexivity. }
  assert (HD : 0 < INR D) by (apply lt_0_INR; lia).
  assert (l0 : l 0%nat = va *v c). { unfold l. cbn [INR pow]. replace (0 * theta) with 0 by ring. rewrite rotate_0. v3ring. }
  split.
  - destruct (Der 0) as (der & Ed & Fd). exists der, (c * INR D). split; [exact Ed|]. rewrite Fd, bezier_at_0. split; [|apply Rmult_lt_0_compat; assumption].
    rewrite (pnth_some cp 0 pa C0). rewrite (pnth_some cp 1 _ (C 1%nat ltac:(lia))). f_equal. cbn [vsum]. rewrite l0. v3ring.
  - exists k, best, err, phi, s. split; [exact R|]. split.
    { destruct best as [|x [|y best]]; cbn [nth_error] in P1, P2; [discriminate..|]. injection P1 as ->. injection P2 as ->. reflexivity. }
    fold D. intros Cp. destruct (Der 1) as (der & Ed & Fd). rewrite bezier_at_1 in Fd. replace (S (D - 1)) with D in Fd by lia.
    pose proof (vnorm_nonneg vb) as Pb. pose proof (vnorm_nonneg va) as Pa.
    assert (T : vsum D l = vsum (D - 1) l +v l (D - 1)%nat) by (replace D with (S (D - 1)) at 1 by lia; reflexivity).
    assert (N0 : vnorm va <> 0 /\ vnorm vb <> 0).
    { destruct R as (_ & _ & V & _). unfold value_at in V. destruct (vnormalize va) as [v0|] eqn:E0; [|discriminate]. cbn [bind] in V.
      destruct (vnormalize vb) as [v1|] eqn:E1; [|discriminate]. destruct (normalize_inv _ _ E0) as (_ & N0 & _). destruct (normalize_inv _ _ E1) as (_ & N1 & _). split; assumption. }
    exists der, ((pb -v pnth cp (D - 1)) *v INR D), (vnorm va * c / vnorm vb * INR D).
    split; [exact Ed|]. split; [rewrite Fd, (pnth_some cp D pb Cn); reflexivity|].
    split; [apply Rmult_lt_0_compat; [apply Rdiv_lt_0_compat; [apply Rmult_lt_0_compat; lra|lra]|exact HD]|].
    rewrite (pnth_some cp (D - 1) _ (C (D - 1)%nat ltac:(lia))).
    assert (X : (pb -v (pa +v vsum (D - 1) l)) *v INR D -v vb *v (vnorm va * c / vnorm vb * INR D * s ^ (D - 1)) = (pa +v vsum D l -v pb) *v (- INR D)).
    { rewrite T, (Q Cp). unfold Rdiv. v3ring. }
    rewrite X. transitivity (INR D * vnorm (pa +v vsum D l -v pb)); [|rewrite G; ring].
    generalize (pa +v vsum D l -v pb). intros w. unfold vnorm.
    replace (vdot (w *v - INR D) (w *v - INR D)) with ((INR D * INR D) * vdot w w) by (unfold vdot; cbn [vx vy vz vscale]; ring).
    rewrite sqrt_mult; [|nra|apply vnorm2_pos]. rewrite sqrt_square by lra. reflexivity.
Qed.
Print Assumptions C70_curve.

Lemma parallel_units : forall va vb v0 v1, vnormalize va = Some v0 -> vnormalize vb = Some v1 -> (vcross va vb <> vzero <-> -1 < vdot v0 v1 < 1).
Proof.
  intros va vb v0 v1 E0 E1. destruct (normalize_inv _ _ E0) as (U0 & N0 & F0). destruct (normalize_inv _ _ E1) as (U1 & N1 & F1).
  pose proof (lagrange v0 v1 U0 U1) as L.
  assert (X : vcross v0 v1 = vcross va vb *v (/ vnorm va * / vnorm vb)) by (rewrite F0, F1; unfold vcross; v3ring).
  split.
  - intros N. assert (vdot (vcross v0 v1) (vcross v0 v1) <> 0).
    { intros Z. apply vdot_zero in Z. apply N. rewrite X in Z. apply V3_ext; [apply (f_equal vx) in Z|apply (f_equal vy) in Z|apply (f_equal vz) in Z];
        cbn [vx vy vz vscale vzero] in *; (apply Rmult_integral in Z; destruct Z as [Z|Z]; [exact Z|]; exfalso; apply Rmult_integral in Z; destruct Z as [Z|Z]; [apply (Rinv_neq_0_compat _ N0 Z)|apply (Rinv_neq_0_compat _ N1 Z)]). }
    pose proof (vnorm2_pos (vcross v0 v1)). split; nra.
  - intros B Z. rewrite X, Z in L. assert (vdot (vzero *v (/ vnorm va * / vnorm vb)) (vzero *v (/ vnorm va * / vnorm vb)) = 0) by (unfold vdot; cbn [vx vy vz vscale vzero]; ring). nra.
Qed.

(** It is defined for directions that are not parallel, different points and a
    degree of two at least, whenever the search returns a nonnegative scaling;
    *)
Theorem C70_defined : forall search degree pa va pb vb, (2 <= degree)%nat -> pb <> pa -> vcross va vb <> vzero ->
  (forall target x, exists phi s, search target x = [phi; s] /\ 0 <= s) ->
  exists cp, fitClassA search degree pa va pb vb = Some cp.
Proof.
  intros search degree pa va pb vb Hd Np Nc HS.
  assert (Na : va <> vzero) by (intros Z; apply Nc; rewrite Z; unfold vcross; v3ring).
  assert (Nb : vb <> vzero) by (intros Z; apply Nc; rewrite Z; unfold vcross; v3ring).
  destruct (normalize_some _ Na) as (v0 & E0). destruct (normalize_some _ Nb) as (v1 & E1).
  pose proof (proj1 (parallel_units va vb v0 v1 E0 E1) Nc) as NP.
  assert (U0 : vdot v0 v0 = 1) by apply (normalize_inv _ _ E0). assert (U1 : vdot v1 v1 = 1) by apply (normalize_inv _ _ E1).
  assert (One : forall deg phi s, (2 <= deg)%nat -> 0 <= s -> exists M cp err, classATarget deg pa pb v0 v1 [phi; s] = Some (M, cp, err) /\
    exists cp', finishClassA deg pa pb v0 M cp = Some cp').
  { intros deg phi s H2 Hs. unfold classATarget. cbn [nth_error bind].
    destruct (setup_total deg v0 v1 phi s U0 U1 NP H2) as (M & EM). rewrite EM. cbn [bind].
    destruct (setup_spec _ _ _ _ _ _ U0 U1 EM) as (a & theta & T & ->). pose proof (tu_unit _ _ _ _ _ _ T) as U. pose proof (chord_nonzero deg v0 v1 phi a theta s U0 T Hs) as Nn.
    destruct (eval_spec deg pa pb v0 a theta s U ltac:(lia) Np Nn) as (cp & u1 & u2 & EV & Lc & C & E3 & E4). rewrite EV. cbn [bind].
    eexists _, _, _. split; [reflexivity|]. unfold finishClassA. rewrite (C deg), (C 0%nat) by lia. cbn [bind vsum].
    replace (pa +v vsum deg (leg a theta s v0) -v (pa +v vzero)) with (vsum deg (leg a theta s v0)) by v3ring.
    rewrite fdiv_some by apply (normalize_inv _ _ E3). cbn [bind]. set (c := vnorm (pb -v pa) / _).
    destruct (generate_spec a theta s deg pa (v0 *v c) U ltac:(lia)) as (cr & Er & Lr & _).
    rewrite Er. cbn [bind]. destruct (upd_spec _ cr deg pb ltac:(lia)) as (cs & Ecs & _). exists cs. exact Ecs. }
  assert (G : forall r deg, (2 <= deg)%nat -> (50 <= deg * 2 ^ r)%nat -> exists cp, fitFrom search (S r) deg pa va pb vb = Some cp).
  { intros r. induction r as [|r IH]; intros deg H2 H50.
    - cbn [fitFrom]. rewrite E0, E1. cbn [bind]. set (target := fun x : npoint => _). destruct (HS target [0; 1]) as (phi & s & Es & Hs). rewrite Es.
      destruct (One deg phi s H2 Hs) as (M & cp & err & Ec & Fin). rewrite Ec. cbn [bind].
      assert (B : (deg <? 50)%nat = false) by (apply Nat.ltb_ge; cbn [Nat.pow] in H50; lia). rewrite B. destruct (Rlt_dec (1 / 1000) err); exact Fin.
    - change (fitFrom search (S (S r)) deg pa va pb vb) with (
        w0 <- vnormalize va ;; w1 <- vnormalize vb ;;
        let target := fun x => ' (_, _, e) <- classATarget deg pa pb w0 w1 x ;; Some e in
        ' (M, cp, err) <- classATarget deg pa pb w0 w1 (search target [0; 1]) ;;
        if (if Rlt_dec (1 / 1000) err then (deg <? 50)%nat else false) then fitFrom search (S r) (deg * 2) pa va pb vb else finishClassA deg pa pb w0 M cp).
      rewrite E0, E1. cbn [bind]. cbv zeta. set (target := fun x : npoint => _). destruct (HS target [0; 1]) as (phi & s & Es & Hs). rewrite Es.
      destruct (One deg phi s H2 Hs) as (M & cp & err & Ec & Fin). rewrite Ec. cbn [bind].
      destruct (if Rlt_dec (1 / 1000) err then (deg <? 50)%nat else false); [|exact Fin]. apply IH; [lia|]. cbn [Nat.pow] in H50. lia. }
  apply (G 6%nat degree Hd). cbn [Nat.pow]. lia.
Qed.
Print Assumptions C70_defined.

(** ... and whatever the search does, it is undefined when the directions are
    parallel or zero, when the points coincide, or below degree two. *)
Theorem C70_undefined : forall search degree pa va pb vb, (degree < 2)%nat \/ pb = pa \/ vcross va vb = vzero ->
  fitClassA search degree pa va pb vb = None.
Proof.
  intros search degree pa va pb vb H. destruct (fitClassA search degree pa va pb vb) as [cp|] eqn:E; [exfalso|reflexivity].
  destruct H as [H|[H|H]].
  - assert (Z : forall k, (k < 2)%nat -> forall v0 v1 phi s, vdot v0 v0 = 1 -> vdot v1 v1 = 1 -> setupMatrix k v0 v1 phi s = None).
    { intros k Hk v0 v1 phi s U0 U1. destruct (setupMatrix k v0 v1 phi s) as [M|] eqn:EM; [|reflexivity].
      destruct (setup_spec _ _ _ _ _ _ U0 U1 EM) as (a & theta & T & _). pose proof (tu_degree _ _ _ _ _ _ T). lia. }
    unfold fitClassA in E. cbn [fitFrom] in E.
    destruct (vnormalize va) as [v0|] eqn:E0; cbn [bind] in E; [|discriminate]. destruct (vnormalize vb) as [v1|] eqn:E1; cbn [bind] in E; [|discriminate].
    assert (U0 : vdot v0 v0 = 1) by apply (normalize_inv _ _ E0). assert (U1 : vdot v1 v1 = 1) by apply (normalize_inv _ _ E1).
    set (best := search _ _) in E. unfold classATarget in E. destruct (nth_error best 0) as [phi|]; cbn [bind] in E; [|discriminate].
    destruct (nth_error best 1) as [s|]; cbn [bind] in E; [|discriminate]. rewrite (Z degree H v0 v1 phi s U0 U1) in E. discriminate.
  - destruct (round_inv _ _ _ _ _ _ _ _ E) as (k & best & err & phi & s & v0 & v1 & a & theta & c & R & P1 & P2 & F).
    destruct R as (_ & _ & V & _). unfold value_at in V. rewrite (fi_v0 _ _ _ _ _ _ _ _ _ _ _ _ _ _ F), (fi_v1 _ _ _ _ _ _ _ _ _ _ _ _ _ _ F) in V. cbn [bind] in V.
    unfold classATarget in V. rewrite P1, P2 in V. cbn [bind] in V. destruct (setupMatrix _ v0 v1 phi s) as [M|]; cbn [bind] in V; [|discriminate].
    unfold evalMatrix in V. destruct (generateClassA _ pa v0 M) as [cq|]; cbn [bind] in V; [|discriminate].
    destruct (nth_error cq _) as [cn|]; cbn [bind] in V; [|discriminate]. destruct (nth_error cq 0) as [c0|]; cbn [bind] in V; [|discriminate].
    destruct (vnormalize (cn -v c0)) as [u1|]; cbn [bind] in V; [|discriminate]. destruct (vnormalize (pb -v pa)) as [u2|] eqn:E2; cbn [bind] in V; [|discriminate].
    destruct (normalize_inv _ _ E2) as (_ & N & _). apply N. rewrite H. unfold vnorm. replace (vdot (pa -v pa) (pa -v pa)) with 0 by (unfold vdot; cbn [vx vy vz vsub]; ring). apply sqrt_0.
  - destruct (round_inv _ _ _ _ _ _ _ _ E) as (k & best & err & phi & s & v0 & v1 & a & theta & c & R & P1 & P2 & F).
    apply (proj2 (parallel_units va vb v0 v1 (fi_v0 _ _ _ _ _ _ _ _ _ _ _ _ _ _ F) (fi_v1 _ _ _ _ _ _ _ _ _ _ _ _ _ _ F)) (tu_open _ _ _ _ _ _ (fi_turning _ _ _ _ _ _ _ _ _ _ _ _ _ _ F)) H).
Qed.
Print Assumptions C70_undefined.

(** The search by Nelder and Mead's method returns two numbers, and their
    error is not larger than that of the planar curve with legs of equal
    length (0, 1), or of its two neighbours. *)
Theorem C70_search : forall hole D pa va pb vb, let v := value_at D pa va pb vb in let x := nmSearch hole v [0; 1] in
  length x = 2%nat /\
  forall e p e', v x = Some e -> p = [0; 1] \/ p = [1; 1] \/ p = [0; 2] -> v p = Some e' -> e <= e'.
Proof.
  intros hole D pa va pb vb v x. unfold x, nmSearch.
  destruct (C55_result (fun p => match v p with Some w => w | None => hole end) [0; 1] 100 (1 / 10 ^ 15) 1) as (ok & x' & E & L & A). rewrite E.
  split; [exact L|]. intros e p e' Ev Hp Ep.
  assert (I : In p (start_points [0; 1] 1)).
  { unfold start_points, displaced. cbn [length seq map firstn skipn nth app In].
    destruct Hp as [->|[->| ->]]; [left; reflexivity|right; left; f_equal; ring|right; right; left; f_equal; f_equal; ring]. }
  specialize (A p I). cbv beta in A. rewrite Ev, Ep in A. exact A.
Qed.
Print Assumptions C70_search.

Lemma normalize_to : forall v n w, 0 < n -> vdot v v = n * n -> w = v *v / n -> vnormalize v = Some w.
Proof.
  intros v n w Hn E ->. unfold vnormalize, vdiv. assert (Q : vnorm v = n) by (unfold vnorm; rewrite E; apply sqrt_square; lra). rewrite Q.
  destruct (Req_EM_T n 0); [lra|reflexivity].
Qed.

(** A right angle with degree two, when the search keeps its start values. *)
Example C70_example : fitClassA (fun _ x => x) 2 (mkV3 1 0 0) (mkV3 2 0 0) (mkV3 4 3 0) (mkV3 0 5 0) = Some [mkV3 1 0 0; mkV3 4 0 0; mkV3 4 3 0].
Proof.
  unfold fitClassA. cbn [fitFrom].
  rewrite (normalize_to (mkV3 2 0 0) 2 (mkV3 1 0 0)) by (first [lra|unfold vdot; cbn [vx vy vz]; ring|v3field]).
  rewrite (normalize_to (mkV3 0 5 0) 5 (mkV3 0 1 0)) by (first [lra|unfold vdot; cbn [vx vy vz]; ring|v3field]). cbn [bind].
  assert (S2 : 0 < sqrt 2) by (apply sqrt_lt_R0; lra). assert (SS : sqrt 2 * sqrt 2 = 2) by (apply sqrt_sqrt; lra).
  assert (T : classATarget 2 (mkV3 1 0 0) (mkV3 4 3 0) (mkV3 1 0 0) (mkV3 0 1 0) [0; 1] =
    Some (fun v => rotate (mkV3 0 0 1) (PI / 2) v *v 1, [mkV3 1 0 0; mkV3 2 0 0; mkV3 2 1 0], 0)).
  { unfold classATarget. cbn [nth_error bind]. unfold setupMatrix.
    rewrite (normalize_to _ (sqrt 2) ((mkV3 0 1 0 -v mkV3 1 0 0) *v / sqrt 2)) by (first [exact S2|rewrite SS; unfold vdot; cbn [vx vy vz vsub]; ring|reflexivity]). cbn [bind].
    rewrite rotate_0.
    rewrite (normalize_to _ 1 (mkV3 0 0 1)) by (first [lra|unfold vdot, vcross; cbn [vx vy vz]; ring|unfold vcross; v3field]). cbn [bind].
    rewrite (normalize_to _ 1 (mkV3 1 0 0)) by (first [lra|unfold vdot; cbn [vx vy vz vsub vscale]; ring|unfold vdot; v3field]). cbn [bind].
    rewrite (normalize_to _ 1 (mkV3 0 1 0)) by (first [lra|unfold vdot; cbn [vx vy vz vsub vscale]; ring|unfold vdot; v3field]). cbn [bind].
    replace (vdot (mkV3 1 0 0) (mkV3 0 1 0)) with 0 by (unfold vdot; cbn [vx vy vz]; ring). rewrite clamp_id by lra. rewrite acos_0.
    change (INR (2 - 1)) with 1. rewrite fdiv_some by lra. cbn [bind]. replace (PI / 2 / 1) with (PI / 2) by field.
    unfold evalMatrix. cbn [generateClassA armsFrom bind nth_error].
    replace (mkV3 1 0 0 +v mkV3 1 0 0 +v rotate (mkV3 0 0 1) (PI / 2) (mkV3 1 0 0) *v 1) with (mkV3 2 1 0) by (unfold rotate; rewrite cos_PI2, sin_PI2; unfold vdot, vcross; v3ring).
    rewrite (normalize_to _ (sqrt 2) (mkV3 1 1 0 *v / sqrt 2)) by (first [exact S2|rewrite SS; unfold vdot; cbn [vx vy vz vsub]; ring|v3ring]). cbn [bind].
    rewrite (normalize_to _ (3 * sqrt 2) (mkV3 1 1 0 *v / sqrt 2)).
    2: lra. 2: transitivity (9 * (sqrt 2 * sqrt 2)); [rewrite SS; unfold vdot; cbn [vx vy vz vsub]; ring|ring]. 2: v3field; lra.
    cbn [bind]. replace (vdot (mkV3 1 1 0 *v / sqrt 2) (mkV3 1 1 0 *v / sqrt 2) - 1) with 0.
    2: transitivity (2 / (sqrt 2 * sqrt 2) - 1); [rewrite SS; field|unfold vdot; cbn [vx vy vz vscale]; field; lra].
    rewrite Rabs_R0. replace (mkV3 1 0 0 +v mkV3 1 0 0) with (mkV3 2 0 0) by v3ring. reflexivity. }
  rewrite T. cbn [bind]. destruct (Rlt_dec (1 / 1000) 0); [lra|]. unfold finishClassA. cbn [nth_error bind].
  assert (N1 : vnorm (mkV3 4 3 0 -v mkV3 1 0 0) = 3 * sqrt 2).
  { unfold vnorm. replace (vdot _ _) with (3 * sqrt 2 * (3 * sqrt 2)); [apply sqrt_square; lra|]. transitivity (9 * (sqrt 2 * sqrt 2)); [ring|]. rewrite SS. unfold vdot; cbn [vx vy vz vsub]; ring. }
  assert (N2 : vnorm (mkV3 2 1 0 -v mkV3 1 0 0) = sqrt 2) by (unfold vnorm; f_equal; unfold vdot; cbn [vx vy vz vsub]; ring).
  rewrite N1, N2, fdiv_some by lra. cbn [bind]. replace (3 * sqrt 2 / sqrt 2) with 3 by (field; lra).
  cbn [generateClassA armsFrom bind upd]. do 3 f_equal. v3ring.
Qed.

(** ** C71: arc length *)

(** The derivative of the curve, and the table of the rule. *)
Definition hodo (n : nat) (P : nat -> V3) (u : R) : V3 :=
  if (1 <=? n)%nat then bezier (n - 1) (fun i => (P (S i) -v P i) *v INR n) u else vzero.
Lemma hodo_derive : forall n P u, vderiv (bezier n P) u (hodo n P u).
Proof.
  intros n P u. unfold hodo. destruct (Nat.leb_spec 1 n) as [B|B].
  - destruct n as [|m]; [lia|]. replace (S m - 1)%nat with m by lia. apply bezier_derive.
  - replace n with 0%nat by lia. apply bezier_derive0.
Qed.
Lemma arc_value' : forall cp n from to, length cp = (n + 1)%nat -> from < to ->
  let at_node := fun x => vnorm (hodo n (pnth cp) (((to - from) * x + from + to) / 2)) in
  bcArcLength cp from to = Some ((to - from) / 2 *
    (at_node (- (861136312 / 10 ^ 9)) * (347854845 / 10 ^ 9) + at_node (- (339981044 / 10 ^ 9)) * (652145155 / 10 ^ 9) +
     at_node (339981044 / 10 ^ 9) * (652145155 / 10 ^ 9) + at_node (861136312 / 10 ^ 9) * (347854845 / 10 ^ 9))).
Proof.
  intros cp n from to L H. cbv zeta. set (d := hodo n (pnth cp)). unfold bcArcLength. destruct (Rle_dec to from); [lra|].
  assert (E : forall u, exists der, bcEvalDer cp u 1 = Some der /\ nth_error der 1 = Some (d u)).
  { intros u. destruct (bcEvalDer_spec cp n u 1 L) as (der & Ed & _ & Fd). exists der. split; [exact Ed|]. rewrite (Fd 1%nat) by lia. unfold d, hodo. cbn [dcps]. rewrite Nat.sub_0_r. reflexivity. }
  assert (St : forall sum u w, (der <- bcEvalDer cp u 1 ;; q <- nth_error der 1 ;; Some (sum + vnorm q * w * (to - from) * (1 / 2))) = Some (sum + vnorm (d u) * w * (to - from) * (1 / 2))).
  { intros sum u w. destruct (E u) as (der & Ed & Fd). rewrite Ed. cbn [bind]. rewrite Fd. reflexivity. }
  unfold gaussTable. cbn [foldM fst snd]. rewrite St. cbn [bind]. rewrite St. cbn [bind]. rewrite St. cbn [bind]. rewrite St. cbn [bind]. f_equal.
  replace (((to - from) * (- 861136312 / 10 ^ 9) + from + to) * (1 / 2)) with (((to - from) * - (861136312 / 10 ^ 9) + from + to) / 2) by field.
  replace (((to - from) * (- 339981044 / 10 ^ 9) + from + to) * (1 / 2)) with (((to - from) * - (339981044 / 10 ^ 9) + from + to) / 2) by field.
  replace (((to - from) * (339981044 / 10 ^ 9) + from + to) * (1 / 2)) with (((to - from) * (339981044 / 10 ^ 9) + from + to) / 2) by field.
  replace (((to - from) * (861136312 / 10 ^ 9) + from + to) * (1 / 2)) with (((to - from) * (861136312 / 10 ^ 9) + from + to) / 2) by field.
  generalize (vnorm (d (((to - from) * - (861136312 / 10 ^ 9) + from + to) / 2))), (vnorm (d (((to - from) * - (339981044 / 10 ^ 9) + from + to) / 2))),
    (vnorm (d (((to - from) * (339981044 / 10 ^ 9) + from + to) / 2))), (vnorm (d (((to - from) * (861136312 / 10 ^ 9) + from + to) / 2))).
  intros. field.
Qed.
Lemma arc_value : forall cp n from to, length cp = (n + 1)%nat -> exists d : R -> V3,
  (forall u, vderiv (bezier n (pnth cp)) u (d u)) /\
  (from < to -> let at_node := fun x => vnorm (d (((to - from) * x + from + to) / 2)) in
  bcArcLength cp from to = Some ((to - from) / 2 *
    (at_node (- (861136312 / 10 ^ 9)) * (347854845 / 10 ^ 9) + at_node (- (339981044 / 10 ^ 9)) * (652145155 / 10 ^ 9) +
     at_node (339981044 / 10 ^ 9) * (652145155 / 10 ^ 9) + at_node (861136312 / 10 ^ 9) * (347854845 / 10 ^ 9)))).
Proof.
  intros cp n from to L. exists (hodo n (pnth cp)). split; [intros u; apply hodo_derive|]. intros H. apply arc_value'; assumption.
Qed.
(** The arc length lies between the bounds of the speed inside the interval,
    and is zero for an empty interval. *)
Theorem C71_bounds : forall cp from to lo hi, cp <> [] ->
  (forall u d, from < u < to -> vderiv (bezier (length cp - 1) (pnth cp)) u d -> lo <= vnorm d <= hi) ->
  exists len, bcArcLength cp from to = Some len /\
  (to <= from -> len = 0) /\ (from < to -> (to - from) * lo <= len <= (to - from) * hi).
Proof.
  intros cp from to lo hi Nc B. assert (L : length cp = (length cp - 1 + 1)%nat) by (destruct cp; [contradiction|cbn [length]; lia]).
  destruct (Rlt_dec from to) as [H|H].
  - destruct (arc_value cp _ from to L) as (d & Dd & E). specialize (E H). cbv zeta in E. rewrite E. eexists. split; [reflexivity|]. split; [lra|]. intros _.
    assert (X : forall x, -1 < x < 1 -> lo <= vnorm (d (((to - from) * x + from + to) / 2)) <= hi) by (intros x Hx; apply (B (((to - from) * x + from + to) / 2)); [split; nra|apply Dd]).
    pose proof (X (- (861136312 / 10 ^ 9)) ltac:(lra)) as X1. pose proof (X (- (339981044 / 10 ^ 9)) ltac:(lra)) as X2.
    pose proof (X (339981044 / 10 ^ 9) ltac:(lra)) as X3. pose proof (X (861136312 / 10 ^ 9) ltac:(lra)) as X4. clear X E.
    generalize dependent (vnorm (d (((to - from) * - (861136312 / 10 ^ 9) + from + to) / 2))). intros s1 X1.
    generalize dependent (vnorm (d (((to - from) * - (339981044 / 10 ^ 9) + from + to) / 2))). intros s2 X2.
    generalize dependent (vnorm (d (((to - from) * (339981044 / 10 ^ 9) + from + to) / 2))). intros s3 X3.
    generalize dependent (vnorm (d (((to - from) * (861136312 / 10 ^ 9) + from + to) / 2))). intros s4 X4.
    set (q := s1 * _ + s2 * _ + s3 * _ + s4 * _). assert (Q : 2 * lo <= q <= 2 * hi) by (unfold q; lra). clearbody q. nra.
  - exists 0. split; [|split; [reflexivity|lra]]. unfold bcArcLength. destruct (Rle_dec to from); [reflexivity|lra].
Qed.
Print Assumptions C71_bounds.

(** The length of an interval on which the speed is a polynomial of degree
    seven at most (in the variable x from -1 to 1) is found up to the precision
    of the table of nodes and weights: the odd powers do not contribute at all,
    and a constant speed is integrated exactly. *)
Theorem C71_exact : forall cp from to (c : nat -> R), cp <> [] -> from < to ->
  (forall x d, -1 <= x <= 1 -> vderiv (bezier (length cp - 1) (pnth cp)) ((from + to + (to - from) * x) / 2) d -> vnorm d = rsum 8 (fun k => c k * x ^ k)) ->
  exists len, bcArcLength cp from to = Some len /\
  Rabs (len - (to - from) / 2 * (2 * c 0%nat + 2 / 3 * c 2%nat + 2 / 5 * c 4%nat + 2 / 7 * c 6%nat)) <=
    (to - from) / 10 ^ 9 * (Rabs (c 2%nat) + Rabs (c 4%nat) + Rabs (c 6%nat)).
Proof.
  intros cp from to c Nc H S. assert (L : length cp = (length cp - 1 + 1)%nat) by (destruct cp; [contradiction|cbn [length]; lia]).
  destruct (arc_value cp _ from to L) as (d & Dd & E). specialize (E H). cbv zeta in E. rewrite E. eexists. split; [reflexivity|].
  assert (X : forall x, -1 <= x <= 1 -> vnorm (d (((to - from) * x + from + to) / 2)) = rsum 8 (fun k => c k * x ^ k)).
  { intros x Hx. replace (((to - from) * x + from + to) / 2) with ((from + to + (to - from) * x) / 2) by field. apply S; [exact Hx|apply Dd]. }
  rewrite (X (- (861136312 / 10 ^ 9))), (X (- (339981044 / 10 ^ 9))), (X (339981044 / 10 ^ 9)), (X (861136312 / 10 ^ 9)) by lra.
  set (A := 861136312 / 10 ^ 9). set (B := 339981044 / 10 ^ 9). set (w := 347854845 / 10 ^ 9). set (z := 652145155 / 10 ^ 9).
  assert (WZ : w + z = 1) by (unfold w, z; lra).
  assert (G : (to - from) / 2 * (rsum 8 (fun k => c k * (- A) ^ k) * w + rsum 8 (fun k => c k * (- B) ^ k) * z + rsum 8 (fun k => c k * B ^ k) * z + rsum 8 (fun k => c k * A ^ k) * w) -
      (to - from) / 2 * (2 * c 0%nat + 2 / 3 * c 2%nat + 2 / 5 * c 4%nat + 2 / 7 * c 6%nat) =
    (to - from) * (c 2%nat * (w * A ^ 2 + z * B ^ 2 - 1 / 3) + c 4%nat * (w * A ^ 4 + z * B ^ 4 - 1 / 5) + c 6%nat * (w * A ^ 6 + z * B ^ 6 - 1 / 7))).
  { cbn [rsum]. transitivity ((to - from) * (c 0%nat * (w + z - 1) + c 2%nat * (w * A ^ 2 + z * B ^ 2 - 1 / 3) + c 4%nat * (w * A ^ 4 + z * B ^ 4 - 1 / 5) + c 6%nat * (w * A ^ 6 + z * B ^ 6 - 1 / 7))); [|rewrite WZ; ring].
    clear. generalize (c 0%nat), (c 1%nat), (c 2%nat), (c 3%nat), (c 4%nat), (c 5%nat), (c 6%nat), (c 7%nat). intros. field. }
  rewrite G. clear G.
  assert (B2 : Rabs (w * A ^ 2 + z * B ^ 2 - 1 / 3) <= / 10 ^ 9) by (unfold A, B, w, z; apply Rabs_le; lra).
  assert (B4 : Rabs (w * A ^ 4 + z * B ^ 4 - 1 / 5) <= / 10 ^ 9) by (unfold A, B, w, z; apply Rabs_le; lra).
  assert (B6 : Rabs (w * A ^ 6 + z * B ^ 6 - 1 / 7) <= / 10 ^ 9) by (unfold A, B, w, z; apply Rabs_le; lra).
  rewrite Rabs_mult, (Rabs_pos_eq (to - from)) by lra. unfold Rdiv at 4. rewrite Rmult_assoc. apply Rmult_le_compat_l; [lra|].
  set (x2 := w * A ^ 2 + _ - _) in *. set (x4 := w * A ^ 4 + _ - _) in *. set (x6 := w * A ^ 6 + _ - _) in *. clearbody x2 x4 x6.
  eapply Rle_trans; [apply Rabs_triang|]. eapply Rle_trans; [apply Rplus_le_compat_r, Rabs_triang|]. rewrite !Rabs_mult.
  pose proof (Rabs_pos (c 2%nat)). pose proof (Rabs_pos (c 4%nat)). pose proof (Rabs_pos (c 6%nat)).
  assert (Rabs (c 2%nat) * Rabs x2 <= Rabs (c 2%nat) * / 10 ^ 9) by (apply Rmult_le_compat_l; assumption).
  assert (Rabs (c 4%nat) * Rabs x4 <= Rabs (c 4%nat) * / 10 ^ 9) by (apply Rmult_le_compat_l; assumption).
  assert (Rabs (c 6%nat) * Rabs x6 <= Rabs (c 6%nat) * / 10 ^ 9) by (apply Rmult_le_compat_l; assumption). lra.
Qed.
Print Assumptions C71_exact.


(** Similarities: a linear map that multiplies all lengths by [k], given by
    the images of the axes, and a translation. *)
Definition linear (X Y Z v : V3) : V3 := X *v vx v +v Y *v vy v +v Z *v vz v.
Lemma linear_vsum : forall X Y Z n f, linear X Y Z (vsum n f) = vsum n (fun i => linear X Y Z (f i)).
Proof.
  intros X Y Z n f. induction n as [|n IH]; cbn [vsum]; [unfold linear; v3ring|]. rewrite <- IH. unfold linear; v3ring.
Qed.
Lemma bezier_ext : forall n P Q u, (forall i, (i <= n)%nat -> P i = Q i) -> bezier n P u = bezier n Q u.
Proof. intros n P Q u H. unfold bezier. apply vsum_ext. intros i Hi. rewrite H by lia. reflexivity. Qed.
Lemma hodo_moved : forall n P Q X Y Z t u, (forall i, (i <= n)%nat -> Q i = linear X Y Z (P i) +v t) -> hodo n Q u = linear X Y Z (hodo n P u).
Proof.
  intros n P Q X Y Z t u H. unfold hodo. destruct (Nat.leb_spec 1 n) as [B|B]; [|unfold linear; v3ring]. unfold bezier. rewrite linear_vsum.
  apply vsum_ext. intros i Hi. rewrite !H by lia. unfold linear; v3ring.
Qed.
Lemma hodo_reversed : forall n P u, hodo n (fun i => P (n - i)%nat) u = hodo n P (1 - u) *v (- 1).
Proof.
  intros n P u. unfold hodo. destruct (Nat.leb_spec 1 n) as [B|B]; [|v3ring]. unfold bezier. rewrite <- vsum_scale.
  rewrite vsum_rev. apply vsum_ext. intros i Hi.
  replace (n - 1 + 1 - 1 - i)%nat with (n - 1 - i)%nat by lia. replace (n - S (n - 1 - i))%nat with i by lia. replace (n - (n - 1 - i))%nat with (S i) by lia.
  assert (E : bern (n - 1) (n - 1 - i) u = bern (n - 1) i (1 - u)).
  { symmetry. apply bern_sym. lia. }
  rewrite E. v3ring.
Qed.

(** Moving the curve by a similarity multiplies its length by the factor of the
    similarity; *)
Theorem C71_moved : forall X Y Z t k, (forall v, vnorm (linear X Y Z v) = k * vnorm v) ->
  forall cp from to len, bcArcLength cp from to = Some len -> bcArcLength (map (fun p => linear X Y Z p +v t) cp) from to = Some (k * len).
Proof.
  intros X Y Z t k Sim cp from to len E.
  destruct (Rlt_dec from to) as [H|H].
  2:{ unfold bcArcLength in *. destruct (Rle_dec to from); [|lra]. injection E as <-. f_equal. ring. }
  destruct cp as [|p cp'].
  { unfold bcArcLength in E. destruct (Rle_dec to from); [lra|]. discriminate. }
  set (cp := p :: cp') in *. assert (L : length cp = (length cp' + 1)%nat) by (unfold cp; cbn [length]; lia). set (n := length cp') in *.
  assert (L' : length (map (fun p => linear X Y Z p +v t) cp) = (n + 1)%nat) by (rewrite map_length; exact L).
  rewrite (arc_value' cp n from to L H) in E. apply (f_equal (fun o => match o with Some x => x | None => 0 end)) in E. cbv beta iota zeta in E. rewrite <- E. rewrite (arc_value' _ n from to L' H). f_equal.
  assert (V : forall u, vnorm (hodo n (pnth (map (fun p => linear X Y Z p +v t) cp)) u) = k * vnorm (hodo n (pnth cp) u)).
  { intros u. rewrite <- Sim. f_equal. apply (hodo_moved n (pnth cp) _ X Y Z t). intros i Hi. unfold pnth.
    rewrite (nth_indep _ vzero (linear X Y Z vzero +v t)) by lia. apply (map_nth (fun p => linear X Y Z p +v t)). }
  rewrite !V. field.
Qed.
Print Assumptions C71_moved.

(** ... and the reversed curve has the same length. *)
Theorem C71_reversed : forall cp from to, bcArcLength (bcReverse cp) (1 - to) (1 - from) = bcArcLength cp from to.
Proof.
  intros cp from to. destruct (Rlt_dec from to) as [H|H].
  2:{ unfold bcArcLength. destruct (Rle_dec to from); [|lra]. destruct (Rle_dec (1 - from) (1 - to)); [reflexivity|lra]. }
  destruct cp as [|p cp'].
  { unfold bcArcLength. destruct (Rle_dec to from); [lra|]. destruct (Rle_dec (1 - from) (1 - to)); [lra|]. reflexivity. }
  set (cp := p :: cp') in *. assert (L : length cp = (length cp' + 1)%nat) by (unfold cp; cbn [length]; lia). set (n := length cp') in *.
  assert (L' : length (bcReverse cp) = (n + 1)%nat) by (unfold bcReverse; rewrite rev_length; exact L).
  rewrite (arc_value' cp n from to L H), (arc_value' _ n (1 - to) (1 - from) L') by lra. f_equal.
  assert (V : forall u, vnorm (hodo n (pnth (bcReverse cp)) u) = vnorm (hodo n (pnth cp) (1 - u))).
  { intros u. assert (W : hodo n (pnth (bcReverse cp)) u = hodo n (pnth cp) (1 - u) *v (- 1)).
    { rewrite <- hodo_reversed. unfold hodo. destruct (Nat.leb_spec 1 n); [|reflexivity]. apply bezier_ext. intros i Hi. unfold pnth, bcReverse. rewrite !rev_nth by lia. rewrite L.
      do 2 f_equal; f_equal; lia. }
    rewrite W. unfold vnorm. f_equal. unfold vdot; cbn [vx vy vz vscale]. ring. }
  rewrite !V.
  replace (1 - ((1 - from - (1 - to)) * - (861136312 / 10 ^ 9) + (1 - to) + (1 - from)) / 2) with (((to - from) * (861136312 / 10 ^ 9) + from + to) / 2) by field.
  replace (1 - ((1 - from - (1 - to)) * - (339981044 / 10 ^ 9) + (1 - to) + (1 - from)) / 2) with (((to - from) * (339981044 / 10 ^ 9) + from + to) / 2) by field.
  replace (1 - ((1 - from - (1 - to)) * (339981044 / 10 ^ 9) + (1 - to) + (1 - from)) / 2) with (((to - from) * - (339981044 / 10 ^ 9) + from + to) / 2) by field.
  replace (1 - ((1 - from - (1 - to)) * (861136312 / 10 ^ 9) + (1 - to) + (1 - from)) / 2) with (((to - from) * - (861136312 / 10 ^ 9) + from + to) / 2) by field.
  field.
Qed.
Print Assumptions C71_reversed.

(** A segment of length 5, and the whole of a straight quadratic curve run
    through with increasing speed. *)
Example C71_example :
  bcArcLength [mkV3 0 0 0; mkV3 3 4 0] 0 1 = Some 5 /\ bcArcLength [mkV3 0 0 0; mkV3 3 4 0] (1 / 4) (3 / 4) = Some (5 / 2) /\
  bcArcLength [mkV3 0 0 0; mkV3 1 0 0; mkV3 4 0 0] 0 1 = Some 4.
Proof.
  assert (S5 : forall f g, f < g -> bcArcLength [mkV3 0 0 0; mkV3 3 4 0] f g = Some ((g - f) * 5)).
  { intros f g H. rewrite (arc_value' [mkV3 0 0 0; mkV3 3 4 0] 1 f g eq_refl H). f_equal.
    assert (V : forall u, vnorm (hodo 1 (pnth [mkV3 0 0 0; mkV3 3 4 0]) u) = 5).
    { intros u. unfold vnorm, hodo, bezier, pnth, bern. cbn [Nat.leb Nat.sub Nat.add vsum nth choose INR pow]. rewrite <- (sqrt_square 5) by lra. f_equal. unfold vdot; cbn [vx vy vz vadd vsub vscale vzero]. ring. }
    rewrite !V. field. }
  split; [rewrite S5 by lra; f_equal; field|]. split; [rewrite S5 by lra; f_equal; field|].
  rewrite (arc_value' [mkV3 0 0 0; mkV3 1 0 0; mkV3 4 0 0] 2 0 1 eq_refl ltac:(lra)). f_equal.
  assert (V : forall u, 0 <= u <= 1 -> vnorm (hodo 2 (pnth [mkV3 0 0 0; mkV3 1 0 0; mkV3 4 0 0]) u) = 2 + 4 * u).
  { intros u Hu. unfold vnorm, hodo, bezier, pnth, bern. cbn [Nat.leb Nat.sub Nat.add vsum nth choose INR pow]. rewrite <- (sqrt_square (2 + 4 * u)) by lra. f_equal. unfold vdot; cbn [vx vy vz vadd vsub vscale vzero]. ring. }
  rewrite !V by lra. field.
Qed.
