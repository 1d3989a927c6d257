(** Heights and Jacobians on the regular domain. *)

From Verif Require Import Base MeshModel GeomSpec DomainModel UtilModel ParamModel.
From Verif Require Import DomainProofs DomainPolygons UtilProofs ParamBary ParamMaps.
Open Scope R_scope.

(** Whatever the frame, the Jacobian in terms of corner areas. *)
Lemma biJac_areas : forall vs i s t, let n := length vs in len2 vs i <> 0 ->
  biJac vs i s t = (1 - t) * ((1 - s) * heightPrev vs i + s * heightNext vs i)
    + t * ((1 - s) * (sarea (vtx vs (prv n (prv n i))) (vtx vs (prv n i)) (vtx vs (nxt n i)) / len2 vs i)
         + s * (sarea (vtx vs i) (vtx vs (nxt n i)) (vtx vs (prv n (prv n i))) / len2 vs i)).
Proof.
  intros vs i s t n N. unfold biJac, heightPrev, heightNext, sarea, sidevec. fold n. unfold pcross; simpl. field. exact N.
Qed.

Section Circ.
Variables (m : nat) (vs : list V2).
Hypothesis H3 : (3 <= m)%nat.
Hypothesis H4 : m <> 4%nat.
Hypothesis Hv : regularVertices m = Some vs.
Let al : R := 2 * PI / INR m.

Lemma m_pos : 0 < INR m.
Proof. apply lt_0_INR; lia. Qed.

Lemma vs_eq : vs = tabulate m (fun i => onc (al * INR i)).
Proof.
  unfold regularVertices in Hv. destruct (Nat.eqb_spec m 4); [contradiction|].
  pose proof m_pos. rewrite fdiv_some in Hv by lra. cbn [bind] in Hv. injection Hv as <-. reflexivity.
Qed.
Lemma vs_len : length vs = m.
Proof. rewrite vs_eq. apply tabulate_length. Qed.
Lemma vtx_eq : forall i, (i < m)%nat -> vtx vs i = onc (al * INR i).
Proof. intros i Hi. rewrite vs_eq. apply vtx_tabulate; exact Hi. Qed.

Lemma onc_period : forall x, onc (x + 2 * PI) = onc x.
Proof.
  intros x. unfold onc. pose proof (cos_period x 1) as A. pose proof (sin_period x 1) as B. simpl INR in A, B.
  replace (x + 2 * 1 * PI) with (x + 2 * PI) in A, B by ring. rewrite A, B. reflexivity.
Qed.

Lemma full : al * INR m = 2 * PI.
Proof. unfold al. pose proof m_pos. field. lra. Qed.

Lemma vtx_next : forall i, (i < m)%nat -> vtx vs (nxt m i) = onc (al * (INR i + 1)).
Proof.
  intros i Hi. rewrite nxt_cases by exact Hi. destruct (Nat.eqb_spec (S i) m) as [E|E].
  - rewrite vtx_eq by lia. rewrite <- (onc_period (al * INR 0)). f_equal. rewrite <- full, <- E, S_INR. simpl; ring.
  - rewrite vtx_eq by lia. f_equal. rewrite S_INR; ring.
Qed.
Lemma vtx_prev : forall i, (i < m)%nat -> vtx vs (prv m i) = onc (al * (INR i - 1)).
Proof.
  intros i Hi. rewrite prv_cases by exact Hi. destruct (Nat.eqb_spec i 0) as [E|E].
  - subst i. rewrite vtx_eq by lia. rewrite <- (onc_period (al * (INR 0 - 1))). f_equal. rewrite <- full.
    rewrite minus_INR by lia. simpl; ring.
  - rewrite vtx_eq by lia. f_equal. rewrite minus_INR by lia. simpl; ring.
Qed.
Lemma vtx_prev2 : forall i, (i < m)%nat -> vtx vs (prv m (prv m i)) = onc (al * (INR i - 2)).
Proof.
  intros i Hi. rewrite vtx_prev by (apply prv_lt; lia). rewrite prv_cases by exact Hi. destruct (Nat.eqb_spec i 0) as [E|E].
  - subst i. rewrite <- (onc_period (al * (INR 0 - 2))). f_equal. rewrite <- full.
    rewrite minus_INR by lia. simpl; ring.
  - f_equal. rewrite minus_INR by lia. simpl; ring.
Qed.

Lemma half_pos : 0 < sin (al / 2).
Proof.
  pose proof m_pos as P. pose proof PI_RGT_0. apply sin_gt_0.
  - unfold al. apply Rmult_lt_0_compat; [|lra]. apply Rdiv_lt_0_compat; lra.
  - unfold al. apply (Rmult_lt_reg_r (INR m)); [exact P|]. replace (2 * PI / INR m / 2 * INR m) with PI by (field; lra).
    assert (3 <= INR m) by (replace 3 with (INR 3) by (simpl; lra); apply le_INR; exact H3). nra.
Qed.

Lemma len2_circ : forall i, (i < m)%nat -> len2 vs i = 4 * sin (al / 2) * sin (al / 2).
Proof.
  intros i Hi. unfold len2, sidevec, pnorm2, pdot. rewrite vs_len, vtx_prev, vtx_eq by exact Hi. unfold onc; simpl.
  set (x := al * INR i). replace (al * (INR i - 1)) with (x - al) by (unfold x; ring).
  rewrite cos_minus, sin_minus.
  assert (A : cos al = 1 - 2 * sin (al / 2) * sin (al / 2)).
  { replace al with (2 * (al / 2)) at 1 by field. rewrite cos_2a_sin. ring. }
  pose proof (sin2_cos2 x) as P1. pose proof (sin2_cos2 al) as P2. unfold Rsqr in P1, P2.
  replace ((cos x - (cos x * cos al + sin x * sin al)) * (cos x - (cos x * cos al + sin x * sin al)) +
    (sin x - (sin x * cos al - cos x * sin al)) * (sin x - (sin x * cos al - cos x * sin al)))
    with ((sin x * sin x + cos x * cos x) * (1 - 2 * cos al + (sin al * sin al + cos al * cos al))) by ring.
  rewrite P1, P2, A. ring.
Qed.

Lemma heights_circ : forall i, (i < m)%nat -> heightPrev vs i = sin al /\ heightNext vs i = sin al.
Proof.
  intros i Hi. pose proof half_pos as P. unfold heightPrev, heightNext. rewrite vs_len, len2_circ by exact Hi.
  rewrite vtx_prev2, vtx_prev, vtx_next, (vtx_eq i) by exact Hi. rewrite !sarea_circle.
  split.
  - replace ((al * INR i - al * (INR i - 1)) / 2) with (al / 2) by field.
    replace ((al * (INR i - 2) - al * INR i) / 2) with (- al) by field.
    replace ((al * (INR i - 2) - al * (INR i - 1)) / 2) with (- (al / 2)) by field.
    rewrite !sin_neg. field. lra.
  - replace ((al * INR i - al * (INR i - 1)) / 2) with (al / 2) by field.
    replace ((al * (INR i + 1) - al * INR i) / 2) with (al / 2) by field.
    replace ((al * (INR i + 1) - al * (INR i - 1)) / 2) with al by field.
    field. lra.
Qed.

Lemma jac_circ : forall i s t, (i < m)%nat ->
  biJac vs i s t = sin al * ((1 - t) + t * (sin (3 * al / 2) / sin (al / 2))).
Proof.
  intros i s t Hi. pose proof half_pos as P. destruct (heights_circ i Hi) as [A B].
  rewrite biJac_areas by (rewrite len2_circ by exact Hi; nra).
  rewrite A, B, vs_len, len2_circ by exact Hi.
  rewrite vtx_prev2, vtx_prev, vtx_next, (vtx_eq i) by exact Hi. rewrite !sarea_circle.
  replace ((al * (INR i - 1) - al * (INR i - 2)) / 2) with (al / 2) by field.
  replace ((al * (INR i + 1) - al * (INR i - 1)) / 2) with al by field.
  replace ((al * (INR i + 1) - al * (INR i - 2)) / 2) with (3 * al / 2) by field.
  replace ((al * (INR i + 1) - al * INR i) / 2) with (al / 2) by field.
  replace ((al * (INR i - 2) - al * (INR i + 1)) / 2) with (- (3 * al / 2)) by field.
  replace ((al * (INR i - 2) - al * INR i) / 2) with (- al) by field.
  rewrite !sin_neg. field. lra.
Qed.

Lemma sin_triple : forall x, sin (3 * x) = sin x * (3 - 4 * (sin x * sin x)).
Proof.
  intros x. replace (3 * x) with (2 * x + x) by ring. rewrite sin_plus, sin_2a, cos_2a_sin.
  pose proof (sin2_cos2 x) as P; unfold Rsqr in P.
  replace (2 * sin x * cos x * cos x + (1 - 2 * sin x * sin x) * sin x)
    with (2 * sin x * (cos x * cos x) + (1 - 2 * sin x * sin x) * sin x) by ring.
  replace (cos x * cos x) with (1 - sin x * sin x) by lra. ring.
Qed.

Lemma ratio_ge1 : (4 <= m)%nat -> 1 <= sin (3 * al / 2) / sin (al / 2).
Proof.
  intros M. pose proof half_pos as P. pose proof m_pos as Pm. pose proof PI_RGT_0.
  replace (3 * al / 2) with (3 * (al / 2)) by field. rewrite sin_triple.
  replace (sin (al / 2) * (3 - 4 * (sin (al / 2) * sin (al / 2))) / sin (al / 2)) with (3 - 4 * (sin (al / 2) * sin (al / 2))) by (field; lra).
  assert (L : sin (al / 2) <= sin (PI / 4)).
  { assert (al / 2 <= PI / 4).
    { unfold al. apply (Rmult_le_reg_r (INR m)); [exact Pm|]. replace (2 * PI / INR m / 2 * INR m) with PI by (field; lra).
      assert (4 <= INR m) by (replace 4 with (INR 4) by (simpl; lra); apply le_INR; exact M). nra. }
    assert (0 < al / 2). { unfold al. apply Rmult_lt_0_compat; [|lra]. apply Rdiv_lt_0_compat; lra. }
    destruct (Req_dec (al / 2) (PI / 4)) as [->|N]; [lra|]. left. apply sin_increasing_1; lra. }
  assert (Q : sin (PI / 4) * sin (PI / 4) = 1 / 2).
  { rewrite sin_PI4. unfold Rdiv. pose proof (sqrt_sqrt 2 ltac:(lra)). pose proof (sqrt_lt_R0 2 ltac:(lra)).
    replace (1 * / sqrt 2 * (1 * / sqrt 2)) with (/ (sqrt 2 * sqrt 2)) by (field; lra). rewrite H0. lra. }
  nra.
Qed.

End Circ.

(** The square. *)
Lemma square_heights : forall vs i s t, regularVertices 4 = Some vs -> (i < 4)%nat ->
  heightPrev vs i = 1 /\ heightNext vs i = 1 /\ biJac vs i s t = 1.
Proof.
  intros vs i s t H Hi. unfold regularVertices in H. simpl in H. injection H as <-.
  unfold heightPrev, heightNext, biJac, len2, sidevec, sarea, pnorm2, pdot, pcross, vtx.
  destruct i as [|[|[|[|i]]]]; [| | | |lia]; cbn [length prv nxt Nat.add Nat.sub Nat.modulo Nat.divmod nth fst snd px py padd psub pscale];
    simpl; repeat split; field.
Qed.

Lemma regular_heights : forall m vs i, (3 <= m)%nat -> regularVertices m = Some vs -> (i < m)%nat ->
  heightPrev vs i = sin (2 * PI / INR m) /\ heightNext vs i = sin (2 * PI / INR m).
Proof.
  intros m vs i H3 Hv Hi. destruct (Nat.eq_dec m 4) as [->|H4].
  - destruct (square_heights vs i 0 0 Hv Hi) as (A & B & _).
    replace (2 * PI / INR 4) with (PI / 2) by (simpl; field). rewrite sin_PI2. auto.
  - exact (heights_circ m vs H3 H4 Hv i Hi).
Qed.

Lemma regular_jac : forall m vs i s t, (3 <= m)%nat -> regularVertices m = Some vs -> (i < m)%nat -> 0 <= t <= 1 ->
  ((4 <= m)%nat -> sin (2 * PI / INR m) <= biJac vs i s t) /\ (m = 3%nat -> biJac vs i s t = sin (2 * PI / 3) * (1 - t)).
Proof.
  intros m vs i s t H3 Hv Hi Ht. destruct (Nat.eq_dec m 4) as [->|H4].
  - destruct (square_heights vs i s t Hv Hi) as (_ & _ & C). split; [intros _|lia].
    rewrite C. apply SIN_bound.
  - rewrite (jac_circ m vs H3 H4 Hv i s t Hi). split.
    + intros M. pose proof (ratio_ge1 m H3 H4 M) as Q.
      assert (0 < sin (2 * PI / INR m)).
      { pose proof PI_RGT_0. assert (4 <= INR m) by (replace 4 with (INR 4) by (simpl; lra); apply le_INR; exact M).
        apply sin_gt_0; [apply Rdiv_lt_0_compat; lra|].
        apply (Rmult_lt_reg_r (INR m)); [lra|]. replace (2 * PI / INR m * INR m) with (2 * PI) by (field; lra). nra. }
      set (q := sin (3 * (2 * PI / INR m) / 2) / sin (2 * PI / INR m / 2)) in *.
      assert (1 <= 1 - t + t * q) by nra. nra.
    + intros ->. replace (INR 3) with 3 by (simpl; ring).
      replace (3 * (2 * PI / 3) / 2) with PI by field. rewrite sin_PI. f_equal. unfold Rdiv. ring.
Qed.

Lemma regular_solvable : forall m vs eps i s t, (3 <= m)%nat -> regularVertices m = Some vs -> (i < m)%nat -> 0 <= t <= 1 ->
  ((4 <= m)%nat -> eps <= sin (2 * PI / INR m)) -> (m = 3%nat -> eps <= sin (2 * PI / 3) * (1 - t)) ->
  solvable vs eps i s t.
Proof.
  intros m vs eps i s t H3 Hv Hi Ht E4 E3. left. destruct (regular_heights m vs i H3 Hv Hi) as [A B].
  split; [congruence|]. destruct (regular_jac m vs i s t H3 Hv Hi Ht) as [J4 J3].
  destruct (Nat.eq_dec m 3) as [Em|Em].
  - rewrite (J3 Em). apply E3; exact Em.
  - assert (4 <= m)%nat by lia. specialize (J4 H). specialize (E4 H). lra.
Qed.
