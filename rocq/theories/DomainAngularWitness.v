(** Layout lengths, and a concave polygon accepted by DomainAngular. *)

From Verif Require Import Base MeshModel GeomSpec DomainModel MeshParams MeshGeom MeshGeom2 DomainPolygons.
Open Scope R_scope.

Lemma regularVertices_length : forall m vs, regularVertices m = Some vs -> length vs = m.
Proof.
  intros m vs; unfold regularVertices. destruct (Nat.eqb_spec m 4) as [->|E].
  - intros H; injection H as <-; reflexivity.
  - destruct (fdiv (2 * PI) (INR m)); simpl; [|discriminate]. intros H; injection H as <-. apply tabulate_length.
Qed.

Lemma circularVertices_length : forall ls vs, circularVertices ls = Some vs -> length vs = length ls.
Proof.
  intros ls vs; unfold circularVertices. destruct (fdiv _ _); simpl; [|discriminate].
  intros H; injection H as <-. rewrite circularLoop_length, map_length; reflexivity.
Qed.

Lemma closeLoop_length : forall vs lens acc l t out, closeLoop acc l t vs lens = Some out ->
  length out = length vs.
Proof.
  induction vs as [|v vs IH]; intros lens acc l t out H; simpl in H; [injection H as <-; reflexivity|].
  destruct lens as [|x lens]; [discriminate|].
  destruct (pdiv _ t); simpl in H; [|discriminate].
  destruct (closeLoop (acc + x) l t vs lens) as [r|] eqn:E; simpl in H; [|discriminate].
  injection H as <-; simpl. f_equal; eapply IH; exact E.
Qed.

Lemma angularTurns_length : forall n l t, angularTurns n l = Some t -> length t = length l.
Proof.
  intros n l t; unfold angularTurns. destruct (fdiv _ _); simpl; [|discriminate].
  intros H; injection H as <-; apply map_length.
Qed.

Lemma angularVertices_length : forall cs vs, angularVertices cs = Some vs -> length vs = length cs.
Proof.
  intros cs vs; unfold angularVertices.
  destruct (angularAngles cs) as [an|] eqn:Ea; cbn [bind]; [|discriminate].
  destruct (angularTurns _ an) as [tu|] eqn:Et; cbn [bind]; [|discriminate].
  destruct (closedPolygon _ tu) as [v0|] eqn:Ec; cbn [bind]; [|discriminate].
  destruct (rescale v0) as [v1|] eqn:Er; cbn [bind]; [|discriminate].
  destruct (convexTest v1) as [b|]; cbn [bind]; [|discriminate].
  destruct b.
  - intros H; injection H as <-.
    unfold rescale in Er. apply mapM_length in Er. rewrite Er.
    unfold closedPolygon in Ec. destruct (nth_error _ _); simpl in Ec; [|discriminate].
    apply closeLoop_length in Ec. rewrite Ec, openLoop_length, combine_length, map_length.
    apply angularTurns_length in Et. unfold angularAngles in Ea. apply mapM_length in Ea.
    rewrite seq_length in Ea. lia.
  - intros H. apply circularVertices_length in H. rewrite H. apply map_length.
Qed.

Lemma convexTest_some : forall vs, (forall i, (i < length vs)%nat -> side_in vs i <> pzero) ->
  exists b, convexTest vs = Some b.
Proof.
  intros vs H. unfold convexTest.
  assert (N : forall a, a <> pzero -> pnormalize a = Some (a *p / pnorm a)).
  { intros a Ha. unfold pnormalize. apply pdiv_some. intros E; apply Ha, pnorm_zero, E. }
  rewrite (mapM_total _ (fun i => match cornerFlagged vs i with Some b => b | None => false end)).
  - eexists; reflexivity.
  - intros i Hi; apply in_seq in Hi. unfold cornerFlagged.
    rewrite !vtx_nth by (try apply prv_lt; try apply nxt_lt; lia). cbn [bind].
    rewrite (N (vtx vs i -p vtx vs (prv (length vs) i))) by (apply H; lia). cbn [bind].
    rewrite (N (vtx vs (nxt (length vs) i) -p vtx vs i)); [reflexivity|].
    intros E. apply (H (nxt (length vs) i)); [apply nxt_lt; lia|].
    unfold side_in. rewrite prv_nxt by lia. exact E.
Qed.

(** The L shape.  Corner 0 is reflex. *)
Definition bent (x : R) (l : R) : angCurve := mkAngCurve l (mkV3 x 1 0) (mkV3 (-1) 0 0).
Definition lshape : list angCurve := [bent 1 1; bent (-1) 1; bent 1 1; bent 1 2; bent 1 2; bent 1 1].
Definition lverts : list V2 :=
  [mkV2 0 0; mkV2 0 (-1); mkV2 1 (-1); mkV2 1 1; mkV2 (-1) 1; mkV2 (-1) 0].

Lemma norm_m1 : vnormalize (mkV3 (-1) 0 0) = Some (mkV3 (-1) 0 0).
Proof.
  unfold vnormalize, vnorm, vdot; simpl. replace (-1 * -1 + 0 * 0 + 0 * 0) with 1 by ring.
  rewrite sqrt_1, vdiv_some by lra. f_equal. v3field.
Qed.
Lemma norm_11 : forall x, x * x = 1 -> vnormalize (mkV3 x 1 0) = Some (mkV3 (x / sqrt 2) (1 / sqrt 2) 0).
Proof.
  intros x Hx. unfold vnormalize, vnorm, vdot; simpl. replace (x * x + 1 * 1 + 0 * 0) with 2 by (rewrite Hx; ring).
  assert (0 < sqrt 2) by (apply sqrt_lt_R0; lra).
  rewrite vdiv_some by lra. f_equal. v3field; lra.
Qed.
Lemma inv_sqrt2 : 0 < 1 / sqrt 2 < 1.
Proof.
  assert (1 < sqrt 2) by (rewrite <- sqrt_1 at 1; apply sqrt_lt_1; lra).
  split; [apply Rdiv_lt_0_compat; lra|].
  apply Rmult_lt_reg_r with (sqrt 2); [lra|]. unfold Rdiv. rewrite Rmult_assoc, Rinv_l; lra.
Qed.
Lemma acos_p : acos (clamp (1 / sqrt 2) (-1) 1) = PI / 4.
Proof.
  pose proof inv_sqrt2. rewrite clamp_id by lra. rewrite <- cos_PI4.
  apply acos_cos. pose proof PI_RGT_0; lra.
Qed.
Lemma acos_m : acos (clamp (- 1 / sqrt 2) (-1) 1) = 3 * (PI / 4).
Proof.
  pose proof inv_sqrt2. replace (-1 / sqrt 2) with (- (1 / sqrt 2)) by (unfold Rdiv; ring).
  rewrite clamp_id by lra. rewrite <- cos_PI4.
  replace (- cos (PI / 4)) with (cos (3 * (PI / 4))).
  - apply acos_cos. pose proof PI_RGT_0; lra.
  - replace (3 * (PI / 4)) with (PI - PI / 4) by field. rewrite Rtrigo_facts.cos_pi_minus. reflexivity.
Qed.

Lemma lshape_angles : angularAngles lshape =
  Some [3 * (PI / 4); PI / 4; PI / 4; PI / 4; PI / 4; PI / 4].
Proof.
  unfold angularAngles, lshape. cbn [length seq mapM nxt nth_error Nat.add Nat.modulo Nat.divmod snd Nat.sub bind].
  simpl nth_error. cbn [bind ac_der0 ac_der1 bent].
  rewrite norm_m1. cbn [bind]. rewrite !norm_11 by ring. cbn [bind].
  assert (E1 : vdot (vopp (mkV3 (-1) 0 0)) (mkV3 (1 / sqrt 2) (1 / sqrt 2) 0) = 1 / sqrt 2)
    by (unfold vdot, vopp; simpl; ring).
  assert (E2 : vdot (vopp (mkV3 (-1) 0 0)) (mkV3 (-1 / sqrt 2) (1 / sqrt 2) 0) = -1 / sqrt 2)
    by (unfold vdot, vopp; simpl; ring).
  rewrite E1, E2, acos_p, acos_m. reflexivity.
Qed.

Lemma lshape_turns : angularTurns (length lshape) [3 * (PI / 4); PI / 4; PI / 4; PI / 4; PI / 4; PI / 4] =
  Some [- (PI / 2); PI / 2; PI / 2; PI / 2; PI / 2; PI / 2].
Proof.
  pose proof PI_RGT_0 as P. unfold angularTurns, accumulate. cbn [fold_left map length lshape Nat.sub].
  rewrite fdiv_some by lra. cbn [bind].
  replace (INR 4 * PI / (0 + 3 * (PI / 4) + PI / 4 + PI / 4 + PI / 4 + PI / 4 + PI / 4)) with 2
    by (simpl INR; field; lra).
  apply f_equal. repeat (apply (f_equal2 cons); [field|]). reflexivity.
Qed.

Lemma lshape_closed : closedPolygon (map ac_len lshape) [- (PI / 2); PI / 2; PI / 2; PI / 2; PI / 2; PI / 2] =
  Some [mkV2 1 0; mkV2 1 (-1); mkV2 2 (-1); mkV2 2 1; mkV2 0 1; mkV2 0 0].
Proof.
  unfold closedPolygon. cbn [map ac_len lshape bent combine].
  assert (O : openLoop 0 pzero [(1, - (PI / 2)); (1, PI / 2); (1, PI / 2); (2, PI / 2); (2, PI / 2); (1, PI / 2)]
    = [mkV2 1 0; mkV2 1 (-1); mkV2 2 (-1); mkV2 2 1; mkV2 0 1; mkV2 0 0]).
  { cbn [openLoop].
    replace (0 + - (PI / 2)) with (- (PI / 2)) by ring.
    replace (- (PI / 2) + PI / 2) with 0 by ring.
    replace (0 + PI / 2) with (PI / 2) by ring.
    replace (PI / 2 + PI / 2) with PI by field.
    replace (PI + PI / 2) with (3 * (PI / 2)) by field.
    rewrite cos_neg, sin_neg, cos_0, sin_0, cos_PI2, sin_PI2, cos_PI, sin_PI, cos_3PI2, sin_3PI2.
    repeat (apply (f_equal2 cons); [apply V2_ext; simpl; ring|]). reflexivity. }
  rewrite O. cbn [length Nat.sub nth_error bind]. unfold accumulate. cbn [fold_left closeLoop].
  rewrite !pdiv_some by lra. cbn [bind]. apply f_equal.
  repeat (apply (f_equal2 cons); [apply V2_ext; simpl; ring|]). reflexivity.
Qed.

Lemma lshape_rescaled : rescale [mkV2 1 0; mkV2 1 (-1); mkV2 2 (-1); mkV2 2 1; mkV2 0 1; mkV2 0 0] = Some lverts.
Proof.
  unfold rescale. cbn [fold_left px py].
  repeat match goal with
  | |- context [Rmin ?a ?b] => first [rewrite (Rmin_left a b) by lra | rewrite (Rmin_right a b) by lra]
  | |- context [Rmax ?a ?b] => first [rewrite (Rmax_left a b) by lra | rewrite (Rmax_right a b) by lra]
  end.
  cbn [mapM]. rewrite !pdiv_some by lra. cbn [bind]. unfold lverts. apply f_equal.
  repeat (apply (f_equal2 cons); [apply V2_ext; simpl; field|]). reflexivity.
Qed.

Lemma lverts_accepted : convexTest lverts = Some true.
Proof.
  destruct (convexTest_some lverts) as (b & Hb).
  - intros i Hi E. simpl in Hi. assert (X := f_equal px E). assert (Y := f_equal py E).
    do 6 (try destruct i as [|i]); try lia; unfold side_in, vtx in X, Y; simpl in X, Y; lra.
  - rewrite Hb. f_equal. apply (convexTest_spec _ _ Hb). intros i Hi. simpl in Hi.
    do 6 (try destruct i as [|i]); try lia; unfold side_in, side_out, vtx, pcross, psub; simpl;
      try (left; lra); right; lra.
Qed.

Lemma lshape_vertices : angularVertices lshape = Some lverts.
Proof.
  unfold angularVertices. rewrite lshape_angles. cbn [bind]. rewrite lshape_turns. cbn [bind].
  rewrite lshape_closed. cbn [bind]. rewrite lshape_rescaled. cbn [bind].
  rewrite lverts_accepted. reflexivity.
Qed.

Lemma lverts_reflex : pcross (side_in lverts 0) (side_out lverts 0) < 0.
Proof. unfold pcross, side_in, side_out, vtx; simpl. lra. Qed.
