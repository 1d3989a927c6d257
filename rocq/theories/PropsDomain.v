(** Properties of domains: C09 - C13. *)

From Verif Require Import Base MeshModel MeshProofsRing GeomSpec DomainModel MeshParams MeshGeom MeshGeom2.
From Verif Require Import DomainCache DomainProofs DomainPolygons DomainAngularWitness.
Open Scope R_scope.

(** ** C09: the cache of the parameter list.

    [os] is any sequence of setSide / setSides / update / parameters calls on
    a new object, followed by an update and more queries.  The last query
    returns the list that the current layout of the current curves gives. *)
Theorem C09_circular_cache : forall c0 os qs s r ps s',
  Forall (is_query R) qs ->
  run R (polyUpdate R circularLayout) (polyQuery R) (initial R c0) (os ++ Update R :: qs) = Some s ->
  polyQuery R s r = Some (ps, s') ->
  exists c vs, circularLayout (s_curves R s) = Some (c, vs) /\
    parametersImpl (length (s_curves R s)) c vs r = Some ps.
Proof.
  apply poly_current. intros cs c vs; unfold circularLayout.
  destruct (circularVertices cs) as [v|] eqn:E; simpl; [|discriminate].
  destruct (computeCenter v); simpl; [|discriminate]. intros H; injection H as _ <-.
  apply circularVertices_length; exact E.
Qed.
Print Assumptions C09_circular_cache.

Theorem C09_angular_cache : forall c0 os qs s r ps s',
  Forall (is_query angCurve) qs ->
  run angCurve (polyUpdate angCurve angularLayout) (polyQuery angCurve) (initial angCurve c0)
    (os ++ Update angCurve :: qs) = Some s ->
  polyQuery angCurve s r = Some (ps, s') ->
  exists c vs, angularLayout (s_curves angCurve s) = Some (c, vs) /\
    parametersImpl (length (s_curves angCurve s)) c vs r = Some ps.
Proof.
  apply poly_current. intros cs c vs; unfold angularLayout.
  destruct (angularVertices cs) as [v|] eqn:E; simpl; [|discriminate].
  destruct (computeCenter v); simpl; [|discriminate]. intros H; injection H as _ <-.
  apply angularVertices_length; exact E.
Qed.
Print Assumptions C09_angular_cache.

Lemma regularLayout_length : forall (C : Type) (cs : list C) c vs, regularLayout cs = Some (c, vs) ->
  length vs = length cs.
Proof.
  intros C cs c vs; unfold regularLayout.
  destruct (regularVertices (length cs)) as [v|] eqn:E; simpl; [|discriminate].
  intros H; injection H as _ <-. apply regularVertices_length; exact E.
Qed.

Theorem C09_regular_cache : forall (C : Type) c0 os qs s r ps s',
  Forall (is_query C) qs ->
  run C (regularUpdate C regularLayout) (polyQuery C) (initial C c0) (os ++ Update C :: qs) = Some s ->
  s_curves C s <> [] ->
  polyQuery C s r = Some (ps, s') ->
  exists vs, regularVertices (length (s_curves C s)) = Some vs /\
    parametersImpl (length (s_curves C s)) pzero vs r = Some ps.
Proof.
  intros C c0 os qs s r ps s' Hq Hr Hne H.
  destruct (regular_current C regularLayout (regularLayout_length C)) with
    (c0 := c0) (os := os) (qs := qs) (s := s) (r := r) (ps := ps) (s' := s') as (c & vs & E & P); try assumption.
  - intros cs cs' L; unfold regularLayout; rewrite L; reflexivity.
  - revert E. unfold regularLayout. destruct (regularVertices _) as [v|]; simpl; [|discriminate].
    intros E; injection E as <- <-. exists v; split; [reflexivity|exact P].
Qed.
Print Assumptions C09_regular_cache.

(** Even without an update in between, what is returned is computed from the
    vertices the object holds. *)
Theorem C09_any_layout : forall (C : Type) layout c0 os s r ps s',
  run C (polyUpdate C layout) (polyQuery C) (initial C c0) os = Some s ->
  polyQuery C s r = Some (ps, s') ->
  parametersImpl (s_n C s) (s_center C s) (s_verts C s) r = Some ps.
Proof. intros C layout; exact (poly_fresh C layout). Qed.
Print Assumptions C09_any_layout.

(** The circular parameter domain: right while the number of sides stays. *)
Theorem C09_circle_fixed_count : forall (C : Type) n c0 cs os s r ps s',
  (1 <= n)%nat -> length cs = n -> Forall (keeps C n) os ->
  run C (circleUpdate C) (circleQuery C) (initial C c0) (SetSides C cs :: Update C :: os) = Some s ->
  circleQuery C s r = Some (ps, s') -> parametersImplCircle n r = Some ps.
Proof. exact circle_fixed_count. Qed.
Print Assumptions C09_circle_fixed_count.

(** ... and wrong otherwise: three sides at resolution 2, then nine sides at
    resolution 1. *)
Theorem C09_circle_refuted : exists os s ps s' fresh,
  run unit (circleUpdate unit) (circleQuery unit) (initial unit pzero) (os ++ [Update unit]) = Some s /\
  length (s_curves unit s) = 9%nat /\
  circleQuery unit s 1 = Some (ps, s') /\
  parametersImplCircle 9 1 = Some fresh /\ ps <> fresh.
Proof.
  destruct (parameters_length_circle 3 2) as (p3 & E3 & L3); [lia|lia|].
  destruct (parameters_length_circle 9 1) as (p9 & E9 & L9); [lia|lia|].
  exists [SetSides unit (repeat tt 3); Update unit; Query unit 2; SetSides unit (repeat tt 9)].
  exists (mkDstate unit (repeat tt 9) 9 pzero [] p3), p3, (mkDstate unit (repeat tt 9) 9 pzero [] p3), p9.
  split.
  { cbn [app run step initial circleUpdate bind repeat length s_n s_curves s_center s_verts s_cache].
    unfold circleQuery, query. cbn [s_n s_curves s_center s_verts s_cache length].
    change (0 =? meshSizeCircle 3 2)%nat with false. cbv iota. rewrite E3. reflexivity. }
  split; [reflexivity|]. split.
  { unfold circleQuery, query. cbn [s_n s_curves s_center s_verts s_cache].
    rewrite L3. change (meshSizeCircle 3 2 =? meshSizeCircle 9 1)%nat with true. reflexivity. }
  split; [exact E9|]. intros E.
  assert (X3 : nth_error p3 1 = Some (mkV2 (1 / 2) 0)).
  { rewrite paramsCircle_closed in E3 by lia. injection E3 as <-. simpl. f_equal. apply V2_ext; simpl; field. }
  assert (X9 : nth_error p9 1 = Some (mkV2 1 0)).
  { rewrite paramsCircle_closed in E9 by lia. injection E9 as <-. simpl. f_equal. apply V2_ext; simpl; field. }
  rewrite E, X9 in X3. injection X3 as Y. lra.
Qed.
Print Assumptions C09_circle_refuted.

Example C09_example : exists s,
  run unit (regularUpdate unit regularLayout) (polyQuery unit) (initial unit pzero)
    [SetSides unit [tt; tt; tt; tt]; Update unit; Query unit 1; Query unit 2] = Some s /\
  s_verts unit s = [mkV2 1 1; mkV2 (-1) 1; mkV2 (-1) (-1); mkV2 1 (-1)] /\ length (s_cache unit s) = 9%nat.
Proof.
  set (vs := [mkV2 1 1; mkV2 (-1) 1; mkV2 (-1) (-1); mkV2 1 (-1)]).
  destruct (parameters_length 4 pzero vs 1) as (p1 & E1 & L1); try lia; [reflexivity|].
  destruct (parameters_length 4 pzero vs 2) as (p2 & E2 & L2); try lia; [reflexivity|].
  exists (mkDstate unit [tt; tt; tt; tt] 4 pzero vs p2). split; [|split; [reflexivity|exact L2]].
  cbn [run step bind initial s_n s_curves s_center s_verts s_cache].
  unfold regularUpdate, regularUpdateResult, polyUpdate.
  cbn [bind s_n s_curves s_center s_verts s_cache length Nat.eqb regularLayout regularVertices].
  fold vs. unfold polyQuery, query. cbn [s_n s_curves s_center s_verts s_cache length].
  change (0 =? meshSize 4 1)%nat with false. cbv iota. rewrite E1. cbn [bind s_n s_curves s_center s_verts s_cache].
  rewrite L1. change (meshSize 4 1 =? meshSize 4 2)%nat with false. cbv iota. rewrite E2. reflexivity.
Qed.

(** ** C10: local coordinates *)
Theorem C10_round_trip : forall c vs d i v, domainFrames c vs = Some d -> (i < length vs)%nat ->
  vtx vs i <> vtx vs (prv (length vs) i) ->
  (w <- fromLocal d i v ;; toLocal d i w) = Some v /\ (w <- toLocal d i v ;; fromLocal d i w) = Some v.
Proof.
  intros c vs d i v Hd Hi Hne.
  assert (N : sidevec vs i <> pzero).
  { intros E; apply Hne. apply V2_ext; [assert (X := f_equal px E)|assert (X := f_equal py E)]; simpl in X; lra. }
  split; [apply (to_from c vs d Hd i Hi v N)|apply (from_to c vs d Hd i Hi v N)].
Qed.
Print Assumptions C10_round_trip.

Theorem C10_axes : forall c vs d i, domainFrames c vs = Some d -> (i < length vs)%nat ->
  exists du dv, nth_error (d_du d) i = Some du /\ nth_error (d_dv d) i = Some dv /\
    du = vtx vs i -p vtx vs (prv (length vs) i) /\
    pdot du dv = 0 /\ pnorm du = pnorm dv /\ 0 <= pdot (c -p vtx vs i) dv /\
    (du <> pzero -> toLocal d i du = Some (mkV2 1 0)) /\
    (du = pzero -> forall v, toLocal d i v = None) /\
    (forall l, toLocal d i (c -p vtx vs i) = Some l -> 0 <= py l).
Proof.
  intros c vs d i Hd Hi. exists (sidevec vs i), (frame_dv c vs i).
  split; [apply (du_nth c vs d Hd i Hi)|]. split; [apply (dv_nth c vs d Hd i Hi)|]. split; [reflexivity|].
  split; [apply frame_perp|]. split; [unfold pnorm; rewrite frame_same; reflexivity|].
  split; [apply frame_center|]. split; [apply (side_local c vs d Hd i Hi)|].
  split; [intros E v; apply (toLocal_none c vs d Hd i Hi v E)|apply (center_local c vs d Hd i Hi)].
Qed.
Print Assumptions C10_axes.

(** On a convex polygon the second local coordinate measured from the side is
    the signed distance in units of the side length; positive inside. *)
Theorem C10_height : forall vs d i p l, domainUpdate vs = Some d -> (3 <= length vs)%nat ->
  strictly_convex vs -> (i < length vs)%nat -> toLocal d i (p -p vtx vs i) = Some l ->
  py l * pnorm2 (vtx vs i -p vtx vs (prv (length vs) i)) = sarea (vtx vs (prv (length vs) i)) (vtx vs i) p /\
  (inside vs p -> 0 < py l).
Proof.
  intros vs d i p l Hd Hn Hc Hi Hl. unfold domainUpdate in Hd.
  destruct (computeCenter vs) as [c|] eqn:Ec; cbn [bind] in Hd; [|discriminate].
  pose proof (center_inside vs c Hn Hc Ec i Hi) as In.
  pose proof (convex_slen_pos vs i Hn Hc Hi) as Sp.
  assert (N : sidevec vs i <> pzero).
  { intros E. unfold slen in Sp. fold (sidevec vs i) in Sp. rewrite E in Sp.
    unfold pnorm, pdot, pzero in Sp; simpl in Sp. replace (0 * 0 + 0 * 0) with 0 in Sp by ring.
    rewrite sqrt_0 in Sp; lra. }
  assert (Q : 0 < pnorm2 (sidevec vs i)).
  { unfold pnorm2. destruct (pnorm2_pos (sidevec vs i)) as [L|L]; [exact L|]. exfalso; apply N, pdot_zero; auto. }
  pose proof (local_height c vs d Hd i Hi p l N In Hl) as H. fold (sidevec vs i). rewrite H. split.
  - field; lra.
  - intros Hp. apply Rdiv_lt_0_compat; [apply Hp; exact Hi|exact Q].
Qed.
Print Assumptions C10_height.

Example C10_example : exists d, domainFrames pzero lverts = Some d /\
  toLocal d 2 (mkV2 1 0) = Some (mkV2 1 0).
Proof.
  rewrite frames_closed. eexists; split; [reflexivity|].
  unfold toLocal; simpl nth_error. cbn [bind d_du d_dv]. simpl nth_error. cbn [bind].
  unfold sidevec, frame_dv, vtx; simpl. rewrite pdiv_some by (unfold pnorm2, pdot; simpl; lra).
  f_equal. destruct (Rlt_dec _ 0); unfold pnorm2, pdot, popp; simpl; apply V2_ext; simpl; field.
Qed.

(** ** C11: rays *)
Theorem C11_hit : forall eps d i p v x q1 q2, 0 < eps ->
  nth_error (d_verts d) (prv (d_n d) i) = Some q1 -> nth_error (d_verts d) i = Some q2 ->
  intersectEdgeWithRay eps d i p v = Some (Some x) ->
  (* on the closed side *)
  (exists t, 0 <= t <= 1 /\ x = q1 *p (1 - t) +p q2 *p t) /\
  (* not parallel, and up to the tolerance on the line of the ray *)
  eps <= Rabs (pcross v (q2 -p q1)) /\
  Rabs (pcross v (x -p p)) <= eps * Rabs (pcross v (q2 -p q1)) /\
  (* exactly on it when the exact crossing is on the side *)
  (0 <= pcross v (p -p q1) / pcross v (q2 -p q1) <= 1 -> pcross v (x -p p) = 0).
Proof.
  intros eps d i p v x q1 q2 He H1 H2 H.
  destruct (hit_on_side eps d i p v q1 q2 He H1 H2 x H) as (t & Ht & Ex & _ & Hc & _).
  destruct (hit_near_line eps d i p v q1 q2 He H1 H2 x H) as [N L].
  split; [exists t; auto|]. auto.
Qed.
Print Assumptions C11_hit.

Theorem C11_crossing_found : forall eps d i p v q1 q2 s l, 0 < eps ->
  nth_error (d_verts d) (prv (d_n d) i) = Some q1 -> nth_error (d_verts d) i = Some q2 ->
  0 <= s <= 1 -> eps <= Rabs (pcross v (q2 -p q1)) ->
  q1 *p (1 - s) +p q2 *p s = p +p v *p l ->
  intersectEdgeWithRay eps d i p v = Some (Some (p +p v *p l)).
Proof. intros eps d i p v q1 q2 s l He H1 H2. exact (crossing_hit eps d i p v q1 q2 He H1 H2 s l). Qed.
Print Assumptions C11_crossing_found.

(** No hit is reported when the line passes the side by more than the
    tolerance, or is nearly parallel to it. *)
Theorem C11_no_false_hit : forall eps d i p v q1 q2, 0 < eps ->
  nth_error (d_verts d) (prv (d_n d) i) = Some q1 -> nth_error (d_verts d) i = Some q2 ->
  (Rabs (pcross v (q2 -p q1)) < eps \/
   exists s l, eps <= Rabs (pcross v (q2 -p q1)) /\ q1 *p (1 - s) +p q2 *p s = p +p v *p l /\
     (s < - eps \/ 1 + eps < s)) ->
  intersectEdgeWithRay eps d i p v = Some None.
Proof.
  intros eps d i p v q1 q2 He H1 H2 [H|(s & l & Hc & E & Hs)].
  - rewrite (intersect_cases eps d i p v q1 q2 He H1 H2). destruct (Rlt_dec (Rabs _) eps); [reflexivity|contradiction].
  - exact (miss eps d i p v q1 q2 He H1 H2 s l Hc E Hs).
Qed.
Print Assumptions C11_no_false_hit.

(** The direction of the ray does not matter: hits behind its start are
    reported too. *)
Theorem C11_backward_hits : forall eps d i p v q1 q2, 0 < eps ->
  nth_error (d_verts d) (prv (d_n d) i) = Some q1 -> nth_error (d_verts d) i = Some q2 ->
  intersectEdgeWithRay eps d i p (popp v) = intersectEdgeWithRay eps d i p v.
Proof. exact ray_reversible. Qed.
Print Assumptions C11_backward_hits.

Theorem C11_backward_hit_exists : forall eps, 0 < eps <= 1 -> exists d i p v x l,
  intersectEdgeWithRay eps d i p v = Some (Some x) /\ x = p +p v *p l /\ l < 0.
Proof.
  intros eps He.
  exists (mkDom 4 pzero [mkV2 1 1; mkV2 (-1) 1; mkV2 (-1) (-1); mkV2 1 (-1)] [] []), 1%nat,
    (mkV2 0 0), (mkV2 0 (-1)), (mkV2 0 1), (-1).
  split; [|split; [apply V2_ext; simpl; ring|lra]].
  replace (mkV2 0 1) with (mkV2 0 0 +p mkV2 0 (-1) *p (-1)) by (apply V2_ext; simpl; ring).
  apply (C11_crossing_found eps _ 1 _ _ (mkV2 1 1) (mkV2 (-1) 1) (1/2)); try reflexivity; try lra.
  - unfold pcross, psub; simpl. rewrite Rabs_left; lra.
  - apply V2_ext; simpl; field.
Qed.
Print Assumptions C11_backward_hit_exists.

Example C11_example : forall eps, 0 < eps <= 1 ->
  intersectEdgeWithRay eps (mkDom 4 pzero [mkV2 1 1; mkV2 (-1) 1; mkV2 (-1) (-1); mkV2 1 (-1)] [] []) 1
    (mkV2 0 0) (mkV2 (1/2) 1) = Some (Some (mkV2 (1/2) 1)).
Proof.
  intros eps He.
  replace (Some (Some (mkV2 (1/2) 1))) with (Some (Some (mkV2 0 0 +p mkV2 (1/2) 1 *p 1)))
    by (do 2 f_equal; apply V2_ext; simpl; field).
  apply (C11_crossing_found eps _ 1 _ _ (mkV2 1 1) (mkV2 (-1) 1) (1/4)); try reflexivity; try lra.
  - unfold pcross, psub; simpl. rewrite Rabs_right; lra.
  - apply V2_ext; simpl; field.
Qed.

(** ** C12: convexity of the laid out polygons *)
Theorem C12_regular_convex : forall m, (3 <= m)%nat -> exists vs, regularVertices m = Some vs /\
  length vs = m /\ strictly_convex vs /\ inside vs pzero /\
  (m <> 4%nat -> forall v, In v vs -> px v * px v + py v * py v = 1).
Proof.
  intros m Hm.
  assert (E : exists vs, regularVertices m = Some vs).
  { destruct (Nat.eq_dec m 4) as [->|H4]; [eexists; reflexivity|].
    rewrite regular_closed by lia. eexists; reflexivity. }
  destruct E as (vs & E). exists vs. split; [exact E|].
  destruct (regular_convex m vs Hm E) as (L & C & I).
  repeat split; try assumption. intros H4 v Hv. eapply regular_unit; eassumption.
Qed.
Print Assumptions C12_regular_convex.

Theorem C12_circular_convex : forall lens, (3 <= length lens)%nat -> (forall l, In l lens -> 0 < l) ->
  exists vs, circularVertices lens = Some vs /\ length vs = length lens /\ strictly_convex vs /\
    (forall v, In v vs -> px v * px v + py v * py v = 1) /\
    exists c, computeCenter vs = Some c /\ inside vs c.
Proof.
  intros lens Hn Hp.
  assert (T : 0 < accumulate lens).
  { rewrite accumulate_rsum. apply rsum_pos; [lia|]. intros; apply Hp, nth_In; assumption. }
  assert (E : exists vs, circularVertices lens = Some vs).
  { unfold circularVertices. rewrite fdiv_some by lra. eexists; reflexivity. }
  destruct E as (vs & E). exists vs. split; [exact E|].
  destruct (circular_convex lens vs Hn Hp E) as (L & C).
  split; [exact L|]. split; [exact C|]. split; [intros v; apply (circular_unit lens vs v E)|].
  destruct (computeCenter_exists vs) as (c & Hc); [lia|exact C|].
  exists c; split; [exact Hc|]. apply center_inside; [lia|exact C|exact Hc].
Qed.
Print Assumptions C12_circular_convex.

(** Vertex [i] of the circular domain is at the angle that the lengths of the
    sides [0..i] take up of the full turn. *)
Theorem C12_circular_angles : forall lens vs i, circularVertices lens = Some vs -> (i < length lens)%nat ->
  let a := 2 * PI * (rsum (S i) (fun j => nth j lens 0) / rsum (length lens) (fun j => nth j lens 0)) in
  nth_error vs i = Some (mkV2 (cos a) (sin a)).
Proof.
  intros lens vs i H Hi; cbv zeta. rewrite (circular_angles lens vs i H Hi).
  unfold prefix. rewrite accumulate_rsum. reflexivity.
Qed.
Print Assumptions C12_circular_angles.

(** DomainRegular::update: the return value, and the vertices afterwards. *)
Theorem C12_regular_update : forall (C : Type) c0 os s b s',
  run C (regularUpdate C regularLayout) (polyQuery C) (initial C c0) os = Some s ->
  regularUpdateResult C regularLayout s = Some (b, s') ->
  (b = false <-> length (s_curves C s) = s_n C s) /\
  (s_curves C s <> [] -> regularVertices (length (s_curves C s)) = Some (s_verts C s') /\
     s_center C s' = pzero /\ s_n C s' = length (s_curves C s)) /\
  (b = false -> s' = s).
Proof.
  intros C c0 os s b s' Hr H.
  assert (Ri : reg_inv C regularLayout s).
  { eapply reg_inv_run with (s := initial C c0); [apply regularLayout_length| |left; reflexivity|exact Hr].
    intros cs cs' L; unfold regularLayout; rewrite L; reflexivity. }
  unfold regularUpdateResult in H. destruct (Nat.eqb_spec (s_n C s) (length (s_curves C s))) as [E|E].
  - injection H as <- <-. split; [split; [intros _; congruence|reflexivity]|]. split; [|reflexivity].
    intros Hne. destruct Ri as [E0|Ri].
    + rewrite E0 in E. destruct (s_curves C s); [contradiction|discriminate].
    + specialize (Ri (s_curves C s) (eq_sym E)). unfold regularLayout in Ri.
      destruct (regularVertices (length (s_curves C s))) as [v|] eqn:Ev; simpl in Ri; [|discriminate].
      injection Ri as <- <-. auto.
  - destruct (polyUpdate C regularLayout s) as [s1|] eqn:Eu; simpl in H; [|discriminate].
    injection H as <- <-. split; [split; [discriminate|congruence]|]. split; [|discriminate].
    intros _. unfold polyUpdate, regularLayout in Eu.
    destruct (regularVertices (length (s_curves C s))) as [v|] eqn:Ev; simpl in Eu; [|discriminate].
    injection Eu as <-. simpl. split; [reflexivity|]. split; [reflexivity|].
    apply regularVertices_length; exact Ev.
Qed.
Print Assumptions C12_regular_update.

Example C12_example : regularVertices 4 = Some [mkV2 1 1; mkV2 (-1) 1; mkV2 (-1) (-1); mkV2 1 (-1)] /\
  exists vs, regularVertices 6 = Some vs /\ nth_error vs 3 = Some (mkV2 (-1) 0).
Proof.
  split; [reflexivity|]. rewrite regular_closed by lia. eexists; split; [reflexivity|].
  rewrite tabulate_nth_error by lia. unfold onc.
  replace (2 * PI / INR 6 * INR 3) with PI by (simpl INR; field). rewrite cos_PI, sin_PI. reflexivity.
Qed.

(** ** C13: angular domains *)
Theorem C13_closed : forall lens turns vs, lens <> [] -> length turns = length lens ->
  rsum (length lens) (fun j => nth j lens 0) <> 0 -> closedPolygon lens turns = Some vs ->
  length vs = length lens /\ vtx vs (length vs - 1) = mkV2 0 0.
Proof.
  intros lens turns vs Hne Hl Ht H. rewrite <- accumulate_rsum in Ht.
  exact (closed_polygon lens turns vs Hne Hl Ht H).
Qed.
Print Assumptions C13_closed.

Theorem C13_box : forall cs vs v, angularVertices cs = Some vs -> In v vs ->
  -1 <= px v <= 1 /\ -1 <= py v <= 1.
Proof.
  intros cs vs v H Hv. revert H. unfold angularVertices.
  destruct (angularAngles cs) as [an|]; cbn [bind]; [|discriminate].
  destruct (angularTurns _ an) as [tu|]; cbn [bind]; [|discriminate].
  destruct (closedPolygon _ tu) as [v0|]; cbn [bind]; [|discriminate].
  destruct (rescale v0) as [v1|] eqn:Er; cbn [bind]; [|discriminate].
  destruct (convexTest v1) as [b|]; cbn [bind]; [|discriminate]. destruct b; intros H.
  - injection H as <-. eapply rescale_box; eassumption.
  - pose proof (circular_unit _ _ _ H Hv). split; nra.
Qed.
Print Assumptions C13_box.

(** Rescaling only scales and translates, so it keeps all turning directions. *)
Theorem C13_rescale_similar : forall vs out, rescale vs = Some out -> vs <> [] ->
  exists s t, 0 < s /\ out = map (fun v => t +p v *p s) vs.
Proof. exact rescale_similar. Qed.
Print Assumptions C13_rescale_similar.

(** The convexity test accepts exactly the polygons that turn left (or go
    straight) wherever the incoming side is not horizontal. *)
Theorem C13_convexity_test : forall vs b, convexTest vs = Some b ->
  (b = true <-> forall i, (i < length vs)%nat ->
     let a := vtx vs i -p vtx vs (prv (length vs) i) in
     let c := vtx vs (nxt (length vs) i) -p vtx vs i in
     py a = 0 \/ 0 <= pcross a c).
Proof. exact convexTest_spec. Qed.
Print Assumptions C13_convexity_test.

(** The layout used by the domain is the accepted polygon or the circular
    one, which is convex (C12); in the first case corners turn left except
    possibly after horizontal sides. *)
Theorem C13_accepted : forall cs vs, angularVertices cs = Some vs ->
  circularVertices (map ac_len cs) = Some vs \/
  forall i, (i < length vs)%nat ->
    let a := vtx vs i -p vtx vs (prv (length vs) i) in
    let c := vtx vs (nxt (length vs) i) -p vtx vs i in
    py a <> 0 -> 0 <= pcross a c.
Proof.
  intros cs vs. unfold angularVertices.
  destruct (angularAngles cs) as [an|]; cbn [bind]; [|discriminate].
  destruct (angularTurns _ an) as [tu|]; cbn [bind]; [|discriminate].
  destruct (closedPolygon _ tu) as [v0|]; cbn [bind]; [|discriminate].
  destruct (rescale v0) as [v1|] eqn:Er; cbn [bind]; [|discriminate].
  destruct (convexTest v1) as [b|] eqn:Eb; cbn [bind]; [|discriminate]. destruct b; intros H.
  - injection H as <-. right. intros i Hi Ha.
    destruct (proj1 (convexTest_spec _ _ Eb) eq_refl i Hi) as [Z|Z]; [contradiction|exact Z].
  - left; exact H.
Qed.
Print Assumptions C13_accepted.

(** The blind spot: a polygon with a strictly reflex corner is accepted. *)
Theorem C13_concave_accepted : exists cs vs i, angularVertices cs = Some vs /\ (i < length vs)%nat /\
  (forall c, In c cs -> 0 < ac_len c) /\
  pcross (vtx vs i -p vtx vs (prv (length vs) i)) (vtx vs (nxt (length vs) i) -p vtx vs i) < 0 /\
  ~ strictly_convex vs.
Proof.
  exists lshape, lverts, 0%nat. split; [exact lshape_vertices|]. split; [simpl; lia|]. split.
  { intros c Hc. simpl in Hc. intuition subst; simpl; lra. }
  split; [exact lverts_reflex|].
  intros H. specialize (H 0%nat 1%nat). simpl in H.
  assert (X := H ltac:(lia) ltac:(lia) ltac:(lia) ltac:(unfold prv; simpl; lia)).
  unfold sarea, pcross, psub, vtx in X; simpl in X. lra.
Qed.
Print Assumptions C13_concave_accepted.

Example C13_example : convexTest [mkV2 1 1; mkV2 (-1) 1; mkV2 (-1) (-1); mkV2 1 (-1)] = Some true.
Proof.
  destruct (convexTest_some [mkV2 1 1; mkV2 (-1) 1; mkV2 (-1) (-1); mkV2 1 (-1)]) as (b & Hb).
  - intros i Hi E. simpl in Hi. assert (X := f_equal px E). assert (Y := f_equal py E).
    do 4 (try destruct i as [|i]); try lia; unfold side_in, vtx in X, Y; simpl in X, Y; lra.
  - rewrite Hb. f_equal. apply (convexTest_spec _ _ Hb). intros i Hi. simpl in Hi.
    do 4 (try destruct i as [|i]); try lia; unfold side_in, side_out, vtx, pcross, psub; simpl;
      try (left; lra); right; lra.
Qed.
