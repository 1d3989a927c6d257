(** Local frames and ray intersection. *)

From Verif Require Import Base MeshModel GeomSpec DomainModel MeshParams MeshGeom MeshGeom2.
Open Scope R_scope.

(** The side vector and the two possible normals. *)
Definition sidevec (vs : list V2) (i : nat) : V2 := vtx vs i -p vtx vs (prv (length vs) i).

Definition frame_dv (c : V2) (vs : list V2) (i : nat) : V2 :=
  let du := sidevec vs i in
  let dv := mkV2 (py du) (- px du) in
  if Rlt_dec (pdot (c -p vtx vs i) dv) 0 then popp dv else dv.

Lemma frames_closed : forall c vs, domainFrames c vs =
  Some (mkDom (length vs) c vs (tabulate (length vs) (sidevec vs)) (tabulate (length vs) (frame_dv c vs))).
Proof.
  intros c vs; unfold domainFrames.
  rewrite (mapM_seq _ _ _ (fun i => (sidevec vs i, frame_dv c vs i))).
  - cbn [bind]. unfold tabulate. rewrite !map_map. reflexivity.
  - intros i Hi. rewrite !vtx_nth by (try apply prv_lt; lia). reflexivity.
Qed.

Section Frame.
Variables (c : V2) (vs : list V2) (d : dom).
Hypothesis Hd : domainFrames c vs = Some d.
Variable i : nat.
Hypothesis Hi : (i < length vs)%nat.

Lemma d_eq : d = mkDom (length vs) c vs (tabulate (length vs) (sidevec vs)) (tabulate (length vs) (frame_dv c vs)).
Proof. rewrite frames_closed in Hd. injection Hd as <-; reflexivity. Qed.

Lemma du_nth : nth_error (d_du d) i = Some (sidevec vs i).
Proof. rewrite d_eq; apply tabulate_nth_error; exact Hi. Qed.
Lemma dv_nth : nth_error (d_dv d) i = Some (frame_dv c vs i).
Proof. rewrite d_eq; apply tabulate_nth_error; exact Hi. Qed.

Lemma frame_perp : pdot (sidevec vs i) (frame_dv c vs i) = 0.
Proof.
  unfold frame_dv; destruct (Rlt_dec _ 0); unfold pdot, popp; simpl; ring.
Qed.
Lemma frame_same : pdot (frame_dv c vs i) (frame_dv c vs i) = pdot (sidevec vs i) (sidevec vs i).
Proof.
  unfold frame_dv; destruct (Rlt_dec _ 0); unfold pdot, popp; simpl; ring.
Qed.
Lemma frame_center : 0 <= pdot (c -p vtx vs i) (frame_dv c vs i).
Proof.
  unfold frame_dv; destruct (Rlt_dec _ 0) as [H|H]; [|lra].
  revert H. unfold pdot, popp; simpl. lra.
Qed.

Lemma toLocal_eq : forall v, sidevec vs i <> pzero ->
  toLocal d i v = Some (mkV2 (pdot v (sidevec vs i) / pdot (sidevec vs i) (sidevec vs i))
                             (pdot v (frame_dv c vs i) / pdot (sidevec vs i) (sidevec vs i))).
Proof.
  intros v Hne. unfold toLocal. rewrite du_nth, dv_nth. cbn [bind].
  rewrite pdiv_some; [reflexivity|]. intros E. apply Hne, pdot_zero, E.
Qed.
Lemma toLocal_none : forall v, sidevec vs i = pzero -> toLocal d i v = None.
Proof.
  intros v E. unfold toLocal. rewrite du_nth, dv_nth. cbn [bind]. rewrite E.
  unfold pdiv. destruct (Req_EM_T (pnorm2 pzero) 0) as [_|X]; [reflexivity|].
  exfalso; apply X; unfold pnorm2, pdot, pzero; simpl; ring.
Qed.
Lemma fromLocal_eq : forall v, fromLocal d i v = Some (sidevec vs i *p px v +p frame_dv c vs i *p py v).
Proof. intros v; unfold fromLocal; rewrite du_nth, dv_nth; reflexivity. Qed.

Lemma to_from : forall v, sidevec vs i <> pzero ->
  (w <- fromLocal d i v ;; toLocal d i w) = Some v.
Proof.
  intros v Hne. rewrite fromLocal_eq. cbn [bind]. rewrite toLocal_eq by exact Hne.
  assert (N : pdot (sidevec vs i) (sidevec vs i) <> 0) by (intros E; apply Hne, pdot_zero, E).
  pose proof frame_perp as P. pose proof frame_same as Q. revert N P Q.
  generalize (sidevec vs i), (frame_dv c vs i); intros [a b] [x y]. unfold pdot; simpl; intros N P Q.
  f_equal. apply V2_ext; simpl.
  - transitivity ((px v * (a * a + b * b) + py v * (a * x + b * y)) / (a * a + b * b)); [f_equal; ring|].
    rewrite P. field; exact N.
  - transitivity ((px v * (a * x + b * y) + py v * (x * x + y * y)) / (a * a + b * b)); [f_equal; ring|].
    rewrite P, Q. field; exact N.
Qed.

Lemma frame_shape : frame_dv c vs i = mkV2 (py (sidevec vs i)) (- px (sidevec vs i)) \/
  frame_dv c vs i = mkV2 (- py (sidevec vs i)) (px (sidevec vs i)).
Proof.
  unfold frame_dv; destruct (Rlt_dec _ 0); [right|left; reflexivity].
  apply V2_ext; simpl; ring.
Qed.

Lemma from_to : forall v, sidevec vs i <> pzero ->
  (w <- toLocal d i v ;; fromLocal d i w) = Some v.
Proof.
  intros v Hne. rewrite toLocal_eq by exact Hne. cbn [bind]. rewrite fromLocal_eq.
  assert (N : pdot (sidevec vs i) (sidevec vs i) <> 0) by (intros E; apply Hne, pdot_zero, E).
  f_equal. destruct frame_shape as [-> | ->]; revert N; generalize (sidevec vs i); intros [a b];
    unfold pdot; simpl; intros N; v2field; exact N.
Qed.

Lemma side_local : sidevec vs i <> pzero -> toLocal d i (sidevec vs i) = Some (mkV2 1 0).
Proof.
  intros Hne. rewrite toLocal_eq by exact Hne. f_equal. rewrite frame_perp. apply V2_ext; simpl.
  - field. intros E; apply Hne, pdot_zero, E.
  - unfold Rdiv; ring.
Qed.

Lemma center_local : forall l, toLocal d i (c -p vtx vs i) = Some l -> 0 <= py l.
Proof.
  intros l H. destruct (V2_eq_dec_zero (sidevec vs i)) as [E|E].
  - rewrite toLocal_none in H by exact E; discriminate.
  - rewrite toLocal_eq in H by exact E. injection H as <-; simpl.
    apply Rmult_le_pos; [apply frame_center|].
    left; apply Rinv_0_lt_compat.
    destruct (pnorm2_pos (sidevec vs i)) as [L|L]; [exact L|]. exfalso; apply E, pdot_zero; auto.
Qed.

(** With the centre strictly left of the side the normal is the left normal. *)
Lemma frame_left : 0 < sarea (vtx vs (prv (length vs) i)) (vtx vs i) c ->
  frame_dv c vs i = mkV2 (- py (sidevec vs i)) (px (sidevec vs i)).
Proof.
  unfold frame_dv. intros H. destruct (Rlt_dec _ 0) as [L|L].
  - apply V2_ext; simpl; ring.
  - exfalso. revert H L. unfold sarea, sidevec, pcross, pdot, psub; simpl. intros. nra.
Qed.

Lemma local_height : forall p l, sidevec vs i <> pzero ->
  0 < sarea (vtx vs (prv (length vs) i)) (vtx vs i) c ->
  toLocal d i (p -p vtx vs i) = Some l ->
  py l = sarea (vtx vs (prv (length vs) i)) (vtx vs i) p / pnorm2 (sidevec vs i).
Proof.
  intros p l Hne Hc. rewrite toLocal_eq by exact Hne. intros H; injection H as <-; simpl.
  rewrite frame_left by exact Hc. unfold pnorm2, Rdiv. f_equal.
  unfold sarea, sidevec, pcross, pdot, psub; simpl. ring.
Qed.

End Frame.

(** ** Ray intersection *)
Section Ray.
Variables (eps : R) (d : dom) (i : nat) (p v q1 q2 : V2).
Hypothesis Heps : 0 < eps.
Hypothesis H1 : nth_error (d_verts d) (prv (d_n d) i) = Some q1.
Hypothesis H2 : nth_error (d_verts d) i = Some q2.

Definition raw_t : R := pcross v (p -p q1) / pcross v (q2 -p q1).

Lemma intersect_cases : intersectEdgeWithRay eps d i p v =
  if Rlt_dec (Rabs (pcross v (q2 -p q1))) eps then Some None
  else if Rlt_dec raw_t (- eps) then Some None
  else if Rlt_dec (1 + eps) raw_t then Some None
  else Some (Some (q1 *p (1 - clamp raw_t 0 1) +p q2 *p clamp raw_t 0 1)).
Proof.
  unfold intersectEdgeWithRay. rewrite H1, H2. cbn [bind].
  change (px v * (py q2 - py q1) - py v * (px q2 - px q1)) with (pcross v (q2 -p q1)).
  change (px v * (py p - py q1) - py v * (px p - px q1)) with (pcross v (p -p q1)).
  destruct (Rlt_dec (Rabs (pcross v (q2 -p q1))) eps) as [L|L]; [reflexivity|].
  rewrite fdiv_some; [reflexivity|]. intros E. apply L. rewrite E, Rabs_R0. exact Heps.
Qed.

Lemma hit_on_side : forall x, intersectEdgeWithRay eps d i p v = Some (Some x) ->
  exists t, 0 <= t <= 1 /\ x = q1 *p (1 - t) +p q2 *p t /\
    Rabs (t - raw_t) <= eps /\ eps <= Rabs (pcross v (q2 -p q1)) /\ (0 <= raw_t <= 1 -> t = raw_t).
Proof.
  intros x. rewrite intersect_cases.
  destruct (Rlt_dec (Rabs _) eps) as [L|L]; [discriminate|].
  destruct (Rlt_dec raw_t (- eps)) as [L1|L1]; [discriminate|].
  destruct (Rlt_dec (1 + eps) raw_t) as [L2|L2]; [discriminate|].
  intros H; injection H as <-. exists (clamp raw_t 0 1). split; [apply clamp_range; lra|].
  split; [reflexivity|]. split; [|split; [lra|intros; apply clamp_id; assumption]].
  unfold clamp. destruct (Rlt_dec raw_t 0); [|destruct (Rlt_dec 1 raw_t)]; apply Rabs_le; lra.
Qed.

Lemma on_line : forall t, pcross v (q2 -p q1) <> 0 ->
  pcross v (q1 *p (1 - t) +p q2 *p t -p p) = (t - raw_t) * pcross v (q2 -p q1).
Proof.
  intros t Hn. unfold raw_t.
  replace ((t - pcross v (p -p q1) / pcross v (q2 -p q1)) * pcross v (q2 -p q1))
    with (t * pcross v (q2 -p q1) - pcross v (p -p q1)) by (field; exact Hn).
  unfold pcross, psub, padd, pscale; simpl; ring.
Qed.

Lemma hit_near_line : forall x, intersectEdgeWithRay eps d i p v = Some (Some x) ->
  Rabs (pcross v (x -p p)) <= eps * Rabs (pcross v (q2 -p q1)) /\
  (0 <= raw_t <= 1 -> pcross v (x -p p) = 0).
Proof.
  intros x H. destruct (hit_on_side x H) as (t & Ht & -> & Hd & Hc & Hr).
  assert (N : pcross v (q2 -p q1) <> 0) by (intros E; rewrite E, Rabs_R0 in Hc; lra).
  rewrite on_line by exact N. split.
  - rewrite Rabs_mult. apply Rmult_le_compat_r; [apply Rabs_pos|exact Hd].
  - intros R. rewrite (Hr R). ring.
Qed.

Lemma raw_of_crossing : forall s l, pcross v (q2 -p q1) <> 0 ->
  q1 *p (1 - s) +p q2 *p s = p +p v *p l -> raw_t = s.
Proof.
  intros s l N E. unfold raw_t. 
  assert (Ex := f_equal px E). assert (Ey := f_equal py E). simpl in Ex, Ey.
  apply (Rmult_eq_reg_r (pcross v (q2 -p q1))); [|exact N].
  unfold Rdiv; rewrite Rmult_assoc, Rinv_l, Rmult_1_r by exact N.
  unfold pcross, psub; simpl.
  assert (A : px p = px q1 * (1 - s) + px q2 * s - px v * l) by lra.
  assert (B : py p = py q1 * (1 - s) + py q2 * s - py v * l) by lra.
  rewrite A, B. ring.
Qed.

Lemma crossing_hit : forall s l, 0 <= s <= 1 -> eps <= Rabs (pcross v (q2 -p q1)) ->
  q1 *p (1 - s) +p q2 *p s = p +p v *p l ->
  intersectEdgeWithRay eps d i p v = Some (Some (p +p v *p l)).
Proof.
  intros s l Hs Hc E.
  assert (N : pcross v (q2 -p q1) <> 0) by (intros X; rewrite X, Rabs_R0 in Hc; lra).
  rewrite intersect_cases, (raw_of_crossing s l N E).
  destruct (Rlt_dec (Rabs _) eps) as [L|L]; [lra|].
  destruct (Rlt_dec s (- eps)); [lra|]. destruct (Rlt_dec (1 + eps) s); [lra|].
  rewrite clamp_id by exact Hs. rewrite E; reflexivity.
Qed.

(** A line that stays away from the side (beyond the tolerance) is not hit. *)
Lemma miss : forall s l, eps <= Rabs (pcross v (q2 -p q1)) ->
  q1 *p (1 - s) +p q2 *p s = p +p v *p l -> (s < - eps \/ 1 + eps < s) ->
  intersectEdgeWithRay eps d i p v = Some None.
Proof.
  intros s l Hc E Hs.
  assert (N : pcross v (q2 -p q1) <> 0) by (intros X; rewrite X, Rabs_R0 in Hc; lra).
  rewrite intersect_cases, (raw_of_crossing s l N E).
  destruct (Rlt_dec (Rabs _) eps) as [L|L]; [lra|].
  destruct (Rlt_dec s (- eps)); [reflexivity|]. destruct (Rlt_dec (1 + eps) s); [reflexivity|lra].
Qed.

(** Only the line matters, not the direction: the ray may start beyond the
    side and still be reported to hit. *)
Lemma ray_reversible : intersectEdgeWithRay eps d i p (popp v) = intersectEdgeWithRay eps d i p v.
Proof.
  unfold intersectEdgeWithRay. rewrite H1, H2. cbn [bind].
  change (px v * (py q2 - py q1) - py v * (px q2 - px q1)) with (pcross v (q2 -p q1)).
  change (px v * (py p - py q1) - py v * (px p - px q1)) with (pcross v (p -p q1)).
  replace (px (popp v) * (py q2 - py q1) - py (popp v) * (px q2 - px q1)) with (- pcross v (q2 -p q1))
    by (unfold pcross; simpl; ring).
  replace (px (popp v) * (py p - py q1) - py (popp v) * (px p - px q1)) with (- pcross v (p -p q1))
    by (unfold pcross; simpl; ring).
  rewrite Rabs_Ropp. destruct (Rlt_dec (Rabs _) eps) as [L|L]; [reflexivity|].
  assert (N : pcross v (q2 -p q1) <> 0) by (intros X; rewrite X, Rabs_R0 in L; lra).
  rewrite !fdiv_some by lra.
  replace (- pcross v (p -p q1) / - pcross v (q2 -p q1)) with (pcross v (p -p q1) / pcross v (q2 -p q1))
    by (field; exact N). reflexivity.
Qed.
End Ray.
