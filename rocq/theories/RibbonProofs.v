(** Rotation minimizing frames. *)
From Verif Require Import Base UtilModel RibbonModel RibbonSpec.
From Coq Require Import Ratan.
Open Scope R_scope.

Ltac vexp := unfold vdot, vsub, vadd, vscale, vcross, vopp in *; simpl in *.

Lemma cauchy : forall a b, vdot a b * vdot a b <= vdot a a * vdot b b.
Proof.
  intros [a1 a2 a3] [b1 b2 b3]. unfold vdot; simpl.
  assert (0 <= (a1 * b2 - a2 * b1)^2) by apply pow2_ge_0. assert (0 <= (a1 * b3 - a3 * b1)^2) by apply pow2_ge_0.
  assert (0 <= (a2 * b3 - a3 * b2)^2) by apply pow2_ge_0. nra.
Qed.

Lemma mirror_dot : forall v x y, vdot v v <> 0 -> vdot (mirror v x) (mirror v y) = vdot x y.
Proof.
  intros v x y N. assert (E : vdot (mirror v x) (mirror v y) = vdot x y
    - 2 * (2 * vdot v x / vdot v v) * vdot v y + (2 * vdot v x / vdot v v) * (2 * vdot v y / vdot v v) * vdot v v
    + (2 * vdot v x / vdot v v) * vdot v y - vdot v x * (2 * vdot v y / vdot v v)).
  { unfold mirror. set (a := 2 * vdot v x / vdot v v). set (b := 2 * vdot v y / vdot v v). unfold vdot, vsub, vscale; simpl. ring. }
  rewrite E. field. exact N.
Qed.
Lemma mirror_swap : forall a b, vdot a a = vdot b b -> vdot (b -v a) (b -v a) <> 0 -> mirror (b -v a) a = b.
Proof.
  intros a b H N. unfold mirror.
  assert (E : 2 * vdot (b -v a) a / vdot (b -v a) (b -v a) = -1).
  { assert (X : vdot (b -v a) (b -v a) = - (2 * vdot (b -v a) a)) by (destruct a, b; unfold vdot, vsub in *; simpl in *; lra).
    rewrite X in *. field. lra. }
  rewrite E. v3ring.
Qed.

Lemma vdiv_inv : forall a r b, vdiv a r = Some b -> r <> 0 /\ b = a *v / r.
Proof. intros a r b E. unfold vdiv in E. destruct (Req_EM_T r 0); [discriminate|]. injection E as <-. auto. Qed.
Lemma normalize_inv : forall a b, vnormalize a = Some b -> vdot b b = 1 /\ vnorm a <> 0 /\ b = a *v / vnorm a.
Proof. intros a b E. split; [apply (vnormalize_unit a b E)|]. apply vdiv_inv. exact E. Qed.
Lemma normalize_some : forall a, a <> vzero -> exists b, vnormalize a = Some b.
Proof.
  intros a N. unfold vnormalize, vdiv. destruct (Req_EM_T (vnorm a) 0) as [E|E]; [|eexists; reflexivity].
  exfalso. apply N. apply vnorm_zero. exact E.
Qed.

Section Frames.
Variables (eps : R) (c : curve).
Hypothesis Hp : 0 < eps.

Definition stepped (f : frame) (u : R) (f' : frame) : Prop :=
  let v1 := cpt c u -v fr_p f in let dL := mirror v1 (fr_d f) in let nL := mirror v1 (fr_n f) in
  eps <= vdot v1 v1 /\ vnormalize (cder c u) = Some (fr_d f') /\ fr_u f' = u /\ fr_s f' = fr_s f + clen c (fr_u f) u /\ fr_p f' = cpt c u /\
  (vdot (fr_d f' -v dL) (fr_d f' -v dL) < eps /\ fr_n f' = nL \/
   eps <= vdot (fr_d f' -v dL) (fr_d f' -v dL) /\ fr_n f' = mirror (fr_d f' -v dL) nL).

Lemma nextFrame_cases : forall f u f', nextFrame eps c f u = Some f' ->
  f' = f /\ vdot (cpt c u -v fr_p f) (cpt c u -v fr_p f) < eps \/ stepped f u f'.
Proof.
  intros f u f' E. unfold nextFrame in E. set (v1 := cpt c u -v fr_p f) in *.
  destruct (Rlt_dec (vdot v1 v1) eps) as [L|L]; [left; split; [congruence|exact L]|right].
  destruct (vnormalize (cder c u)) as [t|] eqn:T; [|discriminate]. cbn [bind] in E.
  assert (N1 : vdot v1 v1 <> 0) by lra. unfold vdiv at 1 in E. destruct (Req_EM_T (vdot v1 v1) 0); [contradiction|]. cbn [bind] in E.
  assert (M : forall x, x -v v1 *v 2 *v / vdot v1 v1 *v vdot v1 x = mirror v1 x).
  { intros x. unfold mirror. apply V3_ext; simpl; unfold Rdiv; ring. }
  rewrite !M in E. set (dL := mirror v1 (fr_d f)) in *. set (nL := mirror v1 (fr_n f)) in *.
  destruct (Rlt_dec (vdot (t -v dL) (t -v dL)) eps) as [L2|L2].
  - cbn [bind] in E. injection E as <-. unfold stepped. fold v1 dL nL. cbn [fr_u fr_s fr_p fr_d fr_n]. repeat (split; [lra || assumption || reflexivity|]).
    left; split; [exact L2|reflexivity].
  - unfold vdiv in E. destruct (Req_EM_T (vdot (t -v dL) (t -v dL)) 0); [lra|]. cbn [bind] in E. injection E as <-.
    unfold stepped. fold v1 dL nL. cbn [fr_u fr_s fr_p fr_d fr_n]. repeat (split; [lra || assumption || reflexivity|]).
    right; split; [lra|]. unfold mirror. apply V3_ext; simpl; unfold Rdiv; ring.
Qed.

Lemma step_norm : forall f u f', nextFrame eps c f u = Some f' -> vdot (fr_n f') (fr_n f') = vdot (fr_n f) (fr_n f).
Proof.
  intros f u f' E. destruct (nextFrame_cases f u f' E) as [[-> _]|(A & _ & _ & _ & _ & [[_ ->]|[B ->]])]; [reflexivity| |].
  - apply mirror_dot; lra.
  - rewrite mirror_dot by lra. apply mirror_dot; lra.
Qed.
Lemma step_tangent : forall f u f', nextFrame eps c f u = Some f' -> vdot (fr_d f) (fr_d f) = 1 -> vdot (fr_d f') (fr_d f') = 1.
Proof.
  intros f u f' E D. destruct (nextFrame_cases f u f' E) as [[-> _]|(A & T & _)]; [exact D|]. apply (vnormalize_unit _ _ T).
Qed.
Lemma step_angle : forall f u f', nextFrame eps c f u = Some f' -> vdot (fr_d f) (fr_d f) = 1 -> vdot (fr_n f) (fr_n f) = 1 ->
  Rabs (vdot (fr_n f') (fr_d f') - vdot (fr_n f) (fr_d f)) <= sqrt eps.
Proof.
  intros f u f' E D N. pose proof (sqrt_pos eps) as Sp.
  destruct (nextFrame_cases f u f' E) as [[-> _]|(A & T & _ & _ & _ & Q)]; [replace (_ - _) with 0 by ring; rewrite Rabs_R0; exact Sp|].
  set (v1 := cpt c u -v fr_p f) in *. set (dL := mirror v1 (fr_d f)) in *. set (nL := mirror v1 (fr_n f)) in *.
  assert (Dn : vdot nL dL = vdot (fr_n f) (fr_d f)) by (apply mirror_dot; lra).
  assert (Dd : vdot dL dL = vdot (fr_d f') (fr_d f')).
  { unfold dL. rewrite mirror_dot by lra. rewrite D. symmetry. apply (vnormalize_unit _ _ T). }
  assert (Nn : vdot nL nL = 1) by (unfold nL; rewrite mirror_dot by lra; exact N).
  rewrite <- Dn. destruct Q as [[L ->]|[L ->]].
  - set (w := fr_d f' -v dL) in *. replace (vdot nL (fr_d f') - vdot nL dL) with (vdot nL w) by (unfold w, vdot, vsub; simpl; ring).
    pose proof (cauchy nL w) as C. rewrite Nn, Rmult_1_l in C.
    apply Rsqr_incr_0_var; [|exact Sp]. rewrite <- Rsqr_abs. unfold Rsqr. rewrite sqrt_sqrt by lra. lra.
  - rewrite <- (mirror_swap dL (fr_d f')) at 2; [|exact Dd|lra]. rewrite mirror_dot by lra.
    replace (_ - _) with 0 by ring. rewrite Rabs_R0. exact Sp.
Qed.
Lemma step_exact : forall f u f', nextFrame eps c f u = Some f' -> vdot (fr_d f) (fr_d f) = 1 -> settled eps f f' ->
  vdot (fr_n f') (fr_d f') = vdot (fr_n f) (fr_d f).
Proof.
  intros f u f' E D S.
  destruct (nextFrame_cases f u f' E) as [[-> _]|(A & T & Eu & _ & Pp & Q)]; [reflexivity|].
  destruct S as [->|S]; [reflexivity|]. rewrite Pp in S. cbn zeta in S.
  set (v1 := cpt c u -v fr_p f) in *. set (dL := mirror v1 (fr_d f)) in *. set (nL := mirror v1 (fr_n f)) in *.
  assert (Dn : vdot nL dL = vdot (fr_n f) (fr_d f)) by (apply mirror_dot; lra).
  assert (Dd : vdot dL dL = vdot (fr_d f') (fr_d f')).
  { unfold dL. rewrite mirror_dot by lra. rewrite D. symmetry. apply (vnormalize_unit _ _ T). }
  rewrite <- Dn. destruct Q as [[L ->]|[L ->]].
  - destruct S as [S|S]; [rewrite S; reflexivity|lra].
  - rewrite <- (mirror_swap dL (fr_d f')) at 2; [|exact Dd|lra]. apply mirror_dot; lra.
Qed.
Lemma step_param : forall f u f', nextFrame eps c f u = Some f' -> f' = f \/ fr_u f' = u.
Proof. intros f u f' E. destruct (nextFrame_cases f u f' E) as [[-> _]|(_ & _ & U & _)]; auto. Qed.

(** ** The loop *)
Lemma loop_spec : forall res k i f l, frameLoop eps c res k i f = Some l ->
  length l = S k /\ nth_error l 0 = Some f /\
  forall j a, (j < k)%nat -> nth_error l j = Some a -> exists b, nth_error l (S j) = Some b /\ nextFrame eps c a (INR (i + j) / INR res) = Some b.
Proof.
  intros res. induction k as [|k IH]; intros i f l E; cbn [frameLoop] in E.
  - injection E as <-. split; [reflexivity|]. split; [reflexivity|]. intros j a Hj. lia.
  - destruct (nextFrame eps c f (INR i / INR res)) as [f1|] eqn:N; [|discriminate]. cbn [bind] in E.
    destruct (frameLoop eps c res k (S i) f1) as [l1|] eqn:L; [|discriminate]. cbn [bind] in E. injection E as <-.
    destruct (IH (S i) f1 l1 L) as (A & B & C). split; [simpl; rewrite A; reflexivity|]. split; [reflexivity|].
    intros [|j] a Hj Ha.
    + cbn [nth_error] in Ha. injection Ha as <-. exists f1. rewrite Nat.add_0_r. split; [exact B|exact N].
    + cbn [nth_error] in Ha. destruct (C j a ltac:(lia) Ha) as (b & Hb & Nb). exists b. cbn [nth_error]. split; [exact Hb|].
      replace (i + S j)%nat with (S i + j)%nat by lia. exact Nb.
Qed.

Variables (res : nat) (start stop : V3) (m : rmf).
Hypothesis Hres : (1 <= res)%nat.
Hypothesis Hup : rmfUpdate eps res c start stop = Some m.

Lemma update_spec : exists t0 last, vnormalize (cder c 0) = Some t0 /\ rm_curve m = c /\
  length (rm_frames m) = S res /\ nth_error (rm_frames m) 0 = Some (mkFrame 0 0 (cpt c 0) t0 start) /\
  nth_error (rm_frames m) res = Some last /\ fr_s last <> 0 /\ rm_angle m = endAngle stop last / fr_s last /\
  forall j a, (j < res)%nat -> nth_error (rm_frames m) j = Some a ->
    exists b, nth_error (rm_frames m) (S j) = Some b /\ nextFrame eps c a (INR (S j) / INR res) = Some b.
Proof.
  unfold rmfUpdate, firstFrame in Hup. destruct (vnormalize (cder c 0)) as [t0|]; [|discriminate]. cbn [bind] in Hup.
  destruct (frameLoop eps c res res 1 _) as [l|] eqn:L; [|discriminate]. cbn [bind] in Hup.
  destruct (loop_spec _ _ _ _ _ L) as (A & B & C).
  destruct (nth_error l res) as [last|] eqn:E; [|discriminate]. cbn [bind] in Hup.
  destruct (fdiv (endAngle stop last) (fr_s last)) as [a|] eqn:D; [|discriminate]. cbn [bind] in Hup. injection Hup as <-.
  exists t0, last. cbn [rm_curve rm_frames rm_angle]. unfold fdiv in D. destruct (Req_EM_T (fr_s last) 0); [discriminate|]. injection D as <-.
  repeat (split; [reflexivity || assumption|]). exact C.
Qed.

Hypothesis Hstart : vdot start start = 1.

Lemma frame_facts : perpv start (cder c 0) -> forall i f, nth_error (rm_frames m) i = Some f ->
  vdot (fr_n f) (fr_n f) = 1 /\ vdot (fr_d f) (fr_d f) = 1 /\ Rabs (vdot (fr_n f) (fr_d f)) <= INR i * sqrt eps /\
  (all_settled eps (rm_frames m) -> vdot (fr_n f) (fr_d f) = 0).
Proof.
  intros P. destruct update_spec as (t0 & last & T & _ & L & F0 & _ & _ & _ & C). destruct (normalize_inv _ _ T) as (U0 & N0 & Et).
  induction i as [|i IH]; intros f E.
  - rewrite F0 in E. injection E as <-. cbn [fr_n fr_d].
    assert (Z : vdot start t0 = 0). { rewrite Et. unfold perpv in P. replace (vdot start _) with (vdot start (cder c 0) * / vnorm (cder c 0)) by (unfold vdot, vscale; simpl; ring). rewrite P. ring. }
    repeat (split; [assumption|]). split; [|intros _; exact Z]. rewrite Z, Rabs_R0. simpl. lra.
  - assert (Hi : (i < res)%nat). { assert (S i < length (rm_frames m))%nat by (apply nth_error_Some; congruence). lia. }
    destruct (nth_error (rm_frames m) i) as [a|] eqn:Ea; [|apply nth_error_None in Ea; lia].
    destruct (IH a eq_refl) as (A1 & A2 & A3 & A4). destruct (C i a Hi Ea) as (b & Eb & Nb). rewrite E in Eb. injection Eb as <-.
    split; [rewrite (step_norm _ _ _ Nb); exact A1|]. split; [apply (step_tangent _ _ _ Nb A2)|]. split.
    + pose proof (step_angle _ _ _ Nb A2 A1) as S. rewrite S_INR.
      replace (vdot (fr_n f) (fr_d f)) with ((vdot (fr_n f) (fr_d f) - vdot (fr_n a) (fr_d a)) + vdot (fr_n a) (fr_d a)) by ring.
      eapply Rle_trans; [apply Rabs_triang|]. lra.
    + intros S. rewrite (step_exact _ _ _ Nb A2 (S i a f Ea E)). apply A4; exact S.
Qed.

Lemma unit_frames : forall i f, nth_error (rm_frames m) i = Some f -> vdot (fr_n f) (fr_n f) = 1.
Proof.
  destruct update_spec as (t0 & last & T & _ & L & F0 & _ & _ & _ & C).
  induction i as [|i IH]; intros f E.
  - rewrite F0 in E. injection E as <-. exact Hstart.
  - assert (Hi : (i < res)%nat). { assert (S i < length (rm_frames m))%nat by (apply nth_error_Some; congruence). lia. }
    destruct (nth_error (rm_frames m) i) as [a|] eqn:Ea; [|apply nth_error_None in Ea; lia].
    destruct (C i a Hi Ea) as (b & Eb & Nb). rewrite E in Eb. injection Eb as <-. rewrite (step_norm _ _ _ Nb). apply (IH a eq_refl).
Qed.

Lemma tangent_frames : forall i f, nth_error (rm_frames m) i = Some f -> vdot (fr_d f) (fr_d f) = 1.
Proof.
  destruct update_spec as (t0 & last & T & _ & L & F0 & _ & _ & _ & C).
  induction i as [|i IH]; intros f E.
  - rewrite F0 in E. injection E as <-. apply (vnormalize_unit _ _ T).
  - assert (Hi : (i < res)%nat). { assert (S i < length (rm_frames m))%nat by (apply nth_error_Some; congruence). lia. }
    destruct (nth_error (rm_frames m) i) as [a|] eqn:Ea; [|apply nth_error_None in Ea; lia].
    destruct (C i a Hi Ea) as (b & Eb & Nb). rewrite E in Eb. injection Eb as <-. apply (step_tangent _ _ _ Nb). apply (IH a eq_refl).
Qed.

(** Parameters. *)
Lemma frame_param : forall i f, nth_error (rm_frames m) i = Some f -> 0 <= fr_u f <= INR i / INR res /\
  (fr_u f = 0 -> nth_error (rm_frames m) 0 = Some f).
Proof.
  destruct update_spec as (t0 & last & T & _ & L & F0 & _ & _ & _ & C).
  assert (Rp : 0 < INR res) by (apply lt_0_INR; lia).
  induction i as [|i IH]; intros f E.
  - split; [|auto]. rewrite F0 in E. injection E as <-. cbn [fr_u]. simpl. unfold Rdiv. rewrite Rmult_0_l. lra.
  - assert (Hi : (i < res)%nat). { assert (S i < length (rm_frames m))%nat by (apply nth_error_Some; congruence). lia. }
    destruct (nth_error (rm_frames m) i) as [a|] eqn:Ea; [|apply nth_error_None in Ea; lia].
    destruct (C i a Hi Ea) as (b & Eb & Nb). rewrite E in Eb. injection Eb as <-.
    destruct (IH a eq_refl) as [A1 A2].
    assert (Ps : 0 < INR (S i) / INR res) by (apply Rdiv_lt_0_compat; [apply lt_0_INR; lia|exact Rp]).
    assert (Le : INR i / INR res <= INR (S i) / INR res).
    { unfold Rdiv. apply Rmult_le_compat_r; [left; apply Rinv_0_lt_compat; exact Rp|]. apply le_INR; lia. }
    destruct (step_param _ _ _ Nb) as [-> | ->]; [split; [lra|exact A2]|]. split; [lra|]. intros Z. lra.
Qed.

Lemma sorted_step : forall i a b, nth_error (rm_frames m) i = Some a -> nth_error (rm_frames m) (S i) = Some b -> fr_u a <= fr_u b.
Proof.
  destruct update_spec as (t0 & last & T & _ & L & F0 & _ & _ & _ & C). intros i a b Ea Eb.
  assert (Rp : 0 < INR res) by (apply lt_0_INR; lia).
  assert (Hi : (i < res)%nat). { assert (S i < length (rm_frames m))%nat by (apply nth_error_Some; congruence). lia. }
  destruct (C i a Hi Ea) as (b' & Eb' & Nb). rewrite Eb in Eb'. injection Eb' as <-.
  destruct (frame_param i a Ea) as [A _].
  assert (Le : INR i / INR res <= INR (S i) / INR res).
  { unfold Rdiv. apply Rmult_le_compat_r; [left; apply Rinv_0_lt_compat; exact Rp|]. apply le_INR; lia. }
  destruct (step_param _ _ _ Nb) as [-> | ->]; lra.
Qed.
Lemma sorted_frames : forall i j a b, (i <= j)%nat -> nth_error (rm_frames m) i = Some a -> nth_error (rm_frames m) j = Some b -> fr_u a <= fr_u b.
Proof.
  intros i j a b Hij Ea. revert b. induction Hij as [|j Hij IH]; intros b Eb; [rewrite Ea in Eb; injection Eb as <-; lra|].
  destruct (nth_error (rm_frames m) j) as [x|] eqn:Ex.
  - apply Rle_trans with (fr_u x); [apply IH; reflexivity|apply (sorted_step j x b Ex Eb)].
  - apply nth_error_None in Ex. assert (S j < length (rm_frames m))%nat by (apply nth_error_Some; congruence). lia.
Qed.

(** upper_bound *)
Lemma upper_some : forall u l i, upperBound u l = S i -> exists f, nth_error l i = Some f /\ fr_u f <= u.
Proof.
  intros u. induction l as [|f l IH]; intros i E; cbn [upperBound] in E; [discriminate|].
  destruct (Rlt_dec u (fr_u f)); [discriminate|]. injection E as E. destruct i as [|i].
  - exists f. split; [reflexivity|lra].
  - destruct (IH i E) as (g & Eg & Lg). exists g. auto.
Qed.
Lemma upper_next : forall u l, match nth_error l (upperBound u l) with Some f => u < fr_u f | None => (upperBound u l = length l)%nat end.
Proof.
  intros u. induction l as [|f l IH]; cbn [upperBound]; [reflexivity|].
  destruct (Rlt_dec u (fr_u f)); [simpl; assumption|]. cbn [nth_error].
  destruct (nth_error l (upperBound u l)); [exact IH|simpl; rewrite IH; reflexivity].
Qed.
Lemma upper_pos : forall u, 0 <= u -> exists i f, upperBound u (rm_frames m) = S i /\ nth_error (rm_frames m) i = Some f /\ fr_u f <= u.
Proof.
  intros u Hu. destruct update_spec as (t0 & last & T & _ & L & F0 & _).
  destruct (upperBound u (rm_frames m)) as [|i] eqn:E.
  - exfalso. pose proof (upper_next u (rm_frames m)) as N. rewrite E, F0 in N. cbn [fr_u] in N. lra.
  - destruct (upper_some u (rm_frames m) i E) as (f & A & B). exists i, f. auto.
Qed.

(** ** Rotations *)
Lemma rotate_perp : forall d n a, vdot n d = 0 -> applyMatrix (rotationMatrix d a) n = n *v cos a +v vcross d n *v sin a.
Proof.
  intros [d1 d2 d3] [n1 n2 n3] a H. unfold vdot in H; simpl in H. unfold applyMatrix, rotationMatrix, vcross, vadd, vscale, vdot. simpl.
  set (ca := cos a). set (sa := sin a). apply V3_ext; simpl.
  - replace (n1 * ca + (d2 * n3 - d3 * n2) * sa) with (n1 * ca + (d2 * n3 - d3 * n2) * sa + d1 * (1 - ca) * (n1 * d1 + n2 * d2 + n3 * d3)) by (rewrite H; ring). ring.
  - replace (n2 * ca + (d3 * n1 - d1 * n3) * sa) with (n2 * ca + (d3 * n1 - d1 * n3) * sa + d2 * (1 - ca) * (n1 * d1 + n2 * d2 + n3 * d3)) by (rewrite H; ring). ring.
  - replace (n3 * ca + (d1 * n2 - d2 * n1) * sa) with (n3 * ca + (d1 * n2 - d2 * n1) * sa + d3 * (1 - ca) * (n1 * d1 + n2 * d2 + n3 * d3)) by (rewrite H; ring). ring.
Qed.
Lemma rotate_general : forall d n a, applyMatrix (rotationMatrix d a) n = n *v cos a +v vcross d n *v sin a +v d *v (vdot d n * (1 - cos a)).
Proof.
  intros [d1 d2 d3] [n1 n2 n3] a. unfold applyMatrix, rotationMatrix, vcross, vadd, vscale, vdot. simpl. apply V3_ext; simpl; ring.
Qed.
Lemma rotate_zero : forall d n, applyMatrix (rotationMatrix d 0) n = n.
Proof. intros d n. rewrite rotate_general, cos_0, sin_0. v3ring. Qed.
Lemma rotate_dot : forall d x y a, vdot d d = 1 ->
  vdot (applyMatrix (rotationMatrix d a) x) (applyMatrix (rotationMatrix d a) y) = vdot x y.
Proof.
  intros d x y a U. rewrite !rotate_general. pose proof (sin2_cos2 a) as P. unfold Rsqr in P. set (ca := cos a) in *. set (sa := sin a) in *.
  assert (L : vdot (vcross d x) (vcross d y) = vdot x y * vdot d d - vdot d x * vdot d y) by (destruct d, x, y; unfold vdot, vcross; simpl; ring).
  rewrite U in L.
  assert (E : vdot (x *v ca +v vcross d x *v sa +v d *v (vdot d x * (1 - ca))) (y *v ca +v vcross d y *v sa +v d *v (vdot d y * (1 - ca))) =
    ca * ca * vdot x y + sa * sa * vdot (vcross d x) (vcross d y) + (1 - ca) * (1 - ca) * vdot d x * vdot d y * vdot d d
    + ca * (1 - ca) * 2 * vdot d x * vdot d y).
  { destruct d, x, y; unfold vdot, vcross, vadd, vscale; simpl. ring. }
  rewrite E, L, U. replace (sa * sa) with (1 - ca * ca) by lra. ring.
Qed.
Lemma rotate_axis : forall d a, vdot d d = 1 -> applyMatrix (rotationMatrix d a) d = d.
Proof. intros d a U. rewrite rotate_general, U. destruct d; apply V3_ext; unfold vcross; simpl; ring. Qed.

(** The correction angle turns the last normal into the prescribed one. *)
Lemma end_rotation : forall f, vdot stop stop = 1 -> vdot (fr_n f) (fr_n f) = 1 -> vdot (fr_d f) (fr_d f) = 1 ->
  vdot (fr_n f) (fr_d f) = 0 -> vdot stop (fr_d f) = 0 ->
  applyMatrix (rotationMatrix (fr_d f) (endAngle stop f)) (fr_n f) = stop.
Proof.
  intros f S1 N1 D1 ND SD. set (n := fr_n f) in *. set (d := fr_d f) in *. rewrite rotate_perp by exact ND.
  set (x := vdot stop n). set (y := vdot stop (vcross d n)).
  assert (Dec : stop = n *v x +v vcross d n *v y).
  { (* [n], [d], [d x n] is an orthonormal basis *)
    assert (Z : vdot (stop -v (n *v x +v vcross d n *v y)) (stop -v (n *v x +v vcross d n *v y)) = 0).
    { assert (B : vdot (vcross d n) (vcross d n) = 1).
      { replace (vdot (vcross d n) (vcross d n)) with (vdot d d * vdot n n - vdot n d * vdot n d) by (destruct d, n; unfold vdot, vcross; simpl; ring). rewrite D1, N1, ND. ring. }
      assert (C : vdot n (vcross d n) = 0) by (destruct d, n; unfold vdot, vcross; simpl; ring).
      assert (P : x * x + y * y = 1).
      { (* Gram determinant of stop, n, d *)
        assert (G : vdot stop (vcross d n) * vdot stop (vcross d n) =
          vdot stop stop * (vdot d d * vdot n n - vdot n d * vdot n d) - vdot stop d * (vdot stop d * vdot n n - vdot stop n * vdot n d)
          + vdot stop n * (vdot stop d * vdot n d - vdot stop n * vdot d d)).
        { destruct stop, d, n; unfold vdot, vcross; simpl; ring. }
        unfold x, y. rewrite G, S1, D1, N1, ND, SD. ring. }
      replace (vdot (stop -v (n *v x +v vcross d n *v y)) (stop -v (n *v x +v vcross d n *v y))) with
        (vdot stop stop - 2 * x * vdot stop n - 2 * y * vdot stop (vcross d n) + x * x * vdot n n + 2 * x * y * vdot n (vcross d n) + y * y * vdot (vcross d n) (vcross d n))
        by (unfold vdot, vsub, vadd, vscale; simpl; ring).
      rewrite S1, N1, C, B. fold x y. replace (1 - 2 * x * x - 2 * y * y + x * x * 1 + 2 * x * y * 0 + y * y * 1) with (1 - (x * x + y * y)) by ring. rewrite P. ring. }
    apply vdot_zero in Z. assert (forall a b, a -v b = vzero -> a = b) as V.
    { intros a b Q. apply V3_ext; [apply (f_equal vx) in Q|apply (f_equal vy) in Q|apply (f_equal vz) in Q]; simpl in Q; lra. }
    apply V. exact Z. }
  assert (P : x * x + y * y = 1).
  { assert (G : vdot stop (vcross d n) * vdot stop (vcross d n) =
      vdot stop stop * (vdot d d * vdot n n - vdot n d * vdot n d) - vdot stop d * (vdot stop d * vdot n n - vdot stop n * vdot n d)
      + vdot stop n * (vdot stop d * vdot n d - vdot stop n * vdot d d)).
    { destruct stop, d, n; unfold vdot, vcross; simpl; ring. }
    unfold x, y. rewrite G, S1, D1, N1, ND, SD. ring. }
  assert (Rx : -1 <= x <= 1) by nra.
  assert (Sg : vdot (vcross (n -v stop) stop) d = y).
  { unfold y. destruct stop, d, n; unfold vdot, vcross, vsub; simpl; ring. }
  assert (CS : cos (endAngle stop f) = x /\ sin (endAngle stop f) = y).
  { unfold endAngle. fold n d. rewrite Sg. fold x. rewrite clamp_id by lra.
    assert (Cx : cos (acos x) = x) by (apply cos_acos; lra).
    assert (Sx : sin (acos x) = sqrt (1 - x²)) by (apply sin_acos; lra). unfold Rsqr in Sx.
    replace (1 - x * x) with (y * y) in Sx by lra.
    destruct (Rlt_dec y 0) as [Ly|Ly].
    - replace (acos x * -1) with (- acos x) by ring. rewrite cos_neg, sin_neg, Cx, Sx. split; [reflexivity|].
      replace (y * y) with ((- y) * (- y)) by ring. rewrite sqrt_square by lra. ring.
    - rewrite Cx, Sx. split; [reflexivity|]. apply sqrt_square; lra. }
  destruct CS as [-> ->]. symmetry. exact Dec.
Qed.
End Frames.

Section Eval.
Variables (eps : R) (c : curve) (res : nat) (start stop : V3) (m : rmf).
Hypothesis Hp : 0 < eps.
Hypothesis Hres : (1 <= res)%nat.
Hypothesis Hup : rmfUpdate eps res c start stop = Some m.
Hypothesis Hstart : vdot start start = 1.

Lemma eval_cases : forall u v, 0 <= u -> rmfEval eps m u = Some v ->
  exists i f f', nth_error (rm_frames m) i = Some f /\ fr_u f <= u /\ nextFrame eps c f u = Some f' /\
    (forall g, nth_error (rm_frames m) (S i) = Some g -> u < fr_u g) /\
    v = applyMatrix (rotationMatrix (fr_d f') (fr_s f' * rm_angle m)) (fr_n f').
Proof.
  intros u v Hu E. destruct (update_spec eps c res start stop m Hup) as (t0 & last & T & Ec & _).
  destruct (upper_pos eps c res start stop m Hup u Hu) as (i & f & A & B & L). unfold rmfEval in E. rewrite A, B, Ec in E. cbn [bind] in E.
  destruct (nextFrame eps c f u) as [f'|] eqn:N; [|discriminate]. cbn [bind] in E. injection E as <-.
  exists i, f, f'. repeat (split; [assumption|]). split; [|reflexivity].
  intros g Eg. pose proof (upper_next u (rm_frames m)) as X. rewrite A, Eg in X. exact X.
Qed.

Lemma eval_unit : forall u v, 0 <= u -> rmfEval eps m u = Some v -> vdot v v = 1.
Proof.
  intros u v Hu E. destruct (eval_cases u v Hu E) as (i & f & f' & A & _ & N & _ & ->).
  rewrite rotate_dot.
  - rewrite (step_norm eps c Hp _ _ _ N). apply (unit_frames eps c Hp res start stop m Hres Hup Hstart i f A).
  - apply (step_tangent eps c Hp _ _ _ N). apply (tangent_frames eps c Hp res start stop m Hres Hup i f A).
Qed.

Lemma eval_defined : forall u, 0 <= u -> cder c u <> vzero -> exists v, rmfEval eps m u = Some v.
Proof.
  intros u Hu Nz. destruct (update_spec eps c res start stop m Hup) as (t0 & last & T & Ec & _).
  destruct (upper_pos eps c res start stop m Hup u Hu) as (i & f & A & B & L). unfold rmfEval. rewrite A, B, Ec. cbn [bind].
  assert (N : exists f', nextFrame eps c f u = Some f').
  { unfold nextFrame. destruct (Rlt_dec _ eps); [eexists; reflexivity|]. destruct (normalize_some _ Nz) as [t ->]. cbn [bind].
    unfold vdiv at 1. destruct (Req_EM_T _ 0); [lra|]. cbn [bind]. set (dL := _ -v _) at 1. 
    match goal with |- context [Rlt_dec ?x eps] => destruct (Rlt_dec x eps) as [Q|Q] end; [eexists; reflexivity|].
    unfold vdiv. match goal with |- context [Req_EM_T ?x 0] => destruct (Req_EM_T x 0) as [Z|Z] end; [|eexists; reflexivity].
    exfalso. unfold dL in Q. lra. }
  destruct N as [f' ->]. eexists; reflexivity.
Qed.

Lemma eval_negative : forall u, u < 0 -> rmfEval eps m u = None.
Proof.
  intros u Hu. destruct (update_spec eps c res start stop m Hup) as (t0 & last & T & Ec & L & F0 & _). unfold rmfEval.
  destruct (rm_frames m) as [|f l]; [discriminate|]. injection F0 as ->. cbn [upperBound fr_u]. destruct (Rlt_dec u 0); [reflexivity|lra].
Qed.

Lemma next_same : forall f, nextFrame eps c f (fr_u f) = Some f \/ cpt c (fr_u f) <> fr_p f.
Proof.
  intros f. unfold nextFrame. destruct (Rlt_dec _ eps) as [Q|Q]; [left; reflexivity|right]. intros E. apply Q. rewrite E.
  replace (vdot _ _) with 0 by (unfold vdot, vsub; simpl; ring). exact Hp.
Qed.

Lemma eval_start : rmfEval eps m 0 = Some start.
Proof.
  destruct (update_spec eps c res start stop m Hup) as (t0 & last & T & Ec & L & F0 & _).
  destruct (upper_pos eps c res start stop m Hup 0 ltac:(lra)) as (i & f & A & B & Lf).
  destruct (frame_param eps c Hp res start stop m Hres Hup i f B) as [Q1 Q2]. rewrite (Q2 ltac:(lra)) in F0. injection F0 as ->.
  unfold rmfEval. rewrite A, B, Ec. cbn [bind]. unfold nextFrame. cbn [fr_p].
  destruct (Rlt_dec _ eps) as [Q|Q].
  - cbn [bind]. unfold rotateFrame. cbn [fr_n fr_s fr_d]. rewrite Rmult_0_l, rotate_zero. reflexivity.
  - exfalso. apply Q. replace (vdot _ _) with 0 by (unfold vdot, vsub; simpl; ring). exact Hp.
Qed.

Lemma upper_all : forall u l, (forall i f, nth_error l i = Some f -> fr_u f <= u) -> upperBound u l = length l.
Proof.
  intros u. induction l as [|f l IH]; intros F; [reflexivity|]. cbn [upperBound length]. destruct (Rlt_dec u (fr_u f)) as [Q|Q].
  - exfalso. specialize (F 0%nat f eq_refl). lra.
  - f_equal. apply IH. intros i g E. apply (F (S i) g E).
Qed.

Lemma frame_point : forall i f, nth_error (rm_frames m) i = Some f -> fr_p f = cpt c (fr_u f) /\ vnormalize (cder c (fr_u f)) = Some (fr_d f).
Proof.
  destruct (update_spec eps c res start stop m Hup) as (t0 & last & T & Ec & L & F0 & _ & _ & _ & C).
  induction i as [|i IH]; intros f E.
  - rewrite F0 in E. injection E as <-. split; [reflexivity|exact T].
  - assert (Hi : (i < res)%nat). { assert (S i < length (rm_frames m))%nat by (apply nth_error_Some; congruence). lia. }
    destruct (nth_error (rm_frames m) i) as [a|] eqn:Ea; [|apply nth_error_None in Ea; lia].
    destruct (C i a Hi Ea) as (b & Eb & Nb). rewrite E in Eb. injection Eb as <-.
    destruct (nextFrame_cases eps c Hp _ _ _ Nb) as [[-> _]|(_ & Tn & Un & _ & Pn & _)]; [apply IH; reflexivity|]. rewrite Un. auto.
Qed.

Lemma eval_end : perpv start (cder c 0) -> all_settled eps (rm_frames m) -> vdot stop stop = 1 ->
  (forall last, nth_error (rm_frames m) res = Some last -> vdot stop (fr_d last) = 0) ->
  rmfEval eps m 1 = Some stop.
Proof.
  intros P AS S1 SD. destruct (update_spec eps c res start stop m Hup) as (t0 & last & T & Ec & L & F0 & El & Ns & An & C).
  assert (Rp : 0 < INR res) by (apply lt_0_INR; lia).
  assert (U : upperBound 1 (rm_frames m) = S res).
  { rewrite upper_all; [exact L|]. intros i f E. destruct (frame_param eps c Hp res start stop m Hres Hup i f E) as [Q _].
    assert (i <= res)%nat by (assert (i < length (rm_frames m))%nat by (apply nth_error_Some; congruence); lia).
    assert (INR i / INR res <= 1); [|lra]. apply (Rmult_le_reg_r (INR res)); [exact Rp|]. unfold Rdiv. rewrite Rmult_assoc, Rinv_l, Rmult_1_r, Rmult_1_l by lra. apply le_INR; lia. }
  unfold rmfEval. rewrite U, El, Ec. cbn [bind].
  (* the step to the last parameter has been made, or skipped, already *)
  assert (N : nextFrame eps c last 1 = Some last).
  { destruct res as [|r] eqn:Er; [lia|]. destruct (nth_error (rm_frames m) r) as [a|] eqn:Ea; [|apply nth_error_None in Ea; lia].
    destruct (C r a ltac:(lia) Ea) as (b & Eb & Nb). rewrite El in Eb. injection Eb as <-.
    assert (One : INR (S r) / INR (S r) = 1) by (field; lra). rewrite One in Nb.
    destruct (nextFrame_cases eps c Hp _ _ _ Nb) as [[-> Q]|(_ & _ & Un & _ & Pn & _)].
    - unfold nextFrame. destruct (Rlt_dec _ eps); [reflexivity|contradiction].
    - destruct (next_same last) as [X|X]; [rewrite Un in X; exact X|]. rewrite Un in X. congruence. }
  rewrite N. cbn [bind]. unfold rotateFrame. cbn [fr_n fr_s fr_d]. apply (f_equal Some).
  replace (fr_s last * rm_angle m) with (endAngle stop last) by (rewrite An; field; exact Ns).
  destruct (frame_facts eps c Hp res start stop m Hres Hup Hstart P res last El) as (A1 & A2 & _ & A4).
  apply (end_rotation eps c res start stop m Hup); auto.
Qed.

Lemma eval_perp : forall u v, perpv start (cder c 0) -> all_settled eps (rm_frames m) -> 0 <= u -> rmfEval eps m u = Some v ->
  exists i f f', nth_error (rm_frames m) i = Some f /\ fr_u f <= u /\ nextFrame eps c f u = Some f' /\
    (settled eps f f' -> vdot v (fr_d f') = 0).
Proof.
  intros u v P AS Hu E. destruct (eval_cases u v Hu E) as (i & f & f' & A & B & N & _ & ->).
  exists i, f, f'. repeat (split; [assumption|]). intros S.
  destruct (frame_facts eps c Hp res start stop m Hres Hup Hstart P i f A) as (A1 & A2 & _ & A4).
  assert (D' := step_tangent eps c Hp _ _ _ N A2). assert (N' := step_exact eps c Hp _ _ _ N A2 S). rewrite (A4 AS) in N'.
  rewrite <- (rotate_axis (fr_d f') (fr_s f' * rm_angle m) D') at 2. rewrite rotate_dot by exact D'. exact N'.
Qed.
End Eval.

(** ** When update() succeeds *)
Section Total.
Variables (eps : R) (c : curve) (res : nat) (start stop : V3).
Hypothesis Hp : 0 < eps.
Hypothesis Hres : (1 <= res)%nat.
Hypothesis Hder : forall u, 0 <= u <= 1 -> cder c u <> vzero.
Hypothesis Hlen : forall a b, 0 <= a < b -> b <= 1 -> 0 < clen c a b.

Lemma next_total : forall f u, 0 <= u <= 1 -> exists f', nextFrame eps c f u = Some f'.
Proof.
  intros f u Hu. unfold nextFrame. destruct (Rlt_dec _ eps); [eexists; reflexivity|].
  destruct (normalize_some _ (Hder u Hu)) as [t ->]. cbn [bind]. unfold vdiv at 1. destruct (Req_EM_T _ 0); [lra|]. cbn [bind].
  match goal with |- context [Rlt_dec ?x eps] => destruct (Rlt_dec x eps) as [Q|Q] end; [eexists; reflexivity|].
  unfold vdiv. match goal with |- context [Req_EM_T ?x 0] => destruct (Req_EM_T x 0) as [Z|Z] end; [|eexists; reflexivity]. exfalso; lra.
Qed.
Lemma loop_total : forall k i f, (i + k = S res)%nat -> exists l, frameLoop eps c res k i f = Some l.
Proof.
  assert (Rp : 0 < INR res) by (apply lt_0_INR; lia).
  induction k as [|k IH]; intros i f H; cbn [frameLoop]; [eexists; reflexivity|].
  destruct (next_total f (INR i / INR res)) as [f' ->].
  { split; [apply Rmult_le_pos; [apply pos_INR|left; apply Rinv_0_lt_compat; exact Rp]|].
    apply (Rmult_le_reg_r (INR res)); [exact Rp|]. unfold Rdiv. rewrite Rmult_assoc, Rinv_l, Rmult_1_r, Rmult_1_l by lra. apply le_INR; lia. }
  cbn [bind]. destruct (IH (S i) f' ltac:(lia)) as [l ->]. eexists; reflexivity.
Qed.
Lemma step_le : forall i, (i <= res)%nat -> INR i / INR res <= 1.
Proof.
  intros i H. assert (Rp : 0 < INR res) by (apply lt_0_INR; lia).
  apply (Rmult_le_reg_r (INR res)); [exact Rp|]. unfold Rdiv. rewrite Rmult_assoc, Rinv_l, Rmult_1_r, Rmult_1_l by lra. apply le_INR; lia.
Qed.
(** Lengths: not negative, and positive once a step has been made. *)
Lemma loop_length : forall k i f l, (1 <= i)%nat -> (i + k <= S res)%nat -> frameLoop eps c res k i f = Some l ->
  0 <= fr_u f < INR i / INR res -> 0 <= fr_s f ->
  forall j g, nth_error l j = Some g -> fr_s f <= fr_s g /\ (g = f \/ fr_s f < fr_s g).
Proof.
  assert (Rp : 0 < INR res) by (apply lt_0_INR; lia).
  induction k as [|k IH]; intros i f l Hi Hk E Hu Hs j g Eg; cbn [frameLoop] in E.
  - injection E as <-. destruct j as [|j]; [|destruct j; discriminate]. cbn [nth_error] in Eg. injection Eg as <-. split; [lra|auto].
  - destruct (nextFrame eps c f (INR i / INR res)) as [f1|] eqn:N; [|discriminate]. cbn [bind] in E.
    destruct (frameLoop eps c res k (S i) f1) as [l1|] eqn:L; [|discriminate]. cbn [bind] in E. injection E as <-.
    destruct j as [|j]; cbn [nth_error] in Eg; [injection Eg as <-; split; [lra|auto]|].
    assert (Lt : INR i / INR res < INR (S i) / INR res).
    { unfold Rdiv. apply Rmult_lt_compat_r; [apply Rinv_0_lt_compat; exact Rp|]. apply lt_INR; lia. }
    destruct (nextFrame_cases eps c Hp _ _ _ N) as [[-> Q]|(_ & _ & Un & Sn & _)].
    + apply (IH (S i) f l1 ltac:(lia) ltac:(lia) L ltac:(lra) Hs j g Eg).
    + assert (P := Hlen _ _ Hu (step_le i ltac:(lia))). destruct (IH (S i) f1 l1 ltac:(lia) ltac:(lia) L ltac:(rewrite Un; lra) ltac:(lra) j g Eg) as [X _]. split; [lra|right; lra].
Qed.
Lemma loop_repeat : forall k i f l, (1 <= i)%nat -> (i + k <= S res)%nat -> frameLoop eps c res k i f = Some l -> 0 <= fr_u f < INR i / INR res -> 0 <= fr_s f ->
  forall g, nth_error l k = Some g -> g = f ->
  forall j, (i <= j < i + k)%nat -> vdot (cpt c (INR j / INR res) -v fr_p f) (cpt c (INR j / INR res) -v fr_p f) < eps.
Proof.
  assert (Rp : 0 < INR res) by (apply lt_0_INR; lia).
  induction k as [|k IH]; intros i f l Hi Hk E Hu Hs g Eg Gf j Hj; [lia|]. assert (E' := E). cbn [frameLoop] in E.
  destruct (nextFrame eps c f (INR i / INR res)) as [f1|] eqn:N; [|discriminate]. cbn [bind] in E.
  destruct (frameLoop eps c res k (S i) f1) as [l1|] eqn:L; [|discriminate]. cbn [bind] in E. injection E as <-. cbn [nth_error] in Eg.
  assert (Lt : INR i / INR res < INR (S i) / INR res).
  { unfold Rdiv. apply Rmult_lt_compat_r; [apply Rinv_0_lt_compat; exact Rp|]. apply lt_INR; lia. }
  destruct (nextFrame_cases eps c Hp _ _ _ N) as [[-> Q]|(_ & _ & Un & Sn & _)].
  - destruct (Nat.eq_dec j i) as [->|Nj]; [exact Q|]. apply (IH (S i) f l1 ltac:(lia) ltac:(lia) L ltac:(lra) Hs g Eg Gf j ltac:(lia)).
  - exfalso. assert (P := Hlen _ _ Hu (step_le i ltac:(lia))). destruct (loop_length k (S i) f1 l1 ltac:(lia) ltac:(lia) L ltac:(rewrite Un; lra) ltac:(lra) k g Eg) as [X _]. rewrite Gf in X. lra.
Qed.

Lemma update_total : (exists j, (1 <= j <= res)%nat /\
    eps <= vdot (cpt c (INR j / INR res) -v cpt c 0) (cpt c (INR j / INR res) -v cpt c 0)) ->
  exists m, rmfUpdate eps res c start stop = Some m.
Proof.
  intros (j & Hj & Far). assert (Rp : 0 < INR res) by (apply lt_0_INR; lia).
  unfold rmfUpdate, firstFrame. destruct (normalize_some _ (Hder 0 ltac:(lra))) as [t0 ->]. cbn [bind].
  set (f0 := mkFrame 0 0 (cpt c 0) t0 start). destruct (loop_total res 1 f0 ltac:(lia)) as [l L]. rewrite L. cbn [bind].
  destruct (loop_spec eps c _ _ _ _ _ L) as (A & _). destruct (nth_error l res) as [last|] eqn:E; [|apply nth_error_None in E; lia]. cbn [bind].
  assert (P1 : 0 <= fr_u f0 < INR 1 / INR res) by (cbn [f0 fr_u]; split; [lra|apply Rdiv_lt_0_compat; [simpl; lra|exact Rp]]).
  assert (Ns : fr_s last <> 0).
  { destruct (loop_length res 1 f0 l ltac:(lia) ltac:(lia) L P1 ltac:(simpl; lra) res last E) as [X [Y|Y]].
    - exfalso. pose proof (loop_repeat res 1 f0 l ltac:(lia) ltac:(lia) L P1 ltac:(simpl; lra) last E Y j ltac:(lia)) as Z. cbn [f0 fr_p] in Z. lra.
    - cbn [f0 fr_s] in Y. lra. }
  rewrite fdiv_some by exact Ns. eexists; reflexivity.
Qed.
End Total.
