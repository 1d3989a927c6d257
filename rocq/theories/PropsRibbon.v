(** Properties of the rotation minimizing frames and the ribbons: C30 - C32. *)
From Verif Require Import Base MeshModel GeomSpec DomainModel UtilModel ParamModel MeshParams MeshGeom MeshGeom2 DomainProofs.
From Verif Require Import RibbonModel RibbonSpec RibbonProofs RibbonNSided SurfaceModel SurfaceEval.
Open Scope R_scope.

(** ** C30: rotation minimizing frames *)

Lemma vnorm_nonneg : forall v, 0 <= vnorm v. Proof. intros v. apply sqrt_pos. Qed.
Lemma normalize_directs : forall v d, vnormalize v = Some d -> directs d v.
Proof.
  intros v d H. destruct (normalize_inv v d H) as (U & N & E). split; [exact U|]. pose proof (vnorm_nonneg v) as P.
  split; [lra|]. rewrite E. unfold vscale. destruct v as [x y z]; simpl. f_equal; field; exact N.
Qed.
Lemma directs_perp : forall n d v, directs d v -> (perpv n v <-> perpv n d).
Proof.
  intros n d v (_ & P & E). unfold perpv. split; intros H.
  - rewrite E in H. replace (vdot n (d *v vnorm v)) with (vdot n d * vnorm v) in H by (unfold vdot, vscale; simpl; ring).
    apply Rmult_integral in H. destruct H; lra.
  - rewrite E. replace (vdot n (d *v vnorm v)) with (vdot n d * vnorm v) by (unfold vdot, vscale; simpl; ring). rewrite H; ring.
Qed.

(** update() succeeds on curves with a non-zero derivative and increasing arc
    length, of which at least one sample is not within the tolerance of the
    starting point. *)
Theorem C30_defined : forall eps res c start stop, 0 < eps -> (1 <= res)%nat ->
  (forall u, 0 <= u <= 1 -> cder c u <> vzero) -> (forall a b, 0 <= a < b -> b <= 1 -> 0 < clen c a b) ->
  (exists j, (1 <= j <= res)%nat /\
     eps <= vdot (cpt c (INR j / INR res) -v cpt c 0) (cpt c (INR j / INR res) -v cpt c 0)) ->
  exists m, rmfUpdate eps res c start stop = Some m.
Proof. intros eps res c start stop Hp Hr Hd Hl. apply update_total; assumption. Qed.
Print Assumptions C30_defined.

(** Every frame is at a curve point, with the unit tangent there and a unit
    normal.  The scalar product of the two is at most i sqrt(eps) for frame i,
    and it is 0 when all reflections are well-conditioned. *)
Theorem C30_frames : forall eps res c start stop m, 0 < eps -> (1 <= res)%nat ->
  rmfUpdate eps res c start stop = Some m -> unitv start -> perpv start (cder c 0) ->
  length (rm_frames m) = S res /\
  forall i f, nth_error (rm_frames m) i = Some f ->
    fr_p f = cpt c (fr_u f) /\ directs (fr_d f) (cder c (fr_u f)) /\ unitv (fr_n f) /\
    Rabs (vdot (fr_n f) (fr_d f)) <= INR i * sqrt eps /\
    (all_settled eps (rm_frames m) -> perpv (fr_n f) (cder c (fr_u f))).
Proof.
  intros eps res c start stop m Hp Hr Hup U P.
  destruct (update_spec eps c res start stop m Hup) as (t0 & last & _ & _ & L & _). split; [exact L|]. intros i f E.
  destruct (frame_facts eps c Hp res start stop m Hr Hup U P i f E) as (A & B & C & D).
  destruct (frame_point eps c res start stop m Hp Hr Hup i f E) as [Q1 Q2]. apply normalize_directs in Q2.
  repeat (split; [assumption|]). intros S. apply (directs_perp _ _ _ Q2). apply D; exact S.
Qed.
Print Assumptions C30_frames.

(** The list is sorted by parameter and covers [0, 1] from 0, so the search
    with upper_bound in eval() is well defined. *)
Theorem C30_sorted : forall eps res c start stop m, 0 < eps -> (1 <= res)%nat -> rmfUpdate eps res c start stop = Some m ->
  (exists f, nth_error (rm_frames m) 0 = Some f /\ fr_u f = 0 /\ fr_s f = 0 /\ fr_n f = start) /\
  (forall i j f g, (i <= j)%nat -> nth_error (rm_frames m) i = Some f -> nth_error (rm_frames m) j = Some g -> fr_u f <= fr_u g) /\
  (forall i f, nth_error (rm_frames m) i = Some f -> 0 <= fr_u f <= INR i / INR res).
Proof.
  intros eps res c start stop m Hp Hr Hup. destruct (update_spec eps c res start stop m Hup) as (t0 & last & _ & _ & _ & F & _).
  split; [eexists; split; [exact F|repeat split]|]. split.
  - intros i j f g. apply (sorted_frames eps c Hp res start stop m Hr Hup).
  - intros i f E. apply (frame_param eps c Hp res start stop m Hr Hup i f E).
Qed.
Print Assumptions C30_sorted.

Theorem C30_eval_defined : forall eps res c start stop m u, 0 < eps -> (1 <= res)%nat ->
  rmfUpdate eps res c start stop = Some m -> unitv start -> 0 <= u -> cder c u <> vzero ->
  exists n, rmfEval eps m u = Some n /\ unitv n.
Proof.
  intros eps res c start stop m u Hp Hr Hup U Hu Nz.
  destruct (eval_defined eps c res start stop m Hp Hup u Hu Nz) as [n E]. exists n. split; [exact E|].
  apply (eval_unit eps c res start stop m Hp Hr Hup U u n Hu E).
Qed.
Print Assumptions C30_eval_defined.

(** A negative parameter makes eval() step back from the beginning of the list. *)
Theorem C30_eval_negative : forall eps res c start stop m u, rmfUpdate eps res c start stop = Some m -> u < 0 -> rmfEval eps m u = None.
Proof. intros eps res c start stop m u Hup Hu. apply (eval_negative eps c res start stop m Hup u Hu). Qed.
Print Assumptions C30_eval_negative.

Theorem C30_eval_start : forall eps res c start stop m, 0 < eps -> (1 <= res)%nat ->
  rmfUpdate eps res c start stop = Some m -> rmfEval eps m 0 = Some start.
Proof. intros eps res c start stop m Hp Hr Hup. apply (eval_start eps c res start stop m Hp Hr Hup). Qed.
Print Assumptions C30_eval_start.

Theorem C30_eval_end : forall eps res c start stop m, 0 < eps -> (1 <= res)%nat ->
  rmfUpdate eps res c start stop = Some m -> unitv start -> perpv start (cder c 0) -> all_settled eps (rm_frames m) ->
  unitv stop -> (forall f, nth_error (rm_frames m) res = Some f -> perpv stop (cder c (fr_u f))) ->
  rmfEval eps m 1 = Some stop.
Proof.
  intros eps res c start stop m Hp Hr Hup U P S U1 P1. apply (eval_end eps c res start stop m Hp Hr Hup U P S U1).
  intros f E. destruct (frame_point eps c res start stop m Hp Hr Hup res f E) as [_ Q]. apply normalize_directs in Q.
  apply (directs_perp _ _ _ Q). apply P1; exact E.
Qed.
Print Assumptions C30_eval_end.

(** In between the normal is perpendicular to the curve at [u], or at an
    earlier parameter where the curve is within the tolerance. *)
Theorem C30_eval_tangent : forall eps res c start stop m u n, 0 < eps -> (1 <= res)%nat ->
  rmfUpdate eps res c start stop = Some m -> unitv start -> perpv start (cder c 0) -> all_settled eps (rm_frames m) ->
  (forall f f', In f (rm_frames m) -> nextFrame eps c f u = Some f' -> settled eps f f') ->
  0 <= u -> rmfEval eps m u = Some n ->
  exists w, 0 <= w <= u /\ (w = u \/ vdot (cpt c u -v cpt c w) (cpt c u -v cpt c w) < eps) /\ perpv n (cder c w).
Proof.
  intros eps res c start stop m u n Hp Hr Hup U P S Su Hu E.
  destruct (eval_perp eps c res start stop m Hp Hr Hup U u n P S Hu E) as (i & f & f' & A & B & N & Q).
  specialize (Q (Su f f' (nth_error_In _ _ A) N)).
  destruct (frame_param eps c Hp res start stop m Hr Hup i f A) as [[F0 _] _].
  destruct (frame_point eps c res start stop m Hp Hr Hup i f A) as [G1 G2]. apply normalize_directs in G2.
  destruct (nextFrame_cases eps c Hp f u f' N) as [[-> Lt]|(_ & T & _)].
  - exists (fr_u f). split; [lra|]. split; [right; rewrite <- G1; exact Lt|]. apply (directs_perp _ _ _ G2). exact Q.
  - exists u. split; [lra|]. split; [auto|]. apply normalize_directs in T. apply (directs_perp _ _ _ T). exact Q.
Qed.
Print Assumptions C30_eval_tangent.

(** The fence of a ribbon (Ribbon::update()) has at both ends the normal of
    the plane spanned by the curve and its neighbour. *)
Theorem C30_ribbon : forall eps res prev c next m, 0 < eps -> (1 <= res)%nat ->
  ribbonUpdate eps res prev c next = Some m ->
  (exists n, rmfEval eps m 0 = Some n /\ directs n (vcross (cder prev 1) (cder c 0))) /\
  (all_settled eps (rm_frames m) -> (forall f, nth_error (rm_frames m) res = Some f -> fr_u f = 1) ->
   exists n, rmfEval eps m 1 = Some n /\ directs n (vcross (cder c 1) (cder next 0))).
Proof.
  intros eps res prev c next m Hp Hr H. unfold ribbonUpdate in H.
  destruct (vnormalize (vcross (cder prev 1) (cder c 0))) as [start|] eqn:E0; [|discriminate]. cbn [bind] in H.
  destruct (vnormalize (vcross (cder c 1) (cder next 0))) as [stop|] eqn:E1; [|discriminate]. cbn [bind] in H.
  apply normalize_directs in E0. apply normalize_directs in E1. split.
  - exists start. split; [apply (C30_eval_start eps res c start stop m Hp Hr H)|exact E0].
  - intros S L. exists stop. split; [|exact E1].
    assert (P : forall a b n, directs n (vcross a b) -> perpv n a /\ perpv n b).
    { intros a b n D. split.
      - assert (X : perpv a n); [|unfold perpv in *; rewrite <- X; unfold vdot; ring]. apply (directs_perp a n _ D). unfold perpv, vdot, vcross; simpl; ring.
      - assert (X : perpv b n); [|unfold perpv in *; rewrite <- X; unfold vdot; ring]. apply (directs_perp b n _ D). unfold perpv, vdot, vcross; simpl; ring. }
    apply (C30_eval_end eps res c start stop m Hp Hr H); [apply E0|apply (P _ _ _ E0)|exact S|apply E1|].
    intros f E. rewrite (L f E). apply (P _ _ _ E1).
Qed.
Print Assumptions C30_ribbon.

(** A straight segment with an upward normal at the beginning and one pointing
    sideways at the end. *)
Lemma line_norm : vnormalize (mkV3 1 0 0) = Some (mkV3 1 0 0).
Proof.
  unfold vnormalize. replace (vnorm (mkV3 1 0 0)) with 1.
  - rewrite vdiv_some by lra. apply (f_equal Some). unfold vscale; simpl; f_equal; field.
  - unfold vnorm, vdot; simpl. replace (1 * 1 + 0 * 0 + 0 * 0) with 1 by ring. symmetry; apply sqrt_1.
Qed.
Lemma line_frames : forall eps res start stop m, 0 < eps -> (1 <= res)%nat -> rmfUpdate eps res line start stop = Some m ->
  forall i f, nth_error (rm_frames m) i = Some f -> fr_p f = mkV3 (fr_u f) 0 0 /\ fr_d f = mkV3 1 0 0.
Proof.
  intros eps res start stop m Hp Hr Hup i f E. destruct (frame_point eps line res start stop m Hp Hr Hup i f E) as [A B].
  split; [exact A|]. cbn [line cder] in B. rewrite line_norm in B. injection B as <-. reflexivity.
Qed.
Lemma line_settled : forall eps f f', 0 < eps <= 4 -> fr_p f = mkV3 (fr_u f) 0 0 -> fr_p f' = mkV3 (fr_u f') 0 0 ->
  fr_d f = mkV3 1 0 0 -> fr_d f' = mkV3 1 0 0 -> settled eps f f'.
Proof.
  intros eps f f' He A A' B B'. right. rewrite A, A', B, B'. unfold mirror, vsub, vscale, vdot; simpl.
  destruct (Req_dec (fr_u f' - fr_u f) 0) as [Z|Z].
  - left. rewrite Z. f_equal; unfold Rdiv; ring.
  - right. replace (2 * ((fr_u f' - fr_u f) * 1 + (0 - 0) * 0 + (0 - 0) * 0) /
      ((fr_u f' - fr_u f) * (fr_u f' - fr_u f) + (0 - 0) * (0 - 0) + (0 - 0) * (0 - 0))) with (2 / (fr_u f' - fr_u f)) by (field; lra).
    replace (1 - (1 - (fr_u f' - fr_u f) * (2 / (fr_u f' - fr_u f)))) with 2 by (field; exact Z). lra.
Qed.
Example C30_example : forall eps, 0 < eps <= 1 / 10000 ->
  exists m, rmfUpdate eps 100 line (mkV3 0 0 1) (mkV3 0 1 0) = Some m /\
    rmfEval eps m 0 = Some (mkV3 0 0 1) /\ rmfEval eps m 1 = Some (mkV3 0 1 0) /\
    (exists n, rmfEval eps m (1 / 2) = Some n /\ unitv n /\ vx n = 0).
Proof.
  intros eps He. assert (Hr : (1 <= 100)%nat) by lia.
  destruct (C30_defined eps 100 line (mkV3 0 0 1) (mkV3 0 1 0) ltac:(lra) Hr) as [m Hm].
  { intros u _. cbn. intros E. injection E. lra. } { intros a b H; cbn; lra. }
  { exists 100%nat. split; [lia|]. replace (INR 100 / INR 100) with 1 by (field; apply not_0_INR; lia). cbn [line cpt]. unfold vdot, vsub; simpl. lra. }
  exists m. split; [exact Hm|].
  assert (U : unitv (mkV3 0 0 1)) by (unfold unitv, vdot; simpl; ring).
  assert (P : perpv (mkV3 0 0 1) (cder line 0)) by (unfold perpv, vdot; simpl; ring).
  assert (S : all_settled eps (rm_frames m)).
  { intros i f f' E E'. destruct (line_frames eps 100 _ _ m ltac:(lra) Hr Hm i f E), (line_frames eps 100 _ _ m ltac:(lra) Hr Hm (Datatypes.S i) f' E').
    apply line_settled; auto; lra. }
  split; [apply (C30_eval_start eps 100 line _ (mkV3 0 1 0) m ltac:(lra) Hr Hm)|].
  split.
  - apply (C30_eval_end eps 100 line _ (mkV3 0 1 0) m ltac:(lra) Hr Hm U P S); [unfold unitv, vdot; simpl; ring|].
    intros f _. unfold perpv, vdot; simpl; ring.
  - destruct (C30_eval_defined eps 100 line _ _ m (1/2) ltac:(lra) Hr Hm U ltac:(lra)) as [n [E Un]]; [cbn; intros E; injection E; lra|].
    exists n. split; [exact E|]. split; [exact Un|].
    destruct (C30_eval_tangent eps 100 line _ _ m (1/2) n ltac:(lra) Hr Hm U P S) as (w & _ & _ & Q); [|lra|exact E|].
    + intros f f' I N. apply In_nth_error in I. destruct I as [i Ei]. destruct (line_frames eps 100 _ _ m ltac:(lra) Hr Hm i f Ei) as [A B].
      destruct (nextFrame_cases eps line ltac:(lra) f (1/2) f' N) as [[-> _]|(_ & T & Uf & _ & Pf & _)]; [left; reflexivity|].
      apply line_settled; auto; try lra; [rewrite Uf; exact Pf|]. cbn [line cder] in T. rewrite line_norm in T. injection T as <-. reflexivity.
    + unfold perpv, vdot in Q. simpl in Q. lra.
Qed.

(** ** C31: rotation matrices *)

Theorem C31_isometry : forall u a x y, unitv u ->
  vdot (applyMatrix (rotationMatrix u a) x) (applyMatrix (rotationMatrix u a) y) = vdot x y.
Proof. intros u a x y H. apply rotate_dot. exact H. Qed.
Print Assumptions C31_isometry.
Theorem C31_axis : forall u a, unitv u -> applyMatrix (rotationMatrix u a) u = u.
Proof. intros u a H. apply rotate_axis. exact H. Qed.
Print Assumptions C31_axis.
(** Vectors perpendicular to the axis turn by the angle, counterclockwise when
    seen from the tip of the axis. *)
Theorem C31_turn : forall u a x, perpv x u -> applyMatrix (rotationMatrix u a) x = x *v cos a +v vcross u x *v sin a.
Proof. intros u a x H. apply rotate_perp. exact H. Qed.
Print Assumptions C31_turn.
Theorem C31_compose : forall u a b x, unitv u ->
  applyMatrix (rotationMatrix u a) (applyMatrix (rotationMatrix u b) x) = applyMatrix (rotationMatrix u (a + b)) x.
Proof.
  intros u a b x U. rewrite !rotate_general, cos_plus, sin_plus. unfold unitv in U. destruct u as [p q r], x as [x y z].
  unfold vdot in U. cbn [vx vy vz] in U. unfold vcross, vadd, vscale, vdot; cbn [vx vy vz].
  generalize (cos a) (sin a) (cos b) (sin b). intros ca sa cb sb. assert (R2 : r * r = 1 - p * p - q * q) by lra.
  f_equal; ring [R2].
Qed.
Print Assumptions C31_compose.
Example C31_example : applyMatrix (rotationMatrix (mkV3 0 0 1) (PI / 2)) (mkV3 1 0 0) = mkV3 0 1 0.
Proof.
  rewrite C31_turn by (unfold perpv, vdot; simpl; ring). rewrite cos_PI2, sin_PI2. unfold vcross, vadd, vscale; simpl. f_equal; ring.
Qed.

(** ** C32: cross derivatives *)

Lemma project_perp : forall n v, unitv n -> perpv (projectOut n v) n.
Proof.
  intros n v U. unfold perpv, projectOut. unfold unitv in U. replace (vdot (v -v n *v vdot v n) n) with (vdot v n * (1 - vdot n n)); [rewrite U; ring|].
  unfold vdot, vsub, vscale; simpl; ring.
Qed.
Lemma project_id : forall n v, perpv v n -> projectOut n v = v.
Proof. intros n v H. unfold projectOut. rewrite H. unfold vsub, vscale. destruct v; simpl; f_equal; ring. Qed.
Lemma perp_lin : forall n a b r s, perpv a n -> perpv b n -> perpv (a *v r +v b *v s) n.
Proof. intros n a b r s A B. unfold perpv in *. replace (vdot _ n) with (r * vdot a n + s * vdot b n); [rewrite A, B; ring|]. unfold vdot, vadd, vscale; simpl; ring. Qed.

(** All ribbons start at the curve, and their partial derivative by the second
    parameter is the cross derivative. *)
Theorem C32_ribbon : forall c cross s d x, cross s = Some x ->
  ribbonEval c cross (mkV2 s d) = Some (cpt c s +v x *v d) /\ ribbonEval c cross (mkV2 s 0) = Some (cpt c s).
Proof.
  intros c cross s d x E. unfold ribbonEval; cbn [px py]. rewrite E; cbn [bind]. split; [reflexivity|]. apply (f_equal Some).
  unfold vadd, vscale. destruct (cpt c s); simpl; f_equal; ring.
Qed.
Print Assumptions C32_ribbon.

Theorem C32_compatible : forall normal pt nt s n, normal s = Some n -> unitv n ->
  exists x, crossCompatible normal pt nt s = Some x /\ perpv x n.
Proof.
  intros normal pt nt s n E U. unfold crossCompatible. rewrite E; cbn [bind]. eexists; split; [reflexivity|].
  apply perp_lin; apply project_perp; exact U.
Qed.
Print Assumptions C32_compatible.
Theorem C32_compatible_ends : forall normal pt nt n0 n1,
  (normal 0 = Some n0 -> perpv pt n0 -> crossCompatible normal pt nt 0 = Some pt) /\
  (normal 1 = Some n1 -> perpv nt n1 -> crossCompatible normal pt nt 1 = Some nt).
Proof.
  intros normal pt nt n0 n1. unfold crossCompatible. split; intros E P; rewrite E; cbn [bind]; apply (f_equal Some); rewrite (project_id _ _ P); v3ring.
Qed.
Print Assumptions C32_compatible_ends.

Theorem C32_handler : forall normal pt nt central s n, normal s = Some n -> unitv n ->
  exists x, crossHandler normal pt nt central s = Some x /\ perpv x n.
Proof.
  intros normal pt nt central s n E U. unfold crossHandler. rewrite E; cbn [bind]. eexists; split; [reflexivity|].
  pose proof (project_perp n pt U) as A. pose proof (project_perp n nt U) as B. pose proof (project_perp n central U) as C.
  unfold perpv in *. set (a := projectOut n pt) in *. set (b := projectOut n nt) in *. set (k := projectOut n central) in *.
  transitivity (2 * (s - 1) * (s - 1 / 2) * vdot a n + (-4) * s * (s - 1) * vdot k n + 2 * s * (s - 1 / 2) * vdot b n);
    [unfold vdot, vadd, vscale; simpl; ring|rewrite A, B, C; ring].
Qed.
Print Assumptions C32_handler.
Theorem C32_handler_ends : forall normal pt nt central n0 n1,
  (normal 0 = Some n0 -> perpv pt n0 -> crossHandler normal pt nt central 0 = Some pt) /\
  (normal 1 = Some n1 -> perpv nt n1 -> crossHandler normal pt nt central 1 = Some nt).
Proof.
  intros normal pt nt central n0 n1. unfold crossHandler. split; intros E P; rewrite E; cbn [bind]; apply (f_equal Some); rewrite (project_id _ _ P).
  - set (a := projectOut n0 nt). set (b := projectOut n0 central). v3field.
  - set (a := projectOut n1 pt). set (b := projectOut n1 central). v3field.
Qed.
Print Assumptions C32_handler_ends.

(** The default handler is a unit vector in the tangent plane in the middle,
    and the cross derivative there is this, with the average length of the two
    tangents times the multiplier. *)
Theorem C32_handler_middle : forall normal pt nt n h mult, normal (1 / 2) = Some n -> unitv n ->
  handlerValue normal pt nt None = Some h ->
  unitv h /\ perpv h n /\
  crossHandler normal pt nt (centralValue pt nt h mult) (1 / 2) = Some (h *v ((vnorm pt + vnorm nt) / 2 * mult)).
Proof.
  intros normal pt nt n h mult E U H. unfold handlerValue in H. rewrite E in H. cbn [bind] in H.
  destruct (vdiv pt (vnorm pt)) as [a|]; [|discriminate]. cbn [bind] in H. destruct (vdiv nt (vnorm nt)) as [b|]; [|discriminate]. cbn [bind] in H.
  apply normalize_directs in H. assert (P : perpv h n).
  { assert (X : perpv n h); [|unfold perpv in *; rewrite <- X; unfold vdot; ring]. apply (directs_perp n h _ H).
    pose proof (project_perp n (a +v b) U) as Q. unfold perpv in *. rewrite <- Q. unfold vdot; ring. }
  split; [apply H|]. split; [exact P|]. unfold crossHandler. rewrite E. cbn [bind]. apply (f_equal Some).
  rewrite (project_id n (centralValue pt nt h mult)).
  - unfold centralValue. set (x := projectOut n pt). set (y := projectOut n nt). generalize (vnorm pt) (vnorm nt). intros p q. v3field.
  - unfold perpv, centralValue in *. replace (vdot _ n) with ((vnorm pt + vnorm nt) * / 2 * mult * vdot h n); [rewrite P; ring|].
    unfold vdot, vscale; simpl; ring.
Qed.
Print Assumptions C32_handler_middle.

Lemma dot_cross : forall n t, vdot (vcross n t) n = 0.
Proof. intros; unfold vdot, vcross; simpl; ring. Qed.
Theorem C32_perpendicular : forall normal c k s n t, normal s = Some n -> directs t (cder c s) -> perpv t n ->
  exists x, crossPerpendicular normal c k s = Some x /\ perpv x n.
Proof.
  intros normal c k s n t E (U & Pos & D) P. unfold crossPerpendicular.
  assert (Nz : cder c s <> vzero). { intros Z. rewrite Z in Pos. unfold vnorm, vzero, vdot in Pos; simpl in Pos. replace (0*0+0*0+0*0) with 0 in Pos by ring. rewrite sqrt_0 in Pos. lra. }
  destruct (normalize_some _ Nz) as [t' T]. rewrite T, E. cbn [bind]. eexists; split; [reflexivity|].
  assert (P' : vdot t' n = 0).
  { apply normalize_directs in T. assert (X : perpv n t'); [|unfold perpv in X; rewrite <- X; unfold vdot; ring]. apply (directs_perp n t' _ T). rewrite D.
    unfold perpv in *. replace (vdot n (t *v vnorm (cder c s))) with (vdot t n * vnorm (cder c s)) by (unfold vdot, vscale; simpl; ring). rewrite P; ring. }
  unfold perpv. match goal with |- vdot ((vcross n t' *v ?a +v t' *v ?b) *v ?r) n = 0 => transitivity (r * (a * vdot (vcross n t') n + b * vdot t' n)) end.
  - unfold vdot, vadd, vscale; simpl; ring.
  - rewrite dot_cross, P'. ring.
Qed.
Print Assumptions C32_perpendicular.

(** In the orthonormal frame of the tangent and the normal. *)
Lemma frame_expand : forall n t v, unitv n -> unitv t -> perpv t n -> perpv v n ->
  vcross n t *v vdot v (vcross n t) +v t *v vdot v t = v.
Proof.
  intros n t v N T P V. set (w := v -v (vcross n t *v vdot v (vcross n t) +v t *v vdot v t)).
  unfold unitv, perpv in *.
  assert (B1 : vdot (vcross n t) (vcross n t) = 1).
  { transitivity (vdot n n * vdot t t - vdot t n * vdot t n); [unfold vdot, vcross; simpl; ring|rewrite N, T, P; ring]. }
  assert (D : vdot (vcross n t) (vcross n t) * vdot v v = vdot v v) by (rewrite B1; ring).
  assert (W : vdot w w = 0).
  { assert (G : vdot v v = vdot v n * vdot v n + vdot v t * vdot v t + vdot v (vcross n t) * vdot v (vcross n t)).
    { (* Gram determinant *)
      assert (Gr : vdot v (vcross n t) * vdot v (vcross n t) =
        vdot v v * (vdot n n * vdot t t - vdot n t * vdot n t) - vdot v n * (vdot v n * vdot t t - vdot n t * vdot v t)
        + vdot v t * (vdot v n * vdot n t - vdot n n * vdot v t)) by (unfold vdot, vcross; simpl; ring).
      assert (P2 : vdot n t = 0) by (rewrite <- P; unfold vdot; ring). rewrite Gr, N, T, P2, V. ring. }
    assert (E : vdot w w = vdot v v - 2 * (vdot v (vcross n t) * vdot v (vcross n t) + vdot v t * vdot v t)
      + vdot v (vcross n t) * vdot v (vcross n t) * vdot (vcross n t) (vcross n t) + vdot v t * vdot v t * vdot t t
      + 2 * vdot v (vcross n t) * vdot v t * vdot (vcross n t) t) by (unfold w; generalize (vcross n t); intros b; unfold vdot, vsub, vadd, vscale; simpl; ring).
    assert (Z : vdot (vcross n t) t = 0) by (unfold vdot, vcross; simpl; ring). rewrite E, B1, T, Z, G, V. ring. }
  apply vdot_zero in W. unfold w in W. set (x := vcross n t *v vdot v (vcross n t) +v t *v vdot v t) in *.
  destruct x as [x1 x2 x3], v as [v1 v2 v3]. unfold vsub, vzero in W; simpl in W. injection W as W1 W2 W3. f_equal; lra.
Qed.

Theorem C32_perpendicular_ends : forall normal prev c next k n0 n1,
  perpUpdate normal prev c next = Some k -> normal 0 = Some n0 -> normal 1 = Some n1 ->
  (unitv n0 -> perpv (cder c 0) n0 -> perpv (cder prev 1) n0 ->
   crossPerpendicular normal c k 0 = Some (vopp (cder prev 1))) /\
  (unitv n1 -> perpv (cder c 1) n1 -> perpv (cder next 0) n1 ->
   crossPerpendicular normal c k 1 = Some (cder next 0)).
Proof.
  intros normal prev c next k n0 n1 H E0 E1. unfold perpUpdate in H. rewrite E0, E1 in H.
  destruct (vnormalize (cder c 0)) as [t0|] eqn:T0; [|discriminate]. destruct (vnormalize (cder c 1)) as [t1|] eqn:T1; [|discriminate]. cbn [bind] in H.
  destruct (vdiv (vopp (cder prev 1)) (vnorm (vopp (cder prev 1)))) as [p|] eqn:Dp; [|discriminate].
  destruct (vdiv (cder next 0) (vnorm (cder next 0))) as [q|] eqn:Dq; [|discriminate]. cbn [bind] in H. injection H as <-.
  unfold crossPerpendicular. rewrite T0, T1, E0, E1. cbn [bind pp_norm pn_norm pp_alpha pn_alpha pp_beta pn_beta].
  assert (SymP : forall a b, perpv a b -> perpv b a) by (intros a b Q; unfold perpv in *; rewrite <- Q; unfold vdot; ring).
  apply normalize_directs in T0. apply normalize_directs in T1. apply normalize_directs in Dp. apply normalize_directs in Dq.
  split; intros U Pc Pn; apply (f_equal Some).
  - assert (X := frame_expand n0 t0 p U ltac:(apply T0) ltac:(apply SymP, (directs_perp _ _ _ T0), SymP, Pc)).
    assert (Y : perpv p n0). { apply SymP, (directs_perp _ _ _ Dp). apply SymP in Pn. unfold perpv in *. replace (vdot n0 (vopp (cder prev 1))) with (- vdot n0 (cder prev 1)) by (unfold vdot, vopp; simpl; ring). rewrite Pn; ring. }
    specialize (X Y). destruct Dp as (_ & _ & Dp). apply eq_trans with (p *v vnorm (vopp (cder prev 1))); [|symmetry; exact Dp].
    match goal with |- (?e *v _) = _ => replace e with p end; [generalize (vnorm (vopp (cder prev 1))) (vnorm (cder next 0)); intros a b; v3ring|].
    rewrite <- X at 1. apply (f_equal2 vadd); apply (f_equal2 vscale); try reflexivity; field.
  - assert (X := frame_expand n1 t1 q U ltac:(apply T1) ltac:(apply SymP, (directs_perp _ _ _ T1), SymP, Pc)).
    assert (Y : perpv q n1) by (apply SymP, (directs_perp _ _ _ Dq), SymP, Pn).
    specialize (X Y). destruct Dq as (_ & _ & Dq). apply eq_trans with (q *v vnorm (cder next 0)); [|symmetry; exact Dq].
    match goal with |- (?e *v _) = _ => replace e with q end; [generalize (vnorm (vopp (cder prev 1))) (vnorm (cder next 0)); intros a b; v3ring|].
    rewrite <- X at 1. apply (f_equal2 vadd); apply (f_equal2 vscale); try reflexivity; field.
Qed.
Print Assumptions C32_perpendicular_ends.

(** With the fence computed from the loop the end conditions hold: the
    compatible ribbons have the neighbours' tangents at the corners. *)
Theorem C32_fence : forall eps res prev c next m central, 0 < eps -> (1 <= res)%nat ->
  ribbonUpdate eps res prev c next = Some m ->
  let pt := prevTangent prev in let nt := nextTangent next in
  crossCompatible (rmfEval eps m) pt nt 0 = Some (vopp (cder prev 1)) /\
  crossHandler (rmfEval eps m) pt nt central 0 = Some (vopp (cder prev 1)) /\
  (all_settled eps (rm_frames m) -> (forall f, nth_error (rm_frames m) res = Some f -> fr_u f = 1) ->
   crossCompatible (rmfEval eps m) pt nt 1 = Some (cder next 0) /\
   crossHandler (rmfEval eps m) pt nt central 1 = Some (cder next 0)).
Proof.
  intros eps res prev c next m central Hp Hr H pt nt. destruct (C30_ribbon eps res prev c next m Hp Hr H) as [(n0 & E0 & D0) K].
  assert (P0 : perpv pt n0).
  { apply (directs_perp pt n0 _ D0). unfold pt, prevTangent, perpv, vdot, vopp, vcross; simpl; ring. }
  split; [apply (proj1 (C32_compatible_ends (rmfEval eps m) pt nt n0 n0) E0 P0)|].
  split; [apply (proj1 (C32_handler_ends (rmfEval eps m) pt nt central n0 n0) E0 P0)|].
  intros S L. destruct (K S L) as (n1 & E1 & D1).
  assert (P1 : perpv nt n1) by (apply (directs_perp nt n1 _ D1); unfold nt, nextTangent, perpv, vdot, vcross; simpl; ring).
  split; [apply (proj2 (C32_compatible_ends (rmfEval eps m) pt nt n1 n1) E1 P1)|apply (proj2 (C32_handler_ends (rmfEval eps m) pt nt central n1 n1) E1 P1)].
Qed.
Print Assumptions C32_fence.

(** A constant upward fence: the tangents keep their horizontal parts. *)
Example C32_example :
  let up := fun _ : R => Some (mkV3 0 0 1) in
  crossCompatible up (mkV3 0 1 1) (mkV3 0 2 0) (1 / 2) = Some (mkV3 0 (3 / 2) 0) /\
  crossCompatible up (mkV3 0 1 0) (mkV3 0 2 0) 0 = Some (mkV3 0 1 0) /\
  crossHandler up (mkV3 0 1 0) (mkV3 1 2 0) (mkV3 0 5 7) (1 / 2) = Some (mkV3 0 5 0).
Proof.
  cbv zeta. unfold crossCompatible, crossHandler, projectOut; cbn [bind].
  split; [|split]; apply (f_equal Some); unfold vadd, vsub, vscale, vdot; simpl; f_equal; field.
Qed.

(** ** C60: n-sided ribbons and the perpendicular-polar map *)

(** Let (x, y) be the local coordinates of [uv] on side [i], and u the value of
    x clamped to [0, 1].  The ribbon adds to the curve point at u the vector
    with components x - u and y in the frame of the tangent and the cross
    vector, scaled by the length of the curve.  So beyond the two ends it is a
    plane, attached without a gap. *)
Theorem C60_polar : forall ctr vs d i uv p cv t normal n, domainFrames ctr vs = Some d -> (i < length vs)%nat ->
  vtx vs i <> vtx vs (prv (length vs) i) -> toLocal d i (uv -p vtx vs (prv (length vs) i)) = Some p ->
  let u := clamp (px p) 0 1 in directs t (cder cv u) ->
  exists sd, perpPolarMap d i uv = Some sd /\
    (normal (px sd) = Some n ->
     nsidedEval normal cv sd = Some (cpt cv u +v (t *v (px p - u) +v vcross n t *v py p) *v clen cv 0 1)).
Proof.
  intros ctr vs d i uv p cv t normal n Hd Hi Ne E u T.
  assert (Hs : sidevec vs i <> pzero).
  { intros Z. apply Ne. unfold sidevec, psub, pzero in Z. injection Z as Z1 Z2. destruct (vtx vs i), (vtx vs (prv (length vs) i)); simpl in *. f_equal; lra. }
  destruct (perp_polar_cases ctr vs d i Hd Hi Hs uv p E) as (sd & M & K). exists sd. split; [exact M|]. intros N.
  assert (Tn : vnormalize (cder cv u) = Some t).
  { destruct T as (U & Pos & D). unfold vnormalize. rewrite vdiv_some by lra. apply (f_equal Some). rewrite D at 1.
    unfold vscale; destruct t as [a b c]; simpl; f_equal; field; lra. }
  unfold nsidedEval, crossNSided. rewrite N. cbn [bind].
  assert (Zero : forall q : V2, 0 <= px q <= 1 -> clamp (px q) 0 1 = px q) by (intros q Hq; apply clamp_id; lra).
  destruct K as [[K ->]|[(K & S & C1 & S1)|(K & S & C1 & S1)]].
  - assert (U : u = px p) by (apply Zero; exact K). fold u. rewrite Tn. cbn [bind].
    destruct (Req_EM_T (px p) u) as [_|X]; [|congruence]. apply (f_equal Some). rewrite <- U. generalize (cpt cv u), (vcross n t). intros a b. v3ring.
  - assert (U : u = 0) by (unfold u, clamp; repeat destruct (Rlt_dec _ _); lra).
    assert (U' : clamp (px sd) 0 1 = 0) by (unfold clamp; repeat destruct (Rlt_dec _ _); lra).
    rewrite U'. rewrite U in Tn. rewrite Tn. cbn [bind]. destruct (Req_EM_T (px sd) 0) as [X|_]; [lra|]. destruct (Rlt_dec (px sd) 0) as [_|X]; [|lra].
    apply (f_equal Some). rewrite U. replace (px p - 0) with (px p) by ring. 
    apply (f_equal2 vadd); [reflexivity|]. 
    replace (px p) with (- (sin (- px sd) * py sd)) by lra. rewrite <- C1. generalize (cos (- px sd)) (sin (- px sd)) (py sd) (clen cv 0 1). intros co si y l. v3ring.
  - assert (U : u = 1) by (unfold u, clamp; repeat destruct (Rlt_dec _ _); lra).
    assert (U' : clamp (px sd) 0 1 = 1) by (unfold clamp; repeat destruct (Rlt_dec _ _); lra).
    rewrite U'. rewrite U in Tn. rewrite Tn. cbn [bind]. destruct (Req_EM_T (px sd) 1) as [X|_]; [lra|]. destruct (Rlt_dec (px sd) 0) as [X|_]; [lra|].
    apply (f_equal Some). rewrite U. rewrite <- S1. apply (f_equal2 vadd); [reflexivity|].
    replace (py p) with (- (cos (px sd - 1) * py sd)) by lra. generalize (cos (px sd - 1)) (sin (px sd - 1)) (py sd) (clen cv 0 1). intros co si y l. v3ring.
Qed.
Print Assumptions C60_polar.

(** But the normal is asked for at the (negative) angle, and the computed fence
    has no value there: it steps back from the first frame. *)
Theorem C60_behind : forall ctr vs d i uv p eps res c start stop m, domainFrames ctr vs = Some d -> (i < length vs)%nat ->
  vtx vs i <> vtx vs (prv (length vs) i) -> toLocal d i (uv -p vtx vs (prv (length vs) i)) = Some p -> px p < 0 ->
  rmfUpdate eps res c start stop = Some m ->
  exists sd, perpPolarMap d i uv = Some sd /\ nsidedEval (rmfEval eps m) c sd = None.
Proof.
  intros ctr vs d i uv p eps res c start stop m Hd Hi Ne E Neg Hup.
  assert (Hs : sidevec vs i <> pzero).
  { intros Z. apply Ne. unfold sidevec, psub, pzero in Z. injection Z as Z1 Z2. destruct (vtx vs i), (vtx vs (prv (length vs) i)); simpl in *. f_equal; lra. }
  destruct (perp_polar_cases ctr vs d i Hd Hi Hs uv p E) as (sd & M & K). exists sd. split; [exact M|].
  destruct K as [[K _]|[(K & S & _)|(K & _)]]; try lra.
  unfold nsidedEval, crossNSided. rewrite (C30_eval_negative eps res c start stop m (px sd) Hup S). reflexivity.
Qed.
Print Assumptions C60_behind.

(** The patch is ribbon 3: with less than four sides there is none, and the
    other ribbons have no influence on the value. *)
Theorem C60_surface : forall eps d mults normals cs uv,
  ((length cs <= 3)%nat -> nsidedSurfaceEval eps d mults normals cs uv = None) /\
  (forall normals' cs', nth_error cs 3 = nth_error cs' 3 -> normals 3%nat = normals' 3%nat ->
     nsidedSurfaceEval eps d mults normals cs uv = nsidedSurfaceEval eps d mults normals' cs' uv).
Proof.
  intros eps d mults normals cs uv. unfold nsidedSurfaceEval. split.
  - intros L. destruct (mapM _ _); [|reflexivity]. cbn [bind]. destruct (mapM _ _); [|reflexivity]. cbn [bind]. destruct (blendSideSingular _ _); [|reflexivity]. cbn [bind].
    replace (nth_error cs 3) with (@None curve) by (symmetry; apply nth_error_None; lia). reflexivity.
  - intros normals' cs' Ec En. rewrite Ec, En. reflexivity.
Qed.
Print Assumptions C60_surface.

(** The unit square with a straight base and an upward fence: behind the base
    the ribbon is the domain itself. *)
Example C60_example :
  let vs := [mkV2 1 0; mkV2 1 1; mkV2 0 1; mkV2 0 0] in
  exists d sd, domainFrames (mkV2 (1/2) (1/2)) vs = Some d /\ perpPolarMap d 0 (mkV2 (-1) 1) = Some sd /\
    nsidedEval (fun _ => Some (mkV3 0 0 1)) line sd = Some (mkV3 (-1) 1 0).
Proof.
  intros vs. destruct (domainFrames (mkV2 (1/2) (1/2)) vs) as [d|] eqn:Hd; [|rewrite frames_closed in Hd; discriminate].
  assert (Ne : vtx vs 0 <> vtx vs (prv (length vs) 0)) by (cbn; intros Z; injection Z; lra).
  assert (Hs : sidevec vs 0 <> pzero) by (unfold sidevec; cbn; unfold psub, pzero; simpl; intros Z; injection Z; lra).
  assert (El : toLocal d 0 (mkV2 (-1) 1 -p vtx vs (prv (length vs) 0)) = Some (mkV2 (-1) 1)).
  { rewrite (toLocal_eq _ vs d Hd 0 ltac:(simpl; lia) _ Hs). apply (f_equal Some). unfold frame_dv, sidevec. cbn. 
    destruct (Rlt_dec _ 0) as [Q|Q]; unfold pdot, psub, popp in *; simpl in *; [f_equal; field|exfalso; lra]. }
  destruct (C60_polar _ vs d 0 (mkV2 (-1) 1) (mkV2 (-1) 1) line (mkV3 1 0 0) (fun _ => Some (mkV3 0 0 1)) (mkV3 0 0 1) Hd ltac:(simpl; lia) Ne El) as (sd & M & V).
  { apply normalize_directs. apply line_norm. }
  exists d, sd. split; [reflexivity|]. split; [exact M|]. rewrite (V eq_refl). apply (f_equal Some). cbn [px py line cpt clen].
  replace (clamp (-1) 0 1) with 0 by (unfold clamp; repeat destruct (Rlt_dec _ _); lra).
  unfold vadd, vscale, vcross; simpl; f_equal; ring.
Qed.
