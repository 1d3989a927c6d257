(** Properties of the parameterization of points by the closest triangle: C69. *)
From Verif Require Import Base UtilModel RibbonModel RibbonProofs GBParamModel.
Open Scope R_scope.

(** The point of a triangle with weights [s], [t], [w] (of its vertices or of their parameters). *)
Definition weighed3 (a b c : V3) (s t w : R) : V3 := a *v s +v b *v t +v c *v w.
Definition weighed2 (a b c : V2) (s t w : R) : V2 := a *p s +p b *p t +p c *p w.
Definition in_triangle (a b c p : V3) : Prop :=
  exists s t w, 0 <= s /\ 0 <= t /\ 0 <= w /\ s + t + w = 1 /\ p = weighed3 a b c s t w.
Definition degenerate (a b c : V3) : Prop := vcross (b -v a) (c -v a) = vzero.

Lemma norm_scaled : forall v s, vnorm (v *v s) = Rabs s * vnorm v.
Proof.
  intros v s. unfold vnorm. replace (vdot (v *v s) (v *v s)) with (Rsqr s * vdot v v) by (unfold vdot, Rsqr; cbn; ring).
  rewrite sqrt_mult by (try apply Rle_0_sqr; apply vnorm2_pos). rewrite sqrt_Rsqr_abs. reflexivity.
Qed.

(** Over a triangle with a direction, the code takes the barycentric coordinates of the
    orthogonal projection, without their signs. *)
Theorem C69_formula : forall a b c ua ub uc s t w h, ~ degenerate a b c -> s + t + w = 1 ->
  paramInTriangle a b c ua ub uc (weighed3 a b c s t w +v vcross (b -v a) (c -v a) *v h) =
  Some (weighed2 ua ub uc (Rabs s / (Rabs s + Rabs t + Rabs w)) (Rabs t / (Rabs s + Rabs t + Rabs w)) (Rabs w / (Rabs s + Rabs t + Rabs w))).
Proof.
  intros a b c ua ub uc s t w h ND Sm. unfold paramInTriangle. set (N := vcross (b -v a) (c -v a)). destruct (normalize_some N ND) as [n En]. rewrite En. cbn [bind]. cbv zeta.
  destruct (normalize_inv N n En) as (_ & N0 & ->). assert (Sq := vnorm_sqr N). set (A := vnorm N) in *.
  assert (PA : 0 < A) by (pose proof (vnorm_nonneg N); fold A in H; lra).
  assert (Q : weighed3 a b c s t w +v N *v h +v N *v / A *v vdot (a -v (weighed3 a b c s t w +v N *v h)) (N *v / A) = weighed3 a b c s t w).
  { replace (vdot (a -v (weighed3 a b c s t w +v N *v h)) (N *v / A)) with (- h * A).
    - v3field; exact N0.
    - replace (vdot (a -v (weighed3 a b c s t w +v N *v h)) (N *v / A)) with (vdot (a -v weighed3 a b c s t w) N / A - h * (vdot N N) / A) by (unfold vdot, Rdiv; cbn; ring).
      rewrite <- Sq. replace (vdot (a -v weighed3 a b c s t w) N) with 0; [field; exact N0|].
      replace s with (1 - t - w) by lra. unfold N, weighed3, vdot. cbn. ring. }
  rewrite Q. clear Q. set (q := weighed3 a b c s t w).
  assert (X : vcross (b -v q) (c -v q) = N *v s) by (unfold q, N, weighed3; replace s with (1 - t - w) by lra; v3ring).
  assert (Y : vcross (a -v q) (c -v q) = N *v (- t)) by (unfold q, N, weighed3; replace s with (1 - t - w) by lra; v3ring).
  assert (Z : vcross (a -v q) (b -v q) = N *v w) by (unfold q, N, weighed3; replace s with (1 - t - w) by lra; v3ring).
  rewrite X, Y, Z, !norm_scaled, Rabs_Ropp. fold A.
  assert (P : 0 < Rabs s + Rabs t + Rabs w).
  { pose proof (Rle_abs s). pose proof (Rle_abs t). pose proof (Rle_abs w). lra. }
  unfold pdiv. destruct (Req_EM_T _ 0) as [E|_].
  - exfalso. assert (0 < (Rabs s + Rabs t + Rabs w) * A) by (apply Rmult_lt_0_compat; assumption). lra.
  - f_equal. replace (Rabs s * A + Rabs t * A + Rabs w * A) with ((Rabs s + Rabs t + Rabs w) * A) by ring. set (T := Rabs s + Rabs t + Rabs w) in *. unfold weighed2, pscale, padd. cbn. f_equal; field; split; lra.
Qed.
Print Assumptions C69_formula.

(** So a point over the triangle gets the parameter of its projection, exactly. *)
Theorem C69_over : forall a b c ua ub uc s t w h, ~ degenerate a b c -> s + t + w = 1 -> 0 <= s -> 0 <= t -> 0 <= w ->
  paramInTriangle a b c ua ub uc (weighed3 a b c s t w +v vcross (b -v a) (c -v a) *v h) = Some (weighed2 ua ub uc s t w).
Proof.
  intros a b c ua ub uc s t w h ND Sm Hs Ht Hw. rewrite C69_formula by assumption. rewrite !Rabs_pos_eq by assumption. rewrite Sm. unfold Rdiv. rewrite Rinv_1, !Rmult_1_r. reflexivity.
Qed.
Print Assumptions C69_over.

(** Every point has such coordinates; the parameter is always one of the triangle of the
    parameters, wherever the point is. *)
Lemma coordinates : forall a b c p, ~ degenerate a b c -> exists s t w h, s + t + w = 1 /\ p = weighed3 a b c s t w +v vcross (b -v a) (c -v a) *v h.
Proof.
  intros a b c p ND. set (N := vcross (b -v a) (c -v a)). assert (D : vdot N N <> 0) by (intros Z; apply ND; apply vdot_zero; exact Z).
  set (t := vdot (vcross (p -v a) (c -v a)) N / vdot N N). set (w := vdot (vcross (b -v a) (p -v a)) N / vdot N N). set (h := vdot (p -v a) N / vdot N N).
  exists (1 - t - w), t, w, h. split; [ring|].
  assert (E : (p -v a) *v vdot N N = (b -v a) *v vdot (vcross (p -v a) (c -v a)) N +v (c -v a) *v vdot (vcross (b -v a) (p -v a)) N +v N *v vdot (p -v a) N).
  { unfold N. generalize (p -v a) (b -v a) (c -v a). intros [x y z] [x1 y1 z1] [x2 y2 z2]. unfold vdot, vcross. v3ring. }
  assert (E2 : p -v a = ((b -v a) *v vdot (vcross (p -v a) (c -v a)) N +v (c -v a) *v vdot (vcross (b -v a) (p -v a)) N +v N *v vdot (p -v a) N) *v / vdot N N).
  { rewrite <- E. v3field; exact D. }
  replace p with (a +v (p -v a)) at 1 by v3ring. rewrite E2. unfold weighed3, t, w, h, Rdiv. v3ring.
Qed.

Theorem C69_convex : forall a b c ua ub uc p, ~ degenerate a b c ->
  exists uv s t w, paramInTriangle a b c ua ub uc p = Some uv /\ uv = weighed2 ua ub uc s t w /\ 0 <= s /\ 0 <= t /\ 0 <= w /\ s + t + w = 1.
Proof.
  intros a b c ua ub uc p ND. destruct (coordinates a b c p ND) as (s & t & w & h & Sm & ->). rewrite C69_formula by assumption.
  pose proof (Rabs_pos s). pose proof (Rabs_pos t). pose proof (Rabs_pos w). assert (P : 0 < Rabs s + Rabs t + Rabs w).
  { pose proof (Rle_abs s). pose proof (Rle_abs t). pose proof (Rle_abs w). lra. }
  eexists. exists (Rabs s / (Rabs s + Rabs t + Rabs w)), (Rabs t / (Rabs s + Rabs t + Rabs w)), (Rabs w / (Rabs s + Rabs t + Rabs w)).
  split; [reflexivity|]. split; [reflexivity|]. repeat split; try (apply Rmult_le_pos; [assumption|left; apply Rinv_0_lt_compat; exact P]). field. lra.
Qed.
Print Assumptions C69_convex.

(** Beside the triangle this is not the parameter of the nearest point of the triangle:
    beyond the side opposite to [a], the result moves back towards [ua]. *)
Theorem C69_beside : forall a b c ua ub uc e h, ~ degenerate a b c -> 0 < e ->
  paramInTriangle a b c ua ub uc (weighed3 a b c (- e) ((1 + e) / 2) ((1 + e) / 2) +v vcross (b -v a) (c -v a) *v h) =
  Some (weighed2 ua ub uc (e / (1 + 2 * e)) ((1 + e) / (2 * (1 + 2 * e))) ((1 + e) / (2 * (1 + 2 * e)))).
Proof.
  intros a b c ua ub uc e h ND He. rewrite C69_formula; [|exact ND|field]. rewrite Rabs_Ropp, !Rabs_pos_eq by lra. do 2 f_equal; field; lra.
Qed.
Print Assumptions C69_beside.

(** Triangles without area give no parameter at all. *)
Theorem C69_degenerate : forall a b c ua ub uc p, degenerate a b c -> paramInTriangle a b c ua ub uc p = None.
Proof.
  intros a b c ua ub uc p D. unfold paramInTriangle. rewrite D. unfold vnormalize, vdiv. destruct (Req_EM_T (vnorm vzero) 0) as [_|N]; [reflexivity|].
  exfalso. apply N. unfold vnorm. replace (vdot vzero vzero) with 0 by (unfold vdot; cbn; ring). apply sqrt_0.
Qed.
Print Assumptions C69_degenerate.

(** ** The whole function

    [closest] finds a triangle of the mesh than which no triangle is closer. *)
Definition finds_closest (vertices : list V3) (tris : list (nat * nat * nat)) (closest : V3 -> nat * nat * nat) : Prop :=
  forall p, In (closest p) tris /\
    forall i j k a b c x, In (i, j, k) tris -> nth_error vertices i = Some a -> nth_error vertices j = Some b -> nth_error vertices k = Some c ->
      in_triangle a b c x ->
      exists i' j' k' a' b' c' x', closest p = (i', j', k') /\ nth_error vertices i' = Some a' /\ nth_error vertices j' = Some b' /\ nth_error vertices k' = Some c' /\
        in_triangle a' b' c' x' /\ vnorm (p -v x') <= vnorm (p -v x).
(** [p] is on the mesh at the parameter [uv]: both have the same weights in some triangle. *)
Definition mesh_at (vertices : list V3) (params : list V2) (tris : list (nat * nat * nat)) (p : V3) (uv : V2) : Prop :=
  exists i j k a b c ua ub uc s t w, In (i, j, k) tris /\
    nth_error vertices i = Some a /\ nth_error vertices j = Some b /\ nth_error vertices k = Some c /\
    nth_error params i = Some ua /\ nth_error params j = Some ub /\ nth_error params k = Some uc /\
    0 <= s /\ 0 <= t /\ 0 <= w /\ s + t + w = 1 /\ p = weighed3 a b c s t w /\ uv = weighed2 ua ub uc s t w.
Definition sound_mesh (vertices : list V3) (params : list V2) (tris : list (nat * nat * nat)) : Prop :=
  length params = length vertices /\
  forall i j k, In (i, j, k) tris -> exists a b c, nth_error vertices i = Some a /\ nth_error vertices j = Some b /\ nth_error vertices k = Some c /\ ~ degenerate a b c.

(** Points of the mesh get parameters at which the mesh has these points. *)
Theorem C69_on_mesh : forall vertices params tris closest points, sound_mesh vertices params tris -> finds_closest vertices tris closest ->
  (forall p, In p points -> exists uv, mesh_at vertices params tris p uv) ->
  exists uvs, parameterizePoints closest vertices params points = Some uvs /\ Forall2 (mesh_at vertices params tris) points uvs.
Proof.
  intros vertices params tris closest points [Len Snd] Cl. unfold parameterizePoints. induction points as [|p points IH]; intros H; [exists []; split; [reflexivity|constructor]|].
  destruct IH as (uvs & E & F); [intros x I; apply H; right; exact I|]. cbn [mapM].
  assert (One : exists uv, (let '(i, j, k) := closest p in a <- nth_error vertices i ;; b <- nth_error vertices j ;; c <- nth_error vertices k ;;
    ua <- nth_error params i ;; ub <- nth_error params j ;; uc <- nth_error params k ;; paramInTriangle a b c ua ub uc p) = Some uv /\ mesh_at vertices params tris p uv).
  { destruct (H p (or_introl eq_refl)) as (uv0 & i & j & k & a & b & c & ua & ub & uc & s & t & w & I & Ea & Eb & Ec & _ & _ & _ & Hs & Ht & Hw & Sm & Ep & _).
    destruct (Cl p) as [Ic Near]. destruct (Near i j k a b c p I Ea Eb Ec) as (i' & j' & k' & a' & b' & c' & x & Eq & Ea' & Eb' & Ec' & (s' & t' & w' & Hs' & Ht' & Hw' & Sm' & Ex) & Le).
    { exists s, t, w. repeat split; assumption. }
    assert (Xp : x = p).
    { assert (Z : vnorm (p -v p) = 0) by (unfold vnorm; replace (vdot (p -v p) (p -v p)) with 0 by (unfold vdot; cbn; ring); apply sqrt_0).
      pose proof (vnorm_nonneg (p -v x)). assert (V : vnorm (p -v x) = 0) by lra. apply vnorm_zero in V. injection V as V1 V2 V3. apply V3_ext; lra. }
    rewrite Xp in Ex. rewrite Eq in Ic |- *. destruct (Snd i' j' k' Ic) as (a2 & b2 & c2 & Q1 & Q2 & Q3 & ND).
    assert (a2 = a') by congruence. assert (b2 = b') by congruence. assert (c2 = c') by congruence. subst a2 b2 c2.
    assert (Lk : forall m v, nth_error vertices m = Some v -> exists u, nth_error params m = Some u).
    { intros m v Q. destruct (nth_error params m) as [u|] eqn:U; [exists u; reflexivity|]. exfalso. apply nth_error_None in U.
      assert (m < length vertices)%nat by (apply nth_error_Some; congruence). lia. }
    destruct (Lk _ _ Ea') as [ua' Ua]. destruct (Lk _ _ Eb') as [ub' Ub]. destruct (Lk _ _ Ec') as [uc' Uc].
    rewrite Ea', Eb', Ec', Ua, Ub, Uc. cbn [bind]. exists (weighed2 ua' ub' uc' s' t' w'). split.
    - clear Ep. rewrite Ex. replace (weighed3 a' b' c' s' t' w') with (weighed3 a' b' c' s' t' w' +v vcross (b' -v a') (c' -v a') *v 0) by v3ring. apply C69_over; assumption.
    - exists i', j', k', a', b', c', ua', ub', uc', s', t', w'. repeat (split; [assumption|]); reflexivity. }
  destruct One as (uv & E1 & M). rewrite E1. cbn [bind]. rewrite E. cbn [bind]. exists (uv :: uvs). split; [reflexivity|]. constructor; assumption.
Qed.
Print Assumptions C69_on_mesh.

(** On a flat mesh, the image of its parameters under an affine map, this finds the
    parameters that were mapped. *)
Theorem C69_flat : forall vertices params tris closest uvs o e f, sound_mesh vertices params tris -> finds_closest vertices tris closest ->
  let image (u : V2) := o +v e *v px u +v f *v py u in
  vertices = map image params -> vcross e f <> vzero ->
  (forall uv, In uv uvs -> mesh_at vertices params tris (image uv) uv) ->
  parameterizePoints closest vertices params (map image uvs) = Some uvs.
Proof.
  intros vertices params tris closest uvs o e f Sm Cl image Ev Ne H.
  destruct (C69_on_mesh vertices params tris closest (map image uvs) Sm Cl) as (r & E & F).
  { intros p I. apply in_map_iff in I. destruct I as (uv & <- & I). exists uv. apply H; exact I. }
  rewrite E. f_equal. clear E H.
  assert (Inj : forall u v, image u = image v -> u = v).
  { intros u v Q. assert (Z : e *v (px u - px v) +v f *v (py u - py v) = vzero).
    { replace vzero with (image u -v image v) by (rewrite Q; v3ring). unfold image. v3ring. }
    assert (Z1 : vcross e f *v (px u - px v) = vzero).
    { replace (vcross e f *v (px u - px v)) with (vcross (e *v (px u - px v) +v f *v (py u - py v)) f) by (unfold vcross; v3ring). rewrite Z. unfold vcross. v3ring. }
    assert (Z2 : vcross e f *v (py u - py v) = vzero).
    { replace (vcross e f *v (py u - py v)) with (vcross e (e *v (px u - px v) +v f *v (py u - py v))) by (unfold vcross; v3ring). rewrite Z. unfold vcross. v3ring. }
    assert (K : forall m s, m <> vzero -> m *v s = vzero -> s = 0).
    { intros m s N Q2. destruct (Req_dec s 0) as [|S0]; [assumption|]. exfalso. apply N. replace m with (m *v s *v / s) by (v3field; exact S0). rewrite Q2. v3ring. }
    apply K in Z1; [|exact Ne]. apply K in Z2; [|exact Ne]. destruct u as [u1 u2], v as [v1 v2]. cbn in *. f_equal; lra. }
  assert (At : forall p uv, mesh_at vertices params tris p uv -> p = image uv).
  { intros p uv (i & j & k & a & b & c & ua & ub & uc & s & t & w & _ & Ea & Eb & Ec & Ua & Ub & Uc & _ & _ & _ & S1 & -> & ->).
    rewrite Ev in Ea, Eb, Ec. rewrite nth_error_map, Ua in Ea. rewrite nth_error_map, Ub in Eb. rewrite nth_error_map, Uc in Ec. injection Ea as <-. injection Eb as <-. injection Ec as <-.
    unfold image, weighed3, weighed2. replace s with (1 - t - w) by lra. v3ring. }
  revert r F. induction uvs as [|uv uvs IH]; intros r F; inversion F as [|? u ? r' M F']; subst; [reflexivity|]. f_equal; [|apply IH; exact F'].
  apply Inj. symmetry. apply At. exact M.
Qed.
Print Assumptions C69_flat.

(** A square of two triangles in a slanted plane, and a point of its diagonal. *)
Example C69_example :
  let params := [mkV2 0 0; mkV2 1 0; mkV2 1 1; mkV2 0 1] in
  let image (u : V2) := mkV3 1 0 0 +v mkV3 1 0 1 *v px u +v mkV3 0 2 0 *v py u in
  parameterizePoints (fun _ => (0, 1, 2)%nat) (map image params) params [mkV3 (5/4) (1/2) (1/4)] = Some [mkV2 (1/4) (1/4)] /\
  parameterizePoints (fun _ => (0, 1, 2)%nat) (map image params) params [image (mkV2 2 (1/2)) +v mkV3 7 0 (-7)] = Some [mkV2 (2/3) (1/6)].
Proof.
  cbv zeta. unfold parameterizePoints. cbn [mapM map nth_error bind].
  assert (ND : ~ degenerate (mkV3 1 0 0) (mkV3 2 0 1) (mkV3 2 2 1)).
  { intros D. unfold degenerate, vcross in D. cbn in D. injection D as D1 D2 D3. lra. }
  match goal with |- context [paramInTriangle ?a ?b ?c] => replace a with (mkV3 1 0 0) by v3ring; replace b with (mkV3 2 0 1) by v3ring; replace c with (mkV3 2 2 1) by v3ring end.
  split.
  - replace (mkV3 (5/4) (1/2) (1/4)) with (weighed3 (mkV3 1 0 0) (mkV3 2 0 1) (mkV3 2 2 1) (3/4) 0 (1/4) +v vcross (mkV3 2 0 1 -v mkV3 1 0 0) (mkV3 2 2 1 -v mkV3 1 0 0) *v 0)
      by (unfold weighed3; v3field).
    rewrite C69_over by (try exact ND; lra). cbn [bind]. do 2 f_equal. unfold weighed2, padd, pscale. cbn. f_equal; field.
  - match goal with |- context [paramInTriangle _ _ _ _ _ _ ?p] =>
      replace p with (weighed3 (mkV3 1 0 0) (mkV3 2 0 1) (mkV3 2 2 1) (-1) (3/2) (1/2) +v vcross (mkV3 2 0 1 -v mkV3 1 0 0) (mkV3 2 2 1 -v mkV3 1 0 0) *v (-7/2))
      by (unfold weighed3, vcross; v3field) end.
    rewrite C69_formula by (try exact ND; lra). cbn [bind]. rewrite (Rabs_left (-1)) by lra. rewrite !Rabs_pos_eq by lra. do 2 f_equal. unfold weighed2, padd, pscale. cbn. f_equal; field.
Qed.
