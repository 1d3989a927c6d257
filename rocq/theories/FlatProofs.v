(** Patches of plane boundary curves: proofs. *)
Require Import Verif.Base Verif.UtilModel Verif.RibbonModel Verif.SurfaceModel Verif.SurfaceObj Verif.FlatSpec Verif.MoveSpec Verif.RibbonProofs.
Require Import FunctionalExtensionality.
Open Scope R_scope.

Lemma along_add : forall N a b, along N a -> along N b -> along N (a +v b).
Proof. unfold along. intros N a b A B. replace (vdot N (a +v b)) with (vdot N a + vdot N b) by (unfold vdot; simpl; ring). lra. Qed.
Lemma along_sub : forall N a b, along N a -> along N b -> along N (a -v b).
Proof. unfold along. intros N a b A B. replace (vdot N (a -v b)) with (vdot N a - vdot N b) by (unfold vdot; simpl; ring). lra. Qed.
Lemma along_scale : forall N a k, along N a -> along N (a *v k).
Proof. unfold along. intros N a k A. replace (vdot N (a *v k)) with (vdot N a * k) by (unfold vdot; simpl; ring). rewrite A. ring. Qed.
Lemma along_opp : forall N a, along N a -> along N (vopp a).
Proof. unfold along. intros N a A. replace (vdot N (vopp a)) with (- vdot N a) by (unfold vdot; simpl; ring). rewrite A. ring. Qed.
Lemma along_diff : forall N h a b, in_plane N h a -> in_plane N h b -> along N (a -v b).
Proof. unfold in_plane, along. intros N h a b A B. replace (vdot N (a -v b)) with (vdot N a - vdot N b) by (unfold vdot; simpl; ring). lra. Qed.
Lemma along_div : forall N a k b, along N a -> vdiv a k = Some b -> along N b.
Proof. intros N a k b A E. unfold vdiv in E. destruct (Req_EM_T k 0); [discriminate|]. injection E as <-. apply along_scale, A. Qed.
Lemma along_normalize : forall N a b, along N a -> vnormalize a = Some b -> along N b.
Proof. intros N a b A E. unfold vnormalize in E. apply (along_div N a _ b A E). Qed.

Section Plane.
Variables (N : V3) (h : R).
Hypothesis NN : vdot N N = 1.

(** Vectors perpendicular to two independent directions of the plane. *)
Lemma cross_normal : forall a b, along N a -> along N b -> vcross a b = N *v vdot N (vcross a b).
Proof.
  intros a b A B.
  assert (K : vcross (vcross N (vcross a b)) N = vcross a b *v vdot N N -v N *v vdot N (vcross a b)) by (unfold vcross, vdot; apply V3_ext; simpl; ring).
  assert (Z : vcross N (vcross a b) = a *v vdot N b -v b *v vdot N a) by (unfold vcross, vdot; apply V3_ext; simpl; ring).
  unfold along in A, B. rewrite A, B in Z. rewrite NN, Z in K. transitivity (vcross (a *v 0 -v b *v 0) N +v N *v vdot N (vcross a b)); [rewrite K; v3ring|].
  unfold vcross at 1. apply V3_ext; simpl; ring.
Qed.
Lemma normalize_normal : forall k n, k <> 0 -> vnormalize (N *v k) = Some n -> n = N *v (if Rlt_dec 0 k then 1 else -1).
Proof.
  intros k n K E. unfold vnormalize in E. replace (vnorm (N *v k)) with (Rabs k) in E.
  2:{ unfold vnorm. replace (vdot (N *v k) (N *v k)) with (vdot N N * (k * k)) by (unfold vdot; simpl; ring). rewrite NN, Rmult_1_l. rewrite sqrt_Rsqr_abs' || (fold (Rsqr k); rewrite sqrt_Rsqr_abs; reflexivity). }
  unfold vdiv in E. destruct (Req_EM_T (Rabs k) 0) as [Z|Z]; [discriminate|]. injection E as <-. destruct (Rlt_dec 0 k).
  - rewrite Rabs_right by lra. apply V3_ext; simpl; field; lra.
  - rewrite Rabs_left by lra. apply V3_ext; simpl; field; lra.
Qed.
Lemma corner_normal : forall c c' n, flat_curve N h c -> flat_curve N h c' -> vnormalize (vcross (cder c 1) (cder c' 0)) = Some n ->
  corner_turn N c c' <> 0 -> n = N *v (if Rlt_dec 0 (corner_turn N c c') then 1 else -1).
Proof.
  intros c c' n F F' E K. rewrite (cross_normal (cder c 1) (cder c' 0)) in E by (apply F || apply F'). apply (normalize_normal _ _ K E).
Qed.

(** Frames of a plane curve. *)
Definition flat_frame (k : R) (f : frame) : Prop := in_plane N h (fr_p f) /\ along N (fr_d f) /\ fr_n f = N *v k.
Lemma frame_step : forall eps c k f u f', flat_curve N h c -> flat_frame k f -> nextFrame eps c f u = Some f' -> flat_frame k f'.
Proof.
  intros eps c k f u f' F (A & B & C) E. unfold nextFrame in E. destruct (Rlt_dec _ eps) in E; [injection E as <-; repeat split; assumption|].
  destruct (vnormalize (cder c u)) as [t|] eqn:Et; [|discriminate]. cbn [bind] in E.
  assert (T : along N t) by (apply (along_normalize N (cder c u)); [apply F|exact Et]).
  assert (V : along N (cpt c u -v fr_p f)) by (apply (along_diff N h); [apply F|exact A]).
  destruct (vdiv _ _) as [v2|] eqn:Ev in E; [|discriminate]. cbn [bind] in E.
  assert (V2 : along N v2) by (apply (along_div N _ _ _ (along_scale N _ 2 V) Ev)).
  assert (Z : forall x, along N x -> vdot x (N *v k) = 0). { unfold along. intros x X. replace (vdot x (N *v k)) with (vdot N x * k) by (unfold vdot; simpl; ring). rewrite X. ring. }
  rewrite C, (Z _ V) in E. replace (N *v k -v v2 *v 0) with (N *v k) in E by v3ring.
  assert (W : along N (t -v (fr_d f -v v2 *v vdot (cpt c u -v fr_p f) (fr_d f)))) by (apply along_sub; [exact T|apply along_sub; [exact B|apply along_scale, V2]]).
  rewrite (Z _ W) in E.
  destruct (Rlt_dec _ eps) in E; cbn [bind] in E.
  - injection E as <-. (split; [apply F|split; [exact T|reflexivity]]).
  - destruct (vdiv _ _) as [w2|] in E; [|discriminate]. cbn [bind] in E. injection E as <-. split; [apply F|split; [exact T|]]. cbn [fr_n]. v3ring.
Qed.
Lemma frames_flat : forall eps c res k0 k i f l, flat_curve N h c -> flat_frame k0 f -> frameLoop eps c res k i f = Some l -> Forall (flat_frame k0) l.
Proof.
  intros eps c res k0 k. induction k as [|k IH]; intros i f l F A E; cbn [frameLoop] in E; [injection E as <-; constructor; [exact A|constructor]|].
  destruct (nextFrame eps c f (INR i / INR res)) as [f'|] eqn:Ef; [|discriminate]. cbn [bind] in E. destruct (frameLoop eps c res k (S i) f') as [l'|] eqn:El; [|discriminate]. cbn [bind] in E. injection E as <-.
  constructor; [exact A|]. apply (IH (S i) f' l' F); [apply (frame_step eps c k0 f _ f' F A Ef)|exact El].
Qed.
Lemma rmf_flat : forall eps res c k stop m, flat_curve N h c -> rmfUpdate eps res c (N *v k) stop = Some m ->
  rm_curve m = c /\ Forall (flat_frame k) (rm_frames m) /\ exists f, nth_error (rm_frames m) res = Some f /\ fdiv (endAngle stop f) (fr_s f) = Some (rm_angle m).
Proof.
  intros eps res c k stop m F E. unfold rmfUpdate in E. destruct (firstFrame c (N *v k)) as [f0|] eqn:E0; [|discriminate]. cbn [bind] in E.
  destruct (frameLoop eps c res res 1 f0) as [l|] eqn:El; [|discriminate]. cbn [bind] in E. destruct (nth_error l res) as [f|] eqn:Ef; [|discriminate]. cbn [bind] in E.
  destruct (fdiv (endAngle stop f) (fr_s f)) as [a|] eqn:Ea; [|discriminate]. cbn [bind] in E. injection E as <-. cbn [rm_curve rm_frames rm_angle].
  split; [reflexivity|]. split; [|exists f; split; assumption]. apply (frames_flat eps c res k res 1 f0 l F); [|exact El].
  unfold firstFrame in E0. destruct (vnormalize (cder c 0)) as [t|] eqn:Et; [|discriminate]. cbn [bind] in E0. injection E0 as <-. split; [apply F|]. split; [|reflexivity].
  cbn [fr_d]. apply (along_normalize N (cder c 0)); [apply F|exact Et].
Qed.
Lemma eval_flat : forall eps m k u n, flat_curve N h (rm_curve m) -> Forall (flat_frame k) (rm_frames m) -> rmfEval eps m u = Some n ->
  exists f, flat_frame k f /\ n = applyMatrix (rotationMatrix (fr_d f) (fr_s f * rm_angle m)) (N *v k).
Proof.
  intros eps m k u n F A E. unfold rmfEval in E. destruct (upperBound u (rm_frames m)) as [|i]; [discriminate|].
  destruct (nth_error (rm_frames m) i) as [f0|] eqn:E0; [|discriminate]. cbn [bind] in E. destruct (nextFrame eps (rm_curve m) f0 u) as [f|] eqn:Ef; [|discriminate]. cbn [bind] in E.
  assert (A0 : flat_frame k f0) by (rewrite Forall_forall in A; apply A; apply nth_error_In with i; exact E0).
  assert (A1 := frame_step eps _ k f0 u f F A0 Ef). exists f. split; [exact A1|]. injection E as <-. cbn [rotateFrame fr_n]. destruct A1 as (_ & _ & ->). reflexivity.
Qed.
Lemma angle_same : forall k f, k * k = 1 -> flat_frame k f -> endAngle (N *v k) f = 0.
Proof.
  intros k f K (_ & _ & C). unfold endAngle. rewrite C. replace (vdot (N *v k) (N *v k)) with (vdot N N * (k * k)) by (unfold vdot; simpl; ring). rewrite NN, K, Rmult_1_l, clamp_id by lra. rewrite acos_1. destruct (Rlt_dec _ 0); ring.
Qed.
(** Both corners of the side turn to the same side: the normals are constant. *)
Lemma normal_same : forall eps res prev c next m, flat_curve N h prev -> flat_curve N h c -> flat_curve N h next ->
  0 < corner_turn N prev c * corner_turn N c next -> ribbonUpdate eps res prev c next = Some m ->
  rm_curve m = c /\ forall u n, rmfEval eps m u = Some n -> n = N *v (if Rlt_dec 0 (corner_turn N prev c) then 1 else -1).
Proof.
  intros eps res prev c next m Fp F Fn T E. unfold ribbonUpdate in E. destruct (vnormalize (vcross (cder prev 1) (cder c 0))) as [a|] eqn:Ea; [|discriminate]. cbn [bind] in E.
  destruct (vnormalize (vcross (cder c 1) (cder next 0))) as [b|] eqn:Eb; [|discriminate]. cbn [bind] in E.
  assert (T1 : corner_turn N prev c <> 0) by (intros Z; rewrite Z in T; lra). assert (T2 : corner_turn N c next <> 0) by (intros Z; rewrite Z in T; lra).
  rewrite (corner_normal prev c a Fp F Ea T1) in E. rewrite (corner_normal c next b F Fn Eb T2) in E.
  set (k := if Rlt_dec 0 (corner_turn N prev c) then 1 else -1) in *.
  assert (K2 : (if Rlt_dec 0 (corner_turn N c next) then 1 else -1) = k). { unfold k. destruct (Rlt_dec 0 (corner_turn N prev c)), (Rlt_dec 0 (corner_turn N c next)); try reflexivity; nra. }
  rewrite K2 in E. assert (KK : k * k = 1) by (unfold k; destruct (Rlt_dec _ _); ring).
  destruct (rmf_flat eps res c k (N *v k) m F E) as (Rc & Rf & f & Ef & Ra). split; [exact Rc|]. intros u n En.
  assert (Z : rm_angle m = 0). { rewrite (angle_same k f KK) in Ra by (rewrite Forall_forall in Rf; apply Rf; apply nth_error_In with res; exact Ef). unfold fdiv in Ra. destruct (Req_EM_T (fr_s f) 0); [discriminate|]. injection Ra as <-. unfold Rdiv. ring. }
  destruct (eval_flat eps m k u n ltac:(rewrite Rc; exact F) Rf En) as (f' & _ & ->). rewrite Z, Rmult_0_r, rotate_general, cos_0, sin_0. v3ring.
Qed.

(** Cross derivatives. *)
Lemma project_flat : forall k v, k * k = 1 -> along N (projectOut (N *v k) v).
Proof.
  intros k v K. unfold projectOut, along. replace (vdot N (v -v N *v k *v vdot v (N *v k))) with (vdot N v - vdot N N * (k * k) * vdot N v) by (unfold vdot; simpl; ring). rewrite NN, K. ring.
Qed.
Lemma cross_along : forall k d, along N (vcross (N *v k) d).
Proof. intros k d. unfold along, vdot, vcross; simpl; ring. Qed.
Lemma cross_flat : forall kd eps res prev c next mult hd d s x, flat_curve N h prev -> flat_curve N h c -> flat_curve N h next ->
  0 < corner_turn N prev c * corner_turn N c next -> ribDerive kd eps res prev c next mult hd None = Some d -> ribCross kd eps c None d s = Some x -> along N x.
Proof.
  intros kd eps res prev c next mult hd d s x Fp F Fn T E X. unfold ribDerive in E. destruct (ribbonUpdate eps res prev c next) as [m|] eqn:Em; [|discriminate]. cbn [bind] in E.
  destruct (normal_same eps res prev c next m Fp F Fn T Em) as [Rc Nm]. set (k := if Rlt_dec 0 (corner_turn N prev c) then 1 else -1) in *. assert (KK : k * k = 1) by (unfold k; destruct (Rlt_dec _ _); ring).
  assert (M : mkRmf c (rm_frames m) (rm_angle m) = m) by (rewrite <- Rc; destruct m; reflexivity).
  destruct kd.
  - injection E as <-. unfold ribCross in X. cbn [rd_frames rd_angle rd_pt rd_nt] in X. rewrite M in X. unfold crossCompatible, normalOf in X. cbn [bind] in X. destruct (rmfEval eps m s) as [n|] eqn:En; [|discriminate]. cbn [bind] in X. rewrite (Nm s n En) in X. injection X as <-.
    apply along_add; apply along_scale, project_flat, KK.
  - destruct (handlerValue _ _ _ _) as [hv|] in E; [|discriminate]. cbn [bind] in E. injection E as <-. unfold ribCross in X. cbn [rd_frames rd_angle rd_pt rd_nt rd_central] in X. rewrite M in X. unfold crossHandler, normalOf in X. cbn [bind] in X. destruct (rmfEval eps m s) as [n|] eqn:En; [|discriminate]. cbn [bind] in X. rewrite (Nm s n En) in X. injection X as <-.
    repeat apply along_add; repeat apply along_scale; apply project_flat, KK.
  - destruct (perpUpdate _ _ _ _) as [p|] in E; [|discriminate]. cbn [bind] in E. injection E as <-. unfold ribCross in X. cbn [rd_frames rd_angle rd_perp bind] in X. rewrite M in X. unfold crossPerpendicular, normalOf in X. cbn [bind] in X.
    destruct (vnormalize (cder c s)) as [t|] eqn:Et; [|discriminate]. cbn [bind] in X. destruct (rmfEval eps m s) as [n|] eqn:En; [|discriminate]. cbn [bind] in X. rewrite (Nm s n En) in X. injection X as <-.
    apply along_scale, along_add; apply along_scale; [apply cross_along|]. apply (along_normalize N (cder c s)); [apply F|exact Et].
Qed.
Lemma nsided_flat : forall eps res prev c next m s x, flat_curve N h prev -> flat_curve N h c -> flat_curve N h next ->
  0 < corner_turn N prev c * corner_turn N c next -> ribbonUpdate eps res prev c next = Some m -> crossNSided (rmfEval eps m) c s = Some x -> along N x.
Proof.
  intros eps res prev c next m s x Fp F Fn T Em X. destruct (normal_same eps res prev c next m Fp F Fn T Em) as [Rc Nm]. set (k := if Rlt_dec 0 (corner_turn N prev c) then 1 else -1) in *.
  unfold crossNSided in X. destruct (rmfEval eps m s) as [n|] eqn:En; [|discriminate]. cbn [bind] in X. rewrite (Nm s n En) in X. destruct (vnormalize (cder c (clamp s 0 1))) as [d|] eqn:Ed; [|discriminate]. cbn [bind] in X.
  assert (D : along N d) by (apply (along_normalize N (cder c (clamp s 0 1))); [apply F|exact Ed]).
  assert (CO : forall y, along N (vcross y (N *v k))) by (intros y; unfold along, vdot, vcross; simpl; ring).
  destruct (Req_EM_T s (clamp s 0 1)); injection X as <-; [apply cross_along|]. apply along_add; apply along_scale; [apply CO|]. destruct (Rlt_dec s 0); [apply along_scale|]; exact D.
Qed.

(** ** Loops *)
Lemma made_flat : forall kd eps res cs sf, flat_loop N h cs -> made_from kd eps res cs sf -> flat_surf N h sf.
Proof.
  intros kd eps res cs sf (FC & T) (En & Lr & Hr & Hc).
  assert (R : forall i r, nth_error (sf_ribbons sf) i = Some r -> flat_ribbon N h r).
  { intros i r Ei. assert (Hi : (i < length cs)%nat) by (rewrite <- Lr; apply nth_error_Some; congruence).
    assert (Q : forall j, (j < length cs)%nat -> exists c, nth_error cs j = Some c /\ flat_curve N h c).
    { intros j Hj. destruct (nth_error cs j) as [c|] eqn:Ej; [|apply nth_error_None in Ej; lia]. exists c. split; [reflexivity|]. rewrite Forall_forall in FC. apply FC. apply nth_error_In with j. exact Ej. }
    destruct (Q (prv (length cs) i) (prv_lt (length cs) i ltac:(lia))) as (cp & Ecp & Fp). destruct (Q i Hi) as (c & Ec & F). destruct (Q (nxt (length cs) i) (nxt_lt (length cs) i ltac:(lia))) as (cn & Ecn & Fn).
    destruct (Hr i r cp c cn Ei Ecp Ec Ecn) as (Rc & mult & hd & d & D & X). split; [rewrite Rc; exact F|]. intros s x Ex. rewrite X in Ex.
    apply (cross_flat kd eps res cp c cn mult hd d s x Fp F Fn); [|exact D|exact Ex].
    assert (Ec' : nth_error cs (nxt (length cs) (prv (length cs) i)) = Some c) by (rewrite nxt_prv by exact Hi; exact Ec).
    destruct T as [T|T]; pose proof (T _ cp c Ecp Ec') as T1; pose proof (T _ c cn Ec Ecn) as T2; nra. }
  split; [rewrite Forall_forall; intros r Hr'; apply In_nth_error in Hr' as [i Ei]; apply (R i r Ei)|].
  rewrite Forall_forall. intros k Hk. apply In_nth_error in Hk as [i Ei].
  assert (U : exists j, SurfaceModel.updateCorner (length cs) (sf_ribbons sf) j = Some k).
  { unfold SurfaceModel.updateCorners in Hc. clear -Hc Ei. revert i Ei Hc. generalize (sf_corners sf). induction (seq 0 (length cs)) as [|j l IH]; intros ks i Ei Hc; cbn [mapM] in Hc.
    - injection Hc as <-. destruct i; discriminate.
    - destruct (SurfaceModel.updateCorner (length cs) (sf_ribbons sf) j) as [x|] eqn:Ex; [|discriminate]. destruct (mapM _ l) as [ks'|] eqn:El; [|discriminate]. injection Hc as <-. destruct i as [|i]; [injection Ei as <-; exists j; exact Ex|apply (IH ks' i Ei eq_refl)]. }
  destruct U as [j U]. unfold SurfaceModel.updateCorner in U. destruct (nth_error (sf_ribbons sf) j) as [r|] eqn:Er; [|discriminate]. cbn [bind] in U. destruct (nth_error (sf_ribbons sf) (nxt (length cs) j)) as [rp|] eqn:Erp; [|discriminate]. cbn [bind] in U.
  destruct (R j r Er) as [Fr Xr]. destruct (R _ rp Erp) as [Frp Xrp].
  destruct (sr_cross r 1) as [a1|] eqn:A1; [|discriminate]. cbn [bind] in U. destruct (sr_cross r (1 - corner_step)) as [a2|] eqn:A2; [|discriminate]. cbn [bind] in U.
  destruct (sr_cross rp 0) as [b1|] eqn:B1; [|discriminate]. cbn [bind] in U. destruct (sr_cross rp corner_step) as [b2|] eqn:B2; [|discriminate]. cbn [bind] in U. injection U as <-.
  unfold flat_corner. cbn [cn_point cn_tan1 cn_tan2 cn_twist1 cn_twist2]. split; [apply Fr|]. split; [apply along_opp, Fr|]. split; [apply Frp|].
  split; apply along_scale, along_sub; [apply (Xr _ _ A2)|apply (Xr _ _ A1)|apply (Xrp _ _ B2)|apply (Xrp _ _ B1)].
Qed.

(** ** Projection to the plane *)
Definition flatten (x : V3) : V3 := x -v N *v vdot N x.
Lemma flatten_linear : linear flatten.
Proof. split; intros; unfold flatten, vdot; apply V3_ext; simpl; ring. Qed.
Lemma flatten_along : forall v, along N v -> flatten v = v.
Proof. unfold along, flatten. intros v A. rewrite A. v3ring. Qed.
Definition foot : V3 := N *v h.
Lemma flatten_point : forall x, in_plane N h x -> mvPoint flatten foot x = x.
Proof. unfold in_plane, mvPoint, flatten, foot. intros x A. rewrite A. v3ring. Qed.
Lemma flatten_in : forall x, in_plane N h (mvPoint flatten foot x).
Proof.
  intros x. unfold in_plane, mvPoint, flatten, foot. replace (vdot N (x -v N *v vdot N x +v N *v h)) with (vdot N x - vdot N N * vdot N x + vdot N N * h) by (unfold vdot; simpl; ring). rewrite NN. ring.
Qed.
Lemma flatten_curve : forall c, flat_curve N h c -> mvCurve flatten foot c = c.
Proof.
  intros [p d l] F. unfold mvCurve. cbn [cpt cder clen]. f_equal; apply functional_extensionality; intros u; [apply flatten_point, (F u)|apply flatten_along, (F u)].
Qed.
Lemma map_fixed : forall {A} (f : A -> A) (P : A -> Prop), (forall a, P a -> f a = a) -> forall l, Forall P l -> map f l = l.
Proof. intros A f P H l F. induction F as [|a l Pa F IH]; [reflexivity|]. cbn [map]. rewrite (H a Pa), IH. reflexivity. Qed.
Lemma flatten_surf : forall sf, flat_surf N h sf -> mvSurf flatten foot sf = sf.
Proof.
  intros [n g rs ks] [FR FK]. unfold mvSurf. cbn [sf_n sf_gamma sf_ribbons sf_corners] in *. f_equal.
  - apply (map_fixed _ (flat_ribbon N h)); [|exact FR]. intros [c x] [Fc Fx]. unfold mvRib. cbn [sr_curve sr_cross] in *. f_equal; [apply flatten_curve, Fc|].
    apply functional_extensionality. intros s. destruct (x s) as [v|] eqn:E; [|reflexivity]. cbn [option_map]. f_equal. apply flatten_along, (Fx s v E).
  - apply (map_fixed _ (flat_corner N h)); [|exact FK]. intros [p a b c d] (P1 & P2 & P3 & P4 & P5). unfold mvCorner. cbn [cn_point cn_tan1 cn_tan2 cn_twist1 cn_twist2] in *. rewrite flatten_point, !flatten_along by assumption. reflexivity.
Qed.
Lemma fixed_in : forall o p, o = option_map (mvPoint flatten foot) o -> o = Some p -> in_plane N h p.
Proof. intros o p E S. rewrite S in E. cbn [option_map] in E. assert (X : p = mvPoint flatten foot p) by congruence. rewrite X. apply flatten_in. Qed.
End Plane.
