(** Everything commutes with rigid motions. *)
Require Import Verif.Base Verif.UtilModel Verif.RibbonModel Verif.SurfaceModel Verif.SurfaceObj Verif.MoveSpec.
Require Import FunctionalExtensionality.
Open Scope R_scope.

Lemma bind_map : forall {A B C} (f : A -> B) (x : option A) (g : B -> option C), bind (option_map f x) g = bind x (fun a => g (f a)).
Proof. intros A B C f [a|] g; reflexivity. Qed.
Lemma map_bind : forall {A B C} (f : B -> C) (x : option A) (g : A -> option B), option_map f (bind x g) = bind x (fun a => option_map f (g a)).
Proof. intros A B C f [a|] g; reflexivity. Qed.
Lemma bind_ext : forall {A B} (x : option A) (f g : A -> option B), (forall a, x = Some a -> f a = g a) -> bind x f = bind x g.
Proof. intros A B [a|] f g H; [apply H; reflexivity|reflexivity]. Qed.
Lemma nth_map : forall {A B} (f : A -> B) l i, nth_error (map f l) i = option_map f (nth_error l i).
Proof. intros A B f l i. apply nth_error_map. Qed.

Section Linear.
Variable L : V3 -> V3.
Hypothesis HL : linear L.
Lemma L_add : forall a b, L (a +v b) = L a +v L b. Proof. apply HL. Qed.
Lemma L_scale : forall a k, L (a *v k) = L a *v k. Proof. apply HL. Qed.
Lemma L_zero : L vzero = vzero.
Proof. replace vzero with (vzero *v 0) at 1 by v3ring. rewrite L_scale. v3ring. Qed.
Lemma L_opp : forall a, L (vopp a) = vopp (L a).
Proof. intros a. replace (vopp a) with (a *v -1) by v3ring. rewrite L_scale. v3ring. Qed.
Lemma L_sub : forall a b, L (a -v b) = L a -v L b.
Proof. intros a b. replace (a -v b) with (a +v b *v -1) by v3ring. rewrite L_add, L_scale. v3ring. Qed.
Lemma L_div : forall a k, vdiv (L a) k = option_map L (vdiv a k).
Proof. intros a k. unfold vdiv. destruct (Req_EM_T k 0); [reflexivity|]. simpl. rewrite L_scale. reflexivity. Qed.
End Linear.

Section Rigid.
Variables (L : V3 -> V3) (o : R) (t : V3).
Hypothesis HO : orthogonal L o.
Let HL : linear L := proj1 HO.
Lemma L_dot : forall a b, vdot (L a) (L b) = vdot a b. Proof. apply HO. Qed.
Lemma L_cross : forall a b, vcross (L a) (L b) = L (vcross a b) *v o. Proof. apply HO. Qed.
Lemma o_cases : o = 1 \/ o = -1. Proof. apply HO. Qed.
Lemma o_sq : o * o = 1. Proof. destruct o_cases as [->| ->]; ring. Qed.
Lemma L_norm : forall a, vnorm (L a) = vnorm a. Proof. intros a. unfold vnorm. rewrite L_dot. reflexivity. Qed.
Lemma L_normalize : forall a, vnormalize (L a) = option_map L (vnormalize a).
Proof. intros a. unfold vnormalize. rewrite L_norm. apply L_div, HL. Qed.
Lemma N_dot : forall a b, vdot (mvNormal L o a) (mvNormal L o b) = vdot a b.
Proof. intros a b. unfold mvNormal. replace (vdot (L a *v o) (L b *v o)) with (o * o * vdot (L a) (L b)) by (unfold vdot; simpl; ring). rewrite o_sq, L_dot. ring. Qed.
Lemma NL_dot : forall a b, vdot (L a) (mvNormal L o b) = o * vdot a b.
Proof. intros a b. unfold mvNormal. rewrite <- (L_dot a b). unfold vdot. simpl. ring. Qed.
Lemma LN_dot : forall a b, vdot (mvNormal L o a) (L b) = o * vdot a b.
Proof. intros a b. unfold mvNormal. rewrite <- (L_dot a b). unfold vdot. simpl. ring. Qed.
Lemma N_cross : forall a b, vcross (mvNormal L o a) (L b) = L (vcross a b).
Proof.
  intros a b. unfold mvNormal. replace (vcross (L a *v o) (L b)) with (vcross (L a) (L b) *v o) by v3ring. rewrite L_cross. replace (L (vcross a b) *v o *v o) with (L (vcross a b) *v (o * o)) by v3ring.
  rewrite o_sq. v3ring.
Qed.
Lemma CN : forall a b, vcross (L a) (mvNormal L o b) = L (vcross a b).
Proof.
  intros a b. unfold mvNormal. replace (vcross (L a) (L b *v o)) with (vcross (L a) (L b) *v o) by v3ring. rewrite L_cross. replace (L (vcross a b) *v o *v o) with (L (vcross a b) *v (o * o)) by v3ring.
  rewrite o_sq. v3ring.
Qed.
Lemma NN_cross : forall a b, vcross (mvNormal L o a) (mvNormal L o b) = L (vcross a b) *v o.
Proof.
  intros a b. unfold mvNormal. replace (vcross (L a *v o) (L b *v o)) with (vcross (L a) (L b) *v (o * o)) by v3ring. rewrite o_sq, L_cross. v3ring.
Qed.
Lemma N_sub : forall a b, mvNormal L o (a -v b) = mvNormal L o a -v mvNormal L o b.
Proof. intros a b. unfold mvNormal. rewrite L_sub by exact HL. v3ring. Qed.
Lemma P_sub : forall a b, mvPoint L t a -v mvPoint L t b = L (a -v b).
Proof. intros a b. unfold mvPoint. rewrite L_sub by exact HL. v3ring. Qed.

Notation mvP := (mvPoint L t).
Notation mvN := (mvNormal L o).
Notation mvC := (mvCurve L t).
Notation mvF := (mvFrame L o t).

(** ** Frames *)
Lemma rodrigues : forall u a n, applyMatrix (rotationMatrix u a) n = n *v cos a +v vcross u n *v sin a +v u *v (vdot u n * (1 - cos a)).
Proof. intros u a n. unfold applyMatrix, rotationMatrix. apply V3_ext; unfold vdot; simpl; ring. Qed.
Lemma cos_o : forall a, cos (a * o) = cos a.
Proof. intros a. destruct o_cases as [->| ->]; [f_equal; ring|]. replace (a * -1) with (- a) by ring. apply cos_neg. Qed.
Lemma sin_o : forall a, sin (a * o) = sin a * o.
Proof. intros a. destruct o_cases as [->| ->]; [rewrite !Rmult_1_r; reflexivity|]. replace (a * -1) with (- a) by ring. rewrite sin_neg. ring. Qed.
Lemma rotate_move : forall u a n, applyMatrix (rotationMatrix (L u) (a * o)) (mvN n) = mvN (applyMatrix (rotationMatrix u a) n).
Proof.
  intros u a n. rewrite !rodrigues, cos_o, sin_o, CN, NL_dot. unfold mvNormal. rewrite !(L_add L HL), !(L_scale L HL). apply V3_ext; simpl; ring.
Qed.
Lemma next_move : forall eps c f u, nextFrame eps (mvC c) (mvF f) u = option_map mvF (nextFrame eps c f u).
Proof.
  intros eps c f u. unfold nextFrame. cbn [mvCurve cpt cder clen mvFrame fr_p fr_n fr_d fr_u fr_s]. rewrite P_sub, L_dot.
  set (v1 := cpt c u -v fr_p f). destruct (Rlt_dec (vdot v1 v1) eps); [reflexivity|]. rewrite L_normalize, bind_map, map_bind. apply bind_ext. intros tg _.
  rewrite <- (L_scale L HL), (L_div L HL), bind_map, map_bind. apply bind_ext. intros v2 _. rewrite NL_dot, L_dot.
  set (nL := fr_n f -v v2 *v vdot v1 (fr_n f)). set (dL := fr_d f -v v2 *v vdot v1 (fr_d f)).
  assert (E1 : mvN (fr_n f) -v L v2 *v (o * vdot v1 (fr_n f)) = mvN nL) by (unfold nL, mvNormal; rewrite (L_sub L HL), (L_scale L HL); v3ring).
  assert (E2 : L tg -v (L (fr_d f) -v L v2 *v vdot v1 (fr_d f)) = L (tg -v dL)) by (unfold dL; rewrite !(L_sub L HL), (L_scale L HL); reflexivity).
  rewrite E1, E2, L_dot. set (w := tg -v dL). destruct (Rlt_dec (vdot w w) eps); [reflexivity|].
  rewrite <- (L_scale L HL), (L_div L HL), bind_map. destruct (vdiv (w *v 2) (vdot w w)) as [w2|]; [cbn [bind]|reflexivity]. rewrite NL_dot. simpl. unfold mvFrame. cbn [fr_u fr_s fr_p fr_d fr_n].
  do 2 f_equal. unfold mvNormal. rewrite (L_sub L HL), (L_scale L HL). v3ring.
Qed.
Lemma loop_move : forall eps c res k i f, frameLoop eps (mvC c) res k i (mvF f) = option_map (map mvF) (frameLoop eps c res k i f).
Proof.
  intros eps c res k. induction k as [|k IH]; intros i f; [reflexivity|]. cbn [frameLoop]. rewrite next_move, bind_map, map_bind. apply bind_ext. intros f' _.
  rewrite IH, bind_map, map_bind. apply bind_ext. intros l _. reflexivity.
Qed.
Lemma first_move : forall c start, firstFrame (mvC c) (mvN start) = option_map mvF (firstFrame c start).
Proof. intros c start. unfold firstFrame. cbn [mvCurve cder cpt]. rewrite L_normalize, bind_map, map_bind. apply bind_ext. intros tg _. reflexivity. Qed.
Lemma angle_move : forall stop f, o = 1 \/ fr_n f = stop /\ vdot stop stop = 1 \/ vdot (vcross (fr_n f) stop) (fr_d f) <> 0 -> endAngle (mvN stop) (mvF f) = endAngle stop f * o.
Proof.
  intros stop f H. unfold endAngle. cbn [mvFrame fr_n fr_d]. rewrite N_dot, <- N_sub, NN_cross.
  set (a := acos (clamp (vdot stop (fr_n f)) (-1) 1)). set (x := vdot (vcross (fr_n f -v stop) stop) (fr_d f)).
  replace (vdot (L (vcross (fr_n f -v stop) stop) *v o) (L (fr_d f))) with (o * x).
  2:{ unfold x. rewrite <- (L_dot (vcross (fr_n f -v stop) stop) (fr_d f)). unfold vdot. simpl. ring. }
  assert (X : x = vdot (vcross (fr_n f) stop) (fr_d f)) by (unfold x, vdot, vcross; simpl; ring).
  destruct H as [H|[(H & U)|H]].
  - rewrite H, Rmult_1_l. destruct (Rlt_dec x 0); ring.
  - assert (Z : a = 0).
    { unfold a. rewrite H, U. unfold clamp. destruct (Rlt_dec 1 (-1)); [lra|]. destruct (Rlt_dec 1 1); [lra|]. apply acos_1. }
    rewrite Z. destruct (Rlt_dec x 0), (Rlt_dec (o * x) 0); ring.
  - rewrite <- X in H. destruct o_cases as [->| ->].
    + rewrite Rmult_1_l. destruct (Rlt_dec x 0); ring.
    + destruct (Rlt_dec x 0), (Rlt_dec (-1 * x) 0); try lra; ring.
Qed.
Lemma fdiv_move : forall a b, fdiv (a * o) b = option_map (fun x => x * o) (fdiv a b).
Proof. intros a b. unfold fdiv. destruct (Req_EM_T b 0); [reflexivity|]. simpl. f_equal. field. assumption. Qed.
Lemma rmf_move : forall eps res c start stop, o = 1 \/ no_half_turn eps res c start stop ->
  rmfUpdate eps res (mvC c) (mvN start) (mvN stop) = option_map (mvRmf L o t) (rmfUpdate eps res c start stop).
Proof.
  intros eps res c start stop H. unfold rmfUpdate. rewrite first_move, bind_map, map_bind. apply bind_ext. intros f0 E0. rewrite loop_move, bind_map, map_bind. apply bind_ext. intros l El.
  rewrite nth_map, bind_map, map_bind. apply bind_ext. intros f Ef. rewrite angle_move by (destruct H as [H|H]; [left; exact H|right; apply (H f0 l f E0 El Ef)]).
  cbn [mvFrame fr_s]. rewrite fdiv_move, bind_map, map_bind. apply bind_ext. intros a _. reflexivity.
Qed.
Lemma upper_move : forall u l, upperBound u (map mvF l) = upperBound u l.
Proof. intros u l. induction l as [|f l IH]; [reflexivity|]. cbn [map upperBound mvFrame fr_u]. rewrite IH. reflexivity. Qed.
Lemma eval_move : forall eps m u, rmfEval eps (mvRmf L o t m) u = option_map mvN (rmfEval eps m u).
Proof.
  intros eps m u. unfold rmfEval. cbn [mvRmf rm_frames rm_curve rm_angle]. rewrite upper_move. destruct (upperBound u (rm_frames m)) as [|i]; [reflexivity|].
  rewrite nth_map, bind_map, map_bind. apply bind_ext. intros f0 _. rewrite next_move, bind_map, map_bind. apply bind_ext. intros f _. simpl. f_equal.
  unfold rotateFrame. cbn [mvFrame fr_d fr_s fr_n]. replace (fr_s f * (rm_angle m * o)) with (fr_s f * rm_angle m * o) by ring. apply rotate_move.
Qed.

(** ** Ribbons *)
Definition tie_free (eps : R) (res : nat) (prev c next : curve) : Prop :=
  forall start stop, vnormalize (vcross (cder prev 1) (cder c 0)) = Some start -> vnormalize (vcross (cder c 1) (cder next 0)) = Some stop -> no_half_turn eps res c start stop.
Lemma normalize_move : forall a b, vnormalize (vcross (L a) (L b)) = option_map mvN (vnormalize (vcross a b)).
Proof.
  intros a b. rewrite L_cross. set (c := vcross a b). unfold vnormalize. assert (E : vnorm (L c *v o) = vnorm c).
  { rewrite <- (L_norm c). unfold vnorm. f_equal. replace (vdot (L c *v o) (L c *v o)) with (o * o * vdot (L c) (L c)) by (unfold vdot; simpl; ring). rewrite o_sq. ring. }
  rewrite E. unfold vdiv. destruct (Req_EM_T (vnorm c) 0); [reflexivity|]. simpl. f_equal. unfold mvNormal. rewrite (L_scale L HL). v3ring.
Qed.
Lemma ribbon_move : forall eps res prev c next, o = 1 \/ tie_free eps res prev c next ->
  ribbonUpdate eps res (mvC prev) (mvC c) (mvC next) = option_map (mvRmf L o t) (ribbonUpdate eps res prev c next).
Proof.
  intros eps res prev c next H. unfold ribbonUpdate. cbn [mvCurve cder]. rewrite !normalize_move, bind_map, map_bind. apply bind_ext. intros start E1. rewrite bind_map, map_bind. apply bind_ext. intros stop E2.
  apply rmf_move. destruct H as [H|H]; [left; exact H|right; apply H; assumption].
Qed.
Lemma normal_move : forall eps fence m s, normalOf eps (option_map (mvFence L o) fence) (option_map (mvRmf L o t) m) s = option_map mvN (normalOf eps fence m s).
Proof.
  intros eps [f|] m s; [reflexivity|]. cbn [option_map normalOf]. rewrite bind_map, map_bind. apply bind_ext. intros m' _. apply eval_move.
Qed.
Lemma project_move : forall n v, projectOut (mvN n) (L v) = L (projectOut n v).
Proof.
  intros n v. unfold projectOut. rewrite NL_dot, (L_sub L HL), (L_scale L HL). unfold mvNormal. replace (L n *v o *v (o * vdot v n)) with (L n *v (o * o * vdot v n)) by v3ring. rewrite o_sq, Rmult_1_l. reflexivity.
Qed.
Section Cross.
Variables (normal normal' : R -> option V3).
Hypothesis Hn : forall s, normal' s = option_map mvN (normal s).
Lemma compatible_move : forall pt nt s, crossCompatible normal' (L pt) (L nt) s = option_map L (crossCompatible normal pt nt s).
Proof.
  intros pt nt s. unfold crossCompatible. rewrite Hn, bind_map, map_bind. apply bind_ext. intros n _. simpl. rewrite !project_move, (L_add L HL), !(L_scale L HL). reflexivity.
Qed.
Lemma handlerValue_move : forall pt nt h, handlerValue normal' (L pt) (L nt) (option_map L h) = option_map L (handlerValue normal pt nt h).
Proof.
  intros pt nt [h|]; [reflexivity|]. cbn [option_map handlerValue]. rewrite Hn, bind_map, map_bind. apply bind_ext. intros n _. rewrite !L_norm, !(L_div L HL), bind_map, map_bind. apply bind_ext. intros a _.
  rewrite bind_map, map_bind. apply bind_ext. intros b _. rewrite <- (L_add L HL), project_move. apply L_normalize.
Qed.
Lemma central_move : forall pt nt h k, centralValue (L pt) (L nt) (L h) k = L (centralValue pt nt h k).
Proof. intros pt nt h k. unfold centralValue. rewrite !L_norm, !(L_scale L HL). reflexivity. Qed.
Lemma handler_move : forall pt nt ce s, crossHandler normal' (L pt) (L nt) (L ce) s = option_map L (crossHandler normal pt nt ce s).
Proof.
  intros pt nt ce s. unfold crossHandler. rewrite Hn, bind_map, map_bind. apply bind_ext. intros n _. simpl. rewrite !project_move, !(L_add L HL), !(L_scale L HL). reflexivity.
Qed.
Lemma perpUpdate_move : forall prev c next, perpUpdate normal' (mvC prev) (mvC c) (mvC next) = perpUpdate normal prev c next.
Proof.
  intros prev c next. unfold perpUpdate. cbn [mvCurve cder]. rewrite !L_normalize, bind_map. apply bind_ext. intros t0 _. rewrite bind_map. apply bind_ext. intros t1 _.
  rewrite !Hn, bind_map. apply bind_ext. intros n0 _. rewrite bind_map. apply bind_ext. intros n1 _. rewrite <- (L_opp L HL), !L_norm, !(L_div L HL), bind_map. apply bind_ext. intros p _. rewrite bind_map.
  apply bind_ext. intros q _. rewrite !N_cross, !L_dot. reflexivity.
Qed.
Lemma perp_move : forall c k s, crossPerpendicular normal' (mvC c) k s = option_map L (crossPerpendicular normal c k s).
Proof.
  intros c k s. unfold crossPerpendicular. cbn [mvCurve cder]. rewrite L_normalize, bind_map, map_bind. apply bind_ext. intros tg _. rewrite Hn, bind_map, map_bind. apply bind_ext. intros n _. simpl.
  rewrite N_cross, !(L_scale L HL), (L_add L HL), !(L_scale L HL). reflexivity.
Qed.
Lemma crossNSided_move : forall c s, crossNSided normal' (mvC c) s = option_map L (crossNSided normal c s).
Proof.
  intros c s. unfold crossNSided. cbn [mvCurve cder]. rewrite Hn, bind_map, map_bind. apply bind_ext. intros n _. rewrite L_normalize, bind_map, map_bind. apply bind_ext. intros d _.
  destruct (Req_EM_T s (clamp s 0 1)); [simpl; rewrite N_cross; reflexivity|]. destruct (Rlt_dec s 0); simpl; rewrite (L_add L HL), !(L_scale L HL); f_equal.
  - rewrite <- (L_scale L HL), CN. reflexivity.
  - rewrite CN. reflexivity.
Qed.
Lemma nsided_move : forall c sd, nsidedEval normal' (mvC c) sd = option_map mvP (nsidedEval normal c sd).
Proof.
  intros c sd. unfold nsidedEval. cbn [mvCurve cpt clen]. rewrite crossNSided_move, bind_map, map_bind. apply bind_ext. intros x _. simpl. f_equal. unfold mvPoint. rewrite (L_add L HL), (L_scale L HL). v3ring.
Qed.
End Cross.

Lemma derive_move : forall kd eps res prev c next mult h fence, o = 1 \/ tie_free eps res prev c next ->
  ribDerive kd eps res (mvC prev) (mvC c) (mvC next) mult (option_map L h) (option_map (mvFence L o) fence) = option_map (mvData L o t) (ribDerive kd eps res prev c next mult h fence).
Proof.
  intros kd eps res prev c next mult h fence H. unfold ribDerive. rewrite (ribbon_move eps res prev c next H), bind_map, map_bind. apply bind_ext. intros m _.
  set (normal := normalOf eps fence (Some m)). assert (Hn : forall s, normalOf eps (option_map (mvFence L o) fence) (Some (mvRmf L o t m)) s = option_map mvN (normal s)) by (intros s; apply (normal_move eps fence (Some m))).
  assert (P1 : prevTangent (mvC prev) = L (prevTangent prev)) by (unfold prevTangent; cbn [mvCurve cder]; rewrite (L_opp L HL); reflexivity).
  assert (P2 : nextTangent (mvC next) = L (nextTangent next)) by reflexivity. rewrite P1, P2. destruct kd.
  - simpl. f_equal. unfold mvData. cbn [rd_frames rd_angle rd_pt rd_nt rd_central rd_perp]. rewrite (L_zero L HL). reflexivity.
  - rewrite (handlerValue_move _ _ Hn), bind_map, map_bind. apply bind_ext. intros h' _. rewrite central_move. reflexivity.
  - rewrite (perpUpdate_move _ _ Hn), map_bind. apply bind_ext. intros p _. simpl. f_equal. unfold mvData. cbn [rd_frames rd_angle rd_pt rd_nt rd_central rd_perp]. rewrite (L_zero L HL). reflexivity.
Qed.
Lemma ribCross_move : forall kd eps c fence d s, ribCross kd eps (mvC c) (option_map (mvFence L o) fence) (mvData L o t d) s = option_map L (ribCross kd eps c fence d s).
Proof.
  intros kd eps c fence d s. unfold ribCross. cbn [mvData rd_frames rd_angle rd_pt rd_nt rd_central rd_perp].
  change (mkRmf (mvC c) (map mvF (rd_frames d)) (rd_angle d * o)) with (mvRmf L o t (mkRmf c (rd_frames d) (rd_angle d))).
  set (m := mkRmf c (rd_frames d) (rd_angle d)). assert (Hn : forall s, normalOf eps (option_map (mvFence L o) fence) (Some (mvRmf L o t m)) s = option_map mvN (normalOf eps fence (Some m) s)) by (intros s'; apply (normal_move eps fence (Some m))).
  destruct kd; [apply compatible_move, Hn|apply handler_move, Hn|]. rewrite map_bind. apply bind_ext. intros p _. apply perp_move, Hn.
Qed.
End Rigid.

Lemma upd_map : forall {A B} (f : A -> B) l i x, upd (map f l) i (f x) = option_map (map f) (upd l i x).
Proof. intros A B f l. induction l as [|a l IH]; intros [|i] x; try reflexivity. cbn [map upd]. rewrite IH, bind_map, map_bind. reflexivity. Qed.
Lemma foldM_map : forall {A B C} (m : A -> B) (f : A -> C -> option A) (g : B -> C -> option B), (forall a c, g (m a) c = option_map m (f a c)) -> forall l a, foldM g (m a) l = option_map m (foldM f a l).
Proof. intros A B C m f g H l. induction l as [|c l IH]; intros a; [reflexivity|]. cbn [foldM]. rewrite H, bind_map, map_bind. apply bind_ext. intros a' _. apply IH. Qed.
Lemma mapM_map : forall {A B C} (m : B -> C) (f : A -> option B) (g : A -> option C), (forall a, g a = option_map m (f a)) -> forall l, mapM g l = option_map (map m) (mapM f l).
Proof. intros A B C m f g H l. induction l as [|a l IH]; [reflexivity|]. cbn [mapM]. rewrite H, bind_map, map_bind. apply bind_ext. intros b _. rewrite IH, bind_map, map_bind. reflexivity. Qed.

Section World.
Variables (L : V3 -> V3) (o : R) (t : V3).
Hypothesis HO : orthogonal L o.
Let HL : linear L := proj1 HO.
Notation mvP := (mvPoint L t).
Notation mvC := (mvCurve L t).
Notation mvR := (mvRibObj L o t).
Notation mvD := (mvDomObj L t).
Notation mvS := (mvSurfObj L t).
Notation mvW := (mvWorld L o t).

Lemma setSurf_move : forall w k s, setSurf (mvW w) k (mvS s) = option_map mvW (setSurf w k s).
Proof. intros w k s. unfold setSurf. cbn [mvWorld w_surfs]. rewrite upd_map, bind_map, map_bind. apply bind_ext. reflexivity. Qed.
Lemma setRib_move : forall w k s, setRib (mvW w) k (mvR s) = option_map mvW (setRib w k s).
Proof. intros w k s. unfold setRib. cbn [mvWorld w_ribs]. rewrite upd_map, bind_map, map_bind. apply bind_ext. reflexivity. Qed.
Lemma setDom_move : forall w k s, setDom (mvW w) k (mvD s) = option_map mvW (setDom w k s).
Proof. intros w k s. unfold setDom. cbn [mvWorld w_doms]. rewrite upd_map, bind_map, map_bind. apply bind_ext. reflexivity. Qed.
Lemma setCrv_move : forall w k s, setCrv (mvW w) k (mvC s) = option_map mvW (setCrv w k s).
Proof. intros w k s. unfold setCrv. cbn [mvWorld w_curves]. rewrite upd_map, bind_map, map_bind. apply bind_ext. reflexivity. Qed.
Lemma reverse_move : forall c, reverseCurve (mvC c) = mvC (reverseCurve c).
Proof.
  intros c. unfold reverseCurve, mvCurve. cbn [cpt cder clen]. f_equal. apply functional_extensionality. intros u. rewrite (L_opp L HL). reflexivity.
Qed.
Lemma dist_move : forall a b, vdist (mvP a) (mvP b) = vdist a b.
Proof. intros a b. unfold vdist. rewrite (P_sub L o t HO). apply (L_norm L o HO). Qed.
Lemma ribCurve_move : forall w r, ribCurve (mvW w) r = option_map mvC (ribCurve w r).
Proof. intros w r. unfold ribCurve. cbn [mvWorld w_ribs w_curves]. rewrite nth_map, bind_map, map_bind. apply bind_ext. intros x _. apply nth_map. Qed.
Lemma newRibbon_move : forall c, newRibbon c = mvR (newRibbon c). Proof. reflexivity. Qed.
Lemma sideRib_move : forall s i, sideRib (mvS s) i = sideRib s i. Proof. reflexivity. Qed.
Lemma setCurve_move : forall w k i c, setCurve (mvW w) k i c = option_map mvW (setCurve w k i c).
Proof.
  intros w k i c. unfold setCurve. cbn [mvWorld w_surfs w_doms w_ribs w_curves]. rewrite nth_map, bind_map, map_bind. apply bind_ext. intros s _. cbn [mvSurfObj so_n so_ribs so_gamma so_dom so_corners].
  rewrite map_length, map_bind. apply bind_ext. intros ribs' _. rewrite nth_map, bind_map, map_bind. apply bind_ext. intros d _.
  assert (E : domSide (mvD d) i c = option_map mvD (domSide d i c)) by (unfold domSide; cbn [mvDomObj do_curves do_layout]; rewrite map_bind; reflexivity).
  rewrite E, bind_map, map_bind. apply bind_ext. intros d' _.
  assert (E2 : addRib (mvW w) (newRibbon c) = mvW (addRib w (newRibbon c))) by (unfold addRib, mvWorld; cbn [w_curves w_ribs w_doms w_surfs]; rewrite map_app; reflexivity).
  change (mkWorld (map mvC (w_curves w)) (map mvR (w_ribs w)) (map mvD (w_doms w)) (map mvS (w_surfs w))) with (mvW w). rewrite E2, setDom_move, bind_map, map_bind. apply bind_ext. intros w2 _.
  apply (setSurf_move w2 k (mkSob _ _ _ _ _)).
Qed.
Lemma setCurves_move : forall w k cs, setCurves (mvW w) k cs = option_map mvW (setCurves w k cs).
Proof.
  intros w k cs. unfold setCurves. cbn [mvWorld w_surfs w_doms w_ribs w_curves]. rewrite nth_map, bind_map, map_bind. apply bind_ext. intros s _. cbn [mvSurfObj so_n so_ribs so_gamma so_dom so_corners].
  rewrite map_length, nth_map, bind_map, map_bind. apply bind_ext. intros d _.
  assert (E : mkWorld (map mvC (w_curves w)) (map mvR (w_ribs w) ++ map newRibbon cs) (map mvD (w_doms w)) (map mvS (w_surfs w)) = mvW (mkWorld (w_curves w) (w_ribs w ++ map newRibbon cs) (w_doms w) (w_surfs w))).
  { unfold mvWorld. cbn [w_curves w_ribs w_doms w_surfs]. rewrite map_app, map_map. reflexivity. }
  rewrite E. change (mkDob (map Some cs) (do_layout (mvD d))) with (mvD (mkDob (map Some cs) (do_layout d))). rewrite setDom_move, bind_map, map_bind. apply bind_ext. intros w2 _.
  apply (setSurf_move w2 k (mkSob _ _ _ _ _)).
Qed.
Lemma setupSide_move : forall s w i, setupSide (mvS s) (mvW w) i = option_map mvW (setupSide s w i).
Proof.
  intros s w i. unfold setupSide. rewrite !sideRib_move. cbn [mvSurfObj so_n]. rewrite map_bind. apply bind_ext. intros rp _. rewrite map_bind. apply bind_ext. intros rn _. rewrite map_bind. apply bind_ext. intros r _.
  cbn [mvWorld w_ribs]. rewrite nth_map, bind_map, map_bind. apply bind_ext. intros q _. change (withNeighbors (mvR q) rp rn) with (mvR (withNeighbors q rp rn)). fold (mvW w). rewrite setRib_move, bind_map, map_bind. apply bind_ext. intros w1 _.
  cbn [mvRibObj ro_curve]. cbn [mvWorld w_curves]. rewrite nth_map, bind_map, map_bind. apply bind_ext. intros c _. rewrite ribCurve_move, bind_map, map_bind. apply bind_ext. intros other _.
  assert (E1 : reverseFirst (mvC c) (mvC other) = reverseFirst c other) by (unfold reverseFirst; cbn [mvCurve cpt]; rewrite !dist_move; reflexivity).
  assert (E2 : reverseNext (mvC c) (mvC other) = reverseNext c other) by (unfold reverseNext; cbn [mvCurve cpt]; rewrite !dist_move; reflexivity).
  rewrite E1, E2. destruct (if (i =? 0)%nat then reverseFirst c other else reverseNext c other); [|reflexivity]. rewrite reverse_move. apply setCrv_move.
Qed.
Lemma setupLoop_move : forall w k, setupLoop (mvW w) k = option_map mvW (setupLoop w k).
Proof.
  intros w k. unfold setupLoop. cbn [mvWorld w_surfs]. rewrite nth_map, bind_map, map_bind. apply bind_ext. intros s _. fold (mvW w). apply foldM_map. intros w' i. apply setupSide_move.
Qed.
Lemma setting_move : forall w k i x, setRibbon (mvW w) k i (mvSetting L o x) = option_map mvW (setRibbon w k i x).
Proof.
  intros w k i x. unfold setRibbon. cbn [mvWorld w_surfs w_ribs]. rewrite nth_map, bind_map, map_bind. apply bind_ext. intros s _. rewrite sideRib_move, map_bind. apply bind_ext. intros r _.
  rewrite nth_map, bind_map, map_bind. apply bind_ext. intros q _. fold (mvW w).
  assert (E : applySetting (mvR q) (mvSetting L o x) = option_map mvR (applySetting q x)).
  { destruct x; try reflexivity. cbn [applySetting mvSetting]. rewrite (L_normalize L o HO), bind_map, map_bind. reflexivity. }
  rewrite E, bind_map, map_bind. apply bind_ext. intros q' _. apply setRib_move.
Qed.
Lemma alive_move : forall w r, alive (mvW w) r = alive w r.
Proof. intros w r. unfold alive. cbn [mvWorld w_surfs]. induction (w_surfs w) as [|s l IH]; [reflexivity|]. cbn [map existsb]. rewrite IH. reflexivity. Qed.
Lemma lock_move : forall w p, lock (mvW w) p = lock w p.
Proof. intros w p. unfold lock. apply bind_ext. intros r _. rewrite alive_move. reflexivity. Qed.
Lemma updateDomain_move : forall w d, updateDomain (mvW w) d = option_map mvW (updateDomain w d).
Proof.
  intros w d. unfold updateDomain. cbn [mvWorld w_doms w_curves]. rewrite nth_map, bind_map, map_bind. apply bind_ext. intros q _. fold (mvW w).
  rewrite <- setDom_move. f_equal. unfold mvDomObj. cbn [do_curves do_layout option_map]. do 2 f_equal. rewrite map_map. apply map_ext. intros [l|]; [|reflexivity]. cbn [bind]. apply nth_map.
Qed.
Section Update.
Variables (kd : rkind) (eps : R) (res : nat).
Lemma crossAt_move : forall w r x, crossAt kd eps (mvW w) r x = option_map L (crossAt kd eps w r x).
Proof.
  intros w r x. unfold crossAt. cbn [mvWorld w_ribs w_curves]. rewrite nth_map, bind_map, map_bind. apply bind_ext. intros q _. cbn [mvRibObj ro_curve ro_data ro_fence]. rewrite nth_map, bind_map, map_bind. apply bind_ext. intros c _.
  rewrite bind_map, map_bind. apply bind_ext. intros d _. apply (ribCross_move L o t HO).
Qed.
Lemma updateRibbon_move : o = 1 -> forall w r, updateRibbon kd eps res (mvW w) r = option_map mvW (updateRibbon kd eps res w r).
Proof.
  intros H w r. unfold updateRibbon. cbn [mvWorld w_ribs w_curves]. rewrite nth_map, bind_map, map_bind. apply bind_ext. intros q _. fold (mvW w). cbn [mvRibObj ro_curve ro_data ro_fence ro_prev ro_next ro_mult ro_handler].
  rewrite !lock_move, map_bind. apply bind_ext. intros rp _. rewrite map_bind. apply bind_ext. intros rn _. rewrite !ribCurve_move, bind_map, map_bind. apply bind_ext. intros cp _. rewrite nth_map, bind_map, map_bind. apply bind_ext. intros c _.
  rewrite bind_map, map_bind. apply bind_ext. intros cn _. rewrite (derive_move L o t HO) by (left; exact H). rewrite bind_map, map_bind. apply bind_ext. intros d _. rewrite <- setRib_move. reflexivity.
Qed.
Lemma cornerOf_move : forall w s i, cornerOf kd eps (mvW w) (mvS s) i = option_map (mvCorner L t) (cornerOf kd eps w s i).
Proof.
  intros w s i. unfold cornerOf. rewrite !sideRib_move. cbn [mvSurfObj so_n]. rewrite map_bind. apply bind_ext. intros r _. rewrite map_bind. apply bind_ext. intros rp _. rewrite !ribCurve_move, bind_map, map_bind. apply bind_ext. intros c _.
  rewrite bind_map, map_bind. apply bind_ext. intros cp _. rewrite !crossAt_move, bind_map, map_bind. apply bind_ext. intros a1 _. rewrite bind_map, map_bind. apply bind_ext. intros a2 _. rewrite bind_map, map_bind. apply bind_ext. intros b1 _.
  rewrite bind_map, map_bind. apply bind_ext. intros b2 _. cbn [option_map]. f_equal. unfold mvCorner. cbn [cn_point cn_tan1 cn_tan2 cn_twist1 cn_twist2 mvCurve cpt cder]. rewrite (L_opp L HL), !(L_scale L HL), !(L_sub L HL). reflexivity.
Qed.
Lemma updateCorner_move : forall w k i, updateCorner kd eps (mvW w) k i = option_map mvW (updateCorner kd eps w k i).
Proof.
  intros w k i. unfold updateCorner. cbn [mvWorld w_surfs]. rewrite nth_map, bind_map, map_bind. apply bind_ext. intros s _. fold (mvW w). rewrite cornerOf_move, bind_map, map_bind. apply bind_ext. intros c _.
  cbn [mvSurfObj so_corners]. rewrite upd_map, bind_map, map_bind. apply bind_ext. intros l _. rewrite <- setSurf_move. reflexivity.
Qed.
Lemma updateCorners_move : forall w k, updateCorners kd eps (mvW w) k = option_map mvW (updateCorners kd eps w k).
Proof.
  intros w k. unfold updateCorners. cbn [mvWorld w_surfs]. rewrite nth_map, bind_map, map_bind. apply bind_ext. intros s _. fold (mvW w). rewrite (mapM_map (mvCorner L t) (cornerOf kd eps w s)) by (intros i; apply cornerOf_move).
  rewrite bind_map, map_bind. apply bind_ext. intros l _. rewrite <- setSurf_move. reflexivity.
Qed.
Lemma wstep_move : o = 1 -> forall w x, wstep kd eps res (mvW w) (mvOp L o x) = option_map mvW (wstep kd eps res w x).
Proof.
  intros H w x. destruct x as [|k|k b|k i c|k cs|k|k i x|k i|k]; cbn [mvOp wstep].
  - unfold newSurface, mvWorld. cbn [w_curves w_ribs w_doms w_surfs option_map]. rewrite !map_app, map_length. reflexivity.
  - unfold copySurface. cbn [mvWorld w_surfs w_curves w_ribs w_doms]. rewrite nth_map, bind_map, map_bind. apply bind_ext. intros s _. unfold mvWorld. cbn [w_curves w_ribs w_doms w_surfs option_map]. rewrite map_app. reflexivity.
  - cbn [mvWorld w_surfs]. rewrite nth_map, bind_map, map_bind. apply bind_ext. intros s _. fold (mvW w). rewrite <- setSurf_move. reflexivity.
  - apply setCurve_move.
  - apply setCurves_move.
  - apply setupLoop_move.
  - apply setting_move.
  - unfold updateSide. cbn [mvWorld w_surfs]. rewrite nth_map, bind_map, map_bind. apply bind_ext. intros s _. fold (mvW w). cbn [mvSurfObj so_dom so_n]. rewrite updateDomain_move, bind_map, map_bind. apply bind_ext. intros w1 _.
    rewrite sideRib_move, map_bind. apply bind_ext. intros r _. rewrite updateRibbon_move by exact H. rewrite bind_map, map_bind. apply bind_ext. intros w2 _. rewrite updateCorner_move, bind_map, map_bind. apply bind_ext. intros w3 _.
    apply updateCorner_move.
  - unfold updateAll. cbn [mvWorld w_surfs]. rewrite nth_map, bind_map, map_bind. apply bind_ext. intros s _. fold (mvW w). cbn [mvSurfObj so_dom so_ribs]. rewrite updateDomain_move, bind_map, map_bind. apply bind_ext. intros w1 _.
    rewrite (foldM_map mvW (fun w o => r <- o ;; updateRibbon kd eps res w r)).
    2:{ intros w' r. rewrite map_bind. apply bind_ext. intros r' _. apply updateRibbon_move, H. }
    rewrite bind_map, map_bind. apply bind_ext. intros w2 _. apply updateCorners_move.
Qed.
Lemma wrun_move : o = 1 -> forall xs w, wrun kd eps res (mvW w) (map (mvOp L o) xs) = option_map mvW (wrun kd eps res w xs).
Proof.
  intros H xs. unfold wrun. induction xs as [|x xs IH]; intros w; [reflexivity|]. cbn [map foldM]. rewrite wstep_move by exact H. rewrite bind_map, map_bind. apply bind_ext. intros w' _. apply IH.
Qed.
Lemma surfAt_move : forall w k, surfAt kd eps (mvW w) k = option_map (mvSurf L t) (surfAt kd eps w k).
Proof.
  intros w k. unfold surfAt. cbn [mvWorld w_surfs]. rewrite nth_map, bind_map, map_bind. apply bind_ext. intros s _. fold (mvW w). cbn [mvSurfObj so_ribs so_n so_gamma so_corners].
  rewrite (mapM_map (mvRib L t) (fun x => r <- x ;; c <- ribCurve w r ;; Some (mkRib c (crossAt kd eps w r)))).
  2:{ intros x. rewrite map_bind. apply bind_ext. intros r _. rewrite ribCurve_move, bind_map, map_bind. apply bind_ext. intros c _. cbn [option_map]. f_equal. unfold mvRib. cbn [sr_curve sr_cross]. f_equal.
      apply functional_extensionality. intros x'. apply crossAt_move. }
  rewrite bind_map, map_bind. reflexivity.
Qed.
End Update.
End World.
