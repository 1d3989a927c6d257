(** Proofs about the way from curves to a surface: frames on advancing curves,
    default handlers, and what setCurves, setupLoop and update leave behind. *)
From Coq Require Import FunctionalExtensionality.
From Verif Require Import Base UtilModel UtilProofs RibbonModel RibbonSpec RibbonProofs PropsRibbon SurfaceModel SurfaceSpec SurfaceObj ObjSpec ObjProofs ObjUpdate ObjSides ObjLinks ObjLoop PropsObjects PropsObjects2 ChainModel ChainSpec.
Open Scope R_scope.

(** ** Frames *)
Section Frames.
Variables (eps : R) (res : nat).
Hypotheses (Hp : 0 < eps) (Hres : (1 <= res)%nat).

Lemma good_proper : forall c, good_side eps res c -> proper eps res c.
Proof.
  intros c (A & B & C). split; [exact A|]. split; [exact B|]. exists 1%nat. split; [lia|].
  destruct (C 0%nat ltac:(lia)) as [D _]. cbv zeta in D. change (INR 0) with 0 in D. replace (0 / INR res) with 0 in D by (unfold Rdiv; ring). exact D.
Qed.

Lemma mirror_along : forall v t t', vdot v v <> 0 -> vdot (t' -v mirror v t) v = vdot (t +v t') v.
Proof. intros [a b c] [x y z] [p q r] H. unfold mirror, vdot, vscale, vsub, vadd in *. simpl in *. field. exact H. Qed.

Lemma advancing_frames : forall c start stop m, advancing eps res c -> rmfUpdate eps res c start stop = Some m ->
  all_settled eps (rm_frames m) /\ forall i f, nth_error (rm_frames m) i = Some f -> fr_u f = INR i / INR res.
Proof.
  intros c start stop m Ad Hup. destruct (update_spec eps c res start stop m Hup) as (t0 & last & T & Ec & L & F0 & _ & _ & _ & C).
  assert (U : forall i f, nth_error (rm_frames m) i = Some f -> fr_u f = INR i / INR res).
  { induction i as [|i IH]; intros f E.
    - rewrite F0 in E. injection E as <-. cbn. unfold Rdiv. ring.
    - assert (Hi : (i < res)%nat). { assert (S i < length (rm_frames m))%nat by (apply nth_error_Some; congruence). lia. }
      destruct (nth_error (rm_frames m) i) as [a|] eqn:Ea; [|apply nth_error_None in Ea; lia].
      destruct (C i a Hi Ea) as (b & Eb & Nb). assert (b = f) by congruence. subst b. specialize (IH a eq_refl).
      destruct (frame_point eps c res start stop m Hp Hres Hup i a Ea) as [Pa _].
      destruct (nextFrame_cases eps c Hp a _ f Nb) as [[_ Lt]|(_ & _ & Eu & _)]; [|exact Eu].
      exfalso. destruct (Ad i Hi) as [D _]. cbv zeta in D. rewrite Pa, IH in Lt. lra. }
  split; [|exact U]. intros i f f' E E'.
  assert (Hi : (i < res)%nat). { assert (S i < length (rm_frames m))%nat by (apply nth_error_Some; congruence). lia. }
  right. cbv zeta. right. destruct (Ad i Hi) as [D1 D2]. cbv zeta in D1, D2.
  destruct (frame_point eps c res start stop m Hp Hres Hup i f E) as [P1 Q1].
  destruct (frame_point eps c res start stop m Hp Hres Hup (S i) f' E') as [P2 Q2].
  rewrite (U _ _ E) in P1, Q1. rewrite (U _ _ E') in P2, Q2. rewrite P1, P2.
  specialize (D2 _ _ (normalize_directs _ _ Q1) (normalize_directs _ _ Q2)).
  set (v := cpt c (INR (S i) / INR res) -v cpt c (INR i / INR res)) in *.
  rewrite <- (mirror_along v) in D2 by lra. set (w := fr_d f' -v mirror v (fr_d f)) in *.
  pose proof (cauchy w v) as CS. apply (Rmult_le_reg_r (vdot v v)); [lra|]. lra.
Qed.

Lemma directs_unique : forall a b v, directs a v -> directs b v -> a = b.
Proof.
  intros a b v (_ & P & E) (_ & _ & E'). assert (X : a *v vnorm v = b *v vnorm v) by congruence.
  destruct a as [x y z], b as [p q r]. unfold vscale in X. simpl in X. injection X as X1 X2 X3.
  f_equal; eapply Rmult_eq_reg_r; try eassumption; lra.
Qed.
Lemma project_zero : forall n v, unitv n -> (projectOut n v = vzero <-> vcross v n = vzero).
Proof.
  intros n v U. split; intros H.
  - unfold projectOut in H. destruct n as [a b c], v as [x y z]. unfold vcross, vsub, vscale, vdot, vzero in *. simpl in *. injection H as H1 H2 H3.
    set (k := x * a + y * b + z * c) in *. replace x with (a * k) by lra. replace y with (b * k) by lra. replace z with (c * k) by lra. f_equal; ring.
  - apply vdot_zero. assert (X : vdot (vcross v n) (vcross v n) = 0) by (rewrite H; unfold vdot, vzero; simpl; ring).
    unfold unitv in U. destruct n as [a b c], v as [x y z]. unfold projectOut, vcross, vsub, vscale, vdot, vzero in *. simpl in *.
    set (k := x * a + y * b + z * c) in *.
    replace ((x - a * k) * (x - a * k) + (y - b * k) * (y - b * k) + (z - c * k) * (z - c * k))
      with ((x * x + y * y + z * z) - 2 * k * k + k * k * (a * a + b * b + c * c)) by (unfold k; ring).
    rewrite U. replace (x * x + y * y + z * z) with ((x * x + y * y + z * z) * (a * a + b * b + c * c)) by (rewrite U; ring).
    rewrite <- X. unfold k; ring.
Qed.
Lemma normalize_vdiv : forall v, vdiv v (vnorm v) = vnormalize v. Proof. reflexivity. Qed.

(** The default handler. *)
Lemma handler_default : forall c start stop m pt nt, rmfUpdate eps res c start stop = Some m -> unitv start ->
  (forall u, 0 <= u <= 1 -> cder c u <> vzero) -> pt <> vzero -> nt <> vzero ->
  (exists h, handlerValue (normalOf eps None (Some m)) pt nt None = Some h) <->
  (forall n a b, rmfEval eps m (1 / 2) = Some n -> directs a pt -> directs b nt -> vcross (a +v b) n <> vzero).
Proof.
  intros c start stop m pt nt Hup Us Rg Np Nn. unfold handlerValue, normalOf. cbn [bind].
  destruct (C30_eval_defined eps res c start stop m (1 / 2) Hp Hres Hup Us ltac:(lra) ltac:(apply Rg; lra)) as (n & En & Un).
  rewrite En. cbn [bind]. rewrite !normalize_vdiv. destruct (normalize_some _ Np) as [a Ea]. destruct (normalize_some _ Nn) as [b Eb].
  rewrite Ea, Eb. cbn [bind]. apply normalize_directs in Ea. apply normalize_directs in Eb. split.
  - intros [h Eh] n' a' b' E' A B. injection E' as <-. rewrite (directs_unique _ _ _ A Ea), (directs_unique _ _ _ B Eb).
    intros Z. apply (project_zero n _ Un) in Z. rewrite Z in Eh. destruct (normalize_inv _ _ Eh) as (_ & N & _). apply N.
    unfold vnorm, vdot, vzero; simpl. replace (0 * 0 + 0 * 0 + 0 * 0) with 0 by ring. apply sqrt_0.
  - intros H. apply normalize_some. intros Z. apply (project_zero n _ Un) in Z. revert Z. apply H; [reflexivity|exact Ea|exact Eb].
Qed.
End Frames.

(** ** One ribbon *)
Section Side.
Variables (eps : R) (res : nat).
Hypotheses (Hp : 0 < eps) (Hres : (1 <= res)%nat).
Variables (cp c cn : curve).
Hypotheses (Hc : good_side eps res c) (X0 : vcross (cder cp 1) (cder c 0) <> vzero) (X1 : vcross (cder c 1) (cder cn 0) <> vzero).

Lemma side_frames : exists st m, ribbonUpdate eps res cp c cn = Some m /\ unitv st /\ (exists en, rmfUpdate eps res c st en = Some m) /\ rm_curve m = c /\
  all_settled eps (rm_frames m) /\ forall f, nth_error (rm_frames m) res = Some f -> fr_u f = 1.
Proof.
  destruct (normalize_some _ X0) as [st E0]. destruct (normalize_some _ X1) as [en E1].
  destruct (good_proper eps res Hres c Hc) as (Rg & Ln & Lg).
  destruct (update_total eps c res st en Hp Hres Rg Ln Lg) as [m Em].
  destruct (update_spec eps c res st en m Em) as (_ & _ & _ & Rc & _).
  destruct (advancing_frames eps res Hp Hres c st en m (proj2 (proj2 Hc)) Em) as [A B].
  exists st, m. split; [unfold ribbonUpdate; rewrite E0; cbn [bind]; rewrite E1; exact Em|]. split; [apply (normalize_directs _ _ E0)|].
  split; [exists en; exact Em|]. split; [exact Rc|]. split; [exact A|]. intros f E. rewrite (B _ _ E). field. apply not_0_INR. lia.
Qed.

Lemma side_derive : forall kd, kd = RKCompatible \/ kd = RKHandler /\ bisected eps res cp c cn ->
  exists d, ribDerive kd eps res cp c cn 1 None None = Some d /\
    (forall u, 0 <= u <= 1 -> exists x, ribCross kd eps c None d u = Some x) /\
    ribCross kd eps c None d 0 = Some (vopp (cder cp 1)) /\ ribCross kd eps c None d 1 = Some (cder cn 0).
Proof.
  intros kd K. destruct side_frames as (st & m & Eu & Us & (en & Em) & Rc & St & La). destruct Hc as (Rg & _).
  destruct (cross_nonzero _ _ X0) as [Np _]. destruct (cross_nonzero _ _ X1) as [_ Nn].
  assert (Eta : mkRmf c (rm_frames m) (rm_angle m) = m) by (rewrite <- Rc; destruct m; reflexivity).
  assert (Nr : forall u, 0 <= u <= 1 -> exists n, rmfEval eps m u = Some n).
  { intros u Hu. apply (eval_defined eps c res st en m Hp Em u); [lra|apply Rg; exact Hu]. }
  unfold ribDerive. rewrite Eu. cbn [bind]. destruct K as [-> | [-> Bs]].
  - eexists. split; [reflexivity|]. unfold ribCross. cbn [rd_frames rd_angle rd_pt rd_nt]. rewrite Eta. unfold normalOf. cbn [bind].
    destruct (C32_fence eps res cp c cn m vzero Hp Hres Eu) as (F0 & _ & F1). destruct (F1 St La) as [F2 _].
    split; [|split; [exact F0|exact F2]]. intros u Hu. unfold crossCompatible. destruct (Nr u Hu) as [n ->]. cbn [bind]. eexists; reflexivity.
  - assert (Np' : prevTangent cp <> vzero).
    { intros Z. apply Np. unfold prevTangent, vopp, vzero in Z. destruct (cder cp 1) as [x y z]. simpl in Z. injection Z as Z1 Z2 Z3. unfold vzero; f_equal; lra. }
    destruct (proj2 (handler_default eps res Hp Hres c st en m (prevTangent cp) (nextTangent cn) Em Us Rg Np' Nn)) as [h Eh].
    { intros n a b En Da Db. apply (Bs m n a b Eu En Da Db). }
    rewrite Eh. cbn [bind]. eexists. split; [reflexivity|]. unfold ribCross. cbn [rd_frames rd_angle rd_pt rd_nt rd_central]. rewrite Eta. unfold normalOf. cbn [bind].
    destruct (C32_fence eps res cp c cn m (centralValue (prevTangent cp) (nextTangent cn) h 1) Hp Hres Eu) as (_ & F0 & F1). destruct (F1 St La) as [_ F2].
    split; [|split; [exact F0|exact F2]]. intros u Hu. unfold crossHandler. destruct (Nr u Hu) as [n ->]. cbn [bind]. eexists; reflexivity.
Qed.

Lemma side_bisected : forall d, ribDerive RKHandler eps res cp c cn 1 None None = Some d -> bisected eps res cp c cn.
Proof.
  intros d Hd. destruct side_frames as (st & m & Eu & Us & (en & Em) & Rc & St & La). destruct Hc as (Rg & _).
  destruct (cross_nonzero _ _ X0) as [Np _]. destruct (cross_nonzero _ _ X1) as [_ Nn].
  assert (Np' : prevTangent cp <> vzero).
  { intros Z. apply Np. unfold prevTangent, vopp, vzero in Z. destruct (cder cp 1) as [x y z]. simpl in Z. injection Z as Z1 Z2 Z3. unfold vzero; f_equal; lra. }
  unfold ribDerive in Hd. rewrite Eu in Hd. cbn [bind] in Hd. binv Hd.
  pose proof (proj1 (handler_default eps res Hp Hres c st en m (prevTangent cp) (nextTangent cn) Em Us Rg Np' Nn) (ex_intro _ _ E)) as H.
  intros m' n a b Eu' En Da Db. assert (m' = m) by congruence. subst m'. apply (H n a b En Da Db).
Qed.
End Side.

(** ** The objects *)
Lemma reverse_twice : forall c, reverseCurve (reverseCurve c) = c.
Proof.
  intros [p d l]. unfold reverseCurve. cbn [cpt cder clen]. f_equal.
  - extensionality u. f_equal. ring.
  - extensionality u. replace (1 - (1 - u)) with u by ring. destruct (d u); unfold vopp; simpl; f_equal; ring.
  - extensionality a. extensionality b. f_equal; ring.
Qed.

Section World.
Variables (eps : R) (res : nat).
Hypotheses (Hp : 0 < eps) (Hres : (1 <= res)%nat).
Variables (cs : list curve).
Hypotheses (HL : good_loop eps res cs).
(** Surface [k], with use_gamma_. *)
Variables (k : nat) (gm : bool).
Let n := length cs.

Definition plainRib (o : ribObj) : Prop := ro_mult o = 1 /\ ro_handler o = None /\ ro_fence o = None.
Definition PP (i : nat) : V3 := match nth_error cs i with Some c => cpt c 1 | None => vzero end.
Lemma n_three : (3 <= n)%nat. Proof. exact (proj1 HL). Qed.
Lemma cs_some : forall i, (i < n)%nat -> exists c, nth_error cs i = Some c. Proof. intros i H. apply nth_error_ex. exact H. Qed.
Lemma PP_at : forall i c, nth_error cs i = Some c -> PP i = cpt c 1. Proof. intros i c E. unfold PP. rewrite E. reflexivity. Qed.
Lemma PP_before : forall i c, nth_error cs i = Some c -> PP (prv n i) = cpt c 0.
Proof.
  intros i c E. pose proof n_three. assert (Hi : (i < n)%nat) by (eapply nth_lt; exact E).
  destruct (cs_some (prv n i) ltac:(apply prv_lt; lia)) as [c' E']. rewrite (PP_at _ _ E').
  destruct HL as (_ & _ & J & _). apply (J (prv n i) c' c E'). rewrite nxt_prv by exact Hi. exact E.
Qed.
Lemma runs_zero : forall c p q, runs 0 c p q <-> cpt c 0 = p /\ cpt c 1 = q.
Proof.
  assert (Z : forall a, close 0 a a).
  { intros a. unfold close. replace (a -v a) with vzero by (destruct a; unfold vsub, vzero; simpl; f_equal; ring). unfold vnorm, vdot, vzero; simpl. replace (0 * 0 + 0 * 0 + 0 * 0) with 0 by ring. rewrite sqrt_0. lra. }
  intros c p q. split.
  - intros [A B]. split; apply close_zero; assumption.
  - intros [<- <-]. split; apply Z.
Qed.
(** Around the loop after setupLoop and after update. *)
Record around (w : world) : Prop := mkAround {
  ar_wf : wf1 w;
  ar_surf : exists s, nth_error (w_surfs w) k = Some s /\ so_n s = n /\ so_gamma s = gm;
  ar_link : linked w k n;
  ar_plain : forall i, (i < n)%nat -> exists o, ribbonAt w k i = Some o /\ plainRib o;
  ar_curve : forall i, (i < n)%nat -> sideCurve w k i = nth_error cs i }.

Lemma keeps_around : forall w w', keeps w w' -> wf1 w' -> linked w' k n -> w_curves w' = w_curves w -> around w -> around w'.
Proof.
  intros w w' K W L C [_ (s & Hs & Sn & Sg) _ Pl Cv]. split; [exact W| |exact L| |].
  - destruct K as (_ & B & _). specialize (B k). unfold surfKey in B. rewrite Hs in B. cbn [option_map] in B.
    destruct (nth_error (w_surfs w') k) as [s'|] eqn:E; [|discriminate B]. cbn [option_map] in B. injection B as B1 B2 B3 B4. exists s'. repeat split; congruence.
  - intros i Hi. destruct (Pl i Hi) as (o & Ho & P1 & P2 & P3). pose proof (keeps_sideKey w w' k i K) as Q. rewrite !sideKey_at, Ho in Q. cbn in Q.
    destruct (ribbonAt w' k i) as [o'|]; [|discriminate]. cbn in Q. injection Q as Q1 Q2 Q3 Q4. exists o'. split; [reflexivity|]. repeat split; congruence.
  - intros i Hi. rewrite <- (Cv i Hi). unfold sideCurve. rewrite !sideObj_key, (keeps_sideKey w w' k i K), C. reflexivity.
Qed.

(** Before setupLoop: sides of their own, with nothing set, holding the curves of the loop in
    one of their directions. *)
Record prepared (w : world) : Prop := mkPrepared {
  pr_wf : wf1 w;
  pr_surf : exists s, nth_error (w_surfs w) k = Some s /\ so_n s = n /\ so_gamma s = gm;
  pr_plain : forall i, (i < n)%nat -> exists o, ribbonAt w k i = Some o /\ plainRib o;
  pr_curve : forall i c, nth_error cs i = Some c -> exists g, sideCurve w k i = Some g /\ (g = c \/ g = reverseCurve c);
  pr_apart : forall i j, (i < n)%nat -> (j < n)%nat -> sideObj w k i = sideObj w k j -> i = j }.
Lemma prepared_connects : forall wl, prepared wl -> connects 0 wl k n PP.
Proof.
  intros wl [_ (s & Hs & Sn & _) _ Cv Ap]. split; [unfold sideCount; rewrite Hs; cbn [bind]; rewrite Sn; reflexivity|]. split; [|exact Ap].
  intros i Hi. destruct (cs_some i Hi) as [c E]. destruct (Cv i c E) as (g & Eg & Q). exists g.
  split; [exact Eg|]. rewrite !runs_zero, (PP_at _ _ E), (PP_before _ _ E).
  destruct Q as [-> | ->]; [left; auto|right]. cbn [reverseCurve cpt]. replace (1 - 0) with 1 by ring. replace (1 - 1) with 0 by ring. auto.
Qed.
Lemma setup_around : forall wl, prepared wl -> exists w, setupLoop wl k = Some w /\ around w /\ keeps wl w /\
  (forall l, (forall i, (i < n)%nat -> sideObj wl k i <> Some l) -> nth_error (w_curves w) l = nth_error (w_curves wl) l).
Proof.
  intros wl Pw. pose proof n_three as N3. destruct HL as (_ & HS & HJ & HF).
  destruct (C35_orients 0 wl k n PP N3 (prepared_connects wl Pw)) as (w & E & O & Lk & _ & Cv & Oth & So).
  - intros i Hi. destruct (cs_some i Hi) as [c Ec]. rewrite (PP_at _ _ Ec), (PP_before _ _ Ec), Rmult_0_r. apply vdist_pos. apply (HS _ _ Ec).
  - rewrite Rmult_0_r. apply vdist_pos. destruct (cs_some 0 ltac:(lia)) as [c0 E0]. destruct (cs_some 1 ltac:(lia)) as [c1 E1].
    replace (n - 1)%nat with (prv n 0) by (rewrite prv_cases by lia; reflexivity). rewrite (PP_before _ _ E0), (PP_at _ _ E1). apply (HF _ _ E0 E1).
  - exists w. split; [exact E|]. pose proof (setupLoop_keeps _ _ _ E) as K. split; [|split; [exact K|exact Oth]]. destruct Pw as [Wl (s & Hs & Sn & Sg) Pl Cl _].
    assert (W : wf1 w) by (eapply keeps_wf1; [exact K|exact Wl]).
    split; [exact W| |exact Lk| |].
    + destruct K as (_ & B & _). specialize (B k). unfold surfKey in B. rewrite Hs in B. cbn [option_map] in B.
      destruct (nth_error (w_surfs w) k) as [s'|] eqn:Es; [|discriminate B]. cbn [option_map] in B. injection B as B1 B2 B3 B4. exists s'. repeat split; congruence.
    + intros i Hi. destruct (Pl i Hi) as (o & Ho & P1 & P2 & P3). pose proof (keeps_sideKey _ _ k i K) as Q. rewrite !sideKey_at, Ho in Q. cbn in Q.
      destruct (ribbonAt w k i) as [o'|]; [|discriminate]. cbn in Q. injection Q as Q1 Q2 Q3 Q4. exists o'. split; [reflexivity|]. repeat split; congruence.
    + intros i Hi. destruct (cs_some i Hi) as [c Ec]. destruct (Cl i c Ec) as (g & Eg & Q).
      destruct (Cv i g Hi Eg) as (c' & Ec' & Q'). rewrite Ec', Ec. apply (f_equal Some).
      destruct (O i Hi) as (x & Ex & Rx). assert (x = c') by congruence. subst x. rewrite runs_zero, (PP_at _ _ Ec), (PP_before _ _ Ec) in Rx. destruct Rx as [R0 _].
      destruct (HS i c Ec) as [_ Ne].
      assert (Rv : forall y, y = c \/ y = reverseCurve c -> cpt y 0 = cpt c 0 -> y = c).
      { intros y [-> | ->] H; [reflexivity|exfalso]. cbn [reverseCurve cpt] in H. replace (1 - 0) with 1 in H by ring. apply Ne. congruence. }
      apply Rv; [|exact R0]. destruct Q as [-> | ->], Q' as [-> | ->]; auto. left. apply reverse_twice.
Qed.

Section Around.
Variable (w : world).
Hypothesis (Aw : around w).
Lemma around_side : forall kd i s, (i < n)%nat -> nth_error (w_surfs w) k = Some s -> exists r o cp c cn,
  nth_error cs (prv n i) = Some cp /\ nth_error cs i = Some c /\ nth_error cs (nxt n i) = Some cn /\
  sideRib s i = Some r /\ nth_error (w_ribs w) r = Some o /\ nth_error (w_curves w) (ro_curve o) = Some c /\ ro_fence o = None /\
  derived kd eps res w o = ribDerive kd eps res cp c cn 1 None None.
Proof.
  intros kd i s Hi Hs. pose proof n_three as N3. destruct Aw as [W _ Lk Pl Cv].
  assert (At : forall j, (j < n)%nat -> exists r o c, nth_error cs j = Some c /\ sideRib s j = Some r /\ nth_error (w_ribs w) r = Some o /\ nth_error (w_curves w) (ro_curve o) = Some c /\ ribbonAt w k j = Some o).
  { intros j Hj. destruct (cs_some j Hj) as [c Ec]. specialize (Cv j Hj). rewrite Ec in Cv. unfold sideCurve, sideObj in Cv. binv Cv. binv E. injection E as E. subst x.
    assert (A := E0). unfold ribbonAt in E0. rewrite Hs in E0. cbn [bind] in E0. binv E0. exists x, x0, c. auto. }
  destruct (At i Hi) as (r & o & c & Ec & Hr & Ho & Hc & Ao).
  destruct (At (prv n i) ltac:(apply prv_lt; lia)) as (rp & op & cp & Ecp & Hrp & Hop & Hcp & _).
  destruct (At (nxt n i) ltac:(apply nxt_lt; lia)) as (rn & on & cn & Ecn & Hrn & Hon & Hcn & _).
  exists r, o, cp, c, cn. repeat (split; [assumption|]).
  destruct (Pl i Hi) as (o' & Ho' & P1 & P2 & P3). assert (o' = o) by congruence. subst o'. split; [exact P3|].
  destruct (Lk i s Hi Hs) as (o' & Ho2 & L1 & L2). assert (o' = o) by congruence. subst o'.
  unfold derived, lock. rewrite L1, L2, Hrp, Hrn. cbn [bind].
  rewrite (proj2 (alive_iff w rp)) by (exists k, s, (prv n i); auto). rewrite (proj2 (alive_iff w rn)) by (exists k, s, (nxt n i); auto).
  cbn [bind]. unfold ribCurve. rewrite Hop, Hon. cbn [bind]. rewrite Hcp, Hc, Hcn. cbn [bind]. rewrite P1, P2, P3. reflexivity.
Qed.
Lemma loop_side : forall i cp c cn, nth_error cs (prv n i) = Some cp -> nth_error cs i = Some c -> nth_error cs (nxt n i) = Some cn ->
  good_side eps res c /\ vcross (cder cp 1) (cder c 0) <> vzero /\ vcross (cder c 1) (cder cn 0) <> vzero /\ cpt c 1 = cpt cn 0.
Proof.
  intros i cp c cn Ep Ec En. destruct HL as (N3 & HS & HJ & _). fold n in N3, HJ. assert (Hi : (i < n)%nat) by (eapply nth_lt; exact Ec).
  split; [apply (HS i c Ec)|]. split; [|split].
  - assert (Ec' : nth_error cs (nxt n (prv n i)) = Some c) by (rewrite nxt_prv by exact Hi; exact Ec). apply (HJ (prv n i) cp c Ep Ec').
  - apply (HJ i c cn Ec En).
  - apply (HJ i c cn Ec En).
Qed.
Lemma around_update : forall kd, kd = RKCompatible \/ kd = RKHandler /\ all_bisected eps res cs ->
  exists w', updateAll kd eps res w k = Some w'.
Proof.
  intros kd K. destruct (ar_surf w Aw) as (s & Hs & Sn & _).
  destruct (update_from kd eps res Hres w k n s (wf_0 _ (ar_wf w Aw)) Hs Sn) as (w' & E & _); [|exists w'; exact E].
  intros i Hi. destruct (around_side kd i s Hi Hs) as (r & o & cp & c & cn & Ep & Ec & En & Hr & Ho & Hc & Fe & De).
  destruct (loop_side i cp c cn Ep Ec En) as (Gc & X0 & X1 & _).
  destruct (side_derive eps res Hp Hres cp c cn Gc X0 X1 kd) as (d & Ed & Dd & _).
  { destruct K as [-> | [-> B]]; [left; reflexivity|right]. split; [reflexivity|]. apply (B i cp c cn Ep Ec En). }
  exists r, o, d, c. repeat (split; [first [assumption | rewrite De; exact Ed]|]). rewrite Fe. exact Dd.
Qed.
Lemma around_after : forall kd w', updateAll kd eps res w k = Some w' -> around w'.
Proof.
  intros kd w' E. assert (R : wrun kd eps res w [OUpdate k] = Some w') by (unfold wrun; cbn [foldM wstep]; rewrite E; reflexivity).
  assert (W : wf1 w') by (eapply (run_wf1 kd eps res [OUpdate k] w w'); [repeat constructor; intros []|apply (ar_wf w Aw)|exact R]).
  destruct (ar_surf w Aw) as (s & Hs & Sn & _).
  destruct (linked_run kd eps res [OUpdate k] w w' k n) as [Lk _]; [repeat constructor; intros []|apply (ar_wf w Aw)|exact R| | |apply (ar_link w Aw)|].
  - intros o i [<-|[]] [].
  - unfold sideCount. rewrite Hs. cbn [bind]. rewrite Sn. reflexivity.
  - apply (keeps_around w w'); [eapply updateAll_keeps; exact E|exact W|exact Lk| |exact Aw].
    rewrite (updateAll_eq _ _ _ _ _ _ Hs) in E. binv E. binv E.
    destruct (updateDomain_inv _ _ _ E0) as (C1 & _). destruct (allRibbons_alike _ _ _ _ _ _ E1) as ((C2 & _) & _).
    unfold updateCorners in E. do 2 binv E. destruct (setSurf_inv _ _ _ _ E) as (_ & C3 & _). congruence.
Qed.
End Around.

Lemma mapM_intro : forall (B : Type) (f : nat -> option B) m l, length l = m -> (forall i b, nth_error l i = Some b -> f i = Some b) -> mapM f (seq 0 m) = Some l.
Proof.
  intros B f m l L H. destruct (mapM_some _ _ f (seq 0 m)) as [l' E].
  - intros i I. apply in_seq in I. destruct (nth_error_ex _ l i ltac:(lia)) as [b Eb]. exists b. apply H; exact Eb.
  - rewrite E. apply (f_equal Some). apply list_ext. intros j. pose proof (mapM_length _ _ _ E) as L'. rewrite seq_length in L'.
    destruct (le_lt_dec m j) as [G|G]; [rewrite !(proj2 (nth_error_None _ _)) by lia; reflexivity|].
    destruct (mapM_at _ f m l' j E G) as (b & Eb & Fb). destruct (nth_error_ex _ l j ltac:(lia)) as [b' Eb']. rewrite (H _ _ Eb') in Fb. congruence.
Qed.

(** The surface that results. *)
Lemma view_ready : forall kd w w', around w -> updateAll kd eps res w k = Some w' ->
  kd = RKCompatible \/ kd = RKHandler /\ all_bisected eps res cs ->
  exists sf, viewSurface kd eps w' k = Some sf /\ sf_n sf = n /\ sf_gamma sf = gm /\ map sr_curve (sf_ribbons sf) = cs /\ ready sf.
Proof.
  intros kd w w' Aw E K. pose proof n_three as N3. assert (Aw' := around_after w Aw kd w' E). destruct (ar_surf w' Aw') as (s & Hs & Sn & Sg).
  destruct (fresh_update kd eps res w k w' n (wf_0 _ (ar_wf w Aw)) E) as [(s0 & Hs0 & Lc & _ & OkR & OkC) _].
  assert (s0 = s) by congruence. subst s0. rewrite Sn in Lc, OkR, OkC.
  assert (At : forall i, (i < n)%nat -> exists r rb cp c cn, nth_error cs (prv n i) = Some cp /\ nth_error cs i = Some c /\ nth_error cs (nxt n i) = Some cn /\
     sideRib s i = Some r /\ viewRibbon kd eps w' r = Some rb /\ sr_curve rb = c /\ ribCurve w' r = Some c /\ (forall u, crossAt kd eps w' r u = sr_cross rb u) /\
     (forall u, 0 <= u <= 1 -> exists x, sr_cross rb u = Some x) /\ sr_cross rb 0 = Some (vopp (cder cp 1)) /\ sr_cross rb 1 = Some (cder cn 0)).
  { intros i Hi. destruct (around_side w' Aw' kd i s Hi Hs) as (r & o & cp & c & cn & Ep & Ec & En & Hr & Ho & Hc & Fe & De).
    destruct (loop_side i cp c cn Ep Ec En) as (Gc & X0 & X1 & _).
    destruct (side_derive eps res Hp Hres cp c cn Gc X0 X1 kd) as (d & Ed & D1 & D2 & D3).
    { destruct K as [-> | [-> B]]; [left; reflexivity|right]. split; [reflexivity|]. apply (B i cp c cn Ep Ec En). }
    destruct (OkR i Hi ltac:(lia)) as (r' & o' & d' & Hr' & Ho' & Hd' & Dd'). assert (r' = r) by congruence. subst r'. assert (o' = o) by congruence. subst o'.
    rewrite De, Ed in Dd'. injection Dd' as <-.
    exists r, (mkRib c (ribCross kd eps c None d)), cp, c, cn. repeat (split; [assumption|]). unfold viewRibbon, ribCurve, crossAt. rewrite Ho. cbn [bind]. rewrite Hc. cbn [bind]. rewrite Hd'. cbn [bind sr_curve sr_cross]. rewrite Fe.
    repeat (split; [first [reflexivity | assumption]|]). exact D3. }
  destruct (mapM_some _ _ (fun i => r <- sideRib s i ;; viewRibbon kd eps w' r) (seq 0 n)) as [rs Er].
  { intros i I. apply in_seq in I. destruct (At i ltac:(lia)) as (r & rb & _ & _ & _ & _ & _ & _ & Hr & Hv & _). exists rb. rewrite Hr. exact Hv. }
  pose proof (mapM_length _ _ _ Er) as Lr. rewrite seq_length in Lr.
  assert (Rn : forall i, (i < n)%nat -> exists r rb cp c cn, nth_error cs (prv n i) = Some cp /\ nth_error cs i = Some c /\ nth_error cs (nxt n i) = Some cn /\
     sideRib s i = Some r /\ nth_error rs i = Some rb /\ sr_curve rb = c /\ ribCurve w' r = Some c /\ (forall u, crossAt kd eps w' r u = sr_cross rb u) /\
     (forall u, 0 <= u <= 1 -> exists x, sr_cross rb u = Some x) /\ sr_cross rb 0 = Some (vopp (cder cp 1)) /\ sr_cross rb 1 = Some (cder cn 0)).
  { intros i Hi. destruct (At i Hi) as (r & rb & cp & c & cn & A1 & A2 & A3 & A4 & A5 & A6). exists r, rb, cp, c, cn. repeat (split; [assumption|]).
    destruct (mapM_at _ _ n rs i Er Hi) as (b & Eb & Fb). rewrite A4 in Fb. cbn [bind] in Fb. assert (b = rb) by congruence. subst b. split; [exact Eb|exact A6]. }
  exists (mkSurf n gm rs (so_corners s)). split; [unfold viewSurface; rewrite Hs; cbn [bind]; rewrite Sn, Er, Sg; reflexivity|].
  cbn [sf_n sf_gamma sf_ribbons sf_corners]. split; [reflexivity|]. split; [reflexivity|]. split.
  - apply list_ext. intros j. rewrite nth_error_map. destruct (le_lt_dec n j) as [G|G].
    + rewrite !(proj2 (nth_error_None _ _)); [reflexivity|exact G|lia].
    + destruct (Rn j G) as (r & rb & cp & c & cn & _ & Ec & _ & _ & Eb & Cb & _). rewrite Eb, Ec. cbn. rewrite Cb. reflexivity.
  - unfold ready. cbn [sf_n sf_ribbons sf_corners]. split; [split; [exact Lr|split]|].
    + intros i r u Hr Hu. assert (Hi : (i < n)%nat) by (rewrite <- Lr; eapply nth_lt; exact Hr). destruct (Rn i Hi) as (_ & rb & _ & _ & _ & _ & _ & _ & _ & Eb & _ & _ & _ & D & _).
      assert (rb = r) by congruence. subst rb. apply D; exact Hu.
    + intros i r rp Hr Hrp. assert (Hi : (i < n)%nat) by (rewrite <- Lr; eapply nth_lt; exact Hr).
      destruct (Rn i Hi) as (_ & rb & cp & c & cn & E1 & E2 & E3 & _ & Eb & Cb & _ & _ & _ & _ & D1). assert (rb = r) by congruence. subst rb.
      destruct (Rn (nxt n i) ltac:(apply nxt_lt; lia)) as (_ & rb & cp' & c' & cn' & E1' & E2' & E3' & _ & Eb' & Cb' & _ & _ & _ & D0 & _). assert (rb = rp) by congruence. subst rb.
      rewrite prv_nxt in E1' by exact Hi. assert (Q1 : sr_curve rp = cn) by congruence. assert (Q2 : cp' = c) by congruence. rewrite Q2 in D0. rewrite Cb, Q1.
      split; [apply (loop_side i cp c cn E1 E2 E3)|]. split; [exact D1|exact D0].
    + unfold SurfaceModel.updateCorners. apply mapM_intro; [exact Lc|]. intros i b Hb. assert (Hi : (i < n)%nat) by (rewrite <- Lc; eapply nth_lt; exact Hb).
      destruct (OkC i Hi) as (b' & Eb' & Fb'); [lia|lia|]. assert (b' = b) by congruence. subst b'. rewrite <- Fb'. unfold SurfaceModel.updateCorner, cornerOf. rewrite Sn.
      destruct (Rn i Hi) as (r & rb & cp & c & cn & E1 & E2 & E3 & Hr & Eb & Cb & Rc & Cx & _). rewrite Hr, Eb. cbn [bind].
      destruct (Rn (nxt n i) ltac:(apply nxt_lt; lia)) as (r2 & rb2 & _ & c2 & _ & _ & _ & _ & Hr2 & Eb2 & Cb2 & Rc2 & Cx2 & _). rewrite Hr2, Eb2. cbn [bind].
      rewrite Rc, Rc2. cbn [bind]. rewrite !Cx, !Cx2, Cb, Cb2. reflexivity.
Qed.

(** What the update leaves with the sides. *)
Lemma around_data : forall kd w w', around w -> updateAll kd eps res w k = Some w' ->
  around w' /\ exists s, nth_error (w_surfs w') k = Some s /\ so_n s = n /\ so_gamma s = gm /\ forall i, (i < n)%nat -> exists r o cp c cn d,
    nth_error cs (prv n i) = Some cp /\ nth_error cs i = Some c /\ nth_error cs (nxt n i) = Some cn /\ good_side eps res c /\
    vcross (cder cp 1) (cder c 0) <> vzero /\ vcross (cder c 1) (cder cn 0) <> vzero /\
    sideRib s i = Some r /\ nth_error (w_ribs w') r = Some o /\ nth_error (w_curves w') (ro_curve o) = Some c /\ ro_fence o = None /\ ro_data o = Some d /\
    ribDerive kd eps res cp c cn 1 None None = Some d.
Proof.
  intros kd w w' Aw E. pose proof n_three as N3. assert (Aw' := around_after w Aw kd w' E). split; [exact Aw'|]. destruct (ar_surf w' Aw') as (s & Hs & Sn & Sg).
  destruct (fresh_update kd eps res w k w' n (wf_0 _ (ar_wf w Aw)) E) as [(s0 & Hs0 & Lc & _ & OkR & OkC) _].
  assert (s0 = s) by congruence. subst s0. rewrite Sn in OkR. exists s. repeat (split; [assumption|]).
  intros i Hi. destruct (around_side w' Aw' kd i s Hi Hs) as (r & o & cp & c & cn & Ep & Ec & En & Hr & Ho & Hc & Fe & De).
  destruct (loop_side i cp c cn Ep Ec En) as (Gc & X0 & X1 & _).
  destruct (OkR i Hi ltac:(lia)) as (r' & o' & d' & Hr' & Ho' & Hd' & Dd'). assert (r' = r) by congruence. subst r'. assert (o' = o) by congruence. subst o'.
  exists r, o, cp, c, cn, d'. repeat (split; [assumption|]). rewrite <- De. exact Dd'.
Qed.
(** So the view of the surface is the same for all histories. *)
Lemma view_ribs : forall kd w w' sf, around w -> updateAll kd eps res w k = Some w' -> viewSurface kd eps w' k = Some sf ->
  length (sf_ribbons sf) = n /\ forall i rb, nth_error (sf_ribbons sf) i = Some rb -> exists cp c cn d,
    nth_error cs (prv n i) = Some cp /\ nth_error cs i = Some c /\ nth_error cs (nxt n i) = Some cn /\
    ribDerive kd eps res cp c cn 1 None None = Some d /\ rb = mkRib c (ribCross kd eps c None d).
Proof.
  intros kd w w' sf Aw E V. destruct (around_data kd w w' Aw E) as (_ & s & Hs & Sn & Sg & Dt). unfold viewSurface in V. rewrite Hs in V. cbn [bind] in V.
  rewrite Sn in V. binv V. injection V as <-. cbn [sf_ribbons]. pose proof (mapM_length _ _ _ E0) as L. rewrite seq_length in L. split; [exact L|].
  intros i rb Hb. assert (Hi : (i < n)%nat) by (rewrite <- L; eapply nth_lt; exact Hb).
  destruct (Dt i Hi) as (r & o & cp & c & cn & d & Ep & Ec & En & _ & _ & _ & Hr & Ho & Hc & Fe & Hd & Dd). exists cp, c, cn, d. repeat (split; [assumption|]).
  destruct (mapM_at _ _ n x i E0 Hi) as (b & Eb & Fb). assert (b = rb) by congruence. subst b. rewrite Hr in Fb. cbn [bind] in Fb.
  unfold viewRibbon in Fb. rewrite Ho in Fb. cbn [bind] in Fb. rewrite Hc, Hd in Fb. cbn [bind] in Fb. rewrite Fe in Fb. injection Fb as <-. reflexivity.
Qed.

(** setCurves with objects of their own *)
Definition holds (w : world) (l : cloc) (c : curve) : Prop := exists g, nth_error (w_curves w) l = Some g /\ (g = c \/ g = reverseCurve c).
Lemma Forall2_at : forall (A B : Type) (P : A -> B -> Prop) l l', Forall2 P l l' -> length l = length l' /\ forall i b, nth_error l' i = Some b -> exists a, nth_error l i = Some a /\ P a b.
Proof.
  intros A B P l l' F. induction F as [|a b l l' H F IH]; [split; [reflexivity|intros [|i] b H; discriminate]|]. destruct IH as [IL IH]. split; [cbn; rewrite IL; reflexivity|].
  intros [|i] b' E; cbn in E |- *; [injection E as <-; exists a; auto|apply IH; exact E].
Qed.
Lemma prepare : forall w ls s, wf1 w -> nth_error (w_surfs w) k = Some s -> so_gamma s = gm -> NoDup ls -> Forall2 (holds w) ls cs ->
  exists wl, setCurves w k ls = Some wl /\ prepared wl /\ w_curves wl = w_curves w /\ forall i, (i < n)%nat -> sideObj wl k i = nth_error ls i.
Proof.
  intros w ls s W Hs Sg Nd F. destruct (Forall2_at _ _ _ _ _ F) as [Ll At]. fold n in Ll.
  set (s' := mkSob (length ls) (so_gamma s) (so_dom s) (map Some (seq (length (w_ribs w)) (length ls))) (so_corners s)).
  assert (Ex : exists wl, setCurves w k ls = Some wl /\ w_curves wl = w_curves w /\ w_ribs wl = w_ribs w ++ map newRibbon ls /\ nth_error (w_surfs wl) k = Some s').
  { unfold setCurves. rewrite Hs. cbn [bind]. pose proof (wf_dom _ (wf_0 _ W) k s Hs) as Ld. destruct (nth_error_ex _ (w_doms w) (so_dom s) Ld) as [d Ed]. rewrite Ed. cbn [bind].
    unfold setDom. cbn [w_doms w_curves w_ribs w_surfs]. destruct (upd_some _ (w_doms w) (so_dom s) (mkDob (map Some ls) (do_layout d)) Ld) as [ld El]. rewrite El. cbn [bind].
    unfold setSurf. cbn [w_doms w_curves w_ribs w_surfs]. assert (Lk : (k < length (w_surfs w))%nat) by (eapply nth_lt; exact Hs).
    destruct (upd_some _ (w_surfs w) k s' Lk) as [lw Ew]. fold s'. rewrite Ew. cbn [bind]. eexists. split; [reflexivity|]. cbn [w_curves w_ribs w_surfs]. split; [reflexivity|]. split; [reflexivity|].
    destruct (upd_inv _ _ _ _ _ Ew) as (_ & _ & Un). rewrite Un, Nat.eqb_refl. reflexivity. }
  destruct Ex as (wl & E & C & Rb & Hs'). exists wl. split; [exact E|].
  assert (W' : wf1 wl).
  { apply (run_wf1 RKCompatible eps res [OSetCurves k ls] w wl); [repeat constructor; intros []|exact W|]. unfold wrun. cbn [foldM wstep]. rewrite E. reflexivity. }
  assert (Sd : forall i l, nth_error ls i = Some l -> ribbonAt wl k i = Some (newRibbon l)).
  { intros i l Hl. assert (Hi : (i < length ls)%nat) by (eapply nth_lt; exact Hl). unfold ribbonAt. rewrite Hs'. cbn [bind]. unfold sideRib, s'. cbn [so_ribs].
    rewrite nth_error_map, seq_nth_error. destruct (Nat.ltb_spec i (length ls)); [|lia]. cbn [option_map bind]. rewrite Rb, nth_error_app2 by lia.
    replace (length (w_ribs w) + i - length (w_ribs w))%nat with i by lia. rewrite nth_error_map, Hl. reflexivity. }
  assert (So : forall i, (i < n)%nat -> sideObj wl k i = nth_error ls i).
  { intros i Hi. destruct (nth_error_ex _ ls i ltac:(lia)) as [l Hl]. unfold sideObj. rewrite (Sd i l Hl), Hl. reflexivity. }
  split; [|split; [exact C|exact So]]. split; [exact W'| | | |].
  - exists s'. split; [exact Hs'|]. split; [exact Ll|exact Sg].
  - intros i Hi. destruct (nth_error_ex _ ls i ltac:(lia)) as [l Hl]. exists (newRibbon l). split; [apply Sd; exact Hl|]. repeat split.
  - intros i c Ec. assert (Hi : (i < n)%nat) by (eapply nth_lt; exact Ec). destruct (At i c Ec) as (l & Hl & g & Eg & Q). exists g. split; [|exact Q].
    unfold sideCurve. rewrite (So i Hi), Hl. cbn [bind]. rewrite C. exact Eg.
  - intros i j Hi Hj H. rewrite (So i Hi), (So j Hj) in H. apply (proj1 (NoDup_nth_error ls) Nd i j ltac:(lia) H).
Qed.

(** setCurves, setupLoop and update *)
Lemma loop_run : forall kd w ls s, wf1 w -> nth_error (w_surfs w) k = Some s -> so_gamma s = gm -> NoDup ls -> Forall2 (holds w) ls cs ->
  kd = RKCompatible \/ kd = RKHandler /\ all_bisected eps res cs ->
  exists w1 w', around w1 /\ updateAll kd eps res w1 k = Some w' /\ wrun kd eps res w [OSetCurves k ls; OSetupLoop k; OUpdate k] = Some w' /\
    forall l, ~ In l ls -> nth_error (w_curves w') l = nth_error (w_curves w) l.
Proof.
  intros kd w ls s W Hs Sg Nd F K. destruct (prepare w ls s W Hs Sg Nd F) as (wl & El & Pl & Cl & So). destruct (setup_around wl Pl) as (w1 & E1 & A1 & _ & Oth).
  destruct (around_update w1 A1 kd K) as [w' E']. exists w1, w'. split; [exact A1|]. split; [exact E'|]. split.
  - unfold wrun. cbn [foldM wstep]. rewrite El. cbn [bind]. rewrite E1. cbn [bind]. rewrite E'. reflexivity.
  - intros l Nl. assert (C' : w_curves w' = w_curves w1).
    { destruct (ar_surf w1 A1) as (s1 & Hs1 & _). rewrite (updateAll_eq _ _ _ _ _ _ Hs1) in E'. binv E'. binv E'.
      destruct (updateDomain_inv _ _ _ E) as (C1 & _). destruct (allRibbons_alike _ _ _ _ _ _ E0) as ((C2 & _) & _).
      unfold updateCorners in E'. do 2 binv E'. destruct (setSurf_inv _ _ _ _ E') as (_ & C3 & _). congruence. }
    rewrite C', <- Cl. apply Oth. intros i Hi H. rewrite (So i Hi) in H. apply Nl. eapply nth_error_In. exact H.
Qed.
Lemma loop_bisected : forall w ls s w', wf1 w -> nth_error (w_surfs w) k = Some s -> so_gamma s = gm -> NoDup ls -> Forall2 (holds w) ls cs ->
  wrun RKHandler eps res w [OSetCurves k ls; OSetupLoop k; OUpdate k] = Some w' -> all_bisected eps res cs.
Proof.
  intros w ls s w' W Hs Sg Nd F R. destruct (prepare w ls s W Hs Sg Nd F) as (wl & El & Pl & Cl & So). destruct (setup_around wl Pl) as (w1 & E1 & A1 & _ & _).
  unfold wrun in R. cbn [foldM wstep] in R. rewrite El in R. cbn [bind] in R. rewrite E1 in R. cbn [bind] in R. binv R. injection R as ->.
  destruct (around_data RKHandler w1 w' A1 E) as (_ & s' & Hs' & _ & _ & Dt). intros i cp c cn Ep Ec En. fold n in Ep, En.
  assert (Hi : (i < n)%nat) by (eapply nth_lt; exact Ec).
  destruct (Dt i Hi) as (r & o & cp' & c' & cn' & d & Ep' & Ec' & En' & Gc & X0 & X1 & _ & _ & _ & _ & _ & Dd).
  assert (cp' = cp) by congruence. assert (c' = c) by congruence. assert (cn' = cn) by congruence. subst.
  exact (side_bisected eps res Hp Hres cp c cn Gc X0 X1 d Dd).
Qed.
End World.

(** ** A new surface *)
Lemma given_length : forall given cs, given_as given cs -> length given = length cs.
Proof. intros given cs H. apply (Forall2_at _ _ _ _ _ H). Qed.
Section Build.
Variables (eps : R) (res : nat).
Hypotheses (Hp : 0 < eps) (Hres : (1 <= res)%nat).
Variables (given cs : list curve).
Hypotheses (Hg : given_as given cs) (HL : good_loop eps res cs).

Definition firstWorld : world := mkWorld given [] [mkDob [] None] [mkSob 0%nat true 0%nat [] []].
Lemma first_new : forall kd ops, wrun kd eps res (startWorld given) (ONew :: ops) = wrun kd eps res firstWorld ops.
Proof. reflexivity. Qed.
Lemma first_wf : wf1 firstWorld.
Proof. apply (run_wf1 RKCompatible eps res [ONew] (startWorld given)); [repeat constructor; intros []|apply start_wf1|reflexivity]. Qed.
Lemma first_holds : Forall2 (holds firstWorld) (seq 0 (length given)) cs.
Proof.
  assert (G : forall l l', given_as l l' -> forall p, Forall2 (fun x c => exists g, nth_error (p ++ l) x = Some g /\ (g = c \/ g = reverseCurve c)) (seq (length p) (length l)) l').
  { intros l l' F. induction F as [|g c l l' H F IH]; intros p; [constructor|]. cbn [length seq]. constructor.
    - exists g. split; [|exact H]. rewrite nth_error_app2, Nat.sub_diag by lia. reflexivity.
    - specialize (IH (p ++ [g])). rewrite app_length in IH. cbn [length] in IH. rewrite Nat.add_1_r in IH. rewrite <- app_assoc in IH. exact IH. }
  exact (G given cs Hg []).
Qed.
Lemma build_run : forall kd, kd = RKCompatible \/ kd = RKHandler /\ all_bisected eps res cs ->
  exists w1 w', around cs 0 true w1 /\ updateAll kd eps res w1 0 = Some w' /\
    wrun kd eps res (startWorld given) [ONew; OSetCurves 0 (seq 0 (length given)); OSetupLoop 0; OUpdate 0] = Some w'.
Proof.
  intros kd K. rewrite first_new.
  destruct (loop_run eps res Hp Hres cs HL 0 true kd firstWorld (seq 0 (length given)) (mkSob 0%nat true 0%nat [] []) first_wf eq_refl eq_refl (seq_NoDup _ _) first_holds K) as (w1 & w' & A & B & C & _).
  exists w1, w'. auto.
Qed.

Lemma build_ready : forall kd, kd = RKCompatible \/ kd = RKHandler /\ all_bisected eps res cs ->
  exists sf, buildSurface kd eps res given = Some sf /\ sf_n sf = length cs /\ sf_gamma sf = true /\ map sr_curve (sf_ribbons sf) = cs /\ ready sf.
Proof.
  intros kd K. destruct (build_run kd K) as (w1 & w' & A & B & C). unfold buildSurface. rewrite C. cbn [bind].
  apply (view_ready eps res Hp Hres cs HL 0 true kd w1 w' A B K).
Qed.

Lemma build_bisected : forall sf, buildSurface RKHandler eps res given = Some sf -> all_bisected eps res cs.
Proof.
  intros sf H. unfold buildSurface in H. rewrite first_new in H. binv H.
  exact (loop_bisected eps res Hp Hres cs HL 0 true firstWorld (seq 0 (length given)) (mkSob 0%nat true 0%nat [] []) x first_wf eq_refl eq_refl (seq_NoDup _ _) first_holds E).
Qed.
End Build.
