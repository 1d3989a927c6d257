(** Proofs about the links between the ribbons: what setupLoop sets, which
    pointers are dangling after a curve was replaced, and when update() is
    defined. *)
From Verif Require Import Base UtilModel UtilProofs RibbonModel RibbonSpec RibbonProofs SurfaceModel SurfaceObj ObjSpec ObjProofs ObjUpdate ObjSides.
Open Scope R_scope.

(** ** setupLoop *)
Lemma setupSide_ribs : forall s w i w', setupSide s w i = Some w' -> exists r rp rn o,
  sideRib s i = Some r /\ sideRib s (prv (so_n s) i) = Some rp /\ sideRib s (nxt (so_n s) i) = Some rn /\
  nth_error (w_ribs w) r = Some o /\ nth_error (w_ribs w') r = Some (withNeighbors o rp rn) /\
  forall x, x <> r -> nth_error (w_ribs w') x = nth_error (w_ribs w) x.
Proof.
  intros s w i w' H. unfold setupSide in H. do 4 binv H. binv H. do 2 binv H.
  assert (R : w_ribs w' = w_ribs x3).
  { match type of H with (if ?b then _ else _) = _ => destruct b end; [|injection H as <-; reflexivity]. destruct (setCrv_inv _ _ _ _ H) as (_ & _ & Q & _). exact Q. }
  destruct (setRib_inv _ _ _ _ E3) as (_ & _ & _ & _ & _ & N).
  exists x1, x, x0, x2. repeat (split; [assumption|]). rewrite R. split; [rewrite N, Nat.eqb_refl; reflexivity|].
  intros y Hy. rewrite N. destruct (Nat.eqb_spec y x1); [contradiction|reflexivity].
Qed.
Lemma setupSides_ribs : forall s, (forall i j r, sideRib s i = Some r -> sideRib s j = Some r -> i = j) ->
  forall l w w', NoDup l -> foldM (setupSide s) w l = Some w' ->
  (forall x, (forall j, In j l -> sideRib s j <> Some x) -> nth_error (w_ribs w') x = nth_error (w_ribs w) x) /\
  (forall j, In j l -> exists r rp rn o, sideRib s j = Some r /\ sideRib s (prv (so_n s) j) = Some rp /\ sideRib s (nxt (so_n s) j) = Some rn /\
     nth_error (w_ribs w) r = Some o /\ nth_error (w_ribs w') r = Some (withNeighbors o rp rn)).
Proof.
  intros s Inj l; induction l as [|a l IH]; intros w w' ND H; cbn [foldM] in H.
  - injection H as <-. split; [reflexivity|intros j []].
  - binv H. inversion ND; subst. destruct (IH _ _ H3 H) as [A B]. destruct (setupSide_ribs _ _ _ _ E) as (r & rp & rn & o & Hr & Hp & Hn & Ho & Ho' & N). split.
    + intros y Hy. rewrite A by (intros j Hj; apply Hy; right; exact Hj). apply N. intros ->. apply (Hy a (or_introl eq_refl)). exact Hr.
    + intros j [<- | Hj].
      * exists r, rp, rn, o. repeat (split; [assumption|]). rewrite A; [exact Ho'|]. intros j Hj Q. rewrite (Inj _ _ _ Hr Q) in H2. contradiction.
      * destruct (B j Hj) as (r' & rp' & rn' & o' & Hr' & Hp' & Hn' & Ho1 & Ho2). exists r', rp', rn', o'. repeat (split; [assumption|]). split; [|exact Ho2].
        rewrite <- N; [exact Ho1|]. intros ->. rewrite (Inj _ _ _ Hr Hr') in H2. contradiction.
Qed.
Lemma setupLoop_ribs : forall w k s w', wf w -> nth_error (w_surfs w) k = Some s -> setupLoop w k = Some w' ->
  forall j, (j < so_n s)%nat -> exists r rp rn o, sideRib s j = Some r /\ sideRib s (prv (so_n s) j) = Some rp /\ sideRib s (nxt (so_n s) j) = Some rn /\
     nth_error (w_ribs w) r = Some o /\ nth_error (w_ribs w') r = Some (withNeighbors o rp rn).
Proof.
  intros w k s w' W Hs H j Hj. unfold setupLoop in H. rewrite Hs in H. cbn [bind] in H.
  apply (setupSides_ribs s) with (l := seq 0 (so_n s)); [intros; eapply (wf_inj w W); eassumption|apply seq_NoDup|exact H|apply in_seq; lia].
Qed.
Lemma setupLoop_linked : forall w k n w', wf w -> sideCount w k = Some n -> setupLoop w k = Some w' -> linked w' k n.
Proof.
  intros w k n w' W Hn H i s Hi Hs. rewrite (setupLoop_surfs _ _ _ H) in Hs. unfold sideCount in Hn. rewrite Hs in Hn. cbn in Hn. injection Hn as <-.
  destruct (setupLoop_ribs _ _ _ _ W Hs H i Hi) as (r & rp & rn & o & Hr & Hp & Hn & Ho & Ho'). exists (withNeighbors o rp rn).
  split; [unfold ribbonAt; rewrite (setupLoop_surfs _ _ _ H), Hs; cbn [bind]; rewrite Hr; exact Ho'|]. cbn. split; congruence.
Qed.

(** ** Which ribbons live *)
Lemma alive_iff : forall w r, alive w r = true <-> exists k s i, nth_error (w_surfs w) k = Some s /\ sideRib s i = Some r.
Proof.
  intros w r. unfold alive. rewrite existsb_exists. split.
  - intros (s & I & H). destruct (In_nth_error _ _ I) as [k Hk]. unfold owns in H. rewrite existsb_exists in H. destruct H as ([r'|] & I' & E); [|discriminate].
    apply Nat.eqb_eq in E. subst r'. destruct (In_nth_error _ _ I') as [i Hi]. exists k, s, i. split; [exact Hk|]. apply In_sideRib. exact Hi.
  - intros (k & s & i & Hs & Hr). exists s. split; [eapply nth_error_In; exact Hs|]. unfold owns. rewrite existsb_exists. exists (Some r).
    split; [eapply nth_error_In; apply sideRib_In; exact Hr|]. apply Nat.eqb_refl.
Qed.
Lemma dead_iff : forall w r, (forall k s i, nth_error (w_surfs w) k = Some s -> sideRib s i <> Some r) -> alive w r = false.
Proof. intros w r H. destruct (alive w r) eqn:E; [|reflexivity]. apply alive_iff in E. destruct E as (k & s & i & A & B). destruct (H k s i A B). Qed.

Section Upd.
Variables (kd : rkind) (eps : R) (res : nat).
Notation updateSide := (updateSide kd eps res). Notation updateAll := (updateAll kd eps res).
Notation updateRibbon := (updateRibbon kd eps res).

(** An update fails when the one of a ribbon does. *)
Lemma updateDomain_rib : forall w d w1 r, updateDomain w d = Some w1 -> updateRibbon w r = None -> updateRibbon w1 r = None.
Proof.
  intros w d w1 r H N. destruct (updateDomain_inv _ _ _ H) as (C & R & S & A & _). rewrite updateRibbon_eq in *. rewrite R.
  destruct (nth_error (w_ribs w) r) as [o|]; [|reflexivity]. cbn [bind] in *. rewrite (alike_derived' _ _ _ _ _ _ A).
  destruct (derived kd eps res w o); [|reflexivity]. cbn [bind] in *. unfold setRib in *. rewrite R.
  destruct (upd (w_ribs w) r (withData o r0)); [discriminate|reflexivity].
Qed.
Lemma side_none : forall w k s i r, nth_error (w_surfs w) k = Some s -> sideRib s i = Some r -> updateRibbon w r = None -> updateSide w k i = None.
Proof.
  intros w k s i r Hs Hr N. rewrite (updateSide_eq _ _ _ _ _ _ _ _ Hs Hr). destruct (updateDomain w (so_dom s)) as [w1|] eqn:E; [|reflexivity]. cbn [bind].
  rewrite (updateDomain_rib _ _ _ _ E N). reflexivity.
Qed.
Lemma all_none : forall w k s i r, nth_error (w_surfs w) k = Some s -> sideRib s i = Some r -> updateRibbon w r = None ->
  (forall i j r, sideRib s i = Some r -> sideRib s j = Some r -> i = j) -> updateAll w k = None.
Proof.
  intros w k s i r Hs Hr N Inj. rewrite (updateAll_eq _ _ _ _ _ _ Hs). destruct (updateDomain w (so_dom s)) as [w1|] eqn:E; [|reflexivity]. cbn [bind].
  assert (N1 := updateDomain_rib _ _ _ _ E N). destruct (nth_error_split _ _ (sideRib_In _ _ _ Hr)) as (l1 & l2 & El & _).
  assert (F : allRibbons kd eps res w1 (so_ribs s) = None); [|rewrite F; reflexivity].
  rewrite El. unfold allRibbons. rewrite foldM_app. clear E. destruct (foldM (oneRibbon kd eps res) w1 l1) as [w2|] eqn:E2; [|reflexivity]. cbn [bind foldM].
  assert (A : alike w1 w2) by (apply (allRibbons_alike kd eps res l1 w1 w2 E2)).
  unfold oneRibbon at 1. cbn [bind]. assert (N2 : updateRibbon w2 r = None); [|rewrite N2; reflexivity].
  (* the derived data depends on nothing the earlier updates change *)
  assert (K : forall l u u', foldM (oneRibbon kd eps res) u l = Some u' -> updateRibbon u r = None -> (forall o, In o l -> o <> Some r) -> updateRibbon u' r = None).
  { intros l; induction l as [|a l IH]; intros u u' H Nu Hl; cbn [foldM] in H; [injection H as <-; exact Nu|]. binv H. unfold oneRibbon in E. binv E.
    apply (IH _ _ H); [|intros o Ho; apply Hl; right; exact Ho]. destruct (updateRibbon_alike _ _ _ _ _ _ E) as (Al & _ & _ & Nx & _).
    assert (Ne : r <> x0) by (intros ->; apply (Hl (Some x0)); [left; exact E0|reflexivity]). rewrite updateRibbon_eq in *. rewrite (Nx r Ne).
    destruct (nth_error (w_ribs u) r) as [o|] eqn:Eo; [|reflexivity]. cbn [bind] in *. rewrite (alike_derived' _ _ _ _ _ _ Al).
    destruct (derived kd eps res u o) as [d|]; [|reflexivity]. cbn [bind] in *. unfold setRib in Nu.
    destruct (upd_some _ (w_ribs u) r (withData o d) (nth_lt _ _ _ _ Eo)) as [y Ey]. rewrite Ey in Nu. discriminate. }
  apply (K l1 w1 w2 E2 N1). intros o Ho ->. destruct (In_nth_error _ _ Ho) as [j Hj].
  assert (Hj' : sideRib s j = Some r). { apply In_sideRib. rewrite El. rewrite nth_error_app1; [exact Hj|eapply nth_lt; exact Hj]. }
  assert (Lj := nth_lt _ _ _ _ Hj). assert (Ei : sideRib s (length l1) = Some r). { apply In_sideRib. rewrite El, nth_error_app2 by lia. rewrite Nat.sub_diag. reflexivity. }
  rewrite (Inj _ _ _ Hj' Ei) in Lj. lia.
Qed.
Lemma rib_none : forall w r o, nth_error (w_ribs w) r = Some o -> lock w (ro_prev o) = None \/ lock w (ro_next o) = None -> updateRibbon w r = None.
Proof.
  intros w r o Ho H. rewrite updateRibbon_eq, Ho. cbn [bind]. unfold derived. destruct H as [-> | H]; [reflexivity|]. destruct (lock w (ro_prev o)); [|reflexivity].
  cbn [bind]. rewrite H. reflexivity.
Qed.

(** ** After a new curve *)
Lemma new_curve_none : forall w k i c w', wf w -> setCurve w k i c = Some w' -> updateSide w' k i = None /\ updateAll w' k = None.
Proof.
  intros w k i c w' W H. assert (W' : wf w') by (apply (step_wf kd eps res w (OSetCurve k i c)); assumption).
  destruct (setCurve_spec _ _ _ _ _ W H) as (s & s' & d & d' & Hs & Hd & C & R & N & _ & _ & _ & _ & _ & _ & _ & G & _).
  assert (Hs' : nth_error (w_surfs w') k = Some s') by (rewrite N, Nat.eqb_refl; reflexivity). destruct G as [_ G].
  assert (Hr : sideRib s' i = Some (length (w_ribs w))) by (unfold sideRib; rewrite G, Nat.eqb_refl; reflexivity).
  assert (Nn : updateRibbon w' (length (w_ribs w)) = None).
  { apply (rib_none _ _ (newRibbon c)); [|left; reflexivity]. rewrite R, nth_error_app2 by lia. rewrite Nat.sub_diag. reflexivity. }
  split; [eapply side_none; eassumption|eapply all_none; try eassumption]. intros; eapply (wf_inj w' W'); eassumption.
Qed.
Lemma neighbours_none : forall w k n i c w', wf1 w -> sideCount w k = Some n -> (i < n)%nat -> (forall j, (j < n)%nat -> sideObj w k j <> None) -> linked w k n -> setCurve w k i c = Some w' ->
  updateSide w' k (prv n i) = None /\ updateSide w' k (nxt n i) = None.
Proof.
  intros w k n i c w' W1 Hn Hi Al L H. assert (W := wf_0 w W1). destruct (new_curve_none _ _ _ _ _ W H) as [Ni _].
  destruct (setCurve_spec _ _ _ _ _ W H) as (s & s' & d & d' & Hs & Hd & C & R & N & _ & _ & _ & _ & _ & _ & _ & G & _).
  assert (Hs' : nth_error (w_surfs w') k = Some s') by (rewrite N, Nat.eqb_refl; reflexivity). destruct G as [_ G].
  assert (Gs : forall j, sideRib s' j = if (j =? i)%nat then Some (length (w_ribs w)) else sideRib s j) by (intros j; unfold sideRib; apply G).
  assert (Sd : forall j, (j < n)%nat -> exists r, sideRib s j = Some r).
  { intros j Hj. specialize (Al j Hj). unfold sideObj, ribbonAt in Al. rewrite Hs in Al. cbn [bind] in Al. destruct (sideRib s j) as [r|]; [exists r; reflexivity|cbn in Al; congruence]. }
  destruct (Sd i Hi) as [ri Hri].
  assert (De : alive w' ri = false).
  { apply dead_iff. intros k' t j Ht Hj. rewrite N in Ht. destruct (Nat.eqb_spec k' k) as [-> | Ne].
    - injection Ht as <-. rewrite Gs in Hj. pose proof (wf_bound w W k s i ri Hs Hri). destruct (Nat.eqb_spec j i); [injection Hj; lia|].
      apply n0. eapply (wf_inj w W k s); eassumption.
    - apply Ne. eapply (wf_sep w W1 k' k t s j i ri); eassumption. }
  assert (Go : forall j, (j < n)%nat -> j <> i -> (nxt n j = i \/ prv n j = i) -> updateSide w' k j = None).
  { intros j Hj Ne Q. destruct (L j s Hj Hs) as (o & Ho & P & Nx). destruct (Sd j Hj) as [rj Hrj]. unfold ribbonAt in Ho. rewrite Hs in Ho. cbn [bind] in Ho. rewrite Hrj in Ho. cbn [bind] in Ho.
    apply (side_none w' k s' j rj Hs'); [rewrite Gs; destruct (Nat.eqb_spec j i); [contradiction|exact Hrj]|].
    apply (rib_none _ _ o); [rewrite R, nth_error_app1; [exact Ho|eapply nth_lt; exact Ho]|].
    destruct Q as [Q|Q]; [right; rewrite Nx, Q, Hri|left; rewrite P, Q, Hri]; cbn; rewrite De; reflexivity. }
  split.
  - destruct (Nat.eq_dec (prv n i) i) as [-> | Ne]; [exact Ni|]. apply Go; [apply prv_lt; lia|exact Ne|left]. apply nxt_prv; lia.
  - destruct (Nat.eq_dec (nxt n i) i) as [-> | Ne]; [exact Ni|]. apply Go; [apply nxt_lt; lia|exact Ne|right]. apply prv_nxt; lia.
Qed.

(** ** Stale data *)
Lemma derive_pt : forall cp c cn m h f d, ribDerive kd eps res cp c cn m h f = Some d -> rd_pt d = prevTangent cp.
Proof. intros cp c cn m h f d H. unfold ribDerive in H. binv H. destruct kd; [injection H as <-; reflexivity|binv H; injection H as <-; reflexivity|binv H; injection H as <-; reflexivity]. Qed.
Lemma derived_pt : forall w o d, derived kd eps res w o = Some d -> exists rp cp, ro_prev o = Some rp /\ ribCurve w rp = Some cp /\ rd_pt d = prevTangent cp.
Proof.
  intros w o d H. unfold derived in H. do 5 binv H. exists x, x1. unfold lock in E. binv E. destruct (alive w x4); [|discriminate]. injection E as <-.
  split; [exact E4|]. split; [exact E1|]. eapply derive_pt; exact H.
Qed.
Lemma updateSide_ribs : forall w k i w', updateSide w k i = Some w' -> w_curves w' = w_curves w /\ exists s s' r, nth_error (w_surfs w) k = Some s /\
  nth_error (w_surfs w') k = Some s' /\ so_ribs s' = so_ribs s /\ so_n s' = so_n s /\ sideRib s i = Some r /\ forall x, x <> r -> nth_error (w_ribs w') x = nth_error (w_ribs w) x.
Proof.
  intros w k i w' H. unfold SurfaceObj.updateSide in H. do 5 binv H. rename x into s. rename x1 into r. rename E into Hs. rename E1 into Hr.
  destruct (updateDomain_inv _ _ _ E0) as (C1 & R1 & S1 & _). destruct (updateRibbon_alike _ _ _ _ _ _ E2) as ((C2 & _) & _ & S2 & N2 & _).
  unfold SurfaceObj.updateCorner in E3, H. do 3 binv E3. do 3 binv H.
  destruct (setSurf_inv _ _ _ _ E3) as (_ & C3 & R3 & _ & _ & N3). destruct (setSurf_inv _ _ _ _ H) as (_ & C4 & R4 & _ & _ & N4).
  assert (x = s) by (rewrite S2, S1, Hs in E; congruence). subst x. rewrite N3, Nat.eqb_refl in E5. injection E5 as <-.
  split; [congruence|]. exists s. eexists. exists r. split; [exact Hs|]. split; [rewrite N4, Nat.eqb_refl; reflexivity|].
  split; [reflexivity|]. split; [reflexivity|]. split; [exact Hr|]. intros y Hy. rewrite R4, R3, N2, R1 by exact Hy. reflexivity.
Qed.
Lemma keep_ok : forall w k s, wf w -> updateAll w k = Some w -> nth_error (w_surfs w) k = Some s -> forall j, (j < so_n s)%nat -> okRib kd eps res w s j.
Proof.
  intros w k s W H Hs j Hj. destruct (fresh_update kd eps res w k w (S j) W H) as ((s' & Hs' & _ & _ & Ok & _) & _). assert (s' = s) by congruence. subst s'.
  apply Ok; [exact Hj|lia].
Qed.

Lemma stale : forall w0 w1 w2 w3 w4 k n i c cold cnew, (2 <= n)%nat -> (i < n)%nat -> wf w0 -> sideCount w0 k = Some n -> linked w0 k n ->
  updateAll w0 k = Some w1 -> setCurve w1 k i c = Some w2 -> setupLoop w2 k = Some w3 -> updateSide w3 k i = Some w4 ->
  sideCurve w1 k i = Some cold -> sideCurve w4 k i = Some cnew -> cder cold 1 <> cder cnew 1 -> updateAll w4 k <> Some w4.
Proof.
  intros w0 w1 w2 w3 w4 k n i c cold cnew Hn Hi W0 Hc L U1 U2 U3 U4 Co Cn Df U5.
  assert (W1 : wf w1) by (apply (step_wf kd eps res w0 (OUpdate k)); assumption).
  assert (W2 : wf w2) by (apply (step_wf kd eps res w1 (OSetCurve k i c)); assumption).
  assert (W3 : wf w3) by (apply (step_wf kd eps res w2 (OSetupLoop k)); assumption).
  assert (W4 : wf w4) by (apply (step_wf kd eps res w3 (OUpdateSide k i)); assumption).
  assert (A1 := update_again kd eps res w0 k w1 W0 U1).
  (* the state after the full update *)
  assert (U1' := U1). unfold SurfaceObj.updateAll in U1'. binv U1'. rename x into s. rename E into Hs0. clear U1'.
  unfold sideCount in Hc. rewrite Hs0 in Hc. cbn in Hc. injection Hc as Esn.
  assert (K1 := updateAll_keeps kd eps res _ _ _ U1). assert (K1' := K1). destruct K1' as (_ & Bk & _). specialize (Bk k). unfold surfKey in Bk. rewrite Hs0 in Bk. cbn in Bk.
  destruct (nth_error (w_surfs w1) k) as [s1|] eqn:Hs1; [|discriminate]. cbn in Bk. injection Bk. intros Er1 _ _ En1. clear Bk.
  set (j := nxt n i). assert (Hj : (j < n)%nat) by (apply nxt_lt; lia). assert (Pj : prv n j = i) by (apply prv_nxt; lia).
  assert (Nj : j <> i). { intros Q. apply (prv_neq n i); [lia|lia|]. rewrite <- Q at 1. exact Pj. }
  (* ribbon j links to ribbon i in w1 *)
  destruct (keep_ok w1 k s1 W1 A1 Hs1 j ltac:(lia)) as (r & o & d & Hr & Ho & Hd & Dv).
  destruct (L j s Hj Hs0) as (o0 & Ho0 & P0 & _). rewrite Pj in P0. unfold ribbonAt in Ho0. rewrite Hs0 in Ho0. cbn [bind] in Ho0.
  assert (Sr : forall m, sideRib s1 m = sideRib s m) by (intros; unfold sideRib; rewrite Er1; reflexivity). rewrite <- Sr, Hr in Ho0. cbn [bind] in Ho0.
  assert (Lk : ro_prev o = ro_prev o0).
  { assert (Q : exists d', nth_error (w_ribs w1) r = Some (withData o0 d')).
    { assert (U1' := U1). rewrite (updateAll_eq _ _ _ _ _ _ Hs0) in U1'. do 2 binv U1'. destruct (updateDomain_inv _ _ _ E) as (C1 & R1 & S1 & _).
      unfold SurfaceObj.updateCorners in U1'. do 2 binv U1'. destruct (setSurf_inv _ _ _ _ U1') as (_ & _ & R3 & _). rewrite R3.
      assert (Hin : In (Some r) (so_ribs s)) by (eapply nth_error_In; rewrite <- Er1; apply sideRib_In; exact Hr).
      rewrite <- R1 in Ho0. clear - E0 Ho0 Hin. revert x o0 E0 Ho0 Hin. generalize (so_ribs s). intros l.
      assert (G : forall l x o0, foldM (oneRibbon kd eps res) x l = Some x0 -> (nth_error (w_ribs x) r = Some o0 -> (In (Some r) l \/ exists d, o0 = withData o0 d) -> exists d, nth_error (w_ribs x0) r = Some (withData o0 d))).
      { clear. intros l; induction l as [|a l IH]; intros x o0 H Ho Hin; cbn [foldM] in H.
        - injection H as <-. destruct Hin as [[]|[d Hd]]. exists d. rewrite <- Hd. exact Ho.
        - binv H. unfold oneRibbon in E. binv E. destruct (updateRibbon_alike _ _ _ _ _ _ E) as (_ & _ & _ & N & (o1 & d1 & Q1 & _ & Q2)).
          destruct (Nat.eq_dec r x2) as [<- | Ne].
          + assert (o1 = o0) by congruence. subst o1. destruct (IH x1 (withData o0 d1) H Q2) as [d' Hd']; [right; exists d1; reflexivity|]. exists d'. exact Hd'.
          + destruct (IH x1 o0 H) as [d' Hd']; [rewrite N by exact Ne; exact Ho| |exists d'; exact Hd'].
            destruct Hin as [[Q|Q]|Q]; [congruence|left; exact Q|right; exact Q]. }
      intros. eapply (G l); [exact E0|exact Ho0|left; exact Hin]. }
    destruct Q as [d' Q]. assert (o = withData o0 d') by congruence. subst o. reflexivity. }
  destruct (derived_pt _ _ _ Dv) as (rp & cp & Hrp & Hcp & Pt). rewrite Lk, P0 in Hrp.
  assert (cp = cold).
  { unfold sideCurve, sideObj, ribbonAt in Co. rewrite Hs1 in Co. cbn [bind] in Co. rewrite Sr, Hrp in Co. cbn [bind] in Co. unfold ribCurve in Hcp.
    destruct (nth_error (w_ribs w1) rp); cbn [bind] in *; [congruence|discriminate]. } subst cp.
  (* the new curve leaves ribbon j alone *)
  destruct (setCurve_spec _ _ _ _ _ W1 U2) as (s1' & s2 & dd & dd' & Hs1' & _ & C2 & R2 & N2 & _ & _ & _ & En2 & _ & _ & _ & G2 & _).
  assert (s1' = s1) by congruence. subst s1'. destruct G2 as [_ G2].
  assert (Hs2 : nth_error (w_surfs w2) k = Some s2) by (rewrite N2, Nat.eqb_refl; reflexivity).
  assert (Hr2 : sideRib s2 j = Some r). { unfold sideRib. rewrite G2. destruct (Nat.eqb_spec j i); [contradiction|exact Hr]. }
  assert (Ho2 : nth_error (w_ribs w2) r = Some o) by (rewrite R2, nth_error_app1; [exact Ho|eapply nth_lt; exact Ho]).
  assert (Esn2 : so_n s2 = n) by (rewrite En2; lia).
  destruct (setupLoop_ribs _ _ _ _ W2 Hs2 U3 j ltac:(lia)) as (r' & rp2 & rn2 & o' & Hr' & Hp' & Hn' & Ho' & Ho3). rewrite Hr2 in Hr'. injection Hr' as <-.
  rewrite Ho2 in Ho'. injection Ho' as <-. rewrite Esn2, Pj in Hp'.
  assert (Hs3 : nth_error (w_surfs w3) k = Some s2) by (rewrite (setupLoop_surfs _ _ _ U3); exact Hs2).
  destruct (updateSide_ribs _ _ _ _ U4) as (C4 & s3 & s4 & ri & Hs3' & Hs4 & Er4 & En4 & Hri & N4). assert (s3 = s2) by congruence. subst s3.
  assert (Nri : r <> ri). { intros ->. apply Nj. eapply (wf_inj w2 W2 k s2); eassumption. }
  assert (Ho4 : nth_error (w_ribs w4) r = Some (withNeighbors o rp2 rn2)) by (rewrite N4 by exact Nri; exact Ho3).
  (* the data of ribbon j would have to fit the new curve *)
  destruct (keep_ok w4 k s4 W4 U5 Hs4 j ltac:(lia)) as (r4 & o4 & d4 & Hr4 & Ho4' & Hd4 & Dv4).
  assert (Sr4 : forall m, sideRib s4 m = sideRib s2 m) by (intros; unfold sideRib; rewrite Er4; reflexivity).
  rewrite Sr4, Hr2 in Hr4. injection Hr4 as <-. rewrite Ho4 in Ho4'. injection Ho4' as <-. cbn in Hd4. assert (d4 = d) by congruence. subst d4.
  destruct (derived_pt _ _ _ Dv4) as (rp' & cp' & Hrp' & Hcp' & Pt'). cbn in Hrp'. injection Hrp' as <-.
  assert (cp' = cnew).
  { unfold sideCurve, sideObj, ribbonAt in Cn. rewrite Hs4 in Cn. cbn [bind] in Cn. rewrite Sr4, Hp' in Cn. cbn [bind] in Cn. unfold ribCurve in Hcp'.
    destruct (nth_error (w_ribs w4) rp2); cbn [bind] in *; [congruence|discriminate]. } subst cp'.
  apply Df. rewrite Pt in Pt'. unfold prevTangent in Pt'. destruct (cder cold 1), (cder cnew 1). unfold vopp in Pt'. cbn in Pt'. injection Pt'. intros. f_equal; lra.
Qed.
End Upd.

(** ** When an update is defined *)
Lemma mapM_some : forall A B (f : A -> option B) l, (forall a, In a l -> exists b, f a = Some b) -> exists r, mapM f l = Some r.
Proof.
  intros A B f l; induction l as [|a l IH]; intros H; [exists []; reflexivity|]. cbn. destruct (H a (or_introl eq_refl)) as [b ->]. cbn [bind].
  destruct IH as [r ->]; [intros x Hx; apply H; right; exact Hx|]. eexists; reflexivity.
Qed.

Section Defined.
Variables (kd : rkind) (eps : R) (res : nat).
Hypotheses (Hp : 0 < eps) (Hres : (1 <= res)%nat).

Lemma cross_nonzero : forall a b, vcross a b <> vzero -> a <> vzero /\ b <> vzero.
Proof.
  intros a b H. split; intros ->; apply H; unfold vcross, vzero; destruct a, b || destruct a || destruct b; cbn; f_equal; ring.
Qed.
(** The cross derivative of a side as it would be evaluated now. *)
Definition sideCross (kd : rkind) (eps : R) (w : world) (k i : nat) (u : R) : option V3 :=
  s <- nth_error (w_surfs w) k ;; r <- sideRib s i ;; crossAt kd eps w r u.
Lemma derive_some : forall cp c cn m h f, proper eps res c -> vcross (cder cp 1) (cder c 0) <> vzero -> vcross (cder c 1) (cder cn 0) <> vzero ->
  (kd = RKHandler -> h <> None) -> exists d, ribDerive kd eps res cp c cn m h f = Some d /\ forall u, 0 <= u <= 1 -> exists x, ribCross kd eps c f d u = Some x.
Proof.
  intros cp c cn m h f (Rg & Ln & Lg) X0 X1 Hh.
  destruct (normalize_some _ X0) as [st E0]. destruct (normalize_some _ X1) as [en E1].
  destruct (update_total eps c res st en Hp Hres Rg Ln Lg) as [mm Em].
  assert (Eu : ribbonUpdate eps res cp c cn = Some mm) by (unfold ribbonUpdate; rewrite E0; cbn [bind]; rewrite E1; exact Em).
  destruct (update_spec eps c res st en mm Em) as (_ & _ & _ & Rc & _).
  assert (Eta : mkRmf c (rm_frames mm) (rm_angle mm) = mm) by (rewrite <- Rc; destruct mm; reflexivity).
  assert (Nr : forall u, 0 <= u <= 1 -> exists n, normalOf eps f (Some mm) u = Some n).
  { intros u Hu. unfold normalOf. destruct f as [g|]; [eexists; reflexivity|]. cbn [bind]. apply (eval_defined eps c res st en mm Hp Em u); [lra|apply Rg; exact Hu]. }
  destruct (cross_nonzero _ _ X0) as [Np _]. destruct (cross_nonzero _ _ X1) as [_ Nn].
  unfold ribDerive, ribCross. rewrite Eu. cbn [bind]. destruct kd.
  - eexists. split; [reflexivity|]. intros u Hu. cbn [rd_frames rd_angle rd_pt rd_nt]. rewrite Eta. unfold crossCompatible. destruct (Nr u Hu) as [n ->]. cbn [bind]. eexists; reflexivity.
  - destruct h as [h|]; [|destruct (Hh eq_refl eq_refl)]. cbn [handlerValue bind]. eexists. split; [reflexivity|]. intros u Hu. cbn [rd_frames rd_angle rd_pt rd_nt rd_central].
    rewrite Eta. unfold crossHandler. destruct (Nr u Hu) as [n ->]. cbn [bind]. eexists; reflexivity.
  - unfold perpUpdate. destruct (normalize_some _ (Rg 0 ltac:(lra))) as [t0 ->]. destruct (normalize_some _ (Rg 1 ltac:(lra))) as [t1 ->]. cbn [bind].
    destruct (Nr 0 ltac:(lra)) as [n0 ->]. destruct (Nr 1 ltac:(lra)) as [n1 ->]. cbn [bind].
    assert (Np' : vopp (cder cp 1) <> vzero).
    { intros Q. apply Np. destruct (cder cp 1) as [a b d]. unfold vopp, vzero in *. cbn in Q. injection Q. intros. f_equal; lra. }
    destruct (normalize_some _ Np') as [p Ep]. destruct (normalize_some _ Nn) as [q Eq]. unfold vnormalize in Ep, Eq. rewrite Ep, Eq. cbn [bind].
    eexists. split; [reflexivity|]. intros u Hu. cbn [rd_frames rd_angle rd_perp bind]. rewrite Eta. unfold crossPerpendicular.
    destruct (normalize_some _ (Rg u Hu)) as [t ->]. cbn [bind]. destruct (Nr u Hu) as [n ->]. cbn [bind]. eexists; reflexivity.
Qed.

Lemma allRibbons_links : forall l w w' r o o', allRibbons kd eps res w l = Some w' -> nth_error (w_ribs w) r = Some o -> nth_error (w_ribs w') r = Some o' ->
  ro_prev o' = ro_prev o /\ ro_next o' = ro_next o.
Proof.
  intros l; induction l as [|a l IH]; intros w w' r o o' H Ho Ho'; unfold allRibbons in H; cbn [foldM] in H.
  - injection H as <-. assert (o' = o) by congruence. subst o'. auto.
  - binv H. unfold oneRibbon in E. binv E. destruct (updateRibbon_alike _ _ _ _ _ _ E) as (_ & _ & _ & N & (o1 & d1 & Q1 & _ & Q2)). destruct (Nat.eq_dec r x0) as [<- | Ne].
    + assert (o1 = o) by congruence. subst o1. apply (IH x w' r (withData o d1) o' H Q2 Ho').
    + apply (IH x w' r o o' H); [rewrite N by exact Ne; exact Ho|exact Ho'].
Qed.
(** From what the ribbons will get. *)
Lemma update_from : forall w k n s, wf w -> nth_error (w_surfs w) k = Some s -> so_n s = n ->
  (forall i, (i < n)%nat -> exists r o d c, sideRib s i = Some r /\ nth_error (w_ribs w) r = Some o /\ derived kd eps res w o = Some d /\
             nth_error (w_curves w) (ro_curve o) = Some c /\ forall u, 0 <= u <= 1 -> exists x, ribCross kd eps c (ro_fence o) d u = Some x) ->
  exists w', updateAll kd eps res w k = Some w' /\ w_curves w' = w_curves w /\
    (exists s', nth_error (w_surfs w') k = Some s' /\ length (so_corners s') = n) /\ 
    forall i u, (i < n)%nat -> 0 <= u <= 1 -> exists x, sideCross kd eps w' k i u = Some x.
Proof.
  intros w k n s W Hs Hn Dv.
  assert (Inj : forall i j r, sideRib s i = Some r -> sideRib s j = Some r -> i = j) by (intros; eapply (wf_inj w W); eassumption).
  rewrite (updateAll_eq _ _ _ _ _ _ Hs).
  (* the domain *)
  assert (D1 : exists w1, updateDomain w (so_dom s) = Some w1).
  { unfold updateDomain. destruct (nth_error (w_doms w) (so_dom s)) as [d|] eqn:E; [|apply nth_error_None in E; pose proof (wf_dom w W k s Hs); lia]. cbn [bind]. unfold setDom.
    match goal with |- context [upd ?a ?b ?e] => destruct (upd_some _ a b e (nth_lt _ _ _ _ E)) as [x Ex] end. rewrite Ex. eexists; reflexivity. }
  destruct D1 as [w1 E1]. rewrite E1. cbn [bind]. destruct (updateDomain_inv _ _ _ E1) as (C1 & R1 & S1 & A1 & _).
  (* the ribbons *)
  assert (D2 : forall l u, (forall o, In o l -> In o (so_ribs s)) -> alike w u -> (forall r, ribKey u r = ribKey w r /\
      option_map (fun o => (ro_prev o, ro_next o)) (nth_error (w_ribs u) r) = option_map (fun o => (ro_prev o, ro_next o)) (nth_error (w_ribs w) r)) -> exists u', allRibbons kd eps res u l = Some u').
  { intros l; induction l as [|a l IH]; intros u Hl Al Ky; [eexists; reflexivity|]. unfold allRibbons. cbn [foldM].
    destruct (In_nth_error _ _ (Hl a (or_introl eq_refl))) as [i Hi]. assert (Li : (i < n)%nat) by (rewrite <- Hn, <- (wf_n w W k s Hs); eapply nth_lt; exact Hi).
    destruct (Dv i Li) as (r & o & d & c & Hr & Ho & Hd & _). rewrite (sideRib_In _ _ _ Hr) in Hi. injection Hi as <-. change (oneRibbon kd eps res u (Some r)) with (updateRibbon kd eps res u r).
    destruct (Ky r) as [K1 K2]. unfold ribKey in K1. rewrite Ho in K1, K2. cbn in K1, K2. destruct (nth_error (w_ribs u) r) as [o'|] eqn:Ho'; [|discriminate]. cbn in K1, K2.
    injection K1. injection K2. intros P1 P2 P3 P4 P5 P6.
    assert (Hd' : derived kd eps res u o' = Some d) by (rewrite <- Hd; apply alike_derived; assumption).
    assert (G : exists u1, updateRibbon kd eps res u r = Some u1).
    { rewrite updateRibbon_eq, Ho'. cbn [bind]. rewrite Hd'. cbn [bind]. unfold setRib. destruct (upd_some _ (w_ribs u) r (withData o' d) (nth_lt _ _ _ _ Ho')) as [x Ex]. rewrite Ex. eexists; reflexivity. }
    destruct G as [u1 Eu]. rewrite Eu. cbn [bind]. destruct (updateRibbon_alike _ _ _ _ _ _ Eu) as (Al1 & _ & _ & N1 & (o1 & d1 & Q1 & _ & Q2)). assert (o1 = o') by congruence. subst o1.
    apply IH; [intros x Hx; apply Hl; right; exact Hx|eapply alike_trans; eassumption|]. intros y. destruct (Nat.eq_dec y r) as [-> | Ne].
    - unfold ribKey. rewrite Q2, Ho. cbn. split; congruence.
    - specialize (Ky y). unfold ribKey in *. rewrite (N1 y Ne). exact Ky. }
  destruct (D2 (so_ribs s) w1) as [w2 E2]; [auto|exact A1|intros r; unfold ribKey; rewrite R1; auto|]. rewrite E2. cbn [bind].
  destruct (allRibbons_alike _ _ _ _ _ _ E2) as (A2 & _ & S2).
  assert (OR := allRibbons_ok kd eps res s Inj (so_ribs s) [] w1 w2 eq_refl ltac:(intros; cbn in *; lia) E2).
  assert (KK : keeps w1 w2). { eapply foldM_keeps; [|exact E2]. intros a o b Q. unfold oneRibbon in Q. binv Q. eapply updateRibbon_keeps; exact Q. }
  (* the corners *)
  unfold updateCorners. rewrite S2, S1, Hs. cbn [bind].
  assert (Al : alike w w2) by (eapply alike_trans; eassumption).
  assert (Xr : forall i u, (i < n)%nat -> 0 <= u <= 1 -> exists r c x, sideRib s i = Some r /\ ribCurve w2 r = Some c /\ crossAt kd eps w2 r u = Some x).
  { intros i u Hi Hu. destruct (Dv i Hi) as (r & o & d & c & Hr & Ho & Hd & Hc & Xd). destruct (OR i) as (r' & o2 & d2 & Hr' & Ho2 & Hd2 & Dd2); [rewrite (wf_n w W k s Hs); lia|].
    assert (r' = r) by congruence. subst r'. destruct KK as (Kr & _). specialize (Kr r). unfold ribKey in Kr. rewrite R1, Ho, Ho2 in Kr. cbn in Kr. injection Kr. intros P1 P2 P3 P4.
    assert (Dq : derived kd eps res w2 o2 = derived kd eps res w2 o).
    { rewrite <- R1 in Ho. destruct (allRibbons_links _ _ _ _ _ _ E2 Ho Ho2) as [Z1 Z2]. apply alike_derived; try assumption. apply alike_refl. }
    rewrite Dd2, (alike_derived' _ _ _ _ _ _ Al), Hd in Dq. injection Dq as ->.
    destruct (Xd u Hu) as [x Ex]. exists r, c, x. split; [exact Hr|]. destruct Al as (Cw & _). split.
    - unfold ribCurve. rewrite Ho2. cbn [bind]. rewrite Cw, P4. exact Hc.
    - unfold crossAt. rewrite Ho2. cbn [bind]. rewrite Cw, P4, Hc. cbn [bind]. rewrite Hd2. cbn [bind]. rewrite P1. exact Ex. }
  assert (Cs : corner_step = / 10000) by reflexivity.
  assert (D3 : exists l, mapM (cornerOf kd eps w2 s) (seq 0 (so_n s)) = Some l).
  { apply mapM_some. intros i I. apply in_seq in I. unfold cornerOf. rewrite Hn. assert (Hj : (nxt n i < n)%nat) by (apply nxt_lt; lia).
    destruct (Xr i 1 ltac:(lia) ltac:(lra)) as (r & c & x1 & Hr & Hc & X1). rewrite Hr. cbn [bind].
    destruct (Xr i (1 - corner_step) ltac:(lia) ltac:(rewrite Cs; lra)) as (r' & c' & x2 & Hr' & _ & X2). assert (r' = r) by congruence. subst r'.
    destruct (Xr (nxt n i) 0 Hj ltac:(lra)) as (q & cq & y1 & Hq & Hcq & Y1). rewrite Hq. cbn [bind].
    destruct (Xr (nxt n i) corner_step Hj ltac:(rewrite Cs; lra)) as (q' & cq' & y2 & Hq' & _ & Y2). assert (q' = q) by congruence. subst q'.
    rewrite Hc. cbn [bind]. rewrite Hcq. cbn [bind]. rewrite X1, X2, Y1, Y2. cbn [bind]. eexists; reflexivity. }
  destruct D3 as [l El]. rewrite El. cbn [bind]. unfold setSurf. rewrite S2, S1.
  match goal with |- context [upd ?a ?b ?e] => destruct (upd_some _ a b e (nth_lt _ _ _ _ Hs)) as [y Ey] end. rewrite Ey. eexists. split; [reflexivity|].
  destruct (upd_inv _ _ _ _ _ Ey) as (_ & _ & Ny). cbn [w_curves w_surfs]. split; [destruct Al as (Q & _); exact Q|]. split.
  - eexists. split; [rewrite Ny, Nat.eqb_refl; reflexivity|]. cbn. rewrite (mapM_length _ _ _ El), seq_length. exact Hn.
  - intros i u Hi Hu. destruct (Xr i u Hi Hu) as (r & c & x & Hr & Hc & X). exists x. unfold sideCross. cbn [w_surfs]. rewrite Ny, Nat.eqb_refl. cbn [bind].
    replace (sideRib (mkSob (so_n s) (so_gamma s) (so_dom s) (so_ribs s) l) i) with (Some r) by (rewrite <- Hr; reflexivity). cbn [bind]. exact X.
Qed.
Lemma update_defined : forall w k n, wf w -> sideCount w k = Some n -> linked w k n -> properLoop eps res w k n ->
  (kd = RKHandler -> forall i, (i < n)%nat -> ribbonHandler w k i <> Some None) ->
  exists w', updateAll kd eps res w k = Some w' /\ w_curves w' = w_curves w /\
    (exists s', nth_error (w_surfs w') k = Some s' /\ length (so_corners s') = n) /\ 
    forall i u, (i < n)%nat -> 0 <= u <= 1 -> exists x, sideCross kd eps w' k i u = Some x.
Proof.
  intros w k n W Hn L PL Hh. unfold sideCount in Hn. destruct (nth_error (w_surfs w) k) as [s|] eqn:Hs; [|discriminate]. cbn in Hn. injection Hn as Hn.
  assert (Sd : forall i c, sideCurve w k i = Some c -> exists r, sideRib s i = Some r /\ ribCurve w r = Some c).
  { intros i c H. unfold sideCurve, sideObj, ribbonAt in H. rewrite Hs in H. cbn [bind] in H. destruct (sideRib s i) as [r|] eqn:Er; [|discriminate]. cbn [bind] in H.
    exists r. split; [reflexivity|]. unfold ribCurve. destruct (nth_error (w_ribs w) r); [exact H|discriminate]. }
  (* the data every ribbon will get *)
  assert (Dv : forall i, (i < n)%nat -> exists r o d c, sideRib s i = Some r /\ nth_error (w_ribs w) r = Some o /\ derived kd eps res w o = Some d /\
             nth_error (w_curves w) (ro_curve o) = Some c /\ forall u, 0 <= u <= 1 -> exists x, ribCross kd eps c (ro_fence o) d u = Some x).
  { intros i Hi. destruct (PL i Hi) as (c & cn & Ec & Ecn & Pc & Xn). destruct (PL (prv n i) ltac:(apply prv_lt; lia)) as (cp & c' & Ecp & Ec' & Pp & Xp).
    rewrite nxt_prv in Ec' by lia. assert (c' = c) by congruence. subst c'.
    destruct (Sd _ _ Ec) as (r & Hr & Hc). destruct (Sd _ _ Ecp) as (rp & Hrp & Hcp). destruct (Sd _ _ Ecn) as (rn & Hrn & Hcn).
    destruct (L i s Hi Hs) as (o & Ho & Lp & Ln). unfold ribbonAt in Ho. rewrite Hs in Ho. cbn [bind] in Ho. rewrite Hr in Ho. cbn [bind] in Ho.
    destruct (derive_some cp c cn (ro_mult o) (ro_handler o) (ro_fence o) Pc Xp Xn) as (d & Ed & Xd).
    { intros K Q. apply (Hh K i Hi). unfold ribbonHandler, ribbonAt. rewrite Hs. cbn [bind]. rewrite Hr. cbn [bind]. rewrite Ho. cbn. rewrite Q. reflexivity. }
    unfold ribCurve in Hc. rewrite Ho in Hc. cbn [bind] in Hc.
    exists r, o, d, c. repeat (split; [assumption|]). split; [|split; [exact Hc|exact Xd]]. unfold derived. rewrite Lp, Ln, Hrp, Hrn. unfold lock. cbn [bind].
    rewrite !(proj2 (alive_iff w _)) by (exists k, s; eexists; split; [exact Hs|eassumption]). cbn [bind]. rewrite Hcp. cbn [bind]. rewrite Hc. cbn [bind]. rewrite Hcn. exact Ed. }
  apply (update_from w k n s W Hs Hn Dv).
Qed.

(** The update of one side, the data of the others being whatever it is. *)
Lemma side_defined : forall w k i n s, wf w -> nth_error (w_surfs w) k = Some s -> so_n s = n -> (3 <= n)%nat -> (i < n)%nat -> length (so_corners s) = n ->
  linked w k n -> properLoop eps res w k n -> (kd = RKHandler -> ribbonHandler w k i <> Some None) ->
  (forall j u, (j < n)%nat -> j <> i -> 0 <= u <= 1 -> exists x, sideCross kd eps w k j u = Some x) -> exists w', updateSide kd eps res w k i = Some w'.
Proof.
  intros w k i n s W Hs Hn Hn3 Hi Lc L PL Hh X.
  assert (Sd : forall i c, sideCurve w k i = Some c -> exists r, sideRib s i = Some r /\ ribCurve w r = Some c).
  { clear i Hi Hh X. intros i c H. unfold sideCurve, sideObj, ribbonAt in H. rewrite Hs in H. cbn [bind] in H. destruct (sideRib s i) as [r|] eqn:Er; [|discriminate]. cbn [bind] in H.
    exists r. split; [reflexivity|]. unfold ribCurve. destruct (nth_error (w_ribs w) r); [exact H|discriminate]. }
  destruct (PL i Hi) as (c & cn & Ec & Ecn & Pc & Xn). destruct (PL (prv n i) ltac:(apply prv_lt; lia)) as (cp & c' & Ecp & Ec' & Pp & Xp).
  rewrite nxt_prv in Ec' by lia. assert (c' = c) by congruence. subst c'.
  destruct (Sd _ _ Ec) as (r & Hr & Hc). destruct (Sd _ _ Ecp) as (rp & Hrp & Hcp). destruct (Sd _ _ Ecn) as (rn & Hrn & Hcn).
  destruct (L i s Hi Hs) as (o & Ho & Lp & Ln). unfold ribbonAt in Ho. rewrite Hs in Ho. cbn [bind] in Ho. rewrite Hr in Ho. cbn [bind] in Ho.
  destruct (derive_some cp c cn (ro_mult o) (ro_handler o) (ro_fence o) Pc Xp Xn) as (d & Ed & Xd).
  { intros K Q. apply (Hh K). unfold ribbonHandler, ribbonAt. rewrite Hs. cbn [bind]. rewrite Hr. cbn [bind]. rewrite Ho. cbn. rewrite Q. reflexivity. }
  unfold ribCurve in Hc. rewrite Ho in Hc. cbn [bind] in Hc.
  assert (Dd : derived kd eps res w o = Some d).
  { unfold derived. rewrite Lp, Ln, Hrp, Hrn. unfold lock. cbn [bind].
    rewrite !(proj2 (alive_iff w _)) by (exists k, s; eexists; split; [exact Hs|eassumption]). cbn [bind]. rewrite Hcp. cbn [bind]. rewrite Hc. cbn [bind]. rewrite Hcn. exact Ed. }
  rewrite (updateSide_eq _ _ _ _ _ _ _ _ Hs Hr).
  assert (D1 : exists w1, updateDomain w (so_dom s) = Some w1).
  { unfold updateDomain. destruct (nth_error (w_doms w) (so_dom s)) as [dd|] eqn:E; [|apply nth_error_None in E; pose proof (wf_dom w W k s Hs); lia]. cbn [bind]. unfold setDom.
    match goal with |- context [upd ?a ?b ?e] => destruct (upd_some _ a b e (nth_lt _ _ _ _ E)) as [x Ex] end. rewrite Ex. eexists; reflexivity. }
  destruct D1 as [w1 E1]. rewrite E1. cbn [bind]. destruct (updateDomain_inv _ _ _ E1) as (C1 & R1 & S1 & A1 & _).
  assert (G : exists w2, updateRibbon kd eps res w1 r = Some w2).
  { rewrite updateRibbon_eq, R1, Ho. cbn [bind]. rewrite (alike_derived' _ _ _ _ _ _ A1), Dd. cbn [bind]. unfold setRib. rewrite R1.
    destruct (upd_some _ (w_ribs w) r (withData o d) (nth_lt _ _ _ _ Ho)) as [x Ex]. rewrite Ex. eexists; reflexivity. }
  destruct G as [w2 E2]. rewrite E2. cbn [bind]. destruct (updateRibbon_alike _ _ _ _ _ _ E2) as (A2 & _ & S2 & N2 & (o1 & d1 & Q1 & Q3 & Q2)).
  rewrite R1, Ho in Q1. injection Q1 as <-. rewrite (alike_derived' _ _ _ _ _ _ A1), Dd in Q3. injection Q3 as <-.
  assert (Al : alike w w2) by (eapply alike_trans; eassumption). assert (Cw : w_curves w2 = w_curves w) by (destruct Al as (Q & _); exact Q).
  assert (Xr : forall j u, (j < n)%nat -> 0 <= u <= 1 -> exists q cq x, sideRib s j = Some q /\ ribCurve w2 q = Some cq /\ crossAt kd eps w2 q u = Some x).
  { intros j u Hj Hu. destruct (PL j Hj) as (cj & _ & Ej & _). destruct (Sd _ _ Ej) as (q & Hq & Hcq). exists q. rewrite (alike_ribCurve _ _ _ Al), Hcq. destruct (Nat.eq_dec j i) as [-> | Ne].
    - assert (q = r) by congruence. subst q. destruct (Xd u Hu) as [x Ex]. exists cj, x. split; [exact Hq|]. split; [reflexivity|]. unfold crossAt. rewrite Q2. cbn [bind withData ro_curve ro_data ro_fence].
      rewrite Cw, Hc. cbn [bind]. exact Ex.
    - destruct (X j u Hj Ne Hu) as [x Ex]. exists cj, x. split; [exact Hq|]. split; [reflexivity|]. unfold sideCross in Ex. rewrite Hs in Ex. cbn [bind] in Ex. rewrite Hq in Ex. cbn [bind] in Ex.
      assert (Nq : q <> r). { intros ->. apply Ne. eapply (wf_inj w W k s); eassumption. }
      unfold crossAt in *. rewrite N2, R1 by exact Nq. rewrite Cw. exact Ex. }
  assert (Cs : corner_step = / 10000) by reflexivity.
  assert (D3 : forall t j w3, so_n t = n -> so_ribs t = so_ribs s -> (j < n)%nat -> w_ribs w3 = w_ribs w2 -> w_curves w3 = w_curves w2 -> exists x, cornerOf kd eps w3 t j = Some x).
  { intros t j w3 Ht Hrt Hj R3 C3. assert (St : forall m, sideRib t m = sideRib s m) by (intros; unfold sideRib; rewrite Hrt; reflexivity).
    assert (Rc : forall q, ribCurve w3 q = ribCurve w2 q) by (intros; unfold ribCurve; rewrite R3, C3; reflexivity).
    assert (Cr : forall q u, crossAt kd eps w3 q u = crossAt kd eps w2 q u) by (intros; unfold crossAt; rewrite R3, C3; reflexivity).
    unfold cornerOf. rewrite Ht, !St. assert (Hj' : (nxt n j < n)%nat) by (apply nxt_lt; lia).
    destruct (Xr j 1 Hj ltac:(lra)) as (q & cq & x1 & Hq & Hcq & X1). rewrite Hq. cbn [bind].
    destruct (Xr j (1 - corner_step) Hj ltac:(rewrite Cs; lra)) as (q' & cq' & x2 & Hq' & _ & X2). assert (q' = q) by congruence. subst q'.
    destruct (Xr (nxt n j) 0 Hj' ltac:(lra)) as (p & cp' & y1 & Hpp & Hcpp & Y1). rewrite Hpp. cbn [bind].
    destruct (Xr (nxt n j) corner_step Hj' ltac:(rewrite Cs; lra)) as (p' & cp2 & y2 & Hp' & _ & Y2). assert (p' = p) by congruence. subst p'.
    rewrite !Rc, Hcq. cbn [bind]. rewrite Hcpp. cbn [bind]. rewrite !Cr, X1, X2, Y1, Y2. cbn [bind]. eexists; reflexivity. }
  assert (Hs2 : nth_error (w_surfs w2) k = Some s) by (rewrite S2, S1; exact Hs). rewrite Hn.
  assert (Hpi : (prv n i < n)%nat) by (apply prv_lt; lia).
  unfold updateCorner. rewrite Hs2. cbn [bind]. destruct (D3 s (prv n i) w2 Hn eq_refl Hpi eq_refl eq_refl) as [x Ex]. rewrite Ex. cbn [bind].
  destruct (upd_some _ (so_corners s) (prv n i) x ltac:(lia)) as [l El]. rewrite El. cbn [bind]. unfold setSurf at 1.
  match goal with |- context [upd (w_surfs w2) k ?e] => destruct (upd_some _ (w_surfs w2) k e (nth_lt _ _ _ _ Hs2)) as [y Ey] end. rewrite Ey. cbn [bind w_surfs].
  destruct (upd_inv _ _ _ _ _ Ey) as (_ & Ly & Ny). rewrite Ny, Nat.eqb_refl. cbn [bind].
  match goal with |- context [cornerOf kd eps ?a ?b i] => destruct (D3 b i a Hn eq_refl Hi eq_refl eq_refl) as [z Ez]; rewrite Ez end. cbn [bind so_corners].
  destruct (upd_inv _ _ _ _ _ El) as (_ & Ll & _). destruct (upd_some _ l i z ltac:(lia)) as [l2 El2]. rewrite El2. cbn [bind]. unfold setSurf. cbn [w_surfs].
  pose proof (nth_lt _ _ _ _ Hs2). match goal with |- context [upd y k ?e] => destruct (upd_some _ y k e ltac:(lia)) as [y2 Ey2] end. rewrite Ey2. eexists; reflexivity.
Qed.
End Defined.

(** ** Links stay *)
Definition links (w : world) (r : rloc) := option_map (fun o => (ro_prev o, ro_next o)) (nth_error (w_ribs w) r).
Notation noCopy := (Forall (fun o => ~ isCopy o)).
Section Links.
Variables (kd : rkind) (eps : R) (res : nat).
Lemma updateRibbon_links : forall w r w' y, updateRibbon kd eps res w r = Some w' -> links w' y = links w y.
Proof.
  intros w r w' y H. destruct (updateRibbon_alike _ _ _ _ _ _ H) as (_ & _ & _ & N & (o1 & d1 & Q1 & _ & Q2)). unfold links.
  destruct (Nat.eq_dec y r) as [-> | Ne]; [rewrite Q1, Q2; reflexivity|rewrite N by exact Ne; reflexivity].
Qed.
Lemma updateSide_links : forall w k i w' y, updateSide kd eps res w k i = Some w' -> links w' y = links w y.
Proof.
  intros w k i w' y H. unfold updateSide in H. do 5 binv H. destruct (updateDomain_inv _ _ _ E0) as (_ & R1 & _). pose proof (updateRibbon_links _ _ _ y E2) as U.
  unfold updateCorner in E3, H. do 3 binv E3. do 3 binv H. destruct (setSurf_inv _ _ _ _ E3) as (_ & _ & R3 & _). destruct (setSurf_inv _ _ _ _ H) as (_ & _ & R4 & _).
  unfold links in *. rewrite R4, R3, U, R1. reflexivity.
Qed.
Lemma updateAll_links : forall w k w' y, updateAll kd eps res w k = Some w' -> links w' y = links w y.
Proof.
  intros w k w' y H. assert (H' := H). unfold updateAll in H'. binv H'. clear H'. rewrite (updateAll_eq _ _ _ _ _ _ E) in H. do 2 binv H.
  destruct (updateDomain_inv _ _ _ E0) as (_ & R1 & _). unfold updateCorners in H. do 2 binv H. destruct (setSurf_inv _ _ _ _ H) as (_ & _ & R3 & _).
  assert (G : links x1 y = links x0 y).
  { clear - E1. revert x0 E1. generalize (so_ribs x). intros l; induction l as [|a l IH]; intros u E1; unfold allRibbons in E1; cbn [foldM] in E1; [injection E1 as <-; reflexivity|].
    binv E1. rewrite (IH _ E1). unfold oneRibbon in E. binv E. eapply updateRibbon_links; exact E. }
  unfold links in *. rewrite R3, G, R1. reflexivity.
Qed.
Lemma applySetting_links : forall o x o', applySetting o x = Some o' -> ro_prev o' = ro_prev o /\ ro_next o' = ro_next o.
Proof. intros o x o' H. destruct x; cbn in H; try (injection H as <-; auto; fail). binv H. injection H as <-. auto. Qed.

Lemma step_links : forall w o w' k s i r, ~ isCopy o -> wf1 w -> wstep kd eps res w o = Some w' -> nth_error (w_surfs w) k = Some s -> sideRib s i = Some r ->
  o <> OSetupLoop k -> links w' r = links w r.
Proof.
  intros w o w' k s i r NC W1 H Hs Hr NS. assert (W := wf_0 w W1). assert (Lr := wf_bound w W k s i r Hs Hr).
  destruct o as [|k'|k' b|k' i' c|k' cs|k'|k' i' x|k' i'|k'].
  - cbn in H. injection H as <-. reflexivity.
  - destruct NC. exact I.
  - destruct (gamma_cases kd eps res _ _ _ _ H) as (t & Ht & _ & R & D & N). unfold links. rewrite R. reflexivity.
  - cbn in H. destruct (setCurve_spec _ _ _ _ _ W H) as (t & s' & d & d' & Ht & Hd & _ & R & _). unfold links. rewrite R, nth_error_app1 by exact Lr. reflexivity.
  - cbn in H. destruct (setCurves_spec _ _ _ _ H) as (t & s' & d & d' & Ht & Hd & _ & R & _). unfold links. rewrite R, nth_error_app1 by exact Lr. reflexivity.
  - cbn in H. unfold setupLoop in H. binv H. rename x into s'. assert (Ne : k' <> k) by congruence.
    assert (Inj : forall i j r, sideRib s' i = Some r -> sideRib s' j = Some r -> i = j) by (intros; eapply (wf_inj w W k' s'); eassumption).
    destruct (setupSides_ribs s' Inj _ _ _ (seq_NoDup _ _) H) as [A _]. unfold links. rewrite A; [reflexivity|]. intros j _ Q. apply Ne. eapply (wf_sep w W1 k' k s' s j i r); eassumption.
  - cbn in H. destruct (set_cases _ _ _ _ _ H) as (t & r' & o & o' & _ & _ & Ho & Ha & _ & _ & K & _ & N). unfold links. rewrite N. destruct (Nat.eqb_spec r r') as [-> | ]; [|reflexivity].
    rewrite Ho. cbn. destruct (applySetting_links _ _ _ Ha) as [-> ->]. reflexivity.
  - eapply updateSide_links; exact H.
  - eapply updateAll_links; exact H.
Qed.
Lemma linked_step : forall w o w' k n, ~ isCopy o -> wf1 w -> wstep kd eps res w o = Some w' -> (forall i, ~ replaces k i o) -> sideCount w k = Some n ->
  linked w k n -> linked w' k n /\ sideCount w' k = Some n.
Proof.
  intros w o w' k n NC W1 H NR Hn L. assert (W := wf_0 w W1). assert (W' : wf w') by (eapply step_wf; eassumption).
  assert (Hn' := Hn). unfold sideCount in Hn'. binv Hn'. injection Hn' as En. rename x into s. rename E into Hs.
  destruct (step_ribs kd eps res w o w' k s W H Hs NR) as (s' & Hs' & Er & _).
  assert (En' : so_n s' = n) by (rewrite <- (wf_n w' W' k s' Hs'), Er, (wf_n w W k s Hs); exact En).
  assert (Cn : sideCount w' k = Some n) by (unfold sideCount; rewrite Hs'; cbn; congruence). split; [|exact Cn].
  assert (Sr : forall j, sideRib s' j = sideRib s j) by (intros; unfold sideRib; rewrite Er; reflexivity).
  assert (Dec : o = OSetupLoop k \/ o <> OSetupLoop k).
  { destruct o; try (right; discriminate). destruct (Nat.eq_dec k0 k) as [-> | Ne]; [left; reflexivity|right; congruence]. }
  destruct Dec as [-> | Ne]; [eapply setupLoop_linked; [exact W|exact Hn|exact H]|].
  intros i t Hi Ht. assert (t = s') by congruence. subst t. destruct (L i s Hi Hs) as (o0 & Ho & P & Q). unfold ribbonAt in Ho. rewrite Hs in Ho. cbn [bind] in Ho.
  destruct (sideRib s i) as [r|] eqn:Hr; [|discriminate]. cbn [bind] in Ho. pose proof (step_links w o w' k s i r NC W1 H Hs Hr Ne) as G. unfold links in G. rewrite Ho in G. cbn in G.
  destruct (nth_error (w_ribs w') r) as [o1|] eqn:Ho1; [|discriminate]. cbn in G. injection G as G1 G2. exists o1.
  split; [unfold ribbonAt; rewrite Hs'; cbn [bind]; rewrite Sr, Hr; exact Ho1|]. rewrite !Sr. split; congruence.
Qed.
Lemma linked_run : forall os w w' k n, noCopy os -> wf1 w -> wrun kd eps res w os = Some w' -> (forall o i, In o os -> ~ replaces k i o) -> sideCount w k = Some n ->
  linked w k n -> linked w' k n /\ sideCount w' k = Some n.
Proof.
  intros os; induction os as [|o os IH]; intros w w' k n NC W H NR Hn L; unfold wrun in H; cbn [foldM] in H; [injection H as <-; auto|].
  binv H. inversion NC; subst. destruct (linked_step w o x k n) as [L1 N1]; auto; [intros i; apply NR; left; reflexivity|].
  apply (IH x w' k n); auto; [eapply step_wf1; eassumption|intros o' i I; apply NR; right; exact I].
Qed.
End Links.
