(** Side bookkeeping of surface objects (SurfaceObj.v; C34, C37, C39). *)
From Verif Require Import Base UtilModel UtilProofs RibbonModel RibbonProofs SurfaceModel SurfaceObj ObjSpec ObjProofs ObjUpdate.
Open Scope R_scope.

Section Step.
Variables (kd : rkind) (eps : R) (res : nat).
Notation wstep := (wstep kd eps res).
Notation wrun := (wrun kd eps res).
Notation noCopy := (Forall (fun o => ~ isCopy o)).

Lemma run_inv : forall (Q : world -> Prop) os w w', noCopy os -> wf1 w -> wrun w os = Some w' -> Q w ->
  (forall o w w', In o os -> wf1 w -> wstep w o = Some w' -> Q w -> Q w') -> Q w'.
Proof.
  intros Q os; induction os as [|o os IH]; intros w w' F W H Hq St; unfold SurfaceObj.wrun in H; cbn [foldM] in H.
  - injection H as <-; exact Hq.
  - binv H. inversion F; subst. apply (IH x w'); [assumption|eapply step_wf1; eassumption|exact H| |].
    + apply (St o w x); [left; reflexivity|exact W|exact E|exact Hq].
    + intros o' v v' I. apply St. right; exact I.
Qed.
Lemma run_split : forall os1 o os2 w w', wrun w (os1 ++ o :: os2) = Some w' ->
  exists w1 w2, wrun w os1 = Some w1 /\ wstep w1 o = Some w2 /\ wrun w2 os2 = Some w'.
Proof.
  intros os1 o os2 w w' H. destruct (run_app _ _ _ _ _ _ _ H) as (w1 & A & B). unfold SurfaceObj.wrun in B. cbn [foldM] in B. binv B.
  exists w1, x. auto.
Qed.

Lemma step_setting : forall w k i x w', wstep w (OSet k i x) = Some w' -> exists q q', sideKey w k i = Some q /\ applyKey q x = Some q' /\ sideKey w' k i = Some q'.
Proof.
  intros w k i x w' H. cbn in H. destruct (set_cases _ _ _ _ _ H) as (s & r & o & o' & Hs & Er & Ho & Ha & _ & D & K & L & N).
  exists (ro_curve o, ro_mult o, ro_handler o, ro_fence o), (ro_curve o', ro_mult o', ro_handler o', ro_fence o').
  rewrite !sideKey_at. unfold ribbonAt. rewrite K, Hs. cbn [bind]. rewrite Er. cbn [bind]. rewrite N, Nat.eqb_refl, Ho.
  split; [reflexivity|]. split; [apply applyKey_spec; exact Ha|reflexivity].
Qed.

(** A component of the settings of a side stays as it is. *)
Lemma key_stays : forall X (f : key -> X) o w w' k i, ~ isCopy o -> wf1 w -> wstep w o = Some w' -> ~ replaces k i o ->
  (forall x q q', o = OSet k i x -> applyKey q x = Some q' -> f q' = f q) ->
  option_map f (sideKey w' k i) = option_map f (sideKey w k i).
Proof.
  intros X f o w w' k i NC W H NR St. rewrite (step_key kd eps res w o w' k i NC W H).
  destruct o as [|k'|k' b|k' i' c|k' cs|k'|k' i' x|k' i'|k']; cbn [keyStep]; try reflexivity.
  - destruct (Nat.eqb_spec k' k), (Nat.eqb_spec i' i); try reflexivity. exfalso. apply NR. cbn. auto.
  - destruct (Nat.eqb_spec k' k); [|reflexivity]. exfalso. apply NR. cbn. auto.
  - destruct (Nat.eqb_spec k' k) as [-> | ]; [|reflexivity]. destruct (Nat.eqb_spec i' i) as [-> | ]; [|reflexivity]. cbn [andb].
    destruct (step_setting _ _ _ _ _ H) as (q & q' & A & B & C). rewrite A. cbn [bind]. rewrite B. cbn. f_equal. eapply St; [reflexivity|exact B].
Qed.
Lemma key_stays_run : forall X (f : key -> X) os w w' k i, noCopy os -> wf1 w -> wrun w os = Some w' ->
  Forall (fun o => ~ replaces k i o) os ->
  (forall x q q', In (OSet k i x) os -> applyKey q x = Some q' -> f q' = f q) ->
  option_map f (sideKey w' k i) = option_map f (sideKey w k i).
Proof.
  intros X f os w w' k i NC W H NR St.
  apply (run_inv (fun v => option_map f (sideKey v k i) = option_map f (sideKey w k i)) os w w' NC W H eq_refl).
  intros o v v' I Wv Hv Q. rewrite <- Q. rewrite Forall_forall in NC, NR. apply (key_stays X f o v v' k i); auto.
  intros x q q' -> A. eapply St; eassumption.
Qed.

(** ** The domain has the same curves *)
Definition domSame (w : world) : Prop := forall k s, nth_error (w_surfs w) k = Some s ->
  exists d, nth_error (w_doms w) (so_dom s) = Some d /\ length (do_curves d) = so_n s /\
    forall i, (x <- nth_error (do_curves d) i ;; x) = sideObj w k i.
Lemma keeps_domSame : forall w w', keeps w w' -> domSame w -> domSame w'.
Proof.
  intros w w' K DS k s' Hs'. destruct (keeps_back _ _ _ _ K Hs') as (s & Hs & R & D & N). destruct (DS k s Hs) as (d & Hd & L & E).
  assert (K' := K). destruct K' as (_ & _ & Kd). specialize (Kd (so_dom s)). unfold domKey in Kd. rewrite Hd in Kd. rewrite D.
  destruct (nth_error (w_doms w') (so_dom s)) as [d'|]; [|discriminate]. cbn in Kd. injection Kd as Kd. exists d'. rewrite Kd, N.
  split; [reflexivity|]. split; [exact L|]. intros i. rewrite E, !sideObj_key, (keeps_sideKey _ _ _ _ K). reflexivity.
Qed.
Lemma step_domSame : forall w o w', ~ isCopy o -> wf1 w -> wstep w o = Some w' -> domSame w -> domSame w'.
Proof.
  intros w o w' NC W1 H DS. assert (W := wf_0 w W1).
  assert (SK := fun k i => step_key kd eps res w o w' k i NC W1 H).
  destruct o as [|k'|k' b|k' i' c|k' cs|k'|k' i' x|k' i'|k']; [| exfalso; apply NC; exact I | | | | | | |].
  - cbn in H. injection H as <-. intros k s Hs. cbn [newSurface w_surfs w_doms] in *. rewrite nth_last in Hs.
    destruct (Nat.eqb_spec k (length (w_surfs w))) as [-> | Ne].
    + injection Hs as <-. cbn. exists (mkDob [] None). rewrite nth_last, Nat.eqb_refl. split; [reflexivity|]. split; [reflexivity|].
      intros i. rewrite sideObj_key, SK. cbn [keyStep]. rewrite sideKey_at. unfold ribbonAt. rewrite (proj2 (nth_error_None (w_surfs w) _)) by lia. cbn. destruct i; reflexivity.
    + destruct (DS k s Hs) as (d & Hd & L & E). exists d. pose proof (nth_lt _ _ _ _ Hd). rewrite nth_error_app1 by assumption.
      split; [exact Hd|]. split; [exact L|]. intros i. rewrite E, !sideObj_key, SK. reflexivity.
  - destruct (gamma_cases kd eps res _ _ _ _ H) as (s & Hs & _ & R & D & N). intros k t Ht. rewrite N in Ht. rewrite D.
    assert (G : exists t0, nth_error (w_surfs w) k = Some t0 /\ so_dom t = so_dom t0 /\ so_n t = so_n t0).
    { destruct (Nat.eqb_spec k k') as [-> | ]; [injection Ht as <-; exists s; auto|exists t; auto]. }
    destruct G as (t0 & Ht0 & -> & ->). destruct (DS k t0 Ht0) as (d & Hd & L & E). exists d. split; [exact Hd|]. split; [exact L|].
    intros i. rewrite E, !sideObj_key, SK. reflexivity.
  - cbn in H. destruct (setCurve_spec _ _ _ _ _ W H) as (s & s' & d & d' & Hs & Hd & _ & R & N & ND & L & LD & Sn & _ & Sd & _ & G & Gd & _).
    intros k t Ht. rewrite N in Ht. destruct (Nat.eqb_spec k k') as [-> | Ne].
    + injection Ht as <-. destruct (DS k' s Hs) as (d0 & Hd0 & L0 & E0). assert (d0 = d) by congruence. subst d0.
      exists d'. rewrite Sd, ND, Nat.eqb_refl. split; [reflexivity|]. destruct Gd as [Gl Ge]. split; [rewrite Gl, Sn, L0; reflexivity|].
      intros i. rewrite Ge, sideObj_key, SK. cbn [keyStep]. rewrite Nat.eqb_refl. rewrite (Nat.eqb_sym i' i). cbn [andb].
      destruct (Nat.eqb_spec i i'); [reflexivity|]. rewrite E0, sideObj_key. reflexivity.
    + destruct (DS k t Ht) as (d0 & Hd0 & L0 & E0). exists d0. rewrite ND.
      destruct (Nat.eqb_spec (so_dom t) (so_dom s)) as [Q|Q]; [exfalso; apply Ne; eapply (wf_dsep w W1); eassumption|].
      split; [exact Hd0|]. split; [exact L0|]. intros i. rewrite E0, !sideObj_key, SK. cbn [keyStep].
      destruct (Nat.eqb_spec k' k); [congruence|reflexivity].
  - cbn in H. destruct (setCurves_spec _ _ _ _ H) as (s & s' & d & d' & Hs & Hd & _ & R & N & ND & L & LD & Sn & _ & Sd & _ & G & Gd & _).
    intros k t Ht. rewrite N in Ht. destruct (Nat.eqb_spec k k') as [-> | Ne].
    + injection Ht as <-. exists d'. rewrite Sd, ND, Nat.eqb_refl. split; [reflexivity|]. rewrite Gd, map_length. split; [symmetry; exact Sn|].
      intros i. rewrite sideObj_key, SK. cbn [keyStep]. rewrite Nat.eqb_refl, nth_error_map. destruct (nth_error cs i); reflexivity.
    + destruct (DS k t Ht) as (d0 & Hd0 & L0 & E0). exists d0. rewrite ND.
      destruct (Nat.eqb_spec (so_dom t) (so_dom s)) as [Q|Q]; [exfalso; apply Ne; eapply (wf_dsep w W1); eassumption|].
      split; [exact Hd0|]. split; [exact L0|]. intros i. rewrite E0, !sideObj_key, SK. cbn [keyStep].
      destruct (Nat.eqb_spec k' k); [congruence|reflexivity].
  - eapply keeps_domSame; [eapply setupLoop_keeps; exact H|exact DS].
  - assert (H' := H). cbn in H. destruct (set_cases _ _ _ _ _ H) as (s & r & o & o' & Hs & Er & Ho & Ha & _ & D & K & L & N).
    intros k t Ht. rewrite K in Ht. destruct (DS k t Ht) as (d & Hd & L0 & E). exists d. rewrite D. split; [exact Hd|]. split; [exact L0|].
    intros i. rewrite E, !sideObj_key. symmetry. apply (key_stays _ _ (OSet k' i' x) w w' k i); auto.
    intros y q q' _ A. destruct q as [[[q1 q2] q3] q4]. destruct y; cbn in A; try (injection A as <-; reflexivity). binv A. injection A as <-. reflexivity.
  - eapply keeps_domSame; [eapply updateSide_keeps; exact H|exact DS].
  - eapply keeps_domSame; [eapply updateAll_keeps; exact H|exact DS].
Qed.
Lemma start_domSame : forall cs, domSame (startWorld cs).
Proof. intros cs [|k] s H; discriminate. Qed.
Lemma run_domSame : forall os cs w, noCopy os -> wrun (startWorld cs) os = Some w -> domSame w.
Proof.
  intros os cs w F H. apply (run_inv domSame os (startWorld cs) w F (start_wf1 cs) H (start_domSame cs)).
  intros o v v' I W S D. rewrite Forall_forall in F. eapply step_domSame; [apply F; exact I|eassumption..].
Qed.

(** ** The number of sides *)
Definition countStep (o : wop) (k : nat) (n : option nat) : option nat :=
  match o with
  | OSetCurve k' i _ => if (k' =? k)%nat then option_map (fun n => Nat.max n (i + 1)) n else n
  | OSetCurves k' cs => if (k' =? k)%nat then Some (length cs) else n
  | _ => n
  end.
Lemma keeps_count : forall w w' k, keeps w w' -> sideCount w' k = sideCount w k.
Proof. intros w w' k (_ & B & _). rewrite !count_key, B. reflexivity. Qed.
Lemma step_count : forall w o w' k n, wf w -> wstep w o = Some w' -> sideCount w k = Some n -> sideCount w' k = countStep o k (sideCount w k).
Proof.
  intros w o w' k n W H Hn. destruct o as [|k'|k' b|k' i' c|k' cs|k'|k' i' x|k' i'|k']; cbn [countStep].
  - cbn in H. injection H as <-. unfold sideCount in *. cbn [newSurface w_surfs]. rewrite nth_last. destruct (Nat.eqb_spec k (length (w_surfs w))) as [-> | ]; [|reflexivity].
    rewrite (proj2 (nth_error_None (w_surfs w) _)) in Hn by lia. discriminate.
  - cbn in H. unfold copySurface in H. binv H. injection H as <-. unfold sideCount in *. cbn. rewrite nth_last. destruct (Nat.eqb_spec k (length (w_surfs w))) as [-> | ]; [|reflexivity].
    rewrite (proj2 (nth_error_None (w_surfs w) _)) in Hn by lia. discriminate.
  - destruct (gamma_cases kd eps res _ _ _ _ H) as (s & Hs & _ & R & D & N). unfold sideCount. rewrite N. destruct (Nat.eqb_spec k k') as [-> | ]; [rewrite Hs|]; reflexivity.
  - cbn in H. destruct (setCurve_spec _ _ _ _ _ W H) as (s & s' & d & d' & Hs & Hd & _ & R & N & ND & L & LD & Sn & _).
    unfold sideCount. rewrite N, (Nat.eqb_sym k' k). destruct (Nat.eqb_spec k k') as [-> | ]; [|reflexivity]. rewrite Hs. cbn. rewrite Sn. reflexivity.
  - cbn in H. destruct (setCurves_spec _ _ _ _ H) as (s & s' & d & d' & Hs & Hd & _ & R & N & ND & L & LD & Sn & _).
    unfold sideCount. rewrite N, (Nat.eqb_sym k' k). destruct (Nat.eqb_spec k k') as [-> | ]; [|reflexivity]. cbn. rewrite Sn. reflexivity.
  - apply keeps_count. eapply setupLoop_keeps; exact H.
  - cbn in H. destruct (set_cases _ _ _ _ _ H) as (s & r & o & o' & _ & _ & _ & _ & _ & _ & K & _). unfold sideCount. rewrite K. reflexivity.
  - apply keeps_count. eapply updateSide_keeps; exact H.
  - apply keeps_count. eapply updateAll_keeps; exact H.
Qed.
Lemma run_count : forall os w w' k n, wf w -> wrun w os = Some w' -> sideCount w k = Some n -> sideCount w' k = fold_left (fun m o => countStep o k m) os (sideCount w k).
Proof.
  intros os; induction os as [|o os IH]; intros w w' k n W H Hn; unfold SurfaceObj.wrun in H; cbn [foldM] in H.
  - injection H as <-; reflexivity.
  - binv H. cbn [fold_left]. rewrite <- (step_count w o x k n W E Hn).
    assert (C : exists m, sideCount x k = Some m).
    { rewrite (step_count w o x k n W E Hn), Hn. destruct o; cbn; try (eexists; reflexivity); destruct (_ =? _)%nat; eexists; reflexivity. }
    destruct C as [m C]. eapply IH; [eapply step_wf; eassumption|exact H|exact C].
Qed.
(** Between the last setCurves and now. *)
Lemma count_bounds : forall os k n, Forall (fun o => match o with OSetCurves k' _ => k' <> k | _ => True end) os ->
  exists m, fold_left (fun m o => countStep o k m) os (Some n) = Some m /\ (n <= m)%nat /\
    (forall i c, In (OSetCurve k i c) os -> (i < m)%nat) /\ (m = n \/ exists i c, In (OSetCurve k i c) os /\ m = (i + 1)%nat).
Proof.
  intros os k; induction os as [|o os IH]; intros n F; cbn [fold_left].
  - exists n. repeat split; auto. intros i c [].
  - inversion F; subst.
    assert (G : (countStep o k (Some n) = Some n /\ (forall i c, o <> OSetCurve k i c)) \/ exists i c, o = OSetCurve k i c).
    { destruct o; cbn; try (left; split; [reflexivity|congruence]).
      - destruct (Nat.eqb_spec k0 k) as [-> | ]; [right; eauto|left; split; [reflexivity|congruence]].
      - destruct (Nat.eqb_spec k0 k); [contradiction|left; split; [reflexivity|congruence]]. }
    destruct G as [[-> Ne]|(i & c & ->)].
    + destruct (IH n H2) as (m & E & Hm & Hi & Hr). exists m. split; [exact E|]. split; [exact Hm|]. split.
      * intros i c [Q|Q]; [destruct (Ne i c Q)|eapply Hi; exact Q].
      * destruct Hr as [Hr|(i & c & Q & Hr)]; [left; exact Hr|right; exists i, c; split; [right; exact Q|exact Hr]].
    + cbn [countStep]. rewrite Nat.eqb_refl. cbn [option_map]. destruct (IH (Nat.max n (i + 1)) H2) as (m & E & Hm & Hi & Hr).
      exists m. split; [exact E|]. split; [lia|]. split.
      * intros i0 c0 [Q|Q]; [injection Q as <- <-; lia|eapply Hi; exact Q].
      * destruct Hr as [Hr|(i0 & c0 & Q & Hr)]; [|right; exists i0, c0; split; [right; exact Q|exact Hr]].
        destruct (Nat.max_spec n (i + 1)) as [[_ M]|[_ M]]; rewrite M in Hr; [right; exists i, c; split; [left; reflexivity|exact Hr]|left; exact Hr].
Qed.

(** ** When setupLoop is defined *)
Lemma setup_len : forall s w i w', setupSide s w i = Some w' -> length (w_curves w') = length (w_curves w).
Proof.
  intros s w i w' H. unfold setupSide in H. do 4 binv H. binv H. do 2 binv H. destruct (setRib_inv _ _ _ _ E3) as (_ & C & _).
  match type of H with (if ?b then _ else _) = _ => destruct b end; [|injection H as <-; rewrite C; reflexivity].
  destruct (setCrv_inv _ _ _ _ H) as (_ & _ & _ & _ & L & _). rewrite L, C. reflexivity.
Qed.
Definition present (w : world) (s : surfObj) (i : nat) : Prop :=
  exists r q, sideRib s i = Some r /\ ribKey w r = Some q /\ (fst (fst (fst q)) < length (w_curves w))%nat.
Lemma present_keep : forall w w' s i, keeps w w' -> length (w_curves w') = length (w_curves w) -> present w' s i <-> present w s i.
Proof.
  intros w w' s i (A & _ & _) L. unfold present. rewrite L. split; intros (r & q & H1 & H2 & H3); exists r, q; (split; [exact H1|split; [|exact H3]]); [rewrite <- A|rewrite A]; exact H2.
Qed.
Lemma present_ribCurve : forall w s i, present w s i <-> exists r c, sideRib s i = Some r /\ ribCurve w r = Some c.
Proof.
  intros w s i. unfold present, ribCurve, ribKey. split.
  - intros (r & q & H1 & H2 & H3). exists r. destruct (nth_error (w_ribs w) r) as [o|]; [|discriminate]. cbn in *. injection H2 as <-. cbn in H3.
    destruct (nth_error_ex _ _ _ H3) as [c Hc]. exists c. auto.
  - intros (r & c & H1 & H2). exists r. binv H2. rewrite E. eexists. split; [exact H1|]. split; [reflexivity|]. cbn. eapply nth_lt; exact H2.
Qed.
Lemma setup_def : forall s w i, (i < so_n s)%nat -> (forall j, (j < so_n s)%nat -> present w s j) -> exists w', setupSide s w i = Some w'.
Proof.
  intros s w i Hi Pr. unfold setupSide.
  destruct (proj1 (present_ribCurve _ _ _) (Pr (prv (so_n s) i) ltac:(apply prv_lt; lia))) as (rp & cp & Ep & Ecp). rewrite Ep. cbn [bind].
  destruct (proj1 (present_ribCurve _ _ _) (Pr (nxt (so_n s) i) ltac:(apply nxt_lt; lia))) as (rn & cn & En & Ecn). rewrite En. cbn [bind].
  destruct (proj1 (present_ribCurve _ _ _) (Pr i Hi)) as (r & c & E & Ec). rewrite E. cbn [bind]. unfold ribCurve in Ec. binv Ec. rewrite E0. cbn [bind].
  unfold setRib. destruct (upd_some _ (w_ribs w) r (withNeighbors x rp rn) (nth_lt _ _ _ _ E0)) as [l El]. rewrite El. cbn [bind]. rewrite Ec. cbn [bind].
  assert (O : exists oc, ribCurve w (if (i =? 0)%nat then rn else rp) = Some oc) by (destruct (i =? 0)%nat; eauto). destruct O as [oc ->]. cbn [bind].
  match goal with |- exists _, (if ?b then _ else _) = _ => destruct b end; [|eexists; reflexivity].
  unfold setCrv. cbn [w_curves]. destruct (upd_some _ (w_curves w) (ro_curve x) (reverseCurve c) (nth_lt _ _ _ _ Ec)) as [l' El']. rewrite El'. eexists; reflexivity.
Qed.
Lemma setup_present : forall s w i w', setupSide s w i = Some w' -> present w s i.
Proof.
  intros s w i w' H. apply present_ribCurve. unfold setupSide in H. do 4 binv H. binv H. do 2 binv H. exists x1, x4. split; [exact E1|]. unfold ribCurve. rewrite E2. exact E4.
Qed.
Lemma loop_defined : forall w k s, nth_error (w_surfs w) k = Some s ->
  (setupLoop w k <> None <-> forall i, (i < so_n s)%nat -> present w s i).
Proof.
  intros w k s Hs. unfold setupLoop. rewrite Hs. cbn [bind]. split.
  - intros D. destruct (foldM (setupSide s) w (seq 0 (so_n s))) as [w'|] eqn:F; [|congruence]. clear D Hs.
    assert (G : forall l w w', foldM (setupSide s) w l = Some w' -> forall i, In i l -> present w s i).
    { clear. intros l; induction l as [|a l IH]; intros w w' H i I; [destruct I|]. cbn [foldM] in H. binv H. destruct I as [-> | I]; [eapply setup_present; exact E|].
      rewrite <- (present_keep w x s i); [eapply IH; eassumption|eapply setupSide_keeps; exact E|eapply setup_len; exact E]. }
    intros i Hi. eapply G; [exact F|]. apply in_seq; lia.
  - intros Pr. assert (G : forall l w, (forall i, In i l -> (i < so_n s)%nat) -> (forall i, (i < so_n s)%nat -> present w s i) -> exists w', foldM (setupSide s) w l = Some w').
    { clear. intros l; induction l as [|a l IH]; intros w Hl Pr; cbn [foldM]; [eexists; reflexivity|].
      destruct (setup_def s w a (Hl a (or_introl eq_refl)) Pr) as [w1 E]. rewrite E. cbn [bind]. apply IH; [intros i I; apply Hl; right; exact I|].
      intros i Hi. apply (present_keep w w1 s i); [eapply setupSide_keeps; exact E|eapply setup_len; exact E|apply Pr; exact Hi]. }
    destruct (G (seq 0 (so_n s)) w) as [w' ->]; [intros i I; apply in_seq in I; lia|exact Pr|discriminate].
Qed.
Lemma sideCurve_present : forall w k s i, nth_error (w_surfs w) k = Some s -> (sideCurve w k i <> None <-> present w s i).
Proof.
  intros w k s i Hs. rewrite present_ribCurve. unfold sideCurve, sideObj, ribbonAt, ribCurve. rewrite Hs. cbn [bind].
  destruct (sideRib s i) as [r|]; cbn [bind]; [|split; [congruence|intros (? & ? & H & _); discriminate]].
  destruct (nth_error (w_ribs w) r) as [o|] eqn:Eo; cbn [bind].
  - destruct (nth_error (w_curves w) (ro_curve o)) as [c|] eqn:Ec.
    + split; [|discriminate]. intros _. exists r, c. split; [reflexivity|]. rewrite Eo. exact Ec.
    + split; [congruence|]. intros (r' & c & A & B). injection A as <-. rewrite Eo in B. cbn in B. congruence.
  - split; [congruence|]. intros (r' & c & A & B). injection A as <-. rewrite Eo in B. discriminate.
Qed.

(** ** Copies *)
(** Operations that leave the ribbon pointers of surface [k] alone. *)
Lemma step_ribs : forall w o w' k s, wf w -> wstep w o = Some w' -> nth_error (w_surfs w) k = Some s -> (forall i, ~ replaces k i o) ->
  exists s', nth_error (w_surfs w') k = Some s' /\ so_ribs s' = so_ribs s /\ so_dom s' = so_dom s.
Proof.
  intros w o w' k s W H Hs NR.
  assert (KP : keeps w w' -> exists s', nth_error (w_surfs w') k = Some s' /\ so_ribs s' = so_ribs s /\ so_dom s' = so_dom s).
  { intros (_ & B & _). specialize (B k). unfold surfKey in B. rewrite Hs in B. cbn in B. destruct (nth_error (w_surfs w') k) as [s'|]; [|discriminate].
    cbn in B. injection B. intros. exists s'. auto. }
  destruct o as [|k'|k' b|k' i' c|k' cs|k'|k' i' x|k' i'|k'].
  - cbn in H. injection H as <-. exists s. cbn. pose proof (nth_lt _ _ _ _ Hs). rewrite nth_error_app1 by assumption. auto.
  - cbn in H. unfold copySurface in H. binv H. injection H as <-. exists s. cbn. pose proof (nth_lt _ _ _ _ Hs). rewrite nth_error_app1 by assumption. auto.
  - destruct (gamma_cases kd eps res _ _ _ _ H) as (t & Ht & _ & R & D & N). rewrite N. destruct (Nat.eqb_spec k k') as [-> | ]; [|exists s; auto].
    assert (t = s) by congruence. subst t. eexists. split; [reflexivity|]. auto.
  - cbn in H. destruct (setCurve_spec _ _ _ _ _ W H) as (t & s' & d & d' & Ht & Hd & _ & R & N & _). rewrite N.
    destruct (Nat.eqb_spec k k') as [-> | ]; [exfalso; apply (NR i'); cbn; auto|exists s; auto].
  - cbn in H. destruct (setCurves_spec _ _ _ _ H) as (t & s' & d & d' & Ht & Hd & _ & R & N & _). rewrite N.
    destruct (Nat.eqb_spec k k') as [-> | ]; [exfalso; apply (NR 0%nat); cbn; auto|exists s; auto].
  - apply KP. eapply setupLoop_keeps; exact H.
  - cbn in H. destruct (set_cases _ _ _ _ _ H) as (t & r & o & o' & _ & _ & _ & _ & _ & _ & K & _). rewrite K. exists s; auto.
  - apply KP. eapply updateSide_keeps; exact H.
  - apply KP. eapply updateAll_keeps; exact H.
Qed.
Lemma run_ribs : forall os w w' k s, wf w -> wrun w os = Some w' -> nth_error (w_surfs w) k = Some s -> (forall o i, In o os -> ~ replaces k i o) ->
  exists s', nth_error (w_surfs w') k = Some s' /\ so_ribs s' = so_ribs s /\ so_dom s' = so_dom s.
Proof.
  intros os; induction os as [|o os IH]; intros w w' k s W H Hs NR; unfold SurfaceObj.wrun in H; cbn [foldM] in H.
  - injection H as <-. exists s; auto.
  - binv H. destruct (step_ribs w o x k s W E Hs) as (s1 & H1 & R1 & D1); [intros i; apply NR; left; reflexivity|].
    destruct (IH x w' k s1) as (s2 & H2 & R2 & D2); [eapply step_wf; eassumption|exact H|exact H1|intros o' i I; apply NR; right; exact I|].
    exists s2. split; [exact H2|]. split; congruence.
Qed.

Lemma setupSide_surfs : forall s w i w', setupSide s w i = Some w' -> w_surfs w' = w_surfs w.
Proof.
  intros s w i w' H. unfold setupSide in H. do 4 binv H. binv H. do 2 binv H. destruct (setRib_inv _ _ _ _ E3) as (_ & _ & _ & K & _).
  match type of H with (if ?b then _ else _) = _ => destruct b end; [|injection H as <-; exact K]. destruct (setCrv_inv _ _ _ _ H) as (_ & K' & _). congruence.
Qed.
Lemma setupLoop_surfs : forall w k w', setupLoop w k = Some w' -> w_surfs w' = w_surfs w.
Proof.
  intros w k w' H. unfold setupLoop in H. binv H. clear E. revert w H. generalize (seq 0 (so_n x)). intros l; induction l as [|a l IH]; intros w H; cbn [foldM] in H.
  - injection H as <-; reflexivity.
  - binv H. rewrite (IH _ H). eapply setupSide_surfs; exact E.
Qed.

(** ** Corner data that was never computed *)
Definition noCorners (k : nat) (w : world) : Prop := forall s, nth_error (w_surfs w) k = Some s -> so_corners s = [].
Lemma noCorners_side : forall k w i, noCorners k w -> SurfaceObj.updateSide kd eps res w k i = None.
Proof.
  intros k w i NC. unfold SurfaceObj.updateSide. destruct (nth_error (w_surfs w) k) as [s|] eqn:Hs; [|reflexivity]. cbn [bind].
  destruct (updateDomain w (so_dom s)) as [w1|] eqn:E1; [|reflexivity]. cbn [bind]. destruct (updateDomain_inv _ _ _ E1) as (_ & _ & S1 & _).
  destruct (sideRib s i) as [r|]; [|reflexivity]. cbn [bind]. destruct (updateRibbon kd eps res w1 r) as [w2|] eqn:E2; [|reflexivity]. cbn [bind].
  destruct (updateRibbon_alike _ _ _ _ _ _ E2) as (_ & _ & S2 & _). unfold SurfaceObj.updateCorner at 1. rewrite S2, S1, Hs. cbn [bind].
  destruct (cornerOf kd eps w2 s (prv (so_n s) i)); [|reflexivity]. cbn [bind]. rewrite (NC s Hs). reflexivity.
Qed.
Lemma step_noCorners : forall k w o w', ~ isCopy o -> o <> OUpdate k -> wf w -> wstep w o = Some w' -> noCorners k w -> noCorners k w'.
Proof.
  intros k w o w' NC NU W H Em s Hs. destruct o as [|k'|k' b|k' i' c|k' cs|k'|k' i' x|k' i'|k'].
  - cbn in H. injection H as <-. cbn in Hs. rewrite nth_last in Hs. destruct (k =? length (w_surfs w))%nat; [injection Hs as <-; reflexivity|exact (Em s Hs)].
  - exfalso. apply NC. exact I.
  - destruct (gamma_cases kd eps res _ _ _ _ H) as (t & Ht & _ & R & D & N). rewrite N in Hs. destruct (Nat.eqb_spec k k') as [-> | ]; [|exact (Em s Hs)].
    injection Hs as <-. cbn. exact (Em t Ht).
  - cbn in H. destruct (setCurve_spec _ _ _ _ _ W H) as (t & s' & d & d' & Ht & Hd & _ & R & N & _ & _ & _ & _ & _ & _ & Q & _). rewrite N in Hs.
    destruct (Nat.eqb_spec k k') as [-> | ]; [|exact (Em s Hs)]. injection Hs as <-. rewrite Q. exact (Em t Ht).
  - cbn in H. destruct (setCurves_spec _ _ _ _ H) as (t & s' & d & d' & Ht & Hd & _ & R & N & _ & _ & _ & _ & _ & _ & Q & _). rewrite N in Hs.
    destruct (Nat.eqb_spec k k') as [-> | ]; [|exact (Em s Hs)]. injection Hs as <-. rewrite Q. exact (Em t Ht).
  - cbn in H. assert (SL := setupLoop_surfs _ _ _ H).
    rewrite SL in Hs. exact (Em s Hs).
  - cbn in H. destruct (set_cases _ _ _ _ _ H) as (t & r & o & o' & _ & _ & _ & _ & _ & _ & K & _). rewrite K in Hs. exact (Em s Hs).
  - destruct (Nat.eq_dec k' k) as [-> | Ne]; [cbn in H; rewrite (noCorners_side k w i' Em) in H; discriminate|].
    cbn in H. unfold SurfaceObj.updateSide in H. binv H. binv H. binv H. binv H. binv H. rename x into s0. rename x0 into w1. rename x2 into w2. rename x3 into w3.
    destruct (updateDomain_inv _ _ _ E0) as (_ & _ & S1 & _). destruct (updateRibbon_alike _ _ _ _ _ _ E2) as (_ & _ & S2 & _).
    unfold SurfaceObj.updateCorner in E3, H. do 3 binv E3. do 3 binv H.
    destruct (setSurf_inv _ _ _ _ E3) as (_ & _ & _ & _ & _ & N3). destruct (setSurf_inv _ _ _ _ H) as (_ & _ & _ & _ & _ & N4).
    rewrite N4, N3 in Hs. destruct (Nat.eqb_spec k k'); [congruence|]. rewrite S2, S1 in Hs. exact (Em s Hs).
  - destruct (Nat.eq_dec k' k) as [-> | Ne]; [congruence|]. cbn in H. assert (H' := H). unfold SurfaceObj.updateAll in H'. binv H'. clear H'.
    rewrite (updateAll_eq kd eps res _ _ _ E) in H. do 2 binv H. destruct (updateDomain_inv _ _ _ E0) as (_ & _ & S1 & _). destruct (allRibbons_alike _ _ _ _ _ _ E1) as (_ & _ & S2).
    unfold SurfaceObj.updateCorners in H. do 2 binv H. destruct (setSurf_inv _ _ _ _ H) as (_ & _ & _ & _ & _ & N3). rewrite N3 in Hs.
    destruct (Nat.eqb_spec k k'); [congruence|]. rewrite S2, S1 in Hs. exact (Em s Hs).
Qed.
End Step.
