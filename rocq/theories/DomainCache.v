(** The parameter cache over arbitrary histories. *)

From Verif Require Import Base MeshModel MeshProofs MeshProofs4 MeshProofsRing MeshEdge.
From Verif Require Import GeomSpec DomainModel MeshParams.

Lemma meshSize_pos : forall n r, (1 <= meshSize n r)%nat.
Proof.
  intros n r. destruct (Nat.eq_dec n 3) as [->|H3]; [rewrite meshSize3; cbn [tg]; lia|].
  destruct (Nat.eq_dec n 4) as [->|H4]; [rewrite meshSize4; nia|].
  rewrite meshSizeRing by assumption. apply rs_pos.
Qed.

Lemma meshSize_inj : forall n r r', (1 <= n)%nat -> meshSize n r = meshSize n r' -> r = r'.
Proof.
  intros n r r' Hn. destruct (Nat.eq_dec n 3) as [->|H3].
  { rewrite !meshSize3. pose proof (tg_double (S r)). pose proof (tg_double (S r')). nia. }
  destruct (Nat.eq_dec n 4) as [->|H4]; [rewrite !meshSize4; nia|].
  rewrite !meshSizeRing by assumption. pose proof (rs_double n r). pose proof (rs_double n r'). intros E.
  assert (X : (n * r * (r + 1) = n * r' * (r' + 1))%nat) by lia.
  assert (Y : (r * (r + 1) = r' * (r' + 1))%nat) by nia. nia.
Qed.

Lemma params_none_sides : forall c vs r, parametersImpl 0 c vs r = Some [c].
Proof.
  intros c vs r. unfold parametersImpl; cbn [Nat.eqb]. unfold paramsRing.
  rewrite (flat_mapM_total _ (fun _ => [])).
  - replace (flat_map (fun _ : nat => []) (seq 1 r)) with (@nil V2); [reflexivity|].
    generalize 1%nat. induction r as [|r IH]; intros a; [reflexivity|]. simpl. apply IH.
  - intros j Hj; apply in_seq in Hj. rewrite ratio_some by lia. reflexivity.
Qed.

Section History.
Variable Curve : Type.
Notation dstate := (dstate Curve).

(** What the cache may hold. *)
Definition cache_ok (size : nat -> nat -> nat) (impl : nat -> V2 -> list V2 -> nat -> option (list V2))
    (s : dstate) : Prop :=
  s_cache Curve s = [] \/ exists r, length (s_cache Curve s) = size (s_n Curve s) r /\
    impl (s_n Curve s) (s_center Curve s) (s_verts Curve s) r = Some (s_cache Curve s).

Section Poly.
Variable layout : list Curve -> option (V2 * list V2).
(** A layout has one vertex per curve, as all the classes do. *)
Variable layout_length : forall cs c vs, layout cs = Some (c, vs) -> length vs = length cs.

Lemma polyQuery_ok : forall s r ps s', cache_ok meshSize parametersImpl s ->
  (s_n Curve s = 0%nat \/ length (s_verts Curve s) = s_n Curve s) ->
  polyQuery Curve s r = Some (ps, s') ->
  parametersImpl (s_n Curve s) (s_center Curve s) (s_verts Curve s) r = Some ps /\
  cache_ok meshSize parametersImpl s'.
Proof.
  intros s r ps s' Hc Hv; unfold polyQuery, query.
  destruct (Nat.eqb_spec (length (s_cache Curve s)) (meshSize (s_n Curve s) r)) as [E|E].
  - intros H; injection H as <- <-. split; [|exact Hc].
    destruct Hc as [Hc|(r' & Hl & Hi)].
    + rewrite Hc in E; simpl in E. pose proof (meshSize_pos (s_n Curve s) r); lia.
    + destruct (Nat.eq_dec (s_n Curve s) 0) as [E0|E0].
      * rewrite E0 in *. rewrite params_none_sides in *. exact Hi.
      * assert (r' = r) by (apply (meshSize_inj (s_n Curve s)); lia). subst; exact Hi.
  - destruct (parametersImpl _ _ _ r) as [q|] eqn:Eq; simpl; [|discriminate].
    intros H; injection H as <- <-. split; [reflexivity|]. right. exists r. cbn [s_cache s_n s_center s_verts].
    split; [|exact Eq].
    clear E. destruct Hv as [Hv|Hv].
    + rewrite Hv in *. rewrite params_none_sides in Eq. injection Eq as <-. reflexivity.
    + revert Eq. destruct (s_n Curve s) as [|n'] eqn:En.
      { rewrite params_none_sides. intros Eq; injection Eq as <-; reflexivity. }
      unfold parametersImpl. destruct (Nat.eqb_spec (S n') 3) as [H3|H3].
      * destruct r as [|r].
        { unfold params3, flat_mapM. simpl. unfold ratio. simpl INR. rewrite fdiv_zero. discriminate. }
        intros Eq. rewrite H3 in *. eapply params3_length; [exact Hv|lia|exact Eq].
      * destruct (Nat.eqb_spec (S n') 4) as [H4|H4].
        { destruct r as [|r].
          { unfold params4, flat_mapM. simpl. unfold ratio. simpl INR. rewrite fdiv_zero. discriminate. }
          intros Eq. rewrite H4 in *. eapply params4_length; [exact Hv|lia|exact Eq]. }
        intros Eq. rewrite meshSizeRing by assumption.
        destruct r as [|r]; [injection Eq as <-; reflexivity|].
        rewrite <- Hv in Eq at 1. rewrite paramsRing_closed in Eq by lia. injection Eq as <-.
        rewrite ring_list_length, Hv. reflexivity.
Qed.

Definition inv (s : dstate) : Prop :=
  cache_ok meshSize parametersImpl s /\ (s_n Curve s = 0%nat \/ length (s_verts Curve s) = s_n Curve s).

Lemma polyQuery_state : forall s r ps s', polyQuery Curve s r = Some (ps, s') ->
  s_n Curve s' = s_n Curve s /\ s_center Curve s' = s_center Curve s /\ s_verts Curve s' = s_verts Curve s /\ s_curves Curve s' = s_curves Curve s.
Proof.
  intros s r ps s'; unfold polyQuery, query.
  destruct (length (s_cache Curve s) =? meshSize (s_n Curve s) r)%nat; [intros H; injection H as _ <-; auto|].
  destruct (parametersImpl _ _ _ r); simpl; [|discriminate]. intros H; injection H as _ <-; auto.
Qed.

Lemma inv_step : forall (update : dstate -> option dstate) s o s',
  (forall s s', inv s -> update s = Some s' -> inv s') ->
  inv s -> step Curve update (polyQuery Curve) s o = Some s' -> inv s'.
Proof.
  intros update s o s' Hu [Hc Hv] H. destruct o as [cs|i d c| |r]; simpl in H.
  - injection H as <-. split; assumption.
  - destruct (setSide Curve _ _ _ _); simpl in H; [|discriminate]. injection H as <-. split; assumption.
  - eapply Hu; [|exact H]. split; assumption.
  - destruct (polyQuery Curve s r) as [[ps s1]|] eqn:E; simpl in H; [|discriminate]. injection H as <-.
    split; [eapply polyQuery_ok; eassumption|].
    apply polyQuery_state in E. destruct E as (-> & _ & -> & _). exact Hv.
Qed.

Lemma inv_run : forall update os s s',
  (forall s s', inv s -> update s = Some s' -> inv s') ->
  inv s -> run Curve update (polyQuery Curve) s os = Some s' -> inv s'.
Proof.
  intros update os; induction os as [|o os IH]; intros s s' Hu Hi H; simpl in H.
  - injection H as <-; exact Hi.
  - destruct (step Curve update (polyQuery Curve) s o) as [s1|] eqn:E; simpl in H; [|discriminate].
    eapply IH; [exact Hu| |exact H]. eapply inv_step; eassumption.
Qed.

Lemma inv_initial : forall c0, inv (initial Curve c0).
Proof. intros c0; split; left; reflexivity. Qed.

Lemma polyUpdate_inv : forall s s', inv s -> polyUpdate Curve layout s = Some s' -> inv s'.
Proof.
  intros s s' _; unfold polyUpdate. destruct (layout (s_curves Curve s)) as [[c vs]|]; simpl; [|discriminate].
  intros H; injection H as <-. split; [left; reflexivity|right; reflexivity].
Qed.

Lemma regularUpdate_eq : forall s, regularUpdate Curve layout s =
  if (s_n Curve s =? length (s_curves Curve s))%nat then Some s else polyUpdate Curve layout s.
Proof.
  intros s; unfold regularUpdate, regularUpdateResult. destruct (_ =? _)%nat; [reflexivity|].
  destruct (polyUpdate Curve layout s); reflexivity.
Qed.

Lemma regularUpdate_inv : forall s s', inv s -> regularUpdate Curve layout s = Some s' -> inv s'.
Proof.
  intros s s' Hi; rewrite regularUpdate_eq. destruct (_ =? _)%nat; [intros H; injection H as <-; exact Hi|].
  apply polyUpdate_inv; exact Hi.
Qed.

(** Queries after the history return the freshly computed list. *)
Lemma poly_fresh : forall c0 os s r ps s',
  run Curve (polyUpdate Curve layout) (polyQuery Curve) (initial Curve c0) os = Some s ->
  polyQuery Curve s r = Some (ps, s') ->
  parametersImpl (s_n Curve s) (s_center Curve s) (s_verts Curve s) r = Some ps.
Proof.
  intros c0 os s r ps s' Hr Hq.
  destruct (inv_run _ os _ _ polyUpdate_inv (inv_initial c0) Hr) as [H1 H2].
  eapply polyQuery_ok; eassumption.
Qed.

Lemma regular_fresh : forall c0 os s r ps s',
  run Curve (regularUpdate Curve layout) (polyQuery Curve) (initial Curve c0) os = Some s ->
  polyQuery Curve s r = Some (ps, s') ->
  parametersImpl (s_n Curve s) (s_center Curve s) (s_verts Curve s) r = Some ps.
Proof.
  intros c0 os s r ps s' Hr Hq.
  destruct (inv_run _ os _ _ regularUpdate_inv (inv_initial c0) Hr) as [H1 H2].
  eapply polyQuery_ok; eassumption.
Qed.

(** Queries after an update: the layout of the curves set last. *)
Definition is_query (o : dop Curve) : Prop := match o with Query _ _ => True | _ => False end.

Lemma run_app : forall update qry os1 os2 s, run Curve update qry s (os1 ++ os2) =
  (s' <- run Curve update qry s os1 ;; run Curve update qry s' os2).
Proof.
  intros update qry os1; induction os1 as [|o os1 IH]; intros os2 s; simpl; [reflexivity|].
  destruct (step Curve update qry s o); simpl; [apply IH|reflexivity].
Qed.

Lemma run_queries : forall update qs s s', Forall is_query qs ->
  run Curve update (polyQuery Curve) s qs = Some s' ->
  s_n Curve s' = s_n Curve s /\ s_center Curve s' = s_center Curve s /\ s_verts Curve s' = s_verts Curve s /\ s_curves Curve s' = s_curves Curve s.
Proof.
  intros update qs; induction qs as [|o qs IH]; intros s s' Hq H; simpl in H.
  - injection H as <-; auto.
  - inversion Hq as [|? ? Ho Hq']; subst. destruct o as [| | |r]; try contradiction. simpl in H.
    destruct (polyQuery Curve s r) as [[ps s1]|] eqn:E; simpl in H; [|discriminate].
    apply polyQuery_state in E. apply IH in H; [|exact Hq'].
    destruct E as (E1 & E2 & E3 & E4), H as (F1 & F2 & F3 & F4). repeat split; congruence.
Qed.

Lemma poly_current : forall c0 os qs s r ps s', Forall is_query qs ->
  run Curve (polyUpdate Curve layout) (polyQuery Curve) (initial Curve c0) (os ++ Update Curve :: qs) = Some s ->
  polyQuery Curve s r = Some (ps, s') ->
  exists c vs, layout (s_curves Curve s) = Some (c, vs) /\
    parametersImpl (length (s_curves Curve s)) c vs r = Some ps.
Proof.
  intros c0 os qs s r ps s' Hqs Hr Hq. pose proof (poly_fresh _ _ _ _ _ _ Hr Hq) as F.
  rewrite run_app in Hr. destruct (run Curve _ _ (initial Curve c0) os) as [s1|]; simpl in Hr; [|discriminate].
  unfold polyUpdate at 1 in Hr.
  destruct (layout (s_curves Curve s1)) as [[c vs]|] eqn:El; simpl in Hr; [|discriminate].
  apply run_queries in Hr; [|exact Hqs]. cbn [s_n s_center s_verts s_curves] in Hr.
  destruct Hr as (E1 & E2 & E3 & E4). rewrite E4. exists c, vs. split; [exact El|].
  rewrite E1, E2, E3 in F. rewrite <- (layout_length _ _ _ El). exact F.
Qed.

(** Regular domains skip the work when the number of curves is unchanged;
    their layout only depends on that number. *)
Variable layout_by_count : forall cs cs', length cs = length cs' -> layout cs = layout cs'.

Definition reg_inv (s : dstate) : Prop :=
  s_n Curve s = 0%nat \/ forall cs, length cs = s_n Curve s -> layout cs = Some (s_center Curve s, s_verts Curve s).

Lemma reg_inv_run : forall os s s', reg_inv s ->
  run Curve (regularUpdate Curve layout) (polyQuery Curve) s os = Some s' -> reg_inv s'.
Proof.
  induction os as [|o os IH]; intros s s' Hi H; simpl in H; [injection H as <-; exact Hi|].
  destruct (step Curve _ _ s o) as [s1|] eqn:E; simpl in H; [|discriminate].
  eapply IH; [|exact H]. clear H. destruct o as [cs|i d c| |r]; simpl in E.
  - injection E as <-; exact Hi.
  - destruct (setSide Curve _ _ _ _); simpl in E; [|discriminate]. injection E as <-; exact Hi.
  - rewrite regularUpdate_eq in E. destruct (Nat.eqb_spec (s_n Curve s) (length (s_curves Curve s))) as [En|En].
    + injection E as <-; exact Hi.
    + unfold polyUpdate in E. destruct (layout (s_curves Curve s)) as [[c vs]|] eqn:El; simpl in E; [|discriminate].
      injection E as <-. right. cbn [s_n s_center s_verts]. intros cs Hcs.
      rewrite <- El. apply layout_by_count. rewrite Hcs. apply (layout_length _ _ _ El).
  - destruct (polyQuery Curve s r) as [[ps s2]|] eqn:Eq; simpl in E; [|discriminate]. injection E as <-.
    apply polyQuery_state in Eq. destruct Eq as (E1 & E2 & E3 & E4).
    unfold reg_inv. rewrite E1, E2, E3. exact Hi.
Qed.

Lemma regular_current : forall c0 os qs s r ps s', Forall is_query qs ->
  run Curve (regularUpdate Curve layout) (polyQuery Curve) (initial Curve c0) (os ++ Update Curve :: qs) = Some s ->
  s_curves Curve s <> [] ->
  polyQuery Curve s r = Some (ps, s') ->
  exists c vs, layout (s_curves Curve s) = Some (c, vs) /\
    parametersImpl (length (s_curves Curve s)) c vs r = Some ps.
Proof.
  intros c0 os qs s r ps s' Hqs Hr Hne Hq. pose proof (regular_fresh _ _ _ _ _ _ Hr Hq) as F.
  assert (Ri : reg_inv s) by (eapply reg_inv_run; [|exact Hr]; left; reflexivity).
  assert (En : s_n Curve s = length (s_curves Curve s)).
  { clear F Ri Hq. rewrite run_app in Hr.
    destruct (run Curve _ _ (initial Curve c0) os) as [s1|]; simpl in Hr; [|discriminate].
    destruct (regularUpdate Curve layout s1) as [s2|] eqn:Eu; simpl in Hr; [|discriminate].
    apply run_queries in Hr; [|exact Hqs]. destruct Hr as (E1 & _ & _ & E4). rewrite E1, E4.
    rewrite regularUpdate_eq in Eu. destruct (Nat.eqb_spec (s_n Curve s1) (length (s_curves Curve s1))) as [En|En].
    - injection Eu as <-; exact En.
    - unfold polyUpdate in Eu. destruct (layout (s_curves Curve s1)) as [[c vs]|] eqn:El; simpl in Eu; [|discriminate].
      injection Eu as <-. cbn [s_n s_curves]. apply (layout_length _ _ _ El). }
  destruct Ri as [E0|Ri].
  - destruct (s_curves Curve s); [contradiction|]. simpl in En; lia.
  - exists (s_center Curve s), (s_verts Curve s). split; [apply Ri; symmetry; exact En|].
    rewrite <- En. exact F.
Qed.
End Poly.

(** *** The circular domain: correct as long as the number of sides stays. *)
Definition keeps (n : nat) (o : dop Curve) : Prop :=
  match o with SetSides _ cs => length cs = n | SetSide _ i _ _ => (i < n)%nat | _ => True end.

Lemma meshSizeCircle_inj : forall n r r', (1 <= n)%nat -> meshSizeCircle n r = meshSizeCircle n r' -> r = r'.
Proof.
  intros n r r' Hn. rewrite !meshSizeCircle_rs. pose proof (rs_double n r). pose proof (rs_double n r'). intros E.
  assert (X : (n * r * (r + 1) = n * r' * (r' + 1))%nat) by lia.
  assert (Y : (r * (r + 1) = r' * (r' + 1))%nat) by nia. nia.
Qed.

Definition cimpl := fun (n : nat) (_ : V2) (_ : list V2) r => parametersImplCircle n r.

Lemma paramsCircle_length : forall n r ps, (1 <= n)%nat -> parametersImplCircle n r = Some ps ->
  length ps = meshSizeCircle n r.
Proof.
  intros n r ps Hn H. destruct r as [|r].
  - injection H as <-. rewrite meshSizeCircle_rs. reflexivity.
  - destruct (parameters_length_circle n (S r) Hn) as (ps' & E & Hl); [lia|]. congruence.
Qed.

Lemma circleQuery_ok : forall n s r ps s', (1 <= n)%nat -> s_n Curve s = n -> cache_ok meshSizeCircle cimpl s ->
  circleQuery Curve s r = Some (ps, s') ->
  parametersImplCircle n r = Some ps /\ cache_ok meshSizeCircle cimpl s' /\ s_n Curve s' = n /\ s_curves Curve s' = s_curves Curve s.
Proof.
  intros n s r ps s' Hn En Hc; unfold circleQuery, query. rewrite En.
  destruct (Nat.eqb_spec (length (s_cache Curve s)) (meshSizeCircle n r)) as [E|E].
  - intros H; injection H as <- <-. split; [|auto]. destruct Hc as [Hc|(r' & Hl & Hi)].
    + rewrite Hc in E. rewrite meshSizeCircle_rs in E. pose proof (rs_pos n r). cbn [length] in E; lia.
    + unfold cimpl in Hi. rewrite En in *. assert (r' = r) by (apply (meshSizeCircle_inj n); lia). subst; exact Hi.
  - destruct (parametersImplCircle n r) as [q|] eqn:Eq; simpl; [|discriminate].
    intros H; injection H as <- <-. split; [reflexivity|]. split; [|auto].
    right. exists r. cbn [s_cache s_n s_center s_verts]. split; [|exact Eq].
    apply paramsCircle_length; assumption.
Qed.

Definition cinv (n : nat) (s : dstate) : Prop :=
  length (s_curves Curve s) = n /\ (s_cache Curve s = [] \/ s_n Curve s = n /\ cache_ok meshSizeCircle cimpl s).

Lemma setSide_length : forall cs i d c cs' , (i < length cs)%nat -> setSide Curve cs i d c = Some cs' ->
  length cs' = length cs.
Proof.
  intros cs i d c cs' Hi; unfold setSide. destruct (Nat.leb_spec (length cs) i); [lia|].
  destruct (upd_spec _ cs i c Hi) as (l & -> & Hl & _). intros E; injection E as <-; exact Hl.
Qed.

(** Histories that set [n] sides first and never change their number, and
    query only after an update. *)
Lemma circle_inv_run : forall n os s s', (1 <= n)%nat -> Forall (keeps n) os ->
  length (s_curves Curve s) = n -> s_n Curve s = n -> cache_ok meshSizeCircle cimpl s ->
  run Curve (circleUpdate Curve) (circleQuery Curve) s os = Some s' ->
  length (s_curves Curve s') = n /\ s_n Curve s' = n /\ cache_ok meshSizeCircle cimpl s'.
Proof.
  intros n os; induction os as [|o os IH]; intros s s' Hn Hk Hl En Hc H; simpl in H.
  - injection H as <-; auto.
  - inversion Hk as [|? ? Ho Hk']; subst. destruct (step Curve _ _ s o) as [s1|] eqn:E; simpl in H; [|discriminate].
    assert (G : length (s_curves Curve s1) = length (s_curves Curve s) /\ s_n Curve s1 = length (s_curves Curve s) /\ cache_ok meshSizeCircle cimpl s1).
    { destruct o as [cs|i d c| |r]; simpl in E, Ho.
      - injection E as <-. cbn [s_curves s_n]. auto.
      - destruct (setSide Curve _ _ _ _) as [cs|] eqn:Es; simpl in E; [|discriminate]. injection E as <-.
        cbn [s_curves s_n]. apply setSide_length in Es; [|exact Ho]. auto.
      - unfold circleUpdate in E. injection E as <-. cbn [s_curves s_n]. split; [reflexivity|]. split; [reflexivity|].
        destruct Hc as [Hc|(r & Hc)]; [left; exact Hc|right; exists r]. cbn [s_cache s_n s_center s_verts]. rewrite <- En. exact Hc.
      - destruct (circleQuery Curve s r) as [[ps s2]|] eqn:Eq; simpl in E; [|discriminate]. injection E as <-.
        apply (circleQuery_ok (length (s_curves Curve s))) in Eq; try assumption.
        destruct Eq as (_ & E1 & E2 & E3). rewrite E3. auto. }
    destruct G as (G1 & G2 & G3). apply (IH s1 s' Hn Hk' G1 G2 G3 H).
Qed.

Lemma circle_fixed_count : forall n c0 cs os s r ps s', (1 <= n)%nat -> length cs = n -> Forall (keeps n) os ->
  run Curve (circleUpdate Curve) (circleQuery Curve) (initial Curve c0) (SetSides Curve cs :: Update Curve :: os) = Some s ->
  circleQuery Curve s r = Some (ps, s') -> parametersImplCircle n r = Some ps.
Proof.
  intros n c0 cs os s r ps s' Hn Hcs Hk Hr Hq. simpl in Hr. unfold circleUpdate in Hr at 1; simpl in Hr.
  apply circle_inv_run with (n := n) in Hr; cbn [s_curves s_n]; try assumption; [|left; reflexivity].
  destruct Hr as (H1 & H2 & H3). eapply circleQuery_ok; eassumption.
Qed.
End History.
