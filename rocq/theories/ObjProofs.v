(** Lemmas on surface objects (SurfaceObj.v). *)
From Verif Require Import Base UtilModel UtilProofs RibbonModel SurfaceModel SurfaceObj ObjSpec.
Open Scope R_scope.

(** ** Lists and binds *)
Lemma bind_inv : forall A B (e : option A) (f : A -> option B) b, bind e f = Some b -> exists a, e = Some a /\ f a = Some b.
Proof. intros A B [a|] f b H; [exists a; split; [reflexivity|exact H]|discriminate]. Qed.
Ltac binv H := let x := fresh "x" in let E := fresh "E" in apply bind_inv in H; destruct H as (x & E & H).

Lemma upd_inv : forall A (l : list A) i a l', upd l i a = Some l' ->
  (i < length l)%nat /\ length l' = length l /\ forall j, nth_error l' j = if (j =? i)%nat then Some a else nth_error l j.
Proof.
  intros A l i a l' H. destruct (le_lt_dec (length l) i) as [G|G]; [rewrite upd_none in H by exact G; discriminate|].
  destruct (upd_spec A l i a G) as (x & E & L & N). rewrite E in H. injection H as <-. auto.
Qed.
Lemma upd_some : forall A (l : list A) i a, (i < length l)%nat -> exists l', upd l i a = Some l'.
Proof. intros A l i a G. destruct (upd_spec A l i a G) as (x & E & _). exists x; exact E. Qed.
Lemma upd_same : forall A (l : list A) i a, nth_error l i = Some a -> upd l i a = Some l.
Proof.
  intros A l; induction l as [|x l IH]; intros [|i] a H; simpl in *; try discriminate.
  - injection H as ->; reflexivity.
  - rewrite (IH i a H); reflexivity.
Qed.
Lemma list_ext : forall A (l l' : list A), (forall j, nth_error l j = nth_error l' j) -> l = l'.
Proof.
  intros A l; induction l as [|x l IH]; intros [|y l'] H; [reflexivity|pose proof (H 0%nat); discriminate|pose proof (H 0%nat); discriminate|].
  pose proof (H 0%nat) as H0; injection H0 as <-. f_equal. apply IH. intros j. exact (H (S j)).
Qed.
Lemma nth_lt : forall A (l : list A) i a, nth_error l i = Some a -> (i < length l)%nat.
Proof. intros A l i a H. apply nth_error_Some. rewrite H; discriminate. Qed.
Lemma nth_last : forall A (l : list A) a j, nth_error (l ++ [a]) j = if (j =? length l)%nat then Some a else nth_error l j.
Proof.
  intros A l a j. destruct (Nat.eqb_spec j (length l)) as [-> | H].
  - rewrite nth_error_app2, Nat.sub_diag by lia; reflexivity.
  - destruct (le_lt_dec (length l) j).
    + rewrite nth_error_app2 by lia. rewrite (proj2 (nth_error_None l j)) by lia.
      destruct (j - length l)%nat as [|m] eqn:E; [lia|]. destruct m; reflexivity.
    + rewrite nth_error_app1 by lia; reflexivity.
Qed.

(** ** What setupLoop and the updates leave alone *)
Definition ribKey (w : world) (r : rloc) := option_map (fun o => (ro_curve o, ro_mult o, ro_handler o, ro_fence o)) (nth_error (w_ribs w) r).
Definition surfKey (w : world) (k : nat) := option_map (fun s => (so_n s, so_gamma s, so_dom s, so_ribs s)) (nth_error (w_surfs w) k).
Definition domKey (w : world) (d : dloc) := option_map do_curves (nth_error (w_doms w) d).

Definition keeps (w w' : world) : Prop :=
  (forall r, ribKey w' r = ribKey w r) /\ (forall k, surfKey w' k = surfKey w k) /\ (forall d, domKey w' d = domKey w d).
Lemma keeps_refl : forall w, keeps w w. Proof. intros w; repeat split. Qed.
Lemma keeps_trans : forall a b c, keeps a b -> keeps b c -> keeps a c.
Proof. intros a b c (A & B & C) (A' & B' & C'). repeat split; intros; congruence. Qed.

Lemma setRib_inv : forall w r o w', setRib w r o = Some w' -> (r < length (w_ribs w))%nat /\
  w_curves w' = w_curves w /\ w_doms w' = w_doms w /\ w_surfs w' = w_surfs w /\ length (w_ribs w') = length (w_ribs w) /\
  forall j, nth_error (w_ribs w') j = if (j =? r)%nat then Some o else nth_error (w_ribs w) j.
Proof. intros w r o w' H. unfold setRib in H. binv H. injection H as <-. apply upd_inv in E. cbn. intuition auto. Qed.
Lemma setDom_inv : forall w r o w', setDom w r o = Some w' -> (r < length (w_doms w))%nat /\
  w_curves w' = w_curves w /\ w_ribs w' = w_ribs w /\ w_surfs w' = w_surfs w /\ length (w_doms w') = length (w_doms w) /\
  forall j, nth_error (w_doms w') j = if (j =? r)%nat then Some o else nth_error (w_doms w) j.
Proof. intros w r o w' H. unfold setDom in H. binv H. injection H as <-. apply upd_inv in E. cbn. intuition auto. Qed.
Lemma setSurf_inv : forall w r o w', setSurf w r o = Some w' -> (r < length (w_surfs w))%nat /\
  w_curves w' = w_curves w /\ w_ribs w' = w_ribs w /\ w_doms w' = w_doms w /\ length (w_surfs w') = length (w_surfs w) /\
  forall j, nth_error (w_surfs w') j = if (j =? r)%nat then Some o else nth_error (w_surfs w) j.
Proof. intros w r o w' H. unfold setSurf in H. binv H. injection H as <-. apply upd_inv in E. cbn. intuition auto. Qed.
Lemma setCrv_inv : forall w r o w', setCrv w r o = Some w' -> (r < length (w_curves w))%nat /\
  w_surfs w' = w_surfs w /\ w_ribs w' = w_ribs w /\ w_doms w' = w_doms w /\ length (w_curves w') = length (w_curves w) /\
  forall j, nth_error (w_curves w') j = if (j =? r)%nat then Some o else nth_error (w_curves w) j.
Proof. intros w r o w' H. unfold setCrv in H. binv H. injection H as <-. apply upd_inv in E. cbn. intuition auto. Qed.

Lemma keeps_rib : forall w r o w' o', nth_error (w_ribs w) r = Some o -> setRib w r o' = Some w' ->
  (ro_curve o', ro_mult o', ro_handler o', ro_fence o') = (ro_curve o, ro_mult o, ro_handler o, ro_fence o) -> keeps w w'.
Proof.
  intros w r o w' o' H S E. destruct (setRib_inv _ _ _ _ S) as (_ & _ & D & K & _ & N).
  split; [|split]; intros x; unfold ribKey, surfKey, domKey; [|rewrite K; reflexivity|rewrite D; reflexivity].
  rewrite N. destruct (Nat.eqb_spec x r) as [-> | ]; [|reflexivity]. rewrite H. unfold option_map. f_equal. exact E.
Qed.
Lemma keeps_crv : forall w c o w', setCrv w c o = Some w' -> keeps w w'.
Proof.
  intros w c o w' S. destruct (setCrv_inv _ _ _ _ S) as (_ & K & R & D & _).
  split; [|split]; intros x; unfold ribKey, surfKey, domKey; [rewrite R|rewrite K|rewrite D]; reflexivity.
Qed.
Lemma keeps_dom : forall w d o w' o', nth_error (w_doms w) d = Some o -> setDom w d o' = Some w' -> do_curves o' = do_curves o -> keeps w w'.
Proof.
  intros w d o w' o' H S E. destruct (setDom_inv _ _ _ _ S) as (_ & _ & R & K & _ & N).
  split; [|split]; intros x; unfold ribKey, surfKey, domKey; [rewrite R; reflexivity|rewrite K; reflexivity|].
  rewrite N. destruct (Nat.eqb_spec x d) as [-> | ]; [|reflexivity]. rewrite H. unfold option_map. f_equal. exact E.
Qed.
Lemma keeps_surf : forall w k s w' s', nth_error (w_surfs w) k = Some s -> setSurf w k s' = Some w' ->
  (so_n s', so_gamma s', so_dom s', so_ribs s') = (so_n s, so_gamma s, so_dom s, so_ribs s) -> keeps w w'.
Proof.
  intros w k s w' s' H S E. destruct (setSurf_inv _ _ _ _ S) as (_ & _ & R & D & _ & N).
  split; [|split]; intros x; unfold ribKey, surfKey, domKey; [rewrite R; reflexivity| |rewrite D; reflexivity].
  rewrite N. destruct (Nat.eqb_spec x k) as [-> | ]; [|reflexivity]. rewrite H. unfold option_map. f_equal. exact E.
Qed.
Lemma foldM_keeps : forall A (f : world -> A -> option world) l w w',
  (forall w a w', f w a = Some w' -> keeps w w') -> foldM f w l = Some w' -> keeps w w'.
Proof.
  intros A f l; induction l as [|a l IH]; intros w w' H F; cbn [foldM] in F.
  - injection F as <-; apply keeps_refl.
  - binv F. apply (keeps_trans _ x); [apply (H _ a); exact E|apply IH; [exact H|exact F]].
Qed.

Lemma setupSide_keeps : forall s w i w', setupSide s w i = Some w' -> keeps w w'.
Proof.
  intros s w i w' H. unfold setupSide in H. do 4 binv H. binv H. do 2 binv H.
  assert (K : keeps w x3) by (eapply keeps_rib; [exact E2|exact E3|reflexivity]).
  match type of H with (if ?b then _ else _) = _ => destruct b end; [|injection H as <-; exact K].
  apply (keeps_trans _ x3); [exact K|]. eapply keeps_crv; exact H.
Qed.
Lemma setupLoop_keeps : forall w k w', setupLoop w k = Some w' -> keeps w w'.
Proof. intros w k w' H. unfold setupLoop in H. binv H. eapply foldM_keeps; [|exact H]. intros; eapply setupSide_keeps; eassumption. Qed.

Section Upd.
Variables (kd : rkind) (eps : R) (res : nat).
Lemma updateRibbon_keeps : forall w r w', updateRibbon kd eps res w r = Some w' -> keeps w w'.
Proof. intros w r w' H. unfold updateRibbon in H. do 7 binv H. eapply keeps_rib; [exact E|exact H|reflexivity]. Qed.
Lemma updateCorner_keeps : forall w k i w', updateCorner kd eps w k i = Some w' -> keeps w w'.
Proof. intros w k i w' H. unfold updateCorner in H. do 3 binv H. eapply keeps_surf; [exact E|exact H|reflexivity]. Qed.
Lemma updateCorners_keeps : forall w k w', updateCorners kd eps w k = Some w' -> keeps w w'.
Proof. intros w k w' H. unfold updateCorners in H. do 2 binv H. eapply keeps_surf; [exact E|exact H|reflexivity]. Qed.
Lemma updateDomain_keeps : forall w d w', updateDomain w d = Some w' -> keeps w w'.
Proof. intros w d w' H. unfold updateDomain in H. binv H. eapply keeps_dom; [exact E|exact H|reflexivity]. Qed.
Lemma updateSide_keeps : forall w k i w', updateSide kd eps res w k i = Some w' -> keeps w w'.
Proof.
  intros w k i w' H. unfold updateSide in H. do 5 binv H.
  eapply keeps_trans; [eapply updateDomain_keeps; eassumption|]. eapply keeps_trans; [eapply updateRibbon_keeps; eassumption|].
  eapply keeps_trans; eapply updateCorner_keeps; eassumption.
Qed.
Lemma updateAll_keeps : forall w k w', updateAll kd eps res w k = Some w' -> keeps w w'.
Proof.
  intros w k w' H. unfold updateAll in H. do 3 binv H.
  eapply keeps_trans; [eapply updateDomain_keeps; eassumption|]. eapply keeps_trans; [|eapply updateCorners_keeps; exact H].
  eapply foldM_keeps; [|exact E1]. intros a b c G. binv G. eapply updateRibbon_keeps; exact G.
Qed.
End Upd.

(** ** What the caller sees is a function of the keys *)
Definition key := (cloc * R * option V3 * option (R -> V3))%type.
Definition sideKey (w : world) (k i : nat) : option key :=
  s <- surfKey w k ;; o <- nth_error (snd s) i ;; r <- o ;; ribKey w r.
Lemma sideKey_at : forall w k i, sideKey w k i = option_map (fun o => (ro_curve o, ro_mult o, ro_handler o, ro_fence o)) (ribbonAt w k i).
Proof.
  intros w k i. unfold sideKey, surfKey, ribbonAt, sideRib, ribKey. destruct (nth_error (w_surfs w) k) as [s|]; [|reflexivity]. cbn.
  destruct (nth_error (so_ribs s) i) as [[r|]|]; reflexivity.
Qed.
Lemma sideObj_key : forall w k i, sideObj w k i = option_map (fun q => fst (fst (fst q))) (sideKey w k i).
Proof. intros. rewrite sideKey_at. unfold sideObj. destruct (ribbonAt w k i); reflexivity. Qed.
Lemma mult_key : forall w k i, ribbonMultiplier w k i = option_map (fun q => snd (fst (fst q))) (sideKey w k i).
Proof. intros. rewrite sideKey_at. unfold ribbonMultiplier. destruct (ribbonAt w k i); reflexivity. Qed.
Lemma handler_key : forall w k i, ribbonHandler w k i = option_map (fun q => snd (fst q)) (sideKey w k i).
Proof. intros. rewrite sideKey_at. unfold ribbonHandler. destruct (ribbonAt w k i); reflexivity. Qed.
Lemma fence_key : forall w k i, ribbonFence w k i = option_map (fun q => snd q) (sideKey w k i).
Proof. intros. rewrite sideKey_at. unfold ribbonFence. destruct (ribbonAt w k i); reflexivity. Qed.
Lemma count_key : forall w k, sideCount w k = option_map (fun q => fst (fst (fst q))) (surfKey w k).
Proof. intros. unfold sideCount, surfKey. destruct (nth_error (w_surfs w) k); reflexivity. Qed.
Definition domList (w : world) (k : nat) : option (list (option cloc)) := s <- surfKey w k ;; domKey w (snd (fst s)).
Lemma domain_key : forall w k i, domainObj w k i = (l <- domList w k ;; o <- nth_error l i ;; o).
Proof.
  intros. unfold domainObj, domList, surfKey, domKey. destruct (nth_error (w_surfs w) k) as [s|]; [|reflexivity]. cbn.
  destruct (nth_error (w_doms w) (so_dom s)); reflexivity.
Qed.
Lemma dcount_key : forall w k, domainCount w k = option_map (@length _) (domList w k).
Proof.
  intros. unfold domainCount, domList, surfKey, domKey. destruct (nth_error (w_surfs w) k) as [s|]; [|reflexivity]. cbn.
  destruct (nth_error (w_doms w) (so_dom s)); reflexivity.
Qed.
Lemma keeps_sideKey : forall w w' k i, keeps w w' -> sideKey w' k i = sideKey w k i.
Proof.
  intros w w' k i (A & B & _). unfold sideKey. rewrite B. destruct (surfKey w k) as [s|]; [|reflexivity]. cbn.
  destruct (nth_error (snd s) i) as [[r|]|]; [cbn; apply A|reflexivity|reflexivity].
Qed.
Lemma keeps_domList : forall w w' k, keeps w w' -> domList w' k = domList w k.
Proof. intros w w' k (_ & B & C). unfold domList. rewrite B. destruct (surfKey w k) as [s|]; [cbn; apply C|reflexivity]. Qed.

(** ** Well-formed worlds *)

(** Of every history. *)
Record wf (w : world) : Prop := mkWf {
  wf_bound : forall k s i r, nth_error (w_surfs w) k = Some s -> sideRib s i = Some r -> (r < length (w_ribs w))%nat;
  wf_inj : forall k s i j r, nth_error (w_surfs w) k = Some s -> sideRib s i = Some r -> sideRib s j = Some r -> i = j;
  wf_n : forall k s, nth_error (w_surfs w) k = Some s -> length (so_ribs s) = so_n s;
  wf_dom : forall k s, nth_error (w_surfs w) k = Some s -> (so_dom s < length (w_doms w))%nat }.
(** Of a history without copies. *)
Record wf1 (w : world) : Prop := mkWf1 {
  wf_0 : wf w;
  wf_sep : forall k k' s s' i i' r, nth_error (w_surfs w) k = Some s -> nth_error (w_surfs w) k' = Some s' ->
    sideRib s i = Some r -> sideRib s' i' = Some r -> k = k';
  wf_dsep : forall k k' s s', nth_error (w_surfs w) k = Some s -> nth_error (w_surfs w) k' = Some s' -> so_dom s = so_dom s' -> k = k' }.

Lemma ribKey_len : forall w r, ribKey w r <> None <-> (r < length (w_ribs w))%nat.
Proof. intros w r. rewrite <- nth_error_Some. unfold ribKey. destruct (nth_error (w_ribs w) r); split; intros H; cbn in *; congruence. Qed.
Lemma domKey_len : forall w r, domKey w r <> None <-> (r < length (w_doms w))%nat.
Proof. intros w r. rewrite <- nth_error_Some. unfold domKey. destruct (nth_error (w_doms w) r); split; intros H; cbn in *; congruence. Qed.
Lemma keeps_back : forall w w' k s', keeps w w' -> nth_error (w_surfs w') k = Some s' ->
  exists s, nth_error (w_surfs w) k = Some s /\ so_ribs s' = so_ribs s /\ so_dom s' = so_dom s /\ so_n s' = so_n s.
Proof.
  intros w w' k s' (_ & B & _) H. specialize (B k). unfold surfKey in B. rewrite H in B. cbn in B.
  destruct (nth_error (w_surfs w) k) as [s|]; [|discriminate]. cbn in B. injection B. intros. exists s. auto.
Qed.
Lemma sideRib_eq : forall s s' i, so_ribs s' = so_ribs s -> sideRib s' i = sideRib s i.
Proof. intros s s' i H. unfold sideRib. rewrite H; reflexivity. Qed.

Lemma keeps_wf : forall w w', keeps w w' -> wf w -> wf w'.
Proof.
  intros w w' K [A B C D]. assert (K' := K). destruct K' as (Kr & _ & Kd). split.
  - intros k s' i r H E. destruct (keeps_back _ _ _ _ K H) as (s & Hs & R & _). rewrite (sideRib_eq _ _ _ R) in E.
    apply ribKey_len. rewrite Kr. apply ribKey_len. eapply A; eassumption.
  - intros k s' i j r H E E'. destruct (keeps_back _ _ _ _ K H) as (s & Hs & R & _). rewrite (sideRib_eq _ _ i R) in E. rewrite (sideRib_eq _ _ j R) in E'. eapply B; eassumption.
  - intros k s' H. destruct (keeps_back _ _ _ _ K H) as (s & Hs & R & _ & N). rewrite R, N. eapply C; exact Hs.
  - intros k s' H. destruct (keeps_back _ _ _ _ K H) as (s & Hs & _ & R & _). rewrite R. apply domKey_len. rewrite Kd. apply domKey_len. eapply D; exact Hs.
Qed.
Lemma keeps_wf1 : forall w w', keeps w w' -> wf1 w -> wf1 w'.
Proof.
  intros w w' K [W S D]. split; [eapply keeps_wf; eassumption| |].
  - intros k k' s1 s2 i i' r H1 H2 E1 E2. destruct (keeps_back _ _ _ _ K H1) as (t1 & G1 & R1 & _). destruct (keeps_back _ _ _ _ K H2) as (t2 & G2 & R2 & _).
    rewrite (sideRib_eq _ _ _ R1) in E1. rewrite (sideRib_eq _ _ _ R2) in E2. eapply S; eassumption.
  - intros k k' s1 s2 H1 H2 E. destruct (keeps_back _ _ _ _ K H1) as (t1 & G1 & _ & R1 & _). destruct (keeps_back _ _ _ _ K H2) as (t2 & G2 & _ & R2 & _).
    apply (D k k' t1 t2 G1 G2). congruence.
Qed.
Lemma start_wf1 : forall cs, wf1 (startWorld cs).
Proof.
  intros cs. assert (H : forall k s, nth_error (w_surfs (startWorld cs)) k = Some s -> False) by (intros [|k] s H; discriminate).
  split; [split|..]; intros; exfalso; eapply H; eassumption.
Qed.

(** ** One step *)
Lemma resize_nth : forall A (l : list (option A)) m j, (length l <= m)%nat ->
  nth_error (resize l m) j = if (j <? length l)%nat then nth_error l j else if (j <? m)%nat then Some None else None.
Proof.
  intros A l m j H. unfold resize. rewrite firstn_all2 by exact H.
  destruct (Nat.ltb_spec j (length l)); [rewrite nth_error_app1 by assumption; reflexivity|].
  rewrite nth_error_app2 by assumption.
  destruct (Nat.ltb_spec j m).
  - rewrite (nth_error_nth' _ None) by (rewrite repeat_length; lia). rewrite nth_repeat. reflexivity.
  - apply nth_error_None. rewrite repeat_length; lia.
Qed.
Lemma resize_length : forall A (l : list (option A)) m, (length l <= m)%nat -> length (resize l m) = m.
Proof. intros A l m H. unfold resize. rewrite firstn_all2, app_length, repeat_length by exact H. lia. Qed.

(** The new list of a growing vector of pointers. *)
Definition grown {A : Type} (l l' : list (option A)) (i : nat) (a : A) : Prop :=
  length l' = Nat.max (length l) (i + 1) /\
  forall j, (x <- nth_error l' j ;; x) = if (j =? i)%nat then Some a else (x <- nth_error l j ;; x).
Lemma grow_spec : forall A (l l' : list (option A)) i a n, length l = n ->
  upd (if (n <=? i)%nat then resize l (i + 1) else l) i (Some a) = Some l' -> grown l l' i a.
Proof.
  intros A l l' i a n L H. apply upd_inv in H. destruct H as (H1 & H2 & H3). split.
  - rewrite H2. destruct (Nat.leb_spec n i); [rewrite resize_length by lia|]; lia.
  - intros j. rewrite H3. destruct (Nat.eqb_spec j i); [reflexivity|].
    destruct (Nat.leb_spec n i); [|reflexivity]. rewrite resize_nth by lia.
    destruct (Nat.ltb_spec j (length l)); [reflexivity|]. rewrite (proj2 (nth_error_None l j)) by assumption.
    destruct (j <? i + 1)%nat; reflexivity.
Qed.
Lemma grow_some : forall A (l : list (option A)) i a n, length l = n ->
  exists l', upd (if (n <=? i)%nat then resize l (i + 1) else l) i (Some a) = Some l'.
Proof.
  intros A l i a n L. apply upd_some. destruct (Nat.leb_spec n i); [rewrite resize_length by lia; lia|lia].
Qed.

(** What setCurve does. *)
Lemma setCurve_spec : forall w k i c w', wf w -> setCurve w k i c = Some w' ->
  exists s s' d d', nth_error (w_surfs w) k = Some s /\ nth_error (w_doms w) (so_dom s) = Some d /\
    w_curves w' = w_curves w /\ w_ribs w' = w_ribs w ++ [newRibbon c] /\
    (forall j, nth_error (w_surfs w') j = if (j =? k)%nat then Some s' else nth_error (w_surfs w) j) /\
    (forall j, nth_error (w_doms w') j = if (j =? so_dom s)%nat then Some d' else nth_error (w_doms w) j) /\
    length (w_surfs w') = length (w_surfs w) /\ length (w_doms w') = length (w_doms w) /\
    so_n s' = Nat.max (so_n s) (i + 1) /\ so_gamma s' = so_gamma s /\ so_dom s' = so_dom s /\ so_corners s' = so_corners s /\
    grown (so_ribs s) (so_ribs s') i (length (w_ribs w)) /\ grown (do_curves d) (do_curves d') i c /\ do_layout d' = do_layout d.
Proof.
  intros w k i c w' W H. unfold setCurve in H. binv H. binv H. binv H. binv H. binv H.
  apply setSurf_inv in H. destruct H as (K1 & K2 & K3 & K4 & K5 & K6).
  apply setDom_inv in E3. destruct E3 as (D1 & D2 & D3 & D4 & D5 & D6). unfold domSide in E2. binv E2. injection E2 as <-.
  exists x, (mkSob (if (so_n x <=? i)%nat then (i + 1)%nat else so_n x) (so_gamma x) (so_dom x) x0 (so_corners x)), x1, (mkDob x4 (do_layout x1)).
  split; [exact E|]. split; [exact E1|]. split; [rewrite K2, D2; reflexivity|]. split; [rewrite K3, D3; reflexivity|].
  split; [intros j; rewrite K6, D4; reflexivity|]. split; [intros j; rewrite K4, D6; reflexivity|].
  split; [rewrite K5, D4; reflexivity|]. split; [rewrite K4, D5; reflexivity|].
  split; [cbn; destruct (Nat.leb_spec (so_n x) i); lia|]. split; [reflexivity|]. split; [reflexivity|]. split; [reflexivity|].
  split; [cbn; eapply grow_spec; [eapply wf_n; eassumption|exact E0]|].
  split; [cbn; eapply grow_spec; [reflexivity|exact E3]|reflexivity].
Qed.
Lemma setCurve_some : forall w k i c, wf w -> (k < length (w_surfs w))%nat -> exists w', setCurve w k i c = Some w'.
Proof.
  intros w k i c W K. destruct (nth_error_ex _ _ _ K) as [s Hs]. unfold setCurve. rewrite Hs. cbn [bind].
  pose proof (wf_dom w W k s Hs) as Ld. pose proof (wf_n w W k s Hs) as Ln. destruct (nth_error_ex _ _ _ Ld) as [d Hd].
  match goal with |- context [upd ?a ?b ?e] => destruct (upd_some _ a b e) as [l El] end.
  { destruct (Nat.leb_spec (so_n s) i); [rewrite resize_length by lia; lia|lia]. }
  rewrite El. cbn [bind]. rewrite Hd. cbn [bind]. unfold domSide.
  match goal with |- context [upd ?a ?b ?e] => destruct (upd_some _ a b e) as [l' El'] end.
  { destruct (Nat.leb_spec (length (do_curves d)) i); [rewrite resize_length by lia; lia|lia]. }
  rewrite El'. cbn [bind]. unfold setDom.
  match goal with |- context [upd ?a ?b ?e] => destruct (upd_some _ a b e) as [l2 E2]; [exact Ld|] end.
  rewrite E2. cbn [bind]. unfold setSurf.
  match goal with |- context [upd ?a ?b ?e] => destruct (upd_some _ a b e) as [l3 E3]; [exact K|] end.
  rewrite E3. eexists; reflexivity.
Qed.
Lemma setCurves_spec : forall w k cs w', setCurves w k cs = Some w' ->
  exists s s' d d', nth_error (w_surfs w) k = Some s /\ nth_error (w_doms w) (so_dom s) = Some d /\
    w_curves w' = w_curves w /\ w_ribs w' = w_ribs w ++ map newRibbon cs /\
    (forall j, nth_error (w_surfs w') j = if (j =? k)%nat then Some s' else nth_error (w_surfs w) j) /\
    (forall j, nth_error (w_doms w') j = if (j =? so_dom s)%nat then Some d' else nth_error (w_doms w) j) /\
    length (w_surfs w') = length (w_surfs w) /\ length (w_doms w') = length (w_doms w) /\
    so_n s' = length cs /\ so_gamma s' = so_gamma s /\ so_dom s' = so_dom s /\ so_corners s' = so_corners s /\
    so_ribs s' = map Some (seq (length (w_ribs w)) (length cs)) /\ do_curves d' = map Some cs /\ do_layout d' = do_layout d.
Proof.
  intros w k cs w' H. unfold setCurves in H. binv H. binv H. binv H.
  apply setSurf_inv in H. destruct H as (K1 & K2 & K3 & K4 & K5 & K6).
  apply setDom_inv in E1. destruct E1 as (D1 & D2 & D3 & D4 & D5 & D6).
  exists x, (mkSob (length cs) (so_gamma x) (so_dom x) (map Some (seq (length (w_ribs w)) (length cs))) (so_corners x)), x0, (mkDob (map Some cs) (do_layout x0)).
  split; [exact E|]. split; [exact E0|]. split; [rewrite K2, D2; reflexivity|]. split; [rewrite K3, D3; reflexivity|].
  split; [intros j; rewrite K6, D4; reflexivity|]. split; [intros j; rewrite K4, D6; reflexivity|].
  split; [rewrite K5, D4; reflexivity|]. split; [rewrite K4, D5; reflexivity|]. repeat split.
Qed.

Lemma seq_nth_error : forall m a j, nth_error (seq a m) j = if (j <? m)%nat then Some (a + j)%nat else None.
Proof.
  intros m a j. destruct (Nat.ltb_spec j m); [|apply nth_error_None; rewrite seq_length; assumption].
  rewrite (nth_error_nth' _ 0%nat) by (rewrite seq_length; assumption). rewrite seq_nth by assumption. reflexivity.
Qed.
Lemma sideRib_seq : forall s a m i r, so_ribs s = map Some (seq a m) -> sideRib s i = Some r -> (r = a + i /\ i < m)%nat.
Proof.
  intros s a m i r H E. unfold sideRib in E. rewrite H, nth_error_map, seq_nth_error in E.
  destruct (Nat.ltb_spec i m); cbn in E; [|discriminate]. injection E as <-. auto.
Qed.
Lemma sideRib_grown : forall s s' i a j, grown (so_ribs s) (so_ribs s') i a -> sideRib s' j = if (j =? i)%nat then Some a else sideRib s j.
Proof. intros s s' i a j [_ G]. apply G. Qed.

Section Step.
Variables (kd : rkind) (eps : R) (res : nat).
Notation wstep := (wstep kd eps res).
Notation wrun := (wrun kd eps res).

Lemma gamma_cases : forall w k b w', wstep w (OGamma k b) = Some w' ->
  exists s, nth_error (w_surfs w) k = Some s /\ w_curves w' = w_curves w /\ w_ribs w' = w_ribs w /\ w_doms w' = w_doms w /\
   (forall j, nth_error (w_surfs w') j = if (j =? k)%nat then Some (mkSob (so_n s) b (so_dom s) (so_ribs s) (so_corners s)) else nth_error (w_surfs w) j).
Proof. intros w k b w' H. cbn in H. binv H. apply setSurf_inv in H. exists x. intuition auto. Qed.

(** All surfaces of [w'] have the ribbons, domain and side count of the same surface in [w]. *)
Definition sameRibs (w w' : world) : Prop :=
  (length (w_ribs w) = length (w_ribs w') /\ length (w_doms w) = length (w_doms w')) /\
  forall k s', nth_error (w_surfs w') k = Some s' ->
  exists s, nth_error (w_surfs w) k = Some s /\ so_ribs s' = so_ribs s /\ so_dom s' = so_dom s /\ so_n s' = so_n s.
Lemma sameRibs_wf : forall w w', sameRibs w w' -> wf w -> wf w'.
Proof.
  intros w w' [[L L'] K] [A B C D]. split.
  - intros k s' i r H E. destruct (K _ _ H) as (s & Hs & R & _). rewrite (sideRib_eq _ _ _ R) in E. rewrite <- L. eapply A; eassumption.
  - intros k s' i j r H E E'. destruct (K _ _ H) as (s & Hs & R & _). rewrite (sideRib_eq _ _ i R) in E. rewrite (sideRib_eq _ _ j R) in E'. eapply B; eassumption.
  - intros k s' H. destruct (K _ _ H) as (s & Hs & R & _ & N). rewrite R, N. eapply C; exact Hs.
  - intros k s' H. destruct (K _ _ H) as (s & Hs & _ & R & _). rewrite R, <- L'. eapply D; exact Hs.
Qed.
Lemma sameRibs_wf1 : forall w w', sameRibs w w' -> wf1 w -> wf1 w'.
Proof.
  intros w w' SR [W S D]. split; [eapply sameRibs_wf; eassumption| |]; destruct SR as [_ K].
  - intros k k' s1 s2 i i' r H1 H2 E1 E2. destruct (K _ _ H1) as (t1 & G1 & R1 & _). destruct (K _ _ H2) as (t2 & G2 & R2 & _).
    rewrite (sideRib_eq _ _ _ R1) in E1. rewrite (sideRib_eq _ _ _ R2) in E2. eapply S; eassumption.
  - intros k k' s1 s2 H1 H2 E. destruct (K _ _ H1) as (t1 & G1 & _ & R1 & _). destruct (K _ _ H2) as (t2 & G2 & _ & R2 & _).
    apply (D k k' t1 t2 G1 G2). congruence.
Qed.
Lemma gamma_sameRibs : forall w k b w', wstep w (OGamma k b) = Some w' -> sameRibs w w'.
Proof.
  intros w k b w' H. destruct (gamma_cases _ _ _ _ H) as (s & Hs & _ & R & D & N). split; [rewrite R, D; split; reflexivity|].
  intros j s' Hj. rewrite N in Hj. destruct (Nat.eqb_spec j k) as [-> | ]; [injection Hj as <-; exists s|exists s']; auto.
Qed.
Lemma set_cases : forall w k i x w', setRibbon w k i x = Some w' -> exists s r o o', nth_error (w_surfs w) k = Some s /\
  sideRib s i = Some r /\ nth_error (w_ribs w) r = Some o /\ applySetting o x = Some o' /\
  w_curves w' = w_curves w /\ w_doms w' = w_doms w /\ w_surfs w' = w_surfs w /\ length (w_ribs w') = length (w_ribs w) /\
  forall j, nth_error (w_ribs w') j = if (j =? r)%nat then Some o' else nth_error (w_ribs w) j.
Proof. intros w k i x w' H. unfold setRibbon in H. do 4 binv H. apply setRib_inv in H. exists x0, x1, x2, x3. intuition auto. Qed.
Lemma set_sameRibs : forall w k i x w', setRibbon w k i x = Some w' -> sameRibs w w'.
Proof.
  intros w k i x w' H. destruct (set_cases _ _ _ _ _ H) as (s & r & o & o' & _ & _ & _ & _ & _ & D & K & L & _).
  split; [rewrite L, D; split; reflexivity|]. intros j s' Hj. rewrite K in Hj. exists s'; auto.
Qed.

Lemma step_wf : forall w o w', wf w -> wstep w o = Some w' -> wf w'.
Proof.
  intros w o w' W H. destruct o as [|k|k b|k i c|k cs|k|k i x|k i|k].
  - cbn in H. injection H as <-. destruct W as [A B C D].
    assert (N : forall k s, nth_error (w_surfs (newSurface w)) k = Some s ->
       nth_error (w_surfs w) k = Some s \/ s = mkSob 0 true (length (w_doms w)) [] []).
    { intros k s Hk. cbn [newSurface w_surfs] in Hk. rewrite nth_last in Hk. destruct (Nat.eqb_spec k (length (w_surfs w))); [injection Hk as <-; right; reflexivity|left; exact Hk]. }
    assert (E : forall i r, sideRib (mkSob 0 true (length (w_doms w)) [] []) i = Some r -> False).
    { intros i r Hi. unfold sideRib in Hi. cbn in Hi. destruct i; discriminate. }
    split.
    + intros k s i r Hk Hi. destruct (N _ _ Hk) as [G | ->]; [exact (A _ _ _ _ G Hi)|destruct (E _ _ Hi)].
    + intros k s i j r Hk Hi Hj. destruct (N _ _ Hk) as [G | ->]; [exact (B _ _ _ _ _ G Hi Hj)|destruct (E _ _ Hi)].
    + intros k s Hk. destruct (N _ _ Hk) as [G | ->]; [exact (C _ _ G)|reflexivity].
    + intros k s Hk. cbn. rewrite app_length; cbn. destruct (N _ _ Hk) as [G | ->]; [specialize (D _ _ G); lia|cbn; lia].
  - cbn in H. unfold copySurface in H. binv H. injection H as <-. destruct W as [A B C D].
    assert (N : forall k' s, nth_error (w_surfs w ++ [x]) k' = Some s -> exists k0, nth_error (w_surfs w) k0 = Some s).
    { intros k' s Hk. rewrite nth_last in Hk. destruct (k' =? length (w_surfs w))%nat; [injection Hk as <-; exists k; exact E|exists k'; exact Hk]. }
    split; cbn.
    + intros k' s i r Hk Hi. destruct (N _ _ Hk) as [k0 G]. exact (A _ _ _ _ G Hi).
    + intros k' s i j r Hk Hi Hj. destruct (N _ _ Hk) as [k0 G]. exact (B _ _ _ _ _ G Hi Hj).
    + intros k' s Hk. destruct (N _ _ Hk) as [k0 G]. exact (C _ _ G).
    + intros k' s Hk. destruct (N _ _ Hk) as [k0 G]. exact (D _ _ G).
  - eapply sameRibs_wf; [eapply gamma_sameRibs; exact H|exact W].
  - cbn in H. destruct (setCurve_spec _ _ _ _ _ W H) as (s & s' & d & d' & Hs & Hd & _ & R & N & ND & L & LD & Sn & _ & Sd & _ & G & _).
    assert (Gr := fun j => sideRib_grown s s' i _ j G). destruct W as [A B C D]. split.
    + intros k' t j r Hk Hj. rewrite R, app_length; cbn. rewrite N in Hk. destruct (Nat.eqb_spec k' k) as [-> | ]; [|specialize (A _ _ _ _ Hk Hj); lia].
      injection Hk as <-. rewrite Gr in Hj. destruct (j =? i)%nat; [injection Hj as <-; lia|]. specialize (A _ _ _ _ Hs Hj); lia.
    + intros k' t j1 j2 r Hk H1 H2. rewrite N in Hk. destruct (Nat.eqb_spec k' k) as [-> | ]; [|exact (B _ _ _ _ _ Hk H1 H2)].
      injection Hk as <-. rewrite Gr in H1, H2.
      destruct (Nat.eqb_spec j1 i), (Nat.eqb_spec j2 i); try congruence.
      * injection H1 as <-. specialize (A _ _ _ _ Hs H2); lia.
      * injection H2 as <-. specialize (A _ _ _ _ Hs H1); lia.
      * exact (B _ _ _ _ _ Hs H1 H2).
    + intros k' t Hk. rewrite N in Hk. destruct (Nat.eqb_spec k' k) as [-> | ]; [|exact (C _ _ Hk)]. injection Hk as <-.
      destruct G as [G _]. rewrite G, Sn, (C _ _ Hs). reflexivity.
    + intros k' t Hk. rewrite LD. rewrite N in Hk. destruct (Nat.eqb_spec k' k) as [-> | ]; [|exact (D _ _ Hk)]. injection Hk as <-.
      rewrite Sd. exact (D _ _ Hs).
  - cbn in H. destruct (setCurves_spec _ _ _ _ H) as (s & s' & d & d' & Hs & Hd & _ & R & N & ND & L & LD & Sn & _ & Sd & _ & G & _).
    destruct W as [A B C D]. split.
    + intros k' t j r Hk Hj. rewrite R, app_length, map_length. rewrite N in Hk. destruct (Nat.eqb_spec k' k) as [-> | ]; [|specialize (A _ _ _ _ Hk Hj); lia].
      injection Hk as <-. destruct (sideRib_seq _ _ _ _ _ G Hj); lia.
    + intros k' t j1 j2 r Hk H1 H2. rewrite N in Hk. destruct (Nat.eqb_spec k' k) as [-> | ]; [|exact (B _ _ _ _ _ Hk H1 H2)].
      injection Hk as <-. destruct (sideRib_seq _ _ _ _ _ G H1), (sideRib_seq _ _ _ _ _ G H2); lia.
    + intros k' t Hk. rewrite N in Hk. destruct (Nat.eqb_spec k' k) as [-> | ]; [|exact (C _ _ Hk)]. injection Hk as <-.
      rewrite G, map_length, seq_length, Sn; reflexivity.
    + intros k' t Hk. rewrite LD. rewrite N in Hk. destruct (Nat.eqb_spec k' k) as [-> | ]; [|exact (D _ _ Hk)]. injection Hk as <-.
      rewrite Sd. exact (D _ _ Hs).
  - eapply keeps_wf; [eapply setupLoop_keeps; exact H|exact W].
  - eapply sameRibs_wf; [eapply set_sameRibs; exact H|exact W].
  - eapply keeps_wf; [eapply updateSide_keeps; exact H|exact W].
  - eapply keeps_wf; [eapply updateAll_keeps; exact H|exact W].
Qed.

Lemma step_wf1 : forall w o w', ~ isCopy o -> wf1 w -> wstep w o = Some w' -> wf1 w'.
Proof.
  intros w o w' NC W1 H. assert (W := wf_0 w W1). assert (W' := step_wf w o w' W H).
  destruct o as [|k|k b|k i c|k cs|k|k i x|k i|k]; [| exfalso; apply NC; exact I | | | | | | |].
  - cbn in H. injection H as <-. destruct W1 as [_ S D]. destruct W as [A B C E].
    assert (N : forall k s, nth_error (w_surfs (newSurface w)) k = Some s ->
       nth_error (w_surfs w) k = Some s \/ (k = length (w_surfs w) /\ s = mkSob 0 true (length (w_doms w)) [] [])).
    { intros k s Hk. cbn [newSurface w_surfs] in Hk. rewrite nth_last in Hk. destruct (Nat.eqb_spec k (length (w_surfs w))); [injection Hk as <-; right; auto|left; exact Hk]. }
    assert (Em : forall i r, sideRib (mkSob 0 true (length (w_doms w)) [] []) i = Some r -> False).
    { intros i r Hi. unfold sideRib in Hi. cbn in Hi. destruct i; discriminate. }
    split; [exact W'| |].
    + intros k k' s s' i i' r H1 H2 E1 E2. destruct (N _ _ H1) as [G | [_ ->]]; [|destruct (Em _ _ E1)].
      destruct (N _ _ H2) as [G' | [_ ->]]; [|destruct (Em _ _ E2)]. eapply S; eassumption.
    + intros k k' s s' H1 H2 Ed. destruct (N _ _ H1) as [G | [-> ->]], (N _ _ H2) as [G' | [-> ->]]; [eapply D; eassumption| | |reflexivity]; cbn in Ed.
      * specialize (E _ _ G); lia.
      * specialize (E _ _ G'); lia.
  - eapply sameRibs_wf1; [eapply gamma_sameRibs; exact H|exact W1].
  - cbn in H. destruct (setCurve_spec _ _ _ _ _ W H) as (s & s' & d & d' & Hs & Hd & _ & R & N & ND & L & LD & Sn & _ & Sd & _ & G & _).
    assert (Gr := fun j => sideRib_grown s s' i _ j G). destruct W1 as [_ S D]. destruct W as [A B C E]. split; [exact W'| |].
    + intros k1 k2 t1 t2 i1 i2 r H1 H2 E1 E2. rewrite N in H1, H2.
      destruct (Nat.eqb_spec k1 k) as [-> | ], (Nat.eqb_spec k2 k) as [-> | ]; [reflexivity| | |eapply S; eassumption].
      * injection H1 as <-. rewrite Gr in E1. destruct (i1 =? i)%nat; [injection E1 as <-; specialize (A _ _ _ _ H2 E2); lia|eapply S; eassumption].
      * injection H2 as <-. rewrite Gr in E2. destruct (i2 =? i)%nat; [injection E2 as <-; specialize (A _ _ _ _ H1 E1); lia|eapply S; eassumption].
    + intros k1 k2 t1 t2 H1 H2 Ed. rewrite N in H1, H2.
      destruct (Nat.eqb_spec k1 k) as [-> | ], (Nat.eqb_spec k2 k) as [-> | ]; [reflexivity| | |eapply D; eassumption].
      * injection H1 as <-. rewrite Sd in Ed. eapply D; eassumption.
      * injection H2 as <-. rewrite Sd in Ed. eapply D; eassumption.
  - cbn in H. destruct (setCurves_spec _ _ _ _ H) as (s & s' & d & d' & Hs & Hd & _ & R & N & ND & L & LD & Sn & _ & Sd & _ & G & _).
    assert (Gr := fun i r => sideRib_seq s' _ _ i r G). destruct W1 as [_ S D]. destruct W as [A B C E]. split; [exact W'| |].
    + intros k1 k2 t1 t2 i1 i2 r H1 H2 E1 E2. rewrite N in H1, H2.
      destruct (Nat.eqb_spec k1 k) as [-> | ], (Nat.eqb_spec k2 k) as [-> | ]; [reflexivity| | |eapply S; eassumption].
      * injection H1 as <-. destruct (Gr _ _ E1). specialize (A _ _ _ _ H2 E2); lia.
      * injection H2 as <-. destruct (Gr _ _ E2). specialize (A _ _ _ _ H1 E1); lia.
    + intros k1 k2 t1 t2 H1 H2 Ed. rewrite N in H1, H2.
      destruct (Nat.eqb_spec k1 k) as [-> | ], (Nat.eqb_spec k2 k) as [-> | ]; [reflexivity| | |eapply D; eassumption].
      * injection H1 as <-. rewrite Sd in Ed. eapply D; eassumption.
      * injection H2 as <-. rewrite Sd in Ed. eapply D; eassumption.
  - eapply keeps_wf1; [eapply setupLoop_keeps; exact H|exact W1].
  - eapply sameRibs_wf1; [eapply set_sameRibs; exact H|exact W1].
  - eapply keeps_wf1; [eapply updateSide_keeps; exact H|exact W1].
  - eapply keeps_wf1; [eapply updateAll_keeps; exact H|exact W1].
Qed.

Lemma run_wf : forall os w w', wf w -> wrun w os = Some w' -> wf w'.
Proof.
  intros os; induction os as [|o os IH]; intros w w' W H; unfold SurfaceObj.wrun in H; cbn [foldM] in H.
  - injection H as <-; exact W.
  - binv H. eapply IH; [|exact H]. eapply step_wf; eassumption.
Qed.
Lemma run_wf1 : forall os w w', Forall (fun o => ~ isCopy o) os -> wf1 w -> wrun w os = Some w' -> wf1 w'.
Proof.
  intros os; induction os as [|o os IH]; intros w w' F W H; unfold SurfaceObj.wrun in H; cbn [foldM] in H.
  - injection H as <-; exact W.
  - binv H. inversion F; subst. eapply IH; [eassumption| |exact H]. eapply step_wf1; eassumption.
Qed.
Lemma run_app : forall os1 os2 w w', wrun w (os1 ++ os2) = Some w' -> exists w1, wrun w os1 = Some w1 /\ wrun w1 os2 = Some w'.
Proof. intros os1 os2 w w' H. unfold SurfaceObj.wrun in H. rewrite foldM_app in H. binv H. exists x. split; [exact E|exact H]. Qed.

(** ** The settings of a side after one step *)
Definition applyKey (q : key) (x : setting) : option key :=
  let '(c, m, h, f) := q in
  match x with
  | SMult m => Some (c, m, h, f)
  | SHandler v => v' <- vnormalize v ;; Some (c, m, Some v', f)
  | SFence f => Some (c, m, h, f)
  | SReset => Some (c, 1, None, f)
  end.
Lemma applyKey_spec : forall o o' x, applySetting o x = Some o' ->
  applyKey (ro_curve o, ro_mult o, ro_handler o, ro_fence o) x = Some (ro_curve o', ro_mult o', ro_handler o', ro_fence o').
Proof.
  intros o o' x H. destruct x; cbn in *; try (injection H as <-; reflexivity). binv H. rewrite E. injection H as <-. reflexivity.
Qed.

Definition keyStep (o : wop) (k i : nat) (q : option key) : option key :=
  match o with
  | OSetCurve k' i' c => if ((k' =? k) && (i' =? i))%nat%bool then Some (c, 1, None, None) else q
  | OSetCurves k' cs => if (k' =? k)%nat then option_map (fun c => (c, 1, None, None)) (nth_error cs i) else q
  | OSet k' i' x => if ((k' =? k) && (i' =? i))%nat%bool then (q' <- q ;; applyKey q' x) else q
  | _ => q
  end.

Lemma nth_map_new : forall cs j, nth_error (map newRibbon cs) j = option_map newRibbon (nth_error cs j).
Proof. intros; apply nth_error_map. Qed.

Lemma step_key : forall w o w' k i, ~ isCopy o -> wf1 w -> wstep w o = Some w' -> sideKey w' k i = keyStep o k i (sideKey w k i).
Proof.
  intros w o w' k i NC W1 H. assert (W := wf_0 w W1).
  destruct o as [|k'|k' b|k' i' c|k' cs|k'|k' i' x|k' i'|k']; [| exfalso; apply NC; exact I | | | | | | |].
  - cbn in H. injection H as <-. cbn [keyStep]. rewrite !sideKey_at. unfold ribbonAt. cbn [newSurface w_surfs w_ribs].
    rewrite nth_last. destruct (Nat.eqb_spec k (length (w_surfs w))) as [-> | ]; [|reflexivity].
    rewrite (proj2 (nth_error_None (w_surfs w) _)) by lia. cbn. unfold sideRib. cbn. destruct i; reflexivity.
  - destruct (gamma_cases _ _ _ _ H) as (s & Hs & _ & R & D & N). cbn [keyStep]. rewrite !sideKey_at. unfold ribbonAt. rewrite N, R.
    destruct (Nat.eqb_spec k k') as [-> | ]; [|reflexivity]. rewrite Hs. reflexivity.
  - cbn in H. destruct (setCurve_spec _ _ _ _ _ W H) as (s & s' & d & d' & Hs & Hd & _ & R & N & ND & L & LD & Sn & _ & Sd & _ & G & _).
    assert (Gr := fun j => sideRib_grown s s' i' _ j G). cbn [keyStep]. rewrite !sideKey_at. unfold ribbonAt. rewrite N, R.
    rewrite (Nat.eqb_sym k' k). destruct (Nat.eqb_spec k k') as [-> | ]; cbn [andb].
    + cbn [bind]. rewrite Gr, Hs. rewrite (Nat.eqb_sym i' i). destruct (Nat.eqb_spec i i') as [-> | ]; cbn [bind].
      * rewrite nth_last, Nat.eqb_refl. reflexivity.
      * destruct (sideRib s i) as [r|] eqn:Er; [|reflexivity]. cbn [bind]. rewrite nth_last.
        pose proof (wf_bound w W _ _ _ _ Hs Er). destruct (Nat.eqb_spec r (length (w_ribs w))); [lia|reflexivity].
    + destruct (nth_error (w_surfs w) k) as [t|] eqn:Et; [|reflexivity]. cbn [bind].
      destruct (sideRib t i) as [r|] eqn:Er; [|reflexivity]. cbn [bind]. rewrite nth_last.
      pose proof (wf_bound w W _ _ _ _ Et Er). destruct (Nat.eqb_spec r (length (w_ribs w))); [lia|reflexivity].
  - cbn in H. destruct (setCurves_spec _ _ _ _ H) as (s & s' & d & d' & Hs & Hd & _ & R & N & ND & L & LD & Sn & _ & Sd & _ & G & _).
    cbn [keyStep]. rewrite !sideKey_at. unfold ribbonAt. rewrite N, R. rewrite (Nat.eqb_sym k' k). destruct (Nat.eqb_spec k k') as [-> | ].
    + cbn [bind]. unfold sideRib. rewrite G, nth_error_map, seq_nth_error. destruct (Nat.ltb_spec i (length cs)).
      * cbn. rewrite nth_error_app2 by lia. rewrite nth_map_new. replace (length (w_ribs w) + i - length (w_ribs w))%nat with i by lia.
        destruct (nth_error cs i); reflexivity.
      * rewrite (proj2 (nth_error_None cs i)) by lia. reflexivity.
    + destruct (nth_error (w_surfs w) k) as [t|] eqn:Et; [|reflexivity]. cbn [bind].
      destruct (sideRib t i) as [r|] eqn:Er; [|reflexivity]. cbn [bind].
      pose proof (wf_bound w W _ _ _ _ Et Er). rewrite nth_error_app1 by lia. reflexivity.
  - cbn [keyStep]. apply keeps_sideKey. eapply setupLoop_keeps; exact H.
  - cbn in H. destruct (set_cases _ _ _ _ _ H) as (s & r & o & o' & Hs & Er & Ho & Ha & _ & D & K & L & N).
    cbn [keyStep]. rewrite !sideKey_at. unfold ribbonAt. rewrite K.
    destruct (nth_error (w_surfs w) k) as [t|] eqn:Et.
    2:{ cbn. destruct (_ && _)%bool; reflexivity. }
    cbn [bind]. destruct (sideRib t i) as [r'|] eqn:Er'.
    2:{ cbn. destruct (_ && _)%bool; reflexivity. }
    cbn [bind]. rewrite N. destruct (Nat.eqb_spec r' r) as [-> | Nr].
    + assert (k = k') by (eapply (wf_sep w W1); eassumption). subst k'. assert (t = s) by congruence. subst t.
      assert (i = i') by (eapply (wf_inj w W); eassumption). subst i'. rewrite !Nat.eqb_refl, Ho. cbn. symmetry. apply applyKey_spec; exact Ha.
    + destruct (Nat.eqb_spec k' k) as [-> | ]; [|reflexivity]. destruct (Nat.eqb_spec i' i) as [-> | ]; [|reflexivity]. congruence.
  - cbn [keyStep]. apply keeps_sideKey. eapply updateSide_keeps; exact H.
  - cbn [keyStep]. apply keeps_sideKey. eapply updateAll_keeps; exact H.
Qed.

(** The history seen from one side. *)
Lemma run_key : forall os w w' k i, Forall (fun o => ~ isCopy o) os -> wf1 w -> wrun w os = Some w' ->
  sideKey w' k i = fold_left (fun q o => keyStep o k i q) os (sideKey w k i).
Proof.
  intros os; induction os as [|o os IH]; intros w w' k i F W H; unfold SurfaceObj.wrun in H; cbn [foldM] in H.
  - injection H as <-; reflexivity.
  - binv H. inversion F; subst. cbn [fold_left]. rewrite <- (step_key w o x k i) by assumption.
    apply IH; [assumption| |exact H]. eapply step_wf1; eassumption.
Qed.
End Step.
