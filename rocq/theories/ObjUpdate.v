(** update() and update(i) of surface objects (SurfaceObj.v, C38). *)
From Verif Require Import Base UtilModel UtilProofs RibbonModel SurfaceModel SurfaceObj ObjSpec ObjProofs.
Open Scope R_scope.

Section U.
Variables (kd : rkind) (eps : R) (res : nat).
Notation updateRibbon := (updateRibbon kd eps res).
Notation updateCorner := (updateCorner kd eps).
Notation updateCorners := (updateCorners kd eps).
Notation cornerOf := (cornerOf kd eps).
Notation updateSide := (updateSide kd eps res).
Notation updateAll := (updateAll kd eps res).

Definition withData (o : ribObj) (d : rdata) : ribObj :=
  mkRob (ro_curve o) (ro_prev o) (ro_next o) (ro_mult o) (ro_handler o) (ro_fence o) (Some d).
Definition derived (w : world) (o : ribObj) : option rdata :=
  rp <- lock w (ro_prev o) ;; rn <- lock w (ro_next o) ;;
  cp <- ribCurve w rp ;; c <- nth_error (w_curves w) (ro_curve o) ;; cn <- ribCurve w rn ;;
  ribDerive kd eps res cp c cn (ro_mult o) (ro_handler o) (ro_fence o).
Lemma updateRibbon_eq : forall w r, updateRibbon w r = (o <- nth_error (w_ribs w) r ;; d <- derived w o ;; setRib w r (withData o d)).
Proof.
  intros w r. unfold SurfaceObj.updateRibbon, derived. destruct (nth_error (w_ribs w) r) as [o|]; [|reflexivity]. cbn [bind].
  destruct (lock w (ro_prev o)); [|reflexivity]. destruct (lock w (ro_next o)); [|reflexivity]. cbn [bind].
  destruct (ribCurve w r0); [|reflexivity]. destruct (nth_error (w_curves w) (ro_curve o)); [|reflexivity].
  destruct (ribCurve w r1); reflexivity.
Qed.

(** Worlds that differ in ribbon data, corner data and domain layout only. *)
Definition alike (w w' : world) : Prop := w_curves w' = w_curves w /\
  (forall r, option_map ro_curve (nth_error (w_ribs w') r) = option_map ro_curve (nth_error (w_ribs w) r)) /\
  map so_ribs (w_surfs w') = map so_ribs (w_surfs w).
Lemma alike_refl : forall w, alike w w. Proof. intros; repeat split. Qed.
Lemma alike_sym : forall a b, alike a b -> alike b a. Proof. intros a b (A & B & C). repeat split; intros; congruence. Qed.
Lemma alike_trans : forall a b c, alike a b -> alike b c -> alike a c.
Proof. intros a b c (A & B & C) (A' & B' & C'). repeat split; intros; congruence. Qed.
Lemma alive_map : forall w r, alive w r = existsb (fun l => existsb (fun o => match o with Some r' => (r' =? r)%nat | None => false end) l) (map so_ribs (w_surfs w)).
Proof. intros w r. unfold alive. induction (w_surfs w) as [|s l IH]; [reflexivity|]. cbn. rewrite IH. reflexivity. Qed.
Lemma alike_alive : forall w w' r, alike w w' -> alive w' r = alive w r.
Proof. intros w w' r (_ & _ & C). rewrite !alive_map, C. reflexivity. Qed.
Lemma alike_ribCurve : forall w w' r, alike w w' -> ribCurve w' r = ribCurve w r.
Proof.
  intros w w' r (A & B & _). unfold ribCurve. specialize (B r). rewrite A.
  destruct (nth_error (w_ribs w') r), (nth_error (w_ribs w) r); cbn in *; try discriminate; [|reflexivity]. injection B as ->. reflexivity.
Qed.
Lemma alike_derived : forall w w' o o', alike w w' -> ro_curve o' = ro_curve o -> ro_prev o' = ro_prev o -> ro_next o' = ro_next o ->
  ro_mult o' = ro_mult o -> ro_handler o' = ro_handler o -> ro_fence o' = ro_fence o -> derived w' o' = derived w o.
Proof.
  intros w w' o o' A E1 E2 E3 E4 E5 E6. unfold derived. rewrite E1, E2, E3, E4, E5, E6. assert (A' := A). destruct A' as (-> & _ & _).
  assert (L : forall p, lock w' p = lock w p). { intros [p|]; [|reflexivity]. cbn. rewrite (alike_alive _ _ _ A). reflexivity. }
  rewrite !L. destruct (lock w (ro_prev o)); [|reflexivity]. cbn [bind]. destruct (lock w (ro_next o)); [|reflexivity]. cbn [bind].
  rewrite (alike_ribCurve _ _ _ A). destruct (ribCurve w r); [|reflexivity]. cbn [bind].
  destruct (nth_error (w_curves w) (ro_curve o)); [|reflexivity]. cbn [bind]. rewrite (alike_ribCurve _ _ _ A). reflexivity.
Qed.
Lemma alike_derived' : forall w w' o, alike w w' -> derived w' o = derived w o.
Proof. intros. apply alike_derived; auto. Qed.

Lemma alike_setRib : forall w r o o' w', nth_error (w_ribs w) r = Some o -> setRib w r o' = Some w' -> ro_curve o' = ro_curve o -> alike w w'.
Proof.
  intros w r o o' w' Ho H E. destruct (setRib_inv _ _ _ _ H) as (_ & C & _ & K & _ & N). split; [exact C|]. split; [|rewrite K; reflexivity].
  intros x. rewrite N. destruct (Nat.eqb_spec x r) as [-> | ]; [|reflexivity]. rewrite Ho. cbn. congruence.
Qed.
Lemma map_upd : forall A B (f : A -> B) l i a b l', nth_error l i = Some a -> f b = f a -> upd l i b = Some l' -> map f l' = map f l.
Proof.
  intros A B f l i a b l' Ha E H. apply upd_inv in H. destruct H as (_ & _ & N). apply list_ext. intros j. rewrite !nth_error_map, N.
  destruct (Nat.eqb_spec j i) as [-> | ]; [|reflexivity]. rewrite Ha. cbn. congruence.
Qed.
Lemma alike_setSurf : forall w k s s' w', nth_error (w_surfs w) k = Some s -> setSurf w k s' = Some w' -> so_ribs s' = so_ribs s -> alike w w'.
Proof.
  intros w k s s' w' Hs H E. unfold setSurf in H. binv H. injection H as <-. split; [reflexivity|]. split; [reflexivity|]. cbn.
  eapply map_upd; [exact Hs|exact E|exact E0].
Qed.

(** ** Up to date parts *)
Definition okRib (w : world) (s : surfObj) (j : nat) : Prop :=
  exists r o d, sideRib s j = Some r /\ nth_error (w_ribs w) r = Some o /\ ro_data o = Some d /\ derived w o = Some d.
Definition okCorner (w : world) (s : surfObj) (j : nat) : Prop :=
  exists c, nth_error (so_corners s) j = Some c /\ cornerOf w s j = Some c.
Definition okDomain (w : world) (d : dloc) : Prop := updateDomain w d = Some w.

Lemma world_eta : forall w, mkWorld (w_curves w) (w_ribs w) (w_doms w) (w_surfs w) = w. Proof. intros []; reflexivity. Qed.
Lemma okRib_same : forall w s j r, okRib w s j -> sideRib s j = Some r -> updateRibbon w r = Some w.
Proof.
  intros w s j r (r' & o & d & Hr & Ho & Hd & D) H. assert (r' = r) by congruence. subst r'. rewrite updateRibbon_eq, Ho. cbn [bind]. rewrite D. cbn [bind].
  unfold setRib. assert (E : withData o d = o) by (destruct o; cbn in *; subst; reflexivity). rewrite E, (upd_same _ _ _ _ Ho). cbn [bind]. rewrite world_eta. reflexivity.
Qed.

Lemma sideRib_In : forall s j r, sideRib s j = Some r -> nth_error (so_ribs s) j = Some (Some r).
Proof. intros s j r H. unfold sideRib in H. destruct (nth_error (so_ribs s) j) as [[x|]|]; cbn in H; try discriminate. injection H as ->; reflexivity. Qed.
Lemma In_sideRib : forall s j r, nth_error (so_ribs s) j = Some (Some r) -> sideRib s j = Some r.
Proof. intros s j r H. unfold sideRib. rewrite H. reflexivity. Qed.

(** The loop over the ribbons. *)
Definition oneRibbon (w : world) (o : option rloc) : option world := r <- o ;; updateRibbon w r.
Definition allRibbons (w : world) (l : list (option rloc)) : option world := foldM oneRibbon w l.

Lemma updateRibbon_alike : forall w r w', updateRibbon w r = Some w' -> alike w w' /\ w_doms w' = w_doms w /\ w_surfs w' = w_surfs w /\
  (forall x, x <> r -> nth_error (w_ribs w') x = nth_error (w_ribs w) x) /\
  exists o d, nth_error (w_ribs w) r = Some o /\ derived w o = Some d /\ nth_error (w_ribs w') r = Some (withData o d).
Proof.
  intros w r w' H. rewrite updateRibbon_eq in H. do 2 binv H. destruct (setRib_inv _ _ _ _ H) as (_ & _ & D & K & _ & N).
  split; [eapply alike_setRib; [exact E|exact H|reflexivity]|]. split; [exact D|]. split; [exact K|]. split.
  - intros y Hy. rewrite N. apply Nat.eqb_neq in Hy. rewrite Hy. reflexivity.
  - exists x, x0. split; [exact E|]. split; [exact E0|]. rewrite N, Nat.eqb_refl. reflexivity.
Qed.
Lemma okRib_keep : forall w r w' s j, updateRibbon w r = Some w' -> okRib w s j -> sideRib s j <> Some r -> okRib w' s j.
Proof.
  intros w r w' s j H (r' & o & d & Hr & Ho & Hd & D) Ne. destruct (updateRibbon_alike _ _ _ H) as (A & _ & _ & N & _).
  exists r', o, d. split; [exact Hr|]. split; [rewrite N; [exact Ho|congruence]|]. split; [exact Hd|]. rewrite (alike_derived' _ _ _ A). exact D.
Qed.
Lemma okRib_new : forall w r w' s j, updateRibbon w r = Some w' -> sideRib s j = Some r -> okRib w' s j.
Proof.
  intros w r w' s j H Hr. destruct (updateRibbon_alike _ _ _ H) as (A & _ & _ & _ & o & d & Ho & D & N).
  exists r, (withData o d), d. split; [exact Hr|]. split; [exact N|]. split; [reflexivity|].
  rewrite <- D. apply alike_derived; auto.
Qed.

Lemma allRibbons_alike : forall l w w', allRibbons w l = Some w' -> alike w w' /\ w_doms w' = w_doms w /\ w_surfs w' = w_surfs w.
Proof.
  intros l; induction l as [|a l IH]; intros w w' H; unfold allRibbons in H; cbn [foldM] in H.
  - injection H as <-. split; [apply alike_refl|auto].
  - binv H. unfold oneRibbon in E. binv E. destruct (updateRibbon_alike _ _ _ E) as (A & B & C & _). destruct (IH _ _ H) as (A' & B' & C').
    split; [eapply alike_trans; eassumption|]. split; congruence.
Qed.
Lemma allRibbons_ok : forall s, (forall i j r, sideRib s i = Some r -> sideRib s j = Some r -> i = j) ->
  forall l pre w w', so_ribs s = pre ++ l -> (forall j, (j < length pre)%nat -> okRib w s j) -> allRibbons w l = Some w' ->
  forall j, (j < length (so_ribs s))%nat -> okRib w' s j.
Proof.
  intros s Inj l; induction l as [|a l IH]; intros pre w w' Es Ok H; unfold allRibbons in H; cbn [foldM] in H.
  - injection H as <-. intros j Hj. apply Ok. rewrite Es, app_nil_r in Hj. exact Hj.
  - binv H. unfold oneRibbon in E. binv E. apply (IH (pre ++ [Some x0]) x); [rewrite Es, <- app_assoc; rewrite E0; reflexivity| |exact H].
    assert (Hx : sideRib s (length pre) = Some x0).
    { apply In_sideRib. rewrite Es, nth_error_app2, Nat.sub_diag by lia. cbn. rewrite E0; reflexivity. }
    intros j Hj. rewrite app_length in Hj. cbn in Hj. destruct (Nat.eq_dec j (length pre)) as [-> | Ne].
    + eapply okRib_new; eassumption.
    + eapply okRib_keep; [exact E|apply Ok; lia|]. intros G. apply Ne. eapply Inj; eassumption.
Qed.
(** When all ribbons but that of side [i] are up to date, updating that one is enough. *)
Lemma allRibbons_ident : forall s, forall l a w, so_ribs s = a -> 
  (forall o, In o l -> exists j, nth_error a j = Some o /\ okRib w s j) -> allRibbons w l = Some w.
Proof.
  intros s l a w Es. induction l as [|o l IH]; intros H; [reflexivity|]. unfold allRibbons; cbn [foldM].
  destruct (H o (or_introl eq_refl)) as (j & Hj & Ok). assert (Ok' := Ok). destruct Ok' as (r & _ & _ & Hr & _).
  rewrite <- Es in Hj. rewrite (sideRib_In _ _ _ Hr) in Hj. injection Hj as <-. unfold oneRibbon at 1. cbn [bind].
  rewrite (okRib_same _ _ _ _ Ok Hr). cbn [bind]. apply IH. intros o Ho. apply H. right; exact Ho.
Qed.
Lemma allRibbons_one : forall s i r w, (forall i j r, sideRib s i = Some r -> sideRib s j = Some r -> i = j) ->
  sideRib s i = Some r -> (forall j, (j < length (so_ribs s))%nat -> j <> i -> okRib w s j) -> allRibbons w (so_ribs s) = updateRibbon w r.
Proof.
  intros s i r w Inj Hr Ok. pose proof (sideRib_In _ _ _ Hr) as Hi. destruct (nth_error_split _ _ Hi) as (l1 & l2 & El & L1).
  rewrite El. unfold allRibbons. rewrite foldM_app.
  assert (E1 : allRibbons w l1 = Some w).
  { apply (allRibbons_ident s l1 (so_ribs s)); [reflexivity|]. intros o Ho. apply In_nth_error in Ho. destruct Ho as [j Hj].
    assert (Lj := nth_lt _ _ _ _ Hj). exists j. split; [rewrite El, nth_error_app1 by exact Lj; exact Hj|]. apply Ok; [rewrite El, app_length; lia|lia]. }
  unfold allRibbons in E1. rewrite E1. cbn [bind foldM]. unfold oneRibbon at 1. cbn [bind].
  destruct (updateRibbon w r) as [w'|] eqn:U; [|reflexivity]. cbn [bind].
  apply (allRibbons_ident s l2 (so_ribs s)); [reflexivity|]. intros o Ho. apply In_nth_error in Ho. destruct Ho as [j Hj].
  assert (Lj := nth_lt _ _ _ _ Hj). exists (i + S j)%nat. split.
  - rewrite El, nth_error_app2 by lia. rewrite <- L1. replace (length l1 + S j - length l1)%nat with (S j) by lia. exact Hj.
  - eapply okRib_keep; [exact U| |].
    + apply Ok; [rewrite El, app_length; cbn; lia|lia].
    + intros G. assert (i + S j = i)%nat by (eapply Inj; eassumption). lia.
Qed.

(** ** Corners *)
Lemma cornerOf_ext : forall w w' s s' j, w_curves w' = w_curves w -> so_n s' = so_n s -> so_ribs s' = so_ribs s ->
  (forall r, sideRib s j = Some r \/ sideRib s (nxt (so_n s) j) = Some r -> nth_error (w_ribs w') r = nth_error (w_ribs w) r) ->
  cornerOf w' s' j = cornerOf w s j.
Proof.
  intros w w' s s' j C N R H. unfold SurfaceObj.cornerOf. rewrite N, !(sideRib_eq s s' _ R).
  destruct (sideRib s j) as [r|]; [|reflexivity]. cbn [bind]. destruct (sideRib s (nxt (so_n s) j)) as [rp|]; [|reflexivity]. cbn [bind].
  assert (H1 := H r (or_introl eq_refl)). assert (H2 := H rp (or_intror eq_refl)).
  unfold ribCurve, crossAt. rewrite H1, H2, C. reflexivity.
Qed.
Lemma mapM_none : forall A B (f : A -> option B) l a, In a l -> f a = None -> mapM f l = None.
Proof.
  intros A B f l; induction l as [|x l IH]; intros a I H; [destruct I|]. cbn. destruct I as [-> | I]; [rewrite H; reflexivity|].
  rewrite (IH a I H). destruct (f x); reflexivity.
Qed.
Lemma seq_In_nth : forall n i, (i < n)%nat -> nth_error (seq 0 n) i = Some i.
Proof. intros n i H. rewrite (nth_error_nth' _ 0%nat) by (rewrite seq_length; exact H). rewrite seq_nth by exact H. reflexivity. Qed.

Definition withCorners (s : surfObj) (l : list corner) : surfObj := mkSob (so_n s) (so_gamma s) (so_dom s) (so_ribs s) l.
Lemma setSurf_at : forall w k s s' w', nth_error (w_surfs w) k = Some s -> setSurf w k s' = Some w' -> nth_error (w_surfs w') k = Some s' /\ w_ribs w' = w_ribs w /\ w_curves w' = w_curves w.
Proof. intros w k s s' w' Hs H. destruct (setSurf_inv _ _ _ _ H) as (_ & C & R & _ & _ & N). rewrite N, Nat.eqb_refl. auto. Qed.
Lemma setSurf_twice : forall w k s s1 s2 w1, nth_error (w_surfs w) k = Some s -> setSurf w k s1 = Some w1 -> setSurf w1 k s2 = setSurf w k s2.
Proof.
  intros w k s s1 s2 w1 Hs H. unfold setSurf in *. binv H. injection H as <-. cbn [w_surfs w_curves w_ribs w_doms].
  assert (L := nth_lt _ _ _ _ Hs). destruct (upd_inv _ _ _ _ _ E) as (_ & Lx & Nx).
  destruct (upd_some _ (w_surfs w) k s2 L) as [l2 E2]. destruct (upd_some _ x k s2) as [l3 E3]; [lia|]. rewrite E2, E3. cbn [bind].
  destruct (upd_inv _ _ _ _ _ E2) as (_ & _ & N2). destruct (upd_inv _ _ _ _ _ E3) as (_ & _ & N3).
  assert (l3 = l2) as ->; [|reflexivity]. apply list_ext. intros j. rewrite N2, N3, Nx. destruct (j =? k)%nat; reflexivity.
Qed.

Lemma corners_two : forall w k s i, nth_error (w_surfs w) k = Some s -> (i < so_n s)%nat -> length (so_corners s) = so_n s ->
  (forall j, (j < so_n s)%nat -> j <> i -> j <> prv (so_n s) i -> okCorner w s j) ->
  (w' <- updateCorner w k (prv (so_n s) i) ;; updateCorner w' k i) = updateCorners w k.
Proof.
  intros w k s i Hs Hi L Ok. unfold SurfaceObj.updateCorners. rewrite Hs. cbn [bind].
  unfold SurfaceObj.updateCorner at 1. rewrite Hs. cbn [bind]. set (p := prv (so_n s) i) in *.
  assert (Hp : (p < so_n s)%nat) by (apply prv_lt; lia).
  destruct (cornerOf w s p) as [cp|] eqn:Ep.
  2:{ cbn [bind]. rewrite (mapM_none _ _ _ _ p); [reflexivity|apply in_seq; lia|exact Ep]. }
  cbn [bind]. destruct (upd_some _ (so_corners s) p cp ltac:(lia)) as [l1 E1]. rewrite E1. cbn [bind].
  change (mkSob (so_n s) (so_gamma s) (so_dom s) (so_ribs s) l1) with (withCorners s l1).
  destruct (upd_inv _ _ _ _ _ E1) as (_ & L1 & N1).
  destruct (setSurf w k (withCorners s l1)) as [w1|] eqn:Ew.
  2:{ exfalso. unfold setSurf in Ew. destruct (upd_some _ (w_surfs w) k (withCorners s l1) (nth_lt _ _ _ _ Hs)) as [x Ex]. rewrite Ex in Ew. discriminate. }
  cbn [bind]. destruct (setSurf_at _ _ _ _ _ Hs Ew) as (Hs1 & R1 & C1). unfold SurfaceObj.updateCorner. rewrite Hs1. cbn [bind].
  assert (Ei : cornerOf w1 (withCorners s l1) i = cornerOf w s i).
  { apply cornerOf_ext; [exact C1|reflexivity|reflexivity|]. intros; rewrite R1; reflexivity. }
  rewrite Ei. destruct (cornerOf w s i) as [ci|] eqn:Eci.
  2:{ cbn [bind]. rewrite (mapM_none _ _ _ _ i); [reflexivity|apply in_seq; lia|exact Eci]. }
  cbn [bind]. destruct (upd_some _ l1 i ci ltac:(lia)) as [l2 E2]. cbn [withCorners so_corners]. rewrite E2. cbn [bind].
  destruct (upd_inv _ _ _ _ _ E2) as (_ & L2 & N2).
  cbn [withCorners so_n so_gamma so_dom so_ribs].
  change (mkSob (so_n s) (so_gamma s) (so_dom s) (so_ribs s) l2) with (withCorners s l2).
  rewrite (setSurf_twice _ _ _ _ _ _ Hs Ew).
  assert (M : exists l, mapM (cornerOf w s) (seq 0 (so_n s)) = Some l).
  { destruct (mapM (cornerOf w s) (seq 0 (so_n s))) as [l|] eqn:Em; [exists l; reflexivity|]. exfalso.
    assert (T : mapM (cornerOf w s) (seq 0 (so_n s)) = Some (map (fun j => match cornerOf w s j with Some c => c | None => cp end) (seq 0 (so_n s)))).
    { apply mapM_total. intros j Hj. apply in_seq in Hj. destruct (Nat.eq_dec j i) as [-> | ]; [rewrite Eci; reflexivity|].
      destruct (Nat.eq_dec j p) as [-> | ]; [rewrite Ep; reflexivity|]. destruct (Ok j ltac:(lia) n n0) as (c & _ & ->). reflexivity. }
    congruence. }
  destruct M as [l Em]. rewrite Em. cbn [bind]. unfold withCorners. replace l with l2; [reflexivity|]. apply list_ext. intros j.
  destruct (le_lt_dec (so_n s) j) as [G|G].
  - rewrite (proj2 (nth_error_None l2 j)) by lia. pose proof (mapM_length _ _ _ Em) as Ll. rewrite seq_length in Ll.
    rewrite (proj2 (nth_error_None l j)) by lia. reflexivity.
  - rewrite (mapM_nth _ _ _ j j Em) by (apply seq_In_nth; exact G). rewrite N2.
    destruct (Nat.eqb_spec j i) as [-> | ]; [symmetry; exact Eci|]. rewrite N1. destruct (Nat.eqb_spec j p) as [-> | ]; [symmetry; exact Ep|].
    destruct (Ok j G n n0) as (c & Hc & Hc'). rewrite Hc, Hc'. reflexivity.
Qed.

(** ** Surfaces *)

(** Everything is up to date, except possibly for what depends on ribbon [i]
    (for [i] beyond the sides: everything). *)
Definition fresh (w : world) (k i : nat) : Prop :=
  exists s, nth_error (w_surfs w) k = Some s /\ length (so_corners s) = so_n s /\
    (forall j, (j < so_n s)%nat -> exists r, sideRib s j = Some r) /\
    (forall j, (j < so_n s)%nat -> j <> i -> okRib w s j) /\
    (forall j, (j < so_n s)%nat -> j <> i -> (i < so_n s -> j <> prv (so_n s) i)%nat -> okCorner w s j).

Lemma updateDomain_inv : forall w d w', updateDomain w d = Some w' -> w_curves w' = w_curves w /\ w_ribs w' = w_ribs w /\ w_surfs w' = w_surfs w /\
  alike w w' /\ okDomain w' d.
Proof.
  intros w d w' H. unfold updateDomain in H. binv H. assert (H' := H). unfold setDom in H. binv H. injection H as <-. cbn.
  split; [reflexivity|]. split; [reflexivity|]. split; [reflexivity|]. split; [repeat split|].
  unfold okDomain, updateDomain. cbn [w_doms w_curves w_ribs w_surfs].
  destruct (upd_inv _ _ _ _ _ E0) as (_ & _ & N). rewrite N, Nat.eqb_refl. cbn [bind do_curves].
  unfold setDom. cbn [w_doms w_curves w_ribs w_surfs]. rewrite upd_same; [reflexivity|]. rewrite N, Nat.eqb_refl. reflexivity.
Qed.
Lemma okDomain_keep : forall w w' d, okDomain w d -> w_doms w' = w_doms w -> w_curves w' = w_curves w -> okDomain w' d.
Proof.
  intros w w' d H D C. unfold okDomain, updateDomain in *. rewrite D, C. destruct (nth_error (w_doms w) d) as [o|]; [|discriminate]. cbn [bind] in *.
  unfold setDom in *. rewrite D, C. binv H. rewrite E. cbn [bind]. apply (f_equal Some). rewrite <- (world_eta w').
  rewrite C, D. assert (Q : w_doms w = x) by (injection H as H; rewrite <- H; reflexivity). rewrite Q. reflexivity.
Qed.

Lemma updateAll_eq : forall w k s, nth_error (w_surfs w) k = Some s -> updateAll w k =
  (w1 <- updateDomain w (so_dom s) ;; w2 <- allRibbons w1 (so_ribs s) ;; updateCorners w2 k).
Proof. intros w k s Hs. unfold SurfaceObj.updateAll. rewrite Hs. reflexivity. Qed.
Lemma updateSide_eq : forall w k s i r, nth_error (w_surfs w) k = Some s -> sideRib s i = Some r -> updateSide w k i =
  (w1 <- updateDomain w (so_dom s) ;; w2 <- updateRibbon w1 r ;; w3 <- updateCorner w2 k (prv (so_n s) i) ;; updateCorner w3 k i).
Proof. intros w k s i r Hs Hr. unfold SurfaceObj.updateSide. rewrite Hs. cbn [bind]. destruct (updateDomain w (so_dom s)); [cbn [bind]; rewrite Hr|]; reflexivity. Qed.

Lemma sides_all : forall w k s, wf w -> nth_error (w_surfs w) k = Some s -> forall l w1 w2, allRibbons w1 l = Some w2 ->
  forall j, (j < length l)%nat -> exists r, nth_error l j = Some (Some r).
Proof.
  intros w k s W Hs l; induction l as [|a l IH]; intros w1 w2 H j Hj; [cbn in Hj; lia|]. unfold allRibbons in H; cbn [foldM] in H. binv H.
  unfold oneRibbon in E. binv E. destruct j as [|j]; [exists x0; cbn; congruence|]. cbn. eapply IH; [exact H|cbn in Hj; lia].
Qed.

Lemma fresh_update : forall w k w' i, wf w -> updateAll w k = Some w' ->
  fresh w' k i /\ exists s, nth_error (w_surfs w') k = Some s /\ okDomain w' (so_dom s).
Proof.
  intros w k w' i W H. assert (H' := H). unfold SurfaceObj.updateAll in H'. binv H'. rename x into s. rename E into Hs. clear H'.
  rewrite (updateAll_eq _ _ _ Hs) in H. binv H. rename x into w1. binv H. rename x into w2.
  destruct (updateDomain_inv _ _ _ E) as (C1 & R1 & S1 & A1 & OD).
  destruct (allRibbons_alike _ _ _ E0) as (A2 & D2 & S2).
  assert (Hs2 : nth_error (w_surfs w2) k = Some s) by (rewrite S2, S1; exact Hs).
  assert (Ln := wf_n w W k s Hs).
  assert (Inj : forall i j r, sideRib s i = Some r -> sideRib s j = Some r -> i = j) by (intros; eapply (wf_inj w W); eassumption).
  assert (OR := allRibbons_ok s Inj (so_ribs s) [] w1 w2 eq_refl ltac:(intros; cbn in *; lia) E0).
  unfold SurfaceObj.updateCorners in H. rewrite Hs2 in H. cbn [bind] in H. binv H. rename x into l.
  assert (Hs3 := setSurf_at _ _ _ _ _ Hs2 H). destruct Hs3 as (Hs3 & R3 & C3).
  assert (A3 : alike w2 w') by (eapply alike_setSurf; [exact Hs2|exact H|reflexivity]).
  assert (D3 : w_doms w' = w_doms w2) by (destruct (setSurf_inv _ _ _ _ H) as (_ & _ & _ & Q & _); exact Q).
  change (mkSob (so_n s) (so_gamma s) (so_dom s) (so_ribs s) l) with (withCorners s l) in *.
  assert (Ll : length l = so_n s) by (rewrite (mapM_length _ _ _ E1), seq_length; reflexivity).
  split.
  - exists (withCorners s l). split; [exact Hs3|]. split; [exact Ll|]. cbn [withCorners so_n]. split; [|split].
    + intros j Hj. destruct (sides_all w k s W Hs _ _ _ E0 j ltac:(lia)) as [r Hr]. exists r. apply In_sideRib. exact Hr.
    + intros j Hj _. destruct (OR j ltac:(lia)) as (r & o & d & Hr & Ho & Hd & D). exists r, o, d.
      split; [exact Hr|]. split; [rewrite R3; exact Ho|]. split; [exact Hd|]. rewrite (alike_derived' _ _ _ A3). exact D.
    + intros j Hj _ _. destruct (nth_error_ex _ l j ltac:(lia)) as [c Hc]. exists c. split; [exact Hc|].
      rewrite (cornerOf_ext w2 w' s) by (auto; intros; rewrite R3; reflexivity).
      rewrite <- (mapM_nth _ _ _ j j E1) by (apply seq_In_nth; exact Hj). exact Hc.
  - exists (withCorners s l). split; [exact Hs3|]. cbn [withCorners so_dom].
    eapply okDomain_keep; [exact OD|congruence|]. rewrite C3. destruct A2 as (Q & _). exact Q.
Qed.

(** A change of ribbon [i] only. *)
Lemma fresh_set : forall w k i x w', wf w -> fresh w k i -> setRibbon w k i x = Some w' -> fresh w' k i.
Proof.
  intros w k i x w' W (s & Hs & Lc & Sd & Ok & Oc) H.
  destruct (set_cases _ _ _ _ _ H) as (s' & r & o & o' & Hs' & Hr & Ho & Ha & C & D & K & L & N). assert (s' = s) by congruence. subst s'.
  assert (A : alike w w').
  { split; [exact C|]. split; [|rewrite K; reflexivity]. intros y. rewrite N. destruct (Nat.eqb_spec y r) as [-> | ]; [|reflexivity].
    rewrite Ho. cbn. destruct x; cbn in Ha; try (injection Ha as <-; reflexivity). binv Ha. injection Ha as <-. reflexivity. }
  assert (Inj : forall i j r, sideRib s i = Some r -> sideRib s j = Some r -> i = j) by (intros; eapply (wf_inj w W); eassumption).
  assert (Other : forall j r', sideRib s j = Some r' -> j <> i -> nth_error (w_ribs w') r' = nth_error (w_ribs w) r').
  { intros j r' Hj Ne. rewrite N. destruct (Nat.eqb_spec r' r) as [-> | ]; [|reflexivity]. exfalso. apply Ne. eapply Inj; eassumption. }
  exists s. split; [rewrite K; exact Hs|]. split; [exact Lc|]. split; [exact Sd|]. split.
  - intros j Hj Ne. destruct (Ok j Hj Ne) as (r' & o1 & d & Hr' & Ho' & Hd & Dd). exists r', o1, d. split; [exact Hr'|].
    split; [rewrite (Other j) by assumption; exact Ho'|]. split; [exact Hd|]. rewrite (alike_derived' _ _ _ A). exact Dd.
  - assert (Li : (i < so_n s)%nat).
    { rewrite <- (wf_n w W k s Hs). apply sideRib_In in Hr. eapply nth_lt; exact Hr. }
    intros j Hj Ne Ne'. destruct (Oc j Hj Ne Ne') as (c & Hc & Ec). exists c. split; [exact Hc|]. rewrite <- Ec. apply cornerOf_ext; auto.
    intros r' [Hr' | Hr']; [exact (Other j r' Hr' Ne)|]. apply (Other (nxt (so_n s) j)); [exact Hr'|]. intros E. apply (Ne' Li). rewrite <- E.
    rewrite prv_nxt by lia. reflexivity.
Qed.
Lemma fresh_gamma : forall w k i k' b w', fresh w k i -> wstep kd eps res w (OGamma k' b) = Some w' -> fresh w' k i.
Proof.
  intros w k i k' b w' (s & Hs & Lc & Sd & Ok & Oc) H. destruct (gamma_cases kd eps res _ _ _ _ H) as (t & Ht & C & R & D & N).
  assert (A : alike w w').
  { split; [exact C|]. split; [intros; rewrite R; reflexivity|]. apply list_ext. intros j. rewrite !nth_error_map, N. destruct (Nat.eqb_spec j k') as [-> | ]; [rewrite Ht|]; reflexivity. }
  destruct (Nat.eq_dec k k') as [<- | Ne].
  - assert (t = s) by congruence. subst t. exists (mkSob (so_n s) b (so_dom s) (so_ribs s) (so_corners s)).
    split; [rewrite N, Nat.eqb_refl; reflexivity|]. split; [exact Lc|]. split; [exact Sd|]. split.
    + intros j Hj Nj. destruct (Ok j Hj Nj) as (r' & o1 & d & Hr' & Ho' & Hd & Dd). exists r', o1, d. split; [exact Hr'|].
      split; [rewrite R; exact Ho'|]. split; [exact Hd|]. rewrite (alike_derived' _ _ _ A). exact Dd.
    + intros j Hj Nj Nj'. destruct (Oc j Hj Nj Nj') as (c & Hc & Ec). exists c. split; [exact Hc|]. rewrite <- Ec. apply cornerOf_ext; auto. intros; rewrite R; reflexivity.
  - exists s. split; [rewrite N; apply Nat.eqb_neq in Ne; rewrite Ne; exact Hs|]. split; [exact Lc|]. split; [exact Sd|]. split.
    + intros j Hj Nj. destruct (Ok j Hj Nj) as (r' & o1 & d & Hr' & Ho' & Hd & Dd). exists r', o1, d. split; [exact Hr'|].
      split; [rewrite R; exact Ho'|]. split; [exact Hd|]. rewrite (alike_derived' _ _ _ A). exact Dd.
    + intros j Hj Nj Nj'. destruct (Oc j Hj Nj Nj') as (c & Hc & Ec). exists c. split; [exact Hc|]. rewrite <- Ec. apply cornerOf_ext; auto. intros; rewrite R; reflexivity.
Qed.

Theorem side_is_all : forall w k i n, wf w -> sideCount w k = Some n -> (i < n)%nat -> fresh w k i -> updateSide w k i = updateAll w k.
Proof.
  intros w k i n W Hc Hi (s & Hs & Lc & Sd & Ok & Oc). unfold sideCount in Hc. rewrite Hs in Hc. cbn in Hc. injection Hc as <-.
  destruct (Sd i Hi) as [r Hr]. rewrite (updateAll_eq _ _ _ Hs), (updateSide_eq _ _ _ _ _ Hs Hr).
  destruct (updateDomain w (so_dom s)) as [w1|] eqn:E; [|reflexivity]. cbn [bind].
  destruct (updateDomain_inv _ _ _ E) as (C1 & R1 & S1 & A1 & _).
  assert (Inj : forall i j r, sideRib s i = Some r -> sideRib s j = Some r -> i = j) by (intros; eapply (wf_inj w W); eassumption).
  assert (Ln := wf_n w W k s Hs).
  assert (Ok1 : forall j, (j < length (so_ribs s))%nat -> j <> i -> okRib w1 s j).
  { intros j Hj Nj. destruct (Ok j ltac:(lia) Nj) as (r' & o1 & d & Hr' & Ho' & Hd & Dd). exists r', o1, d. split; [exact Hr'|].
    split; [rewrite R1; exact Ho'|]. split; [exact Hd|]. rewrite (alike_derived' _ _ _ A1). exact Dd. }
  rewrite (allRibbons_one s i r w1 Inj Hr Ok1). destruct (updateRibbon w1 r) as [w2|] eqn:U; [|reflexivity]. cbn [bind].
  destruct (updateRibbon_alike _ _ _ U) as (A2 & D2 & S2 & N2 & _).
  apply corners_two; [rewrite S2, S1; exact Hs|exact Hi|exact Lc|].
  intros j Hj Nj Nj'. destruct (Oc j Hj Nj (fun _ => Nj')) as (c & Hc & Ec). exists c. split; [exact Hc|]. rewrite <- Ec.
  apply cornerOf_ext; [destruct A2 as (-> & _); exact C1|reflexivity|reflexivity|].
  intros r' Hr'. rewrite N2, R1; [reflexivity|]. intros ->. destruct Hr' as [G|G].
  - apply Nj. eapply Inj; eassumption.
  - assert (E' : nxt (so_n s) j = i) by (eapply Inj; eassumption). apply Nj'. rewrite <- E', prv_nxt by lia. reflexivity.
Qed.

(** A second update() changes nothing. *)
Theorem update_again : forall w k w', wf w -> updateAll w k = Some w' -> updateAll w' k = Some w'.
Proof.
  intros w k w' W H. assert (W' : wf w') by (eapply keeps_wf; [eapply updateAll_keeps; exact H|exact W]).
  destruct (fresh_update w k w' 0 W H) as ((s & Hs & Lc & Sd & _) & (s' & Hs' & OD)). assert (s' = s) by congruence. subst s'.
  destruct (fresh_update w k w' (so_n s) W H) as ((s' & Hs2 & _ & _ & Ok & Oc) & _). assert (s' = s) by congruence. subst s'.
  rewrite (updateAll_eq _ _ _ Hs), OD. cbn [bind].
  assert (Ln := wf_n w' W' k s Hs).
  rewrite (allRibbons_ident s (so_ribs s) (so_ribs s) w' eq_refl).
  2:{ intros o Ho. apply In_nth_error in Ho. destruct Ho as [j Hj]. exists j. split; [exact Hj|]. apply nth_lt in Hj. apply Ok; lia. }
  cbn [bind]. unfold SurfaceObj.updateCorners. rewrite Hs. cbn [bind].
  assert (M : mapM (cornerOf w' s) (seq 0 (so_n s)) = Some (so_corners s)).
  { destruct (mapM (cornerOf w' s) (seq 0 (so_n s))) as [l|] eqn:Em.
    - apply (f_equal Some). apply list_ext. intros j. destruct (le_lt_dec (so_n s) j) as [G|G].
      + pose proof (mapM_length _ _ _ Em) as Ll. rewrite seq_length in Ll. rewrite (proj2 (nth_error_None l j)) by lia.
        rewrite (proj2 (nth_error_None _ j)) by lia. reflexivity.
      + rewrite (mapM_nth _ _ _ j j Em) by (apply seq_In_nth; exact G). destruct (Oc j G ltac:(lia) ltac:(lia)) as (c & Hc & ->). symmetry; exact Hc.
    - exfalso. destruct (so_corners s) as [|c0 l0] eqn:Ec.
      + cbn in Lc. rewrite <- Lc in Em. discriminate.
      + rewrite (mapM_total _ (fun j => match cornerOf w' s j with Some c => c | None => c0 end)) in Em; [discriminate|].
        intros j Hj. apply in_seq in Hj. destruct (Oc j ltac:(lia) ltac:(lia) ltac:(lia)) as (c & _ & ->). reflexivity. }
  rewrite M. cbn [bind]. unfold setSurf. rewrite upd_same; [cbn [bind]; rewrite world_eta; reflexivity|]. rewrite Hs. destruct s; reflexivity.
Qed.
End U.
