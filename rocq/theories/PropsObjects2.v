(** What setupLoop and update leave in the objects: derivatives of turned curves
    (C35) and corner data (C64). *)
From Verif Require Import Base UtilModel UtilProofs RibbonModel SurfaceModel PropsCorner.
From Verif Require SurfaceObj.
From Verif Require Import ObjSpec ObjProofs ObjUpdate ObjLinks ParamCache RotParam PropsObjects.
Import SurfaceObj.
Open Scope R_scope.

(** ** C35: a curve that has been turned still has the right derivatives and
    the right length *)
Definition truthful (c : curve) : Prop := forall u, vderives (cpt c) u (cder c u).

Lemma lim_reverse : forall f u x, derivable_pt_lim f (1 - u) x -> derivable_pt_lim (fun t => f (1 - t)) u (- x).
Proof.
  intros f u x H. replace (- x) with (x * (0 - 1)) by ring.
  apply (derivable_pt_lim_comp (fun t => 1 - t) f); [|exact H].
  apply (derivable_pt_lim_minus (fun _ => 1) (fun t => t)); [apply derivable_pt_lim_const|apply derivable_pt_lim_id].
Qed.
Lemma reverse_truthful : forall c, truthful c -> truthful (reverseCurve c).
Proof.
  intros c H u. destruct (H (1 - u)) as (A & B & C). cbn [reverseCurve cpt cder]. unfold vderives.
  split; [exact (lim_reverse _ _ _ A)|split; [exact (lim_reverse _ _ _ B)|exact (lim_reverse _ _ _ C)]].
Qed.
(** [c'] is a curve with right derivatives, as long as [c]. *)
Definition faithful (c c' : curve) : Prop := truthful c' /\ clen c' 0 1 = clen c 0 1.
Lemma loop_faithful : forall s is w w', (forall l c, nth_error (w_curves w) l = Some c -> truthful c) -> foldM (setupSide s) w is = Some w' ->
  length (w_curves w') = length (w_curves w) /\
  forall l c, nth_error (w_curves w) l = Some c -> exists c', nth_error (w_curves w') l = Some c' /\ faithful c c'.
Proof.
  intros s is; induction is as [|i is IH]; intros w w' H E; cbn [foldM] in E.
  - injection E as <-. split; [reflexivity|]. intros l c Hc. exists c. split; [exact Hc|]. split; [apply (H l c Hc)|reflexivity].
  - binv E. rename x into w1. unfold setupSide in E0.
    assert (Q : length (w_curves w1) = length (w_curves w) /\ forall l c, nth_error (w_curves w) l = Some c -> exists c', nth_error (w_curves w1) l = Some c' /\ faithful c c').
    { do 4 binv E0. binv E0. rename x3 into w2. binv E0. rename x3 into cc. binv E0.
      destruct (setRib_inv _ _ _ _ E5) as (_ & C & _).
      assert (Id : forall l c, nth_error (w_curves w) l = Some c -> exists c', nth_error (w_curves w) l = Some c' /\ faithful c c').
      { intros l c Hc. exists c. split; [exact Hc|]. split; [apply (H l c Hc)|reflexivity]. }
      match type of E0 with (if ?b then _ else _) = _ => destruct b end.
      - destruct (setCrv_inv _ _ _ _ E0) as (_ & _ & _ & _ & Le & N). rewrite C in Le, N. split; [exact Le|]. intros l c Hc. rewrite N.
        destruct (Nat.eqb_spec l (ro_curve x2)) as [->|]; [|apply Id; exact Hc]. exists (reverseCurve cc). split; [reflexivity|]. assert (cc = c) by congruence. subst cc.
        split; [apply reverse_truthful, (H _ c Hc)|]. cbn [reverseCurve clen]. f_equal; ring.
      - apply some_eq in E0. subst w2. rewrite C. split; [reflexivity|exact Id]. }
    destruct Q as (L1 & Q). destruct (IH w1 w') as (L2 & Q2); [|exact E|].
    + intros l c' Hc'. destruct (nth_error (w_curves w) l) as [c|] eqn:Hc; [|apply nth_error_None in Hc; assert (l < length (w_curves w1))%nat by (eapply nth_error_Some; rewrite Hc'; discriminate); lia].
      destruct (Q l c Hc) as (c1 & Hc1 & T & _). assert (c' = c1) by congruence. subst c'. exact T.
    + split; [congruence|]. intros l c Hc. destruct (Q l c Hc) as (c1 & Hc1 & T1 & G1). destruct (Q2 l c1 Hc1) as (c2 & Hc2 & T2 & G2). exists c2. split; [exact Hc2|]. split; [exact T2|congruence].
Qed.
(** Whatever surface is set up, no curve loses its derivatives or its length. *)
Theorem C35_faithful : forall w k w', (forall l c, nth_error (w_curves w) l = Some c -> truthful c) -> setupLoop w k = Some w' ->
  forall l c, nth_error (w_curves w) l = Some c ->
    exists c', nth_error (w_curves w') l = Some c' /\ truthful c' /\ clen c' 0 1 = clen c 0 1.
Proof.
  intros w k w' H E. unfold setupLoop in E. binv E. destruct (loop_faithful _ _ _ _ H E) as (_ & Q). exact Q.
Qed.
Print Assumptions C35_faithful.

(** ** C64: the surface that the evaluators see after an update *)
Definition seenSide (kd : rkind) (eps : R) (w : world) (s : surfObj) (i : nat) : option sribbon :=
  r <- sideRib s i ;; c <- ribCurve w r ;; Some (mkRib c (crossAt kd eps w r)).
Definition seen (kd : rkind) (eps : R) (w : world) (k : nat) : option surf :=
  s <- nth_error (w_surfs w) k ;; rs <- mapM (seenSide kd eps w s) (seq 0 (so_n s)) ;;
  Some (mkSurf (so_n s) (so_gamma s) rs (so_corners s)).

Lemma mapM_at : forall (B : Type) (f : nat -> option B) n l i, mapM f (seq 0 n) = Some l -> (i < n)%nat -> exists b, nth_error l i = Some b /\ f i = Some b.
Proof.
  intros B f n l i H Hi. rewrite (mapM_seq_nth B f n l i H Hi). pose proof (mapM_length _ _ _ H) as L. rewrite seq_length in L.
  destruct (nth_error l i) as [b|] eqn:E; [eauto|]. apply nth_error_None in E. lia.
Qed.
Lemma corner_seen : forall kd eps w s rs i, mapM (seenSide kd eps w s) (seq 0 (so_n s)) = Some rs -> (i < so_n s)%nat ->
  SurfaceModel.updateCorner (so_n s) rs i = cornerOf kd eps w s i.
Proof.
  intros kd eps w s rs i M Hi. assert (Hx : (nxt (so_n s) i < so_n s)%nat) by (apply nxt_lt; lia).
  pose proof (mapM_at _ _ _ _ i M Hi) as A. pose proof (mapM_at _ _ _ _ _ M Hx) as B.
  unfold SurfaceModel.updateCorner, cornerOf. destruct A as (a & Na & Fa), B as (b & Nb & Fb). rewrite Na, Nb. unfold seenSide in Fa, Fb.
  binv Fa. binv Fa. apply some_eq in Fa. subst a. binv Fb. binv Fb. apply some_eq in Fb. subst b. rewrite E, E1. cbn [bind]. rewrite E0, E2. reflexivity.
Qed.
Lemma seen_defined : forall kd eps w s l, mapM (cornerOf kd eps w s) (seq 0 (so_n s)) = Some l -> exists rs, mapM (seenSide kd eps w s) (seq 0 (so_n s)) = Some rs.
Proof.
  intros kd eps w s l M. apply mapM_some. intros i Hi. apply in_seq in Hi. destruct (mapM_at _ _ _ _ i M ltac:(lia)) as (a & _ & Fa).
  unfold cornerOf in Fa. binv Fa. binv Fa. binv Fa. unfold seenSide. rewrite E. cbn [bind]. rewrite E1. eexists. reflexivity.
Qed.
Theorem C64_object : forall kd eps res w k w', updateAll kd eps res w k = Some w' ->
  exists sf, seen kd eps w' k = Some sf /\ length (sf_ribbons sf) = sf_n sf /\
    SurfaceModel.updateCorners (sf_n sf) (sf_ribbons sf) = Some (sf_corners sf).
Proof.
  intros kd eps res w k w' U. unfold updateAll in U. do 3 binv U. rename x1 into w2. unfold SurfaceObj.updateCorners in U. do 2 binv U.
  destruct (setSurf_inv _ _ _ _ U) as (_ & C & Rb & _ & _ & N). destruct (seen_defined kd eps w2 _ _ E3) as (rs & Ers).
  assert (Same : forall i, seenSide kd eps w' (mkSob (so_n x1) (so_gamma x1) (so_dom x1) (so_ribs x1) x2) i = seenSide kd eps w2 x1 i).
  { intros i. unfold seenSide, sideRib, ribCurve. cbn [so_ribs]. rewrite C, Rb. destruct (nth_error (so_ribs x1) i) as [[r|]|]; [cbn [bind]|reflexivity|reflexivity].
    destruct (nth_error (w_ribs w2) r) as [o|] eqn:Eo; [cbn [bind]|reflexivity]. destruct (nth_error (w_curves w2) (ro_curve o)) as [c|] eqn:Ec; [cbn [bind]|reflexivity].
    apply f_equal, f_equal. unfold crossAt. rewrite C, Rb. reflexivity. }
  exists (mkSurf (so_n x1) (so_gamma x1) rs x2). split; [|split].
  - unfold seen. rewrite N, Nat.eqb_refl. cbn [bind so_n so_gamma so_corners]. rewrite (mapM_ext _ (seenSide kd eps w2 x1)) by (intros i _; apply Same). rewrite Ers. reflexivity.
  - cbn [sf_ribbons sf_n]. apply mapM_length in Ers. rewrite seq_length in Ers. exact Ers.
  - cbn [sf_ribbons sf_n sf_corners]. unfold SurfaceModel.updateCorners. rewrite (mapM_ext _ (cornerOf kd eps w2 x1)); [exact E3|]. intros i I. apply in_seq in I. apply corner_seen; [exact Ers|lia].
Qed.
Print Assumptions C64_object.
(** In terms of the curves of the sides. *)
Theorem C64_object_data : forall kd eps res w k w' s i, updateAll kd eps res w k = Some w' -> nth_error (w_surfs w') k = Some s -> (i < so_n s)%nat ->
  exists c cp K A B, sideCurve w' k i = Some c /\ sideCurve w' k (nxt (so_n s) i) = Some cp /\ nth_error (so_corners s) i = Some K /\
    seenSide kd eps w' s i = Some (mkRib c A) /\ seenSide kd eps w' s (nxt (so_n s) i) = Some (mkRib cp B) /\
    cn_point K = cpt c 1 /\ cn_tan1 K = cder c 1 *v (-1) /\ cn_tan2 K = cder cp 0 /\
    exists a1 a2 b1 b2, A 1 = Some a1 /\ A (1 - / 10000) = Some a2 /\ B 0 = Some b1 /\ B (/ 10000) = Some b2 /\
      cn_twist1 K = (a2 -v a1) *v 10000 /\ cn_twist2 K = (b2 -v b1) *v 10000.
Proof.
  intros kd eps res w k w' s i U Hs Hi. destruct (C64_object _ _ _ _ _ _ U) as (sf & S & L & UC). unfold seen in S. rewrite Hs in S. cbn [bind] in S. binv S. apply some_eq in S. subst sf. cbn [sf_n sf_ribbons sf_corners] in *.
  assert (Hx : (nxt (so_n s) i < so_n s)%nat) by (apply nxt_lt; lia).
  destruct (mapM_at _ _ _ _ i UC Hi) as (K & NK & FK). destruct (mapM_at _ _ _ _ i E Hi) as (a & Na & Fa). destruct (mapM_at _ _ _ _ _ E Hx) as (b & Nb & Fb).
  unfold SurfaceModel.updateCorner in FK. rewrite Na, Nb in FK. cbn [bind] in FK. do 4 binv FK. apply some_eq in FK. subst K. destruct a as [c A], b as [cp B]. cbn [sr_curve sr_cross] in *.
  exists c, cp. eexists. exists A, B. assert (Sc : forall j c0 A0, seenSide kd eps w' s j = Some (mkRib c0 A0) -> sideCurve w' k j = Some c0).
  { intros j c0 A0 F. unfold seenSide in F. binv F. binv F. injection F as <- <-. unfold sideCurve, sideObj, ribbonAt. rewrite Hs. cbn [bind]. rewrite E4. cbn [bind]. unfold ribCurve in E5. binv E5. rewrite E6. exact E5. }
  split; [eapply Sc; exact Fa|]. split; [eapply Sc; exact Fb|]. split; [exact NK|]. split; [exact Fa|]. split; [exact Fb|]. cbn [cn_point cn_tan1 cn_tan2 cn_twist1 cn_twist2].
  split; [reflexivity|]. split; [apply V3_ext; simpl; ring|]. split; [reflexivity|].
  exists x0, x1, x2, x3. unfold corner_step in *. 
  repeat (split; [assumption|]). split; (apply V3_ext; simpl; field).
Qed.
Print Assumptions C64_object_data.

(** The curves of the unit square, two of them backwards; and the histories of
    C38. *)
Lemma segment_truthful : forall p q, truthful (segment p q).
Proof.
  assert (G : forall a b u, derivable_pt_lim (fun x => a * (1 - x) + b * x) u (b - a)).
  { intros a b u. apply derivable_pt_lim_ext with (f := fun x => (b - a) * x + a); [intros x; ring|]. cut (derivable_pt_lim (fun x => (b - a) * x + a) u ((b - a) * 1 + 0)); [intros Q; rewrite Rmult_1_r, Rplus_0_r in Q; exact Q|].
    apply (derivable_pt_lim_plus (fun x => (b - a) * x) (fun _ => a)); [apply (derivable_pt_lim_scal (fun x => x)); apply derivable_pt_lim_id|apply derivable_pt_lim_const]. }
  intros p q u. unfold vderives. cbn [segment cpt cder vadd vscale vsub vx vy vz]. repeat split; apply G.
Qed.
Example C35_faithful_example : exists w', setupLoop sqWorld 0 = Some w' /\
  exists c', nth_error (w_curves w') 1 = Some c' /\ cpt c' 0 = sq 0 /\ cpt c' 1 = sq 1 /\ truthful c'.
Proof.
  destruct sq_connects as (C & F1 & F2). destruct (C35_closed sqWorld 0 4 sq ltac:(lia) C F1 F2) as (w' & E' & O & _). exists w'. split; [exact E'|].
  destruct (O 1%nat ltac:(lia)) as (c & Ec & C0 & C1).
  assert (S1 : sideObj w' 0 1 = Some 1%nat).
  { rewrite sideObj_key, (keeps_sideKey sqWorld w'); [|eapply setupLoop_keeps; exact E']. rewrite <- sideObj_key. apply sq_side; lia. }
  unfold sideCurve in Ec. rewrite S1 in Ec. cbn [bind] in Ec. exists c. split; [exact Ec|]. split; [exact C0|]. split; [exact C1|].
  destruct (C35_faithful sqWorld 0 w') with (l := 1%nat) (c := segment (sq 1) (sq 0)) as (c' & Ec' & T & _); [|exact E'|reflexivity|assert (c = c') by congruence; subst c; exact T].
  intros l c0 H. destruct l as [|[|[|[|l]]]]; try (cbn in H; injection H as <-; apply segment_truthful). destruct l; discriminate.
Qed.
Example C64_object_example : forall kd eps res, 0 < eps <= 1 -> (1 <= res)%nat -> kd <> RKHandler -> exists w sf,
  updateAll kd eps res w 0 = Some w /\ seen kd eps w 0 = Some sf /\ SurfaceModel.updateCorners (sf_n sf) (sf_ribbons sf) = Some (sf_corners sf).
Proof.
  intros kd eps res He Hr Hk. destruct (C38_example kd eps res He Hr Hk) as (w & _ & U & _). exists w. destruct (C64_object _ _ _ _ _ _ U) as (sf & A & _ & B). eauto.
Qed.
