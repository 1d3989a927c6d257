(** Properties of surfaces as objects with shared parts: C34 - C39.

    A history is a list of operations run from a world that contains curve
    objects only; [kd], [eps] and [res] are the ribbon class, the tolerance and
    the resolution of the frames. *)
From Verif Require Import Base UtilModel UtilProofs RibbonModel RibbonSpec RibbonProofs SurfaceModel SurfaceObj.
From Verif Require Import ObjSpec ObjProofs ObjLoop ObjUpdate ObjSides ObjLinks.
Open Scope R_scope.

Notation noCopy := (Forall (fun o => ~ isCopy o)).

(** ** C34: ribbon settings *)

Lemma noCopy_tail : forall os1 o os2, noCopy (os1 ++ o :: os2) -> noCopy os1 /\ ~ isCopy o /\ noCopy os2.
Proof. intros os1 o os2 H. apply Forall_app in H. destruct H as [A B]. inversion B; subst. auto. Qed.
Lemma last_key : forall kd eps res cs os1 o os2 w k i X (f : key -> X),
  noCopy (os1 ++ o :: os2) -> wrun kd eps res (startWorld cs) (os1 ++ o :: os2) = Some w ->
  Forall (fun o => ~ replaces k i o) os2 ->
  (forall x q q', In (OSet k i x) os2 -> applyKey q x = Some q' -> f q' = f q) ->
  exists w1 w2, wf1 w1 /\ wf1 w2 /\ wstep kd eps res w1 o = Some w2 /\ option_map f (sideKey w k i) = option_map f (sideKey w2 k i).
Proof.
  intros kd eps res cs os1 o os2 w k i X f NC H NR St. destruct (noCopy_tail _ _ _ NC) as (N1 & No & N2).
  destruct (run_split _ _ _ _ _ _ _ _ H) as (w1 & w2 & A & B & C).
  assert (W1 := run_wf1 _ _ _ _ _ _ N1 (start_wf1 cs) A). assert (W2 := step_wf1 _ _ _ _ _ _ No W1 B).
  exists w1, w2. repeat (split; [assumption|]). apply (key_stays_run kd eps res X f os2 w2 w k i N2 W2 C NR St).
Qed.
Ltac no_set N := let x := fresh in let q := fresh in let q' := fresh in let I := fresh in let A := fresh in
  intros x q q' I A; rewrite Forall_forall in N; specialize (N _ I); destruct q as [[[? ?] ?] ?]; destruct x; cbn in A, N;
  try (exfalso; apply N; auto; fail); try (injection A as <-; reflexivity); binv A; injection A as <-; reflexivity.

(** The last multiplier since the last reset or curve change is reported,
    whatever else happened. *)
Theorem C34_multiplier : forall kd eps res cs os1 os2 k i m w, noCopy (os1 ++ OSet k i (SMult m) :: os2) ->
  Forall (fun o => ~ replaces k i o) os2 -> Forall (fun o => ~ setsMult k i o) os2 ->
  wrun kd eps res (startWorld cs) (os1 ++ OSet k i (SMult m) :: os2) = Some w -> ribbonMultiplier w k i = Some m.
Proof.
  intros kd eps res cs os1 os2 k i m w NC NR NS H. rewrite mult_key.
  destruct (last_key _ _ _ _ _ _ _ _ k i _ (fun q => snd (fst (fst q))) NC H NR ltac:(no_set NS)) as (w1 & w2 & W1 & W2 & E & Q). refine (eq_trans Q _).
  destruct (step_setting _ _ _ _ _ _ _ _ E) as ([[[c m0] h] f] & q' & _ & A & ->). cbn in A. injection A as <-. reflexivity.
Qed.
Print Assumptions C34_multiplier.
(** The last handler is reported, scaled to unit length. *)
Theorem C34_handler : forall kd eps res cs os1 os2 k i h w, noCopy (os1 ++ OSet k i (SHandler h) :: os2) ->
  Forall (fun o => ~ replaces k i o) os2 -> Forall (fun o => ~ setsHandler k i o) os2 ->
  wrun kd eps res (startWorld cs) (os1 ++ OSet k i (SHandler h) :: os2) = Some w ->
  exists u, ribbonHandler w k i = Some (Some u) /\ directs u h.
Proof.
  intros kd eps res cs os1 os2 k i h w NC NR NS H. rewrite handler_key.
  destruct (last_key _ _ _ _ _ _ _ _ k i _ (fun q => snd (fst q)) NC H NR ltac:(no_set NS)) as (w1 & w2 & W1 & W2 & E & Q). 
  destruct (step_setting _ _ _ _ _ _ _ _ E) as ([[[c m0] h0] f] & q' & _ & A & S). rewrite S in Q. cbn in A. binv A. injection A as <-. exists x.
  split; [exact Q|]. destruct (normalize_inv _ _ E0) as (U & N & D). split; [exact U|]. pose proof (vnorm_nonneg h) as P. split; [lra|].
  rewrite D. unfold vscale. destruct h as [a b d]; simpl. f_equal; field; exact N.
Qed.
Print Assumptions C34_handler.
(** The last fence is in force; resetRibbon does not count. *)
Theorem C34_fence : forall kd eps res cs os1 os2 k i f w, noCopy (os1 ++ OSet k i (SFence f) :: os2) ->
  Forall (fun o => ~ replaces k i o) os2 -> Forall (fun o => ~ setsFence k i o) os2 ->
  wrun kd eps res (startWorld cs) (os1 ++ OSet k i (SFence f) :: os2) = Some w -> ribbonFence w k i = Some f.
Proof.
  intros kd eps res cs os1 os2 k i f w NC NR NS H. rewrite fence_key.
  destruct (last_key _ _ _ _ _ _ _ _ k i _ (fun q => snd q) NC H NR ltac:(no_set NS)) as (w1 & w2 & W1 & W2 & E & Q). refine (eq_trans Q _).
  destruct (step_setting _ _ _ _ _ _ _ _ E) as ([[[c m0] h0] f0] & q' & _ & A & ->). cbn in A. injection A as <-. reflexivity.
Qed.
Print Assumptions C34_fence.
(** After a reset: multiplier 1 and no handler, until the next setting. *)
Theorem C34_reset : forall kd eps res cs os1 os2 k i w, noCopy (os1 ++ OSet k i SReset :: os2) ->
  Forall (fun o => ~ replaces k i o) os2 -> wrun kd eps res (startWorld cs) (os1 ++ OSet k i SReset :: os2) = Some w ->
  (Forall (fun o => ~ setsMult k i o) os2 -> ribbonMultiplier w k i = Some 1) /\
  (Forall (fun o => ~ setsHandler k i o) os2 -> ribbonHandler w k i = Some None).
Proof.
  intros kd eps res cs os1 os2 k i w NC NR H. split; intros NS.
  - rewrite mult_key. destruct (last_key _ _ _ _ _ _ _ _ k i _ (fun q => snd (fst (fst q))) NC H NR ltac:(no_set NS)) as (w1 & w2 & W1 & W2 & E & Q). refine (eq_trans Q _).
    destruct (step_setting _ _ _ _ _ _ _ _ E) as ([[[c m0] h0] f0] & q' & _ & A & ->). cbn in A. injection A as <-. reflexivity.
  - rewrite handler_key. destruct (last_key _ _ _ _ _ _ _ _ k i _ (fun q => snd (fst q)) NC H NR ltac:(no_set NS)) as (w1 & w2 & W1 & W2 & E & Q). refine (eq_trans Q _).
    destruct (step_setting _ _ _ _ _ _ _ _ E) as ([[[c m0] h0] f0] & q' & _ & A & ->). cbn in A. injection A as <-. reflexivity.
Qed.
Print Assumptions C34_reset.
(** The same holds after a curve change, which also drops the fence. *)
Theorem C34_new_curve : forall kd eps res cs os1 o os2 k i w,
  (exists c, o = OSetCurve k i c) \/ (exists l, o = OSetCurves k l /\ (i < length l)%nat) -> noCopy (os1 ++ o :: os2) ->
  Forall (fun o => ~ replaces k i o) os2 -> wrun kd eps res (startWorld cs) (os1 ++ o :: os2) = Some w ->
  (Forall (fun o => ~ setsMult k i o) os2 -> ribbonMultiplier w k i = Some 1) /\
  (Forall (fun o => ~ setsHandler k i o) os2 -> ribbonHandler w k i = Some None) /\
  (Forall (fun o => ~ setsFence k i o) os2 -> ribbonFence w k i = Some None).
Proof.
  intros kd eps res cs os1 o os2 k i w Ho NC NR H. assert (No := proj1 (proj2 (noCopy_tail _ _ _ NC))).
  assert (K : forall w1 w2, wf1 w1 -> wstep kd eps res w1 o = Some w2 -> exists c, sideKey w2 k i = Some (c, 1, None, None)).
  { intros w1 w2 W1 E. rewrite (step_key kd eps res w1 o w2 k i No W1 E). destruct Ho as [[c ->]|(l & -> & Hl)]; cbn [keyStep].
    - rewrite !Nat.eqb_refl. exists c; reflexivity.
    - rewrite Nat.eqb_refl. destruct (nth_error_ex _ _ _ Hl) as [c ->]. exists c; reflexivity. }
  split; [|split]; intros NS.
  - rewrite mult_key. destruct (last_key _ _ _ _ _ _ _ _ k i _ (fun q => snd (fst (fst q))) NC H NR ltac:(no_set NS)) as (w1 & w2 & W1 & W2 & E & Q). refine (eq_trans Q _).
    destruct (K _ _ W1 E) as [c ->]. reflexivity.
  - rewrite handler_key. destruct (last_key _ _ _ _ _ _ _ _ k i _ (fun q => snd (fst q)) NC H NR ltac:(no_set NS)) as (w1 & w2 & W1 & W2 & E & Q). refine (eq_trans Q _).
    destruct (K _ _ W1 E) as [c ->]. reflexivity.
  - rewrite fence_key. destruct (last_key _ _ _ _ _ _ _ _ k i _ (fun q => snd q) NC H NR ltac:(no_set NS)) as (w1 & w2 & W1 & W2 & E & Q). refine (eq_trans Q _).
    destruct (K _ _ W1 E) as [c ->]. reflexivity.
Qed.
Print Assumptions C34_new_curve.

Example C34_example : forall kd eps res cs f, exists w,
  wrun kd eps res (startWorld cs)
    [ONew; OSetCurves 0 [0; 1; 2; 3]%nat; ONew; OSetCurve 1 1 2%nat; OSet 0 2 (SMult 5); OSet 0 2 (SFence (Some f)); OSet 1 1 (SMult 7);
     OSet 0 2 SReset; OSet 0 2 (SMult 3); OSet 0 1 (SMult 4); OSetCurve 0 3 1%nat] = Some w /\
  ribbonMultiplier w 0 2 = Some 3 /\ ribbonMultiplier w 0 1 = Some 4 /\ ribbonMultiplier w 0 3 = Some 1 /\ ribbonMultiplier w 1 1 = Some 7 /\
  ribbonMultiplier w 1 0 = None /\ ribbonHandler w 0 2 = Some None /\ ribbonFence w 0 2 = Some (Some f) /\ sideCount w 1 = Some 2%nat.
Proof. intros kd eps res cs f. eexists. split; [lazy; reflexivity|]. repeat split. Qed.

(** ** C35: setupLoop orients any loop *)

Lemma connects_data : forall delta w k n P, connects delta w k n P -> exists s r o c0, nth_error (w_surfs w) k = Some s /\ so_n s = n /\
  (forall i, (i < n)%nat -> sideRib s i = Some (r i)) /\ (forall i, (i < n)%nat -> nth_error (w_ribs w) (r i) = Some (o i)) /\
  (forall i, (i < n)%nat -> nth_error (w_curves w) (ro_curve (o i)) = Some (c0 i)) /\
  (forall i, (i < n)%nat -> eitherWay delta (c0 i) (P (prv n i)) (P i)) /\
  (forall i j, (i < n)%nat -> (j < n)%nat -> ro_curve (o i) = ro_curve (o j) -> i = j).
Proof.
  intros delta w k n P (Hc & Hs & Hi). unfold sideCount in Hc. binv Hc. injection Hc as <-. rename x into s.
  assert (D : forall i, (i < so_n s)%nat -> exists r o c, sideRib s i = Some r /\ nth_error (w_ribs w) r = Some o /\ nth_error (w_curves w) (ro_curve o) = Some c /\
     sideObj w k i = Some (ro_curve o) /\ sideCurve w k i = Some c).
  { intros i Hi'. destruct (Hs i Hi') as (c & Ec & _). assert (Ec' := Ec). unfold sideCurve in Ec'. binv Ec'. assert (E0' := E0). unfold sideObj in E0'. binv E0'. injection E0' as <-.
    unfold ribbonAt in E1. rewrite E in E1. cbn [bind] in E1. binv E1. exists x, x0, c. auto. }
  set (dr := newRibbon 0%nat). set (dc := segment vzero vzero).
  exists s, (fun i => match sideRib s i with Some r => r | None => 0%nat end),
    (fun i => match ribbonAt w k i with Some o => o | None => dr end), (fun i => match sideCurve w k i with Some c => c | None => dc end).
  split; [exact E|]. split; [reflexivity|].
  split; [intros i H; destruct (D i H) as (r & o & c & A & _); rewrite A; reflexivity|].
  assert (At : forall i r o, sideRib s i = Some r -> nth_error (w_ribs w) r = Some o -> ribbonAt w k i = Some o).
  { intros i r o A B. unfold ribbonAt. rewrite E. cbn [bind]. rewrite A. exact B. }
  split; [intros i H; destruct (D i H) as (r & o & c & A & B & _); rewrite A, (At i r o A B); exact B|].
  split; [intros i H; destruct (D i H) as (r & o & c & A & B & C & _ & F); rewrite (At i r o A B), F; exact C|].
  split; [intros i H; destruct (Hs i H) as (c & Ec & Dc); rewrite Ec; exact Dc|].
  intros i j Hi' Hj H. destruct (D i Hi') as (r & o & c & A & B & C & F & _). destruct (D j Hj) as (r' & o' & c' & A' & B' & C' & F' & _).
  rewrite (At i r o A B), (At j r' o' A' B') in H. apply Hi; [exact Hi'|exact Hj|congruence].
Qed.

Lemma sideCurve_data : forall w k s i r o, nth_error (w_surfs w) k = Some s -> sideRib s i = Some r -> nth_error (w_ribs w) r = Some o ->
  sideObj w k i = Some (ro_curve o) /\ sideCurve w k i = nth_error (w_curves w) (ro_curve o).
Proof. intros w k s i r o A B C. unfold sideCurve, sideObj, ribbonAt. rewrite A. cbn [bind]. rewrite B. cbn [bind]. rewrite C. auto. Qed.

(** Curves connecting the corners up to [delta], each in one of the two
    directions, the corners being farther than 4 [delta] from each other: then
    setupLoop succeeds and all curves run from the previous corner to the next
    one.  It does nothing but reverse some curves of the surface and tell the
    ribbons their neighbours, and running it again changes nothing. *)
Theorem C35_orients : forall delta w k n P, (3 <= n)%nat -> connects delta w k n P ->
  (forall i, (i < n)%nat -> 4 * delta < vnorm (P (prv n i) -v P i)) -> 4 * delta < vnorm (P (n - 1)%nat -v P 1%nat) ->
  exists w', setupLoop w k = Some w' /\ inOrder delta w' k n P /\ linked w' k n /\ setupLoop w' k = Some w' /\
    (forall i c, (i < n)%nat -> sideCurve w k i = Some c -> exists c', sideCurve w' k i = Some c' /\ (c' = c \/ c' = reverseCurve c)) /\
    (forall l, (forall i, (i < n)%nat -> sideObj w k i <> Some l) -> nth_error (w_curves w') l = nth_error (w_curves w) l) /\
    (forall k' i, sideObj w' k' i = sideObj w k' i).
Proof.
  intros delta w k n P Hn HC F1 F2. destruct (connects_data _ _ _ _ _ HC) as (s & r & o & c0 & Hs & Hsn & Hr & Ho & Hc & Hd & Hi).
  assert (F1' : forall i, (i < n)%nat -> 4 * delta < vdist (P (prv n i)) (P i)) by exact F1.
  destruct (loop_result delta w k n P s ltac:(lia) Hs Hsn r o c0 Hr Ho Hc Hd Hi F1' F2) as (w' & E & ST).
  assert (Side : forall i, (i < n)%nat -> sideObj w k i = Some (ro_curve (o i)) /\ sideCurve w k i = Some (c0 i) /\ sideCurve w' k i = nth_error (w_curves w') (ro_curve (o i)) /\
     ribbonAt w' k i = Some (withNeighbors (o i) (r (prv n i)) (r (nxt n i)))).
  { intros i H. destruct (sideCurve_data w k s i (r i) (o i) Hs (Hr i H) (Ho i H)) as [A B]. split; [exact A|]. split; [rewrite B; apply Hc; exact H|].
    assert (Hs' : nth_error (w_surfs w') k = Some s) by (rewrite (st_surfs _ _ _ _ _ _ _ _ _ ST); exact Hs).
    assert (Ho' := st_rdone _ _ _ _ _ _ _ _ _ ST i H).
    split; [exact (proj2 (sideCurve_data w' k s i (r i) _ Hs' (Hr i H) Ho'))|]. unfold ribbonAt. rewrite Hs'. cbn [bind]. rewrite (Hr i H). exact Ho'. }
  exists w'. split; [exact E|]. split; [|split; [|split; [|split; [|split]]]].
  - intros i H. destruct (Side i H) as (_ & _ & -> & _). destruct (st_cdone _ _ _ _ _ _ _ _ _ ST i H) as (c & Ec & _ & Rc). exists c. auto.
  - intros i s' H Hs'. rewrite (st_surfs _ _ _ _ _ _ _ _ _ ST), Hs in Hs'. injection Hs' as <-. destruct (Side i H) as (_ & _ & _ & ->). eexists. split; [reflexivity|].
    cbn. rewrite !Hr by (first [apply prv_lt | apply nxt_lt]; lia). auto.
  - exact (loop_again delta w k n P s ltac:(lia) Hs Hsn r o c0 Hr Ho Hi F1' F2 w' ST).
  - intros i c H Ec. destruct (Side i H) as (_ & E0 & -> & _). assert (c = c0 i) by congruence. subst c.
    destruct (st_cdone _ _ _ _ _ _ _ _ _ ST i H) as (c & Ec' & D & _). exists c. auto.
  - intros l Hl. apply (st_crest _ _ _ _ _ _ _ _ _ ST). intros i H Q. apply (Hl i H). destruct (Side i H) as (-> & _). congruence.
  - intros k' i. rewrite !sideObj_key, (keeps_sideKey w w'); [reflexivity|]. eapply setupLoop_keeps; exact E.
Qed.
Print Assumptions C35_orients.

Lemma close_zero : forall a b, close 0 a b -> a = b.
Proof.
  intros a b H. unfold close in H. pose proof (vnorm_nonneg (a -v b)) as P. assert (Z : vnorm (a -v b) = 0) by lra. apply vnorm_zero in Z.
  destruct a, b. unfold vsub, vzero in Z. simpl in Z. injection Z as Z1 Z2 Z3. f_equal; lra.
Qed.
(** When the end points agree exactly, distinct corners are enough, and the
    result is a closed loop. *)
Theorem C35_closed : forall w k n P, (3 <= n)%nat -> connects 0 w k n P ->
  (forall i, (i < n)%nat -> P (prv n i) <> P i) -> P (n - 1)%nat <> P 1%nat ->
  exists w', setupLoop w k = Some w' /\
    (forall i, (i < n)%nat -> exists c, sideCurve w' k i = Some c /\ cpt c 0 = P (prv n i) /\ cpt c 1 = P i) /\
    (forall i c c', (i < n)%nat -> sideCurve w' k i = Some c -> sideCurve w' k (nxt n i) = Some c' -> cpt c 1 = cpt c' 0) /\
    setupLoop w' k = Some w'.
Proof.
  intros w k n P Hn HC F1 F2. destruct (C35_orients 0 w k n P Hn HC) as (w' & E & O & _ & A & _).
  - intros i H. pose proof (vdist_pos _ _ (F1 i H)) as G. unfold vdist in G. lra.
  - pose proof (vdist_pos _ _ F2) as G. unfold vdist in G. lra.
  - assert (O' : forall i, (i < n)%nat -> exists c, sideCurve w' k i = Some c /\ cpt c 0 = P (prv n i) /\ cpt c 1 = P i).
    { intros i H. destruct (O i H) as (c & Ec & R1 & R2). exists c. split; [exact Ec|]. split; apply close_zero; assumption. }
    exists w'. split; [exact E|]. split; [exact O'|]. split; [|exact A].
    intros i c c' H Ec Ec'. destruct (O' i H) as (x & Ex & _ & X). destruct (O' (nxt n i) ltac:(apply nxt_lt; lia)) as (y & Ey & Y & _).
    rewrite prv_nxt in Y by lia. congruence.
Qed.
Print Assumptions C35_closed.

Lemma runs_segment : forall p q, runs 0 (segment p q) p q.
Proof.
  intros p q. unfold runs, close. cbn [segment cpt]. replace (p *v (1 - 0) +v q *v 0 -v p) with vzero by v3ring. replace (p *v (1 - 1) +v q *v 1 -v q) with vzero by v3ring.
  replace (vnorm vzero) with 0; [split; apply Rle_refl|]. unfold vnorm, vdot, vzero; simpl. replace (0 * 0 + 0 * 0 + 0 * 0) with 0 by ring. symmetry; apply sqrt_0.
Qed.
(** The unit square, with curves 1 and 3 running backwards. *)
Definition sq (i : nat) : V3 := match i with 0 => mkV3 0 0 0 | 1 => mkV3 1 0 0 | 2 => mkV3 1 1 0 | _ => mkV3 0 1 0 end%nat.
Definition sqCurves : list curve := [segment (sq 3) (sq 0); segment (sq 1) (sq 0); segment (sq 1) (sq 2); segment (sq 3) (sq 2)].
Definition sqOps : list wop := [ONew; OSetCurves 0 [0; 1; 2; 3]%nat].
Definition sqWorld : world := mkWorld sqCurves (map newRibbon [0; 1; 2; 3]%nat) [mkDob (map Some [0; 1; 2; 3]%nat) None]
  [mkSob 4 true 0%nat (map Some [0; 1; 2; 3]%nat) []].
Lemma sq_run : forall kd eps res, wrun kd eps res (startWorld sqCurves) sqOps = Some sqWorld.
Proof. intros kd eps res. lazy. reflexivity. Qed.
Lemma sq_side : forall i, (i < 4)%nat -> sideObj sqWorld 0 i = Some i.
Proof. intros i Hi. destruct i as [|[|[|[|i]]]]; [reflexivity..|lia]. Qed.
Lemma sq_connects : connects 0 sqWorld 0 4 sq /\ (forall i, (i < 4)%nat -> sq (prv 4 i) <> sq i) /\ sq (4 - 1)%nat <> sq 1%nat.
Proof.
  split; [|split].
  - split; [reflexivity|]. split.
    + intros i Hi. unfold sideCurve. rewrite sq_side by exact Hi. cbn [bind sqWorld w_curves].
      destruct i as [|[|[|[|i]]]]; [| | | |lia]; (eexists; split; [reflexivity|]); [left|right|left|right]; apply runs_segment.
    + intros i j Hi Hj. rewrite !sq_side by assumption. congruence.
  - intros i Hi. destruct i as [|[|[|[|i]]]]; [| | | |lia]; cbn; intros E; injection E; intros; lra.
  - cbn. intros E; injection E; intros; lra.
Qed.
(** Curve 1 is reversed, and the loop is closed. *)
Example C35_example : forall kd eps res, exists w', wrun kd eps res (startWorld sqCurves) (sqOps ++ [OSetupLoop 0]) = Some w' /\
  (exists c c', nth_error sqCurves 1 = Some c /\ nth_error (w_curves w') 1 = Some c' /\ cpt c 0 = sq 1 /\ cpt c' 0 = sq 0) /\
  forall i, (i < 4)%nat -> exists c, sideCurve w' 0 i = Some c /\ cpt c 0 = sq (prv 4 i) /\ cpt c 1 = sq i.
Proof.
  intros kd eps res. destruct sq_connects as (C & F1 & F2). destruct (C35_closed sqWorld 0 4 sq ltac:(lia) C F1 F2) as (w' & E' & O & _).
  exists w'. split; [unfold wrun; rewrite foldM_app; fold (wrun kd eps res (startWorld sqCurves) sqOps); rewrite sq_run; cbn [bind foldM wstep]; rewrite E'; reflexivity|].
  split; [|exact O]. destruct (O 1%nat ltac:(lia)) as (c & Ec & C0 & _).
  assert (S1 : sideObj w' 0 1 = Some 1%nat).
  { rewrite sideObj_key, (keeps_sideKey sqWorld w'); [|eapply setupLoop_keeps; exact E']. rewrite <- sideObj_key. apply sq_side; lia. }
  unfold sideCurve in Ec. rewrite S1 in Ec. cbn [bind] in Ec. exists (segment (sq 1) (sq 0)), c. split; [reflexivity|]. split; [exact Ec|].
  split; [cbn [segment cpt]; v3ring|exact C0].
Qed.

(** ** C36: shared curves *)

(** What setupLoop of one surface does to the curves of another one. *)
Lemma turned : forall w k n w' k2 i c, 
  (forall i c, (i < n)%nat -> sideCurve w k i = Some c -> exists c', sideCurve w' k i = Some c' /\ (c' = c \/ c' = reverseCurve c)) ->
  (forall l, (forall i, (i < n)%nat -> sideObj w k i <> Some l) -> nth_error (w_curves w') l = nth_error (w_curves w) l) ->
  (forall k' i, sideObj w' k' i = sideObj w k' i) ->
  sideCurve w k2 i = Some c -> exists c', sideCurve w' k2 i = Some c' /\ (c' = c \/ c' = reverseCurve c).
Proof.
  intros w k n w' k2 i c A B S H. unfold sideCurve in H. binv H.
  destruct (in_dec (fun a b : option cloc => ltac:(decide equality; apply Nat.eq_dec)) (Some x) (map (sideObj w k) (seq 0 n))) as [I|I].
  - apply in_map_iff in I. destruct I as (j & Ej & Ij). apply in_seq in Ij. destruct (A j c ltac:(lia)) as (c' & Ec' & D).
    + unfold sideCurve. rewrite Ej. exact H.
    + exists c'. split; [|exact D]. unfold sideCurve in *. rewrite S in Ec' |- *. rewrite E. rewrite Ej in Ec'. exact Ec'.
  - exists c. split; [|left; reflexivity]. unfold sideCurve. rewrite S, E. cbn [bind]. rewrite B; [exact H|]. intros j Hj Q. apply I. rewrite <- Q. apply in_map. apply in_seq; lia.
Qed.
Lemma turned_runs : forall c c' p q, c' = c \/ c' = reverseCurve c -> eitherWay 0 c p q -> eitherWay 0 c' p q.
Proof. intros c c' p q [-> | ->] [H|H]; [left|right|right|left]; try exact H; apply runs_reverse; exact H. Qed.

(** Two surfaces with a common curve object that they need in opposite
    directions (as neighbours with the same orientation do): orienting the
    second one always breaks the loop of the first one. *)
Theorem C36_shared_curve : forall w k1 k2 n1 n2 P Q i1 i2, (3 <= n1)%nat -> (3 <= n2)%nat ->
  connects 0 w k1 n1 P -> connects 0 w k2 n2 Q ->
  (forall i j, (i < n1)%nat -> (j < n1)%nat -> P i = P j -> i = j) -> (forall i j, (i < n2)%nat -> (j < n2)%nat -> Q i = Q j -> i = j) ->
  (i1 < n1)%nat -> (i2 < n2)%nat -> sideObj w k1 i1 = sideObj w k2 i2 -> Q (prv n2 i2) = P i1 -> Q i2 = P (prv n1 i1) ->
  exists w1 w2, setupLoop w k1 = Some w1 /\ inOrder 0 w1 k1 n1 P /\ setupLoop w1 k2 = Some w2 /\ inOrder 0 w2 k2 n2 Q /\
    exists c c', sideCurve w2 k1 i1 = Some c /\ sideCurve w2 k1 (nxt n1 i1) = Some c' /\ cpt c 1 <> cpt c' 0.
Proof.
  intros w k1 k2 n1 n2 P Q i1 i2 H1 H2 C1 C2 DP DQ L1 L2 Sh Q1 Q2.
  assert (FP : forall i, (i < n1)%nat -> 4 * 0 < vnorm (P (prv n1 i) -v P i)).
  { intros i Hi. assert (N : P (prv n1 i) <> P i). { intros E. apply DP in E; [|apply prv_lt; lia|exact Hi]. apply (prv_neq n1 i); lia. }
    pose proof (vdist_pos _ _ N) as G. unfold vdist in G. lra. }
  assert (FQ : forall i, (i < n2)%nat -> 4 * 0 < vnorm (Q (prv n2 i) -v Q i)).
  { intros i Hi. assert (N : Q (prv n2 i) <> Q i). { intros E. apply DQ in E; [|apply prv_lt; lia|exact Hi]. apply (prv_neq n2 i); lia. }
    pose proof (vdist_pos _ _ N) as G. unfold vdist in G. lra. }
  assert (FP2 : 4 * 0 < vnorm (P (n1 - 1)%nat -v P 1%nat)).
  { assert (N : P (n1 - 1)%nat <> P 1%nat) by (intros E; apply DP in E; lia). pose proof (vdist_pos _ _ N) as G. unfold vdist in G. lra. }
  assert (FQ2 : 4 * 0 < vnorm (Q (n2 - 1)%nat -v Q 1%nat)).
  { assert (N : Q (n2 - 1)%nat <> Q 1%nat) by (intros E; apply DQ in E; lia). pose proof (vdist_pos _ _ N) as G. unfold vdist in G. lra. }
  destruct (C35_orients 0 w k1 n1 P H1 C1 FP FP2) as (w1 & E1 & O1 & _ & _ & A1 & B1 & S1).
  assert (C2' : connects 0 w1 k2 n2 Q).
  { destruct C2 as (N2 & D2 & I2). split; [rewrite count_key in *; destruct (setupLoop_keeps _ _ _ E1) as (_ & K & _); rewrite K; exact N2|]. split.
    - intros i Hi. destruct (D2 i Hi) as (c & Ec & Dc). destruct (turned w k1 n1 w1 k2 i c A1 B1 S1 Ec) as (c' & Ec' & T). exists c'. split; [exact Ec'|].
      exact (turned_runs c c' _ _ T Dc).
    - intros i j Hi Hj. rewrite !S1. apply I2; assumption. }
  destruct (C35_orients 0 w1 k2 n2 Q H2 C2' FQ FQ2) as (w2 & E2 & O2 & _ & _ & A2 & B2 & S2).
  exists w1, w2. split; [exact E1|]. split; [exact O1|]. split; [exact E2|]. split; [exact O2|].
  destruct (O2 i2 L2) as (c & Ec & R0 & R1). exists c.
  destruct (O1 (nxt n1 i1) ltac:(apply nxt_lt; lia)) as (d & Ed & Rd). destruct (turned w1 k2 n2 w2 k1 _ d A2 B2 S2 Ed) as (c' & Ec' & T). exists c'.
  assert (Sh' : sideObj w2 k1 i1 = sideObj w2 k2 i2) by (rewrite !S2, !S1; exact Sh).
  split; [unfold sideCurve in *; rewrite Sh'; exact Ec|]. split; [exact Ec'|].
  apply close_zero in R1. rewrite R1, Q2. rewrite prv_nxt in Rd by lia.
  assert (Np : prv n1 i1 <> i1) by (apply prv_neq; lia). assert (Nn : prv n1 i1 <> nxt n1 i1) by (intros E; symmetry in E; revert E; apply nxt_prv_neq; lia).
  destruct (turned_runs d c' _ _ T (or_introl Rd)) as [[X _]|[X _]]; apply close_zero in X; rewrite X; intros E; apply DP in E; auto; try (apply prv_lt; lia); apply nxt_lt; lia.
Qed.
Print Assumptions C36_shared_curve.

(** Two squares with the common edge from (1,0,0) to (1,1,0). *)
Definition sq2 (i : nat) : V3 := match i with 0 => mkV3 1 0 0 | 1 => mkV3 2 0 0 | 2 => mkV3 2 1 0 | _ => mkV3 1 1 0 end%nat.
Definition twoCurves : list curve := sqCurves ++ [segment (sq2 0) (sq2 1); segment (sq2 1) (sq2 2); segment (sq2 2) (sq2 3)].
Definition twoWorld : world := mkWorld twoCurves (map newRibbon [0; 1; 2; 3; 2; 4; 5; 6]%nat)
  [mkDob (map Some [0; 1; 2; 3]%nat) None; mkDob (map Some [2; 4; 5; 6]%nat) None]
  [mkSob 4 true 0%nat (map Some [0; 1; 2; 3]%nat) []; mkSob 4 true 1%nat (map Some [4; 5; 6; 7]%nat) []].
Example C36_example : forall kd eps res,
  wrun kd eps res (startWorld twoCurves) [ONew; OSetCurves 0 [0; 1; 2; 3]%nat; ONew; OSetCurves 1 [2; 4; 5; 6]%nat] = Some twoWorld /\
  exists w1 w2, setupLoop twoWorld 0 = Some w1 /\ inOrder 0 w1 0 4 sq /\ setupLoop w1 1 = Some w2 /\ inOrder 0 w2 1 4 sq2 /\
    exists c c', sideCurve w2 0 2 = Some c /\ sideCurve w2 0 3 = Some c' /\ cpt c 1 <> cpt c' 0.
Proof.
  intros kd eps res. split; [lazy; reflexivity|].
  assert (S0 : forall i, (i < 4)%nat -> sideObj twoWorld 0 i = Some i) by (intros i Hi; destruct i as [|[|[|[|i]]]]; [reflexivity..|lia]).
  apply (C36_shared_curve twoWorld 0 1 4 4 sq sq2 2 0); try lia; try reflexivity.
  - split; [reflexivity|]. split.
    + intros i Hi. unfold sideCurve. rewrite S0 by exact Hi. cbn [bind twoWorld w_curves].
      destruct i as [|[|[|[|i]]]]; [| | | |lia]; (eexists; split; [reflexivity|]); [left|right|left|right]; apply runs_segment.
    + intros i j Hi Hj. rewrite !S0 by assumption. congruence.
  - split; [reflexivity|]. split.
    + intros i Hi. destruct i as [|[|[|[|i]]]]; [| | | |lia]; (eexists; split; [reflexivity|]); [right|left|left|left]; apply runs_segment.
    + intros i j Hi Hj. destruct i as [|[|[|[|i]]]]; [| | | |lia]; (destruct j as [|[|[|[|j]]]]; [| | | |lia]); intros E; try reflexivity; discriminate.
  - intros i j Hi Hj. destruct i as [|[|[|[|i]]]]; [| | | |lia]; (destruct j as [|[|[|[|j]]]]; [| | | |lia]); intros E; try reflexivity; exfalso; injection E; intros; lra.
  - intros i j Hi Hj. destruct i as [|[|[|[|i]]]]; [| | | |lia]; (destruct j as [|[|[|[|j]]]]; [| | | |lia]); intros E; try reflexivity; exfalso; injection E; intros; lra.
Qed.

(** ** C37: side counts *)

(** The ribbons and the domain have the same number of sides, with the same
    curves. *)
Theorem C37_counts : forall kd eps res cs os w, noCopy os -> wrun kd eps res (startWorld cs) os = Some w ->
  forall k n, sideCount w k = Some n -> domainCount w k = Some n /\
    (forall i, domainObj w k i = sideObj w k i) /\ (forall i, (n <= i)%nat -> sideObj w k i = None).
Proof.
  intros kd eps res cs os w NC H k n Hn. pose proof (run_domSame kd eps res os cs w NC H) as D. unfold sideCount in Hn. binv Hn. injection Hn as <-.
  destruct (D k x E) as (d & Hd & L & S). split; [unfold domainCount; rewrite E; cbn [bind]; rewrite Hd; cbn; rewrite L; reflexivity|]. split.
  - intros i. unfold domainObj. rewrite E. cbn [bind]. rewrite Hd. cbn [bind]. apply S.
  - intros i Hi. rewrite <- S. rewrite (proj2 (nth_error_None (do_curves d) i)) by lia. reflexivity.
Qed.
Print Assumptions C37_counts.

(** Side [i] is the curve last set for it; it is missing when it is beyond the
    curves of the last setCurves call and was not set since, or was never set. *)
Theorem C37_last_curve : forall kd eps res cs os1 os2 k i c w, noCopy (os1 ++ OSetCurve k i c :: os2) ->
  Forall (fun o => ~ replaces k i o) os2 -> wrun kd eps res (startWorld cs) (os1 ++ OSetCurve k i c :: os2) = Some w ->
  sideObj w k i = Some c.
Proof.
  intros kd eps res cs os1 os2 k i c w NC NR H. rewrite sideObj_key.
  assert (St : forall x q q', In (OSet k i x) os2 -> applyKey q x = Some q' -> fst (fst (fst q')) = fst (fst (fst q))).
  { intros x [[[q1 q2] q3] q4] q' _ A. destruct x; cbn in A; try (injection A as <-; reflexivity). binv A. injection A as <-. reflexivity. }
  destruct (last_key _ _ _ _ _ _ _ _ k i _ (fun q => fst (fst (fst q))) NC H NR St) as (w1 & w2 & W1 & W2 & E & Q). refine (eq_trans Q _).
  rewrite (step_key kd eps res w1 (OSetCurve k i c) w2 k i (fun X => X) W1 E). cbn [keyStep]. rewrite !Nat.eqb_refl. reflexivity.
Qed.
Print Assumptions C37_last_curve.
Theorem C37_last_curves : forall kd eps res cs os1 os2 k i l w, noCopy (os1 ++ OSetCurves k l :: os2) ->
  Forall (fun o => ~ replaces k i o) os2 -> wrun kd eps res (startWorld cs) (os1 ++ OSetCurves k l :: os2) = Some w ->
  sideObj w k i = nth_error l i.
Proof.
  intros kd eps res cs os1 os2 k i l w NC NR H. rewrite sideObj_key.
  assert (St : forall x q q', In (OSet k i x) os2 -> applyKey q x = Some q' -> fst (fst (fst q')) = fst (fst (fst q))).
  { intros x [[[q1 q2] q3] q4] q' _ A. destruct x; cbn in A; try (injection A as <-; reflexivity). binv A. injection A as <-. reflexivity. }
  destruct (last_key _ _ _ _ _ _ _ _ k i _ (fun q => fst (fst (fst q))) NC H NR St) as (w1 & w2 & W1 & W2 & E & Q). refine (eq_trans Q _).
  rewrite (step_key kd eps res w1 (OSetCurves k l) w2 k i (fun X => X) W1 E). cbn [keyStep]. rewrite !Nat.eqb_refl. destruct (nth_error l i); reflexivity.
Qed.
Print Assumptions C37_last_curves.
Theorem C37_never_set : forall kd eps res cs os k i w, noCopy os -> Forall (fun o => ~ replaces k i o) os ->
  wrun kd eps res (startWorld cs) os = Some w -> sideObj w k i = None.
Proof.
  intros kd eps res cs os k i w NC NR H. rewrite sideObj_key.
  assert (St : forall x q q', In (OSet k i x) os -> applyKey q x = Some q' -> fst (fst (fst q')) = fst (fst (fst q))).
  { intros x [[[q1 q2] q3] q4] q' _ A. destruct x; cbn in A; try (injection A as <-; reflexivity). binv A. injection A as <-. reflexivity. }
  refine (eq_trans (key_stays_run kd eps res _ (fun q => fst (fst (fst q))) os _ w k i NC (start_wf1 cs) H NR St) _).
  rewrite sideKey_at. unfold ribbonAt. cbn. destruct k; reflexivity.
Qed.
Print Assumptions C37_never_set.

(** The number of sides: that of the last setCurves call, or the largest index
    set since plus one. *)
Theorem C37_count : forall kd eps res cs os1 l os2 k w,
  Forall (fun o => match o with OSetCurves k' _ => k' <> k | _ => True end) os2 ->
  wrun kd eps res (startWorld cs) (os1 ++ OSetCurves k l :: os2) = Some w ->
  exists n, sideCount w k = Some n /\ (length l <= n)%nat /\ (forall i c, In (OSetCurve k i c) os2 -> (i < n)%nat) /\
    (n = length l \/ exists i c, In (OSetCurve k i c) os2 /\ n = (i + 1)%nat).
Proof.
  intros kd eps res cs os1 l os2 k w F H. destruct (run_split _ _ _ _ _ _ _ _ H) as (w1 & w2 & A & B & C).
  assert (W1 := run_wf kd eps res _ _ _ (wf_0 _ (start_wf1 cs)) A). assert (W2 := step_wf kd eps res _ _ _ W1 B).
  assert (N2 : sideCount w2 k = Some (length l)).
  { cbn in B. destruct (setCurves_spec _ _ _ _ B) as (s & s' & d & d' & _ & _ & _ & _ & N & _ & _ & _ & Sn & _). unfold sideCount. rewrite N, Nat.eqb_refl. cbn. rewrite Sn; reflexivity. }
  rewrite (run_count kd eps res os2 w2 w k _ W2 C N2), N2. apply count_bounds. exact F.
Qed.
Print Assumptions C37_count.

(** setupLoop can be called exactly when no side is missing (or null), also
    on copies. *)
Theorem C37_setup_defined : forall w k n, sideCount w k = Some n ->
  (setupLoop w k <> None <-> forall i, (i < n)%nat -> sideCurve w k i <> None).
Proof.
  intros w k n Hn. unfold sideCount in Hn. binv Hn. injection Hn as <-. rewrite (loop_defined w k x E).
  split; intros H i Hi; apply (sideCurve_present w k x i E), H, Hi.
Qed.
Print Assumptions C37_setup_defined.

Example C37_example : forall kd eps res cs, exists w,
  wrun kd eps res (startWorld cs) [ONew; OSetCurves 0 [0; 1]%nat; OSetCurve 0 4 2%nat; ONew; OSetCurve 0 1 3%nat] = Some w /\
  sideCount w 0 = Some 5%nat /\ domainCount w 0 = Some 5%nat /\ map (domainObj w 0) (seq 0 6) = [Some 0; Some 3; None; None; Some 2; None]%nat /\
  setupLoop w 0 = None.
Proof. intros kd eps res cs. eexists. split; [lazy; reflexivity|]. do 3 (split; [reflexivity|]).
  match goal with |- setupLoop ?w 0 = None => destruct (setupLoop w 0) as [w'|] eqn:E; [exfalso|reflexivity];
    apply (proj1 (C37_setup_defined w 0 5 eq_refl)) with (i := 2%nat); [rewrite E; discriminate|lia|reflexivity] end.
Qed.

(** ** C38: update(i) and update() *)

(** After a full update and any settings of side [i] (or of the blending), the
    update of side [i] does what the full update does: either both fail or the
    resulting states are equal. *)
Theorem C38_local : forall kd eps res cs os xs k i n w,
  Forall (fun o => (exists x, o = OSet k i x) \/ (exists k' b, o = OGamma k' b)) xs ->
  wrun kd eps res (startWorld cs) (os ++ OUpdate k :: xs) = Some w -> sideCount w k = Some n -> (i < n)%nat ->
  updateSide kd eps res w k i = updateAll kd eps res w k.
Proof.
  intros kd eps res cs os xs k i n w F H Hn Hi. destruct (run_split _ _ _ _ _ _ _ _ H) as (w1 & w2 & A & B & C).
  assert (W1 := run_wf kd eps res _ _ _ (wf_0 _ (start_wf1 cs)) A). assert (W2 := step_wf kd eps res _ _ _ W1 B). cbn in B.
  destruct (fresh_update kd eps res w1 k w2 i W1 B) as [Fr _]. clear A B H W1.
  assert (G : wf w /\ fresh kd eps res w k i).
  { revert w2 W2 Fr C. induction xs as [|o xs IH]; intros w2 W2 Fr C; unfold wrun in C; cbn [foldM] in C; [injection C as <-; auto|]. binv C. inversion F; subst.
    apply (IH H2 x); [eapply step_wf; eassumption| |exact C]. destruct H1 as [(y & ->)|(k' & b & ->)]; [eapply fresh_set; [exact W2|exact Fr|exact E]|eapply fresh_gamma; [exact Fr|exact E]]. }
  destruct G as [W Fw]. eapply side_is_all; eassumption.
Qed.
Print Assumptions C38_local.

(** A session that sets a side and updates this side, repeatedly: the state is
    always what a full update would give. *)
Theorem C38_session : forall kd eps res cs os k (edits : list (nat * list setting)) w,
  wrun kd eps res (startWorld cs) (os ++ OUpdate k :: flat_map (fun e => map (OSet k (fst e)) (snd e) ++ [OUpdateSide k (fst e)]) edits) = Some w ->
  updateAll kd eps res w k = Some w.
Proof.
  intros kd eps res cs os k edits w H. destruct (run_split _ _ _ _ _ _ _ _ H) as (w1 & w2 & A & B & C).
  assert (W1 := run_wf kd eps res _ _ _ (wf_0 _ (start_wf1 cs)) A). assert (W2 := step_wf kd eps res _ _ _ W1 B). cbn in B.
  assert (U := update_again kd eps res w1 k w2 W1 B). clear A B H W1 w1. revert w2 W2 U C.
  induction edits as [|[i xs] edits IH]; intros w2 W2 U C; [unfold wrun in C; cbn in C; injection C as <-; exact U|].
  cbn [flat_map fst snd] in C. rewrite <- app_assoc in C. cbn [app] in C. destruct (run_split _ _ _ _ _ _ _ _ C) as (u1 & u2 & A & B & D).
  assert (Wu := run_wf kd eps res _ _ _ W2 A). assert (Wu2 := step_wf kd eps res _ _ _ Wu B). cbn in B.
  assert (Fr : fresh kd eps res u1 k i).
  { destruct (fresh_update kd eps res w2 k w2 i W2 U) as [Fr _]. clear - A W2 Fr. revert w2 W2 Fr A. induction xs as [|x xs IH]; intros w2 W2 Fr A; unfold wrun in A; cbn [map foldM] in A; [injection A as <-; exact Fr|].
    binv A. apply (IH x0); [eapply step_wf; eassumption|eapply fresh_set; [exact W2|exact Fr|exact E]|exact A]. }
  assert (Hn : exists n, sideCount u1 k = Some n /\ (i < n)%nat).
  { assert (B' := B). unfold updateSide in B'. do 3 binv B'. exists (so_n x). unfold sideCount. rewrite E. cbn. split; [reflexivity|].
    rewrite <- (wf_n u1 Wu k x E). eapply nth_lt. apply sideRib_In. exact E1. }
  destruct Hn as (n & Hn & Hi). rewrite (side_is_all kd eps res u1 k i n Wu Hn Hi Fr) in B. apply (IH u2 Wu2); [eapply update_again; [exact Wu|exact B]|exact D].
Qed.
Print Assumptions C38_session.

Theorem C38_idempotent : forall kd eps res cs os k w w', wrun kd eps res (startWorld cs) os = Some w ->
  updateAll kd eps res w k = Some w' -> updateAll kd eps res w' k = Some w'.
Proof. intros kd eps res cs os k w w' H U. eapply update_again; [exact (run_wf kd eps res _ _ _ (wf_0 _ (start_wf1 cs)) H)|exact U]. Qed.
Print Assumptions C38_idempotent.

(** Before the first full update, the update of a side is an access out of
    range. *)
Theorem C38_first : forall kd eps res cs os k i w, noCopy os -> ~ In (OUpdate k) os -> wrun kd eps res (startWorld cs) os = Some w ->
  updateSide kd eps res w k i = None.
Proof.
  intros kd eps res cs os k i w NC NU H. apply noCorners_side.
  apply (run_inv kd eps res (noCorners k) os (startWorld cs) w NC (start_wf1 cs) H); [intros s Hs; cbn in Hs; destruct k; discriminate|].
  intros o w1 w2 I W1 E Q. rewrite Forall_forall in NC. eapply (step_noCorners kd eps res k w1 o w2); [apply NC; exact I|intros ->; contradiction|exact (wf_0 _ W1)|exact E|exact Q].
Qed.
Print Assumptions C38_first.

(** After a new curve, and before setupLoop, neither update works: the new ribbon
    has no neighbours, and the neighbours have lost theirs. *)
Theorem C38_new_curve : forall kd eps res cs os k i c w, wrun kd eps res (startWorld cs) (os ++ [OSetCurve k i c]) = Some w ->
  updateSide kd eps res w k i = None /\ updateAll kd eps res w k = None.
Proof.
  intros kd eps res cs os k i c w H. destruct (run_split _ _ _ _ _ _ _ _ H) as (w1 & w2 & A & B & C). unfold wrun in C; cbn in C. injection C as <-.
  apply (new_curve_none kd eps res w1 k i c w2); [exact (run_wf kd eps res _ _ _ (wf_0 _ (start_wf1 cs)) A)|exact B].
Qed.
Print Assumptions C38_new_curve.
Theorem C38_new_curve_neighbours : forall kd eps res cs os1 os2 k n i c w0 w, noCopy (os1 ++ OSetupLoop k :: os2) -> 
  (forall o i, In o os2 -> ~ replaces k i o) -> wrun kd eps res (startWorld cs) (os1 ++ OSetupLoop k :: os2) = Some w0 ->
  sideCount w0 k = Some n -> (i < n)%nat -> setCurve w0 k i c = Some w ->
  updateSide kd eps res w k (prv n i) = None /\ updateSide kd eps res w k (nxt n i) = None.
Proof.
  intros kd eps res cs os1 os2 k n i c w0 w NC NR H Hn Hi E. destruct (run_split _ _ _ _ _ _ _ _ H) as (w1 & w2 & A & B & C).
  destruct (noCopy_tail _ _ _ NC) as (N1 & No & N2). assert (W1 := run_wf1 kd eps res _ _ _ N1 (start_wf1 cs) A). assert (W2 := step_wf1 kd eps res _ _ _ No W1 B). cbn in B.
  assert (W0 := run_wf1 kd eps res _ _ _ N2 W2 C).
  destruct (sideCount w1 k) as [n1|] eqn:Hn1.
  2:{ unfold setupLoop in B. unfold sideCount in Hn1. destruct (nth_error (w_surfs w1) k); discriminate. }
  assert (Hn2 : sideCount w2 k = Some n1). { unfold sideCount in *. rewrite (setupLoop_surfs _ _ _ B). exact Hn1. }
  destruct (linked_run kd eps res os2 w2 w0 k n1 N2 W2 C NR Hn2 (setupLoop_linked _ _ _ _ (wf_0 _ W1) Hn1 B)) as [L Hn3]. assert (n1 = n) by congruence. subst n1.
  apply (neighbours_none kd eps res w0 k n i c w W0 Hn Hi); [|exact L|exact E].
  intros j Hj. unfold sideCount in Hn. binv Hn. injection Hn as En. destruct (L j x Hj E0) as (o & Ho & _). unfold sideObj. rewrite Ho. discriminate.
Qed.
Print Assumptions C38_new_curve_neighbours.

(** With setupLoop the update of the side alone can work, but then the ribbon
    after it still has the end tangent of the old curve. *)
Theorem C38_stale : forall kd eps res cs os1 os2 k n i c w1 w4 cold cnew, noCopy (os1 ++ OSetupLoop k :: os2) ->
  (forall o i, In o os2 -> ~ replaces k i o) ->
  wrun kd eps res (startWorld cs) (os1 ++ OSetupLoop k :: os2 ++ [OUpdate k]) = Some w1 -> sideCount w1 k = Some n -> (2 <= n)%nat -> (i < n)%nat ->
  wrun kd eps res w1 [OSetCurve k i c; OSetupLoop k; OUpdateSide k i] = Some w4 ->
  sideCurve w1 k i = Some cold -> sideCurve w4 k i = Some cnew -> cder cold 1 <> cder cnew 1 ->
  updateAll kd eps res w4 k <> Some w4.
Proof.
  intros kd eps res cs os1 os2 k n i c w1 w4 cold cnew NC NR H Hn Hn2 Hi R Co Cn Df. destruct (run_split _ _ _ _ _ _ _ _ H) as (u1 & u2 & A & B & C).
  destruct (noCopy_tail _ _ _ NC) as (N1 & No & N2). assert (W1 := run_wf1 kd eps res _ _ _ N1 (start_wf1 cs) A). assert (W2 := step_wf1 kd eps res _ _ _ No W1 B). cbn in B.
  destruct (run_app _ _ _ _ _ _ _ C) as (u3 & C1 & C2). unfold wrun in C2. cbn [foldM] in C2. binv C2. injection C2 as <-. cbn in E.
  assert (W3 := run_wf1 kd eps res _ _ _ N2 W2 C1).
  destruct (sideCount u1 k) as [n1|] eqn:Hn1.
  2:{ unfold setupLoop in B. unfold sideCount in Hn1. destruct (nth_error (w_surfs u1) k); discriminate. }
  assert (Hu2 : sideCount u2 k = Some n1). { unfold sideCount in *. rewrite (setupLoop_surfs _ _ _ B). exact Hn1. }
  destruct (linked_run kd eps res os2 u2 u3 k n1 N2 W2 C1 NR Hu2 (setupLoop_linked _ _ _ _ (wf_0 _ W1) Hn1 B)) as [L Hn3].
  assert (Hn4 : sideCount x k = sideCount u3 k). { rewrite !count_key. destruct (updateAll_keeps kd eps res _ _ _ E) as (_ & K & _). rewrite K. reflexivity. }
  assert (n1 = n) by congruence. subst n1.
  unfold wrun in R. cbn [foldM] in R. binv R. binv R. binv R. injection R as <-. cbn in E0, E1, E2.
  eapply (stale kd eps res u3 x x0 x1 x2 k n i c cold cnew Hn2 Hi (wf_0 _ W3) Hn3 L); eassumption.
Qed.
Print Assumptions C38_stale.

(** When all this is defined: after setupLoop, on curves that have no singular
    points and meet at angles. *)
Theorem C38_defined : forall kd eps res cs os1 os2 k n w, 0 < eps -> (1 <= res)%nat -> noCopy (os1 ++ OSetupLoop k :: os2) ->
  (forall o i, In o os2 -> ~ replaces k i o) -> wrun kd eps res (startWorld cs) (os1 ++ OSetupLoop k :: os2) = Some w ->
  sideCount w k = Some n -> properLoop eps res w k n -> (kd = RKHandler -> forall i, (i < n)%nat -> ribbonHandler w k i <> Some None) ->
  exists w', updateAll kd eps res w k = Some w'.
Proof.
  intros kd eps res cs os1 os2 k n w Hp Hr NC NR H Hn PL Hh. destruct (run_split _ _ _ _ _ _ _ _ H) as (u1 & u2 & A & B & C).
  destruct (noCopy_tail _ _ _ NC) as (N1 & No & N2). assert (W1 := run_wf1 kd eps res _ _ _ N1 (start_wf1 cs) A). assert (W2 := step_wf1 kd eps res _ _ _ No W1 B). cbn in B.
  assert (W := run_wf1 kd eps res _ _ _ N2 W2 C).
  destruct (sideCount u1 k) as [n1|] eqn:Hn1.
  2:{ unfold setupLoop in B. unfold sideCount in Hn1. destruct (nth_error (w_surfs u1) k); discriminate. }
  assert (Hu2 : sideCount u2 k = Some n1). { unfold sideCount in *. rewrite (setupLoop_surfs _ _ _ B). exact Hn1. }
  destruct (linked_run kd eps res os2 u2 w k n1 N2 W2 C NR Hu2 (setupLoop_linked _ _ _ _ (wf_0 _ W1) Hn1 B)) as [L Hn3]. assert (n1 = n) by congruence. subst n1.
  destruct (update_defined kd eps res Hp Hr w k n (wf_0 _ W) Hn L PL Hh) as (w' & E & _). exists w'. exact E.
Qed.
Print Assumptions C38_defined.

(** The unit square again, with one more curve object: the first side from
    corner 0 to corner 1, slowing down towards the end. *)
Definition slow : curve :=
  mkCurve (fun u => sq 0 *v (1 - u * (3 - u) / 2) +v sq 1 *v (u * (3 - u) / 2)) (fun u => (sq 1 -v sq 0) *v ((3 - 2 * u) / 2))
    (fun a b => (b * (3 - b) / 2 - a * (3 - a) / 2)).
Definition slowCurves : list curve := sqCurves ++ [slow].
Definition slowWorld : world := mkWorld slowCurves (map newRibbon [0; 1; 2; 3]%nat) [mkDob (map Some [0; 1; 2; 3]%nat) None]
  [mkSob 4 true 0%nat (map Some [0; 1; 2; 3]%nat) []].
Definition unitSide (c : curve) (p q : V3) : Prop := c = segment p q \/ c = reverseCurve (segment q p).
Lemma unitSide_facts : forall c p q, vdot (q -v p) (q -v p) = 1 -> unitSide c p q ->
  (forall u, cder c u = q -v p) /\ runs 0 c p q /\ forall eps res, eps <= 1 -> (1 <= res)%nat -> proper eps res c.
Proof.
  intros c p q N [-> | ->].
  - split; [reflexivity|]. split; [apply runs_segment|]. intros eps res He Hr. split; [|split].
    + intros u _ Z. cbn in Z. rewrite Z in N. unfold vdot, vzero in N; simpl in N. lra.
    + intros a b Hab _. cbn. unfold vnorm. rewrite N, sqrt_1. lra.
    + exists res. split; [lia|]. unfold Rdiv. rewrite Rinv_r by (apply not_0_INR; lia). cbn [segment cpt].
      replace (p *v (1 - 1) +v q *v 1 -v (p *v (1 - 0) +v q *v 0)) with (q -v p) by v3ring. lra.
  - assert (N' : vdot (p -v q) (p -v q) = 1) by (rewrite <- N; unfold vdot, vsub; simpl; ring).
    split; [intros u; cbn; unfold vopp, vsub; simpl; f_equal; ring|]. split; [apply runs_reverse, runs_segment|]. intros eps res He Hr. split; [|split].
    + intros u _ Z. cbn in Z. assert (Q : p -v q = vzero) by (destruct p, q; unfold vopp, vsub, vzero in *; simpl in *; injection Z; intros; f_equal; lra).
      rewrite Q in N'. unfold vdot, vzero in N'; simpl in N'. lra.
    + intros a b Hab _. cbn. unfold vnorm. rewrite N', sqrt_1. lra.
    + exists res. split; [lia|]. unfold Rdiv. rewrite Rinv_r by (apply not_0_INR; lia). cbn [segment cpt reverseCurve].
      replace (q *v (1 - (1 - 1)) +v p *v (1 - 1) -v (q *v (1 - (1 - 0)) +v p *v (1 - 0))) with (q -v p) by v3ring. lra.
Qed.
Lemma runs_same : forall c c' p q, p <> q -> runs 0 c p q -> c' = c \/ c' = reverseCurve c -> runs 0 c' p q -> c' = c.
Proof.
  intros c c' p q N [R0 R1] [-> | ->] [X0 X1]; [reflexivity|]. exfalso. apply N. apply close_zero in R0. apply close_zero in X1. cbn in X1. replace (1 - 1) with 0 in X1 by ring. congruence.
Qed.
Lemma sq_distinct : forall i, (i < 4)%nat -> sq (prv 4 i) <> sq i /\ vdot (sq i -v sq (prv 4 i)) (sq i -v sq (prv 4 i)) = 1 /\
  vcross (sq i -v sq (prv 4 i)) (sq (nxt 4 i) -v sq i) = mkV3 0 0 1.
Proof.
  intros i Hi. destruct i as [|[|[|[|i]]]]; [| | | |lia]; (split; [intros E; injection E; intros; lra|split; [unfold vdot, vsub; simpl; ring|unfold vcross, vsub; simpl; f_equal; ring]]).
Qed.
Lemma sq_far : (forall i, (i < 4)%nat -> 4 * 0 < vnorm (sq (prv 4 i) -v sq i)) /\ 4 * 0 < vnorm (sq (4 - 1)%nat -v sq 1%nat).
Proof.
  split; [intros i Hi; destruct (sq_distinct i Hi) as [N _]|assert (N : sq (4 - 1)%nat <> sq 1%nat) by (intros E; injection E; intros; lra)];
  pose proof (vdist_pos _ _ N) as G; unfold vdist in G; lra.
Qed.
Lemma slow_side : forall i, (i < 4)%nat -> sideObj slowWorld 0 i = Some i.
Proof. intros i Hi. destruct i as [|[|[|[|i]]]]; [reflexivity..|lia]. Qed.
Lemma slow_loop : exists w1, setupLoop slowWorld 0 = Some w1 /\ (forall k i, sideObj w1 k i = sideObj slowWorld k i) /\ nth_error (w_curves w1) 4%nat = Some slow /\
  forall i, (i < 4)%nat -> exists c, sideCurve w1 0 i = Some c /\ unitSide c (sq (prv 4 i)) (sq i).
Proof.
  assert (Cn : connects 0 slowWorld 0 4 sq).
  { split; [reflexivity|]. split.
    - intros i Hi. unfold sideCurve. rewrite slow_side by exact Hi. cbn [bind slowWorld w_curves].
      destruct i as [|[|[|[|i]]]]; [| | | |lia]; (eexists; split; [reflexivity|]); [left|right|left|right]; apply runs_segment.
    - intros i j Hi Hj. rewrite !slow_side by assumption. congruence. }
  destruct (C35_orients 0 slowWorld 0 4 sq ltac:(lia) Cn (proj1 sq_far) (proj2 sq_far)) as (w1 & E1 & O1 & _ & _ & A1 & B1 & S1).
  exists w1. split; [exact E1|]. split; [exact S1|]. split.
  { rewrite B1; [reflexivity|]. intros i Hi. rewrite slow_side by exact Hi. intros Q. injection Q. lia. }
  intros i Hi. destruct (O1 i Hi) as (c & Ec & Rc). exists c. split; [exact Ec|]. destruct (sq_distinct i Hi) as [N _].
  assert (Q : forall c0, sideCurve slowWorld 0 i = Some c0 -> c = c0 \/ c = reverseCurve c0). { intros c0 H0. destruct (A1 i c0 Hi H0) as (c' & Ec' & D). assert (c' = c) by congruence. subst c'. exact D. }
  unfold sideCurve in Q. rewrite slow_side in Q by exact Hi. cbn [bind slowWorld w_curves] in Q.
  destruct i as [|[|[|[|i]]]]; [| | | |lia]; specialize (Q _ eq_refl).
  - left. apply (runs_same _ _ (sq 3) (sq 0) N (runs_segment _ _) Q Rc).
  - right. destruct Q as [-> | ->]; [|reflexivity]. exfalso. destruct Rc as [Q _]. apply close_zero in Q. destruct (runs_segment (sq 1) (sq 0)) as [Q' _]. apply close_zero in Q'. rewrite Q' in Q. apply N. symmetry. exact Q.
  - left. apply (runs_same _ _ (sq 1) (sq 2) N (runs_segment _ _) Q Rc).
  - right. destruct Q as [-> | ->]; [|reflexivity]. exfalso. destruct Rc as [Q _]. apply close_zero in Q. destruct (runs_segment (sq 3) (sq 2)) as [Q' _]. apply close_zero in Q'. rewrite Q' in Q. apply N. symmetry. exact Q.
Qed.
Lemma slow_facts : (forall u, 0 <= u <= 1 -> cder slow u = (sq 1 -v sq 0) *v ((3 - 2 * u) / 2)) /\ runs 0 slow (sq 0) (sq 1) /\
  forall eps res, eps <= 1 -> (1 <= res)%nat -> proper eps res slow.
Proof.
  split; [reflexivity|]. split.
  - unfold runs, close. cbn [slow cpt]. replace (sq 0 *v (1 - 0 * (3 - 0) / 2) +v sq 1 *v (0 * (3 - 0) / 2) -v sq 0) with vzero by (apply V3_ext; simpl; field).
    replace (sq 0 *v (1 - 1 * (3 - 1) / 2) +v sq 1 *v (1 * (3 - 1) / 2) -v sq 1) with vzero by (apply V3_ext; simpl; field).
    replace (vnorm vzero) with 0; [split; apply Rle_refl|]. unfold vnorm, vdot, vzero; simpl. replace (0 * 0 + 0 * 0 + 0 * 0) with 0 by ring. symmetry; apply sqrt_0.
  - intros eps res He Hr. split; [|split].
    + intros u Hu Z. cbn in Z. unfold vscale, vsub, vzero in Z. simpl in Z. injection Z. intros. lra.
    + intros a b Hab Hb. cbn. nra.
    + exists res. split; [lia|]. unfold Rdiv at 1 2. rewrite Rinv_r by (apply not_0_INR; lia). cbn [slow cpt sq]. unfold vdot, vsub, vadd, vscale; simpl. lra.
Qed.

(** A setting followed by the update of its side. *)
Example C38_example : forall kd eps res, 0 < eps <= 1 -> (1 <= res)%nat -> kd <> RKHandler -> exists w,
  wrun kd eps res (startWorld slowCurves) [ONew; OSetCurves 0 [0; 1; 2; 3]%nat; OSetupLoop 0; OUpdate 0; OSet 0 1 (SMult 2); OUpdateSide 0 1] = Some w /\
  updateAll kd eps res w 0 = Some w /\ ribbonMultiplier w 0 1 = Some 2.
Proof.
  intros kd eps res He Hr Hk. assert (R0 : wrun kd eps res (startWorld slowCurves) [ONew; OSetCurves 0 [0; 1; 2; 3]%nat] = Some slowWorld) by (lazy; reflexivity).
  destruct slow_loop as (w1 & E1 & S1 & _ & C1).
  assert (PL : forall w, (forall i, sideCurve w 0 i = sideCurve w1 0 i) -> properLoop eps res w 0 4).
  { intros w Q i Hi. destruct (C1 i Hi) as (c & Ec & U). destruct (C1 (nxt 4 i) ltac:(apply nxt_lt; lia)) as (c' & Ec' & U'). rewrite prv_nxt in U' by lia. exists c, c'. rewrite !Q.
    split; [exact Ec|]. split; [exact Ec'|]. destruct (sq_distinct i Hi) as (_ & N & X). destruct (sq_distinct (nxt 4 i) ltac:(apply nxt_lt; lia)) as (_ & N' & _). rewrite prv_nxt in N' by lia.
    destruct (unitSide_facts c _ _ N U) as (D & _ & P). destruct (unitSide_facts c' _ _ N' U') as (D' & _ & _). split; [apply P; [lra|exact Hr]|].
    rewrite D, D', X. unfold vzero. intros Q'. injection Q'. lra. }
  assert (R1 : wrun kd eps res (startWorld slowCurves) ([ONew; OSetCurves 0 [0; 1; 2; 3]%nat] ++ OSetupLoop 0 :: []) = Some w1).
  { unfold wrun in *. rewrite foldM_app, R0. cbn [bind foldM wstep]. rewrite E1. reflexivity. }
  assert (Cn : sideCount w1 0 = Some 4%nat) by (unfold sideCount; rewrite (setupLoop_surfs _ _ _ E1); reflexivity).
  assert (W0 := run_wf kd eps res _ _ _ (wf_0 _ (start_wf1 slowCurves)) R0). assert (W1 := run_wf kd eps res _ _ _ (wf_0 _ (start_wf1 slowCurves)) R1).
  destruct (update_defined kd eps res (proj1 He) Hr w1 0 4 W1 Cn (setupLoop_linked slowWorld 0 4 w1 W0 eq_refl E1) (PL w1 (fun _ => eq_refl)) (fun Q => False_ind _ (Hk Q))) as (w2 & E2 & C2 & _).
  assert (K2 := updateAll_keeps kd eps res _ _ _ E2).
  assert (SK : sideKey w2 0 1 = sideKey slowWorld 0 1).
  { rewrite (keeps_sideKey _ _ _ _ K2). apply keeps_sideKey. eapply setupLoop_keeps; exact E1. }
  assert (E3 : exists w3, setRibbon w2 0 1 (SMult 2) = Some w3).
  { rewrite sideKey_at in SK. unfold setRibbon. unfold ribbonAt in SK. destruct (nth_error (w_surfs w2) 0) as [s|] eqn:Es; [|discriminate]. cbn [bind] in *.
    destruct (sideRib s 1) as [r|] eqn:Er; [|discriminate]. cbn [bind] in *. destruct (nth_error (w_ribs w2) r) as [o|] eqn:Eo; [|discriminate]. cbn [bind applySetting]. unfold setRib.
    match goal with |- context [upd ?a ?b ?e] => destruct (upd_some _ a b e (nth_lt _ _ _ _ Eo)) as [y Ey] end. rewrite Ey. eexists; reflexivity. }
  destruct E3 as [w3 E3].
  set (os := [OUpdate 0; OSet 0 1 (SMult 2)]).
  assert (R3 : wrun kd eps res (startWorld slowCurves) ([ONew; OSetCurves 0 [0; 1; 2; 3]%nat] ++ OSetupLoop 0 :: os) = Some w3).
  { unfold wrun in *. rewrite foldM_app, R0. cbn [bind foldM wstep os]. rewrite E1. cbn [bind]. rewrite E2. cbn [bind]. rewrite E3. reflexivity. }
  assert (Cn2 : sideCount w2 0 = Some 4%nat) by (rewrite count_key in *; destruct K2 as (_ & Q & _); rewrite Q; exact Cn).
  assert (St := step_setting kd eps res w2 0 1 (SMult 2) w3 E3). destruct (set_cases _ _ _ _ _ E3) as (s & r & o & o' & Hs & Hr' & Ho & Ha & C3 & _ & K3 & _ & N3).
  assert (Cn3 : sideCount w3 0 = Some 4%nat) by (unfold sideCount in *; rewrite K3; exact Cn2).
  assert (SO : forall i, sideObj w3 0 i = sideObj w1 0 i).
  { intros i. transitivity (sideObj w2 0 i); [|rewrite !sideObj_key, (keeps_sideKey _ _ _ _ K2); reflexivity]. unfold sideObj, ribbonAt. rewrite K3, Hs. cbn [bind]. destruct (sideRib s i) as [q|]; [|reflexivity]. cbn [bind].
    rewrite N3. destruct (Nat.eqb_spec q r) as [-> | ]; [|reflexivity]. rewrite Ho. cbn in Ha |- *. injection Ha as <-. reflexivity. }
  destruct (C38_defined kd eps res slowCurves [ONew; OSetCurves 0 [0; 1; 2; 3]%nat] os 0 4 w3 (proj1 He) Hr) as [w4 E4].
  - repeat constructor; intros X; destruct X.
  - intros x i [<- | [<- | []]] X; destruct X.
  - exact R3.
  - exact Cn3.
  - apply PL. intros i. unfold sideCurve. rewrite SO, C3, C2. reflexivity.
  - intros Q. destruct (Hk Q).
  - assert (E5 : updateSide kd eps res w3 0 1 = Some w4).
    { rewrite <- E4. apply (C38_local kd eps res slowCurves [ONew; OSetCurves 0 [0; 1; 2; 3]%nat; OSetupLoop 0] [OSet 0 1 (SMult 2)] 0 1 4); [|exact R3|exact Cn3|lia].
      apply Forall_cons; [left; eexists; reflexivity|apply Forall_nil]. }
    assert (R4 : wrun kd eps res (startWorld slowCurves) ([ONew; OSetCurves 0 [0; 1; 2; 3]%nat; OSetupLoop 0; OUpdate 0] ++ OSet 0 1 (SMult 2) :: [OUpdateSide 0 1]) = Some w4).
    { cbn [app] in *. unfold wrun in *. unfold os in R3. change ([ONew; OSetCurves 0 [0; 1; 2; 3]%nat; OSetupLoop 0; OUpdate 0; OSet 0 1 (SMult 2); OUpdateSide 0 1])
        with ([ONew; OSetCurves 0 [0; 1; 2; 3]%nat; OSetupLoop 0; OUpdate 0; OSet 0 1 (SMult 2)] ++ [OUpdateSide 0 1]). rewrite foldM_app. rewrite R3. cbn [bind foldM wstep]. rewrite E5. reflexivity. }
    exists w4. split; [exact R4|]. split.
    + apply (C38_idempotent kd eps res slowCurves _ 0 w3 w4 R3 E4).
    + apply (C34_multiplier kd eps res slowCurves _ _ 0 1 2 w4) in R4; [exact R4|repeat constructor; intros X; destruct X| |];
        repeat constructor; intros X; destruct X.
Qed.

(** Replacing a curve, with setupLoop but only the update of its side. *)
Example C38_stale_example : forall kd eps res, 0 < eps <= 1 -> (1 <= res)%nat -> kd <> RKHandler -> exists w1 w4,
  wrun kd eps res (startWorld slowCurves) [ONew; OSetCurves 0 [0; 1; 2; 3]%nat; OSetupLoop 0; OUpdate 0] = Some w1 /\
  wrun kd eps res w1 [OSetCurve 0 1 4%nat; OSetupLoop 0; OUpdateSide 0 1] = Some w4 /\ updateAll kd eps res w4 0 <> Some w4.
Proof.
  intros kd eps res He Hr Hk. assert (R0 : wrun kd eps res (startWorld slowCurves) [ONew; OSetCurves 0 [0; 1; 2; 3]%nat] = Some slowWorld) by (lazy; reflexivity).
  destruct slow_loop as (w1 & E1 & S1 & Sl & C1).
  assert (PL : properLoop eps res w1 0 4).
  { intros i Hi. destruct (C1 i Hi) as (c & Ec & U). destruct (C1 (nxt 4 i) ltac:(apply nxt_lt; lia)) as (c' & Ec' & U'). rewrite prv_nxt in U' by lia. exists c, c'.
    split; [exact Ec|]. split; [exact Ec'|]. destruct (sq_distinct i Hi) as (_ & N & X). destruct (sq_distinct (nxt 4 i) ltac:(apply nxt_lt; lia)) as (_ & N' & _). rewrite prv_nxt in N' by lia.
    destruct (unitSide_facts c _ _ N U) as (D & _ & P). destruct (unitSide_facts c' _ _ N' U') as (D' & _ & _). split; [apply P; [lra|exact Hr]|].
    rewrite D, D', X. unfold vzero. intros Q'. injection Q'. lra. }
  assert (R1 : wrun kd eps res (startWorld slowCurves) ([ONew; OSetCurves 0 [0; 1; 2; 3]%nat] ++ [OSetupLoop 0]) = Some w1).
  { unfold wrun in *. rewrite foldM_app, R0. cbn [bind foldM wstep]. rewrite E1. reflexivity. }
  assert (Cn : sideCount w1 0 = Some 4%nat) by (unfold sideCount; rewrite (setupLoop_surfs _ _ _ E1); reflexivity).
  assert (W0 := run_wf kd eps res _ _ _ (wf_0 _ (start_wf1 slowCurves)) R0). assert (W1 := run_wf kd eps res _ _ _ (wf_0 _ (start_wf1 slowCurves)) R1).
  destruct (update_defined kd eps res (proj1 He) Hr w1 0 4 W1 Cn (setupLoop_linked slowWorld 0 4 w1 W0 eq_refl E1) PL (fun Q => False_ind _ (Hk Q))) as (w2 & E2 & C2 & (s & Hs & Lc) & X2).
  assert (R2 : wrun kd eps res (startWorld slowCurves) [ONew; OSetCurves 0 [0; 1; 2; 3]%nat; OSetupLoop 0; OUpdate 0] = Some w2).
  { change [ONew; OSetCurves 0 [0; 1; 2; 3]%nat; OSetupLoop 0; OUpdate 0] with (([ONew; OSetCurves 0 [0; 1; 2; 3]%nat] ++ [OSetupLoop 0]) ++ [OUpdate 0]). unfold wrun in *. rewrite foldM_app, R1.
    cbn [bind foldM wstep]. rewrite E2. reflexivity. }
  assert (W2 : wf1 w2) by (eapply run_wf1; [|apply (start_wf1 slowCurves)|exact R2]; repeat constructor; intros Z; destruct Z).
  assert (K2 := updateAll_keeps kd eps res _ _ _ E2).
  assert (Cn2 : sideCount w2 0 = Some 4%nat) by (rewrite count_key in *; destruct K2 as (_ & Q & _); rewrite Q; exact Cn).
  assert (Sn : so_n s = 4%nat) by (unfold sideCount in Cn2; rewrite Hs in Cn2; cbn in Cn2; congruence).
  assert (SO2 : forall i, (i < 4)%nat -> sideObj w2 0 i = Some i).
  { intros i Hi. rewrite sideObj_key, (keeps_sideKey _ _ _ _ K2), <- sideObj_key, S1. apply slow_side. exact Hi. }
  (* the new curve *)
  destruct (setCurve_some w2 0 1 4%nat (wf_0 _ W2) (nth_lt _ _ _ _ Hs)) as [w3 E3].
  assert (K3 := fun i => step_key kd eps res w2 (OSetCurve 0 1 4%nat) w3 0 i (fun Z => Z) W2 E3).
  destruct (setCurve_spec _ _ _ _ _ (wf_0 _ W2) E3) as (s' & s3 & d & d' & Hs' & _ & C3 & Rb3 & N3 & _ & _ & _ & En3 & _ & _ & Ec3 & G3 & _).
  assert (s' = s) by congruence. subst s'. assert (Hs3 : nth_error (w_surfs w3) 0 = Some s3) by (rewrite N3; reflexivity). rewrite Sn in En3. cbn in En3.
  assert (SO3 : forall i, (i < 4)%nat -> sideObj w3 0 i = Some (if (i =? 1)%nat then 4 else i)%nat).
  { intros i Hi. rewrite sideObj_key, K3. cbn [keyStep]. destruct i as [|[|[|[|i]]]]; [| | | |lia]; cbn [Nat.eqb andb]; try reflexivity; rewrite <- sideObj_key; apply SO2; lia. }
  assert (SC3 : forall i, (i < 4)%nat -> exists c, sideCurve w3 0 i = Some c /\ runs 0 c (sq (prv 4 i)) (sq i) /\ ((i <> 1%nat /\ unitSide c (sq (prv 4 i)) (sq i) /\ sideCurve w2 0 i = Some c) \/ (i = 1%nat /\ c = slow))).
  { intros i Hi. unfold sideCurve at 1. rewrite SO3 by exact Hi. cbn [bind]. rewrite C3, C2. destruct (Nat.eqb_spec i 1) as [-> | Ne].
    - exists slow. split; [exact Sl|]. split; [apply slow_facts|right; auto].
    - destruct (C1 i Hi) as (c & Ec & U). exists c. unfold sideCurve in Ec. rewrite S1, slow_side in Ec by exact Hi. cbn [bind] in Ec. split; [exact Ec|].
      destruct (sq_distinct i Hi) as (_ & N & _). destruct (unitSide_facts c _ _ N U) as (_ & Rn & _). split; [exact Rn|]. left. split; [exact Ne|]. split; [exact U|].
      unfold sideCurve. rewrite SO2 by exact Hi. cbn [bind]. rewrite C2. exact Ec. }
  assert (Cn3 : connects 0 w3 0 4 sq).
  { split; [unfold sideCount; rewrite Hs3; cbn; rewrite En3; reflexivity|]. split.
    - intros i Hi. destruct (SC3 i Hi) as (c & Ec & Rn & _). exists c. auto.
    - intros i j Hi Hj. rewrite !SO3 by assumption. destruct i as [|[|[|[|i]]]]; [| | | |lia]; (destruct j as [|[|[|[|j]]]]; [| | | |lia]); cbn; intros Q; try reflexivity; discriminate. }
  destruct (C35_orients 0 w3 0 4 sq ltac:(lia) Cn3 (proj1 sq_far) (proj2 sq_far)) as (w4 & E4 & O4 & _ & _ & A4 & B4 & S4).
  assert (W3 : wf w3) by (apply (step_wf kd eps res w2 (OSetCurve 0 1 4%nat)); [exact (wf_0 _ W2)|exact E3]).
  assert (W4 : wf w4) by (apply (step_wf kd eps res w3 (OSetupLoop 0)); assumption).
  assert (SC4 : forall i, (i < 4)%nat -> sideCurve w4 0 i = sideCurve w3 0 i).
  { intros i Hi. destruct (SC3 i Hi) as (c & Ec & Rn & _). rewrite Ec. destruct (O4 i Hi) as (c' & Ec' & Rn'). rewrite Ec'. apply (f_equal Some). destruct (A4 i c Hi Ec) as (c2 & Ec2 & D).
    assert (c2 = c') by congruence. subst c2. apply (runs_same c c' _ _ (proj1 (sq_distinct i Hi)) Rn D Rn'). }
  assert (Hs4 : nth_error (w_surfs w4) 0 = Some s3) by (rewrite (setupLoop_surfs _ _ _ E4); exact Hs3).
  assert (Dr : forall i, (i < 4)%nat -> exists c a b, sideCurve w4 0 i = Some c /\ 0 < a /\ 0 < b /\ cder c 0 = (sq i -v sq (prv 4 i)) *v a /\ cder c 1 = (sq i -v sq (prv 4 i)) *v b /\ proper eps res c).
  { intros i Hi. rewrite SC4 by exact Hi. destruct (SC3 i Hi) as (c & Ec & Rn & [(Ne & U & _)|(-> & ->)]).
    - destruct (sq_distinct i Hi) as (_ & N & _). destruct (unitSide_facts c _ _ N U) as (D & _ & P). exists c, 1, 1. rewrite !D. split; [exact Ec|]. split; [lra|]. split; [lra|].
      split; [v3ring|]. split; [v3ring|]. apply P; [lra|exact Hr].
    - exists slow, (3 / 2), (1 / 2). split; [exact Ec|]. split; [lra|]. split; [lra|]. split; [cbn [slow cder]; apply V3_ext; simpl; field|]. split; [cbn [slow cder]; apply V3_ext; simpl; field|].
      apply slow_facts; [lra|exact Hr]. }
  assert (PL4 : properLoop eps res w4 0 4).
  { intros i Hi. destruct (Dr i Hi) as (c & a & b & Ec & Ha & Hb & _ & D1 & P). destruct (Dr (nxt 4 i) ltac:(apply nxt_lt; lia)) as (c' & a' & b' & Ec' & Ha' & Hb' & D0 & _). rewrite prv_nxt in D0 by lia.
    exists c, c'. split; [exact Ec|]. split; [exact Ec'|]. split; [exact P|]. rewrite D1, D0. destruct (sq_distinct i Hi) as (_ & _ & X).
    assert (Xs : vcross ((sq i -v sq (prv 4 i)) *v b) ((sq (nxt 4 i) -v sq i) *v a') = vcross (sq i -v sq (prv 4 i)) (sq (nxt 4 i) -v sq i) *v (b * a')) by v3ring.
    rewrite Xs, X. unfold vscale, vzero; cbn. intros Q. injection Q. intros. nra. }
  destruct (side_defined kd eps res (proj1 He) Hr w4 0 1 4 s3 W4 Hs4 En3 ltac:(lia) ltac:(lia)) as [w5 E5].
  - rewrite Ec3, Lc. reflexivity.
  - apply (setupLoop_linked w3 0 4 w4 W3 (proj1 Cn3) E4).
  - exact PL4.
  - intros Q. destruct (Hk Q).
  - intros j u Hj Ne Hu. destruct (X2 j u Hj Hu) as [x Ex]. exists x. rewrite <- Ex. unfold sideCross. rewrite Hs, Hs4. cbn [bind].
    destruct G3 as [_ G3]. assert (Sr : sideRib s3 j = sideRib s j). { unfold sideRib. rewrite G3. destruct (Nat.eqb_spec j 1); [contradiction|reflexivity]. } rewrite Sr.
    unfold sideCross in Ex. rewrite Hs in Ex. cbn [bind] in Ex. destruct (sideRib s j) as [r|] eqn:Er; [|reflexivity]. cbn [bind] in *.
    destruct (setupLoop_ribs _ _ _ _ W3 Hs3 E4 j ltac:(lia)) as (r' & rp & rn & o & Hr' & _ & _ & Ho & Ho4). assert (r' = r) by congruence. subst r'.
    assert (Ho2 : nth_error (w_ribs w2) r = Some o). { rewrite Rb3, nth_error_app1 in Ho; [exact Ho|]. exact (wf_bound w2 (wf_0 _ W2) 0 s j r Hs Er). }
    unfold crossAt in *. rewrite Ho4, Ho2. cbn [bind withNeighbors ro_curve ro_data ro_fence].
    destruct (SC3 j Hj) as (c & Ec & _ & [(_ & _ & Ec2)|(Q & _)]); [|contradiction]. rewrite <- (SC4 j Hj) in Ec.
    assert (Z4 : nth_error (w_curves w4) (ro_curve o) = Some c).
    { unfold sideCurve, sideObj, ribbonAt in Ec. rewrite Hs4 in Ec. cbn [bind] in Ec. rewrite Sr in Ec. cbn [bind] in Ec. rewrite Ho4 in Ec. exact Ec. }
    assert (Z2 : nth_error (w_curves w2) (ro_curve o) = Some c).
    { unfold sideCurve, sideObj, ribbonAt in Ec2. rewrite Hs in Ec2. cbn [bind] in Ec2. rewrite Er in Ec2. cbn [bind] in Ec2. rewrite Ho2 in Ec2. exact Ec2. }
    rewrite Z4, Z2. reflexivity.
  - exists w2, w5. split; [exact R2|].
    assert (R5 : wrun kd eps res w2 [OSetCurve 0 1 4%nat; OSetupLoop 0; OUpdateSide 0 1] = Some w5).
    { unfold wrun. cbn [foldM wstep]. rewrite E3. cbn [bind]. rewrite E4. cbn [bind]. rewrite E5. reflexivity. }
    split; [exact R5|]. destruct (Dr 1%nat ltac:(lia)) as (c & a & b & Ec & _). destruct (SC3 1%nat ltac:(lia)) as (c3 & Ec3' & _ & [(Q & _)|(_ & ->)]); [contradiction|].
    assert (U5 := updateSide_keeps kd eps res _ _ _ _ E5). destruct (updateSide_ribs kd eps res _ _ _ _ E5) as (C5 & _).
    assert (Cw5 : sideCurve w5 0 1 = Some slow).
    { unfold sideCurve. rewrite C5. rewrite sideObj_key, (keeps_sideKey _ _ _ _ U5), <- sideObj_key. fold (sideCurve w4 0 1). rewrite SC4 by lia. exact Ec3'. }
    destruct (C1 1%nat ltac:(lia)) as (cold & Eo & Uo). assert (Eo2 : sideCurve w2 0 1 = Some cold). { unfold sideCurve in *. rewrite C2, SO2 by lia. rewrite S1, slow_side in Eo by lia. exact Eo. }
    apply (C38_stale kd eps res slowCurves [ONew; OSetCurves 0 [0; 1; 2; 3]%nat] [] 0 4 1 4%nat w2 w5 cold slow); try assumption; try lia.
    + repeat constructor; intros Z; destruct Z.
    + intros x i [].
    + destruct (sq_distinct 1 ltac:(lia)) as (_ & N & _). destruct (unitSide_facts cold _ _ N Uo) as (D & _). rewrite D. cbn [slow cder]. intros Q. apply (f_equal vx) in Q. cbn in Q. lra.
Qed.

(** ** C39: copies *)

(** As long as neither the original [k] nor its copy gets new curves, both have
    the same ribbon objects (settings, neighbours, and everything computed by
    updates) and the same domain, whatever is done to either of them. *)
Theorem C39_shared : forall kd eps res cs os1 os2 k w0 w1 w2, wrun kd eps res (startWorld cs) os1 = Some w0 -> copySurface w0 k = Some w1 ->
  (forall o i, In o os2 -> ~ replaces k i o /\ ~ replaces (length (w_surfs w0)) i o) -> wrun kd eps res w1 os2 = Some w2 ->
  forall i, ribbonAt w2 k i = ribbonAt w2 (length (w_surfs w0)) i /\ domainObj w2 k i = domainObj w2 (length (w_surfs w0)) i.
Proof.
  intros kd eps res cs os1 os2 k w0 w1 w2 H0 H1 NR H2 i. assert (W0 := run_wf kd eps res _ _ _ (wf_0 _ (start_wf1 cs)) H0).
  assert (W1 : wf w1) by (apply (step_wf kd eps res w0 (OCopy k)); assumption). unfold copySurface in H1. binv H1. injection H1 as <-.
  assert (Hk : nth_error (w_surfs w0 ++ [x]) k = Some x) by (rewrite nth_error_app1; [exact E|eapply nth_lt; exact E]).
  assert (Hk' : nth_error (w_surfs w0 ++ [x]) (length (w_surfs w0)) = Some x) by (rewrite nth_error_app2, Nat.sub_diag by lia; reflexivity).
  destruct (run_ribs kd eps res os2 _ w2 k x W1 H2 Hk (fun o i I => proj1 (NR o i I))) as (s1 & A1 & B1 & D1).
  destruct (run_ribs kd eps res os2 _ w2 (length (w_surfs w0)) x W1 H2 Hk' (fun o i I => proj2 (NR o i I))) as (s2 & A2 & B2 & D2).
  unfold ribbonAt, domainObj. rewrite A1, A2. cbn [bind]. unfold sideRib. rewrite B1, B2, D1, D2. auto.
Qed.
Print Assumptions C39_shared.

(** So what is set on the copy is reported by the original. *)
Theorem C39_visible : forall kd eps res cs os1 os2 k w0 w1 w2 i x w3, wrun kd eps res (startWorld cs) os1 = Some w0 -> copySurface w0 k = Some w1 ->
  (forall o i, In o os2 -> ~ replaces k i o /\ ~ replaces (length (w_surfs w0)) i o) -> wrun kd eps res w1 os2 = Some w2 ->
  setRibbon w2 (length (w_surfs w0)) i x = Some w3 ->
  match x with
  | SMult m => ribbonMultiplier w3 k i = Some m
  | SHandler h => exists h', vnormalize h = Some h' /\ ribbonHandler w3 k i = Some (Some h')
  | SFence f => ribbonFence w3 k i = Some f
  | SReset => ribbonMultiplier w3 k i = Some 1 /\ ribbonHandler w3 k i = Some None
  end.
Proof.
  intros kd eps res cs os1 os2 k w0 w1 w2 i x w3 H0 H1 NR H2 H3.
  assert (R3 : wrun kd eps res w1 (os2 ++ [OSet (length (w_surfs w0)) i x]) = Some w3) by (unfold wrun in *; rewrite foldM_app, H2; cbn [bind foldM wstep]; rewrite H3; reflexivity).
  assert (NR' : forall o i0, In o (os2 ++ [OSet (length (w_surfs w0)) i x]) -> ~ replaces k i0 o /\ ~ replaces (length (w_surfs w0)) i0 o).
  { intros o i0 I. apply in_app_iff in I. destruct I as [I|[<- | []]]; [apply NR; exact I|cbn; auto]. }
  destruct (C39_shared kd eps res cs os1 _ k w0 w1 w3 H0 H1 NR' R3 i) as [Q _].
  destruct (set_cases _ _ _ _ _ H3) as (s & r & o & o' & Hs & Hr & Ho & Ha & _ & _ & K & _ & N).
  assert (Z : ribbonAt w3 k i = Some o'). { rewrite Q. unfold ribbonAt. rewrite K, Hs. cbn [bind]. rewrite Hr. cbn [bind]. rewrite N, Nat.eqb_refl. reflexivity. }
  unfold ribbonMultiplier, ribbonHandler, ribbonFence. rewrite Z. cbn [bind].
  destruct x; cbn in Ha; [injection Ha as <-; reflexivity| |injection Ha as <-; reflexivity|injection Ha as <-; auto]. binv Ha. injection Ha as <-. exists x. auto.
Qed.
Print Assumptions C39_visible.

(** A curve set on the copy changes the domain of the original, but neither its
    ribbons nor its number of sides. *)
Theorem C39_domain : forall kd eps res cs os1 os2 k w0 w1 w2 i c w3, wrun kd eps res (startWorld cs) os1 = Some w0 -> copySurface w0 k = Some w1 ->
  (forall o i, In o os2 -> ~ replaces k i o /\ ~ replaces (length (w_surfs w0)) i o) -> wrun kd eps res w1 os2 = Some w2 ->
  setCurve w2 (length (w_surfs w0)) i c = Some w3 ->
  domainObj w3 k i = Some c /\ sideCount w3 k = sideCount w2 k /\ (forall j, sideObj w3 k j = sideObj w2 k j) /\
  exists m, domainCount w2 k = Some m /\ domainCount w3 k = Some (Nat.max m (i + 1)).
Proof.
  intros kd eps res cs os1 os2 k w0 w1 w2 i c w3 H0 H1 NR H2 H3. assert (W0 := run_wf kd eps res _ _ _ (wf_0 _ (start_wf1 cs)) H0).
  assert (W1 : wf w1) by (apply (step_wf kd eps res w0 (OCopy k)); assumption). assert (W2 := run_wf kd eps res _ _ _ W1 H2). unfold copySurface in H1. binv H1. injection H1 as <-.
  assert (Lk := nth_lt _ _ _ _ E). assert (Hk : nth_error (w_surfs w0 ++ [x]) k = Some x) by (rewrite nth_error_app1; [exact E|exact Lk]).
  assert (Hk' : nth_error (w_surfs w0 ++ [x]) (length (w_surfs w0)) = Some x) by (rewrite nth_error_app2, Nat.sub_diag by lia; reflexivity).
  destruct (run_ribs kd eps res os2 _ w2 k x W1 H2 Hk (fun o i I => proj1 (NR o i I))) as (s1 & A1 & B1 & D1).
  destruct (run_ribs kd eps res os2 _ w2 (length (w_surfs w0)) x W1 H2 Hk' (fun o i I => proj2 (NR o i I))) as (s2 & A2 & B2 & D2).
  destruct (setCurve_spec _ _ _ _ _ W2 H3) as (s2' & s3 & d & d' & Hs2' & Hd & C3 & R3 & N3 & Nd & _ & _ & _ & _ & _ & _ & _ & G & _). assert (s2' = s2) by congruence. subst s2'.
  assert (Hk3 : nth_error (w_surfs w3) k = Some s1). { rewrite N3. destruct (Nat.eqb_spec k (length (w_surfs w0))); [lia|exact A1]. }
  assert (Hd3 : nth_error (w_doms w3) (so_dom s1) = Some d') by (rewrite Nd, D1, D2, Nat.eqb_refl; reflexivity). destruct G as [G1 G2].
  split; [unfold domainObj; rewrite Hk3; cbn [bind]; rewrite Hd3; cbn [bind]; rewrite G2, Nat.eqb_refl; reflexivity|].
  split; [unfold sideCount; rewrite Hk3, A1; reflexivity|]. split.
  - intros j. unfold sideObj, ribbonAt. rewrite Hk3, A1. cbn [bind]. destruct (sideRib s1 j) as [r|] eqn:Er; [|reflexivity]. cbn [bind]. rewrite R3, nth_error_app1; [reflexivity|].
    exact (wf_bound w2 W2 k s1 j r A1 Er).
  - exists (length (do_curves d)). unfold domainCount. rewrite Hk3, A1. cbn [bind]. rewrite Hd3, D1, <- D2, Hd. cbn. rewrite G1. auto.
Qed.
Print Assumptions C39_domain.

(** An update through the copy recomputes the shared ribbons, but not the corner
    data of the original. *)
Theorem C39_corners : forall kd eps res k k' i w w', k <> k' ->
  updateAll kd eps res w k' = Some w' \/ updateSide kd eps res w k' i = Some w' -> nth_error (w_surfs w') k = nth_error (w_surfs w) k.
Proof.
  intros kd eps res k k' i w w' Ne [H|H].
  - assert (H' := H). unfold updateAll in H'. binv H'. clear H'. rewrite (updateAll_eq kd eps res _ _ _ E) in H. do 2 binv H.
    destruct (updateDomain_inv _ _ _ E0) as (_ & _ & S1 & _). destruct (allRibbons_alike _ _ _ _ _ _ E1) as (_ & _ & S2).
    unfold updateCorners in H. do 2 binv H. destruct (setSurf_inv _ _ _ _ H) as (_ & _ & _ & _ & _ & N3). rewrite N3. destruct (Nat.eqb_spec k k'); [contradiction|]. rewrite S2, S1. reflexivity.
  - unfold updateSide in H. binv H. binv H. binv H. binv H. binv H.
    destruct (updateDomain_inv _ _ _ E0) as (_ & _ & S1 & _). destruct (updateRibbon_alike _ _ _ _ _ _ E2) as (_ & _ & S2 & _).
    unfold updateCorner in E3, H. do 3 binv E3. do 3 binv H.
    destruct (setSurf_inv _ _ _ _ E3) as (_ & _ & _ & _ & _ & N3). destruct (setSurf_inv _ _ _ _ H) as (_ & _ & _ & _ & _ & N4).
    rewrite N4, N3. destruct (Nat.eqb_spec k k'); [contradiction|]. rewrite S2, S1. reflexivity.
Qed.
Print Assumptions C39_corners.

Example C39_example : forall kd eps res, exists w,
  wrun kd eps res (startWorld sqCurves) [ONew; OSetCurves 0 [0; 1; 2; 3]%nat; OSet 0 2 (SMult 3); OCopy 0; OSet 1 2 (SMult 5); OSetCurve 1 4 0%nat] = Some w /\
  ribbonMultiplier w 0 2 = Some 5 /\ sideCount w 0 = Some 4%nat /\ sideCount w 1 = Some 5%nat /\ domainCount w 0 = Some 5%nat.
Proof. intros kd eps res. eexists. split; [lazy; reflexivity|]. repeat split. Qed.
