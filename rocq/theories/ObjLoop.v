(** setupLoop orients the curves of a loop (SurfaceObj.v, C35 and C36). *)
From Verif Require Import Base UtilModel UtilProofs RibbonModel RibbonProofs SurfaceModel SurfaceObj ObjSpec ObjProofs.
Open Scope R_scope.

(** ** Distances *)
Lemma vnorm_add : forall a b, vnorm (a +v b) <= vnorm a + vnorm b.
Proof.
  intros a b. assert (A := vnorm_nonneg a). assert (B := vnorm_nonneg b). assert (SA := vnorm_sqr a). assert (SB := vnorm_sqr b).
  assert (D : vdot a b <= vnorm a * vnorm b).
  { destruct (Rle_or_lt (vdot a b) 0) as [N|N]; [nra|]. pose proof (cauchy a b) as C. rewrite <- SA, <- SB in C.
    apply Rnot_lt_le. intros G. assert (0 <= vnorm a * vnorm b) by nra. nra. }
  apply Rsqr_incr_0_var; [|lra]. unfold Rsqr. rewrite vnorm_sqr.
  replace (vdot (a +v b) (a +v b)) with (vdot a a + 2 * vdot a b + vdot b b) by (unfold vdot, vadd; simpl; ring).
  rewrite <- SA, <- SB. nra.
Qed.
Lemma vdist_sym : forall a b, vdist a b = vdist b a.
Proof. intros a b. unfold vdist, vnorm. f_equal. unfold vdot, vsub; simpl; ring. Qed.
Lemma vdist_tri : forall a b c, vdist a c <= vdist a b + vdist b c.
Proof. intros a b c. unfold vdist. replace (a -v c) with ((a -v b) +v (b -v c)) by v3ring. apply vnorm_add. Qed.
Lemma vdist_nonneg : forall a b, 0 <= vdist a b. Proof. intros; apply vnorm_nonneg. Qed.
Lemma close_vdist : forall d a b, close d a b -> vdist a b <= d. Proof. intros d a b H; exact H. Qed.
Lemma vdist_pos : forall a b, a <> b -> 0 < vdist a b.
Proof.
  intros a b H. destruct (Rle_lt_or_eq_dec _ _ (vdist_nonneg a b)) as [G|G]; [exact G|]. exfalso. apply H.
  symmetry in G. apply vnorm_zero in G. destruct a, b. unfold vsub, vzero in G. simpl in G. injection G as G1 G2 G3. f_equal; lra.
Qed.

Definition eitherWay (delta : R) (c : curve) (p q : V3) : Prop := runs delta c p q \/ runs delta c q p.
Lemma runs_reverse : forall d c p q, runs d c p q -> runs d (reverseCurve c) q p.
Proof.
  intros d c p q [A B]. split; cbn [reverseCurve cpt].
  - replace (1 - 0) with 1 by ring. exact B.
  - replace (1 - 1) with 0 by ring. exact A.
Qed.

Section Tests.
Variables (delta : R) (p q : V3).
Hypothesis Hpq : 4 * delta < vdist p q.
(** [cp] ends at [p], [c] connects [p] with [q]. *)
Lemma next_keep : forall c cp, close delta (cpt cp 1) p -> runs delta c p q -> reverseNext c cp = false.
Proof.
  intros c cp Hp [A B]. unfold reverseNext. destruct (Rlt_dec _ _) as [L|L]; [|reflexivity]. exfalso.
  apply close_vdist in Hp, A, B. rewrite vdist_sym in Hp.
  pose proof (vdist_tri (cpt c 0) p (cpt cp 1)). pose proof (vdist_tri p (cpt cp 1) q). pose proof (vdist_tri (cpt cp 1) (cpt c 1) q).
  rewrite (vdist_sym (cpt cp 1) (cpt c 1)) in *. lra.
Qed.
Lemma next_turn : forall c cp, close delta (cpt cp 1) p -> runs delta c q p -> reverseNext c cp = true.
Proof.
  intros c cp Hp [A B]. unfold reverseNext. destruct (Rlt_dec _ _) as [L|L]; [reflexivity|]. exfalso. apply L.
  apply close_vdist in Hp, A, B. rewrite vdist_sym in Hp.
  pose proof (vdist_tri (cpt c 1) p (cpt cp 1)). pose proof (vdist_tri p (cpt cp 1) q). pose proof (vdist_tri (cpt cp 1) (cpt c 0) q).
  rewrite (vdist_sym (cpt cp 1) (cpt c 0)) in *. lra.
Qed.
(** [c] connects [p] with [q], the next curve [q] with [q2]. *)
Variable q2 : V3.
Hypothesis Hpq2 : 4 * delta < vdist p q2.
Lemma min_close : forall a cn, eitherWay delta cn q q2 -> close delta a q -> Rmin (vdist a (cpt cn 0)) (vdist a (cpt cn 1)) <= 2 * delta.
Proof.
  intros a cn H Ha. apply close_vdist in Ha. destruct H as [[A B]|[A B]]; apply close_vdist in A, B.
  - apply Rle_trans with (vdist a (cpt cn 0)); [apply Rmin_l|]. pose proof (vdist_tri a q (cpt cn 0)). rewrite (vdist_sym q) in *. lra.
  - apply Rle_trans with (vdist a (cpt cn 1)); [apply Rmin_r|]. pose proof (vdist_tri a q (cpt cn 1)). rewrite (vdist_sym q) in *. lra.
Qed.
Lemma min_far : forall a cn, eitherWay delta cn q q2 -> close delta a p -> 2 * delta < Rmin (vdist a (cpt cn 0)) (vdist a (cpt cn 1)).
Proof.
  intros a cn H Ha. apply close_vdist in Ha. rewrite vdist_sym in Ha.
  assert (F : forall x z, vdist x z <= delta -> 4 * delta < vdist p z -> 2 * delta < vdist a x).
  { intros x z Hx Hz. pose proof (vdist_tri p a z). pose proof (vdist_tri a x z). lra. }
  destruct H as [[A B]|[A B]]; apply close_vdist in A, B; apply Rmin_glb_lt; eapply F; eassumption.
Qed.
Lemma first_keep : forall c cn, eitherWay delta cn q q2 -> runs delta c p q -> reverseFirst c cn = false.
Proof.
  intros c cn H [A B]. unfold reverseFirst. cbv zeta. destruct (Rlt_dec _ _) as [L|L]; [|reflexivity]. exfalso.
  pose proof (min_far _ _ H A). pose proof (min_close _ _ H B). lra.
Qed.
Lemma first_turn : forall c cn, eitherWay delta cn q q2 -> runs delta c q p -> reverseFirst c cn = true.
Proof.
  intros c cn H [A B]. unfold reverseFirst. cbv zeta. destruct (Rlt_dec _ _) as [L|L]; [reflexivity|]. exfalso. apply L.
  pose proof (min_close _ _ H A). pose proof (min_far _ _ H B). lra.
Qed.
End Tests.

(** ** The loop *)
Section Loop.
Variables (delta : R) (w : world) (k n : nat) (P : nat -> V3) (s : surfObj).
Hypothesis Hn : (2 <= n)%nat.
Hypothesis Hs : nth_error (w_surfs w) k = Some s.
Hypothesis Hsn : so_n s = n.
Variables (r : nat -> rloc) (o : nat -> ribObj) (c0 : nat -> curve).
Hypothesis Hr : forall i, (i < n)%nat -> sideRib s i = Some (r i).
Hypothesis Ho : forall i, (i < n)%nat -> nth_error (w_ribs w) (r i) = Some (o i).
Hypothesis Hc : forall i, (i < n)%nat -> nth_error (w_curves w) (ro_curve (o i)) = Some (c0 i).
Hypothesis Hdir : forall i, (i < n)%nat -> eitherWay delta (c0 i) (P (prv n i)) (P i).
Hypothesis Hinj : forall i j, (i < n)%nat -> (j < n)%nat -> ro_curve (o i) = ro_curve (o j) -> i = j.
Hypothesis Hfar : forall i, (i < n)%nat -> 4 * delta < vdist (P (prv n i)) (P i).
Hypothesis Hfar2 : 4 * delta < vdist (P (n - 1)%nat) (P 1%nat).

(** After [m] iterations. *)
Record stage (m : nat) (w' : world) : Prop := mkStage {
  st_surfs : w_surfs w' = w_surfs w; st_doms : w_doms w' = w_doms w;
  st_rdone : forall i, (i < m)%nat -> nth_error (w_ribs w') (r i) = Some (withNeighbors (o i) (r (prv n i)) (r (nxt n i)));
  st_rrest : forall x, (forall i, (i < m)%nat -> r i <> x) -> nth_error (w_ribs w') x = nth_error (w_ribs w) x;
  st_cdone : forall i, (i < m)%nat -> exists c, nth_error (w_curves w') (ro_curve (o i)) = Some c /\
    (c = c0 i \/ c = reverseCurve (c0 i)) /\ runs delta c (P (prv n i)) (P i);
  st_crest : forall x, (forall i, (i < m)%nat -> ro_curve (o i) <> x) -> nth_error (w_curves w') x = nth_error (w_curves w) x }.

Lemma r_inj : forall i j, (i < n)%nat -> (j < n)%nat -> r i = r j -> i = j.
Proof. intros i j Hi Hj E. apply Hinj; try assumption. pose proof (Ho i Hi) as A. pose proof (Ho j Hj) as B. rewrite E in A. congruence. Qed.

Lemma prv_of_S : forall m, (S m < n)%nat -> prv n (S m) = m.
Proof. intros m H. rewrite prv_cases by lia. simpl. lia. Qed.
Lemma prv_0 : prv n 0 = (n - 1)%nat.
Proof. rewrite prv_cases by lia. reflexivity. Qed.
Lemma nxt_0 : nxt n 0 = 1%nat.
Proof. rewrite nxt_cases by lia. destruct (Nat.eqb_spec 1 n); [lia|reflexivity]. Qed.

Lemma stage_curve : forall m w' i, (m <= n)%nat -> (i < n)%nat -> stage m w' -> (m <= i)%nat ->
  nth_error (w_curves w') (ro_curve (o i)) = Some (c0 i).
Proof.
  intros m w' i Hm Hi ST L. rewrite (st_crest _ _ ST); [apply Hc; exact Hi|]. intros j Hj E. assert (j = i) by (apply Hinj; [lia|exact Hi|exact E]). lia.
Qed.
Lemma stage_ribCurve : forall m w' i x, (m <= n)%nat -> (i < n)%nat -> stage m w' ->
  nth_error (w_curves w') (ro_curve (o i)) = Some x -> ribCurve w' (r i) = Some x.
Proof.
  intros m w' i x Hm Hi ST E. unfold ribCurve. destruct (le_lt_dec m i) as [L|L].
  - rewrite (st_rrest _ _ ST); [rewrite (Ho i Hi); exact E|]. intros j Hj Q. apply r_inj in Q; lia.
  - rewrite (st_rdone _ _ ST i L). exact E.
Qed.

(** The curve that the test of iteration [m] uses. *)
Lemma stage_other : forall m w', (m < n)%nat -> stage m w' ->
  exists x, ribCurve w' (if (m =? 0)%nat then r (nxt n m) else r (prv n m)) = Some x /\
    (m = 0%nat -> eitherWay delta x (P 0%nat) (P 1%nat)) /\ (m <> 0%nat -> close delta (cpt x 1) (P (prv n m))).
Proof.
  intros m w' Hm ST. destruct m as [|m]; cbn [Nat.eqb].
  - rewrite nxt_0. exists (c0 1%nat). split; [apply (stage_ribCurve 0); [lia|lia|exact ST|apply (stage_curve 0); [lia|lia|exact ST|lia]]|].
    split; [|lia]. intros _. pose proof (Hdir 1%nat ltac:(lia)) as D. rewrite (prv_of_S 0) in D by lia. exact D.
  - rewrite prv_of_S by lia. destruct (st_cdone _ _ ST m ltac:(lia)) as (x & Ex & _ & Rx). exists x.
    split; [apply (stage_ribCurve (S m)); [lia|lia|exact ST|exact Ex]|]. split; [discriminate|]. intros _. apply Rx.
Qed.
Definition test (m : nat) (c x : curve) : bool := if (m =? 0)%nat then reverseFirst c x else reverseNext c x.
Lemma test_keep : forall m c x, (m < n)%nat -> (m = 0%nat -> eitherWay delta x (P 0%nat) (P 1%nat)) -> (m <> 0%nat -> close delta (cpt x 1) (P (prv n m))) ->
  runs delta c (P (prv n m)) (P m) -> test m c x = false.
Proof.
  intros m c x Hm A B C. unfold test. destruct m as [|m]; cbn [Nat.eqb].
  - rewrite prv_0 in C. pose proof (Hfar 0%nat ltac:(lia)) as F. rewrite prv_0 in F. exact (first_keep delta _ _ F _ Hfar2 c x (A eq_refl) C).
  - exact (next_keep delta _ _ (Hfar _ Hm) c x (B ltac:(lia)) C).
Qed.
Lemma test_turn : forall m c x, (m < n)%nat -> (m = 0%nat -> eitherWay delta x (P 0%nat) (P 1%nat)) -> (m <> 0%nat -> close delta (cpt x 1) (P (prv n m))) ->
  runs delta c (P m) (P (prv n m)) -> test m c x = true.
Proof.
  intros m c x Hm A B C. unfold test. destruct m as [|m]; cbn [Nat.eqb].
  - rewrite prv_0 in C. pose proof (Hfar 0%nat ltac:(lia)) as F. rewrite prv_0 in F. exact (first_turn delta _ _ F _ Hfar2 c x (A eq_refl) C).
  - exact (next_turn delta _ _ (Hfar _ Hm) c x (B ltac:(lia)) C).
Qed.

Lemma stage_step : forall m w', (m < n)%nat -> stage m w' -> exists w'', setupSide s w' m = Some w'' /\ stage (S m) w''.
Proof.
  intros m w' Hm ST. unfold setupSide. rewrite Hsn.
  rewrite (Hr (prv n m)) by (apply prv_lt; lia). rewrite (Hr (nxt n m)) by (apply nxt_lt; lia). rewrite (Hr m Hm). cbn [bind].
  assert (Om : nth_error (w_ribs w') (r m) = Some (o m)).
  { rewrite (st_rrest _ _ ST); [apply Ho; exact Hm|]. intros i Hi E. apply r_inj in E; lia. }
  rewrite Om. cbn [bind].
  destruct (upd_some _ (w_ribs w') (r m) (withNeighbors (o m) (r (prv n m)) (r (nxt n m)))) as [l El]; [eapply nth_lt; exact Om|].
  assert (E1 : setRib w' (r m) (withNeighbors (o m) (r (prv n m)) (r (nxt n m))) = Some (mkWorld (w_curves w') l (w_doms w') (w_surfs w'))).
  { unfold setRib. rewrite El. reflexivity. }
  rewrite E1. cbn [bind]. set (w1 := mkWorld (w_curves w') l (w_doms w') (w_surfs w')) in *.
  assert (Cm : nth_error (w_curves w') (ro_curve (o m)) = Some (c0 m)) by (apply (stage_curve m); [lia|exact Hm|exact ST|lia]).
  rewrite Cm. cbn [bind]. destruct (stage_other m w' Hm ST) as (x & Ex & A & B). rewrite Ex. cbn [bind].
  destruct (upd_inv _ _ _ _ _ El) as (_ & Ll & Nl).
  assert (RD : forall i, (i < S m)%nat -> nth_error l (r i) = Some (withNeighbors (o i) (r (prv n i)) (r (nxt n i)))).
  { intros i Hi. rewrite Nl. destruct (Nat.eqb_spec (r i) (r m)) as [E|E]; [apply r_inj in E; [subst i; reflexivity|lia|lia]|].
    apply (st_rdone _ _ ST). destruct (Nat.eq_dec i m); [subst; congruence|lia]. }
  assert (RR : forall y, (forall i, (i < S m)%nat -> r i <> y) -> nth_error l y = nth_error (w_ribs w) y).
  { intros y Hy. rewrite Nl. destruct (Nat.eqb_spec y (r m)) as [E|E]; [exfalso; apply (Hy m); [lia|congruence]|].
    apply (st_rrest _ _ ST). intros i Hi. apply Hy; lia. }
  change (if (m =? 0)%nat then reverseFirst (c0 m) x else reverseNext (c0 m) x) with (test m (c0 m) x).
  destruct (Hdir m Hm) as [D|D].
  - rewrite (test_keep m _ x Hm A B D). exists w1. split; [reflexivity|]. split; cbn; try apply ST; try assumption.
    + intros i Hi. destruct (Nat.eq_dec i m) as [-> | Ne]; [exists (c0 m); auto|]. apply (st_cdone _ _ ST); lia.
    + intros y Hy. apply (st_crest _ _ ST). intros i Hi; apply Hy; lia.
  - rewrite (test_turn m _ x Hm A B D). unfold setCrv. cbn [w1 w_curves].
    destruct (upd_some _ (w_curves w') (ro_curve (o m)) (reverseCurve (c0 m))) as [lc Elc]; [eapply nth_lt; exact Cm|].
    rewrite Elc. cbn [bind]. destruct (upd_inv _ _ _ _ _ Elc) as (_ & Lc & Nc).
    eexists. split; [reflexivity|]. split; cbn; try apply ST; try assumption.
    + intros i Hi. rewrite Nc. destruct (Nat.eqb_spec (ro_curve (o i)) (ro_curve (o m))) as [E|E].
      * apply Hinj in E; [|lia|lia]. subst i. exists (reverseCurve (c0 m)). split; [reflexivity|]. split; [right; reflexivity|]. apply runs_reverse; exact D.
      * apply (st_cdone _ _ ST). destruct (Nat.eq_dec i m); [subst; congruence|lia].
    + intros y Hy. rewrite Nc. destruct (Nat.eqb_spec y (ro_curve (o m))) as [E|E]; [exfalso; apply (Hy m); [lia|congruence]|].
      apply (st_crest _ _ ST). intros i Hi; apply Hy; lia.
Qed.
Lemma stage_loop : forall m, (m <= n)%nat -> exists w', foldM (setupSide s) w (seq 0 m) = Some w' /\ stage m w'.
Proof.
  intros m; induction m as [|m IH]; intros Hm.
  - exists w. split; [reflexivity|]. split; try reflexivity; intros; lia.
  - destruct IH as (w' & E & ST); [lia|]. destruct (stage_step m w' ltac:(lia) ST) as (w'' & E' & ST').
    exists w''. split; [|exact ST']. rewrite seq_S, foldM_app, E. cbn [bind foldM Nat.add]. rewrite E'. reflexivity.
Qed.
Lemma loop_result : exists w', setupLoop w k = Some w' /\ stage n w'.
Proof. unfold setupLoop. rewrite Hs. cbn [bind]. rewrite Hsn. apply stage_loop. lia. Qed.

Lemma again_step : forall w' m, (m < n)%nat -> stage n w' -> setupSide s w' m = Some w'.
Proof.
  intros w' m Hm ST. unfold setupSide. rewrite Hsn.
  rewrite (Hr (prv n m)) by (apply prv_lt; lia). rewrite (Hr (nxt n m)) by (apply nxt_lt; lia). rewrite (Hr m Hm). cbn [bind].
  assert (Om := st_rdone _ _ ST m Hm). rewrite Om. cbn [bind]. unfold setRib.
  change (withNeighbors (withNeighbors (o m) (r (prv n m)) (r (nxt n m))) (r (prv n m)) (r (nxt n m)))
    with (withNeighbors (o m) (r (prv n m)) (r (nxt n m))).
  rewrite (upd_same _ _ _ _ Om). cbn [bind].
  assert (Ew : mkWorld (w_curves w') (w_ribs w') (w_doms w') (w_surfs w') = w') by (destruct w'; reflexivity). rewrite Ew.
  change (ro_curve (withNeighbors (o m) (r (prv n m)) (r (nxt n m)))) with (ro_curve (o m)).
  destruct (st_cdone _ _ ST m Hm) as (c & Ec & _ & Rc). rewrite Ec. cbn [bind].
  set (j := if (m =? 0)%nat then nxt n m else prv n m).
  assert (Hj : (j < n)%nat) by (unfold j; destruct (m =? 0)%nat; [apply nxt_lt|apply prv_lt]; lia).
  replace (if (m =? 0)%nat then r (nxt n m) else r (prv n m)) with (r j) by (unfold j; destruct (m =? 0)%nat; reflexivity).
  destruct (st_cdone _ _ ST j Hj) as (x & Ex & _ & Rx). rewrite (stage_ribCurve n w' j x) by (auto; lia). cbn [bind].
  change (if (m =? 0)%nat then reverseFirst c x else reverseNext c x) with (test m c x).
  rewrite (test_keep m c x Hm); [reflexivity| | |exact Rc].
  - intros ->. unfold j in Rx. cbn [Nat.eqb] in Rx. rewrite nxt_0, (prv_of_S 0) in Rx by lia. left; exact Rx.
  - intros Ne. unfold j in Rx. destruct (Nat.eqb_spec m 0); [lia|]. apply Rx.
Qed.
Lemma loop_again : forall w', stage n w' -> setupLoop w' k = Some w'.
Proof.
  intros w' ST. unfold setupLoop. rewrite (st_surfs _ _ ST), Hs. cbn [bind]. rewrite Hsn.
  assert (G : forall m, (m <= n)%nat -> foldM (setupSide s) w' (seq 0 m) = Some w').
  { intros m; induction m as [|m IH]; intros Hm; [reflexivity|]. rewrite seq_S, foldM_app, IH by lia. cbn [bind foldM Nat.add].
    rewrite again_step by (auto; lia). reflexivity. }
  apply G; lia.
Qed.
End Loop.
