(** Super-D patches: ribbons, coordinates on the boundary and everywhere in the
    domain. *)
From Verif Require Import Base GeomSpec UtilModel UtilSpec DomainModel ParamModel SurfaceModel SuperDModel.
From Verif Require Import DomainProofs DomainPolygons UtilProofs ParamBary ParamMaps ParamRegular ParamSide ParamTame ParamFar BlendProofs SurfaceSpec.
Open Scope R_scope.

Definition pt (q : list V3) (k : nat) : V3 := nth k q vzero.
Definition sdWf (p : superd) : Prop := (3 <= su_n p)%nat /\ length (su_f p) = su_n p /\ length (su_e p) = su_n p.

Section Net.
Variable p : superd.
Hypothesis W : sdWf p.
Let n := su_n p.
Let F := su_full p.
Definition fp (i : nat) : V3 := nth i (su_f p) vzero.
Definition ep (i : nat) : V3 := nth i (su_e p) vzero.
Definition bq (i : nat) : list V3 := quartic F (fp (prv n i)) (ep i) (fp i).
Definition mq (i : nat) : list V3 := quartic F (ep (prv n i)) (su_v p) (ep (nxt n i)).
Definition oq (i : nat) : list V3 :=
  if (n =? 3)%nat then repeat (fp (nxt n i)) 5 else rev (bq (nxt n (nxt n i))).
Definition rib (i j k : nat) : V3 :=
  if (4 <? n)%nat then pt (bq i) j +v (pt (bq (prv n i)) (4 - k) -v pt (bq (prv n i)) 4) *v INR (4 - j) *v / 4
                       +v (pt (bq (nxt n i)) k -v pt (bq (nxt n i)) 0) *v INR j *v / 4
  else pt (quartic F (pt (bq i) j) (pt (mq i) j) (pt (oq i) j)) k.

Let n3 : (3 <= n)%nat. Proof. apply W. Qed.
Let lf : length (su_f p) = n. Proof. apply W. Qed.
Let le : length (su_e p) = n. Proof. apply W. Qed.

Lemma f_at : forall i, (i < n)%nat -> nth_error (su_f p) i = Some (fp i).
Proof. intros i Hi. apply nth_error_nth'. lia. Qed.
Lemma e_at : forall i, (i < n)%nat -> nth_error (su_e p) i = Some (ep i).
Proof. intros i Hi. apply nth_error_nth'. lia. Qed.
Let pl : forall i, (prv n i < n)%nat. Proof. intros; apply prv_lt; lia. Qed.
Let nl : forall i, (nxt n i < n)%nat. Proof. intros; apply nxt_lt; lia. Qed.

Lemma base_value : forall i, (i < n)%nat -> sdBase p i = Some (bq i).
Proof. intros i Hi. unfold sdBase. fold n. rewrite !f_at, e_at by auto. reflexivity. Qed.

Lemma q_at : forall f a b c k, (k < 5)%nat -> nth_error (quartic f a b c) k = Some (pt (quartic f a b c) k).
Proof. intros. apply nth_error_nth'. exact H. Qed.

Lemma ribbon_value : forall i, (i < n)%nat -> sdRibbon p i = Some (tabulate 5 (fun j => tabulate 5 (rib i j))).
Proof.
  intros i Hi. unfold sdRibbon. rewrite base_value by exact Hi. cbn [bind]. fold n. unfold rib. destruct (Nat.ltb_spec 4 n) as [L|L].
  - rewrite !base_value by auto. cbn [bind]. apply mapM_seq. intros j Hj. apply mapM_seq. intros k Hk.
    unfold bq. rewrite !q_at by lia. reflexivity.
  - assert (O : sdOpp p i = Some (oq i)).
    { unfold sdOpp, oq. fold n. destruct (Nat.eqb_spec n 3); [rewrite f_at by auto; reflexivity|]. destruct (Nat.eqb_spec n 4); [|lia].
      rewrite base_value by auto. reflexivity. }
    assert (M : sdMid p i = Some (mq i)) by (unfold sdMid; fold n; rewrite !e_at by auto; reflexivity).
    rewrite M, O. cbn [bind]. apply mapM_seq. intros j Hj. unfold bq, mq. rewrite !q_at by exact Hj. cbn [bind].
    assert (Q : nth_error (oq i) j = Some (pt (oq i) j)).
    { apply nth_error_nth'. unfold oq. destruct (n =? 3)%nat; [exact Hj|]. rewrite rev_length. exact Hj. }
    rewrite Q. reflexivity.
Qed.

Lemma bq0 : forall i, pt (bq i) 0 = fp (prv n i). Proof. reflexivity. Qed.
Lemma bq4 : forall i, pt (bq i) 4 = fp i. Proof. reflexivity. Qed.

Lemma rib_bottom : forall i j, (i < n)%nat -> (j < 5)%nat -> rib i j 0 = pt (bq i) j.
Proof.
  intros i j Hi Hj. unfold rib. destruct (4 <? n)%nat; [|reflexivity]. change (4 - 0)%nat with 4%nat. v3ring.
Qed.

Ltac quart := repeat match goal with |- context[pt (quartic ?f ?a ?b ?c) ?k] =>
  let x := eval cbv [pt quartic nth] in (pt (quartic f a b c) k) in change (pt (quartic f a b c) k) with x end.

Lemma rib_left : forall i k, (i < n)%nat -> (k < 5)%nat -> rib i 0 k = pt (bq (prv n i)) (4 - k).
Proof.
  intros i k Hi Hk. unfold rib. destruct (Nat.ltb_spec 4 n) as [L|L].
  - rewrite bq0, bq4. change (INR (4 - 0)) with (INR 4). replace (INR 4) with 4 by (simpl; lra). cbn [INR]. v3field.
  - assert (O : pt (oq i) 0 = fp (prv n (prv n i))).
    { unfold oq. destruct (Nat.eqb_spec n 3) as [E|E].
      - cbn [repeat pt nth]. f_equal. rewrite E. assert (Hi3 : (i < 3)%nat) by lia. destruct i as [|[|[|i]]]; try lia; reflexivity.
      - assert (E4 : n = 4%nat) by lia. change (pt (rev (bq (nxt n (nxt n i)))) 0) with (fp (nxt n (nxt n i))). f_equal.
        rewrite E4. assert (Hi3 : (i < 4)%nat) by lia. destruct i as [|[|[|[|i]]]]; try lia; reflexivity. }
    rewrite O, bq0. change (pt (mq i) 0) with (ep (prv n i)). unfold bq.
    destruct k as [|[|[|[|[|k]]]]]; try lia; quart; cbn [Nat.sub]; quart; unfold affine3; v3field.
Qed.

Lemma rib_right : forall i k, (i < n)%nat -> (k < 5)%nat -> rib i 4 k = pt (bq (nxt n i)) k.
Proof.
  intros i k Hi Hk. unfold rib. destruct (Nat.ltb_spec 4 n) as [L|L].
  - rewrite bq0, bq4. change (4 - 4)%nat with 0%nat. rewrite prv_nxt by exact Hi. replace (INR 4) with 4 by (simpl; lra). cbn [INR]. v3field.
  - assert (O : pt (oq i) 4 = fp (nxt n i)).
    { unfold oq. destruct (Nat.eqb_spec n 3) as [E|E]; [reflexivity|].
      change (pt (rev (bq (nxt n (nxt n i)))) 4) with (fp (prv n (nxt n (nxt n i)))). rewrite prv_nxt by auto. reflexivity. }
    rewrite O, bq4. change (pt (mq i) 4) with (ep (nxt n i)). unfold bq. rewrite prv_nxt by exact Hi. reflexivity.
Qed.

(** Four sides: the ribbons are the same surface. *)
Lemma rib_turn : n = 4%nat -> forall i j k, (i < n)%nat -> (j < 5)%nat -> (k < 5)%nat -> rib (nxt n i) j k = rib i (4 - k) j.
Proof.
  intros E i j k Hi Hj Hk. unfold rib. rewrite E. change (4 <? 4)%nat with false. cbv iota.
  unfold mq, oq. rewrite E. change (4 =? 3)%nat with false. cbv iota. unfold bq, mq.
  assert (Hi4 : (i < 4)%nat) by lia.
  assert (P : prv n (nxt n i) = i /\ prv n i = nxt n (nxt n (nxt n i)) /\ nxt n (nxt n (nxt n (nxt n i))) = i /\ prv n (nxt n (nxt n i)) = nxt n i /\
    prv n (nxt n (nxt n (nxt n i))) = nxt n (nxt n i)).
  { rewrite E. destruct i as [|[|[|[|i]]]]; try lia; repeat split; reflexivity. }
  rewrite E in P. destruct P as (P1 & P2 & P3 & P4 & P5). rewrite E, ?P1, ?P2, ?P4, ?P5, ?P3.
  generalize (fp i), (fp (nxt 4 i)), (fp (nxt 4 (nxt 4 i))), (fp (nxt 4 (nxt 4 (nxt 4 i)))), (ep i), (ep (nxt 4 i)), (ep (nxt 4 (nxt 4 i))), (ep (nxt 4 (nxt 4 (nxt 4 i)))), (su_v p).
  clear - Hj Hk. intros f0 f1 f2 f3 e0 e1 e2 e3 v.
  destruct j as [|[|[|[|[|j]]]]]; try lia; destruct k as [|[|[|[|[|k]]]]]; try lia;
    cbv [pt quartic nth rev app Nat.sub affine3]; v3field.
Qed.
End Net.

(** ** Evaluation of a ribbon *)
Definition tens (g : nat -> nat -> V3) (u v : R) : V3 :=
  vsum 5 (fun i => vsum 5 (fun j => g i j *v bern 4 i u *v bern 4 j v)).

Lemma bez_value : forall g u v, sdBezier (tabulate 5 (fun j => tabulate 5 (g j))) u v = Some (tens g u v).
Proof.
  intros g u v. unfold sdBezier, tens. apply osum_total. intros i Hi. apply osum_total. intros j Hj.
  rewrite tabulate_nth_error by exact Hi. cbn [bind]. rewrite tabulate_nth_error by exact Hj. cbn [bind].
  rewrite !bernsteinList_nth by lia. reflexivity.
Qed.

Lemma bern_at_0 : forall n j, (j <= n)%nat -> bern n j 0 = if (j =? 0)%nat then 1 else 0.
Proof.
  intros n j Hj. unfold bern. destruct (Nat.eqb_spec j 0) as [->|N].
  - rewrite choose_0. rewrite Rminus_0_r, pow1. simpl. ring.
  - rewrite pow_ne_zero by exact N. ring.
Qed.
Lemma bern_at_1 : forall n j, (j <= n)%nat -> bern n j 1 = if (j =? n)%nat then 1 else 0.
Proof.
  intros n j Hj. replace 1 with (1 - 0) at 1 by ring. rewrite bern_sym by exact Hj. rewrite bern_at_0 by lia.
  destruct (Nat.eqb_spec (n - j) 0); destruct (Nat.eqb_spec j n); (reflexivity || lia).
Qed.

Lemma tens_bottom : forall g u, tens g u 0 = bezier 4 (fun i => g i 0%nat) u.
Proof.
  intros g u. unfold tens, bezier. apply vsum_ext. intros i Hi. rewrite (vsum_single 5 _ 0).
  - rewrite bern_at_0 by lia. cbn [Nat.eqb]. v3ring.
  - lia.
  - intros j Hj N. rewrite bern_at_0 by lia. destruct (Nat.eqb_spec j 0); [contradiction|v3ring].
Qed.
Lemma tens_left : forall g v, tens g 0 v = bezier 4 (g 0%nat) v.
Proof.
  intros g v. unfold tens, bezier. rewrite (vsum_single 5 _ 0).
  - apply vsum_ext. intros j Hj. rewrite bern_at_0 by lia. cbn [Nat.eqb]. v3ring.
  - lia.
  - intros j Hj N. apply vsum_zero. intros k Hk. rewrite bern_at_0 by lia. destruct (Nat.eqb_spec j 0); [contradiction|v3ring].
Qed.
Lemma tens_right : forall g v, tens g 1 v = bezier 4 (g 4%nat) v.
Proof.
  intros g v. unfold tens, bezier. rewrite (vsum_single 5 _ 4).
  - apply vsum_ext. intros j Hj. rewrite bern_at_1 by lia. cbn [Nat.eqb]. v3ring.
  - lia.
  - intros j Hj N. apply vsum_zero. intros k Hk. rewrite bern_at_1 by lia. destruct (Nat.eqb_spec j 4); [contradiction|v3ring].
Qed.

Lemma vsum_rev : forall n f, vsum n f = vsum n (fun i => f (n - 1 - i)%nat).
Proof. intros n f. apply V3_ext; rewrite ?vsum_x, ?vsum_y, ?vsum_z; rewrite rsum_rev; reflexivity. Qed.
Lemma vsum_swap : forall m n f, vsum m (fun i => vsum n (f i)) = vsum n (fun j => vsum m (fun i => f i j)).
Proof.
  intros m n f. apply V3_ext; rewrite ?vsum_x, ?vsum_y, ?vsum_z.
  - rewrite (rsum_ext _ _ (fun i => rsum n (fun j => vx (f i j)))) by (intros; apply vsum_x). rewrite rsum_swap. apply rsum_ext. intros; rewrite vsum_x; reflexivity.
  - rewrite (rsum_ext _ _ (fun i => rsum n (fun j => vy (f i j)))) by (intros; apply vsum_y). rewrite rsum_swap. apply rsum_ext. intros; rewrite vsum_y; reflexivity.
  - rewrite (rsum_ext _ _ (fun i => rsum n (fun j => vz (f i j)))) by (intros; apply vsum_z). rewrite rsum_swap. apply rsum_ext. intros; rewrite vsum_z; reflexivity.
Qed.

Lemma bezier_rev : forall n P u, bezier n (fun i => P (n - i)%nat) u = bezier n P (1 - u).
Proof.
  intros n P u. unfold bezier. rewrite (vsum_rev (n + 1) (fun i => P i *v _)). apply vsum_ext. intros i Hi.
  replace (n + 1 - 1 - i)%nat with (n - i)%nat by lia. rewrite bern_sym by lia. do 2 f_equal; lia.
Qed.

(** A quarter turn. *)
Lemma tens_turn : forall g g' u v, (forall j k, (j < 5)%nat -> (k < 5)%nat -> g' j k = g (4 - k)%nat j) ->
  tens g' v (1 - u) = tens g u v.
Proof.
  intros g g' u v H. unfold tens at 2. rewrite vsum_rev. rewrite vsum_swap. unfold tens. apply vsum_ext. intros j Hj. apply vsum_ext. intros k Hk.
  rewrite H by assumption. replace (5 - 1 - k)%nat with (4 - k)%nat by lia. rewrite bern_sym by lia. v3ring.
Qed.

(** ** Coordinates on the regular domain *)
Section Reg.
Variables (m : nat) (vs : list V2) (d : dom).
Hypothesis H3 : (3 <= m)%nat.
Hypothesis Hv : regularVertices m = Some vs.
Hypothesis Hd : domainFrames pzero vs = Some d.
Let h : R := sin (2 * PI / INR m).
Let w : R := sin (PI / INR m).
Let Lv : length vs = m := proj1 (reg_facts m vs H3 Hv).
Let Cv : strictly_convex vs := proj1 (proj2 (reg_facts m vs H3 Hv)).
Let Iv : inside vs pzero := proj2 (proj2 (reg_facts m vs H3 Hv)).

Definition sdk : nat := if (m <=? 6)%nat then 1%nat else ((m - 3) / 2)%nat.
Definition sdH : R := hg vs 0 (vtx vs sdk).

Lemma sdk_range : (1 <= sdk)%nat /\ (sdk < m - 1)%nat.
Proof.
  unfold sdk. destruct (Nat.leb_spec m 6); [lia|]. split; [|pose proof (Nat.div_le_mono (m - 3) (2 * (m - 3)) 2 ltac:(lia) ltac:(lia))].
  - apply Nat.div_le_lower_bound; lia.
  - apply Nat.div_lt_upper_bound; lia.
Qed.

Lemma sdH_range : h <= sdH <= / w.
Proof.
  destruct sdk_range as [A B]. split.
  - apply (hg_far m vs H3 Hv 0 sdk); try lia. intros X. rewrite X in B. revert B. unfold prv. rewrite Nat.mod_small by lia. lia.
  - apply (hg_bound m vs H3 Hv); lia.
Qed.
Lemma sdH_small : (m <= 6)%nat -> sdH = h.
Proof.
  intros L. unfold sdH. assert (E : sdk = nxt m 0) by (unfold sdk, nxt; destruct (Nat.leb_spec m 6); [|lia]; rewrite Nat.mod_small; lia).
  rewrite E. apply (hg_next m vs H3 Hv 0 ltac:(lia)).
Qed.

Lemma sd_mults : superdMultipliers d = Some (repeat (1 / sdH) m).
Proof.
  pose proof sdH_range as [A _]. pose proof (h_pos m H3) as P. fold h in P. destruct sdk_range as [K1 K2].
  unfold superdMultipliers. rewrite (d_n_eq pzero vs d Hd), (d_verts_eq pzero vs d Hd), Lv. fold sdk.
  rewrite (nth_error_nth' vs pzero (n := sdk)) by lia. rewrite (nth_error_nth' vs pzero (n := 0)) by lia. cbn [bind].
  rewrite (local_closed pzero vs d Hd ltac:(lia) Cv Iv 0) by lia. cbn [bind py].
  assert (E : pcross (sidevec vs 0) (nth sdk vs pzero -p nth 0 vs pzero) / len2 vs 0 = sdH).
  { unfold sdH, hg, sarea, sidevec. unfold vtx. unfold pcross; cbn [px py padd psub pscale]. unfold Rdiv; f_equal; ring. }
  rewrite E, fdiv_some by lra. reflexivity.
Qed.

Definition sx (eps : R) (q : V2) (i : nat) : R :=
  let a := hg vs (prv m i) q in let b := hg vs (nxt m i) q in if Rlt_dec (a + b) eps then 0 else a / (a + b).

Lemma sd_map : forall eps q, 0 < eps -> closed_in vs q ->
  mapToRibbons KSuperD eps d q = Some (tabulate m (fun i => mkV2 (sx eps q i) (hg vs i q / sdH))).
Proof.
  intros eps q He Cl. unfold mapToRibbons. rewrite (d_n_eq pzero vs d Hd), Lv. apply mapM_seq. intros i Hi.
  cbn [mapToRibbon]. rewrite sd_mults. cbn [bind].
  assert (R : nth_error (repeat (1 / sdH) m) i = Some (1 / sdH)).
  { apply nth_error_repeat. exact Hi. }
  rewrite (parallel_any pzero vs d Hd ltac:(lia) Cv Iv eps _ i (1 / sdH) q _ ltac:(lia) R (bilinear_value m vs d H3 Hv Hd eps i q Hi He Cl)).
  cbn [px]. do 2 f_equal. unfold hg. unfold Rdiv. ring.
Qed.

(** ** Evaluation *)
Section Eval.
Variables (p p' : superd).
Hypothesis W : sdWf p.
Hypothesis Hn : su_n p = m.
Hypothesis U : sdUpdateRibbons p = Some p'.
Variables (eps : R) (q : V2).
Hypothesis He : 0 < eps.
Hypothesis Cl : closed_in vs q.
Let S_ (i : nat) : V3 := tens (rib p i) (sx eps q i) (hg vs i q / sdH).

Lemma updated : p' = mkSD (su_n p) (su_full p) (su_f p) (su_e p) (su_v p)
  (tabulate m (fun i => tabulate 5 (fun j => tabulate 5 (rib p i j)))).
Proof.
  revert U. unfold sdUpdateRibbons.
  rewrite (mapM_seq _ _ _ (fun i => tabulate 5 (fun j => tabulate 5 (rib p i j)))) by (intros i Hi; apply (ribbon_value p W i Hi)).
  cbn [bind]. rewrite Hn. intros [= <-]. reflexivity.
Qed.

Lemma sdEval_value : exists b, length b = m /\ rsum m (fun i => nth i b 0) = 1 /\
  (forall i, (i < m)%nat -> (exists e, (e < m)%nat /\ hg vs e q / sdH < eps) ->
     nth i b 0 = (if Rlt_dec (hg vs i q / sdH) eps then 1 else 0) / rsum m (fun j => if Rlt_dec (hg vs j q / sdH) eps then 1 else 0)) /\
  sdEval eps d p' q = Some (vsum m (fun i => S_ i *v nth i b 0)).
Proof.
  rewrite updated. set (sds := tabulate m (fun i => mkV2 (sx eps q i) (hg vs i q / sdH))).
  assert (Ls : length sds = m) by apply tabulate_length.
  destruct (sideSingular_partition eps sds He ltac:(lia)) as (b & E & Lb & _ & Su). exists b. rewrite Ls in Lb.
  assert (Nt : forall i, (i < m)%nat -> nth i sds pzero = mkV2 (sx eps q i) (hg vs i q / sdH)).
  { intros i Hi. apply nth_error_nth. unfold sds. rewrite tabulate_nth_error by exact Hi. reflexivity. }
  split; [exact Lb|]. split; [unfold sumsTo in Su; rewrite Lb in Su; exact Su|]. split.
  - intros i Hi (e & He' & Ce). pose proof (sideSingular_value eps sds He ltac:(lia)) as V. cbn zeta in V. rewrite E in V.
    assert (C : (0 < closeCount eps sds)%nat).
    { apply (close_some eps sds e); [lia|]. unfold dpar. rewrite Nt by exact He'. exact Ce. }
    destruct (Nat.ltb_spec 0 (closeCount eps sds)); [|lia]. injection V as ->.
    rewrite (nth_error_nth _ i 0 (x := isclose eps sds i / rsum (length sds) (isclose eps sds))).
    2: { apply (tabulate_nth_error R (length sds) (fun i => isclose eps sds i / rsum (length sds) (isclose eps sds)) i). lia. }
    unfold isclose at 1. unfold dpar. rewrite Nt by exact Hi. cbn [py]. f_equal. rewrite Ls. apply rsum_ext. intros j Hj. unfold isclose, dpar. rewrite Nt by exact Hj. reflexivity.
  - unfold sdEval. rewrite (sd_map eps q He Cl). fold sds. cbn [bind]. rewrite E. cbn [bind su_n su_q]. rewrite Hn. apply osum_total. intros i Hi.
    rewrite tabulate_nth_error by exact Hi. cbn [bind]. unfold sds. rewrite tabulate_nth_error by exact Hi. cbn [bind px py].
    rewrite (nth_error_nth' b 0) by lia. cbn [bind]. rewrite bez_value. reflexivity.
Qed.

Lemma all_same : forall P, (forall i, (i < m)%nat -> S_ i = P) -> sdEval eps d p' q = Some P.
Proof.
  intros P H. destruct sdEval_value as (b & _ & Su & _ & ->). f_equal.
  rewrite (vsum_ext m _ (fun i => P *v nth i b 0)) by (intros i Hi; rewrite H by exact Hi; reflexivity).
  rewrite vsum_const, Su. v3ring.
Qed.

Lemma close_same : forall P e, (e < m)%nat -> hg vs e q / sdH < eps ->
  (forall i, (i < m)%nat -> hg vs i q / sdH < eps -> S_ i = P) -> sdEval eps d p' q = Some P.
Proof.
  intros P e L C H. destruct sdEval_value as (b & _ & Su & B & ->). f_equal.
  rewrite (vsum_ext m _ (fun i => P *v nth i b 0)).
  - rewrite vsum_const, Su. v3ring.
  - intros i Hi. rewrite (B i Hi (ex_intro _ e (conj L C))). destruct (Rlt_dec _ eps) as [K|K]; [rewrite H by assumption; reflexivity|].
    unfold Rdiv. rewrite Rmult_0_l. v3ring.
Qed.

Lemma close_two : forall a e, (e < m)%nat -> (a < m)%nat -> a <> e -> hg vs e q / sdH < eps -> hg vs a q / sdH < eps ->
  (forall i, (i < m)%nat -> i <> a -> i <> e -> eps <= hg vs i q / sdH) -> sdEval eps d p' q = Some ((S_ e +v S_ a) *v / 2).
Proof.
  intros a e L La N C Ca H. destruct sdEval_value as (b & _ & _ & B & ->). f_equal.
  assert (T : rsum m (fun j => if Rlt_dec (hg vs j q / sdH) eps then 1 else 0) = 2).
  { rewrite (rsum_double m _ e a L La ltac:(auto)).
    - destruct (Rlt_dec _ eps); [|lra]. destruct (Rlt_dec _ eps); [|lra]. ring.
    - intros k Hk K1 K2. specialize (H k Hk K2 K1). destruct (Rlt_dec _ eps); [lra|reflexivity]. }
  rewrite (vsum_double m _ e a L La ltac:(auto)).
  - rewrite (B e L (ex_intro _ e (conj L C))), (B a La (ex_intro _ e (conj L C))), T.
    destruct (Rlt_dec _ eps); [|lra]. destruct (Rlt_dec _ eps); [|lra]. v3field.
  - intros k Hk K1 K2. rewrite (B k Hk (ex_intro _ e (conj L C))). specialize (H k Hk K2 K1). destruct (Rlt_dec _ eps); [lra|].
    unfold Rdiv. rewrite Rmult_0_l. v3ring.
Qed.
End Eval.

(** ** On the boundary *)
Section OnSide.
Variables (p p' : superd).
Hypothesis W : sdWf p.
Hypothesis Hn : su_n p = m.
Hypothesis U : sdUpdateRibbons p = Some p'.
Variables (eps : R) (e : nat) (s : R).
Hypothesis Hp : 0 < eps <= h * w / 2.
Hypothesis Hen : (e < m)%nat.
Hypothesis Hs : 0 <= s <= 1.
Let q := sidePt vs e s.
Let c (t : R) : V3 := bezier 4 (pt (bq p e)) t.

Let Hw : 0 < w. Proof. apply (w_pos m vs H3 Hv). Qed.
Let Hh : 0 < h. Proof. apply (h_pos m H3). Qed.
Let h1 : h <= 1. Proof. apply SIN_bound. Qed.
Let w1 : w <= 1. Proof. apply SIN_bound. Qed.
Let hw : 0 < h * w. Proof. apply Rmult_lt_0_compat; assumption. Qed.
Let hwh : h * w <= h. Proof. assert (h * w <= h * 1) by (apply Rmult_le_compat_l; lra). lra. Qed.
Let sdp : 0 < sdH. Proof. pose proof sdH_range. lra. Qed.
Let Cl : closed_in vs q. Proof. apply side_closed; first [exact Cv|exact Hs|lia]. Qed.
Let rw_ : w <= / sdH. Proof. pose proof sdH_range. rewrite <- (Rinv_inv w). apply Rinv_le_contravar; lra. Qed.
Let eh : eps <= 1/2 /\ eps <= h. Proof. lra. Qed.

Lemma far_away : forall i, (i < m)%nat -> i <> e -> i <> nxt m e -> i <> prv m e -> eps <= hg vs i q / sdH.
Proof.
  intros i Hi A B C. pose proof (y_far m vs H3 Hv e s Hen Hs i Hi A B C) as Y. fold h in Y. fold q in Y.
  assert (h * w <= hg vs i q * / sdH) by (apply Rmult_le_compat; lra). unfold Rdiv. lra.
Qed.

Lemma S_own : tens (rib p e) (sx eps q e) (hg vs e q / sdH) = c s.
Proof.
  assert (Y : hg vs e q = 0) by apply (y_own m vs H3 Hv e s Hen).
  assert (X : sx eps q e = s) by apply (bs_e m vs H3 Hv e s eps Hen Hs (conj (proj1 Hp) (proj1 eh)) (proj2 eh)).
  rewrite X, Y. unfold Rdiv. rewrite Rmult_0_l, tens_bottom. unfold c, bezier. apply vsum_ext. intros j Hj. f_equal.
  apply (rib_bottom p e j); lia.
Qed.
Lemma own_close : hg vs e q / sdH < eps.
Proof. assert (Y : hg vs e q = 0) by apply (y_own m vs H3 Hv e s Hen). rewrite Y. unfold Rdiv. lra. Qed.

Lemma d_next : hg vs (nxt m e) q / sdH = (1 - s) * (h / sdH).
Proof. assert (Y : hg vs (nxt m e) q = (1 - s) * h) by apply (y_next m vs H3 Hv e s Hen). rewrite Y. unfold Rdiv. ring. Qed.
Lemma d_prev : hg vs (prv m e) q / sdH = s * (h / sdH).
Proof. assert (Y : hg vs (prv m e) q = s * h) by apply (y_prev m vs H3 Hv e s Hen). rewrite Y. unfold Rdiv. ring. Qed.

Lemma S_next : tens (rib p (nxt m e)) (sx eps q (nxt m e)) (hg vs (nxt m e) q / sdH) = c (1 - (1 - s) * (h / sdH)).
Proof.
  assert (X : sx eps q (nxt m e) = 0) by apply (bs_next m vs H3 Hv e s eps Hen).
  assert (Ln : (nxt m e < m)%nat) by (apply nxt_lt; lia).
  rewrite X, d_next, tens_left. unfold c. rewrite <- bezier_rev. unfold bezier. apply vsum_ext. intros j Hj. f_equal.
  rewrite (rib_left p W) by lia. rewrite Hn, (prv_nxt m e Hen). reflexivity.
Qed.

Lemma S_prev : s * (h / sdH) < eps -> tens (rib p (prv m e)) (sx eps q (prv m e)) (hg vs (prv m e) q / sdH) = c (s * (h / sdH)).
Proof.
  intros K. assert (A : s * (h * w) <= s * (h / sdH)). { apply Rmult_le_compat_l; [lra|]. unfold Rdiv. apply Rmult_le_compat_l; lra. }
  assert (s < / 2) by nra.
  assert (X : sx eps q (prv m e) = 1).
  { apply (bs_prev m vs H3 Hv e s eps Hen Hs (conj (proj1 Hp) (proj1 eh)) (proj2 eh)). right. fold h. nra. }
  assert (Lp : (prv m e < m)%nat) by (apply prv_lt; lia).
  rewrite X, d_prev, tens_right. unfold c, bezier. apply vsum_ext. intros j Hj. f_equal.
  rewrite (rib_right p W) by lia. rewrite Hn, (nxt_prv m e Hen). reflexivity.
Qed.

Lemma side_exact : (m <= 6)%nat \/ s = 0 \/ s = 1 \/ (eps <= s * (h * w) /\ eps <= (1 - s) * (h * w)) ->
  sdEval eps d p' q = Some (c s).
Proof.
  intros Q. assert (R1 : h / sdH <= 1). { pose proof sdH_range. apply (Rmult_le_reg_r sdH); [exact sdp|]. unfold Rdiv. rewrite Rmult_assoc, Rinv_l by lra. lra. }
  assert (R0 : h * w <= h / sdH) by (unfold Rdiv; apply Rmult_le_compat_l; lra).
  apply (close_same p p' W Hn U eps q ltac:(lra) Cl (c s) e Hen own_close). intros i Hi Ci.
  destruct (Nat.eq_dec i e) as [->|N]; [apply S_own|].
  destruct (Nat.eq_dec i (nxt m e)) as [->|N1].
  - rewrite S_next. rewrite d_next in Ci. destruct Q as [Q|[->|[->|[Q1 Q2]]]].
    + rewrite (sdH_small Q). f_equal. field. lra.
    + exfalso. lra.
    + f_equal. ring.
    + exfalso. assert ((1 - s) * (h * w) <= (1 - s) * (h / sdH)) by (apply Rmult_le_compat_l; lra). lra.
  - destruct (Nat.eq_dec i (prv m e)) as [->|N2].
    + rewrite d_prev in Ci. rewrite S_prev by exact Ci. destruct Q as [Q|[->|[->|[Q1 Q2]]]].
      * rewrite (sdH_small Q). f_equal. field. lra.
      * f_equal. ring.
      * exfalso. lra.
      * exfalso. assert (s * (h * w) <= s * (h / sdH)) by (apply Rmult_le_compat_l; lra). lra.
    + exfalso. pose proof (far_away i Hi N N1 N2). lra.
Qed.

(** Near the corners: the mean of two points of the curve. *)
Lemma side_start : s * (h / sdH) < eps -> sdEval eps d p' q = Some ((c s +v c (s * (h / sdH))) *v / 2).
Proof.
  intros K. assert (R0 : h * w <= h / sdH) by (unfold Rdiv; apply Rmult_le_compat_l; lra).
  assert (s * (h * w) <= s * (h / sdH)) by (apply Rmult_le_compat_l; lra). assert (s < / 2) by nra.
  rewrite (close_two p p' W Hn U eps q ltac:(lra) Cl (prv m e) e Hen ltac:(apply prv_lt; lia) ltac:(apply prv_neq; lia) own_close ltac:(rewrite d_prev; exact K)).
  - rewrite S_own, S_prev by exact K. reflexivity.
  - intros i Hi N1 N. destruct (Nat.eq_dec i (nxt m e)) as [->|N2]; [|apply far_away; assumption]. rewrite d_next.
    assert ((1 - s) * (h * w) <= (1 - s) * (h / sdH)) by (apply Rmult_le_compat_l; lra). nra.
Qed.
Lemma side_end : (1 - s) * (h / sdH) < eps -> sdEval eps d p' q = Some ((c s +v c (1 - (1 - s) * (h / sdH))) *v / 2).
Proof.
  intros K. assert (R0 : h * w <= h / sdH) by (unfold Rdiv; apply Rmult_le_compat_l; lra).
  assert ((1 - s) * (h * w) <= (1 - s) * (h / sdH)) by (apply Rmult_le_compat_l; lra). assert (1 - s < / 2) by nra.
  rewrite (close_two p p' W Hn U eps q ltac:(lra) Cl (nxt m e) e Hen ltac:(apply nxt_lt; lia) ltac:(apply nxt_neq; lia) own_close ltac:(rewrite d_next; exact K)).
  - rewrite S_own, S_next. reflexivity.
  - intros i Hi N1 N. destruct (Nat.eq_dec i (prv m e)) as [->|N2]; [|apply far_away; assumption]. rewrite d_prev.
    assert (s * (h * w) <= s * (h / sdH)) by (apply Rmult_le_compat_l; lra). nra.
Qed.
End OnSide.
End Reg.
