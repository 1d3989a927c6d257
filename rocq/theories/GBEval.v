(** Generalized Bezier patches: the evaluators. *)
From Verif Require Import Base UtilModel UtilSpec UtilProofs DomainModel ParamModel GBModel GBSpec GBProofs.
Open Scope R_scope.

(** The value at an address, 0 outside. *)
Definition cpv (g : gbsurf) (i j k : nat) : V3 := match controlPoint g i j k with Some p => p | None => vzero end.

Lemma cpv_some : forall n d g i j k, shaped n d g -> inRange n d (i, j, k) -> controlPoint g i j k = Some (cpv g i j k).
Proof.
  intros n d g i j k S R. destruct (getp_some n d g _ S R) as [p E]. cbn [getp] in E. unfold cpv. rewrite E. reflexivity.
Qed.

(** An accumulating loop. *)
Lemma fold_acc : forall (f : V3 * R -> nat -> option (V3 * R)) (F : nat -> V3) (w : nat -> R) m a st,
  (forall st j, (a <= j < a + m)%nat -> f st j = Some (fst st +v F j, snd st + w j)) ->
  foldM f st (seq a m) = Some (fst st +v vsum m (fun j => F (a + j)%nat), snd st + rsum m (fun j => w (a + j)%nat)).
Proof.
  intros f F w m; induction m as [|m IH]; intros a st H.
  - simpl. f_equal. destruct st as [q x]. simpl. f_equal; [v3ring|ring].
  - cbn [seq foldM]. rewrite H by lia. cbn [bind]. rewrite IH by (intros; apply H; lia). cbn [fst snd]. f_equal.
    rewrite vsum_first, rsum_first. rewrite Nat.add_0_r.
    rewrite (vsum_ext m (fun j => F (S a + j)%nat) (fun i => F (a + S i)%nat)) by (intros; f_equal; lia).
    rewrite (rsum_ext m (fun j => w (S a + j)%nat) (fun i => w (a + S i)%nat)) by (intros; f_equal; lia).
    f_equal; [v3ring|ring].
Qed.
Lemma fold_acc0 : forall (f : V3 * R -> nat -> option (V3 * R)) (F : nat -> V3) (w : nat -> R) m st,
  (forall st j, (j < m)%nat -> f st j = Some (fst st +v F j, snd st + w j)) ->
  foldM f st (seq 0 m) = Some (fst st +v vsum m F, snd st + rsum m w).
Proof. intros f F w m st H. rewrite (fold_acc f F w m 0 st) by (intros; apply H; lia). reflexivity. Qed.

Definition rat (sq : bool) (a b : R) : R := if sq then a * a / (a * a + b * b) else a / (a + b).
Lemma sumsq_pos : forall a b, 0 < a + b -> 0 < a * a + b * b.
Proof. intros a b H. destruct (Rle_lt_dec (a * a + b * b) 0); [|assumption]. exfalso. assert (a = 0) by nra. assert (b = 0) by nra. lra. Qed.
Lemma ratio_rat : forall sq a b, 0 < a + b -> gbRatio sq a b = Some (rat sq a b).
Proof. intros sq a b H. unfold gbRatio, rat. pose proof (sumsq_pos a b H). destruct sq; apply fdiv_some; lra. Qed.
Lemma rat_nonneg : forall sq a b, 0 <= a -> 0 <= b -> 0 < a + b -> 0 <= rat sq a b.
Proof.
  intros sq a b Ha Hb H. unfold rat, Rdiv. pose proof (sumsq_pos a b H). destruct sq; apply Rmult_le_pos; try nra; left; apply Rinv_0_lt_compat; lra.
Qed.
Lemma rat_one : forall sq a, 0 < a -> rat sq a 0 = 1.
Proof. intros sq a H. unfold rat. destruct sq; field; lra. Qed.
Lemma rat_zero : forall sq b, rat sq 0 b = 0.
Proof. intros sq b. unfold rat. destruct sq; unfold Rdiv; ring. Qed.

Section Ev.
Variables (n d : nat) (g : gbsurf).
Hypothesis Sh : shaped n d g.
Variables (S D : nat -> R).
Variables (sds : list V2).
Hypothesis Hsd : forall i, (i < n)%nat -> nth_error sds i = Some (mkV2 (S i) (D i)).
Let l := ((d + 1) / 2)%nat.
Let A (i : nat) : R := rat (gb_sq g) (D (prv n i)) (D i).
Let B (i : nat) : R := rat (gb_sq g) (D (nxt n i)) (D i).
Definition wgt (i j k : nat) : R := gbFactor d j k (A i) (B i) (bern d j (S i) * bern d k (D i)).

Lemma net_some : forall i, (i < n)%nat -> exists net, nth_error (gb_nets g) i = Some net /\
  forall j k, (j <= d)%nat -> (k < l)%nat -> exists row, nth_error net j = Some row /\ nth_error row k = Some (cpv g i j k).
Proof.
  intros i Hi. destruct (nth_error_ex _ (gb_nets g) i) as [net E]; [destruct Sh as (_ & _ & _ & L & _); lia|].
  exists net. split; [exact E|]. intros j k Hj Hk. apply lay_le in Hk.
  pose proof (cpv_some n d g i j k Sh (conj Hi (conj Hj Hk))) as C. unfold controlPoint, get3 in C. rewrite E in C. cbn [bind] in C.
  destruct (nth_error net j) as [row|]; [|discriminate]. exists row. split; [reflexivity|exact C].
Qed.

Lemma side_sum : forall i net st, (i < n)%nat -> nth_error (gb_nets g) i = Some net ->
  gbSide net d l (bernsteinList d (S i)) (bernsteinList d (D i)) (A i) (B i) st =
  Some (fst st +v vsum l (fun k => vsum (d + 1) (fun j => cpv g i j k *v wgt i j k)),
        snd st + rsum l (fun k => rsum (d + 1) (fun j => wgt i j k))).
Proof.
  intros i net st Hi E. destruct (net_some i Hi) as (net' & E' & N). rewrite E in E'. injection E' as <-.
  unfold gbSide. apply fold_acc0. intros st1 k Hk. apply fold_acc0. intros st2 j Hj.
  rewrite bernsteinList_nth by lia. cbn [bind]. rewrite bernsteinList_nth by (apply lay_le in Hk; lia). cbn [bind].
  destruct (N j k ltac:(lia) Hk) as (row & R1 & R2). rewrite R1. cbn [bind]. rewrite R2. reflexivity.
Qed.

Variable eps : R.
Hypothesis He : 0 < eps.

(** The loop over sides none of which is next to a corner. *)
Lemma loop_sum : forall m a st, (a + m <= n)%nat ->
  (forall i, (a <= i < a + m)%nat -> eps <= D i + D (nxt n i) /\ eps <= D (prv n i) + D i) ->
  gbLoop eps g sds (seq a m) st =
  Some (inr (fst st +v vsum m (fun i => vsum l (fun k => vsum (d + 1) (fun j => cpv g (a + i) j k *v wgt (a + i) j k))),
             snd st + rsum m (fun i => rsum l (fun k => rsum (d + 1) (fun j => wgt (a + i) j k))))).
Proof.
  induction m as [|m IH]; intros a st Ha Hc.
  - simpl. do 2 f_equal. destruct st as [q x]; simpl; f_equal; [v3ring|ring].
  - destruct (Hc a ltac:(lia)) as [H1 H2]. destruct Sh as (Sn & Sd & Sl & _).
    cbn [seq gbLoop]. rewrite Sn, Sd, Sl. rewrite !Hsd by (try apply prv_lt; try apply nxt_lt; lia). cbn [bind px py].
    destruct (Rlt_dec (D a + D (nxt n a)) eps); [lra|]. destruct (Rlt_dec (D (prv n a) + D a) eps); [lra|].
    rewrite ratio_rat by lra. cbn [bind]. rewrite ratio_rat by lra. cbn [bind].
    destruct (net_some a ltac:(lia)) as (net & E & _). rewrite E. cbn [bind]. fold l (A a) (B a). rewrite (side_sum a net st ltac:(lia) E). cbn [bind].
    rewrite IH by (try lia; intros i Hi; apply Hc; lia). cbn [fst snd]. rewrite vsum_first, rsum_first, Nat.add_0_r. do 2 f_equal.
    rewrite (vsum_ext m _ (fun i => vsum l (fun k => vsum (d + 1) (fun j => cpv g (a + Datatypes.S i) j k *v wgt (a + Datatypes.S i) j k))))
      by (intros; rewrite Nat.add_succ_comm; reflexivity).
    rewrite (rsum_ext m _ (fun i => rsum l (fun k => rsum (d + 1) (fun j => wgt (a + Datatypes.S i) j k))))
      by (intros; rewrite Nat.add_succ_comm; reflexivity).
    f_equal; [v3ring|ring].
Qed.

Lemma eval_sum : (forall i, (i < n)%nat -> eps <= D i + D (nxt n i)) ->
  gbEval eps g sds = Some (vsum n (fun i => vsum l (fun k => vsum (d + 1) (fun j => cpv g i j k *v wgt i j k)))
    +v gb_cen g *v (1 - rsum n (fun i => rsum l (fun k => rsum (d + 1) (fun j => wgt i j k))))).
Proof.
  intros Hc. unfold gbEval. destruct Sh as (Sn & _). rewrite Sn. rewrite loop_sum; [|lia|].
  - cbn [bind fst snd Nat.add]. f_equal. v3ring.
  - intros i Hi. split; [apply Hc; lia|]. pose proof (Hc (prv n i) ltac:(apply prv_lt; lia)) as X. rewrite nxt_prv in X by lia. exact X.
Qed.

Lemma weight_value : forall i j k, (i < n)%nat -> (j <= d)%nat -> (k < l)%nat ->
  eps <= D i + D (nxt n i) -> eps <= D (prv n i) + D i -> gbWeight eps g sds i j k = Some (wgt i j k).
Proof.
  intros i j k Hi Hj Hk H1 H2. unfold gbWeight. destruct Sh as (Sn & Sd & Sl & _). rewrite Sn, Sd.
  pose proof Hk as Hk'. apply lay_le in Hk'. unfold wgt, gbFactor, above, meets.
  destruct (Nat.ltb_spec d k) as [X|_]; [lia|].
  assert (G : nth_error sds i = Some (mkV2 (S i) (D i))) by (apply Hsd; exact Hi).
  assert (Gp : nth_error sds (prv n i) = Some (mkV2 (S (prv n i)) (D (prv n i)))) by (apply Hsd, prv_lt; lia).
  assert (Gn : nth_error sds (nxt n i) = Some (mkV2 (S (nxt n i)) (D (nxt n i)))) by (apply Hsd, nxt_lt; lia).
  rewrite G, Gp, Gn. cbn [bind px py]. destruct (Rlt_dec (D i + D (nxt n i)) eps); [lra|]. destruct (Rlt_dec (D (prv n i) + D i) eps); [lra|].
  rewrite !bernsteinSingle_spec by lia. cbn [bind].
  assert (FA : forall sq b a c, 0 < a + c -> (if sq : bool then fdiv (b * (a * a)) (a * a + c * c) else fdiv (b * a) (a + c)) = Some (b * rat sq a c)).
  { intros sq b a c P. pose proof (sumsq_pos a c P). unfold rat. destruct sq; rewrite fdiv_some by lra; f_equal; field; lra. }
  destruct (Nat.leb_spec 2 k) as [K|K].
  - destruct (Nat.ltb_spec k 2) as [X|_]; [lia|]. cbn [andb].
    destruct (Nat.ltb_spec j k) as [J|J]; cbn [orb].
    + destruct (Nat.eqb_spec j k) as [X|_]; [lia|]. cbn [orb]. destruct (Nat.eqb_spec j (d - k)); [lia|]. reflexivity.
    + destruct (Nat.ltb_spec (d - k) j) as [J2|J2].
      * destruct (Nat.eqb_spec j k) as [X|_]; [lia|]. cbn [orb]. destruct (Nat.eqb_spec j (d - k)); [lia|]. reflexivity.
      * destruct (Nat.eqb_spec j k) as [X|_]; cbn [orb]; [reflexivity|]. destruct (Nat.eqb_spec j (d - k)); reflexivity.
  - destruct (Nat.ltb_spec k 2) as [_|X]; [|lia]. cbn [andb].
    destruct (Nat.ltb_spec j 2) as [J|J]; cbn [orb].
    + apply FA. lra.
    + assert (Dn : (2 <= d)%nat) by lia. destruct (Nat.ltb_spec d 2) as [X|_]; [lia|].
      destruct (Nat.ltb_spec (d - 2) j) as [J2|J2]; [apply FA; lra|].
      destruct (Nat.eqb_spec j k) as [X|_]; [reflexivity|]. destruct (Nat.eqb_spec j (d - k)); [reflexivity|]. cbn [orb].
      destruct (Nat.ltb_spec j k); [lia|]. destruct (Nat.ltb_spec (d - k) j); [lia|]. reflexivity.
Qed.

Lemma wgt_nonneg : forall i j k, 0 <= S i <= 1 -> 0 <= D i <= 1 -> 0 <= D (prv n i) -> 0 <= D (nxt n i) ->
  0 < D i + D (nxt n i) -> 0 < D (prv n i) + D i -> 0 <= wgt i j k.
Proof.
  intros i j k HS HD Hp Hn H1 H2. unfold wgt.
  assert (Q : 0 <= bern d j (S i) * bern d k (D i)) by (apply Rmult_le_pos; apply bern_nonneg; assumption).
  assert (QA : 0 <= A i) by (apply rat_nonneg; lra). assert (QB : 0 <= B i) by (apply rat_nonneg; lra).
  unfold gbFactor. destruct (_ && _)%bool; [destruct (_ <? _)%nat; apply Rmult_le_pos; assumption|].
  destruct (_ || _)%bool; [apply Rmult_le_pos; lra|]. destruct (_ || _)%bool; [lra|exact Q].
Qed.

Lemma factor_zero : forall j k a b, gbFactor d j k a b 0 = 0.
Proof.
  intros j k a b. unfold gbFactor. destruct (_ && _)%bool; [destruct (_ <? _)%nat; ring|]. destruct (_ || _)%bool; [ring|].
  destruct (_ || _)%bool; ring.
Qed.

Lemma bern_at_1 : forall k, (k < d)%nat -> bern d k 1 = 0.
Proof.
  intros k H. unfold bern. replace (1 - 1) with 0 by ring. rewrite (pow_i (d - k)) by lia. ring.
Qed.
Lemma bern_at_0 : forall k, (0 < k)%nat -> bern d k 0 = 0.
Proof. intros k H. unfold bern. rewrite pow_i by exact H. ring. Qed.
Lemma bern_1_last : bern d d 1 = 1.
Proof. unfold bern. rewrite choose_diag, Nat.sub_diag, pow1. simpl; ring. Qed.
Lemma bern_0_first : bern d 0 0 = 1.
Proof. unfold bern. rewrite choose_0. replace (1 - 0) with 1 by ring. rewrite pow1. simpl; ring. Qed.

Lemma wgt_far : forall i j k, (k < l)%nat -> D i = 1 -> wgt i j k = 0.
Proof. intros i j k Hk H. unfold wgt. apply lay_le in Hk. rewrite H, bern_at_1 by lia. rewrite Rmult_0_r. apply factor_zero. Qed.
Lemma wgt_zero : forall i j k, bern d j (S i) * bern d k (D i) = 0 -> wgt i j k = 0.
Proof. intros i j k H. unfold wgt. rewrite H. apply factor_zero. Qed.

(** On side [e]: only its first row counts. *)
Variables (e : nat) (s : R).
Hypothesis Hn : (3 <= n)%nat.
Hypothesis Hd2 : (2 <= d)%nat.
Hypothesis Hen : (e < n)%nat.
Hypothesis He1 : S e = s.
Hypothesis He2 : D e = 0.
Hypothesis Hn1 : S (nxt n e) = 0.
Hypothesis Hn2 : D (nxt n e) = 1 - s.
Hypothesis Hp1 : S (prv n e) = 1.
Hypothesis Hp2 : D (prv n e) = s.
Hypothesis Hf : forall i, (i < n)%nat -> i <> e -> i <> nxt n e -> i <> prv n e -> D i = 1.
Hypothesis Hs : 0 < s < 1.

Lemma wgt_side : forall i j k, (i < n)%nat -> (j <= d)%nat -> (k < l)%nat ->
  wgt i j k = if (i =? e)%nat then if (k =? 0)%nat then bern d j s else 0 else 0.
Proof.
  intros i j k Hi Hj Hk. pose proof Hk as Hk'. apply lay_le in Hk'.
  destruct (Nat.eqb_spec i e) as [->|N1].
  - destruct (Nat.eqb_spec k 0) as [->|K].
    + unfold wgt. rewrite He1, He2, bern_0_first, Rmult_1_r. unfold A, B. rewrite He2, Hn2, Hp2, !rat_one by lra.
      unfold gbFactor, above, meets. destruct (Nat.ltb_spec d 2) as [X|_]; [lia|]. destruct (Nat.ltb_spec d 0) as [X|_]; [lia|].
      destruct (Nat.ltb_spec 0 2) as [_|X]; [|lia]. cbn [andb].
      destruct (Nat.ltb_spec j 2) as [J|J]; cbn [orb]; [ring|]. destruct (Nat.ltb_spec (d - 2) j) as [J2|J2]; [ring|].
      destruct (Nat.eqb_spec j 0); [lia|]. destruct (Nat.eqb_spec j (d - 0)); [lia|]. cbn [orb].
      destruct (Nat.ltb_spec (d - 0) j); [lia|]. reflexivity.
    + apply wgt_zero. rewrite He2, bern_at_0 by lia. ring.
  - destruct (Nat.eq_dec i (nxt n e)) as [->|N2]; [|destruct (Nat.eq_dec i (prv n e)) as [->|N3]].
    + (* the next side: only column 0, weighted with alpha = 0 *)
      destruct (Nat.eq_dec j 0) as [->|J].
      * unfold wgt. unfold A. rewrite prv_nxt by exact Hen. rewrite He2, rat_zero.
        unfold gbFactor. destruct (Nat.ltb_spec k 2) as [K|K].
        -- cbn [andb Nat.ltb Nat.leb orb]. ring.
        -- cbn [andb]. destruct (Nat.eqb_spec 0 k) as [X|_]; [lia|]. unfold meets. destruct (Nat.ltb_spec d k) as [X|_]; [lia|].
           destruct (Nat.eqb_spec 0 (d - k)) as [X|_]; [lia|]. cbn [orb]. destruct (Nat.ltb_spec 0 k) as [_|X]; [reflexivity|lia].
      * apply wgt_zero. rewrite Hn1, bern_at_0 by lia. ring.
    + (* the previous side: only the last column, weighted with beta = 0 *)
      destruct (Nat.eq_dec j d) as [->|J].
      * unfold wgt. unfold B. rewrite nxt_prv by exact Hen. rewrite He2, rat_zero.
        unfold gbFactor, above, meets. destruct (Nat.ltb_spec d k) as [X|_]; [lia|]. destruct (Nat.ltb_spec d 2) as [X|_]; [lia|].
        destruct (Nat.ltb_spec k 2) as [K|K].
        -- destruct (Nat.ltb_spec (d - 2) d) as [_|X]; [|lia]. rewrite orb_true_r. cbn [andb].
           destruct (Nat.ltb_spec d 2) as [X|_]; [lia|]. ring.
        -- cbn [andb]. destruct (Nat.eqb_spec d k) as [X|_]; [lia|].
           destruct (Nat.eqb_spec d (d - k)) as [X|_]; [lia|]. cbn [orb]. destruct (Nat.ltb_spec (d - k) d) as [_|X]; [|lia].
           destruct (d <? k)%nat; reflexivity.
      * apply wgt_zero. rewrite Hp1, bern_at_1 by lia. ring.
    + apply wgt_far; [exact Hk|]. apply Hf; assumption.
Qed.

Lemma l_pos : (0 < l)%nat. Proof. apply lay_le. lia. Qed.

Lemma side_eval : eps <= s <= 1 - eps -> gbEval eps g sds = Some (boundaryCurve g d e s).
Proof.
  intros Hb. rewrite eval_sum.
  - assert (Q : rsum n (fun i => rsum l (fun k => rsum (d + 1) (fun j => wgt i j k))) = 1).
    { rewrite (rsum_single n _ e Hen).
      - rewrite (rsum_single l _ 0 l_pos).
        + rewrite <- (bern_sum d s). apply rsum_ext. intros j Hj. rewrite wgt_side by (try apply l_pos; lia). rewrite Nat.eqb_refl. reflexivity.
        + intros k Hk K. apply rsum_zero. intros j Hj. rewrite wgt_side by lia. rewrite Nat.eqb_refl.
          destruct (Nat.eqb_spec k 0); [contradiction|reflexivity].
      - intros i Hi N. apply rsum_zero. intros k Hk. apply rsum_zero. intros j Hj. rewrite wgt_side by lia.
        destruct (Nat.eqb_spec i e); [contradiction|reflexivity]. }
    rewrite Q. f_equal. transitivity (boundaryCurve g d e s +v gb_cen g *v (1 - 1)); [|v3ring]. f_equal.
    rewrite (vsum_single n _ e Hen).
    + rewrite (vsum_single l _ 0%nat l_pos).
      * unfold boundaryCurve, bezier. apply vsum_ext. intros j Hj. rewrite wgt_side by (try apply l_pos; lia). rewrite Nat.eqb_refl. reflexivity.
      * intros k Hk K. apply vsum_zero. intros j Hj. rewrite wgt_side by lia. rewrite Nat.eqb_refl.
        destruct (Nat.eqb_spec k 0); [contradiction|v3ring].
    + intros i Hi N. apply vsum_zero. intros k Hk. apply vsum_zero. intros j Hj. rewrite wgt_side by lia.
      destruct (Nat.eqb_spec i e); [contradiction|v3ring].
  - intros i Hi. assert (Fi : forall i, (i < n)%nat -> i <> e -> eps <= D i).
    { intros i' Hi' N. destruct (Nat.eq_dec i' (nxt n e)) as [->|N2]; [lra|]. destruct (Nat.eq_dec i' (prv n e)) as [->|N3]; [lra|].
      rewrite Hf by assumption. lra. }
    assert (F0 : forall i, (i < n)%nat -> 0 <= D i).
    { intros i' Hi'. destruct (Nat.eq_dec i' e) as [->|N]; [lra|]. pose proof (Fi i' Hi' N). lra. }
    pose proof (nxt_lt n i ltac:(lia)) as Hni. destruct (Nat.eq_dec i e) as [->|N].
    + pose proof (Fi (nxt n e) Hni ltac:(apply nxt_neq; lia)). lra.
    + pose proof (Fi i Hi N). pose proof (F0 _ Hni). lra.
Qed.

End Ev.

(** Near a corner: the first side of the loop that notices it returns a
    control point. *)
Lemma loop_corner : forall n d g (S D : nat -> R) sds eps, shaped n d g -> (1 <= d)%nat -> (3 <= n)%nat -> 0 < eps ->
  (forall i, (i < n)%nat -> nth_error sds i = Some (mkV2 (S i) (D i))) ->
  forall e, (e < n)%nat -> D e + D (nxt n e) < eps -> consistent n d g ->
  (forall i, (i < n)%nat -> i <> e -> eps <= D i + D (nxt n i)) ->
  gbEval eps g sds = controlPoint g e d 0.
Proof.
  intros n d g S D sds eps Sh Hd Hn He Hsd e Hen Hc Co Hf.
  assert (Rg : inRange n d (e, d, 0)%nat) by (simpl; lia).
  assert (Rn : inRange n d (nxt n e, 0, 0)%nat) by (simpl; pose proof (nxt_lt n e); lia).
  pose proof (cpv_some n d g e d 0 Sh Rg) as C1. rewrite C1.
  assert (C2 : controlPoint g (nxt n e) 0 0 = Some (cpv g e d 0)).
  { rewrite <- C1. apply (Co (nxt n e, 0, 0)%nat (e, d, 0)%nat Rn Rg).
    pose proof (mirror_prv n d (nxt n e) 0 0 ltac:(apply nxt_lt; lia) ltac:(lia)) as M. rewrite prv_nxt in M by exact Hen.
    rewrite Nat.sub_0_r in M. exact M. }
  assert (G : forall m a st, (a + m = n)%nat -> (a <= e)%nat ->
    gbLoop eps g sds (seq a m) st = Some (inl (cpv g e d 0))).
  { induction m as [|m IH]; intros a st Ha Hae; [lia|].
    pose proof Sh as (Sn & Sd & Sl & _). cbn [seq gbLoop]. rewrite Sn, Sd, Sl.
    rewrite !Hsd by (try apply prv_lt; try apply nxt_lt; lia). cbn [bind px py].
    destruct (Nat.eq_dec a e) as [->|Na].
    - destruct (Rlt_dec _ eps) as [_|X]; [|lra]. unfold controlPoint in C1. rewrite C1. reflexivity.
    - pose proof (Hf a ltac:(lia) Na). destruct (Rlt_dec (D a + D (nxt n a)) eps); [lra|].
      destruct (Nat.eq_dec (prv n a) e) as [Ep|Np].
      + rewrite Ep. assert (En : nxt n e = a) by (rewrite <- Ep; apply nxt_prv; lia). rewrite En in Hc, C2.
        destruct (Rlt_dec (D e + D a) eps) as [_|X]; [|lra]. unfold controlPoint in C2. rewrite C2. reflexivity.
      + pose proof (Hf (prv n a) ltac:(apply prv_lt; lia) Np) as Y. rewrite nxt_prv in Y by lia.
        destruct (Rlt_dec (D (prv n a) + D a) eps); [lra|].
        rewrite !ratio_rat by lra. cbn [bind]. destruct (net_some n d g Sh a ltac:(lia)) as (net & E & _). rewrite E. cbn [bind].
        rewrite (side_sum n d g Sh S D a net st ltac:(lia) E). cbn [bind]. apply IH; lia. }
  unfold gbEval. pose proof Sh as (Sn & _). rewrite Sn. rewrite G by lia. reflexivity.
Qed.
