(** Generalized Bezier patches: corners, degree 1, and the corner variant. *)
From Verif Require Import Base UtilModel UtilSpec UtilProofs DomainModel ParamModel GBModel GBSpec GBProofs GBEval.
Open Scope R_scope.

(** ** At a corner *)
Section Corner.
Variables (n d : nat) (g : gbsurf).
Hypothesis Sh : shaped n d g.
Variables (S D : nat -> R).
Variables (sds : list V2).
Hypothesis Hsd : forall i, (i < n)%nat -> nth_error sds i = Some (mkV2 (S i) (D i)).
Let l := ((d + 1) / 2)%nat.
Variables (eps : R) (e : nat).
Hypothesis He : 0 < eps <= 1.
Hypothesis Hn : (3 <= n)%nat.
Hypothesis Hd1 : (1 <= d)%nat.
Hypothesis Hen : (e < n)%nat.
Hypothesis D0 : D e = 0.
Hypothesis D1 : D (nxt n e) = 0.
Hypothesis DF : forall i, (i < n)%nat -> i <> e -> i <> nxt n e -> D i = 1.

Lemma far_sum : forall i, (i < n)%nat -> i <> e -> eps <= D i + D (nxt n i).
Proof.
  intros i Hi N. pose proof (nxt_lt n i ltac:(lia)) as Hx.
  assert (P : forall i, (i < n)%nat -> 0 <= D i).
  { intros i' Hi'. destruct (Nat.eq_dec i' e) as [->|N1]; [lra|]. destruct (Nat.eq_dec i' (nxt n e)) as [->|N2]; [lra|]. rewrite DF by assumption; lra. }
  destruct (Nat.eq_dec i (nxt n e)) as [->|N2].
  - rewrite (DF (nxt n (nxt n e))); [lra|exact Hx| |].
    + intros X. apply (nxt_prv_neq n e Hn Hen). apply (nxt_inj n); [apply nxt_lt; lia|apply prv_lt; lia|].
      rewrite X, nxt_prv by exact Hen. reflexivity.
    + apply nxt_neq; [lia|apply nxt_lt; lia].
  - rewrite (DF i) by assumption. pose proof (P _ Hx). lra.
Qed.

Lemma corner_weight : forall i j k, (i < n)%nat -> (j <= d)%nat -> (k < l)%nat ->
  gbWeight eps g sds i j k =
  Some (if (i =? e)%nat then if ((j =? d) && (k =? 0))%nat%bool then 1/2 else 0
        else if (i =? nxt n e)%nat then if ((j =? 0) && (k =? 0))%nat%bool then 1/2 else 0 else 0).
Proof.
  intros i j k Hi Hj Hk. pose proof Hk as Hk'. apply lay_le in Hk'.
  assert (Nne : nxt n e <> e) by (apply nxt_neq; lia).
  assert (Hx : (nxt n e < n)%nat) by (apply nxt_lt; lia).
  destruct (Nat.eqb_spec i e) as [->|N1]; [|destruct (Nat.eqb_spec i (nxt n e)) as [->|N2]].
  - unfold gbWeight. destruct Sh as (Sn & Sd & _). rewrite Sn, Sd.
    destruct (Nat.leb_spec 2 k) as [K|K]; cbn [andb].
    + destruct (Nat.eqb_spec k 0); [lia|]. rewrite ?andb_false_r. destruct (_ || _)%bool; [reflexivity|].
      rewrite !Hsd by (try apply prv_lt; lia). cbn [bind px py]. destruct (Rlt_dec _ eps); [|lra]. reflexivity.
    + rewrite !Hsd by (try apply prv_lt; lia). cbn [bind px py]. destruct (Rlt_dec _ eps); [|lra]. reflexivity.
  - unfold gbWeight. destruct Sh as (Sn & Sd & _). rewrite Sn, Sd. rewrite prv_nxt by exact Hen.
    assert (Sx : eps <= D (nxt n e) + D (nxt n (nxt n e))) by (apply far_sum; [exact Hx|apply nxt_neq; lia]).
    destruct (Nat.leb_spec 2 k) as [K|K]; cbn [andb].
    + destruct (Nat.eqb_spec k 0); [lia|]. rewrite ?andb_false_r. destruct (_ || _)%bool; [reflexivity|].
      rewrite !Hsd by (try apply nxt_lt; lia). cbn [bind px py]. destruct (Rlt_dec _ eps); [lra|]. destruct (Rlt_dec _ eps); [reflexivity|lra].
    + rewrite !Hsd by (try apply nxt_lt; lia). cbn [bind px py]. destruct (Rlt_dec _ eps); [lra|]. destruct (Rlt_dec _ eps); [reflexivity|lra].
  - rewrite (weight_value n d g Sh S D sds Hsd eps) by (try assumption; try lra; try (apply far_sum; assumption);
      pose proof (far_sum (prv n i) ltac:(apply prv_lt; lia)) as X; rewrite nxt_prv in X by exact Hi; apply X;
      intros Y; apply N2; rewrite <- Y, nxt_prv by exact Hi; reflexivity).
    f_equal. apply wgt_far; [exact Hk|]. apply DF; assumption.
Qed.

End Corner.

(** ** Degree 1 on a side *)
Section Linear.
Variables (n : nat) (g : gbsurf).
Hypothesis Sh : shaped n 1 g.
Variables (S D : nat -> R).
Variables (sds : list V2).
Hypothesis Hsd : forall i, (i < n)%nat -> nth_error sds i = Some (mkV2 (S i) (D i)).
Variables (eps : R) (e : nat) (s : R).
Hypothesis He : 0 < eps.
Hypothesis Hn : (3 <= n)%nat.
Hypothesis Hen : (e < n)%nat.
Hypothesis He1 : S e = s.
Hypothesis He2 : D e = 0.
Hypothesis Hn1 : S (nxt n e) = 0.
Hypothesis Hn2 : D (nxt n e) = 1 - s.
Hypothesis Hp1 : S (prv n e) = 1.
Hypothesis Hp2 : D (prv n e) = s.
Hypothesis Hf : forall i, (i < n)%nat -> i <> e -> i <> nxt n e -> i <> prv n e -> D i = 1.
Hypothesis Hs : 0 < s < 1.
Hypothesis Hb : eps <= s <= 1 - eps.

Lemma bern1 : forall u, bern 1 0 u = 1 - u /\ bern 1 1 u = u.
Proof. intros u. unfold bern. simpl. split; ring. Qed.

Let w1 := (1 - s) * rat (gb_sq g) (D (prv n (prv n e))) s.

Lemma linear_wgt : forall i j, (i < n)%nat -> (j <= 1)%nat ->
  wgt n 1 g S D i j 0 = if (i =? e)%nat then bern 1 j s else if ((i =? prv n e) && (j =? 1))%nat%bool then w1 else 0.
Proof.
  intros i j Hi Hj. destruct (bern1 0) as [B0 _].
  assert (F : forall x y z, gbFactor 1 j 0 x y z = z * x) by (intros; unfold gbFactor; destruct j as [|[|j]]; [reflexivity|reflexivity|lia]).
  destruct (Nat.eqb_spec i e) as [->|N1].
  - unfold wgt. rewrite He1, He2, B0. rewrite F, Hp2, rat_one by lra. ring.
  - destruct (Nat.eqb_spec i (prv n e)) as [->|N3]; cbn [andb].
    + destruct (Nat.eqb_spec j 1) as [->|J].
      * unfold wgt. rewrite F. rewrite Hp1, Hp2. destruct (bern1 1) as [_ ->]. destruct (bern1 s) as [-> _]. unfold w1. ring.
      * assert (j = 0)%nat by lia. subst j. apply wgt_zero. rewrite Hp1. destruct (bern1 1) as [-> _]. ring.
    + destruct (Nat.eq_dec i (nxt n e)) as [->|N2].
      * unfold wgt. rewrite F. rewrite prv_nxt by exact Hen. rewrite He2, rat_zero. ring.
      * apply wgt_far; [simpl; lia|]. apply Hf; assumption.
Qed.

Lemma w1_pos : 0 < w1.
Proof.
  assert (P : 0 < D (prv n (prv n e))).
  { destruct (Nat.eq_dec (prv n (prv n e)) (nxt n e)) as [->|N]; [lra|]. rewrite Hf; [lra|apply prv_lt; lia| |exact N|apply prv_neq; [lia|apply prv_lt; lia]].
    intros X. apply (nxt_prv_neq n e Hn Hen). rewrite <- X at 1. apply nxt_prv. apply prv_lt; lia. }
  unfold w1. apply Rmult_lt_0_compat; [lra|]. unfold rat, Rdiv.
  destruct (gb_sq g); apply Rmult_lt_0_compat; try nra; apply Rinv_0_lt_compat; nra.
Qed.

Lemma linear_eval : gbEval eps g sds = Some (boundaryCurve g 1 e s +v (cpv g (prv n e) 1 0 -v gb_cen g) *v w1).
Proof.
  assert (Pp : (prv n e < n)%nat) by (apply prv_lt; lia).
  assert (Np : prv n e <> e) by (apply prv_neq; lia).
  rewrite (eval_sum n 1 g Sh S D sds Hsd eps He).
  - change ((1 + 1) / 2)%nat with 1%nat. change (1 + 1)%nat with 2%nat. cbn [rsum vsum].
    rewrite (rsum_double n _ e (prv n e)); try assumption; try congruence.
    + rewrite !linear_wgt by lia. rewrite !Nat.eqb_refl. destruct (Nat.eqb_spec (prv n e) e); [contradiction|]. cbn [andb Nat.eqb].
      destruct (bern1 s) as [-> ->].
      rewrite (vsum_double n _ e (prv n e)); try assumption; try congruence.
      * rewrite !linear_wgt by lia. rewrite !Nat.eqb_refl. destruct (Nat.eqb_spec (prv n e) e); [contradiction|]. cbn [andb Nat.eqb].
        destruct (bern1 s) as [B0 B1]. rewrite B0, B1. unfold boundaryCurve, bezier. change (1 + 1)%nat with 2%nat. cbn [vsum]. rewrite B0, B1.
        fold (cpv g e 0 0) (cpv g e 1 0). f_equal. v3ring.
      * intros i Hi N1 N2. rewrite !linear_wgt by lia. destruct (Nat.eqb_spec i e); [contradiction|].
        destruct (Nat.eqb_spec i (prv n e)); [contradiction|]. cbn [andb]. v3ring.
    + intros i Hi N1 N2. rewrite !linear_wgt by lia. destruct (Nat.eqb_spec i e); [contradiction|].
      destruct (Nat.eqb_spec i (prv n e)); [contradiction|]. cbn [andb]. ring.
  - intros i Hi. assert (Fi : forall i, (i < n)%nat -> i <> e -> eps <= D i).
    { intros i' Hi' N. destruct (Nat.eq_dec i' (nxt n e)) as [->|N2]; [lra|]. destruct (Nat.eq_dec i' (prv n e)) as [->|N3]; [lra|].
      rewrite Hf by assumption. lra. }
    assert (F0 : forall i, (i < n)%nat -> 0 <= D i).
    { intros i' Hi'. destruct (Nat.eq_dec i' e) as [->|N]; [lra|]. pose proof (Fi i' Hi' N). lra. }
    pose proof (nxt_lt n i ltac:(lia)) as Hni. destruct (Nat.eq_dec i e) as [->|N].
    + pose proof (Fi (nxt n e) Hni ltac:(apply nxt_neq; lia)). lra.
    + pose proof (Fi i Hi N). pose proof (F0 _ Hni). lra.
Qed.
End Linear.

(** ** The corner variant *)
Section Cor.
Variables (n d : nat) (g : gbsurf).
Hypothesis Sh : shaped n d g.
Variables (D : nat -> R).
Variables (sds : list V2).
Hypothesis Hsd : forall i, (i < n)%nat -> exists s, nth_error sds i = Some (mkV2 s (D i)).
Let l := ((d + 1) / 2)%nat.

Definition cwgt (i j k : nat) : R := bern d j (D (nxt n i)) * bern d k (D i).

Lemma cornerWeight_value : forall i j k, (i < n)%nat -> (j <= d)%nat -> (k <= d)%nat -> cornerWeight g sds i j k = Some (cwgt i j k).
Proof.
  intros i j k Hi Hj Hk. unfold cornerWeight. destruct Sh as (Sn & Sd & _). rewrite Sn, Sd.
  destruct (Hsd i Hi) as [s1 E1]. destruct (Hsd (nxt n i) (nxt_lt n i ltac:(lia))) as [s2 E2]. rewrite E1, E2. cbn [bind py].
  rewrite !bernsteinList_nth by lia. reflexivity.
Qed.

Lemma corner_sum : forall i net st, (i < n)%nat -> nth_error (gb_nets g) i = Some net ->
  gbcCorner net d l (bernsteinList d (D i)) (bernsteinList d (D (nxt n i))) st =
  Some (fst st +v vsum l (fun j => vsum l (fun k => cpv g i (d - j) k *v cwgt i j k)),
        snd st + rsum l (fun j => rsum l (fun k => cwgt i j k))).
Proof.
  intros i net st Hi E. destruct (net_some n d g Sh i Hi) as (net' & E' & N). rewrite E in E'. injection E' as <-.
  unfold gbcCorner. apply fold_acc0. intros st1 j Hj. apply fold_acc0. intros st2 k Hk.
  pose proof Hj as Hj'. pose proof Hk as Hk'. apply lay_le in Hj'. apply lay_le in Hk'.
  rewrite !bernsteinList_nth by lia. cbn [bind].
  destruct (N (d - j)%nat k ltac:(lia) Hk) as (row & R1 & R2). rewrite R1. cbn [bind]. rewrite R2. reflexivity.
Qed.

Lemma corner_eval : gbcEval g sds =
  Some (vsum n (fun i => vsum l (fun j => vsum l (fun k => cpv g i (d - j) k *v cwgt i j k)))
    +v gb_cen g *v (1 - rsum n (fun i => rsum l (fun j => rsum l (fun k => cwgt i j k))))).
Proof.
  unfold gbcEval. destruct Sh as (Sn & Sd & Sl & _). rewrite Sn, Sd, Sl.
  erewrite (fold_acc0 _ _ _ n (vzero, 0)).
  2: { intros st i Hi. destruct (Hsd i Hi) as [s1 E1]. destruct (Hsd (nxt n i) (nxt_lt n i ltac:(lia))) as [s2 E2]. rewrite E1, E2. cbn [bind py].
       destruct (net_some n d g Sh i Hi) as (net & E & _). rewrite E. cbn [bind]. apply corner_sum; assumption. }
  cbn [bind fst snd]. f_equal. v3ring.
Qed.

(** On side [e]. *)
Variables (e : nat) (s : R).
Hypothesis Hn : (3 <= n)%nat.
Hypothesis Odd : (d = 2 * l - 1)%nat.
Hypothesis Hl : (1 <= l)%nat.
Hypothesis Hen : (e < n)%nat.
Hypothesis Co : consistent n d g.
Hypothesis De : D e = 0.
Hypothesis Dn : D (nxt n e) = 1 - s.
Hypothesis Dp : D (prv n e) = s.
Hypothesis Df : forall i, (i < n)%nat -> i <> e -> i <> nxt n e -> i <> prv n e -> D i = 1.

Lemma cwgt_own : forall j k, cwgt e j k = if (k =? 0)%nat then bern d j (1 - s) else 0.
Proof.
  intros j k. unfold cwgt. rewrite De, Dn. destruct (Nat.eqb_spec k 0) as [->|K]; [rewrite bern_0_first; ring|rewrite bern_at_0 by lia; ring].
Qed.
Lemma cwgt_prev : forall j k, cwgt (prv n e) j k = if (j =? 0)%nat then bern d k s else 0.
Proof.
  intros j k. unfold cwgt. rewrite nxt_prv by exact Hen. rewrite De, Dp. destruct (Nat.eqb_spec j 0) as [->|K]; [rewrite bern_0_first; ring|rewrite bern_at_0 by lia; ring].
Qed.
Lemma cwgt_far : forall i j k, (i < n)%nat -> (j < l)%nat -> (k < l)%nat -> i <> e -> i <> prv n e ->
  ((4 <= n)%nat \/ i <> nxt n e) -> cwgt i j k = 0.
Proof.
  intros i j k Hi Hj Hk N1 N2 N3. apply lay_le in Hj. apply lay_le in Hk. unfold cwgt.
  destruct (Nat.eq_dec i (nxt n e)) as [->|N4].
  - destruct N3 as [N3|N3]; [|contradiction]. rewrite (Df (nxt n (nxt n e))).
    + rewrite bern_at_1 by lia. ring.
    + apply nxt_lt; lia.
    + intros X. apply (nxt_prv_neq n e Hn Hen). apply (nxt_inj n); [apply nxt_lt; lia|apply prv_lt; lia|]. rewrite X, nxt_prv by exact Hen. reflexivity.
    + apply nxt_neq; [lia|apply nxt_lt; lia].
    + clear -N3 Hen. rewrite (nxt_cases n e Hen), (prv_cases n e Hen). destruct (Nat.eqb_spec (Datatypes.S e) n), (Nat.eqb_spec e 0); rewrite nxt_cases by lia;
        match goal with |- context [Nat.eqb ?a ?b] => destruct (Nat.eqb_spec a b) end; lia.
  - rewrite (Df i) by assumption. rewrite (bern_at_1 d k) by lia. ring.
Qed.

Lemma l2 : (l + l = d + 1)%nat. Proof. lia. Qed.

(** The two halves make up the boundary curve. *)
Lemma halves_w : rsum l (fun j => bern d j (1 - s)) + rsum l (fun k => bern d k s) = 1.
Proof.
  pose proof (bern_sum d s) as B. rewrite <- l2, rsum_app in B. rewrite <- B, Rplus_comm at 1. apply (f_equal2 Rplus); [reflexivity|].
  rewrite (rsum_rev l (fun i => bern d (l + i) s)). apply rsum_ext. intros j Hj. rewrite bern_sym by lia. f_equal. lia.
Qed.
Lemma halves_v : vsum l (fun j => cpv g e (d - j) 0 *v bern d j (1 - s)) +v vsum l (fun k => cpv g e k 0 *v bern d k s) = boundaryCurve g d e s.
Proof.
  unfold boundaryCurve, bezier. rewrite <- l2, vsum_app. transitivity (vsum l (fun k => cpv g e k 0 *v bern d k s) +v vsum l (fun j => cpv g e (d - j) 0 *v bern d j (1 - s))); [v3ring|].
  f_equal. rewrite (vsum_rev l (fun i => _ *v bern d (l + i) s)). apply vsum_ext. intros j Hj. rewrite bern_sym by lia. fold (cpv g e (l + (l - 1 - j)) 0).
  replace (l + (l - 1 - j))%nat with (d - j)%nat by lia. reflexivity.
Qed.

Lemma twin : forall k, (k < l)%nat -> cpv g (prv n e) d k = cpv g e k 0.
Proof.
  intros k Hk. apply lay_le in Hk. unfold cpv. assert (M : mirror n d (e, k, 0)%nat (prv n e, d, k)%nat).
  { pose proof (mirror_prv n d e k 0 Hen Hk) as M. rewrite Nat.sub_0_r in M. exact M. }
  pose proof (Co (e, k, 0)%nat (prv n e, d, k)%nat) as C. cbn [getp inRange] in C. rewrite C; [reflexivity|lia| |exact M].
  pose proof (prv_lt n e). lia.
Qed.

(** What is left for a triangle: the opposite corner. *)
Definition opposite : V3 * R :=
  if (n =? 3)%nat then (vsum l (fun j => vsum l (fun k => cpv g (nxt n e) (d - j) k *v (bern d j s * bern d k (1 - s)))),
                        rsum l (fun j => rsum l (fun k => bern d j s * bern d k (1 - s))))
  else (vzero, 0).

Lemma corner_side : gbcEval g sds = Some (boundaryCurve g d e s +v fst opposite -v gb_cen g *v snd opposite).
Proof.
  rewrite corner_eval.
  assert (Np : prv n e <> e) by (apply prv_neq; lia). assert (Nn : nxt n e <> e) by (apply nxt_neq; lia).
  assert (Nnp : nxt n e <> prv n e) by (apply nxt_prv_neq; assumption).
  assert (Hp : (prv n e < n)%nat) by (apply prv_lt; lia). assert (Hx : (nxt n e < n)%nat) by (apply nxt_lt; lia).
  assert (O1 : rsum l (fun j => rsum l (fun k => cwgt e j k)) = rsum l (fun j => bern d j (1 - s))).
  { apply rsum_ext. intros j Hj. rewrite (rsum_single l _ 0 ltac:(lia)); [rewrite cwgt_own; reflexivity|].
    intros k Hk K. rewrite cwgt_own. destruct (Nat.eqb_spec k 0); [contradiction|reflexivity]. }
  assert (O2 : rsum l (fun j => rsum l (fun k => cwgt (prv n e) j k)) = rsum l (fun k => bern d k s)).
  { rewrite (rsum_single l _ 0 ltac:(lia)).
    - apply rsum_ext. intros k Hk. rewrite cwgt_prev. reflexivity.
    - intros j Hj J. apply rsum_zero. intros k Hk. rewrite cwgt_prev. destruct (Nat.eqb_spec j 0); [contradiction|reflexivity]. }
  assert (O3 : rsum l (fun j => rsum l (fun k => cwgt (nxt n e) j k)) = snd opposite).
  { unfold opposite. destruct (Nat.eqb_spec n 3) as [E3|E3].
    - cbn [snd]. apply rsum_ext. intros j Hj. apply rsum_ext. intros k Hk. unfold cwgt.
      assert (Ep : nxt n (nxt n e) = prv n e).
      { rewrite (nxt_cases n e Hen), (prv_cases n e Hen). destruct (Nat.eqb_spec (Datatypes.S e) n), (Nat.eqb_spec e 0); rewrite nxt_cases by lia;
        match goal with |- context [Nat.eqb ?a ?b] => destruct (Nat.eqb_spec a b) end; lia. }
      rewrite Ep, Dp, Dn. reflexivity.
    - cbn [snd]. apply rsum_zero. intros j Hj. apply rsum_zero. intros k Hk. apply cwgt_far; try assumption. left; lia. }
  assert (V1 : vsum l (fun j => vsum l (fun k => cpv g e (d - j) k *v cwgt e j k)) = vsum l (fun j => cpv g e (d - j) 0 *v bern d j (1 - s))).
  { apply vsum_ext. intros j Hj. rewrite (vsum_single l _ 0%nat ltac:(lia)); [rewrite cwgt_own; reflexivity|].
    intros k Hk K. rewrite cwgt_own. destruct (Nat.eqb_spec k 0); [contradiction|v3ring]. }
  assert (V2 : vsum l (fun j => vsum l (fun k => cpv g (prv n e) (d - j) k *v cwgt (prv n e) j k)) = vsum l (fun k => cpv g e k 0 *v bern d k s)).
  { rewrite (vsum_single l _ 0%nat ltac:(lia)).
    - apply vsum_ext. intros k Hk. rewrite cwgt_prev. rewrite Nat.sub_0_r, twin by exact Hk. reflexivity.
    - intros j Hj J. apply vsum_zero. intros k Hk. rewrite cwgt_prev. destruct (Nat.eqb_spec j 0); [contradiction|v3ring]. }
  assert (V3' : vsum l (fun j => vsum l (fun k => cpv g (nxt n e) (d - j) k *v cwgt (nxt n e) j k)) = fst opposite).
  { unfold opposite. destruct (Nat.eqb_spec n 3) as [E3|E3].
    - cbn [fst]. apply vsum_ext. intros j Hj. apply vsum_ext. intros k Hk. unfold cwgt.
      assert (Ep : nxt n (nxt n e) = prv n e).
      { rewrite (nxt_cases n e Hen), (prv_cases n e Hen). destruct (Nat.eqb_spec (Datatypes.S e) n), (Nat.eqb_spec e 0); rewrite nxt_cases by lia;
        match goal with |- context [Nat.eqb ?a ?b] => destruct (Nat.eqb_spec a b) end; lia. }
      rewrite Ep, Dp, Dn. reflexivity.
    - cbn [fst]. apply vsum_zero. intros j Hj. apply vsum_zero. intros k Hk. rewrite cwgt_far; try assumption; [v3ring|left; lia]. }
  rewrite (rsum_triple n _ e (prv n e) (nxt n e)); try assumption; try congruence.
  2: { intros i Hi N1 N2 N3. apply rsum_zero. intros j Hj. apply rsum_zero. intros k Hk. apply cwgt_far; try assumption. right; exact N3. }
  rewrite (vsum_triple n _ e (prv n e) (nxt n e)); try assumption; try congruence.
  2: { intros i Hi N1 N2 N3. apply vsum_zero. intros j Hj. apply vsum_zero. intros k Hk. rewrite cwgt_far; try assumption; [v3ring|right; exact N3]. }
  rewrite O1, O2, O3, V1, V2, V3'. pose proof halves_w as HW. rewrite <- halves_v.
  rewrite HW.
  f_equal. v3ring.
Qed.
End Cor.
