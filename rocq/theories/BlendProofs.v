(** Proofs about the blending functions of surface.cc. *)
Require Import Verif.Base Verif.UtilModel Verif.DomainModel Verif.DomainPolygons Verif.ParamModel Verif.RibbonModel Verif.SurfaceModel.
Require Import Reals List Lia Lra Psatz.
Import ListNotations.
Open Scope R_scope.

(** The distance coordinate of side [i]. *)
Definition dpar (sds : list V2) (i : nat) : R := py (nth i sds pzero).
Definition spar (sds : list V2) (i : nat) : R := px (nth i sds pzero).

Lemma nth_sd : forall (sds : list V2) i, (i < length sds)%nat ->
  nth_error sds i = Some (mkV2 (spar sds i) (dpar sds i)).
Proof.
  intros sds i H. rewrite (nth_error_nth' sds pzero H). unfold spar, dpar. destruct (nth i sds pzero); reflexivity.
Qed.

Lemma accumulate_tab : forall n w, accumulate (tabulate n w) = rsum n w.
Proof.
  intros n w. rewrite accumulate_rsum, tabulate_length. apply rsum_ext. intros i Hi.
  rewrite <- nth_default_eq. unfold nth_default. rewrite tabulate_nth_error by exact Hi. reflexivity.
Qed.

Lemma tab_inv : forall (A : Type) n (f : nat -> A) i w, nth_error (tabulate n f) i = Some w -> (i < n)%nat /\ f i = w.
Proof.
  intros A n f i w H. assert (Hi : (i < n)%nat).
  { rewrite <- (tabulate_length A n f). apply nth_error_Some. rewrite H. discriminate. }
  rewrite tabulate_nth_error in H by exact Hi. split; [exact Hi|congruence].
Qed.

Lemma nxt_spec : forall n i, (i < n)%nat -> (S i = n /\ nxt n i = 0%nat) \/ (S i < n /\ nxt n i = S i)%nat.
Proof. intros n i H. rewrite nxt_cases by exact H. destruct (Nat.eqb_spec (S i) n); [left|right]; lia. Qed.
Lemma prv_spec : forall n i, (i < n)%nat -> (i = 0%nat /\ prv n i = n - 1)%nat \/ (0 < i /\ prv n i = i - 1)%nat.
Proof. intros n i H. rewrite prv_cases by exact H. destruct (Nat.eqb_spec i 0); [left|right]; lia. Qed.

Definition isclose (eps : R) (sds : list V2) (i : nat) : R := if Rlt_dec (dpar sds i) eps then 1 else 0.

Lemma closeCount_rsum : forall eps sds, INR (closeCount eps sds) = rsum (length sds) (isclose eps sds).
Proof.
  intros eps sds. induction sds as [|a l IH]; [reflexivity|].
  cbn [length]. rewrite rsum_first. unfold closeCount in *. cbn [filter].
  unfold isclose at 1, dpar at 1; cbn [nth].
  replace (rsum (length l) (fun i => isclose eps (a :: l) (S i))) with (rsum (length l) (isclose eps l))
    by (apply rsum_ext; intros; reflexivity).
  destruct (Rlt_dec (py a) eps); [cbn [length]; rewrite S_INR|]; rewrite IH; lra.
Qed.

Lemma close_none : forall eps sds, (forall i, (i < length sds)%nat -> eps <= dpar sds i) -> closeCount eps sds = 0%nat.
Proof.
  intros eps sds H. apply INR_eq. rewrite closeCount_rsum. apply rsum_zero. intros i Hi.
  unfold isclose. destruct (Rlt_dec _ _); [specialize (H i Hi); lra|reflexivity].
Qed.

Lemma close_some : forall eps sds e, (e < length sds)%nat -> dpar sds e < eps -> (0 < closeCount eps sds)%nat.
Proof.
  intros eps sds e He H. apply INR_lt. rewrite closeCount_rsum, (rsum_split1 _ _ e He).
  unfold isclose at 1. destruct (Rlt_dec _ _); [|lra].
  assert (0 <= rsum (length sds) (fun j => if Nat.eqb j e then 0 else isclose eps sds j)); [|simpl; lra].
  apply rsum_nonneg. intros j Hj. unfold isclose. destruct (Nat.eqb j e); [lra|]. destruct (Rlt_dec _ _); lra.
Qed.

Lemma close_one : forall eps sds e, (e < length sds)%nat -> dpar sds e < eps ->
  (forall j, (j < length sds)%nat -> j <> e -> eps <= dpar sds j) -> closeCount eps sds = 1%nat.
Proof.
  intros eps sds e He H O. apply INR_eq. rewrite closeCount_rsum, (rsum_single _ _ e He).
  - unfold isclose. destruct (Rlt_dec _ _); [simpl; reflexivity|lra].
  - intros j Hj Hne. unfold isclose. destruct (Rlt_dec _ _); [specialize (O j Hj Hne); lra|reflexivity].
Qed.

Lemma close_two : forall eps sds e f, (e < length sds)%nat -> (f < length sds)%nat -> e <> f ->
  dpar sds e < eps -> dpar sds f < eps -> (1 < closeCount eps sds)%nat.
Proof.
  intros eps sds e f He Hf Hne H1 H2. apply INR_lt. rewrite closeCount_rsum, (rsum_split1 _ _ e He).
  rewrite (rsum_split1 _ _ f Hf). unfold isclose at 1 2. destruct (Nat.eqb_spec f e) as [E|E]; [congruence|].
  destruct (Rlt_dec (dpar sds e) eps); [|lra]. destruct (Rlt_dec (dpar sds f) eps); [|lra].
  match goal with |- _ < _ + (_ + ?x) => assert (0 <= x); [|simpl; lra] end.
  apply rsum_nonneg. intros j Hj. unfold isclose. destruct (Nat.eqb j f); [lra|]. destruct (Nat.eqb j e); [lra|].
  destruct (Rlt_dec _ _); lra.
Qed.

Lemma some_close_dec : forall eps sds, (exists e, (e < length sds)%nat /\ dpar sds e < eps) \/
  (forall i, (i < length sds)%nat -> eps <= dpar sds i).
Proof.
  intros eps sds. induction sds as [|a l [(e & He & H)|N]].
  - right; intros i Hi; simpl in Hi; lia.
  - left; exists (S e); split; [simpl; lia|exact H].
  - destruct (Rlt_dec (py a) eps) as [L|L].
    + left; exists 0%nat; split; [simpl; lia|exact L].
    + right; intros [|i] Hi; [unfold dpar; simpl; lra|apply N; simpl in Hi; lia].
Qed.

Lemma close_pos_iff : forall eps sds, (0 < closeCount eps sds)%nat <-> exists e, (e < length sds)%nat /\ dpar sds e < eps.
Proof.
  intros eps sds; split.
  - intros H. destruct (some_close_dec eps sds) as [X|N]; [exact X|]. rewrite (close_none eps sds N) in H. lia.
  - intros (e & He & H). apply (close_some eps sds e He H).
Qed.

Lemma pow_2_some : forall x, 0 < x -> pow_2 x = Some (1 / x ^ 2).
Proof. intros x H. unfold pow_2. apply fdiv_some. apply pow_nonzero. lra. Qed.

Lemma inv_sq_pos : forall x, 0 < x -> 0 < 1 / x ^ 2.
Proof. intros x H. apply Rdiv_lt_0_compat; [lra|]. apply pow_lt; exact H. Qed.

Lemma map_tab : forall (B : Type) (f : V2 -> B) l, map f l = tabulate (length l) (fun i => f (nth i l pzero)).
Proof.
  intros B f l. rewrite (list_as_tabulate V2 l pzero) at 1. unfold tabulate. rewrite map_map. reflexivity.
Qed.

Lemma normalize_list : forall n w, rsum n w <> 0 ->
  mapM (fun x => fdiv x (accumulate (tabulate n w))) (tabulate n w) = Some (tabulate n (fun i => w i / rsum n w)).
Proof.
  intros n w H. rewrite accumulate_tab. rewrite (mapM_total _ (fun x => x / rsum n w)).
  - unfold tabulate. rewrite map_map. reflexivity.
  - intros a _. apply fdiv_some. exact H.
Qed.

(** The singular blend in closed form. *)
Lemma sideSingular_value : forall eps sds, 0 < eps -> (0 < length sds)%nat ->
  let n := length sds in
  blendSideSingular eps sds = Some (tabulate n (fun i =>
    if (0 <? closeCount eps sds)%nat then isclose eps sds i / rsum n (isclose eps sds)
    else (1 / dpar sds i ^ 2) / rsum n (fun j => 1 / dpar sds j ^ 2))).
Proof.
  intros eps sds He Hn n. subst n. unfold blendSideSingular. destruct (Nat.ltb_spec 0 (closeCount eps sds)) as [K|K].
  - rewrite fdiv_some by (apply not_0_INR; lia). cbn [bind]. rewrite map_tab.
    apply (f_equal Some). apply tabulate_ext. intros i Hi.
    rewrite <- (closeCount_rsum eps sds). unfold isclose, dpar. assert (INR (closeCount eps sds) <> 0) by (apply not_0_INR; lia).
    destruct (Rlt_dec _ _); field; assumption.
  - assert (N : forall i, (i < length sds)%nat -> eps <= dpar sds i).
    { destruct (some_close_dec eps sds) as [X|N]; [|exact N]. apply close_pos_iff in X. lia. }
    rewrite (mapM_total _ (fun sd => 1 / py sd ^ 2)).
    + cbn [bind]. rewrite map_tab.
      change (fun i : nat => 1 / py (nth i sds pzero) ^ 2) with (fun i => 1 / dpar sds i ^ 2).
      rewrite normalize_list; [reflexivity|].
      apply Rgt_not_eq. apply rsum_pos; [exact Hn|]. intros i Hi. apply inv_sq_pos. specialize (N i Hi). lra.
    + intros a Ha. apply pow_2_some. apply (In_nth _ _ pzero) in Ha. destruct Ha as (i & Hi & <-).
      specialize (N i Hi). unfold dpar in N. lra.
Qed.

Definition sumsTo (b : list R) (x : R) : Prop := rsum (length b) (fun i => nth i b 0) = x.
Lemma sumsTo_tab : forall n w x, rsum n w = x -> sumsTo (tabulate n w) x.
Proof. intros n w x H. unfold sumsTo. rewrite <- accumulate_rsum, accumulate_tab. exact H. Qed.

Lemma sideSingular_partition : forall eps sds, 0 < eps -> (0 < length sds)%nat ->
  exists b, blendSideSingular eps sds = Some b /\ length b = length sds /\
    (forall i w, nth_error b i = Some w -> 0 <= w) /\ sumsTo b 1.
Proof.
  intros eps sds He Hn. pose proof (sideSingular_value eps sds He Hn) as V. cbn zeta in V.
  eexists; split; [exact V|]. split; [apply tabulate_length|].
  assert (N : (0 <? closeCount eps sds)%nat = false -> forall i, (i < length sds)%nat -> 0 < 1 / dpar sds i ^ 2).
  { intros K i Hi. apply Nat.ltb_ge in K. apply inv_sq_pos. destruct (some_close_dec eps sds) as [X|N].
    - apply close_pos_iff in X. lia.
    - specialize (N i Hi). lra. }
  split.
  - intros i w H. apply tab_inv in H. destruct H as [Hi <-].
    destruct (Nat.ltb_spec 0 (closeCount eps sds)) as [K|K].
    + rewrite <- closeCount_rsum. unfold isclose. apply Rmult_le_pos; [destruct (Rlt_dec _ _); lra|].
      apply Rlt_le, Rinv_0_lt_compat, lt_0_INR. exact K.
    + apply Rlt_le, Rdiv_lt_0_compat; [apply N; [reflexivity|exact Hi]|].
      apply rsum_pos; [exact Hn|]. intros j Hj; apply N; [reflexivity|exact Hj].
  - apply sumsTo_tab. destruct (0 <? closeCount eps sds)%nat eqn:K.
    + rewrite rsum_div. rewrite <- closeCount_rsum. field. apply not_0_INR. apply Nat.ltb_lt in K. lia.
    + rewrite rsum_div. field. apply Rgt_not_eq. apply rsum_pos; [exact Hn|]. intros j Hj. apply N; [reflexivity|exact Hj].
Qed.

(** ** Corner blends *)

Section Corner.
Variables (eps : R) (sds : list V2) (n : nat).
Hypothesis Heps : 0 < eps.
Hypothesis Hn : length sds = n.
Hypothesis H2 : (2 <= n)%nat.
Let d := dpar sds.

Lemma nd : forall i, (i < n)%nat -> nth_error sds i = Some (mkV2 (spar sds i) (d i)).
Proof. intros i Hi. apply nth_sd. rewrite Hn. exact Hi. Qed.

Lemma corner_far : (forall i, (i < n)%nat -> eps <= d i) ->
  let w i := 1 / (d i * d (nxt n i)) ^ 2 in
  blendCorner eps n sds = Some (tabulate n (fun i => w i / rsum n w)) /\ (forall i, (i < n)%nat -> 0 < w i).
Proof.
  intros F w. assert (P : forall i, (i < n)%nat -> 0 < w i).
  { intros i Hi. apply inv_sq_pos. pose proof (F i Hi). pose proof (F (nxt n i) (nxt_lt n i ltac:(lia))).
    apply Rmult_lt_0_compat; lra. }
  split; [|exact P]. unfold blendCorner. rewrite close_none by (rewrite Hn; exact F). cbn [Nat.ltb Nat.leb].
  rewrite (mapM_seq _ n _ w).
  - cbn [bind]. apply normalize_list. apply Rgt_not_eq, rsum_pos; [lia|exact P].
  - intros i Hi. rewrite !nd by (try apply nxt_lt; lia). cbn [bind py]. apply pow_2_some.
    pose proof (F i Hi). pose proof (F (nxt n i) (nxt_lt n i ltac:(lia))). apply Rmult_lt_0_compat; lra.
Qed.

Lemma corner_one : forall e, (e < n)%nat -> d e < eps -> (forall j, (j < n)%nat -> j <> e -> eps <= d j) ->
  let a := 1 / d (nxt n e) ^ 2 in let b := 1 / d (prv n e) ^ 2 in
  0 < a /\ 0 < b /\
  blendCorner eps n sds = Some (tabulate n (fun i =>
    if Nat.eqb i e then a / (a + b) else if Nat.eqb i (prv n e) then b / (b + a) else 0)).
Proof.
  intros e He Hc F a b.
  assert (Pn : eps <= d (nxt n e)) by (apply F; [apply nxt_lt; lia|apply nxt_neq; lia]).
  assert (Pp : eps <= d (prv n e)) by (apply F; [apply prv_lt; lia|apply prv_neq; lia]).
  assert (A : 0 < a) by (apply inv_sq_pos; lra). assert (B : 0 < b) by (apply inv_sq_pos; lra).
  split; [exact A|]. split; [exact B|]. unfold blendCorner.
  rewrite (close_one eps sds e) by (rewrite ?Hn; assumption). cbn [Nat.ltb Nat.leb].
  apply mapM_seq. intros i Hi. rewrite !nd by (try apply nxt_lt; lia). cbn [bind py].
  destruct (Nat.eqb_spec i e) as [-> |Ne].
  - destruct (Rlt_dec (d e) eps) as [_|]; [|lra]. rewrite nd by (apply prv_lt; lia). cbn [bind py].
    rewrite !pow_2_some by lra. cbn [bind]. fold a b. apply fdiv_some. lra.
  - destruct (Rlt_dec (d i) eps) as [L|_]; [specialize (F i Hi Ne); lra|].
    destruct (Nat.eqb_spec i (prv n e)) as [-> |Np].
    + rewrite (nxt_prv n e He). destruct (Rlt_dec (d e) eps) as [_|]; [|lra].
      rewrite nd by (apply nxt_lt; lia). cbn [bind py].
      rewrite !pow_2_some by lra. cbn [bind]. fold a b. apply fdiv_some. lra.
    + destruct (Rlt_dec (d (nxt n i)) eps) as [L|_]; [|reflexivity]. exfalso.
      assert (nxt n i <> e). { intros E. apply Np. rewrite <- E. rewrite prv_nxt by exact Hi. reflexivity. }
      specialize (F (nxt n i) (nxt_lt n i ltac:(lia)) H). lra.
Qed.

Lemma corner_many : forall e f, (e < n)%nat -> (f < n)%nat -> e <> f -> d e < eps -> d f < eps ->
  blendCorner eps n sds = Some (tabulate n (fun i => isclose eps sds i * isclose eps sds (nxt n i))).
Proof.
  intros e f He Hf Hne D1 D2. pose proof (close_two eps sds e f) as C. rewrite Hn in C.
  specialize (C He Hf Hne D1 D2). unfold blendCorner.
  destruct (Nat.ltb_spec 0 (closeCount eps sds)); [|lia]. destruct (Nat.ltb_spec 1 (closeCount eps sds)); [|lia].
  apply mapM_seq. intros i Hi. rewrite !nd by (try apply nxt_lt; lia). cbn [bind py]. unfold isclose. fold d.
  destruct (Rlt_dec (d i) eps); destruct (Rlt_dec (d (nxt n i)) eps); apply (f_equal Some); ring.
Qed.

(** No, exactly one, or at least two sides are close. *)
Lemma close_cases : (forall i, (i < n)%nat -> eps <= d i) \/
  (exists e, (e < n)%nat /\ d e < eps /\ forall j, (j < n)%nat -> j <> e -> eps <= d j) \/
  (exists e f, (e < n)%nat /\ (f < n)%nat /\ e <> f /\ d e < eps /\ d f < eps).
Proof.
  destruct (some_close_dec eps sds) as [(e & He & D)|N]; [right|left; rewrite <- Hn; exact N].
  rewrite Hn in He. fold d in D.
  assert (X : forall k, (exists f, (f < k)%nat /\ f <> e /\ d f < eps) \/ (forall j, (j < k)%nat -> j <> e -> eps <= d j)).
  { intros k; induction k as [|k [(f & F)|F]]; [right; intros; lia|left; exists f; repeat split; try tauto; lia|].
    destruct (Nat.eq_dec k e) as [-> |E].
    - right; intros j Hj Ne; apply F; [lia|exact Ne].
    - destruct (Rlt_dec (d k) eps) as [L|L]; [left; exists k; auto|].
      right; intros j Hj Ne. destruct (Nat.eq_dec j k) as [-> |]; [lra|apply F; [lia|exact Ne]]. }
  destruct (X n) as [(f & Hf & Ne & Df)|F].
  - right; exists e, f; auto.
  - left; exists e; auto.
Qed.

Lemma corner_total : exists b, blendCorner eps n sds = Some b /\ length b = n /\
  forall i w, nth_error b i = Some w -> 0 <= w.
Proof.
  assert (P : forall f, (forall i, (i < n)%nat -> 0 <= f i) -> forall i w, nth_error (tabulate n f) i = Some w -> 0 <= w).
  { intros f F i w H. assert (Hi : (i < n)%nat).
    { rewrite <- (tabulate_length R n f). apply nth_error_Some. rewrite H. discriminate. }
    rewrite tabulate_nth_error in H by exact Hi. injection H as <-. auto. }
  destruct close_cases as [F|[(e & He & De & F)|(e & f & He & Hf & Ne & De & Df)]].
  - destruct (corner_far F) as [E W]. eexists; split; [exact E|]. split; [apply tabulate_length|]. apply P.
    intros i Hi. apply Rlt_le, Rdiv_lt_0_compat; [apply W; exact Hi|]. apply rsum_pos; [lia|exact W].
  - destruct (corner_one e He De F) as (A & B & E). eexists; split; [exact E|]. split; [apply tabulate_length|]. apply P.
    intros i Hi. destruct (Nat.eqb i e); [apply Rlt_le, Rdiv_lt_0_compat; lra|].
    destruct (Nat.eqb i (prv n e)); [apply Rlt_le, Rdiv_lt_0_compat; lra|lra].
  - eexists; split; [exact (corner_many e f He Hf Ne De Df)|]. split; [apply tabulate_length|]. apply P.
    intros i Hi. unfold isclose. destruct (Rlt_dec _ _); destruct (Rlt_dec _ _); lra.
Qed.

Lemma corner_far_sum : (forall i, (i < n)%nat -> eps <= d i) ->
  exists b, blendCorner eps n sds = Some b /\ sumsTo b 1.
Proof.
  intros F. destruct (corner_far F) as [E W]. eexists; split; [exact E|]. apply sumsTo_tab. rewrite rsum_div.
  field. apply Rgt_not_eq, rsum_pos; [lia|exact W].
Qed.

Lemma corner_one_sum : forall e, (e < n)%nat -> d e < eps -> (forall j, (j < n)%nat -> j <> e -> eps <= d j) ->
  exists b, blendCorner eps n sds = Some b /\ sumsTo b 1.
Proof.
  intros e He De F. destruct (corner_one e He De F) as (A & B & E). eexists; split; [exact E|]. apply sumsTo_tab.
  set (a := 1 / d (nxt n e) ^ 2) in *. set (b := 1 / d (prv n e) ^ 2) in *.
  assert (prv n e <> e) by (apply prv_neq; lia).
  rewrite (rsum_double n _ e (prv n e)); try assumption; [|apply prv_lt; lia|auto|].
  - rewrite Nat.eqb_refl. destruct (Nat.eqb_spec (prv n e) e); [congruence|]. rewrite Nat.eqb_refl. field. lra.
  - intros k _ K1 K2. destruct (Nat.eqb_spec k e); [congruence|]. destruct (Nat.eqb_spec k (prv n e)); [congruence|reflexivity].
Qed.

(** With two close sides the sum is the number of adjacent close pairs. *)
Lemma corner_many_sum : forall e f, (e < n)%nat -> (f < n)%nat -> e <> f -> d e < eps -> d f < eps ->
  exists b, blendCorner eps n sds = Some b /\ sumsTo b (rsum n (fun i => isclose eps sds i * isclose eps sds (nxt n i))).
Proof.
  intros. eexists; split; [apply (corner_many e f); assumption|]. apply sumsTo_tab. reflexivity.
Qed.

Lemma isclose_yes : forall i, d i < eps -> isclose eps sds i = 1.
Proof. intros i H. unfold isclose. fold (d i). destruct (Rlt_dec _ _); [reflexivity|contradiction]. Qed.
Lemma isclose_no : forall i, eps <= d i -> isclose eps sds i = 0.
Proof. intros i H. unfold isclose. fold (d i). destruct (Rlt_dec _ _); [lra|reflexivity]. Qed.

Lemma corner_adjacent : (3 <= n)%nat -> forall e, (e < n)%nat -> d e < eps -> d (nxt n e) < eps ->
  (forall j, (j < n)%nat -> j <> e -> j <> nxt n e -> eps <= d j) ->
  blendCorner eps n sds = Some (tabulate n (fun i => if Nat.eqb i e then 1 else 0)).
Proof.
  intros H3 e He D1 D2 F. assert (Nn : nxt n e <> e) by (apply nxt_neq; lia).
  assert (Ln : (nxt n e < n)%nat) by (apply nxt_lt; lia).
  rewrite (corner_many e (nxt n e)) by auto. apply (f_equal Some). apply tabulate_ext. intros i Hi.
  destruct (Nat.eqb_spec i e) as [-> |Ne].
  - rewrite !isclose_yes by assumption. ring.
  - destruct (Nat.eq_dec i (nxt n e)) as [-> |N2].
    + rewrite (isclose_no (nxt n (nxt n e))); [ring|].
      apply F; [apply nxt_lt; lia| |apply nxt_neq; lia].
      intros E. assert (X := nxt_prv_neq n e H3 He). apply X.
      rewrite <- E at 2. rewrite prv_nxt by exact Ln. reflexivity.
    + rewrite (isclose_no i); [ring|]. apply F; assumption.
Qed.

Lemma corner_nonadjacent : forall e f, (e < n)%nat -> (f < n)%nat -> f <> e -> f <> nxt n e -> e <> nxt n f ->
  d e < eps -> d f < eps -> (forall j, (j < n)%nat -> j <> e -> j <> f -> eps <= d j) ->
  blendCorner eps n sds = Some (tabulate n (fun _ => 0)).
Proof.
  intros e f He Hf Hne N1 N2 D1 D2 F. rewrite (corner_many e f) by auto. apply (f_equal Some). apply tabulate_ext. intros i Hi.
  destruct (Nat.eq_dec i e) as [-> |E].
  - rewrite (isclose_no (nxt n e)); [ring|]. apply F; [apply nxt_lt; lia|apply nxt_neq; lia|auto].
  - destruct (Nat.eq_dec i f) as [-> |E'].
    + rewrite (isclose_no (nxt n f)); [ring|]. apply F; [apply nxt_lt; lia|auto|apply nxt_neq; lia].
    + rewrite (isclose_no i); [ring|]. apply F; assumption.
Qed.

Lemma corner_three : (4 <= n)%nat -> forall e, (e < n)%nat -> d e < eps -> d (nxt n e) < eps -> d (prv n e) < eps ->
  (forall j, (j < n)%nat -> j <> e -> j <> nxt n e -> j <> prv n e -> eps <= d j) ->
  exists b, blendCorner eps n sds = Some b /\ sumsTo b 2.
Proof.
  intros H4 e He D1 D2 D3 F. assert (Nn : nxt n e <> e) by (apply nxt_neq; lia).
  assert (Ln : (nxt n e < n)%nat) by (apply nxt_lt; lia). assert (Lp : (prv n e < n)%nat) by (apply prv_lt; lia).
  assert (Np : prv n e <> e) by (apply prv_neq; lia).
  destruct (corner_many_sum e (nxt n e)) as (b & E & SS); try assumption; [auto|]. exists b; split; [exact E|].
  replace 2 with (rsum n (fun i => isclose eps sds i * isclose eps sds (nxt n i))); [exact SS|].
  rewrite (rsum_double n _ e (prv n e)); try assumption; [|auto|].
  - rewrite (nxt_prv n e He). rewrite !isclose_yes by assumption. ring.
  - intros k Hk K1 K2. destruct (Nat.eq_dec k (nxt n e)) as [-> |K3].
    + rewrite (isclose_no (nxt n (nxt n e))); [ring|].
      apply F; [apply nxt_lt; lia| |apply nxt_neq; lia|].
      * intros E'. pose proof (nxt_spec n e He). pose proof (nxt_spec n (nxt n e) Ln). lia.
      * intros E'. pose proof (nxt_spec n e He). pose proof (nxt_spec n (nxt n e) Ln). pose proof (prv_spec n e He). lia.
    + rewrite (isclose_no k); [ring|]. apply F; assumption.
Qed.
End Corner.

(** ** Quadratic dominance *)
Lemma dominance : forall eps sds i, 0 < eps -> (i < length sds)%nat ->
  (forall j, (j < length sds)%nat -> eps <= dpar sds j) ->
  exists b w, blendSideSingular eps sds = Some b /\ nth_error b i = Some w /\
    0 <= 1 - w <= dpar sds i ^ 2 * rsum (length sds) (fun j => if Nat.eqb j i then 0 else 1 / dpar sds j ^ 2).
Proof.
  intros eps sds i He Hi F. pose proof (sideSingular_value eps sds He ltac:(lia)) as V. cbn zeta in V.
  rewrite (close_none eps sds F) in V. cbn [Nat.ltb Nat.leb] in V.
  eexists; eexists; split; [exact V|]. split; [apply tabulate_nth_error; exact Hi|].
  rewrite (rsum_split1 (length sds) (fun j => 1 / dpar sds j ^ 2) i Hi).
  set (s := rsum (length sds) (fun j => if Nat.eqb j i then 0 else 1 / dpar sds j ^ 2)).
  assert (Hs : 0 <= s). { apply rsum_nonneg. intros j Hj. destruct (Nat.eqb j i); [lra|].
    apply Rlt_le, inv_sq_pos. specialize (F j Hj). lra. }
  assert (P := F i Hi). set (x := dpar sds i) in *. assert (X : 0 < x) by lra.
  assert (A : 0 < 1 / x ^ 2) by (apply inv_sq_pos; exact X).
  replace (1 - 1 / x ^ 2 / (1 / x ^ 2 + s)) with (s / (1 / x ^ 2 + s)) by (set (K := 1 / x ^ 2) in *; field; lra).
  split; [apply Rmult_le_pos; [exact Hs|]; apply Rlt_le, Rinv_0_lt_compat; lra|].
  apply (Rmult_le_reg_r (1 / x ^ 2 + s)); [lra|]. unfold Rdiv at 1. rewrite Rmult_assoc, Rinv_l, Rmult_1_r by lra.
  replace (x ^ 2 * s * (1 / x ^ 2 + s)) with (s + x ^ 2 * s * s) by (field; lra).
  assert (0 <= x ^ 2 * s * s) by (assert (0 <= x ^ 2) by nra; nra). lra.
Qed.
