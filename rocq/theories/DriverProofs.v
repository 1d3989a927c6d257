(** Facts about sorting, quartiles and histograms of the test driver. *)
From Verif Require Import Base MeshModel UtilModel DomainModel ParamModel DriverModel.
From Coq Require Import Permutation Sorted.
Open Scope R_scope.

(** ** Sorting *)
Lemma rinsert_perm : forall x l, Permutation (rinsert x l) (x :: l).
Proof.
  intros x l. induction l as [|y l IH]; simpl; [apply Permutation_refl|]. destruct (Rle_dec x y); [apply Permutation_refl|].
  eapply Permutation_trans; [apply perm_skip, IH|apply perm_swap].
Qed.
Lemma rsort_perm : forall l, Permutation (rsort l) l.
Proof. induction l as [|x l IH]; simpl; [apply Permutation_refl|]. eapply Permutation_trans; [apply rinsert_perm|]. apply perm_skip, IH. Qed.
Lemma rsort_length : forall l, length (rsort l) = length l.
Proof. intros l. apply Permutation_length, rsort_perm. Qed.
Lemma rinsert_sorted : forall x l, StronglySorted Rle l -> StronglySorted Rle (rinsert x l).
Proof.
  intros x l H. induction H as [|y l S IH F]; simpl; [repeat constructor|]. destruct (Rle_dec x y) as [L|N].
  - constructor; [constructor; assumption|]. constructor; [exact L|]. eapply Forall_impl; [|exact F]. simpl. intros a Ha. lra.
  - constructor; [exact IH|]. rewrite Forall_forall in *. intros a Ha. apply (Permutation_in a (rinsert_perm x l)) in Ha. destruct Ha as [<-|Ha]; [lra|apply F, Ha].
Qed.
Lemma rsort_sorted : forall l, StronglySorted Rle (rsort l).
Proof. induction l; simpl; [constructor|]. apply rinsert_sorted; assumption. Qed.

Lemma sorted_unique : forall l l', StronglySorted Rle l -> StronglySorted Rle l' -> Permutation l l' -> l = l'.
Proof.
  intros l. induction l as [|x l IH]; intros l' S S' P.
  - apply Permutation_nil in P. congruence.
  - destruct l' as [|y l']; [apply Permutation_sym, Permutation_nil in P; discriminate|].
    inversion S as [|? ? Sl Fl]; subst. inversion S' as [|? ? Sl' Fl']; subst. rewrite Forall_forall in Fl, Fl'.
    assert (E : x = y).
    { assert (x <= y). { assert (In y (x :: l)) as [->|I] by (apply (Permutation_in y (Permutation_sym P)); left; reflexivity); [lra|apply Fl, I]. }
      assert (y <= x). { assert (In x (y :: l')) as [->|I] by (apply (Permutation_in x P); left; reflexivity); [lra|apply Fl', I]. }
      lra. }
    subst y. f_equal. apply IH; [assumption|assumption|]. apply (Permutation_cons_inv P).
Qed.
Lemma rsort_invariant : forall l l', Permutation l l' -> rsort l = rsort l'.
Proof.
  intros l l' P. apply sorted_unique; try apply rsort_sorted. eapply Permutation_trans; [apply rsort_perm|]. eapply Permutation_trans; [exact P|]. apply Permutation_sym, rsort_perm.
Qed.
Lemma sorted_nth : forall l, StronglySorted Rle l -> forall i j, (i <= j < length l)%nat -> nth i l 0 <= nth j l 0.
Proof.
  intros l S. induction S as [|x l S IH F]; intros i j H; [simpl in H; lia|]. simpl in H. destruct j as [|j]; [destruct i; [simpl; lra|lia]|].
  destruct i as [|i]; simpl.
  - rewrite Forall_forall in F. apply F. apply nth_In. lia.
  - apply IH. lia.
Qed.
Lemma sorted_strict : forall l, StronglySorted Rle l -> NoDup l -> forall i j, (i < j < length l)%nat -> nth i l 0 < nth j l 0.
Proof.
  intros l S N i j H. pose proof (sorted_nth l S i j ltac:(lia)) as [L|E]; [exact L|]. exfalso.
  pose proof (proj1 (NoDup_nth l 0) N i j ltac:(lia) ltac:(lia) E). lia.
Qed.

(** ** Quartiles *)
Lemma nth_error_nth0 : forall (l : list R) i, (i < length l)%nat -> nth_error l i = Some (nth i l 0).
Proof. intros. apply nth_error_nth'. assumption. Qed.

Definition frac (r : nat) : R := match r with O => 0 | S O => 1/4 | S (S O) => 1/2 | _ => 3/4 end.
Lemma frac_range : forall r, 0 <= frac r <= 3/4.
Proof. intros [|[|[|r]]]; simpl; lra. Qed.
Definition quart (l : list R) (i : nat) : R :=
  let k := (length l * i / 4)%nat in let f := frac (length l mod 4) in nth k l 0 * (1 - f) + nth (k + 1) l 0 * f.

Lemma quart_index : forall n i, (4 <= n)%nat -> (1 <= i <= 3)%nat -> (n * i / 4 + 1 <= n * (i + 1) / 4)%nat.
Proof.
  intros n i H Hi. replace (n * i / 4 + 1)%nat with ((n * i + 1 * 4) / 4)%nat by (rewrite Nat.div_add by lia; lia). apply Nat.div_le_mono; lia.
Qed.
Lemma quart_last : forall n i, (4 <= n)%nat -> (1 <= i <= 3)%nat -> (n * i / 4 + 1 <= n)%nat /\ (n mod 4 <> 0 -> n * i / 4 + 1 < n)%nat.
Proof.
  intros n i H Hi. assert (A : (n * i / 4 <= n * 3 / 4)%nat) by (apply Nat.div_le_mono; nia).
  pose proof (Nat.div_mod (n * 3) 4 ltac:(lia)) as D. pose proof (Nat.mod_upper_bound (n * 3) 4 ltac:(lia)).
  pose proof (Nat.div_mod n 4 ltac:(lia)) as D'. pose proof (Nat.mod_upper_bound n 4 ltac:(lia)). split; [lia|intros; lia].
Qed.
Lemma quartile_value : forall l i, (4 <= length l)%nat -> (1 <= i <= 3)%nat -> quartile l i = Some (quart l i).
Proof.
  intros l i H Hi. destruct (quart_last (length l) i H Hi) as (A & B). unfold quartile, quart. set (k := (length l * i / 4)%nat) in *.
  destruct (length l mod 4)%nat as [|[|[|r]]] eqn:E; cbn [frac].
  - rewrite nth_error_nth0 by lia. f_equal. field.
  - rewrite !nth_error_nth0 by lia. cbn [bind]. f_equal. field.
  - rewrite !nth_error_nth0 by lia. cbn [bind]. f_equal. field.
  - rewrite !nth_error_nth0 by lia. cbn [bind]. f_equal. field.
Qed.
Lemma quartile_none : forall l, (0 < length l < 4)%nat -> quartile l 3 = None.
Proof. intros l H. destruct l as [|a [|b [|c [|d l]]]]; simpl in H; try lia; reflexivity. Qed.

Lemma quart_above : forall l i, StronglySorted Rle l -> (4 <= length l)%nat -> (1 <= i <= 3)%nat -> nth (length l * i / 4) l 0 <= quart l i.
Proof.
  intros l i S H Hi. destruct (quart_last (length l) i H Hi) as (A & B). unfold quart. set (k := (length l * i / 4)%nat) in *.
  pose proof (frac_range (length l mod 4)). destruct (Nat.eq_dec (length l mod 4) 0) as [E|E]; [rewrite E; simpl; lra|].
  pose proof (sorted_nth l S k (k + 1)%nat ltac:(lia)). nra.
Qed.
Lemma quart_below : forall l i j, StronglySorted Rle l -> (4 <= length l)%nat -> (1 <= i <= 3)%nat -> (length l * i / 4 + 1 <= j < length l)%nat -> quart l i <= nth j l 0.
Proof.
  intros l i j S H Hi Hj. destruct (quart_last (length l) i H Hi) as (A & B). unfold quart. set (k := (length l * i / 4)%nat) in *.
  pose proof (frac_range (length l mod 4)). pose proof (sorted_nth l S k j ltac:(lia)). pose proof (sorted_nth l S (k + 1)%nat j ltac:(lia)). nra.
Qed.
Lemma quart_le_last : forall l i, StronglySorted Rle l -> (4 <= length l)%nat -> (1 <= i <= 3)%nat -> quart l i <= nth (length l - 1) l 0.
Proof.
  intros l i S H Hi. destruct (quart_last (length l) i H Hi) as (A & B). destruct (Nat.eq_dec (length l mod 4) 0) as [E|E].
  - unfold quart. rewrite E. cbn [frac]. set (k := (length l * i / 4)%nat) in *. clearbody k. assert (K : (k <= length l - 1 < length l)%nat) by lia.
    pose proof (sorted_nth l S k (length l - 1)%nat K). lra.
  - apply quart_below; try assumption. lia.
Qed.
Lemma quart_order : forall l i, StronglySorted Rle l -> (4 <= length l)%nat -> (1 <= i <= 2)%nat -> quart l i <= quart l (i + 1).
Proof.
  intros l i S H Hi. apply (Rle_trans _ (nth (length l * (i + 1) / 4) l 0)); [|apply quart_above; [exact S|exact H|lia]].
  apply quart_below; [exact S|exact H|lia|].
  pose proof (quart_index (length l) i H ltac:(lia)). destruct (quart_last (length l) (i + 1) H ltac:(lia)). lia.
Qed.

(** ** Counting *)
Definition atmost (q x : R) : bool := if Rle_dec x q then true else false.
Definition atleast (q x : R) : bool := if Rle_dec q x then true else false.
Definition many (P : R -> bool) (l : list R) : nat := length (filter P l).

Lemma many_perm : forall P l l', Permutation l l' -> many P l = many P l'.
Proof. intros P l l' H. unfold many. induction H; simpl; repeat match goal with |- context [P ?x] => destruct (P x) end; simpl; congruence. Qed.
Lemma many_app : forall P l l', many P (l ++ l') = (many P l + many P l')%nat.
Proof. intros P l l'. unfold many. rewrite filter_app, app_length. reflexivity. Qed.
Lemma many_all : forall P l, (forall x, In x l -> P x = true) -> many P l = length l.
Proof.
  intros P l. induction l as [|x l IH]; intros H; [reflexivity|]. unfold many in *. simpl. rewrite (H x) by (left; reflexivity). simpl. f_equal. apply IH. intros y Hy. apply H. right; exact Hy.
Qed.
Lemma many_none : forall P l, (forall x, In x l -> P x = false) -> many P l = 0%nat.
Proof.
  intros P l. induction l as [|x l IH]; intros H; [reflexivity|]. unfold many in *. simpl. rewrite (H x) by (left; reflexivity). apply IH. intros y Hy. apply H. right; exact Hy.
Qed.
Lemma many_first : forall l k q, StronglySorted Rle l -> (k < length l)%nat -> nth k l 0 <= q -> (k + 1 <= many (atmost q) l)%nat.
Proof.
  intros l k q S Hk Hq. rewrite <- (firstn_skipn (k + 1) l). rewrite many_app.
  assert (L : length (firstn (k + 1) l) = (k + 1)%nat) by (rewrite firstn_length; lia).
  rewrite (many_all (atmost q) (firstn (k + 1) l)); [lia|]. intros x Hx. apply (In_nth _ _ 0) in Hx. destruct Hx as (j & Hj & <-). rewrite L in Hj.
  unfold atmost. replace (nth j (firstn (k + 1) l) 0) with (nth j l 0).
  - destruct (Rle_dec (nth j l 0) q) as [|N]; [reflexivity|]. exfalso. apply N. pose proof (sorted_nth l S j k ltac:(lia)). lra.
  - rewrite <- (firstn_skipn (k + 1) l) at 1. rewrite app_nth1 by lia. reflexivity.
Qed.
Lemma nth_skipn_add : forall (l : list R) k j, nth (k + j) l 0 = nth j (skipn k l) 0.
Proof. intros l k. revert l. induction k as [|k IH]; intros l j; [reflexivity|]. destruct l as [|x l]; [simpl; destruct j; reflexivity|]. simpl. apply IH. Qed.
Lemma many_last : forall l k q, StronglySorted Rle l -> (k <= length l)%nat -> (forall j, (k <= j < length l)%nat -> q <= nth j l 0) -> (length l - k <= many (atleast q) l)%nat.
Proof.
  intros l k q S Hk Hq. rewrite <- (firstn_skipn k l) at 2. rewrite many_app.
  assert (L : length (skipn k l) = (length l - k)%nat) by (apply skipn_length).
  rewrite (many_all (atleast q) (skipn k l)); [lia|]. intros x Hx. apply (In_nth _ _ 0) in Hx. destruct Hx as (j & Hj & <-). rewrite L in Hj.
  unfold atleast. rewrite <- nth_skipn_add. destruct (Rle_dec q (nth (k + j) l 0)) as [|N]; [reflexivity|]. exfalso. apply N. apply Hq. lia.
Qed.

(** ** The histogram *)
Lemma bump_some : forall h k, (k < length h)%nat -> exists h', bump h k = Some h' /\ length h' = length h /\
  forall c, nth c h' 0%nat = (nth c h 0 + if c =? k then 1 else 0)%nat.
Proof.
  intros h. induction h as [|x h IH]; intros k Hk; [simpl in Hk; lia|]. destruct k as [|k].
  - exists (S x :: h). split; [reflexivity|]. split; [reflexivity|]. intros [|c]; simpl; lia.
  - destruct (IH k ltac:(simpl in Hk; lia)) as (h' & E & L & N). exists (x :: h'). cbn [bump]. rewrite E. split; [reflexivity|]. split; [simpl; lia|].
    intros [|c]; simpl; [lia|apply N].
Qed.

Lemma hist_total : forall bins w l bin lo hi h, length h = bins -> exists h', histLoop bins w bin lo hi h l = Some h' /\ length h' = bins /\
  forall c, (nth c h 0 <= nth c h' 0)%nat.
Proof.
  intros bins w l. induction l as [|x l IH]; intros bin lo hi h L; cbn [histLoop]; [exists h; auto|].
  destruct (Rlt_dec x lo); [apply IH; exact L|].
  assert (K : forall b l0 h0, exists h', (if (bins <=? b)%nat then Some h else h1 <- bump h b ;; histLoop bins w b l0 h0 h1 l) = Some h' /\ length h' = bins /\ forall c, (nth c h 0 <= nth c h' 0)%nat).
  { intros b l0 h0. destruct (bins <=? b)%nat eqn:E; [exists h; auto|]. apply Nat.leb_gt in E.
    destruct (bump_some h b ltac:(lia)) as (h1 & -> & L1 & N1). cbn [bind]. destruct (IH b l0 h0 h1 ltac:(lia)) as (h' & E' & L' & N'). exists h'.
    split; [exact E'|]. split; [exact L'|]. intros c. specialize (N1 c). specialize (N' c). lia. }
  destruct (Rlt_dec hi x); apply K.
Qed.

Lemma hist_counts : forall bins w l lo hi h h', (2 <= bins)%nat -> length h = bins -> (exists x, In x l /\ lo <= x) ->
  histLoop bins w 0 lo hi h l = Some h' -> exists c, (c < bins)%nat /\ (1 <= nth c h' 0)%nat.
Proof.
  intros bins w l. induction l as [|x l IH]; intros lo hi h h' Hb L (y & I & Hy) E; [destruct I|]. cbn [histLoop] in E.
  destruct (Rlt_dec x lo) as [A|A].
  - apply (IH lo hi h h' Hb L); [|exact E]. exists y. destruct I as [->|I]; [lra|auto].
  - assert (K : forall b l0 h0, (b < 2)%nat -> (if (bins <=? b)%nat then Some h else h1 <- bump h b ;; histLoop bins w b l0 h0 h1 l) = Some h' -> exists c, (c < bins)%nat /\ (1 <= nth c h' 0)%nat).
    { intros b l0 h0 Hb2 E2. destruct (bins <=? b)%nat eqn:E3; [apply Nat.leb_le in E3; lia|]. apply Nat.leb_gt in E3.
      destruct (bump_some h b ltac:(lia)) as (h1 & B & L1 & N1). rewrite B in E2. cbn [bind] in E2.
      destruct (hist_total bins w l b l0 h0 h1 ltac:(lia)) as (h2 & E4 & _ & N2). rewrite E4 in E2. injection E2 as <-. exists b. split; [exact E3|].
      specialize (N1 b). rewrite Nat.eqb_refl in N1. specialize (N2 b). lia. }
    destruct (Rlt_dec hi x); [apply (K 1%nat _ _ ltac:(lia) E)|apply (K 0%nat _ _ ltac:(lia) E)].
Qed.

(** Bin [c] of the bins of width [w] from [q] on: closed on the right, the first one
    on both sides. *)
Definition of_bin (q w : R) (c : nat) (x : R) : bool :=
  (if c =? 0 then atleast q x else if Rlt_dec (q + INR c * w) x then true else false)%nat && atmost (q + INR (c + 1) * w) x.

Lemma of_bin_above : forall q w c b x, 0 <= w -> (c < b)%nat -> q + INR b * w < x -> of_bin q w c x = false.
Proof.
  intros q w c b x Hw Hc Hx. unfold of_bin. apply andb_false_iff. right. unfold atmost. destruct (Rle_dec x (q + INR (c + 1) * w)) as [L|]; [|reflexivity].
  assert (INR (c + 1) <= INR b) by (apply le_INR; lia). nra.
Qed.
Lemma of_bin_here : forall q w c b x, 0 <= w -> (b = 0%nat -> q <= x) -> ((0 < b)%nat -> q + INR b * w < x) -> x <= q + INR (b + 1) * w ->
  of_bin q w c x = (c =? b)%nat.
Proof.
  intros q w c b x Hw H0 H1 H2. destruct (Nat.eqb_spec c b) as [->|N].
  - unfold of_bin, atleast, atmost. destruct (Rle_dec x (q + INR (b + 1) * w)); [|contradiction]. rewrite andb_true_r. destruct (Nat.eqb_spec b 0) as [E|E].
    + destruct (Rle_dec q x) as [|C]; [reflexivity|]. exfalso; apply C, H0, E.
    + destruct (Rlt_dec (q + INR b * w) x) as [|C]; [reflexivity|]. exfalso; apply C, H1. lia.
  - destruct (Nat.lt_ge_cases c b) as [L|G].
    + apply (of_bin_above q w c b x Hw L). apply H1. lia.
    + unfold of_bin. apply andb_false_iff. left. destruct (Nat.eqb_spec c 0) as [E|E]; [lia|]. destruct (Rlt_dec (q + INR c * w) x) as [C|]; [|reflexivity].
      assert (INR (b + 1) <= INR c) by (apply le_INR; lia). nra.
Qed.
Lemma of_bin_low : forall q w c x, 0 <= w -> x < q -> of_bin q w c x = false.
Proof.
  intros q w c x Hw Hx. unfold of_bin, atleast. apply andb_false_iff. left. destruct (Nat.eqb_spec c 0); [destruct (Rle_dec q x); [lra|reflexivity]|].
  destruct (Rlt_dec (q + INR c * w) x) as [C|]; [|reflexivity]. pose proof (pos_INR c). nra.
Qed.
Lemma many_cons : forall P x l, many P (x :: l) = ((if P x then 1 else 0) + many P l)%nat.
Proof. intros P x l. unfold many. simpl. destruct (P x); reflexivity. Qed.

(** Consecutive elements are at most [w] apart. *)
Fixpoint dense (w : R) (l : list R) : Prop :=
  match l with x :: ((y :: _) as l') => y <= x + w /\ dense w l' | _ => True end.

Lemma hist_dense : forall bins q w l b h, 0 <= w -> length h = bins -> StronglySorted Rle l -> dense w l ->
  ((0 < b)%nat -> forall x, In x l -> q + INR b * w < x) -> (forall x l', l = x :: l' -> x <= q + INR (b + 2) * w) ->
  exists h', histLoop bins w b (q + INR b * w) (q + INR b * w + w) h l = Some h' /\ length h' = bins /\
    forall c, (c < bins)%nat -> nth c h' 0%nat = (nth c h 0 + many (of_bin q w c) l)%nat.
Proof.
  intros bins q w l. induction l as [|x l IH]; intros b h Hw L So D Hlow Hhead; cbn [histLoop].
  { exists h. split; [reflexivity|]. split; [exact L|]. intros c Hc. unfold many. simpl. lia. }
  assert (E1 : q + INR b * w + w = q + INR (b + 1) * w) by (rewrite plus_INR; simpl; ring).
  assert (E2 : q + INR (b + 1) * w + w = q + INR (b + 2) * w) by (rewrite !plus_INR; simpl; ring).
  inversion So as [|? ? S' F]; subst. rewrite Forall_forall in F.
  assert (D' : dense w l) by (destruct l; [exact I|apply D]).
  assert (Nx : forall y l', l = y :: l' -> y <= x + w) by (intros y l' ->; apply D).
  destruct (Rlt_dec x (q + INR b * w)) as [A|A].
  - assert (b = 0%nat). { destruct b; [reflexivity|]. specialize (Hlow ltac:(lia) x (or_introl eq_refl)). lra. }
    subst b. change (INR 0) with 0 in *. destruct (IH 0%nat h Hw eq_refl S' D') as (h' & E & L' & N).
    + intros C; lia.
    + intros y l' E. specialize (Nx y l' E). simpl INR. lra.
    + exists h'. split; [exact E|]. split; [exact L'|]. intros c Hc. rewrite many_cons. rewrite of_bin_low by lra. rewrite N by exact Hc. lia.
  - rewrite E1. destruct (Rlt_dec (q + INR (b + 1) * w) x) as [B|B].
    + assert (X2 : x <= q + INR (S b + 1) * w) by (replace (S b + 1)%nat with (b + 2)%nat by lia; apply (Hhead x l eq_refl)).
      rewrite E2. destruct (length h <=? S b)%nat eqn:E; [apply Nat.leb_le in E|apply Nat.leb_gt in E].
      * exists h. split; [reflexivity|]. split; [reflexivity|]. intros c Hc. rewrite many_none; [lia|]. intros y Hy.
        apply (of_bin_above q w c (b + 1) y Hw ltac:(lia)). destruct Hy as [<-|Hy]; [exact B|]. specialize (F y Hy). lra.
      * destruct (bump_some h (S b) ltac:(lia)) as (h1 & -> & L1 & N1). cbn [bind].
        destruct (IH (S b) h1 Hw L1 S' D') as (h' & E' & L' & N).
        -- intros _ y Hy. specialize (F y Hy). replace (S b) with (b + 1)%nat by lia. lra.
        -- intros y l' Ey. specialize (Nx y l' Ey). replace (S b + 2)%nat with (S b + 1 + 1)%nat by lia. rewrite (plus_INR (S b + 1)). simpl INR at 2. lra.
        -- exists h'. split; [|split; [exact L'|]].
           ++ rewrite <- E'. replace (S b) with (b + 1)%nat by lia. rewrite E2. reflexivity.
           ++ intros c Hc. rewrite many_cons, N by exact Hc. rewrite N1. rewrite (of_bin_here q w c (S b) x Hw); [|lia| |exact X2].
              ** destruct (c =? S b)%nat; lia.
              ** intros _. replace (S b) with (b + 1)%nat by lia. exact B.
    + destruct (length h <=? b)%nat eqn:E; [apply Nat.leb_le in E|apply Nat.leb_gt in E].
      * exists h. split; [reflexivity|]. split; [reflexivity|]. intros c Hc. rewrite many_none; [lia|]. intros y Hy.
        apply (of_bin_above q w c b y Hw ltac:(lia)). apply Hlow; [lia|exact Hy].
      * destruct (bump_some h b ltac:(lia)) as (h1 & -> & L1 & N1). cbn [bind]. rewrite <- E1.
        destruct (IH b h1 Hw L1 S' D') as (h' & E' & L' & N).
        -- intros Hb y Hy. apply Hlow; [exact Hb|right; exact Hy].
        -- intros y l' Ey. specialize (Nx y l' Ey). lra.
        -- exists h'. split; [exact E'|]. split; [exact L'|]. intros c Hc. rewrite many_cons, N by exact Hc. rewrite N1.
           rewrite (of_bin_here q w c b x Hw); [destruct (c =? b)%nat; lia| | |lra].
           ++ intros ->. simpl in A. lra.
           ++ intros Hb. apply Hlow; [exact Hb|left; reflexivity].
Qed.

(** Consecutive elements are more than [w] apart. *)
Fixpoint sparse (w : R) (l : list R) : Prop :=
  match l with x :: ((y :: _) as l') => x + w < y /\ sparse w l' | _ => True end.

(** One element for each bin once the first one is counted. *)
Lemma hist_sparse : forall bins w l b lo h, 0 <= w -> length h = bins -> sparse w l -> (forall x l', l = x :: l' -> lo + w < x) ->
  exists h', histLoop bins w b lo (lo + w) h l = Some h' /\ length h' = bins /\
    forall c, (c < bins)%nat -> nth c h' 0%nat = (nth c h 0 + if (b <? c) && (c <=? b + length l) then 1 else 0)%nat.
Proof.
  intros bins w l. induction l as [|x l IH]; intros b lo h Hw L D Hh; cbn [histLoop].
  { exists h. split; [reflexivity|]. split; [exact L|]. intros c Hc. simpl length. destruct (Nat.ltb_spec b c); destruct (Nat.leb_spec c (b + 0)); simpl; lia. }
  specialize (Hh x l eq_refl). destruct (Rlt_dec x lo); [lra|]. destruct (Rlt_dec (lo + w) x); [|lra].
  destruct (bins <=? S b)%nat eqn:E; [apply Nat.leb_le in E|apply Nat.leb_gt in E].
  - exists h. split; [reflexivity|]. split; [exact L|]. intros c Hc. destruct (Nat.ltb_spec b c); [lia|]. simpl. lia.
  - destruct (bump_some h (S b) ltac:(lia)) as (h1 & -> & L1 & N1). cbn [bind].
    destruct (IH (S b) (lo + w) h1 Hw ltac:(lia)) as (h' & E' & L' & N).
    + destruct l; [exact I|apply D].
    + intros y l' ->. destruct D as (D & _). lra.
    + exists h'. split; [exact E'|]. split; [exact L'|]. intros c Hc. rewrite N by exact Hc. rewrite N1. simpl length.
      destruct (Nat.ltb_spec (S b) c); destruct (Nat.leb_spec c (S b + length l)); destruct (Nat.ltb_spec b c); destruct (Nat.leb_spec c (b + S (length l))); destruct (Nat.eqb_spec c (S b)); simpl; lia.
Qed.

Lemma hist_sparse_start : forall bins w l lo h, 0 <= w -> (2 <= bins)%nat -> length h = bins -> StronglySorted Rle l -> sparse w l ->
  exists h' j, histLoop bins w 0 lo (lo + w) h l = Some h' /\ length h' = bins /\ (j <= 1)%nat /\
    forall c, (c < bins)%nat -> nth c h' 0%nat = (nth c h 0 + if (j <=? c) && (c <? j + many (atleast lo) l) then 1 else 0)%nat.
Proof.
  intros bins w l. induction l as [|x l IH]; intros lo h Hw Hb L S D; cbn [histLoop].
  { exists h, 0%nat. split; [reflexivity|]. split; [exact L|]. split; [lia|]. intros c Hc. unfold many. simpl. lia. }
  assert (D' : sparse w l) by (destruct l; [exact I|apply D]). inversion S as [|? ? S' F]; subst. rewrite Forall_forall in F.
  destruct (Rlt_dec x lo) as [A|A].
  - destruct (IH lo h Hw Hb eq_refl S' D') as (h' & j & E & L' & J & N). exists h', j. split; [exact E|]. split; [exact L'|]. split; [exact J|].
    intros c Hc. rewrite many_cons. unfold atleast at 1. destruct (Rle_dec lo x); [lra|]. apply N, Hc.
  - assert (M : many (atleast lo) (x :: l) = Datatypes.S (length l)).
    { rewrite many_all; [reflexivity|]. intros y Hy. unfold atleast. destruct (Rle_dec lo y) as [|C]; [reflexivity|]. exfalso. apply C. destruct Hy as [<-|Hy]; [lra|]. specialize (F y Hy). lra. }
    rewrite M.
    assert (K : forall b l0, (b <= 1)%nat -> (forall y l', l = y :: l' -> l0 + w < y) -> exists h' j, (if (length h <=? b)%nat then Some h else h1 <- bump h b ;; histLoop (length h) w b l0 (l0 + w) h1 l) = Some h' /\ length h' = length h /\ (j <= 1)%nat /\
      forall c, (c < length h)%nat -> nth c h' 0%nat = (nth c h 0 + if (j <=? c) && (c <? j + Datatypes.S (length l)) then 1 else 0)%nat).
    { intros b l0 Hb1 Hh. destruct (length h <=? b)%nat eqn:E; [apply Nat.leb_le in E; lia|]. apply Nat.leb_gt in E.
      destruct (bump_some h b E) as (h1 & -> & L1 & N1). cbn [bind]. destruct (hist_sparse (length h) w l b l0 h1 Hw L1 D' Hh) as (h' & E' & L' & N). exists h', b.
      split; [exact E'|]. split; [exact L'|]. split; [exact Hb1|]. intros c Hc. rewrite N by exact Hc. rewrite N1.
      destruct (Nat.ltb_spec b c); destruct (Nat.leb_spec c (b + length l)); destruct (Nat.leb_spec b c); destruct (Nat.ltb_spec c (b + Datatypes.S (length l))); destruct (Nat.eqb_spec c b); simpl; lia. }
    destruct (Rlt_dec (lo + w) x) as [B|B].
    + apply K; [lia|]. intros y l' ->. destruct D as (D & _). lra.
    + apply K; [lia|]. intros y l' ->. destruct D as (D & _). lra.
Qed.

(** ** The bars *)
Lemma max_le : forall h x, In x h -> (x <= fold_right Nat.max 0 h)%nat.
Proof. intros h x. induction h as [|y h IH]; simpl; [tauto|]. intros [->|I]; [lia|]. specialize (IH I). lia. Qed.
Lemma max_in : forall h, (1 <= fold_right Nat.max 0 h)%nat -> In (fold_right Nat.max 0%nat h) h.
Proof.
  intros h. induction h as [|y h IH]; simpl; intros H; [lia|]. destruct (Nat.max_spec y (fold_right Nat.max 0%nat h)) as [[A B]|[A B]]; rewrite B; [|left; reflexivity].
  right. apply IH. lia.
Qed.
Lemma bars_value : forall height h, (exists c, (c < length h)%nat /\ (1 <= nth c h 0)%nat) ->
  bars height h = Some (map (fun k => (k * height / fold_right Nat.max 0 h)%nat) h) /\ (1 <= fold_right Nat.max 0 h)%nat.
Proof.
  intros height h (c & Hc & H1). assert (M : (1 <= fold_right Nat.max 0 h)%nat) by (pose proof (max_le h (nth c h 0%nat) (nth_In h 0%nat Hc)); lia).
  split; [|exact M]. unfold bars. set (m := fold_right Nat.max 0%nat h) in *. apply mapM_total. intros a _. destruct m; [lia|reflexivity].
Qed.
