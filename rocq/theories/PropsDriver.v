(** Properties of the test driver's statistics: C73. *)
From Verif Require Import Base MeshModel UtilModel DomainModel ParamModel DriverModel DriverProofs.
From Coq Require Import Permutation Sorted.
Open Scope R_scope.

Definition total (l : list R) : R := fold_right Rplus 0 l.
Lemma accumulate_total : forall l, accumulate l = total l.
Proof.
  intros l. unfold accumulate, total. assert (H : forall a, fold_left Rplus l a = a + fold_right Rplus 0 l).
  { induction l as [|x l IH]; intros a; simpl; [ring|]. rewrite IH. ring. }
  rewrite H. ring.
Qed.
Lemma total_perm : forall l l', Permutation l l' -> total l = total l'.
Proof. intros l l' P. unfold total. induction P; simpl; try reflexivity; try lra; congruence. Qed.

Lemma some_eq : forall A (a b : A), Some a = Some b -> a = b.
Proof. intros A a b E. injection E as ->. reflexivity. Qed.
Lemma squares_nonneg : forall m d, 0 <= total (map (fun x => (x - m) ^ 2) d).
Proof. intros m d. unfold total. induction d as [|x d IH]; [simpl; lra|]. cbn [map fold_right]. pose proof (pow2_ge_0 (x - m)). lra. Qed.

(** The width of a bin. *)
Definition width (q1 q3 : R) : R := (q3 - q1) / 25.

Lemma stats_value : forall data, (4 <= length data)%nat ->
  let l := rsort data in let m := total data / INR (length data) in
  exists h, printStatistics data = Some (mkStats m (sqrt (total (map (fun x => (x - m) ^ 2) data) / (INR (length data) - 1)))
    (nth 0 l 0) (quart l 1) (quart l 2) (quart l 3) (nth (length data - 1) l 0) h (map (fun k => (k * 15 / fold_right Nat.max 0 h)%nat) h)) /\
    histLoop 25 (width (quart l 1) (quart l 3)) 0 (quart l 1) (quart l 1 + width (quart l 1) (quart l 3)) (repeat 0%nat 25) l = Some h /\
    length h = 25%nat /\ (1 <= fold_right Nat.max 0 h)%nat.
Proof.
  intros data H4 l m. assert (Ll : length l = length data) by apply rsort_length. assert (So := rsort_sorted data). fold l in So.
  assert (N4 : 4 <= INR (length data)) by (replace 4 with (INR 4) by (simpl; ring); apply le_INR; exact H4).
  set (w := width (quart l 1) (quart l 3)).
  destruct (hist_total 25 w l 0 (quart l 1) (quart l 1 + w) (repeat 0%nat 25) (repeat_length _ _)) as (h & Eh & Lh & _).
  assert (Ct : exists c, (c < 25)%nat /\ (1 <= nth c h 0)%nat).
  { apply (hist_counts 25 w l (quart l 1) (quart l 1 + w) (repeat 0%nat 25) h ltac:(lia) (repeat_length _ _)); [|exact Eh].
    exists (nth (length l - 1) l 0). split; [apply nth_In; lia|]. apply quart_le_last; [exact So|lia|lia]. }
  destruct (bars_value 15 h) as (Eb & Mb); [rewrite Lh; exact Ct|].
  exists h. split; [|split; [exact Eh|split; [exact Lh|exact Mb]]].
  unfold printStatistics. rewrite accumulate_total. rewrite fdiv_some by lra. cbn [bind]. fold m. rewrite accumulate_total. rewrite fdiv_some by lra. cbn [bind]. fold l.
  rewrite (nth_error_nth0 l 0) by lia. rewrite (nth_error_nth0 l (length data - 1)) by lia. cbn [bind].
  rewrite !quartile_value by lia. cbn [bind]. unfold histogram. rewrite fdiv_some by (apply not_0_INR; lia). cbn [bind].
  replace ((quart l 3 - quart l 1) / INR 25) with w by (unfold w, width; f_equal; simpl; ring).
  rewrite Eh. cbn [bind]. rewrite Eb. reflexivity.
Qed.

(** ** C73: statistics are printed for four or more numbers; with one to three
    numbers the quartiles are read behind the end of the vector. *)
Theorem C73_defined : forall data, (exists st, printStatistics data = Some st) <-> (4 <= length data)%nat.
Proof.
  intros data. split.
  - intros (st & E). destruct (Nat.lt_ge_cases (length data) 4) as [L|G]; [exfalso|exact G]. unfold printStatistics in E.
    destruct (fdiv (accumulate data) (INR (length data))) as [mean|]; [cbn [bind] in E|discriminate].
    destruct (fdiv _ (INR (length data) - 1)) as [var|]; [cbn [bind] in E|discriminate].
    destruct (nth_error (rsort data) 0) as [mn|] eqn:E0; [cbn [bind] in E|discriminate].
    assert (0 < length (rsort data))%nat by (apply nth_error_Some; rewrite E0; discriminate).
    destruct (nth_error (rsort data) (length data - 1)); [cbn [bind] in E|discriminate].
    destruct (quartile (rsort data) 1); [cbn [bind] in E|discriminate]. destruct (quartile (rsort data) 2); [cbn [bind] in E|discriminate].
    rewrite quartile_none in E by (rewrite rsort_length in *; lia). discriminate.
  - intros H. destruct (stats_value data H) as (h & E & _). eexists. exact E.
Qed.
Print Assumptions C73_defined.

Lemma stats_length : forall data st, printStatistics data = Some st -> (4 <= length data)%nat.
Proof. intros data st E. apply C73_defined. exists st. exact E. Qed.

(** Mean, deviation, smallest and largest numbers are right, and the five numbers
    are in order. *)
Theorem C73_summary : forall data st, printStatistics data = Some st ->
  st_mean st * INR (length data) = total data /\
  0 <= st_dev st /\ st_dev st ^ 2 * (INR (length data) - 1) = total (map (fun x => (x - st_mean st) ^ 2) data) /\
  In (st_min st) data /\ In (st_max st) data /\ (forall x, In x data -> st_min st <= x <= st_max st) /\
  st_min st <= st_q1 st <= st_q2 st /\ st_q2 st <= st_q3 st <= st_max st.
Proof.
  intros data st E. assert (H4 := stats_length data st E). destruct (stats_value data H4) as (h & E' & _). rewrite E in E'. apply some_eq in E'. subst st.
  cbn [st_mean st_dev st_min st_max st_q1 st_q2 st_q3]. set (l := rsort data). assert (Ll : length l = length data) by apply rsort_length. assert (So := rsort_sorted data). fold l in So.
  assert (P := rsort_perm data). fold l in P.
  assert (N4 : 4 <= INR (length data)) by (replace 4 with (INR 4) by (simpl; ring); apply le_INR; exact H4).
  set (m := total data / INR (length data)).
  assert (Q : 0 <= total (map (fun x => (x - m) ^ 2) data)).
  { apply squares_nonneg. }
  split; [unfold m; field; lra|]. split; [apply sqrt_pos|]. split.
  { rewrite pow2_sqrt; [field; lra|]. unfold Rdiv. apply Rmult_le_pos; [exact Q|]. left. apply Rinv_0_lt_compat. lra. }
  split; [apply (Permutation_in _ P), nth_In; lia|]. split; [apply (Permutation_in _ P), nth_In; lia|]. split.
  { intros x Hx. apply (Permutation_in _ (Permutation_sym P)) in Hx. apply (In_nth _ _ 0) in Hx. destruct Hx as (j & Hj & <-). split; apply sorted_nth; try exact So; lia. }
  pose proof (quart_order l 1 So ltac:(lia) ltac:(lia)). pose proof (quart_order l 2 So ltac:(lia) ltac:(lia)).
  pose proof (quart_le_last l 3 So ltac:(lia) ltac:(lia)) as Q3. rewrite Ll in Q3. pose proof (quart_above l 1 So ltac:(lia) ltac:(lia)).
  destruct (quart_last (length l) 1 ltac:(lia) ltac:(lia)) as (K & _). set (k := (length l * 1 / 4)%nat) in *. clearbody k.
  assert (K' : (0 <= k < length l)%nat) by lia. pose proof (sorted_nth l So 0 k K'). simpl plus in *. repeat split; lra.
Qed.
Print Assumptions C73_summary.

(** The order of the numbers does not matter. *)
Theorem C73_order_free : forall data data', Permutation data data' -> printStatistics data = printStatistics data'.
Proof.
  intros data data' P. unfold printStatistics. rewrite !accumulate_total, (total_perm _ _ P), (Permutation_length P), (rsort_invariant _ _ P).
  destruct (fdiv (total data') (INR (length data'))) as [m|]; [cbn [bind]|reflexivity]. rewrite !accumulate_total.
  rewrite (total_perm (map (fun x => (x - m) ^ 2) data) (map (fun x => (x - m) ^ 2) data')); [reflexivity|]. apply Permutation_map, P.
Qed.
Print Assumptions C73_order_free.

(** Quartile [i] has more than i quarters of the numbers at or below it, and all the
    others but at most one at or above. *)
Theorem C73_quartiles : forall data st i q, printStatistics data = Some st ->
  (i, q) = (1%nat, st_q1 st) \/ (i, q) = (2%nat, st_q2 st) \/ (i, q) = (3%nat, st_q3 st) ->
  (length data * i / 4 + 1 <= many (atmost q) data)%nat /\ (length data - (length data * i / 4 + 1) <= many (atleast q) data)%nat.
Proof.
  intros data st i q E Hq. assert (H4 := stats_length data st E). destruct (stats_value data H4) as (h & E' & _). rewrite E in E'. apply some_eq in E'. subst st.
  cbn [st_q1 st_q2 st_q3] in Hq. set (l := rsort data) in *. assert (Ll : length l = length data) by apply rsort_length. assert (So := rsort_sorted data). fold l in So.
  assert (P := rsort_perm data). fold l in P.
  assert (Q : (1 <= i <= 3)%nat /\ q = quart l i) by (destruct Hq as [Hq|[Hq|Hq]]; injection Hq as -> ->; (split; [lia|reflexivity])).
  destruct Q as (Hi & ->). rewrite <- (many_perm (atmost (quart l i)) _ _ P), <- (many_perm (atleast (quart l i)) _ _ P), <- Ll.
  destruct (quart_last (length l) i ltac:(lia) Hi) as (K & _). pose proof (quart_above l i So ltac:(lia) Hi) as Ab.
  assert (Be : forall j, (length l * i / 4 + 1 <= j < length l)%nat -> quart l i <= nth j l 0) by (intros j Hj; apply quart_below; [exact So|lia|exact Hi|exact Hj]).
  set (k := (length l * i / 4)%nat) in *. clearbody k. split.
  - apply many_first; [exact So|lia|exact Ab].
  - apply many_last; [exact So|lia|exact Be].
Qed.
Print Assumptions C73_quartiles.

(** The median of a list. *)
Definition median (data : list R) (m : R) : Prop :=
  exists l, Permutation l data /\ StronglySorted Rle l /\ m = (nth ((length l - 1) / 2) l 0 + nth (length l / 2) l 0) / 2.

(** The second quartile is not the median: of distinct numbers it is always too
    large. *)
Theorem C73_median : forall data st m, printStatistics data = Some st -> NoDup data -> median data m -> m < st_q2 st.
Proof.
  intros data st m E N (l & P & So & ->). assert (H4 := stats_length data st E). destruct (stats_value data H4) as (h & E' & _). rewrite E in E'. apply some_eq in E'. subst st. cbn [st_q2].
  assert (El : l = rsort data) by (apply sorted_unique; [exact So|apply rsort_sorted|eapply Permutation_trans; [exact P|apply Permutation_sym, rsort_perm]]).
  rewrite <- El. rewrite <- (Permutation_length P) in H4. assert (Nl : NoDup l) by (apply (Permutation_NoDup (Permutation_sym P) N)).
  destruct (quart_last (length l) 2 H4 ltac:(lia)) as (K & K'). unfold quart.
  assert (D : (length l * 2 / 4)%nat = (length l / 2)%nat) by (change 4%nat with (2 * 2)%nat; rewrite Nat.div_mul_cancel_r by lia; reflexivity). rewrite D in *.
  set (n := length l) in *. set (k := (n / 2)%nat) in *.
  pose proof (Nat.div_mod n 2 ltac:(lia)) as D2. pose proof (Nat.mod_upper_bound n 2 ltac:(lia)) as U2. fold k in D2.
  pose proof (Nat.div_mod n 4 ltac:(lia)) as D4. pose proof (Nat.mod_upper_bound n 4 ltac:(lia)) as U4.
  assert (Hodd : (n mod 2 = 1 -> (n - 1) / 2 = k)%nat) by (intros; symmetry; apply (Nat.div_unique (n - 1) 2 k 0); lia).
  assert (Hev : (n mod 2 = 0 -> (n - 1) / 2 = k - 1)%nat) by (intros; symmetry; apply (Nat.div_unique (n - 1) 2 (k - 1) 1); lia).
  assert (St : forall i j, (i < j < n)%nat -> nth i l 0 < nth j l 0) by (apply sorted_strict; assumption).
  assert (M4 : (n mod 2 = (n mod 4) mod 2)%nat) by (rewrite D4 at 1; replace (4 * (n / 4) + n mod 4)%nat with (n mod 4 + (2 * (n / 4)) * 2)%nat by lia; apply Nat.mod_add; lia).
  destruct (n mod 4)%nat as [|[|[|[|r]]]] eqn:E4; cbn [frac]; [| | | |lia]; simpl in M4.
  - rewrite (Hev M4). pose proof (St (k - 1)%nat k ltac:(lia)). lra.
  - rewrite (Hodd M4). pose proof (St k (k + 1)%nat ltac:(lia)). lra.
  - rewrite (Hev M4). pose proof (St (k - 1)%nat k ltac:(lia)). pose proof (St k (k + 1)%nat ltac:(lia)). lra.
  - rewrite (Hodd M4). pose proof (St k (k + 1)%nat ltac:(lia)). lra.
Qed.
Print Assumptions C73_median.

(** No gap between neighbouring numbers is wider than [w]; all are. *)
Definition gaps_within (w : R) (data : list R) : Prop :=
  forall x y, In x data -> In y data -> x < y -> (forall z, In z data -> z <= x \/ y <= z) -> y - x <= w.
Definition gaps_beyond (w : R) (data : list R) : Prop :=
  NoDup data /\ forall x y, In x data -> In y data -> x < y -> w < y - x.

Lemma within_dense : forall w l, 0 <= w -> StronglySorted Rle l -> gaps_within w l -> dense w l.
Proof.
  intros w l Hw So. induction So as [|x l So IH F]; intros G; [exact I|]. destruct l as [|y l]; [exact I|]. rewrite Forall_forall in F. split.
  - destruct (F y (or_introl eq_refl)) as [L|E]; [|lra]. enough (y - x <= w) by lra. apply G; [left; reflexivity|right; left; reflexivity|exact L|].
    intros z [<-|[<-|Hz]]; [left; lra|right; lra|right]. inversion So as [|? ? _ F']; subst. rewrite Forall_forall in F'. apply F', Hz.
  - apply IH. intros a b Ha Hb L M. apply G; [right; exact Ha|right; exact Hb|exact L|]. intros z [<-|Hz]; [left; apply F, Ha|apply M, Hz].
Qed.
Lemma beyond_sparse : forall w l, StronglySorted Rle l -> gaps_beyond w l -> sparse w l.
Proof.
  intros w l So. induction So as [|x l So IH F]; intros (N & G); [exact I|]. destruct l as [|y l]; [exact I|]. rewrite Forall_forall in F. inversion N as [|? ? Nx N']; subst. split.
  - destruct (F y (or_introl eq_refl)) as [L|E]; [|exfalso; apply Nx; left; symmetry; exact E]. pose proof (G x y (or_introl eq_refl) (or_intror (or_introl eq_refl)) L). lra.
  - apply IH. split; [exact N'|]. intros a b Ha Hb L. apply G; [right; exact Ha|right; exact Hb|exact L].
Qed.

(** If neighbouring numbers are at most a bin apart, each bin counts the numbers in
    it. *)
Theorem C73_histogram : forall data st, printStatistics data = Some st ->
  gaps_within (width (st_q1 st) (st_q3 st)) data ->
  length (st_hist st) = 25%nat /\ forall c, (c < 25)%nat -> nth c (st_hist st) 0%nat = many (of_bin (st_q1 st) (width (st_q1 st) (st_q3 st)) c) data.
Proof.
  intros data st E G. assert (H4 := stats_length data st E). destruct (C73_summary data st E) as (_ & _ & _ & _ & _ & _ & (_ & O2) & (O3 & _)).
  destruct (stats_value data H4) as (h & E' & Eh & Lh & _). rewrite E in E'. apply some_eq in E'. subst st. cbn [st_q1 st_q2 st_q3 st_hist] in *.
  set (l := rsort data) in *. assert (Ll : length l = length data) by apply rsort_length. assert (So := rsort_sorted data). fold l in So.
  assert (P := rsort_perm data). fold l in P. set (q1 := quart l 1) in *. set (w := width q1 (quart l 3)) in *.
  assert (Hw : 0 <= w) by (unfold w, width; lra). split; [exact Lh|]. intros c Hc.
  assert (G' : gaps_within w l).
  { intros x y Hx Hy L M. apply G; [apply (Permutation_in _ P Hx)|apply (Permutation_in _ P Hy)|exact L|]. intros z Hz. apply M, (Permutation_in _ (Permutation_sym P) Hz). }
  pose proof (quart_above l 1 So ltac:(lia) ltac:(lia)) as Ab. fold q1 in Ab. destruct (quart_last (length l) 1 ltac:(lia) ltac:(lia)) as (K & _).
  destruct (hist_dense 25 q1 w l 0 (repeat 0%nat 25) Hw (repeat_length _ _) So (within_dense w l Hw So G')) as (h' & E1 & _ & N).
  - intros C; lia.
  - intros x l' El. assert (x <= q1); [|simpl INR; lra]. eapply Rle_trans; [|exact Ab]. replace x with (nth 0 l 0) by (rewrite El; reflexivity).
    set (k := (length l * 1 / 4)%nat) in *. clearbody k. assert (K' : (0 <= k < length l)%nat) by lia. apply (sorted_nth l So 0 k K').
  - simpl INR in E1. replace (q1 + 0 * w) with q1 in E1 by ring. rewrite Eh in E1. injection E1 as <-. rewrite N by exact Hc. rewrite (many_perm _ _ _ P).
    rewrite nth_repeat. reflexivity.
Qed.
Print Assumptions C73_histogram.

(** If they are all more than a bin apart, the histogram says nothing about them: from
    the first or the second bin on there is one number in each bin, as many bins as
    there are numbers above the first quartile. *)
Theorem C73_sparse : forall data st, printStatistics data = Some st ->
  gaps_beyond (width (st_q1 st) (st_q3 st)) data ->
  exists j, (j <= 1)%nat /\ forall c, (c < 25)%nat ->
    nth c (st_hist st) 0%nat = if ((j <=? c) && (c <? j + many (atleast (st_q1 st)) data))%nat then 1%nat else 0%nat.
Proof.
  intros data st E G. assert (H4 := stats_length data st E). destruct (C73_summary data st E) as (_ & _ & _ & _ & _ & _ & (_ & O2) & (O3 & _)).
  destruct (stats_value data H4) as (h & E' & Eh & Lh & _). rewrite E in E'. apply some_eq in E'. subst st. cbn [st_q1 st_q2 st_q3 st_hist] in *.
  set (l := rsort data) in *. assert (So := rsort_sorted data). fold l in So.
  assert (P := rsort_perm data). fold l in P. set (q1 := quart l 1) in *. set (w := width q1 (quart l 3)) in *.
  assert (Hw : 0 <= w) by (unfold w, width; lra).
  assert (G' : gaps_beyond w l).
  { destruct G as (N & G). split; [apply (Permutation_NoDup (Permutation_sym P) N)|]. intros x y Hx Hy. apply G; [apply (Permutation_in _ P Hx)|apply (Permutation_in _ P Hy)]. }
  destruct (hist_sparse_start 25 w l q1 (repeat 0%nat 25) Hw ltac:(lia) (repeat_length _ _) So (beyond_sparse w l So G')) as (h' & j & E1 & _ & J & N).
  rewrite Eh in E1. injection E1 as <-. exists j. split; [exact J|]. intros c Hc. rewrite (N c Hc), nth_repeat. rewrite (many_perm _ _ _ P). reflexivity.
Qed.
Print Assumptions C73_sparse.

(** The bars are in proportion, rounded down, and the longest one has full height. *)
Theorem C73_bars : forall data st, printStatistics data = Some st ->
  exists m, (1 <= m)%nat /\ In m (st_hist st) /\ (forall k, In k (st_hist st) -> (k <= m)%nat) /\ length (st_bars st) = 25%nat /\ In 15%nat (st_bars st) /\
    forall c, (c < 25)%nat -> (nth c (st_bars st) 0 <= 15)%nat /\ (nth c (st_bars st) 0 * m <= nth c (st_hist st) 0 * 15 < (nth c (st_bars st) 0 + 1) * m)%nat.
Proof.
  intros data st E. assert (H4 := stats_length data st E). destruct (stats_value data H4) as (h & E' & _ & Lh & M). rewrite E in E'. apply some_eq in E'. subst st. cbn [st_hist st_bars].
  set (m := fold_right Nat.max 0%nat h) in *. assert (Im : In m h) by (apply max_in, M).
  exists m. split; [exact M|]. split; [exact Im|]. split; [intros k Hk; apply max_le, Hk|]. split; [rewrite map_length; exact Lh|]. split.
  { apply in_map_iff. exists m. split; [|exact Im]. rewrite Nat.mul_comm. apply Nat.div_mul. lia. }
  intros c Hc. set (f := fun k => (k * 15 / m)%nat). rewrite (nth_indep _ 0%nat (f 0%nat)) by (rewrite map_length; lia). rewrite map_nth. set (k := nth c h 0%nat).
  assert (Hk : (k <= m)%nat) by (apply max_le, nth_In; lia). unfold f. pose proof (Nat.div_mod (k * 15) m ltac:(lia)) as D. pose proof (Nat.mod_upper_bound (k * 15) m ltac:(lia)) as U.
  set (b := (k * 15 / m)%nat) in *. split; [|nia]. apply Nat.lt_succ_r. apply (Nat.mul_lt_mono_pos_l m); nia.
Qed.
Print Assumptions C73_bars.

(** Five numbers around zero have the second quartile 1/4; of eight numbers the
    largest one, far outside of the quartiles, is in the sixth bin. *)
Lemma five_sorted : rsort [1; -2; 0; 2; -1] = [-2; -1; 0; 1; 2].
Proof. apply sorted_unique; [apply rsort_sorted|repeat constructor; lra|]. eapply Permutation_trans; [apply rsort_perm|].
  apply Permutation_cons_app with (l1 := [-2; -1; 0]) (l2 := [2]). simpl. apply perm_skip. apply Permutation_cons_app with (l1 := [-1]) (l2 := [2]). simpl.
  apply perm_swap. Qed.
Example C73_example_median : exists st, printStatistics [1; -2; 0; 2; -1] = Some st /\ st_mean st = 0 /\ st_q2 st = 1/4 /\ median [1; -2; 0; 2; -1] 0.
Proof.
  destruct (stats_value [1; -2; 0; 2; -1] ltac:(simpl; lia)) as (h & E & _). eexists. split; [exact E|]. cbn [st_mean st_q2]. rewrite five_sorted. split; [|split].
  - unfold total. simpl. field.
  - unfold quart. simpl. lra.
  - exists [-2; -1; 0; 1; 2]. split; [rewrite <- five_sorted; apply rsort_perm|]. split; [repeat constructor; lra|]. simpl. lra.
Qed.
Definition eight : list R := [0; 1; 2; 3; 4; 5; 6; 100].
Example C73_example : exists st, printStatistics eight = Some st /\ st_q1 st = 2 /\ st_q3 st = 6 /\
  st_hist st = [1; 1; 1; 1; 1; 1; 0; 0; 0; 0; 0; 0; 0; 0; 0; 0; 0; 0; 0; 0; 0; 0; 0; 0; 0]%nat.
Proof.
  assert (Es : rsort eight = eight) by (apply sorted_unique; [apply rsort_sorted|repeat constructor; lra|apply rsort_perm]).
  destruct (stats_value eight ltac:(simpl; lia)) as (h & E & Eh & _). eexists. split; [exact E|]. cbn [st_q1 st_q3 st_hist]. rewrite Es in *.
  assert (Q1 : quart eight 1 = 2) by (unfold quart; simpl; lra). assert (Q3 : quart eight 3 = 6) by (unfold quart; simpl; lra).
  split; [exact Q1|]. split; [exact Q3|]. rewrite Q1, Q3 in Eh. unfold width in Eh.
  assert (F : Some h = Some [1; 1; 1; 1; 1; 1; 0; 0; 0; 0; 0; 0; 0; 0; 0; 0; 0; 0; 0; 0; 0; 0; 0; 0; 0]%nat); [|injection F as ->; reflexivity].
  rewrite <- Eh. unfold eight. cbn [histLoop repeat].
  repeat (match goal with |- context [Rlt_dec ?a ?b] => destruct (Rlt_dec a b); [try lra|try lra] end; cbn [Nat.leb bump bind histLoop]). reflexivity.
Qed.
