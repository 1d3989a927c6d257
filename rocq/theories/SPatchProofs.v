From Coq Require Import NArith ZArith Permutation Factorial.
From Verif Require Import Base UtilModel UtilSpec UtilProofs DomainModel ParamModel SPatchModel.
Open Scope R_scope.

(** ** The map *)
Lemma lex_irrefl : forall a, lexLt a a = false.
Proof. induction a as [|x a IH]; cbn [lexLt]; [reflexivity|]. rewrite Nat.ltb_irrefl, Nat.eqb_refl, IH. reflexivity. Qed.
Lemma lex_trans : forall a b c, lexLt a b = true -> lexLt b c = true -> lexLt a c = true.
Proof.
  induction a as [|x a IH]; intros [|y b] [|z c]; cbn [lexLt]; try congruence.
  intros H1 H2. apply orb_true_iff in H1; apply orb_true_iff in H2. apply orb_true_iff.
  destruct H1 as [H1|H1], H2 as [H2|H2]; rewrite ?andb_true_iff, ?Nat.ltb_lt, ?Nat.eqb_eq in *; try (left; lia).
  right. split; [lia|]. eapply IH; [apply H1|apply H2].
Qed.
Lemma lex_total : forall a b, lexLt a b = false -> lexLt b a = false -> a = b.
Proof.
  induction a as [|x a IH]; intros [|y b]; cbn [lexLt]; try congruence.
  intros H1 H2. apply orb_false_iff in H1; apply orb_false_iff in H2. destruct H1 as [A1 A2], H2 as [B1 B2].
  apply Nat.ltb_ge in A1, B1. assert (x = y) by lia. subst y. rewrite Nat.eqb_refl in *. cbn in *. f_equal. auto.
Qed.
Lemma lex_asym : forall a b, lexLt a b = true -> lexLt b a = false.
Proof. intros a b H. destruct (lexLt b a) eqn:E; [|reflexivity]. rewrite <- (lex_irrefl a). symmetry. eapply lex_trans; eassumption. Qed.

Fixpoint ordered (m : snet) : Prop :=
  match m with [] => True | (k, _) :: m' => (forall k' p', In (k', p') m' -> lexLt k k' = true) /\ ordered m' end.

Lemma netSet_in : forall m i p k q, In (k, q) (netSet m i p) -> (k = i /\ q = p) \/ In (k, q) m.
Proof.
  induction m as [|[k0 q0] m IH]; cbn; intros i p k q H.
  - destruct H as [[= -> ->]|[]]. left. auto.
  - destruct (lexLt k0 i) eqn:E1; [|destruct (lexLt i k0) eqn:E2].
    + destruct H as [H|H]; [right; left; exact H|]. destruct (IH _ _ _ _ H); auto.
    + destruct H as [[= -> ->]|H]; [left; auto|right; exact H].
    + destruct H as [[= <- <-]|H]; [left; split; [apply lex_total; assumption|reflexivity]|right; right; exact H].
Qed.
Lemma netSet_ordered : forall m i p, ordered m -> ordered (netSet m i p).
Proof.
  induction m as [|[k0 q0] m IH]; cbn; intros i p H; [split; [intros ? ? []|exact I]|]. destruct H as [H1 H2].
  destruct (lexLt k0 i) eqn:E1; [|destruct (lexLt i k0) eqn:E2]; cbn.
  - split; [|apply IH; exact H2]. intros k q Hk. apply netSet_in in Hk. destruct Hk as [[-> _]|Hk]; [exact E1|eapply H1; exact Hk].
  - split; [|split; assumption]. intros k q [[= -> ->]|Hk]; [exact E2|]. eapply lex_trans; [exact E2|eapply H1; exact Hk].
  - split; assumption.
Qed.
Lemma netAt_in : forall m i p, ordered m -> (netAt m i = Some p <-> In (i, p) m).
Proof.
  induction m as [|[k q] m IH]; cbn; intros i p H; [split; [congruence|intros []]|]. destruct H as [H1 H2].
  destruct (lexLt k i) eqn:E1; [|destruct (lexLt i k) eqn:E2].
  - rewrite (IH i p H2). split; [auto|]. intros [[= -> ->]|X]; [rewrite lex_irrefl in E1; discriminate|exact X].
  - split; [congruence|]. intros [[= -> ->]|X]; [rewrite lex_irrefl in E2; discriminate|]. apply H1 in X. rewrite X in E1. discriminate.
  - rewrite (lex_total k i E1 E2). split; [intros [= ->]; auto|]. intros [[= ->]|X]; [reflexivity|].
    rewrite (lex_total k i E1 E2) in H1. apply H1 in X. rewrite lex_irrefl in X. discriminate.
Qed.
Lemma netAt_set : forall m i p k, ordered m -> netAt (netSet m i p) k = if list_eq_dec Nat.eq_dec k i then Some p else netAt m k.
Proof.
  induction m as [|[k0 q0] m IH]; cbn; intros i p k H.
  - destruct (list_eq_dec Nat.eq_dec k i) as [->|N]; [rewrite lex_irrefl; reflexivity|].
    destruct (lexLt i k) eqn:E1; [reflexivity|]. destruct (lexLt k i) eqn:E2; [reflexivity|]. exfalso. apply N. symmetry. apply lex_total; assumption.
  - destruct H as [H1 H2]. destruct (lexLt k0 i) eqn:E1; [|destruct (lexLt i k0) eqn:E2]; cbn.
    + destruct (lexLt k0 k) eqn:E3; [apply IH; exact H2|]. destruct (lexLt k k0) eqn:E4.
      * destruct (list_eq_dec Nat.eq_dec k i) as [->|N]; [congruence|reflexivity].
      * destruct (list_eq_dec Nat.eq_dec k i) as [->|N]; [congruence|reflexivity].
    + destruct (list_eq_dec Nat.eq_dec k i) as [->|N]; [rewrite lex_irrefl; reflexivity|].
      destruct (lexLt i k) eqn:E3; [reflexivity|]. destruct (lexLt k i) eqn:E4; [|exfalso; apply N; symmetry; apply lex_total; assumption].
      assert (X : lexLt k k0 = true) by (eapply lex_trans; eassumption). rewrite X, (lex_asym _ _ X). reflexivity.
    + rewrite <- (lex_total k0 i E1 E2) in *. destruct (list_eq_dec Nat.eq_dec k k0) as [->|N]; [rewrite lex_irrefl; reflexivity|].
      destruct (lexLt k0 k) eqn:E3; [reflexivity|]. destruct (lexLt k k0) eqn:E4; [reflexivity|].
      exfalso; apply N; symmetry; apply lex_total; assumption.
Qed.
Lemma ordered_NoDup : forall m, ordered m -> NoDup (map fst m).
Proof.
  induction m as [|[k q] m IH]; cbn; [constructor|]. intros [H1 H2]. constructor; [|apply IH; exact H2].
  intros X. apply in_map_iff in X. destruct X as ([k' p'] & E & Y). cbn in E. subst k'. apply H1 in Y. rewrite lex_irrefl in Y. discriminate.
Qed.
Lemma netAt_ordered_key : forall m i, ordered m -> (netAt m i <> None <-> In i (map fst m)).
Proof.
  intros m i H. rewrite in_map_iff. split.
  - intros X. destruct (netAt m i) as [p|] eqn:E; [|congruence]. apply (netAt_in m i p H) in E. exists (i, p). auto.
  - intros ([k p] & <- & X). apply (netAt_in m k p H) in X. cbn. congruence.
Qed.

Lemma ordered_ext : forall m1 m2, ordered m1 -> ordered m2 -> (forall i, netAt m1 i = netAt m2 i) -> m1 = m2.
Proof.
  induction m1 as [|[k p] m1 IH]; intros m2 O1 O2 H.
  - destruct m2 as [|[k p] m2]; [reflexivity|]. specialize (H k). cbn in H. rewrite lex_irrefl in H. discriminate.
  - pose proof (netAt_in ((k, p) :: m1) k p O1) as A. pose proof (proj2 A (or_introl eq_refl)) as Hk. rewrite H in Hk.
    destruct m2 as [|[k2 p2] m2]; [discriminate|].
    pose proof (netAt_in ((k2, p2) :: m2) k2 p2 O2) as A2. pose proof (proj2 A2 (or_introl eq_refl)) as Hk2. rewrite <- H in Hk2.
    apply (netAt_in _ _ _ O2) in Hk. apply (netAt_in _ _ _ O1) in Hk2.
    destruct O1 as [L1 O1'], O2 as [L2 O2'].
    assert (E : k2 = k /\ p2 = p).
    { destruct Hk as [Hk|Hk]; [injection Hk; auto|]. destruct Hk2 as [Hk2|Hk2]; [injection Hk2; auto|].
      apply L2 in Hk. apply L1 in Hk2. rewrite (lex_asym _ _ Hk) in Hk2. discriminate. }
    destruct E as [-> ->]. f_equal. apply IH; try assumption. intros i. specialize (H i). cbn in H.
    destruct (lexLt k i) eqn:E1; [exact H|].
    assert (N : forall m, (forall k' p', In (k', p') m -> lexLt k k' = true) -> ordered m -> netAt m i = None).
    { intros m Lm Om. destruct (netAt m i) as [q|] eqn:E; [|reflexivity]. apply (netAt_in m i q Om) in E. apply Lm in E. congruence. }
    rewrite (N m1 L1 O1'), (N m2 L2 O2'). reflexivity.
Qed.

(** ** The multinomial coefficient *)
Fixpoint multi (ix : index) : nat := match ix with [] => 1%nat | k :: r => (choose (k + list_sum r) k * multi r)%nat end.
Fixpoint factprod (ix : index) : nat := match ix with [] => 1%nat | k :: r => (fact k * factprod r)%nat end.

Lemma choose_fact : forall b a, (choose (a + b) a * (fact a * fact b) = fact (a + b))%nat.
Proof.
  intros b a. induction a as [|a IH]; [cbn; rewrite choose_0; lia|].
  pose proof (choose_absorb (a + b) a) as H1. replace (a + b - a)%nat with b in H1 by lia.
  replace (S a + b)%nat with (S (a + b)) by lia. rewrite choose_S.
  change (fact (S (a + b))) with ((S (a + b)) * fact (a + b))%nat. change (fact (S a)) with (S a * fact a)%nat. rewrite <- IH.
  transitivity (choose (a + b) a * S a * (fact a * fact b) + S a * choose (a + b) (S a) * (fact a * fact b))%nat; [ring|]. rewrite H1. ring.
Qed.
Lemma multi_fact : forall ix, (multi ix * factprod ix = fact (list_sum ix))%nat.
Proof.
  induction ix as [|k r IH]; [reflexivity|]. cbn [multi factprod]. change (list_sum (k :: r)) with (k + list_sum r)%nat.
  rewrite <- (choose_fact (list_sum r) k), <- IH. ring.
Qed.
Lemma factprod_pos : forall ix, (1 <= factprod ix)%nat.
Proof. induction ix as [|k r IH]; cbn; [lia|]. pose proof (lt_O_fact k). nia. Qed.
Lemma multi_pos : forall ix, (1 <= multi ix)%nat.
Proof. intros ix. pose proof (multi_fact ix). pose proof (lt_O_fact (list_sum ix)). nia. Qed.

Lemma factN_fact : forall n, factorialN n = N.of_nat (fact n).
Proof. induction n as [|n IH]; [reflexivity|]. cbn [factorialN]. rewrite IH. change (fact (S n)) with (S n * fact n)%nat. lia. Qed.
Lemma fact_le : forall a b, (a <= b)%nat -> (fact a <= fact b)%nat.
Proof. exact Factorial.fact_le. Qed.
Lemma fact20 : forall n, (n <= 20)%nat -> (N.of_nat (fact n) < two64)%N.
Proof.
  intros n H. apply N.le_lt_trans with (factorialN 20); [|reflexivity]. rewrite factN_fact.
  pose proof (fact_le n 20 H). lia.
Qed.
Lemma fact64_small : forall n, (n <= 20)%nat -> fact64 n = Some (N.of_nat (fact n)).
Proof. intros n H. unfold fact64. destruct (Nat.leb_spec n 20); [|lia]. rewrite factN_fact. reflexivity. Qed.

Lemma multi_loop : forall ix num den, (forall k, In k ix -> (k <= 20)%nat) -> (N.of_nat (den * factprod ix) < two64)%N ->
  foldM multinomialLoop (num, N.of_nat den) ix = Some ((num + list_sum ix)%nat, N.of_nat (den * factprod ix)).
Proof.
  induction ix as [|k r IH]; intros num den Hk Hd; cbn [foldM].
  - cbn. do 2 f_equal; lia.
  - unfold multinomialLoop at 1. rewrite fact64_small by (apply Hk; left; reflexivity). cbn [bind].
    rewrite <- Nat2N.inj_mul. cbn [factprod] in *. pose proof (factprod_pos r).
    rewrite N.mod_small.
    2: { eapply N.le_lt_trans; [|exact Hd]. assert (X : (den * fact k * 1 <= den * fact k * factprod r)%nat) by (apply Nat.mul_le_mono_l; lia). rewrite Nat.mul_assoc. lia. }
    rewrite IH; [rewrite <- Nat.mul_assoc; change (list_sum (k :: r)) with (k + list_sum r)%nat; rewrite Nat.add_assoc; reflexivity|intros; apply Hk; right; assumption|]. rewrite <- Nat.mul_assoc. exact Hd.
Qed.
Lemma le_sum : forall ix k, In k ix -> (k <= list_sum ix)%nat.
Proof. induction ix as [|a r IH]; intros k []; change (list_sum (a :: r)) with (a + list_sum r)%nat; [lia|]. apply IH in H. lia. Qed.
Lemma factprod_le : forall ix, (factprod ix <= fact (list_sum ix))%nat.
Proof. intros ix. rewrite <- multi_fact. pose proof (multi_pos ix). nia. Qed.
Lemma multinomial_value : forall ix, (list_sum ix <= 20)%nat -> multinomial ix = Some (N.of_nat (multi ix)).
Proof.
  intros ix H. unfold multinomial. change 1%N with (N.of_nat 1).
  rewrite multi_loop.
  2: { intros k Hk. pose proof (le_sum ix k Hk). lia. }
  2: { eapply N.le_lt_trans; [|apply (fact20 _ H)]. pose proof (factprod_le ix). lia. }
  cbn [bind]. rewrite Nat.add_0_l, Nat.mul_1_l, fact64_small by exact H. cbn [bind].
  pose proof (factprod_pos ix). destruct (N.eqb_spec (N.of_nat (factprod ix)) 0); [lia|].
  rewrite <- multi_fact, Nat2N.inj_mul, N.div_mul by lia. reflexivity.
Qed.

(** ** Weights *)
Definition weight (ix : index) (bc : list R) : R := INR (multi ix) * rprod (length ix) (fun i => nth i bc 0 ^ nth i ix 0%nat).

Lemma power_loop : forall bc ix m c n, (n + m <= length ix)%nat -> (length ix <= length bc)%nat ->
  foldM (fun r i => b <- nth_error bc i ;; k <- nth_error ix i ;; Some (r * b ^ k)) c (seq n m) =
  Some (c * rprod m (fun i => nth (n + i) bc 0 ^ nth (n + i) ix 0%nat)).
Proof.
  induction m as [|m IH]; intros c n H L; cbn [seq foldM rprod]; [f_equal; ring|].
  rewrite (nth_error_nth' bc 0) by lia. rewrite (nth_error_nth' ix 0%nat) by lia. cbn [bind].
  rewrite IH by lia. f_equal. change (S m) with (1 + m)%nat.
  assert (E : forall k f, rprod (S k) f = f 0%nat * rprod k (fun i => f (S i))).
  { induction k as [|k IHk]; intros f; [cbn; ring|]. change (rprod (S (S k)) f) with (rprod (S k) f * f (S k)). rewrite IHk. cbn. ring. }
  change (rprod m _ * _) with (rprod (S m) (fun i => nth (n + i) bc 0 ^ nth (n + i) ix 0%nat)). rewrite E, Nat.add_0_r.
  rewrite (rprod_ext m (fun i => nth (n + S i) bc 0 ^ nth (n + S i) ix 0%nat) (fun i => nth (S n + i) bc 0 ^ nth (S n + i) ix 0%nat)).
  - ring.
  - intros i Hi. replace (n + S i)%nat with (S n + i)%nat by lia. reflexivity.
Qed.
Lemma multiBernstein_value : forall ix bc, (list_sum ix <= 20)%nat -> (length ix <= length bc)%nat ->
  multiBernstein ix bc = Some (weight ix bc).
Proof.
  intros ix bc H L. unfold multiBernstein. rewrite multinomial_value by exact H. cbn [bind].
  rewrite power_loop by lia. unfold weight. do 2 f_equal. rewrite nat_N_Z, <- INR_IZR_INZ. reflexivity.
Qed.

Definition lsum {A} (f : A -> R) (l : list A) : R := fold_right (fun a r => f a + r) 0 l.
Definition lvsum {A} (f : A -> V3) (l : list A) : V3 := fold_right (fun a r => f a +v r) vzero l.

Lemma spSum_value : forall m bc, (forall ix p, In (ix, p) m -> (list_sum ix <= 20)%nat /\ (length ix <= length bc)%nat) ->
  spSum m bc = Some (lvsum (fun cp => snd cp *v weight (fst cp) bc) m).
Proof.
  intros m bc H. unfold spSum. assert (G : forall p0, foldM (fun p cp => w <- multiBernstein (fst cp) bc ;; Some (p +v snd cp *v w)) p0 m =
    Some (p0 +v lvsum (fun cp => snd cp *v weight (fst cp) bc) m)).
  { induction m as [|[ix p] m IH]; intros p0; cbn [foldM lvsum fold_right]; [f_equal; v3ring|]. cbn [fst snd].
    destruct (H ix p (or_introl eq_refl)) as [H1 H2]. rewrite multiBernstein_value by assumption. cbn [bind]. rewrite IH.
    - f_equal. fold (lvsum (fun cp : index * V3 => snd cp *v weight (fst cp) bc) m). v3ring.
    - intros ix' p' X. apply (H ix' p'). right. exact X. }
  rewrite G. f_equal. v3ring.
Qed.

(** ** The multinomial theorem *)
Fixpoint comps (n d : nat) : list index :=
  match n with
  | O => match d with O => [[]] | S _ => [] end
  | S m => concat (map (fun k => map (cons k) (comps m (d - k))) (seq 0 (d + 1)))
  end.
Lemma comps_in : forall n d ix, In ix (comps n d) <-> length ix = n /\ list_sum ix = d.
Proof.
  induction n as [|n IH]; intros d ix.
  - destruct d; cbn.
    + split; [intros [<-|[]]; auto|]. intros [H _]. destruct ix; [left; reflexivity|discriminate].
    + split; [intros []|]. intros [H1 H2]. destruct ix; [discriminate|discriminate].
  - cbn [comps]. rewrite in_concat. split.
    + intros (l & Hl & Hi). apply in_map_iff in Hl. destruct Hl as (k & <- & Hk). apply in_seq in Hk.
      apply in_map_iff in Hi. destruct Hi as (r & <- & Hr). apply IH in Hr. destruct Hr as [L Hs]. cbn. split; [lia|].
      change (k + list_sum r = d)%nat. lia.
    + intros [L Hs]. destruct ix as [|k r]; [discriminate|]. change (k + list_sum r = d)%nat in Hs. cbn in L.
      exists (map (cons k) (comps n (d - k))). split.
      * apply in_map_iff. exists k. split; [reflexivity|]. apply in_seq. lia.
      * apply in_map. apply IH. lia.
Qed.
Lemma NoDup_app_intro : forall A (l1 l2 : list A), NoDup l1 -> NoDup l2 -> (forall a, In a l1 -> ~ In a l2) -> NoDup (l1 ++ l2).
Proof.
  intros A l1 l2 H1 H2 D. induction H1 as [|a l1 Ha H1 IH]; cbn; [exact H2|]. constructor.
  - rewrite in_app_iff. intros [X|X]; [contradiction|]. apply (D a); [left; reflexivity|exact X].
  - apply IH. intros b Hb. apply D. right. exact Hb.
Qed.
Lemma comps_NoDup : forall n d, NoDup (comps n d).
Proof.
  induction n as [|n IH]; intros d; [destruct d; cbn; repeat constructor; intros []|]. cbn [comps].
  assert (G : forall ks, NoDup ks -> NoDup (concat (map (fun k => map (cons k) (comps n (d - k))) ks))).
  { induction ks as [|k ks IHk]; intros H; cbn; [constructor|]. inversion H as [|? ? Hk Hks]; subst.
    apply NoDup_app_intro; [|apply IHk; exact Hks|].
    - apply FinFun.Injective_map_NoDup; [intros a b [= E]; exact E|apply IH].
    - intros a Ha X. apply in_map_iff in Ha. destruct Ha as (r & <- & _). apply in_concat in X. destruct X as (l & Hl & X).
      apply in_map_iff in Hl. destruct Hl as (k' & <- & Hk'). apply in_map_iff in X. destruct X as (r' & [= -> _] & _). contradiction. }
  apply G, seq_NoDup.
Qed.

Lemma lsum_app : forall A (f : A -> R) l1 l2, lsum f (l1 ++ l2) = lsum f l1 + lsum f l2.
Proof. unfold lsum. induction l1 as [|a l1 IH]; intros l2; cbn [app fold_right]; [ring|]. rewrite IH. ring. Qed.
Lemma lsum_map : forall A B (g : A -> B) (f : B -> R) l, lsum f (map g l) = lsum (fun a => f (g a)) l.
Proof. induction l as [|a l IH]; cbn; [reflexivity|]. f_equal. exact IH. Qed.
Lemma lsum_scal : forall A (f : A -> R) c l, lsum (fun a => c * f a) l = c * lsum f l.
Proof. unfold lsum. induction l as [|a l IH]; cbn [fold_right]; [ring|]. rewrite IH. ring. Qed.
Lemma lsum_ext : forall A (f g : A -> R) l, (forall a, In a l -> f a = g a) -> lsum f l = lsum g l.
Proof. induction l as [|a l IH]; intros H; cbn; [reflexivity|]. rewrite H by (left; reflexivity). f_equal. apply IH. intros; apply H; right; assumption. Qed.
Lemma lsum_concat_seq : forall A (f : A -> R) (g : nat -> list A) m, lsum f (concat (map g (seq 0 m))) = rsum m (fun k => lsum f (g k)).
Proof.
  intros A f g m. assert (G : forall k, lsum f (concat (map g (seq k m))) = rsum m (fun i => lsum f (g (k + i)%nat))).
  { induction m as [|m IH]; intros k; [reflexivity|]. cbn [seq map concat]. rewrite lsum_app, IH, rsum_first, Nat.add_0_r.
    f_equal. apply rsum_ext. intros i Hi. do 2 f_equal. lia. }
  apply (G 0%nat).
Qed.
Lemma lsum_perm : forall A (f : A -> R) l1 l2, Permutation l1 l2 -> lsum f l1 = lsum f l2.
Proof. intros A f l1 l2 P. induction P; cbn; unfold lsum in *; lra. Qed.
Lemma lvsum_perm : forall A (f : A -> V3) l1 l2, Permutation l1 l2 -> lvsum f l1 = lvsum f l2.
Proof.
  intros A f l1 l2 P. induction P; cbn; [reflexivity| | |congruence].
  - f_equal. exact IHP.
  - v3ring.
Qed.
Lemma lvsum_map : forall A B (g : A -> B) (f : B -> V3) l, lvsum f (map g l) = lvsum (fun a => f (g a)) l.
Proof. induction l as [|a l IH]; cbn; [reflexivity|]. f_equal. exact IH. Qed.
Lemma lvsum_ext : forall A (f g : A -> V3) l, (forall a, In a l -> f a = g a) -> lvsum f l = lvsum g l.
Proof. induction l as [|a l IH]; intros H; cbn; [reflexivity|]. rewrite H by (left; reflexivity). f_equal. apply IH. intros; apply H; right; assumption. Qed.
Lemma lvsum_seq : forall f m, lvsum f (seq 0 m) = vsum m f.
Proof.
  intros f m. assert (G : forall k, lvsum f (seq k m) = vsum m (fun i => f (k + i)%nat)).
  { induction m as [|m IH]; intros k; [reflexivity|]. cbn [seq lvsum fold_right]. fold (lvsum f (seq (S k) m)). rewrite IH, vsum_first, Nat.add_0_r.
    f_equal. apply vsum_ext. intros i Hi. f_equal. lia. }
  apply (G 0%nat).
Qed.

Lemma rprod_shift : forall m f, rprod (S m) f = f 0%nat * rprod m (fun i => f (S i)).
Proof. induction m as [|m IH]; intros f; [cbn; ring|]. change (rprod (S (S m)) f) with (rprod (S m) f * f (S m)). rewrite IH. cbn. ring. Qed.

Lemma weight_cons : forall k r b bc, weight (k :: r) (b :: bc) = INR (choose (k + list_sum r) k) * b ^ k * weight r bc.
Proof. intros k r b bc. unfold weight. cbn [length multi]. rewrite rprod_shift, mult_INR. cbn [nth]. ring. Qed.

(** The binomial theorem. *)
Lemma binomial_thm : forall d x y, rsum (d + 1) (fun k => INR (choose d k) * x ^ k * y ^ (d - k)) = (x + y) ^ d.
Proof.
  induction d as [|d IH]; intros x y; [cbn; ring|].
  replace (S d + 1)%nat with (S (d + 1)) by lia. rewrite rsum_first. rewrite choose_0, Nat.sub_0_r.
  rewrite (rsum_ext (d + 1) _ (fun k => x * (INR (choose d k) * x ^ k * y ^ (d - k)) + INR (choose d (S k)) * x ^ (S k) * y ^ (d - k))).
  2: { intros k Hk. rewrite choose_S, plus_INR. cbn [pow]. change (S d - S k)%nat with (d - k)%nat. ring. }
  rewrite rsum_plus, rsum_scal, IH. replace (d + 1)%nat with (S d) by lia. rewrite rsum_S.
  rewrite (choose_gt d (S d)) by lia. rewrite (rsum_ext d _ (fun k => y * (INR (choose d (S k)) * x ^ (S k) * y ^ (d - S k)))).
  2: { intros k Hk. replace (d - k)%nat with (S (d - S k)) by lia. cbn [pow]. ring. }
  rewrite rsum_scal. pose proof (IH x y) as X. replace (d + 1)%nat with (S d) in X by lia. rewrite rsum_first, choose_0, Nat.sub_0_r in X.
  cbn [pow] in *. change (INR 0) with 0. rewrite <- X. change (INR 1) with 1. ring.
Qed.

Lemma multinomial_thm : forall n d bc, length bc = n -> lsum (fun ix => weight ix bc) (comps n d) = rsum n (fun i => nth i bc 0) ^ d.
Proof.
  induction n as [|n IH]; intros d bc L.
  - destruct d; cbn [comps lsum fold_right rsum]; [unfold weight; cbn; ring|cbn; ring].
  - destruct bc as [|b bc]; [discriminate|]. cbn in L. cbn [comps]. rewrite lsum_concat_seq. rewrite rsum_first. cbn [nth].
    rewrite <- binomial_thm. apply rsum_ext. intros k Hk. rewrite lsum_map.
    rewrite (lsum_ext _ _ (fun r => INR (choose d k) * b ^ k * weight r bc)).
    + rewrite lsum_scal, IH by lia. ring.
    + intros r Hr. apply comps_in in Hr. rewrite weight_cons. do 4 f_equal. lia.
Qed.

(** ** Complete nets *)
Definition complete (n d : nat) (m : snet) : Prop :=
  ordered m /\ forall ix, netAt m ix <> None <-> (length ix = n /\ list_sum ix = d).

Lemma complete_perm : forall n d m, complete n d m -> Permutation (map fst m) (comps n d).
Proof.
  intros n d m [O C]. apply NoDup_Permutation; [apply ordered_NoDup; exact O|apply comps_NoDup|].
  intros ix. rewrite <- netAt_ordered_key by exact O. rewrite C, comps_in. reflexivity.
Qed.
Lemma complete_entry : forall n d m ix p, complete n d m -> In (ix, p) m -> length ix = n /\ list_sum ix = d.
Proof. intros n d m ix p [O C] H. apply C. apply (netAt_in m ix p O) in H. congruence. Qed.

Lemma weights_sum : forall n d m bc, complete n d m -> length bc = n -> rsum n (fun i => nth i bc 0) = 1 ->
  lsum (fun cp => weight (fst cp) bc) m = 1.
Proof.
  intros n d m bc C L H. rewrite <- (lsum_map _ _ fst (fun ix => weight ix bc)).
  rewrite (lsum_perm _ _ _ _ (complete_perm n d m C)), multinomial_thm, H by exact L. apply pow1.
Qed.
Lemma weight_nonneg : forall ix bc, (forall b, In b bc -> 0 <= b) -> 0 <= weight ix bc.
Proof.
  intros ix bc H. unfold weight. apply Rmult_le_pos; [apply pos_INR|]. generalize (length ix). intros k. induction k as [|k IH]; cbn; [lra|].
  apply Rmult_le_pos; [exact IH|]. apply pow_le. destruct (lt_dec k (length bc)) as [E|E].
  - apply H, nth_In. exact E.
  - rewrite nth_overflow by lia. lra.
Qed.

(** ** The boundary *)
Lemma lvsum_restrict : forall A (f : A -> V3) l' l, NoDup l -> NoDup l' -> (forall a, In a l' -> In a l) ->
  (forall a, In a l -> ~ In a l' -> f a = vzero) -> lvsum f l = lvsum f l'.
Proof.
  induction l' as [|a l' IH]; intros l N N' I Z.
  - clear N N' I. induction l as [|b l IHl]; [reflexivity|]. cbn. rewrite Z by (try (left; reflexivity); intros []).
    fold (lvsum f l). rewrite IHl; [cbn; v3ring|]. intros c Hc. apply Z. right. exact Hc.
  - inversion N' as [|? ? Na N'']; subst. destruct (in_split a l (I a (or_introl eq_refl))) as (l1 & l2 & ->).
    assert (P : Permutation (l1 ++ a :: l2) (a :: l1 ++ l2)) by (symmetry; apply Permutation_middle).
    rewrite (lvsum_perm _ _ _ _ P). cbn. f_equal. apply NoDup_remove in N. destruct N as [N Nb]. apply IH; try assumption.
    + intros b Hb. assert (X : In b (l1 ++ a :: l2)) by (apply I; right; exact Hb). apply in_app_iff in X. apply in_app_iff.
      destruct X as [X|[X|X]]; auto. subst b. contradiction.
    + intros b Hb Nb'. apply Z.
      * apply in_app_iff in Hb. apply in_app_iff. cbn. tauto.
      * intros [<-|X]; [|contradiction]. contradiction.
Qed.

(** The index with [j] at [e] and [d - j] at [p]. *)
Definition sideIx (n d p e j : nat) : index := tabulate n (fun i => if (i =? e)%nat then j else if (i =? p)%nat then (d - j)%nat else 0%nat).

Lemma sideIx_nth : forall n d p e j i, (i < n)%nat -> nth i (sideIx n d p e j) 0%nat = if (i =? e)%nat then j else if (i =? p)%nat then (d - j)%nat else 0%nat.
Proof. intros. apply nth_error_nth. unfold sideIx. rewrite tabulate_nth_error by assumption. reflexivity. Qed.

Definition nsum (n : nat) (f : nat -> nat) : nat := list_sum (tabulate n f).
Lemma nsum_S : forall n f, nsum (S n) f = (nsum n f + f n)%nat.
Proof. intros n f. unfold nsum, tabulate. rewrite seq_S, map_app, list_sum_app. cbn. lia. Qed.
Lemma nsum_INR : forall n f, INR (nsum n f) = rsum n (fun i => INR (f i)).
Proof. induction n as [|n IH]; intros f; [reflexivity|]. rewrite nsum_S, plus_INR, IH. reflexivity. Qed.
Lemma list_tab : forall (l : list nat), l = tabulate (length l) (fun i => nth i l 0%nat).
Proof. intros l. apply list_as_tabulate. Qed.
Lemma factprod_rprod : forall l, INR (factprod l) = rprod (length l) (fun i => INR (fact (nth i l 0%nat))).
Proof. induction l as [|k r IH]; [reflexivity|]. cbn [factprod length]. rewrite mult_INR, rprod_shift, IH. reflexivity. Qed.

Section Side.
Variables (n d p e : nat).
Hypothesis Hp : (p < n)%nat.
Hypothesis He : (e < n)%nat.
Hypothesis Hpe : p <> e.

Lemma side_length : forall j, length (sideIx n d p e j) = n.
Proof. intros. apply tabulate_length. Qed.
Lemma side_sum : forall j, (j <= d)%nat -> list_sum (sideIx n d p e j) = d.
Proof.
  intros j Hj. change (nsum n (fun i => if (i =? e)%nat then j else if (i =? p)%nat then (d - j)%nat else 0%nat) = d).
  apply INR_eq. rewrite nsum_INR. rewrite (rsum_double n _ p e Hp He Hpe).
  - rewrite Nat.eqb_refl. destruct (Nat.eqb_spec p e); [contradiction|]. rewrite Nat.eqb_refl, minus_INR by exact Hj. lra.
  - intros i Hi N1 N2. destruct (Nat.eqb_spec i e); [contradiction|]. destruct (Nat.eqb_spec i p); [contradiction|]. reflexivity.
Qed.
Lemma rprod_two : forall f, (forall i, (i < n)%nat -> i <> p -> i <> e -> f i = 1) -> rprod n f = f p * f e.
Proof.
  intros f H. rewrite (rprod_split1 n f p Hp), (rprod_split1 n _ e He).
  rewrite (rprod_ext n _ (fun _ => 1)), rprod_const1.
  - destruct (Nat.eqb_spec e p); [congruence|]. ring.
  - intros i Hi. destruct (Nat.eqb_spec i e); [reflexivity|]. destruct (Nat.eqb_spec i p); [reflexivity|]. apply H; assumption.
Qed.
Lemma side_multi : forall j, (j <= d)%nat -> multi (sideIx n d p e j) = choose d j.
Proof.
  intros j Hj. pose proof (multi_fact (sideIx n d p e j)) as M. rewrite side_sum in M by exact Hj.
  pose proof (choose_fact (d - j) j) as C. replace (j + (d - j))%nat with d in C by lia.
  assert (F : factprod (sideIx n d p e j) = (fact j * fact (d - j))%nat).
  { apply INR_eq. rewrite factprod_rprod, side_length, mult_INR. rewrite rprod_two.
    - rewrite !sideIx_nth by assumption. rewrite !Nat.eqb_refl. destruct (Nat.eqb_spec p e); [contradiction|]. ring.
    - intros i Hi N1 N2. rewrite sideIx_nth by exact Hi. destruct (Nat.eqb_spec i e); [contradiction|]. destruct (Nat.eqb_spec i p); [contradiction|]. reflexivity. }
  rewrite F in M. pose proof (lt_O_fact j). pose proof (lt_O_fact (d - j)). nia.
Qed.
Lemma side_weight : forall j s bc, (j <= d)%nat -> nth e bc 0 = s -> nth p bc 0 = 1 - s -> weight (sideIx n d p e j) bc = bern d j s.
Proof.
  intros j s bc Hj E1 E2. unfold weight, bern. rewrite side_multi, side_length by exact Hj. rewrite rprod_two.
  - rewrite !sideIx_nth by assumption. rewrite !Nat.eqb_refl. destruct (Nat.eqb_spec p e); [contradiction|]. rewrite E1, E2. ring.
  - intros i Hi N1 N2. rewrite sideIx_nth by exact Hi. destruct (Nat.eqb_spec i e); [contradiction|]. destruct (Nat.eqb_spec i p); [contradiction|]. reflexivity.
Qed.
Lemma off_weight : forall ix bc, length ix = n -> (forall i, (i < n)%nat -> i <> e -> i <> p -> nth i bc 0 = 0) ->
  (exists i, (i < n)%nat /\ i <> e /\ i <> p /\ nth i ix 0%nat <> 0%nat) -> weight ix bc = 0.
Proof.
  intros ix bc L Z (i & Hi & N1 & N2 & Ni). unfold weight. rewrite L, (rprod_zero n _ i Hi); [ring|].
  rewrite (Z i Hi N1 N2). apply pow_i. lia.
Qed.
Lemma side_dec : forall ix, length ix = n -> list_sum ix = d ->
  (exists j, (j <= d)%nat /\ ix = sideIx n d p e j) \/ (exists i, (i < n)%nat /\ i <> e /\ i <> p /\ nth i ix 0%nat <> 0%nat).
Proof.
  intros ix L Hs.
  assert (D : (exists i, (i < n)%nat /\ (i <> e /\ i <> p /\ nth i ix 0%nat <> 0%nat)) \/ (forall i, (i < n)%nat -> ~ (i <> e /\ i <> p /\ nth i ix 0%nat <> 0%nat))).
  { clear L Hs. generalize n. intros k. induction k as [|k IH]; [right; intros; lia|]. destruct IH as [(i & Hi & H)|H]; [left; exists i; split; [lia|exact H]|].
    destruct (Nat.eq_dec k e) as [->|N1]; [right; intros i Hi X; destruct (Nat.eq_dec i e); [tauto|apply (H i); [lia|exact X]]|].
    destruct (Nat.eq_dec k p) as [->|N2]; [right; intros i Hi X; destruct (Nat.eq_dec i p); [tauto|apply (H i); [lia|exact X]]|].
    destruct (Nat.eq_dec (nth k ix 0%nat) 0) as [Z|Z]; [right; intros i Hi X; destruct (Nat.eq_dec i k); [subst; tauto|apply (H i); [lia|exact X]]|].
    left. exists k. split; [lia|tauto]. }
  destruct D as [(i & Hi & H)|H]; [right; exists i; tauto|left].
  assert (S2 : (nth p ix 0 + nth e ix 0 = d)%nat).
  { rewrite <- Hs. apply INR_eq. rewrite (list_tab ix) at 3. change (list_sum (tabulate (length ix) (fun i => nth i ix 0%nat))) with (nsum (length ix) (fun i => nth i ix 0%nat)).
    rewrite nsum_INR, L, (rsum_double n _ p e Hp He Hpe), plus_INR; [reflexivity|].
    intros i Hi N1 N2. destruct (Nat.eq_dec (nth i ix 0%nat) 0) as [->|Z]; [reflexivity|]. exfalso. apply (H i Hi). auto. }
  exists (nth e ix 0%nat). split; [lia|]. rewrite (list_tab ix) at 1. rewrite L. apply tabulate_ext. intros i Hi.
  destruct (Nat.eqb_spec i e) as [->|N1]; [reflexivity|]. destruct (Nat.eqb_spec i p) as [->|N2]; [lia|].
  destruct (Nat.eq_dec (nth i ix 0%nat) 0) as [Z|Z]; [exact Z|]. exfalso. apply (H i Hi). auto.
Qed.

Lemma side_eval : forall m bc s, complete n d m -> length bc = n -> nth e bc 0 = s -> nth p bc 0 = 1 - s ->
  (forall i, (i < n)%nat -> i <> e -> i <> p -> nth i bc 0 = 0) ->
  lvsum (fun cp => snd cp *v weight (fst cp) bc) m =
  bezier d (fun j => match netAt m (sideIx n d p e j) with Some q => q | None => vzero end) s.
Proof.
  intros m bc s C L E1 E2 Z. pose proof C as [O Cm].
  set (f := fun ix => (match netAt m ix with Some q => q | None => vzero end) *v weight ix bc).
  rewrite (lvsum_ext _ _ (fun cp => f (fst cp))).
  2: { intros [ix q] H. unfold f. cbn [fst snd]. rewrite (proj2 (netAt_in m ix q O) H). reflexivity. }
  rewrite <- (lvsum_map _ _ fst f).
  rewrite (lvsum_restrict _ f (map (sideIx n d p e) (seq 0 (d + 1)))).
  - rewrite lvsum_map, lvsum_seq. unfold bezier. apply vsum_ext. intros j Hj. unfold f. rewrite (side_weight j s bc) by (assumption || lia). reflexivity.
  - apply ordered_NoDup; exact O.
  - apply FinFun.Injective_map_NoDup; [|apply seq_NoDup]. intros a b E. apply (f_equal (fun l => nth e l 0%nat)) in E.
    rewrite !sideIx_nth, Nat.eqb_refl in E by exact He. exact E.
  - intros ix H. apply in_map_iff in H. destruct H as (j & <- & Hj). apply in_seq in Hj. apply netAt_ordered_key; [exact O|].
    apply Cm. split; [apply side_length|apply side_sum; lia].
  - intros ix H N. apply netAt_ordered_key in H; [|exact O]. apply Cm in H. destruct H as [Li Si].
    destruct (side_dec ix Li Si) as [(j & Hj & ->)|X]; [exfalso; apply N; apply in_map; apply in_seq; lia|].
    unfold f. rewrite (off_weight ix bc Li Z X). v3ring.
Qed.
End Side.

(** ** Registering the curves *)
Definition valAt (v0 : V3) (m : snet) (k : index) : V3 := match netAt m k with Some p => p | None => v0 end.

Lemma netRef_spec : forall v0 m k m' p, ordered m -> netRef v0 m k = (m', p) ->
  ordered m' /\ p = valAt v0 m k /\ (forall k', valAt v0 m' k' = valAt v0 m k') /\
  forall k', netAt m' k' = match netAt m k' with Some q => Some q | None => if list_eq_dec Nat.eq_dec k' k then Some v0 else None end.
Proof.
  intros v0 m k m' p O E. unfold netRef in E. unfold valAt. destruct (netAt m k) as [q|] eqn:A; injection E as <- <-.
  - split; [exact O|]. split; [reflexivity|]. split; [reflexivity|]. intros k'. destruct (netAt m k') eqn:B; [reflexivity|].
    destruct (list_eq_dec Nat.eq_dec k' k) as [->|N]; [congruence|reflexivity].
  - split; [apply netSet_ordered; exact O|]. split; [reflexivity|]. split; intros k'; rewrite netAt_set by exact O;
      destruct (list_eq_dec Nat.eq_dec k' k) as [->|N]; try rewrite A; try reflexivity. destruct (netAt m k'); reflexivity.
Qed.

Definition addKeys (v0 : V3) (m : snet) (ks : list index) (m' : snet) : Prop :=
  ordered m' /\ forall k, netAt m' k = match netAt m k with Some q => Some q | None => if in_dec (list_eq_dec Nat.eq_dec) k ks then Some v0 else None end.

Lemma addKeys_val : forall v0 m ks m' k, addKeys v0 m ks m' -> valAt v0 m' k = valAt v0 m k.
Proof. intros v0 m ks m' k [_ H]. unfold valAt. rewrite H. destruct (netAt m k); [reflexivity|]. destruct (in_dec (list_eq_dec Nat.eq_dec) k ks); reflexivity. Qed.
Lemma addKeys_nil : forall v0 m, ordered m -> addKeys v0 m [] m.
Proof. intros v0 m O. split; [exact O|]. intros k. destruct (netAt m k); reflexivity. Qed.
Lemma addKeys_trans : forall v0 m1 m2 m3 k1 k2, addKeys v0 m1 k1 m2 -> addKeys v0 m2 k2 m3 -> addKeys v0 m1 (k1 ++ k2) m3.
Proof.
  intros v0 m1 m2 m3 k1 k2 [_ H1] [O H2]. split; [exact O|]. intros k. rewrite H2, H1. destruct (netAt m1 k); [reflexivity|].
  destruct (in_dec (list_eq_dec Nat.eq_dec) k k1) as [I|I]; destruct (in_dec (list_eq_dec Nat.eq_dec) k (k1 ++ k2)) as [J|J]; rewrite in_app_iff in J; try tauto.
  - destruct (in_dec (list_eq_dec Nat.eq_dec) k k2); tauto.
  - destruct (in_dec (list_eq_dec Nat.eq_dec) k k2); tauto.
Qed.
Lemma addKeys_one : forall v0 m k m' p, ordered m -> netRef v0 m k = (m', p) -> addKeys v0 m [k] m'.
Proof.
  intros v0 m k m' p O E. destruct (netRef_spec v0 m k m' p O E) as (O' & _ & _ & H). split; [exact O'|]. intros k'. rewrite H.
  destruct (netAt m k'); [reflexivity|]. destruct (list_eq_dec Nat.eq_dec k' k) as [Ek|N]; destruct (in_dec (list_eq_dec Nat.eq_dec) k' [k]) as [J|J]; cbn in J; try reflexivity.
  - exfalso. apply J. left. congruence.
  - exfalso. destruct J as [J|[]]. congruence.
Qed.

Lemma upd_ext : forall (l l' : list nat) i a, (i < length l)%nat -> length l' = length l ->
  (forall j, (j < length l)%nat -> nth j l' 0%nat = if (j =? i)%nat then a else nth j l 0%nat) -> upd l i a = Some l'.
Proof.
  intros l l' i a H L E. destruct (upd_spec nat l i a H) as (l2 & U & L2 & Ho). rewrite U. f_equal.
  apply nth_ext with (d := 0%nat) (d' := 0%nat); [lia|]. intros j Hj. rewrite E by lia.
  apply nth_error_nth. rewrite Ho. destruct (Nat.eqb_spec j i); [reflexivity|]. apply nth_error_nth'. lia.
Qed.

Section Walk.
Variables (n d i ip : nat) (v0 : V3).
Hypothesis Hi : (i < n)%nat.
Hypothesis Hip : (ip < n)%nat.
Hypothesis Hne : i <> ip.

Lemma walk : forall t j m pv, (j + t = d)%nat -> ordered m ->
  exists m', sideLoop v0 i ip t m (sideIx n d i ip j) pv =
    Some (m', pv ++ map (fun k => valAt v0 m (sideIx n d i ip k)) (seq j (t + 1))) /\
    addKeys v0 m (map (sideIx n d i ip) (seq j (t + 1))) m'.
Proof.
  induction t as [|t IH]; intros j m pv Hj O; cbn [sideLoop]; destruct (netRef v0 m (sideIx n d i ip j)) as [m1 p] eqn:E;
    pose proof (addKeys_one _ _ _ _ _ O E) as A1; destruct (netRef_spec _ _ _ _ _ O E) as (O1 & -> & V1 & _).
  - exists m1. split; [reflexivity|]. exact A1.
  - assert (Hl : length (sideIx n d i ip j) = n) by apply side_length.
    rewrite (nth_error_nth' _ 0%nat) by lia. cbn [bind]. rewrite sideIx_nth by exact Hi.
    destruct (Nat.eqb_spec i ip); [contradiction|]. rewrite Nat.eqb_refl.
    set (mid := tabulate n (fun k => if (k =? ip)%nat then j else if (k =? i)%nat then (d - j - 1)%nat else 0%nat)).
    assert (Hm : forall k, (k < n)%nat -> nth k mid 0%nat = if (k =? ip)%nat then j else if (k =? i)%nat then (d - j - 1)%nat else 0%nat).
    { intros k Hk. apply nth_error_nth. unfold mid. rewrite tabulate_nth_error by exact Hk. reflexivity. }
    assert (Lm : length mid = n) by apply tabulate_length.
    rewrite (upd_ext _ mid i (d - j - 1)%nat).
    2: lia. 2: lia.
    2: { intros k Hk. rewrite Hm, sideIx_nth by lia. destruct (Nat.eqb_spec k i); destruct (Nat.eqb_spec k ip); try reflexivity; lia. }
    cbn [bind]. rewrite (nth_error_nth' _ 0%nat) by lia. cbn [bind]. rewrite Hm by exact Hip. rewrite Nat.eqb_refl.
    rewrite (upd_ext _ (sideIx n d i ip (j + 1)) ip (j + 1)%nat).
    2: lia. 2: rewrite side_length; lia.
    2: { intros k Hk. rewrite Hm, sideIx_nth by lia. destruct (Nat.eqb_spec k ip); [reflexivity|]. destruct (Nat.eqb_spec k i); [lia|reflexivity]. }
    cbn [bind]. destruct (IH (j + 1)%nat m1 (pv ++ [valAt v0 m (sideIx n d i ip j)]) ltac:(lia) O1) as (m' & E' & A').
    exists m'. rewrite E'. replace (j + 1)%nat with (Datatypes.S j) by lia. split.
    + f_equal. f_equal. rewrite <- app_assoc. f_equal. cbn [app seq Nat.add map]. f_equal. apply map_ext. intros k. apply V1.
    + replace (j + 1)%nat with (Datatypes.S j) in A' by lia. exact (addKeys_trans _ _ _ _ [_] _ A1 A').
Qed.
Lemma start_index : upd (repeat 0%nat n) i d = Some (sideIx n d i ip 0).
Proof.
  apply upd_ext; [rewrite repeat_length; exact Hi|rewrite side_length, repeat_length; reflexivity|].
  intros k Hk. rewrite repeat_length in Hk. rewrite sideIx_nth by exact Hk. destruct (Nat.eqb_spec k ip), (Nat.eqb_spec k i); try lia.
  - rewrite nth_repeat. reflexivity.
  - rewrite nth_repeat. reflexivity.
Qed.
End Walk.

(** All indices on the boundary. *)
Definition boundaryKeys (n d : nat) : list index := concat (map (fun i => map (sideIx n d i (nxt n i)) (seq 0 (d + 1))) (seq 0 n)).

Lemma curves_value : forall v0 n d m, (2 <= n)%nat -> ordered m ->
  exists m', spCurves v0 (mkSP n d m) =
    Some (mkSP n d m', map (fun i => map (fun j => valAt v0 m (sideIx n d i (nxt n i) j)) (seq 0 (d + 1))) (seq 0 n)) /\
    addKeys v0 m (boundaryKeys n d) m'.
Proof.
  intros v0 n d m Hn O. unfold spCurves. cbn [sp_n sp_depth sp_net].
  assert (G : forall t k m1 cs, (k + t <= n)%nat -> ordered m1 -> exists m',
    foldM (fun s i => let '(m, cs) := s in
      ix <- upd (repeat 0%nat n) i d ;;
      ' (m', pv) <- sideLoop v0 i ((i + 1) mod n)%nat d m ix [] ;;
      Some (m', cs ++ [pv])) (m1, cs) (seq k t) =
    Some (m', cs ++ map (fun i => map (fun j => valAt v0 m1 (sideIx n d i (nxt n i) j)) (seq 0 (d + 1))) (seq k t)) /\
    addKeys v0 m1 (concat (map (fun i => map (sideIx n d i (nxt n i)) (seq 0 (d + 1))) (seq k t))) m').
  { induction t as [|t IH]; intros k m1 cs Hk O1; cbn [seq foldM].
    - exists m1. rewrite app_nil_r. split; [reflexivity|apply addKeys_nil; exact O1].
    - assert (Hx : (nxt n k < n)%nat) by (apply nxt_lt; lia). assert (Hne : k <> nxt n k) by (intros X; apply (nxt_neq n k); [lia|lia|congruence]).
      rewrite (start_index n d k (nxt n k) ltac:(lia) Hx Hne). cbn [bind]. fold (nxt n k).
      destruct (walk n d k (nxt n k) v0 ltac:(lia) Hx Hne d 0 m1 [] ltac:(lia) O1) as (m2 & E2 & A2). rewrite E2. cbn [bind app].
      destruct (IH (Datatypes.S k) m2 (cs ++ [map (fun j => valAt v0 m1 (sideIx n d k (nxt n k) j)) (seq 0 (d + 1))]) ltac:(lia) (proj1 A2)) as (m3 & E3 & A3).
      exists m3. rewrite E3. split.
      + f_equal. f_equal. rewrite <- app_assoc. f_equal. cbn [app map]. f_equal. apply map_ext. intros a. apply map_ext. intros b.
        exact (addKeys_val _ _ _ _ _ A2).
      + cbn [map concat]. exact (addKeys_trans _ _ _ _ _ _ A2 A3). }
  destruct (G n 0%nat m [] ltac:(lia) O) as (m' & E & A). exists m'. split; [|exact A].
  set (F := foldM _ _ _) in *. rewrite E. reflexivity.
Qed.
