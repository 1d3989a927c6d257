(** Lemmas on the file readers. *)
From Coq Require Import NArith ZArith Permutation.
From Verif Require Import Base UtilModel UtilSpec UtilProofs GBModel SPatchModel SPatchProofs SuperDModel SuperDProofs ReaderModel.
Open Scope R_scope.

Definition ptTokens (p : V3) : list token := [TReal (vx p); TReal (vy p); TReal (vz p)].

Lemma readV_tokens : forall p q f, readV p (ptTokens q ++ f) = (q, f).
Proof. intros p [x y z] f. reflexivity. Qed.
Lemma readV_nil : forall p, readV p [] = (p, []).
Proof. intros [x y z]. reflexivity. Qed.

Section Into.
Context {T : Type} (rd : T -> list token -> T * list token) (tok : T -> list token).
Hypothesis rd_tok : forall x y f, rd x (tok y ++ f) = (y, f).
Lemma readInto_tokens : forall l' l f, length l = length l' -> readInto rd l (concat (map tok l') ++ f) = (l', f).
Proof.
  induction l' as [|y l' IH]; intros [|x l] f L; try discriminate L; [reflexivity|].
  cbn [readInto map concat]. rewrite <- app_assoc, rd_tok. rewrite IH by (cbn in L; lia). reflexivity.
Qed.
Hypothesis rd_nil : forall x, rd x [] = (x, []).
Lemma readInto_nil : forall l, readInto rd l [] = (l, []).
Proof. induction l as [|x l IH]; [reflexivity|]. cbn [readInto]. rewrite rd_nil, IH. reflexivity. Qed.
End Into.

Lemma readInto_length : forall (T : Type) (rd : T -> list token -> T * list token) l f, length (fst (readInto rd l f)) = length l.
Proof.
  intros T rd. induction l as [|x l IH]; intros f; [reflexivity|]. cbn [readInto]. destruct (rd x f) as [x' f1]. specialize (IH f1).
  destruct (readInto rd l f1) as [l' f2]. cbn in *. lia.
Qed.
Lemma vresize_length : forall (T : Type) (d : T) l n, length (vresize d l n) = n.
Proof. intros. unfold vresize. rewrite app_length, firstn_length, repeat_length. lia. Qed.
Lemma vresize_same : forall (T : Type) (d : T) l, vresize d l (length l) = l.
Proof. intros. unfold vresize. rewrite firstn_all, Nat.sub_diag. apply app_nil_r. Qed.

(** ** readLOP *)
Definition lopTokens (c : lopcurve) : list token :=
  let '(d, ks, ps) := c in
  TNat d :: TNat (length ks) :: map TReal ks ++ TNat (length ps) :: concat (map ptTokens ps).

Lemma reals_tokens : forall ks, map TReal ks = concat (map (fun x => [TReal x]) ks).
Proof. induction ks as [|k ks IH]; [reflexivity|]. cbn [map concat app]. rewrite IH. reflexivity. Qed.

(** The variables hold the values of [c]. *)
Definition holds (s : lopstate) (c : lopcurve) : Prop :=
  let '(d, ks, ps) := c in
  lp_deg s = Some d /\ lp_nk s = Some (length ks) /\ lp_nc s = Some (length ps) /\ lp_knots s = ks /\ lp_cpts s = ps.

Lemma lop_step : forall v0 s c f, lp_file s = lopTokens c ++ f ->
  exists s', lopStep v0 s = Some s' /\ holds s' c /\ lp_file s' = f /\ lp_result s' = lp_result s ++ [c].
Proof.
  intros v0 s [[d ks] ps] f E. unfold lopStep. rewrite E. cbn [lopTokens app readNat bind].
  rewrite <- app_assoc, reals_tokens.
  rewrite (readInto_tokens readR (fun x => [TReal x])) by (try (intros; reflexivity); rewrite vresize_length; reflexivity).
  cbn [app readNat bind]. rewrite (readInto_tokens readV ptTokens readV_tokens) by (rewrite vresize_length; reflexivity).
  eexists. split; [reflexivity|]. repeat split.
Qed.

Lemma lop_none : forall v0 s c, lp_file s = [] -> holds s c ->
  exists s', lopStep v0 s = Some s' /\ holds s' c /\ lp_file s' = [] /\ lp_result s' = lp_result s ++ [c].
Proof.
  intros v0 s [[d ks] ps] E (H1 & H2 & H3 & H4 & H5). unfold lopStep. rewrite E, H1, H2. cbn [readNat bind]. rewrite H4, vresize_same.
  rewrite readInto_nil by reflexivity. cbn [readNat bind]. rewrite H3. cbn [bind]. rewrite H5, vresize_same, readInto_nil by apply readV_nil.
  eexists. split; [reflexivity|]. repeat split; assumption.
Qed.

(** At the end of the file the last curve is repeated. *)
Lemma lop_nones : forall v0 m a s c, lp_file s = [] -> holds s c ->
  exists s', foldM (fun s _ => lopStep v0 s) s (seq a m) = Some s' /\ lp_result s' = lp_result s ++ repeat c m.
Proof.
  intros v0. induction m as [|m IH]; intros a s c E H; cbn [seq foldM repeat].
  - exists s. split; [reflexivity|]. rewrite app_nil_r. reflexivity.
  - destruct (lop_none v0 s c E H) as (s1 & E1 & H1 & F1 & R1). rewrite E1. cbn [bind]. destruct (IH (S a) s1 c F1 H1) as (s2 & E2 & R2).
    exists s2. split; [exact E2|]. rewrite R2, R1, <- app_assoc. reflexivity.
Qed.

Lemma lop_all : forall v0 cs a s f, lp_file s = concat (map lopTokens cs) ++ f ->
  exists s', foldM (fun s _ => lopStep v0 s) s (seq a (length cs)) = Some s' /\ lp_file s' = f /\ lp_result s' = lp_result s ++ cs /\
    (cs = [] -> s' = s) /\ (forall d, cs <> [] -> holds s' (last cs d)).
Proof.
  intros v0. induction cs as [|c cs IH]; intros a s f E; cbn [length seq foldM].
  - exists s. split; [reflexivity|]. split; [exact E|]. split; [rewrite app_nil_r; reflexivity|]. split; [reflexivity|]. intros d N; contradiction.
  - cbn [map concat] in E. rewrite <- app_assoc in E. destruct (lop_step v0 s c _ E) as (s1 & E1 & H1 & F1 & R1). rewrite E1. cbn [bind].
    destruct (IH (S a) s1 f F1) as (s2 & E2 & F2 & R2 & N2 & L2). exists s2. split; [exact E2|]. split; [exact F2|].
    split; [rewrite R2, R1, <- app_assoc; reflexivity|]. split; [discriminate|]. intros d _. destruct cs as [|c' cs]; [rewrite N2 by reflexivity; exact H1|].
    apply L2. discriminate.
Qed.

Lemma seq_split : forall a m n, (m <= n)%nat -> seq a n = seq a m ++ seq (a + m) (n - m).
Proof. intros a m n H. rewrite <- seq_app. f_equal. lia. Qed.
Lemma foldM_app : forall (A S : Type) (f : S -> A -> option S) l l' s, foldM f s (l ++ l') = (s' <- foldM f s l ;; foldM f s' l').
Proof. intros A S f. induction l as [|x l IH]; intros l' s; cbn [foldM app bind]; [reflexivity|]. destruct (f s x); cbn [bind]; [apply IH|reflexivity]. Qed.

Lemma skipn_skipn' : forall (T : Type) a b (l : list T), skipn a (skipn b l) = skipn (b + a) l.
Proof. intros T a. induction b as [|b IH]; intros l; [reflexivity|]. destruct l as [|x l]; [apply skipn_nil|]. cbn [skipn Nat.add]. apply IH. Qed.

Lemma into_rest : forall (T : Type) (rd : T -> list token -> T * list token) w, (forall x f, snd (rd x f) = skipn w f) ->
  forall l f, snd (readInto rd l f) = skipn (w * length l) f.
Proof.
  intros T rd w Hr. induction l as [|x l IH]; intros f; [rewrite Nat.mul_0_r; reflexivity|]. cbn [readInto length]. specialize (Hr x f). destruct (rd x f) as [x' f1]. cbn in Hr.
  specialize (IH f1). destruct (readInto rd l f1) as [l1 f2]. cbn [snd] in *. rewrite IH, Hr, skipn_skipn'. f_equal. lia.
Qed.
Lemma readR_rest : forall x f, snd (readR x f) = skipn 1 f.
Proof. intros x [|t f]; reflexivity. Qed.
Lemma readV_rest : forall x f, snd (readV x f) = skipn 3 f.
Proof. intros [x y z] [|t1 [|t2 [|t3 f]]]; reflexivity. Qed.

(** A curve of which only the first [k] tokens are there: what is not there is
    taken from the variables. *)
Lemma lop_cut : forall v0 s c0 c k, holds s c0 -> (k < length (lopTokens c))%nat -> lp_file s = firstn k (lopTokens c) ->
  exists s' c', lopStep v0 s = Some s' /\ holds s' c' /\ lp_file s' = [] /\ lp_result s' = lp_result s ++ [c'].
Proof.
  intros v0 s [[d0 ks0] ps0] [[d ks] ps] k (H1 & H2 & H3 & H4 & H5) Hk E. unfold lopStep. rewrite E, H1, H2, H3, H4, H5. clear E.
  assert (PT : forall j, (j <= 3 * length ps)%nat -> length (firstn j (concat (map ptTokens ps))) = j).
  { intros j Hj. rewrite firstn_length. replace (length (concat (map ptTokens ps))) with (3 * length ps)%nat; [lia|].
    clear. induction ps as [|p ps IH]; [reflexivity|]. cbn [map concat length app ptTokens]. lia. }
  assert (TL : length (lopTokens (d, ks, ps)) = (3 + length ks + 3 * length ps)%nat).
  { cbn [lopTokens length]. rewrite app_length, map_length. cbn [length]. specialize (PT (3 * length ps)%nat ltac:(lia)). rewrite firstn_length in PT.
    assert (length (concat (map ptTokens ps)) = (3 * length ps)%nat); [|lia].
    clear. induction ps as [|p ps IH]; [reflexivity|]. cbn [map concat length app ptTokens]. lia. }
  rewrite TL in Hk. clear TL.
  (* steps after the count of the knots *)
  assert (TAIL : forall dg n1 kn f3, length kn = n1 ->
    (f3 = [] \/ exists j, (j <= 3 * length ps)%nat /\ f3 = TNat (length ps) :: firstn j (concat (map ptTokens ps))) ->
    exists s' c', (' (nc, f4) <- readNat (Some (length ps0)) f3 ;; c <- nc ;; let (cpts, f5) := readInto readV (vresize v0 ps0 c) f4 in
       dg <- Some dg ;; Some (mkLop (Some dg) (Some n1) nc kn cpts f5 (lp_result s ++ [(dg, kn, cpts)]))) = Some s' /\
       holds s' c' /\ lp_file s' = [] /\ lp_result s' = lp_result s ++ [c']).
  { intros dg n1 kn f3 Ln [->|(j & Hj & ->)]; cbn [readNat bind].
    - rewrite vresize_same, readInto_nil by apply readV_nil. cbn [bind]. eexists. exists (dg, kn, ps0). split; [reflexivity|]. repeat split; cbn; congruence.
    - pose proof (readInto_length _ readV (vresize v0 ps0 (length ps)) (firstn j (concat (map ptTokens ps)))) as LL.
      pose proof (into_rest _ readV 3 readV_rest (vresize v0 ps0 (length ps)) (firstn j (concat (map ptTokens ps)))) as RR.
      rewrite vresize_length in LL, RR. rewrite skipn_all2 in RR by (rewrite PT by exact Hj; lia).
      destruct (readInto readV _ _) as [cp f5]. cbn [fst snd] in LL, RR. subst f5. cbn [bind]. eexists. exists (dg, kn, cp). split; [reflexivity|]. repeat split; cbn; congruence. }
  destruct k as [|[|k]]; cbn [lopTokens firstn readNat bind].
  - rewrite vresize_same, readInto_nil by reflexivity. apply TAIL; [reflexivity|left; reflexivity].
  - rewrite vresize_same, readInto_nil by reflexivity. apply TAIL; [reflexivity|left; reflexivity].
  - pose proof (readInto_length _ readR (vresize 0 ks0 (length ks)) (firstn k (map TReal ks ++ TNat (length ps) :: concat (map ptTokens ps)))) as LL.
    pose proof (into_rest _ readR 1 readR_rest (vresize 0 ks0 (length ks)) (firstn k (map TReal ks ++ TNat (length ps) :: concat (map ptTokens ps)))) as RR.
    rewrite vresize_length in LL, RR. destruct (readInto readR _ _) as [kn f3]. cbn [fst snd] in LL, RR. apply TAIL; [exact LL|].
    rewrite firstn_app, skipn_app, map_length in RR. rewrite Nat.mul_1_l in RR.
    rewrite (skipn_all2 (firstn k (map TReal ks))) in RR by (rewrite firstn_length, map_length; lia). cbn [app] in RR.
    destruct (le_lt_dec k (length ks)) as [K|K].
    + left. rewrite RR. replace (k - length ks)%nat with 0%nat by lia. apply skipn_nil.
    + right. exists (k - length ks - 1)%nat. split; [lia|]. rewrite RR. rewrite firstn_length, map_length. replace (length ks - Nat.min k (length ks))%nat with 0%nat by lia.
      cbn [skipn]. destruct (k - length ks)%nat as [|q] eqn:Q; [lia|]. cbn [firstn]. do 2 f_equal. lia.
Qed.

(** ** loadSPatch *)
Lemma hockey : forall m d, list_sum (map (fun j => choose (m + j) j) (seq 0 (d + 1))) = choose (m + d + 1) d.
Proof.
  intros m. induction d as [|d IH].
  - cbn [Nat.add seq map]. rewrite !choose_0. reflexivity.
  - replace (S d + 1)%nat with ((d + 1) + 1)%nat by lia. rewrite seq_app, map_app, list_sum_app, IH. cbn [Nat.add seq map].
    replace (m + S d + 1)%nat with (S (m + d + 1)) by lia. rewrite choose_S.
    replace (list_sum [choose (m + (d + 1)) (d + 1)]) with (choose (m + d + 1) (S d)); [lia|].
    transitivity (choose (m + (d + 1)) (d + 1) + 0)%nat; [|reflexivity]. rewrite Nat.add_0_r. f_equal; lia.
Qed.

Lemma list_sum_rev' : forall l, list_sum (rev l) = list_sum l.
Proof. induction l as [|x l IH]; [reflexivity|]. cbn [rev]. rewrite list_sum_app, IH. change (list_sum [x]) with (x + 0)%nat. change (list_sum (x :: l)) with (x + list_sum l)%nat. lia. Qed.
Lemma rev_seq : forall d, map (fun k => (d - k)%nat) (seq 0 (d + 1)) = rev (seq 0 (d + 1)).
Proof.
  intros d. apply nth_ext with (d := 0%nat) (d' := 0%nat); [rewrite map_length, rev_length; reflexivity|]. intros k Hk. rewrite map_length, seq_length in Hk.
  rewrite rev_nth by (rewrite seq_length; exact Hk). rewrite seq_length. rewrite (nth_indep _ 0%nat ((fun k => (d - k)%nat) 0%nat)) by (rewrite map_length, seq_length; exact Hk).
  rewrite (map_nth (fun k => (d - k)%nat)). rewrite !seq_nth by lia. lia.
Qed.
Lemma length_concat_map : forall (A B : Type) (g : A -> list B) l, length (concat (map g l)) = list_sum (map (fun a => length (g a)) l).
Proof. intros A B g. induction l as [|a l IH]; [reflexivity|]. cbn [map concat]. rewrite app_length, IH. reflexivity. Qed.

(** The number of indices of [n] numbers with sum [d]. *)
Lemma comps_count : forall n d, length (comps (S n) d) = choose (n + d) d.
Proof.
  induction n as [|n IH]; intros d.
  - cbn [comps Nat.add]. rewrite choose_diag, length_concat_map.
    rewrite (map_ext_in _ (fun k => if (k =? d)%nat then 1 else 0)%nat).
    + rewrite seq_app, map_app, list_sum_app. cbn [seq Nat.add map]. rewrite Nat.eqb_refl.
      rewrite (map_ext_in _ (fun _ => 0%nat)) by (intros k Hk; apply in_seq in Hk; destruct (Nat.eqb_spec k d); [lia|reflexivity]).
      assert (Z : forall l : list nat, list_sum (map (fun _ => 0%nat) l) = 0%nat) by (induction l as [|x l IH]; [reflexivity|exact IH]). rewrite Z. reflexivity.
    + intros k Hk. apply in_seq in Hk. rewrite map_length. destruct (Nat.eqb_spec k d) as [->|N]; [rewrite Nat.sub_diag; reflexivity|].
      destruct (d - k)%nat eqn:E; [lia|]. reflexivity.
  - change (comps (S (S n)) d) with (concat (map (fun k => map (cons k) (comps (S n) (d - k))) (seq 0 (d + 1)))).
    rewrite length_concat_map. rewrite (map_ext _ (fun k => choose (n + (d - k)) (d - k))) by (intros k; rewrite map_length; apply IH).
    rewrite <- (map_map (fun k => (d - k)%nat) (fun j => choose (n + j) j)), rev_seq, map_rev, list_sum_rev', hockey. f_equal. lia.
Qed.

Definition entryTokens (w : index * V3) : list token := map TNat (fst w) ++ ptTokens (snd w).

Lemma takeIndex_tokens : forall ix f, takeIndex (length ix) (map TNat ix ++ f) = Some (ix, f).
Proof. induction ix as [|k ix IH]; intros f; [reflexivity|]. cbn [length takeIndex map app takeNat bind]. rewrite IH. reflexivity. Qed.
Lemma takePoint_tokens : forall p f, takePoint (ptTokens p ++ f) = Some (p, f).
Proof. intros [x y z] f. reflexivity. Qed.

Lemma sp_loop : forall n ws a sp f, (forall w, In w ws -> length (fst w) = n) ->
  foldM (fun s _ => let '(sp, f) := s in ' (ix, g1) <- takeIndex n f ;; ' (p, g2) <- takePoint g1 ;; Some (spSet sp ix p, g2))
    (sp, concat (map entryTokens ws) ++ f) (seq a (length ws)) =
  Some (mkSP (sp_n sp) (sp_depth sp) (fold_left (fun m w => netSet m (fst w) (snd w)) ws (sp_net sp)), f).
Proof.
  intros n. induction ws as [|[ix p] ws IH]; intros a sp f H; cbn [length seq foldM map concat].
  - destruct sp. reflexivity.
  - unfold entryTokens at 1. cbn [fst snd]. rewrite <- !app_assoc. rewrite <- (H (ix, p) (or_introl eq_refl)) at 1. cbn [fst].
    rewrite takeIndex_tokens. cbn [bind]. rewrite takePoint_tokens. cbn [bind].
    rewrite IH by (intros w Hw; apply H; right; exact Hw). reflexivity.
Qed.

Lemma takeIndex_len : forall n f ix g, takeIndex n f = Some (ix, g) -> length f = (n + length g)%nat.
Proof.
  induction n as [|n IH]; intros f ix g E; cbn in E; [injection E as <- <-; reflexivity|]. destruct f as [|[k|x] f]; try discriminate. cbn in E.
  destruct (takeIndex n f) as [[ix' g']|] eqn:E'; [|discriminate]. cbn in E. injection E as <- <-. apply IH in E'. cbn. lia.
Qed.
Lemma takePoint_len : forall f p g, takePoint f = Some (p, g) -> length f = (3 + length g)%nat.
Proof. intros [|x [|y [|z f]]] p g E; try discriminate E. cbn in E. injection E as <- <-. reflexivity. Qed.
Lemma sp_loop_len : forall n l (s : spatch * list token) s', foldM (fun s (_ : nat) => let '(sp, f) := s in ' (ix, g1) <- takeIndex n f ;; ' (p, g2) <- takePoint g1 ;; Some (spSet sp ix p, g2)) s l = Some s' ->
  ((n + 3) * length l + length (snd s') = length (snd s))%nat.
Proof.
  intros n. induction l as [|a l IH]; intros [sp f] s' E; cbn [foldM] in E; [injection E as <-; cbn; lia|].
  destruct (takeIndex n f) as [[ix g1]|] eqn:E1; [|discriminate]. cbn [bind] in E. destruct (takePoint g1) as [[p g2]|] eqn:E2; [|discriminate]. cbn [bind] in E.
  apply IH in E. apply takeIndex_len in E1. apply takePoint_len in E2. cbn [length snd] in *. lia.
Qed.

(** ** loadSuperDModel *)
Definition some3 (q : V3) : opt3 := (Some (vx q), Some (vy q), Some (vz q)).

(** Reading the points [l] one after the other. *)
Fixpoint yields (c : opt3) (f : list token) (l : list V3) (c' : opt3) (f' : list token) : Prop :=
  match l with
  | [] => c' = c /\ f' = f
  | q :: l => exists f1, readOpt3 c f = (some3 q, f1) /\ yields (some3 q) f1 l c' f'
  end.

Lemma yields_app : forall l1 l2 c f c1 f1 c2 f2, yields c f l1 c1 f1 -> yields c1 f1 l2 c2 f2 -> yields c f (l1 ++ l2) c2 f2.
Proof.
  induction l1 as [|q l1 IH]; intros l2 c f c1 f1 c2 f2 H1 H2; [destruct H1 as [-> ->]; exact H2|].
  destruct H1 as (g & E & H1). exists g. split; [exact E|]. apply (IH l2 _ _ c1 f1); assumption.
Qed.
Lemma yields_split : forall l1 l2 c f c2 f2, yields c f (l1 ++ l2) c2 f2 -> exists c1 f1, yields c f l1 c1 f1 /\ yields c1 f1 l2 c2 f2.
Proof.
  induction l1 as [|q l1 IH]; intros l2 c f c2 f2 H; [exists c, f; split; [split; reflexivity|exact H]|].
  destruct H as (g & E & H). destruct (IH l2 _ _ _ _ H) as (c1 & f1 & H1 & H2). exists c1, f1. split; [exists g; split; assumption|exact H2].
Qed.
Lemma yields_tokens : forall l c f, exists c', yields c (concat (map ptTokens l) ++ f) l c' f /\ forall d, l <> [] -> c' = some3 (last l d).
Proof.
  induction l as [|q l IH]; intros c f; [exists c; split; [split; reflexivity|intros d N; contradiction]|].
  destruct (IH (some3 q) f) as (c' & H & L). exists c'. split.
  - exists (concat (map ptTokens l) ++ f). split; [|exact H]. cbn [map concat]. rewrite <- app_assoc. destruct c as [[x y] z]. reflexivity.
  - intros d _. destruct l as [|q' l]; [destruct H as [-> _]; reflexivity|]. apply L. discriminate.
Qed.
Lemma yields_nil : forall m q, yields (some3 q) [] (repeat q m) (some3 q) [].
Proof. induction m as [|m IH]; intros q; [split; reflexivity|]. exists []. split; [reflexivity|apply IH]. Qed.

Lemma point_some3 : forall q, point3 (some3 q) = Some q.
Proof. intros [x y z]. reflexivity. Qed.

Lemma firstn_app_exact : forall (T : Type) (a b : list T), firstn (length a) (a ++ b) = a.
Proof. intros. rewrite firstn_app, Nat.sub_diag, firstn_all. cbn. apply app_nil_r. Qed.
Lemma upd_app : forall (T : Type) (a b : list T) x y, upd (a ++ x :: b) (length a) y = Some (a ++ y :: b).
Proof. intros T. induction a as [|z a IH]; intros b x y; [reflexivity|]. cbn [length app upd]. rewrite IH. reflexivity. Qed.

Section Loop.
Variables (get : superd -> list V3) (put : superd -> list V3 -> superd) (set : superd -> nat -> V3 -> option superd).
Hypothesis set_eq : forall p i x, set p i x = (y <- upd (get p) i x ;; Some (put p y)).
Hypothesis get_put : forall p y, get (put p y) = y.
Hypothesis put_put : forall p y z, put (put p y) z = put p z.
Hypothesis put_get : forall p, put p (get p) = p.
Lemma loop_value : forall l old pre p c f c' f', yields c f l c' f' -> length old = length l -> get p = pre ++ old ->
  foldM (fun s j => let '(p, c, f) := s in let (c', f') := readOpt3 c f in x <- point3 c' ;; p' <- set p j x ;; Some (p', c', f'))
    (p, c, f) (seq (length pre) (length l)) = Some (put p (pre ++ l), c', f').
Proof.
  induction l as [|q l IH]; intros [|o old] pre p c f c' f' Y L G; try discriminate L; cbn [length seq foldM].
  - destruct Y as [-> ->]. rewrite <- G, put_get. reflexivity.
  - destruct Y as (f1 & E & Y). rewrite E. rewrite point_some3. cbn [bind]. rewrite set_eq, G, upd_app. cbn [bind].
    specialize (IH old (pre ++ [q]) (put p (pre ++ q :: old)) (some3 q) f1 c' f' Y). rewrite app_length in IH. cbn [length] in IH. rewrite Nat.add_1_r in IH.
    rewrite IH.
    + rewrite put_put, <- app_assoc. reflexivity.
    + cbn in L. lia.
    + rewrite get_put, <- app_assoc. reflexivity.
Qed.
End Loop.

Lemma resize_nil : forall v0 n, resize v0 [] n = repeat v0 n.
Proof. intros. unfold resize. rewrite firstn_nil. cbn. rewrite Nat.sub_0_r. reflexivity. Qed.

Lemma patch_read : forall v0 n fs es v c f f0, length fs = n -> length es = n -> yields (None, None, None) f (fs ++ es ++ [v]) c f0 ->
  sdReadPatch v0 (TNat n :: f) =
  (_ <- sdCurves (mkSD n (/ 2) fs es v []) ;; q <- sdUpdateRibbons (mkSD n (/ 2) fs es v []) ;; Some (q, f0)).
Proof.
  intros v0 n fs es v c f f0 Lf Le Y. destruct (yields_split fs _ _ _ _ _ Y) as (c1 & f1 & Y1 & Y').
  destruct (yields_split es _ _ _ _ _ Y') as (c2 & f2 & Y2 & (f3 & E3 & Y3)). destruct Y3 as [-> ->].
  unfold sdReadPatch. cbn [readNat bind]. unfold sdReadLoop at 1.
  replace (seq 0 n) with (seq (length (@nil V3)) (length fs)) by (rewrite Lf; reflexivity).
  rewrite (loop_value su_f (fun p y => mkSD (su_n p) (su_full p) y (su_e p) (su_v p) (su_q p)) sdSetFace) with (pre := []) (old := repeat v0 n) (c' := c1) (f' := f1);
    [|intros; reflexivity|intros; reflexivity|intros; reflexivity|intros []; reflexivity|exact Y1|rewrite repeat_length; lia|cbn [sdInit sdEmpty su_f]; rewrite resize_nil; reflexivity].
  cbn [bind]. unfold sdReadLoop. replace (seq 0 n) with (seq (length (@nil V3)) (length es)) by (rewrite Le; reflexivity).
  rewrite (loop_value su_e (fun p y => mkSD (su_n p) (su_full p) (su_f p) y (su_v p) (su_q p)) sdSetEdge) with (pre := []) (old := repeat v0 n) (c' := c2) (f' := f2);
    [|intros; reflexivity|intros; reflexivity|intros; reflexivity|intros []; reflexivity|exact Y2|rewrite repeat_length; lia|cbn [su_e sdInit sdEmpty]; rewrite resize_nil; reflexivity].
  cbn [bind]. rewrite E3, point_some3. cbn [bind]. reflexivity.
Qed.

(** Whole files *)
Lemma lop_read : forall v0 cs rest, readLOP v0 (TNat (length cs) :: concat (map lopTokens cs) ++ rest) = Some cs.
Proof.
  intros v0 cs rest. unfold readLOP. cbn [readNat bind].
  destruct (lop_all v0 cs 0 (mkLop None None None [] [] (concat (map lopTokens cs) ++ rest) []) rest eq_refl) as (s & E & _ & R & _). rewrite E. cbn [bind]. rewrite R. reflexivity.
Qed.
Lemma lop_truncated : forall v0 cs c n, (length cs + 1 <= n)%nat ->
  readLOP v0 (TNat n :: concat (map lopTokens (cs ++ [c]))) = Some (cs ++ repeat c (n - length cs)).
Proof.
  intros v0 cs c n H. unfold readLOP. cbn [readNat bind].
  destruct (lop_all v0 (cs ++ [c]) 0 (mkLop None None None [] [] (concat (map lopTokens (cs ++ [c]))) []) []) as (s & E & F & R & _ & L); [symmetry; apply app_nil_r|].
  rewrite (seq_split 0 (length (cs ++ [c])) n) by (rewrite app_length; cbn; lia). rewrite foldM_app, E. cbn [bind].
  specialize (L c). rewrite last_last in L. destruct (lop_nones v0 (n - length (cs ++ [c])) (0 + length (cs ++ [c])) s c F) as (s' & E' & R'); [apply L; destruct cs; discriminate|].
  rewrite E'. cbn [bind]. rewrite R', R. cbn [lp_result app]. rewrite <- app_assoc, app_length. cbn [length].
  replace (n - length cs)%nat with (S (n - (length cs + 1))) by lia. reflexivity.
Qed.
Lemma lop_cut_read : forall v0 cs c0 c n k, (length cs + 2 <= n)%nat -> (k < length (lopTokens c))%nat ->
  exists c', readLOP v0 (TNat n :: concat (map lopTokens (cs ++ [c0])) ++ firstn k (lopTokens c)) = Some ((cs ++ [c0]) ++ repeat c' (n - length cs - 1)).
Proof.
  intros v0 cs c0 c n k H Hk. unfold readLOP. cbn [readNat bind].
  destruct (lop_all v0 (cs ++ [c0]) 0 (mkLop None None None [] [] (concat (map lopTokens (cs ++ [c0])) ++ firstn k (lopTokens c)) []) (firstn k (lopTokens c)) eq_refl) as (s & E & F & R & _ & L).
  rewrite (seq_split 0 (length (cs ++ [c0])) n) by (rewrite app_length; cbn; lia). rewrite foldM_app, E. cbn [bind].
  specialize (L c). rewrite last_last in L. rewrite app_length. cbn [length]. replace (n - (length cs + 1))%nat with (S (n - length cs - 2)) by lia. cbn [seq foldM].
  destruct (lop_cut v0 s c0 c k) as (s1 & c' & E1 & H1 & F1 & R1); [apply L; destruct cs; discriminate|exact Hk|exact F|]. rewrite E1. cbn [bind].
  match goal with |- context [seq ?b _] => destruct (lop_nones v0 (n - length cs - 2) b s1 c' F1 H1) as (s2 & E2 & R2) end. rewrite E2. cbn [bind].
  exists c'. rewrite R2, R1, R. cbn [lp_result app]. rewrite <- !app_assoc. replace (n - length cs - 1)%nat with (S (n - length cs - 2)) by lia. reflexivity.
Qed.

Lemma comps_perm_length : forall n d (ks : list index), (1 <= n)%nat -> NoDup ks -> (forall ix, In ix ks <-> length ix = n /\ list_sum ix = d) ->
  length ks = choose (n + d - 1) d.
Proof.
  intros n d ks Hn N H. destruct n as [|n]; [lia|]. replace (S n + d - 1)%nat with (n + d)%nat by lia. rewrite <- comps_count.
  apply Nat.le_antisymm; apply NoDup_incl_length; [exact N| |apply comps_NoDup|]; intros ix Hi.
  - apply comps_in. apply H. exact Hi.
  - apply H. apply comps_in. exact Hi.
Qed.

Lemma spCount_value : forall n d, (1 <= n)%nat -> (N.of_nat (n + d) < two64)%N ->
  (forall j, (1 <= j <= d)%nat -> (N.of_nat (choose (n + d - 1) (j - 1)) * N.of_nat (n + d - 1 - (j - 1)) < two64)%N) ->
  N.to_nat (spCount n d) = choose (n + d - 1) d.
Proof.
  intros n d Hn Hs H. unfold spCount.
  replace ((N.of_nat n + N.of_nat d + (two64 - 1)) mod two64)%N with (N.of_nat (n + d - 1)).
  - rewrite binomial64_spec by exact H. apply Nat2N.id.
  - replace (N.of_nat n + N.of_nat d + (two64 - 1))%N with (N.of_nat (n + d - 1) + 1 * two64)%N; [|unfold two64 in *; lia].
    rewrite N.mod_add by (unfold two64; lia). rewrite N.mod_small; [reflexivity|]. unfold two64 in *; lia.
Qed.

(** OBJ *)
Definition onum (t : otok) : option R := match t with ONat n => Some (INR n) | OReal x => Some x | _ => None end.
Definition vertexOf (ln : oline) : option V3 :=
  match ln with
  | LV (Some (a :: b :: c :: _)) => x <- onum a ;; y <- onum b ;; z <- onum c ;; Some (mkV3 x y z)
  | _ => None
  end.
Definition faceOf (ln : oline) : option (nat * nat * nat) :=
  match ln with LF (Some (ONat i :: ONat j :: ONat k :: _)) => Some (i, j, k) | _ => None end.
Definition plain (ln : oline) : Prop :=
  match ln with LEmpty | LOther => True | LV _ => vertexOf ln <> None | LF _ => faceOf ln <> None end.
Fixpoint pick {A B : Type} (f : A -> option B) (l : list A) : list B :=
  match l with [] => [] | x :: l' => match f x with Some y => y :: pick f l' | None => pick f l' end end.
Definition isFace (ln : oline) : bool := match ln with LF _ => true | _ => false end.
Definition tri64 (t : nat * nat * nat) : Z * Z * Z := let '(i, j, k) := t in (pred64 i, pred64 j, pred64 k).
Definition some_t (t : nat * nat * nat) : option nat * option nat * option nat := let '(i, j, k) := t in (Some i, Some j, Some k).

Lemma onum_read : forall t x c l, onum t = Some x -> ossReal c (t :: l, false) = (Some x, (l, false)).
Proof. intros [n|y|n|] x c l E; try discriminate E; injection E as <-; reflexivity. Qed.

Lemma plain_run : forall lines s, Forall plain lines -> ob_bad s = false ->
  exists s', foldM objStep s lines = Some s' /\ ob_bad s' = false /\ ob_pv s' = ob_pv s ++ pick vertexOf lines /\
    ob_tris s' = ob_tris s ++ map tri64 (pick faceOf lines) /\ ob_set s' = (ob_set s || existsb isFace lines)%bool /\
    (ob_set s = true \/ existsb isFace lines = false -> ob_points s' = ob_points s) /\
    ob_p s' = last (map some3 (pick vertexOf lines)) (ob_p s) /\ ob_t s' = last (map some_t (pick faceOf lines)) (ob_t s).
Proof.
  assert (LC : forall (A : Type) (l : list A) x d, last (x :: l) d = last l x).
  { intros A. induction l as [|y l IH]; intros x d; [reflexivity|]. change (last (y :: l) d = last (y :: l) x). rewrite (IH y d), (IH y x). reflexivity. }
  induction lines as [|ln lines IH]; intros s F B.
  - exists s. cbn [foldM pick map existsb last]. rewrite !app_nil_r, Bool.orb_false_r. auto 10.
  - inversion F as [|? ? P F']; subst. cbn [foldM pick existsb]. destruct ln as [| |rest|rest]; cbn [isFace orb].
    + destruct (IH s F' B) as (s' & H). exists s'. exact H.
    + destruct (IH s F' B) as (s' & H). exists s'. exact H.
    + cbn in P. destruct rest as [[|a [|b [|c l]]]|]; try (exfalso; apply P; reflexivity). cbn [vertexOf faceOf].
      destruct (onum a) as [x|] eqn:Ea; [|exfalso; apply P; reflexivity]. destruct (onum b) as [y|] eqn:Eb; [|exfalso; apply P; reflexivity]. destruct (onum c) as [z|] eqn:Ec; [|exfalso; apply P; reflexivity].
      cbn [bind objStep ossLine]. destruct (ob_p s) as [[x0 y0] z0] eqn:Ep. rewrite B.
      rewrite (onum_read a x) by exact Ea. rewrite (onum_read b y) by exact Eb. rewrite (onum_read c z) by exact Ec. cbn [point3 bind].
      match goal with |- context [foldM objStep ?t lines] => destruct (IH t F' eq_refl) as (s' & E & B' & V & T & S & Q & LP & LT) end.
      exists s'. rewrite E. cbn [ob_pv ob_tris ob_set ob_points ob_p ob_t] in *. split; [reflexivity|]. split; [exact B'|]. split; [rewrite V, <- app_assoc; reflexivity|].
      split; [exact T|]. split; [exact S|]. split; [exact Q|]. split; [|exact LT]. cbn [map]. rewrite LC, LP. reflexivity.
    + cbn in P. destruct rest as [[|[i|?|?|] [|[j|?|?|] [|[k|?|?|] l]]]|]; try (exfalso; apply P; reflexivity). cbn [vertexOf faceOf objStep ossLine].
      destruct (ob_t s) as [[a b] c] eqn:Et. rewrite B. cbn [ossNat bind].
      match goal with |- context [foldM objStep ?t lines] => destruct (IH t F' eq_refl) as (s' & E & B' & V & T & S & Q & LP & LT) end.
      exists s'. rewrite E. cbn [ob_pv ob_tris ob_set ob_points ob_p ob_t] in *. split; [reflexivity|]. split; [exact B'|]. split; [exact V|].
      split; [rewrite T, <- app_assoc; reflexivity|]. split; [rewrite S; cbn; rewrite Bool.orb_true_r; reflexivity|].
      split; [intros [X|X]; [|discriminate X]; rewrite Q by (left; reflexivity); rewrite X; reflexivity|]. split; [exact LP|]. cbn [map]. rewrite LC, LT. reflexivity.
Qed.

(** After a failure everything is repeated. *)
Lemma bad_run : forall lines s q t, ob_bad s = true -> ob_p s = some3 q -> ob_t s = some_t t -> ob_set s = true ->
  exists s', foldM objStep s lines = Some s' /\ ob_points s' = ob_points s /\
    ob_tris s' = ob_tris s ++ repeat (tri64 t) (length (filter isFace lines)).
Proof.
  induction lines as [|ln lines IH]; intros s q [[i j] k] B P T S.
  - exists s. cbn. rewrite app_nil_r. auto.
  - cbn [foldM filter]. destruct ln as [| |rest|rest]; cbn [isFace].
    + destruct (IH s q (i, j, k) B P T S) as (s' & H). exists s'. exact H.
    + destruct (IH s q (i, j, k) B P T S) as (s' & H). exists s'. exact H.
    + cbn [objStep]. rewrite P. cbn [some3]. destruct q as [x y z]. cbn [vx vy vz].
      replace (snd (ossReal (Some x) (ossLine rest (ob_bad s)))) with (ossLine rest true) by (rewrite B; destruct rest; reflexivity).
      assert (OL : exists l, ossLine rest (ob_bad s) = (l, true)) by (rewrite B; destruct rest; eexists; reflexivity). destruct OL as (l & ->). cbn [ossReal point3 bind snd].
      match goal with |- context [foldM objStep ?t0 lines] => destruct (IH t0 (mkV3 x y z) (i, j, k) eq_refl eq_refl T S) as (s' & H) end. exists s'. exact H.
    + cbn [objStep]. rewrite T. cbn [some_t].
      assert (OL : exists l, ossLine rest (ob_bad s) = (l, true)) by (rewrite B; destruct rest; eexists; reflexivity). destruct OL as (l & ->). cbn [ossNat bind snd].
      match goal with |- context [foldM objStep ?t0 lines] => destruct (IH t0 q (i, j, k) eq_refl P eq_refl eq_refl) as (s' & E & Q & R) end. exists s'. split; [exact E|].
      cbn [ob_points ob_tris] in *. split; [rewrite Q, S; reflexivity|]. rewrite R, <- app_assoc. reflexivity.
Qed.
