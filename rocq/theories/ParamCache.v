(** The caches of the parameterizations do not change their results. *)

From Verif Require Import Base MeshModel GeomSpec DomainModel UtilModel ParamModel UtilProofs.
Open Scope R_scope.

Lemma lookup_in : forall (A : Type) (c : list (V2 * A)) uv a, lookup c uv = Some a -> In (uv, a) c.
Proof.
  intros A c uv a. unfold lookup. destruct (find _ c) as [[p x]|] eqn:E; [|discriminate].
  intros H; injection H as ->. apply find_some in E. destruct E as [I F]. cbn [fst] in F.
  destruct (Req_EM_T (px p) (px uv)) as [X|]; [|discriminate]. destruct (Req_EM_T (py p) (py uv)) as [Y|]; [|discriminate].
  replace uv with p; [exact I|]. destruct p, uv; simpl in *; subst; reflexivity.
Qed.

Lemma lookup_head : forall (A : Type) (c : list (V2 * A)) uv a, lookup ((uv, a) :: c) uv = Some a.
Proof.
  intros A c uv a. unfold lookup. cbn [find fst].
  destruct (Req_EM_T (px uv) (px uv)) as [_|N]; [|contradiction N; reflexivity].
  destruct (Req_EM_T (py uv) (py uv)) as [_|N]; [reflexivity|contradiction N; reflexivity].
Qed.

(** The object agrees with its domain. *)
Record good (k : pkind) (eps : R) (d : dom) (st : pstate) : Prop := {
  g_n : ps_n st = d_n d;
  g_r : forall uv l, In (uv, l) (ps_rcache st) -> mapToRibbons k eps d uv = Some l;
  g_b : forall t, (k = KBary t \/ k = KConstrained t \/ k = KOverlap t) ->
        forall uv l, In (uv, l) (ps_bcache st) -> barycentric t eps d uv = Some l;
  g_p : k = KParallel -> parallelMultipliers d = Some (ps_mults st);
  g_s : k = KSuperD -> superdMultipliers d = Some (ps_mults st) }.

Definition is_bary (k : pkind) (t : btype) : Prop := k = KBary t \/ k = KConstrained t \/ k = KOverlap t.

Section Obj.
Variables (k : pkind) (eps : R) (d : dom).

(** Agreement of an object computation with a pure one: the same value or
    both undefined, and the object stays good. *)
Definition agrees {A : Type} (o : option (A * pstate)) (p : option A) : Prop :=
  match o with
  | Some (a, st) => p = Some a /\ good k eps d st
  | None => p = None
  end.

Lemma agrees_bind : forall (A B : Type) o p (f : A * pstate -> option (B * pstate)) (g : A -> option B),
  agrees o p -> (forall a st, good k eps d st -> agrees (f (a, st)) (g a)) -> agrees (bind o f) (bind p g).
Proof.
  intros A B o p f g H F. destruct o as [[a st]|]; simpl in H.
  - destruct H as [-> G]. simpl. apply F; exact G.
  - rewrite H. reflexivity.
Qed.
Lemma agrees_pure : forall (A : Type) (p : option A) st, good k eps d st ->
  agrees (r <- p ;; Some (r, st)) p.
Proof. intros A p st G. destruct p as [a|]; simpl; [split; [reflexivity|exact G]|reflexivity]. Qed.

Lemma baryCached_ok : forall t st uv, is_bary k t -> good k eps d st -> agrees (baryCached t eps d st uv) (barycentric t eps d uv).
Proof.
  intros t st uv K G. unfold baryCached. destruct (lookup (ps_bcache st) uv) as [l|] eqn:E.
  - apply lookup_in in E. simpl. split; [exact (g_b _ _ _ _ G t K uv l E)|exact G].
  - destruct (barycentric t eps d uv) as [l|] eqn:B; simpl; [|reflexivity]. split; [reflexivity|].
    destruct G as [G1 G2 G3 G4 G5]. split; cbn [ps_n ps_rcache ps_bcache ps_mults]; try assumption.
    intros t' K' uv' l' [I|I]; [injection I as <- <-|exact (G3 t' K' uv' l' I)].
    assert (t' = t) as ->; [|exact B].
    destruct K as [K|[K|K]], K' as [K'|[K'|K']]; rewrite K in K'; try discriminate; injection K'; auto.
Qed.

Lemma baryMapCached_ok : forall t st i uv, is_bary k t -> good k eps d st ->
  agrees (baryMapCached t eps d st i uv) (baryMap t eps d i uv).
Proof.
  intros t st i uv K G. unfold baryMapCached, baryMap. apply agrees_bind; [apply baryCached_ok; assumption|].
  intros l st' G'. apply agrees_pure; exact G'.
Qed.

Lemma mapToRibbonObj_ok : forall st i uv, good k eps d st ->
  agrees (mapToRibbonObj k eps d st i uv) (mapToRibbon k eps d i uv).
Proof.
  intros st i uv G. unfold mapToRibbonObj, mapToRibbon. destruct k as [t| | |t| | |t] eqn:K; rewrite <- K in *.
  - apply baryMapCached_ok; [left; exact K|exact G].
  - apply agrees_pure; exact G.
  - apply agrees_pure; exact G.
  - unfold constrainedMap. assert (B : is_bary k t) by (right; left; exact K).
    apply agrees_bind; [apply baryMapCached_ok; assumption|]. intros sd st1 G1.
    apply agrees_bind; [apply baryMapCached_ok; assumption|]. intros sp st2 G2.
    apply agrees_bind; [apply baryMapCached_ok; assumption|]. intros sn st3 G3. apply agrees_pure; exact G3.
  - rewrite (g_p _ _ _ _ G K). simpl. apply agrees_pure; exact G.
  - rewrite (g_s _ _ _ _ G K). simpl. apply agrees_pure; exact G.
  - unfold overlapMap. destruct (Nat.odd (d_n d)); [reflexivity|].
    apply agrees_bind; [apply baryCached_ok; [right; right; exact K|exact G]|]. intros bc st' G'.
    destruct (orsum _ _); simpl; [split; [reflexivity|exact G']|reflexivity].
Qed.

Lemma collect_ok : forall uv is acc st, good k eps d st ->
  agrees (foldM (fun acc i => let '(l, s) := acc in
        ' (r, s') <- mapToRibbonObj k eps d s i uv ;; Some (l ++ [r], s')) (acc, st) is)
    (l <- mapM (fun i => mapToRibbon k eps d i uv) is ;; Some (acc ++ l)).
Proof.
  intros uv is. induction is as [|i is IH]; intros acc st G.
  - simpl. rewrite app_nil_r. split; [reflexivity|exact G].
  - cbn [foldM mapM]. pose proof (mapToRibbonObj_ok st i uv G) as M.
    destruct (mapToRibbonObj k eps d st i uv) as [[r s']|]; simpl in M.
    + destruct M as [-> G']. cbn [bind]. specialize (IH (acc ++ [r]) s' G').
      destruct (mapM (fun i => mapToRibbon k eps d i uv) is) as [l|]; cbn [bind] in *.
      * replace (acc ++ r :: l) with ((acc ++ [r]) ++ l) by (rewrite <- app_assoc; reflexivity). exact IH.
      * exact IH.
    + rewrite M. reflexivity.
Qed.

Lemma baseRibbons_ok : forall st uv, good k eps d st -> agrees (baseRibbons k eps d st uv) (mapToRibbons k eps d uv).
Proof.
  intros st uv G. unfold baseRibbons. destruct (lookup (ps_rcache st) uv) as [l|] eqn:E.
  - apply lookup_in in E. simpl. split; [exact (g_r _ _ _ _ G uv l E)|exact G].
  - pose proof (collect_ok uv (seq 0 (ps_n st)) [] st G) as X.
    rewrite (g_n _ _ _ _ G) in X at 2. unfold mapToRibbons.
    destruct (foldM _ _ _) as [[l st']|]; simpl in X |- *.
    + destruct X as [X G']. destruct (mapM _ (seq 0 (d_n d))) as [l'|] eqn:M; [|discriminate]. simpl in X.
      split; [exact X|]. destruct G' as [G1 G2 G3 G4 G5].
      split; cbn [ps_n ps_rcache ps_bcache ps_mults]; try assumption.
      intros uv' l2 [I|I]; [injection I as <- <-|exact (G2 uv' l2 I)]. unfold mapToRibbons. rewrite M. exact X.
    + destruct (mapM _ (seq 0 (d_n d))); [discriminate|reflexivity].
Qed.

End Obj.

(** Recomputing the distances of the interconnected map changes nothing. *)
Lemma mapM_seq_nth : forall (B : Type) (f : nat -> option B) n l i, mapM f (seq 0 n) = Some l -> (i < n)%nat ->
  f i = nth_error l i.
Proof.
  intros B f n l i H Hi.
  assert (G : forall k m l, mapM f (seq k m) = Some l -> forall j, (j < m)%nat -> f (k + j)%nat = nth_error l j).
  { clear. intros k m; revert k. induction m as [|m IH]; intros k l H j Hj; [lia|].
    cbn [seq mapM] in H. destruct (f k) as [b|] eqn:E; [|discriminate]. cbn [bind] in H.
    destruct (mapM f (seq (S k) m)) as [l'|] eqn:E'; [|discriminate]. cbn [bind] in H. injection H as <-.
    destruct j as [|j]; [rewrite Nat.add_0_r; exact E|].
    simpl. rewrite <- (IH (S k) l' E' j ltac:(lia)). f_equal. lia. }
  exact (G 0%nat n l H i Hi).
Qed.

Lemma upd_same : forall (A : Type) (l : list A) i a, nth_error l i = Some a -> upd l i a = Some l.
Proof.
  intros A l; induction l as [|x l IH]; intros [|i] a H; simpl in *; try discriminate.
  - injection H as ->. reflexivity.
  - rewrite (IH i a H). reflexivity.
Qed.

Lemma foldM_fix : forall (S A : Type) (f : S -> A -> option S) s l, (forall a, In a l -> f s a = Some s) -> foldM f s l = Some s.
Proof.
  intros S A f s l; induction l as [|a l IH]; intros H; [reflexivity|]. cbn [foldM].
  rewrite (H a (or_introl eq_refl)). cbn [bind]. apply IH. intros b I; apply H; right; exact I.
Qed.

Lemma interconnected_fixed : forall eps d uv l, mapToRibbons KInterconnected eps d uv = Some l ->
  interconnectedFix (d_n d) l = Some l.
Proof.
  intros eps d uv l H. unfold interconnectedFix. apply foldM_fix. intros i I. apply in_seq in I.
  set (n := d_n d) in *. assert (Hi : (i < n)%nat) by lia.
  assert (Hp : (prv n i < n)%nat) by (apply prv_lt; lia). assert (Hx : (nxt n i < n)%nat) by (apply nxt_lt; lia).
  unfold mapToRibbons in H. fold n in H.
  assert (E := mapM_seq_nth _ _ n l i H Hi). assert (Ep := mapM_seq_nth _ _ n l (prv n i) H Hp).
  assert (Ex := mapM_seq_nth _ _ n l (nxt n i) H Hx). cbn beta in E, Ep, Ex.
  assert (L : length l = n) by (apply mapM_length in H; rewrite seq_length in H; exact H).
  destruct (nth_error_ex _ l i ltac:(lia)) as [a A]. destruct (nth_error_ex _ l (prv n i) ltac:(lia)) as [p P].
  destruct (nth_error_ex _ l (nxt n i) ltac:(lia)) as [x X].
  rewrite A, P, X. cbn [bind]. rewrite A in E. rewrite P in Ep. rewrite X in Ex. cbn [mapToRibbon] in E, Ep, Ex.
  unfold interconnectedMap in E, Ep, Ex. fold n in E, Ep, Ex.
  rewrite prv_nxt in Ex by exact Hi. rewrite nxt_prv in Ep by exact Hi.
  destruct (bilinearMap eps d (prv n i) uv) as [sp|] eqn:Bp; [|discriminate].
  destruct (bilinearMap eps d (nxt n i) uv) as [sn|] eqn:Bn; [|discriminate].
  destruct (bilinearMap eps d i uv) as [sd|] eqn:B; [|discriminate]. cbn [bind] in E, Ep, Ex.
  destruct (bilinearMap eps d (prv n (prv n i)) uv) as [q1|]; [|discriminate].
  destruct (bilinearMap eps d (nxt n (nxt n i)) uv) as [q2|]; [|discriminate]. cbn [bind] in Ep, Ex.
  injection E as E. injection Ep as Ep. injection Ex as Ex.
  assert (Xa : px a = px sd) by (rewrite <- E; reflexivity).
  assert (Xp : px p = px sp) by (rewrite <- Ep; reflexivity).
  assert (Xx : px x = px sn) by (rewrite <- Ex; reflexivity).
  rewrite Xa, Xp, Xx. apply upd_same. rewrite A. rewrite <- E. reflexivity.
Qed.

Lemma mapToRibbonsObj_ok : forall k eps d st uv, good k eps d st ->
  agrees k eps d (mapToRibbonsObj k eps d st uv) (mapToRibbons k eps d uv).
Proof.
  intros k eps d st uv G. unfold mapToRibbonsObj. pose proof (baseRibbons_ok k eps d st uv G) as B.
  destruct (baseRibbons k eps d st uv) as [[l st']|]; simpl in B.
  - destruct B as [B G']. cbn [bind]. destruct k; try (split; assumption).
    rewrite (g_n _ _ _ _ G). rewrite (interconnected_fixed eps d uv l B). cbn [bind]. split; assumption.
  - exact B.
Qed.

Lemma update_good : forall k eps d st st', d_n d = length (d_verts d) -> paramUpdate k d st = Some st' -> good k eps d st'.
Proof.
  intros k eps d st st' W H. unfold paramUpdate in H.
  destruct (match k with KParallel => parallelMultipliers d | KSuperD => superdMultipliers d | _ => Some (ps_mults st) end) as [m|] eqn:E;
    [|discriminate]. cbn [bind] in H. injection H as <-.
  split; cbn [ps_n ps_rcache ps_bcache ps_mults].
  - symmetry; exact W.
  - intros uv l [].
  - intros t [K|[K|K]] uv l I; rewrite K in I; destruct I.
  - intros K; rewrite K in E; exact E.
  - intros K; rewrite K in E; exact E.
Qed.

(** A history in which no query happens between a change of the domain and the
    next update.  [clean] tells whether the object is up to date. *)
Fixpoint disciplined (clean : bool) (os : list pop) : option bool :=
  match os with
  | [] => Some clean
  | PDomain _ :: rest => disciplined false rest
  | PUpdate :: rest => disciplined true rest
  | PQuery _ :: rest => if clean then disciplined true rest else None
  end.

(** Domains whose side count is their number of vertices. *)
Definition well_formed (d : dom) : Prop := d_n d = length (d_verts d).
Definition domains_ok (os : list pop) : Prop := forall d, In (PDomain d) os -> well_formed d.

Lemma prun_good : forall k eps os clean d st d' st',
  well_formed d -> domains_ok os ->
  (clean = true -> good k eps d st) -> disciplined clean os = Some true ->
  prun k eps (d, st) os = Some (d', st') -> good k eps d' st'.
Proof.
  intros k eps os. induction os as [|o os IH]; intros clean d st d' st' W Ws G D R.
  - cbn in D, R. injection D as ->. injection R as <- <-. apply G; reflexivity.
  - unfold prun in R. cbn [foldM] in R. fold (prun k eps) in R.
    assert (Ws' : domains_ok os) by (intros x X; apply Ws; right; exact X). destruct o as [d1| |uv]; cbn [pstep fst snd disciplined] in *.
    + cbn [bind] in R. apply (IH false d1 st d' st'); [apply Ws; left; reflexivity|exact Ws'|discriminate|exact D|exact R].
    + destruct (paramUpdate k d st) as [s1|] eqn:U; [|discriminate]. cbn [bind] in R.
      apply (IH true d s1 d' st'); [exact W|exact Ws'|intros _; exact (update_good k eps d st s1 W U)|exact D|exact R].
    + destruct clean; [|discriminate]. pose proof (mapToRibbonsObj_ok k eps d st uv (G eq_refl)) as Q.
      destruct (mapToRibbonsObj k eps d st uv) as [[l s1]|]; [|discriminate]. cbn [bind] in R. destruct Q as [_ Q].
      apply (IH true d s1 d' st'); [exact W|exact Ws'|intros _; exact Q|exact D|exact R].
Qed.

Lemma history : forall k eps os d0 st0 d st uv, well_formed d0 -> domains_ok os ->
  disciplined false os = Some true -> prun k eps (d0, st0) os = Some (d, st) ->
  match mapToRibbonsObj k eps d st uv with Some (l, _) => Some l | None => None end = mapToRibbons k eps d uv.
Proof.
  intros k eps os d0 st0 d st uv W Ws D R.
  pose proof (mapToRibbonsObj_ok k eps d st uv (prun_good k eps os false d0 st0 d st W Ws ltac:(discriminate) D R)) as A.
  destruct (mapToRibbonsObj k eps d st uv) as [[l s]|]; simpl in A; [destruct A as [-> _]|rewrite A]; reflexivity.
Qed.

(** Without an update the old answer survives a change of the domain. *)
Lemma stale : forall k eps d1 d2 st uv l st', k <> KInterconnected ->
  mapToRibbonsObj k eps d1 st uv = Some (l, st') ->
  mapToRibbonsObj k eps d2 st' uv = Some (l, st').
Proof.
  intros k eps d1 d2 st uv l st' K H. unfold mapToRibbonsObj in *.
  destruct (baseRibbons k eps d1 st uv) as [[l1 s1]|] eqn:B; [|discriminate]. cbn [bind] in H.
  assert (E : l1 = l /\ s1 = st') by (destruct k; try contradiction; injection H as <- <-; auto).
  destruct E as [-> ->]. unfold baseRibbons in B |- *.
  assert (L : lookup (ps_rcache st') uv = Some l).
  { destruct (lookup (ps_rcache st) uv) as [l0|] eqn:L0.
    - injection B as -> ->. exact L0.
    - destruct (foldM _ _ _) as [[l2 s2]|]; [|discriminate]. cbn [bind] in B. injection B as -> <-.
      cbn [ps_rcache]. apply lookup_head. }
  rewrite L. cbn [bind]. destruct k; try reflexivity; contradiction.
Qed.
