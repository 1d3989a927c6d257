(** The smoothing equations of fitWithOriginal, the split of the control points, and the
    writing back of the solution. *)
From Verif Require Import Base UtilModel UtilSpec UtilProofs GBModel GBSpec GBProofs GBEnum GBElev GBEval GBFitModel PropsGB GBFitProofs.
From Coq Require Import List.
Import ListNotations.
Open Scope R_scope.

Lemma some_pos : forall i j k i' j' k' : nat, i = i' -> j = j' -> k = k' -> Some (i, j, k) = Some (i', j', k').
Proof. intros; subst; reflexivity. Qed.

Lemma enum_inj : forall n d a a' p, (1 <= n)%nat -> nth_error (enumerate n d) a = Some p -> nth_error (enumerate n d) a' = Some p -> a = a'.
Proof.
  intros n d a a' p Hn E E'. apply (NoDup_nth_error (enumerate n d)); [apply enum_NoDup; exact Hn|apply nth_error_Some; congruence|congruence].
Qed.
Lemma enum_lt : forall n d a p, nth_error (enumerate n d) a = Some p -> (a < gbCount n d - 1)%nat.
Proof. intros n d a p E. rewrite <- enumerate_length. apply nth_error_Some. congruence. Qed.

(** ** The control point at a place of the lattice of a side *)
Definition mainOf (n d : nat) (q : position) : option position :=
  let '(i, j, k) := q in
  if ((k <=? j) && (j + k <? d))%nat%bool then Some (i, j, k)
  else if (j <? k)%nat then Some (prv n i, d - k, j)%nat
  else if (j =? k)%nat then None
  else Some (nxt n i, k, k).

Lemma main_In : forall n d i j k p, (1 <= n)%nat -> (i < n)%nat -> (j + k <= d)%nat -> mainOf n d (i, j, k) = Some p -> In p (enumerate n d).
Proof.
  intros n d i j k [[s c] r] Hn Hi H. unfold mainOf.
  destruct (Nat.leb_spec k j); destruct (Nat.ltb_spec (j + k) d); cbn [andb]; destruct (Nat.ltb_spec j k); try lia;
    try (intros E; injection E as <- <- <-; apply enum_In; [exact Hn|]; pose proof (prv_lt n i ltac:(lia)); lia).
  destruct (Nat.eqb_spec j k); [discriminate|]. intros E; injection E as <- <- <-. apply enum_In; [exact Hn|]. pose proof (nxt_lt n i ltac:(lia)). lia.
Qed.

Lemma main_matches : forall n d i j k p, (1 <= n)%nat -> (i < n)%nat -> (j + k <= d)%nat -> In p (enumerate n d) ->
  (matches n d i j k p = true <-> mainOf n d (i, j, k) = Some p).
Proof.
  intros n d i j k [[s c] r] Hn Hi H I. apply enum_In in I; [|exact Hn]. destruct I as (Is & I1 & I2).
  assert (M : matches n d i j k (s, c, r) = true <-> (i = s /\ j = c /\ k = r) \/ (i = prv n s /\ j = d - r /\ k = c)%nat \/ (i = nxt n s /\ j = r /\ k = d - c)%nat).
  { unfold matches, meets. destruct (Nat.ltb_spec d r); [lia|]. destruct (Nat.ltb_spec d c); [lia|].
    rewrite !orb_true_iff, !andb_true_iff, !Nat.eqb_eq. tauto. }
  rewrite M. unfold mainOf. clear M.
  destruct (Nat.leb_spec k j); destruct (Nat.ltb_spec (j + k) d); cbn [andb]; destruct (Nat.ltb_spec j k); try lia.
  - split; [intros [(-> & -> & ->)|[(_ & A & B)|(_ & A & B)]]; [reflexivity|lia|lia]|]. intros E; injection E as -> -> ->. left; auto.
  - destruct (Nat.eqb_spec j k).
    + split; [|discriminate]. intros [(_ & A & B)|[(_ & A & B)|(_ & A & B)]]; lia.
    + split.
      * intros [(_ & A & B)|[(-> & A & B)|(_ & A & B)]]; try lia. rewrite nxt_prv by lia. apply some_pos; lia.
      * intros E; injection E as <- <- <-. right; left. rewrite prv_nxt by lia. repeat split; lia.
  - split; [intros [(_ & A & B)|[(_ & A & B)|(-> & A & B)]]; try lia|].
    + rewrite prv_nxt by lia. apply some_pos; lia.
    + intros E; injection E as <- <- <-. right; right. rewrite nxt_prv by lia. repeat split; lia.
  - split; [intros [(_ & A & B)|[(_ & A & B)|(-> & A & B)]]; try lia|].
    + rewrite prv_nxt by lia. apply some_pos; lia.
    + intros E; injection E as <- <- <-. right; right. rewrite nxt_prv by lia. repeat split; lia.
Qed.

Lemma findFrom_none : forall n d i j k es c, (forall p, In p es -> matches n d i j k p = false) -> findFrom n d i j k c es = 0%nat.
Proof.
  intros n d i j k es; induction es as [|q es IH]; intros c H; [reflexivity|]. cbn [findFrom]. rewrite H by (left; reflexivity).
  apply IH. intros p I. apply H. right; exact I.
Qed.

Lemma find_main : forall n d i j k, (1 <= n)%nat -> (i < n)%nat -> (j + k <= d)%nat ->
  match mainOf n d (i, j, k) with
  | None => fitFind n d (Some (i, j, k)) = 0%nat
  | Some p => exists a, nth_error (enumerate n d) a = Some p /\ fitFind n d (Some (i, j, k)) = Datatypes.S a
  end.
Proof.
  intros n d i j k Hn Hi H. pose proof (fun p => main_matches n d i j k p Hn Hi H) as M. cbn [fitFind].
  destruct (mainOf n d (i, j, k)) as [p|] eqn:E.
  - assert (I := main_In n d i j k p Hn Hi H E). destruct (In_nth_error _ _ I) as [a Ha]. exists a. split; [exact Ha|].
    rewrite (findFrom_spec n d i j k (enumerate n d) 0 a p Ha); [lia|apply M; [exact I|reflexivity]|].
    intros a' p' La E'. destruct (matches n d i j k p') eqn:Mp; [|reflexivity]. apply M in Mp; [|apply (nth_error_In _ _ E')]. injection Mp as <-.
    assert (a = a'); [|lia]. apply (NoDup_nth_error (enumerate n d)); [apply enum_NoDup; exact Hn|apply nth_error_Some; congruence|congruence].
  - apply findFrom_none. intros p I. destruct (matches n d i j k p) eqn:Mp; [|reflexivity]. apply M in Mp; [discriminate|exact I].
Qed.

(** The numbers of two places are equal only if their control points are. *)
Lemma find_inj : forall n d i j k i' j' k', (1 <= n)%nat -> (i < n)%nat -> (j + k <= d)%nat -> (i' < n)%nat -> (j' + k' <= d)%nat ->
  fitFind n d (Some (i, j, k)) = fitFind n d (Some (i', j', k')) -> mainOf n d (i, j, k) = mainOf n d (i', j', k').
Proof.
  intros n d i j k i' j' k' Hn Hi H Hi' H' E. pose proof (find_main n d i j k Hn Hi H) as F. pose proof (find_main n d i' j' k' Hn Hi' H') as F'.
  destruct (mainOf n d (i, j, k)) as [p|]; destruct (mainOf n d (i', j', k')) as [p'|].
  - destruct F as (a & A & Fa). destruct F' as (a' & A' & Fa'). assert (a = a') by congruence. subst a'. congruence.
  - destruct F as (a & A & Fa). congruence.
  - destruct F' as (a & A & Fa). congruence.
  - reflexivity.
Qed.

Lemma lattice_main : forall n d h i j k, (1 <= n)%nat -> shaped n d h -> consistent n d h -> (i < n)%nat -> (j + k <= d)%nat ->
  lattice h i j k = match mainOf n d (i, j, k) with Some p => gpv h p | None => gb_cen h end.
Proof.
  intros n d h i j k Hn Sh Ch Hi H. pose proof Sh as (En & Ed & _). unfold lattice. rewrite En, Ed. unfold mainOf.
  destruct (Nat.leb_spec k j); destruct (Nat.ltb_spec (j + k) d); cbn [andb]; destruct (Nat.ltb_spec j k); try lia.
  - destruct (Nat.leb_spec (2 * k + 1) d); [reflexivity|lia].
  - destruct (Nat.eqb_spec j k).
    + subst k. destruct (Nat.leb_spec (2 * j + 1) d); [lia|]. destruct (Nat.ltb_spec (2 * j) d); [lia|]. destruct (Nat.eqb_spec (2 * j) d); [reflexivity|lia].
    + destruct (Nat.leb_spec (2 * k + 1) d); [|lia]. unfold gpv. f_equal.
      assert (E : getp h (nxt n i, k, k) = getp h (i, d - k, k)%nat).
      { apply Ch; [cbn [inRange]; pose proof (nxt_lt n i ltac:(lia)); lia|cbn [inRange]; lia|]. exact (mirror_intro n d i k k ltac:(lia)). }
      rewrite E. replace (d - k)%nat with j by lia. reflexivity.
  - destruct (Nat.leb_spec (2 * k + 1) d).
    + unfold gpv. f_equal. pose proof (mirror_intro n d (prv n i) j k ltac:(lia)) as Mi. change ((prv n i + 1) mod n)%nat with (nxt n (prv n i)) in Mi.
      rewrite nxt_prv in Mi by lia. assert (E := Ch (i, j, k) (prv n i, d - k, j)%nat ltac:(cbn [inRange]; lia) ltac:(cbn [inRange]; pose proof (prv_lt n i ltac:(lia)); lia) Mi). rewrite E. reflexivity.
    + destruct (Nat.ltb_spec (2 * j) d); [reflexivity|lia].
  - destruct (Nat.leb_spec (2 * k + 1) d).
    + unfold gpv. f_equal. pose proof (mirror_intro n d (prv n i) j k ltac:(lia)) as Mi. change ((prv n i + 1) mod n)%nat with (nxt n (prv n i)) in Mi.
      rewrite nxt_prv in Mi by lia. assert (E := Ch (i, j, k) (prv n i, d - k, j)%nat ltac:(cbn [inRange]; lia) ltac:(cbn [inRange]; pose proof (prv_lt n i ltac:(lia)); lia) Mi). rewrite E. reflexivity.
    + destruct (Nat.ltb_spec (2 * j) d); [reflexivity|lia].
Qed.

Lemma lattice_netv : forall n d h i j k, (1 <= n)%nat -> shaped n d h -> consistent n d h -> (i < n)%nat -> (j + k <= d)%nat ->
  netv n d h (fitFind n d (Some (i, j, k))) = lattice h i j k.
Proof.
  intros n d h i j k Hn Sh Ch Hi H. rewrite (lattice_main n d) by assumption. pose proof (find_main n d i j k Hn Hi H) as F.
  destruct (mainOf n d (i, j, k)) as [p|].
  - destruct F as (a & A & ->). cbn [netv]. f_equal. exact (nth_error_nth _ _ _ A).
  - rewrite F. reflexivity.
Qed.

(** ** The fixed and the movable control points *)
Lemma enum_tail : forall n d f, (1 <= n)%nat -> (f <= (d + 1) / 2)%nat ->
  exists fixed, enumerate n d = fixed ++ enumLoop n d (gbCount n d - 1 - n * (d + 1 - f) * f) 0 f f /\ length fixed = (n * (d + 1 - f) * f)%nat /\
    (n * (d + 1 - f) * f <= gbCount n d - 1)%nat /\
    (forall s c r, In (s, c, r) fixed -> (r < f)%nat) /\
    (forall s c r, In (s, c, r) (enumLoop n d (gbCount n d - 1 - n * (d + 1 - f) * f) 0 f f) -> (f <= r)%nat).
Proof.
  intros n d f Hn Hf. pose proof (half_le d) as HL. set (l := ((d + 1) / 2)%nat) in *.
  assert (Split : forall t row u, (u <= t)%nat -> gridCount n d row t = (gridCount n d row u + gridCount n d (row + u) (t - u))%nat).
  { induction t as [|t IH]; intros row u Hu.
    - replace u with 0%nat by lia. reflexivity.
    - destruct u as [|u]; [cbn [gridCount Nat.sub]; rewrite Nat.add_0_r; reflexivity|]. cbn [gridCount Nat.sub]. rewrite (IH (Datatypes.S row) u) by lia.
      replace (Datatypes.S row + u)%nat with (row + Datatypes.S u)%nat by lia. lia. }
  assert (B : gridCount n d 0 f = (n * (d + 1 - f) * f)%nat).
  { rewrite gridCount_val by lia. replace (d + 1 - 2 * 0 - f)%nat with (d + 1 - f)%nat by lia. lia. }
  assert (T : (gbCount n d - 1 - n * (d + 1 - f) * f = gridCount n d f (l - f))%nat).
  { rewrite count_grid. fold l. rewrite (Split l 0%nat f Hf), B. cbn [plus]. lia. }
  rewrite T. rewrite enum_grid by lia. exists (concat (map (rowAll n d) (seq 0 f))).
  assert (Rows : forall a m s c r, In (s, c, r) (concat (map (rowAll n d) (seq a m))) -> (a <= r < a + m)%nat).
  { intros a m s c r I. apply in_concat in I. destruct I as (x & X & I). apply in_map_iff in X. destruct X as (r' & <- & X). apply in_seq in X.
    unfold rowAll in I. apply in_concat in I. destruct I as (y & Y & I). apply in_map_iff in Y. destruct Y as (s' & <- & Y). unfold rowBlock in I.
    apply in_map_iff in I. destruct I as (c' & E & _). injection E as _ _ <-. exact X. }
  split; [|split; [|split; [|split]]].
  - rewrite enumerate_grid by exact Hn. unfold grid. fold l. replace l with (f + (l - f))%nat at 1 by lia. rewrite seq_app, map_app, concat_app. reflexivity.
  - rewrite <- enum_grid by lia. rewrite enumLoop_length. exact B.
  - rewrite count_grid. fold l. rewrite (Split l 0%nat f Hf), B. lia.
  - intros s c r I. apply Rows in I. lia.
  - intros s c r I. apply Rows in I. lia.
Qed.

Lemma fixed_row : forall n d f a s c r, (1 <= n)%nat -> (f <= (d + 1) / 2)%nat -> nth_error (enumerate n d) a = Some (s, c, r) ->
  ((a < n * (d + 1 - f) * f)%nat <-> (r < f)%nat).
Proof.
  intros n d f a s c r Hn Hf E. destruct (enum_tail n d f Hn Hf) as (fx & Ee & Lf & _ & R1 & R2). rewrite Ee in E.
  destruct (Nat.lt_ge_cases a (length fx)) as [L|L].
  - rewrite nth_error_app1 in E by exact L. apply nth_error_In, R1 in E. lia.
  - rewrite nth_error_app2 in E by exact L. apply nth_error_In, R2 in E. lia.
Qed.

Lemma movable_In : forall n d f a q, (1 <= n)%nat -> (f <= (d + 1) / 2)%nat ->
  In (a, q) (movable n d f (n * (d + 1 - f) * f)) <->
  (1 <= a)%nat /\ nth_error (enumerate n d) (n * (d + 1 - f) * f + a - 1) = Some q.
Proof.
  intros n d f a q Hn Hf. destruct (enum_tail n d f Hn Hf) as (fx & Ee & Lf & Lb & R1 & R2). unfold movable.
  set (b := (n * (d + 1 - f) * f)%nat) in *. set (m := (gbCount n d - 1 - b)%nat) in *. set (tl := enumLoop n d m 0 f f) in *.
  assert (Lt : length tl = m) by apply enumLoop_length.
  assert (C : forall i, nth_error (combine (seq 1 m) tl) i = match nth_error tl i with Some x => Some (Datatypes.S i, x) | None => None end).
  { intros i. destruct (Nat.lt_ge_cases i m) as [L|L].
    - rewrite (nth_error_nth' _ (0%nat, q)) by (rewrite combine_length, seq_length; lia). rewrite (nth_error_nth' tl q) by lia.
      rewrite combine_nth by (rewrite seq_length; lia). rewrite seq_nth by lia. reflexivity.
    - rewrite (proj2 (nth_error_None _ _)) by (rewrite combine_length, seq_length; lia). rewrite (proj2 (nth_error_None _ _)) by lia. reflexivity. }
  split.
  - intros I. apply In_nth_error in I. destruct I as [i E]. rewrite C in E. destruct (nth_error tl i) as [x|] eqn:X; [|discriminate]. injection E as <- <-.
    split; [lia|]. rewrite Ee, nth_error_app2 by lia. rewrite <- X. f_equal. lia.
  - intros [H1 E]. rewrite Ee, nth_error_app2 in E by lia. apply (nth_error_In _ (a - 1)). rewrite C.
    replace (b + a - 1 - length fx)%nat with (a - 1)%nat in E by lia. rewrite E. repeat f_equal. lia.
Qed.

(** ** Building an equation *)
Section Rows.
Variables (n d f : nat) (g h : gbsurf).
Let b := (n * (d + 1 - f) * f)%nat.
Hypothesis Hn : (1 <= n)%nat.
Hypothesis Hf : (f <= (d + 1) / 2)%nat.
Hypothesis Sg : shaped n d g.
Hypothesis Sh : shaped n d h.
Hypothesis Cg : consistent n d g.
Hypothesis Ch : consistent n d h.
Hypothesis Fx : forall a, (a < b)%nat -> gpv h (nth a (enumerate n d) (0, 0, 0)%nat) = gpv g (nth a (enumerate n d) (0, 0, 0)%nat).

Definition sem (r : equation) : V3 := lhs n d b h r -v snd r.
Definition untouched (r : equation) (a : nat) : Prop := (a = 0 \/ b < a)%nat -> fst r (a - b)%nat = 0.

Lemma set_sem : forall r a w, (a = 0 \/ b < a)%nat -> (a < gbCount n d)%nat -> untouched r a ->
  sem (setEntry r (a - b) w) = sem r +v netv n d h a *v w /\
  forall a', a' <> a -> untouched r a' -> untouched (setEntry r (a - b) w) a'.
Proof.
  intros r a w Ha La U. specialize (U Ha). destruct (enum_tail n d f Hn Hf) as (_ & _ & _ & Lb & _). fold b in Lb.
  assert (Gc : (1 <= gbCount n d)%nat) by (unfold gbCount; lia).
  split.
  - unfold sem, lhs, setEntry. cbn [fst snd].
    rewrite (vsum_ext _ _ (fun c => netv n d h (number b c) *v fst r c +v (if (c =? a - b)%nat then netv n d h a *v w else vzero))).
    + rewrite vsum_add.
      assert (Q : vsum (gbCount n d - b) (fun c => if (c =? a - b)%nat then netv n d h a *v w else vzero) = netv n d h a *v w).
      { etransitivity; [apply (vsum_single _ _ (a - b)%nat); [lia|]|].
        - intros c _ N. destruct (Nat.eqb_spec c (a - b)); [lia|reflexivity].
        - rewrite Nat.eqb_refl. reflexivity. }
      rewrite Q. v3ring.
    + intros c Hc. destruct (Nat.eqb_spec c (a - b)) as [->|N].
      * rewrite U. replace (number b (a - b)) with a; [v3ring|]. unfold number. destruct (Nat.eqb_spec (a - b) 0); lia.
      * v3ring.
  - intros a' N U' C. unfold setEntry. cbn [fst]. destruct (Nat.eqb_spec (a' - b) (a - b)) as [E|_]; [exfalso; lia|]. exact (U' C).
Qed.

Lemma find_bound : forall i j k, (i < n)%nat -> (j + k <= d)%nat -> (fitFind n d (Some (i, j, k)) < gbCount n d)%nat.
Proof.
  intros i j k Hi H. pose proof (find_main n d i j k Hn Hi H) as F. assert (Gc : (1 <= gbCount n d)%nat) by (unfold gbCount; lia).
  destruct (mainOf n d (i, j, k)) as [p|]; [|lia]. destruct F as (a & A & ->).
  assert (a < length (enumerate n d))%nat by (apply nth_error_Some; congruence). rewrite enumerate_length in *. lia.
Qed.

(** Setting the weight of a place adds its control point, wherever that is known from. *)
Lemma weight_sem : forall r i j k w, (i < n)%nat -> (j + k <= d)%nat -> untouched r (fitFind n d (Some (i, j, k))) ->
  (inRange n d (i, j, k) \/ (fitFind n d (Some (i, j, k)) = 0 \/ b < fitFind n d (Some (i, j, k)))%nat) ->
  exists r', setWeight g b r (Some (i, j, k)) w = Some r' /\ sem r' = sem r +v lattice h i j k *v w /\
    forall a', a' <> fitFind n d (Some (i, j, k)) -> untouched r a' -> untouched r' a'.
Proof.
  intros r i j k w Hi H U R. pose proof (lattice_netv n d h i j k Hn Sh Ch Hi H) as V. pose proof (find_bound i j k Hi H) as Bd.
  pose proof Sg as (En & Ed & _). unfold setWeight. rewrite En, Ed.
  pose proof (find_main n d i j k Hn Hi H) as F. set (a := fitFind n d (Some (i, j, k))) in *.
  destruct (Nat.ltb_spec b a) as [L|L].
  - destruct (set_sem r a w (or_intror L) Bd U) as [S1 S2]. eexists. split; [reflexivity|]. rewrite S1, V. split; [reflexivity|exact S2].
  - destruct (Nat.eqb_spec a 0) as [Z|Z].
    + destruct (set_sem r a w (or_introl Z) Bd U) as [S1 S2]. rewrite <- V. replace (setEntry r 0 w) with (setEntry r (a - b) w) by (f_equal; lia).
      eexists. split; [reflexivity|]. split; [exact S1|exact S2].
    + destruct R as [R|R]; [|lia]. pose proof (gpv_some n d g _ Sg R) as E. cbn [getp] in E. rewrite E. cbn [bind]. eexists. split; [reflexivity|]. split; [|intros a' _ Ua; exact Ua].
      unfold sem, lhs. cbn [fst snd]. replace (lattice h i j k) with (gpv g (i, j, k)); [v3ring|].
      rewrite <- V. destruct (mainOf n d (i, j, k)) as [p|] eqn:Mp; [|lia]. destruct F as (a' & A & Fa). rewrite Fa. cbn [netv].
      rewrite Fx by lia. replace (nth a' (enumerate n d) (0, 0, 0)%nat) with p by (symmetry; exact (nth_error_nth _ _ _ A)).
      pose proof (lattice_main n d g i j k Hn Sg Cg Hi H) as LM. rewrite Mp in LM. rewrite <- LM. unfold lattice. rewrite Ed. destruct R as (_ & _ & R).
      destruct (Nat.leb_spec (2 * k + 1) d); [reflexivity|lia].
Qed.

Definition blank : equation := ((fun _ => 0), vzero).
Lemma blank_sem : sem blank = vzero.
Proof. unfold sem, lhs, blank. cbn [fst snd]. rewrite (vsum_ext _ _ (fun _ => vzero)) by (intros; v3ring). rewrite vsum_zero by reflexivity. v3ring. Qed.
Lemma blank_untouched : forall a, untouched blank a.
Proof. intros a _. reflexivity. Qed.

Lemma find_self : forall a s c r, nth_error (enumerate n d) a = Some (s, c, r) -> fitFind n d (Some (s, c, r)) = Datatypes.S a.
Proof.
  intros a s c r E. assert (I := nth_error_In _ _ E). apply enum_In in I; [|exact Hn]. destruct I as (Hs & H1 & H2).
  pose proof (find_main n d s c r Hn Hs ltac:(lia)) as F. unfold mainOf in F.
  destruct (Nat.leb_spec r c); [|lia]. destruct (Nat.ltb_spec (c + r) d); [|lia]. cbn [andb] in F. destruct F as (a' & A & ->). f_equal.
  exact (enum_inj n d a' a _ Hn A E).
Qed.

Lemma point_sem : forall smoothing a s c r, (3 <= n)%nat -> (1 <= f)%nat -> In (a, (s, c, r)) (movable n d f b) ->
  exists e, smoothPoint g b smoothing (a, (s, c, r)) = Some e /\
    sem e = (lattice h s c r -v (lattice h s (c - 1) r +v lattice h s (c + 1) r +v lattice h s c (r - 1) +v lattice h s c (r + 1)) *v (/ 4)) *v smoothing.
Proof.
  intros w a s c r H3 F1 I. apply movable_In in I; [|exact Hn|exact Hf]. fold b in I. destruct I as [Ha E].
  pose proof (find_self _ _ _ _ E) as Fs.
  assert (Rf : (f <= r)%nat).
  { destruct (Nat.lt_ge_cases r f) as [L|L]; [|exact L]. apply (fixed_row n d f _ _ _ _ Hn Hf E) in L. fold b in L. lia. }
  assert (Ie := nth_error_In _ _ E). apply enum_In in Ie; [|exact Hn]. destruct Ie as (Hs & H1 & H2).
  destruct c as [|c]; [lia|]. destruct r as [|r]; [lia|]. cbn [Nat.sub] in *. rewrite !Nat.sub_0_r.
  set (w' := - w / 4).
  assert (B0 : (0 <= b)%nat) by lia.
  pose proof (prv_lt n s ltac:(lia)) as P1. pose proof (nxt_lt n s ltac:(lia)) as P2. pose proof (prv_neq n s ltac:(lia) Hs) as P3.
  pose proof (nxt_neq n s ltac:(lia) Hs) as P4. pose proof (nxt_prv_neq n s ltac:(lia) Hs) as P5.
  set (qs := @Some position (s, Datatypes.S c, Datatypes.S r)) in *. set (ql := @Some position (s, c, Datatypes.S r)) in *. set (qr := @Some position (s, (Datatypes.S c + 1)%nat, Datatypes.S r)) in *.
  set (qd := @Some position (s, Datatypes.S c, r)) in *. set (qu := @Some position (s, Datatypes.S c, (Datatypes.S r + 1)%nat)) in *.
  assert (Dl : fitFind n d ql <> fitFind n d qr /\ fitFind n d ql <> fitFind n d qd /\ fitFind n d ql <> fitFind n d qu /\ fitFind n d ql <> fitFind n d qs).
  { repeat split; intros Q; apply find_inj in Q; try lia; revert Q; unfold mainOf; 
      repeat match goal with |- context [(?x <=? ?y)%nat] => destruct (Nat.leb_spec x y) | |- context [(?x <? ?y)%nat] => destruct (Nat.ltb_spec x y) | |- context [(?x =? ?y)%nat] => destruct (Nat.eqb_spec x y) end;
      cbn [andb]; intros Q; try discriminate Q; try (injection Q; intros; try congruence; lia); lia. }
  assert (Dr : fitFind n d qr <> fitFind n d qd /\ fitFind n d qr <> fitFind n d qu /\ fitFind n d qr <> fitFind n d qs).
  { repeat split; intros Q; apply find_inj in Q; try lia; revert Q; unfold mainOf; 
      repeat match goal with |- context [(?x <=? ?y)%nat] => destruct (Nat.leb_spec x y) | |- context [(?x <? ?y)%nat] => destruct (Nat.ltb_spec x y) | |- context [(?x =? ?y)%nat] => destruct (Nat.eqb_spec x y) end;
      cbn [andb]; intros Q; try discriminate Q; try (injection Q; intros; try congruence; lia); lia. }
  assert (Dd : fitFind n d qd <> fitFind n d qu /\ fitFind n d qd <> fitFind n d qs /\ fitFind n d qu <> fitFind n d qs).
  { repeat split; intros Q; apply find_inj in Q; try lia; revert Q; unfold mainOf; 
      repeat match goal with |- context [(?x <=? ?y)%nat] => destruct (Nat.leb_spec x y) | |- context [(?x <? ?y)%nat] => destruct (Nat.ltb_spec x y) | |- context [(?x =? ?y)%nat] => destruct (Nat.eqb_spec x y) end;
      cbn [andb]; intros Q; try discriminate Q; try (injection Q; intros; try congruence; lia); lia. }
  destruct Dl as (Dlr & Dld & Dlu & Dls). destruct Dr as (Drd & Dru & Drs). destruct Dd as (Ddu & Dds & Dus).
  pose proof (half_le d) as HL.
  assert (IR : forall i j k, (i < n)%nat -> (j <= d)%nat -> (2 * k + 1 <= d)%nat -> inRange n d (i, j, k)) by (intros; cbn [inRange]; lia).
  assert (G : smoothPoint g b w (a, (s, Datatypes.S c, Datatypes.S r)) =
    (r <- setWeight g b blank ql w' ;; r <- setWeight g b r qr w' ;; r <- setWeight g b r qd w' ;; r <- setWeight g b r qu w' ;; Some (setEntry r a w))) by reflexivity.
  rewrite G. clear G.
  destruct (weight_sem blank s c (Datatypes.S r) w' Hs ltac:(lia) (blank_untouched _) ltac:(left; apply IR; lia)) as (r1 & E1 & S1 & U1). change (setWeight g b blank ql w' = Some r1) in E1. change (forall a', a' <> fitFind n d ql -> untouched blank a' -> untouched r1 a') in U1. rewrite E1. cbn [bind].
  destruct (weight_sem r1 s (Datatypes.S c + 1) (Datatypes.S r) w' Hs ltac:(lia)) as (r2 & E2 & S2 & U2); [change (untouched r1 (fitFind n d qr)); apply U1; [congruence|apply blank_untouched]|left; apply IR; lia|]. change (setWeight g b r1 qr w' = Some r2) in E2. change (forall a', a' <> fitFind n d qr -> untouched r1 a' -> untouched r2 a') in U2. rewrite E2. cbn [bind].
  destruct (weight_sem r2 s (Datatypes.S c) r w' Hs ltac:(lia)) as (r3 & E3 & S3 & U3); [change (untouched r2 (fitFind n d qd)); apply U2; [congruence|apply U1; [congruence|apply blank_untouched]]|left; apply IR; lia|]. change (setWeight g b r2 qd w' = Some r3) in E3. change (forall a', a' <> fitFind n d qd -> untouched r2 a' -> untouched r3 a') in U3. rewrite E3. cbn [bind].
  destruct (weight_sem r3 s (Datatypes.S c) (Datatypes.S r + 1) w' Hs ltac:(lia)) as (r4 & E4 & S4 & U4); [change (untouched r3 (fitFind n d qu)); apply U3; [congruence|apply U2; [congruence|apply U1; [congruence|apply blank_untouched]]]| |].
  { destruct (Nat.leb_spec (2 * (Datatypes.S r + 1) + 1) d) as [L|L]; [left; apply IR; lia|right].
    pose proof (find_main n d s (Datatypes.S c) (Datatypes.S r + 1) Hn Hs ltac:(lia)) as Fm. destruct (mainOf n d (s, Datatypes.S c, (Datatypes.S r + 1)%nat)) as [p|] eqn:Mp; [|left; exact Fm].
    destruct Fm as (a' & A & ->). right. destruct p as [[x y] z]. pose proof (fixed_row n d f _ _ _ _ Hn Hf A) as FR. fold b in FR.
    assert (FZ : (f <= z)%nat); [|clear -FR FZ; lia]. clear Dlr Dld Dlu Dls Drd Dru Drs Ddu Dds Dus FR. revert Mp. unfold mainOf.
    repeat match goal with |- context [(?x <=? ?y)%nat] => destruct (Nat.leb_spec x y) | |- context [(?x <? ?y)%nat] => destruct (Nat.ltb_spec x y) | |- context [(?x =? ?y)%nat] => destruct (Nat.eqb_spec x y) end;
      cbn [andb]; intros Q; try discriminate Q; injection Q; intros; lia. }
  change (setWeight g b r3 qu w' = Some r4) in E4. change (forall a', a' <> fitFind n d qu -> untouched r3 a' -> untouched r4 a') in U4. rewrite E4. cbn [bind]. eexists. split; [reflexivity|].
  assert (La : (b + a < gbCount n d)%nat).
  { pose proof (enum_lt n d _ _ E) as EL. clear -EL Ha. lia. }
  replace a with (b + a - b)%nat by (clear; lia).
  assert (Fq : (b + a)%nat = fitFind n d qs) by (change (fitFind n d qs) with (fitFind n d (Some (s, Datatypes.S c, Datatypes.S r))); clear -Fs Ha; change (fitFind n d (Some (s, Datatypes.S c, Datatypes.S r)) = Datatypes.S (b + a - 1)) in Fs; lia).
  destruct (set_sem r4 (b + a) w ltac:(right; clear -Ha; lia) La) as [S5 _].
  { rewrite Fq. apply U4; [congruence|apply U3; [congruence|apply U2; [congruence|apply U1; [congruence|apply blank_untouched]]]]. }
  rewrite S5, S4, S3, S2, S1, blank_sem. rewrite Fq. unfold qs. clear Dlr Dld Dlu Dls Drd Dru Drs Ddu Dds Dus. rewrite (lattice_netv n d h) by (try assumption; lia).
  unfold w'. v3field.
Qed.

Lemma center_sem : forall smoothing, (1 <= d)%nat -> let l := ((d + 1) / 2)%nat in
  exists e, smoothCenter g b smoothing = Some e /\
    sem e = (gb_cen h -v vsum n (fun i => lattice h i l (l - 1)) *v (/ INR n)) *v smoothing.
Proof.
  intros w Hd l. pose proof Sg as (En & Ed & El & _). unfold smoothCenter. rewrite El, En. fold l. fold blank. set (w' := - w / INR n).
  pose proof (half_le d) as HL. pose proof (half_sum d) as HS. fold l in HL, HS.
  assert (L1 : (1 <= l)%nat). { unfold l. pose proof (Nat.div_mod (d + 1) 2 ltac:(lia)). pose proof (Nat.mod_upper_bound (d + 1) 2 ltac:(lia)). lia. }
  assert (Ln : (l + (l - 1) <= d)%nat) by lia.
  assert (Rec : forall m, (m <= n)%nat -> exists r, foldM (fun r j => setWeight g b r (Some (j, l, l - 1)%nat) w') blank (seq 0 m) = Some r /\
            sem r = vsum m (fun i => lattice h i l (l - 1)) *v w' /\
            forall a, (forall j, (j < m)%nat -> a <> fitFind n d (Some (j, l, l - 1)%nat)) -> untouched r a).
  { induction m as [|m IH]; intros Hm.
    - exists blank. split; [reflexivity|]. split; [rewrite blank_sem; cbn [vsum]; v3ring|]. intros a _. apply blank_untouched.
    - destruct (IH ltac:(lia)) as (r & Er & Sr & Ur). rewrite seq_S, foldM_app, Er. cbn [bind foldM plus].
      assert (IRm : inRange n d (m, l, l - 1)%nat) by (cbn [inRange]; lia).
      assert (Um : untouched r (fitFind n d (Some (m, l, l - 1)%nat))).
      { apply Ur. intros j Hj Q. apply find_inj in Q; try lia. revert Q. unfold mainOf.
        destruct (Nat.leb_spec (l - 1) l); [|lia]. destruct (Nat.ltb_spec (l + (l - 1)) d); cbn [andb].
        - intros Q. injection Q. lia.
        - destruct (Nat.ltb_spec l (l - 1)); [lia|]. destruct (Nat.eqb_spec l (l - 1)); [lia|]. intros Q. injection Q; intros Q1.
          apply nxt_inj in Q1; lia. }
      destruct (weight_sem r m l (l - 1) w' ltac:(lia) Ln Um (or_introl IRm)) as (r' & E' & S' & U'). rewrite E'. cbn [bind]. exists r'. split; [reflexivity|].
      split; [rewrite S', Sr; cbn [vsum]; v3ring|]. intros a Ha. apply U'; [apply Ha; lia|]. apply Ur. intros j Hj. apply Ha. lia. }
  destruct (Rec n (le_n n)) as (r & Er & Sr & Ur). rewrite Er. cbn [bind]. eexists. split; [reflexivity|].
  assert (Gc : (1 <= gbCount n d)%nat) by (unfold gbCount; lia).
  destruct (set_sem r 0 w (or_introl eq_refl) ltac:(lia)) as [S5 _].
  { apply Ur. intros j Hj Q. pose proof (find_main n d j l (l - 1) Hn Hj Ln) as F. unfold mainOf in F.
    destruct (Nat.leb_spec (l - 1) l); [|lia]. destruct (Nat.ltb_spec (l + (l - 1)) d); cbn [andb] in F.
    - destruct F as (a & _ & F). congruence.
    - destruct (Nat.ltb_spec l (l - 1)); [lia|]. destruct (Nat.eqb_spec l (l - 1)); [lia|]. destruct F as (a & _ & F). congruence. }
  change (0 - b)%nat with 0%nat in S5. rewrite S5, Sr. cbn [netv]. unfold w'. assert (INR n <> 0) by (apply not_0_INR; lia). v3field; assumption.
Qed.
End Rows.

(** ** Writing the solution back *)
Lemma fill_run : forall g ms (x : nat -> V3), fitFill g ms x = gbrun (setCentral g (x 0%nat)) (map (fun cq : nat * position => OSet (snd cq) (x (fst cq))) ms).
Proof.
  intros g ms x. unfold fitFill. rewrite (foldM_run _ _ (fun cq : nat * position => [OSet (snd cq) (x (fst cq))])).
  - f_equal. apply concat_single.
  - intros g' [c [[i j] k]] _. cbn [fst snd]. apply run_one.
Qed.

Lemma fill_spec : forall n d f g x, (1 <= n)%nat -> (f <= (d + 1) / 2)%nat -> shaped n d g -> consistent n d g ->
  let b := (n * (d + 1 - f) * f)%nat in
  exists r, fitFill g (movable n d f b) x = Some r /\ shaped n d r /\ consistent n d r /\ gb_sq r = gb_sq g /\ gb_dom r = gb_dom g /\
    (forall c, (c < gbCount n d - b)%nat -> netv n d r (number b c) = x c) /\
    (forall s c k q, In (s, c, k) (enumerate n d) -> (k < f)%nat -> inRange n d q -> same n d (s, c, k) q -> getp r q = getp g q).
Proof.
  intros n d f g x Hn Hf Sg Cg b. rewrite fill_run. set (g0 := setCentral g (x 0%nat)).
  set (ops := map (fun cq : nat * position => OSet (snd cq) (x (fst cq))) (movable n d f b)).
  assert (S0 : shaped n d g0) by exact Sg. assert (C0 : consistent n d g0) by exact Cg.
  assert (Mv : forall a q, In (a, q) (movable n d f b) -> (1 <= a)%nat /\ nth_error (enumerate n d) (b + a - 1) = Some q) by (intros a q I; apply movable_In in I; assumption).
  assert (A : forall o, In o ops -> exists e p, o = OSet e p) by (intros o I; apply in_map_iff in I; destruct I as (e & <- & _); eauto).
  assert (F : Forall (opOk n d) ops).
  { apply Forall_forall. intros o I. apply in_map_iff in I. destruct I as ([a q] & <- & I). cbn [fst snd opOk]. apply enum_range; [exact Hn|]. apply (nth_error_In _ _ (proj2 (Mv a q I))). }
  destruct (run_spec n d ops g0 S0 F) as (r & E & Sr & Dr & W). exists r. split; [exact E|]. split; [exact Sr|].
  split; [apply (run_consistent n d ops g0 r S0 F); [intros q p I; destruct (A _ I) as (e & p' & Q); discriminate Q|exact C0|exact E]|].
  destruct (run_cen ops g0 r A E) as [Cr Qr]. split; [exact Qr|]. split; [exact Dr|]. split.
  - intros c Hc. unfold number. destruct (Nat.eqb_spec c 0) as [->|N]; [exact Cr|].
    assert (L : (b + c - 1 < length (enumerate n d))%nat) by (rewrite enumerate_length; lia).
    pose proof (nth_error_nth' (enumerate n d) (0, 0, 0)%nat L) as En. set (q := nth (b + c - 1) (enumerate n d) (0, 0, 0)%nat) in *.
    replace (b + c)%nat with (Datatypes.S (b + c - 1)) by lia. cbn [netv]. fold q.
    assert (Ic : In (c, q) (movable n d f b)) by (apply movable_In; [exact Hn|exact Hf|split; [lia|exact En]]).
    assert (Iq := nth_error_In _ _ En). assert (V : getp r q = Some (x c)); [|unfold gpv; rewrite V; reflexivity].
    apply (run_value n d ops g0 r q (x c) S0 F (enum_range n d q Hn Iq) A E).
    + exists q. split; [|left; reflexivity]. apply in_map_iff. exists (c, q). split; [reflexivity|exact Ic].
    + intros e p I Sm. apply in_map_iff in I. destruct I as ([a q'] & Q & I). cbn [fst snd] in Q. injection Q as <- <-. destruct (Mv a q' I) as [Ha Ea].
      assert (q' = q) by (apply (enum_unique n d); [exact Hn|apply (nth_error_In _ _ Ea)|exact Iq|exact Sm]). subst q'.
      pose proof (enum_inj n d _ _ _ Hn Ea En). f_equal. lia.
  - intros s c k q I Hk Rq Sm. rewrite (proj2 (W q Rq)); [reflexivity|]. intros o p Io Wr.
    apply in_map_iff in Io. destruct Io as ([a q'] & <- & Io). cbn [fst snd writes] in Wr. destruct Wr as [Sm' _]. destruct (Mv a q' Io) as [Ha Ea].
    assert (q' = (s, c, k)).
    { apply (enum_unique n d); [exact Hn|apply (nth_error_In _ _ Ea)|exact I|]. pose proof (nth_error_In _ _ Ea) as Iq'.
      apply (same_trans n d q' q (s, c, k)); try assumption; try (apply enum_range; assumption). apply same_sym; exact Sm. }
    subst q'. apply (fixed_row n d f _ _ _ _ Hn Hf Ea) in Hk. fold b in Hk. lia.
Qed.

(** ** The patch the fit starts from *)
Definition copied (n d : nat) : list position :=
  concat (map (fun i => concat (map (fun j => map (fun k => (i, j, k)) (seq 0 2)) (seq 0 (d - 1)))) (seq 0 n)).
Lemma copied_In : forall n d i j k, In (i, j, k) (copied n d) <-> (i < n /\ j + 1 < d /\ k <= 1)%nat.
Proof.
  intros n d i j k. unfold copied. rewrite in_concat. split.
  - intros (x & X & I). apply in_map_iff in X. destruct X as (i' & <- & X). apply in_seq in X. apply in_concat in I. destruct I as (y & Y & I).
    apply in_map_iff in Y. destruct Y as (j' & <- & Y). apply in_seq in Y. apply in_map_iff in I. destruct I as (k' & E & I). apply in_seq in I. injection E as <- <- <-. lia.
  - intros (H1 & H2 & H3). eexists. split; [apply in_map_iff; exists i; split; [reflexivity|apply in_seq; lia]|]. apply in_concat.
    eexists. split; [apply in_map_iff; exists j; split; [reflexivity|apply in_seq; lia]|]. apply in_map_iff. exists k. split; [reflexivity|apply in_seq; lia].
Qed.

Lemma start_run : forall n d o g, (3 <= d)%nat -> shaped n d o ->
  foldM (fun g i => foldM (fun g j => foldM (fun g k => p <- controlPoint o i j k ;; setControlPoint g i j k p) g (seq 0 2)) g (seq 0 (d - 1))) g (seq 0 n) =
  gbrun g (opsAt (copied n d) (gpv o)).
Proof.
  intros n d o g Hd So. unfold copied. rewrite <- opsAt_concat. apply foldM_run. intros g1 i I. apply in_seq in I. rewrite <- opsAt_concat. apply foldM_run.
  intros g2 j J. apply in_seq in J. rewrite (foldM_run _ _ (fun k => opsAt [(i, j, k)] (gpv o))).
  - rewrite opsAt_concat, concat_single. reflexivity.
  - intros g3 k K. apply in_seq in K. pose proof (gpv_some n d o (i, j, k) So ltac:(cbn [inRange]; lia)) as E. cbn [getp] in E. rewrite E. cbn [bind]. apply run_one.
Qed.

Lemma start_spec : forall n d o v0 c0 d0 l0, (1 <= n)%nat -> (3 <= d)%nat -> shaped n d o -> consistent n d o -> gb_dom o = n ->
  exists g, fitStart v0 c0 d0 l0 o = Some g /\ shaped n d g /\ consistent n d g /\ gb_sq g = false /\ gb_dom g = n /\ gb_cen g = c0 /\
    (forall i j k, inRange n d (i, j, k) -> (k <= 1)%nat -> getp g (i, j, k) = getp o (i, j, k)) /\
    (forall s c r q, In (s, c, r) (enumerate n d) -> (2 <= r)%nat -> inRange n d q -> same n d (s, c, r) q -> getp g q = Some v0).
Proof.
  intros n d o v0 c0 d0 l0 Hn Hd So Co Do. pose proof So as (On & Od & _). unfold fitStart. rewrite Do, Od. destruct (Nat.eqb_spec d 0); [lia|].
  rewrite (start_run n d o _ Hd So).
  destruct (init_new v0 (gbNew d0 l0 c0) n d ltac:(left; cbn; lia)) as [S0 V0]. set (g0 := initNetwork v0 (gbNew d0 l0 c0) n d) in *.
  assert (X0 : gb_cen g0 = c0 /\ gb_sq g0 = false).
  { unfold g0, initNetwork. cbn [gb_n gbNew]. destruct (Nat.eqb_spec n 0); [lia|]. cbn [andb]. split; reflexivity. }
  assert (C0 : consistent n d g0) by (intros p q Rp Rq _; rewrite !V0 by assumption; reflexivity).
  set (ops := opsAt (copied n d) (gpv o)).
  assert (A : forall x, In x ops -> exists e p, x = OSet e p) by (intros x I; apply in_map_iff in I; destruct I as (e & <- & _); eauto).
  assert (F : Forall (opOk n d) ops).
  { apply Forall_forall. intros x I. apply in_map_iff in I. destruct I as ([[i j] k] & <- & I). apply copied_In in I. cbn [opOk inRange]. lia. }
  destruct (run_spec n d ops g0 S0 F) as (g1 & E & S1 & D1 & W). rewrite E. cbn [bind].
  assert (C1 : consistent n d g1) by (apply (run_consistent n d ops g0 g1 S0 F); [intros q p I; destruct (A _ I) as (e & p' & Q); discriminate Q|exact C0|exact E]).
  destruct (run_cen ops g0 g1 A E) as [Cr Qr]. destruct X0 as [Xc Xq]. unfold gbSetupLoop. destruct (boundary_some n d g1 ltac:(lia) S1) as [bd Bd]. rewrite Bd. cbn [bind].
  eexists. split; [reflexivity|]. pose proof S1 as (S1n & _). split; [exact S1|]. split; [exact C1|]. split; [exact (eq_trans Qr Xq)|]. split; [exact S1n|]. split; [exact (eq_trans Cr Xc)|].
  assert (Sv : forall p q, inRange n d p -> inRange n d q -> same n d p q -> gpv o p = gpv o q).
  { intros p q Rp Rq Sm. unfold gpv. rewrite (consistent_same n d o p q Co Rp Rq Sm). reflexivity. }
  assert (Rc : forall e, In e (copied n d) -> inRange n d e) by (intros [[i j] k] I; apply copied_In in I; cbn [inRange]; lia).
  split.
  - intros i j k R Hk. change (getp g1 (i, j, k) = getp o (i, j, k)). rewrite (gpv_some n d o _ So R).
    apply (run_value n d ops g0 g1 (i, j, k) _ S0 F R A E).
    + assert (Cov : exists e, In e (copied n d) /\ same n d e (i, j, k)).
      { destruct R as (Ri & Rj & Rk). destruct (Nat.lt_ge_cases (j + 1) d) as [L|L].
        - exists (i, j, k). split; [apply copied_In; lia|left; reflexivity].
        - exists (nxt n i, k, d - j)%nat. split; [apply copied_In; pose proof (nxt_lt n i ltac:(lia)); lia|]. right; left.
          pose proof (mirror_intro n d i k (d - j) ltac:(lia)) as Mi. replace (d - (d - j))%nat with j in Mi by lia. exact Mi. }
      destruct Cov as (e & I & Sm). exists e. split; [|exact Sm]. apply in_map_iff. exists e. split; [|exact I]. f_equal. apply Sv; [apply Rc; exact I|exact R|exact Sm].
    + intros e p I Sm. apply in_map_iff in I. destruct I as (e' & Q & I). injection Q as <- <-. apply Sv; [apply Rc; exact I|exact R|exact Sm].
  - intros s c r q I Hr Rq Sm. change (getp g1 q = Some v0). rewrite (proj2 (W q Rq)); [apply V0; exact Rq|].
    intros x p Ix Wr. apply in_map_iff in Ix. destruct Ix as (e & <- & Ie). cbn [writes] in Wr. destruct Wr as [Se _].
    assert (Sm2 : same n d (s, c, r) e).
    { apply (same_trans n d (s, c, r) q e); try assumption; [apply enum_range; assumption|apply Rc; exact Ie|apply same_sym; exact Se]. }
    destruct e as [[i j] k]. apply copied_In in Ie. apply enum_In in I; [|exact Hn].
    assert (Rs : inRange n d (s, c, r)) by (cbn [inRange]; lia).
    destruct Sm2 as [Q|[M|M]].
    + injection Q as -> -> ->. lia.
    + clear -M I Ie Hr. inversion M; subst. lia.
    + clear -M I Ie Hr. inversion M; subst. lia.
Qed.
