(** The enumeration of control points, files and exported control nets. *)
From Verif Require Import Base UtilModel UtilProofs DomainModel ParamModel GBModel GBSpec GBProofs.
Open Scope R_scope.

(** ** What is enumerated *)
Definition rowBlock (d side row col : nat) : list position := map (fun c => (side, c, row)) (seq col (d - row - col)).
Definition rowAll (n d row : nat) : list position := concat (map (fun i => rowBlock d i row row) (seq 0 n)).
Definition grid (n d l : nat) : list position := concat (map (rowAll n d) (seq 0 l)).

Lemma carry_stay : forall n d side col row, (col + row < d)%nat -> carry n d side col row = (side, col, row).
Proof.
  intros n d side col row H. unfold carry. destruct (Nat.ltb_spec d row); [lia|]. destruct (Nat.leb_spec (d - row) col); [lia|reflexivity].
Qed.

Lemma enum_block : forall n d side row t m col, (col + row + t = d)%nat ->
  enumLoop n d (t + m) side col row = map (fun c => (side, c, row)) (seq col t) ++ enumLoop n d m side (d - row) row.
Proof.
  intros n d side row t; induction t as [|t IH]; intros m col H.
  - simpl. f_equal. lia.
  - cbn [Nat.add enumLoop seq map app]. rewrite carry_stay by lia. f_equal. apply (IH m (S col)). lia.
Qed.

Lemma enum_next : forall n d side row m, (2 * row < d)%nat -> (S side < n)%nat ->
  enumLoop n d m side (d - row) row = enumLoop n d m (S side) row row.
Proof.
  intros n d side row m H Hs. destruct m as [|m]; [reflexivity|]. cbn [enumLoop].
  rewrite (carry_stay n d (S side)) by lia. unfold carry. destruct (Nat.ltb_spec d row); [lia|].
  destruct (Nat.leb_spec (d - row) (d - row)); [|lia]. destruct (Nat.leb_spec n (S side)); [lia|reflexivity].
Qed.
Lemma enum_wrap : forall n d side row m, (2 * row < d)%nat -> (S side = n)%nat -> (m = 0 \/ 2 * S row < d)%nat ->
  enumLoop n d m side (d - row) row = enumLoop n d m 0 (S row) (S row).
Proof.
  intros n d side row m H Hs Hm. destruct m as [|m]; [reflexivity|]. destruct Hm as [Hm|Hm]; [lia|]. cbn [enumLoop].
  rewrite (carry_stay n d 0) by lia. unfold carry. destruct (Nat.ltb_spec d row); [lia|].
  destruct (Nat.leb_spec (d - row) (d - row)); [|lia]. destruct (Nat.leb_spec n (S side)); [reflexivity|lia].
Qed.

Lemma enum_row : forall n d row t m side, (2 * row < d)%nat -> (side + S t = n)%nat ->
  enumLoop n d (S t * (d - 2 * row) + m) side row row =
  concat (map (fun i => rowBlock d i row row) (seq side (S t))) ++ enumLoop n d m (n - 1) (d - row) row.
Proof.
  intros n d row t; induction t as [|t IH]; intros m side H Hs.
  - cbn [seq map concat]. rewrite app_nil_r. rewrite Nat.mul_1_l. rewrite enum_block by lia. unfold rowBlock.
    replace (d - row - row)%nat with (d - 2 * row)%nat by lia. replace (n - 1)%nat with side by lia. reflexivity.
  - replace (S (S t) * (d - 2 * row) + m)%nat with ((d - 2 * row) + (S t * (d - 2 * row) + m))%nat by lia.
    rewrite enum_block by lia. rewrite enum_next by lia. rewrite (IH m (S side)) by lia.
    change (seq side (S (S t))) with (side :: seq (S side) (S t)). rewrite map_cons. cbn [concat]. rewrite <- app_assoc.
    unfold rowBlock at 2. replace (d - row - row)%nat with (d - 2 * row)%nat by lia. reflexivity.
Qed.

Fixpoint gridCount (n d row t : nat) : nat :=
  match t with O => 0%nat | S t' => (n * (d - 2 * row) + gridCount n d (S row) t')%nat end.

Lemma enum_grid : forall n d t row, (1 <= n)%nat -> (2 * row + 2 * t <= d + 1)%nat ->
  enumLoop n d (gridCount n d row t) 0 row row = concat (map (rowAll n d) (seq row t)).
Proof.
  intros n d t; induction t as [|t IH]; intros row Hn H; [reflexivity|].
  cbn [gridCount seq map concat]. destruct n as [|n']; [lia|]. rewrite (enum_row (S n') d row n') by lia. f_equal.
  destruct t as [|t]; [reflexivity|]. rewrite <- (IH (S row)) by lia. apply enum_wrap; lia.
Qed.

Lemma gridCount_val : forall n d t row, (2 * row + 2 * t <= d + 1)%nat -> gridCount n d row t = (n * (t * (d + 1 - 2 * row - t)))%nat.
Proof.
  intros n d t; induction t as [|t IH]; intros row H; [simpl; lia|].
  cbn [gridCount]. rewrite IH by lia. rewrite <- Nat.mul_add_distr_l. f_equal.
  replace (d + 1 - 2 * row - S t)%nat with (d - 2 * row - t)%nat by lia.
  replace (d + 1 - 2 * S row - t)%nat with (d - 2 * row - t - 1)%nat by lia.
  assert (L : (d - 2 * row = (d - 2 * row - t) + t)%nat) by lia. remember (d - 2 * row - t)%nat as x. rewrite L. clear -H Heqx.
  destruct x as [|x]; [|simpl; lia]. destruct t as [|t]; lia.
Qed.

Lemma half_sum : forall d, ((d + 1) / 2 + d / 2 = d)%nat.
Proof.
  intros d. pose proof (Nat.div_mod d 2 ltac:(lia)). pose proof (Nat.mod_upper_bound d 2 ltac:(lia)).
  pose proof (Nat.div_mod (d + 1) 2 ltac:(lia)). pose proof (Nat.mod_upper_bound (d + 1) 2 ltac:(lia)). lia.
Qed.
Lemma half_le : forall d, (2 * ((d + 1) / 2) <= d + 1)%nat.
Proof. intros d. pose proof (Nat.div_mod (d + 1) 2 ltac:(lia)). lia. Qed.

Lemma count_grid : forall n d, (gbCount n d - 1 = gridCount n d 0 ((d + 1) / 2))%nat.
Proof.
  intros n d. unfold gbCount. rewrite gridCount_val by (pose proof (half_le d); lia).
  replace (d + 1 - 2 * 0 - (d + 1) / 2)%nat with (1 + d / 2)%nat by (pose proof (half_sum d); lia). nia.
Qed.

Lemma enumerate_grid : forall n d, (1 <= n)%nat -> enumerate n d = grid n d ((d + 1) / 2).
Proof.
  intros n d Hn. unfold enumerate. rewrite count_grid, enum_grid by (pose proof (half_le d); lia). reflexivity.
Qed.

Lemma enumLoop_length : forall n d m s c r, length (enumLoop n d m s c r) = m.
Proof. intros n d m; induction m as [|m IH]; intros s c r; [reflexivity|]. cbn [enumLoop]. destruct (carry n d s c r) as [[a b] e]. simpl. rewrite IH. reflexivity. Qed.
Lemma enumerate_length : forall n d, length (enumerate n d) = (gbCount n d - 1)%nat.
Proof. intros. apply enumLoop_length. Qed.

Lemma enum_In : forall n d i j k, (1 <= n)%nat -> In (i, j, k) (enumerate n d) <-> (i < n /\ k <= j /\ j + k + 1 <= d)%nat.
Proof.
  intros n d i j k Hn. rewrite enumerate_grid by exact Hn. unfold grid, rowAll, rowBlock. rewrite in_concat. split.
  - intros (x & X & I). apply in_map_iff in X. destruct X as (r & <- & R). apply in_concat in I. destruct I as (y & Y & I).
    apply in_map_iff in Y. destruct Y as (s & <- & S). apply in_map_iff in I. destruct I as (c & E & C). injection E as <- <- <-.
    apply in_seq in R, S, C. lia.
  - intros (Hi & Hk & Hj). exists (rowAll n d k). split; [apply in_map_iff; exists k; split; [reflexivity|]; apply in_seq; split; [lia|]; apply lay_le; lia|].
    unfold rowAll. apply in_concat. exists (rowBlock d i k k). split; [apply in_map_iff; exists i; split; [reflexivity|apply in_seq; lia]|].
    apply in_map_iff. exists j. split; [reflexivity|]. apply in_seq. lia.
Qed.

Lemma NoDup_app' : forall A (l1 l2 : list A), NoDup l1 -> NoDup l2 -> (forall a, In a l1 -> In a l2 -> False) -> NoDup (l1 ++ l2).
Proof.
  intros A l1; induction l1 as [|a l1 IH]; intros l2 N1 N2 H; [exact N2|]. inversion N1; subst. simpl. constructor.
  - intros I. apply in_app_or in I. destruct I as [I|I]; [contradiction|]. apply (H a); [left; reflexivity|exact I].
  - apply IH; try assumption. intros b I1 I2. apply (H b); [right; exact I1|exact I2].
Qed.
Lemma NoDup_concat : forall A (f : nat -> list A) m a, (forall i, (a <= i < a + m)%nat -> NoDup (f i)) ->
  (forall i j x, (a <= i < a + m)%nat -> (a <= j < a + m)%nat -> In x (f i) -> In x (f j) -> i = j) ->
  NoDup (concat (map f (seq a m))).
Proof.
  intros A f m; induction m as [|m IH]; intros a N D; [constructor|]. cbn [seq map concat]. apply NoDup_app'.
  - apply N; lia.
  - apply IH; [intros i Hi; apply N; lia|intros i j x Hi Hj; apply D; lia].
  - intros x I1 I2. apply in_concat in I2. destruct I2 as (y & Y & I2). apply in_map_iff in Y. destruct Y as (b & <- & B). apply in_seq in B.
    pose proof (D a b x ltac:(lia) ltac:(lia) I1 I2). lia.
Qed.

Lemma enum_NoDup : forall n d, (1 <= n)%nat -> NoDup (enumerate n d).
Proof.
  intros n d Hn. rewrite enumerate_grid by exact Hn. unfold grid. apply NoDup_concat.
  - intros r Hr. unfold rowAll. apply NoDup_concat.
    + intros i Hi. unfold rowBlock. apply FinFun.Injective_map_NoDup; [|apply seq_NoDup]. intros a b E. congruence.
    + intros i j x Hi Hj I1 I2. unfold rowBlock in *. apply in_map_iff in I1, I2. destruct I1 as (c & <- & _), I2 as (c' & E & _). congruence.
  - intros r r' x Hr Hr' I1 I2. unfold rowAll, rowBlock in *. apply in_concat in I1, I2. destruct I1 as (a & A & I1), I2 as (b & B & I2).
    apply in_map_iff in A, B. destruct A as (s & <- & _), B as (s' & <- & _). apply in_map_iff in I1, I2.
    destruct I1 as (c & <- & _), I2 as (c' & E & _). congruence.
Qed.

(** ** Every control point once *)
Lemma enum_range : forall n d q, (1 <= n)%nat -> In q (enumerate n d) -> inRange n d q.
Proof. intros n d [[i j] k] Hn I. apply enum_In in I; [|exact Hn]. cbn [inRange]. lia. Qed.

Lemma enum_cover : forall n d q, (1 <= n)%nat -> inRange n d q -> exists p, In p (enumerate n d) /\ same n d p q.
Proof.
  intros n d [[i j] k] Hn (Hi & Hj & Hk).
  destruct (le_lt_dec k j) as [L1|L1]; [destruct (le_lt_dec (j + k + 1) d) as [L2|L2]|].
  - exists (i, j, k). split; [apply enum_In; [exact Hn|lia]|left; reflexivity].
  - exists (nxt n i, k, d - j)%nat. pose proof (nxt_lt n i ltac:(lia)). split; [apply enum_In; [exact Hn|lia]|]. right; left.
    pose proof (mirror_prv n d (nxt n i) k (d - j) ltac:(assumption) Hk) as M. rewrite prv_nxt in M by exact Hi.
    replace (d - (d - j))%nat with j in M by lia. exact M.
  - exists (prv n i, d - k, j)%nat. pose proof (prv_lt n i ltac:(lia)). split; [apply enum_In; [exact Hn|lia]|]. right; right.
    apply mirror_prv; [exact Hi|lia].
Qed.

Lemma enum_unique : forall n d p q, (1 <= n)%nat -> In p (enumerate n d) -> In q (enumerate n d) -> same n d p q -> p = q.
Proof.
  intros n d [[i j] k] [[i' j'] k'] Hn P Q. pose proof (enum_range n d _ Hn P) as RP. pose proof (enum_range n d _ Hn Q) as RQ.
  apply enum_In in P; [|exact Hn]. apply enum_In in Q; [|exact Hn]. intros [E|[M|M]]; [exact E| |]; exfalso.
  - destruct (mirror_inv n d i j k _ M RQ ltac:(lia)) as [H E]. injection E as -> -> ->. lia.
  - destruct (mirror_inv n d i' j' k' _ M RP ltac:(lia)) as [H E]. injection E as -> -> ->. lia.
Qed.

Lemma enum_index : forall n d q, (1 <= n)%nat -> inRange n d q ->
  exists a p, nth_error (enumerate n d) a = Some p /\ same n d p q /\
    forall a' p', nth_error (enumerate n d) a' = Some p' -> same n d p' q -> a' = a.
Proof.
  intros n d q Hn R. destruct (enum_cover n d q Hn R) as (p & I & S). destruct (In_nth_error _ _ I) as [a E].
  exists a, p. split; [exact E|]. split; [exact S|]. intros a' p' E' S'.
  assert (Ia' := nth_error_In _ _ E').
  assert (X : p' = p).
  { apply (enum_unique n d); try assumption. apply (same_trans n d p' q p); try assumption; try (apply enum_range; assumption). apply same_sym; exact S. }
  subst p'. apply (NoDup_nth_error (enumerate n d)); [apply enum_NoDup; exact Hn|apply nth_error_Some; congruence|congruence].
Qed.

(** ** A list of writes with one value per control point *)
Lemma run_value : forall n d ops g g' q v, shaped n d g -> Forall (opOk n d) ops -> inRange n d q ->
  (forall o, In o ops -> exists e p, o = OSet e p) -> gbrun g ops = Some g' ->
  (exists e, In (OSet e v) ops /\ same n d e q) -> (forall e p, In (OSet e p) ops -> same n d e q -> p = v) -> getp g' q = Some v.
Proof.
  intros n d ops; induction ops as [|o ops IH] using rev_ind; intros g g' q v S F Q A E (e & I & Se) U; [destruct I|].
  unfold gbrun in E. rewrite foldM_app in E. apply Forall_app in F. destruct F as [F1 F2]. inversion F2 as [|? ? Ho _]; subst.
  destruct (run_spec n d ops g S F1) as (g1 & E1 & S1 & D1 & _). unfold gbrun in E1. rewrite E1 in E. cbn [bind foldM] in E.
  destruct (step_spec n d g1 o S1 Ho) as (g2 & E2 & S2 & D2 & W). rewrite E2 in E. injection E as <-.
  destruct (A o ltac:(apply in_or_app; right; left; reflexivity)) as (e' & p' & ->). destruct (W q Q) as [Wa Wb].
  destruct (same_dec n d e' q Ho Q) as [Y|Y].
  - rewrite (Wa p' (conj Y eq_refl)). f_equal. apply (U e'); [apply in_or_app; right; left; reflexivity|exact Y].
  - rewrite Wb by (intros p (Y' & _); contradiction). apply (IH g g1 q v); try assumption.
    + intros o Io. apply A. apply in_or_app; left; exact Io.
    + exists e. split; [|exact Se]. apply in_app_or in I. destruct I as [I|[I|[]]]; [exact I|]. injection I as -> ->. contradiction.
    + intros e0 p0 I0. apply U. apply in_or_app; left; exact I0.
Qed.

(** Writing every enumerated position. *)
Definition opsAt (es : list position) (val : position -> V3) : list gbop := map (fun e => OSet e (val e)) es.

Lemma run_enum : forall n d g (val : position -> V3), (1 <= n)%nat -> shaped n d g ->
  (forall p q, inRange n d p -> inRange n d q -> same n d p q -> val p = val q) ->
  exists g', gbrun g (opsAt (enumerate n d) val) = Some g' /\ shaped n d g' /\ gb_dom g' = gb_dom g /\
    forall q, inRange n d q -> getp g' q = Some (val q).
Proof.
  intros n d g val Hn S V.
  assert (F : Forall (opOk n d) (opsAt (enumerate n d) val)).
  { apply Forall_forall. intros o I. apply in_map_iff in I. destruct I as (e & <- & I). apply enum_range; assumption. }
  destruct (run_spec n d _ g S F) as (g' & E & S' & D & _). exists g'. split; [exact E|]. split; [exact S'|]. split; [exact D|].
  intros q Q. apply (run_value n d (opsAt (enumerate n d) val) g g' q (val q) S F Q).
  - intros o I. apply in_map_iff in I. destruct I as (e & <- & _). eauto.
  - exact E.
  - destruct (enum_cover n d q Hn Q) as (p & I & Sm). exists p. split; [|exact Sm]. rewrite <- (V p q (enum_range n d p Hn I) Q Sm).
    apply in_map_iff. exists p. split; [reflexivity|exact I].
  - intros e p I Sm. apply in_map_iff in I. destruct I as (e' & E' & I). injection E' as -> <-. apply V; [apply enum_range|exact Q|]; assumption.
Qed.

Lemma consistent_same : forall n d g p q, consistent n d g -> inRange n d p -> inRange n d q -> same n d p q -> getp g p = getp g q.
Proof. intros n d g p q C P Q [->|[M|M]]; [reflexivity|apply C; assumption|symmetry; apply C; assumption]. Qed.

(** ** Save and load *)
Definition fmtV (fmt : R -> R) (p : V3) : V3 := mkV3 (fmt (vx p)) (fmt (vy p)) (fmt (vz p)).
Definition gpv (g : gbsurf) (q : position) : V3 := match getp g q with Some p => p | None => vzero end.

Lemma gpv_some : forall n d g q, shaped n d g -> inRange n d q -> getp g q = Some (gpv g q).
Proof. intros n d g q S R. destruct (getp_some n d g q S R) as [p E]. unfold gpv. rewrite E. reflexivity. Qed.

Lemma points_total : forall n d g, (1 <= n)%nat -> shaped n d g ->
  mapM (fun q : position => let '(i, j, k) := q in controlPoint g i j k) (enumerate n d) = Some (map (gpv g) (enumerate n d)).
Proof.
  intros n d g Hn S. apply mapM_total. intros [[i j] k] I. apply (gpv_some n d g (i, j, k) S). apply enum_range; assumption.
Qed.

Lemma load_run : forall fmt (es : list position) val g rest,
  foldM (fun (st : gbsurf * list token) (q : position) => let '(i, j, k) := q in
      ' (p, r) <- readPoint (snd st) ;; g' <- setControlPoint (fst st) i j k p ;; Some (g', r))
    (g, concat (map (fmt3 fmt) (map val es)) ++ rest) es =
  (g' <- gbrun g (opsAt es (fun e => fmtV fmt (val e))) ;; Some (g', rest)).
Proof.
  intros fmt es val; induction es as [|[[i j] k] es IH]; intros g rest; [reflexivity|].
  cbn [map concat foldM fmt3 app readPoint snd fst bind]. unfold gbrun, opsAt. cbn [map foldM gbstep].
  change (mkV3 (fmt (vx (val (i, j, k)))) (fmt (vy (val (i, j, k)))) (fmt (vz (val (i, j, k))))) with (fmtV fmt (val (i, j, k))).
  destruct (setControlPoint g i j k (fmtV fmt (val (i, j, k)))) as [g1|]; [|reflexivity]. cbn [bind]. apply IH.
Qed.

Lemma run_cen : forall ops g g', (forall o, In o ops -> exists e p, o = OSet e p) -> gbrun g ops = Some g' -> gb_cen g' = gb_cen g /\ gb_sq g' = gb_sq g.
Proof.
  intros ops; induction ops as [|o ops IH]; intros g g' A E; [injection E as <-; split; reflexivity|].
  destruct (A o (or_introl eq_refl)) as ([[i j] k] & p & ->). unfold gbrun in E. cbn [foldM gbstep] in E.
  destruct (setControlPoint g i j k p) as [g1|] eqn:E1; [|discriminate]. cbn [bind] in E.
  destruct (IH g1 g' ltac:(intros o I; apply A; right; exact I) E) as [C Q]. rewrite C, Q. clear -E1.
  unfold setControlPoint in E1. destruct (set3 _ i j k p) as [a|]; [|discriminate]. cbn [bind] in E1.
  destruct (if (j <? gb_lay g)%nat then _ else _) as [a'|]; [|discriminate]. injection E1 as <-. split; reflexivity.
Qed.

Lemma boundary_some : forall n d g, (1 <= d)%nat -> shaped n d g -> exists b, gbBoundary g = Some b.
Proof.
  intros n d g Hd S. unfold gbBoundary. pose proof S as (Sn & Sd & _). rewrite Sn, Sd.
  eexists. apply mapM_total with (g := fun i => map (fun j => gpv g (i, j, 0)%nat) (seq 0 (d + 1))).
  intros i Hi. apply in_seq in Hi. apply mapM_total. intros j Hj. apply in_seq in Hj. apply (gpv_some n d g (i, j, 0)%nat S). cbn [inRange]. lia.
Qed.

Lemma save_load : forall n d fmt v0 g g0, (1 <= n)%nat -> (1 <= d)%nat -> shaped n d g -> consistent n d g -> gb_dom g = n ->
  (gb_n g0 = n -> gb_deg g0 = d -> shaped n d g0) ->
  exists f g', saveBezier fmt g = Some f /\ loadBezier v0 f g0 = Some g' /\ shaped n d g' /\ gb_dom g' = n /\
    gb_cen g' = fmtV fmt (gb_cen g) /\ gb_sq g' = gb_sq g0 /\
    forall q, inRange n d q -> getp g' q = option_map (fmtV fmt) (getp g q).
Proof.
  intros n d fmt v0 g g0 Hn Hd S C Hdom H0. pose proof S as (Sn & Sd & _).
  eexists. unfold saveBezier. rewrite Hdom, Sd, (points_total n d g Hn S). cbn [bind].
  assert (S0 : shaped n d (initNetwork v0 g0 n d)).
  { destruct (Nat.eq_dec (gb_n g0) n) as [E1|E1]; [destruct (Nat.eq_dec (gb_deg g0) d) as [E2|E2]|].
    - rewrite <- E1, <- E2, init_same. rewrite E1, E2. apply H0; assumption.
    - apply init_new; right; exact E2.
    - apply init_new; left; exact E1. }
  set (g1 := setCentral (initNetwork v0 g0 n d) (fmtV fmt (gb_cen g))).
  assert (S1 : shaped n d g1) by exact S0.
  destruct (run_enum n d g1 (fun e => fmtV fmt (gpv g e)) Hn S1) as (g2 & E2 & S2 & D2 & V2).
  { intros p q P Q Sm. f_equal. unfold gpv. rewrite (consistent_same n d g p q C P Q Sm). reflexivity. }
  destruct (boundary_some n d g2 Hd S2) as [b B].
  assert (Q2 : gb_cen g2 = gb_cen g1 /\ gb_sq g2 = gb_sq g1).
  { apply (run_cen _ g1 g2) with (2 := E2). intros o I. apply in_map_iff in I. destruct I as (e & <- & _). eauto. }
  eexists. split; [reflexivity|]. cbn [loadBezier]. cbn [fmt3 app readPoint bind].
  change (mkV3 (fmt (vx (gb_cen g))) (fmt (vy (gb_cen g))) (fmt (vz (gb_cen g)))) with (fmtV fmt (gb_cen g)). fold g1.
  replace (concat (map (fmt3 fmt) (map (gpv g) (enumerate n d)))) with (concat (map (fmt3 fmt) (map (gpv g) (enumerate n d))) ++ []) by apply app_nil_r.
  rewrite (load_run fmt (enumerate n d) (gpv g) g1 []). rewrite E2. cbn [bind]. unfold gbSetupLoop. rewrite B. cbn [bind].
  split; [reflexivity|]. pose proof S2 as (Sn2 & Sd2 & Sl2 & Sn2' & Sb2). split; [repeat split; try assumption; apply Sb2; assumption|].
  split; [exact Sn2|]. destruct Q2 as [Qc Qs]. split; [rewrite <- (eq_refl : gb_cen g1 = fmtV fmt (gb_cen g)); exact Qc|].
  split; [|intros [[i j] k] Q; etransitivity; [apply (V2 _ Q)|]; rewrite (gpv_some n d g _ S Q); reflexivity].
  cbn [gb_sq]. rewrite Qs. unfold g1, setCentral, initNetwork. cbn [gb_sq]. destruct (_ && _)%bool; reflexivity.
Qed.

(** ** The search of writeBezierControlPoints *)
Lemma matches_same : forall n d i j k p, (1 <= n)%nat -> inRange n d (i, j, k) -> In p (enumerate n d) ->
  (matches n d i j k p = true <-> same n d p (i, j, k)).
Proof.
  intros n d i j k [[side col] row] Hn R I. pose proof (enum_range n d _ Hn I) as RP. apply enum_In in I; [|exact Hn].
  pose proof R as (Ri & Rj & Rk). unfold matches, meets. destruct (Nat.ltb_spec d row); [lia|]. destruct (Nat.ltb_spec d col); [lia|].
  split.
  - intros H1. apply orb_true_iff in H1. destruct H1 as [H1|H1]; [apply orb_true_iff in H1; destruct H1 as [H1|H1]|];
    repeat (apply andb_true_iff in H1; destruct H1 as [H1 ?]); repeat match goal with H : (_ =? _)%nat = true |- _ => apply Nat.eqb_eq in H end; subst.
    + left; reflexivity.
    + right; left. apply mirror_prv; lia.
    + right; right. pose proof (mirror_prv n d (nxt n side) row (d - col) Ri ltac:(lia)) as M. rewrite prv_nxt in M by lia.
      replace (d - (d - col))%nat with col in M by lia. exact M.
  - intros [E|[M|M]].
    + injection E as -> -> ->. rewrite !Nat.eqb_refl. reflexivity.
    + destruct (mirror_inv n d side col row _ M R ltac:(lia)) as [L E]. injection E as -> -> ->. rewrite !Nat.eqb_refl. rewrite orb_true_r. reflexivity.
    + destruct (mirror_inv2 n d side col row _ M R RP) as [L E]. injection E as -> -> ->. rewrite !Nat.eqb_refl. rewrite !orb_true_r. reflexivity.
Qed.

Lemma findFrom_spec : forall n d i j k es c a p, nth_error es a = Some p -> matches n d i j k p = true ->
  (forall a' p', (a' < a)%nat -> nth_error es a' = Some p' -> matches n d i j k p' = false) -> findFrom n d i j k c es = (c + a + 1)%nat.
Proof.
  intros n d i j k es; induction es as [|q es IH]; intros c a p E M N; [destruct a; discriminate|]. cbn [findFrom].
  destruct a as [|a].
  - injection E as ->. rewrite M. lia.
  - rewrite (N 0%nat q) by (try reflexivity; lia). rewrite (IH (c + 1)%nat a p E M); [lia|].
    intros a' p' H E'. apply (N (S a') p'); [lia|exact E'].
Qed.

Lemma find_spec : forall n d i j k, (1 <= n)%nat -> inRange n d (i, j, k) ->
  exists a p, nth_error (enumerate n d) a = Some p /\ same n d p (i, j, k) /\ findControlPoint n d i j k = (a + 2)%nat.
Proof.
  intros n d i j k Hn R. destruct (enum_index n d _ Hn R) as (a & p & E & Sm & U). exists a, p. split; [exact E|]. split; [exact Sm|].
  unfold findControlPoint. rewrite (findFrom_spec n d i j k (enumerate n d) 1 a p E); [lia| |].
  - apply matches_same; try assumption. apply (nth_error_In _ _ E).
  - intros a' p' H E'. destruct (matches n d i j k p') eqn:M; [|reflexivity].
    apply matches_same in M; try assumption; [|apply (nth_error_In _ _ E')]. pose proof (U a' p' E' M). lia.
Qed.

(** The vertex lines as a list of points. *)
Lemma vertex_found : forall n d fmt g i j k, (1 <= n)%nat -> shaped n d g -> consistent n d g -> inRange n d (i, j, k) ->
  let vs := map (fmtV fmt) (gb_cen g :: map (gpv g) (enumerate n d)) in
  (1 <= findControlPoint n d i j k <= length vs)%nat /\
  nth_error vs (findControlPoint n d i j k - 1) = option_map (fmtV fmt) (controlPoint g i j k).
Proof.
  intros n d fmt g i j k Hn S C R vs. destruct (find_spec n d i j k Hn R) as (a & p & E & Sm & F). rewrite F.
  assert (La : (a < length (enumerate n d))%nat) by (apply nth_error_Some; congruence).
  split; [unfold vs; rewrite map_length; cbn [length]; rewrite map_length; lia|].
  replace (a + 2 - 1)%nat with (Datatypes.S a) by lia. unfold vs. cbn [map nth_error]. rewrite map_map. rewrite (map_nth_error _ _ _ E).
  change (controlPoint g i j k) with (getp g (i, j, k)).
  rewrite <- (consistent_same n d g p (i, j, k) C (enum_range n d p Hn (nth_error_In _ _ E)) R Sm).
  rewrite (gpv_some n d g p S (enum_range n d p Hn (nth_error_In _ _ E))). reflexivity.
Qed.
