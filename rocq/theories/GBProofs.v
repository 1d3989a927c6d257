(** Generalized Bezier patches: storage. *)
From Verif Require Import Base UtilModel UtilSpec UtilProofs DomainModel ParamModel GBModel GBSpec.
Open Scope R_scope.

Lemma lay_le : forall d k, (k < (d + 1) / 2 <-> 2 * k + 1 <= d)%nat.
Proof.
  intros d k. pose proof (Nat.div_mod (d + 1) 2 ltac:(lia)). pose proof (Nat.mod_upper_bound (d + 1) 2 ltac:(lia)). lia.
Qed.

Definition pos_eq_dec : forall p q : position, {p = q} + {p <> q}.
Proof. repeat decide equality. Defined.

(** ** Three-dimensional vectors *)
Definition box (n m l : nat) (a : nets) : Prop :=
  length a = n /\ forall x, In x a -> length x = m /\ forall y, In y x -> length y = l.

Lemma get3_some : forall n m l a i j k, box n m l a -> (i < n)%nat -> (j < m)%nat -> (k < l)%nat ->
  exists p, get3 a i j k = Some p.
Proof.
  intros n m l a i j k [L B] Hi Hj Hk. unfold get3.
  destruct (nth_error_ex _ a i ltac:(lia)) as [x X]. rewrite X. cbn [bind].
  destruct (B x (nth_error_In _ _ X)) as [Lx Bx].
  destruct (nth_error_ex _ x j ltac:(lia)) as [y Y]. rewrite Y. cbn [bind].
  apply nth_error_ex. rewrite (Bx y (nth_error_In _ _ Y)). exact Hk.
Qed.

Lemma get3_none : forall n m l a i j k, box n m l a -> ~ ((i < n)%nat /\ (j < m)%nat /\ (k < l)%nat) -> get3 a i j k = None.
Proof.
  intros n m l a i j k [L B] N. unfold get3.
  destruct (nth_error a i) as [x|] eqn:X; [|reflexivity]. cbn [bind].
  destruct (B x (nth_error_In _ _ X)) as [Lx Bx].
  destruct (nth_error x j) as [y|] eqn:Y; [|reflexivity]. cbn [bind].
  apply nth_error_None. rewrite (Bx y (nth_error_In _ _ Y)).
  assert (i < length a)%nat by (apply nth_error_Some; congruence).
  assert (j < length x)%nat by (apply nth_error_Some; congruence). lia.
Qed.

Lemma upd_In : forall A (l l' : list A) i a x, upd l i a = Some l' -> In x l' -> x = a \/ In x l.
Proof.
  intros A l; induction l as [|b l IH]; intros l' i a x U I; [discriminate|]. destruct i as [|i]; simpl in U.
  - injection U as <-. destruct I as [<-|I]; [left; reflexivity|right; right; exact I].
  - destruct (upd l i a) as [r|] eqn:E; [|discriminate]. injection U as <-. destruct I as [<-|I]; [right; left; reflexivity|].
    destruct (IH r i a x E I) as [->|J]; [left; reflexivity|right; right; exact J].
Qed.

Lemma set3_spec : forall n m l a i j k p, box n m l a -> (i < n)%nat -> (j < m)%nat -> (k < l)%nat ->
  exists a', set3 a i j k p = Some a' /\ box n m l a' /\
    forall i' j' k', get3 a' i' j' k' = if pos_eq_dec (i', j', k') (i, j, k) then Some p else get3 a i' j' k'.
Proof.
  intros n m l a i j k p [L B] Hi Hj Hk. unfold set3.
  destruct (nth_error_ex _ a i ltac:(lia)) as [x X]. rewrite X. cbn [bind].
  destruct (B x (nth_error_In _ _ X)) as [Lx Bx].
  destruct (nth_error_ex _ x j ltac:(lia)) as [y Y]. rewrite Y. cbn [bind].
  pose proof (Bx y (nth_error_In _ _ Y)) as Ly.
  destruct (upd_spec _ y k p ltac:(lia)) as (y' & U1 & L1 & N1). rewrite U1. cbn [bind].
  destruct (upd_spec _ x j y' ltac:(lia)) as (x' & U2 & L2 & N2). rewrite U2. cbn [bind].
  destruct (upd_spec _ a i x' ltac:(lia)) as (a' & U3 & L3 & N3). rewrite U3.
  exists a'. split; [reflexivity|]. split.
  - split; [lia|]. intros z Z. destruct (upd_In _ _ _ _ _ _ U3 Z) as [->|Z']; [|apply B; exact Z'].
    split; [lia|]. intros w W. destruct (upd_In _ _ _ _ _ _ U2 W) as [->|W']; [lia|apply Bx; exact W'].
  - intros i' j' k'. unfold get3. rewrite N3. destruct (Nat.eqb_spec i' i) as [->|Ni].
    + cbn [bind]. rewrite N2. destruct (Nat.eqb_spec j' j) as [->|Nj].
      * cbn [bind]. rewrite N1. destruct (Nat.eqb_spec k' k) as [->|Nk].
        -- destruct (pos_eq_dec _ _) as [_|Q]; [reflexivity|contradiction].
        -- destruct (pos_eq_dec _ _) as [Q|_]; [injection Q as ?; contradiction|]. rewrite X. cbn [bind]. rewrite Y. reflexivity.
      * destruct (pos_eq_dec _ _) as [Q|_]; [injection Q as ? ?; contradiction|]. rewrite X. reflexivity.
    + destruct (pos_eq_dec _ _) as [Q|_]; [injection Q as ? ? ?; contradiction|]. reflexivity.
Qed.

Lemma shaped_box : forall n d g, shaped n d g -> box n (d + 1) ((d + 1) / 2) (gb_nets g).
Proof. intros n d g (A & B & C & D & E). split; assumption. Qed.

Lemma shaped_with : forall n d g a, shaped n d g -> box n (d + 1) ((d + 1) / 2) a -> shaped n d (withNets g a).
Proof. intros n d g a (A & B & C & _) [L X]. repeat split; try assumption; apply X; assumption. Qed.

Lemma getp_some : forall n d g q, shaped n d g -> inRange n d q -> exists p, getp g q = Some p.
Proof.
  intros n d g [[i j] k] S (Hi & Hj & Hk). apply (get3_some _ _ _ _ _ _ _ (shaped_box n d g S)); [exact Hi|lia|apply lay_le; exact Hk].
Qed.
Lemma getp_none : forall n d g q, shaped n d g -> ~ inRange n d q -> getp g q = None.
Proof.
  intros n d g [[i j] k] S N. apply (get3_none _ _ _ _ _ _ _ (shaped_box n d g S)). intros (Hi & Hj & Hk). apply N.
  apply lay_le in Hk. simpl. lia.
Qed.

(** ** Addresses *)
Lemma mirror_prv : forall n d i j k, (i < n)%nat -> (2 * j + 1 <= d)%nat -> mirror n d (i, j, k) (prv n i, d - k, j)%nat.
Proof.
  intros n d i j k Hi Hj. pose proof (mirror_intro n d (prv n i) j k Hj) as M.
  change ((prv n i + 1) mod n)%nat with (nxt n (prv n i)) in M. rewrite nxt_prv in M by exact Hi. exact M.
Qed.
Lemma mirror_inv : forall n d i j k q, mirror n d (i, j, k) q -> inRange n d q -> (i < n)%nat ->
  (2 * j + 1 <= d)%nat /\ q = (prv n i, d - k, j)%nat.
Proof.
  intros n d i j k q M R Hi. inversion M as [i' j' k' Hj E1 E2]; subst.
  change ((i' + 1) mod n)%nat with (nxt n i') in *. cbn [inRange] in R.
  split; [exact Hj|]. rewrite prv_nxt by lia. reflexivity.
Qed.
Lemma mirror_inv2 : forall n d i j k q, mirror n d q (i, j, k) -> inRange n d q -> inRange n d (i, j, k) ->
  (2 * (d - j) + 1 <= d)%nat /\ q = (nxt n i, k, d - j)%nat.
Proof.
  intros n d i j k [[a b] c] M R1 R2. inversion M; subst.
  change ((i + 1) mod n)%nat with (nxt n i) in *. cbn [inRange] in *.
  split; [lia|]. replace (d - (d - c))%nat with c by lia. reflexivity.
Qed.
Lemma mirror_range : forall n d p q, mirror n d p q -> inRange n d p -> (fst (fst q) < n)%nat -> inRange n d q.
Proof.
  intros n d p q M R H. inversion M; subst. cbn [inRange fst] in *. lia.
Qed.

(** ** Writes *)
Lemma set_spec : forall n d g i j k p, shaped n d g -> inRange n d (i, j, k) ->
  exists g', setControlPoint g i j k p = Some g' /\ shaped n d g' /\
    gb_cen g' = gb_cen g /\ gb_sq g' = gb_sq g /\ gb_dom g' = gb_dom g /\
    (forall q, inRange n d q -> same n d (i, j, k) q -> getp g' q = Some p) /\
    (forall q, inRange n d q -> ~ same n d (i, j, k) q -> getp g' q = getp g q).
Proof.
  intros n d g i j k p S R. pose proof S as (Sn & Sd & Sl & _). pose proof R as (Hi & Hj & Hk).
  pose proof (shaped_box n d g S) as B0. unfold setControlPoint. rewrite Sn, Sd, Sl.
  assert (Hk' : (k < (d + 1) / 2)%nat) by (apply lay_le; exact Hk).
  destruct (set3_spec _ _ _ _ i j k p B0 ltac:(lia) ltac:(lia) Hk') as (a & E & B & G). rewrite E. cbn [bind].
  destruct (Nat.ltb_spec j ((d + 1) / 2)) as [J|J].
  - apply lay_le in J. pose proof (prv_lt n i ltac:(lia)) as Hp.
    destruct (set3_spec _ _ _ _ (prv n i) (d - k) j p B ltac:(lia) ltac:(lia) ltac:(apply lay_le; exact J)) as (a' & E' & B' & G').
    rewrite E'. cbn [bind]. exists (withNets g a'). split; [reflexivity|]. split; [apply shaped_with; assumption|].
    do 3 (split; [reflexivity|]). split; intros [[i' j'] k'] Q; unfold getp, controlPoint; cbn [gb_nets withNets]; rewrite G'; intros X.
    + destruct (pos_eq_dec _ _) as [_|N1]; [reflexivity|]. rewrite G. destruct (pos_eq_dec _ _) as [_|N2]; [reflexivity|].
      exfalso. destruct X as [X|[X|X]]; [congruence| |].
      * destruct (mirror_inv _ _ _ _ _ _ X Q Hi) as [_ Y]. congruence.
      * destruct (mirror_inv2 _ _ _ _ _ _ X Q R) as [Y _]. lia.
    + destruct (pos_eq_dec _ _) as [Y|N1].
      * exfalso. apply X. right; left. rewrite Y. apply mirror_prv; assumption.
      * rewrite G. destruct (pos_eq_dec _ _) as [Y|N2]; [exfalso; apply X; left; congruence|reflexivity].
  - assert (NJ : ~ (2 * j + 1 <= d)%nat) by (intros Y; apply lay_le in Y; lia).
    destruct (Nat.ltb_spec (d - j) ((d + 1) / 2)) as [J2|J2].
    + apply lay_le in J2. pose proof (nxt_lt n i ltac:(lia)) as Hp.
      destruct (set3_spec _ _ _ _ (nxt n i) k (d - j) p B ltac:(lia) ltac:(lia) ltac:(apply lay_le; exact J2)) as (a' & E' & B' & G').
      rewrite E'. cbn [bind]. exists (withNets g a'). split; [reflexivity|]. split; [apply shaped_with; assumption|].
      do 3 (split; [reflexivity|]). split; intros [[i' j'] k'] Q; unfold getp, controlPoint; cbn [gb_nets withNets]; rewrite G'; intros X.
      * destruct (pos_eq_dec _ _) as [_|N1]; [reflexivity|]. rewrite G. destruct (pos_eq_dec _ _) as [_|N2]; [reflexivity|].
        exfalso. destruct X as [X|[X|X]]; [congruence| |].
        -- destruct (mirror_inv _ _ _ _ _ _ X Q Hi) as [Y _]. lia.
        -- destruct (mirror_inv2 _ _ _ _ _ _ X Q R) as [_ Y]. congruence.
      * destruct (pos_eq_dec _ _) as [Y|N1].
        -- exfalso. apply X. right; right. rewrite Y. pose proof (mirror_prv n d (nxt n i) k (d - j) Hp ltac:(lia)) as M.
           rewrite prv_nxt in M by lia. replace (d - (d - j))%nat with j in M by lia. exact M.
        -- rewrite G. destruct (pos_eq_dec _ _) as [Y|N2]; [exfalso; apply X; left; congruence|reflexivity].
    + assert (NJ2 : ~ (2 * (d - j) + 1 <= d)%nat) by (intros Y; apply lay_le in Y; lia).
      cbn [bind]. exists (withNets g a). split; [reflexivity|]. split; [apply shaped_with; assumption|].
      do 3 (split; [reflexivity|]). split; intros [[i' j'] k'] Q; unfold getp, controlPoint; cbn [gb_nets withNets]; rewrite G; intros X.
      * destruct (pos_eq_dec _ _) as [_|N2]; [reflexivity|].
        exfalso. destruct X as [X|[X|X]]; [congruence| |].
        -- destruct (mirror_inv _ _ _ _ _ _ X Q Hi) as [Y _]. lia.
        -- destruct (mirror_inv2 _ _ _ _ _ _ X Q R) as [Y _]. lia.
      * destruct (pos_eq_dec _ _) as [Y|N2]; [exfalso; apply X; left; congruence|reflexivity].
Qed.

Lemma set_none : forall n d g i j k p, shaped n d g -> ~ inRange n d (i, j, k) -> setControlPoint g i j k p = None.
Proof.
  intros n d g i j k p S R. pose proof (getp_none n d g _ S R) as N. unfold setControlPoint, set3. cbn [getp] in N.
  unfold controlPoint, get3 in N. destruct (nth_error (gb_nets g) i) as [x|]; [|reflexivity]. cbn [bind] in *.
  destruct (nth_error x j) as [y|]; [|reflexivity]. cbn [bind] in *.
  rewrite upd_none by (apply nth_error_None; exact N). reflexivity.
Qed.

Lemma one_spec : forall n d g i j k p, shaped n d g -> inRange n d (i, j, k) ->
  exists g', setIndividual g i j k p = Some g' /\ shaped n d g' /\
    gb_cen g' = gb_cen g /\ gb_sq g' = gb_sq g /\ gb_dom g' = gb_dom g /\
    getp g' (i, j, k) = Some p /\ (forall q, (i, j, k) <> q -> getp g' q = getp g q).
Proof.
  intros n d g i j k p S R. pose proof S as (Sn & Sd & Sl & _). pose proof R as (Hi & Hj & Hk).
  destruct (set3_spec _ _ _ _ i j k p (shaped_box n d g S) ltac:(lia) ltac:(lia) ltac:(apply lay_le; exact Hk)) as (a & E & B & G).
  unfold setIndividual. rewrite E. cbn [bind]. exists (withNets g a). split; [reflexivity|]. split; [apply shaped_with; assumption|].
  do 3 (split; [reflexivity|]). split.
  - unfold getp, controlPoint. cbn [gb_nets withNets]. rewrite G. destruct (pos_eq_dec _ _); congruence.
  - intros [[i' j'] k'] N. unfold getp, controlPoint. cbn [gb_nets withNets]. rewrite G. destruct (pos_eq_dec _ _); congruence.
Qed.

Lemma same_dec : forall n d p q, inRange n d p -> inRange n d q -> {same n d p q} + {~ same n d p q}.
Proof.
  intros n d [[i j] k] [[i' j'] k'] R Q.
  destruct (pos_eq_dec (i, j, k) (i', j', k')) as [E|N]; [left; left; exact E|].
  destruct (le_lt_dec (2 * j + 1) d) as [L|L].
  - destruct (pos_eq_dec (i', j', k') (prv n i, d - k, j)%nat) as [E|N2].
    + left. right; left. rewrite E. apply mirror_prv; [exact (proj1 R)|exact L].
    + right. intros [X|[X|X]]; [contradiction| |].
      * destruct (mirror_inv _ _ _ _ _ _ X Q (proj1 R)) as [_ Y]; contradiction.
      * destruct (mirror_inv2 _ _ _ _ _ _ X Q R) as [Y _]. lia.
  - destruct (le_lt_dec (2 * (d - j) + 1) d) as [L2|L2].
    + destruct (pos_eq_dec (i', j', k') (nxt n i, k, d - j)%nat) as [E|N2].
      * left. right; right. rewrite E. simpl in R. pose proof (mirror_prv n d (nxt n i) k (d - j) ltac:(apply nxt_lt; lia) ltac:(lia)) as M.
        rewrite prv_nxt in M by lia. replace (d - (d - j))%nat with j in M by lia. exact M.
      * right. intros [X|[X|X]]; [contradiction| |].
        -- destruct (mirror_inv _ _ _ _ _ _ X Q (proj1 R)) as [Y _]. lia.
        -- destruct (mirror_inv2 _ _ _ _ _ _ X Q R) as [_ Y]; contradiction.
    + right. intros [X|[X|X]]; [contradiction| |].
      * destruct (mirror_inv _ _ _ _ _ _ X Q (proj1 R)) as [Y _]. lia.
      * destruct (mirror_inv2 _ _ _ _ _ _ X Q R) as [Y _]. lia.
Defined.

(** [same] is an equivalence on addresses in range. *)
Lemma same_sym : forall n d p q, same n d p q -> same n d q p.
Proof. intros n d p q [->|[M|M]]; [left; reflexivity|right; right; exact M|right; left; exact M]. Qed.
Lemma same_trans : forall n d p q r, inRange n d p -> inRange n d q -> inRange n d r -> same n d p q -> same n d q r -> same n d p r.
Proof.
  intros n d [[i j] k] [[i1 j1] k1] [[i2 j2] k2] Rp Rq Rr [E|[M|M]] [E'|[M'|M']].
  - left; congruence.
  - rewrite E; right; left; exact M'.
  - rewrite E; right; right; exact M'.
  - rewrite <- E'; right; left; exact M.
  - destruct (mirror_inv _ _ _ _ _ _ M Rq (proj1 Rp)) as [Y Z]. injection Z as -> -> ->.
    destruct (mirror_inv _ _ _ _ _ _ M' Rr (proj1 Rq)) as [Y' _]. simpl in *. lia.
  - destruct (mirror_inv _ _ _ _ _ _ M Rq (proj1 Rp)) as [Y Z]. injection Z as -> -> ->.
    destruct (mirror_inv2 _ _ _ _ _ _ M' Rr Rq) as [_ Z']. simpl in *. rewrite Z'. left. rewrite nxt_prv by lia.
    do 2 f_equal; lia.
  - rewrite <- E'; right; right; exact M.
  - destruct (mirror_inv2 _ _ _ _ _ _ M Rq Rp) as [Y Z]. injection Z as -> -> ->.
    destruct (mirror_inv _ _ _ _ _ _ M' Rr (proj1 Rq)) as [_ Z']. simpl in *. rewrite Z'. left. rewrite prv_nxt by lia. do 2 f_equal; lia.
  - destruct (mirror_inv2 _ _ _ _ _ _ M Rq Rp) as [Y Z]. injection Z as -> -> ->.
    destruct (mirror_inv2 _ _ _ _ _ _ M' Rr Rq) as [Y' _]. simpl in *. lia.
Qed.

Lemma set_consistent : forall n d g i j k p g', shaped n d g -> inRange n d (i, j, k) -> consistent n d g ->
  setControlPoint g i j k p = Some g' -> consistent n d g'.
Proof.
  intros n d g i j k p g' S R C E. destruct (set_spec n d g i j k p S R) as (g2 & E2 & S2 & _ & _ & _ & A & B).
  rewrite E in E2. injection E2 as <-. intros q r Q Q' M.
  destruct (same_dec n d (i, j, k) q R Q) as [Y|N].
  - rewrite (A q Q Y). symmetry. apply A; [exact Q'|]. apply (same_trans n d _ q); try assumption. right; left; exact M.
  - rewrite (B q Q N). rewrite (B r Q'); [apply C; assumption|].
    intros Y. apply N. apply (same_trans n d _ r); try assumption. right; right; exact M.
Qed.

(** ** Histories *)
Lemma step_spec : forall n d g o, shaped n d g -> opOk n d o ->
  exists g', gbstep g o = Some g' /\ shaped n d g' /\ gb_dom g' = gb_dom g /\
    forall q, inRange n d q -> (forall p, writes n d o q p -> getp g' q = Some p) /\
      ((forall p, ~ writes n d o q p) -> getp g' q = getp g q).
Proof.
  intros n d g o S O. destruct o as [[[i j] k] p|[[i j] k] p|p|b]; simpl in O.
  - destruct (set_spec n d g i j k p S O) as (g' & E & S' & _ & _ & D & A & B). exists g'. split; [exact E|]. split; [exact S'|].
    split; [exact D|]. intros q Q. split.
    + intros p' [W ->]. apply A; assumption.
    + intros N. apply B; [exact Q|]. intros W. apply (N p). split; [exact W|reflexivity].
  - destruct (one_spec n d g i j k p S O) as (g' & E & S' & _ & _ & D & A & B). exists g'. split; [exact E|]. split; [exact S'|].
    split; [exact D|]. intros q Q. split.
    + intros p' [W ->]. rewrite <- W. exact A.
    + intros N. apply B. intros W. apply (N p). split; [exact W|reflexivity].
  - exists (setCentral g p). split; [reflexivity|]. split; [exact S|]. split; [reflexivity|]. intros [[i j] k] Q. split; [intros p' []|reflexivity].
  - exists (useSquared g b). split; [reflexivity|]. split; [exact S|]. split; [reflexivity|]. intros [[i j] k] Q. split; [intros p' []|reflexivity].
Qed.

Lemma run_spec : forall n d ops g, shaped n d g -> Forall (opOk n d) ops ->
  exists g', gbrun g ops = Some g' /\ shaped n d g' /\ gb_dom g' = gb_dom g /\
    forall q, inRange n d q ->
      (forall ops1 o ops2 p, ops = ops1 ++ o :: ops2 -> writes n d o q p -> (forall o' p', In o' ops2 -> ~ writes n d o' q p') ->
         getp g' q = Some p) /\
      ((forall o p, In o ops -> ~ writes n d o q p) -> getp g' q = getp g q).
Proof.
  intros n d ops; induction ops as [|o ops IH]; intros g S F.
  - exists g. split; [reflexivity|]. split; [exact S|]. split; [reflexivity|]. intros q Q. split; [|reflexivity].
    intros [|x l] o ops2 p E; discriminate.
  - inversion F as [|o' l O F']; subst. destruct (step_spec n d g o S O) as (g1 & E1 & S1 & D1 & W1).
    destruct (IH g1 S1 F') as (g' & E & S' & D & W). exists g'. unfold gbrun in *. cbn [foldM]. rewrite E1. cbn [bind].
    split; [exact E|]. split; [exact S'|]. split; [congruence|]. intros q Q.
    destruct (W q Q) as [Wa Wb]. destruct (W1 q Q) as [Va Vb]. split.
    + intros [|x ops1] o' ops2 p Eq Wr N; simpl in Eq; injection Eq as <- E2.
      * subst ops2. rewrite Wb by exact N. apply Va; exact Wr.
      * apply (Wa ops1 o' ops2 p E2 Wr N).
    + intros N. rewrite Wb by (intros o' p' I; apply N; right; exact I). apply Vb. intros p. apply N. left; reflexivity.
Qed.

Lemma step_consistent : forall n d g o g', shaped n d g -> opOk n d o -> (forall q p, o <> OSetOne q p) -> consistent n d g ->
  gbstep g o = Some g' -> consistent n d g'.
Proof.
  intros n d g o g' S O N C E. destruct o as [[[i j] k] p|q p|p|b].
  - apply (set_consistent n d g i j k p); assumption.
  - exfalso; apply (N q p); reflexivity.
  - injection E as <-. exact C.
  - injection E as <-. exact C.
Qed.
Lemma run_consistent : forall n d ops g g', shaped n d g -> Forall (opOk n d) ops -> (forall q p, ~ In (OSetOne q p) ops) -> consistent n d g ->
  gbrun g ops = Some g' -> consistent n d g'.
Proof.
  intros n d ops; induction ops as [|o ops IH]; intros g g' S F N C E.
  - injection E as <-. exact C.
  - inversion F as [|o' l O F']; subst. destruct (step_spec n d g o S O) as (g1 & E1 & S1 & _).
    unfold gbrun in E. cbn [foldM] in E. rewrite E1 in E. cbn [bind] in E.
    apply (IH g1 g' S1 F'); [|apply (step_consistent n d g o g1 S O)|exact E]; try assumption.
    + intros q p I. apply (N q p). right; exact I.
    + intros q p ->. apply (N q p). left; reflexivity.
Qed.

(** ** Initialization *)
Lemma repeat_In : forall A (a x : A) n, In x (repeat a n) -> x = a.
Proof. intros A a x n I. apply (repeat_spec n a x I). Qed.
Lemma nth_error_repeat' : forall A (a : A) n i, (i < n)%nat -> nth_error (repeat a n) i = Some a.
Proof. intros A a n; induction n as [|n IH]; intros i H; [lia|]. destruct i; [reflexivity|]. simpl. apply IH; lia. Qed.

Lemma init_new : forall v0 g n d, (gb_n g <> n \/ gb_deg g <> d) ->
  shaped n d (initNetwork v0 g n d) /\ (forall q, inRange n d q -> getp (initNetwork v0 g n d) q = Some v0).
Proof.
  intros v0 g n d H. unfold initNetwork.
  destruct (Nat.eqb_spec n (gb_n g)) as [E1|E1]; [destruct (Nat.eqb_spec d (gb_deg g)) as [E2|E2]|]; cbn [andb].
  1: destruct H; congruence.
  all: split;
    [ split; [reflexivity|]; split; [reflexivity|]; split; [reflexivity|]; cbn [gb_nets]; split; [apply repeat_length|];
      intros x X; apply repeat_In in X; subst x; rewrite repeat_length; split; [reflexivity|];
      intros y Y; apply repeat_In in Y; subst y; apply repeat_length
    | intros [[i j] k] (Hi & Hj & Hk); cbn [getp]; unfold controlPoint, get3; cbn [gb_nets];
      rewrite nth_error_repeat' by exact Hi; cbn [bind]; rewrite nth_error_repeat' by lia; cbn [bind];
      apply nth_error_repeat'; apply lay_le; exact Hk ].
Qed.
Lemma init_same : forall v0 g, initNetwork v0 g (gb_n g) (gb_deg g) = g.
Proof. intros. unfold initNetwork. rewrite !Nat.eqb_refl. reflexivity. Qed.
