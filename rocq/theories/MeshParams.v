(** The parameter lists: which point sits at which index. *)

From Verif Require Import Base MeshModel MeshSpec MeshProofs MeshProofs4 MeshProofsRing MeshEdge.
From Verif Require Import GeomSpec DomainModel.
Open Scope R_scope.

Lemma flat_mapM_total : forall {A B} (f : A -> option (list B)) (g : A -> list B) l,
  (forall a, In a l -> f a = Some (g a)) -> flat_mapM f l = Some (flat_map g l).
Proof.
  intros A B f g l H; unfold flat_mapM. rewrite (mapM_total f g l H). simpl.
  rewrite flat_map_concat_map; reflexivity.
Qed.

(** Position of an element in a concatenation of blocks. *)
Lemma nth_blocks : forall {A} (f : nat -> list A) (st : nat -> nat) m a j k,
  (forall i, (a <= i)%nat -> st (S i) = (st i + length (f i))%nat) ->
  (a <= j < a + m)%nat -> (k < length (f j))%nat ->
  nth_error (flat_map f (seq a m)) (st j - st a + k) = nth_error (f j) k.
Proof.
  intros A f st m; induction m as [|m IH]; intros a j k Hst Hj Hk; [lia|].
  cbn [seq flat_map]. destruct (Nat.eq_dec j a) as [->|E].
  - replace (st a - st a + k)%nat with k by lia. apply nth_error_app1; exact Hk.
  - assert (M : forall i, (S a <= i)%nat -> (st (S a) <= st i)%nat).
    { intros i Hi; induction Hi as [|i Hi IHi]; [lia|]. rewrite (Hst i) by lia. lia. }
    pose proof (M j ltac:(lia)). rewrite (Hst a) in * by lia.
    rewrite nth_error_app2 by lia.
    replace (st j - st a + k - length (f a))%nat with (st j - st (S a) + k)%nat by (rewrite Hst by lia; lia).
    apply IH; [intros; apply Hst; lia|lia|exact Hk].
Qed.

Lemma nth_error_map_seq : forall {A} (f : nat -> A) a m k, (k < m)%nat ->
  nth_error (map f (seq a m)) k = Some (f (a + k)%nat).
Proof.
  intros A f a m k H. rewrite nth_error_map.
  rewrite (nth_error_nth' _ 0%nat) by (rewrite seq_length; exact H).
  rewrite seq_nth by exact H; reflexivity.
Qed.

Lemma vtx_nth : forall vs i, (i < length vs)%nat -> nth_error vs i = Some (vtx vs i).
Proof. intros vs i H; unfold vtx; apply nth_error_nth'; exact H. Qed.

Lemma INR_neq0 : forall r, (1 <= r)%nat -> INR r <> 0.
Proof. intros r H; apply not_0_INR; lia. Qed.

Lemma ratio_some : forall j r, (1 <= r)%nat -> ratio j r = Some (INR j / INR r).
Proof. intros j r H; apply fdiv_some, INR_neq0, H. Qed.

(** *** Three sides *)
Definition pt3 (vs : list V2) (r j k : nat) : V2 :=
  vtx vs 2 *p (1 - INR j / INR r) +p vtx vs 0 *p ((INR j - INR k) / INR r) +p vtx vs 1 *p (INR k / INR r).

Lemma params3_closed : forall vs r, length vs = 3%nat -> (1 <= r)%nat ->
  params3 vs r = Some (flat_map (fun j => map (pt3 vs r j) (seq 0 (j + 1))) (seq 0 (r + 1))).
Proof.
  intros vs r Hl Hr; unfold params3. apply flat_mapM_total; intros j Hj.
  rewrite ratio_some by exact Hr. cbn [bind]. unfold vertex.
  rewrite !vtx_nth by lia. cbn [bind]. apply mapM_total; intros k Hk. apply in_seq in Hk.
  pose proof (INR_neq0 r Hr). destruct (Nat.eqb_spec j 0) as [->|E]; cbn [bind].
  - assert (k = 0)%nat by lia; subst k. f_equal. unfold pt3. simpl INR. v2field; assumption.
  - rewrite ratio_some by lia. cbn [bind]. f_equal. unfold pt3.
    pose proof (INR_neq0 j ltac:(lia)). v2field; auto.
Qed.

Lemma params3_length : forall vs r ps, length vs = 3%nat -> (1 <= r)%nat ->
  params3 vs r = Some ps -> length ps = meshSize 3 r.
Proof.
  intros vs r ps Hl Hr H. rewrite params3_closed in H by assumption. injection H as <-.
  rewrite meshSize3. clear. generalize (pt3 vs r); intros f.
  assert (G : forall m a, length (flat_map (fun j => map (f j) (seq 0 (j + 1))) (seq a m))
    = (tg (a + m) - tg a)%nat).
  { induction m as [|m IH]; intros a; [simpl; rewrite Nat.add_0_r; lia|].
    cbn [seq flat_map]. rewrite app_length, map_length, seq_length, IH.
    replace (S a + m)%nat with (a + S m)%nat by lia.
    assert (tg (S a) <= tg (a + S m))%nat by (apply tg_mono; lia). cbn [tg] in *. lia. }
  rewrite G. replace (0 + (r + 1))%nat with (S r) by lia. cbn [tg]. lia.
Qed.

Lemma params3_nth : forall vs r ps j k, length vs = 3%nat -> (1 <= r)%nat ->
  params3 vs r = Some ps -> (k <= j)%nat -> (j <= r)%nat ->
  nth_error ps (ix3 (j, k)) = Some (pt3 vs r j k).
Proof.
  intros vs r ps j k Hl Hr H Hk Hj. rewrite params3_closed in H by assumption. injection H as <-.
  unfold ix3; cbn [fst snd].
  replace (tg j + k)%nat with (tg j - tg 0 + k)%nat by (cbn [tg]; lia).
  rewrite nth_blocks.
  - apply (nth_error_map_seq _ 0); lia.
  - intros i _; rewrite map_length, seq_length; cbn [tg]; lia.
  - lia.
  - rewrite map_length, seq_length; lia.
Qed.

(** *** Four sides *)
Definition pt4 (vs : list V2) (r j k : nat) : V2 :=
  let u := INR j / INR r in let v := INR k / INR r in
  vtx vs 0 *p ((1 - u) * (1 - v)) +p vtx vs 1 *p (u * (1 - v)) +p vtx vs 2 *p (u * v) +p vtx vs 3 *p ((1 - u) * v).

Lemma params4_closed : forall vs r, length vs = 4%nat -> (1 <= r)%nat ->
  params4 vs r = Some (flat_map (fun j => map (pt4 vs r j) (seq 0 (r + 1))) (seq 0 (r + 1))).
Proof.
  intros vs r Hl Hr; unfold params4. apply flat_mapM_total; intros j Hj.
  rewrite ratio_some by exact Hr. cbn [bind]. unfold vertex.
  rewrite !vtx_nth by lia. cbn [bind]. apply mapM_total; intros k Hk.
  rewrite ratio_some by exact Hr. cbn [bind]. f_equal. unfold pt4. v2ring.
Qed.

Lemma params4_length : forall vs r ps, length vs = 4%nat -> (1 <= r)%nat ->
  params4 vs r = Some ps -> length ps = meshSize 4 r.
Proof.
  intros vs r ps Hl Hr H. rewrite params4_closed in H by assumption. injection H as <-.
  rewrite meshSize4, (flat_map_length_sum _ _ _ _ (r + 1)).
  - rewrite seq_length; reflexivity.
  - intros x _; rewrite map_length, seq_length; reflexivity.
Qed.

Lemma params4_nth : forall vs r ps j k, length vs = 4%nat -> (1 <= r)%nat ->
  params4 vs r = Some ps -> (k <= r)%nat -> (j <= r)%nat ->
  nth_error ps (ix4 r (j, k)) = Some (pt4 vs r j k).
Proof.
  intros vs r ps j k Hl Hr H Hk Hj. rewrite params4_closed in H by assumption. injection H as <-.
  unfold ix4; cbn [fst snd].
  replace (j * (r + 1) + k)%nat with ((fun j => j * (r + 1)) j - (fun j => j * (r + 1)) 0 + k)%nat by lia.
  rewrite (nth_blocks _ (fun j => j * (r + 1)))%nat.
  - apply (nth_error_map_seq _ 0); lia.
  - intros i _; rewrite map_length, seq_length; lia.
  - lia.
  - rewrite map_length, seq_length; lia.
Qed.

(** *** General ring layout, over an arbitrary point function *)
Section RingList.
Context {A : Type} (n : nat) (c : A) (f : nat -> nat -> nat -> A).
Definition ring_block (j : nat) : list A := flat_map (fun k => map (f j k) (seq 0 j)) (seq 0 n).
Definition ring_list (r : nat) : list A := c :: flat_map ring_block (seq 1 r).

Lemma ring_block_length : forall j, length (ring_block j) = (n * j)%nat.
Proof.
  intros j; unfold ring_block. rewrite (flat_map_length_sum _ _ _ _ j).
  - rewrite seq_length; reflexivity.
  - intros; rewrite map_length, seq_length; reflexivity.
Qed.

Lemma ring_list_length : forall r, length (ring_list r) = rs n (S r).
Proof.
  intros r; unfold ring_list; cbn [length].
  assert (G : forall m a, (1 <= a)%nat ->
    length (flat_map ring_block (seq a m)) = (rs n (a + m) - rs n a)%nat).
  { induction m as [|m IH]; intros a Ha; [simpl; rewrite Nat.add_0_r; lia|].
    cbn [seq flat_map]. rewrite app_length, ring_block_length, IH by lia.
    replace (S a + m)%nat with (a + S m)%nat by lia.
    assert (rs n (S a) <= rs n (a + S m))%nat by (apply rs_mono; lia).
    rewrite rs_S in * by lia. lia. }
  rewrite G by lia. pose proof (rs_pos n r). change (rs n 1) with 1%nat. change (1 + r)%nat with (S r). lia.
Qed.

Lemma ring_list_nth : forall r l s v, (1 <= l <= r)%nat -> (s < n)%nat -> (v < l)%nat ->
  nth_error (ring_list r) (rs n l + (s * l + v)) = Some (f l s v).
Proof.
  intros r l s v Hl Hs Hv. unfold ring_list.
  assert (P : (1 <= rs n l)%nat).
  { destruct l as [|l]; [lia|]. apply rs_pos. }
  replace (rs n l + (s * l + v))%nat with (S (rs n l - rs n 1 + (s * l + v))) by (cbn [rs]; lia).
  cbn [nth_error]. rewrite nth_blocks.
  - unfold ring_block.
    replace (s * l + v)%nat with ((fun k => k * l) s - (fun k => k * l) 0 + v)%nat by lia.
    rewrite (nth_blocks _ (fun k => k * l))%nat.
    + apply (nth_error_map_seq _ 0); lia.
    + intros i _; rewrite map_length, seq_length; lia.
    + lia.
    + rewrite map_length, seq_length; lia.
  - intros i Hi; rewrite ring_block_length. apply rs_S; lia.
  - lia.
  - rewrite ring_block_length. nia.
Qed.
End RingList.

(** Point at ring [l], side [s], step [v] (also meaningful for [v = l]). *)
Definition ptR (vs : list V2) (c : V2) (r l s v : nat) : V2 :=
  c +p (vtx vs (prv (length vs) s) -p c) *p ((INR l - INR v) / INR r)
    +p (vtx vs s -p c) *p (INR v / INR r).

Lemma paramsRing_closed : forall vs c r, (1 <= length vs)%nat -> (1 <= r)%nat ->
  paramsRing (length vs) c vs r = Some (ring_list (length vs) c (ptR vs c r) r).
Proof.
  intros vs c r Hl Hr; unfold paramsRing, ring_list.
  rewrite (flat_mapM_total _ (ring_block (length vs) (ptR vs c r))); [reflexivity|].
  intros j Hj; apply in_seq in Hj. rewrite ratio_some by exact Hr. cbn [bind].
  unfold ring_block. apply flat_mapM_total; intros k Hk; apply in_seq in Hk.
  apply mapM_total; intros i Hi; apply in_seq in Hi.
  rewrite ratio_some by lia. cbn [bind]. unfold vertex.
  rewrite !vtx_nth by (try apply prv_lt; lia). cbn [bind]. f_equal.
  pose proof (INR_neq0 r Hr). pose proof (INR_neq0 j ltac:(lia)).
  unfold ptR. v2field; auto.
Qed.

Lemma ptR_wrap : forall vs c r l s, (s < length vs)%nat -> (1 <= length vs)%nat ->
  ptR vs c r l s l = ptR vs c r l (nxt (length vs) s) 0.
Proof.
  intros vs c r l s Hs Hn; unfold ptR. rewrite prv_nxt by exact Hs.
  apply V2_ext; simpl; unfold Rdiv; simpl INR; ring.
Qed.

Lemma ptR_center : forall vs c r s, ptR vs c r 0 s 0 = c.
Proof. intros; unfold ptR; apply V2_ext; simpl; unfold Rdiv; ring. Qed.

(** Any side/step writing of a ring position. *)
Lemma paramsRing_nth : forall vs c r ps l s v, (3 <= length vs)%nat -> (1 <= r)%nat ->
  paramsRing (length vs) c vs r = Some ps -> (l <= r)%nat -> (s < length vs)%nat -> (v <= l)%nat ->
  nth_error ps (ri (length vs) (cpos (length vs) l (s * l + v))) = Some (ptR vs c r l s v).
Proof.
  intros vs c r ps l s v Hn Hr H Hl Hs Hv. rewrite paramsRing_closed in H by lia.
  injection H as <-. set (n := length vs) in *.
  destruct (Nat.eq_dec l 0) as [->|E].
  { assert (v = 0)%nat by lia; subst v.
    rewrite ptR_center. reflexivity. }
  unfold ri, cpos; cbn [fst snd]. destruct (Nat.eq_dec v l) as [->|Ev].
  - rewrite ptR_wrap by (fold n; lia). fold n.
    rewrite (nxt_cases n s) by exact Hs. destruct (Nat.eqb_spec (S s) n) as [En|En].
    + replace (s * l + l)%nat with (n * l)%nat by nia. rewrite red_full, red_0.
      apply (ring_list_nth n c (ptR vs c r) r l 0 0); lia.
    + rewrite red_id by nia. replace (s * l + l)%nat with (S s * l + 0)%nat by nia.
      apply (ring_list_nth n c (ptR vs c r) r l (S s) 0); lia.
  - rewrite red_id by nia. apply (ring_list_nth n c (ptR vs c r) r l s v); lia.
Qed.

Lemma paramsRing_length : forall vs c r ps, (3 <= length vs)%nat -> (1 <= r)%nat ->
  paramsRing (length vs) c vs r = Some ps -> length ps = rs (length vs) (S r).
Proof.
  intros vs c r ps Hn Hr H; rewrite paramsRing_closed in H by lia.
  injection H as <-. apply ring_list_length.
Qed.

(** *** Circle *)
Definition ptC (n r j k i : nat) : V2 :=
  mkV2 (INR j / INR r) ((INR k + INR i / INR j) * 2 * PI / INR n).

Lemma paramsCircle_closed : forall n r, (1 <= n)%nat -> (1 <= r)%nat ->
  parametersImplCircle n r = Some (ring_list n (mkV2 0 0) (ptC n r) r).
Proof.
  intros n r Hn Hr; unfold parametersImplCircle, ring_list.
  rewrite (flat_mapM_total _ (ring_block n (ptC n r))); [reflexivity|].
  intros j Hj; apply in_seq in Hj. rewrite ratio_some by exact Hr. cbn [bind].
  unfold ring_block. apply flat_mapM_total; intros k Hk.
  apply mapM_total; intros i Hi; apply in_seq in Hi.
  rewrite ratio_some by lia. cbn [bind]. rewrite fdiv_some by (apply INR_neq0; lia). reflexivity.
Qed.

Lemma parameters_length : forall n c vs r, (3 <= n)%nat -> (1 <= r)%nat -> length vs = n ->
  exists ps, parametersImpl n c vs r = Some ps /\ length ps = meshSize n r.
Proof.
  intros n c vs r Hn Hr Hl; unfold parametersImpl.
  destruct (Nat.eqb_spec n 3) as [->|H3].
  - eexists; split; [apply params3_closed; assumption|].
    eapply params3_length; [exact Hl|exact Hr|apply params3_closed; assumption].
  - destruct (Nat.eqb_spec n 4) as [->|H4].
    + eexists; split; [apply params4_closed; assumption|].
      eapply params4_length; [exact Hl|exact Hr|apply params4_closed; assumption].
    + subst n. eexists; split; [apply paramsRing_closed; lia|].
      rewrite meshSizeRing by assumption. apply ring_list_length.
Qed.

Lemma parameters_length_circle : forall n r, (1 <= n)%nat -> (1 <= r)%nat ->
  exists ps, parametersImplCircle n r = Some ps /\ length ps = meshSizeCircle n r.
Proof.
  intros n r Hn Hr; eexists; split; [apply paramsCircle_closed; assumption|].
  rewrite meshSizeCircle_rs. apply ring_list_length.
Qed.
