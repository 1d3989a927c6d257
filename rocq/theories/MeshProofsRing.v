(** The general layout: rings around a center.  Ring [l >= 1] has [n*l]
    vertices, numbered from [rs n l]; ring 0 is the center.  The vertex at
    cyclic position [p] of ring [l] has index [ri n (l,p)]. *)

From Verif Require Import Base MeshModel MeshSpec MeshProofs MeshProofs4.
Open Scope nat_scope.

Fixpoint rs (n l : nat) : nat :=
  match l with
  | O => 0
  | S l' => match l' with O => 1 | _ => rs n l' + n * l' end
  end.

Lemma rs_S : forall n l, 1 <= l -> rs n (S l) = rs n l + n * l.
Proof. intros n [|l] H; [lia|reflexivity]. Qed.

Lemma rs_double : forall n l, 2 * rs n (S l) = 2 + n * l * (l + 1).
Proof.
  intros n l; induction l as [|l IH]; [simpl; lia|].
  rewrite rs_S by lia. nia.
Qed.

Lemma rs_mono : forall n l k, l <= k -> rs n l <= rs n k.
Proof.
  intros n l k H; induction H as [|k H IH]; [lia|].
  destruct k as [|k]; [|rewrite rs_S by lia; lia].
  assert (l = 0) by lia; subst; simpl; lia.
Qed.

Lemma half_exact : forall n r, n * r * (r + 1) / 2 = rs n (S r) - 1.
Proof.
  intros n r. pose proof (rs_double n r).
  replace (n * r * (r + 1)) with ((rs n (S r) - 1) * 2) by lia.
  apply Nat.div_mul; lia.
Qed.

Lemma rs_pos : forall n r, 1 <= rs n (S r).
Proof. intros; pose proof (rs_double n r); lia. Qed.

Lemma meshSizeCircle_rs : forall n r, meshSizeCircle n r = rs n (S r).
Proof. intros n r; unfold meshSizeCircle. rewrite half_exact. pose proof (rs_pos n r); lia. Qed.

Lemma meshSizeRing : forall n r, n <> 3 -> n <> 4 -> meshSize n r = rs n (S r).
Proof.
  intros n r H3 H4; unfold meshSize.
  destruct (Nat.eqb_spec n 3); [lia|]. destruct (Nat.eqb_spec n 4); [lia|].
  apply meshSizeCircle_rs.
Qed.

(** Positions reduced into the ring. *)
Definition red (n l p : nat) : nat := if l =? 0 then 0 else p mod (n * l).
Definition cpos (n l p : nat) : nat * nat := (l, red n l p).
Definition ri (n : nat) (c : nat * nat) : nat := rs n (fst c) + snd c.
Definition okR (n r : nat) (c : nat * nat) : Prop :=
  fst c <= r /\ (if fst c =? 0 then snd c = 0 else snd c < n * fst c).

Lemma okR_cpos : forall n r l p, 1 <= n -> l <= r -> okR n r (cpos n l p).
Proof.
  intros n r l p Hn Hl; unfold okR, cpos, red; cbn [fst snd]; split; [exact Hl|].
  destruct (Nat.eqb_spec l 0); [reflexivity|]. apply Nat.mod_upper_bound; nia.
Qed.

Lemma ri_bounds : forall n r c, 1 <= n -> okR n r c -> rs n (fst c) <= ri n c < rs n (S (fst c)).
Proof.
  intros n r [l p] Hn [Hl Hp]; unfold ri; cbn [fst snd] in *.
  destruct l as [|l]; cbn [Nat.eqb] in Hp.
  - subst; simpl; lia.
  - rewrite (rs_S n (S l)) by lia. lia.
Qed.

Lemma ri_inj : forall n r a b, 1 <= n -> okR n r a -> okR n r b -> ri n a = ri n b -> a = b.
Proof.
  intros n r [l p] [l' p'] Hn Ha Hb E.
  pose proof (ri_bounds n r _ Hn Ha) as B1. pose proof (ri_bounds n r _ Hn Hb) as B2.
  cbn [fst] in *. assert (l = l').
  { destruct (Nat.lt_trichotomy l l') as [L|[L|L]]; [|exact L|].
    - assert (rs n (S l) <= rs n l') by (apply rs_mono; lia). lia.
    - assert (rs n (S l') <= rs n l) by (apply rs_mono; lia). lia. }
  subst l'. unfold ri in E; cbn [fst snd] in E. f_equal; lia.
Qed.

Lemma ri_lt : forall n r c, 1 <= n -> okR n r c -> ri n c < rs n (S r).
Proof.
  intros n r c Hn H. pose proof (ri_bounds n r c Hn H). destruct H as [Hl _].
  assert (rs n (S (fst c)) <= rs n (S r)) by (apply rs_mono; lia). lia.
Qed.

Lemma ri_surj : forall n r k, 1 <= n -> k < rs n (S r) -> exists c, okR n r c /\ k = ri n c.
Proof.
  intros n r k Hn; induction r as [|r IH]; intros H.
  - exists (0, 0). unfold okR, ri; simpl in *; lia.
  - destruct (Nat.lt_ge_cases k (rs n (S r))) as [L|L].
    + destruct (IH L) as ([l p] & [Ho1 Ho2] & E); exists (l, p). unfold okR; cbn [fst snd] in *. auto.
    + exists (S r, k - rs n (S r)). rewrite rs_S in H by lia.
      unfold okR, ri; cbn [fst snd Nat.eqb]; lia.
Qed.

Lemma red_id : forall n l p, l <> 0 -> p < n * l -> red n l p = p.
Proof.
  intros n l p Hl Hp; unfold red. destruct (Nat.eqb_spec l 0); [lia|]. apply Nat.mod_small; exact Hp.
Qed.

Lemma red_full : forall n l, red n l (n * l) = red n l 0.
Proof.
  intros n l; unfold red. destruct (Nat.eqb_spec l 0); [reflexivity|].
  destruct (Nat.eq_dec n 0) as [->|E]; [reflexivity|].
  rewrite Nat.mod_same by nia. rewrite Nat.mod_0_l by nia; reflexivity.
Qed.

Lemma red_0 : forall n l, red n l 0 = 0.
Proof. intros n l; unfold red; destruct (Nat.eqb_spec l 0); [reflexivity|]. destruct (n * l); [reflexivity|apply Nat.mod_0_l; lia]. Qed.

(** Triangle [(l,s,v,outer)]. *)
Definition triR_of (n : nat) (x : nat * nat * nat * bool) : tri :=
  let '(l, s, v, outer) := x in
  if outer then (ri n (cpos n (l-1) (s*(l-1) + v)), ri n (cpos n l (s*l + v)), ri n (cpos n l (s*l + v+1)))
  else (ri n (cpos n (l-1) (s*(l-1) + v)), ri n (cpos n l (s*l + v+1)), ri n (cpos n (l-1) (s*(l-1) + v+1))).

Fixpoint idx_while (k l s v : nat) : list (nat * nat * nat * bool) :=
  match k with
  | O => []
  | S k' => if v + 1 =? l then [(l, s, v, true)]
            else (l, s, v, true) :: (l, s, v, false) :: idx_while k' l s (v + 1)
  end.

Definition idx_layer (n l : nat) : list (nat * nat * nat * bool) :=
  flat_map (fun s => idx_while l l s 0) (seq 0 n).

Definition idxR (n r : nat) : list (nat * nat * nat * bool) :=
  flat_map (idx_layer n) (seq 1 r).

Lemma ring_while_closed : forall n l s k v, 1 <= l -> s < n -> v < l -> k = l - v ->
  ring_while k (s =? n - 1) l (ri n (cpos n (l-1) 0)) (rs n l) v
    (ri n (cpos n (l-1) (s*(l-1) + v))) (rs n l + (s*l + v))
  = (map (triR_of n) (idx_while k l s v),
     ri n (cpos n (l-1) (s*(l-1)+(l-1))), rs n l + (s*l+l)).
Proof.
  intros n l s k; induction k as [|k IH]; intros v Hl Hs Hv Hk; [lia|].
  assert (Hsl : s * l + v < n * l) by nia.
  assert (Hout : rs n l + (s*l + v) = ri n (cpos n l (s*l + v))).
  { unfold ri, cpos; cbn [fst snd]. rewrite red_id by lia. reflexivity. }
  assert (Hnext : (if (s =? n - 1) && (v =? l - 1) then rs n l else rs n l + (s*l + v) + 1)
    = ri n (cpos n l (s*l + v+1))).
  { unfold ri, cpos; cbn [fst snd].
    destruct (Nat.eqb_spec s (n - 1)); destruct (Nat.eqb_spec v (l - 1)); cbn [andb].
    - replace (s * l + v + 1) with (n * l) by nia. rewrite red_full, red_0; lia.
    - rewrite red_id by nia; lia.
    - rewrite red_id by nia; lia.
    - rewrite red_id by nia; lia. }
  cbn [ring_while idx_while]. destruct (Nat.eqb_spec (v + 1) l) as [E|E].
  - cbn [map triR_of]. rewrite Hnext, <- Hout.
    replace (s * (l - 1) + v) with (s * (l - 1) + (l - 1)) by lia.
    replace (rs n l + (s * l + v) + 1) with (rs n l + (s * l + l)) by lia. reflexivity.
  - assert (Hin : (if (s =? n - 1) && (v + 1 =? l - 1) then ri n (cpos n (l-1) 0)
        else ri n (cpos n (l-1) (s*(l-1) + v)) + 1) = ri n (cpos n (l-1) (s*(l-1)+(v+1)))).
    { unfold ri, cpos; cbn [fst snd].
      destruct (Nat.eqb_spec s (n - 1)); destruct (Nat.eqb_spec (v + 1) (l - 1)); cbn [andb].
      - replace (s * (l - 1) + (v + 1)) with (n * (l - 1)) by nia. rewrite red_full; reflexivity.
      - rewrite !red_id by nia; lia.
      - rewrite !red_id by nia; lia.
      - rewrite !red_id by nia; lia. }
    rewrite Hin.
    replace (rs n l + (s * l + v) + 1) with (rs n l + (s * l + (v + 1))) in * by lia.
    rewrite IH by lia. cbn [map triR_of].
    rewrite Hnext, <- Hout.
    replace (s * (l - 1) + v + 1) with (s * (l - 1) + (v + 1)) by lia. reflexivity.
Qed.

Lemma ring_sides_closed : forall n l m s, 1 <= l -> s + m = n ->
  ring_sides m n s l (ri n (cpos n (l-1) 0)) (rs n l)
    (ri n (cpos n (l-1) (s*(l-1)))) (rs n l + s * l)
  = (map (triR_of n) (flat_map (fun s => idx_while l l s 0) (seq s m)), rs n l + n * l).
Proof.
  intros n l m; induction m as [|m IH]; intros s Hl Hs.
  - cbn [ring_sides seq flat_map map]. do 2 f_equal. nia.
  - cbn [ring_sides seq flat_map].
    replace (s * (l - 1)) with (s * (l - 1) + 0) at 1 by lia.
    replace (s * l) with (s * l + 0) at 1 by lia.
    rewrite (ring_while_closed n l s l 0) by lia.
    replace (s * (l - 1) + (l - 1)) with ((s + 1) * (l - 1)) by nia.
    replace (s * l + l) with ((s + 1) * l) by nia.
    rewrite IH by lia. rewrite map_app.
    replace (s + 1) with (S s) by lia. reflexivity.
Qed.

Lemma ri_start : forall n l, ri n (cpos n l 0) = rs n l.
Proof. intros n l; unfold ri, cpos; cbn [fst snd]; rewrite red_0; lia. Qed.

Lemma ring_layers_closed : forall n m l, 1 <= l ->
  ring_layers m n l (ri n (cpos n (l-1) 0)) (rs n l)
  = map (triR_of n) (flat_map (idx_layer n) (seq l m)).
Proof.
  intros n m; induction m as [|m IH]; intros l Hl; [reflexivity|].
  cbn [ring_layers seq flat_map].
  replace (ri n (cpos n (l - 1) 0)) with (ri n (cpos n (l-1) (0*(l-1)))) at 2 by (f_equal; lia).
  replace (rs n l) with (rs n l + 0 * l) at 2 by lia.
  rewrite (ring_sides_closed n l n 0) by lia.
  rewrite map_app. unfold idx_layer at 1. f_equal.
  rewrite <- rs_S by lia.
  replace (rs n l) with (ri n (cpos n (l + 1 - 1) 0)).
  - replace (S l) with (l + 1) by lia. rewrite IH by lia. reflexivity.
  - rewrite ri_start. f_equal; lia.
Qed.

Lemma topologyRing_closed : forall n r, topologyRing n r = map (triR_of n) (idxR n r).
Proof.
  intros n r; unfold topologyRing, idxR.
  change 0 with (ri n (cpos n (1 - 1) 0)) at 1. change 1 with (rs n 1) at 3.
  apply ring_layers_closed; lia.
Qed.

(** Membership in the triangle numbering. *)
Lemma in_idx_while : forall k l s v l' s' v' b, k = l - v -> v < l ->
  (In (l', s', v', b) (idx_while k l s v) <->
   l' = l /\ s' = s /\ v <= v' < l /\ (b = false -> v' + 1 < l)).
Proof.
  induction k as [|k IH]; intros l s v l' s' v' b Hk Hv; [lia|].
  cbn [idx_while]. destruct (Nat.eqb_spec (v + 1) l) as [E|E].
  - simpl; split.
    + intros [H|[]]; injection H as <- <- <- <-. repeat split; try lia; discriminate.
    + intros (-> & -> & Hv' & Hb). left. assert (v' = v) by lia. subst.
      destruct b; [reflexivity|]. specialize (Hb eq_refl); lia.
  - simpl. rewrite IH by lia. split.
    + intros [H|[H|H]].
      * injection H as <- <- <- <-. repeat split; try lia.
      * injection H as <- <- <- <-. repeat split; try lia.
      * destruct H as (-> & -> & H & Hb). repeat split; try lia; exact Hb.
    + intros (-> & -> & Hv' & Hb). destruct (Nat.eq_dec v' v) as [->|E'].
      * destruct b; auto.
      * right; right. repeat split; try lia; exact Hb.
Qed.

Lemma in_idxR : forall n r l s v b, In (l, s, v, b) (idxR n r) <->
  1 <= l <= r /\ s < n /\ v < l /\ (b = false -> v + 1 < l).
Proof.
  intros n r l s v b; unfold idxR, idx_layer. rewrite in_flat_map; split.
  - intros (l' & Hl & H). apply in_seq in Hl. apply in_flat_map in H.
    destruct H as (s' & Hs & H). apply in_seq in Hs.
    apply in_idx_while in H; [|lia|lia]. destruct H as (-> & -> & H & Hb). repeat split; try lia; exact Hb.
  - intros (Hl & Hs & Hv & Hb). exists l; split; [apply in_seq; lia|].
    apply in_flat_map; exists s; split; [apply in_seq; lia|].
    apply in_idx_while; [lia|lia|]. repeat split; try lia; exact Hb.
Qed.

Lemma NoDup_idx_while : forall k l s v, k = l - v -> v < l -> NoDup (idx_while k l s v).
Proof.
  induction k as [|k IH]; intros l s v Hk Hv; [lia|].
  cbn [idx_while]. destruct (Nat.eqb_spec (v + 1) l) as [E|E]; [repeat constructor; simpl; tauto|].
  constructor.
  - intros [H|H]; [discriminate|]. apply in_idx_while in H; lia.
  - constructor; [|apply IH; lia]. intros H. apply in_idx_while in H; lia.
Qed.

Lemma NoDup_idxR : forall n r, NoDup (idxR n r).
Proof.
  intros n r; unfold idxR; apply NoDup_flat_map; [apply seq_NoDup| |].
  - intros l Hl; apply in_seq in Hl. unfold idx_layer. apply NoDup_flat_map; [apply seq_NoDup| |].
    + intros s _; apply NoDup_idx_while; lia.
    + intros s s' [[[a b] c] d] _ _ H1 H2. apply in_idx_while in H1, H2; lia.
  - intros l l' [[[a b] c] d] Hl Hl' H1 H2. apply in_seq in Hl, Hl'.
    apply in_flat_map in H1, H2. destruct H1 as (s1 & _ & H1), H2 as (s2 & _ & H2).
    apply in_idx_while in H1, H2; lia.
Qed.

Lemma idx_while_length : forall k l s v, k = l - v -> v < l -> length (idx_while k l s v) + 1 = 2 * k.
Proof.
  induction k as [|k IH]; intros l s v Hk Hv; [lia|].
  cbn [idx_while]. destruct (Nat.eqb_spec (v + 1) l) as [E|E].
  - simpl. lia.
  - cbn [length]. specialize (IH l s (v + 1)). lia.
Qed.

Lemma idxR_length : forall n r, length (idxR n r) = n * (r * r).
Proof.
  intros n r; unfold idxR.
  assert (G : forall m s, 1 <= s -> length (flat_map (idx_layer n) (seq s m)) = n * (m * m + 2 * (s - 1) * m)).
  { induction m as [|m IH]; intros s Hs; [simpl; lia|].
    cbn [seq flat_map]. rewrite app_length, IH by lia.
    assert (Hr : length (idx_layer n s) = n * (2 * s - 1)).
    { unfold idx_layer; rewrite (flat_map_length_sum _ _ _ _ (2 * s - 1)).
      - rewrite seq_length; reflexivity.
      - intros x _. pose proof (idx_while_length s s x 0); lia. }
    rewrite Hr. nia. }
  rewrite G by lia. f_equal; lia.
Qed.

(** Edges in ring coordinates. *)
Definition cedgesR (n : nat) (x : nat * nat * nat * bool) : list ((nat * nat) * (nat * nat)) :=
  let '(l, s, v, outer) := x in
  if outer then
    [ (cpos n (l-1) (s*(l-1) + v), cpos n l (s*l + v));
      (cpos n l (s*l + v), cpos n l (s*l + v+1));
      (cpos n l (s*l + v+1), cpos n (l-1) (s*(l-1) + v)) ]
  else
    [ (cpos n (l-1) (s*(l-1) + v), cpos n l (s*l + v+1));
      (cpos n l (s*l + v+1), cpos n (l-1) (s*(l-1) + v+1));
      (cpos n (l-1) (s*(l-1) + v+1), cpos n (l-1) (s*(l-1) + v)) ].

(** Positions of ring vertices as natural numbers. *)
Lemma red_S : forall n l p, l <> 0 -> p < n * l -> red n l (p + 1) = if p + 1 =? n * l then 0 else p + 1.
Proof. intros n l p Hl Hp; unfold red. destruct (Nat.eqb_spec l 0); [lia|]. apply succ_mod; exact Hp. Qed.

Ltac redS H := rewrite red_S in H by nia.

Lemma cpos_eq : forall n l p l' p', cpos n l p = cpos n l' p' -> l = l' /\ red n l p = red n l p'.
Proof. intros n l p l' p' H; unfold cpos in H; injection H as -> H; auto. Qed.

(** A position of ring [l] is side * l + offset. *)
Lemma pos_unique : forall l s v s' v', v < l -> v' < l -> s * l + v = s' * l + v' -> s = s' /\ v = v'.
Proof. intros; apply (euclid_unique l); assumption. Qed.

Lemma pos_lt : forall n l s v, s < n -> v < l -> s * l + v < n * l.
Proof. intros; nia. Qed.

Section RingEdges.
Variables (n r : nat).
Hypothesis Hn : 3 <= n.

Lemma red_pos : forall l s v, s < n -> v < l -> red n l (s * l + v) = s * l + v.
Proof. intros l s v Hs Hv; apply red_id; [lia|nia]. Qed.

Lemma red_pos_S : forall l s v, s < n -> v < l ->
  red n l (s * l + v + 1) = if s * l + v + 1 =? n * l then 0 else s * l + v + 1.
Proof. intros l s v Hs Hv; apply red_S; [lia|nia]. Qed.

Lemma red_S_inj : forall l p q, p < n * l -> q < n * l -> red n l (p + 1) = red n l (q + 1) -> p = q.
Proof.
  intros l p q Hp Hq E. assert (l <> 0) by (intros ->; lia).
  rewrite !red_S in E by assumption.
  destruct (Nat.eqb_spec (p + 1) (n * l)); destruct (Nat.eqb_spec (q + 1) (n * l)); lia.
Qed.

Lemma red_S_neq : forall l p, l <> 0 -> p < n * l -> red n l (p + 1) <> red n l p.
Proof.
  intros l p Hl Hp. rewrite red_S, red_id by assumption.
  destruct (Nat.eqb_spec (p + 1) (n * l)); nia.
Qed.

Lemma red_S2_neq : forall l p q, l <> 0 -> p < n * l -> q < n * l ->
  red n l (p + 1) = q -> red n l (q + 1) = p -> False.
Proof.
  intros l p q Hl Hp Hq. rewrite !red_S by assumption.
  destruct (Nat.eqb_spec (p + 1) (n * l)); destruct (Nat.eqb_spec (q + 1) (n * l)); nia.
Qed.

Definition validR (x : nat * nat * nat * bool) : Prop :=
  let '(l, s, v, b) := x in 1 <= l /\ s < n /\ v < l /\ (b = false -> v + 1 < l).

Lemma cedgesR_inj : forall x y e, validR x -> validR y ->
  In e (cedgesR n x) -> In e (cedgesR n y) -> x = y.
Proof.
  intros [[[l s] v] b] [[[l' s'] v'] b'] e Hx Hy H1 H2.
  unfold validR in Hx, Hy.
  destruct b, b'; simpl in H1, H2.
  - (* outer, outer *)
    destruct H1 as [<-|[<-|[<-|[]]]]; destruct H2 as [H2|[H2|[H2|[]]]];
      apply pair_equal_spec in H2; destruct H2 as [Ea Eb];
      apply cpos_eq in Ea; apply cpos_eq in Eb;
      destruct Ea as [El Ea], Eb as [El' Eb]; try (exfalso; lia).
    + assert (l' = l) by lia; subst l'. rewrite !red_pos in Eb by lia.
      apply pos_unique in Eb; [|lia|lia]. destruct Eb; subst; reflexivity.
    + subst l'. rewrite !red_pos in Ea by lia.
      apply pos_unique in Ea; [|lia|lia]. destruct Ea; subst; reflexivity.
    + subst l'. apply red_S_inj in Ea; [|apply pos_lt; lia|apply pos_lt; lia].
      apply pos_unique in Ea; [|lia|lia]. destruct Ea; subst; reflexivity.
  - (* outer, inner *)
    assert (Hv' : v' + 1 < l') by (apply Hy; reflexivity).
    destruct H1 as [<-|[<-|[<-|[]]]]; destruct H2 as [H2|[H2|[H2|[]]]];
      apply pair_equal_spec in H2; destruct H2 as [Ea Eb];
      apply cpos_eq in Ea; apply cpos_eq in Eb;
      destruct Ea as [El Ea], Eb as [El' Eb]; try (exfalso; lia).
    + exfalso. assert (l' = l) by lia; subst l'.
      rewrite <- Nat.add_assoc in Eb. rewrite !red_pos in Eb by lia.
      apply pos_unique in Eb; [|lia|lia]. destruct Eb as [-> Ev].
      replace (s * (l - 1) + v) with (s * (l - 1) + v' + 1) in Ea by lia.
      symmetry in Ea. apply red_S_neq in Ea; [exact Ea|lia|apply pos_lt; lia].
    + exfalso. subst l.
      rewrite !red_pos in Eb by lia. rewrite !red_pos in Ea by lia.
      apply (red_S2_neq (l' - 1) (s * (l' - 1) + v) (s' * (l' - 1) + v'));
        [lia|apply pos_lt; lia|apply pos_lt; lia| |].
      * symmetry; exact Eb.
      * exact Ea.
    + exfalso. assert (l' = l) by lia; subst l'.
      apply red_S_inj in Ea; [|apply pos_lt; lia|apply pos_lt; lia].
      apply pos_unique in Ea; [|lia|lia]. destruct Ea as [-> ->].
      apply red_S_neq in Eb; [exact Eb|lia|apply pos_lt; lia].
  - (* inner, outer *)
    assert (Hv : v + 1 < l) by (apply Hx; reflexivity).
    destruct H1 as [<-|[<-|[<-|[]]]]; destruct H2 as [H2|[H2|[H2|[]]]];
      apply pair_equal_spec in H2; destruct H2 as [Ea Eb];
      apply cpos_eq in Ea; apply cpos_eq in Eb;
      destruct Ea as [El Ea], Eb as [El' Eb]; try (exfalso; lia).
    + exfalso. assert (l' = l) by lia; subst l'.
      rewrite <- Nat.add_assoc in Eb. rewrite !red_pos in Eb by lia.
      apply pos_unique in Eb; [|lia|lia]. destruct Eb as [-> Ev].
      replace (s * (l - 1) + v') with (s * (l - 1) + v + 1) in Ea by lia.
      apply red_S_neq in Ea; [exact Ea|lia|apply pos_lt; lia].
    + exfalso. assert (l' = l) by lia; subst l'.
      apply red_S_inj in Ea; [|apply pos_lt; lia|apply pos_lt; lia].
      apply pos_unique in Ea; [|lia|lia]. destruct Ea as [-> ->].
      symmetry in Eb. apply red_S_neq in Eb; [exact Eb|lia|apply pos_lt; lia].
    + exfalso. subst l'.
      rewrite !red_pos in Eb by lia. rewrite !red_pos in Ea by lia.
      apply (red_S2_neq (l - 1) (s' * (l - 1) + v') (s * (l - 1) + v));
        [lia|apply pos_lt; lia|apply pos_lt; lia| |].
      * exact Eb.
      * symmetry; exact Ea.
  - (* inner, inner *)
    assert (Hv : v + 1 < l) by (apply Hx; reflexivity).
    assert (Hv' : v' + 1 < l') by (apply Hy; reflexivity).
    destruct H1 as [<-|[<-|[<-|[]]]]; destruct H2 as [H2|[H2|[H2|[]]]];
      apply pair_equal_spec in H2; destruct H2 as [Ea Eb];
      apply cpos_eq in Ea; apply cpos_eq in Eb;
      destruct Ea as [El Ea], Eb as [El' Eb]; try (exfalso; lia).
    + assert (l' = l) by lia; subst l'. apply red_S_inj in Eb; [|apply pos_lt; lia|apply pos_lt; lia].
      apply pos_unique in Eb; [|lia|lia]. destruct Eb; subst; reflexivity.
    + assert (l' = l) by lia; subst l'. apply red_S_inj in Ea; [|apply pos_lt; lia|apply pos_lt; lia].
      apply pos_unique in Ea; [|lia|lia]. destruct Ea; subst; reflexivity.
    + assert (l' = l) by lia; subst l'. rewrite !red_pos in Eb by lia.
      apply pos_unique in Eb; [|lia|lia]. destruct Eb; subst; reflexivity.
Qed.

Lemma cedgesR_NoDup : forall x, validR x -> NoDup (cedgesR n x).
Proof.
  intros [[[l s] v] b] (Hl & Hs & Hv & Hb).
  destruct b; simpl; repeat constructor; simpl; unfold cpos; intros H;
    repeat (destruct H as [H|H]; [injection H; intros; lia|]); exact H.
Qed.

Lemma validR_in : forall x, In x (idxR n r) <-> validR x /\ fst (fst (fst x)) <= r.
Proof. intros [[[l s] v] b]; rewrite in_idxR; unfold validR; cbn [fst]; tauto. Qed.

Lemma cedgesR_ok : forall x e, In x (idxR n r) -> In e (cedgesR n x) ->
  okR n r (fst e) /\ okR n r (snd e).
Proof.
  intros [[[l s] v] b] e Hx He. apply in_idxR in Hx.
  destruct b; simpl in He; destruct He as [<-|[<-|[<-|[]]]]; cbn [fst snd];
    split; apply okR_cpos; lia.
Qed.

Lemma manifoldR : oriented_manifold (topologyRing n r).
Proof.
  rewrite topologyRing_closed.
  apply (gen_manifold _ _ (idxR n r) (triR_of n) (cedgesR n) (okR n r) (ri n)).
  - intros [[[l s] v] [|]] _; reflexivity.
  - apply cedgesR_ok.
  - intros a b; apply ri_inj; lia.
  - intros x Hx; apply validR_in in Hx; apply cedgesR_NoDup; tauto.
  - intros x y e Hx Hy. apply validR_in in Hx, Hy. apply cedgesR_inj; tauto.
  - apply NoDup_idxR.
Qed.

Lemma cpos_neq : forall l p q, l <> 0 -> p < n * l -> q < n * l -> p <> q -> cpos n l p <> cpos n l q.
Proof. intros l p q Hl Hp Hq H E. apply cpos_eq in E. rewrite !red_id in E by assumption. lia. Qed.

Lemma properR : forall t, In t (topologyRing n r) -> proper_triangle (rs n (S r)) t.
Proof.
  intros t H. rewrite topologyRing_closed in H. apply in_map_iff in H.
  destruct H as ([[[l s] v] b] & <- & H). apply in_idxR in H. destruct H as (Hl & Hs & Hv & Hb).
  assert (L : forall k p, k <= r -> ri n (cpos n k p) < rs n (S r)).
  { intros k p Hk; apply ri_lt; [lia|apply okR_cpos; lia]. }
  assert (N : forall k p k' p', k <= r -> k' <= r -> cpos n k p <> cpos n k' p' ->
    ri n (cpos n k p) <> ri n (cpos n k' p')).
  { intros k p k' p' Hk Hk' Hne E. apply Hne, (ri_inj n r); try apply okR_cpos; try lia; exact E. }
  assert (D : forall k p k' p', k <> k' -> cpos n k p <> cpos n k' p') by (unfold cpos; congruence).
  assert (S1 : cpos n l (s * l + v) <> cpos n l (s * l + v + 1)).
  { intros E; apply cpos_eq in E; destruct E as [_ E]; symmetry in E.
    apply red_S_neq in E; [exact E|lia|apply pos_lt; lia]. }
  destruct b; cbn [triR_of proper_triangle].
  - repeat split; try (apply L; lia); apply N; try lia; try (apply D; lia); exact S1.
  - specialize (Hb eq_refl).
    repeat split; try (apply L; lia); apply N; try lia; try (apply D; lia).
    intros E; apply cpos_eq in E; destruct E as [_ E].
    apply red_S_neq in E; [exact E|lia|apply pos_lt; lia].
Qed.

Definition bndR (e : (nat * nat) * (nat * nat)) : Prop :=
  exists p, p < n * r /\ e = (cpos n r p, cpos n r (p + 1)).

Lemma pos_decompose : forall l p, p < n * l -> exists s v, s < n /\ v < l /\ p = s * l + v.
Proof.
  intros l p H. assert (l <> 0) by (intros ->; lia).
  exists (p / l), (p mod l). split; [apply Nat.div_lt_upper_bound; lia|].
  split; [apply Nat.mod_upper_bound; lia|]. rewrite Nat.mul_comm. apply Nat.div_mod; lia.
Qed.

Lemma cpos_wrap : forall l s, l <> 0 -> s < n -> cpos n l ((s + 1) * l) = cpos n l ((if s + 1 =? n then 0 else s + 1) * l).
Proof.
  intros l s Hl Hs. destruct (Nat.eqb_spec (s + 1) n) as [->|E]; [|reflexivity].
  unfold cpos; rewrite red_full. f_equal.
Qed.

Lemma cpos_zero : forall p q, cpos n 0 p = cpos n 0 q.
Proof. reflexivity. Qed.

Lemma cflipR_none : forall y e, In y (idxR n r) -> bndR e -> ~ In (flip2 e) (cedgesR n y).
Proof.
  intros [[[l s] v] b] e Hy (p & Hp & ->) Hf. apply in_idxR in Hy. destruct Hy as (Hl & Hs & Hv & Hb).
  assert (Hr0 : r <> 0) by (intros ->; lia).
  unfold flip2 in Hf; cbn [fst snd] in Hf.
  destruct b; simpl in Hf; destruct Hf as [Hf|[Hf|[Hf|[]]]];
    apply pair_equal_spec in Hf; destruct Hf as [Ea Eb]; apply cpos_eq in Ea; apply cpos_eq in Eb;
    destruct Ea as [El Ea], Eb as [El' Eb]; try lia.
  subst l. rewrite red_pos in Ea by lia. rewrite (red_id n r p) in Eb by assumption.
  apply (red_S2_neq r (s * r + v) p); [assumption|apply pos_lt; lia|assumption|exact Eb|symmetry; exact Ea].
Qed.

Lemma cflipR_some : forall x e, In x (idxR n r) -> In e (cedgesR n x) ->
  bndR e \/ exists y, In y (idxR n r) /\ In (flip2 e) (cedgesR n y).
Proof.
  intros [[[l s] v] b] e Hx He. apply in_idxR in Hx. destruct Hx as (Hl & Hs & Hv & Hb).
  destruct b; simpl in He.
  - destruct He as [<-|[<-|[<-|[]]]]; unfold flip2; cbn [fst snd].
    + (* in -> out of an outer triangle *)
      right. destruct v as [|v].
      * (* previous side, last outer triangle *)
        exists (l, (if s =? 0 then n - 1 else s - 1), l - 1, true).
        split; [apply in_idxR; destruct (Nat.eqb_spec s 0); lia|].
        simpl. right; right; left. destruct (Nat.eqb_spec s 0) as [->|E].
        -- rewrite !Nat.add_0_r, !Nat.mul_0_l.
           replace ((n - 1) * l + (l - 1) + 1) with (n * l) by nia.
           replace ((n - 1) * (l - 1) + (l - 1)) with (n * (l - 1)) by nia.
           unfold cpos; rewrite !red_full; reflexivity.
        -- rewrite !Nat.add_0_r.
           replace ((s - 1) * l + (l - 1) + 1) with (s * l) by nia.
           replace ((s - 1) * (l - 1) + (l - 1)) with (s * (l - 1)) by nia. reflexivity.
      * exists (l, s, v, false). split; [apply in_idxR; lia|].
        simpl. right; left. replace (v + 1) with (S v) by lia. 
        replace (s * l + v + 1) with (s * l + S v) by lia.
        replace (s * (l - 1) + v + 1) with (s * (l - 1) + S v) by lia. reflexivity.
    + (* ring edge *)
      destruct (Nat.eq_dec l r) as [->|E].
      * left; exists (s * r + v); split; [apply pos_lt; lia|reflexivity].
      * right; exists (l + 1, s, v, false). split; [apply in_idxR; lia|].
        simpl. right; right; left. replace (l + 1 - 1) with l by lia. reflexivity.
    + (* out -> in *)
      right. destruct (Nat.eq_dec (v + 1) l) as [E|E].
      * exists (l, (if s + 1 =? n then 0 else s + 1), 0, true).
        split; [apply in_idxR; destruct (Nat.eqb_spec (s + 1) n); lia|].
        simpl. left. rewrite !Nat.add_0_r. rewrite <- (cpos_wrap l) by lia.
        replace (s * l + v + 1) with ((s + 1) * l) by nia.
        apply (f_equal2 pair); [|reflexivity].
        destruct (Nat.eq_dec (l - 1) 0) as [E0|E0]; [rewrite E0; apply cpos_zero|].
        rewrite <- cpos_wrap by lia. f_equal; nia.
      * exists (l, s, v, false). split; [apply in_idxR; lia|]. simpl. left; reflexivity.
  - specialize (Hb eq_refl).
    destruct He as [<-|[<-|[<-|[]]]]; unfold flip2; cbn [fst snd]; right.
    + exists (l, s, v, true). split; [apply in_idxR; repeat split; try lia; discriminate|]. simpl. auto.
    + exists (l, s, v + 1, true). split; [apply in_idxR; repeat split; try lia; discriminate|]. simpl.
      left. rewrite !Nat.add_assoc. reflexivity.
    + exists (l - 1, s, v, true). split; [apply in_idxR; repeat split; try lia; discriminate|]. simpl.
      right; left; reflexivity.
Qed.

Lemma bndR_is_edge : forall e, bndR e -> exists x, In x (idxR n r) /\ In e (cedgesR n x).
Proof.
  intros e (p & Hp & ->). destruct (pos_decompose r p Hp) as (s & v & Hs & Hv & ->).
  exists (r, s, v, true). split; [apply in_idxR; repeat split; try lia; discriminate|]. simpl; auto.
Qed.

Lemma bndR_loop : forall e, bndR e <->
  exists p, p < n * r /\ e = (cpos n r p, cpos n r ((p + 1) mod (n * r))).
Proof.
  intros e; unfold bndR.
  assert (G : forall p, p < n * r -> cpos n r (p + 1) = cpos n r ((p + 1) mod (n * r))).
  { intros p Hp. unfold cpos, red. destruct (Nat.eqb_spec r 0); [reflexivity|].
    rewrite Nat.mod_mod by nia. reflexivity. }
  split; intros (p & Hp & ->); exists p; split; try exact Hp; rewrite G by exact Hp; reflexivity.
Qed.

Lemma boundaryR : boundary_loop (topologyRing n r) (n * r) (fun p => ri n (cpos n r p)).
Proof.
  rewrite topologyRing_closed.
  apply (gen_boundary _ _ (idxR n r) (triR_of n) (cedgesR n) (okR n r) (ri n)) with (bnd := bndR).
  - intros [[[l s] v] [|]] _; reflexivity.
  - apply cedgesR_ok.
  - intros a b; apply ri_inj; lia.
  - apply cflipR_none.
  - apply cflipR_some.
  - apply bndR_is_edge.
  - apply bndR_loop.
  - intros p Hp; apply okR_cpos; lia.
  - intros p q Hp Hq E. apply cpos_eq in E. destruct E as [_ E].
    assert (r <> 0) by (intros ->; lia). rewrite !red_id in E by assumption. exact E.
Qed.

End RingEdges.
