(** The quadrangular layout: vertex [(i,j)], [i,j <= r], has index
    [i * (r+1) + j]. *)

From Verif Require Import Base MeshModel MeshSpec MeshProofs.
Open Scope nat_scope.

Definition ix4 (r : nat) (c : nat * nat) : nat := fst c * (r + 1) + snd c.
Definition ok4 (r : nat) (c : nat * nat) : Prop := fst c <= r /\ snd c <= r.

Lemma euclid_unique : forall m a b c d, b < m -> d < m -> a * m + b = c * m + d -> a = c /\ b = d.
Proof.
  intros m a b c d Hb Hd E.
  assert (a = c) by (destruct (Nat.lt_trichotomy a c) as [L|[L|L]]; nia). subst; lia.
Qed.

Lemma ix4_inj : forall r a b, ok4 r a -> ok4 r b -> ix4 r a = ix4 r b -> a = b.
Proof.
  intros r [a1 a2] [b1 b2] [H1 H2] [H3 H4] E; unfold ix4 in E; cbn [fst snd] in *.
  apply euclid_unique in E; [|lia|lia]. destruct E; subst; reflexivity.
Qed.

Definition tri4_of (r : nat) (x : nat * nat * bool) : tri :=
  let '(i, j, lower) := x in
  if lower then (ix4 r (i, j), ix4 r (i + 1, j), ix4 r (i, j + 1))
  else (ix4 r (i, j + 1), ix4 r (i + 1, j), ix4 r (i + 1, j + 1)).

Definition idx4 (r : nat) : list (nat * nat * bool) :=
  flat_map (fun i => flat_map (fun j => [(i, j, true); (i, j, false)]) (seq 0 r)) (seq 0 r).

Lemma topology4_closed : forall r, topology4 r = map (tri4_of r) (idx4 r).
Proof.
  intros r; unfold topology4, idx4. rewrite map_flat_map.
  apply flat_map_ext_in; intros i _. rewrite map_flat_map.
  apply flat_map_ext_in; intros j _. simpl. unfold ix4; cbn [fst snd]. teq.
Qed.

Lemma in_idx4 : forall r i j b, In (i, j, b) (idx4 r) <-> i < r /\ j < r.
Proof.
  intros r i j b; unfold idx4; rewrite in_flat_map; split.
  - intros (i' & Hi & H); apply in_flat_map in H; destruct H as (j' & Hj & H).
    apply in_seq in Hi; apply in_seq in Hj. simpl in H.
    destruct H as [H|[H|[]]]; injection H as <- <- <-; lia.
  - intros [Hi Hj]; exists i; split; [apply in_seq; lia|]. apply in_flat_map; exists j.
    split; [apply in_seq; lia|]. destruct b; simpl; auto.
Qed.

Lemma NoDup_idx4 : forall r, NoDup (idx4 r).
Proof.
  intros r; unfold idx4; apply NoDup_flat_map; [apply seq_NoDup| |].
  - intros i _; apply NoDup_flat_map; [apply seq_NoDup| |].
    + intros x _; repeat constructor; simpl; intuition discriminate.
    + intros x y b _ _ Hx Hy; simpl in *. destruct Hx as [<-|[<-|[]]]; destruct Hy as [H|[H|[]]]; congruence.
  - intros x y b _ _ Hx Hy. apply in_flat_map in Hx, Hy.
    destruct Hx as (j & _ & Hx), Hy as (j' & _ & Hy). simpl in *.
    destruct Hx as [<-|[<-|[]]]; destruct Hy as [H|[H|[]]]; congruence.
Qed.

Lemma idx4_length : forall r, length (idx4 r) = 2 * (r * r).
Proof.
  intros r; unfold idx4. rewrite (flat_map_length_sum _ _ _ _ (r * 2)).
  - rewrite seq_length; lia.
  - intros x _. rewrite (flat_map_length_sum _ _ _ _ 2) by reflexivity. rewrite seq_length; lia.
Qed.

Definition cedges4 (x : nat * nat * bool) : list ((nat * nat) * (nat * nat)) :=
  let '(i, j, lower) := x in
  if lower then [((i, j), (i+1, j)); ((i+1, j), (i, j+1)); ((i, j+1), (i, j))]
  else [((i, j+1), (i+1, j)); ((i+1, j), (i+1, j+1)); ((i+1, j+1), (i, j+1))].

Lemma cedges4_inj : forall x y e, In e (cedges4 x) -> In e (cedges4 y) -> x = y.
Proof.
  intros [[i j] up] [[i' j'] up'] e H1 H2.
  destruct up, up'; simpl in H1, H2;
    destruct H1 as [<-|[<-|[<-|[]]]]; destruct H2 as [H2|[H2|[H2|[]]]];
    injection H2; intros; first [exfalso; lia | teq].
Qed.

Lemma cedges4_NoDup : forall x, NoDup (cedges4 x).
Proof.
  intros [[i j] [|]]; simpl; repeat constructor; simpl;
    intros H; repeat (destruct H as [H|H]; [injection H; lia|]); exact H.
Qed.

Lemma cedges4_ok : forall r x e, In x (idx4 r) -> In e (cedges4 x) -> ok4 r (fst e) /\ ok4 r (snd e).
Proof.
  intros r [[i j] b] e Hx He. apply in_idx4 in Hx. unfold ok4.
  destruct b; simpl in He; destruct He as [<-|[<-|[<-|[]]]]; cbn [fst snd]; lia.
Qed.

Lemma manifold4 : forall r, oriented_manifold (topology4 r).
Proof.
  intros r; rewrite topology4_closed.
  apply (gen_manifold _ _ (idx4 r) (tri4_of r) cedges4 (ok4 r) (ix4 r)).
  - intros [[i j] [|]] _; reflexivity.
  - apply cedges4_ok.
  - apply ix4_inj.
  - intros; apply cedges4_NoDup.
  - intros x y e _ _; apply cedges4_inj.
  - apply NoDup_idx4.
Qed.

Lemma meshSize4 : forall r, meshSize 4 r = (r + 1) * (r + 1).
Proof. reflexivity. Qed.

Lemma proper4 : forall r t, In t (topology4 r) -> proper_triangle (meshSize 4 r) t.
Proof.
  intros r t H. rewrite topology4_closed in H. apply in_map_iff in H.
  destruct H as ([[i j] b] & <- & H). apply in_idx4 in H. destruct H as (Hi & Hj).
  rewrite meshSize4.
  destruct b; unfold tri4_of, proper_triangle, ix4; cbn [fst snd]; repeat split; nia.
Qed.

Definition loop4 (r p : nat) : nat * nat :=
  if p <=? r then (p, 0) else if p <=? 2 * r then (r, p - r)
  else if p <=? 3 * r then (3 * r - p, r) else (0, 4 * r - p).

Lemma loop4_ok : forall r p, p < 4 * r -> ok4 r (loop4 r p).
Proof.
  intros r p H; unfold loop4, ok4. destruct (Nat.leb_spec p r); [cbn; lia|].
  destruct (Nat.leb_spec p (2 * r)); [cbn [fst snd]; lia|].
  destruct (Nat.leb_spec p (3 * r)); cbn [fst snd]; lia.
Qed.

Lemma loop4_inj : forall r p q, p < 4 * r -> q < 4 * r -> loop4 r p = loop4 r q -> p = q.
Proof.
  intros r p q Hp Hq E. assert (E1 := f_equal fst E). assert (E2 := f_equal snd E). revert E1 E2.
  unfold loop4. destruct (Nat.leb_spec p r); destruct (Nat.leb_spec q r);
    destruct (Nat.leb_spec p (2 * r)); destruct (Nat.leb_spec q (2 * r));
    destruct (Nat.leb_spec p (3 * r)); destruct (Nat.leb_spec q (3 * r)); cbn [fst snd]; lia.
Qed.

Definition bnd4 (r : nat) (e : (nat * nat) * (nat * nat)) : Prop :=
  let '((a, b), (c, d)) := e in
  (b = 0 /\ d = 0 /\ c = a + 1 /\ a < r) \/
  (a = r /\ c = r /\ d = b + 1 /\ b < r) \/
  (b = r /\ d = r /\ a = c + 1 /\ c < r) \/
  (a = 0 /\ c = 0 /\ b = d + 1 /\ d < r).

Lemma bnd4_loop : forall r e, bnd4 r e <->
  exists p, p < 4 * r /\ e = (loop4 r p, loop4 r ((p + 1) mod (4 * r))).
Proof.
  intros r [[a b] [c d]]; split.
  - intros H.
    assert (G : exists p, p < 4 * r /\ loop4 r p = (a, b) /\
      loop4 r (if p + 1 =? 4 * r then 0 else p + 1) = (c, d)).
    { destruct H as [(-> & -> & -> & H)|[(-> & -> & -> & H)|[(-> & -> & -> & H)|(-> & -> & -> & H)]]].
      - exists a; split; [lia|]. destruct (Nat.eqb_spec (a + 1) (4 * r)); [lia|].
        unfold loop4. destruct (Nat.leb_spec a r); [|lia]. destruct (Nat.leb_spec (a + 1) r); [|lia]. auto.
      - exists (r + b); split; [lia|]. destruct (Nat.eqb_spec (r + b + 1) (4 * r)); [lia|].
        unfold loop4. destruct (Nat.leb_spec (r + b + 1) r); [lia|].
        destruct (Nat.leb_spec (r + b + 1) (2 * r)); [|lia].
        destruct (Nat.leb_spec (r + b) r); destruct (Nat.leb_spec (r + b) (2 * r)); try lia; split; teq.
      - exists (3 * r - (c + 1)); split; [lia|].
        destruct (Nat.eqb_spec (3 * r - (c + 1) + 1) (4 * r)); [lia|].
        unfold loop4. destruct (Nat.leb_spec (3 * r - (c + 1)) r); [lia|].
        destruct (Nat.leb_spec (3 * r - (c + 1)) (2 * r)); destruct (Nat.leb_spec (3 * r - (c + 1)) (3 * r));
        destruct (Nat.leb_spec (3 * r - (c + 1) + 1) r); destruct (Nat.leb_spec (3 * r - (c + 1) + 1) (2 * r));
        destruct (Nat.leb_spec (3 * r - (c + 1) + 1) (3 * r)); try lia; split; teq.
      - exists (4 * r - (d + 1)); split; [lia|].
        destruct (Nat.eqb_spec (4 * r - (d + 1) + 1) (4 * r)); unfold loop4;
        destruct (Nat.leb_spec (4 * r - (d + 1)) r); try lia;
        destruct (Nat.leb_spec (4 * r - (d + 1)) (2 * r)); destruct (Nat.leb_spec (4 * r - (d + 1)) (3 * r));
        try lia.
        + destruct (Nat.leb_spec 0 r); [|lia]. split; teq.
        + destruct (Nat.leb_spec 0 r); [|lia]. split; teq.
        + destruct (Nat.leb_spec (4 * r - (d + 1) + 1) r); destruct (Nat.leb_spec (4 * r - (d + 1) + 1) (2 * r));
          destruct (Nat.leb_spec (4 * r - (d + 1) + 1) (3 * r)); try lia; split; teq.
        + destruct (Nat.leb_spec (4 * r - (d + 1) + 1) r); destruct (Nat.leb_spec (4 * r - (d + 1) + 1) (2 * r));
          destruct (Nat.leb_spec (4 * r - (d + 1) + 1) (3 * r)); try lia; split; teq. }
    destruct G as (p & Hp & E1 & E2). exists p; split; [exact Hp|]. rewrite succ_mod by lia.
    rewrite E1, E2; reflexivity.
  - intros (p & Hp & E). rewrite succ_mod in E by lia. unfold loop4 in E.
    destruct (Nat.eqb_spec (p + 1) (4 * r)).
    + destruct (Nat.leb_spec p r); destruct (Nat.leb_spec p (2 * r)); destruct (Nat.leb_spec p (3 * r));
      destruct (Nat.leb_spec 0 r); try lia; injection E as -> -> -> ->; unfold bnd4; lia.
    + destruct (Nat.leb_spec p r); destruct (Nat.leb_spec p (2 * r)); destruct (Nat.leb_spec p (3 * r));
      destruct (Nat.leb_spec (p + 1) r); destruct (Nat.leb_spec (p + 1) (2 * r));
      destruct (Nat.leb_spec (p + 1) (3 * r)); try lia; injection E as -> -> -> ->; unfold bnd4; lia.
Qed.

Lemma cflip4_none : forall r y e, In y (idx4 r) -> bnd4 r e -> ~ In (flip2 e) (cedges4 y).
Proof.
  intros r [[i j] up] [[a b] [c d]] Hy Hb Hf. apply in_idx4 in Hy.
  unfold flip2 in Hf; cbn [fst snd] in Hf. unfold bnd4 in Hb.
  destruct up; simpl in Hf; repeat (destruct Hf as [Hf|Hf]; [injection Hf; lia|]); destruct Hf.
Qed.

Lemma cflip4_some : forall r x e, In x (idx4 r) -> In e (cedges4 x) ->
  bnd4 r e \/ exists y, In y (idx4 r) /\ In (flip2 e) (cedges4 y).
Proof.
  intros r [[i j] up] e Hx He. apply in_idx4 in Hx. destruct Hx as (Hi & Hj).
  destruct up; simpl in He; destruct He as [<-|[<-|[<-|[]]]]; unfold flip2; cbn [fst snd].
  - destruct (Nat.eq_dec j 0) as [E|E]; [left; left; lia|].
    right; exists (i, j - 1, false); split; [apply in_idx4; lia|]. simpl. right; right; left; teq.
  - right; exists (i, j, false); split; [apply in_idx4; lia|]. simpl; auto.
  - destruct (Nat.eq_dec i 0) as [E|E]; [left; right; right; right; lia|].
    right; exists (i - 1, j, false); split; [apply in_idx4; lia|]. simpl. right; left; teq.
  - right; exists (i, j, true); split; [apply in_idx4; lia|]. simpl; auto.
  - destruct (Nat.eq_dec (i + 1) r) as [E|E]; [left; right; left; lia|].
    right; exists (i + 1, j, true); split; [apply in_idx4; lia|]. simpl; auto.
  - destruct (Nat.eq_dec (j + 1) r) as [E|E]; [left; right; right; left; lia|].
    right; exists (i, j + 1, true); split; [apply in_idx4; lia|]. simpl; auto.
Qed.

Lemma bnd4_is_edge : forall r e, bnd4 r e -> exists x, In x (idx4 r) /\ In e (cedges4 x).
Proof.
  intros r [[a b] [c d]] [(-> & -> & -> & H)|[(-> & -> & -> & H)|[(-> & -> & -> & H)|(-> & -> & -> & H)]]].
  - exists (a, 0, true); split; [apply in_idx4; lia|]. simpl; auto.
  - exists (r - 1, b, false); split; [apply in_idx4; lia|]. simpl. right; left; teq.
  - exists (c, r - 1, false); split; [apply in_idx4; lia|]. simpl. right; right; left; teq.
  - exists (0, d, true); split; [apply in_idx4; lia|]. simpl; auto.
Qed.

Lemma boundary4 : forall r, boundary_loop (topology4 r) (4 * r) (fun p => ix4 r (loop4 r p)).
Proof.
  intros r; rewrite topology4_closed.
  apply (gen_boundary _ _ (idx4 r) (tri4_of r) cedges4 (ok4 r) (ix4 r)) with (bnd := bnd4 r).
  - intros [[i j] [|]] _; reflexivity.
  - apply cedges4_ok.
  - apply ix4_inj.
  - intros y e; apply cflip4_none.
  - intros x e; apply cflip4_some.
  - intros e; apply bnd4_is_edge.
  - intros e; apply bnd4_loop.
  - intros p Hp; apply loop4_ok; exact Hp.
  - apply loop4_inj.
Qed.
