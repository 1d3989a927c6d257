(** Closed forms of the generated meshes and proofs of their properties. *)

From Verif Require Import Base MeshModel MeshSpec.
Open Scope nat_scope.

(** ** Generic list facts *)

Lemma NoDup_app' : forall A (l1 l2 : list A), NoDup l1 -> NoDup l2 ->
  (forall x, In x l1 -> In x l2 -> False) -> NoDup (l1 ++ l2).
Proof.
  intros A l1 l2 H1 H2 H; induction l1 as [|a l1 IH]; simpl; [exact H2|].
  inversion H1 as [|? ? Ha Hl]; subst. constructor.
  - rewrite in_app_iff; intros [Hi|Hi]; [contradiction|].
    apply (H a); [left; reflexivity|exact Hi].
  - apply IH; [exact Hl|]. intros x Hx1 Hx2; apply (H x); [right; exact Hx1|exact Hx2].
Qed.

Lemma NoDup_flat_map : forall A B (f : A -> list B) l, NoDup l ->
  (forall x, In x l -> NoDup (f x)) ->
  (forall x y b, In x l -> In y l -> In b (f x) -> In b (f y) -> x = y) ->
  NoDup (flat_map f l).
Proof.
  intros A B f l Hl Hf Hd; induction l as [|a l IH]; simpl; [constructor|].
  inversion Hl as [|? ? Ha Hl']; subst.
  apply NoDup_app'.
  - apply Hf; left; reflexivity.
  - apply IH; [exact Hl'| |].
    + intros x Hx; apply Hf; right; exact Hx.
    + intros x y b Hx Hy; apply Hd; right; assumption.
  - intros b Hb1 Hb2. apply in_flat_map in Hb2. destruct Hb2 as (y & Hy & Hb2).
    assert (a = y) by (apply (Hd a y b); [left; reflexivity|right; exact Hy|exact Hb1|exact Hb2]).
    subst; contradiction.
Qed.

Lemma flat_map_ext_in : forall A B (f g : A -> list B) l,
  (forall x, In x l -> f x = g x) -> flat_map f l = flat_map g l.
Proof.
  intros A B f g l H; induction l as [|a l IH]; simpl; [reflexivity|].
  rewrite (H a) by (left; reflexivity). f_equal. apply IH; intros x Hx; apply H; right; exact Hx.
Qed.

Lemma flat_map_map : forall A B C (f : B -> list C) (g : A -> B) l,
  flat_map f (map g l) = flat_map (fun x => f (g x)) l.
Proof. intros; induction l as [|a l IH]; simpl; [reflexivity|rewrite IH; reflexivity]. Qed.

Lemma map_flat_map : forall A B C (f : B -> C) (g : A -> list B) l,
  map f (flat_map g l) = flat_map (fun x => map f (g x)) l.
Proof.
  intros; induction l as [|a l IH]; simpl; [reflexivity|].
  rewrite map_app, IH; reflexivity.
Qed.

Lemma flat_map_length_sum : forall A B (f : A -> list B) l k,
  (forall x, In x l -> length (f x) = k) -> length (flat_map f l) = length l * k.
Proof.
  intros A B f l k H; induction l as [|a l IH]; simpl; [reflexivity|].
  rewrite app_length, (H a) by (left; reflexivity).
  rewrite IH; [reflexivity|]. intros x Hx; apply H; right; exact Hx.
Qed.

Definition flip2 {A : Type} (e : A * A) : A * A := (snd e, fst e).

(** ** Meshes given in coordinates

    [X] numbers the triangles, [C] are vertex coordinates, [ix] their indices. *)

Section Generic.
Variables (X C : Type) (idx : list X) (trif : X -> tri) (ced : X -> list (C * C)).
Variables (ok : C -> Prop) (ix : C -> nat).

Definition ixe (e : C * C) : nat * nat := (ix (fst e), ix (snd e)).

Hypothesis H_ded : forall x, In x idx -> dedges (trif x) = map ixe (ced x).
Hypothesis H_ok : forall x e, In x idx -> In e (ced x) -> ok (fst e) /\ ok (snd e).
Hypothesis H_inj : forall a b, ok a -> ok b -> ix a = ix b -> a = b.
Hypothesis H_nd : forall x, In x idx -> NoDup (ced x).
Hypothesis H_disj : forall x y e, In x idx -> In y idx -> In e (ced x) -> In e (ced y) -> x = y.
Hypothesis H_idx : NoDup idx.

Lemma gen_ixe_inj : forall e f, ok (fst e) -> ok (snd e) -> ok (fst f) -> ok (snd f) ->
  ixe e = ixe f -> e = f.
Proof.
  intros [a b] [c d] H1 H2 H3 H4 E. assert (E1 := f_equal fst E). assert (E2 := f_equal snd E).
  cbn [fst snd ixe] in *. f_equal; apply H_inj; assumption.
Qed.

Lemma gen_edges : mesh_edges (map trif idx) = flat_map (fun x => map ixe (ced x)) idx.
Proof.
  unfold mesh_edges; rewrite flat_map_concat_map, map_map, <- flat_map_concat_map.
  clear - H_ded. induction idx as [|x l IH]; [reflexivity|]. simpl.
  rewrite H_ded by (left; reflexivity). f_equal. apply IH; intros y Hy; apply H_ded; right; exact Hy.
Qed.

Lemma gen_in_edges : forall e, In e (mesh_edges (map trif idx)) <->
  exists x c, In x idx /\ In c (ced x) /\ e = ixe c.
Proof.
  intros e; rewrite gen_edges, in_flat_map; split.
  - intros (x & Hx & H); apply in_map_iff in H; destruct H as (c & <- & Hc); exists x, c; auto.
  - intros (x & c & Hx & Hc & ->); exists x; split; [exact Hx|]. apply in_map; exact Hc.
Qed.

Lemma gen_manifold : oriented_manifold (map trif idx).
Proof.
  unfold oriented_manifold; rewrite gen_edges. apply NoDup_flat_map.
  - exact H_idx.
  - intros x Hx.
    assert (G : forall l, incl l (ced x) -> NoDup l -> NoDup (map ixe l)).
    { induction l as [|e l IH]; intros Hl Hnd; simpl; [constructor|].
      inversion Hnd as [|? ? He Hnd']; subst. constructor.
      - intros Hin; apply in_map_iff in Hin; destruct Hin as (f & E & Hf).
        assert (Hf' : In f (ced x)) by (apply Hl; right; exact Hf).
        assert (He' : In e (ced x)) by (apply Hl; left; reflexivity).
        destruct (H_ok x f Hx Hf'), (H_ok x e Hx He').
        apply gen_ixe_inj in E; try assumption. subst; contradiction.
      - apply IH; [intros z Hz; apply Hl; right; exact Hz|exact Hnd']. }
    apply G; [apply incl_refl|apply H_nd; exact Hx].
  - intros x y b Hx Hy H1 H2. apply in_map_iff in H1, H2.
    destruct H1 as (e & E1 & H1), H2 as (f & E2 & H2).
    destruct (H_ok x e Hx H1), (H_ok y f Hy H2).
    assert (e = f) by (apply gen_ixe_inj; try assumption; congruence). subst f.
    apply (H_disj x y e); assumption.
Qed.

Variables (bnd : C * C -> Prop) (len : nat) (loop : nat -> C).
Hypothesis H_none : forall y e, In y idx -> bnd e -> ~ In (flip2 e) (ced y).
Hypothesis H_some : forall x e, In x idx -> In e (ced x) ->
  bnd e \/ exists y, In y idx /\ In (flip2 e) (ced y).
Hypothesis H_edge : forall e, bnd e -> exists x, In x idx /\ In e (ced x).
Hypothesis H_loop : forall e, bnd e <-> exists p, p < len /\ e = (loop p, loop ((p + 1) mod len)).
Hypothesis H_loopok : forall p, p < len -> ok (loop p).
Hypothesis H_loopinj : forall p q, p < len -> q < len -> loop p = loop q -> p = q.

Lemma gen_boundary : boundary_loop (map trif idx) len (fun p => ix (loop p)).
Proof.
  split.
  - intros p q Hp Hq E. apply H_loopinj; try assumption.
    apply H_inj; [apply H_loopok; exact Hp|apply H_loopok; exact Hq|exact E].
  - intros e; split.
    + intros [He Hn]. apply gen_in_edges in He. destruct He as (x & c & Hx & Hc & ->).
      destruct (H_some x c Hx Hc) as [Hb|(y & Hy & Hf)].
      * apply H_loop in Hb. destruct Hb as (p & Hp & ->). exists p; split; [exact Hp|reflexivity].
      * exfalso; apply Hn. apply gen_in_edges. exists y, (flip2 c). auto.
    + intros (p & Hp & ->).
      assert (Hb : bnd (loop p, loop ((p + 1) mod len))) by (apply H_loop; exists p; auto).
      destruct (H_edge _ Hb) as (x & Hx & Hc). split.
      * apply gen_in_edges. exists x, (loop p, loop ((p + 1) mod len)). auto.
      * intros Hf. apply gen_in_edges in Hf. destruct Hf as (y & f & Hy & Hf & E).
        assert (Hq : (p + 1) mod len < len) by (apply Nat.mod_upper_bound; lia).
        destruct (H_ok y f Hy Hf).
        assert (f = flip2 (loop p, loop ((p + 1) mod len))).
        { symmetry; apply gen_ixe_inj; try assumption; try (apply H_loopok; assumption). }
        subst f. exact (H_none y _ Hy Hb Hf).
Qed.

End Generic.

Ltac teq := repeat first
  [ reflexivity
  | lia
  | match goal with
    | |- (_ :: _) = (_ :: _) => apply f_equal2
    | |- (_, _) = (_, _) => apply f_equal2
    | |- (?f _) = (?f _) => apply f_equal
    end ].

(** ** Triangular layout

    Vertex [(i,j)], [j <= i <= r], has index [tg i + j]. *)

Fixpoint tg (i : nat) : nat := match i with O => 0 | S i' => tg i' + S i' end.

Lemma tg_double : forall i, 2 * tg i = i * (i + 1).
Proof. induction i as [|i IH]; [reflexivity|]. cbn [tg]. nia. Qed.

Lemma tg_half : forall i, i * (i + 1) / 2 = tg i.
Proof. intros i; rewrite <- tg_double, Nat.mul_comm, Nat.div_mul by lia; reflexivity. Qed.

Lemma meshSize3 : forall r, meshSize 3 r = tg (S r).
Proof.
  intros r; unfold meshSize; simpl (3 =? 3).
  replace ((r + 1) * (r + 2)) with (S r * (S r + 1)) by lia. apply tg_half.
Qed.

Lemma tg_mono : forall i j, i <= j -> tg i <= tg j.
Proof. intros i j H; induction H; [lia|]. cbn [tg]; lia. Qed.

Definition ix3 (c : nat * nat) : nat := tg (fst c) + snd c.

Lemma ix3_inj : forall i j i' j', j <= i -> j' <= i' -> ix3 (i, j) = ix3 (i', j') -> i = i' /\ j = j'.
Proof.
  intros i j i' j' H H' E; unfold ix3 in E; simpl in E.
  destruct (Nat.lt_trichotomy i i') as [L|[L|L]].
  - assert (tg (S i) <= tg i') by (apply tg_mono; lia). cbn [tg] in *; lia.
  - subst; lia.
  - assert (tg (S i') <= tg i) by (apply tg_mono; lia). cbn [tg] in *; lia.
Qed.

Lemma ix3_surj : forall r k, k < tg (S r) -> exists i j, j <= i /\ i <= r /\ k = ix3 (i, j).
Proof.
  induction r as [|r IH]; intros k H.
  - cbn [tg] in H; exists 0, 0; unfold ix3; cbn [tg fst snd]; lia.
  - destruct (Nat.lt_ge_cases k (tg (S r))) as [L|L].
    + destruct (IH k L) as (i & j & ? & ? & ?); exists i, j; repeat split; lia.
    + exists (S r), (k - tg (S r)). unfold ix3; cbn [fst snd]. cbn [tg] in *. lia.
Qed.

Lemma ix3_lt : forall r i j, j <= i -> i <= r -> ix3 (i, j) < tg (S r).
Proof.
  intros r i j Hj Hi; unfold ix3; cbn [fst snd].
  assert (tg (S i) <= tg (S r)) by (apply tg_mono; lia). cbn [tg] in *; lia.
Qed.

(** Triangle number [(i,j,up)]. *)
Definition tri3_of (x : nat * nat * bool) : tri :=
  let '(i, j, up) := x in
  if up then (ix3 (i + 1, j), ix3 (i + 1, j + 1), ix3 (i, j))
  else (ix3 (i + 1, j + 1), ix3 (i, j + 1), ix3 (i, j)).

Definition row3 (i : nat) : list (nat * nat * bool) :=
  flat_map (fun j => [(i, j, true); (i, j, false)]) (seq 0 i) ++ [(i, i, true)].

Definition idx3 (r : nat) : list (nat * nat * bool) := flat_map row3 (seq 0 r).

Lemma tri3_row_closed : forall i, tri3_row (tg i) (tg (i + 1)) i = map tri3_of (row3 i).
Proof.
  intros i; unfold tri3_row, row3. rewrite map_app, map_flat_map.
  apply (f_equal2 (@app tri)).
  - apply flat_map_ext_in; intros j Hj; simpl.
    unfold ix3; cbn [fst snd]. teq.
  - simpl; unfold ix3; cbn [fst snd]. teq.
Qed.

Lemma tri3_rows_closed : forall m i,
  tri3_rows m i (tg i) (tg (i + 1)) = map tri3_of (flat_map row3 (seq i m)).
Proof.
  induction m as [|m IH]; intros i; [reflexivity|].
  cbn [tri3_rows seq flat_map]. rewrite map_app, tri3_row_closed. f_equal.
  replace (tg (i + 1) + (i + 2)) with (tg ((i + 1) + 1)).
  - rewrite IH. do 3 f_equal; lia.
  - replace (i + 1 + 1) with (S (i + 1)) by lia. cbn [tg]. lia.
Qed.

Lemma topology3_closed : forall r, topology3 r = map tri3_of (idx3 r).
Proof. intros r; unfold topology3, idx3. apply (tri3_rows_closed r 0). Qed.

Lemma in_row3 : forall i i' j b, In (i', j, b) (row3 i) <-> i' = i /\ j <= i /\ (b = false -> j < i).
Proof.
  intros i i' j b; unfold row3. rewrite in_app_iff, in_flat_map. split.
  - intros [(k & Hk & H)|H].
    + apply in_seq in Hk. simpl in H. destruct H as [H|[H|[]]]; injection H as <- <- <-; repeat split; lia.
    + simpl in H; destruct H as [H|[]]; injection H as <- <- <-. repeat split; try lia; discriminate.
  - intros (-> & Hj & Hb). destruct (Nat.eq_dec j i) as [->|E].
    + destruct b; [right; left; reflexivity|]. specialize (Hb eq_refl); lia.
    + left; exists j; split; [apply in_seq; lia|]. destruct b; simpl; tauto.
Qed.

Lemma in_idx3 : forall r i j b, In (i, j, b) (idx3 r) <-> i < r /\ j <= i /\ (b = false -> j < i).
Proof.
  intros r i j b; unfold idx3; rewrite in_flat_map; split.
  - intros (k & Hk & H); apply in_seq in Hk; apply in_row3 in H. destruct H as (-> & ? & ?); repeat split; try lia; assumption.
  - intros (Hi & Hj & Hb). exists i; split; [apply in_seq; lia|]. apply in_row3; repeat split; assumption.
Qed.

Lemma NoDup_row3 : forall i, NoDup (row3 i).
Proof.
  intros i; unfold row3. apply NoDup_app'.
  - apply NoDup_flat_map; [apply seq_NoDup| |].
    + intros x _; repeat constructor; simpl; intuition discriminate.
    + intros x y b _ _ Hx Hy; simpl in *. destruct Hx as [<-|[<-|[]]]; destruct Hy as [H|[H|[]]]; congruence.
  - repeat constructor; simpl; tauto.
  - intros x H1 H2. simpl in H2; destruct H2 as [<-|[]].
    apply in_flat_map in H1; destruct H1 as (j & Hj & H); apply in_seq in Hj; simpl in H.
    destruct H as [H|[H|[]]]; [injection H as E; lia|discriminate].
Qed.

Lemma NoDup_idx3 : forall r, NoDup (idx3 r).
Proof.
  intros r; unfold idx3; apply NoDup_flat_map; [apply seq_NoDup| |].
  - intros; apply NoDup_row3.
  - intros x y [[i j] b] _ _ Hx Hy. apply in_row3 in Hx, Hy. lia.
Qed.

Lemma idx3_length : forall r, length (idx3 r) = r * r.
Proof.
  intros r; unfold idx3.
  assert (G : forall m s, length (flat_map row3 (seq s m)) = m * m + 2 * s * m).
  { induction m as [|m IH]; intros s; [simpl; lia|].
    cbn [seq flat_map]. rewrite app_length, IH.
    assert (Hr : length (row3 s) = 2 * s + 1).
    { unfold row3; rewrite app_length, (flat_map_length_sum _ _ _ _ 2) by reflexivity.
      rewrite seq_length; simpl; lia. }
    rewrite Hr. nia. }
  rewrite G; lia.
Qed.

(** The edges, in coordinates. *)
Definition cedges3 (x : nat * nat * bool) : list ((nat * nat) * (nat * nat)) :=
  let '(i, j, up) := x in
  if up then [((i+1, j), (i+1, j+1)); ((i+1, j+1), (i, j)); ((i, j), (i+1, j))]
  else [((i+1, j+1), (i, j+1)); ((i, j+1), (i, j)); ((i, j), (i+1, j+1))].

Definition ok3 (r : nat) (c : nat * nat) : Prop := snd c <= fst c /\ fst c <= r.

Lemma cedges3_range : forall r x a b c d, In x (idx3 r) -> In ((a,b),(c,d)) (cedges3 x) ->
  b <= a /\ a <= r /\ d <= c /\ c <= r.
Proof.
  intros r [[i j] up] a b c d Hx He. apply in_idx3 in Hx. destruct Hx as (Hi & Hj & Hb).
  destruct up; simpl in He.
  - repeat (destruct He as [He|He]; [injection He as <- <- <- <-; lia|]); destruct He.
  - specialize (Hb eq_refl).
    repeat (destruct He as [He|He]; [injection He as <- <- <- <-; lia|]); destruct He.
Qed.

Lemma cedges3_inj : forall x y e, In e (cedges3 x) -> In e (cedges3 y) -> x = y.
Proof.
  intros [[i j] up] [[i' j'] up'] e H1 H2.
  destruct up, up'; simpl in H1, H2;
    destruct H1 as [<-|[<-|[<-|[]]]]; destruct H2 as [H2|[H2|[H2|[]]]];
    injection H2; intros; first [exfalso; lia | teq].
Qed.

Lemma cedges3_NoDup : forall x, NoDup (cedges3 x).
Proof.
  intros [[i j] [|]]; simpl; repeat constructor; simpl;
    intros H; repeat (destruct H as [H|H]; [injection H; lia|]); exact H.
Qed.

Lemma ix3_inj' : forall r a b, ok3 r a -> ok3 r b -> ix3 a = ix3 b -> a = b.
Proof.
  intros r [a1 a2] [b1 b2] [H1 H2] [H3 H4] E; cbn [fst snd] in *.
  apply ix3_inj in E; [|lia|lia]. destruct E; subst; reflexivity.
Qed.

Lemma manifold3 : forall r, oriented_manifold (topology3 r).
Proof.
  intros r; rewrite topology3_closed.
  apply (gen_manifold _ _ (idx3 r) tri3_of cedges3 (ok3 r) ix3).
  - intros [[i j] [|]] _; reflexivity.
  - intros x [[a b] [c d]] Hx He. pose proof (cedges3_range r x a b c d Hx He).
    unfold ok3; cbn [fst snd]; lia.
  - apply ix3_inj'.
  - intros; apply cedges3_NoDup.
  - intros x y e _ _; apply cedges3_inj.
  - apply NoDup_idx3.
Qed.

Lemma proper3 : forall r t, In t (topology3 r) -> proper_triangle (meshSize 3 r) t.
Proof.
  intros r t H. rewrite topology3_closed in H. apply in_map_iff in H.
  destruct H as ([[i j] up] & <- & H). apply in_idx3 in H. destruct H as (Hi & Hj & Hb).
  rewrite meshSize3.
  assert (L : forall a b, b <= a -> a <= r -> ix3 (a, b) < tg (S r)) by (intros; apply ix3_lt; lia).
  assert (N : forall a b c d, b <= a -> d <= c -> (a <> c \/ b <> d) -> ix3 (a, b) <> ix3 (c, d)).
  { intros a b c d H1 H2 H3 E. apply ix3_inj in E; [|lia|lia]. lia. }
  destruct up; cbn [tri3_of proper_triangle].
  - repeat split; try (apply L; lia); apply N; lia.
  - specialize (Hb eq_refl). repeat split; try (apply L; lia); apply N; lia.
Qed.

(** The boundary loop: down the bottom row, back along the right side, down
    the left side. *)
Definition loop3 (r p : nat) : nat * nat :=
  if p <=? r then (r, p) else if p <=? 2 * r then (2 * r - p, 2 * r - p) else (p - 2 * r, 0).

Lemma loop3_range : forall r p, p < 3 * r -> snd (loop3 r p) <= fst (loop3 r p) /\ fst (loop3 r p) <= r.
Proof.
  intros r p H; unfold loop3. destruct (Nat.leb_spec p r); [cbn; lia|].
  destruct (Nat.leb_spec p (2 * r)); cbn [fst snd]; lia.
Qed.

Lemma loop3_inj : forall r p q, p < 3 * r -> q < 3 * r -> loop3 r p = loop3 r q -> p = q.
Proof.
  intros r p q Hp Hq E. assert (E1 := f_equal fst E). assert (E2 := f_equal snd E). revert E1 E2.
  unfold loop3. destruct (Nat.leb_spec p r); destruct (Nat.leb_spec q r);
    destruct (Nat.leb_spec p (2 * r)); destruct (Nat.leb_spec q (2 * r)); cbn [fst snd]; lia.
Qed.

Lemma succ_mod : forall p m, p < m -> (p + 1) mod m = if p + 1 =? m then 0 else p + 1.
Proof.
  intros p m H. destruct (Nat.eqb_spec (p + 1) m) as [E|E].
  - rewrite E; apply Nat.mod_same; lia.
  - apply Nat.mod_small; lia.
Qed.

(** Coordinates of the boundary edges. *)
Definition bnd3 (r : nat) (e : (nat * nat) * (nat * nat)) : Prop :=
  let '((a, b), (c, d)) := e in
  (a = r /\ c = r /\ d = b + 1 /\ b < r) \/
  (a = b /\ c = d /\ a = c + 1 /\ a <= r) \/
  (b = 0 /\ d = 0 /\ c = a + 1 /\ a < r).

Lemma bnd3_loop : forall r e, bnd3 r e <->
  exists p, p < 3 * r /\ e = (loop3 r p, loop3 r ((p + 1) mod (3 * r))).
Proof.
  intros r [[a b] [c d]]; split.
  - intros [(-> & -> & -> & H)|[(-> & -> & -> & H)|(-> & -> & -> & H)]].
    + exists b; split; [lia|]. rewrite succ_mod by lia.
      destruct (Nat.eqb_spec (b + 1) (3 * r)); [lia|]. unfold loop3.
      destruct (Nat.leb_spec b r); [|lia]. destruct (Nat.leb_spec (b + 1) r); [|lia]. reflexivity.
    + exists (2 * r - (d + 1)); split; [lia|]. rewrite succ_mod by lia.
      destruct (Nat.eqb_spec (2 * r - (d + 1) + 1) (3 * r)); [lia|]. unfold loop3.
      destruct (Nat.leb_spec (2 * r - (d + 1)) r) as [L|L].
      * assert (d + 1 = r) by lia.
        destruct (Nat.leb_spec (2 * r - (d + 1) + 1) r); [lia|].
        destruct (Nat.leb_spec (2 * r - (d + 1) + 1) (2 * r)); [|lia].
        teq.
      * destruct (Nat.leb_spec (2 * r - (d + 1)) (2 * r)); [|lia].
        destruct (Nat.leb_spec (2 * r - (d + 1) + 1) r); [lia|].
        destruct (Nat.leb_spec (2 * r - (d + 1) + 1) (2 * r)); [|lia].
        teq.
    + exists (2 * r + a); split; [lia|]. rewrite succ_mod by lia. unfold loop3.
      destruct (Nat.leb_spec (2 * r + a) r); [lia|].
      destruct (Nat.eqb_spec (2 * r + a + 1) (3 * r)).
      * destruct (Nat.leb_spec 0 r); [|lia].
        destruct (Nat.leb_spec (2 * r + a) (2 * r)); teq.
      * destruct (Nat.leb_spec (2 * r + a + 1) r); [lia|].
        destruct (Nat.leb_spec (2 * r + a + 1) (2 * r)); [lia|].
        destruct (Nat.leb_spec (2 * r + a) (2 * r)); teq.
  - intros (p & Hp & E). rewrite succ_mod in E by lia. unfold loop3 in E.
    destruct (Nat.leb_spec p r); destruct (Nat.leb_spec p (2 * r));
    destruct (Nat.eqb_spec (p + 1) (3 * r));
    destruct (Nat.leb_spec (p + 1) r); destruct (Nat.leb_spec (p + 1) (2 * r));
    destruct (Nat.leb_spec 0 r); try lia;
    injection E as -> -> -> ->; unfold bnd3; lia.
Qed.


Lemma cflip3_none : forall r y e, In y (idx3 r) -> bnd3 r e -> ~ In (flip2 e) (cedges3 y).
Proof.
  intros r [[i j] up] [[a b] [c d]] Hy Hb Hf. apply in_idx3 in Hy.
  unfold flip2 in Hf; cbn [fst snd] in Hf. unfold bnd3 in Hb.
  destruct up; simpl in Hf; repeat (destruct Hf as [Hf|Hf]; [injection Hf; lia|]); destruct Hf.
Qed.

Lemma cflip3_some : forall r x e, In x (idx3 r) -> In e (cedges3 x) ->
  bnd3 r e \/ exists y, In y (idx3 r) /\ In (flip2 e) (cedges3 y).
Proof.
  intros r [[i j] up] e Hx He. apply in_idx3 in Hx. destruct Hx as (Hi & Hj & Hb).
  destruct up; simpl in He.
  - destruct He as [<-|[<-|[<-|[]]]]; unfold flip2; cbn [fst snd].
    + destruct (Nat.eq_dec (i + 1) r) as [E|E]; [left; left; lia|].
      right; exists (i + 1, j, false); split; [apply in_idx3; lia|]. simpl; auto.
    + destruct (Nat.eq_dec i j) as [E|E]; [left; right; left; lia|].
      right; exists (i, j, false); split; [apply in_idx3; lia|]. simpl; auto.
    + destruct (Nat.eq_dec j 0) as [E|E]; [left; right; right; lia|].
      right; exists (i, j - 1, false); split; [apply in_idx3; lia|]. simpl.
      left; teq.
  - specialize (Hb eq_refl).
    destruct He as [<-|[<-|[<-|[]]]]; unfold flip2; cbn [fst snd]; right.
    + exists (i, j + 1, true); split; [apply in_idx3; repeat split; try lia; discriminate|]. simpl.
      right; right; left; teq.
    + exists (i - 1, j, true); split; [apply in_idx3; repeat split; try lia; discriminate|]. simpl.
      left; teq.
    + exists (i, j, true); split; [apply in_idx3; repeat split; try lia; discriminate|]. simpl; auto.
Qed.

Lemma bnd3_is_edge : forall r e, bnd3 r e -> exists x, In x (idx3 r) /\ In e (cedges3 x).
Proof.
  intros r [[a b] [c d]] [(-> & -> & -> & H)|[(-> & -> & -> & H)|(-> & -> & -> & H)]].
  - exists (r - 1, b, true); split; [apply in_idx3; repeat split; try lia; discriminate|]. simpl.
    left; teq.
  - exists (d, d, true); split; [apply in_idx3; repeat split; try lia; discriminate|]. simpl; auto.
  - exists (a, 0, true); split; [apply in_idx3; repeat split; try lia; discriminate|]. simpl; auto.
Qed.

Lemma boundary3 : forall r, boundary_loop (topology3 r) (3 * r) (fun p => ix3 (loop3 r p)).
Proof.
  intros r; rewrite topology3_closed.
  apply (gen_boundary _ _ (idx3 r) tri3_of cedges3 (ok3 r) ix3) with (bnd := bnd3 r).
  - intros [[i j] [|]] _; reflexivity.
  - intros x [[a b] [c d]] Hx He. pose proof (cedges3_range r x a b c d Hx He).
    unfold ok3; cbn [fst snd]; lia.
  - apply ix3_inj'.
  - intros y e; apply cflip3_none.
  - intros x e; apply cflip3_some.
  - intros e; apply bnd3_is_edge.
  - intros e; apply bnd3_loop.
  - intros p Hp; apply loop3_range; exact Hp.
  - apply loop3_inj.
Qed.
