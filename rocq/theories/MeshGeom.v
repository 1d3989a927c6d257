(** Geometry of the parameter lists: boundary points, convexity, orientation. *)

From Verif Require Import Base MeshModel MeshSpec MeshProofs MeshProofs4 MeshProofsRing MeshEdge.
From Verif Require Import GeomSpec DomainModel MeshParams.
Open Scope R_scope.

(** *** Edge points *)
Lemma edgePoint_some : forall vs k s, (k < length vs)%nat ->
  edgePoint (length vs) vs k s =
  Some (vtx vs k *p s +p vtx vs (prv (length vs) k) *p (1 - s)).
Proof.
  intros vs k s H; unfold edgePoint, vertex.
  rewrite !vtx_nth by (try apply prv_lt; lia). reflexivity.
Qed.

Lemma edge_params : forall vs c r ps k, (3 <= length vs)%nat -> (1 <= r)%nat ->
  parametersImpl (length vs) c vs r = Some ps -> (k < meshSize (length vs) r)%nat ->
  (exists p, (p < length vs * r)%nat /\ mesh_loop (length vs) r p = k) ->
  exists s i, (s < length vs)%nat /\ (i <= r)%nat /\
    nth_error ps k = edgePoint (length vs) vs s (INR i / INR r).
Proof.
  intros vs c r ps k Hn Hr H Hk (p & Hp & E). pose proof (INR_neq0 r Hr) as Hr0.
  unfold parametersImpl, mesh_loop in *.
  destruct (Nat.eqb_spec (length vs) 3) as [H3|H3].
  - rewrite H3 in Hp, Hk. destruct (loop3_range r p Hp) as [R1 R2].
    assert (L : exists p', (p' < 3 * r)%nat /\ loop3 r p' = (fst (loop3 r p), snd (loop3 r p))).
    { exists p; split; [exact Hp|]. destruct (loop3 r p); reflexivity. }
    apply loop3_surj in L; [|assumption|assumption|assumption].
    rewrite <- E. rewrite (surjective_pairing (loop3 r p)).
    destruct (loop3 r p) as [i j]; cbn [fst snd] in *.
    rewrite (params3_nth vs r ps i j H3 Hr H R1 R2).
    destruct L as [->|[->| ->]].
    + exists 1%nat, j. split; [lia|]. split; [lia|]. rewrite edgePoint_some by lia. rewrite H3.
      change (prv 3 1) with 0%nat. f_equal. unfold pt3. v2field; assumption.
    + exists 0%nat, i. split; [lia|]. split; [lia|]. rewrite edgePoint_some by lia. rewrite H3.
      change (prv 3 0) with 2%nat. f_equal. unfold pt3. simpl (INR 0). v2field; assumption.
    + exists 2%nat, (r - i)%nat. split; [lia|]. split; [lia|]. rewrite edgePoint_some by lia. rewrite H3.
      change (prv 3 2) with 1%nat. f_equal. unfold pt3. rewrite minus_INR by lia. v2field; assumption.
  - destruct (Nat.eqb_spec (length vs) 4) as [H4|H4].
    + rewrite H4 in Hp, Hk. destruct (loop4_ok r p Hp) as [R1 R2].
      assert (L : exists p', (p' < 4 * r)%nat /\ loop4 r p' = (fst (loop4 r p), snd (loop4 r p))).
      { exists p; split; [exact Hp|]. destruct (loop4 r p); reflexivity. }
      apply loop4_surj in L; [|assumption|assumption|assumption].
      rewrite <- E. rewrite (surjective_pairing (loop4 r p)).
      destruct (loop4 r p) as [i j]; cbn [fst snd] in *.
      rewrite (params4_nth vs r ps i j H4 Hr H R2 R1).
      destruct L as [->|[->|[->| ->]]].
      * exists 0%nat, (r - j)%nat. split; [lia|]. split; [lia|]. rewrite edgePoint_some by lia. rewrite H4.
        change (prv 4 0) with 3%nat. f_equal. unfold pt4. rewrite minus_INR by lia. simpl (INR 0).
        v2field; assumption.
      * exists 2%nat, j. split; [lia|]. split; [lia|]. rewrite edgePoint_some by lia. rewrite H4.
        change (prv 4 2) with 1%nat. f_equal. unfold pt4. v2field; assumption.
      * exists 1%nat, i. split; [lia|]. split; [lia|]. rewrite edgePoint_some by lia. rewrite H4.
        change (prv 4 1) with 0%nat. f_equal. unfold pt4. simpl (INR 0). v2field; assumption.
      * exists 3%nat, (r - i)%nat. split; [lia|]. split; [lia|]. rewrite edgePoint_some by lia. rewrite H4.
        change (prv 4 3) with 2%nat. f_equal. unfold pt4. rewrite minus_INR by lia. v2field; assumption.
    + destruct (pos_decompose (length vs) Hn r p Hp) as (s & v & Hs & Hv & ->).
      exists s, v. split; [exact Hs|]. split; [lia|]. rewrite <- E.
      rewrite (paramsRing_nth vs c r ps r s v Hn Hr H) by lia.
      rewrite edgePoint_some by exact Hs. f_equal. unfold ptR. v2field; assumption.
Qed.

(** Every side point at a multiple of 1/r is hit by an edge index. *)
Lemma edge_params_onto : forall vs c r ps s i, (3 <= length vs)%nat -> (1 <= r)%nat ->
  parametersImpl (length vs) c vs r = Some ps -> (s < length vs)%nat -> (i <= r)%nat ->
  exists p, (p < length vs * r)%nat /\
    nth_error ps (mesh_loop (length vs) r p) = edgePoint (length vs) vs s (INR i / INR r).
Proof.
  intros vs c r ps s i Hn Hr H Hs Hi. pose proof (INR_neq0 r Hr) as Hr0.
  unfold parametersImpl, mesh_loop in *. rewrite edgePoint_some by exact Hs.
  destruct (Nat.eqb_spec (length vs) 3) as [H3|H3].
  - rewrite H3 in *.
    assert (G : forall a b, (b <= a)%nat -> (a <= r)%nat -> (a = r \/ b = 0 \/ b = a)%nat ->
      exists p, (p < 3 * r)%nat /\ nth_error ps (ix3 (loop3 r p)) = Some (pt3 vs r a b)).
    { intros a b Hb Ha Hab. apply loop3_surj in Hab; try assumption.
      destruct Hab as (p & Hp & E). exists p; split; [exact Hp|]. rewrite E.
      apply params3_nth; assumption. }
    destruct s as [|[|[|s]]]; [| | |lia].
    + destruct (G i 0%nat) as (p & Hp & E); [lia|lia|tauto|]. exists p; split; [exact Hp|]. rewrite E.
      change (prv 3 0) with 2%nat. f_equal. unfold pt3. simpl (INR 0). v2field; assumption.
    + destruct (G r i) as (p & Hp & E); [lia|lia|tauto|]. exists p; split; [exact Hp|]. rewrite E.
      change (prv 3 1) with 0%nat. f_equal. unfold pt3. v2field; assumption.
    + destruct (G (r - i) (r - i))%nat as (p & Hp & E); [lia|lia|tauto|]. exists p; split; [exact Hp|]. rewrite E.
      change (prv 3 2) with 1%nat. f_equal. unfold pt3. rewrite minus_INR by lia. v2field; assumption.
  - destruct (Nat.eqb_spec (length vs) 4) as [H4|H4].
    + rewrite H4 in *.
      assert (G : forall a b, (a <= r)%nat -> (b <= r)%nat -> (a = 0 \/ a = r \/ b = 0 \/ b = r)%nat ->
        exists p, (p < 4 * r)%nat /\ nth_error ps (ix4 r (loop4 r p)) = Some (pt4 vs r a b)).
      { intros a b Ha Hb Hab. apply loop4_surj in Hab; try assumption.
        destruct Hab as (p & Hp & E). exists p; split; [exact Hp|]. rewrite E.
        apply params4_nth; assumption. }
      destruct s as [|[|[|[|s]]]]; [| | | |lia].
      * destruct (G 0 (r - i))%nat as (p & Hp & E); [lia|lia|tauto|]. exists p; split; [exact Hp|]. rewrite E.
        change (prv 4 0) with 3%nat. f_equal. unfold pt4. rewrite minus_INR by lia. simpl (INR 0).
        v2field; assumption.
      * destruct (G i 0%nat) as (p & Hp & E); [lia|lia|tauto|]. exists p; split; [exact Hp|]. rewrite E.
        change (prv 4 1) with 0%nat. f_equal. unfold pt4. simpl (INR 0). v2field; assumption.
      * destruct (G r i) as (p & Hp & E); [lia|lia|tauto|]. exists p; split; [exact Hp|]. rewrite E.
        change (prv 4 2) with 1%nat. f_equal. unfold pt4. v2field; assumption.
      * destruct (G (r - i) r)%nat as (p & Hp & E); [lia|lia|tauto|]. exists p; split; [exact Hp|]. rewrite E.
        change (prv 4 3) with 2%nat. f_equal. unfold pt4. rewrite minus_INR by lia. v2field; assumption.
    + assert (X : nth_error ps (ri (length vs) (cpos (length vs) r (s * r + i))) = Some (ptR vs c r r s i)).
      { apply paramsRing_nth; auto; lia. }
      destruct (Nat.eq_dec i r) as [->|Ei].
      * exists ((if S s =? length vs then 0 else S s) * r)%nat.
        split; [destruct (Nat.eqb_spec (S s) (length vs)); nia|].
        replace (cpos (length vs) r ((if S s =? length vs then 0 else S s) * r))%nat
          with (cpos (length vs) r (s * r + r)).
        { rewrite X. f_equal. unfold ptR. v2field; assumption. }
        rewrite <- (Nat.add_1_r s). replace (s * r + r)%nat with ((s + 1) * r)%nat by lia.
        apply cpos_wrap; [lia|exact Hs].
      * exists (s * r + i)%nat. split; [nia|]. rewrite X. f_equal. unfold ptR. v2field; assumption.
Qed.

(** *** Areas *)
Lemma sarea_comb3 : forall p q a b c x y z, x + y + z = 1 ->
  sarea p q (a *p x +p b *p y +p c *p z) = sarea p q a * x + sarea p q b * y + sarea p q c * z.
Proof.
  intros p q a b c x y z H. unfold sarea, pcross, psub, padd, pscale; simpl.
  replace z with (1 - x - y) by lra. ring.
Qed.
Lemma sarea_comb4 : forall p q a b c d x y z w, x + y + z + w = 1 ->
  sarea p q (a *p x +p b *p y +p c *p z +p d *p w)
  = sarea p q a * x + sarea p q b * y + sarea p q c * z + sarea p q d * w.
Proof.
  intros p q a b c d x y z w H. unfold sarea, pcross, psub, padd, pscale; simpl.
  replace w with (1 - x - y - z) by lra. ring.
Qed.
Lemma sarea_self1 : forall p q, sarea p q p = 0.
Proof. intros; unfold sarea, pcross, psub; simpl; ring. Qed.
Lemma sarea_self2 : forall p q, sarea p q q = 0.
Proof. intros; unfold sarea, pcross, psub; simpl; ring. Qed.
Lemma sarea_cycle : forall a b c, sarea a b c = sarea b c a.
Proof. intros; unfold sarea, pcross, psub; simpl; ring. Qed.

Lemma ratio_pos : forall i r, (0 < i)%nat -> (1 <= r)%nat -> 0 < INR i / INR r.
Proof. intros i r Hi Hr; apply Rdiv_lt_0_compat; apply lt_0_INR; lia. Qed.
Lemma ratio_nonneg : forall i r, (1 <= r)%nat -> 0 <= INR i / INR r.
Proof.
  intros i r Hr; apply Rmult_le_pos; [apply pos_INR|].
  left; apply Rinv_0_lt_compat, lt_0_INR; lia.
Qed.
Lemma ratio_sub : forall i j r, (j <= i)%nat -> (1 <= r)%nat ->
  (INR i - INR j) / INR r = INR (i - j) / INR r.
Proof. intros; rewrite minus_INR by lia; reflexivity. Qed.
Lemma ratio_one_minus : forall i r, (i <= r)%nat -> (1 <= r)%nat ->
  1 - INR i / INR r = INR (r - i) / INR r.
Proof. intros i r Hi Hr; rewrite minus_INR by lia. field. apply INR_neq0; exact Hr. Qed.
Lemma ratio_lt1 : forall i r, (i < r)%nat -> INR i / INR r < 1.
Proof.
  intros i r H. assert (0 < 1 - INR i / INR r); [|lra].
  rewrite ratio_one_minus by lia. apply ratio_pos; lia.
Qed.
Lemma ratio_le1 : forall i r, (i <= r)%nat -> (1 <= r)%nat -> INR i / INR r <= 1.
Proof.
  intros i r H Hr. assert (0 <= 1 - INR i / INR r); [|lra].
  rewrite ratio_one_minus by lia. apply ratio_nonneg; lia.
Qed.

Lemma sarea_nonneg : forall vs k i, strictly_convex vs -> (k < length vs)%nat -> (i < length vs)%nat ->
  0 <= sarea (vtx vs (prv (length vs) k)) (vtx vs k) (vtx vs i).
Proof.
  intros vs k i H Hk Hi.
  destruct (Nat.eq_dec i k) as [->|E]; [rewrite sarea_self2; lra|].
  destruct (Nat.eq_dec i (prv (length vs) k)) as [->|E']; [rewrite sarea_self1; lra|].
  left; apply H; assumption.
Qed.

(** Interior indices have parameters strictly inside. *)
Lemma interior_params : forall vs c r ps k, (3 <= length vs)%nat -> (1 <= r)%nat ->
  parametersImpl (length vs) c vs r = Some ps -> strictly_convex vs -> inside vs c ->
  (k < meshSize (length vs) r)%nat ->
  ~ (exists p, (p < length vs * r)%nat /\ mesh_loop (length vs) r p = k) ->
  exists q, nth_error ps k = Some q /\ inside vs q.
Proof.
  intros vs c r ps k Hn Hr H Hc Hin Hk Hne. unfold parametersImpl, mesh_loop in *.
  destruct (Nat.eqb_spec (length vs) 3) as [H3|H3].
  - rewrite H3 in Hk. rewrite meshSize3 in Hk. destruct (ix3_surj r k Hk) as (i & j & Hj & Hi & ->).
    exists (pt3 vs r i j). split; [apply params3_nth; assumption|].
    assert (X : ~ (i = r \/ j = 0 \/ j = i)%nat).
    { intros X; apply Hne. apply loop3_surj in X; try assumption.
      destruct X as (p & Hp & E). exists p; rewrite H3, E; auto. }
    intros m Hm. unfold pt3. rewrite ratio_one_minus, ratio_sub by lia.
    rewrite sarea_comb3.
    2:{ rewrite <- ratio_one_minus, <- ratio_sub by lia. field; apply INR_neq0; exact Hr. }
    pose proof (ratio_pos (r - i) r ltac:(lia) Hr). pose proof (ratio_pos (i - j) r ltac:(lia) Hr).
    pose proof (ratio_pos j r ltac:(lia) Hr).
    assert (P : forall a, (a < 3)%nat -> 0 <= sarea (vtx vs (prv (length vs) m)) (vtx vs m) (vtx vs a)).
    { intros a Ha; apply sarea_nonneg; [exact Hc|exact Hm|lia]. }
    assert (P0 := P 0%nat ltac:(lia)). assert (P1 := P 1%nat ltac:(lia)). assert (P2 := P 2%nat ltac:(lia)).
    assert (Q : exists a, (a < 3)%nat /\ 0 < sarea (vtx vs (prv (length vs) m)) (vtx vs m) (vtx vs a)).
    { exists (nxt 3 m). split; [apply nxt_lt; lia|]. rewrite H3 in *. pose proof (Hc m (nxt 3 m)) as G.
      rewrite H3 in G. apply G; [lia|apply nxt_lt; lia|apply nxt_neq; lia|apply nxt_prv_neq; lia]. }
    destruct Q as (a & Ha & Q). destruct a as [|[|[|a]]]; [| | |lia]; nra.
  - destruct (Nat.eqb_spec (length vs) 4) as [H4|H4].
    + rewrite H4 in Hk. destruct (ix4_surj r k Hk) as (i & j & Hi & Hj & ->).
      exists (pt4 vs r i j). split; [apply params4_nth; assumption|].
      assert (X : ~ (i = 0 \/ i = r \/ j = 0 \/ j = r)%nat).
      { intros X; apply Hne. apply loop4_surj in X; try assumption.
        destruct X as (p & Hp & E). exists p; rewrite H4, E; auto. }
      intros m Hm. unfold pt4. rewrite sarea_comb4 by ring.
      assert (U : 0 < INR i / INR r < 1) by (split; [apply ratio_pos; lia|apply ratio_lt1; lia]).
      assert (V : 0 < INR j / INR r < 1) by (split; [apply ratio_pos; lia|apply ratio_lt1; lia]).
      set (u := INR i / INR r) in *. set (v := INR j / INR r) in *.
      assert (W0 : 0 < (1 - u) * (1 - v)) by (apply Rmult_lt_0_compat; lra).
      assert (W1 : 0 < u * (1 - v)) by (apply Rmult_lt_0_compat; lra).
      assert (W2 : 0 < u * v) by (apply Rmult_lt_0_compat; lra).
      assert (W3 : 0 < (1 - u) * v) by (apply Rmult_lt_0_compat; lra).
      assert (P : forall a, (a < 4)%nat -> 0 <= sarea (vtx vs (prv (length vs) m)) (vtx vs m) (vtx vs a)).
      { intros a Ha; apply sarea_nonneg; [exact Hc|exact Hm|lia]. }
      assert (P0 := P 0%nat ltac:(lia)). assert (P1 := P 1%nat ltac:(lia)).
      assert (P2 := P 2%nat ltac:(lia)). assert (P3 := P 3%nat ltac:(lia)).
      assert (Q : exists a, (a < 4)%nat /\ 0 < sarea (vtx vs (prv (length vs) m)) (vtx vs m) (vtx vs a)).
      { exists (nxt 4 m). split; [apply nxt_lt; lia|]. rewrite H4 in *. pose proof (Hc m (nxt 4 m)) as G.
        rewrite H4 in G. apply G; [lia|apply nxt_lt; lia|apply nxt_neq; lia|apply nxt_prv_neq; lia]. }
      destruct Q as (a & Ha & Q).
      apply Rmult_le_compat_r with (r := (1 - u) * (1 - v)) in P0; [|lra].
      apply Rmult_le_compat_r with (r := u * (1 - v)) in P1; [|lra].
      apply Rmult_le_compat_r with (r := u * v) in P2; [|lra].
      apply Rmult_le_compat_r with (r := (1 - u) * v) in P3; [|lra].
      rewrite Rmult_0_l in P0, P1, P2, P3.
      destruct a as [|[|[|[|a]]]]; [| | | |lia];
        match goal with Q : 0 < ?x |- context[?x * ?w] =>
          assert (0 < x * w) by (apply Rmult_lt_0_compat; assumption) end; lra.
    + rewrite meshSizeRing in Hk by assumption.
      destruct (ri_surj (length vs) r k) as ([l p] & [Hl Hp] & Ek); [lia|exact Hk|]. cbn [fst snd] in *.
      assert (L : (l < r)%nat).
      { destruct (Nat.eq_dec l r) as [->|]; [|lia]. exfalso; apply Hne.
        destruct (Nat.eqb_spec r 0); [lia|].
        exists p; split; [exact Hp|]. rewrite Ek. unfold ri, cpos; cbn [fst snd].
        rewrite red_id by assumption. reflexivity. }
      assert (G : exists s v, (s < length vs)%nat /\ (v <= l)%nat /\ k = ri (length vs) (cpos (length vs) l (s * l + v))).
      { destruct (Nat.eqb_spec l 0) as [->|E0].
        - exists 0%nat, 0%nat. subst p. split; [lia|]. split; [lia|]. exact Ek.
        - destruct (pos_decompose (length vs) Hn l p Hp) as (s & v & Hs & Hv & ->).
          exists s, v. split; [exact Hs|]. split; [lia|]. rewrite Ek. unfold ri, cpos; cbn [fst snd].
          rewrite red_id by assumption. reflexivity. }
      destruct G as (s & v & Hs & Hv & ->).
      exists (ptR vs c r l s v). split; [apply paramsRing_nth; try assumption; lia|].
      intros m Hm. unfold ptR.
      pose proof (sarea_nonneg vs m s Hc Hm Hs) as P1.
      pose proof (sarea_nonneg vs m (prv (length vs) s) Hc Hm ltac:(apply prv_lt; lia)) as P2.
      pose proof (Hin m Hm) as P3.
      rewrite ratio_sub by lia.
      pose proof (ratio_nonneg (l - v) r Hr) as W1. pose proof (ratio_nonneg v r Hr) as W2.
      assert (W : INR (l - v) / INR r + INR v / INR r < 1).
      { rewrite minus_INR by lia. replace ((INR l - INR v) / INR r + INR v / INR r) with (INR l / INR r) by (unfold Rdiv; ring).
        apply ratio_lt1; exact L. }
      set (x := INR (l - v) / INR r) in *. set (y := INR v / INR r) in *.
      replace (sarea (vtx vs (prv (length vs) m)) (vtx vs m)
        (c +p (vtx vs (prv (length vs) s) -p c) *p x +p (vtx vs s -p c) *p y))
        with (sarea (vtx vs (prv (length vs) m)) (vtx vs m) c * (1 - x - y)
          + sarea (vtx vs (prv (length vs) m)) (vtx vs m) (vtx vs (prv (length vs) s)) * x
          + sarea (vtx vs (prv (length vs) m)) (vtx vs m) (vtx vs s) * y)
        by (unfold sarea, pcross, psub, padd, pscale; simpl; ring).
      assert (0 < sarea (vtx vs (prv (length vs) m)) (vtx vs m) c * (1 - x - y)) by (apply Rmult_lt_0_compat; lra).
      assert (0 <= sarea (vtx vs (prv (length vs) m)) (vtx vs m) (vtx vs (prv (length vs) s)) * x) by (apply Rmult_le_pos; lra).
      assert (0 <= sarea (vtx vs (prv (length vs) m)) (vtx vs m) (vtx vs s) * y) by (apply Rmult_le_pos; lra).
      lra.
Qed.
