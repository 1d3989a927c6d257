(** Proofs about the boundary of patch meshes. *)
From Verif Require Import Base MeshModel MeshSpec MeshProofs MeshProofs4 MeshProofsRing MeshEdge.
From Verif Require Import GeomSpec DomainModel MeshParams MeshGeom JoinModel JoinSpec.
Open Scope R_scope.

(** The side of the [t]-th part of the boundary loop. *)
Definition loopSide (n t : nat) : nat := if (n =? 3)%nat then nxt 3 t else if (n =? 4)%nat then nxt 4 t else t.
Lemma loopSide_lt : forall n t, (3 <= n)%nat -> (t < n)%nat -> (loopSide n t < n)%nat.
Proof.
  intros n t Hn Ht. unfold loopSide. destruct (Nat.eqb_spec n 3) as [->|]; [apply nxt_lt; lia|].
  destruct (Nat.eqb_spec n 4) as [->|]; [apply nxt_lt; lia|exact Ht].
Qed.
Lemma loopSide_onto : forall n e, (3 <= n)%nat -> (e < n)%nat -> exists t, (t < n)%nat /\ loopSide n t = e.
Proof.
  intros n e Hn He. unfold loopSide. destruct (Nat.eqb_spec n 3) as [->|].
  - exists (prv 3 e). split; [apply prv_lt; lia|]. apply nxt_prv; lia.
  - destruct (Nat.eqb_spec n 4) as [->|]; [|exists e; split; [exact He|reflexivity]].
    exists (prv 4 e). split; [apply prv_lt; lia|]. apply nxt_prv; lia.
Qed.
Lemma loop_params : forall vs c r ps t i, (3 <= length vs)%nat -> (1 <= r)%nat ->
  parametersImpl (length vs) c vs r = Some ps -> (t < length vs)%nat -> (i <= r)%nat ->
  nth_error ps (mesh_loop (length vs) r ((t * r + i) mod (length vs * r))) =
  edgePoint (length vs) vs (loopSide (length vs) t) (INR i / INR r).
Proof.
  intros vs c r ps t i Hn Hr H Ht Hi. pose proof (INR_neq0 r Hr) as Hr0. rewrite edgePoint_some by (apply loopSide_lt; lia).
  unfold parametersImpl, mesh_loop, loopSide in *.
  assert (MM : forall m, (t < m)%nat -> ((t * r + i) mod (m * r) = if (t * r + i =? m * r)%nat then 0 else t * r + i)%nat).
  { intros m Hm. destruct (Nat.eqb_spec (t * r + i) (m * r)) as [E|E]; [rewrite E; apply Nat.mod_same; nia|apply Nat.mod_small; nia]. }
  destruct (Nat.eqb_spec (length vs) 3) as [H3|H3].
  - rewrite H3 in *. rewrite MM by exact Ht.
    assert (G : forall a b, (b <= a)%nat -> (a <= r)%nat -> nth_error ps (ix3 (a, b)) = Some (pt3 vs r a b)) by (intros; apply params3_nth; assumption).
    destruct t as [|[|[|t]]]; [| | |lia]; unfold loop3.
    + destruct (Nat.eqb_spec (0 * r + i) (3 * r)); [lia|]. destruct (Nat.leb_spec (0 * r + i) r); [|lia]. cbn [Nat.mul Nat.add]. rewrite G by lia.
      change (nxt 3 0) with 1%nat. change (prv 3 1) with 0%nat. f_equal. unfold pt3. v2field; assumption.
    + destruct (Nat.eqb_spec (1 * r + i) (3 * r)); [lia|]. change (nxt 3 1) with 2%nat. change (prv 3 2) with 1%nat.
      destruct (Nat.leb_spec (1 * r + i) r) as [L|L].
      * assert (i = 0)%nat by lia. subst i. replace (1 * r + 0)%nat with r by lia. rewrite G by lia. f_equal. unfold pt3. simpl (INR 0). v2field; assumption.
      * destruct (Nat.leb_spec (1 * r + i) (2 * r)); [|lia]. replace (2 * r - (1 * r + i))%nat with (r - i)%nat by lia. rewrite G by lia. f_equal.
        unfold pt3. rewrite minus_INR by lia. v2field; assumption.
    + change (nxt 3 2) with 0%nat. change (prv 3 0) with 2%nat. destruct (Nat.eqb_spec (2 * r + i) (3 * r)) as [L|L].
      * assert (i = r) by lia. subst i. destruct (Nat.leb_spec 0 r); [|lia]. rewrite G by lia. f_equal. unfold pt3. simpl (INR 0). v2field; assumption.
      * destruct (Nat.leb_spec (2 * r + i) r); [lia|]. destruct (Nat.leb_spec (2 * r + i) (2 * r)) as [Q|Q].
        -- assert (i = 0)%nat by lia. subst i. replace (2 * r - (2 * r + 0))%nat with 0%nat by lia. rewrite G by lia. f_equal. unfold pt3. simpl (INR 0). v2field; assumption.
        -- replace (2 * r + i - 2 * r)%nat with i by lia. rewrite G by lia. f_equal. unfold pt3. simpl (INR 0). v2field; assumption.
  - destruct (Nat.eqb_spec (length vs) 4) as [H4|H4].
    + rewrite H4 in *. rewrite MM by exact Ht.
      assert (G : forall a b, (b <= r)%nat -> (a <= r)%nat -> nth_error ps (ix4 r (a, b)) = Some (pt4 vs r a b)) by (intros; apply params4_nth; assumption).
      destruct t as [|[|[|[|t]]]]; [| | | |lia]; unfold loop4.
      * destruct (Nat.eqb_spec (0 * r + i) (4 * r)); [lia|]. destruct (Nat.leb_spec (0 * r + i) r); [|lia]. cbn [Nat.mul Nat.add]. rewrite G by lia.
        change (nxt 4 0) with 1%nat. change (prv 4 1) with 0%nat. f_equal. unfold pt4. simpl (INR 0). v2field; assumption.
      * destruct (Nat.eqb_spec (1 * r + i) (4 * r)); [lia|]. change (nxt 4 1) with 2%nat. change (prv 4 2) with 1%nat.
        destruct (Nat.leb_spec (1 * r + i) r) as [L|L].
        -- assert (i = 0)%nat by lia. subst i. replace (1 * r + 0)%nat with r by lia. rewrite G by lia. f_equal. unfold pt4. simpl (INR 0). v2field; assumption.
        -- destruct (Nat.leb_spec (1 * r + i) (2 * r)); [|lia]. replace (1 * r + i - r)%nat with i by lia. rewrite G by lia. f_equal. unfold pt4. v2field; assumption.
      * destruct (Nat.eqb_spec (2 * r + i) (4 * r)); [lia|]. change (nxt 4 2) with 3%nat. change (prv 4 3) with 2%nat.
        destruct (Nat.leb_spec (2 * r + i) r); [lia|]. destruct (Nat.leb_spec (2 * r + i) (2 * r)) as [L|L].
        -- assert (i = 0)%nat by lia. subst i. replace (2 * r + 0 - r)%nat with r by lia. rewrite G by lia. f_equal. unfold pt4. simpl (INR 0). v2field; assumption.
        -- destruct (Nat.leb_spec (2 * r + i) (3 * r)); [|lia]. replace (3 * r - (2 * r + i))%nat with (r - i)%nat by lia. rewrite G by lia. f_equal.
           unfold pt4. rewrite minus_INR by lia. v2field; assumption.
      * change (nxt 4 3) with 0%nat. change (prv 4 0) with 3%nat. destruct (Nat.eqb_spec (3 * r + i) (4 * r)) as [L|L].
        -- assert (i = r) by lia. subst i. destruct (Nat.leb_spec 0 r); [|lia]. rewrite G by lia. f_equal. unfold pt4. simpl (INR 0). v2field; assumption.
        -- destruct (Nat.leb_spec (3 * r + i) r); [lia|]. destruct (Nat.leb_spec (3 * r + i) (2 * r)); [lia|]. destruct (Nat.leb_spec (3 * r + i) (3 * r)) as [Q|Q].
           ++ assert (i = 0)%nat by lia. subst i. replace (3 * r - (3 * r + 0))%nat with 0%nat by lia. rewrite G by lia. f_equal. unfold pt4. simpl (INR 0). v2field; assumption.
           ++ replace (4 * r - (3 * r + i))%nat with (r - i)%nat by lia. rewrite G by lia. f_equal. unfold pt4. simpl (INR 0). rewrite minus_INR by lia. v2field; assumption.
    + assert (X : nth_error ps (ri (length vs) (cpos (length vs) r (t * r + i))) = Some (ptR vs c r r t i)) by (apply paramsRing_nth; auto; lia).
      replace (cpos (length vs) r ((t * r + i) mod (length vs * r))) with (cpos (length vs) r (t * r + i)).
      * rewrite X. f_equal. unfold ptR. v2field; assumption.
      * unfold cpos, red. destruct (Nat.eqb_spec r 0); [lia|]. rewrite Nat.mod_mod by nia. reflexivity.
Qed.

(** ** Points of the rim *)
Lemma mapM_nth : forall (A B : Type) (f : A -> option B) l l', mapM f l = Some l' -> forall k x, nth_error l k = Some x -> exists y, f x = Some y /\ nth_error l' k = Some y.
Proof.
  intros A B f l. induction l as [|a l IH]; intros l' H k x E; [destruct k; discriminate|].
  cbn [mapM] in H. destruct (f a) as [y|] eqn:Ey; [|discriminate]. cbn [bind] in H. destruct (mapM f l) as [t|] eqn:Et; [|discriminate]. cbn [bind] in H. injection H as <-.
  destruct k as [|k]; cbn [nth_error] in *; [injection E as <-; exists y; split; [exact Ey|reflexivity]|]. apply (IH t eq_refl k x E).
Qed.
Lemma rim_loop : forall m n r L side bd, (1 <= n)%nat -> (1 <= r)%nat -> boundary_loop (pm_tris m) (n * r) L ->
  (forall t, (t < n)%nat -> (side t < n)%nat) -> (forall e, (e < n)%nat -> exists t, (t < n)%nat /\ side t = e) ->
  (forall t i, (t < n)%nat -> (i <= r)%nat -> nth_error (pm_points m) (L ((t * r + i) mod (n * r))%nat) = Some (bd (side t) (INR i / INR r))) ->
  forall P Q, has_rim m P Q <-> exists e i, (e < n)%nat /\ (i < r)%nat /\ P = bd e (INR i / INR r) /\ Q = bd e (INR (S i) / INR r).
Proof.
  intros m n r L side bd Hn Hr [_ BL] S1 S2 HP P Q.
  assert (K : forall t i, (t < n)%nat -> (i < r)%nat -> (t * r + i < n * r)%nat /\ ((t * r + i) mod (n * r) = t * r + i)%nat /\ ((t * r + i + 1) mod (n * r) = (t * r + S i) mod (n * r))%nat).
  { intros t i Ht Hi. assert ((t * r + i < n * r)%nat) by nia. split; [assumption|]. split; [apply Nat.mod_small; assumption|f_equal; lia]. }
  split.
  - intros (a & b & B & Ea & Eb). apply BL in B. destruct B as (p & Hp & E). injection E as -> ->.
    assert (D := Nat.div_mod p r ltac:(lia)). assert (M := Nat.mod_upper_bound p r ltac:(lia)). set (t := (p / r)%nat) in *. set (i := (p mod r)%nat) in *.
    assert (Ht : (t < n)%nat) by nia. replace p with (t * r + i)%nat in * by lia. destruct (K t i Ht M) as (_ & K1 & K2).
    pose proof (HP t i Ht ltac:(lia)) as A1. rewrite K1 in A1. pose proof (HP t (S i) Ht ltac:(lia)) as A2. rewrite K2 in Eb.
    rewrite A1 in Ea. rewrite A2 in Eb. injection Ea as <-. injection Eb as <-. exists (side t), i. split; [apply S1; exact Ht|]. split; [exact M|]. split; reflexivity.
  - intros (e & i & He & Hi & -> & ->). destruct (S2 e He) as (t & Ht & <-). destruct (K t i Ht Hi) as (K0 & K1 & K2).
    exists (L (t * r + i)%nat), (L ((t * r + i + 1) mod (n * r))%nat). split; [apply BL; exists (t * r + i)%nat; split; [exact K0|reflexivity]|].
    split; [rewrite <- K1; apply HP; lia|rewrite K2; apply HP; lia].
Qed.
Lemma nxt_mod : forall n e, nxt n e = ((e + 1) mod n)%nat.
Proof. intros n e. unfold nxt. reflexivity. Qed.
Lemma follows_end : forall vs r eval bd, (3 <= length vs)%nat -> (1 <= r)%nat -> follows (length vs) r (edgePoint (length vs) vs) eval bd -> loop_of (length vs) bd ->
  forall e i uv, (e < length vs)%nat -> (i <= r)%nat -> edgePoint (length vs) vs e (INR i / INR r) = Some uv -> eval uv = Some (bd e (INR i / INR r)).
Proof.
  intros vs r eval bd Hn Hr F C e i uv He Hi E. pose proof (INR_neq0 r Hr) as Hr0. destruct (Nat.eq_dec i r) as [->|N]; [|apply (F e i uv); try assumption; lia].
  replace (INR r / INR r) with 1 in * by (field; exact Hr0). rewrite (C e He). rewrite <- nxt_mod.
  assert (Hx : (nxt (length vs) e < length vs)%nat) by (apply nxt_lt; lia). replace 0 with (INR 0 / INR r) by (simpl; unfold Rdiv; ring).
  apply (F (nxt (length vs) e) 0%nat uv Hx ltac:(lia)). rewrite edgePoint_some in E |- * by assumption. rewrite <- E. f_equal. rewrite prv_nxt by exact He.
  simpl (INR 0). v2field; assumption.
Qed.
Lemma mesh_rim : forall vs c r eval bd m, (3 <= length vs)%nat -> (1 <= r)%nat -> surfaceMesh (length vs) c vs eval r = Some m ->
  follows (length vs) r (edgePoint (length vs) vs) eval bd -> loop_of (length vs) bd ->
  forall P Q, has_rim m P Q <-> exists e i, (e < length vs)%nat /\ (i < r)%nat /\ P = bd e (INR i / INR r) /\ Q = bd e (INR (S i) / INR r).
Proof.
  intros vs c r eval bd m Hn Hr H F C. unfold surfaceMesh in H. destruct (parametersImpl (length vs) c vs r) as [ps|] eqn:Ep; [|discriminate]. cbn [bind] in H.
  destruct (mapM eval ps) as [pts|] eqn:Em; [|discriminate]. cbn [bind] in H. injection H as <-.
  apply (rim_loop _ (length vs) r (mesh_loop (length vs) r) (loopSide (length vs)) bd); try lia; try assumption.
  - apply mesh_boundary. exact Hn.
  - intros t Ht. apply loopSide_lt; assumption.
  - intros e He. apply loopSide_onto; assumption.
  - intros t i Ht Hi. cbn [pm_points]. pose proof (loop_params vs c r ps t i Hn Hr Ep Ht Hi) as E. assert (Hl : (loopSide (length vs) t < length vs)%nat) by (apply loopSide_lt; assumption).
    pose proof E as E'. rewrite edgePoint_some in E' by exact Hl.
    destruct (mapM_nth _ _ _ _ _ Em _ _ E') as (y & Ey & ->). rewrite <- Ey. apply (follows_end vs r eval bd Hn Hr F C); try assumption.
    rewrite edgePoint_some by exact Hl. reflexivity.
Qed.
Lemma circle_nth : forall n r t i, (3 <= n)%nat -> (1 <= r)%nat -> (t < n)%nat -> (i < r)%nat ->
  forall ps, parametersImplCircle n r = Some ps -> nth_error ps (ri n (cpos n r (t * r + i))) = edgePointCircle n t (INR i / INR r).
Proof.
  intros n r t i Hn Hr Ht Hi ps H. pose proof (INR_neq0 r Hr). pose proof (INR_neq0 n ltac:(lia)). rewrite paramsCircle_closed in H by lia. injection H as <-. unfold ri, cpos. cbn [fst snd]. rewrite red_id by nia.
  rewrite (ring_list_nth n (mkV2 0 0) (ptC n r) r r t i) by lia. unfold edgePointCircle. rewrite fdiv_some by assumption. cbn [bind]. unfold ptC. do 2 f_equal. field. assumption.
Qed.
Lemma mesh_rim_circle : forall n r eval bd m, (3 <= n)%nat -> (1 <= r)%nat -> surfaceMeshCircle n eval r = Some m ->
  follows n r (edgePointCircle n) eval bd -> loop_of n bd ->
  forall P Q, has_rim m P Q <-> exists e i, (e < n)%nat /\ (i < r)%nat /\ P = bd e (INR i / INR r) /\ Q = bd e (INR (S i) / INR r).
Proof.
  intros n r eval bd m Hn Hr H F C. pose proof (INR_neq0 r Hr) as Hr0. pose proof (INR_neq0 n ltac:(lia)) as Hn0. unfold surfaceMeshCircle in H. destruct (parametersImplCircle n r) as [ps|] eqn:Ep; [|discriminate]. cbn [bind] in H.
  destruct (mapM eval ps) as [pts|] eqn:Em; [|discriminate]. cbn [bind] in H. injection H as <-.
  assert (G : forall t i, (t < n)%nat -> (i < r)%nat -> nth_error pts (ri n (cpos n r (t * r + i))) = Some (bd t (INR i / INR r))).
  { intros t i Ht Hi. pose proof (circle_nth n r t i Hn Hr Ht Hi ps Ep) as E.
    assert (X : exists uv, edgePointCircle n t (INR i / INR r) = Some uv) by (unfold edgePointCircle; rewrite fdiv_some by assumption; eexists; reflexivity).
    destruct X as [uv X]. rewrite X in E. destruct (mapM_nth _ _ _ _ _ Em _ _ E) as (y & Ey & ->). rewrite <- Ey. apply (F t i uv); assumption. }
  apply (rim_loop _ n r (fun p => ri n (cpos n r p)) (fun t => t) bd); try lia.
  - apply boundaryR. exact Hn.
  - intros e He. exists e. split; [exact He|reflexivity].
  - intros t i Ht Hi. cbn [pm_points].
    replace (cpos n r ((t * r + i) mod (n * r))) with (cpos n r (t * r + i)) by (unfold cpos, red; destruct (Nat.eqb_spec r 0); [lia|]; rewrite Nat.mod_mod by nia; reflexivity).
    destruct (Nat.eq_dec i r) as [->|N]; [|apply G; lia]. replace (INR r / INR r) with 1 by (field; exact Hr0). rewrite (C t Ht), <- nxt_mod.
    replace 0 with (INR 0 / INR r) by (simpl; unfold Rdiv; ring). rewrite <- G by (try apply nxt_lt; lia). f_equal. f_equal. rewrite (nxt_cases n t Ht). unfold cpos, red. destruct (Nat.eqb_spec r 0); [lia|]. f_equal.
    destruct (Nat.eqb_spec (S t) n) as [E|E].
    + replace (t * r + r)%nat with (n * r)%nat by nia. rewrite Nat.mod_same by nia. symmetry. apply Nat.mod_small. nia.
    + f_equal. lia.
Qed.
(** An edge of a mesh has its opposite in the same mesh or is on the rim. *)
Lemma edge_or_rim : forall m P Q, has_edge m P Q -> has_edge m Q P \/ has_rim m P Q.
Proof.
  intros m P Q (a & b & H & Ea & Eb). assert (D : forall x y : nat * nat, {x = y} + {x <> y}) by (decide equality; apply Nat.eq_dec). destruct (in_dec D (b, a) (mesh_edges (pm_tris m))) as [I|I].
  - left. exists b, a. split; [exact I|split; assumption].
  - right. exists a, b. split; [split; [exact H|exact I]|split; assumption].
Qed.
Lemma rim_edge : forall m P Q, has_rim m P Q -> has_edge m P Q.
Proof. intros m P Q (a & b & [H _] & E). exists a, b. split; assumption. Qed.
