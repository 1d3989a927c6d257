(** Convex combinations and orientation of the mesh triangles. *)

From Verif Require Import Base MeshModel MeshSpec MeshProofs MeshProofs4 MeshProofsRing MeshEdge.
From Verif Require Import GeomSpec DomainModel MeshParams MeshGeom.
Open Scope R_scope.

Lemma hull_vertex : forall vs i, (i < length vs)%nat -> in_hull vs (vtx vs i).
Proof.
  intros vs i Hi. exists (fun j => if (j =? i)%nat then 1 else 0). split; [split|].
  - intros j _; destruct (j =? i)%nat; lra.
  - rewrite (rsum_single _ _ i) by (try exact Hi; intros j _ Hj; apply Nat.eqb_neq in Hj; rewrite Hj; reflexivity).
    rewrite Nat.eqb_refl; reflexivity.
  - unfold combination. apply V2_ext; rewrite ?psum_x, ?psum_y; simpl.
    + rewrite (rsum_single _ _ i) by (try exact Hi; intros j _ Hj; apply Nat.eqb_neq in Hj; rewrite Hj; ring).
      rewrite Nat.eqb_refl; ring.
    + rewrite (rsum_single _ _ i) by (try exact Hi; intros j _ Hj; apply Nat.eqb_neq in Hj; rewrite Hj; ring).
      rewrite Nat.eqb_refl; ring.
Qed.

Lemma hull_mix : forall vs p q a b, in_hull vs p -> in_hull vs q -> 0 <= a -> 0 <= b -> a + b = 1 ->
  in_hull vs (p *p a +p q *p b).
Proof.
  intros vs p q a b (w & [Hw Sw] & Cw) (z & [Hz Sz] & Cz) Ha Hb Hab.
  exists (fun i => w i * a + z i * b). split; [split|].
  - intros i Hi. specialize (Hw i Hi); specialize (Hz i Hi). nra.
  - rewrite (rsum_plus _ (fun i => w i * a) (fun i => z i * b)), !rsum_scal_r, Sw, Sz. lra.
  - unfold combination in *. rewrite Cw, Cz.
    apply V2_ext; rewrite ?psum_x, ?psum_y; simpl; rewrite ?psum_x, ?psum_y; simpl;
      rewrite <- !rsum_scal_r, <- rsum_plus; apply rsum_ext; intros; ring.
Qed.

Lemma hull_mix3 : forall vs p q s a b c, in_hull vs p -> in_hull vs q -> in_hull vs s ->
  0 <= a -> 0 <= b -> 0 <= c -> a + b + c = 1 ->
  in_hull vs (p *p a +p q *p b +p s *p c).
Proof.
  intros vs p q s a b c Hp Hq Hs Ha Hb Hc H.
  destruct (Req_dec c 1) as [->|E].
  - replace (p *p a +p q *p b +p s *p 1) with s; [exact Hs|].
    assert (a = 0) by lra. assert (b = 0) by lra. subst. v2ring.
  - replace (p *p a +p q *p b +p s *p c)
      with ((p *p (a / (1 - c)) +p q *p (b / (1 - c))) *p (1 - c) +p s *p c) by (v2field; lra).
    apply hull_mix; try lra; [|exact Hs].
    assert (0 < 1 - c) by lra. pose proof (Rinv_0_lt_compat _ H0).
    apply hull_mix; try assumption; try (unfold Rdiv; apply Rmult_le_pos; lra).
    replace (a / (1 - c) + b / (1 - c)) with ((a + b) / (1 - c)) by (field; lra).
    replace (a + b) with (1 - c) by lra. field; lra.
Qed.

(** *** The centre *)
Lemma fold_padd : forall (f : nat -> V2) n, fold_left padd (tabulate n f) pzero = psum n f.
Proof.
  intros f n; induction n as [|n IH]; [reflexivity|].
  unfold tabulate in *. rewrite seq_S, map_app, fold_left_app, IH. reflexivity.
Qed.
Lemma fold_rplus : forall (f : nat -> R) n, accumulate (tabulate n f) = rsum n f.
Proof.
  intros f n; induction n as [|n IH]; [reflexivity|].
  unfold accumulate, tabulate in *. rewrite seq_S, map_app, fold_left_app, IH. reflexivity.
Qed.

Definition slen (vs : list V2) (i : nat) : R := pnorm (vtx vs i -p vtx vs (prv (length vs) i)).
Definition perimeter (vs : list V2) : R := rsum (length vs) (slen vs).

Lemma sideLengths_closed : forall vs, sideLengths vs = Some (tabulate (length vs) (slen vs)).
Proof.
  intros vs; unfold sideLengths. apply mapM_seq; intros i Hi.
  rewrite !vtx_nth by (try apply prv_lt; lia). reflexivity.
Qed.

Lemma computeCenter_closed : forall vs, perimeter vs <> 0 ->
  computeCenter vs = Some (psum (length vs) (fun i =>
    vtx vs i *p ((slen vs i + slen vs (nxt (length vs) i)) / (2 * perimeter vs)))).
Proof.
  intros vs Hp; unfold computeCenter. rewrite sideLengths_closed. cbn [bind].
  rewrite (mapM_seq _ _ _ (fun i => vtx vs i *p (slen vs i + slen vs (nxt (length vs) i)))).
  - cbn [bind]. rewrite fold_padd, fold_rplus. fold (perimeter vs).
    rewrite pdiv_some by lra. f_equal.
    apply V2_ext; simpl; rewrite ?psum_x, ?psum_y, <- rsum_scal_r; apply rsum_ext; intros; simpl; field; exact Hp.
  - intros i Hi. rewrite vtx_nth by exact Hi. cbn [bind].
    rewrite !tabulate_nth_error by (try apply nxt_lt; lia). reflexivity.
Qed.

Lemma computeCenter_none : forall vs, perimeter vs = 0 -> computeCenter vs = None.
Proof.
  intros vs Hp; unfold computeCenter. rewrite sideLengths_closed. cbn [bind].
  rewrite (mapM_seq _ _ _ (fun i => vtx vs i *p (slen vs i + slen vs (nxt (length vs) i)))).
  - cbn [bind]. rewrite fold_rplus. fold (perimeter vs). rewrite Hp. unfold pdiv.
    destruct (Req_EM_T (0 * 2) 0) as [_|E]; [reflexivity|lra].
  - intros i Hi. rewrite vtx_nth by exact Hi. cbn [bind].
    rewrite !tabulate_nth_error by (try apply nxt_lt; lia). reflexivity.
Qed.

Lemma slen_nonneg : forall vs i, 0 <= slen vs i.
Proof. intros; apply pnorm_nonneg. Qed.
Lemma perimeter_nonneg : forall vs, 0 <= perimeter vs.
Proof. intros; apply rsum_nonneg; intros; apply slen_nonneg. Qed.

Lemma center_weights_sum : forall vs, perimeter vs <> 0 ->
  rsum (length vs) (fun i => (slen vs i + slen vs (nxt (length vs) i)) / (2 * perimeter vs)) = 1.
Proof.
  intros vs Hp. rewrite rsum_div, rsum_plus, (rsum_nxt (length vs) (slen vs)).
  fold (perimeter vs). field; exact Hp.
Qed.

Lemma center_in_hull : forall vs c, computeCenter vs = Some c -> in_hull vs c.
Proof.
  intros vs c H. destruct (Req_dec (perimeter vs) 0) as [E|E];
    [rewrite computeCenter_none in H by exact E; discriminate|].
  rewrite computeCenter_closed in H by exact E. injection H as <-.
  eexists; split; [split|reflexivity].
  - intros i _. pose proof (slen_nonneg vs i). pose proof (slen_nonneg vs (nxt (length vs) i)).
    pose proof (perimeter_nonneg vs). unfold Rdiv; apply Rmult_le_pos; [lra|].
    left; apply Rinv_0_lt_compat; lra.
  - apply center_weights_sum; exact E.
Qed.

Lemma sarea_psum : forall a b n (w : nat -> R) (f : nat -> V2), rsum n w = 1 ->
  sarea a b (psum n (fun i => f i *p w i)) = rsum n (fun i => sarea a b (f i) * w i).
Proof.
  intros a b n w f H. unfold sarea, pcross, psub; simpl. rewrite psum_x, psum_y; simpl.
  replace ((px b - px a) * (rsum n (fun i => py (f i) * w i) - py a) -
    (py b - py a) * (rsum n (fun i => px (f i) * w i) - px a))
    with ((px b - px a) * (rsum n (fun i => py (f i) * w i) - py a * rsum n w) -
    (py b - py a) * (rsum n (fun i => px (f i) * w i) - px a * rsum n w)) by (rewrite H; ring).
  rewrite <- !rsum_scal, <- !rsum_minus, <- !rsum_scal, <- rsum_minus.
  apply rsum_ext; intros; ring.
Qed.

(** A strictly convex polygon has positive side lengths. *)
Lemma convex_slen_pos : forall vs i, (3 <= length vs)%nat -> strictly_convex vs -> (i < length vs)%nat ->
  0 < slen vs i.
Proof.
  intros vs i Hn Hc Hi. destruct (slen_nonneg vs i) as [L|L]; [exact L|exfalso].
  unfold slen in L. symmetry in L. apply pnorm_zero in L.
  assert (X := Hc i (nxt (length vs) i) Hi ltac:(apply nxt_lt; lia) ltac:(apply nxt_neq; lia)
    ltac:(apply nxt_prv_neq; lia)).
  assert (Lx := f_equal px L). assert (Ly := f_equal py L). simpl in Lx, Ly.
  unfold sarea, pcross in X; simpl in X.
  rewrite Lx, Ly in X. lra.
Qed.

Lemma rsum_pos_one : forall n f i, (i < n)%nat -> (forall j, (j < n)%nat -> 0 <= f j) -> 0 < f i -> 0 < rsum n f.
Proof.
  intros n f i Hi Hf Hp. rewrite (rsum_split1 n f i Hi).
  assert (0 <= rsum n (fun j => if (j =? i)%nat then 0 else f j)); [|lra].
  apply rsum_nonneg; intros j Hj; destruct (j =? i)%nat; [lra|apply Hf; exact Hj].
Qed.

Lemma center_inside : forall vs c, (3 <= length vs)%nat -> strictly_convex vs ->
  computeCenter vs = Some c -> inside vs c.
Proof.
  intros vs c Hn Hc H k Hk.
  assert (P : 0 < perimeter vs).
  { apply (rsum_pos_one _ _ 0%nat); [lia|intros; apply slen_nonneg|apply convex_slen_pos; try assumption; lia]. }
  rewrite computeCenter_closed in H by lra. injection H as <-.
  rewrite sarea_psum by (apply center_weights_sum; lra).
  assert (W : forall i, (i < length vs)%nat -> 0 < (slen vs i + slen vs (nxt (length vs) i)) / (2 * perimeter vs)).
  { intros i Hi. pose proof (convex_slen_pos vs i Hn Hc Hi).
    pose proof (slen_nonneg vs (nxt (length vs) i)). apply Rdiv_lt_0_compat; lra. }
  apply (rsum_pos_one _ _ (nxt (length vs) k)).
  - apply nxt_lt; lia.
  - intros j Hj. apply Rmult_le_pos; [apply sarea_nonneg; assumption|left; apply W; exact Hj].
  - apply Rmult_lt_0_compat; [|apply W, nxt_lt; lia].
    apply Hc; [exact Hk|apply nxt_lt; lia|apply nxt_neq; lia|apply nxt_prv_neq; lia].
Qed.

Lemma computeCenter_exists : forall vs, (3 <= length vs)%nat -> strictly_convex vs ->
  exists c, computeCenter vs = Some c.
Proof.
  intros vs Hn Hc. eexists; apply computeCenter_closed.
  assert (0 < perimeter vs); [|lra].
  apply (rsum_pos_one _ _ 0%nat); [lia|intros; apply slen_nonneg|apply convex_slen_pos; try assumption; lia].
Qed.

(** *** C07 *)
Lemma nth_error_lt : forall {A} (l : list A) i x, nth_error l i = Some x -> (i < length l)%nat.
Proof. intros A l i x H; apply nth_error_Some; rewrite H; discriminate. Qed.

Lemma params_in_hull : forall vs c r ps p, (3 <= length vs)%nat -> (1 <= r)%nat ->
  (length vs <> 3%nat -> length vs <> 4%nat -> in_hull vs c) ->
  parametersImpl (length vs) c vs r = Some ps -> In p ps -> in_hull vs p.
Proof.
  intros vs c r ps p Hn Hr Hc H Hp. apply In_nth_error in Hp. destruct Hp as (k & Hk).
  destruct (parameters_length (length vs) c vs r Hn Hr eq_refl) as (ps' & E & Hlen).
  assert (ps' = ps) by congruence; subst ps'.
  pose proof (nth_error_lt _ _ _ Hk) as Lk. rewrite Hlen in Lk. unfold parametersImpl in H.
  destruct (Nat.eqb_spec (length vs) 3) as [H3|H3].
  - rewrite H3 in Lk. rewrite meshSize3 in Lk. destruct (ix3_surj r k Lk) as (i & j & Hj & Hi & ->).
    rewrite (params3_nth vs r ps i j H3 Hr H Hj Hi) in Hk. injection Hk as <-.
    unfold pt3. apply hull_mix3; try (apply hull_vertex; lia).
    + rewrite ratio_one_minus by lia; apply ratio_nonneg; exact Hr.
    + rewrite ratio_sub by lia; apply ratio_nonneg; exact Hr.
    + apply ratio_nonneg; exact Hr.
    + field; apply INR_neq0; exact Hr.
  - destruct (Nat.eqb_spec (length vs) 4) as [H4|H4].
    + rewrite H4 in Lk. destruct (ix4_surj r k Lk) as (i & j & Hi & Hj & ->).
      rewrite (params4_nth vs r ps i j H4 Hr H Hj Hi) in Hk. injection Hk as <-.
      pose proof (ratio_nonneg i r Hr). pose proof (ratio_nonneg j r Hr).
      pose proof (ratio_le1 i r Hi Hr). pose proof (ratio_le1 j r Hj Hr).
      unfold pt4. set (u := INR i / INR r) in *; set (v := INR j / INR r) in *.
      replace (vtx vs 0 *p ((1 - u) * (1 - v)) +p vtx vs 1 *p (u * (1 - v)) +p vtx vs 2 *p (u * v) +p vtx vs 3 *p ((1 - u) * v))
        with ((vtx vs 0 *p (1 - u) +p vtx vs 1 *p u) *p (1 - v) +p (vtx vs 3 *p (1 - u) +p vtx vs 2 *p u) *p v) by v2ring.
      apply hull_mix; try lra; apply hull_mix; try lra; apply hull_vertex; lia.
    + rewrite meshSizeRing in Lk by assumption.
      destruct (ri_surj (length vs) r k) as ([l q] & [Hl Hq] & Ek); [lia|exact Lk|]. cbn [fst snd] in *.
      assert (G : exists s v, (s < length vs)%nat /\ (v <= l)%nat /\ k = ri (length vs) (cpos (length vs) l (s * l + v))).
      { destruct (Nat.eqb_spec l 0) as [->|E0].
        - exists 0%nat, 0%nat. subst q. split; [lia|]. split; [lia|]. exact Ek.
        - destruct (pos_decompose (length vs) Hn l q Hq) as (s & v & Hs & Hv & ->).
          exists s, v. split; [exact Hs|]. split; [lia|]. rewrite Ek. unfold ri, cpos; cbn [fst snd].
          rewrite red_id by assumption. reflexivity. }
      destruct G as (s & v & Hs & Hv & ->).
      rewrite (paramsRing_nth vs c r ps l s v Hn Hr H) in Hk by assumption. injection Hk as <-.
      unfold ptR. rewrite ratio_sub by lia.
      set (x := INR (l - v) / INR r). set (y := INR v / INR r).
      replace (c +p (vtx vs (prv (length vs) s) -p c) *p x +p (vtx vs s -p c) *p y)
        with (vtx vs (prv (length vs) s) *p x +p vtx vs s *p y +p c *p (1 - x - y)) by v2ring.
      apply hull_mix3.
      * apply hull_vertex, prv_lt; lia.
      * apply hull_vertex; exact Hs.
      * apply Hc; assumption.
      * apply ratio_nonneg; exact Hr.
      * apply ratio_nonneg; exact Hr.
      * unfold x, y. rewrite minus_INR by lia. replace (1 - (INR l - INR v) / INR r - INR v / INR r) with (1 - INR l / INR r) by (unfold Rdiv; ring).
        rewrite ratio_one_minus by lia. apply ratio_nonneg; exact Hr.
      * ring.
Qed.

(** *** C08 *)
Lemma orient3 : forall vs r ps t a b c, length vs = 3%nat -> (1 <= r)%nat ->
  params3 vs r = Some ps -> 0 < sarea (vtx vs 0) (vtx vs 1) (vtx vs 2) ->
  In t (topology3 r) -> t = (a, b, c) -> exists p q s,
  nth_error ps a = Some p /\ nth_error ps b = Some q /\ nth_error ps c = Some s /\ 0 < sarea p q s.
Proof.
  intros vs r ps t a b c Hl Hr H Ho Ht E. rewrite topology3_closed in Ht. apply in_map_iff in Ht.
  destruct Ht as ([[i j] up] & <- & Hx). apply in_idx3 in Hx. destruct Hx as (Hi & Hj & Hb).
  pose proof (INR_neq0 r Hr) as Hr0.
  assert (A : forall x y z, x = sarea (vtx vs 0) (vtx vs 1) (vtx vs 2) / (INR r * INR r) ->
    y = z -> y = x -> 0 < z).
  { intros x y z -> <- ->. apply Rdiv_lt_0_compat; [exact Ho|]. 
    assert (0 < INR r) by (apply lt_0_INR; lia). nra. }
  destruct up; cbn [tri3_of] in E; apply pair_equal_spec in E; destruct E as [E <-];
    apply pair_equal_spec in E; destruct E as [<- <-].
  - exists (pt3 vs r (i+1) j), (pt3 vs r (i+1) (j+1)), (pt3 vs r i j).
    split; [apply params3_nth; auto; lia|]. split; [apply params3_nth; auto; lia|].
    split; [apply params3_nth; auto; lia|].
    eapply A; [reflexivity|reflexivity|].
    unfold sarea, pcross, pt3, psub, padd, pscale; simpl. rewrite !plus_INR; simpl (INR 1). field; exact Hr0.
  - specialize (Hb eq_refl). exists (pt3 vs r (i+1) (j+1)), (pt3 vs r i (j+1)), (pt3 vs r i j).
    split; [apply params3_nth; auto; lia|]. split; [apply params3_nth; auto; lia|].
    split; [apply params3_nth; auto; lia|].
    eapply A; [reflexivity|reflexivity|].
    unfold sarea, pcross, pt3, psub, padd, pscale; simpl. rewrite !plus_INR; simpl (INR 1). field; exact Hr0.
Qed.

(** Signed area of a small triangle of the bilinear grid: the cross product of
    the two partial differences. *)
Lemma bilinear_cross : forall v0 v1 v2 v3 u v h k,
  pcross (((v1 -p v0) *p (1 - v) +p (v2 -p v3) *p v) *p h)
         (((v3 -p v0) *p (1 - u) +p (v2 -p v1) *p u) *p k)
  = h * k * ((1 - u) * (1 - v) * sarea v3 v0 v1 + u * (1 - v) * sarea v0 v1 v2
     + (1 - u) * v * sarea v2 v3 v0 + u * v * sarea v1 v2 v3).
Proof. intros; unfold sarea, pcross, psub, padd, pscale; simpl; ring. Qed.

Lemma orient4 : forall vs r ps t a b c, length vs = 4%nat -> (1 <= r)%nat ->
  params4 vs r = Some ps ->
  0 < sarea (vtx vs 3) (vtx vs 0) (vtx vs 1) -> 0 < sarea (vtx vs 0) (vtx vs 1) (vtx vs 2) ->
  0 < sarea (vtx vs 1) (vtx vs 2) (vtx vs 3) -> 0 < sarea (vtx vs 2) (vtx vs 3) (vtx vs 0) ->
  In t (topology4 r) -> t = (a, b, c) -> exists p q s,
  nth_error ps a = Some p /\ nth_error ps b = Some q /\ nth_error ps c = Some s /\ 0 < sarea p q s.
Proof.
  intros vs r ps t a b c Hl Hr H O0 O1 O2 O3 Ht E. rewrite topology4_closed in Ht. apply in_map_iff in Ht.
  destruct Ht as ([[i j] lower] & <- & Hx). apply in_idx4 in Hx. destruct Hx as (Hi & Hj).
  pose proof (INR_neq0 r Hr) as Hr0.
  assert (P : forall u v h, 0 <= u <= 1 -> 0 <= v <= 1 -> 0 < h ->
    0 < h * h * ((1 - u) * (1 - v) * sarea (vtx vs 3) (vtx vs 0) (vtx vs 1) + u * (1 - v) * sarea (vtx vs 0) (vtx vs 1) (vtx vs 2)
     + (1 - u) * v * sarea (vtx vs 2) (vtx vs 3) (vtx vs 0) + u * v * sarea (vtx vs 1) (vtx vs 2) (vtx vs 3))).
  { intros u v h Hu Hv Hh. apply Rmult_lt_0_compat; [nra|].
    set (A := sarea (vtx vs 3) (vtx vs 0) (vtx vs 1)) in *. set (B := sarea (vtx vs 0) (vtx vs 1) (vtx vs 2)) in *.
    set (C := sarea (vtx vs 2) (vtx vs 3) (vtx vs 0)) in *. set (D := sarea (vtx vs 1) (vtx vs 2) (vtx vs 3)) in *.
    set (m := Rmin (Rmin A B) (Rmin C D)).
    assert (Hm : 0 < m) by (unfold m; repeat apply Rmin_glb_lt; assumption).
    assert (m <= A /\ m <= B /\ m <= C /\ m <= D).
    { unfold m. repeat split; eauto using Rle_trans, Rmin_l, Rmin_r. }
    assert (0 <= (1 - u) * (1 - v)) by (apply Rmult_le_pos; lra).
    assert (0 <= u * (1 - v)) by (apply Rmult_le_pos; lra).
    assert (0 <= (1 - u) * v) by (apply Rmult_le_pos; lra).
    assert (0 <= u * v) by (apply Rmult_le_pos; lra).
    apply Rlt_le_trans with (m * ((1 - u) * (1 - v) + u * (1 - v) + (1 - u) * v + u * v)).
    - replace ((1 - u) * (1 - v) + u * (1 - v) + (1 - u) * v + u * v) with 1 by ring. lra.
    - repeat rewrite Rmult_plus_distr_l.
      repeat apply Rplus_le_compat; rewrite Rmult_comm; apply Rmult_le_compat_l; tauto. }
  assert (Hh : 0 < / INR r) by (apply Rinv_0_lt_compat, lt_0_INR; lia).
  assert (Ui : 0 <= INR i / INR r <= 1) by (split; [apply ratio_nonneg; lia|apply ratio_le1; lia]).
  assert (Uj : 0 <= INR j / INR r <= 1) by (split; [apply ratio_nonneg; lia|apply ratio_le1; lia]).
  assert (Ui1 : 0 <= INR (i + 1) / INR r <= 1) by (split; [apply ratio_nonneg; lia|apply ratio_le1; lia]).
  assert (Uj1 : 0 <= INR (j + 1) / INR r <= 1) by (split; [apply ratio_nonneg; lia|apply ratio_le1; lia]).
  destruct lower; cbn [tri4_of] in E; apply pair_equal_spec in E; destruct E as [E <-];
    apply pair_equal_spec in E; destruct E as [<- <-].
  - exists (pt4 vs r i j), (pt4 vs r (i+1) j), (pt4 vs r i (j+1)).
    split; [apply params4_nth; auto; lia|]. split; [apply params4_nth; auto; lia|].
    split; [apply params4_nth; auto; lia|].
    specialize (P _ _ _ Ui Uj Hh). rewrite <- bilinear_cross in P.
    replace (sarea (pt4 vs r i j) (pt4 vs r (i + 1) j) (pt4 vs r i (j + 1)))
      with (pcross (((vtx vs 1 -p vtx vs 0) *p (1 - INR j / INR r) +p (vtx vs 2 -p vtx vs 3) *p (INR j / INR r)) *p / INR r)
         (((vtx vs 3 -p vtx vs 0) *p (1 - INR i / INR r) +p (vtx vs 2 -p vtx vs 1) *p (INR i / INR r)) *p / INR r)); [exact P|].
    unfold sarea. f_equal; unfold pt4; rewrite !plus_INR; simpl (INR 1); v2field; exact Hr0.
  - exists (pt4 vs r i (j+1)), (pt4 vs r (i+1) j), (pt4 vs r (i+1) (j+1)).
    split; [apply params4_nth; auto; lia|]. split; [apply params4_nth; auto; lia|].
    split; [apply params4_nth; auto; lia|].
    specialize (P _ _ _ Ui1 Uj1 Hh). rewrite <- bilinear_cross in P.
    replace (sarea (pt4 vs r i (j + 1)) (pt4 vs r (i + 1) j) (pt4 vs r (i + 1) (j + 1)))
      with (pcross (((vtx vs 1 -p vtx vs 0) *p (1 - INR (j+1) / INR r) +p (vtx vs 2 -p vtx vs 3) *p (INR (j+1) / INR r)) *p / INR r)
         (((vtx vs 3 -p vtx vs 0) *p (1 - INR (i+1) / INR r) +p (vtx vs 2 -p vtx vs 1) *p (INR (i+1) / INR r)) *p / INR r)); [exact P|].
    rewrite (sarea_cycle (pt4 vs r i (j+1))), (sarea_cycle (pt4 vs r (i+1) j)).
    unfold sarea, pcross, pt4; rewrite !plus_INR; simpl; field; exact Hr0.
Qed.

Lemma orientR : forall vs cen r ps t a b c, (3 <= length vs)%nat -> (1 <= r)%nat ->
  paramsRing (length vs) cen vs r = Some ps -> inside vs cen ->
  In t (topologyRing (length vs) r) -> t = (a, b, c) -> exists p q s,
  nth_error ps a = Some p /\ nth_error ps b = Some q /\ nth_error ps c = Some s /\ 0 < sarea p q s.
Proof.
  intros vs cen r ps t a b c Hn Hr H Hin Ht E. rewrite topologyRing_closed in Ht. apply in_map_iff in Ht.
  destruct Ht as ([[[l s] v] outer] & <- & Hx). apply in_idxR in Hx. destruct Hx as (Hl & Hs & Hv & Hb).
  pose proof (INR_neq0 r Hr) as Hr0.
  assert (A : forall z, z = sarea (vtx vs (prv (length vs) s)) (vtx vs s) cen / (INR r * INR r) -> 0 < z).
  { intros z ->. apply Rdiv_lt_0_compat; [apply Hin; exact Hs|].
    assert (0 < INR r) by (apply lt_0_INR; lia). nra. }
  assert (Il : INR (l - 1) = INR l - 1) by (rewrite minus_INR by lia; reflexivity).
  destruct outer; cbn [triR_of] in E; apply pair_equal_spec in E; destruct E as [E <-];
    apply pair_equal_spec in E; destruct E as [<- <-].
  - exists (ptR vs cen r (l-1) s v), (ptR vs cen r l s v), (ptR vs cen r l s (v+1)).
    split; [apply paramsRing_nth; auto; lia|]. split; [apply paramsRing_nth; auto; lia|].
    split; [rewrite <- Nat.add_assoc; apply paramsRing_nth; auto; lia|].
    apply A. unfold sarea, pcross, ptR, psub, padd, pscale; cbn [px py]. rewrite !plus_INR, Il; simpl (INR 1). field; exact Hr0.
  - specialize (Hb eq_refl).
    exists (ptR vs cen r (l-1) s v), (ptR vs cen r l s (v+1)), (ptR vs cen r (l-1) s (v+1)).
    split; [apply paramsRing_nth; auto; lia|].
    split; [rewrite <- Nat.add_assoc; apply paramsRing_nth; auto; lia|].
    split; [rewrite <- Nat.add_assoc; apply paramsRing_nth; auto; lia|].
    apply A. unfold sarea, pcross, ptR, psub, padd, pscale; cbn [px py]. rewrite !plus_INR, Il; simpl (INR 1). field; exact Hr0.
Qed.

Lemma mesh_orientation : forall vs cen r ps a b c, (3 <= length vs)%nat -> (1 <= r)%nat ->
  parametersImpl (length vs) cen vs r = Some ps ->
  ((length vs <= 4)%nat -> strictly_convex vs) -> ((5 <= length vs)%nat -> inside vs cen) ->
  In (a, b, c) (meshTopology (length vs) r) -> exists p q s,
  nth_error ps a = Some p /\ nth_error ps b = Some q /\ nth_error ps c = Some s /\ 0 < sarea p q s.
Proof.
  intros vs cen r ps a b c Hn Hr H Hc Hin Ht. unfold parametersImpl, meshTopology in *.
  destruct (Nat.eqb_spec (length vs) 3) as [H3|H3].
  - specialize (Hc ltac:(lia)). eapply (orient3 vs r ps); eauto.
    pose proof (Hc 1%nat 2%nat) as G. rewrite H3 in G. apply G; try lia; discriminate.
  - destruct (Nat.eqb_spec (length vs) 4) as [H4|H4].
    + specialize (Hc ltac:(lia)). eapply (orient4 vs r ps); eauto.
      * pose proof (Hc 0%nat 1%nat) as G. rewrite H4 in G. apply G; try lia; discriminate.
      * pose proof (Hc 1%nat 2%nat) as G. rewrite H4 in G. apply G; try lia; discriminate.
      * pose proof (Hc 2%nat 3%nat) as G. rewrite H4 in G. apply G; try lia; discriminate.
      * pose proof (Hc 3%nat 0%nat) as G. rewrite H4 in G. apply G; try lia; discriminate.
    + eapply (orientR vs cen r ps); eauto. apply Hin; lia.
Qed.
