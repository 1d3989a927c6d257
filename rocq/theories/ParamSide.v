(** Ribbon coordinates of boundary points, as returned by mapToRibbons. *)

From Verif Require Import Base MeshModel GeomSpec DomainModel UtilModel ParamModel.
From Verif Require Import DomainProofs DomainPolygons UtilProofs ParamBary ParamMaps ParamRegular.
Open Scope R_scope.

(** Coordinates of a point of side [e] at parameter [s]: the side itself sees
    (s, 0), the next side starts there and the previous side ends there. *)
Definition boundary_sds (n e : nat) (s : R) (sds : list V2) : Prop :=
  length sds = n /\ nth_error sds e = Some (mkV2 s 0) /\
  (exists dn, nth_error sds (nxt n e) = Some (mkV2 0 dn)) /\
  (exists dp, nth_error sds (prv n e) = Some (mkV2 1 dp)).

(** The same with the distances of the constrained parameterizations. *)
Definition constrained_sds (n e : nat) (s : R) (sds : list V2) : Prop :=
  length sds = n /\ nth_error sds e = Some (mkV2 s 0) /\
  nth_error sds (nxt n e) = Some (mkV2 0 (1 - s)) /\ nth_error sds (prv n e) = Some (mkV2 1 s).

Lemma constrained_boundary : forall n e s sds, constrained_sds n e s sds -> boundary_sds n e s sds.
Proof. intros n e s sds (A & B & C & D). split; [exact A|]. split; [exact B|]. split; eexists; eassumption. Qed.

Lemma mapM_total_nth : forall (B : Type) (f : nat -> option B) n, (forall i, (i < n)%nat -> exists b, f i = Some b) ->
  exists l, mapM f (seq 0 n) = Some l /\ length l = n /\ forall i, (i < n)%nat -> nth_error l i = f i.
Proof.
  intros B f n H.
  assert (G : forall k m, (forall i, (k <= i < k + m)%nat -> exists b, f i = Some b) ->
    exists l, mapM f (seq k m) = Some l /\ length l = m /\ forall i, (i < m)%nat -> nth_error l i = f (k + i)%nat).
  { clear n H. intros k m; revert k. induction m as [|m IH]; intros k H.
    - exists []. repeat split; intros; lia.
    - destruct (H k ltac:(lia)) as [b Hb]. destruct (IH (S k)) as (l & L1 & L2 & L3); [intros i Hi; apply H; lia|].
      exists (b :: l). cbn [seq mapM]. rewrite Hb, L1. cbn [bind]. repeat split; [simpl; lia|].
      intros [|i] Hi; simpl; [rewrite Nat.add_0_r; symmetry; exact Hb|]. rewrite L3 by lia. f_equal; lia. }
  destruct (G 0%nat n) as (l & A & B' & C); [intros i Hi; apply H; lia|]. exists l. auto.
Qed.

Section Side.
Variables (c : V2) (vs : list V2) (d : dom).
Let n := length vs.
Hypothesis Hd : domainFrames c vs = Some d.
Hypothesis H3 : (3 <= n)%nat.
Hypothesis C : strictly_convex vs.
Hypothesis I : inside vs c.

(** Near an end of the side the side parameter of a neighbour comes from the
    fallback formula. *)
Lemma bary_ribbon_values : forall eps e s, (e < n)%nat -> 0 < eps <= 1 -> 0 <= s <= 1 ->
  let q := prv n (prv n e) in
  exists al, angle d (prv n e) = Some al /\
  baryMap Wachspress eps d e (sidePt vs e s) = Some (mkV2 s 0) /\
  baryMap Wachspress eps d (nxt n e) (sidePt vs e s) = Some (mkV2 0 (1 - s)) /\
  baryMap Wachspress eps d (prv n e) (sidePt vs e s) =
    Some (mkV2 (if Rlt_dec (1 - s) eps then
                  if Rlt_dec (sin al * (sarea (vtx vs (prv n q)) (vtx vs q) (sidePt vs e s) / pnorm (sidevec vs q))) eps
                  then 0 else 1
                else 1) s) /\
  forall i, (i < n)%nat -> exists r, baryMap Wachspress eps d i (sidePt vs e s) = Some r.
Proof.
  intros eps e s He Heps Hs q.
  destruct (side_linear vs e s C H3 He Hs d eps (d_verts_eq c vs d Hd) Heps) as (l & B & Ll & L1 & L2 & L0).
  fold n in L2, L0, Ll. unfold baryMap. rewrite B. cbn [bind].
  assert (Hp : (prv n e < n)%nat) by (apply prv_lt; lia). assert (Hx : (nxt n e < n)%nat) by (apply nxt_lt; lia).
  assert (Hpp : (q < n)%nat) by (unfold q; apply prv_lt; lia). assert (Hxx : (nxt n (nxt n e) < n)%nat) by (apply nxt_lt; lia).
  assert (X0 : nth_error l (nxt n e) = Some 0) by (apply L0; [exact Hx|apply nxt_neq; lia|apply nxt_prv_neq; lia]).
  assert (P0 : nth_error l q = Some 0).
  { apply L0; [exact Hpp| |apply prv_neq; lia]. intros E. apply (nxt_prv_neq n e H3 He). rewrite <- E at 1. unfold q. rewrite nxt_prv by exact Hp. reflexivity. }
  destruct (angle_some c vs d Hd H3 C (prv n e) Hp) as [al Al]. exists al. split; [exact Al|].
  destruct (angle_some c vs d Hd H3 C e He) as [ae Ae]. destruct (angle_some c vs d Hd H3 C (nxt n e) Hx) as [ax Ax].
  destruct (angle_some c vs d Hd H3 C q Hpp) as [aq Aq].
  pose proof (d_n_eq c vs d Hd) as Dn. fold n in Dn.
  assert (V : forall i, (i < n)%nat -> nth_error (d_verts d) i = Some (vtx vs i)) by (apply (verts_nth c vs d Hd)).
  assert (T : forall i v, (i < n)%nat -> toLocal d i v = Some (mkV2 (pdot v (sidevec vs i) / len2 vs i) (pcross (sidevec vs i) v / len2 vs i)))
    by (apply (local_closed c vs d Hd H3 C I)).
  assert (E : forall i, (i < n)%nat -> edgeLength d i = Some (pnorm (sidevec vs i))) by (apply (edgeLength_some c vs d Hd H3)).
  assert (On : pcross (sidevec vs e) (sidePt vs e s -p vtx vs e) = 0 /\ pcross (sidevec vs e) (sidePt vs e s -p vtx vs (prv n e)) = 0).
  { unfold sidePt, sidevec. fold n. split; unfold pcross; simpl; ring. }
  destruct On as [On1 On2].
  repeat split.
  - unfold baryRibbon. rewrite Dn, L1, L2. cbn [bind]. destruct (Rlt_dec (1 - s + s) eps); [lra|].
    rewrite fdiv_some by lra. cbn [bind]. do 2 f_equal; [field; lra|ring].
  - unfold baryRibbon. rewrite Dn, prv_nxt by exact He. rewrite X0, L1. cbn [bind]. destruct (Rlt_dec (s + 0) eps) as [Lt|Lt].
    + rewrite Ax, Ae. cbn [bind]. rewrite !V by assumption. cbn [bind]. rewrite !T by assumption. cbn [bind py].
      rewrite !E by assumption. cbn [bind]. rewrite On1.
      replace (0 / len2 vs e * pnorm (sidevec vs e)) with 0 by (unfold Rdiv; ring). rewrite Rmult_0_r, Rplus_0_l.
      destruct (Rlt_dec _ eps) as [L|L]; cbn [bind]; [|rewrite fdiv_some by lra; cbn [bind]].
      * do 2 f_equal; ring.
      * do 2 f_equal; [unfold Rdiv; ring|ring].
    + rewrite fdiv_some by lra. cbn [bind]. do 2 f_equal; [field; lra|ring].
  - unfold baryRibbon. rewrite Dn. fold q. rewrite L2, P0. cbn [bind]. replace (0 + (1 - s)) with (1 - s) by ring.
    destruct (Rlt_dec (1 - s) eps) as [Lt|Lt].
    + rewrite Al, Aq. cbn [bind]. rewrite !V by assumption. cbn [bind]. rewrite nxt_prv by exact He.
      rewrite !T by assumption. cbn [bind py]. rewrite !E by assumption. cbn [bind]. rewrite On2.
      replace (0 / len2 vs e * pnorm (sidevec vs e)) with 0 by (unfold Rdiv; ring). rewrite Rmult_0_r, Rplus_0_r.
      replace (pcross (sidevec vs q) (sidePt vs e s -p vtx vs q) / len2 vs q * pnorm (sidevec vs q))
        with (sarea (vtx vs (prv n q)) (vtx vs q) (sidePt vs e s) / pnorm (sidevec vs q)).
      2: { pose proof (len2_pos vs H3 C q Hpp) as Lp. unfold len2 in Lp |- *.
           assert (Pn : pnorm (sidevec vs q) * pnorm (sidevec vs q) = pnorm2 (sidevec vs q)) by (rewrite pnorm_sqr; reflexivity).
           assert (pnorm (sidevec vs q) <> 0) by (intros Z; rewrite Z in Pn; lra).
           rewrite <- Pn. unfold sarea. replace (vtx vs q -p vtx vs (prv n q)) with (sidevec vs q) by reflexivity.
           replace (pcross (sidevec vs q) (sidePt vs e s -p vtx vs (prv n q))) with (pcross (sidevec vs q) (sidePt vs e s -p vtx vs q))
             by (unfold sidevec; fold n; unfold pcross; simpl; ring).
           field. assumption. }
      match goal with |- context [Rlt_dec (sin al * ?x) eps] => set (K := sin al * x) in * end.
      destruct (Rlt_dec K eps) as [L|L]; cbn [bind]; [do 2 f_equal; ring|].
      rewrite fdiv_some by lra. cbn [bind]. do 2 f_equal; [field; lra|ring].
    + rewrite fdiv_some by lra. cbn [bind]. do 2 f_equal; [field; lra|ring].
  - intros i Hi. apply (baryRibbon_total c vs d Hd H3 C I); [lra|exact Hi|exact Ll].
Qed.

Lemma bary_sds : forall eps e s, (e < n)%nat -> 0 < eps -> eps <= s -> eps <= 1 - s ->
  exists sds, mapToRibbons (KBary Wachspress) eps d (sidePt vs e s) = Some sds /\ constrained_sds n e s sds.
Proof.
  intros eps e s He Hp H1 H2.
  destruct (bary_on_side c vs d Hd H3 C I eps e s He ltac:(lra) H1 H2) as (B0 & B1 & B2 & BT).
  destruct (mapM_total_nth _ (fun i => mapToRibbon (KBary Wachspress) eps d i (sidePt vs e s)) n BT) as (l & L1 & L2 & L3).
  exists l. unfold mapToRibbons. rewrite (d_n_eq c vs d Hd). fold n. split; [exact L1|].
  split; [exact L2|]. rewrite !L3 by (try apply nxt_lt; try apply prv_lt; lia). auto.
Qed.

(** A point on a side far from a corner region: all constrained maps are
    defined because all barycentric ones are. *)
Lemma blend_total : forall eps a b x y, 0 < eps -> exists l b0 b1 b2 b3, singularBlend eps [a; b; x; y] = Some l /\ l = [b0; b1; b2; b3].
Proof.
  intros eps a b x y He. unfold singularBlend.
  match goal with |- context [filter ?f ?l] => set (k := length (filter f l)) end.
  destruct (Nat.ltb_spec 0 k) as [K|K].
  - rewrite fdiv_some by (apply not_0_INR; lia). cbn [bind map]. do 5 eexists; split; reflexivity.
  - assert (Z : filter (fun w => if Rlt_dec w eps then true else false) [a; b; x; y] = []).
    { apply length_zero_iff_nil. fold k. lia. }
    assert (N : forall w, In w [a; b; x; y] -> eps <= w).
    { intros w W. destruct (Rlt_dec w eps) as [L|L]; [|lra]. exfalso.
      assert (X : In w (filter (fun w => if Rlt_dec w eps then true else false) [a; b; x; y])).
      { apply filter_In. split; [exact W|]. destruct (Rlt_dec w eps); [reflexivity|lra]. }
      rewrite Z in X. destruct X. }
    assert (Na := N a ltac:(simpl; auto)). assert (Nb := N b ltac:(simpl; auto)).
    assert (Nx := N x ltac:(simpl; auto)). assert (Ny := N y ltac:(simpl; auto)).
    assert (Q : forall w, eps <= w -> 0 < 1 / w ^ 2) by (intros w W; apply Rdiv_lt_0_compat; [lra|apply pow_lt; lra]).
    cbn [mapM]. rewrite !fdiv_some by (apply pow_nonzero; lra). cbn [bind].
    match goal with |- context [accumulate ?l] => assert (S : accumulate l <> 0) end.
    { cbn [accumulate fold_left]. pose proof (Q a Na). pose proof (Q b Nb). pose proof (Q x Nx). pose proof (Q y Ny). unfold accumulate; simpl. simpl in *. lra. }
    cbn [mapM]. rewrite !fdiv_some by exact S. cbn [bind]. do 5 eexists; split; reflexivity.
Qed.

Lemma constrained_sds_ok : forall eps e s, (e < n)%nat -> 0 < eps -> eps <= s -> eps <= 1 - s ->
  exists sds, mapToRibbons (KConstrained Wachspress) eps d (sidePt vs e s) = Some sds /\ constrained_sds n e s sds.
Proof.
  intros eps e s He Hp H1 H2.
  destruct (constrained_on_side c vs d Hd H3 C I eps e s He Hp H1 H2) as (B0 & B1 & B2).
  destruct (bary_on_side c vs d Hd H3 C I eps e s He ltac:(lra) H1 H2) as (_ & _ & _ & BT).
  assert (CT : forall i, (i < n)%nat -> exists r, constrainedMap Wachspress eps d i (sidePt vs e s) = Some r).
  { intros i Hi. unfold constrainedMap. rewrite (d_n_eq c vs d Hd). fold n.
    destruct (BT i Hi) as [r0 ->]. destruct (BT (prv n i) (prv_lt n i ltac:(lia))) as [r1 ->].
    destruct (BT (nxt n i) (nxt_lt n i ltac:(lia))) as [r2 ->]. cbn [bind]. unfold constrainedRibbon.
    destruct (blend_total eps (py r0) (1 - px r0) (1 - py r0) (px r0) Hp) as (l & b0 & b1 & b2 & b3 & -> & ->). cbn [bind nth_error].
    eexists; reflexivity. }
  destruct (mapM_total_nth _ (fun i => mapToRibbon (KConstrained Wachspress) eps d i (sidePt vs e s)) n CT) as (l & L1 & L2 & L3).
  exists l. unfold mapToRibbons. rewrite (d_n_eq c vs d Hd). fold n. split; [exact L1|].
  split; [exact L2|]. rewrite !L3 by (try apply nxt_lt; try apply prv_lt; lia). auto.
Qed.

End Side.

(** The regular domain. *)
Section RegularSide.
Variables (m : nat) (vs : list V2) (d : dom).
Hypothesis H3 : (3 <= m)%nat.
Hypothesis Hv : regularVertices m = Some vs.
Hypothesis Hd : domainFrames pzero vs = Some d.

Lemma reg_facts : length vs = m /\ strictly_convex vs /\ inside vs pzero.
Proof. exact (regular_convex m vs H3 Hv). Qed.

Variables (eps s : R) (e : nat).
Hypothesis He : (e < m)%nat.
Hypothesis Hp : 0 < eps.
Hypothesis Hs : 0 <= s <= 1.
(** The tolerance is below the height of the neighbouring vertices, and on a
    triangle the point is not too close to a corner. *)
Hypothesis Heps : ((4 <= m)%nat -> eps <= sin (2 * PI / INR m)).
Hypothesis Heps3 : (m = 3%nat -> eps <= sin (2 * PI / 3) * s /\ eps <= sin (2 * PI / 3) * (1 - s)).

Lemma reg_bilinear : bilinearMap eps d e (sidePt vs e s) = Some (mkV2 s 0) /\
  bilinearMap eps d (nxt m e) (sidePt vs e s) = Some (mkV2 0 (1 - s)) /\
  bilinearMap eps d (prv m e) (sidePt vs e s) = Some (mkV2 1 s).
Proof.
  destruct reg_facts as (L & C & I). rewrite <- L.
  assert (Sp : 0 < sin (2 * PI / 3)) by (pose proof PI_RGT_0; apply sin_gt_0; lra).
  apply (bilinear_on_side pzero vs d Hd); try assumption; rewrite ?L; try assumption.
  - destruct (Nat.eq_dec m 3) as [E|E]; [right|left; lia]. destruct (Heps3 E) as [A B]. split; nra.
  - apply (regular_solvable m); try assumption; [lra|]. intros E; destruct (Heps3 E). nra.
  - apply (regular_solvable m); try assumption; [apply nxt_lt; lia|lra|]. intros E; destruct (Heps3 E). nra.
  - apply (regular_solvable m); try assumption; [apply prv_lt; lia|]. intros E; destruct (Heps3 E). nra.
Qed.

Lemma reg_bilinear_total : forall i uv, (i < m)%nat -> exists r, bilinearMap eps d i uv = Some r.
Proof.
  intros i uv Hi. destruct reg_facts as (L & C & I).
  apply (bilinear_total pzero vs d Hd); try assumption; rewrite ?L; try assumption.
  destruct (regular_heights m vs i H3 Hv Hi) as [-> ->]. reflexivity.
Qed.

Lemma reg_n : d_n d = m.
Proof. rewrite (d_n_eq pzero vs d Hd). apply reg_facts. Qed.

Lemma reg_bilinear_sds : exists sds, mapToRibbons KBilinear eps d (sidePt vs e s) = Some sds /\ constrained_sds m e s sds.
Proof.
  destruct reg_bilinear as (B0 & B1 & B2).
  destruct (mapM_total_nth _ (fun i => mapToRibbon KBilinear eps d i (sidePt vs e s)) m) as (l & L1 & L2 & L3).
  { intros i Hi. apply reg_bilinear_total; exact Hi. }
  exists l. unfold mapToRibbons. rewrite reg_n. split; [exact L1|].
  split; [exact L2|]. rewrite !L3 by (try apply nxt_lt; try apply prv_lt; lia). auto.
Qed.

Lemma reg_interconnected_sds : exists sds, mapToRibbons KInterconnected eps d (sidePt vs e s) = Some sds /\ constrained_sds m e s sds.
Proof.
  destruct reg_bilinear as (B0 & B1 & B2). destruct reg_facts as (L & C & I).
  pose proof (interconnected_on_side pzero vs d Hd) as X. rewrite L in X.
  destruct (X eps e s He B0 B1 B2) as (A0 & A1 & A2).
  { apply reg_bilinear_total. apply nxt_lt; lia. } { apply reg_bilinear_total. apply prv_lt; lia. }
  destruct (mapM_total_nth _ (fun i => mapToRibbon KInterconnected eps d i (sidePt vs e s)) m) as (l & L1 & L2 & L3).
  { intros i Hi. cbn [mapToRibbon]. unfold interconnectedMap. rewrite reg_n.
    destruct (reg_bilinear_total (prv m i) (sidePt vs e s) (prv_lt m i ltac:(lia))) as [r1 ->].
    destruct (reg_bilinear_total (nxt m i) (sidePt vs e s) (nxt_lt m i ltac:(lia))) as [r2 ->].
    destruct (reg_bilinear_total i (sidePt vs e s) Hi) as [r3 ->]. cbn [bind]. eexists; reflexivity. }
  exists l. unfold mapToRibbons. rewrite reg_n. split; [exact L1|].
  split; [exact L2|]. rewrite !L3 by (try apply nxt_lt; try apply prv_lt; lia). auto.
Qed.

(** For any multipliers: the parallel kind and SuperD. *)
Lemma reg_parallel_sds : forall k ms, (k = KParallel /\ parallelMultipliers d = Some ms) \/ (k = KSuperD /\ superdMultipliers d = Some ms) ->
  length ms = m ->
  exists sds, mapToRibbons k eps d (sidePt vs e s) = Some sds /\ boundary_sds m e s sds.
Proof.
  intros k ms K Lm. destruct reg_bilinear as (B0 & B1 & B2). destruct reg_facts as (L & C & I).
  pose proof (parallel_any pzero vs d Hd) as X. rewrite L in X. specialize (X H3 C I).
  assert (M : forall i, (i < m)%nat -> exists r, nth_error ms i = Some r) by (intros i Hi; apply nth_error_ex; lia).
  assert (E : forall i, mapToRibbon k eps d i (sidePt vs e s) = parallelMap eps d ms i (sidePt vs e s)).
  { intros i. destruct K as [[-> K]|[-> K]]; cbn [mapToRibbon]; rewrite K; reflexivity. }
  assert (V : forall i sd, (i < m)%nat -> bilinearMap eps d i (sidePt vs e s) = Some sd -> exists r,
    mapToRibbon k eps d i (sidePt vs e s) = Some (mkV2 (px sd) (sarea (vtx vs (prv m i)) (vtx vs i) (sidePt vs e s) / len2 vs i * r))).
  { intros i sd Hi B. destruct (M i Hi) as [r R]. exists r. rewrite E. apply X; assumption. }
  destruct (mapM_total_nth _ (fun i => mapToRibbon k eps d i (sidePt vs e s)) m) as (l & L1 & L2 & L3).
  { intros i Hi. destruct (reg_bilinear_total i (sidePt vs e s) Hi) as [sd B]. destruct (V i sd Hi B) as [r R]. eexists; exact R. }
  exists l. unfold mapToRibbons. rewrite reg_n. split; [exact L1|]. split; [exact L2|].
  assert (Hx : (nxt m e < m)%nat) by (apply nxt_lt; lia). assert (Hpp : (prv m e < m)%nat) by (apply prv_lt; lia).
  rewrite !L3 by assumption.
  destruct (V e _ He B0) as [r0 R0]. destruct (V _ _ Hx B1) as [r1 R1]. destruct (V _ _ Hpp B2) as [r2 R2].
  rewrite R0, R1, R2. split; [|split; eexists; reflexivity]. do 2 f_equal. cbn [px].
  replace (sarea (vtx vs (prv m e)) (vtx vs e) (sidePt vs e s)) with 0; [unfold Rdiv; ring|].
  unfold sidePt. rewrite L. unfold sarea, pcross; simpl; ring.
Qed.

End RegularSide.

(** At the last corner of a side of a triangle the fallback gives the previous
    side the wrong end. *)
Lemma triangle_corner : forall c vs d eps e, domainFrames c vs = Some d -> length vs = 3%nat -> strictly_convex vs -> inside vs c ->
  (e < 3)%nat -> 0 < eps <= 1 ->
  baryMap Wachspress eps d (prv 3 e) (sidePt vs e 1) = Some (mkV2 0 1).
Proof.
  intros c vs d eps e Hd L C I He Hp.
  destruct (bary_ribbon_values c vs d Hd ltac:(lia) C I eps e 1 ltac:(lia) Hp ltac:(lra)) as (al & _ & _ & _ & B & _).
  rewrite L in B. rewrite B. clear B. destruct (Rlt_dec (1 - 1) eps) as [_|]; [|lra].
  replace (sarea _ _ _) with 0.
  - destruct (Rlt_dec _ eps) as [_|N]; [reflexivity|]. exfalso; apply N. unfold Rdiv. rewrite Rmult_0_l, Rmult_0_r. lra.
  - unfold sidePt. rewrite L. destruct e as [|[|[|e]]]; [| | |lia]; cbv [prv Nat.add Nat.sub Nat.modulo Nat.divmod fst snd];
      unfold sarea, pcross; simpl; ring.
Qed.
