(** Heights in the regular polygon, and the bilinear, interconnected and
    constrained coordinates of boundary points. *)

From Verif Require Import Base MeshModel GeomSpec DomainModel UtilModel ParamModel.
From Verif Require Import DomainProofs DomainPolygons UtilProofs ParamBary ParamMaps ParamRegular ParamSide.
From Verif Require Import RibbonModel SurfaceModel SurfaceSpec BlendProofs ParamTame.
Open Scope R_scope.

Lemma cos_above : forall a x, 0 <= a <= PI -> a <= x <= 2 * PI - a -> cos x <= cos a.
Proof.
  intros a x Ha Hx. pose proof PI_RGT_0.
  destruct (Rle_lt_dec x PI) as [L|L].
  - destruct (Req_dec x a) as [->|N]; [lra|]. left. apply cos_decreasing_1; lra.
  - replace (cos x) with (cos (2 * PI - x)).
    + destruct (Req_dec (2 * PI - x) a) as [->|N]; [lra|]. left. apply cos_decreasing_1; lra.
    + rewrite cos_minus, cos_2PI, sin_2PI. ring.
Qed.

Lemma cos_turn : forall x, cos (x - 2 * PI) = cos x.
Proof. intros x. rewrite cos_minus, cos_2PI, sin_2PI. ring. Qed.

Lemma half_turn : forall m, (3 <= m)%nat -> 0 < sin (2 * PI / INR m / 2).
Proof.
  intros m H3. pose proof PI_RGT_0. assert (A : 3 <= INR m) by (replace 3 with (INR 3) by (simpl; lra); apply le_INR; exact H3).
  apply sin_gt_0.
  - apply Rmult_lt_0_compat; [|lra]. apply Rdiv_lt_0_compat; lra.
  - apply (Rmult_lt_reg_r (INR m)); [lra|]. replace (2 * PI / INR m / 2 * INR m) with PI by (field; lra). nra.
Qed.
Lemma full_turn : forall m, (3 <= m)%nat -> 2 * PI / INR m * INR m = 2 * PI.
Proof. intros m H3. field. apply not_0_INR; lia. Qed.

Section Circ.
Variables (m : nat) (vs : list V2).
Hypothesis H3 : (3 <= m)%nat.
Hypothesis H4 : m <> 4%nat.
Hypothesis Hv : regularVertices m = Some vs.
Let al : R := 2 * PI / INR m.

Lemma hg_circ : forall i k, (i < m)%nat -> (k < m)%nat ->
  hg vs i (vtx vs k) = sin ((INR k - INR i) * al / 2) * sin ((INR k - INR i + 1) * al / 2) / sin (al / 2).
Proof.
  intros i k Hi Hk. pose proof (half_turn m H3) as P. fold al in P. unfold hg.
  rewrite (vs_len m vs H3 H4 Hv), (len2_circ m vs H3 H4 Hv i Hi).
  rewrite (vtx_prev m vs H3 H4 Hv i Hi), (vtx_eq m vs H3 H4 Hv i Hi), (vtx_eq m vs H3 H4 Hv k Hk). fold al.
  rewrite sarea_circle.
  replace ((al * INR i - al * (INR i - 1)) / 2) with (al / 2) by field.
  replace ((al * INR k - al * INR i) / 2) with ((INR k - INR i) * al / 2) by field.
  replace ((al * INR k - al * (INR i - 1)) / 2) with ((INR k - INR i + 1) * al / 2) by field.
  set (a := sin ((INR k - INR i) * al / 2)). set (b := sin ((INR k - INR i + 1) * al / 2)).
  set (q := sin (al / 2)) in *. field. apply Rgt_not_eq; exact P.
Qed.

Lemma sin_prod : forall x y, sin x * sin y = (cos (x - y) - cos (x + y)) / 2.
Proof. intros x y. rewrite cos_minus, cos_plus. field. Qed.

Lemma hg_circ_cos : forall i k, (i < m)%nat -> (k < m)%nat ->
  hg vs i (vtx vs k) = (cos (al / 2) - cos ((2 * (INR k - INR i) + 1) * al / 2)) / 2 / sin (al / 2).
Proof.
  intros i k Hi Hk. rewrite hg_circ by assumption. rewrite sin_prod.
  replace ((INR k - INR i) * al / 2 - (INR k - INR i + 1) * al / 2) with (- (al / 2)) by field. rewrite cos_neg.
  replace ((INR k - INR i) * al / 2 + (INR k - INR i + 1) * al / 2) with ((2 * (INR k - INR i) + 1) * al / 2) by field. reflexivity.
Qed.

Lemma sin_al_cos : sin al = (cos (al / 2) - cos (3 * al / 2)) / 2 / sin (al / 2).
Proof.
  pose proof (half_turn m H3) as P. fold al in P. assert (E := sin_prod (al / 2) al).
  replace (al / 2 - al) with (- (al / 2)) in E by field. rewrite cos_neg in E. replace (al / 2 + al) with (3 * al / 2) in E by field.
  rewrite <- E. set (q := sin (al / 2)) in *. field. apply Rgt_not_eq; exact P.
Qed.

Lemma hg_far_circ : forall i k, (i < m)%nat -> (k < m)%nat -> k <> i -> k <> prv m i -> sin al <= hg vs i (vtx vs k).
Proof.
  intros i k Hi Hk N1 N2. pose proof (half_turn m H3) as P. fold al in P. pose proof PI_RGT_0 as Pi.
  rewrite hg_circ_cos by assumption. rewrite sin_al_cos. unfold Rdiv. apply Rmult_le_compat_r; [left; apply Rinv_0_lt_compat; exact P|].
  apply Rmult_le_compat_r; [lra|].
  assert (F : al * INR m = 2 * PI) by (apply (full_turn m H3)).
  assert (A3 : 3 <= INR m) by (replace 3 with (INR 3) by (simpl; lra); apply le_INR; exact H3).
  assert (Pa : 0 < al) by (unfold al; apply Rdiv_lt_0_compat; lra).
  assert (X : exists j, (1 <= j <= m - 2)%nat /\ cos ((2 * (INR k - INR i) + 1) * al * / 2) = cos ((2 * INR j + 1) * al / 2)).
  { destruct (prv_spec m i Hi) as [[Z1 Z2]|[Z1 Z2]]; rewrite Z2 in N2.
    - exists k. split; [lia|]. subst i. f_equal. simpl INR. field.
    - destruct (Nat.lt_ge_cases i k) as [L|L].
      + exists (k - i)%nat. split; [lia|]. rewrite minus_INR by lia. f_equal; try field.
      + exists (k + m - i)%nat. split; [lia|]. rewrite minus_INR by lia. rewrite plus_INR.
        rewrite <- (cos_turn ((2 * (INR k + INR m - INR i) + 1) * al / 2)). f_equal. rewrite <- F. field. }
  destruct X as (j & Hj & ->). assert (J1 : 1 <= INR j) by (replace 1 with (INR 1) by reflexivity; apply le_INR; lia).
  assert (J2 : INR j <= INR m - 2).
  { replace (INR m - 2) with (INR (m - 2)) by (rewrite minus_INR by lia; simpl; lra). apply le_INR; lia. }
  assert (cos ((2 * INR j + 1) * al / 2) <= cos (3 * al / 2)); [|lra].
  apply cos_above.
  - split; nra.
  - split; nra.
Qed.

Lemma hg_bound_circ : forall i k, (i < m)%nat -> (k < m)%nat -> hg vs i (vtx vs k) <= / sin (al / 2).
Proof.
  intros i k Hi Hk. pose proof (half_turn m H3) as P. fold al in P. rewrite hg_circ_cos by assumption.
  set (x := cos (al / 2)). set (y := cos _). assert (x <= 1) by apply COS_bound. assert (-1 <= y) by apply COS_bound.
  unfold Rdiv. rewrite <- (Rmult_1_l (/ sin (al * / 2))) at 2. apply Rmult_le_compat_r; [left; apply Rinv_0_lt_compat; exact P|]. lra.
Qed.
End Circ.

Section Reg.
Variables (m : nat) (vs : list V2) (d : dom).
Hypothesis H3 : (3 <= m)%nat.
Hypothesis Hv : regularVertices m = Some vs.
Hypothesis Hd : domainFrames pzero vs = Some d.
Let h : R := sin (2 * PI / INR m).
Let w : R := sin (PI / INR m).

Let Lv : length vs = m := proj1 (reg_facts m vs H3 Hv).
Let Cv : strictly_convex vs := proj1 (proj2 (reg_facts m vs H3 Hv)).
Let Iv : inside vs pzero := proj2 (proj2 (reg_facts m vs H3 Hv)).

Lemma w_half : w = sin (2 * PI / INR m / 2).
Proof. unfold w. f_equal. field. apply not_0_INR; lia. Qed.
Lemma w_pos : 0 < w.
Proof. rewrite w_half. apply (half_turn m H3). Qed.

Lemma h_pos : 0 < h.
Proof.
  unfold h. pose proof PI_RGT_0. assert (A3 : 3 <= INR m) by (replace 3 with (INR 3) by (simpl; lra); apply le_INR; exact H3).
  apply sin_gt_0; [apply Rdiv_lt_0_compat; lra|]. apply (Rmult_lt_reg_r (INR m)); [lra|].
  replace (2 * PI / INR m * INR m) with (2 * PI) by (field; lra). nra.
Qed.

Lemma hg_far : forall i k, (i < m)%nat -> (k < m)%nat -> k <> i -> k <> prv m i -> h <= hg vs i (vtx vs k).
Proof.
  intros i k Hi Hk N1 N2. destruct (Nat.eq_dec m 4) as [E|H4]; [|apply (hg_far_circ m vs H3 H4 Hv); assumption].
  assert (h <= 1) by apply SIN_bound.
  enough (1 = hg vs i (vtx vs k)) by lra.
  clear h w Lv Cv Iv Hd H. subst m. unfold regularVertices in Hv. simpl in Hv. injection Hv as <-.
  unfold hg, sarea, len2, sidevec, pnorm2, pdot, pcross, vtx.
  destruct i as [|[|[|[|i]]]]; [| | | |lia]; destruct k as [|[|[|[|k]]]]; try lia;
  cbv [prv Nat.add Nat.sub Nat.modulo Nat.divmod fst snd] in N2; try lia; try congruence;
  cbn [length prv nxt Nat.add Nat.sub Nat.modulo Nat.divmod nth fst snd px py padd psub pscale]; simpl; field.
Qed.

Lemma hg_bound : forall i k, (i < m)%nat -> (k < m)%nat -> hg vs i (vtx vs k) <= / w.
Proof.
  intros i k Hi Hk. destruct (Nat.eq_dec m 4) as [E|H4]; [|rewrite w_half; apply (hg_bound_circ m vs H3 H4 Hv); assumption].
  assert (W : 1 <= / w). { pose proof w_pos. assert (w <= 1) by apply SIN_bound. rewrite <- Rinv_1. apply Rinv_le_contravar; lra. }
  enough (hg vs i (vtx vs k) <= 1) by lra.
  clear W h w Lv Cv Iv Hd. subst m. unfold regularVertices in Hv. simpl in Hv. injection Hv as <-.
  unfold hg, sarea, len2, sidevec, pnorm2, pdot, pcross, vtx.
  destruct i as [|[|[|[|i]]]]; [| | | |lia]; destruct k as [|[|[|[|k]]]]; try lia;
  cbn [length prv nxt Nat.add Nat.sub Nat.modulo Nat.divmod nth fst snd px py padd psub pscale]; simpl; lra.
Qed.

Lemma hg_own : forall i, (i < m)%nat -> hg vs i (vtx vs i) = 0 /\ hg vs i (vtx vs (prv m i)) = 0.
Proof. intros i Hi. unfold hg. rewrite Lv. split; unfold sarea, pcross; simpl; unfold Rdiv; ring. Qed.

Lemma hg_next : forall i, (i < m)%nat -> hg vs i (vtx vs (nxt m i)) = h /\ hg vs i (vtx vs (prv m (prv m i))) = h.
Proof.
  intros i Hi. destruct (regular_heights m vs i H3 Hv Hi) as [A B]. unfold heightPrev, heightNext in A, B. unfold hg.
  rewrite Lv in *. split; assumption.
Qed.

Lemma len2_same : forall i j, (i < m)%nat -> (j < m)%nat -> len2 vs i = len2 vs j.
Proof.
  intros i j Hi Hj. destruct (Nat.eq_dec m 4) as [E|H4].
  - clear h w Lv Cv Iv Hd. subst m. unfold regularVertices in Hv. simpl in Hv. injection Hv as <-.
    unfold len2, sidevec, pnorm2, pdot, vtx.
    destruct i as [|[|[|[|i]]]]; [| | | |lia]; destruct j as [|[|[|[|j]]]]; try lia;
    cbn [length prv nxt Nat.add Nat.sub Nat.modulo Nat.divmod nth fst snd px py padd psub pscale]; simpl; ring.
  - rewrite !(len2_circ m vs H3 H4 Hv) by assumption. reflexivity.
Qed.

(** Heights of points of side [e]. *)
Section OnSide.
Variables (e : nat) (s : R).
Hypothesis He : (e < m)%nat.
Hypothesis Hs : 0 <= s <= 1.
Let p := sidePt vs e s.
Let y (i : nat) : R := hg vs i p.

Let ys : forall i, y i = s * hg vs i (vtx vs e) + (1 - s) * hg vs i (vtx vs (prv m e)).
Proof. intros i. unfold y, p. rewrite hg_side. rewrite Lv. reflexivity. Qed.

Lemma p_closed : closed_in vs p.
Proof. apply side_closed; rewrite ?Lv; assumption. Qed.
Lemma y_nonneg : forall i, (i < m)%nat -> 0 <= y i.
Proof. intros i Hi. apply hg_nonneg; rewrite ?Lv; try assumption. apply p_closed. Qed.
Lemma y_own : y e = 0.
Proof. rewrite ys. destruct (hg_own e He) as [-> ->]. ring. Qed.
Lemma y_next : y (nxt m e) = (1 - s) * h.
Proof.
  rewrite ys. assert (Ln : (nxt m e < m)%nat) by (apply nxt_lt; lia).
  destruct (hg_own _ Ln) as [_ A]. destruct (hg_next _ Ln) as [_ B]. rewrite (prv_nxt m e He) in A, B. rewrite A, B. ring.
Qed.
Lemma y_prev : y (prv m e) = s * h.
Proof.
  rewrite ys. assert (Lp : (prv m e < m)%nat) by (apply prv_lt; lia).
  destruct (hg_own _ Lp) as [A _]. destruct (hg_next _ Lp) as [B _]. rewrite (nxt_prv m e He) in B. rewrite A, B. ring.
Qed.
Lemma y_far : forall i, (i < m)%nat -> i <> e -> i <> nxt m e -> i <> prv m e -> h <= y i.
Proof.
  intros i Hi N1 N2 N3. rewrite ys. assert (Lp : (prv m e < m)%nat) by (apply prv_lt; lia).
  assert (A : h <= hg vs i (vtx vs e)).
  { apply hg_far; auto. intros X. apply N2. rewrite X. symmetry. apply nxt_prv. exact Hi. }
  assert (B : h <= hg vs i (vtx vs (prv m e))).
  { apply hg_far; auto. intros X. apply N1. rewrite <- (nxt_prv m i Hi), <- X, (nxt_prv m e He). reflexivity. }
  pose proof h_pos. nra.
Qed.
Lemma y_bound : forall i, (i < m)%nat -> y i <= / w.
Proof.
  intros i Hi. rewrite ys. pose proof (hg_bound i e Hi He) as A. pose proof (hg_bound i (prv m e) Hi (prv_lt m e ltac:(lia))) as B. nra.
Qed.
End OnSide.

(** The bilinear coordinates in terms of heights. *)
Lemma bilinear_value : forall eps i q, (i < m)%nat -> 0 < eps -> closed_in vs q ->
  let a := hg vs (prv m i) q in let b := hg vs (nxt m i) q in
  bilinearMap eps d i q = Some (mkV2 (if Rlt_dec (a + b) eps then 0 else a / (a + b)) (hg vs i q / h)).
Proof.
  intros eps i q Hi He Cl a b.
  assert (Lp : (prv m i < m)%nat) by (apply prv_lt; lia). assert (Lx : (nxt m i < m)%nat) by (apply nxt_lt; lia).
  pose proof h_pos as Ph.
  assert (Q1 : (i < length vs)%nat) by (rewrite Lv; exact Hi).
  assert (Q3 : (3 <= length vs)%nat) by (rewrite Lv; exact H3).
  assert (A0 : 0 <= a) by (apply hg_nonneg; rewrite ?Lv; assumption).
  assert (B0 : 0 <= b) by (apply hg_nonneg; rewrite ?Lv; assumption).
  rewrite (bilinearMap_closed pzero vs d Hd Q3 Cv Iv eps i q Q1).
  pose proof (len2_pos vs Q3 Cv i Q1) as Pl.
  unfold bilinearLocal. rewrite (loc1_y vs i Q1), (loc2_y vs i Q1).
  destruct (regular_heights m vs i H3 Hv Hi) as [-> ->]. fold h. cbn [px py].
  set (X := pdot (q -p vtx vs (prv (length vs) i)) (sidevec vs i) / len2 vs i).
  set (Y := pcross (sidevec vs i) (q -p vtx vs (prv (length vs) i)) / len2 vs i).
  assert (EY : Y = hg vs i q) by reflexivity.
  assert (Ea : X * h - Y * px (loc1 vs i) = a).
  { destruct (regular_heights m vs i H3 Hv Hi) as [HP _]. fold h in HP.
    unfold a, hg. rewrite (len2_same (prv m i) i Lp Hi). rewrite <- HP. unfold heightPrev, loc1. cbn [px]. rewrite Lv. unfold X, Y. rewrite Lv.
    set (u := sidevec vs i). assert (Eu : vtx vs i = vtx vs (prv m i) +p u) by (unfold u, sidevec; rewrite Lv; apply V2_ext; simpl; ring).
    rewrite Eu. set (o := vtx vs (prv m i)). set (z := vtx vs (prv m (prv m i))).
    assert (EL : len2 vs i = px u * px u + py u * py u) by reflexivity.
    unfold sarea, pcross, pdot; cbn [padd psub pscale px py].
    apply (Rmult_eq_reg_r (len2 vs i * len2 vs i)); [|nra]. field_simplify; [|lra|lra]. rewrite EL. ring. }
  assert (Eb : h + (px (loc2 vs i) - px (loc1 vs i)) * Y = a + b).
  { rewrite <- Ea. destruct (regular_heights m vs i H3 Hv Hi) as [_ HN]. fold h in HN.
    enough (h + (px (loc2 vs i)) * Y - X * h = b) by lra.
    unfold b, hg. rewrite (len2_same (nxt m i) i Lx Hi). rewrite <- HN. unfold heightNext, loc2. cbn [px]. rewrite Lv. unfold X, Y. rewrite Lv.
    rewrite (prv_nxt m i Hi).
    set (u := sidevec vs i). assert (Eu : vtx vs i = vtx vs (prv m i) +p u) by (unfold u, sidevec; rewrite Lv; apply V2_ext; simpl; ring).
    rewrite Eu. set (o := vtx vs (prv m i)). set (z := vtx vs (nxt m i)).
    assert (EL : len2 vs i = px u * px u + py u * py u) by reflexivity.
    unfold sarea, pcross, pdot; cbn [padd psub pscale px py].
    apply (Rmult_eq_reg_r (len2 vs i * len2 vs i)); [|nra]. field_simplify; [|lra|lra]. rewrite EL. ring. }
  replace (h - h) with 0 by ring. 
  replace (X * h - (X + 1) * h + (px (loc1 vs i) - px (loc2 vs i)) * Y) with (- (a + b)) by (rewrite <- Eb; ring).
  rewrite Ea. unfold bilinearSolve. rewrite Rabs_R0. destruct (Rlt_dec 0 eps) as [_|]; [|lra].
  rewrite Rabs_Ropp, Rabs_pos_eq by lra. rewrite EY.
  destruct (Rlt_dec (a + b) eps) as [L|L].
  - cbn [bind]. rewrite fdiv_some by lra. cbn [bind]. do 2 f_equal. field. lra.
  - rewrite fdiv_some by lra. cbn [bind]. rewrite fdiv_some by nra. cbn [bind]. do 2 f_equal; [field; lra|].
    set (t := - a / - (a + b)). replace (h * (1 - t) + h * t) with h by ring. reflexivity.
Qed.


(** *** Bilinear coordinates of a point of side [e] *)
Section OnSide2.
Variables (e : nat) (s eps : R).
Hypothesis He : (e < m)%nat.
Hypothesis Hs : 0 <= s <= 1.
Hypothesis Hp : 0 < eps <= 1/2.
Hypothesis Hh : eps <= h.
Let p := sidePt vs e s.
Let y (i : nat) : R := hg vs i p.
Definition bs (i : nat) : R := if Rlt_dec (y (prv m i) + y (nxt m i)) eps then 0 else y (prv m i) / (y (prv m i) + y (nxt m i)).

Let Lx : (nxt m e < m)%nat. Proof. apply nxt_lt; lia. Qed.
Let Lp : (prv m e < m)%nat. Proof. apply prv_lt; lia. Qed.
Let Lpp : (prv m (prv m e) < m)%nat. Proof. apply prv_lt; lia. Qed.

Lemma bmap : forall i, (i < m)%nat -> bilinearMap eps d i p = Some (mkV2 (bs i) (y i / h)).
Proof. intros i Hi. apply (bilinear_value eps i p Hi); [lra|]. apply p_closed; assumption. Qed.

Lemma y0 : forall i, (i < m)%nat -> 0 <= y i.
Proof. intros i Hi. apply y_nonneg; assumption. Qed.

Lemma bs_range : forall i, (i < m)%nat -> 0 <= bs i <= 1.
Proof.
  intros i Hi. unfold bs. destruct (Rlt_dec _ eps); [lra|].
  pose proof (y0 (prv m i) (prv_lt m i ltac:(lia))). pose proof (y0 (nxt m i) (nxt_lt m i ltac:(lia))). apply ratio_range; lra.
Qed.

Lemma bs_e : bs e = s.
Proof.
  unfold bs. unfold y, p. rewrite (y_prev e s He), (y_next e s He). fold h.
  pose proof h_pos. replace (s * h + (1 - s) * h) with h by ring. destruct (Rlt_dec h eps); [lra|]. field. lra.
Qed.
Lemma bs_next : bs (nxt m e) = 0.
Proof.
  unfold bs. rewrite (prv_nxt m e He). assert (E0 : y e = 0) by (apply y_own; assumption). rewrite E0.
  destruct (Rlt_dec _ eps); [reflexivity|]. unfold Rdiv; ring.
Qed.

Lemma pp_far : (4 <= m)%nat -> prv m (prv m e) <> e /\ prv m (prv m e) <> nxt m e /\ prv m (prv m e) <> prv m e.
Proof.
  intros H. destruct (prv_spec m e He) as [[A B]|[A B]]; destruct (prv_spec m (prv m e) Lp) as [[A' B']|[A' B']];
    destruct (nxt_spec m e He) as [[A'' B'']|[A'' B'']]; lia.
Qed.

Lemma bs_prev : (4 <= m)%nat \/ eps <= (1 - s) * h -> bs (prv m e) = 1.
Proof.
  intros Q. unfold bs. rewrite (nxt_prv m e He).
  assert (E0 : y e = 0) by (apply y_own; assumption). rewrite E0, Rplus_0_r.
  assert (K : eps <= y (prv m (prv m e))).
  { destruct (le_lt_dec 4 m) as [M|M].
    - destruct (pp_far M) as (A & B & D). pose proof (y_far e s He Hs _ Lpp A B D) as F. unfold y, p. lra.
    - destruct Q as [Q|Q]; [lia|]. assert (E3 : m = 3%nat) by lia.
      assert (X : prv m (prv m e) = nxt m e).
      { destruct (prv_spec m e He) as [[A B]|[A B]]; destruct (prv_spec m (prv m e) Lp) as [[A' B']|[A' B']];
          destruct (nxt_spec m e He) as [[A'' B'']|[A'' B'']]; lia. }
      rewrite X. unfold y, p. rewrite (y_next e s He). exact Q. }
  destruct (Rlt_dec _ eps); [lra|]. field. lra.
Qed.

Lemma far_height : forall i, (i < m)%nat -> i <> e -> i <> nxt m e -> i <> prv m e -> h <= y i.
Proof. intros i Hi A B D. apply (y_far e s He Hs i Hi A B D). Qed.

Lemma bilinear_coords : (4 <= m)%nat \/ eps <= (1 - s) * h \/ 1 - s < eps ->
  exists sds, mapToRibbons KBilinear eps d p = Some sds /\ side_coords eps m e s sds /\ tame sds.
Proof.
  intros Q. pose proof h_pos as Ph.
  destruct (mapM_total_nth _ (fun i => mapToRibbon KBilinear eps d i p) m) as (l & L1 & L2 & L3).
  { intros i Hi. cbn [mapToRibbon]. rewrite (bmap i Hi). eexists; reflexivity. }
  exists l. unfold mapToRibbons. rewrite (reg_n m vs d H3 Hv Hd). split; [exact L1|]. cbn [mapToRibbon] in L3.
  assert (V : forall i, (i < m)%nat -> nth_error l i = Some (mkV2 (bs i) (y i / h))) by (intros i Hi; rewrite (L3 i Hi); apply bmap; exact Hi).
  split.
  - split; [exact L2|]. split; [|split; [|split]].
    + rewrite (V e He), bs_e. unfold y, p. rewrite (y_own e s He). do 2 f_equal. unfold Rdiv; ring.
    + rewrite (V _ Lx), bs_next. unfold y, p. rewrite (y_next e s He). do 2 f_equal. field. unfold h in *. lra.
    + exists (bs (prv m e)), s. split; [|split].
      * rewrite (V _ Lp). unfold y, p. rewrite (y_prev e s He). do 2 f_equal. field. unfold h in *. lra.
      * intros K. split; [|reflexivity]. apply bs_prev. destruct Q as [Q|[Q|Q]]; [left; exact Q|right; exact Q|lra].
      * intros K. lra.
    + intros j sd Ej A B D. assert (Hj : (j < m)%nat) by (rewrite <- L2; apply nth_error_Some; congruence).
      rewrite (V j Hj) in Ej. injection Ej as <-. cbn [py]. pose proof (far_height j Hj A B D) as F.
      apply Rle_trans with 1; [lra|]. apply (Rmult_le_reg_r h); [exact Ph|]. unfold Rdiv. rewrite Rmult_assoc, Rinv_l by lra. lra.
  - intros j sd Ej. assert (Hj : (j < m)%nat) by (rewrite <- L2; apply nth_error_Some; congruence).
    rewrite (V j Hj) in Ej. injection Ej as <-. cbn [px py]. split; [apply bs_range; exact Hj|].
    apply Rmult_le_pos; [apply y0; exact Hj|left; apply Rinv_0_lt_compat; exact Ph].
Qed.

(** *** Interconnected *)
Lemma hermite_range : forall t, 0 <= t <= 1 -> 0 <= hermite 0 t <= 1.
Proof.
  intros t Ht. cbn [hermite].
  assert (A : (1 - t) ^ 3 + 3 * (1 - t) ^ 2 * t = (1 - t) ^ 2 * (1 + 2 * t)) by ring.
  assert (B : 1 - (1 - t) ^ 2 * (1 + 2 * t) = t ^ 2 * (3 - 2 * t)) by ring. rewrite A.
  assert (0 <= (1 - t) ^ 2 * (1 + 2 * t)) by (apply Rmult_le_pos; [apply pow2_ge_0|lra]).
  assert (0 <= t ^ 2 * (3 - 2 * t)) by (apply Rmult_le_pos; [apply pow2_ge_0|lra]). lra.
Qed.

Lemma interconnected_coords : eps <= h * w / 2 -> (4 <= m)%nat \/ eps <= (1 - s) * h ->
  exists sds, mapToRibbons KInterconnected eps d p = Some sds /\ side_coords eps m e s sds /\ tame sds.
Proof.
  intros Hw Q. pose proof h_pos as Ph. pose proof w_pos as Pw.
  set (di := fun i => (1 - bs (prv m i)) * hermite 0 (bs i) + bs (nxt m i) * (1 - hermite 0 (bs i))).
  assert (IV : forall i, (i < m)%nat -> interconnectedMap eps d i p = Some (mkV2 (bs i) (di i))).
  { intros i Hi. unfold interconnectedMap. rewrite (reg_n m vs d H3 Hv Hd).
    rewrite !bmap by (try apply nxt_lt; try apply prv_lt; lia). cbn [bind px]. reflexivity. }
  destruct (mapM_total_nth _ (fun i => mapToRibbon KInterconnected eps d i p) m) as (l & L1 & L2 & L3).
  { intros i Hi. cbn [mapToRibbon]. rewrite (IV i Hi). eexists; reflexivity. }
  exists l. unfold mapToRibbons. rewrite (reg_n m vs d H3 Hv Hd). split; [exact L1|]. cbn [mapToRibbon] in L3.
  assert (V : forall i, (i < m)%nat -> nth_error l i = Some (mkV2 (bs i) (di i))) by (intros i Hi; rewrite (L3 i Hi); apply IV; exact Hi).
  assert (Bp := bs_prev Q).
  assert (D0 : forall i, (i < m)%nat -> 0 <= di i).
  { intros i Hi. unfold di. pose proof (bs_range (prv m i) (prv_lt m i ltac:(lia))). pose proof (bs_range (nxt m i) (nxt_lt m i ltac:(lia))).
    pose proof (hermite_range (bs i) (bs_range i Hi)).
    assert (0 <= (1 - bs (prv m i)) * hermite 0 (bs i)) by (apply Rmult_le_pos; lra).
    assert (0 <= bs (nxt m i) * (1 - hermite 0 (bs i))) by (apply Rmult_le_pos; lra). lra. }
  split.
  - split; [exact L2|]. split; [|split; [|split]].
    + rewrite (V e He). unfold di. rewrite bs_e, bs_next, Bp. do 2 f_equal. ring.
    + rewrite (V _ Lx). unfold di. rewrite (prv_nxt m e He), bs_e, bs_next. do 2 f_equal. unfold hermite; simpl; ring.
    + exists 1, s. split; [|split]; [|auto|intros K; lra].
      rewrite (V _ Lp). unfold di. rewrite (nxt_prv m e He), bs_e, Bp. do 2 f_equal. unfold hermite; simpl; ring.
    + intros j sd Ej A B D. assert (Hj : (j < m)%nat) by (rewrite <- L2; apply nth_error_Some; congruence).
      rewrite (V j Hj) in Ej. injection Ej as <-. cbn [py]. pose proof (far_height j Hj A B D) as F.
      assert (Jp : (prv m j < m)%nat) by (apply prv_lt; lia). assert (Jn : (nxt m j < m)%nat) by (apply nxt_lt; lia).
      assert (Bd : forall i, (i < m)%nat -> y i <= / w) by (intros i Hi; apply y_bound; assumption).
      assert (R : forall z, 0 <= z -> z <= / w -> h * w / 2 <= y j / (y j + z)).
      { intros z Z0 Z1. pose proof (Bd j Hj) as Bj. assert (0 < y j + z) by lra.
        apply (Rmult_le_reg_r (y j + z)); [lra|]. unfold Rdiv. rewrite (Rmult_assoc (y j)), Rinv_l by lra.
        assert ((y j + z) * w <= 2).
        { assert (Iw : / w * w = 1) by (apply Rinv_l; lra). assert (y j * w <= 1) by (rewrite <- Iw; apply Rmult_le_compat_r; lra).
          assert (z * w <= 1) by (rewrite <- Iw; apply Rmult_le_compat_r; lra). lra. }
        assert (h * w * / 2 * (y j + z) = h * ((y j + z) * w) / 2) by field. nra. }
      assert (Hq : eps <= 1 - bs (prv m j)).
      { unfold bs. rewrite (nxt_prv m j Hj). pose proof (y0 (prv m (prv m j)) (prv_lt m _ ltac:(lia))) as Z0.
        pose proof (Bd (prv m (prv m j)) (prv_lt m _ ltac:(lia))) as Z1. destruct (Rlt_dec _ eps) as [L|L]; [lra|].
        specialize (R _ Z0 Z1). set (z := y (prv m (prv m j))) in *.
        replace (1 - z / (z + y j)) with (y j / (y j + z)) by (field; lra). lra. }
      assert (Hr : eps <= bs (nxt m j)).
      { unfold bs. rewrite (prv_nxt m j Hj). pose proof (y0 (nxt m (nxt m j)) (nxt_lt m _ ltac:(lia))) as Z0.
        pose proof (Bd (nxt m (nxt m j)) (nxt_lt m _ ltac:(lia))) as Z1. destruct (Rlt_dec _ eps) as [L|L]; [lra|].
        specialize (R _ Z0 Z1). lra. }
      unfold di. pose proof (hermite_range (bs j) (bs_range j Hj)) as HH. set (H := hermite 0 (bs j)) in *.
      assert (eps * H <= (1 - bs (prv m j)) * H) by (apply Rmult_le_compat_r; lra).
      assert (eps * (1 - H) <= bs (nxt m j) * (1 - H)) by (apply Rmult_le_compat_r; lra). lra.
  - intros j sd Ej. assert (Hj : (j < m)%nat) by (rewrite <- L2; apply nth_error_Some; congruence).
    rewrite (V j Hj) in Ej. injection Ej as <-. cbn [px py]. split; [apply bs_range; exact Hj|apply D0; exact Hj].
Qed.

End OnSide2.
End Reg.
