(** Ribbon coordinates beside a side of a convex polygon: the Wachspress and the
    constrained parameterizations. *)
From Verif Require Import Base MeshModel GeomSpec DomainModel UtilModel UtilSpec ParamModel.
From Verif Require Import DomainProofs DomainPolygons UtilProofs BlendProps ParamBary ParamMaps ParamRegular ParamSide SurfaceSpec ParamTame ParamFar ParamFar2 BlendProofs.
From Verif Require Import GBContact2 PropsParam PatchContact.
From Coq Require Import Reals List Lia Lra Psatz.
Import ListNotations.
Open Scope R_scope.

(** A weight of the constrained parameterization is at most the square of any other
    argument over its own. *)
Lemma singular_ratio : forall eps a b x y, 0 < eps -> exists b0 b1 b2 b3,
  singularBlend eps [a; b; x; y] = Some [b0; b1; b2; b3] /\ 0 <= b0 /\ 0 <= b1 /\ 0 <= b2 /\ 0 <= b3 /\ b0 + b1 + b2 + b3 = 1 /\
  forall q, q = a \/ q = b \/ q = x \/ q = y ->
    (eps <= a -> b0 * a ^ 2 <= q ^ 2) /\ (eps <= b -> b1 * b ^ 2 <= q ^ 2) /\ (eps <= x -> b2 * x ^ 2 <= q ^ 2) /\ (eps <= y -> b3 * y ^ 2 <= q ^ 2).
Proof.
  intros eps a b x y He. destruct (singular_four eps a b x y He) as (b0 & b1 & b2 & b3 & B & P0 & P1 & P2 & P3 & Sm & Z).
  exists b0, b1, b2, b3. do 6 (split; [assumption|]).
  assert (Ns : (a < eps \/ b < eps \/ x < eps \/ y < eps) \/ (eps <= a /\ eps <= b /\ eps <= x /\ eps <= y)) by (destruct (Rlt_dec a eps); destruct (Rlt_dec b eps); destruct (Rlt_dec x eps); destruct (Rlt_dec y eps); tauto || (right; lra)).
  destruct Ns as [Si|(A & B' & X & Y)].
  - destruct (Z Si) as (Z0 & Z1 & Z2 & Z3). intros q _. pose proof (pow2_ge_0 q). repeat split; intros U; [rewrite (Z0 U)|rewrite (Z1 U)|rewrite (Z2 U)|rewrite (Z3 U)]; lra.
  - unfold singularBlend in B. cbn [filter] in B. destruct (Rlt_dec a eps); [lra|]. destruct (Rlt_dec b eps); [lra|]. destruct (Rlt_dec x eps); [lra|]. destruct (Rlt_dec y eps); [lra|].
    cbn [length Nat.ltb Nat.leb mapM] in B. rewrite !fdiv_some in B by (apply pow_nonzero; lra). cbn [bind] in B.
    assert (Q : forall t, eps <= t -> 0 < 1 / t ^ 2) by (intros t T; apply Rdiv_lt_0_compat; [lra|apply pow_lt; lra]).
    pose proof (Q a A) as Qa. pose proof (Q b B') as Qb. pose proof (Q x X) as Qx. pose proof (Q y Y) as Qy.
    set (fa := 1 / a ^ 2) in *. set (fb := 1 / b ^ 2) in *. set (fx := 1 / x ^ 2) in *. set (fy := 1 / y ^ 2) in *.
    assert (S0 : accumulate [fa; fb; fx; fy] = fa + fb + fx + fy) by (unfold accumulate; simpl; ring). rewrite S0 in B. cbn [mapM] in B.
    rewrite !fdiv_some in B by lra. cbn [bind] in B. injection B as <- <- <- <-.
    set (tot := fa + fb + fx + fy) in *.
    assert (fin : forall f t q, eps <= t -> eps <= q -> f = 1 / t ^ 2 -> 1 / q ^ 2 <= tot -> f / tot * t ^ 2 <= q ^ 2).
    { intros f t q Ht Hq -> Le. assert (T2 : 0 < t ^ 2) by (apply pow_lt; lra). assert (Q2 : 0 < q ^ 2) by (apply pow_lt; lra). assert (PT : 0 < tot) by (unfold tot; lra).
      replace (1 / t ^ 2 / tot * t ^ 2) with (/ tot) by (field; split; apply Rgt_not_eq; lra).
      rewrite <- (Rinv_inv (q ^ 2)). apply Rinv_le_contravar; [apply Rinv_0_lt_compat; exact Q2|]. unfold Rdiv in Le. lra. }
    intros q [->|[->|[->| ->]]]; repeat split; intros U; apply fin; try assumption; try reflexivity; unfold tot; fold fa fb fx fy; lra.
Qed.

Section Poly.
Variables (vs : list V2) (c : V2) (dm : dom) (eps : R) (e : nat) (l : list R) (a b ct : R) (uv : V2).
Let n := length vs.
Hypothesis Hn : (3 <= n)%nat.
Hypothesis Cv : strictly_convex vs.
Hypothesis Ic : inside vs c.
Hypothesis Hdm : domainFrames c vs = Some dm.
Hypothesis Iu : inside vs uv.
Hypothesis He : (e < n)%nat.
Hypothesis Heps : 0 < eps <= 1.
Hypothesis Hec : eps <= ct.
Hypothesis B : barycentric Wachspress eps dm uv = Some l.
Hypothesis Ea : nth_error l (prv n e) = Some a.
Hypothesis Eb : nth_error l e = Some b.
Hypothesis Ca : ct <= a.
Hypothesis Cb : ct <= b.
Let s := b / (a + b).
Let h := 1 - b - a.

Let Hp : (prv n e < n)%nat. Proof. apply prv_lt; lia. Qed.
Let Hx : (nxt n e < n)%nat. Proof. apply nxt_lt; lia. Qed.

Lemma wach : exists sds, mapToRibbons (KBary Wachspress) eps dm uv = Some sds /\ beside n e ct s (h / ct) h sds /\
  0 <= h /\ 2 * ct + h <= 1 /\ nth_error sds e = Some (mkV2 s h) /\
  ct <= 1 - spar sds (nxt n e) /\ ct <= 1 - dpar sds (nxt n e) /\ ct <= spar sds (prv n e) /\ ct <= 1 - dpar sds (prv n e) /\
  (forall i, (i < n)%nat -> i <> e -> i <> nxt n e -> i <> prv n e -> 1 - dpar sds i <= h).
Proof.
  destruct (C19_wachspress vs dm eps uv (d_verts_eq _ _ _ Hdm) Hn Cv Iu ltac:(lra)) as (l' & B' & Ll & Pl & Sl). rewrite B in B'. injection B' as <-. rewrite Ll in Sl. fold n in Ll, Sl.
  set (la := fun i => nth i l 0) in *.
  assert (P : forall i, (i < n)%nat -> 0 < la i) by (intros i Hi; apply Pl, nth_In; rewrite Ll; exact Hi).
  assert (El : forall i, (i < n)%nat -> nth_error l i = Some (la i)) by (intros i Hi; apply nth_error_nth'; rewrite Ll; exact Hi).
  pose proof Ea as Ea'. pose proof Eb as Eb'. rewrite (El _ Hp) in Ea'. injection Ea' as Ea'. rewrite (El _ He) in Eb'. injection Eb' as Eb'.
  assert (V : forall i, (i < n)%nat -> exists t, baryRibbon eps dm l i uv = Some (mkV2 t (1 - la i - la (prv n i))) /\ 0 <= t <= 1 /\ (eps <= la (prv n i) + la i -> t = la i / (la (prv n i) + la i))).
  { intros i Hi. assert (Hpi : (prv n i < n)%nat) by (apply prv_lt; lia).
    destruct (bary_tame c vs dm Hdm Hn Cv Ic eps l i uv (la i) (la (prv n i)) ltac:(lra) Hi (inside_closed vs uv Iu) (El i Hi) (El _ Hpi) (Rlt_le _ _ (P i Hi)) (Rlt_le _ _ (P _ Hpi))) as (t & T & T01). exists t. split; [exact T|]. split; [exact T01|]. intros X.
    destruct (angle_some c vs dm Hdm Hn Cv i Hi) as [al Aa]. destruct (angle_some c vs dm Hdm Hn Cv _ Hpi) as [be Ab].
    assert (W := baryRibbon_value c vs dm Hdm Hn Cv Ic eps l i uv (la i) (la (prv n i)) al be ltac:(lra) Hi (El i Hi) (El _ Hpi) Aa Ab). cbv zeta in W. fold n in W, T. rewrite T in W. injection W as W.
    destruct (Rlt_dec (la (prv n i) + la i) eps); [lra|exact W]. }
  destruct (mapM_total_nth _ (fun i => mapToRibbon (KBary Wachspress) eps dm i uv) n) as (sds & M1 & M2 & M3).
  { intros i Hi. destruct (V i Hi) as (t & T & _). eexists. cbn [mapToRibbon]. unfold baryMap. rewrite B. cbn [bind]. exact T. }
  assert (V' : forall i, (i < n)%nat -> exists t, nth_error sds i = Some (mkV2 t (1 - la i - la (prv n i))) /\ 0 <= t <= 1 /\ (eps <= la (prv n i) + la i -> t = la i / (la (prv n i) + la i))).
  { intros i Hi. destruct (V i Hi) as (t & T & Q). exists t. split; [|exact Q]. rewrite (M3 i Hi). cbn [mapToRibbon]. unfold baryMap. rewrite B. exact T. }
  assert (Me : nth_error sds e = Some (mkV2 s h)).
  { destruct (V' e He) as (t & T & _ & Q). rewrite T. unfold s, h. rewrite Q by lra. rewrite Ea', Eb'. reflexivity. }
  exists sds. unfold mapToRibbons. rewrite (d_n_eq _ _ _ Hdm). fold n. split; [exact M1|].
  assert (H01 := lam_h01 n la e Hn P Sl He).
  assert (Cpos : 0 < ct) by lra.
  assert (X2 := two_le n la P Sl e (prv n e) He Hp ltac:(apply not_eq_sym; apply prv_neq; lia)). rewrite Ea', Eb' in X2.
  assert (He01 := H01 e He). cbv beta in He01. rewrite Ea', Eb' in He01. fold h in He01.
  assert (Zh : h <= h / ct). { apply (Rmult_le_reg_r ct); [exact Cpos|]. unfold Rdiv. rewrite Rmult_assoc, Rinv_l by lra. nra. }
  assert (Pos : forall u w, 0 < u -> 0 < w -> u + w <= 1 -> u <= u / (u + w)).
  { intros u w U W0 S1. apply (Rmult_le_reg_r (u + w)); [lra|]. unfold Rdiv. rewrite Rmult_assoc, Rinv_l by lra. nra. }
  assert (Hpp : (prv n (prv n e) < n)%nat) by (apply prv_lt; lia).
  assert (Nx : nxt n e <> e) by (apply nxt_neq; lia). assert (Npp : prv n (prv n e) <> prv n e) by (apply prv_neq; lia).
  destruct (V' _ Hx) as (x & Tx & X01 & Qx). rewrite prv_nxt in Tx, Qx by exact He. rewrite Eb' in Tx, Qx. assert (Px := P _ Hx). specialize (Qx ltac:(lra)).
  destruct (V' _ Hp) as (y & Ty & Y01 & Qy). rewrite Ea' in Ty, Qy. assert (Py := P _ Hpp). specialize (Qy ltac:(lra)).
  assert (Lx := lam_x n la e ct Hn P Sl He ltac:(rewrite Ea'; exact Ca)). cbv beta in Lx. rewrite prv_nxt, Eb' in Lx by exact He.
  assert (Lpp := lam_p n la e ct Hn P Sl He ltac:(rewrite Eb'; exact Cb)). cbv beta in Lpp. rewrite Ea' in Lpp.
  assert (Sx := lam_sx n la e ct Hn P Sl He Cpos ltac:(rewrite Eb'; exact Cb)). cbv beta in Sx. rewrite Ea', Eb' in Sx. fold h in Sx. rewrite <- Qx in Sx.
  assert (Sp := lam_sp n la e ct Hn P Sl He Cpos ltac:(rewrite Ea'; exact Ca)). cbv beta in Sp. rewrite Eb', Ea' in Sp. fold h in Sp. rewrite <- Qy in Sp.
  assert (Gx := lam_tx n la e ct Hn P Sl He Cpos ltac:(rewrite Eb'; exact Cb) ltac:(rewrite Ea'; exact Ca)). cbv beta in Gx. rewrite prv_nxt in Gx by exact He. rewrite Ea', Eb' in Gx. fold s h in Gx.
  assert (Gp := lam_tp n la e Hn P Sl He). cbv beta in Gp. rewrite Ea', Eb' in Gp. fold s h in Gp.
  assert (Fa : forall i, (i < n)%nat -> i <> e -> i <> nxt n e -> i <> prv n e -> la i + la (prv n i) <= h).
  { intros i Hi N1 N2 N3. assert (F := far_le n la e Hn P Sl He i Hi N1 N2 N3). cbv beta in F. rewrite Ea', Eb' in F. exact F. }
  assert (At : forall i t u, nth_error sds i = Some (mkV2 t u) -> spar sds i = t /\ dpar sds i = u).
  { intros i t u E. assert (Hi : (i < length sds)%nat) by (apply nth_error_Some; rewrite E; discriminate). rewrite nth_sd in E by exact Hi. injection E as -> ->. split; reflexivity. }
  destruct (At _ _ _ Tx) as [Ax1 Ax2]. destruct (At _ _ _ Ty) as [Ap1 Ap2].
  assert (Xe := two_le n la P Sl (nxt n e) e Hx He Nx). rewrite Eb' in Xe.
  assert (Xp := two_le n la P Sl _ _ Hpp Hp Npp). rewrite Ea' in Xp.
  split; [|split; [|split; [|split; [|split; [|split; [|split; [|split]]]]]]].
  - split; [exact M2|]. split; [|split; [|split; [|split; [|split; [|split]]]]].
    + intros i sd Ei. assert (Hi : (i < n)%nat) by (rewrite <- M2; apply nth_error_Some; rewrite Ei; discriminate). destruct (V' i Hi) as (t & T & T01 & _). rewrite T in Ei. injection Ei as <-. cbn [px py]. split; [exact T01|]. apply H01. exact Hi.
    + assert (S1 : b <= s) by (unfold s; rewrite Rplus_comm; apply Pos; lra). assert (S2 : a <= 1 - s) by (replace (1 - s) with (a / (a + b)) by (unfold s; field; lra); apply Pos; lra). lra.
    + exists h. split; [exact Me|exact Zh].
    + exists x. eexists. split; [exact Tx|]. split; [unfold Rdiv; lra|exact Gx].
    + exists y. eexists. split; [exact Ty|]. split; [unfold Rdiv; lra|exact Gp].
    + intros i sd Ei N1. assert (Hi : (i < n)%nat) by (rewrite <- M2; apply nth_error_Some; rewrite Ei; discriminate).
      destruct (Nat.eq_dec i (nxt n e)) as [->|N2]; [rewrite Tx in Ei; injection Ei as <-; cbn [py]; exact Lx|].
      destruct (Nat.eq_dec i (prv n e)) as [->|N3]; [rewrite Ty in Ei; injection Ei as <-; cbn [py]; lra|].
      destruct (V' i Hi) as (t & T & _). rewrite T in Ei. injection Ei as <-. cbn [py]. specialize (Fa i Hi N1 N2 N3). unfold h in Fa. lra.
    + intros i sd Ei N1 N2 N3. assert (Hi : (i < n)%nat) by (rewrite <- M2; apply nth_error_Some; rewrite Ei; discriminate).
      destruct (V' i Hi) as (t & T & _). rewrite T in Ei. injection Ei as <-. cbn [py]. specialize (Fa i Hi N1 N2 N3). lra.
  - apply He01.
  - unfold h. lra.
  - exact Me.
  - rewrite Ax1, Qx. replace (1 - la (nxt n e) / (b + la (nxt n e))) with (b / (b + la (nxt n e))) by (field; lra). apply Rle_trans with b; [exact Cb|apply Pos; lra].
  - rewrite Ax2. lra.
  - rewrite Ap1, Qy, Rplus_comm. apply Rle_trans with a; [exact Ca|apply Pos; lra].
  - rewrite Ap2. lra.
  - intros i Hi N1 N2 N3. destruct (V' i Hi) as (t & T & _). destruct (At _ _ _ T) as [_ ->]. specialize (Fa i Hi N1 N2 N3). lra.
Qed.

(** The constrained parameterization, if the coordinates are not at the ends of the far
    sides, other than the ends next to the neighbours of the side. *)
Lemma constrained : forall sds z, mapToRibbons (KBary Wachspress) eps dm uv = Some sds -> h / ct <= z -> 6 * z ^ 2 <= ct ^ 3 ->
  (forall i, (i < n)%nat -> i <> e -> i <> nxt n e -> i <> prv n e ->
    (i <> nxt n (nxt n e) -> ct <= spar sds i) /\ (i <> prv n (prv n e) -> spar sds i <= 1 - ct)) ->
  exists sds', mapToRibbons (KConstrained Wachspress) eps dm uv = Some sds' /\ beside n e (ct / 2) s (2 * z) (3 * z ^ 2 / ct ^ 2) sds' /\
    (forall i sd, nth_error sds' i = Some sd -> px sd = spar sds i).
Proof.
  intros sds z E0 Hz Sm Far. destruct wach as (sds0 & E1 & Be & H0 & H1 & Ee & X1 & X2 & P1 & P2 & Fh). rewrite E0 in E1. injection E1 as <-.
  assert (Cpos : 0 < ct) by lra. assert (Ls : length sds = n) by apply Be.
  assert (z0 : 0 <= z) by (eapply Rle_trans; [|exact Hz]; apply Rmult_le_pos; [exact H0|left; apply Rinv_0_lt_compat; exact Cpos]).
  assert (hz : h <= ct * z). { replace h with (ct * (h / ct)) by (field; lra). apply Rmult_le_compat_l; lra. }
  assert (C2 : ct <= 1 / 2) by lra.
  assert (z1 : z <= 1 / 6). { assert (ct ^ 3 <= (1 / 2) ^ 3) by (apply pow_incr; lra). apply Rsqr_incr_0; unfold Rsqr; lra. }
  assert (Rg : forall i, (i < n)%nat -> 0 <= spar sds i <= 1 /\ 0 <= dpar sds i <= 1) by (intros i Hi; destruct Be as (_ & U & _); apply (U i (mkV2 (spar sds i) (dpar sds i))), nth_sd; lia).
  assert (Sc : s = spar sds e /\ h = dpar sds e) by (rewrite nth_sd in Ee by lia; injection Ee as <- <-; split; reflexivity). destruct Sc as [Se De].
  assert (Bx : spar sds (nxt n e) <= z). { destruct Be as (_ & _ & _ & _ & (x & h1 & E & Xd & _) & _). rewrite nth_sd in E by lia. injection E as <- <-. lra. }
  assert (Bp : 1 - spar sds (prv n e) <= z). { destruct Be as (_ & _ & _ & _ & _ & (x & h1 & E & Xd & _) & _). rewrite nth_sd in E by lia. injection E as <- <-. lra. }
  assert (Bo : forall j, (j < n)%nat -> j <> e -> ct <= dpar sds j). { intros j J N. destruct Be as (_ & _ & _ & _ & _ & _ & O & _). apply (O j _ (nth_sd sds j ltac:(lia)) N). }
  assert (Sm' : ct <= s <= 1 - ct) by apply Be.
  unfold mapToRibbons in E0. rewrite (d_n_eq _ _ _ Hdm) in E0. fold n in E0. cbn [mapToRibbon] in E0.
  assert (NS : forall i, (i < n)%nat -> baryMap Wachspress eps dm i uv = Some (mkV2 (spar sds i) (dpar sds i))).
  { intros i Hi. rewrite <- nth_sd by lia. symmetry. rewrite <- (mapM_nth _ _ _ i i E0).
    - reflexivity.
    - rewrite (nth_error_nth' (seq 0 n) 0%nat) by (rewrite seq_length; exact Hi). rewrite seq_nth by exact Hi. reflexivity. }
  assert (CV : forall i, (i < n)%nat -> exists b0 b1 b2 b3,
    constrainedMap Wachspress eps dm i uv = Some (mkV2 (spar sds i) (dpar sds i * (b0 + b2) + spar sds (nxt n i) * b1 + (1 - spar sds (prv n i)) * b3)) /\
    0 <= b0 /\ 0 <= b1 /\ 0 <= b2 /\ 0 <= b3 /\ b0 + b1 + b2 + b3 = 1 /\
    forall q, q = dpar sds i \/ q = 1 - spar sds i \/ q = 1 - dpar sds i \/ q = spar sds i ->
    (eps <= dpar sds i -> b0 * dpar sds i ^ 2 <= q ^ 2) /\ (eps <= 1 - spar sds i -> b1 * (1 - spar sds i) ^ 2 <= q ^ 2) /\
    (eps <= 1 - dpar sds i -> b2 * (1 - dpar sds i) ^ 2 <= q ^ 2) /\ (eps <= spar sds i -> b3 * spar sds i ^ 2 <= q ^ 2)).
  { intros i Hi. destruct (singular_ratio eps (dpar sds i) (1 - spar sds i) (1 - dpar sds i) (spar sds i) ltac:(lra)) as (b0 & b1 & b2 & b3 & Bb & R).
    exists b0, b1, b2, b3. split; [|exact R]. unfold constrainedMap. rewrite (d_n_eq _ _ _ Hdm). fold n.
    rewrite !NS by (try apply nxt_lt; try apply prv_lt; lia). cbn [bind]. unfold constrainedRibbon. cbn [px py]. rewrite Bb. reflexivity. }
  destruct (mapM_total_nth _ (fun i => mapToRibbon (KConstrained Wachspress) eps dm i uv) n) as (l1 & L1 & L2 & L3).
  { intros i Hi. cbn [mapToRibbon]. destruct (CV i Hi) as (b0 & b1 & b2 & b3 & -> & _). eexists; reflexivity. }
  cbn [mapToRibbon] in L3. exists l1. unfold mapToRibbons. rewrite (d_n_eq _ _ _ Hdm). fold n. split; [exact L1|].
  assert (quo : forall w t q, 0 <= w -> w * t ^ 2 <= q ^ 2 -> ct <= t -> 0 <= q -> q <= z -> w <= z ^ 2 / ct ^ 2).
  { intros w t q W0 Hw Ht Q0 Qz. assert (T2 : ct ^ 2 <= t ^ 2) by (apply pow_incr; lra). assert (q ^ 2 <= z ^ 2) by (apply pow_incr; lra). assert (0 < ct ^ 2) by (apply pow_lt; exact Cpos).
    apply (Rmult_le_reg_r (ct ^ 2)); [lra|]. unfold Rdiv. rewrite Rmult_assoc, Rinv_l, Rmult_1_r by lra. apply Rle_trans with (w * t ^ 2); [apply Rmult_le_compat_l; lra|lra]. }
  assert (g1 : 3 * z ^ 2 / ct ^ 2 <= ct / 2).
  { assert (0 < ct ^ 2) by (apply pow_lt; exact Cpos). apply (Rmult_le_reg_r (ct ^ 2)); [lra|]. unfold Rdiv. rewrite Rmult_assoc, Rinv_l by lra. simpl in *. lra. }
  assert (Z2 : 0 <= z ^ 2 / ct ^ 2) by (apply Rmult_le_pos; [apply pow2_ge_0|left; apply Rinv_0_lt_compat, pow_lt; exact Cpos]).
  (* a mixture with weight at least 1 - w on one value *)
  assert (near : forall b0 b1 b2 b3 u0 u1 u2 u3 w, 0 <= b0 -> 0 <= b1 -> 0 <= b2 -> b0 + b1 + b2 + b3 = 1 -> b0 <= w -> b1 <= w -> b2 <= w ->
    0 <= u0 <= 1 -> 0 <= u1 <= 1 -> 0 <= u2 <= 1 -> 0 <= u3 <= 1 -> Rabs (u0 * b0 + u1 * b1 + u2 * b2 + u3 * b3 - u3) <= 3 * w).
  { intros b0 b1 b2 b3 u0 u1 u2 u3 w W0 W1 W2 S1 B0 B1 B2 U0 U1 U2 U3. replace (u0 * b0 + u1 * b1 + u2 * b2 + u3 * b3 - u3) with ((u0 - u3) * b0 + (u1 - u3) * b1 + (u2 - u3) * b2) by (replace b3 with (1 - b0 - b1 - b2) by lra; ring).
    replace (3 * w) with (1 * w + 1 * w + 1 * w) by ring. apply PropsContact.abs3; apply abs_scale; try lra; apply Rabs_le; lra. }
  assert (Nxx : (nxt n (nxt n e) < n)%nat) by (apply nxt_lt; lia). assert (Npp : (prv n (prv n e) < n)%nat) by (apply prv_lt; lia).
  assert (Cx : exists t, nth_error l1 (nxt n e) = Some (mkV2 (spar sds (nxt n e)) t) /\ Rabs (t - (1 - s)) <= 3 * z ^ 2 / ct ^ 2).
  { rewrite (L3 _ Hx). destruct (CV _ Hx) as (b0 & b1 & b2 & b3 & -> & W0 & W1 & W2 & W3 & S1 & Rt). eexists; split; [reflexivity|].
    rewrite prv_nxt by exact He. rewrite <- Se. destruct (Rt (spar sds (nxt n e)) ltac:(auto)) as (R0 & R1 & R2 & _). pose proof (Rg _ Hx). pose proof (Rg _ Nxx). pose proof (Bo _ Hx ltac:(apply nxt_neq; lia)).
    replace (dpar sds (nxt n e) * (b0 + b2) + spar sds (nxt n (nxt n e)) * b1 + (1 - s) * b3 - (1 - s)) with
      (dpar sds (nxt n e) * b0 + spar sds (nxt n (nxt n e)) * b1 + dpar sds (nxt n e) * b2 + (1 - s) * b3 - (1 - s)) by ring.
    replace (3 * z ^ 2 / ct ^ 2) with (3 * (z ^ 2 / ct ^ 2)) by (unfold Rdiv; ring).
    apply near; try assumption; try lra; [apply (quo _ (dpar sds (nxt n e)) (spar sds (nxt n e)))|apply (quo _ (1 - spar sds (nxt n e)) (spar sds (nxt n e)))|apply (quo _ (1 - dpar sds (nxt n e)) (spar sds (nxt n e)))]; lra. }
  assert (Cp : exists t, nth_error l1 (prv n e) = Some (mkV2 (spar sds (prv n e)) t) /\ Rabs (t - s) <= 3 * z ^ 2 / ct ^ 2).
  { rewrite (L3 _ Hp). destruct (CV _ Hp) as (b0 & b1 & b2 & b3 & -> & W0 & W1 & W2 & W3 & S1 & Rt). eexists; split; [reflexivity|].
    rewrite nxt_prv by exact He. rewrite <- Se. destruct (Rt (1 - spar sds (prv n e)) ltac:(auto)) as (R0 & _ & R2 & R3). pose proof (Rg _ Hp). pose proof (Rg _ Npp). pose proof (Bo _ Hp ltac:(apply prv_neq; lia)).
    replace (dpar sds (prv n e) * (b0 + b2) + s * b1 + (1 - spar sds (prv n (prv n e))) * b3 - s) with
      (dpar sds (prv n e) * b0 + dpar sds (prv n e) * b2 + (1 - spar sds (prv n (prv n e))) * b3 + s * b1 - s) by ring.
    replace (3 * z ^ 2 / ct ^ 2) with (3 * (z ^ 2 / ct ^ 2)) by (unfold Rdiv; ring).
    apply near; try assumption; try lra; [apply (quo _ (dpar sds (prv n e)) (1 - spar sds (prv n e)))|apply (quo _ (1 - dpar sds (prv n e)) (1 - spar sds (prv n e)))|apply (quo _ (spar sds (prv n e)) (1 - spar sds (prv n e)))]; lra. }
  assert (Cf : forall i, (i < n)%nat -> i <> e -> i <> nxt n e -> i <> prv n e -> exists t, nth_error l1 i = Some (mkV2 (spar sds i) t) /\ 1 - t <= 2 * z).
  { intros i Hi N1 N2 N3. rewrite (L3 i Hi). destruct (CV i Hi) as (b0 & b1 & b2 & b3 & -> & W0 & W1 & W2 & W3 & S1 & Rt). eexists; split; [reflexivity|].
    destruct (Rt (1 - dpar sds i) ltac:(auto)) as (_ & R1 & _ & R3). pose proof (Rg i Hi). pose proof (Rg _ (nxt_lt n i ltac:(lia))). pose proof (Rg _ (prv_lt n i ltac:(lia))). specialize (Fh i Hi N1 N2 N3). destruct (Far i Hi N1 N2 N3) as [F1 F2].
    assert (hq : forall w t, 0 <= w -> w * t ^ 2 <= (1 - dpar sds i) ^ 2 -> ct <= t -> w <= z ^ 2).
    { intros w t W Hw Ht. assert (T2 : ct ^ 2 <= t ^ 2) by (apply pow_incr; lra). assert ((1 - dpar sds i) ^ 2 <= (ct * z) ^ 2) by (apply pow_incr; lra). assert (0 < ct ^ 2) by (apply pow_lt; exact Cpos).
      apply (Rmult_le_reg_r (ct ^ 2)); [lra|]. replace (z ^ 2 * ct ^ 2) with ((ct * z) ^ 2) by ring. apply Rle_trans with (w * t ^ 2); [apply Rmult_le_compat_l; lra|lra]. }
    assert (K1 : (1 - spar sds (nxt n i)) * b1 <= z * b1 + z ^ 2).
    { destruct (Nat.eq_dec i (prv n (prv n e))) as [->|N4].
      - rewrite (nxt_prv n _ Hp) in *. pose proof (pow2_ge_0 z). assert ((1 - spar sds (prv n e)) * b1 <= z * b1) by (apply Rmult_le_compat_r; lra). lra.
      - specialize (F2 N4). assert (b1 <= z ^ 2) by (apply (hq _ (1 - spar sds i)); [lra|apply R1; lra|lra]). assert (0 <= z * b1) by (apply Rmult_le_pos; lra). nra. }
    assert (K3 : spar sds (prv n i) * b3 <= z * b3 + z ^ 2).
    { destruct (Nat.eq_dec i (nxt n (nxt n e))) as [->|N4].
      - rewrite (prv_nxt n _ Hx) in *. pose proof (pow2_ge_0 z). assert (spar sds (nxt n e) * b3 <= z * b3) by (apply Rmult_le_compat_r; lra). lra.
      - specialize (F1 N4). assert (b3 <= z ^ 2) by (apply (hq _ (spar sds i)); [lra|apply R3; lra|lra]). assert (0 <= z * b3) by (apply Rmult_le_pos; lra). nra. }
    assert (K0 : (1 - dpar sds i) * (b0 + b2) <= z * (b0 + b2)) by (apply Rmult_le_compat_r; [lra|]; nra).
    replace (1 - (dpar sds i * (b0 + b2) + spar sds (nxt n i) * b1 + (1 - spar sds (prv n i)) * b3)) with
      ((1 - dpar sds i) * (b0 + b2) + (1 - spar sds (nxt n i)) * b1 + spar sds (prv n i) * b3) by (replace b3 with (1 - b0 - b1 - b2) by lra; ring).
    apply Rle_trans with (z * (b0 + b1 + b2 + b3) + 2 * z ^ 2); [lra|]. rewrite S1. simpl. nra. }
  assert (Ce : exists t, nth_error l1 e = Some (mkV2 s t) /\ t <= 2 * z).
  { rewrite (L3 e He). destruct (CV e He) as (b0 & b1 & b2 & b3 & -> & W0 & W1 & W2 & W3 & S1 & _). rewrite <- Se. eexists; split; [reflexivity|]. rewrite <- De.
    assert (h * (b0 + b2) <= z * (b0 + b2)) by (apply Rmult_le_compat_r; [lra|]; nra). assert (spar sds (nxt n e) * b1 <= z * b1) by (apply Rmult_le_compat_r; lra). assert ((1 - spar sds (prv n e)) * b3 <= z * b3) by (apply Rmult_le_compat_r; lra).
    apply Rle_trans with (z * (b0 + b1 + b2 + b3)); [lra|rewrite S1; lra]. }
  split.
  - split; [exact L2|]. split; [|split; [|split; [|split; [|split; [|split]]]]].
    + intros i sd Ei. assert (Hi : (i < n)%nat) by (rewrite <- L2; apply nth_error_Some; rewrite Ei; discriminate). rewrite (L3 i Hi) in Ei. destruct (CV i Hi) as (b0 & b1 & b2 & b3 & E2 & W0 & W1 & W2 & W3 & S1 & _). rewrite E2 in Ei. injection Ei as <-. cbn [px py].
      pose proof (Rg i Hi). pose proof (Rg _ (nxt_lt n i ltac:(lia))). pose proof (Rg _ (prv_lt n i ltac:(lia))). split; [tauto|].
      assert (mr : forall u w, 0 <= u <= 1 -> 0 <= w -> 0 <= u * w <= w) by (intros u w U W; split; [apply Rmult_le_pos; lra|nra]).
      pose proof (mr (dpar sds i) (b0 + b2) ltac:(lra) ltac:(lra)). pose proof (mr (spar sds (nxt n i)) b1 ltac:(lra) ltac:(lra)). pose proof (mr (1 - spar sds (prv n i)) b3 ltac:(lra) ltac:(lra)). lra.
    + lra.
    + exact Ce.
    + destruct Cx as (t & Et & Ht). exists (spar sds (nxt n e)), t. split; [exact Et|]. split; [lra|exact Ht].
    + destruct Cp as (t & Et & Ht). exists (spar sds (prv n e)), t. split; [exact Et|]. split; [lra|exact Ht].
    + intros i sd Ei N1. assert (Hi : (i < n)%nat) by (rewrite <- L2; apply nth_error_Some; rewrite Ei; discriminate).
      destruct (Nat.eq_dec i (nxt n e)) as [->|N2]; [destruct Cx as (t & Et & Ht); rewrite Et in Ei; injection Ei as <-; cbn [py]; unfold Rabs in Ht; destruct (Rcase_abs _) in Ht; lra|].
      destruct (Nat.eq_dec i (prv n e)) as [->|N3]; [destruct Cp as (t & Et & Ht); rewrite Et in Ei; injection Ei as <-; cbn [py]; unfold Rabs in Ht; destruct (Rcase_abs _) in Ht; lra|].
      destruct (Cf i Hi N1 N2 N3) as (t & Et & Ht). rewrite Et in Ei. injection Ei as <-. cbn [py]. lra.
    + intros i sd Ei N1 N2 N3. assert (Hi : (i < n)%nat) by (rewrite <- L2; apply nth_error_Some; rewrite Ei; discriminate).
      destruct (Cf i Hi N1 N2 N3) as (t & Et & Ht). rewrite Et in Ei. injection Ei as <-. cbn [py]. exact Ht.
  - intros i sd Ei. assert (Hi : (i < n)%nat) by (rewrite <- L2; apply nth_error_Some; rewrite Ei; discriminate). rewrite (L3 i Hi) in Ei.
    destruct (CV i Hi) as (b0 & b1 & b2 & b3 & E2 & _). rewrite E2 in Ei. injection Ei as <-. reflexivity.
Qed.
End Poly.
