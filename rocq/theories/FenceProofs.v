(** The frames of a curve and of the same curve in the other direction. *)
From Verif Require Import Base UtilModel UtilSpec UtilProofs RibbonModel RibbonSpec RibbonProofs FenceSpec.
From Coq Require Import Ratan.
Open Scope R_scope.

Lemma some_eq : forall (A : Type) (x y : A), Some x = Some y -> x = y.
Proof. intros A x y H. injection H as H. exact H. Qed.

(** ** Reflections *)
Lemma mirror_mirror : forall v x, vdot v v <> 0 -> mirror v (mirror v x) = x.
Proof.
  intros v x N. unfold mirror. set (a := 2 * vdot v x / vdot v v).
  assert (E : vdot v (x -v v *v a) = - vdot v x).
  { replace (vdot v (x -v v *v a)) with (vdot v x - a * vdot v v) by (unfold vdot; simpl; ring). unfold a. field. exact N. }
  rewrite E. unfold a. apply V3_ext; simpl; field; exact N.
Qed.
Lemma mirror_opp_l : forall v x, vdot v v <> 0 -> mirror (vopp v) x = mirror v x.
Proof.
  intros v x N. unfold mirror. replace (vdot (vopp v) (vopp v)) with (vdot v v) by (unfold vdot; simpl; ring).
  replace (vdot (vopp v) x) with (- vdot v x) by (unfold vdot; simpl; ring). apply V3_ext; simpl; field; exact N.
Qed.
Lemma mirror_opp_r : forall v x, mirror v (vopp x) = vopp (mirror v x).
Proof.
  intros v x. unfold mirror. replace (vdot v (vopp x)) with (- vdot v x) by (unfold vdot; simpl; ring).
  apply V3_ext; simpl; unfold Rdiv; ring.
Qed.
Lemma mirror_lin : forall v x y a b, mirror v (x *v a +v y *v b) = mirror v x *v a +v mirror v y *v b.
Proof.
  intros v x y a b. unfold mirror. replace (vdot v (x *v a +v y *v b)) with (vdot v x * a + vdot v y * b) by (unfold vdot; simpl; ring).
  apply V3_ext; simpl; unfold Rdiv; ring.
Qed.
Lemma mirror_cross : forall v x y, vdot v v <> 0 -> vcross (mirror v x) (mirror v y) = vopp (mirror v (vcross x y)).
Proof.
  intros v x y N. unfold mirror. set (a := vdot v x). set (b := vdot v y). set (q := vdot v v) in *. set (t := vdot v (vcross x y)).
  assert (I : (vcross x y *v q) = vcross x v *v b +v vcross v y *v a +v v *v t).
  { unfold a, b, q, t, vdot, vcross. apply V3_ext; simpl; ring. }
  assert (J : vcross x y = (vcross x v *v b +v vcross v y *v a +v v *v t) *v / q).
  { rewrite <- I. apply V3_ext; simpl; field; exact N. }
  replace (vcross (x -v v *v (2 * a / q)) (y -v v *v (2 * b / q))) with
    (vcross x y -v vcross x v *v (2 * b / q) -v vcross v y *v (2 * a / q)) by (unfold vcross; apply V3_ext; simpl; unfold Rdiv; ring).
  replace (vcross x y -v vcross x v *v (2 * b / q) -v vcross v y *v (2 * a / q)) with
    (vopp (vcross x y) +v (vcross x y *v 2 -v vcross x v *v (2 * b / q) -v vcross v y *v (2 * a / q))) by v3ring.
  replace (vcross x y *v 2 -v vcross x v *v (2 * b / q) -v vcross v y *v (2 * a / q)) with (v *v (2 * t / q)).
  - v3ring.
  - rewrite J. clearbody a b t q. clear I J. apply V3_ext; simpl; field; exact N.
Qed.
(** Reflecting the mirror. *)
Lemma mirror_conj : forall v w x, vdot v v <> 0 -> mirror (mirror v w) (mirror v x) = mirror v (mirror w x).
Proof.
  intros v w x N. unfold mirror at 1. rewrite !mirror_dot by exact N.
  replace (mirror w x) with (x *v 1 +v w *v (- (2 * vdot w x / vdot w w))) by (unfold mirror; v3ring).
  rewrite mirror_lin. v3ring.
Qed.

(** The double reflection is a rotation that takes one tangent to the next. *)
Definition turn (v w x : V3) : V3 := mirror w (mirror v x).
Section Turn.
Variables v w : V3.
Hypothesis Nv : vdot v v <> 0.
Hypothesis Nw : vdot w w <> 0.
Lemma turn_dot : forall x y, vdot (turn v w x) (turn v w y) = vdot x y.
Proof. intros x y. unfold turn. rewrite !mirror_dot by assumption. reflexivity. Qed.
Lemma turn_lin : forall x y a b, turn v w (x *v a +v y *v b) = turn v w x *v a +v turn v w y *v b.
Proof. intros. unfold turn. rewrite !mirror_lin. reflexivity. Qed.
Lemma turn_cross : forall x y, vcross (turn v w x) (turn v w y) = turn v w (vcross x y).
Proof. intros x y. unfold turn. rewrite mirror_cross by exact Nw. rewrite mirror_cross by exact Nv. rewrite mirror_opp_r. v3ring. Qed.
Lemma turn_rotate : forall d x a, turn v w (applyMatrix (rotationMatrix d a) x) = applyMatrix (rotationMatrix (turn v w d) a) (turn v w x).
Proof.
  intros d x a. rewrite !rotate_general, turn_cross, turn_dot.
  replace (x *v cos a +v vcross d x *v sin a +v d *v (vdot d x * (1 - cos a))) with
    ((x *v cos a +v vcross d x *v sin a) *v 1 +v d *v (vdot d x * (1 - cos a))) by v3ring.
  rewrite !turn_lin. v3ring.
Qed.
Lemma turn_back : forall x, turn v (mirror v w) (turn v w x) = x.
Proof.
  intros x. unfold turn. rewrite mirror_conj by exact Nv. rewrite (mirror_mirror w) by exact Nw. apply mirror_mirror. exact Nv.
Qed.
End Turn.

(** Rotations about the same axis. *)
Lemma rotate_rotate : forall d x a b, vdot d d = 1 ->
  applyMatrix (rotationMatrix d a) (applyMatrix (rotationMatrix d b) x) = applyMatrix (rotationMatrix d (a + b)) x.
Proof.
  intros d x a b U. rewrite !rotate_general, cos_plus, sin_plus. set (ca := cos a). set (sa := sin a). set (cb := cos b). set (sb := sin b).
  assert (K : vcross d (vcross d x) = d *v vdot d x -v x *v vdot d d) by (unfold vcross, vdot; apply V3_ext; simpl; ring). rewrite U in K.
  assert (C : vcross d (x *v cb +v vcross d x *v sb +v d *v (vdot d x * (1 - cb))) = vcross d x *v cb +v (d *v vdot d x -v x *v 1) *v sb).
  { rewrite <- K. unfold vcross. apply V3_ext; simpl; ring. }
  rewrite C. assert (D : vdot d (x *v cb +v vcross d x *v sb +v d *v (vdot d x * (1 - cb))) = vdot d x).
  { replace (vdot d (x *v cb +v vcross d x *v sb +v d *v (vdot d x * (1 - cb)))) with (vdot d x * cb + vdot d d * (vdot d x * (1 - cb)))
      by (unfold vdot, vcross; simpl; ring). rewrite U. ring. }
  rewrite D. set (t := vdot d x). set (y := vcross d x). v3ring.
Qed.
Lemma rotate_opp : forall d x a, applyMatrix (rotationMatrix (vopp d) a) x = applyMatrix (rotationMatrix d (- a)) x.
Proof. intros d x a. rewrite !rotate_general, cos_neg, sin_neg. unfold vcross, vdot. apply V3_ext; simpl; ring. Qed.

(** ** The correction angle *)
Lemma endAngle_range : forall b f, vdot b b = 1 -> vdot (fr_n f) (fr_n f) = 1 -> vdot (fr_d f) (fr_d f) = 1 ->
  vdot (fr_n f) (fr_d f) = 0 -> vdot b (fr_d f) = 0 -> - PI < endAngle b f <= PI.
Proof.
  intros b f B N D ND BD. unfold endAngle. set (x := vdot b (fr_n f)).
  assert (Rx : -1 <= x <= 1). { pose proof (cauchy b (fr_n f)) as C. rewrite B, N in C. fold x in C. nra. }
  rewrite clamp_id by lra. pose proof (acos_bound x) as A. pose proof PI_RGT_0.
  destruct (Rlt_dec _ 0) as [L|L]; [|lra]. split; [|lra].
  destruct (Req_dec x (-1)) as [E|E].
  - (* then b = - n and the sign test is about 0 *)
    exfalso. assert (Z : b +v fr_n f = vzero).
    { apply vdot_zero. replace (vdot (b +v fr_n f) (b +v fr_n f)) with (vdot b b + 2 * x + vdot (fr_n f) (fr_n f)) by (unfold x, vdot; simpl; ring). rewrite B, N, E. ring. }
    assert (Y : fr_n f = vopp b).
    { apply V3_ext; [apply (f_equal vx) in Z|apply (f_equal vy) in Z|apply (f_equal vz) in Z]; simpl in *; lra. }
    rewrite Y in L. replace (vdot (vcross (vopp b -v b) b) (fr_d f)) with 0 in L by (unfold vdot, vcross; simpl; ring). lra.
  - assert (acos x < PI); [|lra]. destruct A as [_ [A|A]]; [exact A|]. exfalso. apply E. rewrite <- (cos_acos x Rx), A. apply cos_PI.
Qed.
(** Turned the other way around the opposite axis, the angle is the same. *)
Lemma endAngle_back : forall d a th u s p, vdot a a = 1 -> vdot d d = 1 -> vdot a d = 0 -> - PI < th <= PI ->
  endAngle a (mkFrame u s p (vopp d) (applyMatrix (rotationMatrix d th) a)) = th.
Proof.
  intros d a th u s p A D AD H. unfold endAngle. cbn [fr_n fr_d]. rewrite rotate_perp by exact AD.
  assert (X : vdot a (a *v cos th +v vcross d a *v sin th) = cos th).
  { replace (vdot a (a *v cos th +v vcross d a *v sin th)) with (vdot a a * cos th) by (unfold vdot, vcross; simpl; ring). rewrite A. ring. }
  assert (Y : vdot (vcross (a *v cos th +v vcross d a *v sin th -v a) a) (vopp d) = sin th).
  { replace (vdot (vcross (a *v cos th +v vcross d a *v sin th -v a) a) (vopp d)) with
      ((vdot a a * vdot d d - vdot a d * vdot a d) * sin th) by (unfold vdot, vcross; simpl; ring). rewrite A, D, AD. ring. }
  rewrite X, Y. pose proof (COS_bound th). rewrite clamp_id by lra.
  destruct (Rlt_dec (sin th) 0) as [L|L].
  - assert (th < 0). { apply Rnot_le_lt. intros Q. pose proof (sin_ge_0 th Q ltac:(lra)). lra. }
    rewrite <- cos_neg, acos_cos by lra. ring.
  - apply acos_cos. split; [|lra]. apply Rnot_lt_le. intros Q. apply L. apply Ropp_lt_cancel. rewrite Ropp_0, <- sin_neg. apply sin_gt_0; lra.
Qed.

(** ** The frames in closed form *)
Lemma next_value : forall eps c f u t, eps <= vdot (cpt c u -v fr_p f) (cpt c u -v fr_p f) -> 0 < eps -> vnormalize (cder c u) = Some t ->
  let w := t -v mirror (cpt c u -v fr_p f) (fr_d f) in eps <= vdot w w ->
  nextFrame eps c f u = Some (mkFrame u (fr_s f + clen c (fr_u f) u) (cpt c u) t (turn (cpt c u -v fr_p f) w (fr_n f))).
Proof.
  intros eps c f u t H1 He Ht w H2. set (v := cpt c u -v fr_p f) in *.
  assert (M : forall v x q, vdot v v <> 0 -> q = v *v 2 *v / vdot v v -> x -v q *v vdot v x = mirror v x).
  { intros v0 x q N ->. unfold mirror. apply V3_ext; simpl; unfold Rdiv; ring. }
  unfold nextFrame. fold v. destruct (Rlt_dec (vdot v v) eps); [lra|]. rewrite Ht. cbn [bind]. rewrite vdiv_some by lra. cbn [bind].
  rewrite !(M v _ _ ltac:(lra) eq_refl). fold w. destruct (Rlt_dec (vdot w w) eps); [lra|]. rewrite vdiv_some by lra. cbn [bind].
  rewrite (M w _ _ ltac:(lra) eq_refl). reflexivity.
Qed.

Section Sampled.
Variables (eps : R) (res : nat) (c : curve) (T : nat -> V3) (a : V3).
Hypothesis He : 0 < eps.
Hypothesis Hres : (1 <= res)%nat.
Definition sp (k : nat) : V3 := cpt c (INR k / INR res).
Definition sv (k : nat) : V3 := sp (S k) -v sp k.
Definition sw (k : nat) : V3 := T (S k) -v mirror (sv k) (T k).
Hypothesis HT : forall k, (k <= res)%nat -> vnormalize (cder c (INR k / INR res)) = Some (T k).
Hypothesis Hv : forall k, (k < res)%nat -> eps <= vdot (sv k) (sv k).
Hypothesis Hw : forall k, (k < res)%nat -> eps <= vdot (sw k) (sw k).
Fixpoint sn (k : nat) : V3 := match k with O => a | S k' => turn (sv k') (sw k') (sn k') end.
Fixpoint ss (k : nat) : R := match k with O => 0 | S k' => ss k' + clen c (INR k' / INR res) (INR k / INR res) end.
Definition fr (k : nat) : frame := mkFrame (INR k / INR res) (ss k) (sp k) (T k) (sn k).

Lemma fr_next : forall k, (k < res)%nat -> nextFrame eps c (fr k) (INR (S k) / INR res) = Some (fr (S k)).
Proof.
  intros k Hk. rewrite (next_value eps c (fr k) _ (T (S k))).
  - reflexivity.
  - exact (Hv k Hk).
  - exact He.
  - apply HT. lia.
  - exact (Hw k Hk).
Qed.
Lemma fr_loop : forall k i, (i + k = res)%nat -> frameLoop eps c res k (S i) (fr i) = Some (map fr (seq i (S k))).
Proof.
  induction k as [|k IH]; intros i H; [reflexivity|]. cbn [frameLoop]. rewrite fr_next by lia. cbn [bind].
  rewrite IH by lia. reflexivity.
Qed.
Lemma ratio_le : forall j k, (1 <= res)%nat -> (INR j / INR res <= INR k / INR res <-> (j <= k)%nat).
Proof.
  intros j k _. assert (Rp : 0 < INR res) by (apply lt_0_INR; lia). split; intros H.
  - apply INR_le. apply Rmult_le_reg_r with (/ INR res); [apply Rinv_0_lt_compat; exact Rp|exact H].
  - unfold Rdiv. apply Rmult_le_compat_r; [left; apply Rinv_0_lt_compat; exact Rp|apply le_INR; exact H].
Qed.
Lemma fr_upper : forall k n i, (i <= S k)%nat -> upperBound (INR k / INR res) (map fr (seq i n)) = Nat.min n (S k - i).
Proof.
  intros k. induction n as [|n IH]; intros i Hi; [reflexivity|]. cbn [seq map upperBound fr fr_u].
  destruct (Rlt_dec (INR k / INR res) (INR i / INR res)) as [L|L].
  - assert (i = S k); [|subst; rewrite Nat.sub_diag, Nat.min_0_r; reflexivity].
    destruct (Nat.eq_dec i (S k)) as [E|E]; [exact E|]. exfalso. apply Rlt_not_le in L. apply L. apply ratio_le; lia.
  - assert ((i <= k)%nat). { apply ratio_le; [exact Hres|lra]. }
    rewrite IH by lia. rewrite (Nat.sub_succ_l i k) by lia. reflexivity.
Qed.
Lemma fr_update : forall b, ss res <> 0 ->
  rmfUpdate eps res c a b = Some (mkRmf c (map fr (seq 0 (S res))) (endAngle b (fr res) / ss res)).
Proof.
  intros b Hs. unfold rmfUpdate, firstFrame. assert (Z : INR 0 / INR res = 0) by (simpl; unfold Rdiv; ring).
  pose proof (HT 0 ltac:(lia)) as T0. rewrite Z in T0. rewrite T0. cbn [bind].
  replace (mkFrame 0 0 (cpt c 0) (T 0%nat) a) with (fr 0) by (unfold fr, sp; rewrite Z; reflexivity).
  rewrite (fr_loop res 0 eq_refl). cbn [bind]. rewrite nth_error_map, (nth_error_nth' _ 0%nat) by (rewrite seq_length; lia).
  rewrite seq_nth by lia. cbn [option_map bind Nat.add]. rewrite fdiv_some by exact Hs. reflexivity.
Qed.
Lemma fr_update_inv : forall b m, rmfUpdate eps res c a b = Some m -> ss res <> 0.
Proof.
  intros b m H Z. unfold rmfUpdate, firstFrame in H. assert (Z0 : INR 0 / INR res = 0) by (simpl; unfold Rdiv; ring).
  pose proof (HT 0 ltac:(lia)) as T0. rewrite Z0 in T0. rewrite T0 in H. cbn [bind] in H.
  replace (mkFrame 0 0 (cpt c 0) (T 0%nat) a) with (fr 0) in H by (unfold fr, sp; rewrite Z0; reflexivity).
  rewrite (fr_loop res 0 eq_refl) in H. cbn [bind] in H. rewrite nth_error_map, (nth_error_nth' _ 0%nat) in H by (rewrite seq_length; lia).
  rewrite seq_nth in H by lia. cbn [option_map bind Nat.add] in H. unfold fdiv in H. cbn [fr fr_s] in H. rewrite Z in H. destruct (Req_EM_T 0 0); [discriminate|contradiction].
Qed.
Lemma fr_eval : forall an k, (k <= res)%nat ->
  rmfEval eps (mkRmf c (map fr (seq 0 (S res))) an) (INR k / INR res) = Some (applyMatrix (rotationMatrix (T k) (ss k * an)) (sn k)).
Proof.
  intros an k Hk. unfold rmfEval. cbn [rm_frames rm_curve rm_angle]. rewrite fr_upper by lia. rewrite Nat.sub_0_r, Nat.min_r by lia.
  rewrite nth_error_map, (nth_error_nth' _ 0%nat) by (rewrite seq_length; lia). rewrite seq_nth by lia. cbn [option_map bind Nat.add].
  unfold nextFrame. cbn [fr fr_p]. unfold sp at 1 2 3 4. destruct (Rlt_dec _ eps) as [_|L]; [reflexivity|]. exfalso. apply L.
  replace (vdot _ _) with 0 by (unfold vdot; simpl; ring). exact He.
Qed.

Hypothesis Ha : vdot a a = 1.
Hypothesis HaT : vdot a (T 0%nat) = 0.
Lemma T_unit : forall k, (k <= res)%nat -> vdot (T k) (T k) = 1.
Proof. intros k Hk. apply (vnormalize_unit _ _ (HT k Hk)). Qed.
Lemma turn_T : forall k, (k < res)%nat -> turn (sv k) (sw k) (T k) = T (S k).
Proof.
  intros k Hk. unfold turn. unfold sw at 1. apply mirror_swap.
  - rewrite mirror_dot by (pose proof (Hv k Hk); lra). rewrite !T_unit by lia. reflexivity.
  - pose proof (Hw k Hk). unfold sw in *. lra.
Qed.
Lemma sn_facts : forall k, (k <= res)%nat -> vdot (sn k) (sn k) = 1 /\ vdot (sn k) (T k) = 0.
Proof.
  induction k as [|k IH]; intros Hk; [split; assumption|]. destruct (IH ltac:(lia)) as [A B].
  pose proof (Hv k ltac:(lia)). pose proof (Hw k ltac:(lia)). rewrite <- (turn_T k) by lia. cbn [sn].
  rewrite !turn_dot by lra. split; assumption.
Qed.
End Sampled.

(** ** The other direction *)
Section Reverse.
Variables (eps : R) (res : nat) (c c' : curve) (T : nat -> V3) (a b : V3) (m : rmf).
Hypothesis He : 0 < eps.
Hypothesis Hres : (1 <= res)%nat.
Hypothesis HT : forall k, (k <= res)%nat -> vnormalize (cder c (INR k / INR res)) = Some (T k).
Hypothesis Hv : forall k, (k < res)%nat -> eps <= vdot (sv res c k) (sv res c k).
Hypothesis Hw : forall k, (k < res)%nat -> eps <= vdot (sw res c T k) (sw res c T k).
Hypothesis Ho : opposite c c'.
Hypothesis Ha : vdot a a = 1.
Hypothesis HaT : vdot a (T 0%nat) = 0.
Hypothesis Hb : vdot b b = 1.
Hypothesis HbT : vdot b (T res) = 0.
Hypothesis Hm : rmfUpdate eps res c a b = Some m.
Definition rT (j : nat) : V3 := vopp (T (res - j)).

Lemma ratio_range : forall j, (j <= res)%nat -> 0 <= INR j / INR res <= 1.
Proof.
  intros j Hj. assert (Rp : 0 < INR res) by (apply lt_0_INR; lia). pose proof (pos_INR j). assert (INR j <= INR res) by (apply le_INR; exact Hj). split.
  - unfold Rdiv. apply Rmult_le_pos; [lra|]. left. apply Rinv_0_lt_compat. lra.
  - apply (Rmult_le_reg_r (INR res)); [lra|]. unfold Rdiv. rewrite Rmult_assoc, Rinv_l by lra. lra.
Qed.
Lemma ratio_back : forall j, (j <= res)%nat -> 1 - INR j / INR res = INR (res - j) / INR res.
Proof. intros j Hj. rewrite minus_INR by exact Hj. assert (Rp : 0 < INR res) by (apply lt_0_INR; lia). field. lra. Qed.
Lemma r_normalize : forall d t, vnormalize d = Some t -> vnormalize (vopp d) = Some (vopp t).
Proof.
  intros d t H. unfold vnormalize in *. replace (vnorm (vopp d)) with (vnorm d) by (unfold vnorm; f_equal; unfold vdot; simpl; ring).
  unfold vdiv in *. destruct (Req_EM_T (vnorm d) 0); [discriminate|]. injection H as <-. f_equal. v3ring.
Qed.
Lemma r_T : forall j, (j <= res)%nat -> vnormalize (cder c' (INR j / INR res)) = Some (rT j).
Proof.
  intros j Hj. destruct (Ho _ (ratio_range j Hj)) as (_ & D & _). rewrite D, ratio_back by exact Hj. apply r_normalize, HT. lia.
Qed.
Lemma r_sp : forall j, (j <= res)%nat -> sp res c' j = sp res c (res - j).
Proof. intros j Hj. unfold sp. destruct (Ho _ (ratio_range j Hj)) as (D & _ & _). rewrite D, ratio_back by exact Hj. reflexivity. Qed.
Lemma r_sv : forall j, (j < res)%nat -> sv res c' j = vopp (sv res c (res - S j)).
Proof.
  intros j Hj. unfold sv. rewrite !r_sp by lia. replace (S (res - S j)) with (res - j)%nat by lia. v3ring.
Qed.
Lemma v_nz : forall k, (k < res)%nat -> vdot (sv res c k) (sv res c k) <> 0.
Proof. intros k Hk. pose proof (Hv k Hk). lra. Qed.
Lemma w_nz : forall k, (k < res)%nat -> vdot (sw res c T k) (sw res c T k) <> 0.
Proof. intros k Hk. pose proof (Hw k Hk). lra. Qed.
Lemma r_sw : forall j, (j < res)%nat -> sw res c' rT j = mirror (sv res c (res - S j)) (sw res c T (res - S j)).
Proof.
  intros j Hj. set (k := (res - S j)%nat). assert (K : (k < res)%nat) by (unfold k; lia). unfold sw at 1. rewrite r_sv by exact Hj. fold k. rewrite mirror_opp_l by (apply v_nz; exact K).
  unfold rT. fold k. replace (res - j)%nat with (S k) by (unfold k; lia). rewrite mirror_opp_r. unfold sw.
  replace (T (S k) -v mirror (sv res c k) (T k)) with (T (S k) *v 1 +v mirror (sv res c k) (T k) *v (- (1))) by v3ring.
  rewrite mirror_lin, mirror_mirror by (apply v_nz; exact K). v3ring.
Qed.
Lemma r_Hv : forall j, (j < res)%nat -> eps <= vdot (sv res c' j) (sv res c' j).
Proof.
  intros j Hj. rewrite r_sv by exact Hj. replace (vdot (vopp (sv res c (res - S j))) (vopp (sv res c (res - S j)))) with
    (vdot (sv res c (res - S j)) (sv res c (res - S j))) by (unfold vdot; simpl; ring). apply Hv. lia.
Qed.
Lemma r_Hw : forall j, (j < res)%nat -> eps <= vdot (sw res c' rT j) (sw res c' rT j).
Proof. intros j Hj. rewrite r_sw by exact Hj. rewrite mirror_dot by (apply v_nz; lia). apply Hw. lia. Qed.
Lemma r_ss : forall j, (j <= res)%nat -> ss res c' j = ss res c res - ss res c (res - j).
Proof.
  induction j as [|j IH]; intros Hj; [rewrite Nat.sub_0_r; simpl; ring|]. cbn [ss]. rewrite IH by lia.
  destruct (Ho _ (ratio_range (S j) Hj)) as (_ & _ & L). rewrite L by (split; [apply ratio_range; lia|apply ratio_le; lia]).
  rewrite !ratio_back by lia. replace (res - j)%nat with (S (res - S j)) by lia. cbn [ss]. ring.
Qed.
Let th := endAngle b (fr res c T a res).
Lemma th_range : - PI < th <= PI.
Proof.
  destruct (sn_facts eps res c T a He Hres HT Hv Hw Ha HaT res (le_n _)) as [N1 N2].
  apply endAngle_range; cbn [fr fr_n fr_d]; try assumption. apply (T_unit res c T HT). lia.
Qed.
Lemma r_sn : forall j, (j <= res)%nat -> sn res c' rT b j = applyMatrix (rotationMatrix (T (res - j)) th) (sn res c T a (res - j)).
Proof.
  induction j as [|j IH]; intros Hj.
  - rewrite Nat.sub_0_r. cbn [sn]. destruct (sn_facts eps res c T a He Hres HT Hv Hw Ha HaT res (le_n _)) as [N1 N2]. symmetry.
    apply (end_rotation eps c res a b m Hm (fr res c T a res)); cbn [fr fr_n fr_d]; try assumption. apply (T_unit res c T HT). lia.
  - cbn [sn]. rewrite IH by lia. rewrite r_sv, r_sw by lia. set (k := (res - S j)%nat). assert (K : (k < res)%nat) by (unfold k; lia).
    replace (res - j)%nat with (S k) by (unfold k; lia). cbn [sn]. rewrite <- (turn_T eps res c T He Hres HT Hv Hw k K).
    rewrite <- turn_rotate by (apply v_nz || apply w_nz; exact K).
    unfold turn at 1. rewrite mirror_opp_l by (apply v_nz; exact K). apply turn_back; [apply v_nz|apply w_nz]; exact K.
Qed.
Lemma r_angle : endAngle a (fr res c' rT b res) = th.
Proof.
  unfold fr. rewrite r_sn by lia. unfold rT. rewrite Nat.sub_diag. cbn [sn]. apply endAngle_back; try assumption.
  - apply (T_unit res c T HT). lia.
  - apply th_range.
Qed.
Lemma reverse_frames : forall m', rmfUpdate eps res c' b a = Some m' ->
  forall k, (k <= res)%nat -> exists n, rmfEval eps m (INR k / INR res) = Some n /\ rmfEval eps m' (1 - INR k / INR res) = Some n.
Proof.
  intros m' Hm' k Hk. assert (Hs : ss res c res <> 0) by (apply (fr_update_inv eps res c T a He Hres HT Hv Hw b m Hm)).
  assert (Hs' : ss res c' res = ss res c res) by (rewrite r_ss by lia; rewrite Nat.sub_diag; simpl; ring).
  assert (Em := Hm). rewrite (fr_update eps res c T a He Hres HT Hv Hw b Hs) in Em. apply some_eq in Em. rewrite <- Em.
  rewrite (fr_update eps res c' rT b He Hres r_T r_Hv r_Hw a) in Hm' by (rewrite Hs'; exact Hs). apply some_eq in Hm'. rewrite <- Hm'.
  eexists. split; [apply fr_eval; assumption|]. rewrite ratio_back by exact Hk. rewrite fr_eval by (assumption || lia).
  fold th. rewrite r_angle, Hs'. rewrite r_sn, r_ss by lia. unfold rT. replace (res - (res - k))%nat with k by lia. rewrite rotate_opp, rotate_rotate by (apply (T_unit res c T HT); exact Hk).
  f_equal. f_equal. f_equal. field. exact Hs.
Qed.
End Reverse.

(** ** Between the sample parameters *)
Section Between.
Variables (eps : R) (res : nat) (c : curve) (T : nat -> V3) (a : V3).
Hypothesis He : 0 < eps.
Hypothesis Hres : (1 <= res)%nat.
Lemma fr_upper_between : forall u k n i, INR k / INR res <= u < INR (S k) / INR res -> (i <= S k)%nat ->
  upperBound u (map (fr res c T a) (seq i n)) = Nat.min n (S k - i).
Proof.
  intros u k n. induction n as [|n IH]; intros i Hu Hi; [reflexivity|]. cbn [seq map upperBound fr fr_u].
  destruct (Rlt_dec u (INR i / INR res)) as [L|L].
  - assert (i = S k); [|subst; rewrite Nat.sub_diag, Nat.min_0_r; reflexivity].
    destruct (Nat.eq_dec i (S k)) as [E|E]; [exact E|]. exfalso. assert (INR i / INR res <= INR k / INR res) by (apply ratio_le; lia). lra.
  - assert (i <> S k) by (intros ->; lra). rewrite IH by (assumption || lia). rewrite (Nat.sub_succ_l i k) by lia. reflexivity.
Qed.
Lemma between_eval : forall an u k t, (k <= res)%nat -> INR k / INR res <= u < INR (S k) / INR res ->
  vnormalize (cder c u) = Some t ->
  let v := cpt c u -v sp res c k in let w := t -v mirror v (T k) in eps <= vdot v v -> eps <= vdot w w ->
  rmfEval eps (mkRmf c (map (fr res c T a) (seq 0 (S res))) an) u =
  Some (applyMatrix (rotationMatrix t ((ss res c k + clen c (INR k / INR res) u) * an)) (turn v w (sn res c T a k))).
Proof.
  intros an u k t Hk Hu Ht v w H1 H2. unfold rmfEval. cbn [rm_frames rm_curve rm_angle]. rewrite (fr_upper_between u k) by (assumption || lia).
  rewrite Nat.sub_0_r, Nat.min_r by lia. rewrite nth_error_map, (nth_error_nth' _ 0%nat) by (rewrite seq_length; lia). rewrite seq_nth by lia.
  cbn [option_map bind Nat.add]. rewrite (next_value eps c (fr res c T a k) u t H1 He Ht H2). reflexivity.
Qed.
End Between.
