(** The normals along a straight side whose end normals are opposite. *)
Require Import Verif.Base Verif.UtilModel Verif.RibbonModel Verif.RibbonSpec Verif.RibbonProofs Verif.PropsRibbon.
Open Scope R_scope.

(** Frames along [line]: the normal stays, the travelled length is the parameter. *)
Definition straight (n0 : V3) (u : R) (f : frame) : Prop := f = mkFrame u u (mkV3 u 0 0) (mkV3 1 0 0) n0.
Lemma line_next : forall eps n0 a u f, vx n0 = 0 -> straight n0 a f -> eps <= (u - a) * (u - a) -> u <> a -> exists f', nextFrame eps line f u = Some f' /\ straight n0 u f'.
Proof.
  intros eps n0 a u f Hn -> He Hu. unfold nextFrame. cbn [fr_p fr_n fr_d fr_u fr_s line cpt cder clen].
  destruct (Rlt_dec _ eps) as [Q|Q]; [exfalso; unfold vdot, vsub in Q; simpl in Q; lra|]. rewrite line_norm. cbn [bind].
  set (v1 := mkV3 u 0 0 -v mkV3 a 0 0) in *. set (c1 := vdot v1 v1). assert (C1 : c1 = (u - a) * (u - a)) by (unfold c1, v1, vdot, vsub; simpl; ring). assert (C0 : c1 <> 0) by (rewrite C1; intros Z; apply Hu; destruct (Rmult_integral _ _ Z); lra).
  rewrite vdiv_some by exact C0. cbn [bind]. assert (N1 : vdot v1 n0 = 0) by (unfold v1, vdot, vsub; simpl; rewrite Hn; ring).
  assert (E : forall w, vx w = 0 \/ True -> n0 -v w *v 0 = n0) by (intros w _; v3ring). rewrite N1, E by auto.
  assert (D : mkV3 1 0 0 -v ((mkV3 1 0 0) -v (v1 *v 2 *v / c1) *v vdot v1 (mkV3 1 0 0)) = mkV3 2 0 0).
  { rewrite C1. unfold v1, vdot, vsub, vscale; simpl. assert ((u - a) <> 0) by lra. f_equal; field; assumption. }
  rewrite D. replace (vdot (mkV3 2 0 0) (mkV3 2 0 0)) with 4 by (unfold vdot; simpl; ring). rewrite vdiv_some by lra. replace (vdot (mkV3 2 0 0) n0) with 0 by (unfold vdot; simpl; rewrite Hn; ring). cbn [bind]. rewrite E by auto.
  destruct (Rlt_dec 4 eps); cbn [bind]; eexists; (split; [reflexivity|]); unfold straight; f_equal; ring.
Qed.
Section Line.
Variables (eps : R) (res : nat) (n0 : V3).
Hypothesis He : 0 < eps.
Hypothesis Hr : (1 <= res)%nat.
Hypothesis Hs : eps * (INR res * INR res) <= 1.
Hypothesis Hn : vx n0 = 0.
Let st (i : nat) : R := INR i / INR res.
Lemma res_pos : 0 < INR res.
Proof. apply lt_0_INR. lia. Qed.
Lemma st_step : forall i, st (S i) - st i = / INR res.
Proof. intros i. unfold st. rewrite S_INR. pose proof res_pos. field. lra. Qed.
Lemma line_loop : forall k i f, straight n0 (st i) f -> exists l, frameLoop eps line res k (S i) f = Some l /\ length l = S k /\ forall j, (j <= k)%nat -> exists g, nth_error l j = Some g /\ straight n0 (st (i + j)) g.
Proof.
  pose proof res_pos as Rp. induction k as [|k IH]; intros i f Hf.
  - exists [f]. split; [reflexivity|]. split; [reflexivity|]. intros j Hj. replace j with 0%nat by lia. exists f. rewrite Nat.add_0_r. split; [reflexivity|exact Hf].
  - cbn [frameLoop]. destruct (line_next eps n0 (st i) (st (S i)) f Hn Hf) as (f' & E & Hf').
    + rewrite st_step. apply (Rmult_le_reg_r (INR res * INR res)); [nra|]. replace (/ INR res * / INR res * (INR res * INR res)) with 1 by (field; lra). exact Hs.
    + intros X. assert (Y := st_step i). rewrite X in Y. assert (0 < / INR res) by (apply Rinv_0_lt_compat; exact Rp). lra.
    + fold (st (S i)). rewrite E. cbn [bind]. destruct (IH (S i) f' Hf') as (l & El & Ll & G). rewrite El. cbn [bind]. exists (f :: l). split; [reflexivity|]. split; [simpl; lia|].
      intros [|j] Hj; [exists f; rewrite Nat.add_0_r; split; [reflexivity|exact Hf]|]. cbn [nth_error]. destruct (G j ltac:(lia)) as (g & Eg & Hg). exists g. replace (i + S j)%nat with (S i + j)%nat by lia. auto.
Qed.
Lemma line_update : forall stop, exists l, (forall j, (j <= res)%nat -> exists g, nth_error l j = Some g /\ straight n0 (st j) g) /\ length l = S res /\
  rmfUpdate eps res line n0 stop = Some (mkRmf line l (endAngle stop (mkFrame 1 1 (mkV3 1 0 0) (mkV3 1 0 0) n0))).
Proof.
  intros stop. pose proof res_pos as Rp. unfold rmfUpdate, firstFrame. cbn [line cder cpt]. rewrite line_norm. cbn [bind]. fold line.
  assert (F0 : straight n0 (st 0) (mkFrame 0 0 (mkV3 0 0 0) (mkV3 1 0 0) n0)) by (unfold straight, st; replace (INR 0 / INR res) with 0 by (simpl; field; lra); reflexivity).
  destruct (line_loop res 0 _ F0) as (l & El & Ll & G). rewrite El. cbn [bind]. exists l. split; [exact G|]. split; [exact Ll|].
  destruct (G res ltac:(lia)) as (g & Eg & Hg). rewrite Eg. cbn [bind]. rewrite Hg. cbn [fr_s]. cbn [Nat.add]. replace (st res) with 1 by (unfold st; field; lra). rewrite fdiv_some by lra. cbn [bind]. unfold Rdiv. rewrite Rinv_1, Rmult_1_r. reflexivity.
Qed.
Lemma line_eval : forall l a j, (forall j, (j <= res)%nat -> exists g, nth_error l j = Some g /\ straight n0 (st j) g) -> length l = S res -> (j <= res)%nat ->
  rmfEval eps (mkRmf line l a) (st j) = Some (applyMatrix (rotationMatrix (mkV3 1 0 0) (st j * a)) n0).
Proof.
  intros l a j G Ll Hj. pose proof res_pos as Rp. unfold rmfEval. cbn [rm_frames rm_curve rm_angle].
  assert (M : forall i k, st i <= st k -> (i <= k)%nat).
  { intros i k H. apply INR_le. unfold st, Rdiv in H. apply (Rmult_le_reg_r (/ INR res)); [apply Rinv_0_lt_compat; exact Rp|exact H]. }
  assert (U : upperBound (st j) l = S j).
  { assert (N := upper_next (st j) l). destruct (upperBound (st j) l) as [|i] eqn:E.
    - destruct (G 0%nat ltac:(lia)) as (g & Eg & Hg). rewrite Eg, Hg in N. cbn [fr_u] in N. exfalso. unfold st in N. simpl in N. assert (0 <= INR j / INR res) by (apply Rmult_le_pos; [apply pos_INR|left; apply Rinv_0_lt_compat; exact Rp]). unfold Rdiv in N at 2. rewrite Rmult_0_l in N. lra.
    - destruct (upper_some _ _ _ E) as (f & Ef & Hf). assert (i <= res)%nat by (apply Nat.lt_succ_r; rewrite <- Ll; apply nth_error_Some; congruence). destruct (G i ltac:(lia)) as (g & Eg & Hg). rewrite Eg in Ef. injection Ef as <-. rewrite Hg in Hf. cbn [fr_u] in Hf. apply M in Hf.
      destruct (Nat.eq_dec i res) as [->|Hi]; [lia|]. destruct (G (S i) ltac:(lia)) as (h & Eh & Hh). rewrite Eh, Hh in N. cbn [fr_u] in N. destruct (le_lt_dec (S i) j) as [Q|Q]; [|lia]. exfalso.
      apply le_INR in Q. unfold st, Rdiv in N. apply (Rmult_lt_reg_r (/ INR res)) in N; [lra|apply Rinv_0_lt_compat; exact Rp]. }
  rewrite U. destruct (G j Hj) as (g & Eg & Hg). rewrite Eg. cbn [bind]. rewrite Hg. unfold nextFrame. cbn [fr_p line cpt]. destruct (Rlt_dec _ eps) as [Q|Q]; [|exfalso; apply Q; unfold vdot, vsub; simpl; lra].
  reflexivity.
Qed.
End Line.
