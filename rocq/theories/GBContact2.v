(** The two rows of control points along a side, and Wachspress coordinates
    next to a side. *)
From Verif Require Import Base MeshModel GeomSpec DomainModel UtilModel UtilSpec ParamModel.
From Verif Require Import DomainProofs DomainPolygons UtilProofs BlendProps ParamBary ParamMaps ParamRegular ParamSide SurfaceSpec ParamTame.
From Verif Require Import GBModel GBSpec GBProofs GBEval GBContact.
Open Scope R_scope.

Lemma bern_lin0 : forall d h, 0 <= h <= 1 -> 0 <= bern d 0 h - (1 - INR d * h) <= INR d ^ 2 * h ^ 2.
Proof.
  intros d h Hh. unfold bern. rewrite choose_0, Nat.sub_0_r. simpl (INR 1). rewrite pow_O, !Rmult_1_l. induction d as [|d IH]; [simpl; nra|].
  rewrite S_INR. assert (D := pos_INR d). set (c := INR d) in *. cbn [pow]. set (y := (1 - h) ^ d) in *. clearbody y c.
  replace ((1 - h) * y - (1 - (c + 1) * h)) with ((1 - h) * (y - (1 - c * h)) + c * (h * h)) by ring. set (t := y - (1 - c * h)) in *. clearbody t. 
  assert (0 <= h * h) by nra. assert (0 <= c * (h * h)) by (apply Rmult_le_pos; lra). split; [nra|]. assert ((1 - h) * t <= t) by nra. simpl in IH. nra.
Qed.
Lemma bern_lin1 : forall d h, (1 <= d)%nat -> 0 <= h <= 1 -> Rabs (bern d 1 h - INR d * h) <= INR d ^ 2 * h ^ 2.
Proof.
  intros d h Hd Hh. unfold bern. replace (INR (choose d 1)) with (INR d) by (f_equal; symmetry; clear; induction d as [|d IH]; [reflexivity|]; cbn [choose]; rewrite IH, choose_0; lia). rewrite pow_1.
  assert (L := pow_lip (d - 1) (1 - h) 1 ltac:(lra) ltac:(lra)). rewrite pow1 in L. replace (1 - h - 1) with (- h) in L by ring. rewrite (Rabs_Ropp h), (Rabs_right h) in L by lra. rewrite minus_INR in L by lia. simpl (INR 1) in L.
  replace (INR d * h * (1 - h) ^ (d - 1) - INR d * h) with (INR d * h * ((1 - h) ^ (d - 1) - 1)) by ring. rewrite Rabs_mult. assert (D := pos_INR d). rewrite (Rabs_right (INR d * h)) by (apply Rle_ge, Rmult_le_pos; lra).
  replace (INR d ^ 2 * h ^ 2) with (INR d * h * (INR d * h)) by ring. apply Rmult_le_compat_l; [apply Rmult_le_pos; lra|]. nra.
Qed.

(** A sum over two rows is close to its linear part. *)
Lemma strip_linear : forall d h (r : nat -> R) M, (1 <= d)%nat -> 0 <= h <= 1 -> Rabs (r 0%nat) <= M -> Rabs (r 1%nat) <= M ->
  Rabs (r 0%nat * bern d 0 h + r 1%nat * bern d 1 h - (r 0%nat + (r 1%nat - r 0%nat) * (INR d * h))) <= M * (2 * INR d ^ 2) * h ^ 2.
Proof.
  intros d h r M Hd Hh H0 H1. assert (A := bern_lin0 d h Hh). assert (B := bern_lin1 d h Hd Hh). set (b0 := bern d 0 h) in *. set (b1 := bern d 1 h) in *. clearbody b0 b1.
  replace (r 0%nat * b0 + r 1%nat * b1 - (r 0%nat + (r 1%nat - r 0%nat) * (INR d * h))) with (r 0%nat * (b0 - (1 - INR d * h)) + r 1%nat * (b1 - INR d * h)) by ring.
  eapply Rle_trans; [apply Rabs_triang|]. rewrite !Rabs_mult. rewrite (Rabs_right (b0 - (1 - INR d * h))) by lra. replace (M * (2 * INR d ^ 2) * h ^ 2) with (M * (INR d ^ 2 * h ^ 2) + M * (INR d ^ 2 * h ^ 2)) by ring.
  apply Rplus_le_compat; apply Rmult_le_compat; try apply Rabs_pos; lra.
Qed.
(** A combination with Bernstein weights is bounded by its coefficients. *)
Lemma bern_comb : forall d s (f : nat -> R) M, 0 <= s <= 1 -> (forall j, (j <= d)%nat -> Rabs (f j) <= M) -> Rabs (rsum (d + 1) (fun j => f j * bern d j s)) <= M.
Proof.
  intros d s f M Hs H. eapply Rle_trans; [apply rsum_abs|]. replace M with (M * rsum (d + 1) (fun j => bern d j s)) by (rewrite bern_sum; ring). rewrite <- rsum_scal. apply rsum_le. intros j Hj. rewrite Rabs_mult. assert (B := bern_nonneg d j s Hs). rewrite (Rabs_right (bern d j s)) by lra. apply Rmult_le_compat_r; [exact B|apply H; lia].
Qed.

(** ** Some of the terms of a sum *)
Lemma rsum_some : forall ks n f, NoDup ks -> (forall k, In k ks -> (k < n)%nat) -> (forall i, (i < n)%nat -> 0 <= f i) ->
  fold_right (fun k s => f k + s) 0 ks <= rsum n f.
Proof.
  induction ks as [|k ks IH]; intros n f Nd L P; [simpl; apply rsum_nonneg; exact P|].
  inversion Nd as [|k' ks' N1 N2]; subst. assert (K : (k < n)%nat) by (apply L; left; reflexivity). rewrite (rsum_split1 n f k K). cbn [fold_right]. apply Rplus_le_compat_l.
  assert (X := IH n (fun j => if (j =? k)%nat then 0 else f j) N2 (fun k0 Hk0 => L k0 (or_intror Hk0))). cbn beta in X.
  eapply Rle_trans; [|apply X].
  - clear X IH Nd N2 L. induction ks as [|k0 ks IH]; [simpl; lra|]. cbn [fold_right]. destruct (Nat.eqb_spec k0 k) as [E|_]; [exfalso; apply N1; left; exact E|]. apply Rplus_le_compat_l. apply IH. intros X. apply N1. right. exact X.
  - intros i Hi. destruct (i =? k)%nat; [lra|apply P; exact Hi].
Qed.

(** ** Wachspress coordinates away from the ends of side [e] *)
Section Lam.
Variables (n : nat) (la : nat -> R) (e : nat) (c : R).
Hypothesis Hn : (3 <= n)%nat.
Hypothesis Pl : forall i, (i < n)%nat -> 0 < la i.
Hypothesis Sl : rsum n la = 1.
Hypothesis He : (e < n)%nat.
Hypothesis Hc : 0 < c.
Let p := prv n e.
Let x := nxt n e.
Hypothesis Ce : c <= la e.
Hypothesis Cp : c <= la p.
Let h (i : nat) : R := 1 - la i - la (prv n i).
Let Hx : (x < n)%nat. Proof. apply nxt_lt; lia. Qed.
Let Hp : (p < n)%nat. Proof. apply prv_lt; lia. Qed.
Let Nx : x <> e. Proof. apply nxt_neq; lia. Qed.
Let Np : p <> e. Proof. apply prv_neq; lia. Qed.
Let Nxp : x <> p. Proof. apply nxt_prv_neq; lia. Qed.
Let Hpp : (prv n p < n)%nat. Proof. apply prv_lt; lia. Qed.
Let Npp : prv n p <> p. Proof. apply prv_neq; lia. Qed.
Let Nppe : prv n p <> e.
Proof. intros E. apply Nxp. unfold x. rewrite <- E. apply nxt_prv. exact Hp. Qed.

Lemma two_le : forall i j, (i < n)%nat -> (j < n)%nat -> i <> j -> la i + la j <= 1.
Proof.
  intros i j Hi Hj N. rewrite <- Sl. assert (X := rsum_some [i; j] n la). cbn [fold_right] in X. rewrite Rplus_0_r in X. apply X.
  - repeat constructor; simpl; intuition congruence.
  - simpl. intuition congruence.
  - intros k Hk. left. apply Pl. exact Hk.
Qed.
Lemma three_le : forall i j k, (i < n)%nat -> (j < n)%nat -> (k < n)%nat -> i <> j -> i <> k -> j <> k -> la i + la j + la k <= 1.
Proof.
  intros i j k Hi Hj Hk N1 N2 N3. rewrite <- Sl. assert (X := rsum_some [i; j; k] n la). cbn [fold_right] in X. rewrite Rplus_0_r, <- Rplus_assoc in X. apply X.
  - repeat constructor; simpl; intuition congruence.
  - simpl. intuition congruence.
  - intros i0 Hi0. left. apply Pl. exact Hi0.
Qed.
Lemma far_le : forall i, (i < n)%nat -> i <> e -> i <> x -> i <> p -> la i + la (prv n i) <= h e.
Proof.
  intros i Hi N1 N2 N3. assert (Q : (prv n i < n)%nat) by (apply prv_lt; lia). assert (N4 : prv n i <> i) by (apply prv_neq; lia).
  assert (N5 : prv n i <> e) by (intros E; apply N2; unfold x; rewrite <- E, nxt_prv by exact Hi; reflexivity).
  assert (N6 : prv n i <> p) by (intros E; apply N1; rewrite <- (nxt_prv n i Hi), E; unfold p; rewrite nxt_prv by exact He; reflexivity).
  assert (X := rsum_some [i; prv n i; e; p] n la). cbn [fold_right] in X. rewrite Sl, Rplus_0_r in X. unfold h. fold p. enough (la i + (la (prv n i) + (la e + la p)) <= 1) by lra. apply X.
  - repeat constructor; simpl; intuition congruence.
  - simpl. intuition congruence.
  - intros i0 Hi0. left. apply Pl. exact Hi0.
Qed.
Lemma lam_h01 : forall i, (i < n)%nat -> 0 <= h i <= 1.
Proof.
  intros i Hi. assert (Q : (prv n i < n)%nat) by (apply prv_lt; lia). assert (A := two_le i (prv n i) Hi Q ltac:(intros E; apply (prv_neq n i); [lia|exact Hi|symmetry; exact E])). assert (B := Pl i Hi). assert (C := Pl _ Q). unfold h. lra.
Qed.
Lemma lam_x : c <= h x.
Proof. unfold h, x. rewrite prv_nxt by exact He. fold x. assert (A := three_le x e p Hx He Hp ltac:(assumption) ltac:(assumption) ltac:(congruence)). lra. Qed.
Lemma lam_p : c <= h p.
Proof. unfold h. assert (A := three_le e p (prv n p) He Hp Hpp ltac:(congruence) ltac:(congruence) ltac:(congruence)). lra. Qed.
Lemma lam_off : forall i, (i < n)%nat -> c <= h i + h (nxt n i).
Proof.
  intros i Hi. assert (Qp : (prv n i < n)%nat) by (apply prv_lt; lia). assert (Qx : (nxt n i < n)%nat) by (apply nxt_lt; lia). assert (N1 : prv n i <> i) by (apply prv_neq; lia). assert (N2 : nxt n i <> i) by (apply nxt_neq; lia). assert (N3 : nxt n i <> prv n i) by (apply nxt_prv_neq; lia).
  assert (A := three_le i (prv n i) (nxt n i) Hi Qp Qx ltac:(congruence) ltac:(congruence) ltac:(congruence)). unfold h. rewrite prv_nxt by exact Hi.
  destruct (Nat.eq_dec i e) as [->|N].
  - assert (B := two_le e p He Hp ltac:(congruence)). lra.
  - assert (B := two_le i e Hi He N). lra.
Qed.
Lemma lam_sx : la x / (la e + la x) <= / c * h e.
Proof.
  assert (A := Pl x Hx). assert (B : la x <= h e) by (unfold h; fold p; assert (X := three_le x e p Hx He Hp ltac:(assumption) ltac:(assumption) ltac:(congruence)); lra).
  rewrite (Rmult_comm (/ c)). unfold Rdiv. apply Rmult_le_compat; [lra|left; apply Rinv_0_lt_compat; lra|exact B|]. apply Rinv_le_contravar; lra.
Qed.
Lemma lam_sp : 1 - la p / (la (prv n p) + la p) <= / c * h e.
Proof.
  assert (A := Pl _ Hpp). assert (B : la (prv n p) <= h e) by (unfold h; fold p; assert (X := three_le e p (prv n p) He Hp Hpp ltac:(congruence) ltac:(congruence) ltac:(congruence)); lra).
  replace (1 - la p / (la (prv n p) + la p)) with (la (prv n p) * / (la (prv n p) + la p)) by (field; lra).
  rewrite (Rmult_comm (/ c)). apply Rmult_le_compat; [lra|left; apply Rinv_0_lt_compat; lra|exact B|]. apply Rinv_le_contravar; lra.
Qed.
Lemma between : forall a b t y, 0 < a -> 0 < b -> t = 1 - a - b -> 0 <= t -> a <= y <= a + t -> Rabs (y - a / (a + b)) <= t.
Proof.
  intros a b t y Ha Hb Ht Pt Hy. assert (E : a <= a / (a + b) <= a + t).
  { assert (X : a / (a + b) * (a + b) = a) by (field; lra). assert (P : 0 < a / (a + b)) by (apply Rdiv_lt_0_compat; lra). set (u := a / (a + b)) in *. clearbody u. assert (a + b <= 1) by lra. split; nra. }
  apply Rabs_le. lra.
Qed.
Lemma lam_tx : Rabs (h x - (1 - la e / (la p + la e))) <= h e.
Proof.
  assert (A := Pl e He). assert (B := Pl p Hp). replace (1 - la e / (la p + la e)) with (la p / (la p + la e)) by (field; lra). assert (H0 := proj1 (lam_h01 e He)).
  apply between; try assumption; [unfold h; fold p; ring|]. assert (X := three_le x e p Hx He Hp ltac:(assumption) ltac:(assumption) ltac:(congruence)). assert (Px := Pl x Hx). unfold h. fold p. unfold x at 1 2 3 4. rewrite prv_nxt by exact He. fold x. lra.
Qed.
Lemma lam_tp : Rabs (h p - la e / (la p + la e)) <= h e.
Proof.
  assert (A := Pl e He). assert (B := Pl p Hp). rewrite (Rplus_comm (la p)). assert (H0 := proj1 (lam_h01 e He)).
  apply between; try assumption; [unfold h; fold p; ring|]. assert (X := three_le e p (prv n p) He Hp Hpp ltac:(congruence) ltac:(congruence) ltac:(congruence)). assert (Px := Pl _ Hpp). unfold h. fold p. lra.
Qed.
End Lam.
