(** Properties of the overlap parameterization: C63. *)

From Verif Require Import Base MeshModel GeomSpec DomainModel UtilModel UtilSpec ParamModel.
From Verif Require Import UtilProofs ParamBary ParamMaps PolarProofs PropsParam.
Open Scope R_scope.

Lemma mod_add_inj : forall n i j k, (j < n)%nat -> (k < n)%nat -> ((i + j) mod n = (i + k) mod n)%nat -> j = k.
Proof.
  intros n i j k Hj Hk E. assert (N : n <> 0%nat) by lia.
  rewrite <- (Nat.add_mod_idemp_l i j n N), <- (Nat.add_mod_idemp_l i k n N) in E.
  pose proof (Nat.mod_upper_bound i n N) as B. set (i' := (i mod n)%nat) in *.
  rewrite !mod_cases in E by lia. destruct (Nat.ltb_spec (i' + j) n); destruct (Nat.ltb_spec (i' + k) n); lia.
Qed.

Lemma window_sum : forall n i k m, (k < n)%nat -> (m <= n)%nat ->
  rsum m (fun j => if ((i + j) mod n =? (i + k) mod n)%nat then 1 else 0) = if (k <? m)%nat then 1 else 0.
Proof.
  intros n i k m Hk. induction m as [|m IH]; intros Hm; [reflexivity|]. rewrite rsum_S, IH by lia.
  destruct (Nat.eqb_spec ((i + m) mod n) ((i + k) mod n)) as [E|E].
  - apply mod_add_inj in E; [|lia|lia]. subst m. destruct (Nat.ltb_spec k k); [lia|]. destruct (Nat.ltb_spec k (S k)); [lra|lia].
  - assert (m <> k) by (intros ->; apply E; reflexivity). destruct (Nat.ltb_spec k m); destruct (Nat.ltb_spec k (S m)); try lia; lra.
Qed.

Lemma overlap_value : forall t eps d i uv l, let n := d_n d in Nat.even n = true -> (1 <= n)%nat ->
  barycentric t eps d uv = Some l -> length l = n ->
  overlapMap t eps d i uv = Some (mkV2 (rsum (n / 2) (fun j => nth ((i + j) mod n) l 0)) 0).
Proof.
  intros t eps d i uv l n Ev H1 B L. unfold overlapMap. fold n. rewrite <- Nat.negb_even, Ev. cbn [negb]. rewrite B. cbn [bind].
  rewrite (orsum_total _ _ (fun j => nth ((i + j) mod n) l 0)); [reflexivity|].
  intros j Hj. apply nth_error_nth'. rewrite L. apply Nat.mod_upper_bound. lia.
Qed.

(** ** C63: the coordinates of opposite sides add up to one. *)
Theorem C63_opposite : forall t eps d uv l i, let n := d_n d in Nat.even n = true -> (1 <= n)%nat -> (i < n)%nat ->
  barycentric t eps d uv = Some l -> length l = n -> rsum n (fun k => nth k l 0) = 1 ->
  exists r, overlapMap t eps d i uv = Some (mkV2 r 0) /\ overlapMap t eps d ((i + n / 2) mod n) uv = Some (mkV2 (1 - r) 0).
Proof.
  intros t eps d uv l i n Ev H1 Hi B L Sum. pose proof (Nat.even_spec n) as S. destruct S as [S _]. destruct (S Ev) as [m Em]. clear S.
  assert (Hm : (n / 2 = m)%nat) by (rewrite Em, Nat.mul_comm; apply Nat.div_mul; lia).
  eexists. split; [apply (overlap_value t eps d i uv l Ev H1 B L)|].
  rewrite (overlap_value t eps d _ uv l Ev H1 B L). fold n. rewrite Hm. do 2 f_equal.
  assert (Tot : rsum (m + m) (fun j => nth ((i + j) mod n) l 0) = 1).
  { rewrite <- Sum. transitivity (rsum (n - i + i) (fun j => nth ((i + j) mod n) l 0)); [f_equal; lia|].
    transitivity (rsum (i + (n - i)) (fun k => nth k l 0)); [|f_equal; lia]. rewrite !rsum_app, Rplus_comm. f_equal; apply rsum_ext; intros j Hj.
    - replace (i + (n - i + j))%nat with (j + 1 * n)%nat by lia. rewrite Nat.mod_add, Nat.mod_small by lia. reflexivity.
    - rewrite (Nat.mod_small (i + j) n) by lia. reflexivity. }
  rewrite rsum_app in Tot.
  rewrite (rsum_ext m (fun j => nth (((i + m) mod n + j) mod n) l 0) (fun j => nth ((i + (m + j)) mod n) l 0)); [lra|].
  intros j Hj. rewrite Nat.add_mod_idemp_l by lia. rewrite Nat.add_assoc. reflexivity.
Qed.
Print Assumptions C63_opposite.

(** Inside a convex domain every coordinate is strictly between 0 and 1. *)
Theorem C63_inside : forall eps d uv i, let vs := d_verts d in let n := length vs in d_n d = n -> Nat.even n = true -> (4 <= n)%nat -> (i < n)%nat ->
  strictly_convex vs -> inside vs uv -> 0 < eps <= 1 ->
  exists r, overlapMap Wachspress eps d i uv = Some (mkV2 r 0) /\ 0 < r < 1.
Proof.
  intros eps d uv i vs n Dn Ev H4 Hi C I He.
  destruct (C19_wachspress vs d eps uv eq_refl ltac:(fold n; lia) C I He) as (l & B & L & Pos & Sum). rewrite L in Sum. fold n in L, Sum.
  assert (G : forall k, exists r, overlapMap Wachspress eps d k uv = Some (mkV2 r 0) /\ 0 < r).
  { intros k. rewrite (overlap_value Wachspress eps d k uv l) by (rewrite ?Dn; try assumption; lia). eexists. split; [reflexivity|].
    rewrite Dn. apply rsum_pos; [apply Nat.div_str_pos; lia|]. intros j Hj. apply Pos, nth_In. rewrite L. apply Nat.mod_upper_bound. lia. }
  destruct (C63_opposite Wachspress eps d uv l i) as (r & R1 & R2); rewrite ?Dn; try assumption; try lia.
  exists r. split; [exact R1|]. destruct (G i) as (a & A & Pa). destruct (G ((i + d_n d / 2) mod d_n d)%nat) as (b & Bb & Pb).
  rewrite R1 in A. rewrite R2 in Bb. injection A as <-. injection Bb as <-. lra.
Qed.
Print Assumptions C63_inside.

(** On side number [k] counted from side [i]: the parameter on side [i] itself,
    1 on the sides before the opposite one, the reversed parameter on the
    opposite side, and 0 after it. *)
Theorem C63_side : forall eps d i k s uv, let vs := d_verts d in let n := length vs in d_n d = n -> Nat.even n = true -> (4 <= n)%nat ->
  (k < n)%nat -> strictly_convex vs -> 0 <= s <= 1 -> 0 < eps <= 1 ->
  edgePoint d ((i + k) mod n) s = Some uv ->
  overlapMap Wachspress eps d i uv =
    Some (mkV2 (if (k =? 0)%nat then s else if (k <? n / 2)%nat then 1 else if (k =? n / 2)%nat then 1 - s else 0) 0).
Proof.
  intros eps d i k s uv vs n Dn Ev H4 Hk C Hs He E.
  assert (N : n <> 0%nat) by lia. set (e := ((i + k) mod n)%nat) in *. assert (Hee : (e < n)%nat) by (apply Nat.mod_upper_bound; exact N).
  destruct (C21_linear_on_side d eps e s uv Dn ltac:(fold vs; fold n; lia) C Hee Hs He E) as (l & B & L & Be & Bp & B0). fold vs in L, Bp, B0. fold n in L, Bp, B0.
  rewrite (overlap_value Wachspress eps d i uv l) by (rewrite ?Dn; try assumption; lia). rewrite Dn. do 2 f_equal.
  set (k' := if (k =? 0)%nat then (n - 1)%nat else (k - 1)%nat).
  assert (Hk' : (k' < n)%nat) by (unfold k'; destruct (Nat.eqb_spec k 0); lia).
  assert (Pe : prv n e = ((i + k') mod n)%nat).
  { unfold prv. replace (e + n - 1)%nat with (e + (n - 1))%nat by lia. unfold e. rewrite Nat.add_mod_idemp_l by exact N.
    unfold k'. destruct (Nat.eqb_spec k 0) as [->|]; [f_equal; lia|]. replace (i + k + (n - 1))%nat with (i + (k - 1) + 1 * n)%nat by lia. apply Nat.mod_add; exact N. }
  assert (Ne : prv n e <> e) by (apply prv_neq; lia).
  rewrite (rsum_ext (n / 2) _ (fun j => s * (if ((i + j) mod n =? (i + k) mod n)%nat then 1 else 0) + (1 - s) * (if ((i + j) mod n =? (i + k') mod n)%nat then 1 else 0))).
  - rewrite rsum_plus, !rsum_scal. assert (n / 2 <= n)%nat by (apply Nat.div_le_upper_bound; lia).
    rewrite !window_sum by assumption. unfold k'.
    assert (H2 : (2 <= n / 2)%nat) by (apply Nat.div_le_lower_bound; lia).
    assert (H2' : (n / 2 <= n - 1)%nat) by (apply Nat.lt_succ_r; apply Nat.div_lt_upper_bound; lia).
    destruct (Nat.eqb_spec k 0); destruct (Nat.ltb_spec k (n / 2)); destruct (Nat.eqb_spec k (n / 2)); try lia;
      match goal with |- context [(?a <? n / 2)%nat] => destruct (Nat.ltb_spec a (n / 2)) end; try lia; ring.
  - intros j Hj. fold e. rewrite <- Pe. assert (Hx : ((i + j) mod n < n)%nat) by (apply Nat.mod_upper_bound; exact N). set (x := ((i + j) mod n)%nat) in *. clearbody x.
    destruct (Nat.eqb_spec x e) as [X1|X1]; destruct (Nat.eqb_spec x (prv n e)) as [X2|X2].
    + exfalso. apply Ne. congruence.
    + subst x. rewrite (nth_error_nth _ _ _ Be). ring.
    + rewrite X2, (nth_error_nth _ _ _ Bp). ring.
    + rewrite (nth_error_nth _ _ _ (B0 x Hx X1 X2)). ring.
Qed.
Print Assumptions C63_side.

(** With an odd number of sides the assertion fails. *)
Theorem C63_odd : forall t eps d i uv, Nat.odd (d_n d) = true -> overlapMap t eps d i uv = None.
Proof. intros t eps d i uv O. unfold overlapMap. rewrite O. reflexivity. Qed.
Print Assumptions C63_odd.

Definition osq : list V2 := [mkV2 0 0; mkV2 1 0; mkV2 1 1; mkV2 0 1].
(** On the unit square the coordinate of side 0 is 1 at the point (3/10, 0) of
    side 1, and 1/4 at the point (1, 3/4) of the opposite side. *)
Example C63_example : forall eps, 0 < eps <= 1 ->
  let d := mkDom 4 (mkV2 (1/2) (1/2)) osq [] [] in
  overlapMap Wachspress eps d 0 (mkV2 (3/10) 0) = Some (mkV2 1 0) /\
  overlapMap Wachspress eps d 0 (mkV2 1 (3/4)) = Some (mkV2 (1/4) 0).
Proof.
  intros eps He d.
  assert (Cx : strictly_convex osq).
  { intros k i Hk Hi N1 N2. simpl in Hk, Hi.
    destruct k as [|[|[|[|k]]]]; [| | | |lia]; (destruct i as [|[|[|[|i]]]]; [| | | |lia]);
      cbv [length osq prv Nat.add Nat.sub Nat.modulo Nat.divmod fst snd] in *; try lia;
      unfold sarea, pcross, vtx; simpl; lra. }
  split.
  - rewrite (C63_side eps d 0 1 (3/10)); [reflexivity| | | | | | | |]; try reflexivity; try (simpl; lia); try lra; try exact Cx.
    unfold edgePoint. simpl. f_equal. apply V2_ext; simpl; lra.
  - rewrite (C63_side eps d 0 2 (3/4)); [simpl; do 2 f_equal; lra| | | | | | | |]; try reflexivity; try (simpl; lia); try lra; try exact Cx.
    unfold edgePoint. simpl. f_equal. apply V2_ext; simpl; lra.
Qed.
