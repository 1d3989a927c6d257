(** Generalized Bezier patches near a side. *)
From Verif Require Import Base UtilModel UtilSpec UtilProofs BlendProps DomainModel ParamModel GBModel GBSpec GBProofs GBEval.
Open Scope R_scope.

(** ** Bernstein polynomials near the ends *)
Lemma bern_le_1 : forall d k u, 0 <= u <= 1 -> bern d k u <= 1.
Proof.
  intros d k u Hu. destruct (le_lt_dec k d) as [H|H]; [|rewrite bern_gt by exact H; lra].
  rewrite <- (bern_sum d u). rewrite (rsum_split1 (d + 1) _ k ltac:(lia)). 
  assert (0 <= rsum (d + 1) (fun j => if (j =? k)%nat then 0 else bern d j u)) by (apply rsum_nonneg; intros i Hi; destruct (i =? k)%nat; [lra|apply bern_nonneg; exact Hu]). lra.
Qed.
Lemma choose_le : forall d k, INR (choose d k) <= 2 ^ d.
Proof.
  intros d k. destruct (le_lt_dec k d) as [H|H].
  - assert (B := bern_le_1 d k (1/2) ltac:(lra)). unfold bern in B. replace (1 - 1/2) with (1/2) in B by lra. rewrite Rmult_assoc, <- pow_add in B. replace (k + (d - k))%nat with d in B by lia.
    assert (P : 0 < 2 ^ d) by (apply pow_lt; lra). apply (Rmult_le_reg_r ((1/2) ^ d)); [apply pow_lt; lra|]. rewrite <- Rpow_mult_distr. replace (2 * (1/2)) with 1 by field. rewrite pow1. exact B.
  - assert (B : choose d k = 0%nat).
    { assert (X := bern_gt d k (1/2) H). unfold bern in X. assert (Y : 0 < (1/2) ^ k * (1 - 1/2) ^ (d - k)) by (apply Rmult_lt_0_compat; apply pow_lt; lra). rewrite Rmult_assoc in X. apply Rmult_integral in X. destruct X as [X|X]; [|lra]. apply INR_eq. rewrite X. reflexivity. }
    rewrite B. simpl. left. apply pow_lt. lra.
Qed.
Lemma pow_le_sq : forall u k, 0 <= u <= 1 -> (2 <= k)%nat -> u ^ k <= u ^ 2.
Proof.
  intros u k Hu Hk. replace k with (2 + (k - 2))%nat by lia. rewrite pow_add. assert (P : 0 <= u ^ (k - 2) <= 1) by (split; [apply pow_le; lra|]; rewrite <- (pow1 (k - 2)); apply pow_incr; lra). assert (0 <= u ^ 2) by (apply pow_le; lra). nra.
Qed.
Lemma pow_01 : forall u k, 0 <= u <= 1 -> 0 <= u ^ k <= 1.
Proof. intros u k Hu. split; [apply pow_le; lra|]. rewrite <- (pow1 k). apply pow_incr. lra. Qed.
Lemma bern_low : forall d k u, 0 <= u <= 1 -> (2 <= k)%nat -> bern d k u <= 2 ^ d * u ^ 2.
Proof.
  intros d k u Hu Hk. unfold bern. assert (A := pow_le_sq u k Hu Hk). assert (B := pow_01 (1 - u) (d - k) ltac:(lra)). assert (C := choose_le d k). assert (C0 := pos_INR (choose d k)). assert (U := pow_01 u k Hu).
  rewrite Rmult_assoc. apply Rmult_le_compat; [exact C0|apply Rmult_le_pos; lra|exact C|]. assert (0 <= u ^ 2) by (apply pow_le; lra). nra.
Qed.
Lemma bern_high : forall d k u, 0 <= u <= 1 -> (k + 2 <= d)%nat -> bern d k u <= 2 ^ d * (1 - u) ^ 2.
Proof. intros d k u Hu Hk. replace u with (1 - (1 - u)) at 1 by ring. rewrite bern_sym by lia. apply bern_low; [lra|lia]. Qed.
Lemma pow_lip : forall d x y, 0 <= x <= 1 -> 0 <= y <= 1 -> Rabs (x ^ d - y ^ d) <= INR d * Rabs (x - y).
Proof.
  induction d as [|d IH]; intros x y Hx Hy; [simpl; rewrite Rminus_diag_eq, Rabs_R0 by reflexivity; lra|].
  replace (x ^ S d - y ^ S d) with (x * (x ^ d - y ^ d) + y ^ d * (x - y)) by (simpl; ring). eapply Rle_trans; [apply Rabs_triang|]. rewrite !Rabs_mult, S_INR. specialize (IH x y Hx Hy).
  assert (Y := pow_01 y d Hy). rewrite (Rabs_right x), (Rabs_right (y ^ d)) by lra. assert (P := Rabs_pos (x - y)). assert (Q := Rabs_pos (x ^ d - y ^ d)).
  set (a := Rabs (x ^ d - y ^ d)) in *. set (b := Rabs (x - y)) in *. set (c := INR d) in *. set (e := y ^ d) in *. clearbody a b c e. nra.
Qed.
Lemma bern_lip : forall d k x y, (1 <= d)%nat -> (k < 2)%nat -> 0 <= x <= 1 -> 0 <= y <= 1 -> Rabs (bern d k x - bern d k y) <= INR d ^ 2 * Rabs (x - y).
Proof.
  intros d k x y Hd Hk Hx Hy. assert (D1 : 1 <= INR d) by (replace 1 with (INR 1) by reflexivity; apply le_INR; lia). assert (P := Rabs_pos (x - y)).
  assert (E : Rabs ((1 - x) - (1 - y)) = Rabs (x - y)) by (replace ((1 - x) - (1 - y)) with (- (x - y)) by ring; apply Rabs_Ropp).
  destruct k as [|[|k]]; [| |lia]; unfold bern.
  - rewrite choose_0, Nat.sub_0_r. simpl (INR 1). rewrite !pow_O, !Rmult_1_l. assert (L := pow_lip d (1 - x) (1 - y) ltac:(lra) ltac:(lra)). rewrite E in L. set (a := Rabs ((1 - x) ^ d - (1 - y) ^ d)) in *. set (b := Rabs (x - y)) in *. set (c := INR d) in *. clearbody a b c. assert (0 <= c * b * (c - 1)) by (repeat apply Rmult_le_pos; lra). nra.
  - replace (INR (choose d 1)) with (INR d) by (f_equal; symmetry; clear; induction d as [|d IH]; [reflexivity|]; cbn [choose]; rewrite IH, choose_0; lia). rewrite !pow_1.
    assert (L := pow_lip (d - 1) (1 - x) (1 - y) ltac:(lra) ltac:(lra)). rewrite E in L. assert (Dm : INR (d - 1) = INR d - 1) by (rewrite minus_INR by lia; reflexivity). rewrite Dm in L.
    set (a := (1 - x) ^ (d - 1)) in *. set (b := (1 - y) ^ (d - 1)) in *. assert (B : 0 <= b <= 1) by (apply pow_01; lra).
    replace (INR d * x * a - INR d * y * b) with (INR d * (x * (a - b) + b * (x - y))) by ring. rewrite Rabs_mult, (Rabs_right (INR d)) by lra.
    assert (T : Rabs (x * (a - b) + b * (x - y)) <= INR d * Rabs (x - y)).
    { eapply Rle_trans; [apply Rabs_triang|]. rewrite !Rabs_mult, (Rabs_right x), (Rabs_right b) by lra. assert (Q := Rabs_pos (a - b)). set (q := Rabs (a - b)) in *. set (r := Rabs (x - y)) in *. set (c := INR d) in *. clearbody q r c. clear Dm E. nra. }
    set (t := Rabs (x * (a - b) + b * (x - y))) in *. set (r := Rabs (x - y)) in *. set (c := INR d) in *. clearbody t r c. clear L Dm E. assert (c * t <= c * (c * r)) by (apply Rmult_le_compat_l; lra). nra.
Qed.
Lemma bern2_lip : forall d j k x y x' y', (1 <= d)%nat -> (j < 2)%nat -> (k < 2)%nat -> 0 <= x <= 1 -> 0 <= y <= 1 -> 0 <= x' <= 1 -> 0 <= y' <= 1 ->
  Rabs (bern d j x * bern d k y - bern d j x' * bern d k y') <= INR d ^ 2 * (Rabs (x - x') + Rabs (y - y')).
Proof.
  intros d j k x y x' y' Hd Hj Hk Hx Hy Hx' Hy'. replace (bern d j x * bern d k y - bern d j x' * bern d k y') with ((bern d j x - bern d j x') * bern d k y + bern d j x' * (bern d k y - bern d k y')) by ring.
  eapply Rle_trans; [apply Rabs_triang|]. rewrite !Rabs_mult. assert (L1 := bern_lip d j x x' Hd Hj Hx Hx'). assert (L2 := bern_lip d k y y' Hd Hk Hy Hy').
  assert (B1 := bern_nonneg d k y Hy). assert (B2 := bern_le_1 d k y Hy). assert (B3 := bern_nonneg d j x' Hx'). assert (B4 := bern_le_1 d j x' Hx'). rewrite (Rabs_right (bern d k y)), (Rabs_right (bern d j x')) by lra.
  assert (P1 := Rabs_pos (bern d j x - bern d j x')). assert (P2 := Rabs_pos (bern d k y - bern d k y')).
  set (a := Rabs (bern d j x - bern d j x')) in *. set (b := Rabs (bern d k y - bern d k y')) in *. set (e := bern d k y) in *. set (f := bern d j x') in *. set (c := INR d ^ 2 * Rabs (x - x')) in *. set (c' := INR d ^ 2 * Rabs (y - y')) in *. rewrite Rmult_plus_distr_l. fold c c'. clearbody a b c c'. nra.
Qed.
(** The two ratios at a corner are complementary, and small next to a side. *)
Lemma rat_compl : forall sq a b, 0 < a + b -> 1 - rat sq a b = rat sq b a.
Proof. intros sq a b H. pose proof (sumsq_pos a b H). unfold rat. destruct sq; field; lra. Qed.
Lemma rat_small : forall sq a b m, 0 <= a -> 0 < m <= b -> 0 <= rat sq a b <= a / m.
Proof.
  intros sq a b m Ha Hm. split; [apply rat_nonneg; lra|]. unfold rat. destruct sq.
  - assert (Q : 0 < a * a + b * b) by nra. apply (Rmult_le_reg_r (m * (a * a + b * b))); [apply Rmult_lt_0_compat; lra|]. replace (a * a / (a * a + b * b) * (m * (a * a + b * b))) with (m * a * a) by (field; lra). replace (a / m * (m * (a * a + b * b))) with (a * (a * a + b * b)) by (field; lra). assert (m * a <= b * a) by nra. assert (0 <= (a - b) * (a - b)) by apply Rle_0_sqr. assert (m * a <= a * a + b * b) by nra. rewrite (Rmult_comm a (a * a + b * b)). apply Rmult_le_compat_r; lra.
  - apply (Rmult_le_reg_r (m * (a + b))); [nra|]. replace (a / (a + b) * (m * (a + b))) with (m * a) by (field; lra). replace (a / m * (m * (a + b))) with (a * (a + b)) by (field; lra). nra.
Qed.
Lemma rat_01 : forall sq a b, 0 <= a -> 0 <= b -> 0 < a + b -> 0 <= rat sq a b <= 1.
Proof. intros sq a b Ha Hb H. assert (P := rat_nonneg sq a b Ha Hb H). assert (Q := rat_nonneg sq b a Hb Ha ltac:(lra)). rewrite <- rat_compl in Q by lra. lra. Qed.

(** ** Weights *)
Lemma factor_top : forall d j k a b w, (3 <= d)%nat -> (k < 2)%nat -> (j <= d)%nat ->
  gbFactor d j k a b w = if (j <? 2)%nat then w * a else if (d - 2 <? j)%nat then w * b else w.
Proof.
  intros d j k a b w Hd Hk Hj. unfold gbFactor, above, meets. destruct (Nat.ltb_spec k 2) as [_|X]; [|lia]. destruct (Nat.ltb_spec d 2) as [X|_]; [lia|]. cbn [andb].
  destruct (Nat.ltb_spec j 2) as [J|J]; cbn [orb]; [reflexivity|]. destruct (Nat.ltb_spec (d - 2) j) as [J'|J']; [reflexivity|].
  destruct (Nat.ltb_spec d k) as [X|_]; [lia|]. destruct (Nat.eqb_spec j k) as [X|_]; [lia|]. destruct (Nat.eqb_spec j (d - k)) as [X|_]; [lia|]. destruct (Nat.ltb_spec j k) as [X|_]; [lia|]. destruct (Nat.ltb_spec (d - k) j) as [X|_]; [lia|]. reflexivity.
Qed.
Lemma factor_range : forall d j k a b w, 0 <= a <= 1 -> 0 <= b <= 1 -> 0 <= w -> 0 <= gbFactor d j k a b w <= w.
Proof.
  intros d j k a b w Ha Hb Hw. unfold gbFactor. destruct (_ && _)%bool; [destruct (_ <? _)%nat; nra|]. destruct (_ || _)%bool; [lra|]. destruct (_ || _)%bool; lra.
Qed.
Lemma factor_inner : forall d j k a b w, (2 <= k)%nat -> (2 * k + 1 <= d)%nat -> (j < k)%nat \/ (d - k < j)%nat -> gbFactor d j k a b w = 0.
Proof.
  intros d j k a b w Hk Hd Hj. unfold gbFactor, above, meets. destruct (Nat.ltb_spec k 2) as [X|_]; [lia|]. cbn [andb]. destruct (Nat.ltb_spec d k) as [X|_]; [lia|].
  destruct (Nat.eqb_spec j k) as [X|_]; [lia|]. destruct (Nat.eqb_spec j (d - k)) as [X|_]; [lia|]. cbn [orb]. destruct (Nat.ltb_spec j k); cbn [orb]; [reflexivity|]. destruct (Nat.ltb_spec (d - k) j); [reflexivity|lia].
Qed.

(** ** Sums *)
Lemma rsum_low : forall m F, (2 <= m)%nat -> rsum m (fun j => if (j <? 2)%nat then F j else 0) = F 0%nat + F 1%nat.
Proof.
  intros m F Hm. rewrite (rsum_double m _ 0 1 ltac:(lia) ltac:(lia) ltac:(lia)); [reflexivity|]. intros k Hk H0 H1. destruct (Nat.ltb_spec k 2); [lia|reflexivity].
Qed.
Lemma rsum_top : forall d F, (2 <= d)%nat -> rsum (d + 1) (fun j => if (d - 2 <? j)%nat then F j else 0) = F (d - 1)%nat + F d.
Proof.
  intros d F Hd. rewrite (rsum_double (d + 1) _ (d - 1) d ltac:(lia) ltac:(lia) ltac:(lia)).
  - destruct (Nat.ltb_spec (d - 2) (d - 1)); [|lia]. destruct (Nat.ltb_spec (d - 2) d); [|lia]. reflexivity.
  - intros k Hk H0 H1. destruct (Nat.ltb_spec (d - 2) k); [lia|reflexivity].
Qed.
Lemma rsum_apart : forall n f g q, (forall i, (i < n)%nat -> Rabs (f i - g i) <= q) -> Rabs (rsum n f - rsum n g) <= INR n * q.
Proof.
  intros n f g q H. rewrite <- rsum_minus. eapply Rle_trans; [apply rsum_abs|]. rewrite <- rsum_const. apply rsum_le. exact H.
Qed.

Lemma nxt_mod : forall n i, (i < n)%nat -> nxt n i = ((i + 1) mod n)%nat.
Proof. intros n i H. unfold nxt. first [reflexivity | destruct (Nat.eqb_spec (i + 1) n) as [E|E]; [rewrite E, Nat.mod_same by lia; reflexivity|rewrite Nat.mod_small by lia; reflexivity]]. Qed.
Lemma cpv_mirror : forall n d g i j k, shaped n d g -> consistent n d g -> (i < n)%nat -> (2 * j + 1 <= d)%nat -> (2 * k + 1 <= d)%nat ->
  cpv g (nxt n i) j k = cpv g i (d - k) j.
Proof.
  intros n d g i j k Sh Co Hi Hj Hk. assert (P : inRange n d (nxt n i, j, k)) by (split; [apply nxt_lt; lia|lia]). assert (Q : inRange n d (i, (d - k)%nat, j)) by (split; lia).
  assert (X := Co _ _ P Q). rewrite nxt_mod in X by exact Hi. specialize (X (mirror_intro n d i j k Hj)). unfold getp in X. rewrite <- nxt_mod in X by exact Hi.
  rewrite (cpv_some n d g _ _ _ Sh P), (cpv_some n d g _ _ _ Sh Q) in X. injection X as X. exact X.
Qed.

(** ** The sum near side [e] *)
Section Near.
Variables (n d : nat) (g : gbsurf).
Hypothesis Sh : shaped n d g.
Hypothesis Co : consistent n d g.
Hypothesis Hn : (3 <= n)%nat.
Hypothesis Hd : (3 <= d)%nat.
Variables (So Do : nat -> R).
Hypothesis Hs : forall i, (i < n)%nat -> 0 <= So i <= 1.
Hypothesis Hh : forall i, (i < n)%nat -> 0 <= Do i <= 1.
Hypothesis Hc : forall i, (i < n)%nat -> 0 < Do i + Do (nxt n i).
Variable e : nat.
Hypothesis He : (e < n)%nat.
Variables (z m : R).
Hypothesis Hz : 1 <= z.
Hypothesis Hm : 0 < m.
Let h := Do e.
Let x := nxt n e.
Let p := prv n e.
Hypothesis Mx : m <= Do x.
Hypothesis Mp : m <= Do p.
Hypothesis Sx : So x <= z * h.
Hypothesis Sp : 1 - So p <= z * h.
Hypothesis Tx : Rabs (Do x - (1 - So e)) <= z * h.
Hypothesis Tp : Rabs (Do p - So e) <= z * h.
Hypothesis Far : forall i, (i < n)%nat -> i <> e -> i <> x -> i <> p -> 1 - Do i <= z * h.
Let Al (i : nat) : R := rat (gb_sq g) (Do (prv n i)) (Do i).
Let Be (i : nat) : R := rat (gb_sq g) (Do (nxt n i)) (Do i).
Let bb (i j k : nat) : R := bern d j (So i) * bern d k (Do i).
Let l := ((d + 1) / 2)%nat.
Let w := wgt n d g So Do.

Definition ncore (i j k : nat) : R :=
  if (k <? 2)%nat then
    if (i =? e)%nat then bb i j k - (if (j <? 2)%nat then (1 - Al i) * bb i j k else 0) - (if (d - 2 <? j)%nat then (1 - Be i) * bb i j k else 0)
    else if (i =? x)%nat then if (j <? 2)%nat then Al i * bb i j k else 0
    else if (i =? p)%nat then if (d - 2 <? j)%nat then Be i * bb i j k else 0
    else 0
  else 0.
Let q := 2 ^ d * (z * h) ^ 2.

Let Hx : (x < n)%nat. Proof. apply nxt_lt; lia. Qed.
Let Hp : (p < n)%nat. Proof. apply prv_lt; lia. Qed.
Let Nx : x <> e. Proof. apply nxt_neq; lia. Qed.
Let Np : p <> e. Proof. apply prv_neq; lia. Qed.
Let Nxp : x <> p. Proof. apply nxt_prv_neq; lia. Qed.

Lemma al01 : forall i, (i < n)%nat -> 0 <= Al i <= 1.
Proof.
  intros i Hi. assert (Q : (prv n i < n)%nat) by (apply prv_lt; lia). assert (C := Hc (prv n i) Q). rewrite nxt_prv in C by exact Hi. apply rat_01; [apply Hh; exact Q|apply Hh; exact Hi|lra].
Qed.
Lemma be01 : forall i, (i < n)%nat -> 0 <= Be i <= 1.
Proof. intros i Hi. assert (C := Hc i Hi). apply rat_01; [apply Hh; apply nxt_lt; lia|apply Hh; exact Hi|lra]. Qed.
Lemma bb01 : forall i j k, (i < n)%nat -> 0 <= bb i j k.
Proof. intros i j k Hi. apply Rmult_le_pos; apply bern_nonneg; [apply Hs|apply Hh]; exact Hi. Qed.
Lemma bb_le1 : forall i j k, (i < n)%nat -> bb i j k <= bern d j (So i).
Proof. intros i j k Hi. unfold bb. assert (A := bern_nonneg d j (So i) (Hs i Hi)). assert (B := bern_nonneg d k (Do i) (Hh i Hi)). assert (C := bern_le_1 d k (Do i) (Hh i Hi)). nra. Qed.
Lemma bb_le2 : forall i j k, (i < n)%nat -> bb i j k <= bern d k (Do i).
Proof. intros i j k Hi. unfold bb. assert (A := bern_nonneg d j (So i) (Hs i Hi)). assert (B := bern_nonneg d k (Do i) (Hh i Hi)). assert (C := bern_le_1 d j (So i) (Hs i Hi)). nra. Qed.
Lemma w_range : forall i j k, (i < n)%nat -> 0 <= w i j k <= bb i j k.
Proof. intros i j k Hi. unfold w, wgt. apply factor_range; [apply al01; exact Hi|apply be01; exact Hi|apply bb01; exact Hi]. Qed.
Lemma q_nonneg : 0 <= q.
Proof. unfold q. apply Rmult_le_pos; [left; apply pow_lt; lra|]. rewrite <- Rsqr_pow2. apply Rle_0_sqr. Qed.
Lemma q_of : forall y, 0 <= y <= z * h -> 2 ^ d * y ^ 2 <= q.
Proof. intros y Hy. unfold q. apply Rmult_le_compat_l; [left; apply pow_lt; lra|]. apply pow_incr. exact Hy. Qed.
Lemma hz : 0 <= h <= z * h.
Proof. assert (X := Hh e He). fold h in X. nra. Qed.

Lemma w_core : forall i j k, (i < n)%nat -> (j <= d)%nat -> (k < l)%nat -> Rabs (w i j k - ncore i j k) <= q.
Proof.
  intros i j k Hi Hj Hk. apply lay_le in Hk. assert (W := w_range i j k Hi). assert (Q := q_nonneg). assert (Z : Rabs (w i j k - 0) <= q <-> w i j k <= q) by (rewrite Rminus_0_r, Rabs_right by lra; reflexivity).
  assert (B := bb_le1 i j k Hi). assert (B' := bb_le2 i j k Hi). assert (HZ := hz).
  unfold ncore. destruct (Nat.ltb_spec k 2) as [K|K].
  - destruct (Nat.eqb_spec i e) as [->|Ne].
    + unfold w, wgt. rewrite factor_top by assumption. fold (bb e j k) (Al e) (Be e). destruct (Nat.ltb_spec j 2) as [J|J]; destruct (Nat.ltb_spec (d - 2) j) as [J'|J']; try lia;
        match goal with |- Rabs ?t <= q => replace t with 0 by ring end; rewrite Rabs_R0; exact Q.
    + destruct (Nat.eqb_spec i x) as [->|Nix]; [|destruct (Nat.eqb_spec i p) as [->|Nip]].
      * destruct (Nat.ltb_spec j 2) as [J|J].
        -- unfold w, wgt. rewrite factor_top by assumption. fold (bb x j k) (Al x) (Be x). destruct (Nat.ltb_spec j 2); [|lia]. match goal with |- Rabs ?t <= q => replace t with 0 by ring end. rewrite Rabs_R0. exact Q.
        -- apply Z. assert (X := bern_low d j (So x) (Hs x Hx) J). assert (Y := q_of (So x) (conj (proj1 (Hs x Hx)) Sx)). lra.
      * destruct (Nat.ltb_spec (d - 2) j) as [J|J].
        -- unfold w, wgt. rewrite factor_top by assumption. fold (bb p j k) (Al p) (Be p). destruct (Nat.ltb_spec j 2); [lia|]. destruct (Nat.ltb_spec (d - 2) j); [|lia]. match goal with |- Rabs ?t <= q => replace t with 0 by ring end. rewrite Rabs_R0. exact Q.
        -- apply Z. assert (X := bern_high d j (So p) (Hs p Hp) ltac:(lia)). assert (Y := q_of (1 - So p) ltac:(assert (Y := Hs p Hp); lra)). lra.
      * apply Z. assert (X := bern_high d k (Do i) (Hh i Hi) ltac:(lia)). assert (Y := q_of (1 - Do i) ltac:(assert (Y := Hh i Hi); assert (F := Far i Hi Ne Nix Nip); lra)). lra.
  - apply Z. destruct (Nat.eq_dec i e) as [->|Ne].
    + assert (X := bern_low d k h (Hh e He) K). assert (Y := q_of h HZ). fold h in B'. lra.
    + destruct (Nat.eq_dec i x) as [->|Nix]; [|destruct (Nat.eq_dec i p) as [->|Nip]].
      * destruct (le_lt_dec k j) as [J|J]; [|unfold w, wgt; rewrite factor_inner by (assumption || lia); exact Q].
        assert (X := bern_low d j (So x) (Hs x Hx) ltac:(lia)). assert (Y := q_of (So x) (conj (proj1 (Hs x Hx)) Sx)). lra.
      * destruct (le_lt_dec j (d - k)) as [J|J]; [|unfold w, wgt; rewrite factor_inner by (assumption || lia); exact Q].
        assert (X := bern_high d j (So p) (Hs p Hp) ltac:(lia)). assert (Y := q_of (1 - So p) ltac:(assert (Y := Hs p Hp); lra)). lra.
      * assert (X := bern_high d k (Do i) (Hh i Hi) ltac:(lia)). assert (Y := q_of (1 - Do i) ltac:(assert (Y := Hh i Hi); assert (F := Far i Hi Ne Nix Nip); lra)). lra.
Qed.

(** *** The sum of the leading terms *)
Variable a : nat -> nat -> nat -> R.
Variable M : R.
Hypothesis Ha : forall i j k, (i < n)%nat -> (j <= d)%nat -> (2 * k + 1 <= d)%nat -> Rabs (a i j k) <= M.
Hypothesis Am : forall i j k, (i < n)%nat -> (2 * j + 1 <= d)%nat -> (2 * k + 1 <= d)%nat -> a (nxt n i) j k = a i (d - k) j.

Let sum3 (f : nat -> nat -> nat -> R) : R := rsum n (fun i => rsum l (fun k => rsum (d + 1) (fun j => a i j k * f i j k))).
Lemma M_nonneg : 0 <= M.
Proof. eapply Rle_trans; [apply Rabs_pos|]. apply (Ha e 0%nat 0%nat He); lia. Qed.
Lemma sum_core : Rabs (sum3 w - sum3 ncore) <= INR n * (INR l * (INR (d + 1) * (M * q))).
Proof.
  apply rsum_apart. intros i Hi. apply rsum_apart. intros k Hk. apply rsum_apart. intros j Hj. rewrite <- Rmult_minus_distr_l, Rabs_mult.
  apply Rmult_le_compat; [apply Rabs_pos|apply Rabs_pos|apply Ha; [exact Hi|lia|apply lay_le; exact Hk]|apply w_core; [exact Hi|lia|exact Hk]].
Qed.
Let l2 : (2 <= l)%nat.
Proof. destruct (le_lt_dec 2 l) as [X|X]; [exact X|]. exfalso. assert (Y : (1 < (d + 1) / 2)%nat) by (apply lay_le; lia). unfold l in X. lia. Qed.

Definition strip : R := rsum 2 (fun k => rsum (d + 1) (fun j => a e j k * bb e j k)).
Definition two2 (f : nat -> nat -> R) : R := rsum 2 (fun k => rsum 2 (fun j => f j k)).
Lemma rsum_two : forall f, rsum 2 f = f 0%nat + f 1%nat.
Proof. intros f. cbn [rsum]. lra. Qed.
Lemma core_value : sum3 ncore = strip
  + two2 (fun j k => a x j k * (Al x * bb x j k - (1 - Be e) * bb e (d - k) j))
  + two2 (fun j k => a e j k * (Be p * bb p (d - k) j - (1 - Al e) * bb e j k)).
Proof.
  assert (In : forall i, rsum l (fun k => rsum (d + 1) (fun j => a i j k * ncore i j k)) = rsum 2 (fun k => rsum (d + 1) (fun j => a i j k * ncore i j k))).
  { intros i. rewrite rsum_two, <- (rsum_low l (fun k => rsum (d + 1) (fun j => a i j k * ncore i j k)) l2). apply rsum_ext. intros k Hk. unfold ncore. destruct (Nat.ltb_spec k 2); [reflexivity|]. rewrite (rsum_ext _ _ (fun _ => 0)) by (intros; ring). rewrite rsum_const. ring. }
  unfold sum3. rewrite (rsum_triple n _ e x p); try assumption; try congruence.
  - rewrite !In. 
    assert (Ee : forall k, (k < 2)%nat -> rsum (d + 1) (fun j => a e j k * ncore e j k) = rsum (d + 1) (fun j => a e j k * bb e j k) - rsum 2 (fun j => a e j k * ((1 - Al e) * bb e j k)) - rsum 2 (fun j => a e (d - j)%nat k * ((1 - Be e) * bb e (d - j)%nat k))).
    { intros k Hk. rewrite (rsum_two (fun j => a e j k * _)), (rsum_two (fun j => a e (d - j)%nat k * _)).
      rewrite <- (rsum_low (d + 1) (fun j => a e j k * ((1 - Al e) * bb e j k))) by lia. rewrite Nat.sub_0_r, (Rplus_comm (a e d k * _)). rewrite <- (rsum_top d (fun j => a e j k * ((1 - Be e) * bb e j k))) by lia. rewrite <- !rsum_minus. apply rsum_ext. intros j Hj.
      unfold ncore. destruct (Nat.ltb_spec k 2); [|lia]. rewrite Nat.eqb_refl. destruct (j <? 2)%nat; destruct (d - 2 <? j)%nat; ring. }
    assert (Ex : forall k, (k < 2)%nat -> rsum (d + 1) (fun j => a x j k * ncore x j k) = rsum 2 (fun j => a x j k * (Al x * bb x j k))).
    { intros k Hk. rewrite (rsum_two (fun j => a x j k * (Al x * _))), <- (rsum_low (d + 1) (fun j => a x j k * (Al x * bb x j k))) by lia. apply rsum_ext. intros j Hj.
      unfold ncore. destruct (Nat.ltb_spec k 2); [|lia]. destruct (Nat.eqb_spec x e); [contradiction|]. rewrite Nat.eqb_refl. destruct (j <? 2)%nat; ring. }
    assert (Ep : forall k, (k < 2)%nat -> rsum (d + 1) (fun j => a p j k * ncore p j k) = rsum 2 (fun j => a p (d - j)%nat k * (Be p * bb p (d - j)%nat k))).
    { intros k Hk. rewrite (rsum_two (fun j => a p (d - j)%nat k * _)). rewrite Nat.sub_0_r, (Rplus_comm (a p d k * _)), <- (rsum_top d (fun j => a p j k * (Be p * bb p j k))) by lia. apply rsum_ext. intros j Hj.
      unfold ncore. destruct (Nat.ltb_spec k 2); [|lia]. destruct (Nat.eqb_spec p e); [contradiction|]. destruct (Nat.eqb_spec p x) as [E|_]; [congruence|]. rewrite Nat.eqb_refl. destruct (d - 2 <? j)%nat; ring. }
    rewrite (rsum_ext 2 (fun k => rsum (d + 1) (fun j => a e j k * ncore e j k)) _ Ee), (rsum_ext 2 (fun k => rsum (d + 1) (fun j => a x j k * ncore x j k)) _ Ex), (rsum_ext 2 (fun k => rsum (d + 1) (fun j => a p j k * ncore p j k)) _ Ep).
    unfold strip, two2. assert (Ax : forall j k, (j < 2)%nat -> (k < 2)%nat -> a x j k = a e (d - k)%nat j) by (intros j k Hj Hk; apply Am; [exact He|lia|lia]).
    assert (Ap : forall j k, (j < 2)%nat -> (k < 2)%nat -> a e j k = a p (d - k)%nat j) by (intros j k Hj Hk; rewrite <- Am by (assumption || lia); unfold p; rewrite nxt_prv by exact He; reflexivity).
    rewrite !rsum_two. rewrite !(Ap 0%nat), !(Ap 1%nat) by lia. rewrite !Ax by lia. ring.
  - intros i Hi N1 N2 N3. rewrite In. rewrite (rsum_ext 2 _ (fun _ => 0)); [rewrite rsum_const; ring|]. intros k Hk. rewrite (rsum_ext _ _ (fun _ => 0)); [rewrite rsum_const; ring|]. intros j Hj.
    unfold ncore. destruct (k <? 2)%nat; [|ring]. destruct (Nat.eqb_spec i e); [contradiction|]. destruct (Nat.eqb_spec i x); [contradiction|]. destruct (Nat.eqb_spec i p); [contradiction|]. ring.
Qed.
(** *** What the neighbours' corner points add is what the side's own lack *)
Let c := h / m * (INR d ^ 2 * (2 * (z * h))).
Lemma two2_bound : forall f b, (forall j k, (j < 2)%nat -> (k < 2)%nat -> Rabs (f j k) <= b) -> Rabs (two2 f) <= 4 * b.
Proof.
  intros f b H. unfold two2. replace (4 * b) with (INR 2 * (INR 2 * b)) by (simpl; ring). eapply Rle_trans; [apply rsum_abs|]. rewrite <- rsum_const. apply rsum_le. intros k Hk. eapply Rle_trans; [apply rsum_abs|]. rewrite <- rsum_const. apply rsum_le. intros j Hj. apply H; assumption.
Qed.
Lemma corner_bound : forall r y t t' u u', 0 <= r <= h / m -> Rabs y <= M -> Rabs (t - u) <= z * h -> Rabs (t' - u') <= z * h ->
  0 <= t <= 1 -> 0 <= t' <= 1 -> 0 <= u <= 1 -> 0 <= u' <= 1 -> forall j k, (j < 2)%nat -> (k < 2)%nat ->
  Rabs (y * (r * (bern d j t * bern d k t') - r * (bern d j u * bern d k u'))) <= M * c.
Proof.
  intros r y t t' u u' Hr Hy E E' Ht Ht' Hu Hu' j k Hj Hk. rewrite <- Rmult_minus_distr_l, !Rabs_mult. assert (L := bern2_lip d j k t t' u u' ltac:(lia) Hj Hk Ht Ht' Hu Hu').
  apply Rmult_le_compat; [apply Rabs_pos|apply Rmult_le_pos; apply Rabs_pos|exact Hy|]. unfold c. rewrite (Rabs_right r) by lra. apply Rmult_le_compat; [lra|apply Rabs_pos|lra|].
  eapply Rle_trans; [exact L|]. apply Rmult_le_compat_l; [apply pow_le; apply pos_INR|lra].
Qed.
Lemma pair_x : Rabs (two2 (fun j k => a x j k * (Al x * bb x j k - (1 - Be e) * bb e (d - k)%nat j))) <= 4 * (M * c).
Proof.
  apply two2_bound. intros j k Hj Hk. assert (HE := Hh e He). fold h in HE. assert (SE := Hs e He). assert (SX := Hs x Hx). assert (DX := Hh x Hx).
  unfold bb. replace (bern d (d - k) (So e)) with (bern d k (1 - So e)) by (apply bern_sym; lia).
  assert (R1 : 1 - Be e = Al x) by (unfold Be, Al, x; rewrite prv_nxt by exact He; apply rat_compl; fold x; fold h; lra). rewrite R1. rewrite (Rmult_comm (bern d k (1 - So e))).
  apply corner_bound; try assumption; try lra.
  - unfold Al, x. rewrite prv_nxt by exact He. apply rat_small; [fold h; lra|split; assumption].
  - apply Ha; [exact Hx|lia|lia].
  - fold h. apply Rabs_le. assert (Z := hz). lra.
Qed.
Lemma pair_p : Rabs (two2 (fun j k => a e j k * (Be p * bb p (d - k)%nat j - (1 - Al e) * bb e j k))) <= 4 * (M * c).
Proof.
  apply two2_bound. intros j k Hj Hk. assert (HE := Hh e He). fold h in HE. assert (SE := Hs e He). assert (SX := Hs p Hp). assert (DX := Hh p Hp).
  unfold bb. replace (bern d (d - k) (So p)) with (bern d k (1 - So p)) by (apply bern_sym; lia).
  assert (R1 : 1 - Al e = Be p) by (unfold Be, Al, p; rewrite nxt_prv by exact He; apply rat_compl; fold p; fold h; lra). rewrite R1. rewrite (Rmult_comm (bern d k (1 - So p))).
  apply corner_bound; try assumption; try lra.
  - unfold Be, p. rewrite nxt_prv by exact He. apply rat_small; [fold h; lra|split; assumption].
  - apply Ha; [exact He|lia|lia].
  - fold h. apply Rabs_le. assert (Z := hz). lra.
Qed.
Lemma near_sum : Rabs (sum3 w - strip) <= M * (INR n * INR l * INR (d + 1) * 2 ^ d * z ^ 2 + 16 * INR d ^ 2 * z / m) * h ^ 2.
Proof.
  assert (A := sum_core). assert (B := pair_x). assert (C := pair_p). assert (V := core_value).
  set (t1 := two2 (fun j k => a x j k * _)) in *. set (t2 := two2 (fun j k => a e j k * _)) in *. set (s3 := sum3 w) in *. clearbody t1 t2. rewrite V in A.
  replace (s3 - strip) with ((s3 - (strip + t1 + t2)) + t1 + t2) by ring. eapply Rle_trans; [apply Rabs_triang|]. eapply Rle_trans; [apply Rplus_le_compat_r; apply Rabs_triang|].
  match goal with |- _ <= ?r => replace r with (INR n * (INR l * (INR (d + 1) * (M * q))) + 4 * (M * c) + 4 * (M * c)) end; [lra|]. unfold q, c. field. lra.
Qed.
End Near.
