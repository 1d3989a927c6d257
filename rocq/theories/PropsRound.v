(** Properties of the arithmetic kernels in floating point: C79 and C80.

    [rounding rd u eta] (RoundSpec.v) says that [rd] is a rounding function
    with unit roundoff [u] and underflow threshold [eta]; C79_binary64 shows
    that rounding to the nearest double is one.  A number is a double when
    [rd x = x]. *)

From Verif Require Import Base UtilModel UtilSpec UtilProofs DomainModel DomainPolygons RibbonModel SurfaceModel SurfaceSpec BlendProofs
  SurfaceProofs SurfacePatches BlendProps MeshSqrt RoundModel RoundSpec RoundProofs RoundProofs2 RoundProofs3 RoundProofs4.
From Coq Require Import ZArith FunctionalExtensionality.
Open Scope R_scope.

(** ** C79: Bernstein values and Bezier curves *)

(** Double precision, to nearest with ties to even and gradual underflow. *)
Theorem C79_binary64 : rounding rnd64 (/ 2 ^ 53) (/ 2 ^ 1075).
Proof. exact rnd64_rounding. Qed.
Print Assumptions C79_binary64.

(** Without rounding the functions are those of the exact model. *)
Theorem C79_exact : forall n i t cp, bernsteinListF (fun x => x) n t = bernsteinList n t /\
  bernsteinSingleF (fun x => x) i n t = bernsteinSingle i n t /\ bcEvalF (fun x => x) cp t = bcEval cp t.
Proof.
  assert (L : forall n t, bernsteinListF (fun x => x) n t = bernsteinList n t).
  { assert (I : forall a b c l, bernsteinInnerF (fun x => x) a b c l = bernsteinInner a b c l).
    { intros a b c l; revert c; induction l as [|x l IH]; intros c; simpl; [reflexivity|rewrite IH; reflexivity]. }
    induction n as [|n IH]; intros t; [reflexivity|]. simpl. rewrite I, IH. reflexivity. }
  intros n i t cp. split; [apply L|]. split; [reflexivity|].
  unfold bcEvalF, bcEval. destruct (bcDegree cp) as [m|]; [|reflexivity]. cbn [bind]. rewrite L.
  generalize (m + 1)%nat. intros k; induction k as [|k IH]; [reflexivity|]. simpl. rewrite IH. reflexivity.
Qed.
Print Assumptions C79_exact.

(** Every computed Bernstein value is a nonnegative double whose relative
    error is that of [3 n] roundings, apart from underflow. *)
Theorem C79_bernstein : forall rd u eta n t k, rounding rd u eta -> rd t = t -> 0 <= t <= 1 -> INR (3 * n) * u < 1 -> (k <= n)%nat ->
  length (bernsteinListF rd n t) = (n + 1)%nat /\
  exists b, nth_error (bernsteinListF rd n t) k = Some b /\ rd b = b /\ 0 <= b /\
    let B := INR (choose n k) * t ^ k * (1 - t) ^ (n - k) in
    Rabs (b - B) <= gam u (3 * n) * B + 2 * INR n * eta * (1 + gam u (3 * n)).
Proof.
  intros rd u eta n t k HR Rt Ht Hu Hk. pose proof (ro_u _ _ _ HR) as U. pose proof (ro_eta _ _ _ HR) as ETA.
  split; [rewrite bernsteinListF_length; lia|].
  exists (get (bernsteinListF rd n t) k). split; [apply get_nth; rewrite bernsteinListF_length; lia|].
  split; [apply (bernF_repr rd u eta HR)|]. split; [apply (bernF_nonneg rd u eta HR); exact Ht|].
  cbn zeta. change (INR (choose n k) * t ^ k * (1 - t) ^ (n - k)) with (bern n k t).
  pose proof (bernF_bounds rd u eta HR t Rt Ht n k) as [A B].
  pose proof (one_plus u (3 * n) ltac:(lra) Hu) as P. pose proof (one_minus u (3 * n) ltac:(lra) Hu) as Q.
  pose proof (bern_nonneg n k t Ht) as N.
  assert (D : Dn u eta n <= 2 * INR n * eta * (1 + gam u (3 * n))).
  { unfold Dn. apply Rmult_le_compat_l; [|exact P]. pose proof (pos_INR n). apply Rmult_le_pos; lra. }
  apply Rabs_le. split; nra.
Qed.
Print Assumptions C79_bernstein.

(** The two evaluators return the same double, bit for bit. *)
Theorem C79_bernstein_same : forall rd u eta i n t, rounding rd u eta ->
  bernsteinSingleF rd i n t = nth_error (bernsteinListF rd n t) i.
Proof.
  intros rd u eta i n t HR. destruct (Nat.le_gt_cases i n) as [L|L]; [apply (bernsteinSingleF_spec rd u eta HR); exact L|].
  unfold bernsteinSingleF. destruct (Nat.ltb_spec n i); [|lia]. symmetry. apply nth_error_None. rewrite bernsteinListF_length. lia.
Qed.
Print Assumptions C79_bernstein_same.

(** At the ends of the interval there is no rounding error at all: a Bezier
    curve starts in its first and ends in its last control point. *)
Theorem C79_bezier_ends : forall rd u eta p cp, rounding rd u eta ->
  rd (vx p) = vx p /\ rd (vy p) = vy p /\ rd (vz p) = vz p ->
  bcEvalF rd (p :: cp) 0 = Some p /\ bcEvalF rd (cp ++ [p]) 1 = Some p.
Proof.
  intros rd u eta p cp HR Hp. split; [apply (bcEvalF_at0 rd u eta HR)|apply (bcEvalF_at1 rd u eta HR)]; exact Hp.
Qed.
Print Assumptions C79_bezier_ends.

(** [affineCombine]: exact for the parameters 0 and 1, three roundings off in
    between. *)
Theorem C79_affine : forall rd u eta p q, rounding rd u eta -> repr3 rd p -> repr3 rd q ->
  affineCombineF rd p 0 q = p /\ affineCombineF rd p 1 q = q /\
  forall x M, rd x = x -> 0 <= x <= 1 -> within M p -> within M q -> INR 3 * u < 1 ->
    within (gam u 3 * M + (1 + u) * (2 * eta)) (affineCombineF rd p x q -v ((p *v (1 - x)) +v (q *v x))).
Proof.
  intros rd u eta p q HR Hp Hq. split; [|split].
  - unfold affineCombineF. rewrite Rminus_0_r, (ro_1 _ _ _ HR).
    rewrite (vscaleF_1 rd p Hp), (vscaleF_0 rd u eta HR). apply (vaddF_0r rd p Hp).
  - unfold affineCombineF. replace (1 - 1) with 0 by ring. rewrite (ro_0 _ _ _ HR).
    rewrite (vscaleF_1 rd q Hq), (vscaleF_0 rd u eta HR). apply (vaddF_0l rd q Hq).
  - intros x M Rx Hx (P1 & P2 & P3) (Q1 & Q2 & Q3) H3. pose proof (ro_u _ _ _ HR) as U.
    assert (G : (1 + u) ^ 3 - 1 <= gam u 3).
    { pose proof (one_plus u 3 ltac:(lra) H3). lra. }
    assert (M0 : 0 <= M) by (eapply Rle_trans; [apply Rabs_pos|exact P1]).
    assert (GM : ((1 + u) ^ 3 - 1) * M <= gam u 3 * M) by (apply Rmult_le_compat_r; assumption).
    unfold within. cbn [vx vy vz vsub vadd vscale affineCombineF vaddF vscaleF].
    repeat split; (eapply Rle_trans; [apply (affine_coord rd u eta HR _ _ x M Rx Hx); assumption|lra]).
Qed.
Print Assumptions C79_affine.

(** A computed point of a Bezier curve with coordinates up to [M]. *)
Theorem C79_bezier : forall rd u eta cp n t M, rounding rd u eta -> length cp = (n + 1)%nat -> rd t = t -> 0 <= t <= 1 ->
  INR (4 * n + 2) * u < 1 -> (forall p, In p cp -> within M p) ->
  exists p, bcEvalF rd cp t = Some p /\
    let g := gam u (4 * n + 2) in
    within (g * M + (1 + g) * (2 * INR n * INR (n + 1) * eta * M + INR (n + 1) * eta))
      (p -v vsum (n + 1) (fun k => nth k cp vzero *v (INR (choose n k) * t ^ k * (1 - t) ^ (n - k)))).
Proof.
  intros rd u eta cp n t M HR HL Rt Ht Hu HM. pose proof (ro_u _ _ _ HR) as U. pose proof (ro_eta _ _ _ HR) as ETA.
  assert (MC : forall k, (k <= n)%nat -> within M (nth k cp vzero)) by (intros k Hk; apply HM, nth_In; lia).
  assert (MP : 0 <= M) by (destruct (MC 0%nat ltac:(lia)) as [A _]; eapply Rle_trans; [apply Rabs_pos|exact A]).
  set (b := get (bernsteinListF rd n t)).
  exists (mkV3 (rsumF rd (n + 1) (fun k => rd (vx (nth k cp vzero) * b k))) (rsumF rd (n + 1) (fun k => rd (vy (nth k cp vzero) * b k)))
     (rsumF rd (n + 1) (fun k => rd (vz (nth k cp vzero) * b k)))).
  split.
  - unfold bcEvalF, bcDegree. destruct cp as [|c0 cr] eqn:E; [simpl in HL; lia|]. rewrite <- E in *. clear E c0 cr. cbn [bind].
    rewrite HL. replace (n + 1 - 1)%nat with n by lia.
    rewrite (osumF_coords rd (n + 1) _ (fun k => vscaleF rd (nth k cp vzero) (b k))); [reflexivity|].
    intros i Hi. rewrite (nth_error_nth' _ vzero) by lia. cbn [bind].
    rewrite get_nth by (rewrite bernsteinListF_length; lia). reflexivity.
  - cbn zeta. set (g := gam u (4 * n + 2)).
    assert (VS : vsum (n + 1) (fun k => nth k cp vzero *v bern n k t) =
      mkV3 (rsum (n + 1) (fun k => vx (nth k cp vzero) * bern n k t)) (rsum (n + 1) (fun k => vy (nth k cp vzero) * bern n k t))
        (rsum (n + 1) (fun k => vz (nth k cp vzero) * bern n k t))).
    { generalize (n + 1)%nat. intros m; induction m as [|m IH]; [reflexivity|]. simpl. rewrite IH. reflexivity. }
    change (fun k => nth k cp vzero *v (INR (choose n k) * t ^ k * (1 - t) ^ (n - k))) with (fun k => nth k cp vzero *v bern n k t).
    rewrite VS. unfold within. cbn [vsub vx vy vz].
    assert (BD : ((1 + u) ^ (4 * n + 2) * (1 + 2 * INR n * INR (n + 1) * eta) - 1) * M + (1 + u) ^ (n + 1) * (INR (n + 1) * eta)
      <= g * M + (1 + g) * (2 * INR n * INR (n + 1) * eta * M + INR (n + 1) * eta)).
    { pose proof (one_plus u (4 * n + 2) ltac:(lra) Hu) as P. fold g in P.
      assert (P' : (1 + u) ^ (n + 1) <= 1 + g) by (eapply Rle_trans; [apply (Rle_pow (1 + u) (n + 1) (4 * n + 2)); [lra|lia]|exact P]).
      assert (H0 : 0 <= 2 * INR n * INR (n + 1) * eta).
      { apply Rmult_le_pos; [|exact ETA]. apply Rmult_le_pos; [|apply pos_INR]. pose proof (pos_INR n); lra. }
      assert (H1 : 0 <= INR (n + 1) * eta) by (apply Rmult_le_pos; [apply pos_INR|exact ETA]).
      set (h := 2 * INR n * INR (n + 1) * eta) in *. set (k := INR (n + 1) * eta) in *.
      assert ((1 + u) ^ (4 * n + 2) * ((1 + h) * M) <= (1 + g) * ((1 + h) * M)) by (apply Rmult_le_compat_r; [nra|exact P]).
      assert ((1 + u) ^ (n + 1) * k <= (1 + g) * k) by (apply Rmult_le_compat_r; [exact H1|exact P']). nra. }
    split; [|split]; (eapply Rle_trans; [apply (bezier_coord rd u eta HR n t M); try assumption; intros k Hk; apply (MC k Hk)|exact BD]).
Qed.
Print Assumptions C79_bezier.

(** In double precision, for every degree up to [2^47]: about [5 n] units of
    the last place of the largest coordinate. *)
Theorem C79_bezier_double : forall cp n t M, length cp = (n + 1)%nat -> rnd64 t = t -> 0 <= t <= 1 -> INR n <= 2 ^ 47 ->
  (forall p, In p cp -> within M p) ->
  exists p, bcEvalF rnd64 cp t = Some p /\
    within ((5 * INR n + 4) / 2 ^ 53 * M + / 2 ^ 1000)
      (p -v vsum (n + 1) (fun k => nth k cp vzero *v (INR (choose n k) * t ^ k * (1 - t) ^ (n - k)))).
Proof.
  intros cp n t M HL Rt Ht Hn HM.
  assert (E : exists e, / 2 ^ 1075 = e /\ 0 < e /\ e * 2 ^ 150 <= / 2 ^ 53 /\ e * 2 ^ 75 <= / 2 ^ 1000).
  { exists (/ 2 ^ 1075). split; [reflexivity|]. split; [apply Rinv_0_lt_compat, pow_lt; lra|].
    assert (X : forall a b c, (a <= b + c)%nat -> / 2 ^ (b + c) * 2 ^ b <= / 2 ^ c).
    { intros a b c _. rewrite pow_add, Rinv_mult. right. field. split; apply pow_nonzero; lra. }
    split; [|exact (X 0%nat 75%nat 1000%nat ltac:(lia))].
    apply Rle_trans with (/ 2 ^ (150 + 925) * 2 ^ 150); [right; reflexivity|].
    eapply Rle_trans; [apply (X 0%nat); lia|]. apply Rinv_le_contravar; [apply pow_lt; lra|]. apply Rle_pow; [lra|lia]. }
  destruct E as (e & E & Ep & E1 & E2).
  assert (HR := rnd64_rounding). rewrite E in HR.
  assert (IN : INR (4 * n + 2) = 4 * INR n + 2) by (rewrite plus_INR, mult_INR; simpl; ring).
  assert (IN1 : INR (n + 1) = INR n + 1) by (rewrite plus_INR; simpl; ring).
  pose proof (pos_INR n) as N0.
  assert (MU : (4 * INR n + 2) * / 2 ^ 53 <= 1 / 8).
  { apply Rmult_le_reg_r with (2 ^ 53); [apply pow_lt; lra|]. rewrite Rmult_assoc, Rinv_l by (apply pow_nonzero; lra).
    replace (1 / 8 * 2 ^ 53) with (8 * 2 ^ 47) by (simpl; field). assert (1 <= 2 ^ 47) by (apply pow_R1_Rle; lra). lra. }
  destruct (C79_bezier rnd64 _ _ cp n t M HR HL Rt Ht) as (p & Ep' & W); [rewrite IN; lra|exact HM|].
  exists p. split; [exact Ep'|]. cbn zeta in W.
  assert (MP : 0 <= M).
  { destruct cp as [|c cr]; [simpl in HL; lia|]. destruct (HM c (or_introl eq_refl)) as [A _]. eapply Rle_trans; [apply Rabs_pos|exact A]. }
  set (u := / 2 ^ 53) in *. assert (UP : 0 < u) by (apply Rinv_0_lt_compat, pow_lt; lra).
  assert (G : gam u (4 * n + 2) <= (5 * INR n + 3) * u /\ gam u (4 * n + 2) <= 1).
  { unfold gam. rewrite IN. set (m := 4 * INR n + 2) in *. assert (0 < m) by (unfold m; lra).
    assert (0 < 1 - m * u) by lra.
    split.
    - apply Rmult_le_reg_r with (1 - m * u); [assumption|]. replace (m * u / (1 - m * u) * (1 - m * u)) with (m * u) by (field; lra).
      assert (m * 8 / 7 <= 5 * INR n + 3) by (unfold m; lra).
      assert (MUP : 0 < m * u) by (apply Rmult_lt_0_compat; assumption).
      assert (m * u * 1 <= m * u * (8 / 7 * (1 - m * u))) by (apply Rmult_le_compat_l; lra).
      assert (m * 8 / 7 * u * (1 - m * u) <= (5 * INR n + 3) * u * (1 - m * u)); [|nra].
      apply Rmult_le_compat_r; [lra|]. apply Rmult_le_compat_r; lra.
    - apply Rmult_le_reg_r with (1 - m * u); [assumption|]. replace (m * u / (1 - m * u) * (1 - m * u)) with (m * u) by (field; lra). lra. }
  destruct G as [G1 G2].
  assert (G0 : 0 <= gam u (4 * n + 2)) by (apply gam_nonneg; [lra|rewrite IN; lra]).
  set (g := gam u (4 * n + 2)) in *. rewrite IN1 in W.
  assert (BIG : 1 <= 2 ^ 47) by (apply pow_R1_Rle; lra).
  assert (H1 : 2 * (2 * INR n * (INR n + 1) * e) <= u).
  { eapply Rle_trans; [|exact E1]. replace (2 * (2 * INR n * (INR n + 1) * e)) with (e * (4 * INR n * (INR n + 1))) by ring.
    apply Rmult_le_compat_l; [lra|]. apply Rle_trans with (4 * 2 ^ 47 * (2 * 2 ^ 47)).
    - assert (INR n * (INR n + 1) <= 2 ^ 47 * (2 * 2 ^ 47)) by (apply Rmult_le_compat; lra). lra.
    - replace (4 * 2 ^ 47 * (2 * 2 ^ 47)) with (2 ^ 97) by (simpl; ring). apply Rle_pow; [lra|lia]. }
  assert (H2 : 2 * ((INR n + 1) * e) <= / 2 ^ 1000).
  { eapply Rle_trans; [|exact E2]. replace (2 * ((INR n + 1) * e)) with (e * (2 * (INR n + 1))) by ring.
    apply Rmult_le_compat_l; [lra|]. apply Rle_trans with (2 * (2 * 2 ^ 47)); [lra|].
    replace (2 * (2 * 2 ^ 47)) with (2 ^ 49) by (simpl; ring). apply Rle_pow; [lra|lia]. }
  assert (BD : g * M + (1 + g) * (2 * INR n * (INR n + 1) * e * M + (INR n + 1) * e) <= (5 * INR n + 4) / 2 ^ 53 * M + / 2 ^ 1000).
  { change ((5 * INR n + 4) / 2 ^ 53) with ((5 * INR n + 4) * u).
    assert (K1 : 0 <= 2 * INR n * (INR n + 1) * e) by (apply Rmult_le_pos; [nra|lra]).
    assert (K2 : 0 <= (INR n + 1) * e) by (apply Rmult_le_pos; lra).
    set (h := 2 * INR n * (INR n + 1) * e) in *. set (k := (INR n + 1) * e) in *. generalize dependent (/ 2 ^ 1000). intros z E2' H2.
    assert ((1 + g) * (h * M) <= u * M).
    { rewrite <- Rmult_assoc. apply Rmult_le_compat_r; [exact MP|]. apply Rle_trans with (2 * h); [apply Rmult_le_compat_r; lra|exact H1]. }
    assert ((1 + g) * k <= 2 * k) by (apply Rmult_le_compat_r; lra).
    assert (g * M <= (5 * INR n + 3) * u * M) by (apply Rmult_le_compat_r; assumption). lra. }
  destruct W as (W1 & W2 & W3). split; [|split]; (eapply Rle_trans; [eassumption|exact BD]).
Qed.
Print Assumptions C79_bezier_double.

(** Quarters and halves are doubles. *)
Lemma double_quarter : forall z : Z, (Z.abs z < 2 ^ 53)%Z -> rnd64 (IZR z / 4) = IZR z / 4.
Proof.
  intros z H. apply Flocq.Core.Generic_fmt.round_generic; [apply Flocq.Core.Generic_fmt.valid_rnd_N|].
  apply Flocq.Core.FLT.generic_format_FLT. exists (Flocq.Core.Defs.Float Flocq.Core.Zaux.radix2 z (-2)).
  - unfold Flocq.Core.Defs.F2R. cbn [Flocq.Core.Defs.Fnum Flocq.Core.Defs.Fexp]. unfold Rdiv. f_equal.
  - exact H.
  - simpl; lia.
Qed.

Example C79_example : bernsteinListF rnd64 2 (1/2) = [1/4; 1/2; 1/4] /\
  bcEvalF rnd64 [mkV3 0 0 0; mkV3 1 3 (-2); mkV3 5 1 4] (1/2) = Some (mkV3 (7/4) (7/4) 0).
Proof.
  assert (Q : forall x z, x = IZR z / 4 -> (Z.abs z < 2 ^ 53)%Z -> rnd64 x = x) by (intros x z -> H; apply double_quarter; exact H).
  assert (B : bernsteinListF rnd64 2 (1/2) = [1/4; 1/2; 1/4]).
  { cbn [bernsteinListF bernsteinInnerF].
    replace (1 - 1/2) with (1/2) by field. rewrite (Q (1/2) 2%Z) by (lra || reflexivity).
    rewrite !Rmult_1_l, !Rplus_0_l, !(Q (1/2) 2%Z) by (lra || reflexivity).
    replace (1/2 * (1/2)) with (1/4) by field. rewrite !(Q (1/4) 1%Z) by (lra || reflexivity).
    replace (1/4 + 1/4) with (1/2) by field. rewrite !(Q (1/2) 2%Z) by (lra || reflexivity). reflexivity. }
  split; [exact B|].
  unfold bcEvalF. cbn [bcDegree length Nat.sub bind]. rewrite B. cbn [Nat.add osumF nth_error bind]. unfold vaddF, vscaleF. cbn [vx vy vz vzero].
  repeat match goal with |- context [rnd64 (?a * ?b)] =>
    first [ replace (a * b) with (0 / 4) by field; rewrite (Q (0/4) 0%Z) by (lra || reflexivity)
          | replace (a * b) with (2 / 4) by field; rewrite (Q (2/4) 2%Z) by (lra || reflexivity)
          | replace (a * b) with (6 / 4) by field; rewrite (Q (6/4) 6%Z) by (lra || reflexivity)
          | replace (a * b) with (-4 / 4) by field; rewrite (Q (-4/4) (-4)%Z) by (lra || reflexivity)
          | replace (a * b) with (5 / 4) by field; rewrite (Q (5/4) 5%Z) by (lra || reflexivity)
          | replace (a * b) with (1 / 4) by field; rewrite (Q (1/4) 1%Z) by (lra || reflexivity)
          | replace (a * b) with (4 / 4) by field; rewrite (Q (4/4) 4%Z) by (lra || reflexivity) ] end.
  rewrite !Rplus_0_l, ?(Q (0/4) 0%Z), ?(Q (2/4) 2%Z), ?(Q (6/4) 6%Z), ?(Q (-4/4) (-4)%Z) by (lra || reflexivity).
  replace (0 / 4 + 0 / 4) with (0/4) by field. rewrite ?(Q (0/4) 0%Z) by (lra || reflexivity).
  replace (0 / 4 + 2 / 4) with (2/4) by field. replace (0 / 4 + 6 / 4) with (6/4) by field. replace (0 / 4 + -4 / 4) with (-4/4) by field.
  rewrite ?(Q (2/4) 2%Z), ?(Q (6/4) 6%Z), ?(Q (-4/4) (-4)%Z) by (lra || reflexivity).
  replace (2 / 4 + 5 / 4) with (7/4) by field. replace (6 / 4 + 1 / 4) with (7/4) by field. replace (-4 / 4 + 4 / 4) with (0/4) by field.
  rewrite (Q (7/4) 7%Z), (Q (0/4) 0%Z) by (lra || reflexivity). replace (0 / 4) with 0 by field. reflexivity.
Qed.

(** ** C80: weights, ribbon parameters and the side based patch *)

(** Nonnegative doubles divided by their computed sum: each quotient is a
    double in [0, 1], and they add up to 1 up to [n + 1] roundings. *)
Theorem C80_normalised : forall rd u eta l, rounding rd u eta -> (forall x, In x l -> 0 <= x /\ rd x = x) ->
  (exists x, In x l /\ 0 < x) -> INR (length l + 1) * u < 1 ->
  exists w, normalizeF rd l = Some w /\ length w = length l /\
    (forall x, In x w -> 0 <= x <= 1 /\ rd x = x) /\
    Rabs (fold_right Rplus 0 w - 1) <= gam u (length l + 1) + INR (length l) * eta /\
    forall i a x, nth_error l i = Some a -> nth_error w i = Some x ->
      Rabs (x - a / fold_right Rplus 0 l) <= gam u (length l + 1) * (a / fold_right Rplus 0 l) + eta.
Proof.
  intros rd u eta l HR H (x0 & I0 & P0) Hn.
  assert (F : forall k, fold_right Rplus 0 k = rsum (length k) (get k)).
  { intros k. apply sums_weights. unfold sumsTo. reflexivity. }
  assert (SP : 0 < rsum (length l) (get l)).
  { apply (In_nth _ _ 0) in I0. destruct I0 as (j & Hj & E). rewrite (rsum_split1 _ _ j Hj).
    assert (0 <= rsum (length l) (fun k => if Nat.eqb k j then 0 else get l k)); [|unfold get at 1; rewrite E; lra].
    apply rsum_nonneg. intros k Hk. destruct (Nat.eqb k j); [lra|]. apply H. apply nth_In. exact Hk. }
  destruct (normalizeF_spec rd u eta HR l H SP Hn) as (w & E & L & Hw). exists w. split; [exact E|]. split; [exact L|].
  split; [|split].
  - intros x I. apply (In_nth _ _ 0) in I. destruct I as (j & Hj & <-). rewrite L in Hj. change (nth j w 0) with (get w j).
    destruct (Hw j Hj) as (V & R01 & _). split; [exact R01|]. rewrite V. apply (ro_idem _ _ _ HR).
  - rewrite F, L. apply (sum_close eta (length l) (get w) (fun i => get l i / rsum (length l) (get l))).
    + rewrite rsum_div. field. lra.
    + intros i Hi. apply Hw. exact Hi.
  - intros i a x Ea Ex. rewrite F.
    assert (Hi : (i < length l)%nat) by (apply nth_error_Some; congruence).
    destruct (Hw i Hi) as (_ & _ & W). unfold get in W at 1 2 4.
    rewrite (nth_error_nth _ _ 0 Ea), (nth_error_nth _ _ 0 Ex) in W. exact W.
Qed.
Print Assumptions C80_normalised.

(** Barycentric ribbon parameters: [s] is a double in [0, 1], exactly 0 and 1
    at the ends; [d] is off by at most two roundings, and exactly 0 where the
    two coordinates of the side add up to 1. *)
Theorem C80_ribbon_parameters : forall rd u eta eps lp li, rounding rd u eta -> 0 < eps ->
  rd lp = lp -> rd li = li -> 0 <= lp <= 1 -> 0 <= li <= 1 -> eps <= rd (lp + li) ->
  exists s d, baryRibbonF rd eps lp li = Some (mkV2 s d) /\ 0 <= s <= 1 /\ (li = 0 -> s = 0) /\ (lp = 0 -> s = 1) /\
    -1 <= d <= 1 /\ Rabs (d - (1 - li - lp)) <= 2 * u /\ (lp + li = 1 -> d = 0).
Proof. intros rd u eta eps lp li HR. apply (baryRibbonF_spec rd u eta HR). Qed.
Print Assumptions C80_ribbon_parameters.

(** On a side, where all the other raw coordinates are zero, the computed
    distance is within [gam u (n + 1) + n eta + 2 u] of zero; if epsilon is
    larger than that the side counts as near, as it should. *)
Theorem C80_side_recognised : forall rd u eta eps l i, rounding rd u eta -> (3 <= length l)%nat -> (i < length l)%nat ->
  (forall x, In x l -> 0 <= x /\ rd x = x) -> (exists x, In x l /\ 0 < x) ->
  (forall j, (j < length l)%nat -> j <> i -> j <> prv (length l) i -> nth_error l j = Some 0) ->
  INR (length l + 1) * u < 1 ->
  gam u (length l + 1) + INR (length l) * eta + 2 * u < eps -> eps < (1 - u) * (1 - (gam u (length l + 1) + INR (length l) * eta)) ->
  exists w lp li s d, normalizeF rd l = Some w /\ nth_error w (prv (length l) i) = Some lp /\ nth_error w i = Some li /\
    baryRibbonF rd eps lp li = Some (mkV2 s d) /\ 0 <= s <= 1 /\
    Rabs d <= gam u (length l + 1) + INR (length l) * eta + 2 * u /\ d < eps.
Proof.
  intros rd u eta eps l i HR H3 Hi H HX HO Hn He1 He2.
  destruct (C80_normalised rd u eta l HR H HX Hn) as (w & E & L & HW & HS & _).
  pose proof (ro_u _ _ _ HR) as U. set (n := length l) in *.
  assert (Pi : (prv n i < n)%nat) by (apply prv_lt; lia).
  assert (Ne : prv n i <> i) by (destruct (prv_spec n i Hi) as [[? ?]|[? ?]]; lia).
  assert (SP : 0 < gam u (n + 1) + INR n * eta + 2 * u).
  { assert (0 <= gam u (n + 1)) by (apply gam_nonneg; [lra|exact Hn]).
    assert (0 <= INR n * eta) by (apply Rmult_le_pos; [apply pos_INR|apply (ro_eta _ _ _ HR)]). lra. }
  exists w, (get w (prv n i)), (get w i).
  assert (Z : forall j, (j < n)%nat -> j <> i -> j <> prv n i -> get w j = 0).
  { intros j Hj N1 N2. assert (X := mapM_nth _ _ _ j 0 E (HO j Hj N1 N2)).
    unfold get. apply nth_error_nth. rewrite X. unfold fdivF, fdiv. destruct (Req_EM_T _ _) as [D|D].
    - exfalso. unfold fdivF, fdiv in X. destruct (Req_EM_T (accumulateF rd l) 0) as [_|C]; [|contradiction].
      cbn [bind] in X. apply nth_error_None in X. lia.
    - cbn [bind]. unfold Rdiv. rewrite Rmult_0_l, (ro_0 _ _ _ HR). reflexivity. }
  assert (SW : fold_right Rplus 0 w = get w (prv n i) + get w i).
  { assert (F : fold_right Rplus 0 w = rsum (length w) (get w)) by (apply sums_weights; unfold sumsTo; reflexivity).
    rewrite F, L. rewrite (rsum_double n _ (prv n i) i Pi Hi Ne); [reflexivity|]. intros j Hj N1 N2. apply Z; congruence. }
  rewrite SW in HS. apply rabs_both in HS.
  assert (Wg : forall j, (j < n)%nat -> 0 <= get w j <= 1 /\ rd (get w j) = get w j).
  { intros j Hj. apply HW. apply nth_In. lia. }
  destruct (Wg i Hi) as [Wi Ri]. destruct (Wg _ Pi) as [Wp Rp].
  set (lp := get w (prv n i)) in *. set (li := get w i) in *.
  assert (D : eps <= rd (lp + li)).
  { pose proof (rd_bounds_add rd u eta HR lp li Rp Ri ltac:(lra)) as [B _].
    assert ((1 - u) * (1 - (gam u (n + 1) + INR n * eta)) <= (1 - u) * (lp + li)) by (apply Rmult_le_compat_l; lra). lra. }
  destruct (C80_ribbon_parameters rd u eta eps lp li HR ltac:(lra) Rp Ri Wp Wi D) as (s & d & Eb & Hs & _ & _ & _ & Hd & _).
  exists s, d. split; [exact E|]. split; [apply get_nth; lia|]. split; [apply get_nth; lia|]. split; [exact Eb|]. split; [exact Hs|].
  apply rabs_both in Hd. split; [apply Rabs_le|]; lra.
Qed.
Print Assumptions C80_side_recognised.

(** The singular side blends: [pow] may have any relative error [rho < 1].
    Each weight is a number in [0, 1] close to the exact one. *)
Theorem C80_side_blends : forall rd pw u eta rho eps sds, rounding rd u eta -> 0 < eps -> 0 <= rho < 1 -> sds <> [] ->
  INR (length sds + 1) * u < 1 ->
  (forall sd, In sd sds -> eps <= py sd -> rd (pw (py sd)) = pw (py sd) /\ Rabs (pw (py sd) - 1 / py sd ^ 2) <= rho * (1 / py sd ^ 2)) ->
  let G := (1 + rho) / (1 - rho) * (1 + gam u (length sds + 1)) - 1 in
  exists b w, blendSideSingular eps sds = Some b /\ blendSideSingularF rd pw eps sds = Some w /\ length w = length b /\
    (forall i x y, nth_error b i = Some x -> nth_error w i = Some y -> 0 <= y <= 1 /\ Rabs (y - x) <= G * x + eta) /\
    Rabs (fold_right Rplus 0 w - 1) <= G + INR (length sds) * eta.
Proof.
  intros rd pw u eta rho eps sds HR He Hr Hn Hnu Hpw G.
  assert (Hl : (0 < length sds)%nat) by (destruct sds; [congruence|simpl; lia]).
  destruct (blendSideF rd u eta HR pw rho eps sds He Hr Hl Hnu Hpw) as (b & w & Eb & Ew & Lb & Lw & Sb & Hw).
  exists b, w. split; [exact Eb|]. split; [exact Ew|]. split; [lia|]. split.
  - intros i x y Ex Ey. assert (Hi : (i < length sds)%nat) by (rewrite <- Lb; apply nth_error_Some; congruence).
    destruct (Hw i Hi) as (R01 & _ & W). unfold get in R01, W.
    rewrite (nth_error_nth _ _ 0 Ex), (nth_error_nth _ _ 0 Ey) in *. split; [exact R01|exact W].
  - assert (F : fold_right Rplus 0 w = rsum (length w) (get w)) by (apply sums_weights; unfold sumsTo; reflexivity).
    rewrite F, Lw. apply (sum_close eta (length sds) (get w) (get b) G Sb). intros i Hi. apply Hw. exact Hi.
Qed.
Print Assumptions C80_side_blends.

(** The side based patch: the computed point against the exact combination
    of the same ribbon points. *)
Theorem C80_side_patch : forall rd pw u eta rho eps sf sds q M b, rounding rd u eta -> 0 < eps -> 0 <= rho < 1 ->
  sds <> [] -> length sds = sf_n sf -> INR (length sds + 1) * u < 1 ->
  (forall sd, In sd sds -> eps <= py sd -> rd (pw (py sd)) = pw (py sd) /\ Rabs (pw (py sd) - 1 / py sd ^ 2) <= rho * (1 / py sd ^ 2)) ->
  (forall i sd, nth_error sds i = Some sd -> sideInterpolantF rd sf i (px sd) (py sd) = Some (q i) /\ within M (q i)) ->
  blendSideSingular eps sds = Some b ->
  let n := length sds in
  let G := (1 + rho) / (1 - rho) * (1 + gam u (n + 1)) - 1 in
  exists p, sideBasedF rd pw eps sf sds = Some p /\
    within (((1 + u) ^ (n + 1) * (1 + (G + INR n * eta)) - 1) * M + (1 + u) ^ n * (INR n * eta))
      (p -v vsum n (fun i => q i *v nth i b 0)).
Proof.
  intros rd pw u eta rho eps sf sds q M b HR He Hr Hn HL Hnu Hpw Hq Eb n G.
  assert (Hl : (0 < length sds)%nat) by (destruct sds; [congruence|simpl; lia]).
  destruct (sideBasedF_err rd u eta HR pw rho eps sf sds q M b He Hr HL Hl Hnu Hpw) as (p & Ep & W); [| |exact Eb|].
  - intros i Hi. destruct (Hq i _ (nth_sd sds i ltac:(lia))) as [A _]. exact A.
  - intros i Hi. destruct (Hq i _ (nth_sd sds i ltac:(lia))) as [_ A]. exact A.
  - exists p. split; [exact Ep|]. rewrite <- HL in W. exact W.
Qed.
Print Assumptions C80_side_patch.

(** On the boundary there is no error at all: when exactly one side is near
    and its distance is not positive, the patch returns the point of the
    boundary curve bit for bit. *)
Theorem C80_side_boundary : forall rd pw u eta eps sf sds e sd r, rounding rd u eta -> length sds = sf_n sf ->
  nth_error sds e = Some sd -> nth_error (sf_ribbons sf) e = Some r -> 0 < eps ->
  - (1/4) <= py sd <= 0 -> (sf_gamma sf = true -> rd (2 * py sd) = 2 * py sd) ->
  (forall j, (j < length sds)%nat -> j <> e -> away eps sds j) ->
  (forall i sdi, nth_error sds i = Some sdi -> exists q, sideInterpolantF rd sf i (px sdi) (py sdi) = Some q) ->
  repr3 rd (cpt (sr_curve r) (clamp (px sd) 0 1)) ->
  sideBasedF rd pw eps sf sds = Some (cpt (sr_curve r) (clamp (px sd) 0 1)).
Proof.
  intros rd pw u eta eps sf sds e sd r HR HL Es Er He Hd H2 Ho Hq Hc.
  assert (Hi : (e < length sds)%nat) by (apply nth_error_Some; congruence).
  assert (Ds : mkV2 (spar sds e) (dpar sds e) = sd) by (pose proof (nth_sd sds e Hi); congruence).
  set (q := fun i => match sideInterpolantF rd sf i (spar sds i) (dpar sds i) with Some x => x | None => vzero end).
  assert (Q : forall i, (i < sf_n sf)%nat -> sideInterpolantF rd sf i (spar sds i) (dpar sds i) = Some (q i)).
  { intros i Hi'. destruct (Hq i _ (nth_sd sds i ltac:(lia))) as (x & X). cbn [px py] in X. unfold q. rewrite X. reflexivity. }
  assert (SD : spar sds e = px sd /\ dpar sds e = py sd) by (rewrite <- Ds; split; reflexivity).
  destruct SD as [S1 S2].
  rewrite (sideBasedF_one rd u eta HR pw eps sf sds e q HL Hi); [| rewrite S2; lra | | exact Q].
  - assert (X := Q e ltac:(lia)). rewrite S1, S2 in X.
    assert (C : exists x, sr_cross r (clamp (px sd) 0 1) = Some x).
    { revert X. unfold sideInterpolantF. destruct (gammaF rd (sf_gamma sf) (py sd)); [|discriminate]. cbn [bind]. rewrite Er. cbn [bind].
      destruct (sr_cross r (clamp (px sd) 0 1)) as [x|]; [exists x; reflexivity|discriminate]. }
    destruct C as (x & C). rewrite (sideInterpolantF_0 rd u eta HR sf e (px sd) (py sd) r x Er C Hd H2 Hc) in X. congruence.
  - intros j Hj Hne. apply away_dpar, Ho; assumption.
Qed.
Print Assumptions C80_side_boundary.

(** The corner blends: every weight is in [0, 1]; they add up to 1 up to
    rounding when at most one side is near, and exactly at a corner. *)
Theorem C80_corner_blends : forall rd pw u eta eps sds n, rounding rd u eta -> 0 < eps -> 0 < rd (eps * eps) ->
  length sds = n -> (3 <= n)%nat -> INR (n + 1) * u < 1 ->
  (forall x, 0 < x -> (exists sd, In sd sds /\ (x = py sd \/ exists sd', In sd' sds /\ x = rd (py sd * py sd'))) ->
     0 < pw x /\ rd (pw x) = pw x) ->
  exists w, blendCornerF rd pw eps n sds = Some w /\ length w = n /\ (forall x, In x w -> 0 <= x <= 1) /\
  ((forall i, (i < n)%nat -> away eps sds i) \/
   (exists e, (e < n)%nat /\ near eps sds e /\ forall j, (j < n)%nat -> j <> e -> away eps sds j) ->
   Rabs (fold_right Rplus 0 w - 1) <= gam u (n + 1) + INR n * eta) /\
  (forall e, (e < n)%nat -> near eps sds e -> near eps sds (nxt n e) ->
     (forall j, (j < n)%nat -> j <> e -> j <> nxt n e -> away eps sds j) ->
     forall j x, nth_error w j = Some x -> x = if Nat.eqb j e then 1 else 0).
Proof.
  intros rd pw u eta eps sds n HR He Hee HL H3 Hnu Hpw.
  destruct (close_cases eps sds n HL ltac:(lia)) as [F|[(e & Hi & De & F)|(e & f & Hi & Hf & Ne & De & Df)]].
  - destruct (cornerF_far rd u eta HR pw eps sds n He HL ltac:(lia) Hnu Hee Hpw F) as (w & E & L & R01 & S).
    exists w. split; [exact E|]. split; [exact L|]. split; [exact R01|]. split; [intros _; exact S|].
    intros e Hi N. specialize (F e Hi). apply near_dpar in N. lra.
  - destruct (cornerF_one rd u eta HR pw eps sds n He HL ltac:(lia) Hnu Hpw H3 e Hi De F) as (w & E & L & R01 & S).
    exists w. split; [exact E|]. split; [exact L|]. split; [exact R01|]. split; [intros _; exact S|].
    intros e' Hi' N1 N2. exfalso. apply near_dpar in N1. apply near_dpar in N2.
    destruct (Nat.eq_dec e' e) as [-> |X]; [|specialize (F e' Hi' X); lra].
    specialize (F (nxt n e) (nxt_lt n e ltac:(lia)) (nxt_neq n e ltac:(lia) Hi)). lra.
  - assert (C : (1 < closeCount eps sds)%nat) by (apply (close_two eps sds e f); rewrite ?HL; assumption).
    rewrite cornerF_many by (assumption || lia).
    rewrite (corner_many eps sds n HL ltac:(lia) e f Hi Hf Ne De Df).
    eexists. split; [reflexivity|]. split; [apply tabulate_length|]. split; [|split].
    + intros x Hx. apply In_nth_error in Hx. destruct Hx as (i & Ex). apply tab_inv in Ex. destruct Ex as [_ <-].
      unfold isclose. destruct (Rlt_dec _ _); destruct (Rlt_dec _ _); lra.
    + intros [A|(e' & Hi' & N & A)]; exfalso.
      * specialize (A e Hi). apply away_dpar in A. lra.
      * destruct (Nat.eq_dec e e') as [-> |X]; [|specialize (A e Hi X); apply away_dpar in A; lra].
        specialize (A f Hf ltac:(congruence)). apply away_dpar in A. lra.
    + intros e' Hi' N1 N2 A j x Ex.
      pose proof (corner_adjacent eps sds n HL ltac:(lia) H3 e' Hi' (near_dpar _ _ _ N1) (near_dpar _ _ _ N2)) as K.
      rewrite (corner_many eps sds n HL ltac:(lia) e f Hi Hf Ne De Df) in K.
      specialize (K ltac:(intros; apply away_dpar, A; assumption)). injection K as K. rewrite K in Ex.
      apply tab_inv in Ex. destruct Ex as [_ <-]. reflexivity.
Qed.
Print Assumptions C80_corner_blends.

(** Doubles: the middle of the third side of a quadrilateral, with raw
    coordinates 0, 1, 1, 0. *)
Example C80_example : normalizeF rnd64 [0; 1; 1; 0] = Some [0; 1/2; 1/2; 0] /\
  baryRibbonF rnd64 (1/4) (1/2) (1/2) = Some (mkV2 (1/2) 0).
Proof.
  assert (Q : forall x z, x = IZR z / 4 -> (Z.abs z < 2 ^ 53)%Z -> rnd64 x = x) by (intros x z -> H; apply double_quarter; exact H).
  split.
  - unfold normalizeF, accumulateF. cbn [fold_left]. rewrite !Rplus_0_l, (Q 0 0%Z) by (lra || reflexivity).
    rewrite !Rplus_0_l, (Q 1 4%Z) by (lra || reflexivity). replace (1 + 1) with 2 by ring. rewrite (Q 2 8%Z) by (lra || reflexivity).
    rewrite Rplus_0_r, (Q 2 8%Z) by (lra || reflexivity).
    cbn [mapM]. unfold fdivF. rewrite !fdiv_some by lra. cbn [bind]. replace (0 / 2) with 0 by field.
    rewrite (Q 0 0%Z), (Q (1/2) 2%Z) by (lra || reflexivity). reflexivity.
  - unfold baryRibbonF. replace (1/2 + 1/2) with 1 by field. rewrite (Q 1 4%Z) by (lra || reflexivity).
    destruct (Rlt_dec 1 (1/4)); [lra|]. unfold fdivF. rewrite fdiv_some by lra. cbn [bind].
    replace (1/2/1) with (1/2) by field. replace (1 - 1/2) with (1/2) by field. rewrite !(Q (1/2) 2%Z) by (lra || reflexivity).
    replace (1/2 - 1/2) with 0 by field. rewrite (Q 0 0%Z) by (lra || reflexivity). reflexivity.
Qed.
