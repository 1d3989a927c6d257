(** Bisection and the circular parameterization. *)

From Verif Require Import Base MeshModel GeomSpec DomainModel UtilModel ParamModel UtilProofs.
From Coq Require Import Ranalysis5.
Open Scope R_scope.

Lemma bisectLoop_range : forall eps f steps xl xh xm lo hi, lo <= xl -> xl <= xh -> xh <= hi -> lo <= xm <= hi ->
  lo <= bisectLoop eps f xl xh xm steps <= hi.
Proof.
  intros eps f steps. induction steps as [|k IH]; intros xl xh xm lo hi H1 H2 H3 H4; [exact H4|].
  cbn [bisectLoop]. set (m := (xl + xh) / 2). assert (M : xl <= m <= xh) by (unfold m; lra).
  match goal with |- context [if ?b then m else _] => destruct b end; [lra|].
  destruct (f xl) as [a|]; [|lra]. destruct (f m) as [b|]; [|lra].
  destruct (Rlt_dec (a * b) 0); [apply IH; lra|]. destruct (Rlt_dec 0 (a * b)); [apply IH; lra|lra].
Qed.

Lemma bisect_range : forall eps f xl xh, xl <= xh -> xl <= bisect eps f xl xh <= xh.
Proof. intros eps f xl xh H. apply bisectLoop_range; lra. Qed.

(** Opposite signs at the ends. *)
Definition sign_change (f : R -> option R) (a b : R) : Prop :=
  exists y z, f a = Some y /\ f b = Some z /\ y * z < 0.

(** The result is the midpoint of, or an end of, a bracket with a sign change
    obtained by halving; and why the loop stopped. *)
Lemma bisectLoop_bracket : forall eps f steps xl xh xm, xl < xh -> xm = xl \/ xm = xh ->
  (forall x, xl <= x <= xh -> exists y, f x = Some y) -> sign_change f xl xh ->
  let r := bisectLoop eps f xl xh xm steps in
  f r = Some 0 \/
  exists j a b, (j <= steps)%nat /\ xl <= a /\ b <= xh /\ b - a = (xh - xl) / 2 ^ j /\ sign_change f a b /\
    ((j = steps /\ (r = a \/ r = b)) \/ (r = (a + b) / 2 /\ (b - a) / 2 < eps * Rabs r)).
Proof.
  intros eps f steps. induction steps as [|k IH]; intros xl xh xm H1 H2 HT HS r.
  - right. exists 0%nat, xl, xh. (split; [lia|split; [lra|split; [lra|split; [simpl; field|split; [exact HS|]]]]]). left. split; [reflexivity|exact H2].
  - unfold r; clear r. cbn [bisectLoop]. set (m := (xl + xh) / 2). assert (M : xl < m < xh) by (unfold m; lra).
    destruct (HT xl ltac:(lra)) as [a Ea]. destruct (HT m ltac:(lra)) as [b Eb]. destruct HS as (y & z & Ey & Ez & N).
    rewrite Ea in Ey. injection Ey as <-. rewrite Ea, Eb.
    assert (Clo : forall A (x w : A), (if (if Req_EM_T m 0 then false else if Rlt_dec (Rabs ((m - xm) / m)) eps then true else false)
                then x else w) = x /\ (m <> 0 /\ Rabs ((m - xm) / m) < eps) \/
                (if (if Req_EM_T m 0 then false else if Rlt_dec (Rabs ((m - xm) / m)) eps then true else false)
                then x else w) = w).
    { intros A x w. destruct (Req_EM_T m 0); [right; reflexivity|]. destruct (Rlt_dec _ eps); [left; auto|right; reflexivity]. }
    destruct (Clo R m (if Rlt_dec (a * b) 0 then bisectLoop eps f xl m m k
        else if Rlt_dec 0 (a * b) then bisectLoop eps f m xh m k else m)) as [[-> [Nz C]]| ->].
    + right. exists 0%nat, xl, xh. (split; [lia|split; [lra|split; [lra|split; [simpl; field|split; [exists a, z; auto|]]]]]). right. split; [reflexivity|].
      assert (W : (xh - xl) / 2 = Rabs (m - xm)).
      { destruct H2 as [->| ->]; [rewrite Rabs_right by lra|rewrite Rabs_left by lra]; unfold m; lra. }
      rewrite W. unfold Rdiv in C. rewrite Rabs_mult, Rabs_inv in C by exact Nz.
      pose proof (Rabs_pos_lt m Nz) as P. apply (Rmult_lt_compat_r (Rabs m)) in C; [|exact P].
      rewrite Rmult_assoc, Rinv_l, Rmult_1_r in C by lra. exact C.
    + destruct (Rlt_dec (a * b) 0) as [L|L].
      * destruct (IH xl m m ltac:(lra) (or_intror eq_refl)) as [Z|(j & a' & b' & J & A1 & A2 & A3 & A4 & A5)].
        { intros x X; apply HT; lra. } { exists a, b; auto. }
        { left; exact Z. }
        right. exists (S j), a', b'. (split; [lia|split; [lra|split; [lra|split; [|split; [exact A4|]]]]]).
        { rewrite A3. simpl. unfold m. field. apply pow_nonzero; lra. }
        destruct A5 as [[-> A5]|A5]; [left; auto|right; exact A5].
      * destruct (Rlt_dec 0 (a * b)) as [P|P].
        { destruct (IH m xh m ltac:(lra) (or_introl eq_refl)) as [Z|(j & a' & b' & J & A1 & A2 & A3 & A4 & A5)].
          { intros x X; apply HT; lra. }
          { exists b, z. repeat split; auto. destruct (Rlt_dec 0 a); [|destruct (Rlt_dec a 0)]; nra. }
          { left; exact Z. }
          right. exists (S j), a', b'. (split; [lia|split; [lra|split; [lra|split; [|split; [exact A4|]]]]]).
          { rewrite A3. simpl. unfold m. field. apply pow_nonzero; lra. }
          destruct A5 as [[-> A5]|A5]; [left; auto|right; exact A5]. }
        { left. rewrite Eb. f_equal. assert (a * b = 0) by lra.
          apply Rmult_integral in H. destruct H as [H|H]; [subst a; lra|exact H]. }
Qed.

Lemma root_between : forall g a b, a < b -> (forall x, a <= x <= b -> continuity_pt g x) -> g a * g b < 0 ->
  exists z, a <= z <= b /\ g z = 0.
Proof.
  intros g a b H C N. destruct (Rlt_dec (g a) 0) as [L|L].
  - destruct (IVT_interv g a b C H L ltac:(nra)) as [z [Z1 Z2]]. exists z; auto.
  - assert (0 < g a) by (destruct (Req_dec (g a) 0) as [E|E]; [rewrite E in N; lra|lra]). assert (g b < 0) by nra.
    destruct (IVT_interv (- g)%F a b) as [z [Z1 Z2]]; try assumption.
    + intros x X. apply continuity_pt_opp. apply C; exact X.
    + unfold opp_fct; lra.
    + unfold opp_fct; lra.
    + exists z. split; [exact Z1|]. unfold opp_fct in Z2; lra.
Qed.

Lemma bisect_root : forall eps f g xl xh, xl < xh ->
  (forall x, xl <= x <= xh -> f x = Some (g x)) -> (forall x, xl <= x <= xh -> continuity_pt g x) ->
  g xl * g xh < 0 ->
  let r := bisect eps f xl xh in
  exists z, xl <= z <= xh /\ g z = 0 /\ (Rabs (r - z) < eps * Rabs r \/ Rabs (r - z) <= (xh - xl) / 2 ^ 100).
Proof.
  intros eps f g xl xh H HF HC HN r.
  pose proof (bisect_range eps f xl xh ltac:(lra)) as B. fold r in B. unfold bisect in r.
  pose proof (bisectLoop_bracket eps f 100 xl xh xl H (or_introl eq_refl)) as X. cbv zeta in X. fold r in X. clearbody r.
  destruct X as [Z|(j & a & b & J & A1 & A2 & A3 & A4 & A5)].
  { intros x X; exists (g x); apply HF; exact X. }
  { exists (g xl), (g xh). repeat split; try (apply HF; lra). exact HN. }
  - exists r. split; [exact B|]. rewrite HF in Z by exact B. injection Z as Z. split; [exact Z|]. right.
    rewrite Rminus_diag_eq, Rabs_R0 by reflexivity. apply Rlt_le, Rdiv_lt_0_compat; [lra|apply pow_lt; lra].
  - assert (W : 0 < b - a) by (rewrite A3; apply Rdiv_lt_0_compat; [lra|apply pow_lt; lra]).
    destruct A4 as (y & z & Ey & Ez & N). rewrite HF in Ey by lra. rewrite HF in Ez by lra. injection Ey as <-. injection Ez as <-.
    destruct (root_between g a b ltac:(lra)) as [w [W1 W2]]; [intros x X; apply HC; lra|exact N|].
    exists w. split; [lra|]. split; [exact W2|].
    destruct A5 as [[-> A5]|[A5 A6]].
    + right. rewrite <- A3. apply Rabs_le. destruct A5 as [->| ->]; lra.
    + left. apply (Rle_lt_trans _ ((b - a) / 2)); [|exact A6]. apply Rabs_le. rewrite A5. lra.
Qed.

(** ** The circular parameterization *)
Lemma circular_range : forall eps n i uv, n <> 0%nat -> exists h, circularMap eps n i uv = Some (mkV2 h h) /\ 0 <= h <= 1.
Proof.
  intros eps n i uv Hn. assert (N : 0 < INR n) by (apply lt_0_INR; lia). pose proof PI_RGT_0 as P.
  unfold circularMap, localPhi. rewrite fdiv_some by lra. cbn [bind].
  set (phi := fmod _ _ - PI). clearbody phi.
  destruct (Rlt_dec (1 - eps) (px uv)).
  - rewrite fdiv_some by lra. cbn [bind]. destruct (Rle_dec (Rabs phi) (PI / INR n)) as [L|L].
    { exists 0. split; [reflexivity|lra]. }
    rewrite fdiv_some by lra. cbn [bind]. destruct (Rle_dec (3 * PI / INR n) (Rabs phi)) as [L'|L'].
    { exists 1. split; [reflexivity|lra]. }
    eexists. split; [reflexivity|].
    assert (A : 1 < Rabs phi * INR n / PI).
    { apply (Rmult_lt_reg_r (PI / INR n)); [apply Rdiv_lt_0_compat; lra|].
      replace (Rabs phi * INR n / PI * (PI / INR n)) with (Rabs phi) by (field; lra). lra. }
    assert (B : Rabs phi * INR n / PI < 3).
    { apply (Rmult_lt_reg_r (PI / INR n)); [apply Rdiv_lt_0_compat; lra|].
      replace (Rabs phi * INR n / PI * (PI / INR n)) with (Rabs phi) by (field; lra).
      replace (3 * (PI / INR n)) with (3 * PI / INR n) by (field; lra). lra. }
    lra.
  - eexists. split; [reflexivity|].
    destruct (Rlt_dec _ 0); match goal with |- context [bisect ?e ?f ?a ?b] => pose proof (bisect_range e f a b ltac:(lra)) end; lra.
Qed.

Lemma Int_part_unique : forall r z, IZR z <= r < IZR z + 1 -> z = Int_part r.
Proof.
  intros r z H. destruct (base_Int_part r) as [A B].
  assert (z < Int_part r + 1)%Z by (apply lt_IZR; rewrite plus_IZR; lra).
  assert (Int_part r < z + 1)%Z by (apply lt_IZR; rewrite plus_IZR; lra). lia.
Qed.

(** Reduction of an angle into [-PI, PI). *)
Lemma fmod_wrap : forall x k, 0 <= 3 * PI + x -> - PI <= x - 2 * PI * IZR k < PI ->
  fmod (x + 3 * PI) (2 * PI) - PI = x - 2 * PI * IZR k.
Proof.
  intros x k H0 H. pose proof PI_RGT_0 as P. unfold fmod. destruct (Rle_dec 0 (x + 3 * PI)) as [_|]; [|lra].
  replace (Int_part ((x + 3 * PI) / (2 * PI))) with (k + 1)%Z.
  - rewrite plus_IZR. ring.
  - apply Int_part_unique. rewrite plus_IZR.
    replace ((x + 3 * PI) / (2 * PI)) with ((x - 2 * PI * IZR k + PI) / (2 * PI) + (IZR k + 1)) by (field; lra).
    set (w := x - 2 * PI * IZR k) in *.
    assert (0 <= (w + PI) / (2 * PI)) by (apply Rmult_le_pos; [lra|apply Rlt_le, Rinv_0_lt_compat; lra]).
    assert ((w + PI) / (2 * PI) < 1) by (apply (Rmult_lt_reg_r (2 * PI)); [lra|]; unfold Rdiv; rewrite Rmult_assoc, Rinv_l by lra; lra).
    lra.
Qed.

(** The boundary point at parameter [s] of side [e] seen from side [i], by the
    difference of the indices modulo [n]. *)
Lemma localPhi_boundary : forall n i e s dl, (3 <= n)%nat -> (i < n)%nat -> (e < n)%nat -> (dl < n)%nat -> 0 <= s <= 1 ->
  (e = i + dl \/ e + n = i + dl)%nat ->
  let z := (2 * INR dl + 2 * s - 1) * PI / INR n in
  localPhi n i (2 * PI * (INR e + s) / INR n) = Some (if Rlt_dec z PI then z else z - 2 * PI).
Proof.
  intros n i e s dl Hn Hi He Hd Hs E z. assert (N : 3 <= INR n) by (replace 3 with (INR 3) by (simpl; lra); apply le_INR; exact Hn).
  pose proof PI_RGT_0 as P. unfold localPhi. rewrite fdiv_some by lra. cbn [bind]. apply f_equal.
  assert (Z1 : - PI <= z).
  { unfold z. apply (Rmult_le_reg_r (INR n)); [lra|]. unfold Rdiv. rewrite Rmult_assoc, Rinv_l, Rmult_1_r by lra.
    pose proof (pos_INR dl). nra. }
  assert (Z2 : z < 2 * PI).
  { unfold z. apply (Rmult_lt_reg_r (INR n)); [lra|]. unfold Rdiv. rewrite Rmult_assoc, Rinv_l, Rmult_1_r by lra.
    assert (INR dl + 1 <= INR n) by (rewrite <- S_INR; apply le_INR; lia). nra. }
  assert (K : exists k, (k = 0 \/ k = -1)%Z /\ 2 * PI * (INR e + s) / INR n + (3 - (INR i * 2 + 1) / INR n) * PI = (z + 2 * PI * IZR k) + 3 * PI).
  { destruct E as [->|E].
    - exists 0%Z. split; [auto|]. rewrite plus_INR. unfold z. field. lra.
    - exists (-1)%Z. split; [auto|]. replace (INR e) with (INR i + INR dl - INR n).
      + unfold z. field. lra.
      + apply (f_equal INR) in E. rewrite !plus_INR in E. lra. }
  destruct K as (k & Hk & ->). assert (B : 0 <= 3 * PI + (z + 2 * PI * IZR k)) by (destruct Hk as [->| ->]; simpl; lra).
  destruct (Rlt_dec z PI).
  - rewrite (fmod_wrap (z + 2 * PI * IZR k) k B) by lra. ring.
  - rewrite (fmod_wrap (z + 2 * PI * IZR k) (k + 1) B).
    + rewrite plus_IZR. ring.
    + rewrite plus_IZR. lra.
Qed.

(** Distance parameters on the boundary circle. *)
Lemma circular_boundary : forall eps n i e s dl, 0 < eps -> (3 <= n)%nat -> (i < n)%nat -> (e < n)%nat -> (dl < n)%nat -> 0 <= s <= 1 ->
  (e = i + dl \/ e + n = i + dl)%nat ->
  let h := if (dl =? 0)%nat then 0 else if (dl =? 1)%nat then s else if (dl =? n - 1)%nat then 1 - s else 1 in
  circularMap eps n i (mkV2 1 (2 * PI * (INR e + s) / INR n)) = Some (mkV2 h h).
Proof.
  intros eps n i e s dl He Hn Hi Hee Hd Hs E h.
  assert (N : 3 <= INR n) by (replace 3 with (INR 3) by (simpl; lra); apply le_INR; exact Hn).
  pose proof PI_RGT_0 as P. unfold circularMap. cbn [px py]. rewrite (localPhi_boundary n i e s dl Hn Hi Hee Hd Hs E). cbn [bind].
  destruct (Rlt_dec (1 - eps) 1) as [_|]; [|lra]. rewrite fdiv_some by lra. cbn [bind].
  set (q := PI / INR n).
  assert (Q : 0 < q) by (apply Rdiv_lt_0_compat; lra).
  assert (Qn : q * INR n = PI) by (unfold q; field; lra).
  replace ((2 * INR dl + 2 * s - 1) * PI / INR n) with ((2 * INR dl + 2 * s - 1) * q) by (unfold q; field; lra).
  rewrite (fdiv_some (3 * PI)) by lra. cbn [bind]. replace (3 * PI / INR n) with (3 * q) by (unfold q; field; lra).
  assert (Main : forall x, (Rabs x = 0 * q \/ q <= Rabs x \/ Rabs x <= q) ->
      forall h, (Rabs x <= q /\ h = 0) \/ (3 * q <= Rabs x /\ h = 1) \/ (Rabs x = (2 * h + 1) * q /\ 0 <= h <= 1) ->
      (if Rle_dec (Rabs x) q then Some (mkV2 0 0) else if Rle_dec (3 * q) (Rabs x) then Some (mkV2 1 1)
       else Some (mkV2 ((Rabs x * INR n / PI - 1) / 2) ((Rabs x * INR n / PI - 1) / 2))) = Some (mkV2 h h)).
  { intros x _ h' C. destruct (Rle_dec (Rabs x) q) as [L|L]; [|destruct (Rle_dec (3 * q) (Rabs x)) as [L'|L']].
    - assert (h' = 0) as ->; [|reflexivity]. destruct C as [C|[C|C]]; [tauto|lra|]. nra.
    - assert (h' = 1) as ->; [|reflexivity]. destruct C as [C|[C|C]]; [lra|tauto|]. nra.
    - destruct C as [C|[C|[C _]]]; [lra|lra|]. rewrite C.
      replace (((2 * h' + 1) * q * INR n / PI - 1) / 2) with h'; [reflexivity|].
      rewrite Rmult_assoc, Qn. field. lra. }
  cbn zeta. apply Main; [destruct (Rle_dec q (Rabs (if Rlt_dec ((2 * INR dl + 2 * s - 1) * q) PI then (2 * INR dl + 2 * s - 1) * q else (2 * INR dl + 2 * s - 1) * q - 2 * PI))); lra|].
  assert (Dn : INR dl + 1 <= INR n) by (rewrite <- S_INR; apply le_INR; lia).
  unfold h. destruct (Nat.eqb_spec dl 0) as [->|D0]; [|destruct (Nat.eqb_spec dl 1) as [->|D1]; [|destruct (Nat.eqb_spec dl (n - 1)) as [->|D2]]].
  - left. split; [|reflexivity]. simpl INR. destruct (Rlt_dec _ PI) as [_|L]; [|exfalso; apply L; nra].
    apply Rabs_le. nra.
  - right; right. split; [|exact Hs]. simpl INR. destruct (Rlt_dec _ PI) as [L|L].
    + rewrite Rabs_right; [ring|nra].
    + assert ((2 * 1 + 2 * s - 1) * q <= 3 * q) by nra. assert (3 * q <= PI) by nra. rewrite Rabs_left; nra.
  - right; right. split; [|lra]. rewrite minus_INR by lia. simpl (INR 1).
    replace ((2 * (INR n - 1) + 2 * s - 1) * q) with (2 * PI - (3 - 2 * s) * q) by (rewrite <- Qn; ring).
    destruct (Rlt_dec _ PI) as [L|L].
    + assert ((3 - 2 * s) * q <= 3 * q) by nra. assert (3 * q <= PI) by nra. lra.
    + rewrite Rabs_left1; [ring|]. nra.
  - right; left. split; [|reflexivity].
    assert (D3 : 2 <= INR dl) by (replace 2 with (INR 2) by (simpl; lra); apply le_INR; lia).
    assert (D4 : INR dl + 2 <= INR n) by (replace 2 with (INR 2) by (simpl; lra); rewrite <- plus_INR; apply le_INR; lia).
    destruct (Rlt_dec _ PI) as [L|L].
    + rewrite Rabs_right; nra.
    + assert ((2 * INR dl + 2 * s - 1) * q <= (2 * INR n - 3) * q) by (apply Rmult_le_compat_r; lra).
      rewrite Rabs_left1; nra.
Qed.
