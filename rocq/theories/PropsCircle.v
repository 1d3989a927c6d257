(** Properties of the circular domain and the circles of the circular
    parameterization: C62. *)

From Verif Require Import Base MeshModel MeshProofs MeshProofsRing MeshParams GeomSpec DomainModel UtilModel ParamModel UtilProofs ParamCircular.
Open Scope R_scope.

(** ** C62: the parameter points of the circular domain. *)
Theorem C62_points : forall n r ps, (1 <= n)%nat -> (1 <= r)%nat -> parametersImplCircle n r = Some ps ->
  nth_error ps 0 = Some (mkV2 0 0) /\
  forall j m, (1 <= j <= r)%nat -> (m < n * j)%nat ->
    nth_error ps (1 + n * j * (j - 1) / 2 + m) = Some (mkV2 (INR j / INR r) (2 * PI * INR m / INR (n * j))).
Proof.
  intros n r ps Hn Hr E. rewrite (paramsCircle_closed n r Hn Hr) in E. injection E as <-. split; [reflexivity|].
  intros j m Hj Hm.
  assert (Ix : (1 + n * j * (j - 1) / 2 = rs n j)%nat).
  { pose proof (rs_double n (j - 1)) as D. replace (S (j - 1)) with j in D by lia. replace (j - 1 + 1)%nat with j in D by lia.
    replace (n * j * (j - 1))%nat with ((rs n j - 1) * 2)%nat by nia. rewrite Nat.div_mul by lia.
    pose proof (rs_pos n (j - 1)) as P. replace (S (j - 1)) with j in P by lia. lia. }
  rewrite Ix. set (k := (m / j)%nat). set (i := (m mod j)%nat).
  assert (Em : (m = k * j + i)%nat) by (unfold k, i; rewrite (Nat.mul_comm (m / j)); apply Nat.div_mod; lia).
  assert (Hi : (i < j)%nat) by (apply Nat.mod_upper_bound; lia).
  assert (Hk : (k < n)%nat) by (apply Nat.div_lt_upper_bound; [lia|rewrite Nat.mul_comm; exact Hm]).
  rewrite Em at 1. rewrite (ring_list_nth n (mkV2 0 0) (ptC n r) r j k i Hj Hk Hi). unfold ptC. f_equal.
  apply V2_ext; cbn [px py]; [reflexivity|]. rewrite Em, mult_INR, plus_INR, mult_INR.
  assert (INR n <> 0) by (apply not_0_INR; lia). assert (INR j <> 0) by (apply not_0_INR; lia). field. split; assumption.
Qed.
Print Assumptions C62_points.

(** The points that the edge test accepts are those of radius 1, and the points
    of the outer ring are the edge points. *)
Theorem C62_edge : forall n r ps idx p, (1 <= n)%nat -> (1 <= r)%nat -> parametersImplCircle n r = Some ps -> nth_error ps idx = Some p ->
  (onEdgeCircle n r idx = true <-> px p = 1) /\
  (onEdgeCircle n r idx = true -> exists k i, (k < n)%nat /\ (i < r)%nat /\ edgePointCircle n k (INR i / INR r) = Some p).
Proof.
  intros n r ps idx p Hn Hr E I. assert (E' := E). rewrite (paramsCircle_closed n r Hn Hr) in E'.
  assert (Rn : INR r <> 0) by (apply not_0_INR; lia). assert (Rp : 0 < INR r) by (apply lt_0_INR; lia).
  assert (Len : (idx < rs n (S r))%nat).
  { rewrite <- (ring_list_length n (mkV2 0 0) (ptC n r) r). injection E' as ->. apply nth_error_Some. congruence. }
  injection E' as E'.
  unfold onEdgeCircle. rewrite meshSizeCircle_rs, rs_S by exact Hr. replace (rs n r + n * r - n * r)%nat with (rs n r) by lia.
  destruct (Nat.eq_dec idx 0) as [->|N0].
  { rewrite <- E' in I. injection I as <-. pose proof (rs_pos n (r - 1)) as P. replace (S (r - 1)) with r in P by lia.
    destruct (Nat.leb_spec (rs n r) 0); [lia|]. cbn [px]. split; [split; [discriminate|intros; lra]|discriminate]. }
  assert (D : forall q, (idx < rs n (S q))%nat -> exists j k i, (1 <= j <= q)%nat /\ (k < n)%nat /\ (i < j)%nat /\ (idx = rs n j + (k * j + i))%nat).
  { induction q as [|q IH]; intros L; [change (rs n 1) with 1%nat in L; lia|].
    destruct (Nat.lt_ge_cases idx (rs n (S q))) as [L1|L1]; [destruct (IH L1) as (j & k & i & A & B); exists j, k, i; split; [lia|exact B]|].
    rewrite (rs_S n (S q)) in L by lia. set (m := (idx - rs n (S q))%nat). exists (S q), (m / S q)%nat, (m mod S q)%nat.
    split; [lia|]. split; [apply Nat.div_lt_upper_bound; unfold m; lia|]. split; [apply Nat.mod_upper_bound; lia|].
    pose proof (Nat.div_mod m (S q) ltac:(lia)) as X. unfold m in *. lia. }
  destruct (D r Len) as (j & k & i & Hj & Hk & Hi & Ei).
  rewrite <- E', Ei, (ring_list_nth n (mkV2 0 0) (ptC n r) r j k i Hj Hk Hi) in I. injection I as <-. unfold ptC. cbn [px].
  assert (Lr : (rs n r <= idx)%nat <-> j = r).
  { split; intros A; [|subst j; lia]. destruct (Nat.eq_dec j r) as [->|Nj]; [reflexivity|exfalso].
    pose proof (rs_mono n (S j) r ltac:(lia)) as M. rewrite rs_S in M by lia. nia. }
  split.
  - rewrite Nat.leb_le, Lr. split; [intros ->; field; exact Rn|]. intros A. apply INR_eq. apply (Rmult_eq_reg_r (/ INR r)); [|apply Rinv_neq_0_compat; exact Rn].
    rewrite Rinv_r by exact Rn. exact A.
  - rewrite Nat.leb_le, Lr. intros ->. exists k, i. split; [exact Hk|]. split; [exact Hi|]. unfold edgePointCircle.
    rewrite fdiv_some by (apply not_0_INR; lia). cbn [bind]. do 2 f_equal. field. exact Rn.
Qed.
Print Assumptions C62_edge.

(** ** The circles of constant distance.  Circle [h] passes through the points at
    angles plus and minus (2h+1) pi/n of the unit circle, and crosses it there
    at the angle h pi: the cosine of the angle between the two outward normals
    is, up to sign, cos (h pi). *)
Theorem C62_hcircle : forall eps n h, (1 <= n)%nat -> 0 < eps ->
  let phi := (2 * h + 1) * PI / INR n in let th := h * PI - phi in let p := mkV2 (cos phi) (sin phi) in
  eps <= Rabs (sin th) ->
  exists c r, hcircle eps n h = Some (mkV2 c 0, r) /\ 0 <= r /\
    pnorm (p -p mkV2 c 0) = r /\ pnorm (mkV2 (cos phi) (- sin phi) -p mkV2 c 0) = r /\
    r * Rabs (sin th) = Rabs (sin phi) /\
    pdot p (p -p mkV2 c 0) * sin th = - sin phi * cos (h * PI).
Proof.
  intros eps n h Hn He phi th p Ht.
  assert (N : INR n <> 0) by (apply not_0_INR; lia).
  assert (S0 : sin th <> 0) by (intros E; rewrite E, Rabs_R0 in Ht; lra).
  unfold hcircle. rewrite fdiv_some by exact N. cbn [bind]. fold phi. fold th. cbn [px py].
  destruct (Rlt_dec (Rabs (sin th)) eps) as [L|_]; [lra|]. rewrite fdiv_some by exact S0. cbn [bind].
  set (c := cos phi + sin phi * cos th / sin th).
  assert (Sy : forall a b, pnorm (a -p b) = pnorm (b -p a)) by (intros; unfold pnorm; f_equal; unfold pdot; simpl; ring).
  exists c, (pnorm (mkV2 c 0 -p p)). split; [reflexivity|]. split; [apply sqrt_pos|]. split; [apply Sy|]. split.
  { rewrite Sy. unfold pnorm. f_equal. unfold pdot, p. simpl. ring. }
  pose proof (sin2_cos2 th) as T. unfold Rsqr in T. pose proof (sin2_cos2 phi) as P. unfold Rsqr in P.
  split.
  - unfold pnorm. replace (pdot (mkV2 c 0 -p p) (mkV2 c 0 -p p)) with (Rsqr (sin phi / sin th)).
    + rewrite sqrt_Rsqr_abs. unfold Rdiv. rewrite Rabs_mult, Rabs_inv, Rmult_assoc, Rinv_l by (apply Rabs_no_R0; exact S0). ring.
    + unfold pdot, p, c, Rsqr. simpl.
      replace (sin phi / sin th * (sin phi / sin th)) with (sin phi * sin phi * (sin th * sin th + cos th * cos th) / (sin th * sin th)) by (rewrite T; field; exact S0). field. exact S0.
  - unfold pdot, p, c. simpl.
    replace (h * PI) with (phi + th) by (unfold th; ring). rewrite cos_plus.
    transitivity (sin th * (cos phi * cos phi + sin phi * sin phi) - sin th * (cos phi * cos phi) - cos phi * sin phi * cos th); [|]; [field; exact S0|ring].
Qed.
Print Assumptions C62_hcircle.

(** Flat circles are replaced by the vertical line through the point. *)
Theorem C62_hcircle_line : forall eps n h, (1 <= n)%nat -> let phi := (2 * h + 1) * PI / INR n in
  Rabs (sin (h * PI - phi)) < eps -> hcircle eps n h = Some (mkV2 (cos phi) (sin phi), 0).
Proof.
  intros eps n h Hn phi Hs. unfold hcircle. rewrite fdiv_some by (apply not_0_INR; lia). cbn [bind]. fold phi. cbn [px].
  destruct (Rlt_dec (Rabs (sin (h * PI - phi))) eps); [reflexivity|contradiction].
Qed.
Print Assumptions C62_hcircle_line.

(** Both ends of the family are the domain boundary. *)
Theorem C62_hcircle_ends : forall eps n, 0 < eps ->
  ((2 <= n)%nat -> eps <= sin (PI / INR n) -> hcircle eps n 0 = Some (mkV2 0 0, 1)) /\
  ((4 <= n)%nat -> eps <= sin (3 * PI / INR n) -> hcircle eps n 1 = Some (mkV2 0 0, 1)) /\
  hcircle eps 3 1 = Some (mkV2 (-1) 0, 0).
Proof.
  intros eps n He.
  assert (One : forall c, c = 0 -> forall t, pnorm (mkV2 c 0 -p mkV2 (cos t) (sin t)) = 1).
  { intros c -> t. unfold pnorm, pdot. simpl. pose proof (sin2_cos2 t) as T. unfold Rsqr in T. rewrite <- sqrt_1. f_equal. lra. }
  split; [|split].
  - intros Hn Hs. assert (N : INR n <> 0) by (apply not_0_INR; lia). unfold hcircle. rewrite fdiv_some by exact N. cbn [bind px py].
    replace ((2 * 0 + 1) * PI / INR n) with (PI / INR n) by (field; exact N). set (t := PI / INR n) in *.
    replace (0 * PI - t) with (- t) by ring. rewrite sin_neg, cos_neg, Rabs_Ropp.
    destruct (Rlt_dec (Rabs (sin t)) eps) as [L|_]; [rewrite Rabs_right in L; lra|].
    rewrite fdiv_some by lra. cbn [bind].
    assert (Z : cos t + sin t * cos t / - sin t = 0) by (field; lra). rewrite (One _ Z). rewrite Z. reflexivity.
  - intros Hn Hs. assert (N : INR n <> 0) by (apply not_0_INR; lia). unfold hcircle. rewrite fdiv_some by exact N. cbn [bind px py].
    replace ((2 * 1 + 1) * PI / INR n) with (3 * PI / INR n) by (field; exact N). set (t := 3 * PI / INR n) in *.
    replace (1 * PI - t) with (PI - t) by ring.
    assert (Cp : cos (PI - t) = - cos t) by (rewrite cos_minus, cos_PI, sin_PI; ring).
    assert (Sp : sin (PI - t) = sin t) by (rewrite sin_minus, cos_PI, sin_PI; ring). rewrite Cp, Sp.
    destruct (Rlt_dec (Rabs (sin t)) eps) as [L|_]; [rewrite Rabs_right in L; lra|].
    rewrite fdiv_some by lra. cbn [bind].
    assert (Z : cos t + sin t * - cos t / sin t = 0) by (field; lra). rewrite (One _ Z). rewrite Z. reflexivity.
  - unfold hcircle. assert (N : INR 3 <> 0) by (apply not_0_INR; lia). rewrite fdiv_some by exact N. cbn [bind px py].
    replace ((2 * 1 + 1) * PI / INR 3) with PI by (simpl; field). replace (1 * PI - PI) with 0 by ring. rewrite sin_0, Rabs_R0.
    destruct (Rlt_dec 0 eps); [|contradiction]. rewrite cos_PI, sin_PI. reflexivity.
Qed.
Print Assumptions C62_hcircle_ends.

(** A root of the function handed to the bisection is a circle through the point. *)
Theorem C62_deviation : forall eps n p h c r, hcircle eps n h = Some (c, r) -> 0 <= r ->
  deviation eps n p h = Some 0 ->
  (r = 0 -> px p = px c) /\ (r <> 0 -> pnorm (p -p c) = r).
Proof.
  intros eps n p h c r E Hr D. unfold deviation in D. rewrite E in D. cbn [bind] in D.
  assert (Sy : pnorm (p -p c) = pnorm (c -p p)) by (unfold pnorm; f_equal; unfold pdot; simpl; ring).
  destruct (Req_EM_T r 0) as [R0|R0].
  - injection D as D. split; [intros _; lra|contradiction].
  - split; [contradiction|intros _]. destruct (Rlt_dec (8/10) h) as [_|_]; [injection D as D; lra|].
    unfold fsqrt in D. destruct (Rlt_dec (r * r - (py p - py c) * (py p - py c)) 0) as [|Q]; [discriminate|]. cbn [bind] in D.
    set (q := sqrt (r * r - (py p - py c) * (py p - py c))) in *.
    assert (Qq : q * q = r * r - (py p - py c) * (py p - py c)) by (apply sqrt_sqrt; lra).
    assert (X : (px p - px c) * (px p - px c) = q * q).
    { destruct (Rlt_dec 1 (px c + q)); injection D as D; [replace (px p - px c) with (- q) by lra; ring|replace (px p - px c) with q by lra; reflexivity]. }
    unfold pnorm. replace (pdot (p -p c) (p -p c)) with (Rsqr r) by (unfold pdot, Rsqr; simpl; lra).
    rewrite sqrt_Rsqr_abs. apply Rabs_right. lra.
Qed.
Print Assumptions C62_deviation.

(** The outer ring of a six-sided disk at resolution 2 starts at index 7; with four
    sides the circle half way is the line x = 0. *)
Example C62_example :
  (forall ps, parametersImplCircle 6 2 = Some ps -> nth_error ps 10 = Some (mkV2 1 (PI / 2))) /\
  (forall eps, 0 < eps <= 1/2 -> hcircle eps 4 0 = Some (mkV2 0 0, 1)) /\
  (forall eps, 0 < eps -> hcircle eps 4 (1/2) = Some (mkV2 0 1, 0)).
Proof.
  split; [|split].
  - intros ps E. destruct (C62_points 6 2 ps ltac:(lia) ltac:(lia) E) as [_ P]. specialize (P 2%nat 3%nat ltac:(lia) ltac:(lia)).
    change (1 + 6 * 2 * (2 - 1) / 2 + 3)%nat with 10%nat in P. rewrite P. f_equal. apply V2_ext; cbn [px py]; simpl; field.
  - intros eps He. apply (proj1 (C62_hcircle_ends eps 4 ltac:(lra))); [lia|]. replace (PI / INR 4) with (PI / 4) by (simpl; field). rewrite sin_PI4.
    assert (D : sqrt 2 * sqrt 2 = 2) by (apply sqrt_sqrt; lra). assert (0 < sqrt 2) by (apply sqrt_lt_R0; lra). assert (sqrt 2 <= 2) by nra.
    apply Rle_trans with (1/2); [lra|]. apply (Rmult_le_reg_r (sqrt 2)); [lra|]. replace (1 / sqrt 2 * sqrt 2) with 1 by (field; lra). lra.
  - intros eps He. pose proof (C62_hcircle_line eps 4 (1/2) ltac:(lia)) as L. cbv zeta in L.
    replace ((2 * (1/2) + 1) * PI / INR 4) with (PI / 2) in L by (simpl; field). replace (1/2 * PI - PI/2) with 0 in L by field.
    rewrite sin_0, Rabs_R0, cos_PI2, sin_PI2 in L. apply L. exact He.
Qed.
