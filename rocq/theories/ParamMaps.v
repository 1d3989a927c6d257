(** The bilinear map and ribbon coordinates on the boundary. *)

From Verif Require Import Base MeshModel GeomSpec DomainModel UtilModel ParamModel.
From Verif Require Import DomainProofs DomainPolygons UtilProofs ParamBary.
Open Scope R_scope.

(** ** The quadratic equation *)
Lemma bilinearLocal_spec : forall eps p1 p2 s t, 0 < eps -> 0 <= s <= 1 ->
  let k := px p2 * py p1 - py p2 * px p1 in
  let J0 := py p1 + t * k in let J1 := py p2 + t * k in
  let j := (1 - s) * J0 + s * J1 in
  0 < py p1 -> 0 < py p2 -> 0 < J0 -> 0 < J1 ->
  (py p1 = py p2 /\ eps <= j \/ eps <= Rabs (py p1 - py p2) /\ eps <= j * j) ->
  bilinearLocal eps p1 p2 (mkV2 s 0 +p (p1 *p (1 - s) +p p2 *p s) *p t) = Some (mkV2 s t).
Proof.
  intros eps p1 p2 s t He Hs k J0 J1 j H1 H2 HJ0 HJ1 Hc.
  assert (Jp : 0 < j).
  { unfold j. destruct (Rle_lt_dec s (1/2)).
    - assert (0 <= s * J1) by (apply Rmult_le_pos; lra). assert (0 < (1 - s) * J0) by (apply Rmult_lt_0_compat; lra). lra.
    - assert (0 < s * J1) by (apply Rmult_lt_0_compat; lra). assert (0 <= (1 - s) * J0) by (apply Rmult_le_pos; lra). lra. }
  assert (W : 0 < py p1 * (1 - s) + py p2 * s).
  { destruct (Rle_lt_dec s (1/2)).
    - assert (0 <= py p2 * s) by (apply Rmult_le_pos; lra). assert (0 < py p1 * (1 - s)) by (apply Rmult_lt_0_compat; lra). lra.
    - assert (0 < py p2 * s) by (apply Rmult_lt_0_compat; lra). assert (0 <= py p1 * (1 - s)) by (apply Rmult_le_pos; lra). lra. }
  unfold bilinearLocal. cbn [padd pscale px py].
  set (a := py p1 - py p2).
  set (b := _ - _ * py p1 + _). set (c := _ - _ * px p1).
  assert (Hb : b = - j - 2 * a * s) by (unfold b, j, J0, J1, k, a; ring).
  assert (Hcc : c = a * s * s + j * s) by (unfold c, j, J0, J1, k, a; ring).
  assert (Hj0 : j = J1 + (1 - s) * a) by (unfold j, J0, J1, a; ring).
  assert (Hj1 : j = J0 - s * a) by (unfold j, J0, J1, a; ring).
  assert (Sol : bilinearSolve eps a b c = Some s).
  { unfold bilinearSolve. destruct Hc as [[E L]|[A L]].
    - assert (Za : a = 0) by (unfold a; lra). rewrite Za in *.
      rewrite Rabs_R0. destruct (Rlt_dec 0 eps) as [_|]; [|lra].
      assert (Eb : b = - j) by lra. assert (Ec : c = j * s) by lra. rewrite Eb, Ec, Rabs_Ropp, Rabs_pos_eq by lra.
      destruct (Rlt_dec j eps) as [|_]; [lra|]. rewrite fdiv_some by lra. f_equal. field. lra.
    - fold a in A. destruct (Rlt_dec (Rabs a) eps) as [|_]; [lra|].
      assert (Na : a <> 0) by (intros Z; rewrite Z, Rabs_R0 in A; lra).
      replace (b * b - 4 * a * c) with (j * j) by (rewrite Hb, Hcc; ring).
      destruct (Rlt_dec (j * j) eps) as [|_]; [lra|].
      rewrite sqrt_square by lra. rewrite !fdiv_some by lra. cbn [bind].
      replace (- b / (2 * a) + j / (2 * a)) with (s + j / a) by (rewrite Hb; field; exact Na).
      replace (- b / (2 * a) - j / (2 * a)) with s by (rewrite Hb; field; exact Na).
      destruct (Rtotal_order a 0) as [An|[Az|Ap]]; [|contradiction|].
      + assert (j / a < - s).
        { apply (Rmult_lt_reg_r (- a)); [lra|]. replace (j / a * - a) with (- j) by (field; exact Na). nra. }
        destruct (Rlt_dec (s + j / a) s) as [_|]; [|lra].
        rewrite (Rmax_left 0 (s - 1)) by lra. rewrite (Rmax_right 0 (- (s + j / a))) by lra.
        destruct (Rlt_dec 0 (- (s + j / a))); [reflexivity|lra].
      + assert (1 - s < j / a).
        { apply (Rmult_lt_reg_r a); [lra|]. replace (j / a * a) with j by (field; exact Na). nra. }
        destruct (Rlt_dec (s + j / a) s) as [|_]; [lra|].
        rewrite (Rmax_right 0 (s + j / a - 1)) by lra. rewrite (Rmax_left 0 (- s)) by lra.
        destruct (Rlt_dec (s + j / a - 1) 0); [lra|reflexivity]. }
  rewrite Sol. cbn [bind]. rewrite fdiv_some by lra. cbn [bind]. do 2 f_equal. field. lra.
Qed.

(** When the two neighbouring sides have the same height the map is defined
    everywhere. *)
Lemma bilinearLocal_total : forall eps p1 p2 p, 0 < eps -> py p1 = py p2 -> 0 < py p1 ->
  exists r, bilinearLocal eps p1 p2 p = Some r.
Proof.
  intros eps p1 p2 p He E Hp. unfold bilinearLocal, bilinearSolve.
  replace (py p1 - py p2) with 0 by lra. rewrite Rabs_R0. destruct (Rlt_dec 0 eps) as [_|]; [|lra].
  match goal with |- context [Rlt_dec (Rabs ?b) eps] => destruct (Rlt_dec (Rabs b) eps) as [L|L]; set (bb := b) in * end.
  - cbn [bind]. rewrite fdiv_some by lra. eexists; reflexivity.
  - rewrite fdiv_some. 2:{ intros Z. apply L. rewrite Z, Rabs_R0. exact He. }
    cbn [bind]. rewrite fdiv_some. 2:{ rewrite <- E. intros Z. ring_simplify in Z. lra. }
    eexists; reflexivity.
Qed.

(** ** Frames of a convex domain *)
Section Dom.
Variables (c : V2) (vs : list V2) (d : dom).
Let n := length vs.
Hypothesis Hd : domainFrames c vs = Some d.
Hypothesis H3 : (3 <= n)%nat.
Hypothesis C : strictly_convex vs.
Hypothesis I : inside vs c.

Lemma H2n : (2 <= length vs)%nat.
Proof. unfold n in H3; lia. Qed.
Lemma d_n_eq : d_n d = n.
Proof. rewrite (d_eq c vs d Hd). reflexivity. Qed.
Lemma d_verts_eq : d_verts d = vs.
Proof. rewrite (d_eq c vs d Hd). reflexivity. Qed.

Lemma verts_nth : forall i, (i < n)%nat -> nth_error (d_verts d) i = Some (vtx vs i).
Proof. intros i Hi. rewrite d_verts_eq. apply nth_error_nth'; exact Hi. Qed.

Lemma sidevec_nz : forall i, (i < n)%nat -> sidevec vs i <> pzero.
Proof.
  intros i Hi E.
  assert (X : 0 < sarea (vtx vs (prv n i)) (vtx vs i) (vtx vs (nxt n i))).
  { apply C; [exact Hi|apply nxt_lt; lia|apply nxt_neq; lia|apply nxt_prv_neq; lia]. }
  unfold sarea in X. unfold sidevec in E. fold n in E. rewrite E in X. unfold pcross, pzero in X; simpl in X. lra.
Qed.

Definition len2 (i : nat) : R := pnorm2 (sidevec vs i).
Lemma len2_pos : forall i, (i < n)%nat -> 0 < len2 i.
Proof.
  intros i Hi. unfold len2, pnorm2. destruct (pnorm2_pos (sidevec vs i)) as [L|E]; [exact L|].
  exfalso; apply (sidevec_nz i Hi), pdot_zero; symmetry; exact E.
Qed.

Lemma local_closed : forall i v, (i < n)%nat ->
  toLocal d i v = Some (mkV2 (pdot v (sidevec vs i) / len2 i) (pcross (sidevec vs i) v / len2 i)).
Proof.
  intros i v Hi. rewrite (toLocal_eq c vs d Hd i Hi v (sidevec_nz i Hi)).
  rewrite (frame_left c vs i (I i Hi)). do 2 f_equal. unfold pdot, pcross; simpl.
  unfold len2, pnorm2, pdot. f_equal. ring.
Qed.

(** The bilinear image of (s,t) for side [i]. *)
Definition biImage (i : nat) (s t : R) : V2 :=
  (vtx vs (prv n i) *p (1 - s) +p vtx vs i *p s)
  +p ((vtx vs (prv n (prv n i)) -p vtx vs (prv n i)) *p (1 - s) +p (vtx vs (nxt n i) -p vtx vs i) *p s) *p t.

(** Heights of the two neighbouring vertices over side [i], and the Jacobian
    of the bilinear map, in units of the side length. *)
Definition heightPrev (i : nat) : R := sarea (vtx vs (prv n i)) (vtx vs i) (vtx vs (prv n (prv n i))) / len2 i.
Definition heightNext (i : nat) : R := sarea (vtx vs (prv n i)) (vtx vs i) (vtx vs (nxt n i)) / len2 i.
Definition biJac (i : nat) (s t : R) : R :=
  pcross (sidevec vs i +p ((vtx vs (nxt n i) -p vtx vs i) -p (vtx vs (prv n (prv n i)) -p vtx vs (prv n i))) *p t)
    ((vtx vs (prv n (prv n i)) -p vtx vs (prv n i)) *p (1 - s) +p (vtx vs (nxt n i) -p vtx vs i) *p s) / len2 i.

(** The tolerance conditions under which the solver is exact. *)
Definition solvable (eps : R) (i : nat) (s t : R) : Prop :=
  heightPrev i = heightNext i /\ eps <= biJac i s t \/
  eps <= Rabs (heightPrev i - heightNext i) /\ eps <= biJac i s t * biJac i s t.

Lemma prv2_eq : forall i, (i < n)%nat -> prv2 n i = prv n (prv n i).
Proof.
  intros i Hi. unfold prv2. rewrite (prv_cases n (prv n i)) by (apply prv_lt; lia). rewrite prv_cases by exact Hi.
  destruct (Nat.eqb_spec i 0) as [->|E0].
  - destruct (Nat.eqb_spec (n - 1) 0); [lia|]. rewrite Nat.mod_small by lia. lia.
  - destruct (Nat.eqb_spec (i - 1) 0) as [E1|E1].
    + replace i with 1%nat by lia. rewrite Nat.mod_small by lia. lia.
    + replace (i + n - 2)%nat with (i - 2 + 1 * n)%nat by lia. rewrite Nat.mod_add by lia. rewrite Nat.mod_small by lia. lia.
Qed.

Definition loc1 (i : nat) : V2 :=
  let v := vtx vs (prv n (prv n i)) -p vtx vs (prv n i) in
  mkV2 (pdot v (sidevec vs i) / len2 i) (pcross (sidevec vs i) v / len2 i).
Definition loc2 (i : nat) : V2 :=
  let v := vtx vs (nxt n i) -p vtx vs i in
  mkV2 (pdot v (sidevec vs i) / len2 i) (pcross (sidevec vs i) v / len2 i).

Lemma bilinearMap_closed : forall eps i uv, (i < n)%nat ->
  bilinearMap eps d i uv =
  bilinearLocal eps (loc1 i) (loc2 i)
    (mkV2 (pdot (uv -p vtx vs (prv n i)) (sidevec vs i) / len2 i) (pcross (sidevec vs i) (uv -p vtx vs (prv n i)) / len2 i)).
Proof.
  intros eps i uv Hi. unfold bilinearMap. rewrite d_n_eq, prv2_eq by exact Hi.
  rewrite !verts_nth by (repeat first [apply prv_lt|apply nxt_lt]; lia). cbn [bind].
  rewrite !local_closed by exact Hi. reflexivity.
Qed.

Lemma loc1_y : forall i, (i < n)%nat -> py (loc1 i) = heightPrev i.
Proof. intros i Hi. unfold loc1, heightPrev, sarea, sidevec. fold n. reflexivity. Qed.
Lemma loc2_y : forall i, (i < n)%nat -> py (loc2 i) = heightNext i.
Proof. intros i Hi. unfold loc2, heightNext, sarea, sidevec. fold n. simpl. unfold Rdiv. f_equal. unfold pcross; simpl; ring. Qed.

Lemma heightPrev_pos : forall i, (i < n)%nat -> 0 < heightPrev i.
Proof.
  intros i Hi. unfold heightPrev. apply Rdiv_lt_0_compat; [|apply len2_pos; exact Hi].
  assert (Hp : (prv n i < n)%nat) by (apply prv_lt; lia).
  assert (X := corner_pos vs H2n C H3 (prv n i) Hp). unfold corner in X. fold n in X. rewrite nxt_prv in X by exact Hi.
  replace (sarea (vtx vs (prv n i)) (vtx vs i) (vtx vs (prv n (prv n i))))
    with (sarea (vtx vs (prv n (prv n i))) (vtx vs (prv n i)) (vtx vs i)) by (unfold sarea, pcross; simpl; ring).
  lra.
Qed.
Lemma heightNext_pos : forall i, (i < n)%nat -> 0 < heightNext i.
Proof.
  intros i Hi. unfold heightNext. apply Rdiv_lt_0_compat; [|apply len2_pos; exact Hi].
  assert (X := corner_pos vs H2n C H3 i Hi). unfold corner in X. fold n in X. lra.
Qed.

(** The Jacobian is affine in both variables. *)
Lemma biJac_local : forall i s t, (i < n)%nat ->
  let k := px (loc2 i) * py (loc1 i) - py (loc2 i) * px (loc1 i) in
  biJac i s t = (1 - s) * (py (loc1 i) + t * k) + s * (py (loc2 i) + t * k).
Proof.
  intros i s t Hi. pose proof (len2_pos i Hi) as L. unfold biJac, loc1, loc2. cbn [px py].
  set (u := sidevec vs i) in *. set (w := vtx vs (prv n (prv n i)) -p vtx vs (prv n i)). set (z := vtx vs (nxt n i) -p vtx vs i).
  assert (E : len2 i = px u * px u + py u * py u) by reflexivity.
  unfold pcross, pdot; cbn [padd psub pscale px py]. 
  replace (pdot z u / len2 i) with (pdot z u / len2 i) by reflexivity.
  assert (K : (px z * px u + py z * py u) / len2 i * ((px u * py w - py u * px w) / len2 i)
    - (px u * py z - py u * px z) / len2 i * ((px w * px u + py w * py u) / len2 i)
    = (px z * py w - py z * px w) / len2 i).
  { apply (Rmult_eq_reg_r (len2 i * len2 i)); [|nra].
    replace (((px z * px u + py z * py u) / len2 i * ((px u * py w - py u * px w) / len2 i)
    - (px u * py z - py u * px z) / len2 i * ((px w * px u + py w * py u) / len2 i)) * (len2 i * len2 i))
      with ((px z * px u + py z * py u) * (px u * py w - py u * px w) - (px u * py z - py u * px z) * (px w * px u + py w * py u))
      by (field; lra).
    replace ((px z * py w - py z * px w) / len2 i * (len2 i * len2 i)) with ((px z * py w - py z * px w) * len2 i) by (field; lra).
    rewrite E. ring. }
  rewrite K. field. lra.
Qed.

Lemma biImage_local : forall i s t, (i < n)%nat ->
  mkV2 (pdot (biImage i s t -p vtx vs (prv n i)) (sidevec vs i) / len2 i) (pcross (sidevec vs i) (biImage i s t -p vtx vs (prv n i)) / len2 i)
  = mkV2 s 0 +p (loc1 i *p (1 - s) +p loc2 i *p s) *p t.
Proof.
  intros i s t Hi. pose proof (len2_pos i Hi) as L. unfold biImage, loc1, loc2.
  set (u := sidevec vs i) in *.
  assert (E : len2 i = px u * px u + py u * py u) by reflexivity.
  assert (Eu : vtx vs i = vtx vs (prv n i) +p u) by (unfold u, sidevec; fold n; apply V2_ext; simpl; ring).
  set (w := vtx vs (prv n (prv n i)) -p vtx vs (prv n i)). set (z := vtx vs (nxt n i) -p vtx vs i).
  rewrite Eu. set (o := vtx vs (prv n i)).
  apply V2_ext; unfold pdot, pcross; cbn [padd psub pscale px py].
  - apply (Rmult_eq_reg_r (len2 i)); [|lra]. field_simplify; [|lra|lra]. rewrite E. ring.
  - field. lra.
Qed.

Lemma bilinear_inverse : forall eps i s t, (i < n)%nat -> 0 < eps -> 0 <= s <= 1 ->
  0 < biJac i 0 t -> 0 < biJac i 1 t -> solvable eps i s t ->
  bilinearMap eps d i (biImage i s t) = Some (mkV2 s t).
Proof.
  intros eps i s t Hi He Hs J0 J1 Hc. rewrite bilinearMap_closed by exact Hi. rewrite biImage_local by exact Hi.
  unfold solvable in Hc. rewrite !biJac_local in J0, J1 by exact Hi. rewrite biJac_local in Hc by exact Hi.
  rewrite <- loc1_y, <- loc2_y in Hc by exact Hi.
  apply bilinearLocal_spec; try assumption.
  - rewrite loc1_y by exact Hi. apply heightPrev_pos; exact Hi.
  - rewrite loc2_y by exact Hi. apply heightNext_pos; exact Hi.
  - lra.
  - lra.
Qed.

(** In a convex polygon the Jacobian is positive over the quadrilateral. *)
Lemma jac_positive : forall i s t, (i < n)%nat -> 0 <= s <= 1 -> 0 <= t <= 1 -> ((4 <= n)%nat \/ t < 1) -> 0 < biJac i s t.
Proof.
  intros i s t Hi Hs Ht Hq.
  assert (Hp : (prv n i < n)%nat) by (apply prv_lt; lia).
  assert (Hpp : (prv n (prv n i) < n)%nat) by (apply prv_lt; lia).
  assert (Hx : (nxt n i < n)%nat) by (apply nxt_lt; lia).
  pose proof (len2_pos i Hi) as L.
  assert (E : biJac i s t = ((1 - t) * ((1 - s) * heightPrev i + s * heightNext i))
    + t * ((1 - s) * (sarea (vtx vs (prv n (prv n i))) (vtx vs (prv n i)) (vtx vs (nxt n i)) / len2 i)
         + s * (sarea (vtx vs i) (vtx vs (nxt n i)) (vtx vs (prv n (prv n i))) / len2 i))).
  { unfold biJac, heightPrev, heightNext, sarea, sidevec. fold n. unfold pcross; simpl. field. lra. }
  assert (A : 0 <= sarea (vtx vs (prv n (prv n i))) (vtx vs (prv n i)) (vtx vs (nxt n i)) /\
              0 <= sarea (vtx vs i) (vtx vs (nxt n i)) (vtx vs (prv n (prv n i))) /\
              ((4 <= n)%nat -> 0 < sarea (vtx vs (prv n (prv n i))) (vtx vs (prv n i)) (vtx vs (nxt n i)) /\
                         0 < sarea (vtx vs i) (vtx vs (nxt n i)) (vtx vs (prv n (prv n i))))).
  { destruct (Nat.eq_dec n 3) as [E3|N3].
    - assert (Q : prv n (prv n i) = nxt n i).
      { rewrite (prv_cases n (prv n i)) by exact Hp. rewrite (prv_cases n i), (nxt_cases n i) by exact Hi.
        destruct (Nat.eqb_spec i 0); destruct (Nat.eqb_spec (S i) n);
          repeat match goal with |- context [(?a =? ?b)%nat] => destruct (Nat.eqb_spec a b) end; lia. }
      rewrite Q. repeat split; try lia; unfold sarea, pcross; simpl; lra.
    - assert (Q : prv n (prv n i) <> nxt n i /\ prv n (prv n i) <> i).
      { rewrite (prv_cases n (prv n i)) by exact Hp. rewrite (prv_cases n i), (nxt_cases n i) by exact Hi.
        destruct (Nat.eqb_spec i 0); destruct (Nat.eqb_spec (S i) n);
          repeat match goal with |- context [(?a =? ?b)%nat] => destruct (Nat.eqb_spec a b) end; lia. }
      assert (X1 : 0 < sarea (vtx vs (prv n (prv n i))) (vtx vs (prv n i)) (vtx vs (nxt n i))).
      { apply C; try assumption; [apply nxt_prv_neq; lia|]. intros E'; apply (proj1 Q); symmetry; exact E'. }
      assert (X2 : 0 < sarea (vtx vs i) (vtx vs (nxt n i)) (vtx vs (prv n (prv n i)))).
      { pose proof (C (nxt n i) (prv n (prv n i)) Hx Hpp (proj1 Q)) as X. fold n in X. rewrite prv_nxt in X by exact Hi.
        apply X. exact (proj2 Q). }
      repeat split; try lra; intros _; assumption. }
  destruct A as (A1 & A2 & A3).
  pose proof (heightPrev_pos i Hi) as P1. pose proof (heightNext_pos i Hi) as P2.
  assert (B1 : 0 < (1 - s) * heightPrev i + s * heightNext i).
  { destruct (Rle_lt_dec s (1/2)).
    - assert (0 <= s * heightNext i) by (apply Rmult_le_pos; lra). assert (0 < (1 - s) * heightPrev i) by (apply Rmult_lt_0_compat; lra). lra.
    - assert (0 < s * heightNext i) by (apply Rmult_lt_0_compat; lra). assert (0 <= (1 - s) * heightPrev i) by (apply Rmult_le_pos; lra). lra. }
  rewrite E.
  set (h1 := sarea (vtx vs (prv n (prv n i))) (vtx vs (prv n i)) (vtx vs (nxt n i))) in *.
  set (h2 := sarea (vtx vs i) (vtx vs (nxt n i)) (vtx vs (prv n (prv n i)))) in *.
  assert (D1 : 0 <= h1 / len2 i) by (apply Rmult_le_pos; [exact A1|left; apply Rinv_0_lt_compat; exact L]).
  assert (D2 : 0 <= h2 / len2 i) by (apply Rmult_le_pos; [exact A2|left; apply Rinv_0_lt_compat; exact L]).
  assert (B2 : 0 <= (1 - s) * (h1 / len2 i) + s * (h2 / len2 i)).
  { assert (0 <= (1 - s) * (h1 / len2 i)) by (apply Rmult_le_pos; lra). assert (0 <= s * (h2 / len2 i)) by (apply Rmult_le_pos; lra). lra. }
  destruct (Rlt_dec t 1) as [T1|T1].
  - assert (0 < (1 - t) * ((1 - s) * heightPrev i + s * heightNext i)) by (apply Rmult_lt_0_compat; lra).
    assert (0 <= t * ((1 - s) * (h1 / len2 i) + s * (h2 / len2 i))) by (apply Rmult_le_pos; lra). lra.
  - assert (Tt : t = 1) by lra. destruct Hq as [Q|Q]; [|lra]. destruct (A3 Q) as [F1 F2]. rewrite Tt.
    assert (0 < h1 / len2 i) by (apply Rdiv_lt_0_compat; assumption).
    assert (0 < h2 / len2 i) by (apply Rdiv_lt_0_compat; assumption).
    assert (0 < (1 - s) * (h1 / len2 i) + s * (h2 / len2 i)).
    { destruct (Rle_lt_dec s (1/2)).
      - assert (0 <= s * (h2 / len2 i)) by (apply Rmult_le_pos; lra). assert (0 < (1 - s) * (h1 / len2 i)) by (apply Rmult_lt_0_compat; lra). lra.
      - assert (0 < s * (h2 / len2 i)) by (apply Rmult_lt_0_compat; lra). assert (0 <= (1 - s) * (h1 / len2 i)) by (apply Rmult_le_pos; lra). lra. }
    lra.
Qed.

Lemma bilinear_in_quad : forall eps i s t, (i < n)%nat -> 0 < eps -> 0 <= s <= 1 -> 0 <= t <= 1 ->
  ((4 <= n)%nat \/ t < 1) -> solvable eps i s t ->
  bilinearMap eps d i (biImage i s t) = Some (mkV2 s t).
Proof.
  intros eps i s t Hi He Hs Ht Hq Hc. apply bilinear_inverse; try assumption; apply jac_positive; try assumption; lra.
Qed.

(** ** On side [e] *)
Lemma side_image : forall e s, (e < n)%nat -> sidePt vs e s = biImage e s 0.
Proof. intros e s He. unfold sidePt, biImage. fold n. apply V2_ext; simpl; ring. Qed.
Lemma side_image_next : forall e s, (e < n)%nat -> sidePt vs e s = biImage (nxt n e) 0 (1 - s).
Proof. intros e s He. unfold sidePt, biImage. fold n. rewrite prv_nxt by exact He. apply V2_ext; simpl; ring. Qed.
Lemma side_image_prev : forall e s, (e < n)%nat -> sidePt vs e s = biImage (prv n e) 1 s.
Proof. intros e s He. unfold sidePt, biImage. fold n. rewrite nxt_prv by exact He. apply V2_ext; simpl; ring. Qed.

Lemma bilinear_on_side : forall eps e s, (e < n)%nat -> 0 < eps -> 0 <= s <= 1 -> ((4 <= n)%nat \/ 0 < s < 1) ->
  solvable eps e s 0 -> solvable eps (nxt n e) 0 (1 - s) -> solvable eps (prv n e) 1 s ->
  bilinearMap eps d e (sidePt vs e s) = Some (mkV2 s 0) /\
  bilinearMap eps d (nxt n e) (sidePt vs e s) = Some (mkV2 0 (1 - s)) /\
  bilinearMap eps d (prv n e) (sidePt vs e s) = Some (mkV2 1 s).
Proof.
  intros eps e s He Hp Hs Hq S1 S2 S3. repeat split.
  - rewrite (side_image e s He). apply bilinear_in_quad; try assumption; [lra|right; lra].
  - rewrite (side_image_next e s He). apply bilinear_in_quad; try assumption; [apply nxt_lt; lia|lra|lra|].
    destruct Hq; [left; assumption|right; lra].
  - rewrite (side_image_prev e s He). apply bilinear_in_quad; try assumption; [apply prv_lt; lia|lra|].
    destruct Hq; [left; assumption|right; lra].
Qed.

(** Same heights: defined at every point. *)
Lemma bilinear_total : forall eps i uv, (i < n)%nat -> 0 < eps -> heightPrev i = heightNext i ->
  exists r, bilinearMap eps d i uv = Some r.
Proof.
  intros eps i uv Hi He E. rewrite bilinearMap_closed by exact Hi. apply bilinearLocal_total; [exact He| |].
  - rewrite loc1_y, loc2_y by exact Hi. exact E.
  - rewrite loc1_y by exact Hi. apply heightPrev_pos; exact Hi.
Qed.

Lemma interconnected_on_side : forall eps e s, (e < n)%nat ->
  bilinearMap eps d e (sidePt vs e s) = Some (mkV2 s 0) ->
  bilinearMap eps d (nxt n e) (sidePt vs e s) = Some (mkV2 0 (1 - s)) ->
  bilinearMap eps d (prv n e) (sidePt vs e s) = Some (mkV2 1 s) ->
  (exists r, bilinearMap eps d (nxt n (nxt n e)) (sidePt vs e s) = Some r) ->
  (exists r, bilinearMap eps d (prv n (prv n e)) (sidePt vs e s) = Some r) ->
  interconnectedMap eps d e (sidePt vs e s) = Some (mkV2 s 0) /\
  interconnectedMap eps d (nxt n e) (sidePt vs e s) = Some (mkV2 0 (1 - s)) /\
  interconnectedMap eps d (prv n e) (sidePt vs e s) = Some (mkV2 1 s).
Proof.
  intros eps e s He B0 B1 B2 (r3 & B3) (r4 & B4). unfold interconnectedMap. rewrite d_n_eq.
  rewrite prv_nxt, nxt_prv by exact He. rewrite B0, B1, B2, B3, B4. cbn [bind px py].
  repeat split; do 2 f_equal; unfold hermite; ring.
Qed.

(** Parallel. *)
Lemma maxDist_some : forall i, (i < n)%nat -> exists m, maxDist d i = Some m /\ 0 < m /\
  (forall j, (j < n)%nat -> sarea (vtx vs (prv n i)) (vtx vs i) (vtx vs j) / len2 i <= m) /\
  exists j, (j < n)%nat /\ m = sarea (vtx vs (prv n i)) (vtx vs i) (vtx vs j) / len2 i.
Proof.
  intros i Hi. unfold maxDist. rewrite verts_nth by exact Hi. cbn [bind]. rewrite d_verts_eq.
  set (ht := fun p => sarea (vtx vs (prv n i)) (vtx vs i) p / len2 i).
  assert (T : forall p, toLocal d i (p -p vtx vs i) = Some (mkV2 (pdot (p -p vtx vs i) (sidevec vs i) / len2 i) (ht p))).
  { intros p. rewrite local_closed by exact Hi. do 2 f_equal. unfold ht, sarea, sidevec. fold n. unfold pcross; simpl. unfold Rdiv; f_equal; ring. }
  assert (G : forall l m, exists m', foldM (fun m p => lo <- toLocal d i (p -p vtx vs i) ;; Some (if Rlt_dec m (py lo) then py lo else m)) m l = Some m' /\
    m <= m' /\ (forall p, In p l -> ht p <= m') /\ (m' = m \/ exists p, In p l /\ m' = ht p)).
  { induction l as [|p l IH]; intros m; cbn [foldM].
    - exists m. repeat split; [lra|intros p []|left; reflexivity].
    - rewrite T. cbn [bind py].
      destruct (IH (if Rlt_dec m (ht p) then ht p else m)) as (m' & E & A & B & D). exists m'. split; [exact E|].
      destruct (Rlt_dec m (ht p)).
      + repeat split; [lra| |].
        * intros q [->|Q]; [lra|apply B; exact Q].
        * right. destruct D as [D|(q & Q & D)]; [exists p; split; [left; reflexivity|exact D]|exists q; split; [right; exact Q|exact D]].
      + repeat split; [lra| |].
        * intros q [->|Q]; [lra|apply B; exact Q].
        * destruct D as [D|(q & Q & D)]; [left; exact D|right; exists q; split; [right; exact Q|exact D]]. }
  destruct (G vs 0) as (m & E & A & B & D). exists m. split; [exact E|].
  assert (V : forall j, (j < n)%nat -> In (vtx vs j) vs) by (intros j Hj; apply nth_In; exact Hj).
  assert (Pm : 0 < m).
  { pose proof (heightNext_pos i Hi) as P. specialize (B (vtx vs (nxt n i)) (V _ (nxt_lt n i ltac:(lia)))).
    unfold ht in B. unfold heightNext in P. lra. }
  split; [exact Pm|]. split; [intros j Hj; apply (B _ (V j Hj))|].
  destruct D as [D|(p & Q & D)]; [lra|]. apply (In_nth _ _ pzero) in Q. destruct Q as (j & Hj & <-).
  exists j. split; [exact Hj|exact D].
Qed.

Lemma multipliers_some : exists ms, parallelMultipliers d = Some ms /\ length ms = n /\
  forall i, (i < n)%nat -> exists m, nth_error ms i = Some m /\ 0 < m.
Proof.
  unfold parallelMultipliers. rewrite d_n_eq.
  rewrite (mapM_seq _ n _ (fun i => match maxDist d i with Some m => 1 / m | None => 0 end)).
  - eexists; split; [reflexivity|]. split; [apply tabulate_length|]. intros i Hi. rewrite tabulate_nth_error by exact Hi.
    destruct (maxDist_some i Hi) as (m & E & P & _). rewrite E. eexists; split; [reflexivity|]. apply Rdiv_lt_0_compat; lra.
  - intros i Hi. destruct (maxDist_some i Hi) as (m & E & P & _). rewrite E. cbn [bind]. apply fdiv_some; lra.
Qed.

Lemma parallel_any : forall eps ms i m uv sd, (i < n)%nat -> nth_error ms i = Some m ->
  bilinearMap eps d i uv = Some sd ->
  parallelMap eps d ms i uv = Some (mkV2 (px sd) (sarea (vtx vs (prv n i)) (vtx vs i) uv / len2 i * m)).
Proof.
  intros eps ms i m uv sd Hi Hm B. unfold parallelMap. rewrite B. cbn [bind]. rewrite verts_nth by exact Hi. cbn [bind].
  rewrite local_closed by exact Hi. cbn [bind py]. rewrite Hm. cbn [bind]. do 2 f_equal. f_equal.
  unfold sarea, sidevec. fold n. unfold pcross; simpl. unfold Rdiv; f_equal; ring.
Qed.

(** ** Barycentric ribbon coordinates *)
Lemma angle_some : forall i, (i < n)%nat -> exists a, angle d i = Some a.
Proof.
  intros i Hi. unfold angle. rewrite d_n_eq, !verts_nth by (try apply prv_lt; try apply nxt_lt; lia). cbn [bind].
  assert (N1 : pnorm (vtx vs (prv n i) -p vtx vs i) <> 0).
  { intros E. apply pnorm_zero in E. apply (sidevec_nz i Hi). unfold sidevec. fold n.
    assert (Ex := f_equal px E). assert (Ey := f_equal py E). simpl in Ex, Ey. apply V2_ext; simpl; lra. }
  assert (N2 : pnorm (vtx vs (nxt n i) -p vtx vs i) <> 0).
  { intros E. apply pnorm_zero in E. apply (sidevec_nz (nxt n i)); [apply nxt_lt; lia|]. unfold sidevec. fold n.
    rewrite prv_nxt by exact Hi. exact E. }
  unfold pnormalize. rewrite !pdiv_some by assumption. cbn [bind]. eexists; reflexivity.
Qed.

Lemma edgeLength_some : forall i, (i < n)%nat -> edgeLength d i = Some (pnorm (sidevec vs i)).
Proof. intros i Hi. unfold edgeLength. rewrite d_n_eq, !verts_nth by (try apply prv_lt; lia). reflexivity. Qed.

Lemma baryRibbon_total : forall eps l i uv, 0 < eps -> (i < n)%nat -> length l = n -> exists r, baryRibbon eps d l i uv = Some r.
Proof.
  intros eps l i uv He Hi Hl. unfold baryRibbon. rewrite d_n_eq.
  destruct (nth_error_ex _ l i ltac:(lia)) as [li E1]. rewrite E1. cbn [bind].
  destruct (nth_error_ex _ l (prv n i)) as [lp E2]; [rewrite Hl; apply prv_lt; lia|]. rewrite E2. cbn [bind].
  destruct (Rlt_dec (lp + li) eps) as [L|L].
  - assert (Hp : (prv n i < n)%nat) by (apply prv_lt; lia). assert (Hx : (nxt n i < n)%nat) by (apply nxt_lt; lia).
    destruct (angle_some i Hi) as [al A1]. destruct (angle_some _ Hp) as [be A2]. rewrite A1, A2. cbn [bind].
    rewrite !verts_nth by assumption. cbn [bind]. rewrite !local_closed by assumption. cbn [bind].
    rewrite !edgeLength_some by assumption. cbn [bind].
    match goal with |- context [Rlt_dec ?x eps] => set (den := x); destruct (Rlt_dec den eps) end; cbn [bind]; [eexists; reflexivity|].
    rewrite fdiv_some by lra. cbn [bind]. eexists; reflexivity.
  - rewrite fdiv_some by lra. cbn [bind]. eexists; reflexivity.
Qed.

Lemma bary_on_side : forall eps e s, (e < n)%nat -> 0 < eps <= 1 -> eps <= s -> eps <= 1 - s ->
  baryMap Wachspress eps d e (sidePt vs e s) = Some (mkV2 s 0) /\
  baryMap Wachspress eps d (nxt n e) (sidePt vs e s) = Some (mkV2 0 (1 - s)) /\
  baryMap Wachspress eps d (prv n e) (sidePt vs e s) = Some (mkV2 1 s) /\
  forall i, (i < n)%nat -> exists r, baryMap Wachspress eps d i (sidePt vs e s) = Some r.
Proof.
  intros eps e s He Heps H1 H2.
  destruct (side_linear vs e s C H3 He ltac:(lra) d eps d_verts_eq Heps) as (l & B & Ll & L1 & L2 & L0).
  fold n in L2, L0, Ll. unfold baryMap. rewrite B. cbn [bind].
  assert (Hp : (prv n e < n)%nat) by (apply prv_lt; lia). assert (Hx : (nxt n e < n)%nat) by (apply nxt_lt; lia).
  assert (Hpp : (prv n (prv n e) < n)%nat) by (apply prv_lt; lia).
  assert (X0 : nth_error l (nxt n e) = Some 0) by (apply L0; [exact Hx|apply nxt_neq; lia|apply nxt_prv_neq; lia]).
  assert (P0 : nth_error l (prv n (prv n e)) = Some 0).
  { apply L0; [exact Hpp| |apply prv_neq; lia]. intros E. apply (nxt_prv_neq n e H3 He). rewrite <- E at 1. rewrite nxt_prv by exact Hp. reflexivity. }
  repeat split.
  - unfold baryRibbon. rewrite d_n_eq, L1, L2. cbn [bind]. destruct (Rlt_dec (1 - s + s) eps); [lra|].
    rewrite fdiv_some by lra. cbn [bind]. do 2 f_equal; [field; lra|ring].
  - unfold baryRibbon. rewrite d_n_eq, prv_nxt by exact He. rewrite X0, L1. cbn [bind]. destruct (Rlt_dec (s + 0) eps); [lra|].
    rewrite fdiv_some by lra. cbn [bind]. do 2 f_equal; [field; lra|ring].
  - unfold baryRibbon. rewrite d_n_eq, L2, P0. cbn [bind]. destruct (Rlt_dec (0 + (1 - s)) eps); [lra|].
    rewrite fdiv_some by lra. cbn [bind]. do 2 f_equal; [field; lra|ring].
  - intros i Hi. apply baryRibbon_total; [lra|exact Hi|exact Ll].
Qed.

Lemma constrained_on_side : forall eps e s, (e < n)%nat -> 0 < eps -> eps <= s -> eps <= 1 - s ->
  constrainedMap Wachspress eps d e (sidePt vs e s) = Some (mkV2 s 0) /\
  constrainedMap Wachspress eps d (nxt n e) (sidePt vs e s) = Some (mkV2 0 (1 - s)) /\
  constrainedMap Wachspress eps d (prv n e) (sidePt vs e s) = Some (mkV2 1 s).
Proof.
  intros eps e s He Hp H1 H2.
  destruct (bary_on_side eps e s He ltac:(lra) H1 H2) as (B0 & B1 & B2 & BT).
  destruct (BT (nxt n (nxt n e)) (nxt_lt n _ ltac:(lia))) as [r3 B3].
  destruct (BT (prv n (prv n e)) (prv_lt n _ ltac:(lia))) as [r4 B4].
  unfold constrainedMap. rewrite d_n_eq, prv_nxt, nxt_prv by exact He. rewrite B0, B1, B2, B3, B4. cbn [bind].
  unfold constrainedRibbon, singularBlend. cbn [px py filter length map].
  repeat split;
    repeat (match goal with |- context [Rlt_dec ?x eps] => destruct (Rlt_dec x eps); try lra end);
    cbn [length filter Nat.ltb Nat.leb map]; rewrite fdiv_some by (simpl; lra); cbn [bind nth_error map];
    do 2 f_equal; simpl; field.
Qed.

End Dom.
