(** Angles and Voronoi areas of a triangle. *)
From Verif Require Import Base UtilModel LinAlg MeshModel HarmonicModel FEMSpec FEMProofs.
Open Scope R_scope.

Lemma lagrange : forall u v, vdot u u * vdot v v = vdot u v * vdot u v + vdot (vcross u v) (vcross u v).
Proof. intros u v. unfold vdot, vcross; simpl. ring. Qed.

Lemma vnorm_pos : forall u, u <> vzero -> 0 < vnorm u.
Proof. intros u N. destruct (Rle_lt_or_eq_dec 0 (vnorm u) (vnorm_nonneg u)) as [L|E]; [exact L|]. exfalso. apply N, vnorm_zero. symmetry. exact E. Qed.

Lemma vnormalize_some : forall u, u <> vzero -> vnormalize u = Some (u *v (/ vnorm u)).
Proof. intros u N. unfold vnormalize. apply vdiv_some. pose proof (vnorm_pos u N). lra. Qed.

Lemma angle_value : forall u v, u <> vzero -> v <> vzero -> exists al, computeAngle u v = Some al /\
  cos al * (vnorm u * vnorm v) = vdot u v /\ sin al * (vnorm u * vnorm v) = vnorm (vcross u v).
Proof.
  intros u v Nu Nv. pose proof (vnorm_pos u Nu) as Hu. pose proof (vnorm_pos v Nv) as Hv. set (U := vnorm u) in *. set (V := vnorm v) in *.
  set (d := vdot u v). set (S := vnorm (vcross u v)).
  assert (L : U * U * (V * V) = d * d + S * S). { unfold U, V, S, d. rewrite !vnorm_sqr. apply lagrange. }
  set (x := d / (U * V)). assert (HUV : 0 < U * V) by nra.
  assert (Ex : x * (U * V) = d) by (unfold x; field; lra).
  assert (X2 : x * x * (U * V * (U * V)) = d * d) by (rewrite <- Ex; ring).
  assert (HS : 0 <= S) by apply vnorm_nonneg.
  assert (Bx : -1 <= x <= 1).
  { assert (B : x * x <= 1). { apply (Rmult_le_reg_r (U * V * (U * V))); [nra|]. rewrite X2. nra. } split; nra. }
  exists (acos x). unfold computeAngle. rewrite !vnormalize_some by assumption. cbn [bind]. fold U V.
  replace (vdot (u *v / U) (v *v / V)) with x by (unfold x, d, vdot, vscale; simpl; field; lra).
  rewrite Rmax_left by lra. rewrite Rmin_left by lra. split; [reflexivity|]. rewrite cos_acos by exact Bx. split; [exact Ex|].
  rewrite sin_acos by exact Bx. replace (sqrt (1 - x²)) with (S / (U * V)); [field; lra|]. symmetry. apply sqrt_lem_1.
  - unfold Rsqr. nra.
  - apply Rmult_le_pos; [exact HS|]. apply Rlt_le, Rinv_0_lt_compat. exact HUV.
  - apply (Rmult_eq_reg_r (U * V * (U * V))); [|nra]. unfold Rsqr. replace ((1 - x * x) * (U * V * (U * V))) with (U * U * (V * V) - x * x * (U * V * (U * V))) by ring.
    rewrite X2, L. field. lra.
Qed.

(** Products at the three corners. *)
Definition d1 (p1 p2 p3 : V3) : R := vdot (p2 -v p1) (p3 -v p1).
Definition twice_area (p1 p2 p3 : V3) : R := vnorm (vcross (p2 -v p1) (p3 -v p1)).

Lemma twice_area_rot : forall p1 p2 p3, twice_area p2 p3 p1 = twice_area p1 p2 p3.
Proof.
  intros p1 p2 p3. unfold twice_area. f_equal. apply V3_ext; unfold vcross, vsub; simpl; ring.
Qed.
Lemma d1_swap : forall p1 p2 p3, d1 p1 p3 p2 = d1 p1 p2 p3.
Proof. intros. unfold d1, vdot. ring. Qed.
Lemma twice_area_swap : forall p1 p2 p3, twice_area p1 p3 p2 = twice_area p1 p2 p3.
Proof.
  intros p1 p2 p3. unfold twice_area, vnorm. f_equal. unfold vdot, vcross, vsub; simpl. ring.
Qed.

Lemma tan_angle : forall p1 p2 p3, twice_area p1 p2 p3 <> 0 -> d1 p1 p2 p3 <> 0 -> exists al, computeAngle (p2 -v p1) (p3 -v p1) = Some al /\ tan al = twice_area p1 p2 p3 / d1 p1 p2 p3.
Proof.
  intros p1 p2 p3 HS Hd.
  assert (Nz : p2 -v p1 <> vzero /\ p3 -v p1 <> vzero).
  { split; intros E; apply Hd; unfold d1; rewrite E; unfold vdot; simpl; ring. }
  destruct (angle_value _ _ (proj1 Nz) (proj2 Nz)) as (al & E & C & Sn). exists al. split; [exact E|]. fold (d1 p1 p2 p3) in C. fold (twice_area p1 p2 p3) in Sn.
  unfold tan. assert (cos al <> 0) by (intros Z; apply Hd; rewrite <- C, Z; ring). assert (vnorm (p2 -v p1) * vnorm (p3 -v p1) <> 0) by (intros Z; apply Hd; rewrite <- C, Z; ring).
  rewrite <- C, <- Sn. set (q := vnorm (p2 -v p1) * vnorm (p3 -v p1)) in *. field. split; assumption.
Qed.

Lemma nonzero_sides : forall p1 p2 p3, twice_area p1 p2 p3 <> 0 -> p2 -v p1 <> vzero /\ p3 -v p1 <> vzero.
Proof.
  intros p1 p2 p3 HS. split; intros E; apply HS; unfold twice_area, vnorm; rewrite E.
  - transitivity (sqrt 0); [f_equal; unfold vdot, vcross; simpl; ring|apply sqrt_0].
  - transitivity (sqrt 0); [f_equal; unfold vdot, vcross; simpl; ring|apply sqrt_0].
Qed.

Lemma voronoi_value : forall p1 p2 p3, let S := twice_area p1 p2 p3 in
  let da := d1 p1 p2 p3 in let db := d1 p2 p3 p1 in let dc := d1 p3 p1 p2 in S <> 0 ->
  voronoiArea p1 p2 p3 = Some (
    if Rlt_dec dc 0 then (da + dc) * S / (8 * da)
    else if Rlt_dec db 0 then (da + db) * S / (8 * da)
    else if Rlt_dec da 0 then S / 2 - ((da + dc) * S / dc + (da + db) * S / db) / 8
    else ((da + dc) * db + (da + db) * dc) / (8 * S)).
Proof.
  intros p1 p2 p3 S da db dc HS. unfold voronoiArea.
  assert (Ea : vnorm2 (p3 -v p2) = db + dc) by (unfold vnorm2, db, dc, d1, vdot, vsub; simpl; ring).
  assert (Eb : vnorm2 (p1 -v p3) = da + dc) by (unfold vnorm2, da, dc, d1, vdot, vsub; simpl; ring).
  assert (Ec : vnorm2 (p2 -v p1) = da + db) by (unfold vnorm2, da, db, d1, vdot, vsub; simpl; ring). rewrite Ea, Eb, Ec.
  assert (SP : 0 < S) by (pose proof (vnorm_nonneg (vcross (p2 -v p1) (p3 -v p1))); fold (twice_area p1 p2 p3) in H; fold S in H; lra).
  destruct (nonzero_sides _ _ _ HS) as [N1 N2]. assert (HS2 : twice_area p2 p3 p1 <> 0) by (rewrite twice_area_rot; exact HS).
  assert (HS3 : twice_area p3 p1 p2 <> 0) by (rewrite twice_area_rot; exact HS2).
  destruct (nonzero_sides _ _ _ HS2) as [N3 _].
  assert (Pc : 0 < da + db). { rewrite <- Ec. unfold vnorm2. destruct (Rle_lt_or_eq_dec 0 _ (vnorm2_pos (p2 -v p1))) as [L|E]; [exact L|]. symmetry in E. apply vdot_zero in E. contradiction. }
  assert (Pb : 0 < da + dc). { rewrite <- Eb. replace (vnorm2 (p1 -v p3)) with (vdot (p3 -v p1) (p3 -v p1)) by (unfold vnorm2, vdot, vsub; simpl; ring).
    destruct (Rle_lt_or_eq_dec 0 _ (vnorm2_pos (p3 -v p1))) as [L|E]; [exact L|]. symmetry in E. apply vdot_zero in E. contradiction. }
  assert (Pa : 0 < db + dc). { rewrite <- Ea. unfold vnorm2. destruct (Rle_lt_or_eq_dec 0 _ (vnorm2_pos (p3 -v p2))) as [L|E]; [exact L|]. symmetry in E. apply vdot_zero in E. contradiction. }
  assert (LG : (da + db) * (da + dc) = da * da + S * S).
  { rewrite <- Ec, <- Eb. unfold S, twice_area. rewrite vnorm_sqr. unfold da, d1. replace (vnorm2 (p1 -v p3)) with (vdot (p3 -v p1) (p3 -v p1)) by (unfold vnorm2, vdot, vsub; simpl; ring). apply lagrange. }
  destruct (angle_value _ _ N1 N2) as (al & E & C & Sn). fold (d1 p1 p2 p3) in C. fold (twice_area p1 p2 p3) in Sn. fold da in C. fold S in Sn.
  rewrite E. cbn [bind].
  assert (TA : da <> 0 -> tan al = S / da). { intros Hd. destruct (tan_angle p1 p2 p3 HS Hd) as (al' & E' & T). rewrite E in E'. injection E' as <-. exact T. }
  destruct (Rlt_dec (db + dc + (da + dc)) (da + db)) as [K|K]; destruct (Rlt_dec dc 0) as [K'|K']; try lra.
  { rewrite TA by lra. f_equal. field. lra. }
  destruct (Rlt_dec (db + dc + (da + db)) (da + dc)) as [K1|K1]; destruct (Rlt_dec db 0) as [K1'|K1']; try lra.
  { rewrite TA by lra. f_equal. field. lra. }
  destruct (Rlt_dec (da + dc + (da + db)) (db + dc)) as [K2|K2]; destruct (Rlt_dec da 0) as [K2'|K2']; try lra.
  - destruct (tan_angle p2 p3 p1 HS2) as (be & Eb' & Tb); [fold db; lra|]. destruct (tan_angle p3 p1 p2 HS3) as (ga & Eg & Tg); [fold dc; lra|].
    assert (CS : forall u v, computeAngle u v = computeAngle v u).
    { intros u v. unfold computeAngle. destruct (vnormalize u) as [u'|], (vnormalize v) as [v'|]; cbn [bind]; try reflexivity. replace (vdot u' v') with (vdot v' u') by (unfold vdot; ring). reflexivity. }
    rewrite (CS (p1 -v p2)), Eb'. cbn [bind]. rewrite Eg. cbn [bind]. rewrite Tb, Tg. rewrite (twice_area_rot p2 p3 p1), (twice_area_rot p1 p2 p3). fold S db dc. 
    assert (ES : sqrt (da + dc) * sqrt (da + db) * sin al = S).
    { rewrite <- Sn. unfold vnorm. fold (vnorm2 (p2 -v p1)). rewrite Ec. replace (vdot (p3 -v p1) (p3 -v p1)) with (da + dc); [ring|]. rewrite <- Eb. unfold vnorm2, vdot, vsub; simpl; ring. }
    f_equal. replace (/ 2 * sqrt (da + dc) * sqrt (da + db) * sin al) with (/ 2 * (sqrt (da + dc) * sqrt (da + db) * sin al)) by ring. rewrite ES. field. lra.
  - assert (SA : sin al ^ 2 * ((da + db) * (da + dc)) = S * S).
    { rewrite <- Sn. replace (da + db) with (vnorm (p2 -v p1) * vnorm (p2 -v p1)) by (rewrite vnorm_sqr; exact Ec). 
      replace (da + dc) with (vnorm (p3 -v p1) * vnorm (p3 -v p1)); [ring|]. rewrite vnorm_sqr, <- Eb. unfold vnorm2, vdot, vsub; simpl; ring. }
    assert (SN : sin al ^ 2 <> 0) by (intros Z; rewrite Z in SA; nra). rewrite fdiv_some by exact SN. cbn [bind]. f_equal.
    set (r2 := / 4 * (db + dc) / sin al ^ 2).
    assert (R4 : 4 * r2 * (S * S) = (db + dc) * ((da + db) * (da + dc))). { rewrite <- SA. unfold r2. field. apply SN || (intros Z; apply SN; rewrite Z; ring). }
    assert (AR : forall x y, 0 < x -> 0 <= y -> (4 * r2 - x) * (S * S) = x * (y * y) -> / 8 * sqrt x * sqrt (Rmax (4 * r2 - x) 0) = x * y / (8 * S)).
    { intros x y Hx Hy Exy. assert (P4 : 0 <= 4 * r2 - x). { apply (Rmult_le_reg_r (S * S)); [nra|]. rewrite Exy. nra. }
      rewrite Rmax_left by exact P4. rewrite Rmult_assoc, <- sqrt_mult by lra.
      replace (sqrt (x * (4 * r2 - x))) with (x * y / S); [field; lra|]. symmetry. apply sqrt_lem_1.
      - apply Rmult_le_pos; lra.
      - apply Rmult_le_pos; [nra|]. apply Rlt_le, Rinv_0_lt_compat. exact SP.
      - apply (Rmult_eq_reg_r (S * S)); [|nra]. replace (x * (4 * r2 - x) * (S * S)) with (x * ((4 * r2 - x) * (S * S))) by ring. rewrite Exy. field. lra. }
    assert (SS : S * S = da * db + da * dc + db * dc) by lra.
    rewrite (AR (da + dc) db); [|exact Pb|lra|]. rewrite (AR (da + db) dc); [|exact Pc|lra|].
    + field. lra.
    + rewrite Rmult_minus_distr_r, R4, SS. ring.
    + rewrite Rmult_minus_distr_r, R4, SS. ring.
Qed.

Definition vor (p1 p2 p3 : V3) : R :=
  let S := twice_area p1 p2 p3 in let da := d1 p1 p2 p3 in let db := d1 p2 p3 p1 in let dc := d1 p3 p1 p2 in
  if Rlt_dec dc 0 then (da + dc) * S / (8 * da)
  else if Rlt_dec db 0 then (da + db) * S / (8 * da)
  else if Rlt_dec da 0 then S / 2 - ((da + dc) * S / dc + (da + db) * S / db) / 8
  else ((da + dc) * db + (da + db) * dc) / (8 * S).

Lemma voronoi_some : forall p1 p2 p3, twice_area p1 p2 p3 <> 0 -> voronoiArea p1 p2 p3 = Some (vor p1 p2 p3).
Proof. intros. apply voronoi_value. assumption. Qed.

Lemma triangle_products : forall p1 p2 p3, let S := twice_area p1 p2 p3 in let da := d1 p1 p2 p3 in let db := d1 p2 p3 p1 in let dc := d1 p3 p1 p2 in S <> 0 ->
  0 < S /\ 0 < da + db /\ 0 < da + dc /\ 0 < db + dc /\ S * S = da * db + da * dc + db * dc.
Proof.
  intros p1 p2 p3 S da db dc HS. assert (SP : 0 < S). { pose proof (vnorm_nonneg (vcross (p2 -v p1) (p3 -v p1))) as H. change (0 <= S) in H. lra. }
  assert (SS : S * S = da * db + da * dc + db * dc).
  { unfold S, twice_area. rewrite vnorm_sqr. unfold da, db, dc, d1, vdot, vcross, vsub; simpl. ring. }
  split; [exact SP|].
  assert (G : forall p q r, 0 <= d1 p q r + d1 q r p). { intros p q r. replace (d1 p q r + d1 q r p) with (vdot (q -v p) (q -v p)) by (unfold d1, vdot, vsub; simpl; ring). apply vnorm2_pos. }
  pose proof (G p1 p2 p3) as G1. pose proof (G p2 p3 p1) as G2. pose proof (G p3 p1 p2) as G3. fold da db dc in G1, G2, G3. clearbody da db dc S. clear G.
  assert (0 < S * S) by nra. split; [|split; [|split; [|exact SS]]].
  - destruct G1 as [|E]; [assumption|exfalso]. assert (db = - da) by lra. subst db. nra.
  - destruct G3 as [|E]; [lra|exfalso]. assert (dc = - da) by lra. subst dc. nra.
  - destruct G2 as [|E]; [assumption|exfalso]. assert (dc = - db) by lra. subst dc. nra.
Qed.

Lemma vor_sum : forall p1 p2 p3, twice_area p1 p2 p3 <> 0 -> vor p1 p2 p3 + vor p2 p3 p1 + vor p3 p1 p2 = twice_area p1 p2 p3 / 2.
Proof.
  intros p1 p2 p3 HS. pose proof (triangle_products p1 p2 p3 HS) as T. cbv zeta in T. unfold vor. rewrite (twice_area_rot p2 p3 p1), (twice_area_rot p1 p2 p3).
  set (S := twice_area p1 p2 p3) in *. set (da := d1 p1 p2 p3) in *. set (db := d1 p2 p3 p1) in *. set (dc := d1 p3 p1 p2) in *. clearbody S da db dc.
  destruct T as (SP & T1 & T2 & T3 & SS).
  destruct (Rlt_dec dc 0), (Rlt_dec db 0), (Rlt_dec da 0); try lra; try (field; lra).
  apply (Rmult_eq_reg_r (8 * S)); [|lra]. replace (S / 2 * (8 * S)) with (4 * (S * S)) by field. rewrite SS. field. lra.
Qed.

Lemma vor_pos : forall p1 p2 p3, twice_area p1 p2 p3 <> 0 -> 0 < vor p1 p2 p3.
Proof.
  intros p1 p2 p3 HS. pose proof (triangle_products p1 p2 p3 HS) as T. cbv zeta in T. unfold vor.
  set (S := twice_area p1 p2 p3) in *. set (da := d1 p1 p2 p3) in *. set (db := d1 p2 p3 p1) in *. set (dc := d1 p3 p1 p2) in *. clearbody S da db dc.
  destruct T as (SP & T1 & T2 & T3 & SS).
  assert (Q : forall x y, 0 < x -> 0 < y -> 0 < x / y) by (intros; apply Rmult_lt_0_compat; [assumption|apply Rinv_0_lt_compat; assumption]).
  destruct (Rlt_dec dc 0); [apply Q; [apply Rmult_lt_0_compat|]; lra|]. destruct (Rlt_dec db 0); [apply Q; [apply Rmult_lt_0_compat|]; lra|].
  destruct (Rlt_dec da 0).
  - assert (B : forall y, 0 < da + y -> (da + y) * S / y < S). { intros y Hy. apply (Rmult_lt_reg_r y); [lra|]. replace ((da + y) * S / y * y) with ((da + y) * S) by (field; lra). nra. }
    pose proof (B dc T2). pose proof (B db T1). lra.
  - apply Q; [|lra]. nra.
Qed.

(** ** Areas of all vertices *)
Definition tvor (Q : nat -> V3) (t : tri) (k : nat) : R :=
  let '(a, b, c) := t in dl k a * vor (Q a) (Q b) (Q c) + dl k b * vor (Q b) (Q c) (Q a) + dl k c * vor (Q c) (Q a) (Q b).

Lemma accum_dl : forall v i x k, accum v i x k = v k + dl k i * x.
Proof. intros v i x k. unfold accum, dl. destruct (k =? i)%nat; ring. Qed.

Lemma areas_value : forall P ts, (forall a b c, In (a, b, c) ts -> (a < length P /\ b < length P /\ c < length P)%nat /\ twice_area (at3 P a) (at3 P b) (at3 P c) <> 0) ->
  exists ar, voronoiAreas P ts = Some ar /\ forall k, ar k = lsum (fun t => tvor (at3 P) t k) ts.
Proof.
  intros P ts H. unfold voronoiAreas.
  assert (G : forall v0, exists ar, foldM (fun areas t => let '(a, b, c) := t in
    p1 <- nth_error P a ;; p2 <- nth_error P b ;; p3 <- nth_error P c ;;
    x1 <- voronoiArea p1 p2 p3 ;; x2 <- voronoiArea p2 p3 p1 ;; x3 <- voronoiArea p3 p1 p2 ;;
    Some (accum (accum (accum areas a x1) b x2) c x3)) v0 ts = Some ar /\ forall k, ar k = v0 k + lsum (fun t => tvor (at3 P) t k) ts).
  { induction ts as [|[[a b] c] ts IH]; intros v0; cbn [foldM lsum].
    - exists v0. split; [reflexivity|]. intros. ring.
    - destruct (H a b c (or_introl eq_refl)) as ((Ha & Hb & Hc) & E). rewrite !at3_some by assumption. cbn [bind].
      assert (E2 : twice_area (at3 P b) (at3 P c) (at3 P a) <> 0) by (rewrite twice_area_rot; exact E).
      assert (E3 : twice_area (at3 P c) (at3 P a) (at3 P b) <> 0) by (rewrite twice_area_rot; exact E2).
      rewrite !voronoi_some by assumption. cbn [bind].
      match goal with |- exists ar, foldM _ ?v ts = _ /\ _ => destruct (IH (fun a b c I => H a b c (or_intror I)) v) as (ar & -> & V) end.
      exists ar. split; [reflexivity|]. intros k. rewrite V, !accum_dl. unfold tvor. ring. }
  destruct (G (fun _ => 0)) as (ar & E & V). exists ar. split; [exact E|]. intros k. rewrite V. ring.
Qed.

Lemma dl_nonneg : forall i a, 0 <= dl i a.
Proof. intros. unfold dl. destruct (i =? a)%nat; lra. Qed.

Lemma areas_pos : forall (Q : nat -> V3) ts k, (forall a b c, In (a, b, c) ts -> twice_area (Q a) (Q b) (Q c) <> 0) ->
  (exists t, In t ts /\ In k (MeshSpec.corners t)) -> 0 < lsum (fun t => tvor Q t k) ts.
Proof.
  intros Q ts k H (t & Ht & Hk). assert (G : forall t, In t ts -> 0 <= tvor Q t k /\ (In k (MeshSpec.corners t) -> 0 < tvor Q t k)).
  { intros [[a b] c] I. specialize (H a b c I). assert (E2 : twice_area (Q b) (Q c) (Q a) <> 0) by (rewrite twice_area_rot; exact H).
    assert (E3 : twice_area (Q c) (Q a) (Q b) <> 0) by (rewrite twice_area_rot; exact E2).
    pose proof (vor_pos _ _ _ H) as V1. pose proof (vor_pos _ _ _ E2) as V2'. pose proof (vor_pos _ _ _ E3) as V3'.
    pose proof (dl_nonneg k a). pose proof (dl_nonneg k b). pose proof (dl_nonneg k c). unfold tvor. split; [nra|]. cbn [MeshSpec.corners].
    intros [<-|[<-|[<-|[]]]]; rewrite dl_same; nra. }
  destruct (Rle_lt_or_eq_dec 0 (lsum (fun t => tvor Q t k) ts)) as [L|E]; [apply lsum_nonneg; intros u Hu; apply G; exact Hu|exact L|exfalso].
  pose proof (lsum_null _ ts (fun u Hu => proj1 (G u Hu)) (Req_le _ _ (eq_sym E)) t Ht) as Z. pose proof (proj2 (G t Ht) Hk). lra.
Qed.

(** All areas together. *)
Lemma areas_total : forall n (Q : nat -> V3) ts, (forall t, In t ts -> MeshSpec.proper_triangle n t) -> (forall a b c, In (a, b, c) ts -> twice_area (Q a) (Q b) (Q c) <> 0) ->
  rsum n (fun k => lsum (fun t => tvor Q t k) ts) = lsum (fun t => let '(a, b, c) := t in twice_area (Q a) (Q b) (Q c) / 2) ts.
Proof.
  intros n Q ts PT H. rewrite rsum_lsum. apply lsum_ext. intros [[a b] c] I. destruct (PT _ I) as ((Ha & Hb & Hc) & _).
  unfold tvor. rewrite <- (vor_sum _ _ _ (H a b c I)).
  rewrite !rsum_plus, (rsum_dl n a (fun _ => vor (Q a) (Q b) (Q c))), (rsum_dl n b (fun _ => vor (Q b) (Q c) (Q a))), (rsum_dl n c (fun _ => vor (Q c) (Q a) (Q b))) by assumption. reflexivity.
Qed.
