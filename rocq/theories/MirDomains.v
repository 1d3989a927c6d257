(** Going round the boundary the other way: convex and regular domains. *)
From Verif Require Import Base MeshModel GeomSpec MeshGeom2 DomainModel UtilModel UtilProofs ParamModel DomainProofs DomainPolygons ParamBary ParamMaps ParamRegular BlendProofs ParamTame ParamSide ParamFar ParamFar2.
From Verif Require Import RibbonModel SurfaceModel TotalSpec TotalProofs PropsTotal PropsElastic RotSpec RotProofs RotParam RotMotion RotDomains MirSpec MirProofs MirParam.
Open Scope R_scope.

(** The ends of the quadratic equation. *)
Section Ends.
Variables (c : V2) (vs : list V2) (d : dom).
Hypothesis Dc : convex_domain c vs d.
Let n := length vs.
Let Hd : domainFrames c vs = Some d. Proof. apply Dc. Qed.
Let H3 : (3 <= n)%nat. Proof. apply Dc. Qed.
Let C : strictly_convex vs. Proof. apply Dc. Qed.
Let Ic : inside vs c. Proof. apply Dc. Qed.

(** Areas over the neighbouring sides, in units of the square of the side. *)
Definition before (i : nat) (uv : V2) : R := sarea (vtx vs (prv n (prv n i))) (vtx vs (prv n i)) uv / len2 vs i.
Definition after (i : nat) (uv : V2) : R := sarea (vtx vs i) (vtx vs (nxt n i)) uv / len2 vs i.
Lemma ends : forall i uv p1 p2 p, (i < n)%nat ->
  toLocal d i (vtx vs (prv n (prv n i)) -p vtx vs (prv n i)) = Some p1 -> toLocal d i (vtx vs (nxt n i) -p vtx vs i) = Some p2 -> toLocal d i (uv -p vtx vs (prv n i)) = Some p ->
  let a := py p1 - py p2 in
  let b := px p * py p2 - (px p + 1) * py p1 + (px p1 - px p2) * py p in
  let c := px p * py p1 - py p * px p1 in
  a = heightPrev vs i - heightNext vs i /\ c = before i uv /\ a + b + c = - after i uv.
Proof.
  intros i uv p1 p2 p Hi E1 E2 E3 a b c0. pose proof (len2_pos vs H3 C i Hi) as Pl.
  rewrite (local_closed c vs d Hd H3 C Ic i _ Hi) in E1. rewrite (local_closed c vs d Hd H3 C Ic i _ Hi) in E2. rewrite (local_closed c vs d Hd H3 C Ic i _ Hi) in E3. apply some_eq in E1, E2, E3.
  assert (Y1 : py p1 = heightPrev vs i) by (rewrite <- E1; apply (loc1_y vs i Hi)).
  assert (Y2 : py p2 = heightNext vs i) by (rewrite <- E2; apply (loc2_y vs i Hi)).
  split; [unfold a; rewrite Y1, Y2; reflexivity|].
  assert (EL : len2 vs i = px (sidevec vs i) * px (sidevec vs i) + py (sidevec vs i) * py (sidevec vs i)) by reflexivity.
  assert (Eu : vtx vs i = vtx vs (prv n i) +p sidevec vs i) by (unfold sidevec; fold n; apply V2_ext; simpl; ring).
  split.
  - unfold c0, before. rewrite <- E1, <- E3. cbn [px py]. set (u := sidevec vs i) in *. set (o := vtx vs (prv n i)). set (z := vtx vs (prv n (prv n i))).
    unfold sarea, pcross, pdot; cbn [padd psub pscale px py]. apply (Rmult_eq_reg_r (len2 vs i * len2 vs i)); [|nra]. field_simplify; [|lra|lra]. rewrite EL. ring.
  - replace (a + b + c0) with (- ((1 - px p) * py p2 + py p * px p2)) by (unfold a, b, c0; ring). f_equal. unfold after. rewrite <- E2, <- E3. cbn [px py]. rewrite Eu. set (u := sidevec vs i) in *. set (o := vtx vs (prv n i)). set (z := vtx vs (nxt n i)).
    unfold sarea, pcross, pdot; cbn [padd psub pscale px py]. apply (Rmult_eq_reg_r (len2 vs i * len2 vs i)); [|nra]. field_simplify; [|lra|lra]. rewrite EL. ring.
Qed.
Lemma balanced_convex : forall eps uv, 
  (forall i, (i < n)%nat -> heightPrev vs i = heightNext vs i /\ in_polygon vs uv /\ eps <= before i uv + after i uv \/ eps <= Rabs (heightPrev vs i - heightNext vs i) /\ inside vs uv) ->
  balancedAt eps d uv.
Proof.
  intros eps uv H i v0 v1 v2 v3 p1 p2 p Hi V0 V1 V2' V3' E1 E2 E3. rewrite (d_n_eq c vs d Hd) in Hi, V0, V1, V3'. fold n in Hi, V0, V1, V3'. rewrite <- (prv2_eq vs H3 i Hi) in V0 || (unfold n in V0; rewrite (prv2_eq vs H3 i Hi) in V0; fold n in V0).
  assert (Hp : (prv n i < n)%nat) by (apply prv_lt; lia). assert (Hx : (nxt n i < n)%nat) by (apply nxt_lt; lia).
  assert (Hpp : (prv n (prv n i) < n)%nat) by (apply prv_lt; lia).
  rewrite (verts_nth c vs d Hd) in V0, V1, V2', V3' by assumption. apply some_eq in V0, V1, V2', V3'. subst v0 v1 v2 v3.
  destruct (ends i uv p1 p2 p Hi E1 E2 E3) as (A & B & D). unfold balanced. cbv zeta in *. pose proof (len2_pos vs H3 C i Hi) as Pl.
  set (a := py p1 - py p2) in *. set (b := px p * py p2 - (px p + 1) * py p1 + (px p1 - px p2) * py p) in *. set (c0 := px p * py p1 - py p * px p1) in *.
  destruct (H i Hi) as [(E & _ & G)|(E & Iu)].
  - left. split; [rewrite A, E; ring|]. assert (Eb : b = - (before i uv + after i uv)) by (rewrite A, E in D; lra). rewrite Eb, Rabs_Ropp. apply Rle_trans with (1 := G). apply Rle_abs.
  - right. split; [rewrite A; exact E|]. rewrite D, B.
    assert (0 < before i uv). { unfold before. apply Rdiv_lt_0_compat; [|exact Pl]. apply (Iu (prv n i)). exact Hp. }
    assert (0 < after i uv). { unfold after. apply Rdiv_lt_0_compat; [|exact Pl]. specialize (Iu (nxt n i) Hx). fold n in Iu. rewrite (prv_nxt n i Hi) in Iu. exact Iu. }
    nra.
Qed.
End Ends.

(** ** Regular domains *)
Section Reg.
Variables (m : nat) (vs : list V2) (d : dom).
Hypothesis H4 : (4 <= m)%nat.
Hypothesis Hv : regularVertices m = Some vs.
Hypothesis Hd : domainFrames pzero vs = Some d.
Let h : R := sin (2 * PI / INR m).
Let w : R := sin (PI / INR m).
Let H3 : (3 <= m)%nat. Proof. lia. Qed.
Let Lv : length vs = m := proj1 (reg_facts m vs H3 Hv).
Let Cv : strictly_convex vs := proj1 (proj2 (reg_facts m vs H3 Hv)).
Let Iv : inside vs pzero := proj2 (proj2 (reg_facts m vs H3 Hv)).
Let Q3 : (3 <= length vs)%nat. Proof. rewrite Lv; exact H3. Qed.
Lemma reg_domain : convex_domain pzero vs d.
Proof. split; [exact Hd|]. split; [exact Q3|]. split; [exact Cv|exact Iv]. Qed.

(** The heights over the two neighbours of a side add up to a positive number
    at least. *)
Lemma heights_sum : forall i q, (i < m)%nat -> in_polygon vs q -> h <= hg vs (prv m i) q + hg vs (nxt m i) q.
Proof.
  intros i q Hi Pq. apply (C84_polygon pzero vs d q reg_domain) in Pq. destruct Pq as (w0 & (P & Sw) & Cm).
  rewrite !(hg_hull vs _ q w0 Cm Sw). rewrite Lv in *. rewrite <- rsum_plus.
  replace h with (rsum m (fun k => w0 k * h)) by (rewrite rsum_scal_r, Sw; ring). apply rsum_le. intros k Hk. specialize (P k Hk).
  rewrite <- Rmult_plus_distr_l. apply Rmult_le_compat_l; [exact P|].
  assert (Hp : (prv m i < m)%nat) by (apply prv_lt; lia). assert (Hx : (nxt m i < m)%nat) by (apply nxt_lt; lia).
  assert (Nn : forall j, (j < m)%nat -> 0 <= hg vs j (vtx vs k)).
  { intros j Hj. apply hg_nonneg; rewrite ?Lv; try assumption. intros l Hl. apply (vtx_closed vs Cv k); rewrite ?Lv in *; assumption. }
  destruct (Nat.eq_dec k (prv m i)) as [E1|N1]; [|destruct (Nat.eq_dec k (prv m (prv m i))) as [E2|N2]].
  - assert (h <= hg vs (nxt m i) (vtx vs k)); [|specialize (Nn _ Hp); lra]. apply (hg_far m vs H3 Hv); try assumption; rewrite E1.
    + apply not_eq_sym. apply nxt_prv_neq; lia.
    + rewrite (prv_nxt m i Hi). apply prv_neq; lia.
  - assert (h <= hg vs (nxt m i) (vtx vs k)); [|specialize (Nn _ Hp); lra]. apply (hg_far m vs H3 Hv); try assumption; rewrite E2.
    + clear - H4 Hi. rewrite (prv_cases m (prv m i)) by (apply prv_lt; lia). rewrite (nxt_cases m i Hi), (prv_cases m i Hi). destruct (Nat.eqb_spec i 0); destruct (Nat.eqb_spec (S i) m); repeat match goal with |- context [(?x =? ?y)%nat] => destruct (Nat.eqb_spec x y) end; lia.
    + rewrite (prv_nxt m i Hi). clear - H4 Hi. rewrite (prv_cases m (prv m i)) by (apply prv_lt; lia). rewrite (prv_cases m i Hi). destruct (Nat.eqb_spec i 0); repeat match goal with |- context [(?x =? ?y)%nat] => destruct (Nat.eqb_spec x y) end; lia.
  - assert (h <= hg vs (prv m i) (vtx vs k)) by (apply (hg_far m vs H3 Hv); assumption). specialize (Nn _ Hx). lra.
Qed.
Lemma balanced_regular : forall eps q, eps <= h -> in_polygon vs q -> balancedAt eps d q.
Proof.
  intros eps q He Pq. apply (balanced_convex pzero vs d reg_domain). rewrite Lv. intros i Hi. left.
  assert (Hp : (prv m i < m)%nat) by (apply prv_lt; lia). assert (Hx : (nxt m i < m)%nat) by (apply nxt_lt; lia).
  destruct (regular_heights m vs i H3 Hv Hi) as (A & B). split; [congruence|]. split; [exact Pq|].
  pose proof (heights_sum i q Hi Pq) as S. unfold hg in S. rewrite Lv, (prv_nxt m i Hi) in S.
  rewrite (len2_same m vs H3 Hv (prv m i) i Hp Hi), (len2_same m vs H3 Hv (nxt m i) i Hx Hi) in S.
  unfold before, after. rewrite Lv. lra.
Qed.
Lemma settled_regular : forall t eps q, 0 < eps -> eps <= 2 * (h * h * w) -> in_polygon vs q -> settledAt t eps d q.
Proof.
  intros t eps q Hp He Pq i l li lp al be vp vi lop lenp lon lenn Hi El Eli Elp Ls Ea Eb Evp Evi Elop Elenp Elon Elenn.
  rewrite (d_n_eq pzero vs d Hd), Lv in Hi, Elp, Eb, Evp, Elop, Elenp, Elon, Elenn.
  assert (Lp : (prv m i < m)%nat) by (apply prv_lt; lia). assert (Lx : (nxt m i < m)%nat) by (apply nxt_lt; lia).
  rewrite (angle_regular m vs d H3 Hv Hd i al Hi Ea), (angle_regular m vs d H3 Hv Hd _ be Lp Eb). fold h.
  rewrite (verts_nth pzero vs d Hd) in Evp by (rewrite Lv; assumption). rewrite (verts_nth pzero vs d Hd) in Evi by (rewrite Lv; assumption). apply some_eq in Evp, Evi. subst vp vi.
  rewrite (edgeLength_some pzero vs d Hd) in Elenp by (rewrite ?Lv; assumption). rewrite (edgeLength_some pzero vs d Hd) in Elenn by (rewrite ?Lv; assumption). apply some_eq in Elenp, Elenn.
  rewrite (local_closed pzero vs d Hd Q3 Cv Iv) in Elop by (rewrite Lv; assumption). rewrite (local_closed pzero vs d Hd Q3 Cv Iv) in Elon by (rewrite Lv; assumption). apply some_eq in Elop, Elon.
  assert (Yp : py lop = hg vs (prv m i) q).
  { rewrite <- Elop. unfold hg. cbn [py]. f_equal. rewrite Lv. unfold sarea, sidevec, pcross. rewrite Lv. simpl. ring. }
  assert (Yn : py lon = hg vs (nxt m i) q).
  { rewrite <- Elon. unfold hg. cbn [py]. f_equal. rewrite Lv, (prv_nxt m i Hi). unfold sarea, sidevec, pcross. rewrite Lv, (prv_nxt m i Hi). simpl. ring. }
  rewrite Yp, Yn. assert (LL : lenn = lenp). { rewrite <- Elenp, <- Elenn. unfold pnorm. f_equal. exact (len2_same m vs H3 Hv _ _ Lx Lp). }
  rewrite LL. assert (PL : 2 * w <= lenp) by (rewrite <- Elenp; apply (side_len m vs H3 Hv); exact Lp).
  pose proof (heights_sum i q Hi Pq) as S. pose proof (h_pos m H3) as Ph. fold h in Ph. pose proof (w_pos m vs H3 Hv) as Pw. fold w in Pw.
  set (x := hg vs (prv m i) q) in *. set (y := hg vs (nxt m i) q) in *. replace (h * (x * lenp) + h * (y * lenp)) with (h * (x + y) * lenp) by ring.
  apply Rle_trans with (1 := He). replace (2 * (h * h * w)) with (h * h * (2 * w)) by ring. apply Rmult_le_compat; [nra|lra|apply Rmult_le_compat_l; lra|exact PL].
Qed.
End Reg.

(** The mirrored regular polygon is the polygon turned by one side, or the
    square itself. *)
Lemma regular_mir : forall m vs, (3 <= m)%nat -> m <> 4%nat -> regularVertices m = Some vs -> mirVerts vs = rot vs.
Proof.
  intros m vs H3 H4 Hv. pose proof (vs_len m vs H3 H4 Hv) as L. apply list_ext. intros i. destruct (Nat.lt_ge_cases i m) as [Hi|Hi].
  - rewrite (rot_nth _ vs m i L Hi). unfold mirVerts. rewrite (MirProofs.rev_nth _ _ m) by (try exact Hi; rewrite map_length; exact L). rewrite mapped_nth.
    pose proof (cor_lt m i Hi) as Hc. rewrite (vtx_some vs (nxt m i)), (vtx_some vs (cor m i)) by (rewrite L; try exact Hc; apply nxt_lt; lia). cbn [option_map]. f_equal.
    rewrite (vtx_next m vs H3 H4 Hv i Hi), (vtx_eq m vs H3 H4 Hv _ Hc). unfold cor. rewrite !minus_INR by lia. simpl (INR 1).
    pose proof (full_turn m H3) as F. set (al := 2 * PI / INR m) in *. replace (al * (INR i + 1)) with (- (al * (INR m - 1 - INR i)) + 2 * PI) by (rewrite <- F; ring). rewrite onc_period.
    unfold onc, mirrored. cbn [px py]. rewrite cos_neg, sin_neg. reflexivity.
  - rewrite !(proj2 (nth_error_None _ i)); [reflexivity|rewrite rot_length; lia|unfold mirVerts; rewrite rev_length, map_length; lia].
Qed.
Lemma square_mir : forall vs, regularVertices 4 = Some vs -> mirVerts vs = vs.
Proof.
  intros vs H. cbn in H. injection H as <-. unfold mirVerts, mirrored. cbn [map rev app px py]. repeat (f_equal; try ring).
Qed.

(** The centre of the mirrored polygon. *)
Lemma slen_mir : forall vs i, (i < length vs)%nat -> slen (mirVerts vs) i = slen vs (sid (length vs) i).
Proof.
  intros vs i Hi. unfold slen. rewrite (len_mir vs). rewrite !(vtx_mir vs) by (try exact Hi; apply prv_lt; lia). rewrite (cor_prv _ i Hi), (prv_sid _ i Hi). rewrite M_sub, M_norm, norm_swap. reflexivity.
Qed.
Lemma rsum_sid : forall n f, rsum n (fun i => f (sid n i)) = rsum n f.
Proof.
  intros n f. rewrite <- (rsum_cor n f). rewrite <- (rsum_nxt n (fun i => f (sid n i))). apply rsum_ext. intros i Hi. rewrite (sid_nxt n i Hi). reflexivity.
Qed.
Lemma center_mir : forall vs, computeCenter (mirVerts vs) = option_map mirrored (computeCenter vs).
Proof.
  intros vs. assert (P : perimeter (mirVerts vs) = perimeter vs).
  { unfold perimeter. rewrite (len_mir vs). rewrite <- (rsum_sid (length vs) (slen vs)). apply rsum_ext. intros i Hi. apply slen_mir. exact Hi. }
  destruct (Req_dec (perimeter vs) 0) as [E|E].
  - rewrite !computeCenter_none; [reflexivity|exact E|rewrite P; exact E].
  - rewrite !computeCenter_closed by (rewrite ?P; exact E). cbn [option_map]. f_equal. rewrite (len_mir vs), P. set (n := length vs).
    assert (X : forall f, px (psum n f) = rsum n (fun i => px (f i)) /\ py (psum n f) = rsum n (fun i => py (f i))) by (intros f; split; [apply psum_x|apply psum_y]).
    apply V2_ext; unfold mirrored; cbn [px py].
    + rewrite (proj1 (X _)), (proj1 (X _)). rewrite <- (rsum_cor n (fun i => px (vtx vs i *p ((slen vs i + slen vs (nxt n i)) / (2 * perimeter vs))))). apply rsum_ext. intros i Hi. assert (Hx : (nxt n i < n)%nat) by (apply nxt_lt; lia).
      rewrite (vtx_mir vs i Hi), !(slen_mir vs) by assumption. fold n. rewrite (sid_nxt n i Hi), (nxt_cor n i Hi). simpl. f_equal. f_equal. ring.
    + rewrite (proj2 (X _)), (proj2 (X _)). rewrite <- (rsum_cor n (fun i => py (vtx vs i *p ((slen vs i + slen vs (nxt n i)) / (2 * perimeter vs))))).
      match goal with |- _ = - rsum n ?f => replace (- rsum n f) with (rsum n (fun i => -1 * f i)) by (rewrite rsum_scal; ring) end. apply rsum_ext. intros i Hi. assert (Hx : (nxt n i < n)%nat) by (apply nxt_lt; lia).
      rewrite (vtx_mir vs i Hi), !(slen_mir vs) by assumption. fold n. rewrite (sid_nxt n i Hi), (nxt_cor n i Hi). simpl. unfold Rdiv. ring.
Qed.
