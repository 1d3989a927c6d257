(** The patches with a central control point at the centre of the regular domain. *)
From Verif Require Import Base MeshModel GeomSpec DomainModel UtilModel ParamModel.
From Verif Require Import DomainProofs DomainPolygons UtilProofs ParamBary ParamMaps ParamRegular ParamSide.
From Verif Require ParamFar.
From Verif Require Import RibbonModel SurfaceModel SurfaceSpec BlendProofs SurfaceProofs SurfacePatches SurfaceEval.
Open Scope R_scope.

Lemma frames_center : forall c vs d, domainFrames c vs = Some d -> d_center d = c.
Proof.
  intros c vs d H. rewrite frames_closed in H. injection H as <-. reflexivity.
Qed.

Section Reg.
Variables (m : nat) (vs : list V2) (d : dom).
Hypothesis H3 : (3 <= m)%nat.
Hypothesis Hv : regularVertices m = Some vs.
Hypothesis Hd : domainFrames pzero vs = Some d.
Let Lv : length vs = m := proj1 (reg_facts m vs H3 Hv).
Let Cv : strictly_convex vs := proj1 (proj2 (reg_facts m vs H3 Hv)).
Let Iv : inside vs pzero := proj2 (proj2 (reg_facts m vs H3 Hv)).
Let Q3 : (3 <= length vs)%nat. Proof. rewrite Lv; exact H3. Qed.
Let M3 : 3 <= INR m. Proof. replace 3 with (INR 3) by (simpl; lra). apply le_INR; exact H3. Qed.

Lemma tri_center : forall i j, (i < m)%nat -> (j < m)%nat -> tri vs pzero i = tri vs pzero j.
Proof.
  assert (K : forall i, (i < m)%nat -> tri vs pzero i = if (m =? 4)%nat then 1 else sin (2 * PI / INR m) / 2).
  { intros i Hi. unfold tri. rewrite Lv. destruct (Nat.eqb_spec m 4) as [E|N].
    - clear - E Hv Hi. subst m. unfold regularVertices in Hv. simpl in Hv. injection Hv as <-.
      destruct i as [|[|[|[|i]]]]; [| | | |lia]; unfold vtx, sarea, pcross, pzero; cbn [length prv nxt Nat.add Nat.sub Nat.modulo Nat.divmod nth fst snd px py padd psub pscale]; simpl; field.
    - rewrite (vtx_next m vs H3 N Hv i Hi), (vtx_eq m vs H3 N Hv i Hi).
      set (al := 2 * PI / INR m). unfold sarea, pcross, onc, pzero; cbn [px py psub].
      replace (sin al) with (sin (al * (INR i + 1) - al * INR i)) by (f_equal; ring). rewrite sin_minus. field. }
  intros i j Hi Hj. rewrite !K by assumption. reflexivity.
Qed.

Lemma bary_center : forall eps, 0 < eps <= 1 -> barycentric Wachspress eps d pzero = Some (tabulate m (fun _ => / INR m)).
Proof.
  intros eps He. rewrite (bary_closed vs pzero d (d_verts_eq pzero vs d Hd) ltac:(lia)) by (intros; cbn [baryRadius]; lra).
  destruct (normalized vs pzero ltac:(lia) Wachspress (wachspress_pos vs pzero ltac:(lia) Cv Q3 Iv)) as (N & _).
  destruct (Req_EM_T _ 0) as [E|_]; [contradiction|]. rewrite Lv in *.
  assert (W : forall i, (i < m)%nat -> wfun vs pzero Wachspress i = wfun vs pzero Wachspress 0).
  { assert (L0 : (0 < m)%nat) by lia.
    assert (K : forall i, (i < m)%nat -> wfun vs pzero Wachspress i * (tri vs pzero 0 * tri vs pzero 0) = ParamBary.corner vs 0 * prodAll vs pzero).
    { intros i Hi. pose proof (prv_lt m i ltac:(lia)) as Lp. pose proof (prv_neq m i ltac:(lia) Hi) as Np.
      rewrite wachspress_weight by lia. rewrite Lv.
      rewrite (prodBut_all vs pzero i) by lia. rewrite (prodBut2_but vs pzero ltac:(lia) i (prv m i)) by (try lia; auto).
      rewrite (tri_center i 0 Hi L0), (tri_center (prv m i) 0 Lp L0).
      assert (C : ParamBary.corner vs i = ParamBary.corner vs 0).
      { assert (G : forall k, (k < m)%nat -> ParamBary.corner vs k = sin (2 * PI / INR m) * len2 vs 0 / 2).
        { intros k Hk. destruct (regular_heights m vs k H3 Hv Hk) as [_ Hn]. unfold heightNext in Hn. unfold ParamBary.corner. rewrite Lv in *.
          assert (Pl : 0 < len2 vs k) by (apply len2_pos; rewrite ?Lv; assumption).
          rewrite <- Hn. rewrite (ParamFar.len2_same m vs H3 Hv 0 k L0 Hk). field. lra. }
        rewrite !G by assumption. reflexivity. }
      rewrite C. ring. }
    intros i Hi. assert (T : 0 < tri vs pzero 0).
    { unfold tri. rewrite Lv. assert (X := Iv (nxt m 0)). rewrite Lv, (prv_nxt m 0 L0) in X. specialize (X (nxt_lt m 0 ltac:(lia))). lra. }
    apply (Rmult_eq_reg_r (tri vs pzero 0 * tri vs pzero 0)); [|nra]. rewrite !K by assumption. reflexivity. }
  apply (f_equal Some). apply tabulate_ext. intros i Hi. rewrite (W i Hi).
  assert (S : rsum m (wfun vs pzero Wachspress) = INR m * wfun vs pzero Wachspress 0).
  { rewrite <- rsum_const. apply rsum_ext. exact W. }
  rewrite S in *. field. split; [lra|]. intros Z. apply N. rewrite Z. ring.
Qed.

Variable eps : R.
Hypothesis Hp : 0 < eps <= 1/3.
Hypothesis Hm : eps <= 2 / INR m.

Let x := 2 / INR m.
Lemma x_range : 0 < x <= 2/3.
Proof.
  unfold x. split; [apply Rdiv_lt_0_compat; lra|]. apply (Rmult_le_reg_r (INR m)); [lra|]. unfold Rdiv at 1. rewrite Rmult_assoc, Rinv_l by lra. lra.
Qed.

Lemma base_center : forall i, (i < m)%nat -> baryMap Wachspress eps d i pzero = Some (mkV2 (1/2) (1 - x)).
Proof.
  intros i Hi. pose proof x_range as Rx. unfold baryMap. rewrite bary_center by lra. cbn [bind]. unfold baryRibbon. rewrite (reg_n m vs d H3 Hv Hd).
  rewrite !tabulate_nth_error by (try apply prv_lt; lia). cbn [bind].
  assert (E : / INR m + / INR m = x) by (unfold x; field; lra). rewrite E. fold x in Hm.
  destruct (Rlt_dec x eps); [lra|]. rewrite fdiv_some by lra. cbn [bind]. apply (f_equal Some). apply (f_equal2 mkV2).
  - unfold x. field. lra.
  - rewrite <- E. ring.
Qed.

(** Distances at the centre for the two parameterizations. *)
Definition centerWeight : R := 1 / (1 - x) ^ 2 + 1 / x ^ 2.
Definition centerDist (k : mkind) : R :=
  match k with MKMidpoint => 1 - x | MKCoons => ((1 - x) * centerWeight + 4) / (centerWeight + 8) end.

Lemma weight_pos : 0 < centerWeight.
Proof.
  pose proof x_range. unfold centerWeight. assert (0 < 1 / (1 - x) ^ 2) by (apply Rdiv_lt_0_compat; [lra|apply pow_lt; lra]).
  assert (0 < 1 / x ^ 2) by (apply Rdiv_lt_0_compat; [lra|apply pow_lt; lra]). lra.
Qed.

Lemma centerDist_range : forall k, 1/3 <= centerDist k <= 1.
Proof.
  intros [|]; cbn [centerDist]; pose proof x_range; [lra|]. pose proof weight_pos as P. split.
  - apply (Rmult_le_reg_r (centerWeight + 8)); [lra|]. unfold Rdiv at 2. rewrite Rmult_assoc, Rinv_l by lra. nra.
  - apply (Rmult_le_reg_r (centerWeight + 8)); [lra|]. unfold Rdiv at 1. rewrite Rmult_assoc, Rinv_l by lra. nra.
Qed.

Lemma center_sds : forall k, mapToRibbons (mparam k) eps d pzero = Some (tabulate m (fun _ => mkV2 (1/2) (centerDist k))).
Proof.
  intros k. pose proof x_range as Rx. unfold mapToRibbons. rewrite (reg_n m vs d H3 Hv Hd). apply mapM_seq. intros i Hi. destruct k; cbn [mparam mapToRibbon centerDist].
  - apply base_center; exact Hi.
  - unfold constrainedMap. rewrite (reg_n m vs d H3 Hv Hd). rewrite !base_center by (try apply nxt_lt; try apply prv_lt; lia). cbn [bind].
    unfold constrainedRibbon. cbn [px py]. replace (1 - 1/2) with (1/2) by lra. replace (1 - (1 - x)) with x by ring.
    fold x in Hm. unfold singularBlend. cbn [filter].
    destruct (Rlt_dec (1 - x) eps); [lra|]. destruct (Rlt_dec (1/2) eps); [lra|]. destruct (Rlt_dec x eps); [lra|].
    cbn [length Nat.ltb Nat.leb]. cbn [mapM]. rewrite !fdiv_some by (apply pow_nonzero; lra). cbn [bind].
    pose proof weight_pos as P. unfold centerWeight in *.
    set (a := 1 / (1 - x) ^ 2) in *. set (c := 1 / x ^ 2) in *.
    assert (S : accumulate [a; 1 / (1/2) ^ 2; c; 1 / (1/2) ^ 2] = a + c + 8) by (unfold accumulate; simpl; field). rewrite S.
    cbn [mapM]. rewrite !fdiv_some by lra. cbn [bind nth_error]. apply (f_equal Some). apply (f_equal2 mkV2); [reflexivity|].
    field. lra.
Qed.

Lemma center_def : forall k, deficiency eps m (tabulate m (fun _ => mkV2 (1/2) (centerDist k))) = Some (1 - INR m / 2 * hermite 0 (centerDist k)).
Proof.
  intros k. pose proof (centerDist_range k) as Rq. set (q := centerDist k) in *. unfold deficiency, blendCornerDeficient.
  rewrite (mapM_seq _ m _ (fun _ => hermite 0 q / 2)).
  - cbn [bind]. rewrite accumulate_tab, rsum_const. apply (f_equal Some). field.
  - intros i Hi. rewrite !tabulate_nth_error by (try apply nxt_lt; lia). cbn [bind px py].
    destruct (Rlt_dec q eps); [lra|]. rewrite fdiv_some by lra. apply (f_equal Some). simpl. field. lra.
Qed.

Lemma center_def_midpoint : 1 - INR m / 2 * hermite 0 (centerDist MKMidpoint) = (1 - 2 / INR m) * (1 - 4 / INR m).
Proof. cbn [centerDist]. unfold x. simpl. field. lra. Qed.

Let M := INR m - 2.
Let p := 2 * M^3 + 20 * M^2 + 8 * M + 16.
Let q := M^4 + 4 * M^3 + 40 * M^2 + 16 * M + 16.

Lemma center_def_coons : 1 - INR m / 2 * hermite 0 (centerDist MKCoons) = 1 - INR m / 2 * ((p / q) ^ 2 * (3 - 2 * (p / q))).
Proof.
  assert (PM : 1 <= M) by (unfold M; lra).
  assert (Pq : 0 < q) by (unfold q; assert (0 < M) by lra; pose proof (pow_lt M 2 ltac:(lra)); pose proof (pow_lt M 3 ltac:(lra)); pose proof (pow_lt M 4 ltac:(lra)); clearbody M; lra).
  assert (E : centerDist MKCoons = 1 - p / q).
  { cbn [centerDist]. pose proof weight_pos as P.
    assert (A : centerWeight = (M + 2)^2 * (4 + M^2) / (4 * M^2)).
    { unfold centerWeight, x. replace (INR m) with (M + 2) by (unfold M; ring). field. lra. }
    assert (X : x = 2 / (M + 2)) by (unfold x; replace (INR m) with (M + 2) by (unfold M; ring); reflexivity).
    assert (Q : centerWeight + 8 = q / (4 * M^2)) by (rewrite A; unfold q; field; lra).
    rewrite Q, A, X. clearbody M. unfold p. clear - PM Pq. assert (Nq : q <> 0) by lra. revert Nq. 
    intros Nq. field_simplify_eq; [|repeat split; lra]. unfold q. ring. }
  rewrite E. set (y := p / q). simpl. ring.
Qed.

(** Apart from quads the centre is never (nearly) covered by the corner blends. *)
Lemma center_def_bound : forall k, m <> 4%nat -> 1/200 <= Rabs (1 - INR m / 2 * hermite 0 (centerDist k)).
Proof.
  intros [|] N4.
  - rewrite center_def_midpoint. destruct (le_lt_dec 5 m) as [L|L].
    + assert (5 <= INR m) by (replace 5 with (INR 5) by (simpl; lra); apply le_INR; exact L).
      assert (A : 4 / INR m <= 4/5).
      { apply (Rmult_le_reg_r (INR m)); [lra|]. unfold Rdiv at 1. rewrite Rmult_assoc, Rinv_l by lra. lra. }
      assert (B : 2 / INR m = (4 / INR m) / 2) by (field; lra). rewrite B. assert (0 < 4 / INR m) by (apply Rdiv_lt_0_compat; lra).
      rewrite Rabs_pos_eq; nra.
    + assert (E : m = 3%nat) by lia. rewrite E. simpl INR. unfold Rabs. destruct (Rcase_abs _); lra.
  - rewrite center_def_coons. destruct (le_lt_dec 9 m) as [L|L].
    + assert (T : 0 <= M - 7).
      { assert (9 <= INR m) by (replace 9 with (INR 9) by (simpl; lra); apply le_INR; exact L). unfold M; lra. }
      assert (Pq : 0 < q) by (unfold q; assert (0 < M) by lra; pose proof (pow_lt M 2 ltac:(lra)); pose proof (pow_lt M 3 ltac:(lra)); pose proof (pow_lt M 4 ltac:(lra)); clearbody M; lra).
      assert (K : 1/200 <= 1 - INR m / 2 * ((p / q) ^ 2 * (3 - 2 * (p / q)))).
      { replace (INR m) with (M + 2) by (unfold M; ring). clearbody M.
        assert (G : 0 <= 199/200 * q^3 - (M + 2) / 2 * (p^2 * (3 * q - 2 * p))).
        { unfold p, q. clear - T. set (t := M - 7) in *. replace M with (7 + t) by (unfold t; ring). clearbody t.
          match goal with |- 0 <= ?e => replace e with ((1714282966619 * t^0 + 4542854568632 * t^1 + 4433536688298 * t^2 + 2366896599760 * t^3 + 802975112529 * t^4 + 186146629200 * t^5 + 30596746684 * t^6 + 3620744704 * t^7 + 307853037 * t^8 + 18419768 * t^9 + 738874 * t^10 + 17904 * t^11 + 199 * t^12) / 200) by field end.
          assert (P : forall k, 0 <= t ^ k) by (intros; apply pow_le; exact T).
          pose proof (P 0%nat). pose proof (P 1%nat). pose proof (P 2%nat). pose proof (P 3%nat). pose proof (P 4%nat). pose proof (P 5%nat).
          pose proof (P 6%nat). pose proof (P 7%nat). pose proof (P 8%nat). pose proof (P 9%nat). pose proof (P 10%nat). pose proof (P 11%nat). pose proof (P 12%nat).
          lra. }
        assert (F : 1 - (M + 2) / 2 * ((p / q) ^ 2 * (3 - 2 * (p / q))) - 1/200 = (199/200 * q^3 - (M + 2) / 2 * (p^2 * (3 * q - 2 * p))) / q^3).
        { clear - Pq. clearbody p q. field. lra. }
        assert (0 <= (199/200 * q^3 - (M + 2) / 2 * (p^2 * (3 * q - 2 * p))) / q^3).
        { apply Rmult_le_pos; [exact G|]. left. apply Rinv_0_lt_compat. apply pow_lt; exact Pq. }
        lra. }
      rewrite Rabs_pos_eq; lra.
    + assert (C : m = 3%nat \/ m = 5%nat \/ m = 6%nat \/ m = 7%nat \/ m = 8%nat) by lia. clear - C. unfold p, q, M.
      destruct C as [-> |[-> |[-> |[-> | ->]]]]; simpl INR; unfold Rabs; destruct (Rcase_abs _); lra.
Qed.

(** *** The patches at the centre *)
Variable sf : surf.
Hypothesis Hn : sf_n sf = m.
Hypothesis Hready : ready sf.
Let Pe : 0 < eps. Proof. lra. Qed.
Let G3 : (3 <= sf_n sf)%nat. Proof. lia. Qed.

Let csds (k : mkind) := tabulate m (fun _ => mkV2 (1/2) (centerDist k)).
Let Lc : forall k, length (csds k) = sf_n sf. Proof. intros k. unfold csds. rewrite tabulate_length. symmetry; exact Hn. Qed.
Let Tc : forall k, tame (csds k).
Proof.
  intros k i sd E. apply tab_inv in E. destruct E as [_ <-]. cbn [px py]. pose proof (centerDist_range k). lra.
Qed.

Lemma center_value : forall k, exists v, forall cp,
  mpatch k eps sf cp (csds k) = Some (v +v cp *v (1 - INR m / 2 * hermite 0 (centerDist k))).
Proof.
  intros k. assert (D := center_def k). fold (csds k) in D.
  pose proof (deficient_value eps sf Pe G3 Hready (csds k) (Lc k) (Tc k)) as DV. rewrite Hn in DV.
  unfold deficiency in D. rewrite DV in D. cbn [bind] in D.
  assert (D' : 1 - accumulate (tabulate m (wdef eps sf (csds k))) = 1 - INR m / 2 * hermite 0 (centerDist k)) by congruence.
  destruct k; cbn [mpatch].
  - destruct (civ eps sf Pe G3 Hready (csds MKMidpoint) (Lc _) (Tc _)) as [f Hf].
    exists (vsum m (fun i => f i *v wdef eps sf (csds MKMidpoint) i)). intros cp. unfold midpointPatch. rewrite Hn, DV. cbn [bind].
    rewrite (osum_total m _ (fun i => f i *v wdef eps sf (csds MKMidpoint) i)).
    + cbn [bind]. rewrite D'. reflexivity.
    + intros i Hi. rewrite (tabulate_nth_error R m _ i Hi). cbn [bind]. rewrite (Hf i) by lia. reflexivity.
  - destruct (coonsTerm_value eps sf Pe G3 Hready (csds MKCoons) (Lc _) (Tc _) (tabulate m (wdef eps sf (csds MKCoons)))) as (c & _ & Q).
    { rewrite tabulate_length. symmetry; exact Hn. }
    rewrite Hn in Q. eexists. intros cp. unfold midpointCoons. rewrite Hn, DV. cbn [bind]. rewrite Q. cbn [bind]. rewrite D'. reflexivity.
Qed.

(** The average of the side interpolants: the default midpoint. *)
Lemma default_total : exists v, osum (sf_n sf) (fun i => sideInterpolant sf i (1 / 2) (1 / 2)) = Some v.
Proof.
  assert (Hlen : length (sf_ribbons sf) = sf_n sf) by apply Hready.
  assert (Hcross : crosses_defined (sf_ribbons sf)) by apply Hready.
  eexists. apply osum_total. intros i Hi. apply (side_value sf Hlen Hcross i); [exact Hi|apply gok_nonneg; lra].
Qed.

Definition wanted (mm : option V3) : option V3 :=
  match mm with
  | Some p0 => Some p0
  | None => v <- osum (sf_n sf) (fun i => sideInterpolant sf i (1 / 2) (1 / 2)) ;; vdiv v (INR (sf_n sf))
  end.

Lemma center_eval : forall k cp, mEval k eps d sf cp pzero = mpatch k eps sf cp (csds k).
Proof.
  intros k cp. pose proof (center_sds k) as E. destruct k; cbn [mEval mpatch]; unfold midpointEval, midpointCoonsEval; cbn [mparam] in E; rewrite E; reflexivity.
Qed.

Lemma central_total : forall k mm, exists cp, centralControl k eps d sf mm = Some cp.
Proof.
  intros k mm. unfold centralControl. rewrite (frames_center _ _ _ Hd), center_sds. cbn [bind]. unfold updateCentral. fold (csds k).
  assert (CD : deficiency eps (sf_n sf) (csds k) = Some (1 - INR m / 2 * hermite 0 (centerDist k))) by (rewrite Hn; apply center_def).
  destruct (center_value k) as [v V]. rewrite V, CD.
  assert (W : exists w, wanted mm = Some w).
  { destruct mm as [p0|]; [eexists; reflexivity|]. unfold wanted. destruct default_total as [w ->]. cbn [bind]. rewrite vdiv_some by (rewrite Hn; lra). eexists; reflexivity. }
  destruct W as [w W]. unfold wanted in W. 
  destruct mm as [p0|]; [injection W as ->|destruct (osum _ _) as [s0|]; [|discriminate]; cbn [bind] in W |- *; rewrite W]; cbn [bind];
    (destruct (Rlt_dec _ eps) as [L|L]; [eexists; reflexivity|]; rewrite vdiv_some; [eexists; reflexivity|]; intros Z; apply L; rewrite Z, Rabs_R0; lra).
Qed.

Lemma central_interpolates : forall k mm cp, m <> 4%nat -> eps <= 1/200 -> centralControl k eps d sf mm = Some cp ->
  mEval k eps d sf cp pzero = wanted mm.
Proof.
  intros k mm cp N4 H200 E. rewrite center_eval. destruct (center_value k) as [v V]. rewrite V.
  unfold centralControl in E. rewrite (frames_center _ _ _ Hd), center_sds in E. cbn [bind] in E. unfold updateCentral in E. fold (csds k) in E.
  assert (CD : deficiency eps (sf_n sf) (csds k) = Some (1 - INR m / 2 * hermite 0 (centerDist k))) by (rewrite Hn; apply center_def).
  rewrite V, CD in E. pose proof (center_def_bound k N4) as B.
  set (D := 1 - INR m / 2 * hermite 0 (centerDist k)) in *.
  assert (Nz : D <> 0) by (intros Z; rewrite Z, Rabs_R0 in B; lra).
  unfold wanted. destruct mm as [p0|].
  - cbn [bind] in E. destruct (Rlt_dec (Rabs D) eps); [lra|]. rewrite vdiv_some in E by exact Nz. cbn [bind] in E. injection E as <-.
    apply (f_equal Some). v3field; exact Nz.
  - destruct (osum _ _) as [s0|]; [|discriminate]. cbn [bind] in E |- *. rewrite vdiv_some in E |- * by (rewrite Hn; lra). cbn [bind] in E.
    destruct (Rlt_dec (Rabs D) eps); [lra|]. rewrite vdiv_some in E by exact Nz. cbn [bind] in E. injection E as <-.
    apply (f_equal Some). assert (Nm : INR (sf_n sf) <> 0) by (rewrite Hn; lra). v3field; auto.
Qed.

(** Quads: the centre does not depend on the central control point. *)
Lemma quad_center : forall k cp, m = 4%nat -> mEval k eps d sf cp pzero = mEval k eps d sf vzero pzero.
Proof.
  intros k cp E4. rewrite !center_eval. destruct (center_value k) as [v V]. rewrite !V. apply (f_equal Some).
  assert (Z : 1 - INR m / 2 * hermite 0 (centerDist k) = 0).
  { destruct k; [rewrite center_def_midpoint|rewrite center_def_coons; unfold p, q, M]; rewrite E4; simpl; field. }
  rewrite Z. v3ring.
Qed.
End Reg.
