(** Continuity of the C0 Coons and hybrid patches: C86. *)
From Verif Require Import Base MeshModel GeomSpec DomainModel UtilModel UtilSpec UtilProofs JoinModel TotalSpec.
From Verif Require Import ParamModel RibbonModel SurfaceModel SurfaceSpec SurfaceEval GBModel GBSpec HybridModel ContSpec ContProofs ContPatch.
From Verif Require PropsTotal PropsCont.
Open Scope R_scope.

Lemma ocv_bcEval : forall cp u l, Un_cv u l -> ocv cv3 (fun k => bcEval cp (u k)) (bcEval cp l).
Proof.
  intros cp u l H. unfold bcEval. destruct (bcDegree cp) as [n|]; [|apply ocv_none]. cbn [bind]. cbv zeta. apply ocv_osum. intros i _.
  destruct (nth_error cp i) as [p|]; [|apply ocv_none]. cbn [bind]. apply (ocv_bind Un_cv); [apply ocv_nth, cvL_bernstein; exact H|]. intros v x _ V. osome. apply cv3_scale; [apply cv3_const|exact V].
Qed.
Lemma ocv_coons : forall c k u l, steady_curve c -> steady_curve (co_left k) -> steady_curve (co_right k) -> cv2 u l -> ocv cv3 (fun j => coonsEval c k (u j)) (coonsEval c k l).
Proof.
  intros c k u l Hc Hl Hr [U1 U2]. unfold coonsEval. cbv zeta.
  assert (S := cv_clamp _ _ 0 1 Rle_0_1 U1). assert (D := cv_clamp _ _ 0 1 Rle_0_1 U2).
  assert (S1 := cv_clamp _ _ 0 1 Rle_0_1 (cv_1m _ _ S)). assert (D1 := cv_clamp _ _ 0 1 Rle_0_1 (cv_1m _ _ D)). cbv beta in *.
  apply (ocv_bind cv3); [apply ocv_bcEval; exact S1|]. intros t t0 _ T. osome.
  pose proof (Hc _ _ (fun j => clamp_unit (px (u j))) S) as C1. pose proof (Hl _ _ (fun j => clamp_unit (1 - clamp (py (u j)) 0 1)) D1) as C2. pose proof (Hr _ _ (fun j => clamp_unit (py (u j))) D) as C3.
  repeat first [apply cv3_sub | apply cv3_add | apply cv3_scale | assumption | apply cv3_const].
Qed.
Lemma ocv_c0coons : forall cs s s0, Forall steady_curve cs -> cvL cv2 s s0 ->
  ocv cv3 (fun k => rs <- mapM (coonsRibbon cs) (seq 0 (length cs)) ;; c0coons rs (length cs) (s k)) (rs <- mapM (coonsRibbon cs) (seq 0 (length cs)) ;; c0coons rs (length cs) s0).
Proof.
  intros cs s s0 F H. destruct (mapM (coonsRibbon cs) (seq 0 (length cs))) as [rs|] eqn:E; [|apply ocv_none]. cbn [bind]. unfold c0coons. apply ocv_osum. intros i Hi.
  assert (St : forall j c, nth_error cs j = Some c -> steady_curve c) by (intros j c Ej; exact (proj1 (Forall_forall _ _) F c (nth_error_In _ _ Ej))).
  destruct (nth_error rs i) as [r|] eqn:Er; [|apply ocv_none]. cbn [bind].
  assert (R : coonsRibbon cs i = Some r).
  { rewrite <- Er. symmetry. apply (Base.mapM_nth _ _ _ _ i E). rewrite (nth_error_nth' _ 0%nat) by (rewrite seq_length; exact Hi). rewrite seq_nth by exact Hi. reflexivity. }
  unfold coonsRibbon in R. destruct (nth_error cs i) as [c|] eqn:E1; [|discriminate]. cbn [bind] in R.
  destruct (nth_error cs (prv (length cs) i)) as [l|] eqn:E2; [|discriminate]. cbn [bind] in R. destruct (nth_error cs (nxt (length cs) i)) as [rr|] eqn:E3; [|discriminate]. cbn [bind] in R.
  destruct (nth_error cs (prv _ (prv _ i))) as [l2|] eqn:E4; [|discriminate]. cbn [bind] in R. destruct (nth_error cs (nxt _ (nxt _ i))) as [r2|] eqn:E5; [|discriminate]. cbn [bind] in R. injection R as <-.
  apply (ocv_bind cv2); [apply ocv_nth; exact H|]. intros v x _ V. apply (ocv_bind cv3).
  - apply ocv_coons; [exact (St _ _ E1)|exact (St _ _ E2)|exact (St _ _ E3)|exact V].
  - intros y y0 _ Y. osome. apply cv3_scale; [apply cv3_scale; [exact Y|apply cv_1m, cv_py; exact V]|apply cv_const].
Qed.

(** *** Hybrid patches *)
Lemma ocv_single : forall j d u l, Un_cv u l -> ocv Un_cv (fun k => bernsteinSingle j d (u k)) (bernsteinSingle j d l).
Proof.
  intros j d u l H. destruct (le_lt_dec j d) as [L|L].
  - rewrite (bernsteinSingle_spec j d l L). apply (ocv_ev _ _ (fun k => Some (bern d j (u k)))); [apply ev_all; intros k; apply bernsteinSingle_spec; exact L|]. osome. unfold bern.
    apply CV_mult; [apply CV_mult; [apply cv_const|apply cv_pow; exact H]|apply cv_pow; apply cv_1m; exact H].
  - rewrite (bernsteinSingle_none j d l L). apply ocv_none.
Qed.
Lemma ocv_gbWeight : forall eps g s s0 i j k, cvL cv2 s s0 -> off_pairs eps (gb_n g) s0 -> length s0 = gb_n g -> ocv Un_cv (fun m => gbWeight eps g (s m) i j k) (gbWeight eps g s0 i j k).
Proof.
  intros eps g s s0 i j k H O L. unfold gbWeight. cbv zeta. destruct ((2 <=? k)%nat && _)%bool; [osome; apply cv_const|].
  apply (ocv_bind cv2); [apply ocv_nth; exact H|]. intros u x Ex [U1 U2]. apply (ocv_bind cv2); [apply ocv_nth; exact H|]. intros v y Ey [V1 V2]. apply (ocv_bind cv2); [apply ocv_nth; exact H|]. intros w z Ez [W1 W2].
  apply (ocv_lt Un_cv (fun m => py (u m) + py (w m))); [apply CV_plus; assumption|exact (O i x z Ex Ez)|intros _; osome; apply cv_const|intros _].
  apply (ocv_lt Un_cv (fun m => py (v m) + py (u m))); [apply CV_plus; assumption|exact (off_before eps _ s0 i x y O L Ex Ey)|intros _; osome; apply cv_const|intros _].
  apply (ocv_bind Un_cv); [apply ocv_single; exact U1|]. intros a a0 _ A. apply (ocv_bind Un_cv); [apply ocv_single; exact U2|]. intros b b0 _ B. assert (P := CV_mult _ _ _ _ A B). cbv beta in P.
  destruct ((k <? 2)%nat && _)%bool.
  - destruct (j <? 2)%nat; destruct (gb_sq g); apply ocv_fdiv; repeat first [assumption | apply CV_plus | apply CV_mult].
  - destruct ((j =? k)%nat || _)%bool; osome; [apply CV_mult; [exact P|apply cv_const]|exact P].
Qed.
Definition cvQ (u : nat -> V3 * R * R) (l : V3 * R * R) : Prop :=
  cv3 (fun k => fst (fst (u k))) (fst (fst l)) /\ Un_cv (fun k => snd (fst (u k))) (snd (fst l)) /\ Un_cv (fun k => snd (u k)) (snd l).
Lemma ocv_hybridSide : forall eps g s s0 i st st0, cvL cv2 s s0 -> off_pairs eps (gb_n g) s0 -> length s0 = gb_n g -> cvQ st st0 ->
  ocv cvQ (fun m => hybridSide eps g (s m) i (st m)) (hybridSide eps g s0 i st0).
Proof.
  intros eps g s s0 i st st0 H O L S. unfold hybridSide.
  apply (ocv_foldM _ _ cvQ (fun m st k => foldM (fun (st : V3 * R * R) j => let '(p, w, b) := st in blend <- gbWeight eps g (s m) i j k ;;
      if (2 <=? k)%nat then q <- controlPoint g i j k ;; Some (p +v q *v blend, w + blend, b) else Some (p, w + blend, b + blend)) st (seq 0 (gb_deg g + 1)))); [exact S|].
  intros k u u0 _ U.
  apply (ocv_foldM _ _ cvQ (fun m (st : V3 * R * R) j => let '(p, w, b) := st in blend <- gbWeight eps g (s m) i j k ;;
      if (2 <=? k)%nat then q <- controlPoint g i j k ;; Some (p +v q *v blend, w + blend, b) else Some (p, w + blend, b + blend))); [exact U|].
  intros j v [[p w] b] _ (V1 & V2 & V3). cbn [fst snd] in *.
  apply (ocv_ev _ _ (fun m => blend <- gbWeight eps g (s m) i j k ;; if (2 <=? k)%nat then q <- controlPoint g i j k ;; Some (fst (fst (v m)) +v q *v blend, snd (fst (v m)) + blend, snd (v m)) else Some (fst (fst (v m)), snd (fst (v m)) + blend, snd (v m) + blend))).
  { apply ev_all. intros m. destruct (v m) as [[? ?] ?]. reflexivity. }
  apply (ocv_bind Un_cv); [apply ocv_gbWeight; assumption|]. intros x x0 _ X. destruct (2 <=? k)%nat.
  - destruct (controlPoint g i j k) as [q|]; [|apply ocv_none]. cbn [bind]. osome. split; [|split]; cbn [fst snd]; [apply cv3_add; [exact V1|apply cv3_scale; [apply cv3_const|exact X]]|apply CV_plus; assumption|exact V3].
  - osome. split; [|split]; cbn [fst snd]; [exact V1|apply CV_plus; assumption|apply CV_plus; assumption].
Qed.
Definition cvB (u : nat -> V3 * R * list R) (l : V3 * R * list R) : Prop :=
  cv3 (fun k => fst (fst (u k))) (fst (fst l)) /\ Un_cv (fun k => snd (fst (u k))) (snd (fst l)) /\ cvL Un_cv (fun k => snd (u k)) (snd l).
Lemma ocv_hybrid : forall eps g sf s s0, steady sf -> cvL cv2 s s0 -> off_pairs eps (gb_n g) s0 -> length s0 = gb_n g -> ocv cv3 (fun m => hybridEval eps g sf (s m)) (hybridEval eps g sf s0).
Proof.
  intros eps g sf s s0 St H O L. unfold hybridEval. apply (ocv_bind cvB).
  - apply (ocv_foldM _ _ cvB (fun m (st : V3 * R * list R) i => let '(p, w, bs) := st in ' (p', w', b) <- hybridSide eps g (s m) i (p, w, 0) ;; Some (p', w', bs ++ [b])) _ _ (fun _ => (vzero, 0, []))).
    + split; [|split]; cbn [fst snd]; [apply cv3_const|apply cv_const|apply cvL_nil].
    + intros i v [[p w] bs] _ (V1 & V2 & V3). cbn [fst snd] in *.
      apply (ocv_ev _ _ (fun m => r <- hybridSide eps g (s m) i (fst (fst (v m)), snd (fst (v m)), 0) ;; Some (fst (fst r), snd (fst r), snd (v m) ++ [snd r]))).
      { apply ev_all. intros m. destruct (v m) as [[? ?] ?]. cbn [fst snd]. destruct (hybridSide _ _ _ _ _) as [[[? ?] ?]|]; reflexivity. }
      assert (Q : ocv cvB (fun m => r <- hybridSide eps g (s m) i (fst (fst (v m)), snd (fst (v m)), 0) ;; Some (fst (fst r), snd (fst r), snd (v m) ++ [snd r])) (r <- hybridSide eps g s0 i (p, w, 0) ;; Some (fst (fst r), snd (fst r), bs ++ [snd r]))).
      { apply (ocv_bind cvQ).
        - apply (ocv_hybridSide eps g s s0 i (fun m => (fst (fst (v m)), snd (fst (v m)), 0)) (p, w, 0) H O L). split; [|split]; cbn [fst snd]; [exact V1|exact V2|apply cv_const].
        - intros r r0 _ (R1 & R2 & R3). osome. split; [|split]; cbn [fst snd]; [exact R1|exact R2|]. apply cvL_app; [exact V3|]. apply cvL_cons; [exact R3|apply cvL_nil]. }
      destruct (hybridSide eps g s0 i (p, w, 0)) as [[[? ?] ?]|]; exact Q.
  - intros v [[p w] bs] _ (V1 & V2 & V3). cbn [fst snd] in *.
    apply (ocv_ev _ _ (fun m => r <- osum (gb_n g) (fun i => sd <- nth_error (s m) i ;; q <- sideInterpolant sf i (px sd) (py sd) ;; b <- nth_error (snd (v m)) i ;; Some (q *v b)) ;; Some (fst (fst (v m)) +v gb_cen g *v (1 - snd (fst (v m))) +v r))).
    { apply ev_all. intros m. destruct (v m) as [[? ?] ?]. reflexivity. }
    apply (ocv_bind cv3).
    + apply ocv_osum. intros i _. apply (ocv_bind cv2); [apply ocv_nth; exact H|]. intros x x0 _ [X1 X2]. apply (ocv_bind cv3); [apply ocv_side; assumption|]. intros q q0 _ Q.
      apply (ocv_bind Un_cv); [apply ocv_nth; exact V3|]. intros b b0 _ B. osome. apply cv3_scale; assumption.
    + intros r r0 _ R. osome. apply cv3_add; [apply cv3_add; [exact V1|apply cv3_scale; [apply cv3_const|apply cv_1m; exact V2]]|exact R].
Qed.

(** ** C86 *)

(** At the points where the patches have a value. *)
Theorem C86_c0coons : forall eps d cs p y, 0 < eps -> Forall steady_curve cs -> off_params (KBary Wachspress) eps d p ->
  c0coonsEval eps d cs p = Some y -> continuous_at (c0coonsEval eps d cs) p.
Proof.
  intros eps d cs p y He F O Y. pose proof Y as Y0. unfold c0coonsEval in Y. destruct (mapToRibbons (KBary Wachspress) eps d p) as [sds|] eqn:E; [|discriminate]. cbn [bind] in Y.
  apply (PropsCont.compose (KBary Wachspress) eps d p sds (fun sds => rs <- mapM (coonsRibbon cs) (seq 0 (length cs)) ;; c0coons rs (length cs) sds) y He O E Y).
  intros s S. apply ocv_c0coons; assumption.
Qed.
Print Assumptions C86_c0coons.
Theorem C86_hybrid : forall eps d g sf p sds y, 0 < eps -> steady sf -> off_params (KBary Wachspress) eps d p ->
  mapToRibbons (KBary Wachspress) eps d p = Some sds -> length sds = gb_n g -> off_pairs eps (gb_n g) sds ->
  hybridSurfaceEval eps d g sf p = Some y -> continuous_at (hybridSurfaceEval eps d g sf) p.
Proof.
  intros eps d g sf p sds y He St O E L Op Y. unfold hybridSurfaceEval in Y. rewrite E in Y. cbn [bind] in Y.
  apply (PropsCont.compose (KBary Wachspress) eps d p sds (hybridEval eps g sf) y He O E Y). intros s S. apply ocv_hybrid; assumption.
Qed.
Print Assumptions C86_hybrid.

(** Inside a convex polygon; for C0 Coons patches nothing is asked of the
    tangents of the curves. *)
Theorem C86_inside_c0 : forall c vs d eps uv l cs, convex_domain c vs d -> 0 < eps <= 1 / 3 -> in_polygon vs uv -> barycentric Wachspress eps d uv = Some l ->
  (forall x, In x l -> eps < x) -> length cs = length vs -> Forall steady_curve cs -> continuous_at (c0coonsEval eps d cs) uv.
Proof.
  intros c vs d eps uv l cs D He Hp Bc Bl Hn F. destruct (proj1 (PropsTotal.C84_c0coons c vs d eps cs D Hn ltac:(lra)) uv Hp) as (y & Y).
  apply (C86_c0coons eps d cs uv y ltac:(lra) F); [|exact Y]. exact (PropsCont.clear_params c vs d eps uv l D He Bc Bl).
Qed.
Print Assumptions C86_inside_c0.
Theorem C86_inside_hybrid : forall c vs d eps uv l g deg sf, convex_domain c vs d -> 0 < eps <= 1 / 3 -> in_polygon vs uv -> barycentric Wachspress eps d uv = Some l ->
  (forall x, In x l -> eps < x) -> shaped (length vs) deg g -> (1 <= deg)%nat -> sf_n sf = length vs -> ready sf -> steady sf -> continuous_at (hybridSurfaceEval eps d g sf) uv.
Proof.
  intros c vs d eps uv l g deg sf D He Hp Bc Bl Hs Hg Hn Hr St. destruct (proj1 (PropsTotal.C84_hybrid c vs d eps g deg sf D Hs Hg Hn Hr ltac:(lra)) uv Hp) as (y & Y).
  destruct (PropsTotal.C84_barycentric c vs d eps uv D ltac:(lra) Hp) as (l' & E' & Ll & _ & Sl). assert (l' = l) by congruence. subst l'.
  destruct (PropsCont.clear_bary c vs d eps uv l D He Bc Ll Sl Bl) as (sds & Es & Ls & _ & Os). assert (Gn : gb_n g = length vs) by (apply Hs).
  apply (C86_hybrid eps d g sf uv sds y ltac:(lra) St (PropsCont.clear_params c vs d eps uv l D He Bc Bl) Es); [congruence|rewrite Gn; exact Os|exact Y].
Qed.
Print Assumptions C86_inside_hybrid.

(** At the middle of the square all coordinates are 1/4. *)
Lemma square_middle : forall c d eps, convex_domain c PropsCont.sq d -> 0 < eps <= 1 -> barycentric Wachspress eps d pzero = Some [1/4; 1/4; 1/4; 1/4].
Proof.
  intros c d eps (Hd & _) He. pose proof (ParamMaps.d_verts_eq c PropsCont.sq d Hd) as Dv.
  rewrite (ParamBary.bary_closed PropsCont.sq _ d Dv) by (try (simpl; lia); intros; cbn [baryRadius]; lra).
  assert (W : forall i, (i < 4)%nat -> ParamBary.wfun PropsCont.sq pzero Wachspress i = 2).
  { intros i Hi. unfold ParamBary.wfun, ParamBary.prodBut, ParamBary.prodBut2, ParamBary.bcr, ParamBary.tri, ParamBary.svec, vtx, sarea, pcross, baryRadius, rprod.
    destruct i as [|[|[|[|i]]]]; [| | | |lia]; cbv [PropsCont.sq PropsElastic.square4 length prv nxt Nat.add Nat.sub Nat.modulo Nat.divmod fst snd nth Nat.eqb seq map fold_right]; simpl; field. }
  assert (S : rsum (length PropsCont.sq) (ParamBary.wfun PropsCont.sq pzero Wachspress) = 8).
  { rewrite (rsum_ext 4 _ (fun i => 2)) by exact W. cbv [rsum]. ring. }
  rewrite S. destruct (Req_EM_T 8 0); [lra|]. f_equal. change (length PropsCont.sq) with 4%nat. cbv [tabulate seq map]. rewrite !W by lia. repeat (apply (f_equal2 cons); [field|]). reflexivity.
Qed.
Example C86_middle : forall eps deg g, 0 < eps < 1 / 4 -> shaped 4 deg g -> (1 <= deg)%nat -> exists d cs, domainFrames pzero PropsCont.sq = Some d /\
  let rs := lineRibs PropsSurface.corners4 in
  continuous_at (c0coonsEval eps d (map sr_curve rs)) pzero /\ continuous_at (hybridSurfaceEval eps d g (mkSurf 4 true rs cs)) pzero.
Proof.
  intros eps deg g He Hs Hg. destruct PropsCont.square_domain as (d & Hd & D). destruct (BlendProps.lineRibs_ok PropsSurface.corners4 ltac:(simpl; lia)) as (Cl & cs & U). exists d, cs. split; [exact Hd|]. intros rs.
  pose proof (square_middle pzero d eps D ltac:(lra)) as B. assert (Bl : forall x, In x [1/4; 1/4; 1/4; 1/4] -> eps < x) by (intros x Hx; cbn [In] in Hx; lra).
  pose proof (PropsCont.square_in 0 ltac:(lra)) as Hp. change (mkV2 0 0) with pzero in Hp. pose proof (PropsCont.lineRibs_steady PropsSurface.corners4 true cs) as St. split.
  - apply (C86_inside_c0 pzero _ d eps pzero _ (map sr_curve rs) D ltac:(lra) Hp B Bl); [reflexivity|]. apply Forall_forall. intros c Hc. apply in_map_iff in Hc. destruct Hc as (r & <- & Hr). exact (proj1 (proj1 (Forall_forall _ _) St r Hr)).
  - apply (C86_inside_hybrid pzero _ d eps pzero _ g deg (mkSurf 4 true rs cs) D ltac:(lra) Hp B Bl Hs Hg eq_refl); [split; [exact Cl|exact U]|exact St].
Qed.
