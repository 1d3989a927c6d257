(** Going round the boundary the other way: domains and parameterizations. *)
From Verif Require Import Base MeshModel GeomSpec DomainModel UtilModel UtilSpec UtilProofs ParamModel.
From Verif Require Import DomainProofs DomainPolygons ParamBary RibbonModel SurfaceModel RotSpec RotProofs RotParam MirSpec MirProofs.
Open Scope R_scope.

Notation M := mirrored.
Definition mirVerts (vs : list V2) : list V2 := rev (map mirrored vs).
Definition neg1 (p : V2) : V2 := mkV2 (- px p) (py p).

Lemma M_sub : forall a b, M a -p M b = M (a -p b).
Proof. intros a b. unfold mirrored, psub, padd, popp. cbn [px py]. f_equal; ring. Qed.
Lemma M_pdot : forall a b, pdot (M a) (M b) = pdot a b.
Proof. intros a b. unfold pdot. simpl. ring. Qed.
Lemma M_norm : forall a, pnorm (M a) = pnorm a.
Proof. intros a. unfold pnorm. rewrite M_pdot. reflexivity. Qed.
Lemma M_norm2 : forall a, pnorm2 (M a) = pnorm2 a.
Proof. intros a. unfold pnorm2. apply M_pdot. Qed.
Lemma M_M : forall a, M (M a) = a.
Proof. intros a. unfold mirrored. apply V2_ext; simpl; ring. Qed.
Lemma M_div : forall a k, pdiv (M a) k = option_map M (pdiv a k).
Proof. intros a k. unfold pdiv. destruct (Req_EM_T k 0); [reflexivity|]. cbn [option_map]. f_equal. unfold mirrored. apply V2_ext; simpl; unfold Rdiv; ring. Qed.
Lemma M_normalize : forall a, pnormalize (M a) = option_map M (pnormalize a).
Proof. intros a. unfold pnormalize. rewrite M_norm. apply M_div. Qed.
Lemma M_radius : forall t a, baryRadius t (M a) = baryRadius t a.
Proof. intros [] a; cbn [baryRadius]; [reflexivity|apply M_norm|apply M_norm2]. Qed.
Lemma norm_swap : forall a b, pnorm (a -p b) = pnorm (b -p a).
Proof. intros a b. unfold pnorm. f_equal. unfold pdot. simpl. ring. Qed.

Section Dom.
Variables (c : V2) (vs : list V2) (d d' : dom).
Let n := length vs.
Let vs' := mirVerts vs.
Hypothesis Hd : domainFrames c vs = Some d.
Hypothesis Hd' : domainFrames (M c) vs' = Some d'.

Lemma len_mir : length vs' = n.
Proof. unfold vs', mirVerts. rewrite rev_length, map_length. reflexivity. Qed.
Lemma dn : d_n d = n. Proof. rewrite (d_eq _ _ _ Hd). reflexivity. Qed.
Lemma dn' : d_n d' = n. Proof. rewrite (d_eq _ _ _ Hd'). cbn [d_n]. apply len_mir. Qed.
Lemma dvs : d_verts d = vs. Proof. rewrite (d_eq _ _ _ Hd). reflexivity. Qed.
Lemma dvs' : d_verts d' = vs'. Proof. rewrite (d_eq _ _ _ Hd'). reflexivity. Qed.
Lemma vtx_mir : forall i, (i < n)%nat -> vtx vs' i = M (vtx vs (cor n i)).
Proof.
  intros i Hi. unfold vtx. assert (E : nth_error vs' i = Some (M (nth (cor n i) vs pzero))).
  { unfold vs', mirVerts. rewrite (rev_nth _ _ n) by (try exact Hi; apply map_length). rewrite mapped_nth. rewrite (nth_error_nth' vs pzero) by (apply cor_lt; exact Hi). reflexivity. }
  apply nth_error_nth. exact E.
Qed.
Lemma v_nth : forall i, (i < n)%nat -> nth_error (d_verts d) i = Some (vtx vs i).
Proof. intros i Hi. rewrite dvs. apply vtx_some. exact Hi. Qed.
Lemma v_nth' : forall i, (i < n)%nat -> nth_error (d_verts d') i = Some (M (vtx vs (cor n i))).
Proof. intros i Hi. rewrite dvs', vtx_some by (rewrite len_mir; exact Hi). rewrite vtx_mir by exact Hi. reflexivity. Qed.
Lemma sidevec_mir : forall i, (i < n)%nat -> sidevec vs' i = popp (M (sidevec vs (sid n i))).
Proof.
  intros i Hi. unfold sidevec. rewrite len_mir. fold n. rewrite !vtx_mir by (try exact Hi; apply prv_lt; lia). rewrite (cor_prv n i Hi), (prv_sid n i Hi).
  unfold mirrored, psub, padd, popp. cbn [px py]. f_equal; ring.
Qed.
Lemma dv_mir : forall i, (i < n)%nat -> frame_dv (M c) vs' i = M (frame_dv c vs (sid n i)).
Proof.
  intros i Hi. assert (Hs := sid_lt n i Hi). unfold frame_dv. rewrite sidevec_mir, vtx_mir by exact Hi.
  assert (Sv : sidevec vs (sid n i) = vtx vs (sid n i) -p vtx vs (cor n i)) by (unfold sidevec; fold n; rewrite (prv_sid n i Hi); reflexivity). rewrite Sv.
  set (a := vtx vs (sid n i)). set (b := vtx vs (cor n i)).
  assert (E : pdot (M c -p M b) (mkV2 (py (popp (M (a -p b)))) (- px (popp (M (a -p b))))) = pdot (c -p a) (mkV2 (py (a -p b)) (- px (a -p b)))) by (unfold pdot, mirrored, psub, padd, popp; cbn [px py]; ring).
  rewrite E. destruct (Rlt_dec _ 0); unfold mirrored, psub, padd, popp; cbn [px py]; f_equal; ring.
Qed.

Lemma local_some : forall i v, (i < n)%nat -> toLocal d i v = pdiv (mkV2 (pdot v (sidevec vs i)) (pdot v (frame_dv c vs i))) (pnorm2 (sidevec vs i)).
Proof. intros i v Hi. unfold toLocal. rewrite (du_nth _ _ _ Hd i Hi), (dv_nth _ _ _ Hd i Hi). reflexivity. Qed.
Lemma toLocal_mir : forall i v, (i < n)%nat -> toLocal d' i (M v) = option_map neg1 (toLocal d (sid n i) v).
Proof.
  intros i v Hi. rewrite local_some by (apply sid_lt; exact Hi). unfold toLocal. rewrite (du_nth _ _ _ Hd' i), (dv_nth _ _ _ Hd' i) by (rewrite len_mir; exact Hi). cbn [bind].
  rewrite sidevec_mir, dv_mir by exact Hi. set (u := sidevec vs (sid n i)). set (w := frame_dv c vs (sid n i)).
  replace (pnorm2 (popp (M u))) with (pnorm2 u) by (unfold pnorm2, pdot, popp, mirrored; simpl; ring). rewrite M_pdot.
  unfold pdiv. destruct (Req_EM_T (pnorm2 u) 0); [reflexivity|]. cbn [option_map]. f_equal. unfold neg1. apply V2_ext; simpl; [|reflexivity]. unfold Rdiv, pdot, popp, mirrored. simpl. ring.
Qed.
(** The local coordinates from the other end of the side. *)
Lemma local_shift : forall i v, (i < n)%nat -> toLocal d i (v -p vtx vs i) = option_map (fun p => mkV2 (px p - 1) (py p)) (toLocal d i (v -p vtx vs (prv n i))).
Proof.
  intros i v Hi. rewrite !local_some by exact Hi. assert (Pp := frame_perp c vs i). unfold pdiv. destruct (Req_EM_T (pnorm2 (sidevec vs i)) 0) as [|N]; [reflexivity|]. cbn [option_map]. f_equal.
  assert (E : v -p vtx vs i = (v -p vtx vs (prv n i)) -p sidevec vs i) by (unfold sidevec; fold n; unfold psub, padd, popp; cbn [px py]; f_equal; ring).
  rewrite E. set (u := sidevec vs i) in *. set (w := frame_dv c vs i) in *. set (x := v -p vtx vs (prv n i)). apply V2_ext; simpl.
  - replace (pdot (x -p u) u) with (pdot x u - pnorm2 u) by (unfold pnorm2, pdot; simpl; ring). field. exact N.
  - replace (pdot (x -p u) w) with (pdot x w - pdot u w) by (unfold pdot; simpl; ring). rewrite Pp. f_equal. ring.
Qed.
Lemma edgeLength_mir : forall i, (i < n)%nat -> edgeLength d' i = edgeLength d (sid n i).
Proof.
  intros i Hi. assert (Hs := sid_lt n i Hi). unfold edgeLength. rewrite dn, dn', !v_nth', !v_nth by (try assumption; apply prv_lt; lia). cbn [bind]. rewrite (cor_prv n i Hi), (prv_sid n i Hi), M_sub, M_norm, norm_swap. reflexivity.
Qed.
Lemma angle_mir : forall i, (i < n)%nat -> angle d' i = angle d (cor n i).
Proof.
  intros i Hi. assert (Hc := cor_lt n i Hi). unfold angle. rewrite dn, dn', !v_nth', !v_nth by (try assumption; try (apply nxt_lt; lia); apply prv_lt; lia). cbn [bind].
  rewrite (cor_prv n i Hi), (cor_nxt n i Hi), (nxt_cor n i Hi), !M_sub, !M_normalize.
  destruct (pnormalize (vtx vs (sid n i) -p vtx vs (cor n i))) as [b|]; destruct (pnormalize (vtx vs (prv n (cor n i)) -p vtx vs (cor n i))) as [a|]; try reflexivity. cbn [option_map bind].
  rewrite M_pdot. replace (pdot b a) with (pdot a b) by (unfold pdot; ring). reflexivity.
Qed.

(** ** The bilinear parameterization *)
Lemma solve_mir : forall eps a b c0, a = 0 /\ eps <= Rabs b \/ eps <= Rabs a /\ c0 * (a + b + c0) < 0 -> 0 < eps ->
  bilinearSolve eps (- a) (2 * a + b) (- (a + b + c0)) = option_map (fun s => 1 - s) (bilinearSolve eps a b c0).
Proof.
  intros eps a b c0 [(A & B)|(A & C)] He; unfold bilinearSolve; rewrite Rabs_Ropp.
  - subst a. rewrite Rabs_R0. destruct (Rlt_dec 0 eps); [|lra]. replace (2 * 0 + b) with b by ring. destruct (Rlt_dec (Rabs b) eps); [lra|].
    assert (b <> 0) by (intros ->; rewrite Rabs_R0 in B; lra). rewrite !fdiv_some by assumption. cbn [option_map]. f_equal. field. assumption.
  - destruct (Rlt_dec (Rabs a) eps); [lra|]. assert (N : a <> 0) by (intros ->; rewrite Rabs_R0 in A; lra).
    replace ((2 * a + b) * (2 * a + b) - 4 * - a * - (a + b + c0)) with (b * b - 4 * a * c0) by ring.
    set (D1 := if Rlt_dec (b * b - 4 * a * c0) eps then 0 else b * b - 4 * a * c0).
    rewrite !fdiv_some by lra. cbn [bind option_map]. f_equal.
    set (s := - b / (2 * a)). set (D := sqrt D1 / (2 * a)).
    replace (- (2 * a + b) / (2 * - a)) with (1 - s) by (unfold s; field; exact N).
    replace (sqrt D1 / (2 * - a)) with (- D) by (unfold D; field; exact N).
    assert (Cases : D = 0 \/ (s + D) * (s - D) * ((1 - (s + D)) * (1 - (s - D))) < 0).
    { unfold D1 in D. destruct (Rlt_dec (b * b - 4 * a * c0) eps) as [L|L]; [left; unfold D; rewrite sqrt_0; field; exact N|]. right.
      assert (Q : sqrt (b * b - 4 * a * c0) * sqrt (b * b - 4 * a * c0) = b * b - 4 * a * c0) by (apply sqrt_sqrt; lra).
      assert (DD : D * D = (b * b - 4 * a * c0) / (4 * a * a)) by (unfold D; replace (b * b - 4 * a * c0) with (sqrt (b * b - 4 * a * c0) * sqrt (b * b - 4 * a * c0)) at 3 by exact Q; field; exact N).
      assert (E1 : (s + D) * (s - D) = c0 / a) by (replace ((s + D) * (s - D)) with (s * s - D * D) by ring; rewrite DD; unfold s; field; exact N).
      assert (E2 : (1 - (s + D)) * (1 - (s - D)) = (a + b + c0) / a) by (replace ((1 - (s + D)) * (1 - (s - D))) with (1 - 2 * s + (s + D) * (s - D)) by ring; rewrite E1; unfold s; field; exact N).
      rewrite E1, E2. replace (c0 / a * ((a + b + c0) / a)) with (c0 * (a + b + c0) * (/ a * / a)) by (field; exact N).
      assert (0 < / a * / a) by (rewrite <- Rinv_mult; apply Rinv_0_lt_compat; nra). nra. }
    clearbody s D. clear - Cases. destruct Cases as [->|P].
    + replace (- 0) with 0 by ring. rewrite !Rplus_0_r, !Rminus_0_r. destruct (Rlt_dec (1 - s) (1 - s)); [lra|]. destruct (Rlt_dec s s); [lra|]. destruct (Rlt_dec _ _); destruct (Rlt_dec _ _); reflexivity.
    + assert (G : forall lo hi, lo <= hi -> lo * hi * ((1 - lo) * (1 - hi)) < 0 -> lo < 0 /\ 0 < hi < 1 \/ 0 < lo < 1 /\ 1 < hi).
      { clear. intros lo hi H P. destruct (Rlt_dec lo 0) as [A|A].
        - left. split; [exact A|]. destruct (Rle_dec hi 0); [exfalso; assert (0 <= lo * hi) by nra; assert (0 <= (1 - lo) * (1 - hi)) by nra; nra|].
          destruct (Rlt_dec hi 1); [lra|]. exfalso. assert (lo * hi <= 0) by nra. assert ((1 - lo) * (1 - hi) <= 0) by nra. nra.
        - right. destruct (Req_dec lo 0) as [->|]; [lra|]. destruct (Rle_dec 1 lo); [exfalso; assert (0 <= (1 - lo) * (1 - hi)) by nra; assert (0 <= lo * hi) by nra; nra|].
          split; [lra|]. destruct (Rlt_dec 1 hi); [lra|]. exfalso. assert (0 <= (1 - lo) * (1 - hi)) by nra. assert (0 <= lo * hi) by nra. nra. }
      replace (1 - s + - D) with (1 - (s + D)) by ring. replace (1 - s - - D) with (1 - (s - D)) by ring. set (x := s + D) in *. set (y := s - D) in *. clearbody x y.
      destruct (Rlt_dec x y) as [L|L].
      * destruct (Rlt_dec (1 - x) (1 - y)); [lra|]. destruct (G x y) as [(A & B)|(A & B)]; [lra|nra| |].
        -- rewrite (Rmax_left 0 (y - 1)), (Rmax_right 0 (- x)), (Rmax_right 0 (1 - x - 1)), (Rmax_left 0 (- (1 - y))) by lra. destruct (Rlt_dec 0 (- x)); destruct (Rlt_dec _ 0); lra.
        -- rewrite (Rmax_right 0 (y - 1)), (Rmax_left 0 (- x)), (Rmax_left 0 (1 - x - 1)), (Rmax_right 0 (- (1 - y))) by lra. destruct (Rlt_dec _ 0); destruct (Rlt_dec 0 _); lra.
      * destruct (Req_dec x y) as [->|Ne].
        -- destruct (Rlt_dec (1 - y) (1 - y)); [lra|]. destruct (Rlt_dec _ _); destruct (Rlt_dec _ _); reflexivity.
        -- destruct (Rlt_dec (1 - x) (1 - y)); [|lra]. destruct (G y x) as [(A & B)|(A & B)]; [lra|nra| |].
           ++ rewrite (Rmax_left 0 (x - 1)), (Rmax_right 0 (- y)), (Rmax_right 0 (1 - y - 1)), (Rmax_left 0 (- (1 - x))) by lra. destruct (Rlt_dec 0 (- y)); destruct (Rlt_dec _ 0); lra.
           ++ rewrite (Rmax_right 0 (x - 1)), (Rmax_left 0 (- y)), (Rmax_left 0 (1 - y - 1)), (Rmax_right 0 (- (1 - x))) by lra. destruct (Rlt_dec _ 0); destruct (Rlt_dec 0 _); lra.
Qed.
Lemma bilinearLocal_mir : forall eps p1 p2 p, 0 < eps -> balanced eps p1 p2 p ->
  bilinearLocal eps (neg1 p2) (neg1 p1) (mkV2 (1 - px p) (py p)) = option_map flipSd (bilinearLocal eps p1 p2 p).
Proof.
  intros eps p1 p2 p He B. unfold bilinearLocal, neg1. cbn [px py]. set (a := py p1 - py p2). set (b := px p * py p2 - (px p + 1) * py p1 + (px p1 - px p2) * py p). set (c0 := px p * py p1 - py p * px p1).
  replace (py p2 - py p1) with (- a) by (unfold a; ring). replace ((1 - px p) * py p1 - (1 - px p + 1) * py p2 + (- px p2 - - px p1) * py p) with (2 * a + b) by (unfold a, b; ring).
  replace ((1 - px p) * py p2 - py p * - px p2) with (- (a + b + c0)) by (unfold a, b, c0; ring).
  rewrite (solve_mir eps a b c0 B He). destruct (bilinearSolve eps a b c0) as [s|]; [|reflexivity]. cbn [option_map bind].
  replace (py p2 * (1 - (1 - s)) + py p1 * (1 - s)) with (py p1 * (1 - s) + py p2 * s) by ring. destruct (fdiv _ _); reflexivity.
Qed.
Lemma bilinear_mir : forall eps i uv, 0 < eps -> (2 <= n)%nat -> balancedAt eps d uv -> (i < n)%nat -> bilinearMap eps d' i (M uv) = option_map flipSd (bilinearMap eps d (sid n i) uv).
Proof.
  intros eps i uv He H2 B Hi. assert (Hs := sid_lt n i Hi). assert (Hc := cor_lt n i Hi). assert (Hp : (prv n i < n)%nat) by (apply prv_lt; lia). unfold balancedAt in B. specialize (B (sid n i)). unfold bilinearMap. rewrite dn, dn'. rewrite dn in B.
  assert (P2 : forall j, (j < n)%nat -> prv2 n j = prv n (prv n j)).
  { intros j Hj. unfold prv2, prv. assert (C := prv_cases n j Hj). unfold prv in C. rewrite C. destruct (Nat.eqb_spec j 0) as [E|E].
    - subst j. replace (0 + n - 2)%nat with (n - 2)%nat by lia. replace (n - 1 + n - 1)%nat with (n - 2 + 1 * n)%nat by lia. rewrite Nat.mod_add by lia. reflexivity.
    - replace (j - 1 + n - 1)%nat with (j + n - 2)%nat by lia. reflexivity. }
  rewrite !P2 in * by assumption. rewrite !v_nth', !v_nth by (try assumption; try (apply nxt_lt; lia); repeat apply prv_lt; lia). rewrite !v_nth in B by (try assumption; try (apply nxt_lt; lia); repeat apply prv_lt; lia). cbn [bind].
  rewrite (cor_prv n (prv n i) Hp), (cor_prv n i Hi), (sid_prv n i Hi), (cor_nxt n i Hi), (prv_sid n i Hi), !M_sub, !toLocal_mir by exact Hi. rewrite (prv_sid n i Hi) in B.
  assert (B' := fun p1 p2 p => B _ _ _ _ p1 p2 p Hs eq_refl eq_refl eq_refl eq_refl). clear B. rename B' into B.
  rewrite (local_shift (sid n i) uv Hs). rewrite (prv_sid n i Hi).
  destruct (toLocal d (sid n i) (vtx vs (prv n (cor n i)) -p vtx vs (cor n i))) as [p1|] eqn:E1; destruct (toLocal d (sid n i) (vtx vs (nxt n (sid n i)) -p vtx vs (sid n i))) as [p2|] eqn:E2;
    destruct (toLocal d (sid n i) (uv -p vtx vs (cor n i))) as [p|] eqn:E; try reflexivity; cbn [option_map bind].
  specialize (B p1 p2 p eq_refl eq_refl eq_refl). rewrite <- (bilinearLocal_mir eps p1 p2 p He B). f_equal. unfold neg1. cbn [px py]. f_equal. ring.
Qed.
Lemma interconnected_mir : forall eps i uv, 0 < eps -> (2 <= n)%nat -> balancedAt eps d uv -> (i < n)%nat -> interconnectedMap eps d' i (M uv) = option_map flipSd (interconnectedMap eps d (sid n i) uv).
Proof.
  intros eps i uv He H2 B Hi. unfold interconnectedMap. rewrite dn, dn', !bilinear_mir by (try assumption; try (apply nxt_lt; lia); apply prv_lt; lia). rewrite (sid_prv n i Hi), (sid_nxt n i Hi), (prv_sid n i Hi).
  destruct (bilinearMap eps d (nxt n (sid n i)) uv) as [sn|]; destruct (bilinearMap eps d (cor n i) uv) as [sp|]; try reflexivity. cbn [option_map bind].
  destruct (bilinearMap eps d (sid n i) uv) as [sd|]; [|reflexivity]. cbn [option_map bind flipSd px py]. unfold flipSd. cbn [px py]. rewrite hermite_flip. f_equal. f_equal. ring.
Qed.

(** ** The parallel one *)
Lemma fmax_app : forall f l1 l2 m, fmax f (l1 ++ l2) m = fmax f l2 (fmax f l1 m).
Proof. intros. unfold fmax. apply fold_left_app. Qed.
Lemma fmax_out : forall f l m a, fmax f l (Rmax m a) = Rmax (fmax f l m) a.
Proof.
  intros f l. unfold fmax. induction l as [|b l IH]; intros m a; [reflexivity|]. cbn [fold_left]. rewrite <- IH. f_equal. rewrite <- !Rmax_assoc. f_equal. apply Rmax_comm.
Qed.
Lemma fmax_rev : forall f l m, fmax f (rev l) m = fmax f l m.
Proof.
  intros f l m. induction l as [|a l IH]; [reflexivity|]. cbn [rev]. rewrite fmax_app, IH. change (fmax f [a] (fmax f l m)) with (Rmax (fmax f l m) (f a)).
  change (fmax f (a :: l) m) with (fmax f l (Rmax m (f a))). symmetry. apply fmax_out.
Qed.
Lemma fmax_map : forall f g l m, fmax f (map g l) m = fmax (fun p => f (g p)) l m.
Proof. intros f g l. unfold fmax. induction l as [|a l IH]; intros m; [reflexivity|]. cbn [map fold_left]. apply IH. Qed.
Lemma fmax_ext : forall f g l m, (forall p, f p = g p) -> fmax f l m = fmax g l m.
Proof. intros f g l m H. revert m. unfold fmax. induction l as [|a l IH]; intros m; [reflexivity|]. cbn [fold_left]. rewrite H. apply IH. Qed.
Lemma maxDist_mir : forall i, (i < n)%nat -> maxDist d' i = maxDist d (sid n i).
Proof.
  intros i Hi. assert (Hs := sid_lt n i Hi). assert (Hc := cor_lt n i Hi). unfold maxDist. rewrite v_nth', v_nth by assumption. cbn [bind]. rewrite dvs, dvs'.
  assert (Nv : vs <> []) by (intros E; unfold n in Hi; rewrite E in Hi; simpl in Hi; lia).
  assert (Nv' : vs' <> []) by (intros E; assert (X := len_mir); rewrite E in X; simpl in X; lia).
  assert (T : forall p, toLocal d' i (p -p M (vtx vs (cor n i))) = option_map neg1 (option_map (fun q => mkV2 (px q + 1) (py q)) (toLocal d (sid n i) (M p -p vtx vs (sid n i))))).
  { intros p. replace p with (M (M p)) at 1 by apply M_M. rewrite M_sub, toLocal_mir by exact Hi. f_equal. rewrite (local_shift (sid n i) (M p) Hs), (prv_sid n i Hi). destruct (toLocal d (sid n i) (M p -p vtx vs (cor n i))) as [q|]; [|reflexivity]. cbn [option_map px py]. f_equal. apply V2_ext; simpl; ring. }
  destruct (Req_EM_T (pnorm2 (sidevec vs (sid n i))) 0) as [Z|Z].
  - assert (Q : forall v, toLocal d (sid n i) v = None) by (intros v; rewrite local_some by exact Hs; unfold pdiv; destruct (Req_EM_T _ 0); [reflexivity|contradiction]).
    rewrite !foldM_none; [reflexivity|exact Nv|intros p; apply Q|exact Nv'|intros p; rewrite T, Q; reflexivity].
  - set (f := fun p => pdot (p -p vtx vs (sid n i)) (frame_dv c vs (sid n i)) / pnorm2 (sidevec vs (sid n i))).
    assert (F : forall p, toLocal d (sid n i) (p -p vtx vs (sid n i)) = Some (mkV2 (pdot (p -p vtx vs (sid n i)) (sidevec vs (sid n i)) / pnorm2 (sidevec vs (sid n i))) (f p))) by (intros p; rewrite local_some, pdiv_some by assumption; reflexivity).
    rewrite (foldM_max (fun p => toLocal d (sid n i) (p -p vtx vs (sid n i))) f) by (intros p; rewrite F; reflexivity).
    rewrite (foldM_max (fun p => toLocal d' i (p -p M (vtx vs (cor n i)))) (fun p => f (M p))) by (intros p; rewrite T, F; reflexivity).
    f_equal. unfold vs', mirVerts. rewrite fmax_rev, fmax_map. apply fmax_ext. intros p. rewrite M_M. reflexivity.
Qed.
Lemma multipliers_mir : parallelMultipliers d' = option_map mir (parallelMultipliers d).
Proof. unfold parallelMultipliers. rewrite dn, dn'. apply mapM_mir. intros i Hi. rewrite maxDist_mir by exact Hi. reflexivity. Qed.
Lemma parallel_mir : forall eps ms i uv, 0 < eps -> length ms = n -> (2 <= n)%nat -> balancedAt eps d uv -> (i < n)%nat -> parallelMap eps d' (mir ms) i (M uv) = option_map flipSd (parallelMap eps d ms (sid n i) uv).
Proof.
  intros eps ms i uv He Lm H2 B Hi. assert (Hs := sid_lt n i Hi). unfold parallelMap. rewrite bilinear_mir, v_nth', v_nth, (mir_nth _ _ n) by assumption.
  destruct (bilinearMap eps d (sid n i) uv) as [sd|]; [|reflexivity]. cbn [option_map bind]. rewrite M_sub, toLocal_mir by exact Hi. rewrite (local_shift (sid n i) uv Hs), (prv_sid n i Hi).
  destruct (toLocal d (sid n i) (uv -p vtx vs (cor n i))) as [l|]; [|reflexivity]. cbn [option_map bind]. destruct (nth_error ms (sid n i)); reflexivity.
Qed.

(** ** Barycentric coordinates *)
Lemma rprod_cor : forall m f, rprod m (fun i => f (cor m i)) = rprod m f.
Proof.
  induction m as [|m IH]; intros f; [reflexivity|].
  assert (F : forall k g, rprod (S k) g = g 0%nat * rprod k (fun i => g (S i))).
  { clear. induction k as [|k IH]; intros g; [cbn [rprod]; ring|]. change (rprod (S (S k)) g) with (rprod (S k) g * g (S k)). rewrite IH. cbn [rprod]. ring. }
  rewrite F. cbn [rprod]. rewrite (rprod_ext m (fun i => f (cor (S m) (S i))) (fun i => f (cor m i))); [|intros i Hi; f_equal; unfold cor; lia]. rewrite IH.
  replace (cor (S m) 0) with m by (unfold cor; lia). ring.
Qed.
Lemma rprod_before : forall m f, rprod m (fun i => f (prv m (cor m i))) = rprod m f.
Proof.
  intros m f. rewrite (rprod_cor m (fun i => f (prv m i))). rewrite <- (rprod_rot m (fun i => f (prv m i))). apply rprod_ext. intros i Hi. rewrite prv_nxt by exact Hi. reflexivity.
Qed.
Section Bary.
Variable uv : V2.
Lemma svec_mir : forall i, (i < n)%nat -> svec vs' (M uv) i = M (svec vs uv (cor n i)).
Proof. intros i Hi. unfold svec. rewrite vtx_mir by exact Hi. apply M_sub. Qed.
Lemma tri_mir : forall i, (i < n)%nat -> tri vs' (M uv) i = tri vs uv (prv n (cor n i)).
Proof.
  intros i Hi. assert (Hc := cor_lt n i Hi). unfold tri. rewrite len_mir. fold n. rewrite !vtx_mir by (try exact Hi; apply nxt_lt; lia). rewrite (cor_nxt n i Hi), (nxt_prv n (cor n i) Hc).
  unfold sarea, pcross, mirrored. simpl. field.
Qed.
Lemma bcr_mir : forall i, (i < n)%nat -> bcr vs' (M uv) i = bcr vs uv (cor n i).
Proof.
  intros i Hi. unfold bcr. rewrite len_mir. fold n. rewrite !svec_mir by (try (apply nxt_lt; lia); apply prv_lt; lia). rewrite (cor_nxt n i Hi), (cor_prv n i Hi), (nxt_cor n i Hi). unfold pcross, mirrored. simpl. field.
Qed.
Lemma before_eqb : forall i j, (i < n)%nat -> (j < n)%nat -> (prv n (cor n i) =? prv n (cor n j))%nat = (i =? j)%nat.
Proof.
  intros i j Hi Hj. destruct (Nat.eqb_spec i j) as [->|N]; [apply Nat.eqb_refl|]. apply Nat.eqb_neq. intros E. apply N.
  rewrite <- (cor_cor n i Hi), <- (cor_cor n j Hj). f_equal. rewrite <- (nxt_prv n (cor n i)), <- (nxt_prv n (cor n j)) by (apply cor_lt; assumption). rewrite E. reflexivity.
Qed.
Lemma prodBut_mir : forall k, (k < n)%nat -> prodBut vs' (M uv) k = prodBut vs uv (prv n (cor n k)).
Proof.
  intros k Hk. unfold prodBut. rewrite len_mir. fold n. rewrite <- (rprod_before n (fun j => if (j =? prv n (cor n k))%nat then 1 else tri vs uv j)).
  apply rprod_ext. intros j Hj. rewrite before_eqb, tri_mir by assumption. reflexivity.
Qed.
Lemma prodBut2_mir : forall k l, (k < n)%nat -> (l < n)%nat -> prodBut2 vs' (M uv) k l = prodBut2 vs uv (prv n (cor n k)) (prv n (cor n l)).
Proof.
  intros k l Hk Hl. unfold prodBut2. rewrite len_mir. fold n. rewrite <- (rprod_before n (fun j => if (j =? prv n (cor n k))%nat then 1 else if (j =? prv n (cor n l))%nat then 1 else tri vs uv j)).
  apply rprod_ext. intros j Hj. rewrite !before_eqb, tri_mir by assumption. reflexivity.
Qed.
Lemma prodBut2_sym : forall k l, prodBut2 vs uv k l = prodBut2 vs uv l k.
Proof. intros k l. unfold prodBut2. apply rprod_ext. intros j _. destruct (j =? k)%nat; destruct (j =? l)%nat; reflexivity. Qed.
Lemma wfun_mir : forall t i, (i < n)%nat -> wfun vs' (M uv) t i = wfun vs uv t (cor n i).
Proof.
  intros t i Hi. assert (Hp : (prv n i < n)%nat) by (apply prv_lt; lia). assert (Hx : (nxt n i < n)%nat) by (apply nxt_lt; lia). assert (Hs := sid_lt n i Hi).
  unfold wfun. rewrite len_mir. fold n. rewrite !svec_mir, !prodBut_mir, prodBut2_mir, bcr_mir by assumption. rewrite !M_radius.
  rewrite (cor_prv n i Hi), (cor_nxt n i Hi), (nxt_cor n i Hi), (prv_sid n i Hi). rewrite (prodBut2_sym (prv n (cor n i))). ring.
Qed.
Lemma tabulate_cor : forall A (f g : nat -> A), (forall i, (i < n)%nat -> g i = f (cor n i)) -> tabulate n g = rev (tabulate n f).
Proof.
  intros A f g H. apply list_ext. intros j. destruct (Nat.lt_ge_cases j n) as [Hj|Hj].
  - rewrite (rev_nth _ _ n) by (try apply tabulate_length; exact Hj). rewrite !tabulate_nth_error by (try exact Hj; apply cor_lt; exact Hj). rewrite H by exact Hj. reflexivity.
  - rewrite !(proj2 (nth_error_None _ j)); [reflexivity| |]; rewrite ?rev_length, tabulate_length; lia.
Qed.
Lemma bary_mir : forall t eps, (2 <= n)%nat -> (forall v, In v vs -> eps <= baryRadius t (uv -p v)) -> barycentric t eps d' (M uv) = option_map (@rev R) (barycentric t eps d uv).
Proof.
  intros t eps H2 Fr. assert (A : forall i, (i < n)%nat -> eps <= baryRadius t (svec vs uv i)) by (intros i Hi; unfold svec; apply Fr; unfold vtx; apply nth_In; exact Hi).
  rewrite (bary_closed vs uv d dvs H2 t eps A). rewrite (bary_closed vs' (M uv) d' dvs').
  2:{ rewrite len_mir. exact H2. }
  2:{ intros i Hi. rewrite len_mir in Hi. rewrite svec_mir, M_radius by exact Hi. apply A. apply cor_lt. exact Hi. }
  rewrite len_mir. fold n. rewrite (rsum_ext n (wfun vs' (M uv) t) (fun i => wfun vs uv t (cor n i))) by (intros i Hi; apply wfun_mir; exact Hi). rewrite rsum_cor.
  destruct (Req_EM_T _ 0); [reflexivity|]. cbn [option_map]. f_equal. apply tabulate_cor. intros i Hi. rewrite wfun_mir by exact Hi. reflexivity.
Qed.
Lemma bary_len : forall t eps l, (2 <= n)%nat -> (forall v, In v vs -> eps <= baryRadius t (uv -p v)) -> barycentric t eps d uv = Some l -> length l = n.
Proof.
  intros t eps l H2 Fr E. assert (A : forall i, (i < n)%nat -> eps <= baryRadius t (svec vs uv i)) by (intros i Hi; unfold svec; apply Fr; unfold vtx; apply nth_In; exact Hi).
  rewrite (bary_closed vs uv d dvs H2 t eps A) in E. destruct (Req_EM_T _ 0); [discriminate|]. apply some_eq in E. subst l. apply tabulate_length.
Qed.
Lemma baryMap_mir : forall t eps i, (2 <= n)%nat -> (forall v, In v vs -> eps <= baryRadius t (uv -p v)) -> settledAt t eps d uv -> (i < n)%nat ->
  baryMap t eps d' i (M uv) = option_map flipSd (baryMap t eps d (sid n i) uv).
Proof.
  intros t eps i H2 Fr St Hi. assert (Hs := sid_lt n i Hi). assert (Hc := cor_lt n i Hi). assert (Hp : (prv n i < n)%nat) by (apply prv_lt; lia). assert (Hx : (nxt n i < n)%nat) by (apply nxt_lt; lia).
  unfold baryMap. rewrite bary_mir, bind_map_some, map_bind_out by assumption. apply bind_cong. intros l El. assert (Ll := bary_len t eps l H2 Fr El).
  specialize (St (sid n i) l). rewrite dn in St. rewrite (prv_sid n i Hi) in St. 
  unfold baryRibbon. rewrite dn, dn', (prv_sid n i Hi). mir_idx n i Hi.
  destruct (nth_error l (cor n i)) as [lp|] eqn:Ep; destruct (nth_error l (sid n i)) as [li|] eqn:Ei; try reflexivity. cbn [bind]. rewrite (Rplus_comm li lp).
  assert (Fin : forall s s' : option R, s' = option_map (fun x => 1 - x) s -> (x <- s' ;; Some (mkV2 x (1 - lp - li))) = option_map flipSd (x <- s ;; Some (mkV2 x (1 - li - lp)))).
  { intros [s|] s' ->; [|reflexivity]. cbn [option_map bind]. unfold flipSd. cbn [px py]. f_equal. f_equal. ring. }
  apply Fin. clear Fin. destruct (Rlt_dec (lp + li) eps) as [L|L].
  - rewrite !angle_mir, !edgeLength_mir, !v_nth', !v_nth by assumption. rewrite (cor_prv n i Hi), (sid_prv n i Hi), (sid_nxt n i Hi). cbn [bind].
    rewrite !M_sub, !toLocal_mir by assumption. rewrite (sid_prv n i Hi), (sid_nxt n i Hi).
    destruct (angle d (cor n i)) as [be|] eqn:Eb; destruct (angle d (sid n i)) as [al|] eqn:Ea; try reflexivity. cbn [bind].
    destruct (toLocal d (nxt n (sid n i)) (uv -p vtx vs (sid n i))) as [lon|] eqn:E1; destruct (edgeLength d (nxt n (sid n i))) as [lenn|] eqn:E2;
      destruct (toLocal d (cor n i) (uv -p vtx vs (cor n i))) as [lop|] eqn:E3; destruct (edgeLength d (cor n i)) as [lenp|] eqn:E4; try reflexivity. cbn [bind option_map]. unfold neg1. cbn [py].
    specialize (St li lp al be (vtx vs (cor n i)) (vtx vs (sid n i)) lop lenp lon lenn Hs El eq_refl eq_refl L eq_refl eq_refl (v_nth _ Hc) (v_nth _ Hs) E3 eq_refl E1 eq_refl).
    rewrite (Rplus_comm (sin be * (py lon * lenn))). set (q := sin al * (py lop * lenp) + sin be * (py lon * lenn)) in *. destruct (Rlt_dec q eps); [lra|].
    unfold fdiv. destruct (Req_EM_T q 0) as [|Nq]; [reflexivity|]. cbn [option_map]. f_equal. replace (sin be * (py lon * lenn)) with (q - sin al * (py lop * lenp)) by (unfold q; ring). field. exact Nq.
  - unfold fdiv. destruct (Req_EM_T (lp + li) 0) as [|N]; [reflexivity|]. cbn [option_map]. f_equal. field. exact N.
Qed.

(** ** The constrained one *)
Lemma singularBlend_swap : forall eps a b e f, singularBlend eps [a; f; e; b] = option_map (fun l => match l with [w; x; y; z] => [w; z; y; x] | _ => l end) (singularBlend eps [a; b; e; f]).
Proof.
  intros eps a b e f. unfold singularBlend.
  assert (C : length (filter (fun w => if Rlt_dec w eps then true else false) [a; f; e; b]) = length (filter (fun w => if Rlt_dec w eps then true else false) [a; b; e; f])) by (cbn [filter]; destruct (Rlt_dec a eps); destruct (Rlt_dec b eps); destruct (Rlt_dec e eps); destruct (Rlt_dec f eps); reflexivity).
  rewrite C. destruct (0 <? _)%nat; [rewrite map_bind_out; reflexivity|]. cbn [mapM].
  destruct (fdiv 1 (a ^ 2)) as [a'|]; [|reflexivity]. destruct (fdiv 1 (b ^ 2)) as [b'|]; destruct (fdiv 1 (e ^ 2)) as [e'|]; destruct (fdiv 1 (f ^ 2)) as [f'|]; try reflexivity. cbn [bind mapM].
  replace (accumulate [a'; f'; e'; b']) with (accumulate [a'; b'; e'; f']) by (unfold accumulate; cbn [fold_left]; ring). unfold fdiv. destruct (Req_EM_T _ 0); reflexivity.
Qed.
Lemma singularBlend_four : forall eps a b e f l, singularBlend eps [a; b; e; f] = Some l -> exists w x y z, l = [w; x; y; z].
Proof.
  intros eps a b e f l E. assert (L : length l = 4%nat).
  { unfold singularBlend in E. destruct (0 <? _)%nat.
    - destruct (fdiv _ _); [cbn [bind] in E|discriminate]. injection E as <-. reflexivity.
    - destruct (mapM _ _) as [x|] eqn:X; [cbn [bind] in E|discriminate]. apply mapM_length in E, X. rewrite E, X. reflexivity. }
  do 5 (destruct l as [|? l]; try discriminate). eauto.
Qed.
Lemma constrainedRibbon_mir : forall eps sd sp sn, constrainedRibbon eps (flipSd sd) (flipSd sn) (flipSd sp) = option_map flipSd (constrainedRibbon eps sd sp sn).
Proof.
  intros eps sd sp sn. unfold constrainedRibbon, flipSd. cbn [px py]. replace (1 - (1 - px sd)) with (px sd) by ring. rewrite singularBlend_swap.
  destruct (singularBlend eps [py sd; 1 - px sd; 1 - py sd; px sd]) as [l|] eqn:E; [|reflexivity]. apply singularBlend_four in E. destruct E as (w & x & y & z & ->). cbn [option_map bind nth_error]. f_equal. cbn [px py]. f_equal. ring.
Qed.
Lemma constrained_mir : forall t eps i, (2 <= n)%nat -> (forall v, In v vs -> eps <= baryRadius t (uv -p v)) -> settledAt t eps d uv -> (i < n)%nat ->
  constrainedMap t eps d' i (M uv) = option_map flipSd (constrainedMap t eps d (sid n i) uv).
Proof.
  intros t eps i H2 Fr St Hi. unfold constrainedMap. rewrite dn, dn', !baryMap_mir by (try assumption; try (apply nxt_lt; lia); apply prv_lt; lia). rewrite (sid_prv n i Hi), (sid_nxt n i Hi), (prv_sid n i Hi).
  destruct (baryMap t eps d (sid n i) uv) as [sd|]; [|reflexivity]. cbn [option_map bind].
  destruct (baryMap t eps d (nxt n (sid n i)) uv) as [sn|]; destruct (baryMap t eps d (cor n i) uv) as [sp|]; try reflexivity. cbn [option_map bind]. apply constrainedRibbon_mir.
Qed.
End Bary.

Lemma ribbons_mir : forall k eps uv, 0 < eps -> (2 <= n)%nat -> kind_fair k eps d uv -> mapToRibbons k eps d' (M uv) = option_map mirSds (mapToRibbons k eps d uv).
Proof.
  intros k eps uv He H2 Kf. unfold mapToRibbons. rewrite dn, dn'. rewrite (mapM_mir _ n (fun i => option_map flipSd (mapToRibbon k eps d i uv))).
  - rewrite mapM_out. destruct (mapM _ (seq 0 n)); [|reflexivity]. cbn [option_map]. unfold mirSds. rewrite map_mir. reflexivity.
  - intros i Hi. destruct k; cbn [mapToRibbon kind_fair] in *; try contradiction.
    + destruct Kf as (Fr & St). rewrite dvs in Fr. apply baryMap_mir; assumption.
    + apply bilinear_mir; assumption.
    + apply interconnected_mir; assumption.
    + destruct Kf as (Fr & St). rewrite dvs in Fr. apply constrained_mir; assumption.
    + rewrite multipliers_mir, bind_map_some, map_bind_out. apply bind_cong. intros ms E. unfold parallelMultipliers in E. rewrite dn in E. apply mapM_length in E. rewrite seq_length in E. apply parallel_mir; assumption.
Qed.
End Dom.
