(** Properties of generalized Bezier patches near a side: C76. *)
From Verif Require Import Base MeshModel GeomSpec DomainModel UtilModel UtilSpec ParamModel.
From Verif Require Import DomainProofs DomainPolygons UtilProofs BlendProps ParamBary ParamMaps ParamRegular ParamSide SurfaceSpec ParamTame.
From Verif Require Import GBModel GBSpec GBProofs GBEval GBContact GBContact2 PropsParam PropsGB.
Open Scope R_scope.

(** ** C76: first order contact with the two rows of control points

    Rows 0 and 1 of side [e] as Bezier curves. *)
Definition rowCurve (g : gbsurf) (d e k : nat) (s : R) : V3 := bezier d (fun j => point g e j k) s.

(** The surface through the boundary curve spanned by the two rows. *)
Definition firstOrder (g : gbsurf) (d e : nat) (s h : R) : V3 :=
  rowCurve g d e 0 s +v (rowCurve g d e 1 s -v rowCurve g d e 0 s) *v (INR d * h).

(** Ribbon coordinates of a point near side [e] and away from its ends: the
    neighbours are farther than [m], and the deviation of their coordinates
    from their values on the side is at most [z] times the distance. *)
Definition near_side (n e : nat) (z m s h : R) (sds : list V2) : Prop :=
  length sds = n /\ (forall sd, In sd sds -> 0 <= px sd <= 1 /\ 0 <= py sd <= 1) /\
  nth_error sds e = Some (mkV2 s h) /\
  (exists s1 h1, nth_error sds (nxt n e) = Some (mkV2 s1 h1) /\ m <= h1 /\ s1 <= z * h /\ Rabs (h1 - (1 - s)) <= z * h) /\
  (exists s2 h2, nth_error sds (prv n e) = Some (mkV2 s2 h2) /\ m <= h2 /\ 1 - s2 <= z * h /\ Rabs (h2 - s) <= z * h) /\
  forall i sd, nth_error sds i = Some sd -> i <> e -> i <> nxt n e -> i <> prv n e -> 1 - py sd <= z * h.

Definition contactBound (n d : nat) (z m : R) : R :=
  INR n * INR ((d + 1) / 2) * INR (d + 1) * 2 ^ d * z ^ 2 + 16 * INR d ^ 2 * z / m + 2 * INR d ^ 2.

Lemma vdot_add_l : forall a b v, vdot (a +v b) v = vdot a v + vdot b v.
Proof. intros. unfold vdot; simpl; ring. Qed.
Lemma vdot_sub_l : forall a b v, vdot (a -v b) v = vdot a v - vdot b v.
Proof. intros. unfold vdot; simpl; ring. Qed.
Lemma vdot_scale_l : forall a s v, vdot (a *v s) v = vdot a v * s.
Proof. intros. unfold vdot; simpl; ring. Qed.
Lemma rowCurve_dot : forall g d e k s v, vdot (rowCurve g d e k s -v gb_cen g) v = rsum (d + 1) (fun j => vdot (point g e j k -v gb_cen g) v * bern d j s).
Proof.
  intros g d e k s v. unfold rowCurve, bezier. rewrite vdot_sub_l, vdot_vsum. transitivity (rsum (d + 1) (fun j => vdot (point g e j k *v bern d j s) v) - vdot (gb_cen g) v * rsum (d + 1) (fun j => bern d j s)); [rewrite bern_sum; ring|].
  rewrite <- rsum_scal, <- rsum_minus. apply rsum_ext. intros j Hj. unfold vdot; simpl; ring.
Qed.
Theorem C76_contact : forall n d g eps e z m s h sds v M, (3 <= n)%nat -> (3 <= d)%nat -> shaped n d g -> consistent n d g -> (e < n)%nat ->
  0 < eps -> 1 <= z -> 0 < m -> off_corners eps n sds -> near_side n e z m s h sds ->
  (forall i j k q, controlPoint g i j k = Some q -> Rabs (vdot (q -v gb_cen g) v) <= M) ->
  exists p, gbEval eps g sds = Some p /\
    Rabs (vdot (p -v firstOrder g d e s h) v) <= M * contactBound n d z m * h ^ 2.
Proof.
  intros n d g eps e z m s h sds v M Hn Hd Sh Co He Heps Hz Hm [L Of] (_ & T & Ee & (s1 & h1 & E1 & M1 & X1 & Y1) & (s2 & h2 & E2 & M2 & X2 & Y2) & Fr) HM.
  set (f := fun i => px (nth i sds pzero)). set (k := fun i => py (nth i sds pzero)).
  assert (Hsd : forall i, (i < n)%nat -> nth_error sds i = Some (mkV2 (f i) (k i))) by (apply sds_fun; exact L).
  assert (Hx : (nxt n e < n)%nat) by (apply nxt_lt; lia). assert (Hp : (prv n e < n)%nat) by (apply prv_lt; lia).
  rewrite (Hsd e He) in Ee. injection Ee as Fe Ke. rewrite (Hsd _ Hx) in E1. injection E1 as Fx Kx. rewrite (Hsd _ Hp) in E2. injection E2 as Fp Kp. subst s h s1 h1 s2 h2.
  assert (Hs : forall i, (i < n)%nat -> 0 <= f i <= 1) by (intros i Hi; apply (T (mkV2 (f i) (k i))); eapply nth_error_In; apply Hsd; exact Hi).
  assert (Hh : forall i, (i < n)%nat -> 0 <= k i <= 1) by (intros i Hi; apply (T (mkV2 (f i) (k i))); eapply nth_error_In; apply Hsd; exact Hi).
  assert (Hc : forall i, (i < n)%nat -> eps <= k i + k (nxt n i)).
  { intros i Hi. apply (Of i (mkV2 (f i) (k i)) (mkV2 (f (nxt n i)) (k (nxt n i)))); apply Hsd; [exact Hi|apply nxt_lt; lia]. }
  eexists. split; [exact (eval_sum n d g Sh f k sds Hsd eps Heps Hc)|]. change (cpv g) with (point g).
  set (a := fun i j k => vdot (point g i j k -v gb_cen g) v).
  assert (Ha : forall i j k, (i < n)%nat -> (j <= d)%nat -> (2 * k + 1 <= d)%nat -> Rabs (a i j k) <= M).
  { intros i j q Hi Hj Hq. apply (HM i j q). apply (cpv_some n d g i j q Sh). split; [exact Hi|split; assumption]. }
  assert (NS := near_sum n d g Hn Hd f k Hs Hh (fun i Hi => Rlt_le_trans _ _ _ Heps (Hc i Hi)) e He z m Hz Hm M1 M2 X1 X2 Y1 Y2
    (fun i Hi N1 N2 N3 => Fr i _ (Hsd i Hi) N1 N2 N3) a M Ha).
  specialize (NS ltac:(intros i j q Hi Hj Hq; unfold a; change (point g) with (cpv g); rewrite (cpv_mirror n d g i j q Sh Co Hi Hj Hq); reflexivity)).
  set (r := fun q => vdot (rowCurve g d e q (f e) -v gb_cen g) v).
  assert (R01 : forall q, (q < 2)%nat -> Rabs (r q) <= M).
  { intros q Hq. unfold r. rewrite rowCurve_dot. apply (bern_comb d (f e) (fun j => a e j q)); [apply Hs; exact He|]. intros j Hj. apply Ha; [exact He|exact Hj|lia]. }
  assert (SL := strip_linear d (k e) r M ltac:(lia) (Hh e He) (R01 0%nat ltac:(lia)) (R01 1%nat ltac:(lia))).
  assert (St : strip d f k e a = r 0%nat * bern d 0 (k e) + r 1%nat * bern d 1 (k e)).
  { unfold strip. rewrite rsum_two. unfold r. rewrite !rowCurve_dot. rewrite (Rmult_comm (rsum _ _)), <- rsum_scal, (Rmult_comm (rsum _ _) (bern d 1 (k e))), <- rsum_scal. f_equal; apply rsum_ext; intros j Hj; unfold a; ring. }
  match goal with |- Rabs (vdot (?q -v _) v) <= _ => set (P := q) end.
  assert (PV : vdot (P -v gb_cen g) v = rsum n (fun i => rsum ((d + 1) / 2) (fun k0 => rsum (d + 1) (fun j => a i j k0 * wgt n d g f k i j k0)))).
  { unfold P. rewrite vdot_sub_l, vdot_add_l, vdot_vsum.
    rewrite (rsum_ext n (fun i => vdot _ v) (fun i => rsum ((d + 1) / 2) (fun k0 => rsum (d + 1) (fun j => vdot (point g i j k0) v * wgt n d g f k i j k0)))).
    2: { intros i Hi. rewrite vdot_vsum. apply rsum_ext. intros q Hq. rewrite vdot_vsum. apply rsum_ext. intros j Hj. unfold vdot; simpl; ring. }
    rewrite (rsum_ext n (fun i => rsum _ (fun k0 => rsum _ (fun j => a i j k0 * _)))
      (fun i => rsum ((d + 1) / 2) (fun k0 => rsum (d + 1) (fun j => vdot (point g i j k0) v * wgt n d g f k i j k0)) - vdot (gb_cen g) v * rsum ((d + 1) / 2) (fun k0 => rsum (d + 1) (fun j => wgt n d g f k i j k0)))).
    2: { intros i Hi. rewrite <- rsum_scal, <- rsum_minus. apply rsum_ext. intros q Hq. rewrite <- rsum_scal, <- rsum_minus. apply rsum_ext. intros j Hj. unfold a, vdot; simpl; ring. }
    rewrite rsum_minus, rsum_scal. rewrite vdot_scale_l. ring. }
  cbv beta zeta in NS. rewrite <- PV, St in NS.
  replace (vdot (P -v firstOrder g d e (f e) (k e)) v) with
    ((vdot (P -v gb_cen g) v - (r 0%nat * bern d 0 (k e) + r 1%nat * bern d 1 (k e))) + (r 0%nat * bern d 0 (k e) + r 1%nat * bern d 1 (k e) - (r 0%nat + (r 1%nat - r 0%nat) * (INR d * k e))))
    by (unfold r, firstOrder, vdot; simpl; ring).
  eapply Rle_trans; [apply Rabs_triang|]. unfold contactBound. 
  set (B := INR n * INR ((d + 1) / 2) * INR (d + 1) * 2 ^ d * z ^ 2 + 16 * INR d ^ 2 * z / m) in *.
  replace (M * (B + 2 * INR d ^ 2) * k e ^ 2) with (M * B * k e ^ 2 + M * (2 * INR d ^ 2) * k e ^ 2) by ring. lra.
Qed.
Print Assumptions C76_contact.

(** In front of the Wachspress parameterization on a convex polygon: the bound
    depends only on how far the point is from the ends of the side, through
    its coordinates with respect to them. *)
Theorem C76_wachspress : forall vs c dm d g eps e l a b ct uv v M, let n := length vs in
  (3 <= n)%nat -> (3 <= d)%nat -> strictly_convex vs -> inside vs c -> domainFrames c vs = Some dm -> inside vs uv ->
  shaped n d g -> consistent n d g -> (e < n)%nat -> 0 < eps <= 1 -> eps <= ct ->
  barycentric Wachspress eps dm uv = Some l -> nth_error l (prv n e) = Some a -> nth_error l e = Some b -> ct <= a -> ct <= b ->
  (forall i j k q, controlPoint g i j k = Some q -> Rabs (vdot (q -v gb_cen g) v) <= M) ->
  let s := b / (a + b) in let h := 1 - b - a in
  mapToRibbon (KBary Wachspress) eps dm e uv = Some (mkV2 s h) /\
  exists p, gbSurfaceEval eps dm g uv = Some p /\
    Rabs (vdot (p -v firstOrder g d e s h) v) <= M * contactBound n d (/ ct) ct * h ^ 2.
Proof.
  intros vs c dm d g eps e l a b ct uv v M n Hn Hd Cv Ic Hdm Iu Sh Co He Heps Hec B Ea Eb Ca Cb HM s h.
  assert (Hp : (prv n e < n)%nat) by (apply prv_lt; lia). assert (Hx : (nxt n e < n)%nat) by (apply nxt_lt; lia).
  destruct (C19_wachspress vs dm eps uv (d_verts_eq _ _ _ Hdm) Hn Cv Iu ltac:(lra)) as (l' & B' & Ll & Pl & Sl). rewrite B in B'. injection B' as <-. rewrite Ll in Sl. fold n in Ll, Sl.
  set (la := fun i => nth i l 0) in *.
  assert (P : forall i, (i < n)%nat -> 0 < la i) by (intros i Hi; apply Pl, nth_In; rewrite Ll; exact Hi).
  assert (El : forall i, (i < n)%nat -> nth_error l i = Some (la i)) by (intros i Hi; apply nth_error_nth'; rewrite Ll; exact Hi).
  rewrite (El _ Hp) in Ea. injection Ea as Ea. rewrite (El _ He) in Eb. injection Eb as Eb.
  assert (V : forall i, (i < n)%nat -> exists t, baryRibbon eps dm l i uv = Some (mkV2 t (1 - la i - la (prv n i))) /\ 0 <= t <= 1 /\ (eps <= la (prv n i) + la i -> t = la i / (la (prv n i) + la i))).
  { intros i Hi. assert (Hpi : (prv n i < n)%nat) by (apply prv_lt; lia).
    destruct (bary_tame c vs dm Hdm Hn Cv Ic eps l i uv (la i) (la (prv n i)) ltac:(lra) Hi (inside_closed vs uv Iu) (El i Hi) (El _ Hpi) (Rlt_le _ _ (P i Hi)) (Rlt_le _ _ (P _ Hpi))) as (t & T & T01). exists t. split; [exact T|]. split; [exact T01|]. intros X.
    destruct (angle_some c vs dm Hdm Hn Cv i Hi) as [al Aa]. destruct (angle_some c vs dm Hdm Hn Cv _ Hpi) as [be Ab].
    assert (W := baryRibbon_value c vs dm Hdm Hn Cv Ic eps l i uv (la i) (la (prv n i)) al be ltac:(lra) Hi (El i Hi) (El _ Hpi) Aa Ab). cbv zeta in W. fold n in W, T. rewrite T in W. injection W as W.
    destruct (Rlt_dec (la (prv n i) + la i) eps); [lra|exact W]. }
  destruct (mapM_total_nth _ (fun i => mapToRibbon (KBary Wachspress) eps dm i uv) n) as (sds & M1 & M2 & M3).
  { intros i Hi. destruct (V i Hi) as (t & T & _). eexists. cbn [mapToRibbon]. unfold baryMap. rewrite B. cbn [bind]. exact T. }
  assert (V' : forall i, (i < n)%nat -> exists t, nth_error sds i = Some (mkV2 t (1 - la i - la (prv n i))) /\ 0 <= t <= 1 /\ (eps <= la (prv n i) + la i -> t = la i / (la (prv n i) + la i))).
  { intros i Hi. destruct (V i Hi) as (t & T & Q). exists t. split; [|exact Q]. rewrite (M3 i Hi). cbn [mapToRibbon]. unfold baryMap. rewrite B. exact T. }
  assert (Me : nth_error sds e = Some (mkV2 s h)).
  { destruct (V' e He) as (t & T & _ & Q). rewrite T. unfold s, h. rewrite Q by lra. rewrite Ea, Eb. reflexivity. }
  split; [rewrite <- Me; symmetry; apply M3; exact He|].
  unfold gbSurfaceEval, mapToRibbons. rewrite (d_n_eq _ _ _ Hdm). fold n. rewrite M1. cbn [bind].
  assert (Lo := lam_off n la e ct Hn P Sl He ltac:(rewrite Eb; exact Cb) ltac:(rewrite Ea; exact Ca)).
  assert (H01 := lam_h01 n la e Hn P Sl He).
  assert (Cpos : 0 < ct) by lra. assert (C1 : ct <= 1) by (assert (X := two_le n la P Sl e (prv n e) He Hp ltac:(apply not_eq_sym; apply prv_neq; lia)); assert (Y := P _ Hp); lra).
  assert (Z1 : 1 <= / ct) by (rewrite <- Rinv_1; apply Rinv_le_contravar; lra).
  assert (He01 := H01 e He). cbv beta in He01. rewrite Ea, Eb in He01. fold h in He01.
  assert (Zh : h <= / ct * h) by nra.
  apply (C76_contact n d g eps e (/ ct) ct s h sds v M); try assumption; try lra.
  - split; [exact M2|]. intros i x y Ex Ey. assert (Hi : (i < n)%nat) by (rewrite <- M2; apply nth_error_Some; rewrite Ex; discriminate).
    assert (Hxi : (nxt n i < n)%nat) by (apply nxt_lt; lia). destruct (V' i Hi) as (t & T & _). destruct (V' _ Hxi) as (t' & T' & _). rewrite T in Ex. rewrite T' in Ey. injection Ex as <-. injection Ey as <-. cbn [py]. specialize (Lo i Hi). lra.
  - split; [exact M2|]. split; [|split; [exact Me|split; [|split]]].
    + intros sd I. apply In_nth_error in I. destruct I as [i Ei]. assert (Hi : (i < n)%nat) by (rewrite <- M2; apply nth_error_Some; rewrite Ei; discriminate). destruct (V' i Hi) as (t & T & T01 & _). rewrite T in Ei. injection Ei as <-. cbn [px py]. split; [exact T01|]. apply H01. exact Hi.
    + destruct (V' _ Hx) as (t & T & T01 & Q). rewrite prv_nxt in T, Q by exact He. exists t. eexists. split; [exact T|].
      assert (Lx := lam_x n la e ct Hn P Sl He ltac:(rewrite Ea; exact Ca)). cbv beta in Lx. rewrite prv_nxt in Lx by exact He. split; [exact Lx|].
      assert (Sx := lam_sx n la e ct Hn P Sl He Cpos ltac:(rewrite Eb; exact Cb)). cbv beta in Sx. rewrite Q by (assert (Y := P _ Hx); lra). rewrite Ea, Eb in Sx. split; [rewrite Eb; exact Sx|].
      assert (Tx := lam_tx n la e ct Hn P Sl He Cpos ltac:(rewrite Eb; exact Cb) ltac:(rewrite Ea; exact Ca)). cbv beta in Tx. rewrite prv_nxt in Tx by exact He. rewrite Ea, Eb in Tx. fold s h in Tx. rewrite Eb. lra.
    + destruct (V' _ Hp) as (t & T & T01 & Q). exists t. eexists. split; [exact T|].
      assert (Lx := lam_p n la e ct Hn P Sl He ltac:(rewrite Eb; exact Cb)). cbv beta in Lx. split; [exact Lx|].
      assert (Sx := lam_sp n la e ct Hn P Sl He Cpos ltac:(rewrite Ea; exact Ca)). cbv beta in Sx. rewrite Q by (assert (Y := P (prv n (prv n e)) ltac:(apply prv_lt; lia)); lra). rewrite Eb in Sx. rewrite Ea in Sx |- *. split; [exact Sx|].
      assert (Tx := lam_tp n la e Hn P Sl He). cbv beta in Tx. rewrite Ea, Eb in Tx. fold s h in Tx. lra.
    + intros i sd Ei N1 N2 N3. assert (Hi : (i < n)%nat) by (rewrite <- M2; apply nth_error_Some; rewrite Ei; discriminate). destruct (V' i Hi) as (t & T & _). rewrite T in Ei. injection Ei as <-. cbn [py].
      assert (F := far_le n la e Hn P Sl He i Hi N1 N2 N3). cbv beta in F. rewrite Ea, Eb in F. fold h in F. lra.
Qed.
Print Assumptions C76_wachspress.

(** A bicubic patch of four sides whose only control point off the xy plane,
    besides the central one, is a twist point of side 0.  Crossing the middle
    of that side, the patch rises with slope 9/16. *)
Example C76_example : forall eps, 0 < eps <= 1/2 -> exists g,
  setControlPoint (quadNet 3) 0 1 1 (mkV3 0 0 (1/2)) = Some g /\
  forall h, 0 <= h <= 1 ->
    let sds := [mkV2 (1/2) h; mkV2 h (1/2); mkV2 (1/2) (1 - h); mkV2 (1 - h) (1/2)] in
    exists p, gbEval eps g sds = Some p /\ Rabs (vz p - 9/16 * h) <= 562 * h ^ 2.
Proof.
  intros eps He. destruct (init_new vzero (gbNew 0 0 vzero) 4 3 ltac:(left; cbn; lia)) as [S0 V0].
  assert (S : shaped 4 3 (quadNet 3)) by exact S0.
  destruct (set_spec 4 3 (quadNet 3) 0 1 1 (mkV3 0 0 (1/2)) S ltac:(cbn; lia)) as (g & G & Sg & Cg & _ & _ & W1 & W2). exists g. split; [exact G|].
  assert (Co : consistent 4 3 g).
  { apply (run_consistent 4 3 [OSet (0, 1, 1)%nat (mkV3 0 0 (1/2))] (quadNet 3)); [exact S|constructor; [cbn; lia|constructor]|intros q p [E|[]]; discriminate| |cbn [gbrun foldM gbstep]; unfold gbrun; cbn [foldM gbstep]; rewrite G; reflexivity].
    intros p q P Q _. change (getp (quadNet 3)) with (getp (initNetwork vzero (gbNew 0 0 vzero) 4 3)). rewrite !V0 by assumption. reflexivity. }
  intros h Hh sds.
  destruct (C76_contact 4 3 g eps 0 1 (1/2) (1/2) h sds (mkV3 0 0 1) 1) as (p & E & B); try assumption; try lia; try lra.
  - split; [reflexivity|]. intros i a b A A'. do 4 (destruct i as [|i]; [injection A as <-; injection A' as <-; cbn [py]; lra|]). destruct i; discriminate.
  - split; [reflexivity|]. split; [|split; [reflexivity|split; [|split]]].
    + intros sd [<-|[<-|[<-|[<-|[]]]]]; cbn [px py]; lra.
    + exists h, (1/2). split; [reflexivity|]. split; [lra|]. split; [lra|]. replace (1/2 - (1 - 1/2)) with 0 by lra. rewrite Rabs_R0. lra.
    + exists (1 - h), (1/2). split; [reflexivity|]. split; [lra|]. split; [lra|]. replace (1/2 - 1/2) with 0 by lra. rewrite Rabs_R0. lra.
    + intros i sd I N1 N2 N3. destruct i as [|[|[|[|i]]]]; cbn in N1, N2, N3; try congruence; [injection I as <-; cbn [py]; lra|destruct i; discriminate].
  - intros i j k q Q. rewrite Cg. cbn [quadNet setCentral gb_cen].
    assert (R : inRange 4 3 (i, j, k)).
    { assert (X : inRange 4 3 (i, j, k) \/ ~ inRange 4 3 (i, j, k)) by (unfold inRange; lia). destruct X as [X|X]; [exact X|]. assert (Y := getp_none 4 3 g (i, j, k) Sg X). cbn [getp] in Y. congruence. }
    destruct (same_dec 4 3 (0, 1, 1)%nat (i, j, k) ltac:(cbn; lia) R) as [D|D].
    + assert (X := W1 _ R D). cbn [getp] in X. rewrite Q in X. injection X as ->. unfold vdot; simpl. replace ((0 - 0) * 0 + (0 - 0) * 0 + (1 / 2 - 1) * 1) with (- (1/2)) by lra. rewrite Rabs_Ropp, Rabs_right; lra.
    + assert (X := W2 _ R D). cbn [getp] in X. rewrite Q in X. change (controlPoint (quadNet 3)) with (controlPoint (initNetwork vzero (gbNew 0 0 vzero) 4 3)) in X. assert (Y := V0 _ R). cbn [getp] in Y. rewrite Y in X. injection X as ->. unfold vdot; simpl. replace ((0 - 0) * 0 + (0 - 0) * 0 + (0 - 1) * 1) with (- (1)) by lra. rewrite Rabs_Ropp, Rabs_right; lra.
  - exists p. split; [exact E|]. replace (vz p - 9 / 16 * h) with (vdot (p -v firstOrder g 3 0 (1/2) h) (mkV3 0 0 1)).
    + eapply Rle_trans; [exact B|]. right. unfold contactBound. simpl. field.
    + unfold vdot. injection G as <-. unfold firstOrder, rowCurve, bezier, bern, point. simpl. field.
Qed.
