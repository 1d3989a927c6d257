(** Properties of the composite ribbon, midpoint and midpoint Coons patches near a side: C78. *)
From Verif Require Import Base MeshModel GeomSpec DomainModel UtilModel UtilSpec ParamModel RibbonModel SurfaceModel SurfaceSpec SurfaceEval.
From Verif Require Import DomainProofs DomainPolygons UtilProofs BlendProofs BlendProps SurfaceProofs ParamBary ParamMaps ParamRegular ParamSide ParamTame PropsContact PatchContact PatchContact2.
From Coq Require Import Reals List Lia Lra Psatz.
Import ListNotations.
Open Scope R_scope.

(** ** C78: tangent plane contact with the ribbon of a side

    [v] is normal to the ribbon of side [e] at [s], and [P] is the point of the boundary there:
    how far is the patch from the tangent plane?  First for any ribbon coordinates. *)
Theorem C78_composite_ribbon_at : forall eps sf e s m d g K F T M v P sds, let n := sf_n sf in
  0 < eps -> (3 <= n)%nat -> ready sf -> sf_gamma sf = false -> (e < n)%nat -> eps <= m -> 0 <= K -> 0 <= F ->
  neighbours_bend sf e v K T -> flat_at sf e s v F P -> extent eps sf P v M -> beside n e m s d g sds ->
  exists p, compositeRibbonPatch eps sf sds = Some p /\
    Rabs (vdot (p -v P) v) <= F * g ^ 2 + F * g * d + (2 * K + T) * d ^ 2 + K / 10000 * d + 9 * M * d ^ 2 + 3 * INR n * M * d ^ 2 / m ^ 4.
Proof. intros. eapply composite_contact; eassumption. Qed.
Print Assumptions C78_composite_ribbon_at.

Theorem C78_midpoint_at : forall eps sf cp e s m d g K F T M v P sds, let n := sf_n sf in
  0 < eps -> (3 <= n)%nat -> ready sf -> sf_gamma sf = false -> (e < n)%nat -> eps <= m -> 0 <= K ->
  neighbours_bend sf e v K T -> flat_at sf e s v F P -> extent eps sf P v M -> beside n e m s d g sds -> Rabs (vdot (cp -v P) v) <= M ->
  exists p, midpointPatch eps sf cp sds = Some p /\
    Rabs (vdot (p -v P) v) <= 2 * ((2 * K + T) * d ^ 2 + K / 10000 * d) + 12 * INR n * M * d ^ 2 +
      2 * M * (3 * d ^ 2 + d * (3 * d ^ 2 + 2 * g) / m).
Proof.
  intros eps sf cp e s m d g K F T M v P sds n He H3 Rd G Hi Hm K0 NB Fl Ex Be Hc.
  destruct (midpoint_contact eps sf e s m d g K F T M v P sds He H3 Rd G Hi Hm K0 NB Fl Ex Be cp Hc) as (p & E & B). exists p. split; [exact E|].
  eapply Rle_trans; [exact B|]. unfold W. fold n. right. ring.
Qed.
Print Assumptions C78_midpoint_at.

(** For the midpoint Coons patch also the neighbouring cross derivatives, at most [N] seen along [v], count. *)
Theorem C78_midpoint_coons_at : forall eps sf cp e s m d g K F T M N v P sds, let n := sf_n sf in
  0 < eps -> (3 <= n)%nat -> ready sf -> sf_gamma sf = false -> (e < n)%nat -> eps <= m -> 0 <= K ->
  neighbours_bend sf e v K T -> flat_at sf e s v F P -> extent eps sf P v M -> beside n e m s d g sds -> Rabs (vdot (cp -v P) v) <= M ->
  (forall j c c' X t, j = nxt n e \/ j = prv n e -> side_data sf j c c' X -> 0 <= t <= 1 -> Rabs (vdot (X t) v) <= N) ->
  exists p, midpointCoons eps sf cp sds = Some p /\
    Rabs (vdot (p -v P) v) <= 2 * ((2 * K + T) * d ^ 2 + K / 10000 * d + N * g) + 12 * INR n * M * d ^ 2 +
      2 * M * (3 * d ^ 2 + d * (3 * d ^ 2 + 2 * g) / m).
Proof.
  intros eps sf cp e s m d g K F T M N v P sds n He H3 Rd G Hi Hm K0 NB Fl Ex Be Hc Cr.
  destruct (midpointCoons_contact eps sf e s m d g K F T M v P sds He H3 Rd G Hi Hm K0 NB Fl Ex Be cp N Hc Cr) as (p & E & B). exists p. split; [exact E|].
  eapply Rle_trans; [exact B|]. unfold W. fold n. right. ring.
Qed.
Print Assumptions C78_midpoint_coons_at.

(** The surfaces on a convex polygon: [a] and [b] are the Wachspress coordinates of the point
    with respect to the ends of the side, at least [ct], and [h] is its distance parameter.
    The only term that is not quadratic in [h] comes from the difference quotients of the twist vectors. *)
Theorem C78_composite_ribbon : forall vs c dm eps sf e l a b ct uv K F T M v P, let n := length vs in
  (3 <= n)%nat -> strictly_convex vs -> inside vs c -> domainFrames c vs = Some dm -> inside vs uv -> (e < n)%nat -> 0 < eps <= 1 -> eps <= ct ->
  barycentric Wachspress eps dm uv = Some l -> nth_error l (prv n e) = Some a -> nth_error l e = Some b -> ct <= a -> ct <= b ->
  let s := b / (a + b) in let h := 1 - b - a in
  sf_n sf = n -> ready sf -> sf_gamma sf = false -> 0 <= K -> 0 <= F -> neighbours_bend sf e v K T -> flat_at sf e s v F P -> extent eps sf P v M ->
  mapToRibbon (KBary Wachspress) eps dm e uv = Some (mkV2 s h) /\
  exists p, compositeRibbonEval eps dm sf uv = Some p /\
    Rabs (vdot (p -v P) v) <= (2 * F + 2 * K + T + 9 * M + 3 * INR n * M / ct ^ 4) * (h / ct) ^ 2 + K / 10000 * (h / ct).
Proof.
  intros vs c dm eps sf e l a b ct uv K F T M v P n Hn Cv Ic Hdm Iu He Heps Hec B Ea Eb Ca Cb s h Sn Rd G K0 F0 NB Fl Ex.
  destruct (wach vs c dm eps e l a b ct uv Hn Cv Ic Hdm Iu He Heps Hec B Ea Eb Ca Cb) as (sds & Es & Be & H0 & H1 & Ee & _). fold n s h in Be, H0, H1, Ee.
  split.
  { rewrite <- Ee. unfold mapToRibbons in Es. rewrite (d_n_eq _ _ _ Hdm) in Es. fold n in Es. rewrite <- (mapM_nth _ _ _ e e Es); [reflexivity|].
    rewrite (nth_error_nth' (seq 0 n) 0%nat) by (rewrite seq_length; exact He). rewrite seq_nth by exact He. reflexivity. }
  unfold compositeRibbonEval. rewrite Es. cbn [bind]. rewrite <- Sn in Be.
  destruct (C78_composite_ribbon_at eps sf e s ct (h / ct) h K F T M v P sds ltac:(lra) ltac:(rewrite Sn; exact Hn) Rd G ltac:(rewrite Sn; exact He) Hec K0 F0 NB Fl Ex Be) as (p & Ep & Bp).
  exists p. split; [exact Ep|]. eapply Rle_trans; [exact Bp|]. rewrite Sn. assert (Cp : 0 < ct) by lra.
  set (z := h / ct). assert (hz : h = ct * z) by (unfold z; field; lra). assert (z0 : 0 <= z) by (apply Rmult_le_pos; [exact H0|left; apply Rinv_0_lt_compat; exact Cp]).
  assert (h <= z) by (rewrite hz; nra). assert (h * z <= z * z) by (apply Rmult_le_compat_r; assumption). assert (h * h <= z * z) by (apply Rmult_le_compat; assumption).
  assert (F * (h * h + h * z) <= F * (z * z + z * z)) by (apply Rmult_le_compat_l; lra).
  replace (3 * INR n * M * z ^ 2 / ct ^ 4) with (3 * INR n * M / ct ^ 4 * z ^ 2) by (unfold Rdiv; ring). lra.
Qed.
Print Assumptions C78_composite_ribbon.

Theorem C78_midpoint : forall vs c dm eps sf cp e l a b ct uv K F T M v P, let n := length vs in
  (3 <= n)%nat -> strictly_convex vs -> inside vs c -> domainFrames c vs = Some dm -> inside vs uv -> (e < n)%nat -> 0 < eps <= 1 -> eps <= ct ->
  barycentric Wachspress eps dm uv = Some l -> nth_error l (prv n e) = Some a -> nth_error l e = Some b -> ct <= a -> ct <= b ->
  let s := b / (a + b) in let h := 1 - b - a in
  sf_n sf = n -> ready sf -> sf_gamma sf = false -> 0 <= K -> neighbours_bend sf e v K T -> flat_at sf e s v F P -> extent eps sf P v M -> Rabs (vdot (cp -v P) v) <= M ->
  exists p, midpointEval eps dm sf cp uv = Some p /\
    Rabs (vdot (p -v P) v) <= (4 * K + 2 * T + 12 * INR n * M + 10 * M + 6 * M * h / ct ^ 2) * (h / ct) ^ 2 + K / 5000 * (h / ct).
Proof.
  intros vs c dm eps sf cp e l a b ct uv K F T M v P n Hn Cv Ic Hdm Iu He Heps Hec B Ea Eb Ca Cb s h Sn Rd G K0 NB Fl Ex Hc.
  destruct (wach vs c dm eps e l a b ct uv Hn Cv Ic Hdm Iu He Heps Hec B Ea Eb Ca Cb) as (sds & Es & Be & H0 & H1 & Ee & _). fold n s h in Be, H0, H1, Ee.
  unfold midpointEval. rewrite Es. cbn [bind]. rewrite <- Sn in Be.
  destruct (C78_midpoint_at eps sf cp e s ct (h / ct) h K F T M v P sds ltac:(lra) ltac:(rewrite Sn; exact Hn) Rd G ltac:(rewrite Sn; exact He) Hec K0 NB Fl Ex Be Hc) as (p & Ep & Bp).
  exists p. split; [exact Ep|]. eapply Rle_trans; [exact Bp|]. rewrite Sn. assert (Cp : 0 < ct) by lra. right. field. lra.
Qed.
Print Assumptions C78_midpoint.

(** The midpoint Coons patch, close enough to the side; the coordinates of the point with respect to
    the far sides must not be at their ends, other than the ends shared with the neighbours of [e]. *)
Theorem C78_midpoint_coons : forall vs c dm eps sf cp e l a b ct uv sds K F T M N v P, let n := length vs in
  (3 <= n)%nat -> strictly_convex vs -> inside vs c -> domainFrames c vs = Some dm -> inside vs uv -> (e < n)%nat -> 0 < eps <= 1 -> 2 * eps <= ct ->
  barycentric Wachspress eps dm uv = Some l -> nth_error l (prv n e) = Some a -> nth_error l e = Some b -> ct <= a -> ct <= b ->
  let s := b / (a + b) in let h := 1 - b - a in let z := h / ct in
  6 * z ^ 2 <= ct ^ 3 -> mapToRibbons (KBary Wachspress) eps dm uv = Some sds ->
  (forall i, (i < n)%nat -> i <> e -> i <> nxt n e -> i <> prv n e ->
    (i <> nxt n (nxt n e) -> ct <= spar sds i) /\ (i <> prv n (prv n e) -> spar sds i <= 1 - ct)) ->
  sf_n sf = n -> ready sf -> sf_gamma sf = false -> 0 <= K -> neighbours_bend sf e v K T -> flat_at sf e s v F P -> extent eps sf P v M -> Rabs (vdot (cp -v P) v) <= M ->
  (forall j c c' X t, j = nxt n e \/ j = prv n e -> side_data sf j c c' X -> 0 <= t <= 1 -> Rabs (vdot (X t) v) <= N) ->
  exists p, midpointCoonsEval eps dm sf cp uv = Some p /\
    Rabs (vdot (p -v P) v) <= (16 * K + 8 * T + 6 * N / ct ^ 2 + 48 * INR n * M + 24 * M + 48 * M * z * (2 / ct + 1 / ct ^ 3)) * z ^ 2 + K / 2500 * z.
Proof.
  intros vs c dm eps sf cp e l a b ct uv sds K F T M N v P n Hn Cv Ic Hdm Iu He Heps Hec B Ea Eb Ca Cb s h z Sm Es Far Sn Rd G K0 NB Fl Ex Hc Cr.
  destruct (constrained vs c dm eps e l a b ct uv Hn Cv Ic Hdm Iu He Heps ltac:(lra) B Ea Eb Ca Cb sds z Es ltac:(unfold z; apply Rle_refl) Sm Far) as (sds' & Es' & Be & _). fold n s in Be.
  unfold midpointCoonsEval. rewrite Es'. cbn [bind]. rewrite <- Sn in Be, Cr.
  destruct (C78_midpoint_coons_at eps sf cp e s (ct / 2) (2 * z) (3 * z ^ 2 / ct ^ 2) K F T M N v P sds' (proj1 Heps) ltac:(rewrite Sn; exact Hn) Rd G ltac:(rewrite Sn; exact He) ltac:(lra) K0 NB Fl Ex Be Hc Cr) as (p & Ep & Bp).
  exists p. split; [exact Ep|]. eapply Rle_trans; [exact Bp|]. rewrite Sn. assert (Cp : 0 < ct) by lra. right. field. lra.
Qed.
Print Assumptions C78_midpoint_coons.

(** A skew quadrilateral with straight sides, whose ribbons lie on z = x y.  Seen from the middle
    of its first side the parameter lines of the neighbouring sides turn, as on a trapezoid; the
    patches leave the tangent plane quadratically. *)
Example C78_example : forall eps h cs cp, 0 < eps <= 1 / 4 -> 0 <= h <= 1 / 2 ->
  let ps := [mkV3 1 0 0; mkV3 1 1 1; mkV3 0 1 0; mkV3 0 0 0] in
  updateCorners 4 (lineRibs ps) = Some cs ->
  let sf := mkSurf 4 false (lineRibs ps) cs in let P := mkV3 (1/2) 0 0 in let v := mkV3 0 (- (1/2)) 1 in
  let sds := [mkV2 (1/2) h; mkV2 h (1/2 - h/4); mkV2 (1/2) (1 - h); mkV2 (1 - h) (1/2 - h/4)] in
  Rabs (vdot (cp -v P) v) <= 1 / 2 ->
  (exists p, compositeRibbonPatch eps sf sds = Some p /\ Rabs (vdot (p -v P) v) <= 1541 * h ^ 2) /\
  (exists p, midpointPatch eps sf cp sds = Some p /\ Rabs (vdot (p -v P) v) <= (29 + 12 * h) * h ^ 2).
Proof.
  intros eps h cs cp He Hh ps U sf P v sds Hc.
  destruct (lineRibs_ok ps ltac:(simpl; lia)) as [Cl _]. cbn [length ps] in Cl.
  assert (Rd : ready sf) by (split; [exact Cl|exact U]).
  assert (Lr : length (sf_ribbons sf) = sf_n sf) by reflexivity. assert (Cd : crosses_defined (sf_ribbons sf)) by apply Cl.
  assert (St : 0 < corner_step) by (unfold corner_step; lra).
  assert (Tw := twists sf ltac:(cbn; lia) Rd).
  assert (zr : forall x y, x = 0 -> 0 <= y -> Rabs x <= y) by (intros x y -> Y; rewrite Rabs_R0; exact Y).
  assert (NB : neighbours_bend sf 0 v 0 0).
  { split; [|split].
    - eexists (fun s => affine3 (mkV3 1 0 0) s (mkV3 1 1 1)), (fun _ => (mkV3 1 1 1) -v (mkV3 1 0 0)), (fun s => affine3 (mkV3 0 0 0 -v mkV3 1 0 0) s (mkV3 0 1 0 -v mkV3 1 1 1)), (mkV3 0 0 (-1)).
      split; [eexists; split; [reflexivity|split; [intros t; split; reflexivity|intros t _; reflexivity]]|].
      split; intros t _; (apply zr; [unfold affine3, vdot, v; simpl; field|lra]).
    - eexists (fun s => affine3 (mkV3 0 1 0) s (mkV3 0 0 0)), (fun _ => (mkV3 0 0 0) -v (mkV3 0 1 0)), (fun s => affine3 (mkV3 1 1 1 -v mkV3 0 1 0) s (mkV3 1 0 0 -v mkV3 0 0 0)), (mkV3 0 0 (-1)).
      split; [eexists; split; [reflexivity|split; [intros t; split; reflexivity|intros t _; reflexivity]]|].
      split; intros t _; (apply zr; [unfold affine3, vdot, v; simpl; field|lra]).
    - intros k [Ek|Ek].
      + destruct (Tw 0%nat k ltac:(cbn; lia) Ek) as (_ & _ & _ & -> & ->). apply zr; [unfold xv, vdot, affine3, v; simpl; field; lra|lra].
      + destruct (Tw 3%nat k ltac:(cbn; lia) Ek) as (_ & _ & _ & -> & ->). apply zr; [unfold xv, vdot, affine3, v; simpl; field; lra|lra]. }
  assert (Fl : flat_at sf 0 (1/2) v 1 P).
  { eexists (fun s => affine3 (mkV3 0 0 0) s (mkV3 1 0 0)), (fun _ => (mkV3 1 0 0) -v (mkV3 0 0 0)), (fun s => affine3 (mkV3 0 1 0 -v mkV3 0 0 0) s (mkV3 1 1 1 -v mkV3 1 0 0)).
    split; [eexists; split; [reflexivity|split; [intros t; split; reflexivity|intros t _; reflexivity]]|].
    split; [unfold P, affine3; cbn; v3field|]. intros t _. split.
    - apply zr; [unfold affine3, vdot, v; simpl; field|]. rewrite Rmult_1_l. apply pow2_ge_0.
    - right. rewrite Rmult_1_l. f_equal. unfold affine3, vdot, v; cbn; field. }
  assert (rng : forall x y, 0 <= x <= 1 -> 0 <= y <= 1 -> Rabs (y * (x - 1 / 2)) <= 1 / 2).
  { intros x y X Y. apply Rabs_le. split; nra. }
  assert (Ex : extent eps sf P v (1/2)).
  { intros i a b p A B [E|E].
    - assert (Li : (i < 4)%nat). { destruct (Nat.lt_ge_cases i 4) as [Li|Li]; [exact Li|]. unfold sideInterpolant in E. destruct (gamma _ _); cbn [bind] in E; [|discriminate]. rewrite (proj2 (nth_error_None (sf_ribbons sf) i)) in E by exact Li. discriminate. }
      rewrite (side_value sf Lr Cd i a b Li (gok_nonneg (sf_gamma sf) b ltac:(lra))) in E. injection E as <-. rewrite siv_plain by (reflexivity || lra).
      destruct i as [|[|[|[|i]]]]; [| | | |lia]; unfold cv, xv, rb, affine3, vdot, v, P; cbn.
      + match goal with |- Rabs ?x <= _ => replace x with (b * (a - 1 / 2)) by field end. apply rng; lra.
      + match goal with |- Rabs ?x <= _ => replace x with (a * ((1 - b) - 1 / 2)) by field end. apply rng; lra.
      + match goal with |- Rabs ?x <= _ => replace x with ((1 - b) * ((1 - a) - 1 / 2)) by field end. apply rng; lra.
      + match goal with |- Rabs ?x <= _ => replace x with ((1 - a) * (b - 1 / 2)) by field end. apply rng; lra.
    - unfold cornerCorrection in E. cbn [sf_gamma sf gamma bind] in E. rewrite !clamp_id in E by lra.
      destruct (nth_error (sf_corners sf) i) as [k|] eqn:Ek; [|discriminate]. cbn [bind] in E.
      assert (Li : (i < sf_n sf)%nat). { apply Nat.lt_le_trans with (length cs); [apply nth_error_Some; change cs with (sf_corners sf); rewrite Ek; discriminate|]. unfold updateCorners in U. rewrite (mapM_length _ _ _ U), seq_length. cbn. lia. }
      destruct (Tw i k Li Ek) as (T1 & T2 & T3 & T4 & T5).
      assert (Tv : exists z, (z = 1 \/ z = 0 /\ a + b < 1 / 4) /\ rationalTwist eps a b (cn_twist2 k) (cn_twist1 k) = Some (mkV3 0 0 (- (z * (1 - 2 * INR (i mod 2)))))).
      { unfold rationalTwist. destruct (Rlt_dec _ _) as [L|L]; [exists 0; split; [rewrite Rabs_right in L by lra; lra|]; apply (f_equal Some); v3ring|]. exists 1. split; [lra|].
        rewrite Rabs_right in L by lra. rewrite vdiv_some by lra. apply (f_equal Some). rewrite T4, T5.
        destruct i as [|[|[|[|i]]]]; [| | | |cbn in Li; lia]; unfold xv, rb, affine3; cbn; v3field; lra. }
      destruct Tv as (z & Z & Tv). rewrite Tv in E. cbn [bind] in E. injection E as <-. rewrite T1, T2, T3.
      assert (0 <= a * b) by nra. assert (a * b <= a) by nra. assert (a * b <= b) by nra. assert (0 <= (1 - a) * (1 - b)) by nra.
      destruct Z as [->|[-> Z]]; destruct i as [|[|[|[|i]]]]; try (cbn in Li; lia); unfold cv, xv, rb, affine3, vdot, v, P; cbn; apply Rabs_le; split; lra. }
  assert (Be : beside 4 0 (1/4) (1/2) h (h/4) sds).
  { split; [reflexivity|]. split; [|split; [lra|split; [|split; [|split; [|split]]]]].
    - intros j sd E. do 4 (destruct j as [|j]; [injection E as <-; cbn [px py]; lra|]). destruct j; discriminate.
    - exists h. split; [reflexivity|lra].
    - exists h, (1/2 - h/4). split; [reflexivity|]. split; [lra|]. apply Rabs_le. lra.
    - exists (1 - h), (1/2 - h/4). split; [reflexivity|]. split; [lra|]. apply Rabs_le. lra.
    - intros j sd E N. destruct j as [|j]; [congruence|]. do 3 (destruct j as [|j]; [injection E as <-; cbn [px py]; lra|]). destruct j; discriminate.
    - intros j sd E N1 N2 N3. destruct j as [|[|[|[|j]]]]; cbn in N1, N2, N3; try congruence; [injection E as <-; cbn [py]; lra|destruct j; discriminate]. }
  split.
  - destruct (C78_composite_ribbon_at eps sf 0 (1/2) (1/4) h (h/4) 0 1 0 (1/2) v P sds ltac:(lra) ltac:(cbn; lia) Rd eq_refl ltac:(cbn; lia) ltac:(lra) ltac:(lra) ltac:(lra) NB Fl Ex Be) as (p & E & B).
    exists p. split; [exact E|]. eapply Rle_trans; [exact B|]. cbn [sf_n sf]. pose proof (pow2_ge_0 h). simpl INR. simpl in *. lra.
  - destruct (C78_midpoint_at eps sf cp 0 (1/2) (1/4) h (h/4) 0 1 0 (1/2) v P sds ltac:(lra) ltac:(cbn; lia) Rd eq_refl ltac:(cbn; lia) ltac:(lra) ltac:(lra) NB Fl Ex Be Hc) as (p & E & B).
    exists p. split; [exact E|]. eapply Rle_trans; [exact B|]. cbn [sf_n sf]. right. simpl INR. field.
Qed.
