(** Properties of patches whose boundary is gone round the other way: C90. *)
From Verif Require Import Base MeshModel GeomSpec UtilModel UtilSpec UtilProofs DomainModel DomainProofs DomainPolygons ParamModel RibbonModel SurfaceModel SurfaceEval.
From Verif Require Import PropsSurface SurfaceSpec BlendProps TotalSpec PropsTotal SurfaceC0 ParamMaps ParamTame ParamFar ParamFar2.
From Verif Require Import RotSpec RotProofs RotParam RotMotion RotDomains PropsRot MirSpec MirProofs MirParam MirDomains.
Open Scope R_scope.

(** The parameterizations of the patches that are determined by ribbons. *)
Definition tkind (k : tpatch) : pkind :=
  match k with
  | TSide => KParallel | TCorner => KBilinear | TCoons => KInterconnected
  | TComposite | TMidpoint _ => KBary Wachspress | TMidpointCoons _ => KConstrained Wachspress
  end.
(** Neither the quadratic equations of the bilinear parameterization nor the
    side parameters of the barycentric ones are cut off by the tolerance. *)
Definition fair (k : tpatch) (eps : R) (d : dom) (uv : V2) : Prop :=
  match k with
  | TSide | TCorner | TCoons => balancedAt eps d uv
  | _ => settledAt Wachspress eps d uv
  end.
Lemma fair_kind : forall k eps d uv, eps <= 1 -> fair k eps d uv -> kind_fair (tkind k) eps d uv.
Proof.
  intros k eps d uv He F. destruct k; cbn [tkind kind_fair fair] in *; try exact F; (split; [|exact F]); intros v _; cbn [baryRadius]; exact He.
Qed.
Definition tPatch (k : tpatch) : R -> surf -> list V2 -> option V3 :=
  match k with
  | TSide => sideBased | TCorner => cornerBased | TCoons => generalizedCoons | TComposite => compositeRibbonPatch
  | TMidpoint cp => fun eps sf => midpointPatch eps sf cp
  | TMidpointCoons cp => fun eps sf => midpointCoons eps sf cp
  end.
Lemma tEval_split : forall k eps d sf uv, tEval k eps d sf uv = bind (mapToRibbons (tkind k) eps d uv) (tPatch k eps sf).
Proof. intros [| | | |cp|cp] eps d sf uv; reflexivity. Qed.

(** ** C90: no direction is first.

    Side 0 stays, the other sides follow in reversed order, every curve is run
    through backwards, and the corner data change hands: for the local parameters
    (1 - s, d) of the reversed sides every patch gives the same point. *)
Theorem C90_patch : forall k eps sf sds, complete sf sds -> (2 <= sf_n sf)%nat -> tPatch k eps (mirSurf sf) (mirSds sds) = tPatch k eps sf sds.
Proof.
  intros [| | | |cp|cp] eps sf sds Cp H2; cbn [tPatch]; [apply sideBased_mir|apply cornerBased_mir|apply generalizedCoons_mir|apply compositePatch_mir|apply midpoint_mir|apply midpointCoons_mir]; assumption.
Qed.
Print Assumptions C90_patch.
(** The corner data of the reversed loop are those of the loop, handed over:
    nothing has to be reversed by hand.  The curves have to meet, since the code
    takes the corner from the first of the two curves. *)
Theorem C90_corners : forall n rs cs, length rs = n ->
  (forall i r rp, nth_error rs i = Some r -> nth_error rs (nxt n i) = Some rp -> cpt (sr_curve r) 1 = cpt (sr_curve rp) 0) ->
  updateCorners n rs = Some cs -> updateCorners n (map flipRib (mir rs)) = Some (map flipCorner (rev cs)).
Proof. intros n rs cs L J H. rewrite (updateCorners_mir n rs L J), H. reflexivity. Qed.
Print Assumptions C90_corners.
(** They do have to meet: with a gap at one corner the reversed loop has the other
    end of it there. *)
Theorem C90_corners_gap : forall n rs cs cs' i r rp c c', length rs = n -> (i < n)%nat ->
  nth_error rs i = Some r -> nth_error rs (nxt n i) = Some rp ->
  updateCorners n rs = Some cs -> updateCorners n (map flipRib (mir rs)) = Some cs' ->
  nth_error cs i = Some c -> nth_error cs' (n - 1 - i) = Some c' ->
  cn_point c = cpt (sr_curve r) 1 /\ cn_point c' = cpt (sr_curve rp) 0.
Proof.
  intros n rs cs cs' i r rp c c' L Hi Er Erp U U' Ec Ec'. unfold updateCorners in U, U'.
  assert (G : forall rs0 k c0 a, updateCorner n rs0 k = Some c0 -> nth_error rs0 k = Some a -> cn_point c0 = cpt (sr_curve a) 1).
  { intros rs0 k c0 a H Ha. unfold updateCorner in H. rewrite Ha in H. cbn [bind] in H. destruct (nth_error rs0 (nxt n k)) as [b|]; [|discriminate]. cbn [bind] in H.
    destruct (sr_cross a 1); [cbn [bind] in H|discriminate]. destruct (sr_cross a (1 - corner_step)); [cbn [bind] in H|discriminate]. destruct (sr_cross b 0); [cbn [bind] in H|discriminate]. destruct (sr_cross b corner_step); [cbn [bind] in H|discriminate].
    apply some_eq in H. subst c0. reflexivity. }
  fold (cor n i) in Ec'. assert (Hc := cor_lt n i Hi).
  assert (Sq : forall k, (k < n)%nat -> nth_error (seq 0 n) k = Some k) by (intros k Hk; rewrite (nth_error_nth' _ 0%nat) by (rewrite seq_length; exact Hk); rewrite seq_nth by exact Hk; reflexivity).
  apply (fun H => Base.mapM_nth _ _ _ i i H (Sq i Hi)) in U. apply (fun H => Base.mapM_nth _ _ _ (cor n i) (cor n i) H (Sq _ Hc)) in U'. rewrite Ec in U. rewrite Ec' in U'. symmetry in U, U'. split.
  - exact (G rs i c r U Er).
  - assert (Q : nth_error (map flipRib (mir rs)) (cor n i) = Some (flipRib rp)).
    { rewrite mapped_nth, (mir_nth _ _ n) by assumption. replace (sid n (cor n i)) with (nxt n i); [rewrite Erp; reflexivity|].
      rewrite (nxt_cases n i Hi). unfold sid, cor. destruct (Nat.eqb_spec (S i) n); destruct (Nat.eqb_spec (n - 1 - i) 0); lia. }
    rewrite (G _ _ _ _ U' Q). cbn [flipRib flipCurve sr_curve cpt]. f_equal. ring.
Qed.
Print Assumptions C90_corners_gap.

(** The domain is mirrored with the order of its vertices reversed; the patch over
    it is the patch at the mirrored point. *)
Theorem C90_mirror : forall k eps c vs d sf uv, 0 < eps <= 1 -> domainFrames c vs = Some d -> (2 <= length vs)%nat ->
  sf_n sf = length vs -> length (sf_ribbons sf) = length vs -> length (sf_corners sf) = length vs -> fair k eps d uv ->
  exists d', domainFrames (mirrored c) (rev (map mirrored vs)) = Some d' /\ tEval k eps d' (mirSurf sf) (mirrored uv) = tEval k eps d sf uv.
Proof.
  intros k eps c vs d sf uv He E H2 En Lr Lc F. destruct (domainFrames (M c) (mirVerts vs)) as [d'|] eqn:E'; [|rewrite frames_closed in E'; discriminate].
  exists d'. split; [exact E'|]. rewrite !tEval_split. rewrite (ribbons_mir c vs d d' E E') by (try lra; try exact H2; apply fair_kind; try lra; exact F).
  rewrite bind_map_some. apply bind_cong. intros sds Es. apply ribbons_length in Es. rewrite (frames_n _ _ _ E) in Es. apply C90_patch; [repeat split; congruence|lia].
Qed.
Print Assumptions C90_mirror.
Theorem C90_center : forall vs, computeCenter (rev (map mirrored vs)) = option_map mirrored (computeCenter vs).
Proof. exact center_mir. Qed.
Print Assumptions C90_center.
(** The central control point of the midpoint patches is the same one. *)
Theorem C90_central : forall k eps c vs d sf m, 0 < eps <= 1 -> domainFrames c vs = Some d -> (2 <= length vs)%nat ->
  sf_n sf = length vs -> length (sf_ribbons sf) = length vs -> length (sf_corners sf) = length vs -> settledAt Wachspress eps d c ->
  exists d', domainFrames (mirrored c) (rev (map mirrored vs)) = Some d' /\ centralControl k eps d' (mirSurf sf) m = centralControl k eps d sf m.
Proof.
  intros k eps c vs d sf m He E H2 En Lr Lc F. destruct (domainFrames (M c) (mirVerts vs)) as [d'|] eqn:E'; [|rewrite frames_closed in E'; discriminate].
  exists d'. split; [exact E'|]. unfold centralControl.
  assert (Ec : d_center d = c) by (rewrite frames_closed in E; injection E as <-; reflexivity). assert (Ec' : d_center d' = M c) by (rewrite frames_closed in E'; injection E' as <-; reflexivity).
  rewrite Ec, Ec'. rewrite (ribbons_mir c vs d d' E E'); [|lra|exact H2|destruct k; cbn [mparam kind_fair]; split; try exact F; intros v _; cbn [baryRadius]; lra].
  rewrite bind_map_some. apply bind_cong. intros sds Es. apply ribbons_length in Es. rewrite (frames_n _ _ _ E) in Es. assert (Cp : complete sf sds) by (repeat split; congruence). assert (H2' : (2 <= sf_n sf)%nat) by lia.
  rewrite (central_mir eps sf sds Cp (mpatch k eps sf)); [reflexivity|]. destruct k; cbn [mpatch]; [apply midpoint_mir|apply midpointCoons_mir]; assumption.
Qed.
Print Assumptions C90_central.

(** Inside a convex polygon the patches with the bilinear parameterization have no
    preferred direction when every side has neighbours of sufficiently different
    heights, measured in side lengths. *)
Theorem C90_convex : forall k eps c vs d sf uv, k = TSide \/ k = TCorner \/ k = TCoons -> 0 < eps <= 1 -> convex_domain c vs d ->
  sf_n sf = length vs -> length (sf_ribbons sf) = length vs -> length (sf_corners sf) = length vs -> inside vs uv ->
  (forall i, (i < length vs)%nat -> let a := vtx vs (prv (length vs) i) in let b := vtx vs i in let z := vtx vs (prv (length vs) (prv (length vs) i)) in let y := vtx vs (nxt (length vs) i) in
     eps * pnorm2 (b -p a) <= Rabs (sarea a b z - sarea a b y)) ->
  exists d', domainFrames (mirrored c) (rev (map mirrored vs)) = Some d' /\ tEval k eps d' (mirSurf sf) (mirrored uv) = tEval k eps d sf uv.
Proof.
  intros k eps c vs d sf uv Hk He Dc En Lr Lc Iu Hh. assert (E : domainFrames c vs = Some d) by apply Dc. assert (H3 : (3 <= length vs)%nat) by apply Dc. assert (C : strictly_convex vs) by apply Dc.
  apply C90_mirror; try assumption; try lia. assert (B : balancedAt eps d uv).
  { apply (balanced_convex c vs d Dc). intros i Hi. right. split; [|exact Iu]. specialize (Hh i Hi). cbv zeta in Hh.
    pose proof (len2_pos vs H3 C i Hi) as Pl. change (pnorm2 (vtx vs i -p vtx vs (prv (length vs) i))) with (len2 vs i) in Hh. unfold heightPrev, heightNext.
    replace (sarea (vtx vs (prv (length vs) i)) (vtx vs i) (vtx vs (prv (length vs) (prv (length vs) i))) / len2 vs i - sarea (vtx vs (prv (length vs) i)) (vtx vs i) (vtx vs (nxt (length vs) i)) / len2 vs i)
      with ((sarea (vtx vs (prv (length vs) i)) (vtx vs i) (vtx vs (prv (length vs) (prv (length vs) i))) - sarea (vtx vs (prv (length vs) i)) (vtx vs i) (vtx vs (nxt (length vs) i))) / len2 vs i) by (field; lra).
    unfold Rdiv. rewrite Rabs_mult, (Rabs_pos_eq (/ len2 vs i)) by (left; apply Rinv_0_lt_compat; exact Pl). apply (Rmult_le_reg_r (len2 vs i)); [exact Pl|]. rewrite Rmult_assoc, Rinv_l, Rmult_1_r by lra. exact Hh. }
  destruct Hk as [->|[->| ->]]; exact B.
Qed.
Print Assumptions C90_convex.

(** ** Regular domains

    With four sides or more every point of the polygon, its sides and its vertices
    included, is fair.  Mirroring such a domain gives the domain turned by one
    side; the square is its own mirror image.  So the patch over the reversed
    boundary is the patch at the mirrored point of the same domain. *)
Theorem C90_regular : forall k n eps vs d sf uv, (4 <= n)%nat -> 0 < eps -> eps <= sin (2 * PI / INR n) * sin (2 * PI / INR n) * sin (PI / INR n) / 2 ->
  regularVertices n = Some vs -> domainFrames pzero vs = Some d -> sf_n sf = n -> length (sf_ribbons sf) = n -> length (sf_corners sf) = n -> in_polygon vs uv ->
  tEval k eps d (mirSurf sf) (if (n =? 4)%nat then mirrored uv else turned (cos (2 * PI / INR n)) (- sin (2 * PI / INR n)) pzero (mirrored uv)) = tEval k eps d sf uv.
Proof.
  intros k n eps vs d sf uv H4 Hp He Hv E En Lr Lc Pq. assert (H3 : (3 <= n)%nat) by lia. pose proof (regular_length n vs Hv) as Lv.
  pose proof (h_pos n H3) as Ph. pose proof (w_pos n vs H3 Hv) as Pw. pose proof (SIN_bound (2 * PI / INR n)) as Bh. pose proof (SIN_bound (PI / INR n)) as Bw.
  assert (B1 : eps <= sin (2 * PI / INR n)).
  { apply Rle_trans with (1 := He). set (h := sin (2 * PI / INR n)) in *. set (w := sin (PI / INR n)) in *. assert (h * w <= 1) by nra. assert (h * (h * w) <= h * 1) by (apply Rmult_le_compat_l; lra). nra. }
  assert (B2 : eps <= 2 * (sin (2 * PI / INR n) * sin (2 * PI / INR n) * sin (PI / INR n))).
  { set (h := sin (2 * PI / INR n)) in *. set (w := sin (PI / INR n)) in *. assert (0 < h * h * w) by (apply Rmult_lt_0_compat; [nra|lra]). lra. }
  assert (F : fair k eps d uv).
  { destruct k; cbn [fair]; try (apply (balanced_regular n vs d H4 Hv E); assumption); apply (settled_regular n vs d H4 Hv E); assumption. }
  destruct (C90_mirror k eps pzero vs d sf uv) as (d' & E' & Q); try assumption; try congruence; try lia; [split; lra|].
  replace (mirrored pzero) with pzero in E' by (unfold mirrored, pzero; apply V2_ext; simpl; ring). change (rev (map mirrored vs)) with (mirVerts vs) in E'. rewrite <- Q.
  destruct (Nat.eqb_spec n 4) as [E4|N4].
  - subst n. rewrite E4 in Hv. rewrite (square_mir vs Hv), E in E'. injection E' as <-. reflexivity.
  - rewrite (regular_mir n vs H3 N4 Hv), frames_rot, E in E'. cbn [option_map] in E'. injection E' as <-. rewrite (regular_dom n vs d H3 Hv E).
    set (q := turned (cos (2 * PI / INR n)) (- sin (2 * PI / INR n)) pzero (M uv)).
    replace (M uv) with (turned (cos (2 * PI / INR n)) (sin (2 * PI / INR n)) pzero q).
    + symmetry. apply tEval_move. apply turn_unit.
    + unfold q, turned, pzero. pose proof (turn_unit (2 * PI / INR n)) as U. set (c := cos (2 * PI / INR n)) in *. set (z := sin (2 * PI / INR n)) in *. destruct (M uv) as [x y]. apply V2_ext; cbn [px py padd].
      * transitivity (x * (c * c + z * z)); [ring|rewrite U; ring].
      * transitivity (y * (c * c + z * z)); [ring|rewrite U; ring].
Qed.
Print Assumptions C90_regular.

(** ** C0 Coons patches: the curves are run through backwards, in reversed order. *)
Lemma three_sides : forall n j, (j < n)%nat -> (nxt n (nxt n j) =? prv n j)%nat = ((n =? 3) || (n =? 1))%nat.
Proof.
  intros n j Hj. assert (Hx : (nxt n j < n)%nat) by (apply nxt_lt; lia). rewrite (nxt_cases n (nxt n j) Hx), (prv_cases n j Hj). rewrite (nxt_cases n j Hj) in *.
  destruct (Nat.eqb_spec (S j) n); destruct (Nat.eqb_spec j 0); destruct (Nat.eqb_spec n 3); destruct (Nat.eqb_spec n 1); cbn [orb];
    try match goal with |- context [(S ?a =? n)%nat] => destruct (Nat.eqb_spec (S a) n) end;
    repeat match goal with |- context [(?a =? ?b)%nat] => destruct (Nat.eqb_spec a b) end; try reflexivity; exfalso; lia.
Qed.
Lemma coons_flip : forall l2 l c r r2 same, (same = true -> cpt r 1 = cpt l 0) -> forall sd,
  coonsEval (flipCurve c) (coonsUpdate (flipCurve r2) (flipCurve r) (flipCurve c) (flipCurve l) (flipCurve l2) same) (flipSd sd) = coonsEval c (coonsUpdate l2 l c r r2 same) sd.
Proof.
  intros l2 l c r r2 same Hs sd. unfold coonsEval, coonsUpdate. cbn [co_left co_right co_top co_bl co_br co_tl co_tr flipSd px py]. unfold flipCurve. cbn [cpt cder]. rewrite !clamp_flip. set (s := clamp (px sd) 0 1). set (t := clamp (py sd) 0 1).
  assert (Cs : 0 <= s <= 1) by (apply clamp_range; lra). assert (Ct : 0 <= t <= 1) by (apply clamp_range; lra).
  rewrite ?(clamp_id s 0 1), ?(clamp_id t 0 1) by lra. replace (1 - (1 - s)) with s by ring. replace (1 - (1 - t)) with t by ring. replace (1 - 1) with 0 by ring. rewrite !Rminus_0_r.
  destruct same.
  - rewrite !const_value. cbn [bind]. f_equal. rewrite (Hs eq_refl). v3ring.
  - rewrite !cubic_value. cbn [bind]. f_equal. v3ring.
Qed.
Lemma coonsRibbon_mir : forall cs i, (forall j a b, nth_error cs j = Some a -> nth_error cs (nxt (length cs) j) = Some b -> cpt a 1 = cpt b 0) -> (i < length cs)%nat ->
  exists r r', coonsRibbon cs (sid (length cs) i) = Some r /\ coonsRibbon (map flipCurve (mir cs)) i = Some r' /\ forall sd, r' (flipSd sd) = r sd.
Proof.
  intros cs i J Hi. set (n := length cs) in *. assert (Hs := sid_lt n i Hi). assert (Hx : forall k, (k < n)%nat -> (nxt n k < n)%nat) by (intros; apply nxt_lt; lia). assert (Hp : forall k, (k < n)%nat -> (prv n k < n)%nat) by (intros; apply prv_lt; lia).
  assert (G : forall k, (k < n)%nat -> exists a, nth_error cs k = Some a) by (intros k Hk; destruct (nth_error cs k) as [a|] eqn:E; [exists a; reflexivity|apply nth_error_None in E; fold n in E; lia]).
  destruct (G _ Hs) as (c & Ec). destruct (G _ (Hp _ Hs)) as (l & El). destruct (G _ (Hx _ Hs)) as (r & Er). destruct (G _ (Hp _ (Hp _ Hs))) as (l2 & El2). destruct (G _ (Hx _ (Hx _ Hs))) as (r2 & Er2).
  unfold coonsRibbon. rewrite map_length, mir_length. fold n. rewrite Ec, El, Er, El2, Er2. cbn [bind]. eexists; eexists. split; [reflexivity|].
  assert (Q : forall k, (k < n)%nat -> nth_error (map flipCurve (mir cs)) k = option_map flipCurve (nth_error cs (sid n k))) by (intros k Hk; rewrite mapped_nth, (mir_nth _ _ n) by (try exact Hk; reflexivity); reflexivity).
  assert (Sn : forall k, (k < n)%nat -> sid n (nxt n k) = prv n (sid n k)) by (intros k Hk; rewrite (sid_nxt n k Hk), (prv_sid n k Hk); reflexivity).
  rewrite !Q by auto. rewrite !Sn, !sid_prv by auto. rewrite Ec, El, Er, El2, Er2. cbn [option_map bind]. split; [reflexivity|].
  rewrite (three_sides n i Hi), (three_sides n _ Hs). apply coons_flip. intros T.
  apply (J _ _ _ Er). rewrite <- El. f_equal. apply Nat.eqb_eq. rewrite (three_sides n _ Hs). exact T.
Qed.
Lemma mapM_ex : forall A B (f : A -> option B) l, (forall k, In k l -> exists r, f k = Some r) -> exists rs, mapM f l = Some rs.
Proof.
  intros A B f l; induction l as [|a l IH]; intros H; [exists []; reflexivity|]. destruct (H a (or_introl eq_refl)) as (r & E). destruct IH as (rs & Q); [intros k Hk; apply H; right; exact Hk|].
  exists (r :: rs). cbn [mapM]. rewrite E. cbn [bind]. rewrite Q. reflexivity.
Qed.
Lemma c0_mir : forall cs sds rs rs', length sds = length cs -> (forall j a b, nth_error cs j = Some a -> nth_error cs (nxt (length cs) j) = Some b -> cpt a 1 = cpt b 0) ->
  mapM (coonsRibbon cs) (seq 0 (length cs)) = Some rs -> mapM (coonsRibbon (map flipCurve (mir cs))) (seq 0 (length cs)) = Some rs' ->
  c0coons rs' (length cs) (mirSds sds) = c0coons rs (length cs) sds.
Proof.
  intros cs sds rs rs' Ls J E E'. set (n := length cs) in *.
  assert (Sq : forall k, (k < n)%nat -> nth_error (seq 0 n) k = Some k) by (intros k Hk; rewrite (nth_error_nth' _ 0%nat) by (rewrite seq_length; exact Hk); rewrite seq_nth by exact Hk; reflexivity).
  unfold c0coons. apply osum_sid. intros i Hi. destruct (coonsRibbon_mir cs i J Hi) as (r & r' & R & R' & F).
  rewrite (Base.mapM_nth _ _ _ _ _ E' (Sq i Hi)), (Base.mapM_nth _ _ _ _ _ E (Sq _ (sid_lt n i Hi))). fold n in R. rewrite R, R'. cbn [bind].
  rewrite (sds_nth n) by assumption. destruct (nth_error sds (sid n i)) as [sd|]; [|reflexivity]. cbn [option_map bind]. rewrite F. reflexivity.
Qed.
Theorem C90_c0coons : forall eps c vs d cs uv, 0 < eps <= 1 -> domainFrames c vs = Some d -> (2 <= length vs)%nat -> length cs = length vs ->
  (forall j a b, nth_error cs j = Some a -> nth_error cs (nxt (length cs) j) = Some b -> cpt a 1 = cpt b 0) -> settledAt Wachspress eps d uv ->
  exists d', domainFrames (mirrored c) (rev (map mirrored vs)) = Some d' /\ c0coonsEval eps d' (map flipCurve (mir cs)) (mirrored uv) = c0coonsEval eps d cs uv.
Proof.
  intros eps c vs d cs uv He E H2 Lc J F. destruct (domainFrames (M c) (mirVerts vs)) as [d'|] eqn:E'; [|rewrite frames_closed in E'; discriminate].
  exists d'. split; [exact E'|]. unfold c0coonsEval. rewrite (ribbons_mir c vs d d' E E'); [|lra|exact H2|cbn [kind_fair]; split; [intros v _; cbn [baryRadius]; lra|exact F]].
  rewrite bind_map_some. apply bind_cong. intros sds Es. apply ribbons_length in Es. rewrite (frames_n _ _ _ E) in Es. rewrite map_length, mir_length.
  assert (X : forall k, In k (seq 0 (length cs)) -> exists r, coonsRibbon cs k = Some r).
  { intros k Hk. apply in_seq in Hk. destruct (coonsRibbon_mir cs (sid (length cs) k) J) as (r & _ & R & _); [apply sid_lt; lia|]. rewrite sid_sid in R by lia. exists r. exact R. }
  assert (X' : forall k, In k (seq 0 (length cs)) -> exists r, coonsRibbon (map flipCurve (mir cs)) k = Some r).
  { intros k Hk. apply in_seq in Hk. destruct (coonsRibbon_mir cs k J) as (_ & r & _ & R & _); [lia|]. exists r. exact R. }
  apply mapM_ex in X. apply mapM_ex in X'. destruct X as (rs & Rs). destruct X' as (rs' & Rs'). rewrite Rs, Rs'. cbn [bind]. apply c0_mir; try assumption. congruence.
Qed.
Print Assumptions C90_c0coons.

(** ** Where there is a preferred direction

    In the coordinates of a side, from its other end the neighbours [p1], [p2] and
    the point [p] change places.  Where the heights of the neighbours differ by
    less than the tolerance, but do differ, the code drops the quadratic term
    altogether, and the two directions agree in the middle of the side only. *)
Theorem C90_linear : forall eps p1 p2 p sd sd', let a := py p1 - py p2 in
  let b := px p * py p2 - (px p + 1) * py p1 + (px p1 - px p2) * py p in
  0 < eps -> 0 < Rabs a < eps -> eps <= Rabs b -> eps <= Rabs (2 * a + b) ->
  bilinearLocal eps p1 p2 p = Some sd -> bilinearLocal eps (mkV2 (- px p2) (py p2)) (mkV2 (- px p1) (py p1)) (mkV2 (1 - px p) (py p)) = Some sd' ->
  (px sd' = 1 - px sd <-> px sd = 1/2).
Proof.
  intros eps p1 p2 p sd sd' a b He Ha Hb Hc E E'. unfold bilinearLocal in E, E'. cbn [px py] in E'. fold a b in E.
  set (c0 := px p * py p1 - py p * px p1) in *. replace (py p2 - py p1) with (- a) in E' by (unfold a; ring).
  replace ((1 - px p) * py p1 - (1 - px p + 1) * py p2 + (- px p2 - - px p1) * py p) with (2 * a + b) in E' by (unfold a, b; ring).
  replace ((1 - px p) * py p2 - py p * - px p2) with (- (a + b + c0)) in E' by (unfold a, b, c0; ring).
  assert (Na : a <> 0) by (intros Z; rewrite Z, Rabs_R0 in Ha; lra). assert (Nb : b <> 0) by (intros Z; rewrite Z, Rabs_R0 in Hb; lra). assert (Nc : 2 * a + b <> 0) by (intros Z; rewrite Z, Rabs_R0 in Hc; lra).
  unfold bilinearSolve in E, E'. rewrite Rabs_Ropp in E'. destruct (Rlt_dec (Rabs a) eps); [|lra]. destruct (Rlt_dec (Rabs b) eps); [lra|]. destruct (Rlt_dec (Rabs (2 * a + b)) eps); [lra|].
  rewrite fdiv_some in E, E' by assumption. cbn [bind] in E, E'. destruct (fdiv (py p) (py p1 * (1 - - c0 / b) + py p2 * (- c0 / b))); [cbn [bind] in E; apply some_eq in E|discriminate].
  destruct (fdiv _ _) in E'; [cbn [bind] in E'; apply some_eq in E'|discriminate]. subst sd sd'. cbn [px]. clearbody a b c0. split; intros H.
  - assert (Q : (a + b + c0) * b = (b + c0) * (2 * a + b)).
    { apply (Rmult_eq_reg_r (/ b * / (2 * a + b))); [|apply Rmult_integral_contrapositive_currified; apply Rinv_neq_0_compat; assumption].
      replace ((a + b + c0) * b * (/ b * / (2 * a + b))) with (- - (a + b + c0) / (2 * a + b)) by (field; split; assumption).
      replace ((b + c0) * (2 * a + b) * (/ b * / (2 * a + b))) with (1 - - c0 / b) by (field; split; assumption). exact H. }
    assert (Z : a * (b + 2 * c0) = 0) by nra. apply Rmult_integral in Z. destruct Z as [Z|Z]; [contradiction|]. replace (- c0) with (1/2 * b) by lra. field. exact Nb.
  - assert (Z : c0 = - (b / 2)). { apply (f_equal (fun x => x * b)) in H. replace (- c0 / b * b) with (- c0) in H by (field; exact Nb). lra. } rewrite Z. field. split; assumption.
Qed.
Print Assumptions C90_linear.
(** And where the equation is taken for no equation at all, both directions place
    the point at their own starts of the side. *)
Theorem C90_stuck : forall eps p1 p2 p sd sd', let a := py p1 - py p2 in
  let b := px p * py p2 - (px p + 1) * py p1 + (px p1 - px p2) * py p in
  Rabs a < eps -> Rabs b < eps -> Rabs (2 * a + b) < eps ->
  bilinearLocal eps p1 p2 p = Some sd -> bilinearLocal eps (mkV2 (- px p2) (py p2)) (mkV2 (- px p1) (py p1)) (mkV2 (1 - px p) (py p)) = Some sd' ->
  px sd = 0 /\ px sd' = 0.
Proof.
  intros eps p1 p2 p sd sd' a b Ha Hb Hc E E'. unfold bilinearLocal in E, E'. cbn [px py] in E'. fold a b in E.
  set (c0 := px p * py p1 - py p * px p1) in *. replace (py p2 - py p1) with (- a) in E' by (unfold a; ring).
  replace ((1 - px p) * py p1 - (1 - px p + 1) * py p2 + (- px p2 - - px p1) * py p) with (2 * a + b) in E' by (unfold a, b; ring).
  unfold bilinearSolve in E, E'. rewrite Rabs_Ropp in E'. destruct (Rlt_dec (Rabs a) eps); [|lra]. destruct (Rlt_dec (Rabs b) eps); [|lra]. destruct (Rlt_dec (Rabs (2 * a + b)) eps); [|lra].
  cbn [bind] in E, E'. destruct (fdiv _ _) in E; [cbn [bind] in E; apply some_eq in E|discriminate]. destruct (fdiv _ _) in E'; [cbn [bind] in E'; apply some_eq in E'|discriminate]. subst sd sd'. split; reflexivity.
Qed.
Print Assumptions C90_stuck.
(** The apex of an equilateral triangle is such a point, for the side opposite:
    its neighbours are the two other sides, of the height of the apex. *)
Example C90_stuck_example : forall eps, 0 < eps -> let p1 := mkV2 (1/2) 1 in let p2 := mkV2 (-1/2) 1 in let p := mkV2 (1/2) 1 in
  bilinearLocal eps p1 p2 p = Some (mkV2 0 1) /\ bilinearLocal eps (mkV2 (1/2) 1) (mkV2 (-1/2) 1) (mkV2 (1 - 1/2) 1) = Some (mkV2 0 1).
Proof.
  intros eps He. cbv zeta. unfold bilinearLocal, bilinearSolve. cbn [px py]. replace (1 - 1) with 0 by ring. rewrite Rabs_R0. destruct (Rlt_dec 0 eps); [|lra].
  replace (1/2 * 1 - (1/2 + 1) * 1 + (1/2 - -1/2) * 1) with 0 by field. replace ((1 - 1/2) * 1 - (1 - 1/2 + 1) * 1 + (1/2 - -1/2) * 1) with 0 by field. rewrite Rabs_R0. destruct (Rlt_dec 0 eps); [|lra].
  cbn [bind]. rewrite !fdiv_some by lra. cbn [bind]. split; f_equal; apply V2_ext; simpl; field.
Qed.

(** The square with four straight sides, gone round both ways: the point one third
    along side 2 is found on side 2 of the reversed loop. *)
Example C90_example : forall eps, 0 < eps <= 1/4 -> exists cs vs d, updateCorners 4 (lineRibs corners4) = Some cs /\
  regularVertices 4 = Some vs /\ domainFrames pzero vs = Some d /\
  let sf := mkSurf 4 true (lineRibs corners4) cs in
  compositeRibbonEval eps d sf (mkV2 (-1) (1/3)) = Some (mkV3 (2/3) 1 (1/3)) /\
  updateCorners 4 (sf_ribbons (mirSurf sf)) = Some (sf_corners (mirSurf sf)) /\
  compositeRibbonEval eps d (mirSurf sf) (mkV2 (-1) (- (1/3))) = Some (mkV3 (2/3) 1 (1/3)).
Proof.
  intros eps Hp. destruct (C77_example eps ltac:(lra)) as (cs & vs & d & U & Hv & Ed & A & _). exists cs, vs, d. split; [exact U|]. split; [exact Hv|]. split; [exact Ed|]. cbv zeta.
  cbv zeta in A. split; [exact A|]. destruct (lineRibs_ok corners4 ltac:(simpl; lia)) as (Cl & _). split.
  - cbn [mirSurf sf_ribbons sf_corners]. apply C90_corners; [reflexivity| |exact U]. intros i r rp. apply Cl.
  - assert (Lc : length cs = 4%nat) by (unfold updateCorners in U; apply mapM_length in U; rewrite seq_length in U; exact U).
    assert (S4 : sin (2 * PI / INR 4) = 1) by (replace (2 * PI / INR 4) with (PI / 2) by (simpl INR; field); apply sin_PI2).
    assert (S8 : 1/2 <= sin (PI / INR 4)).
    { replace (PI / INR 4) with (PI / 4) by (simpl INR; field). rewrite <- sin_PI6. pose proof PI_RGT_0. left. apply sin_increasing_1; lra. }
    pose proof (C90_regular TComposite 4 eps vs d (mkSurf 4 true (lineRibs corners4) cs) (mkV2 (-1) (1/3)) ltac:(lia) ltac:(lra)) as Q.
    rewrite S4 in Q. specialize (Q ltac:(lra) Hv Ed eq_refl eq_refl Lc). cbn [tEval Nat.eqb] in Q. change (mkV2 (-1) (- (1/3))) with (mirrored (mkV2 (-1) (1/3))). rewrite Q; [exact A|].
    cbn in Hv. injection Hv as <-. intros i Hi. cbn [length] in Hi. unfold vtx. destruct i as [|[|[|[|i]]]]; [| | | |lia]; unfold sarea, pcross; simpl; lra.
Qed.
