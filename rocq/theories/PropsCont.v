(** Patches are continuous where no test against the tolerance switches, and
    jump where one does: C86. *)
From Verif Require Import Base MeshModel GeomSpec DomainModel UtilModel JoinModel TotalSpec TotalProofs.
From Verif Require Import ParamModel RibbonModel SurfaceModel SurfaceSpec SurfaceEval GBModel GBSpec SPatchModel ContSpec ContProofs ContPatch.
From Verif Require DomainProofs ParamTame PropsElastic PropsSurface ParamRegular ParamFar BlendProps BlendProofs SurfaceBase SurfaceProofs ParamFar2 ParamMaps PropsTotal PropsSPatch.
Open Scope R_scope.

(** ** C86 *)

(** The ribbon coordinates. *)
Theorem C86_coordinates : forall k eps d q p sds, 0 < eps -> cv2 q p -> off_params k eps d p -> mapToRibbons k eps d p = Some sds ->
  exists v, eventually (fun j => mapToRibbons k eps d (q j) = Some (v j)) /\ cvL cv2 v sds.
Proof. intros k eps d q p sds He H O E. exact (ocv_params k eps d q p He H O sds E). Qed.
Print Assumptions C86_coordinates.

Lemma compose : forall k eps d p sds (f : list V2 -> option V3) y, 0 < eps -> off_params k eps d p -> mapToRibbons k eps d p = Some sds -> f sds = Some y ->
  (forall s, cvL cv2 s sds -> ocv cv3 (fun j => f (s j)) (f sds)) -> continuous_at (fun uv => sds <- mapToRibbons k eps d uv ;; f sds) p.
Proof.
  intros k eps d p sds f y He O E Y F. exists y. rewrite E. cbn [bind]. split; [exact Y|]. intros q Q.
  apply (ocv_bind (cvL cv2) cv3 (fun j => mapToRibbons k eps d (q j)) (mapToRibbons k eps d p) (fun _ => f) f (ocv_params k eps d q p He Q O)).
  - intros v l El V. assert (l = sds) by congruence. subst l. apply F. exact V.
  - rewrite E. cbn [bind]. exact Y.
Qed.

(** The patches, at the points where they have a value. *)
Theorem C86_patches : forall eps d sf p, 0 < eps -> steady sf ->
  (forall sds y, mapToRibbons KParallel eps d p = Some sds -> off_params KParallel eps d p -> off_sides eps sds ->
     sideBasedEval eps d sf p = Some y -> continuous_at (sideBasedEval eps d sf) p) /\
  (forall sds y, mapToRibbons KBilinear eps d p = Some sds -> off_params KBilinear eps d p -> off_sides eps sds -> off_corners eps sf sds ->
     cornerBasedEval eps d sf p = Some y -> continuous_at (cornerBasedEval eps d sf) p) /\
  (forall sds y, mapToRibbons KInterconnected eps d p = Some sds -> off_params KInterconnected eps d p -> off_sides eps sds -> off_corners eps sf sds ->
     generalizedCoonsEval eps d sf p = Some y -> continuous_at (generalizedCoonsEval eps d sf) p) /\
  (forall sds y, mapToRibbons (KBary Wachspress) eps d p = Some sds -> off_params (KBary Wachspress) eps d p -> off_sides eps sds -> off_ribbons eps sf sds ->
     compositeRibbonEval eps d sf p = Some y -> continuous_at (compositeRibbonEval eps d sf) p) /\
  (forall k cp sds y, mapToRibbons (mparam k) eps d p = Some sds -> off_params (mparam k) eps d p -> off_sides eps sds -> off_corners eps sf sds ->
     mEval k eps d sf cp p = Some y -> continuous_at (mEval k eps d sf cp) p).
Proof.
  intros eps d sf p He St. split; [|split; [|split; [|split]]].
  - intros sds y E O N Y. unfold sideBasedEval in Y. rewrite E in Y. cbn [bind] in Y. apply (compose _ _ _ _ sds (sideBased eps sf) y He O E Y). intros s S. apply ocv_sideBased; assumption.
  - intros sds y E O N C Y. unfold cornerBasedEval in Y. rewrite E in Y. cbn [bind] in Y. apply (compose _ _ _ _ sds (cornerBased eps sf) y He O E Y). intros s S. apply ocv_cornerBased; assumption.
  - intros sds y E O N C Y. unfold generalizedCoonsEval in Y. rewrite E in Y. cbn [bind] in Y. apply (compose _ _ _ _ sds (generalizedCoons eps sf) y He O E Y). intros s S. apply ocv_generalizedCoons; assumption.
  - intros sds y E O N C Y. unfold compositeRibbonEval in Y. rewrite E in Y. cbn [bind] in Y. apply (compose _ _ _ _ sds (compositeRibbonPatch eps sf) y He O E Y). intros s S. apply ocv_compositePatch; assumption.
  - intros k cp sds y E O N C Y. assert (X : continuous_at (fun uv => sds <- mapToRibbons (mparam k) eps d uv ;; mpatch k eps sf cp sds) p).
    { apply (compose _ _ _ _ sds (mpatch k eps sf cp) y He O E).
      - destruct k; cbn [mEval mparam mpatch] in *; [unfold midpointEval in Y|unfold midpointCoonsEval in Y]; rewrite E in Y; exact Y.
      - intros s S. apply ocv_mpatch; assumption. }
    destruct k; exact X.
Qed.
Print Assumptions C86_patches.

(** *** Inside a convex polygon *)
Lemma clear_gamma : forall eps g x y, 0 < eps <= 1 / 3 -> eps < x -> gamma g x = Some y -> eps / 2 < clamp y 0 1.
Proof.
  intros eps g x y He Hx E. assert (eps / 2 < y).
  { destruct g; cbn [gamma] in E; [|injection E as <-; lra]. rewrite fdiv_some in E by lra. injection E as <-. apply (Rmult_lt_reg_r (2 * x + 1)); [lra|]. unfold Rdiv at 2. rewrite Rmult_assoc, Rinv_l, Rmult_1_r by lra. nra. }
  unfold clamp. destruct (Rlt_dec y 0); [lra|]. destruct (Rlt_dec 1 y); lra.
Qed.
Lemma clear_twist : forall eps g x y, 0 < eps <= 1 / 3 -> eps < x -> eps < y -> off_twist eps g x y.
Proof. intros eps g x y He Hx Hy g1 g2 E1 E2. pose proof (clear_gamma eps g x g1 He Hx E1). pose proof (clear_gamma eps g y g2 He Hy E2). lra. Qed.
(** All coordinates are further than the tolerance from the sides of the unit
    square they are tested at. *)
Definition clear (eps : R) (sds : list V2) : Prop := forall i sd, nth_error sds i = Some sd -> eps < px sd < 1 - eps /\ eps < py sd.
Lemma clear_off : forall eps sf sds, 0 < eps <= 1 / 3 -> clear eps sds -> off_sides eps sds /\ off_corners eps sf sds /\ off_ribbons eps sf sds.
Proof.
  intros eps sf sds He K. split; [|split].
  - intros i sd E. destruct (K i sd E). lra.
  - intros i sd sd1 E E1. destruct (K i sd E). destruct (K _ sd1 E1). apply clear_twist; lra.
  - intros i sd E. destruct (K i sd E). split; apply clear_twist; lra.
Qed.

Lemma three_of_one : forall n f i j k, (forall k, 0 <= f k) -> (i < n)%nat -> (j < n)%nat -> (k < n)%nat -> i <> j -> i <> k -> j <> k -> rsum n f = 1 -> f i + f j + f k <= 1.
Proof.
  intros n f i j k P Hi Hj Hk N1 N2 N3 S. rewrite (rsum_split1 n f i Hi) in S. rewrite (rsum_split1 n (fun k => if (k =? i)%nat then 0 else f k) j Hj) in S.
  destruct (Nat.eqb_spec j i); [congruence|]. rewrite (rsum_split1 n _ k Hk) in S. destruct (Nat.eqb_spec k j); [congruence|]. destruct (Nat.eqb_spec k i); [congruence|].
  match type of S with _ + (_ + (_ + ?r)) = _ => assert (0 <= r) end.
  { apply rsum_nonneg. intros l Hl. destruct (l =? k)%nat; [lra|]. destruct (l =? j)%nat; [lra|]. destruct (l =? i)%nat; [lra|]. apply P. }
  lra.
Qed.

Section Inside.
Variables (c : V2) (vs : list V2) (d : dom) (eps : R) (uv : V2) (l : list R).
Hypothesis D : convex_domain c vs d.
Hypothesis He : 0 < eps <= 1 / 3.
Hypothesis B : barycentric Wachspress eps d uv = Some l.
Hypothesis Ll : length l = length vs.
Hypothesis Sl : rsum (length vs) (fun i => nth i l 0) = 1.
Hypothesis Bl : forall x, In x l -> eps < x.
Let n := length vs.

Lemma lam : forall i, (i < n)%nat -> nth_error l i = Some (nth i l 0) /\ eps < nth i l 0.
Proof. intros i Hi. assert (E : nth_error l i = Some (nth i l 0)) by (apply nth_error_nth'; rewrite Ll; exact Hi). split; [exact E|]. apply Bl. apply (nth_error_In _ _ E). Qed.
Lemma lam_pos : forall i, 0 <= nth i l 0.
Proof. intros i. destruct (le_lt_dec n i) as [G|G]; [rewrite nth_overflow by (rewrite Ll; exact G); lra|]. destruct (lam i G). lra. Qed.
Lemma sum3 : forall i, (i < n)%nat -> nth i l 0 + nth (prv n i) l 0 + eps < 1.
Proof.
  intros i Hi. destruct D as (_ & H3 & _). fold n in H3. assert (Hq : (prv n i < n)%nat) by (apply prv_lt; lia). assert (Hx : (nxt n i < n)%nat) by (apply nxt_lt; lia).
  assert (A1 : i <> prv n i) by (intros X; apply (prv_neq n i ltac:(lia) Hi); auto). assert (A2 : i <> nxt n i) by (intros X; apply (nxt_neq n i ltac:(lia) Hi); auto).
  assert (A3 : prv n i <> nxt n i) by (intros X; apply (nxt_prv_neq n i H3 Hi); auto).
  pose proof (three_of_one n (fun k => nth k l 0) i (prv n i) (nxt n i) lam_pos Hi Hq Hx A1 A2 A3 Sl) as T. destruct (lam _ Hx). cbv beta in T. lra.
Qed.
Lemma dn : d_n d = n.
Proof. destruct D as (Hd & _). apply (ParamMaps.d_n_eq c vs d Hd). Qed.

Lemma clear_ratio : forall a b, eps < a -> eps < b -> a + b < 1 -> eps < a / (b + a) < 1 - eps.
Proof.
  intros a b Ha Hb Hs. assert (P : 0 < b + a) by lra. assert (M : eps * (b + a) < eps * 1) by (apply Rmult_lt_compat_l; lra). split.
  - apply (Rmult_lt_reg_r (b + a)); [exact P|]. unfold Rdiv. rewrite Rmult_assoc, Rinv_l, Rmult_1_r by lra. lra.
  - apply (Rmult_lt_reg_r (b + a)); [exact P|]. unfold Rdiv. rewrite Rmult_assoc, Rinv_l, Rmult_1_r by lra. lra.
Qed.
Lemma clear_map : forall i, (i < n)%nat -> exists sd, baryMap Wachspress eps d i uv = Some sd /\ eps < px sd < 1 - eps /\ eps < py sd /\ eps < 1 - py sd.
Proof.
  intros i Hi. destruct D as (_ & H3 & _). fold n in H3. assert (Hq : (prv n i < n)%nat) by (apply prv_lt; lia). destruct (lam i Hi) as [E1 L1]. destruct (lam _ Hq) as [E2 L2]. pose proof (sum3 i Hi) as S.
  unfold baryMap. rewrite B. cbn [bind]. unfold baryRibbon. rewrite dn, E1, E2. cbn [bind]. destruct (Rlt_dec (nth (prv n i) l 0 + nth i l 0) eps); [lra|]. rewrite fdiv_some by lra. cbn [bind].
  eexists. split; [reflexivity|]. cbn [px py]. split; [apply clear_ratio; lra|]. split; lra.
Qed.
Lemma clear_params : off_coords eps d Wachspress uv.
Proof.
  split; [intros v _; cbn [baryRadius]; lra|]. intros m E. assert (m = l) by congruence. subst m. intros k li lp. rewrite dn. intros Ei Ep.
  pose proof (Bl _ (nth_error_In _ _ Ei)). pose proof (Bl _ (nth_error_In _ _ Ep)). split; [lra|]. intros; lra.
Qed.
Lemma clear_bary : exists sds, mapToRibbons (KBary Wachspress) eps d uv = Some sds /\ length sds = n /\ clear eps sds /\ off_pairs eps n sds.
Proof.
  pose proof D as (Hd & _). destruct (map_total c vs d Hd (KBary Wachspress) eps uv (fun sd => eps < px sd < 1 - eps /\ eps < py sd)) as (sds & E & L & U).
  { intros i Hi. destruct (clear_map i Hi) as (sd & E & U1 & U2 & _). exists sd. split; [exact E|]. split; assumption. }
  exists sds. split; [exact E|]. split; [exact L|]. split; [exact U|]. intros i a b Ea Eb. destruct (U i a Ea). destruct (U _ b Eb). lra.
Qed.
Lemma clear_constrained : exists sds, mapToRibbons (KConstrained Wachspress) eps d uv = Some sds /\ length sds = n /\ clear eps sds.
Proof.
  pose proof D as (Hd & H3 & _). fold n in H3. destruct (map_total c vs d Hd (KConstrained Wachspress) eps uv (fun sd => eps < px sd < 1 - eps /\ eps < py sd)) as (sds & E & L & U).
  { intros i Hi. fold n in Hi. cbn [mapToRibbon]. unfold constrainedMap. rewrite dn. destruct (clear_map i Hi) as (r & -> & R1 & R2 & R3).
    destruct (clear_map (prv n i) ltac:(apply prv_lt; lia)) as (rp & -> & P1 & P2 & _). destruct (clear_map (nxt n i) ltac:(apply nxt_lt; lia)) as (rn & -> & N1 & N2 & _). cbn [bind]. unfold constrainedRibbon.
    destruct (ParamFar2.singular_four eps (py r) (1 - px r) (1 - py r) (px r) ltac:(lra)) as (b0 & b1 & b2 & b3 & -> & Q0 & Q1 & Q2 & Q3 & S & _). cbn [bind nth_error].
    eexists. split; [reflexivity|]. cbn [px py]. split; [exact R1|].
    assert (G : forall x b, eps < x -> 0 <= b -> eps * b <= x * b) by (intros; apply Rmult_le_compat_r; lra).
    assert (Z : 0 < b0 \/ 0 < b1 \/ 0 < b2 \/ 0 < b3) by (destruct (Rlt_dec 0 b0); [tauto|destruct (Rlt_dec 0 b1); [tauto|destruct (Rlt_dec 0 b2); [tauto|right; right; right; lra]]]).
    assert (G' : forall x b, eps < x -> 0 < b -> eps * b < x * b) by (intros; apply Rmult_lt_compat_r; lra).
    pose proof (G (py r) b0 R2 Q0). pose proof (G (py r) b2 R2 Q2). pose proof (G (px rn) b1 (proj1 N1) Q1). pose proof (G (1 - px rp) b3 ltac:(lra) Q3).
    assert (T : eps = eps * b0 + eps * b1 + eps * b2 + eps * b3) by (replace eps with (eps * (b0 + b1 + b2 + b3)) at 1 by (rewrite S; ring); ring).
    destruct Z as [Z|[Z|[Z|Z]]].
    - pose proof (G' (py r) b0 R2 Z). lra.
    - pose proof (G' (px rn) b1 (proj1 N1) Z). lra.
    - pose proof (G' (py r) b2 R2 Z). lra.
    - pose proof (G' (1 - px rp) b3 ltac:(lra) Z). lra. }
  exists sds. split; [exact E|]. split; [exact L|]. exact U.
Qed.
Lemma clear_square : forall i sd, baryMap Wachspress eps d i uv = Some sd -> off_square eps sd.
Proof.
  intros i sd E. destruct (le_lt_dec n i) as [G|G].
  - exfalso. unfold baryMap in E. rewrite B in E. cbn [bind] in E. unfold baryRibbon in E. rewrite (proj2 (nth_error_None l i)) in E by (rewrite Ll; exact G). discriminate.
  - destruct (clear_map i G) as (r & Er & R1 & R2 & R3). assert (sd = r) by congruence. subst. unfold off_square. lra.
Qed.
End Inside.

(** If all Wachspress coordinates at a point are larger than the tolerance, the
    patches in these coordinates are continuous there. *)
Theorem C86_inside : forall c vs d eps uv l sf, convex_domain c vs d -> 0 < eps <= 1 / 3 -> in_polygon vs uv -> barycentric Wachspress eps d uv = Some l ->
  (forall x, In x l -> eps < x) -> sf_n sf = length vs -> ready sf -> steady sf ->
  continuous_at (compositeRibbonEval eps d sf) uv /\ (forall k cp, continuous_at (mEval k eps d sf cp) uv).
Proof.
  intros c vs d eps uv l sf D He Hp Bc Bl Hn Hr St. destruct (PropsTotal.C84_barycentric c vs d eps uv D ltac:(lra) Hp) as (l' & E' & Ll & _ & Sl). assert (l' = l) by congruence. subst l'.
  destruct (C86_patches eps d sf uv ltac:(lra) St) as (_ & _ & _ & CR & CM).
  destruct (clear_bary c vs d eps uv l D He Bc Ll Sl Bl) as (sds & Es & Ls & Ks & _). destruct (clear_constrained c vs d eps uv l D He Bc Ll Sl Bl) as (sds' & Es' & Ls' & Ks').
  destruct (clear_off eps sf sds He Ks) as (O1 & O2 & O3). destruct (clear_off eps sf sds' He Ks') as (O1' & O2' & _).
  pose proof (clear_params c vs d eps uv l D He Bc Bl) as OP. assert (OC : off_params (KConstrained Wachspress) eps d uv) by (split; [exact OP|apply (clear_square c vs d eps uv l D He Bc Ll Sl Bl)]).
  split.
  - destruct (proj1 (PropsTotal.C84_composite_ribbon c vs d eps sf D Hn Hr ltac:(lra)) uv Hp) as (y & Y). apply (CR sds y Es OP O1 O3 Y).
  - intros k cp. pose proof D as (Hd & H3 & C & I).
    destruct k; cbn [mparam] in CM.
    + assert (T : tame sds) by (intros i sd E; destruct (Ks i sd E); split; lra).
      destruct (mpatch_ex eps sf sds ltac:(lra) ltac:(lia) Hr ltac:(congruence) T MKMidpoint cp) as [y Y]. apply (CM MKMidpoint cp sds y Es OP O1 O2). cbn [mEval]. unfold midpointEval. rewrite Es. exact Y.
    + assert (T : tame sds') by (intros i sd E; destruct (Ks' i sd E); split; lra).
      destruct (mpatch_ex eps sf sds' ltac:(lra) ltac:(lia) Hr ltac:(congruence) T MKCoons cp) as [y Y]. apply (CM MKCoons cp sds' y Es' OC O1' O2'). cbn [mEval]. unfold midpointCoonsEval. rewrite Es'. exact Y.
Qed.
Print Assumptions C86_inside.

(** Generalized Bezier patches likewise; S-patches on the whole closed domain. *)
Theorem C86_bezier : forall c vs d eps uv, convex_domain c vs d -> 0 < eps <= 1 / 3 -> in_polygon vs uv ->
  (forall g deg l, shaped (length vs) deg g -> (1 <= deg)%nat -> barycentric Wachspress eps d uv = Some l -> (forall x, In x l -> eps < x) -> continuous_at (gbSurfaceEval eps d g) uv) /\
  (forall deg ws, (deg <= 20)%nat -> PropsSPatch.full (length vs) deg (PropsSPatch.written ws) -> continuous_at (spEval eps d (PropsSPatch.written ws)) uv).
Proof.
  intros c vs d eps uv D He Hp. destruct (PropsTotal.C84_barycentric c vs d eps uv D ltac:(lra) Hp) as (l & E & Ll & _ & Sl). split.
  - intros g deg l' Hs Hg Bc Bl. assert (l' = l) by congruence. subst l'. destruct (clear_bary c vs d eps uv l D He Bc Ll Sl Bl) as (sds & Es & Ls & Ks & Os).
    destruct (proj1 (PropsTotal.C84_generalized_bezier c vs d eps g deg D Hs Hg ltac:(lra)) uv Hp) as (y & Y). unfold gbSurfaceEval in Y. rewrite Es in Y. cbn [bind] in Y.
    assert (Gn : gb_n g = length vs) by (apply Hs).
    apply (compose (KBary Wachspress) eps d uv sds (gbEval eps g) y ltac:(lra) (clear_params c vs d eps uv l D He Bc Bl) Es Y). intros s S. apply ocv_gbEval; [exact S|rewrite Gn; exact Os|congruence].
  - intros deg ws Hg Hf. destruct (proj1 (PropsTotal.C84_spatch c vs d eps deg ws D Hg Hf ltac:(lra)) uv Hp) as (y & Y). exists y. split; [exact Y|]. intros q Q. revert Y. unfold spEval.
    apply (ocv_bind (cvL Un_cv) cv3 _ _ (fun _ => spSum (PropsSPatch.written ws))).
    + apply ocv_barycentric; [exact Q|]. intros v _. cbn [baryRadius]. lra.
    + intros v m _ V. apply ocv_spSum. exact V.
Qed.
Print Assumptions C86_bezier.

(** ** Where a test switches *)
Lemma blend_one : forall eps sds i, 0 < eps -> (i < length sds)%nat -> near eps sds i -> (forall j, (j < length sds)%nat -> j <> i -> away eps sds j) ->
  blendSideSingular eps sds = Some (tabulate (length sds) (fun j => if (j =? i)%nat then 1 else 0)).
Proof.
  intros eps sds i He Hi N A. pose proof (BlendProps.near_dpar _ _ _ N) as Di.
  assert (F : forall j, (j < length sds)%nat -> j <> i -> eps <= BlendProofs.dpar sds j) by (intros j Hj Hne; apply BlendProps.away_dpar, A; assumption).
  pose proof (BlendProofs.close_one eps sds i Hi Di F) as C. pose proof (BlendProofs.closeCount_rsum eps sds) as R. pose proof (BlendProofs.sideSingular_value eps sds He ltac:(lia)) as V. cbn zeta in V. rewrite V. apply (f_equal Some).
  rewrite C in *. cbn [Nat.ltb Nat.leb]. apply tabulate_ext. intros j Hj. rewrite <- R. unfold BlendProofs.isclose. destruct (Nat.eqb_spec j i) as [->|Hne].
  - destruct (Rlt_dec _ _); [simpl; field|lra].
  - specialize (F j Hj Hne). destruct (Rlt_dec _ _); [lra|simpl; field].
Qed.

(** At the line where the distance of one side is the tolerance, and those of
    the others are larger, the side based patch jumps: from the ribbon of that
    side to the blend of all ribbons. *)
Theorem C86_jump : forall eps sf sds s i sd r, 0 < eps -> steady sf -> length sds = sf_n sf ->
  nth_error sds i = Some sd -> py sd = eps -> (forall j x, nth_error sds j = Some x -> j <> i -> eps < py x) ->
  (forall j x, nth_error sds j = Some x -> sideInterpolant sf j (px x) (py x) = Some (r j)) ->
  cvL cv2 s sds -> eventually (fun k => near eps (s k) i) ->
  (exists v, eventually (fun k => sideBased eps sf (s k) = Some (v k)) /\ cv3 v (r i)) /\
  sideBased eps sf sds = Some (r i +v vsum (sf_n sf) (fun j => (r j -v r i) *v ((1 / py (nth j sds pzero) ^ 2) / rsum (sf_n sf) (fun l => 1 / py (nth l sds pzero) ^ 2)))).
Proof.
  intros eps sf sds s i sd r He St L Ei Di F Hr H N. set (n := sf_n sf) in *. assert (Hi : (i < n)%nat) by (rewrite <- L; apply nth_error_Some; congruence).
  assert (Nt : forall j, (j < n)%nat -> nth_error sds j = Some (nth j sds pzero)) by (intros j Hj; apply nth_error_nth'; lia).
  split.
  - assert (G : ocv cv3 (fun k => osum n (fun j => x <- nth_error (s k) j ;; b <- nth_error (tabulate n (fun j => if (j =? i)%nat then 1 else 0)) j ;; p <- sideInterpolant sf j (px x) (py x) ;; Some (p *v b)))
                  (osum n (fun j => x <- nth_error sds j ;; b <- nth_error (tabulate n (fun j => if (j =? i)%nat then 1 else 0)) j ;; p <- sideInterpolant sf j (px x) (py x) ;; Some (p *v b)))).
    { apply ocv_osum. intros j Hj. apply (ocv_bind cv2); [apply ocv_nth; exact H|]. intros x x0 Ex [X1 X2]. rewrite tabulate_nth_error by exact Hj. cbn [bind].
      apply (ocv_bind cv3); [apply ocv_side; assumption|]. intros z z0 _ Z. osome. apply cv3_scale; [exact Z|apply cv_const]. }
    assert (E : eventually (fun k => sideBased eps sf (s k) = osum n (fun j => x <- nth_error (s k) j ;; b <- nth_error (tabulate n (fun j => if (j =? i)%nat then 1 else 0)) j ;; p <- sideInterpolant sf j (px x) (py x) ;; Some (p *v b)))).
    { assert (A : forall m, (m <= n)%nat -> eventually (fun k => forall j, (j < m)%nat -> j <> i -> away eps (s k) j)).
      { induction m as [|m IH]; intros Hm; [apply ev_all; intros; lia|]. destruct (Nat.eq_dec m i) as [->|Hne].
        - refine (ev_mono _ _ (fun k Q j Hj Hne => _) (IH ltac:(lia))). apply Q; [lia|exact Hne].
        - destruct H as [_ H]. destruct (H m _ (Nt m ltac:(lia))) as (v & P & _ & Q). pose proof (ev_gt _ _ eps Q (F m _ (Nt m ltac:(lia)) Hne)) as Z.
          refine (ev_mono _ _ (fun k W j Hj Hji => _) (ev_and _ _ (IH ltac:(lia)) Z)). destruct W as [W1 W2]. destruct (Nat.eq_dec j m) as [->|]; [exists (v k); split; [apply P|lra]|apply W1; [lia|exact Hji]]. }
      refine (ev_mono _ _ (fun k Q => _) (ev_and _ _ (A n (Nat.le_refl n)) N)). destruct Q as [Q Nk]. unfold sideBased. pose proof (proj1 H k) as Lk. rewrite (blend_one eps (s k) i He ltac:(lia) Nk) by (intros j Hj; apply Q; lia).
      cbn [bind]. rewrite Lk, L. reflexivity. }
    apply (ocv_ev _ _ _ _ E G). rewrite (osum_total n _ (fun j => r j *v (if (j =? i)%nat then 1 else 0))).
    + apply (f_equal Some). rewrite (vsum_single n _ i Hi); [rewrite Nat.eqb_refl; v3ring|]. intros j Hj Hne. destruct (Nat.eqb_spec j i); [contradiction|v3ring].
    + intros j Hj. rewrite (Nt j Hj). cbn [bind]. rewrite tabulate_nth_error by exact Hj. cbn [bind]. rewrite (Hr j _ (Nt j Hj)). reflexivity.
  - pose proof (BlendProofs.sideSingular_value eps sds He ltac:(lia)) as V. cbn zeta in V. assert (A : forall j, (j < length sds)%nat -> eps <= BlendProofs.dpar sds j).
    { intros j Hj. unfold BlendProofs.dpar. destruct (Nat.eq_dec j i) as [->|Hne]; [rewrite (nth_error_nth _ _ pzero Ei); lra|left; apply (F j _ (Nt j ltac:(lia)) Hne)]. }
    rewrite (BlendProofs.close_none eps sds A) in V. cbn [Nat.ltb Nat.leb] in V. unfold sideBased. rewrite V. cbn [bind]. unfold BlendProofs.dpar. rewrite L. fold n.
    set (T := rsum n (fun l => 1 / py (nth l sds pzero) ^ 2)). assert (P : 0 < T).
    { apply rsum_pos; [lia|]. intros k Hk. specialize (A k ltac:(lia)). unfold BlendProofs.dpar in A. unfold Rdiv. rewrite Rmult_1_l. apply Rinv_0_lt_compat. apply pow_lt. lra. }
    rewrite (osum_total n _ (fun j => r j *v ((1 / py (nth j sds pzero) ^ 2) / T))).
    + apply (f_equal Some). set (w := fun j => (1 / py (nth j sds pzero) ^ 2) / T). assert (W : rsum n w = 1).
      { unfold w. rewrite (rsum_ext n _ (fun j => / T * (1 / py (nth j sds pzero) ^ 2))) by (intros; unfold Rdiv; ring). rewrite rsum_scal. fold T. field. lra. }
      change (vsum n (fun j => r j *v w j) = r i +v vsum n (fun j => (r j -v r i) *v w j)).
      assert (G : forall m, vsum m (fun j => r j *v w j) = r i *v rsum m w +v vsum m (fun j => (r j -v r i) *v w j)).
      { induction m as [|m IH]; [simpl; v3ring|]. cbn [vsum rsum]. rewrite IH. v3ring. }
      rewrite G, W. v3ring.
    + intros j Hj. rewrite (Nt j Hj). cbn [bind]. rewrite tabulate_nth_error by exact Hj. cbn [bind]. rewrite (Hr j _ (Nt j Hj)). reflexivity.
Qed.
Print Assumptions C86_jump.

Lemma cv3_unique : forall u l m, cv3 u l -> cv3 u m -> l = m.
Proof. intros u l m (A & B & C) (A' & B' & C'). apply V3_ext; [apply (UL_sequence _ _ _ A A')|apply (UL_sequence _ _ _ B B')|apply (UL_sequence _ _ _ C C')]. Qed.
Lemma cv_harmonic : Un_cv (fun k => / INR (k + 1)) 0.
Proof.
  intros e He. destruct (archimed_cor1 e He) as (N & HN & P). exists N. intros k Hk. unfold R_dist. rewrite Rminus_0_r, Rabs_pos_eq.
  - apply Rle_lt_trans with (/ INR N); [|exact HN]. apply Rinv_le_contravar; [apply lt_0_INR; exact P|]. apply le_INR. lia.
  - left. apply Rinv_0_lt_compat. apply lt_0_INR. lia.
Qed.
Lemma cv3_ev : forall u v l, eventually (fun k => u k = v k) -> cv3 u l -> cv3 v l.
Proof.
  intros u v l E (A & B & C). split; [|split]; [refine (cv_ev _ _ _ (ev_mono _ _ (fun k (Q : u k = v k) => f_equal vx Q) E) A)|refine (cv_ev _ _ _ (ev_mono _ _ (fun k (Q : u k = v k) => f_equal vy Q) E) B)|refine (cv_ev _ _ _ (ev_mono _ _ (fun k (Q : u k = v k) => f_equal vz Q) E) C)].
Qed.

(** In a convex domain the patch is therefore not continuous at such a point,
    unless the ribbons happen to balance. *)
Theorem C86_discontinuous : forall c vs d eps sf p sds i sd r, convex_domain c vs d -> 0 < eps -> steady sf -> sf_n sf = length vs ->
  mapToRibbons KParallel eps d p = Some sds -> off_params KParallel eps d p ->
  nth_error sds i = Some sd -> py sd = eps -> (forall j x, nth_error sds j = Some x -> j <> i -> eps < py x) ->
  (forall j x, nth_error sds j = Some x -> sideInterpolant sf j (px x) (py x) = Some (r j)) ->
  vsum (length vs) (fun j => (r j -v r i) *v ((1 / py (nth j sds pzero) ^ 2) / rsum (length vs) (fun l => 1 / py (nth l sds pzero) ^ 2))) <> vzero ->
  ~ continuous_at (sideBasedEval eps d sf) p.
Proof.
  intros c vs d eps sf p sds i sd r D He St Hn Es O Ei Di F Hr J (y & Y & K). pose proof D as (Hd & H3 & C & I).
  destruct (SurfaceBase.parallel_sds c vs d Hd H3 C I eps p sds Es) as (Ls & ms & Em & Vp). assert (Hi : (i < length vs)%nat) by (rewrite <- Ls; apply nth_error_Some; congruence).
  pose proof (ParamMaps.len2_pos vs H3 C i Hi) as Lp. set (sv := DomainProofs.sidevec vs i) in *. set (q := fun k => p +p mkV2 (py sv) (- px sv) *p / INR (k + 1)).
  assert (Q : cv2 q p).
  { replace p with (p +p mkV2 (py sv) (- px sv) *p 0) by (apply V2_ext; simpl; ring). apply cv2_add; [apply cv2_const|]. apply cv2_scale; [apply cv2_const|apply cv_harmonic]. }
  destruct (C86_coordinates KParallel eps d q p sds He Q O Es) as (s & Ev & S).
  assert (Nr : eventually (fun k => near eps (s k) i)).
  { refine (ev_mono _ _ (fun k W => _) Ev). destruct (SurfaceBase.parallel_sds c vs d Hd H3 C I eps (q k) (s k) W) as (Lk & ms' & Em' & Vk). assert (ms' = ms) by congruence. subst ms'.
    assert (Ek : exists x, nth_error (s k) i = Some x) by (destruct (nth_error (s k) i) as [x|] eqn:Z; [eauto|apply nth_error_None in Z; lia]). destruct Ek as (x & Ex).
    destruct (Vk i x Ex) as (b & m & _ & Hm & Pm & ->). destruct (Vp i sd Ei) as (b' & m' & _ & Hm' & _ & ->). assert (m' = m) by congruence. subst m'. cbn [py] in Di.
    eexists. split; [exact Ex|]. cbn [py]. rewrite <- Di. apply Rmult_lt_compat_r; [exact Pm|]. unfold ParamTame.hg, Rdiv. apply Rmult_lt_compat_r; [apply Rinv_0_lt_compat; exact Lp|].
    assert (T : 0 < / INR (k + 1)) by (apply Rinv_0_lt_compat; apply lt_0_INR; lia).
    assert (E : sarea (vtx vs (prv (length vs) i)) (vtx vs i) (q k) = sarea (vtx vs (prv (length vs) i)) (vtx vs i) p - ParamMaps.len2 vs i * / INR (k + 1)).
    { unfold q, sv, ParamMaps.len2, pnorm2, pdot, DomainProofs.sidevec, sarea, pcross. simpl. ring. }
    rewrite E. assert (0 < ParamMaps.len2 vs i * / INR (k + 1)) by (apply Rmult_lt_0_compat; assumption). lra. }
  destruct (C86_jump eps sf sds s i sd r He St ltac:(congruence) Ei Di F Hr S Nr) as ((v & Evv & V) & E0).
  destruct (K q Q) as (v' & Ev' & V'). unfold sideBasedEval in Y. rewrite Es in Y. cbn [bind] in Y.
  assert (Eq : eventually (fun k => v k = v' k)).
  { refine (ev_mono _ _ (fun k W => _) (ev_and _ _ Ev (ev_and _ _ Evv Ev'))). destruct W as (W1 & W2 & W3). unfold sideBasedEval in W3. rewrite W1 in W3. cbn [bind] in W3. congruence. }
  pose proof (cv3_unique _ _ _ (cv3_ev _ _ _ Eq V) V') as U. apply J. rewrite E0, Hn in Y. injection Y as Y. rewrite <- U in Y.
  set (z := vsum _ _) in *. destruct z as [zx zy zz], (r i) as [a b e]. unfold vadd in Y. cbn [vx vy vz] in Y. injection Y as Y1 Y2 Y3. unfold vzero. f_equal; lra.
Qed.
Print Assumptions C86_discontinuous.

(** *** Regular domains *)
(** The height of [uv] over side [i], in units of the side length. *)
Definition height (vs : list V2) (m i : nat) (uv : V2) : R := over vs i (vtx vs (prv m i)) (vtx vs i) uv.
Lemma regular_off : forall m vs d eps uv, (3 <= m)%nat -> regularVertices m = Some vs -> domainFrames pzero vs = Some d -> 0 < eps -> in_polygon vs uv ->
  (forall i, (i < m)%nat -> eps < height vs m (prv m i) uv + height vs m (nxt m i) uv) -> forall i, off_bilinear eps d i uv.
Proof.
  intros m vs d eps uv H3 Hv Hd He Hp Hh i. destruct (PropsTotal.regular_convex m vs d H3 Hv Hd) as (L & _ & Hn & C & I).
  intros v0 v1 v2 v3 p1 p2 p E0 E1 E2 E3 T1 T2 T3. rewrite (ParamMaps.d_n_eq pzero vs d Hd) in *. assert (Hi : (i < length vs)%nat) by (rewrite <- (ParamMaps.d_verts_eq pzero vs d Hd); apply nth_error_Some; congruence).
  rewrite ParamMaps.prv2_eq in E0 by assumption. rewrite (ParamMaps.verts_nth pzero vs d Hd) in E0, E1, E2, E3 by (repeat first [apply prv_lt|apply nxt_lt]; lia).
  injection E0 as <-. injection E1 as <-. injection E2 as <-. injection E3 as <-. rewrite (ParamMaps.local_closed pzero vs d Hd Hn C I) in T1, T2, T3 by exact Hi.
  destruct (local_facts vs Hn C uv i Hi) as (EA & EB & _). unfold lpt in EA, EB.
  assert (P1 : p1 = ParamMaps.loc1 vs i) by (injection T1 as <-; reflexivity). assert (P2 : p2 = ParamMaps.loc2 vs i) by (injection T2 as <-; reflexivity). injection T3 as T3. rewrite T3 in EA, EB. subst p1 p2. clear T1 T2 T3.
  rewrite (ParamMaps.loc1_y vs i Hi) in *. rewrite (ParamMaps.loc2_y vs i Hi) in *. destruct (ParamRegular.regular_heights m vs i H3 Hv ltac:(lia)) as [HP HN]. rewrite HP, HN in *.
  set (h := sin (2 * PI / INR m)) in *. set (A := over vs i (vtx vs (prv (length vs) (prv (length vs) i))) (vtx vs (prv (length vs) i)) uv) in *. set (B := over vs i (vtx vs i) (vtx vs (nxt (length vs) i)) uv) in *.
  assert (LA : A = height vs m (prv m i) uv).
  { unfold A, height, over. change (pdot (vtx vs i -p vtx vs (prv (length vs) i)) (vtx vs i -p vtx vs (prv (length vs) i))) with (ParamMaps.len2 vs i).
    rewrite (ParamFar.len2_same m vs H3 Hv i (prv (length vs) i)) by (rewrite ?L; try apply prv_lt; lia). unfold ParamMaps.len2, DomainProofs.sidevec, pnorm2. rewrite L. reflexivity. }
  assert (LB : B = height vs m (nxt m i) uv).
  { unfold B, height, over. change (pdot (vtx vs i -p vtx vs (prv (length vs) i)) (vtx vs i -p vtx vs (prv (length vs) i))) with (ParamMaps.len2 vs i).
    rewrite (ParamFar.len2_same m vs H3 Hv i (nxt (length vs) i)) by (rewrite ?L; try apply nxt_lt; lia). unfold ParamMaps.len2, DomainProofs.sidevec, pnorm2. rewrite L, prv_nxt by lia. reflexivity. }
  specialize (Hh i ltac:(lia)). rewrite <- LA, <- LB in Hh.
  split.
  - intros _. replace (px p * h - (px p + 1) * h + (px (ParamMaps.loc1 vs i) - px (ParamMaps.loc2 vs i)) * py p) with (- (A + B)) by (rewrite <- EA, <- EB; ring). rewrite Rabs_Ropp, Rabs_pos_eq by lra. lra.
  - intros X. exfalso. rewrite Rminus_diag_eq, Rabs_R0 in X by reflexivity. lra.
Qed.

(** On regular domains it is enough that the heights over the two neighbours of
    each side add up to more than the tolerance (as they do everywhere except at
    the vertices of a triangle if the tolerance is small), and that the
    coordinates are away from the lines where the blends and the twists switch. *)
Theorem C86_regular : forall m vs d eps uv sf, (3 <= m)%nat -> regularVertices m = Some vs -> domainFrames pzero vs = Some d -> 0 < eps <= 1 / 3 -> in_polygon vs uv ->
  (forall i, (i < m)%nat -> eps < height vs m (prv m i) uv + height vs m (nxt m i) uv) -> sf_n sf = m -> ready sf -> steady sf ->
  (forall sds, mapToRibbons KParallel eps d uv = Some sds -> off_sides eps sds -> continuous_at (sideBasedEval eps d sf) uv) /\
  (forall sds, mapToRibbons KBilinear eps d uv = Some sds -> clear eps sds -> continuous_at (cornerBasedEval eps d sf) uv) /\
  (forall sds, mapToRibbons KInterconnected eps d uv = Some sds -> clear eps sds -> continuous_at (generalizedCoonsEval eps d sf) uv).
Proof.
  intros m vs d eps uv sf H3 Hv Hd He Hp Hh Hn Hr St. destruct (PropsTotal.C84_regular m vs d eps sf H3 Hv Hd Hn Hr ltac:(lra)) as ((T1 & _) & (T2 & _) & (T3 & _)).
  destruct (C86_patches eps d sf uv ltac:(lra) St) as (C1 & C2 & C3 & _). pose proof (regular_off m vs d eps uv H3 Hv Hd ltac:(lra) Hp Hh) as O. split; [|split].
  - intros sds E N. destruct (T1 uv Hp) as (y & Y). apply (C1 sds y E O N Y).
  - intros sds E N. destruct (T2 uv Hp) as (y & Y). destruct (clear_off eps sf sds He N) as (O1 & O2 & _). apply (C2 sds y E O O1 O2 Y).
  - intros sds E N. destruct (T3 uv Hp) as (y & Y). destruct (clear_off eps sf sds He N) as (O1 & O2 & _). apply (C3 sds y E O O1 O2 Y).
Qed.
Print Assumptions C86_regular.

(** ** Examples: the square with straight sides over a skew quadrilateral *)
Lemma lineRibs_steady : forall ps g cs, steady (mkSurf (length ps) g (lineRibs ps) cs).
Proof.
  intros ps g cs. unfold steady. cbn [sf_ribbons]. apply Forall_forall. intros r Hr. apply In_nth_error in Hr. destruct Hr as (i & Hi). unfold lineRibs in Hi.
  assert (Li : (i < length ps)%nat) by (rewrite <- (tabulate_length sribbon (length ps) (lineRib ps)); apply nth_error_Some; congruence). rewrite tabulate_nth_error in Hi by exact Li. injection Hi as <-.
  assert (A : forall p q u s, Un_cv u s -> cv3 (fun k => affine3 p (u k) q) (affine3 p s q)).
  { intros p q u s U. unfold affine3. apply cv3_add; apply cv3_scale; try apply cv3_const; [|exact U]. apply cv_1m. exact U. }
  split; [intros u s _ U; apply (A _ _ u s U)|]. intros u s _ U. unfold lineRib. cbn [sr_cross]. apply (ocv_some cv3 (fun k => affine3 _ (u k) _)). apply A. exact U.
Qed.

Definition sq := PropsElastic.square4.
Lemma square_heights : forall x i, (i < 4)%nat -> ParamTame.hg sq i (mkV2 x 0) = nth i [(1 - x) / 2; 1 / 2; (1 + x) / 2; 1 / 2] 0.
Proof.
  intros x i Hi. unfold ParamTame.hg, ParamMaps.len2, DomainProofs.sidevec, pnorm2, sarea, pcross, pdot, vtx, sq, PropsElastic.square4. destruct i as [|[|[|[|i]]]]; [| | | |lia];
  cbn [length prv nxt Nat.add Nat.sub Nat.modulo Nat.divmod nth fst snd px py padd psub pscale]; simpl; field.
Qed.
Lemma square_domain : exists d, domainFrames pzero sq = Some d /\ convex_domain pzero sq d.
Proof.
  destruct (domainFrames pzero sq) as [d|] eqn:Hd; [|rewrite DomainProofs.frames_closed in Hd; discriminate]. exists d. split; [reflexivity|].
  apply (PropsTotal.regular_convex 4 sq d ltac:(lia) eq_refl Hd).
Qed.
Lemma square_multipliers : forall d, convex_domain pzero sq d -> parallelMultipliers d = Some [1; 1; 1; 1].
Proof.
  intros d (Hd & H3 & C & I). unfold parallelMultipliers. rewrite (ParamMaps.d_n_eq pzero sq d Hd).
  assert (M : forall i, (i < 4)%nat -> (m <- maxDist d i ;; fdiv 1 m) = Some 1).
  { intros i Hi. destruct (ParamMaps.maxDist_some pzero sq d Hd H3 C I i Hi) as (m & -> & P & U & (j & Hj & Em)). cbn [bind].
    assert (M1 : m = 1).
    { change (j < 4)%nat in Hj. pose proof (U 0%nat ltac:(simpl; lia)) as U0. pose proof (U 1%nat ltac:(simpl; lia)) as U1. pose proof (U 2%nat ltac:(simpl; lia)) as U2. pose proof (U 3%nat ltac:(simpl; lia)) as U3.
      revert U0 U1 U2 U3 Em. unfold ParamMaps.len2, DomainProofs.sidevec, pnorm2, sarea, pcross, pdot, vtx, sq, PropsElastic.square4.
      destruct i as [|[|[|[|i]]]]; [| | | |lia]; destruct j as [|[|[|[|j]]]]; try lia;
      cbn [length prv nxt Nat.add Nat.sub Nat.modulo Nat.divmod nth fst snd px py padd psub pscale]; simpl; intros; lra. }
    rewrite M1, fdiv_some by lra. apply (f_equal Some). lra. }
  change (length sq) with 4%nat. cbn [seq mapM]. rewrite (M 0%nat), (M 1%nat), (M 2%nat), (M 3%nat) by lia. reflexivity.
Qed.
Definition row (x : R) : list V2 := [mkV2 (1 / 2) ((1 - x) / 2); mkV2 ((1 - x) / 2) (1 / 2); mkV2 (1 / 2) ((1 + x) / 2); mkV2 ((1 + x) / 2) (1 / 2)].
Lemma square_in : forall x, -1 <= x <= 1 -> in_polygon sq (mkV2 x 0).
Proof.
  intros x Hx k Hk. change (k < 4)%nat in Hk. unfold sarea, pcross, vtx, sq, PropsElastic.square4. destruct k as [|[|[|[|k]]]]; [| | | |lia];
  cbn [length prv nxt Nat.add Nat.sub Nat.modulo Nat.divmod nth fst snd px py padd psub pscale]; simpl; lra.
Qed.
Lemma square_row : forall d eps x, convex_domain pzero sq d -> 0 < eps <= 1 -> -1 <= x <= 1 -> mapToRibbons KParallel eps d (mkV2 x 0) = Some (row x).
Proof.
  intros d eps x D He Hx. pose proof D as (Hd & H3 & C & I). unfold mapToRibbons. rewrite (ParamMaps.d_n_eq pzero sq d Hd). change (length sq) with 4%nat. cbn [mapToRibbon]. rewrite (square_multipliers d D). cbn [bind].
  assert (Sn : sin (2 * PI / INR 4) = 1) by (replace (2 * PI / INR 4) with (PI / 2) by (simpl; field); apply sin_PI2).
  assert (M : forall i, (i < 4)%nat -> parallelMap eps d [1; 1; 1; 1] i (mkV2 x 0) = nth_error (row x) i).
  { intros i Hi. pose proof (ParamFar.bilinear_value 4 sq d ltac:(lia) eq_refl Hd eps i (mkV2 x 0) Hi ltac:(lra) (square_in x Hx)) as B. cbv zeta in B. rewrite Sn in B.
    rewrite !square_heights in B by (try apply prv_lt; try apply nxt_lt; lia).
    erewrite (ParamMaps.parallel_any pzero sq d Hd H3 C I eps [1; 1; 1; 1] i 1 (mkV2 x 0) _ Hi); [|destruct i as [|[|[|[|i]]]]; [reflexivity..|lia]|exact B]. cbn [px].
    change (sarea (vtx sq (prv (length sq) i)) (vtx sq i) (mkV2 x 0) / ParamMaps.len2 sq i) with (ParamTame.hg sq i (mkV2 x 0)). rewrite square_heights by exact Hi.
    clear B. destruct i as [|[|[|[|i]]]]; [| | | |lia]; cbn [length prv nxt Nat.add Nat.sub Nat.modulo Nat.divmod nth fst snd row nth_error]; (destruct (Rlt_dec _ _) as [Z|_]; [exfalso; lra|]); apply (f_equal Some); apply V2_ext; cbn [px py]; field; lra. }
  cbn [seq mapM]. rewrite !M by lia. reflexivity.
Qed.

(** For every tolerance up to 1/4: continuous at twice the tolerance from a
    side, not continuous at the tolerance. *)
Example C86_example : forall eps, 0 < eps <= 1 / 4 -> exists d cs, domainFrames pzero sq = Some d /\ let sf := mkSurf 4 true (lineRibs PropsSurface.corners4) cs in
  continuous_at (sideBasedEval eps d sf) (mkV2 (1 - 4 * eps) 0) /\ ~ continuous_at (sideBasedEval eps d sf) (mkV2 (1 - 2 * eps) 0).
Proof.
  intros eps He. destruct square_domain as (d & Hd & D). destruct (BlendProps.lineRibs_ok PropsSurface.corners4 ltac:(simpl; lia)) as (Cl & cs & U). exists d, cs. split; [exact Hd|]. intros sf.
  assert (St : steady sf) by apply (lineRibs_steady PropsSurface.corners4 true cs). assert (Rd : ready sf) by (split; [exact Cl|exact U]).
  assert (H4 : regularVertices 4 = Some sq) by reflexivity.
  assert (Hh : forall x, forall i, (i < 4)%nat -> eps < height sq 4 (prv 4 i) (mkV2 x 0) + height sq 4 (nxt 4 i) (mkV2 x 0)).
  { intros x i Hi. change (eps < ParamTame.hg sq (prv 4 i) (mkV2 x 0) + ParamTame.hg sq (nxt 4 i) (mkV2 x 0)). rewrite !square_heights by (try apply prv_lt; try apply nxt_lt; lia).
    destruct i as [|[|[|[|i]]]]; [| | | |lia]; cbn [prv nxt Nat.add Nat.sub Nat.modulo Nat.divmod nth fst snd]; lra. }
  split.
  - assert (Hx : -1 <= 1 - 4 * eps <= 1) by lra.
    apply (proj1 (C86_regular 4 sq d eps (mkV2 (1 - 4 * eps) 0) sf ltac:(lia) H4 Hd ltac:(lra) (square_in _ Hx) (Hh _) eq_refl Rd St) (row (1 - 4 * eps)) (square_row d eps _ D ltac:(lra) Hx)).
    intros i sd E. destruct i as [|[|[|[|i]]]]; cbn [row nth_error] in E; [injection E as <-; cbn [py]; intros Z; lra..|destruct i; discriminate].
  - set (g := fun x => x / (2 * x + 1)). set (r := fun j => nth j [mkV3 (1 / 2) (g eps) (g eps / 2); mkV3 (3 / 4) eps (eps / 4); mkV3 (1 / 2) (1 - g (1 - eps)) (1 / 2 - g (1 - eps) / 2); mkV3 (1 / 4) eps (3 * eps / 4)] vzero).
    assert (Hx : -1 <= 1 - 2 * eps <= 1) by lra.
    assert (Er : row (1 - 2 * eps) = [mkV2 (1 / 2) eps; mkV2 eps (1 / 2); mkV2 (1 / 2) (1 - eps); mkV2 (1 - eps) (1 / 2)]).
    { unfold row. replace ((1 - (1 - 2 * eps)) / 2) with eps by field. replace ((1 + (1 - 2 * eps)) / 2) with (1 - eps) by field. reflexivity. }
    pose proof (square_row d eps _ D ltac:(lra) Hx) as Em. rewrite Er in Em.
    apply (C86_discontinuous pzero sq d eps sf _ _ 0%nat (mkV2 (1 / 2) eps) r D ltac:(lra) St eq_refl Em).
    + exact (regular_off 4 sq d eps (mkV2 (1 - 2 * eps) 0) ltac:(lia) H4 Hd ltac:(lra) (square_in _ Hx) (Hh _)).
    + reflexivity.
    + reflexivity.
    + intros j x E N. destruct j as [|[|[|[|j]]]]; cbn [nth_error] in E; [congruence|injection E as <-; cbn [py]; lra..|destruct j; discriminate].
    + intros j x E. assert (Cl1 : forall y, 0 <= y <= 1 -> clamp y 0 1 = y) by (intros y Hy; unfold clamp; destruct (Rlt_dec y 0); [lra|]; destruct (Rlt_dec 1 y); lra).
      assert (Mx : forall y, 0 <= y -> Rmax y 0 = y) by (intros y Hy; apply Rmax_left; exact Hy).
      destruct j as [|[|[|[|j]]]]; cbn [nth_error] in E; [injection E as <-..|destruct j; discriminate]; unfold sideInterpolant; cbn [px py sf_gamma sf_ribbons sf gamma]; rewrite Cl1 by lra;
      rewrite fdiv_some by lra; cbn [bind]; rewrite Mx by (unfold Rdiv; apply Rmult_le_pos; [lra|left; apply Rinv_0_lt_compat; lra]); unfold sf, lineRibs; cbn [sf_ribbons]; rewrite tabulate_nth_error by (simpl; lia); cbn [bind];
      unfold ribbonEval, lineRib; cbn [sr_curve sr_cross px py cpt lineCurve bind]; apply (f_equal Some); unfold r; cbn [nth]; unfold affine3, g;
      cbv [length PropsSurface.corners4 prv nxt Nat.add Nat.sub Nat.modulo Nat.divmod nth fst snd]; apply V3_ext; simpl; field; lra.
    + change (length sq) with 4%nat. set (T := rsum 4 _). assert (PT : 0 < T) by (unfold T; simpl; pose proof (Rinv_0_lt_compat (eps * (eps * 1)) ltac:(nra)); pose proof (Rinv_0_lt_compat ((1 - eps) * ((1 - eps) * 1)) ltac:(nra)); lra).
      assert (Wp : forall x, 0 < x -> 0 < 1 / x ^ 2 / T) by (intros x Hx'; apply Rdiv_lt_0_compat; [|exact PT]; apply Rdiv_lt_0_compat; [lra|apply pow_lt; exact Hx']).
      assert (G1 : g eps < eps) by (unfold g; apply (Rmult_lt_reg_r (2 * eps + 1)); [lra|]; unfold Rdiv; rewrite Rmult_assoc, Rinv_l, Rmult_1_r by lra; nra).
      assert (G2 : g (1 - eps) < 1 / 2) by (unfold g; apply (Rmult_lt_reg_r (2 * (1 - eps) + 1)); [lra|]; unfold Rdiv at 1; rewrite Rmult_assoc, Rinv_l, Rmult_1_r by lra; lra).
      intros Z. apply (f_equal vy) in Z. cbn [vsum nth] in Z. unfold r in Z. cbn [nth vadd vsub vscale vy vx vz vzero py] in Z.
      pose proof (Wp (1 / 2) ltac:(lra)) as W1. pose proof (Wp (1 - eps) ltac:(lra)) as W2. set (w1 := 1 / (1 / 2) ^ 2 / T) in *. set (w2 := 1 / (1 - eps) ^ 2 / T) in *.
      assert (0 < (eps - g eps) * w1) by (apply Rmult_lt_0_compat; lra). assert (0 < (1 - g (1 - eps) - g eps) * w2) by (apply Rmult_lt_0_compat; lra). lra.
Qed.
