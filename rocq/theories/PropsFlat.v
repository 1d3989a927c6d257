(** C83: plane boundaries give plane patches, except at inner corners. *)
Require Import Verif.Base Verif.UtilModel Verif.DomainModel Verif.ParamModel Verif.RibbonModel Verif.RibbonSpec Verif.SurfaceModel Verif.SurfaceObj Verif.SurfaceSpec Verif.SurfaceEval.
Require Import Verif.GeomSpec Verif.DomainProofs Verif.RibbonProofs Verif.PropsRibbon Verif.SPatchModel Verif.SuperDModel Verif.GBModel Verif.HybridModel.
Require Import Verif.MoveSpec Verif.MovePatches Verif.MovePatches2 Verif.FlatSpec Verif.FlatProofs Verif.FenceSpec Verif.FenceProofs Verif.PropsFence.
Require Verif.PropsMove Verif.PropsSPatch.
Open Scope R_scope.

(** ** Ribbons *)

(** Between two corners that turn to the same side the normals are those of the
    plane, at every parameter. *)
Theorem C83_normals : forall N h eps res prev c next m, unitv N -> flat_curve N h prev -> flat_curve N h c -> flat_curve N h next ->
  ribbonUpdate eps res prev c next = Some m ->
  (0 < corner_turn N prev c -> 0 < corner_turn N c next -> forall s n, rmfEval eps m s = Some n -> n = N) /\
  (corner_turn N prev c < 0 -> corner_turn N c next < 0 -> forall s n, rmfEval eps m s = Some n -> n = vopp N).
Proof.
  intros N h eps res prev c next m U Fp F Fn Em. split; intros A B s n En.
  - rewrite (proj2 (normal_same N h U eps res prev c next m Fp F Fn ltac:(nra) Em) s n En). destruct (Rlt_dec _ _); [v3ring|lra].
  - rewrite (proj2 (normal_same N h U eps res prev c next m Fp F Fn ltac:(nra) Em) s n En). destruct (Rlt_dec _ _); [lra|]. apply V3_ext; simpl; ring.
Qed.
Print Assumptions C83_normals.

(** All cross derivatives are directions of the plane, whatever the multiplier
    and the handler are. *)
Theorem C83_cross : forall N h kd eps res prev c next mult hd d s x, unitv N -> flat_curve N h prev -> flat_curve N h c -> flat_curve N h next ->
  0 < corner_turn N prev c * corner_turn N c next -> ribDerive kd eps res prev c next mult hd None = Some d -> ribCross kd eps c None d s = Some x -> along N x.
Proof. intros N h kd eps res prev c next mult hd d s x U. apply (cross_flat N h U). Qed.
Print Assumptions C83_cross.
Theorem C83_nsided : forall N h eps res prev c next m sd p, unitv N -> flat_curve N h prev -> flat_curve N h c -> flat_curve N h next ->
  0 < corner_turn N prev c * corner_turn N c next -> ribbonUpdate eps res prev c next = Some m -> nsidedEval (rmfEval eps m) c sd = Some p -> in_plane N h p.
Proof.
  intros N h eps res prev c next m sd p U Fp F Fn T Em E. unfold nsidedEval in E. destruct (crossNSided (rmfEval eps m) c (px sd)) as [x|] eqn:X; [|discriminate]. cbn [bind] in E. injection E as <-.
  pose proof (nsided_flat N h U eps res prev c next m (px sd) x Fp F Fn T Em X) as A. pose proof (proj1 (F (clamp (px sd) 0 1))) as B. unfold in_plane, along in *.
  replace (vdot N (cpt c (clamp (px sd) 0 1) +v x *v (py sd * clen c 0 1))) with (vdot N (cpt c (clamp (px sd) 0 1)) + vdot N x * (py sd * clen c 0 1)) by (unfold vdot; simpl; ring). rewrite A, B. ring.
Qed.
Print Assumptions C83_nsided.

(** Between an outer and an inner corner the fence makes a half turn: at the
    samples the normal is the plane's, turned about the tangent by an angle
    proportional to the arc length. *)
Definition additive (res : nat) (c : curve) : Prop := forall k, (k < res)%nat ->
  clen c 0 (INR k / INR res) + clen c (INR k / INR res) (INR (S k) / INR res) = clen c 0 (INR (S k) / INR res).
Lemma ss_len : forall res c k, additive res c -> clen c 0 0 = 0 -> (k <= res)%nat -> ss res c k = clen c 0 (INR k / INR res).
Proof.
  intros res c k A Z. induction k as [|k IH]; intros H; [cbn [ss]; rewrite ratio_0, Z; reflexivity|]. cbn [ss]. rewrite IH by lia. apply A. lia.
Qed.
Theorem C83_inner : forall N h eps res prev c next m, unitv N -> 0 < eps -> (1 <= res)%nat -> flat_curve N h prev -> flat_curve N h c -> flat_curve N h next ->
  well_sampled eps res c -> additive res c -> clen c 0 0 = 0 ->
  0 < corner_turn N prev c -> corner_turn N c next < 0 -> ribbonUpdate eps res prev c next = Some m ->
  forall k, (k <= res)%nat -> exists t, directs t (cder c (INR k / INR res)) /\
    let th := PI * (clen c 0 (INR k / INR res) / clen c 0 1) in
    rmfEval eps m (INR k / INR res) = Some (N *v cos th +v vcross t N *v sin th).
Proof.
  intros N h eps res prev c next m U He Hr Fp F Fn W Ad Z T1 T2 Em k Hk. destruct (sampled_data eps res c Hr W) as (HT & Hv & Hw).
  unfold ribbonUpdate in Em. destruct (vnormalize (vcross (cder prev 1) (cder c 0))) as [a|] eqn:Ea; [|discriminate]. cbn [bind] in Em.
  destruct (vnormalize (vcross (cder c 1) (cder next 0))) as [b|] eqn:Eb; [|discriminate]. cbn [bind] in Em.
  rewrite (corner_normal N h U prev c a Fp F Ea ltac:(lra)) in Em. rewrite (corner_normal N h U c next b F Fn Eb ltac:(lra)) in Em.
  destruct (Rlt_dec 0 (corner_turn N prev c)) as [_|]; [|lra]. destruct (Rlt_dec 0 (corner_turn N c next)) as [|_]; [lra|].
  destruct (rmf_flat N h eps res c 1 (N *v -1) m F Em) as (Rc & Rf & f & Ef & Ra).
  assert (Hs : ss res c res <> 0) by (apply (fr_update_inv eps res c (dirAt res c) (N *v 1) He Hr HT Hv Hw (N *v -1) m Em)).
  assert (Em' := Em). rewrite (fr_update eps res c _ (N *v 1) He Hr HT Hv Hw _ Hs) in Em'. apply some_eq in Em'. rewrite <- Em' in Rf, Ef |- *. cbn [rm_frames] in Rf, Ef.
  rewrite Forall_forall in Rf.
  assert (SN : forall j, (j <= res)%nat -> sn res c (dirAt res c) (N *v 1) j = N *v 1).
  { intros j Hj. apply (Rf (fr res c (dirAt res c) (N *v 1) j)). apply in_map. apply in_seq. lia. }
  assert (Pt : vdot N (dirAt res c k) = 0). { apply (Rf (fr res c (dirAt res c) (N *v 1) k)). apply in_map. apply in_seq. lia. }
  exists (dirAt res c k). split; [apply normalize_directs, HT, Hk|]. intros th. rewrite (fr_eval eps res c _ (N *v 1) He Hr _ k Hk). f_equal. rewrite SN by exact Hk.
  assert (A : endAngle (N *v -1) (fr res c (dirAt res c) (N *v 1) res) = PI).
  { unfold endAngle. cbn [fr fr_n fr_d]. rewrite SN by lia. replace (vdot (N *v -1) (N *v 1)) with (-1 * vdot N N) by (unfold vdot; simpl; ring). unfold unitv in U. rewrite U, Rmult_1_r, clamp_id by lra.
    replace (vdot (vcross (N *v 1 -v N *v -1) (N *v -1)) (dirAt res c res)) with 0 by (unfold vdot, vcross; simpl; ring). destruct (Rlt_dec 0 0); [lra|]. replace (-1) with (Ropp 1) by ring. rewrite acos_opp, acos_1. ring. }
  rewrite A. rewrite (ss_len res c k Ad Z Hk), (ss_len res c res Ad Z (le_n _)) in *. rewrite ratio_1 in * by exact Hr. rewrite rotate_general.
  replace (clen c 0 (INR k / INR res) * (PI / clen c 0 1)) with th by (unfold th; field; exact Hs).
  replace (vdot (dirAt res c k) (N *v 1)) with 0 by (replace (vdot (dirAt res c k) (N *v 1)) with (vdot N (dirAt res c k)) by (unfold vdot; simpl; ring); lra).
  unfold vcross. apply V3_ext; simpl; ring.
Qed.
Print Assumptions C83_inner.

(** There the compatible ribbon leaves the plane: [b] is the direction across
    the curve in the plane. *)
Theorem C83_leaves : forall N h eps res prev c next mult hd d, unitv N -> 0 < eps -> (1 <= res)%nat -> flat_curve N h prev -> flat_curve N h c -> flat_curve N h next ->
  well_sampled eps res c -> additive res c -> clen c 0 0 = 0 ->
  0 < corner_turn N prev c -> corner_turn N c next < 0 -> ribDerive RKCompatible eps res prev c next mult hd None = Some d ->
  forall k, (k <= res)%nat -> exists t x, let s := INR k / INR res in directs t (cder c s) /\ ribCross RKCompatible eps c None d s = Some x /\
    let th := PI * (clen c 0 s / clen c 0 1) in let b := vcross t N in
    vdot N x = cos th * sin th * (vdot (cder prev 1) b * (1 - s) - vdot (cder next 0) b * s).
Proof.
  intros N h eps res prev c next mult hd d U He Hr Fp F Fn W Ad Z T1 T2 D k Hk. unfold ribDerive in D. destruct (ribbonUpdate eps res prev c next) as [m|] eqn:Em; [|discriminate]. cbn [bind] in D. injection D as <-.
  destruct (C83_inner N h eps res prev c next m U He Hr Fp F Fn W Ad Z T1 T2 Em k Hk) as (t & Dt & En). set (th := PI * (clen c 0 (INR k / INR res) / clen c 0 1)) in *.
  assert (Rc : rm_curve m = c). { unfold ribbonUpdate in Em. destruct (vnormalize (vcross (cder prev 1) (cder c 0))) as [a|]; [|discriminate]. cbn [bind] in Em. destruct (vnormalize (vcross (cder c 1) (cder next 0))) as [b|]; [|discriminate]. cbn [bind] in Em.
    unfold rmfUpdate in Em. destruct (firstFrame c a) as [f0|]; [|discriminate]. cbn [bind] in Em. destruct (frameLoop eps c res res 1 f0) as [l|]; [|discriminate]. cbn [bind] in Em. destruct (nth_error l res) as [f|]; [|discriminate]. cbn [bind] in Em. destruct (fdiv _ _); [|discriminate]. injection Em as <-. reflexivity. }
  exists t. eexists. split; [exact Dt|]. split.
  - unfold ribCross. cbn [rd_frames rd_angle rd_pt rd_nt]. replace (mkRmf c (rm_frames m) (rm_angle m)) with m by (rewrite <- Rc; destruct m; reflexivity). unfold crossCompatible, normalOf. cbn [bind]. rewrite En. cbn [bind]. reflexivity.
  - cbv zeta. set (b := vcross t N). set (s := INR k / INR res).
    assert (Bn : vdot N b = 0) by (unfold b, vdot, vcross; simpl; ring).
    assert (P : forall v, along N v -> vdot N (projectOut (N *v cos th +v b *v sin th) v) = - (cos th * sin th * vdot v b)).
    { intros v A. unfold along in A. unfold projectOut. replace (vdot N (v -v (N *v cos th +v b *v sin th) *v vdot v (N *v cos th +v b *v sin th))) with
        (vdot N v - (vdot N N * cos th + vdot N b * sin th) * (vdot N v * cos th + vdot v b * sin th)) by (unfold vdot; simpl; ring). unfold unitv in U. rewrite U, Bn, A. ring. }
    assert (Li : forall p q, vdot N (p *v (1 - s) +v q *v s) = vdot N p * (1 - s) + vdot N q * s) by (intros; unfold vdot; simpl; ring). rewrite Li.
    rewrite !P by (unfold prevTangent, nextTangent; try apply along_opp; apply Fp || apply Fn). unfold prevTangent, nextTangent.
    replace (vdot (vopp (cder prev 1)) b) with (- vdot (cder prev 1) b) by (unfold vdot; simpl; ring). change (PI * (clen c 0 s / clen c 0 1)) with th. ring.
Qed.
Print Assumptions C83_leaves.

(** ** Patches *)

(** From a convex plane loop of curves, everything made by update() is in the plane. *)
Theorem C83_update : forall N h kd eps res cs sf, unitv N -> flat_loop N h cs -> made_from kd eps res cs sf -> flat_surf N h sf.
Proof. intros N h kd eps res cs sf U FL M. exact (made_flat N h U kd eps res cs sf FL M). Qed.
Print Assumptions C83_update.

(** Patches from ribbons. *)
Theorem C83_patches : forall N h eps sf sds p, unitv N -> 0 < eps -> flat_surf N h sf ->
  ((1 <= length sds)%nat -> sf_n sf = length sds -> sideBased eps sf sds = Some p -> in_plane N h p) /\
  (forall b, blendCorner eps (sf_n sf) sds = Some b -> weights_sum b 1 ->
    cornerBased eps sf sds = Some p \/ generalizedCoons eps sf sds = Some p \/ compositeRibbonPatch eps sf sds = Some p -> in_plane N h p) /\
  (forall k cp, in_plane N h cp -> mpatch k eps sf cp sds = Some p -> in_plane N h p).
Proof.
  intros N h eps sf sds p U He FS. assert (X := flatten_surf N h sf FS). assert (L := flatten_linear N). split; [|split].
  - intros H1 Hn E. apply (fixed_in N h U (sideBased eps sf sds)); [|exact E]. rewrite <- (PropsMove.C75_side_based (flatten N) (foot N h) eps sf sds L He H1 Hn), X. reflexivity.
  - intros b Eb W E. destruct (PropsMove.C75_corner_based (flatten N) (foot N h) eps sf sds b L Eb W) as (A & B & C). rewrite X in A, B, C. destruct E as [E|[E|E]]; [apply (fixed_in N h U _ p A E)|apply (fixed_in N h U _ p B E)|apply (fixed_in N h U _ p C E)].
  - intros k cp Hc E. apply (fixed_in N h U (mpatch k eps sf cp sds)); [|exact E]. rewrite <- (proj1 (PropsMove.C75_midpoint (flatten N) (foot N h) k eps sf cp sds L)), X, (flatten_point N h cp Hc). reflexivity.
Qed.
Print Assumptions C83_patches.
(** The default central point of the midpoint patches is in the plane, too. *)
Theorem C83_central : forall N h k eps sf sds c p, unitv N -> 0 < eps -> (1 <= sf_n sf)%nat -> flat_surf N h sf ->
  updateCentral eps sf (mpatch k eps sf) sds None = Some (c, p) -> in_plane N h c /\ in_plane N h p.
Proof.
  intros N h k eps sf sds c p U He Hn FS E. destruct (PropsMove.C75_midpoint (flatten N) (foot N h) k eps sf vzero sds (flatten_linear N)) as [_ B]. specialize (B He Hn None). rewrite (flatten_surf N h sf FS) in B. cbn [option_map] in B.
  rewrite E in B. cbn [option_map fst snd] in B. apply some_eq in B. assert (B1 := f_equal fst B). assert (B2 := f_equal snd B). cbn [fst snd] in B1, B2. rewrite B1, B2. split; apply (flatten_in N h U).
Qed.
Print Assumptions C83_central.

(** Patches from control points. *)
Theorem C83_nets : forall N h eps g sf sds p, unitv N -> in_plane N h (gb_cen g) -> Forall (Forall (Forall (in_plane N h))) (gb_nets g) ->
  gbEval eps g sds = Some p \/ gbcEval g sds = Some p \/ flat_surf N h sf /\ hybridEval eps g sf sds = Some p -> in_plane N h p.
Proof.
  intros N h eps g sf sds p U Hc Hn E. assert (L := flatten_linear N).
  assert (G : mvGB (flatten N) (foot N h) g = g).
  { destruct g as [x1 x2 x3 x4 x5 x6 x7]. unfold mvGB. cbn [gb_n gb_deg gb_lay gb_cen gb_nets gb_sq gb_dom] in *. f_equal; [apply flatten_point; exact Hc|].
    apply (map_fixed _ _ (fun x => map_fixed _ _ (fun y => map_fixed _ _ (flatten_point N h) y) x) _ Hn). }
  destruct (PropsMove.C75_nets (flatten N) (foot N h) eps g sf sds L) as (A & B & C). rewrite G in A, B, C.
  destruct E as [E|[E|[FS E]]]; [apply (fixed_in N h U _ p A E)|apply (fixed_in N h U _ p B E)|]. rewrite (flatten_surf N h sf FS) in C. apply (fixed_in N h U _ p C E).
Qed.
Print Assumptions C83_nets.
Theorem C83_spatch : forall N h n d ws eps vs dm uv p, unitv N -> (3 <= n)%nat -> (d <= 20)%nat -> PropsSPatch.full n d (PropsSPatch.written ws) -> 0 < eps <= 1 ->
  regularVertices n = Some vs -> domainFrames pzero vs = Some dm -> inside vs uv -> Forall (fun c => in_plane N h (snd c)) (PropsSPatch.written ws) ->
  spEval eps dm (PropsSPatch.written ws) uv = Some p -> in_plane N h p.
Proof.
  intros N h n d ws eps vs dm uv p U H3 Hd F He Hv Hdm I Hn E. pose proof (PropsMove.C75_spatch (flatten N) (foot N h) n d ws eps vs dm uv (flatten_linear N) H3 Hd F He Hv Hdm I) as A.
  replace (mvNet (flatten N) (foot N h) (PropsSPatch.written ws)) with (PropsSPatch.written ws) in A; [apply (fixed_in N h U _ p A E)|]. symmetry. unfold mvNet. refine (map_fixed _ _ _ _ Hn). intros [i q] Q. cbn [fst snd] in *. rewrite (flatten_point N h q Q). reflexivity.
Qed.
Print Assumptions C83_spatch.
Theorem C83_superd : forall N h q q' eps d uv sds p, unitv N -> 0 < eps -> su_q q = [] -> in_plane N h (su_v q) -> Forall (in_plane N h) (su_f q) -> Forall (in_plane N h) (su_e q) ->
  sdUpdateRibbons q = Some q' -> mapToRibbons KSuperD eps d uv = Some sds -> (1 <= length sds)%nat -> su_n q' = length sds ->
  sdEval eps d q' uv = Some p -> in_plane N h p.
Proof.
  intros N h q q' eps d uv sds p U He Hq Hv Hf Hee Eu M H1 Hn E.
  assert (G : mvSD (flatten N) (foot N h) q = q). { destruct q as [x1 x2 x3 x4 x5 x6]. unfold mvSD. cbn [su_n su_full su_f su_e su_v su_q] in *. subst x6. f_equal; [exact (map_fixed _ _ (flatten_point N h) _ Hf)|exact (map_fixed _ _ (flatten_point N h) _ Hee)|apply flatten_point; exact Hv]. }
  pose proof (proj1 (PropsMove.C75_superd (flatten N) (foot N h) q (flatten_linear N))) as A. rewrite G, Eu in A. cbn [option_map] in A. assert (G' : mvSD (flatten N) (foot N h) q' = q') by congruence.
  pose proof (proj2 (PropsMove.C75_superd (flatten N) (foot N h) q' (flatten_linear N)) eps d uv sds He M H1 Hn) as B. rewrite G' in B. apply (fixed_in N h U _ p B E).
Qed.
Print Assumptions C83_superd.
Theorem C83_c0coons : forall N h eps d cs uv l p, unitv N -> Forall (flat_curve N h) cs -> (1 <= length cs)%nat -> length l = length cs -> d_n d = length cs ->
  barycentric Wachspress eps d uv = Some l -> rsum (length l) (fun i => nth i l 0) = 1 -> c0coonsEval eps d cs uv = Some p -> in_plane N h p.
Proof.
  intros N h eps d cs uv l p U F H1 Ll Hd B S1 E. pose proof (PropsMove.C75_c0coons (flatten N) (foot N h) eps d cs uv l (flatten_linear N) H1 Ll Hd B S1) as A.
  rewrite (map_fixed _ _ (flatten_curve N h) _ F) in A. apply (fixed_in N h U _ p A E).
Qed.
Print Assumptions C83_c0coons.

(** A square is a convex plane loop. *)
Definition seg (a b : V3) : curve := mkCurve (fun u => a +v (b -v a) *v u) (fun _ => b -v a) (fun x y => vnorm (b -v a) * (y - x)).
Example C83_square : flat_loop (mkV3 0 0 1) 2 [seg (mkV3 0 0 2) (mkV3 1 0 2); seg (mkV3 1 0 2) (mkV3 1 1 2); seg (mkV3 1 1 2) (mkV3 0 1 2); seg (mkV3 0 1 2) (mkV3 0 0 2)].
Proof.
  split.
  - repeat constructor; unfold in_plane, along, vdot; simpl; ring.
  - left. intros [|[|[|[|i]]]] c c' E E'; [| | | |destruct i; discriminate]; cbn in E, E'; injection E as <-; injection E' as <-; unfold corner_turn, vdot, vcross; simpl; lra.
Qed.
(** A straight side between an outer and an inner corner, as in an L-shaped
    boundary: the ribbon leaves the plane at all samples except at the ends and
    in the middle. *)
Example C83_step : forall eps res j, 0 < eps -> (0 < j < res)%nat -> (2 * j <> res)%nat -> eps * (INR res * INR res) <= 1 ->
  let down := mkCurve (fun u => mkV3 0 (- u) 0) (fun _ => mkV3 0 (-1) 0) (fun a b => b - a) in
  let across := mkCurve (fun u => mkV3 u 0 0) (fun _ => mkV3 1 0 0) (fun a b => b - a) in
  exists d x, ribDerive RKCompatible eps res down across down 1 None None = Some d /\ ribCross RKCompatible eps across None d (INR j / INR res) = Some x /\ vz x <> 0.
Proof.
  intros eps res j He Hj H2 Hs down across. assert (Rp : 0 < INR res) by (apply lt_0_INR; lia). set (s := INR j / INR res).
  assert (Nz : forall z, z = 1 \/ z = -1 -> vnormalize (mkV3 0 0 z) = Some (mkV3 0 0 z)).
  { intros z Hz. unfold vnormalize. replace (vnorm (mkV3 0 0 z)) with 1; [rewrite vdiv_some by lra; f_equal; unfold vscale; simpl; f_equal; field|]. unfold vnorm, vdot; simpl. replace (0 * 0 + 0 * 0 + z * z) with 1 by (destruct Hz as [-> | ->]; ring). rewrite sqrt_1. reflexivity. }
  assert (Dx : directs (mkV3 1 0 0) (mkV3 1 0 0)).
  { assert (Q : vnorm (mkV3 1 0 0) = 1) by (unfold vnorm, vdot; simpl; replace (1 * 1 + 0 * 0 + 0 * 0) with 1 by ring; apply sqrt_1). unfold directs. rewrite Q. split; [unfold unitv, vdot; simpl; ring|]. split; [lra|]. v3ring. }
  assert (W : well_sampled eps res across).
  { intros k Hk. exists (mkV3 1 0 0), (mkV3 1 0 0). split; [exact Dx|]. split; [exact Dx|]. cbv zeta.
    assert (V : cpt across (INR (S k) / INR res) -v cpt across (INR k / INR res) = mkV3 (/ INR res) 0 0) by (apply V3_ext; cbn [across cpt vx vy vz vsub]; rewrite ?S_INR; field; lra). rewrite V.
    assert (Ri : eps <= / INR res * / INR res). { apply (Rmult_le_reg_r (INR res * INR res)); [nra|]. replace (/ INR res * / INR res * (INR res * INR res)) with 1 by (field; lra). exact Hs. }
    assert (R1 : / INR res <= 1) by (rewrite <- Rinv_1; apply Rinv_le_contravar; [lra|]; change 1 with (INR 1); apply le_INR; lia). assert (0 < / INR res) by (apply Rinv_0_lt_compat; exact Rp). split.
    - unfold vdot; simpl. lra.
    - replace (mkV3 1 0 0 -v mirror (mkV3 (/ INR res) 0 0) (mkV3 1 0 0)) with (mkV3 2 0 0); [unfold vdot; simpl; nra|]. unfold mirror, vdot. apply V3_ext; simpl; field; lra. }
  assert (Fl : flat_curve (mkV3 0 0 1) 0 down /\ flat_curve (mkV3 0 0 1) 0 across) by (split; intros u; split; unfold in_plane, along, vdot; simpl; ring). destruct Fl as [Fd Fa].
  assert (Ad : additive res across) by (intros k Hk; cbn [across clen]; ring).
  assert (U : unitv (mkV3 0 0 1)) by (unfold unitv, vdot; simpl; ring).
  assert (T1 : corner_turn (mkV3 0 0 1) down across = 1) by (unfold corner_turn, vdot, vcross; simpl; ring). assert (T2 : corner_turn (mkV3 0 0 1) across down = -1) by (unfold corner_turn, vdot, vcross; simpl; ring).
  assert (D : exists d, ribDerive RKCompatible eps res down across down 1 None None = Some d).
  { unfold ribDerive, ribbonUpdate. replace (vcross (cder down 1) (cder across 0)) with (mkV3 0 0 1) by (unfold vcross; simpl; f_equal; ring). replace (vcross (cder across 1) (cder down 0)) with (mkV3 0 0 (-1)) by (unfold vcross; simpl; f_equal; ring).
    rewrite !Nz by (auto; right; ring). cbn [bind]. destruct (sampled_data eps res across ltac:(lia) W) as (HT & Hv & Hw).
    rewrite (fr_update eps res across _ (mkV3 0 0 1) He ltac:(lia) HT Hv Hw) by (rewrite (ss_len res across res Ad ltac:(cbn; ring) (le_n _)); rewrite ratio_1 by lia; cbn [across clen]; lra). cbn [bind]. eexists; reflexivity. }
  destruct D as [d D]. exists d. destruct (C83_leaves (mkV3 0 0 1) 0 eps res down across down 1 None d U He ltac:(lia) Fd Fa Fd W Ad ltac:(cbn; ring) ltac:(lra) ltac:(lra) D j ltac:(lia)) as (t & x & Dt & X & V).
  exists x. split; [exact D|]. split; [exact X|].
  assert (Et : t = mkV3 1 0 0) by (apply directs_normalize in Dt; apply directs_normalize in Dx; cbn [across cder] in Dt; congruence). subst t.
  fold s in V. cbn [across clen] in V. replace ((s - 0) / (1 - 0)) with s in V by field.
  replace (vdot (mkV3 0 0 1) x) with (vz x) in V by (unfold vdot; simpl; ring). rewrite V.
  replace (vdot (cder down 1) (vcross (mkV3 1 0 0) (mkV3 0 0 1))) with 1 by (unfold vdot, vcross; simpl; ring). replace (vdot (cder down 0) (vcross (mkV3 1 0 0) (mkV3 0 0 1))) with 1 by (unfold vdot, vcross; simpl; ring).
  assert (S01 : 0 < s < 1). { unfold s. split; [apply Rdiv_lt_0_compat; [apply lt_0_INR; lia|exact Rp]|]. apply (Rmult_lt_reg_r (INR res)); [exact Rp|]. unfold Rdiv. rewrite Rmult_assoc, Rinv_l, Rmult_1_l, Rmult_1_r by lra. apply lt_INR. lia. }
  assert (S2 : s <> 1 / 2). { intros Z. apply H2. apply INR_eq. rewrite mult_INR. unfold s in Z. simpl (INR 2). apply (f_equal (fun y => y * INR res * 2)) in Z. replace (INR j / INR res * INR res * 2) with (2 * INR j) in Z by (field; lra). lra. }
  pose proof PI_RGT_0 as P. assert (Sp : 0 < sin (PI * s)) by (apply sin_gt_0; nra).
  assert (Cp : cos (PI * s) <> 0). { intros Z. destruct (Rtotal_order s (1 / 2)) as [L|[L|L]]; [| contradiction |]. - assert (0 < cos (PI * s)) by (apply cos_gt_0; nra). lra. - assert (cos (PI * s) < 0) by (apply cos_lt_0; nra). lra. }
  intros Z. assert (M : (1 * (1 - s) - 1 * s) = 0 \/ cos (PI * s) * sin (PI * s) = 0) by (apply Rmult_integral in Z; tauto). destruct M as [M|M]; [lra|]. apply Rmult_integral in M. lra.
Qed.
