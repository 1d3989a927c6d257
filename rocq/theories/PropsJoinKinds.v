(** C82, continued: every kind of patch follows its boundary at the parameters
    of the mesh, so the theorems on meshes of neighbouring patches apply. *)
From Verif Require Import Base MeshModel MeshSpec GeomSpec DomainModel UtilModel UtilSpec UtilProofs DomainProofs DomainPolygons.
From Verif Require Import JoinModel JoinSpec JoinProofs.
From Verif Require Import GBModel GBSpec GBEval SPatchModel SuperDModel HybridModel.
From Verif Require Import RibbonModel SurfaceModel SurfaceSpec SurfaceProofs SurfaceEval SurfaceBase ParamBary ParamMaps ParamRegular ParamSide ParamTame ParamModel.
From Verif Require PropsBlend PropsGB PropsSPatch PropsSuperD PropsHybrid.
From Verif Require Import PropsParam PropsSurface PropsJoin.
Open Scope R_scope.

(** [bd] gives the boundary curves of the ribbons. *)
Definition bounds (sf : surf) (bd : nat -> R -> V3) : Prop := forall e s, (e < sf_n sf)%nat -> 0 <= s <= 1 -> side_point sf e s (bd e s).
(** The tolerance is small compared to the distance of the samples. *)
Definition resolved (n r : nat) (eps : R) : Prop := 0 < eps /\ eps * INR r <= sin (2 * PI / INR n) * sin (PI / INR n).

Lemma sample : forall r i, (i < r)%nat -> (INR i / INR r = 0 \/ 1 / INR r <= INR i / INR r) /\ INR i / INR r <= 1 - 1 / INR r /\ 0 <= INR i / INR r <= 1.
Proof.
  intros r i Hi. assert (Rp : 0 < INR r) by (apply lt_0_INR; lia). pose proof (pos_INR i). pose proof (Rinv_0_lt_compat _ Rp) as Ip.
  assert (A : INR i / INR r <= 1 - 1 / INR r).
  { replace (1 - 1 / INR r) with ((INR r - 1) / INR r) by (field; lra). unfold Rdiv. apply Rmult_le_compat_r; [lra|].
    replace (INR r - 1) with (INR (r - 1)) by (rewrite minus_INR by lia; reflexivity). apply le_INR; lia. }
  assert (B : 0 <= INR i / INR r) by (unfold Rdiv; apply Rmult_le_pos; lra). split; [|split; [exact A|]].
  - destruct i as [|i]; [left; simpl; unfold Rdiv; ring|right]. unfold Rdiv. apply Rmult_le_compat_r; [lra|]. change 1 with (INR 1). apply le_INR; lia.
  - split; [exact B|]. assert (0 < 1 / INR r) by (unfold Rdiv; lra). lra.
Qed.
Lemma hw_range : forall n, (3 <= n)%nat -> 0 < sin (2 * PI / INR n) <= 1 /\ 0 < sin (PI / INR n) <= 1.
Proof.
  intros n H. assert (3 <= INR n) by (replace 3 with (INR 3) by (simpl; ring); apply le_INR; exact H). pose proof PI_RGT_0.
  assert (A : 0 < PI / INR n) by (apply Rdiv_lt_0_compat; lra).
  assert (B : PI / INR n * 3 <= PI). { apply (Rmult_le_reg_r (INR n)); [lra|]. replace (PI / INR n * 3 * INR n) with (3 * PI) by (field; lra). nra. }
  replace (2 * PI / INR n) with (2 * (PI / INR n)) by (field; lra).
  split; (split; [apply sin_gt_0; lra|apply SIN_bound]).
Qed.
Lemma sample_tol : forall n r i eps, (3 <= n)%nat -> (i < r)%nat -> resolved n r eps ->
  let s := INR i / INR r in let hw := sin (2 * PI / INR n) * sin (PI / INR n) in
  0 <= s <= 1 /\ (s = 0 \/ eps <= s * hw /\ eps <= s) /\ eps <= (1 - s) * hw /\ eps <= 1 - s /\ eps <= (1 - s) * sin (2 * PI / INR n).
Proof.
  intros n r i eps H3 Hi [Hp Hr] s hw. destruct (hw_range n H3) as [A B]. destruct (sample r i Hi) as (S0 & S1 & S2). fold s in S0, S1, S2. fold hw in Hr.
  assert (Rp : 0 < INR r) by (apply lt_0_INR; lia).
  assert (E : eps <= 1 / INR r * hw). { apply (Rmult_le_reg_r (INR r)); [exact Rp|]. replace (1 / INR r * hw * INR r) with hw by (field; lra). exact Hr. }
  assert (W : 0 < hw <= 1) by (unfold hw; split; [apply Rmult_lt_0_compat; lra|nra]). assert (W2 : hw <= sin (2 * PI / INR n)) by (unfold hw; nra).
  assert (I : 0 < 1 / INR r) by (apply Rdiv_lt_0_compat; lra). split; [exact S2|]. split; [|split; [nra|split; nra]].
  destruct S0 as [->|S0]; [left; reflexivity|right; split; nra].
Qed.

Lemma bounds_loop : forall sf bd, (1 <= sf_n sf)%nat -> compatible_loop (sf_n sf) (sf_ribbons sf) -> bounds sf bd -> loop_of (sf_n sf) bd.
Proof.
  intros sf bd H1 (L & _ & J) B e He. rewrite <- nxt_mod. assert (Hx : (nxt (sf_n sf) e < sf_n sf)%nat) by (apply nxt_lt; lia).
  destruct (B e 1 He ltac:(lra)) as (r & Er & <-). destruct (B (nxt (sf_n sf) e) 0 Hx ltac:(lra)) as (r' & Er' & <-). apply (J e r r' Er Er').
Qed.

(** The composite ribbon patch, on any convex domain. *)
Theorem C82_composite_ribbon : forall c vs d eps sf r bd, domainFrames c vs = Some d -> (3 <= length vs)%nat -> strictly_convex vs -> inside vs c ->
  sf_n sf = length vs -> ready sf -> 0 < eps <= 1 / 2 -> bounds sf bd ->
  follows (length vs) r (edgePoint d) (compositeRibbonEval eps d sf) bd /\ loop_of (length vs) bd.
Proof.
  intros c vs d eps sf r bd Hd H3 C I Hn Hr Hp B. split; [|rewrite <- Hn; apply bounds_loop; [lia|apply Hr|exact B]].
  intros e i uv He Hi E. destruct (sample r i Hi) as (_ & _ & S2).
  apply (C41_composite_ribbon c vs d eps sf e (INR i / INR r) uv _ Hd H3 C I Hn Hr Hp He S2 E). apply B; [lia|exact S2].
Qed.
Print Assumptions C82_composite_ribbon.

(** Patches on the regular domain from ribbons: the midpoint family, the corner
    based, the generalized Coons and the side based patch. *)
Theorem C82_midpoint : forall k m vs d eps sf cp r bd, (3 <= m)%nat -> regularVertices m = Some vs -> domainFrames pzero vs = Some d ->
  sf_n sf = m -> ready sf -> fine_tolerance m eps -> resolved m r eps -> bounds sf bd ->
  follows m r (edgePoint d) (mEval k eps d sf cp) bd /\ loop_of m bd.
Proof.
  intros k m vs d eps sf cp r bd H3 Hv Hd Hn Hr HT HR B. split; [|rewrite <- Hn; apply bounds_loop; [lia|apply Hr|exact B]].
  intros e i uv He Hi E. destruct (sample_tol m r i eps H3 Hi HR) as (S2 & S0 & _ & S1 & _).
  apply (C42_boundary k m vs d eps sf cp e (INR i / INR r) uv _ H3 Hv Hd Hn Hr HT He); [|exact E|apply B; [lia|exact S2]].
  destruct S0 as [S0|[_ S0]]; [left; exact S0|right; right; lra].
Qed.
Print Assumptions C82_midpoint.
Theorem C82_corner_based : forall m vs d eps sf r bd, (3 <= m)%nat -> regularVertices m = Some vs -> domainFrames pzero vs = Some d ->
  sf_n sf = m -> ready sf -> fine_tolerance m eps -> resolved m r eps -> bounds sf bd ->
  follows m r (edgePoint d) (cornerBasedEval eps d sf) bd /\ loop_of m bd.
Proof.
  intros m vs d eps sf r bd H3 Hv Hd Hn Hr HT HR B. split; [|rewrite <- Hn; apply bounds_loop; [lia|apply Hr|exact B]].
  intros e i uv He Hi E. destruct (sample_tol m r i eps H3 Hi HR) as (S2 & _ & _ & _ & S1).
  apply (C41_corner_based m vs d eps sf e (INR i / INR r) uv _ H3 Hv Hd Hn Hr HT); [left; intros _; exact S1|exact He|exact S2|exact E|apply B; [lia|exact S2]].
Qed.
Print Assumptions C82_corner_based.
Theorem C82_generalized_coons : forall m vs d eps sf r bd, (3 <= m)%nat -> regularVertices m = Some vs -> domainFrames pzero vs = Some d ->
  sf_n sf = m -> ready sf -> fine_tolerance m eps -> resolved m r eps -> bounds sf bd ->
  follows m r (edgePoint d) (generalizedCoonsEval eps d sf) bd /\ loop_of m bd.
Proof.
  intros m vs d eps sf r bd H3 Hv Hd Hn Hr HT HR B. split; [|rewrite <- Hn; apply bounds_loop; [lia|apply Hr|exact B]].
  intros e i uv He Hi E. destruct (sample_tol m r i eps H3 Hi HR) as (S2 & _ & _ & _ & S1).
  apply (C41_generalized_coons m vs d eps sf e (INR i / INR r) uv _ H3 Hv Hd Hn Hr HT); [intros _; exact S1|exact He|exact S2|exact E|apply B; [lia|exact S2]].
Qed.
Print Assumptions C82_generalized_coons.
Theorem C82_side_based : forall m vs d eps sf r bd, (3 <= m)%nat -> regularVertices m = Some vs -> domainFrames pzero vs = Some d ->
  sf_n sf = m -> compatible_loop m (sf_ribbons sf) -> eps <= sin (2 * PI / INR m) * sin (PI / INR m) / 2 -> resolved m r eps -> bounds sf bd ->
  follows m r (edgePoint d) (sideBasedEval eps d sf) bd /\ loop_of m bd.
Proof.
  intros m vs d eps sf r bd H3 Hv Hd Hn Hc HT HR B.
  assert (Lo : loop_of m bd) by (rewrite <- Hn; apply bounds_loop; [lia|rewrite Hn; exact Hc|exact B]). split; [|exact Lo].
  intros e i uv He Hi E. destruct (sample_tol m r i eps H3 Hi HR) as (S2 & S0 & S1 & _). destruct Hc as (L & Cd & J).
  assert (P : side_point sf e (INR i / INR r) (bd e (INR i / INR r))) by (apply B; [lia|exact S2]).
  destruct S0 as [S0|[S0 _]].
  - rewrite S0 in *. destruct (regular_convex m vs H3 Hv) as (Lv & _). rewrite (edge_of_frames pzero vs d e 0 uv Hd ltac:(lia) E). rewrite (side_point_value sf e 0 _ P).
    apply (sideBased_regular_corner m vs d H3 Hv Hd); auto; [|split; [apply HR|exact HT]].
    assert (Hp : (prv m e < m)%nat) by (apply prv_lt; lia). assert (Q : side_point sf (prv m e) 1 (bd (prv m e) 1)) by (apply B; [lia|lra]).
    rewrite <- (side_point_value sf _ _ _ Q), <- (side_point_value sf _ _ _ P). rewrite (Lo (prv m e) Hp), <- nxt_mod, nxt_prv by exact He. reflexivity.
  - apply (C40_side_based_regular m vs d eps sf e (INR i / INR r) uv _ H3 Hv Hd Hn L Cd He S2); try assumption. apply HR.
Qed.
Print Assumptions C82_side_based.

(** The Coons patch of the curves alone. *)
Theorem C82_c0coons : forall m vs d eps cs r, (3 <= m)%nat -> regularVertices m = Some vs -> domainFrames pzero vs = Some d ->
  length cs = m -> closed_curves cs -> fine_tolerance m eps -> resolved m r eps ->
  forall bd, (forall e crv, nth_error cs e = Some crv -> bd e = cpt crv) ->
  follows m r (edgePoint d) (c0coonsEval eps d cs) bd /\ loop_of m bd.
Proof.
  intros m vs d eps cs r H3 Hv Hd L Hc HT HR bd B. split.
  - intros e i uv He Hi E. destruct (sample_tol m r i eps H3 Hi HR) as (S2 & _ & _ & S1 & _).
    assert (N : exists crv, nth_error cs e = Some crv) by (destruct (nth_error cs e) eqn:Q; [eexists; reflexivity|apply nth_error_None in Q; lia]).
    destruct N as [crv N]. rewrite (B e crv N). apply (C43_regular m vs d eps cs e _ uv crv H3 Hv Hd L Hc HT S2); [right; left; lra|exact N|exact E].
  - intros e He. rewrite <- nxt_mod. assert (Hx : (nxt m e < m)%nat) by (apply nxt_lt; lia).
    assert (N : forall j, (j < m)%nat -> exists crv, nth_error cs j = Some crv) by (intros j Hj; destruct (nth_error cs j) eqn:Q; [eexists; reflexivity|apply nth_error_None in Q; lia]).
    destruct (N e He) as [c Ec]. destruct (N _ Hx) as [c' Ec']. rewrite (B e c Ec), (B _ c' Ec'). apply (Hc e c c' Ec). rewrite L. exact Ec'.
Qed.
Print Assumptions C82_c0coons.

(** The generalized Bezier patch from degree 2 on, the corner version on the
    disk from four sides on, the S-patch, the Super-D patch and the hybrid. *)
Lemma boundary_loop : forall n d g, (3 <= n)%nat -> (1 <= d)%nat -> consistent n d g -> loop_of n (boundaryCurve g d).
Proof.
  intros n d g H3 Hd Co e He. unfold boundaryCurve.
  assert (B0 : forall P, bezier d P 0 = P 0%nat). { intros P. unfold bezier. rewrite (vsum_single (d + 1) _ 0%nat ltac:(lia)); [rewrite bern_0_first; v3ring|]. intros j Hj N. rewrite bern_at_0 by lia. v3ring. }
  assert (B1 : forall P, bezier d P 1 = P d). { intros P. unfold bezier. rewrite (vsum_single (d + 1) _ d ltac:(lia)); [rewrite bern_1_last; v3ring|]. intros j Hj N. rewrite bern_at_1 by lia. v3ring. }
  rewrite B0, B1. assert (Hx : ((e + 1) mod n < n)%nat) by (apply Nat.mod_upper_bound; lia).
  pose proof (Co ((e + 1) mod n, 0, 0)%nat (e, d, 0)%nat) as Y. cbn [getp] in Y. rewrite Y; [reflexivity|cbn; lia|cbn; lia|]. replace d with (d - 0)%nat at 2 by lia. constructor. lia.
Qed.
Theorem C82_generalized_bezier : forall n d g vs dm eps r, (3 <= n)%nat -> (2 <= d)%nat -> shaped n d g -> consistent n d g ->
  regularVertices n = Some vs -> domainFrames pzero vs = Some dm -> eps <= 1 / 2 -> resolved n r eps ->
  follows n r (edgePoint dm) (gbSurfaceEval eps dm g) (boundaryCurve g d) /\ loop_of n (boundaryCurve g d).
Proof.
  intros n d g vs dm eps r H3 Hd S Co Hv Hdm He HR. split; [|apply boundary_loop; try assumption; lia].
  intros e i uv Hen Hi E. destruct (sample_tol n r i eps H3 Hi HR) as (S2 & S0 & _ & S1 & _). assert (Hp : 0 < eps) by apply HR.
  destruct S0 as [S0|[_ S0]].
  - rewrite S0 in *. apply (PropsGB.C47_ends n d g vs dm eps e 0 uv H3 ltac:(lia) S Co Hv Hdm Hen); [lra|lra|exact E|lra].
  - apply (PropsGB.C47_boundary n d g vs dm eps e _ uv H3 Hd S Hv Hdm Hen); [lra|lra|exact E].
Qed.
Print Assumptions C82_generalized_bezier.
Theorem C82_gb_corner : forall n d g eps r, (4 <= n)%nat -> (d mod 2 = 1)%nat -> shaped n d g -> consistent n d g -> 0 < eps ->
  follows n r (edgePointCircle n) (gbcSurfaceEval eps g) (boundaryCurve g d) /\ loop_of n (boundaryCurve g d).
Proof.
  intros n d g eps r H4 Od S Co He. split; [|apply boundary_loop; try assumption; try lia; destruct d; [discriminate Od|lia]].
  intros e i uv Hen Hi E. destruct (sample r i Hi) as (_ & _ & S2). unfold edgePointCircle in E. assert (Nz : INR n <> 0) by (apply not_0_INR; lia).
  rewrite fdiv_some in E by exact Nz. cbn [bind] in E. injection E as <-.
  replace ((INR e + INR i / INR r) * 2 * PI / INR n) with (2 * PI * (INR e + INR i / INR r) / INR n) by (unfold Rdiv; ring).
  rewrite (PropsGB.C48_side n d g eps e _ ltac:(lia) Od S Co Hen He S2). destruct (Nat.eqb_spec n 3); [lia|]. apply (f_equal Some). v3ring.
Qed.
Print Assumptions C82_gb_corner.
Definition sp_side (n d : nat) (m : snet) (e : nat) : R -> V3 :=
  bezier d (fun j => match netAt m (PropsSPatch.side_index n d (prv n e) e j) with Some q => q | None => vzero end).
Theorem C82_spatch : forall n d ws eps vs dm r, (3 <= n)%nat -> (1 <= d <= 20)%nat -> PropsSPatch.full n d (PropsSPatch.written ws) -> 0 < eps <= 1 ->
  regularVertices n = Some vs -> domainFrames pzero vs = Some dm ->
  follows n r (edgePoint dm) (spEval eps dm (PropsSPatch.written ws)) (sp_side n d (PropsSPatch.written ws)) /\ loop_of n (sp_side n d (PropsSPatch.written ws)).
Proof.
  intros n d ws eps vs dm r H3 Hd F He Hv Hdm. split.
  - intros e i uv Hen Hi E. destruct (sample r i Hi) as (_ & _ & S2). apply (PropsSPatch.C53_boundary n d ws eps vs dm e _ uv H3 ltac:(lia) F He Hv Hdm Hen S2 E).
  - intros e Hen. rewrite <- nxt_mod. unfold sp_side.
    assert (B0 : forall P, bezier d P 0 = P 0%nat). { intros P. unfold bezier. rewrite (vsum_single (d + 1) _ 0%nat ltac:(lia)); [rewrite bern_0_first; v3ring|]. intros j Hj N. rewrite bern_at_0 by lia. v3ring. }
    assert (B1 : forall P, bezier d P 1 = P d). { intros P. unfold bezier. rewrite (vsum_single (d + 1) _ d ltac:(lia)); [rewrite bern_1_last; v3ring|]. intros j Hj N. rewrite bern_at_1 by lia. v3ring. }
    rewrite B0, B1. assert (PropsSPatch.side_index n d (prv n e) e d = PropsSPatch.side_index n d (prv n (nxt n e)) (nxt n e) 0) as ->; [|reflexivity].
    rewrite (prv_nxt n e Hen). unfold PropsSPatch.side_index. apply map_ext. intros i. pose proof (nxt_neq n e ltac:(lia) Hen) as Nx.
    destruct (Nat.eqb_spec i e) as [->|]; [destruct (Nat.eqb_spec e (nxt n e)); lia|]. destruct (Nat.eqb_spec i (nxt n e)), (Nat.eqb_spec i (prv n e)); lia.
Qed.
Print Assumptions C82_spatch.
Theorem C82_superd : forall p p' m vs d eps r, PropsSuperD.complete_net p -> su_n p = m -> sdUpdateRibbons p = Some p' ->
  regularVertices m = Some vs -> domainFrames pzero vs = Some d -> eps <= sin (2 * PI / INR m) * sin (PI / INR m) / 2 -> resolved m r eps ->
  follows m r (edgePoint d) (sdEval eps d p') (PropsSuperD.sd_side p) /\ loop_of m (PropsSuperD.sd_side p).
Proof.
  intros p p' m vs d eps r W Hn U Hv Hd HT HR. assert (H3 : (3 <= m)%nat) by (rewrite <- Hn; apply W). split.
  - intros e i uv He Hi E. destruct (sample_tol m r i eps H3 Hi HR) as (S2 & S0 & S1 & _).
    apply (PropsSuperD.C54_boundary p p' m vs d eps e _ uv W Hn U Hv Hd He S2 E); [split; [apply HR|exact HT]|]. destruct S0 as [S0|[S0 _]]; [right; left; exact S0|right; right; right; split; assumption].
  - intros e He. rewrite <- nxt_mod. unfold PropsSuperD.sd_side. rewrite Hn, (prv_nxt m e He). unfold PropsSuperD.quartic_curve. v3ring.
Qed.
Print Assumptions C82_superd.
Theorem C82_hybrid : forall n d g sf vs dm eps r bd, (3 <= n)%nat -> (2 <= d)%nat -> shaped n d g -> sf_n sf = n ->
  compatible_loop n (sf_ribbons sf) -> regularVertices n = Some vs -> domainFrames pzero vs = Some dm -> eps <= 1 / 2 -> resolved n r eps -> bounds sf bd ->
  follows n r (edgePoint dm) (hybridSurfaceEval eps dm g sf) bd /\ loop_of n bd.
Proof.
  intros n d g sf vs dm eps r bd H3 Hd S Hn Hc Hv Hdm He HR B.
  assert (Lo : loop_of n bd) by (rewrite <- Hn; apply bounds_loop; [lia|rewrite Hn; exact Hc|exact B]). split; [|exact Lo].
  intros e i uv Hen Hi E. destruct (sample_tol n r i eps H3 Hi HR) as (S2 & S0 & _ & S1 & _). destruct Hc as (L & Cd & J). assert (Hp : 0 < eps) by apply HR.
  assert (P : side_point sf e (INR i / INR r) (bd e (INR i / INR r))) by (apply B; [lia|exact S2]).
  destruct S0 as [S0|[_ S0]].
  - rewrite S0 in E, P |- *. assert (Hpr : (prv n e < n)%nat) by (apply prv_lt; lia). assert (Q : side_point sf (prv n e) 1 (bd (prv n e) 1)) by (apply B; [lia|lra]).
    rewrite (PropsHybrid.C66_start n d g sf vs dm eps e 0 uv (bd e 0) (bd (prv n e) 1) H3 Hd S Hn L Cd Hv Hdm Hen ltac:(lra) ltac:(lra) E P).
    + rewrite (Lo (prv n e) Hpr), <- nxt_mod, nxt_prv by exact Hen. apply (f_equal Some). apply V3_ext; simpl; field.
    + apply PropsBlend.C29_side; try assumption; rewrite ?Hn; try assumption; lra.
  - apply (PropsHybrid.C66_boundary n d g sf vs dm eps e (INR i / INR r) uv (bd e (INR i / INR r)) H3 Hd S Hn L Cd Hv Hdm Hen); [lra|lra|exact E|exact P].
Qed.
Print Assumptions C82_hybrid.

(** A triangle and its mirror image glued along all three sides, at every
    resolution. *)
Definition tri3 : list V2 := [mkV2 0 0; mkV2 1 0; mkV2 0 1].
Definition lift (b : bool) (p : V2) : V3 := if b then mkV3 (px p) (py p) 0 else mkV3 (py p) (px p) 0.
Definition side3 (b : bool) (e : nat) (s : R) : V3 := lift b (sidePt tri3 e s).
Example C82_example : forall r, (1 <= r)%nat -> exists m m', 
  surfaceMesh 3 (mkV2 (1/3) (1/3)) tri3 (fun uv => Some (lift true uv)) r = Some m /\
  surfaceMesh 3 (mkV2 (1/3) (1/3)) tri3 (fun uv => Some (lift false uv)) r = Some m' /\
  has_rim m (mkV3 0 0 0) (mkV3 (1 / INR r) 0 0) /\
  (forall P Q, has_edge m P Q -> has_edge m Q P \/ has_edge m' Q P) /\ (forall P Q, has_edge m' P Q -> has_edge m Q P \/ has_edge m' Q P).
Proof.
  intros r Hr. destruct (MeshParams.parameters_length 3 (mkV2 (1/3) (1/3)) tri3 r) as (ps & Ep & _); [lia|exact Hr|reflexivity|].
  assert (X : forall b, exists m, surfaceMesh 3 (mkV2 (1/3) (1/3)) tri3 (fun uv => Some (lift b uv)) r = Some m).
  { intros b. unfold surfaceMesh. rewrite Ep. cbn [bind]. rewrite (mapM_total _ (lift b)) by reflexivity. cbn [bind]. eexists; reflexivity. }
  destruct (X true) as [m Em]. destruct (X false) as [m' Em']. exists m, m'. split; [exact Em|]. split; [exact Em'|].
  assert (D : exists d, domainFrames (mkV2 (1/3) (1/3)) tri3 = Some d) by (rewrite frames_closed; eexists; reflexivity). destruct D as [d D].
  assert (Lo : forall b, loop_of 3 (side3 b)).
  { intros b e He. destruct e as [|[|[|e]]]; [| | |lia]; destruct b; apply V3_ext; cbn; ring. }
  assert (C : forall b M, surfaceMesh 3 (mkV2 (1/3) (1/3)) tri3 (fun uv => Some (lift b uv)) r = Some M -> chords M 3 r (side3 b)).
  { intros b M EM. destruct (dom_parts _ _ _ D) as (N & Cn & V). unfold chords. apply (C82_rim _ tri3 d r (fun uv => Some (lift b uv)) (side3 b) M D); [cbn; lia|exact Hr| | |apply Lo].
    - rewrite N, Cn, V. exact EM.
    - intros e i uv He Hi E. rewrite (edge_total _ tri3 d e _ D He) in E. injection E as <-. reflexivity. }
  assert (Fc : forall b e, (e < 3)%nat -> exists e', (e' < 3)%nat /\ facing (side3 b e) (side3 (negb b) e')).
  { intros b e He. exists (match e with 0%nat => 1%nat | 1%nat => 0%nat | _ => 2%nat end). destruct e as [|[|[|e]]]; [| | |lia]; (split; [lia|]); intros s Hs; destruct b; apply V3_ext; cbn; ring. }
  split.
  - apply (C true m Em). exists 1%nat, 0%nat. split; [lia|]. split; [lia|]. split; apply V3_ext; cbn; unfold Rdiv; ring.
  - pose proof (C82_closed 2 r (fun j => if (j =? 0)%nat then m else m') (fun _ => 3%nat) (fun j => side3 (j =? 0)%nat) Hr) as Z.
    assert (A1 : forall j, (j < 2)%nat -> chords (if (j =? 0)%nat then m else m') 3 r (side3 (j =? 0)%nat)).
    { intros [|[|j]] Hj; [exact (C true m Em)|exact (C false m' Em')|lia]. }
    assert (A2 : forall j e, (j < 2)%nat -> (e < 3)%nat -> exists j' e', (j' < 2)%nat /\ (e' < 3)%nat /\ facing (side3 (j =? 0)%nat e) (side3 (j' =? 0)%nat e')).
    { intros [|[|j]] e Hj He; [| |lia].
      - destruct (Fc true e He) as (e' & He' & F). exists 1%nat, e'. split; [lia|]. split; [exact He'|exact F].
      - destruct (Fc false e He) as (e' & He' & F). exists 0%nat, e'. split; [lia|]. split; [exact He'|exact F]. }
    specialize (Z A1 A2).
    assert (W : forall j P Q, (j < 2)%nat -> has_edge (if (j =? 0)%nat then m else m') P Q -> has_edge m Q P \/ has_edge m' Q P).
    { intros j P Q Hj E. destruct (Z j P Q Hj E) as ([|[|j']] & Hj' & E'); [left; exact E'|right; exact E'|lia]. }
    split; [exact (fun P Q => W 0%nat P Q ltac:(lia))|exact (fun P Q => W 1%nat P Q ltac:(lia))].
Qed.
