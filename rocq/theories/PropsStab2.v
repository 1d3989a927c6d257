(** How far a C0 Coons patch moves when its curves move: C94. *)
From Verif Require Import Base MeshModel GeomSpec DomainModel UtilModel UtilSpec UtilProofs JoinModel TotalSpec.
From Verif Require Import ParamModel RibbonModel SurfaceModel SurfaceSpec BlendProofs SurfaceEval SurfaceProofs SurfacePatches SurfaceC0 StabSpec StabProofs.
From Verif Require PropsRot PropsStab PropsTotal PropsSurface PropsCont BlendProps.
Open Scope R_scope.

(** Curves at most [e] apart, with tangents at the ends at most [t] apart. *)
Definition curves_within (e t : R) (cs cs' : list curve) : Prop :=
  length cs' = length cs /\ forall i c c', nth_error cs i = Some c -> nth_error cs' i = Some c' ->
    (forall s, 0 <= s <= 1 -> apart (cpt c s) (cpt c' s) <= e) /\ apart (cder c 0) (cder c' 0) <= t /\ apart (cder c 1) (cder c' 1) <= t.

Lemma mix_apart : forall a b a' b' x A, 0 <= x <= 1 -> apart a a' <= A -> apart b b' <= A -> apart (a *v (1 - x) +v b *v x) (a' *v (1 - x) +v b' *v x) <= A.
Proof.
  intros a b a' b' x A Hx HA HB. replace A with ((1 - x) * A + x * A) by ring.
  apply apart_le; apply apart_scale_le; try assumption; lra.
Qed.
Lemma clamp_range : forall x, 0 <= clamp x 0 1 <= 1.
Proof. intros x. unfold clamp. destruct (Rlt_dec x 0); [lra|]. destruct (Rlt_dec 1 x); lra. Qed.

Lemma top_within : forall e t l2 l r r2 l2' l' r' r2' sm u c c', 0 <= u <= 1 -> 0 <= t -> apart (cpt l 0) (cpt l' 0) <= e -> apart (cpt r 1) (cpt r' 1) <= e ->
  apart (cder r2 0) (cder r2' 0) <= t -> apart (cder l2 1) (cder l2' 1) <= t ->
  within (e + t / 3) (bcEval (co_top (coonsUpdate l2 l c r r2 sm)) u) (bcEval (co_top (coonsUpdate l2' l' c' r' r2' sm)) u).
Proof.
  intros e t l2 l r r2 l2' l' r' r2' sm u c c' Hu Ht Hl Hr H2 H3. cbn [coonsUpdate co_top]. destruct sm.
  - rewrite !const_value. cbn [within]. lra.
  - rewrite !(bcEval_spec _ 3) by reflexivity. cbn [within]. apply (PropsStab.C94_bezier_curve 3); [exact Hu|]. intros i Hi.
    assert (T3 : t / 3 = / 3 * t) by field. assert (0 <= t / 3) by lra. unfold pnth. destruct i as [|[|[|[|i]]]]; [| | | |lia]; cbn [nth].
    + lra.
    + apply apart_le; [exact Hr|]. rewrite T3. apply apart_scale_le; [lra|exact H2].
    + eapply Rle_trans; [apply apart_sub|]. apply Rplus_le_compat; [exact Hl|]. rewrite T3. apply apart_scale_le; [lra|exact H3].
    + lra.
Qed.

Lemma coons_within : forall e t l2 l c r r2 l2' l' c' r' r2' sm sd, 0 <= t ->
  (forall s, 0 <= s <= 1 -> apart (cpt l s) (cpt l' s) <= e) -> (forall s, 0 <= s <= 1 -> apart (cpt c s) (cpt c' s) <= e) -> (forall s, 0 <= s <= 1 -> apart (cpt r s) (cpt r' s) <= e) ->
  apart (cder r2 0) (cder r2' 0) <= t -> apart (cder l2 1) (cder l2' 1) <= t ->
  within (3 * e + t / 3) (coonsEval c (coonsUpdate l2 l c r r2 sm) sd) (coonsEval c' (coonsUpdate l2' l' c' r' r2' sm) sd).
Proof.
  intros e t l2 l c r r2 l2' l' c' r' r2' sm sd Ht Hl Hc Hr H2 H3. unfold coonsEval. cbv zeta.
  pose proof (clamp_range (px sd)) as S. pose proof (clamp_range (py sd)) as D. set (s := clamp (px sd) 0 1) in *. set (d := clamp (py sd) 0 1) in *.
  rewrite (clamp_id (1 - s)), (clamp_id (1 - d)) by lra.
  pose proof (top_within e t l2 l r r2 l2' l' r' r2' sm (1 - s) c c' ltac:(lra) Ht (Hl 0 ltac:(lra)) (Hr 1 ltac:(lra)) H2 H3) as T.
  destruct (bcEval (co_top (coonsUpdate l2 l c r r2 sm)) (1 - s)) as [p|]; destruct (bcEval (co_top (coonsUpdate l2' l' c' r' r2' sm)) (1 - s)) as [p'|]; cbn [within bind] in *; try contradiction; [|exact I].
  cbn [coonsUpdate co_left co_right co_bl co_br co_tl co_tr].
  replace (3 * e + t / 3) with ((e + t / 3 + e) + e) by ring. eapply Rle_trans; [apply apart_sub|]. apply Rplus_le_compat; [apply apart_le|].
  - apply mix_apart; [lra| |exact T]. pose proof (Hc s ltac:(lra)). lra.
  - apply mix_apart; [lra|apply Hl; lra|apply Hr; lra].
  - apply mix_apart; [lra| |]; apply mix_apart; try lra; first [apply Hc|apply Hl|apply Hr]; lra.
Qed.

(** Curves [e] apart and end tangents [t] apart: the C0 Coons patch moves by at most
    3e + t/3 at every point of the closed polygon. *)
Theorem C94_c0coons : forall c vs d eps uv cs cs' e t, convex_domain c vs d -> 0 < eps <= 1 -> in_polygon vs uv -> length cs = length vs -> 0 <= t ->
  curves_within e t cs cs' -> exists p p', c0coonsEval eps d cs uv = Some p /\ c0coonsEval eps d cs' uv = Some p' /\ apart p p' <= 3 * e + t / 3.
Proof.
  intros c vs d eps uv cs cs' e t D He Hp Hn Ht (L & Q). assert (H3 : (3 <= length vs)%nat) by apply D.
  destruct (proj1 (PropsTotal.C84_c0coons c vs d eps cs D Hn He) uv Hp) as (p & P). destruct (proj1 (PropsTotal.C84_c0coons c vs d eps cs' D ltac:(congruence) He) uv Hp) as (p' & P').
  exists p, p'. split; [exact P|]. split; [exact P'|]. cut (within (3 * e + t / 3) (Some p) (Some p')); [intros H; exact H|]. rewrite <- P, <- P'.
  unfold c0coonsEval. destruct (PropsTotal.C84_coordinates c vs d eps uv (KBary Wachspress) D He Hp (or_introl eq_refl)) as (sds & M & Ls & U). rewrite M. cbn [bind].
  destruct (PropsTotal.C84_barycentric c vs d eps uv D He Hp) as (l & B & Ll & _ & Sl). assert (En : d_n d = length vs) by (apply (PropsRot.frames_n c vs d); apply D).
  rewrite <- Ll in Sl. pose proof (bary_weights _ eps d uv sds l ltac:(congruence) B Sl M) as W. rewrite Ll, <- Hn in W.
  set (kd := fun (ks : list curve) i => let n := length cs in coonsEval (crv ks i) (coonsUpdate (crv ks (prv n (prv n i))) (crv ks (prv n i)) (crv ks i) (crv ks (nxt n i)) (crv ks (nxt n (nxt n i))) (nxt n (nxt n i) =? prv n i)%nat)).
  rewrite (mapM_seq _ (length cs) _ (kd cs)) by (intros i Hi; apply coonsRibbon_value; [lia|exact Hi]). rewrite L. rewrite (mapM_seq _ (length cs) _ (kd cs')).
  2:{ intros i Hi. rewrite <- L in Hi. rewrite (coonsRibbon_value cs' ltac:(lia) i Hi). unfold kd. rewrite L. reflexivity. }
  cbn [bind]. unfold c0coons. replace (3 * e + t / 3) with (rsum (length cs) (fun i => (1 - dpar sds i) * / 2 * (3 * e + t / 3))) by (rewrite rsum_scal_r, W; ring). apply within_osum. intros i Hi.
  rewrite !tabulate_nth_error by exact Hi. cbn [bind]. rewrite nth_sd by lia. cbn [bind].
  destruct (U i _ (nth_sd sds i ltac:(lia))) as (_ & Ud). cbn [py] in *.
  assert (C : forall j, (j < length cs)%nat -> (forall s, 0 <= s <= 1 -> apart (cpt (crv cs j) s) (cpt (crv cs' j) s) <= e) /\ apart (cder (crv cs j) 0) (cder (crv cs' j) 0) <= t /\ apart (cder (crv cs j) 1) (cder (crv cs' j) 1) <= t).
  { intros j Hj. apply (Q j); apply crv_nth; [exact Hj|lia]. }
  assert (Lp : (prv (length cs) i < length cs)%nat) by (apply prv_lt; lia). assert (Ln : (nxt (length cs) i < length cs)%nat) by (apply nxt_lt; lia).
  assert (K : within (3 * e + t / 3) (kd cs i (mkV2 (spar sds i) (dpar sds i))) (kd cs' i (mkV2 (spar sds i) (dpar sds i)))).
  { unfold kd. cbv zeta. apply coons_within; [exact Ht|apply C; exact Lp|apply C; exact Hi|apply C; exact Ln|apply C; apply nxt_lt; lia|apply C; apply prv_lt; lia]. }
  destruct (kd cs i _) as [q|]; destruct (kd cs' i _) as [q'|]; cbn [within bind py] in *; try contradiction; [|exact I].
  replace (q *v (1 - dpar sds i) *v / 2) with (q *v ((1 - dpar sds i) * / 2)) by v3ring. replace (q' *v (1 - dpar sds i) *v / 2) with (q' *v ((1 - dpar sds i) * / 2)) by v3ring.
  apply apart_scale_le; [|exact K]. split; [|lra]. apply Rmult_le_pos; lra.
Qed.
Print Assumptions C94_c0coons.

(** Curves lifted by an arch of height 1/4 whose tangents at the ends differ by one
    unit: on the square the patch moves by at most 13/12. *)
Definition arch (c : curve) : curve := mkCurve (fun s => cpt c s +v mkV3 0 0 (s * (1 - s))) (fun s => cder c s +v mkV3 0 0 (1 - 2 * s)) (clen c).
Lemma lift_apart : forall p z, apart p (p +v mkV3 0 0 z) = Rabs z.
Proof.
  intros p z. unfold apart, vnorm. replace (vdot _ _) with (Rsqr z); [apply sqrt_Rsqr_abs|]. unfold vdot, vsub, vadd, Rsqr. simpl. ring.
Qed.
Lemma arch_within : forall cs, curves_within (1/4) 1 cs (map arch cs).
Proof.
  intros cs. split; [apply map_length|]. intros i c c' E E'. rewrite nth_error_map, E in E'. injection E' as <-. cbn [arch cpt cder]. split; [|split].
  - intros s Hs. rewrite lift_apart, Rabs_pos_eq by nra. pose proof (Rle_0_sqr (s - 1/2)) as H. unfold Rsqr in H. lra.
  - rewrite lift_apart, Rabs_pos_eq; lra.
  - rewrite lift_apart, Rabs_left; lra.
Qed.
Example C94_arches : forall eps x, 0 < eps <= 1 -> -1 <= x <= 1 -> exists d p p', domainFrames pzero PropsCont.sq = Some d /\
  let cs := map sr_curve (lineRibs PropsSurface.corners4) in
  c0coonsEval eps d cs (mkV2 x 0) = Some p /\ c0coonsEval eps d (map arch cs) (mkV2 x 0) = Some p' /\ apart p p' <= 13/12.
Proof.
  intros eps x He Hx. destruct PropsCont.square_domain as (d & Hd & D).
  destruct (C94_c0coons pzero _ d eps (mkV2 x 0) (map sr_curve (lineRibs PropsSurface.corners4)) _ (1/4) 1 D He (PropsCont.square_in x Hx) eq_refl ltac:(lra) (arch_within _)) as (p & p' & P & P' & B).
  exists d, p, p'. split; [exact Hd|]. split; [exact P|]. split; [exact P'|lra].
Qed.
