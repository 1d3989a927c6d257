(** How far apart the values of a patch are for two sets of data. *)
From Verif Require Import Base GeomSpec UtilModel UtilSpec UtilProofs DomainModel DomainPolygons ParamModel ParamSide RibbonModel SurfaceModel SurfaceSpec BlendProofs BlendProps StabSpec.
From Verif Require ObjLoop SurfaceObj.
Open Scope R_scope.

Lemma apart_add : forall a b a' b', apart (a +v b) (a' +v b') <= apart a a' + apart b b'.
Proof. intros. unfold apart. replace (a +v b -v (a' +v b')) with ((a -v a') +v (b -v b')) by v3ring. apply ObjLoop.vnorm_add. Qed.
Lemma norm_opp : forall a, vnorm (vopp a) = vnorm a.
Proof. intros. unfold vnorm. f_equal. unfold vdot, vopp. simpl. ring. Qed.
Lemma apart_sub : forall a b a' b', apart (a -v b) (a' -v b') <= apart a a' + apart b b'.
Proof.
  intros. unfold apart. replace (a -v b -v (a' -v b')) with ((a -v a') +v vopp (b -v b')) by v3ring. eapply Rle_trans; [apply ObjLoop.vnorm_add|]. rewrite norm_opp. apply Rle_refl.
Qed.
Lemma norm_scale : forall a x, 0 <= x -> vnorm (a *v x) = x * vnorm a.
Proof.
  intros a x H. unfold vnorm. replace (vdot (a *v x) (a *v x)) with (x * x * vdot a a) by (unfold vdot, vscale; simpl; ring).
  rewrite sqrt_mult by (try nra; apply vnorm2_pos). rewrite sqrt_square by exact H. reflexivity.
Qed.
Lemma apart_scale : forall a a' x, 0 <= x -> apart (a *v x) (a' *v x) = x * apart a a'.
Proof. intros a a' x H. unfold apart. replace (a *v x -v a' *v x) with ((a -v a') *v x) by v3ring. apply norm_scale; exact H. Qed.
Lemma apart_scale_abs : forall a a' x, apart (a *v x) (a' *v x) = Rabs x * apart a a'.
Proof.
  intros a a' x. destruct (Rle_dec 0 x) as [H|H]; [rewrite Rabs_pos_eq by exact H; apply apart_scale; exact H|].
  rewrite Rabs_left by lra. rewrite <- apart_scale by lra. unfold apart. rewrite <- norm_opp. f_equal. v3ring.
Qed.
Lemma apart_zero : apart vzero vzero = 0.
Proof. unfold apart, vnorm. replace (vdot (vzero -v vzero) (vzero -v vzero)) with 0 by (unfold vzero, vdot; simpl; ring). apply sqrt_0. Qed.
Lemma apart_nonneg : forall a b, 0 <= apart a b.
Proof. intros. apply vnorm_nonneg. Qed.
Lemma apart_le : forall a a' b b' A B, apart a a' <= A -> apart b b' <= B -> apart (a +v b) (a' +v b') <= A + B.
Proof. intros. eapply Rle_trans; [apply apart_add|]. lra. Qed.
Lemma apart_scale_le : forall a a' x X A, 0 <= x <= X -> apart a a' <= A -> apart (a *v x) (a' *v x) <= X * A.
Proof. intros a a' x X A H HA. rewrite apart_scale by lra. pose proof (apart_nonneg a a'). apply Rmult_le_compat; lra. Qed.

Lemma within_le : forall B C o o', within B o o' -> B <= C -> within C o o'.
Proof. intros B C [p|] [p'|] H L; cbn [within] in *; try exact H; lra. Qed.
Lemma within_some : forall B p o', within B (Some p) o' -> exists p', o' = Some p' /\ apart p p' <= B.
Proof. intros B p [p'|] H; [exists p'; split; [reflexivity|exact H]|destruct H]. Qed.
Lemma within_scale : forall B o o' x, 0 <= x -> within B o o' -> within (x * B) (bind o (fun p => Some (p *v x))) (bind o' (fun p => Some (p *v x))).
Proof. intros B [p|] [p'|] x Hx H; cbn [within bind] in *; try exact H. apply apart_scale_le; [lra|exact H]. Qed.
Lemma within_osum : forall n f f' B, (forall i, (i < n)%nat -> within (B i) (f i) (f' i)) -> within (rsum n B) (osum n f) (osum n f').
Proof.
  induction n as [|n IH]; intros f f' B H; cbn [osum rsum].
  - cbn [within]. rewrite apart_zero. lra.
  - specialize (IH f f' B (fun i Hi => H i (Nat.lt_lt_succ_r _ _ Hi))). specialize (H n (Nat.lt_succ_diag_r n)).
    destruct (osum n f) as [a|], (osum n f') as [a'|]; cbn [within bind] in *; try contradiction; try exact I.
    destruct (f n) as [b|], (f' n) as [b'|]; cbn [within bind] in *; try contradiction; try exact I. apply apart_le; assumption.
Qed.

Lemma reach_pos : forall g, 0 < reach g <= 1.
Proof. intros [|]; unfold reach; lra. Qed.
Lemma gamma_reach : forall g d, 0 <= d <= 1 -> exists x, gamma g d = Some x /\ 0 <= x <= reach g.
Proof.
  intros [|] d Hd; unfold gamma, reach; [|exists d; split; [reflexivity|lra]]. rewrite fdiv_some by lra. exists (d / (2 * d + 1)). split; [reflexivity|]. split.
  - apply Rmult_le_pos; [lra|]. left. apply Rinv_0_lt_compat. lra.
  - apply (Rmult_le_reg_r (2 * d + 1)); [lra|]. unfold Rdiv. rewrite Rmult_assoc, Rinv_l by lra. lra.
Qed.

Lemma blend_range : forall x, 0 <= x <= 1 -> 0 <= hermite 0 x <= 1.
Proof.
  intros x Hx. cbn [hermite]. split; [assert (0 <= (1 - x) ^ 2) by apply pow2_ge_0; assert (0 <= (1 - x) ^ 2 * (1 - x)) by (apply Rmult_le_pos; lra); assert (0 <= (1 - x) ^ 2 * x) by (apply Rmult_le_pos; lra); lra|].
  replace ((1 - x) ^ 3 + 3 * (1 - x) ^ 2 * x) with (1 - x * x * (3 - 2 * x)) by ring. assert (0 <= x * x * (3 - 2 * x)) by (apply Rmult_le_pos; nra). lra.
Qed.

Section Data.
Variables (sf sf' : surf) (eps e k t w : R).
Hypothesis He : 0 < eps.
Hypothesis Hk : 0 <= k.
Hypothesis Ht : 0 <= t.
Hypothesis Hw : 0 <= w.
Hypothesis Rb : ribbons_within e k sf sf'.
Let g := sf_gamma sf.
Notation SI := (side_bound (sf_gamma sf) e k).
Notation CC := (correction_bound (sf_gamma sf) e t w).

Lemma rib_pair : forall i, match nth_error (sf_ribbons sf) i, nth_error (sf_ribbons sf') i with Some _, Some _ => True | None, None => True | _, _ => False end.
Proof.
  intros i. destruct Rb as (_ & _ & L & _). destruct (nth_error (sf_ribbons sf) i) eqn:E; destruct (nth_error (sf_ribbons sf') i) eqn:E'; try exact I.
  - apply nth_error_None in E'. assert (i < length (sf_ribbons sf))%nat by (apply nth_error_Some; congruence). lia.
  - apply nth_error_None in E. assert (i < length (sf_ribbons sf'))%nat by (apply nth_error_Some; congruence). lia.
Qed.
Lemma side_within : forall i s d, 0 <= d <= 1 -> within SI (sideInterpolant sf i s d) (sideInterpolant sf' i s d).
Proof.
  intros i s d Hd. unfold sideInterpolant. destruct Rb as (_ & G & _ & Q). rewrite G. destruct (gamma_reach (sf_gamma sf) d Hd) as (x & -> & Hx). cbn [bind].
  pose proof (rib_pair i) as P. destruct (nth_error (sf_ribbons sf) i) as [r|] eqn:E; destruct (nth_error (sf_ribbons sf') i) as [r'|] eqn:E'; try contradiction; cbn [bind]; [|exact I].
  unfold ribbonEval. cbn [px py]. destruct (Q i r r' E E' (clamp s 0 1) ltac:(apply clamp_range; lra)) as (Qc & Qx).
  destruct (sr_cross r _) as [a|], (sr_cross r' _) as [a'|]; cbn [within bind] in *; try contradiction; try exact I. rewrite Rmax_left by lra. unfold side_bound.
  apply apart_le; [exact Qc|]. apply apart_scale_le; assumption.
Qed.
Hypothesis Cb : corners_within e t w sf sf'.
Lemma twist_within : forall u v a b a' b', 0 <= u -> 0 <= v -> apart a a' <= w -> apart b b' <= w -> within w (rationalTwist eps u v a b) (rationalTwist eps u v a' b').
Proof.
  intros u v a b a' b' Hu Hv A B. unfold rationalTwist. destruct (Rlt_dec _ _) as [|N]; [cbn [within]; rewrite apart_zero; exact Hw|].
  rewrite Rabs_pos_eq in N by lra. unfold vdiv. destruct (Req_EM_T (u + v) 0); [lra|]. cbn [within].
  replace ((a *v u +v b *v v) *v / (u + v)) with (a *v (u / (u + v)) +v b *v (v / (u + v))) by (unfold Rdiv; v3ring).
  replace ((a' *v u +v b' *v v) *v / (u + v)) with (a' *v (u / (u + v)) +v b' *v (v / (u + v))) by (unfold Rdiv; v3ring).
  assert (P : forall z, 0 <= z -> 0 <= z / (u + v)) by (intros z Hz; apply Rmult_le_pos; [exact Hz|left; apply Rinv_0_lt_compat; lra]).
  pose proof (P u Hu) as Pu. pose proof (P v Hv) as Pv. assert (S : u / (u + v) + v / (u + v) = 1) by (field; lra).
  apply Rle_trans with (u / (u + v) * w + v / (u + v) * w); [apply apart_le; apply apart_scale_le; lra|]. rewrite <- Rmult_plus_distr_r, S. lra.
Qed.
Lemma correction_within : forall i s1 s2, 0 <= s1 <= 1 -> 0 <= s2 <= 1 -> within CC (cornerCorrection eps sf i s1 s2) (cornerCorrection eps sf' i s1 s2).
Proof.
  intros i s1 s2 H1 H2. unfold cornerCorrection. destruct Rb as (_ & G & _ & _). rewrite G. destruct (gamma_reach (sf_gamma sf) s1 H1) as (a & -> & Ha). destruct (gamma_reach (sf_gamma sf) s2 H2) as (b & -> & Hb). cbn [bind].
  pose proof (reach_pos (sf_gamma sf)) as Rp. rewrite !clamp_id by lra. destruct Cb as (L & Q).
  destruct (nth_error (sf_corners sf) i) as [c|] eqn:E; destruct (nth_error (sf_corners sf') i) as [c'|] eqn:E'; cbn [bind].
  - destruct (Q i c c' E E') as (Q0 & Q1 & Q2 & Q3 & Q4). pose proof (twist_within a b _ _ _ _ ltac:(lra) ltac:(lra) Q4 Q3) as T.
    destruct (rationalTwist eps a b (cn_twist2 c) _) as [x|], (rationalTwist eps a b (cn_twist2 c') _) as [x'|]; cbn [within bind] in *; try contradiction; try exact I.
    unfold correction_bound. set (q := reach (sf_gamma sf)) in *. apply Rle_trans with (e + q * t + q * t + q * (q * w)); [|lra].
    apply apart_le; [apply apart_le; [apply apart_le; [exact Q0|]|]|]; repeat apply apart_scale_le; try assumption; lra.
  - apply nth_error_None in E'. assert (i < length (sf_corners sf))%nat by (apply nth_error_Some; congruence). lia.
  - apply nth_error_None in E. assert (i < length (sf_corners sf'))%nat by (apply nth_error_Some; congruence). lia.
  - exact I.
Qed.
Lemma bounds_pos : forall p q, apart p q <= e -> 0 <= SI /\ 0 <= CC.
Proof.
  intros p q H. pose proof (apart_nonneg p q). pose proof (reach_pos (sf_gamma sf)). unfold side_bound, correction_bound. split; [nra|].
  assert (0 <= reach (sf_gamma sf) * reach (sf_gamma sf) * w) by (apply Rmult_le_pos; nra). nra.
Qed.

Variable sds : list V2.
Hypothesis U : unit_params sds.
Lemma corner_within : forall i, within (2 * SI + CC) (cornerInterpolant eps sf i sds) (cornerInterpolant eps sf' i sds).
Proof.
  intros i. unfold cornerInterpolant. destruct Rb as (En & _). rewrite En. destruct (nth_error sds i) as [a|] eqn:Ea; [cbn [bind]|exact I]. destruct (nth_error sds (nxt (sf_n sf) i)) as [b|] eqn:Eb; [cbn [bind]|exact I].
  destruct (U _ _ Ea) as (A1 & A2). destruct (U _ _ Eb) as (B1 & B2).
  pose proof (side_within i (px a) (px b) B1) as X. pose proof (side_within (nxt (sf_n sf) i) (px b) (1 - px a) ltac:(lra)) as Y. pose proof (correction_within i (1 - px a) (px b) ltac:(lra) B1) as Z.
  destruct (sideInterpolant sf i _ _) as [x|], (sideInterpolant sf' i _ _) as [x'|]; cbn [within bind] in *; try contradiction; try exact I.
  destruct (sideInterpolant sf (nxt _ _) _ _) as [y|], (sideInterpolant sf' (nxt _ _) _ _) as [y'|]; cbn [within bind] in *; try contradiction; try exact I.
  destruct (cornerCorrection eps sf i _ _) as [z|], (cornerCorrection eps sf' i _ _) as [z'|]; cbn [within bind] in *; try contradiction; try exact I.
  eapply Rle_trans; [apply apart_sub|]. pose proof (apart_add x y x' y'). lra.
Qed.
Lemma coonsTerm_within : forall b i, (forall x, In x b -> 0 <= x) -> within ((nth i b 0 + nth (prv (sf_n sf) i) b 0) * SI + nth i b 0 * CC) (coonsTerm eps sf sds b i) (coonsTerm eps sf' sds b i).
Proof.
  intros b i Pb. unfold coonsTerm. destruct Rb as (En & _). rewrite En. destruct (nth_error sds i) as [a|] eqn:Ea; [cbn [bind]|exact I]. destruct (nth_error sds (nxt (sf_n sf) i)) as [c|] eqn:Ec; [cbn [bind]|exact I].
  destruct (nth_error b i) as [bi|] eqn:Ebi; [cbn [bind]|exact I]. destruct (nth_error b (prv (sf_n sf) i)) as [bp|] eqn:Ebp; [cbn [bind]|exact I]. rewrite (nth_error_nth _ _ 0 Ebi), (nth_error_nth _ _ 0 Ebp).
  pose proof (Pb _ (nth_error_In _ _ Ebi)) as P1. pose proof (Pb _ (nth_error_In _ _ Ebp)) as P2. destruct (U _ _ Ea) as (A1 & A2). destruct (U _ _ Ec) as (B1 & B2).
  pose proof (side_within i (px a) (py a) A2) as X. pose proof (correction_within i (1 - px a) (px c) ltac:(lra) B1) as Z.
  destruct (sideInterpolant sf i _ _) as [x|], (sideInterpolant sf' i _ _) as [x'|]; cbn [within bind] in *; try contradiction; try exact I.
  destruct (cornerCorrection eps sf i _ _) as [z|], (cornerCorrection eps sf' i _ _) as [z'|]; cbn [within bind] in *; try contradiction; try exact I.
  eapply Rle_trans; [apply apart_sub|]. apply Rplus_le_compat; apply apart_scale_le; lra.
Qed.
Lemma composite_within : forall i sd, 0 <= px sd <= 1 -> 0 <= py sd <= 1 -> within (2 * SI + CC) (compositeRibbon eps sf i sd) (compositeRibbon eps sf' i sd).
Proof.
  intros i sd Hs Hd. unfold compositeRibbon. cbv zeta. destruct Rb as (En & _). rewrite En.
  pose proof (side_within i (px sd) (py sd) Hd) as X. pose proof (side_within (prv (sf_n sf) i) (1 - py sd) (px sd) Hs) as Y. pose proof (side_within (nxt (sf_n sf) i) (py sd) (1 - px sd) ltac:(lra)) as Z.
  pose proof (correction_within (prv (sf_n sf) i) (py sd) (px sd) Hd Hs) as V. pose proof (correction_within i (1 - px sd) (py sd) ltac:(lra) Hd) as W.
  pose proof (blend_range _ Hs) as HS. pose proof (blend_range _ Hd) as HD. set (a := hermite 0 (px sd)) in *. set (b := hermite 0 (py sd)) in *.
  destruct (sideInterpolant sf i _ _) as [x|], (sideInterpolant sf' i _ _) as [x'|]; cbn [within bind] in *; try contradiction; try exact I.
  destruct (sideInterpolant sf (prv _ _) _ _) as [y|], (sideInterpolant sf' (prv _ _) _ _) as [y'|]; cbn [within bind] in *; try contradiction; try exact I.
  destruct (sideInterpolant sf (nxt _ _) _ _) as [z|], (sideInterpolant sf' (nxt _ _) _ _) as [z'|]; cbn [within bind] in *; try contradiction; try exact I.
  destruct (cornerCorrection eps sf (prv _ _) _ _) as [v|], (cornerCorrection eps sf' (prv _ _) _ _) as [v'|]; cbn [within bind] in *; try contradiction; try exact I.
  destruct (cornerCorrection eps sf i _ _) as [u|], (cornerCorrection eps sf' i _ _) as [u'|]; cbn [within bind] in *; try contradiction; try exact I.
  assert (P0 : 0 <= e + reach (sf_gamma sf) * k) by (pose proof (apart_nonneg x x'); unfold side_bound in X; lra). pose proof (apart_nonneg v v') as P1.
  apply Rle_trans with (b * SI + a * SI + (1 - a) * SI + b * (a * CC) + b * ((1 - a) * CC)).
  - eapply Rle_trans; [apply apart_sub|]. apply Rplus_le_compat; [|repeat apply apart_scale_le; try assumption; lra].
    eapply Rle_trans; [apply apart_sub|]. apply Rplus_le_compat; [|repeat apply apart_scale_le; try assumption; lra].
    repeat apply apart_le; apply apart_scale_le; try assumption; lra.
  - unfold side_bound. set (S := e + reach (sf_gamma sf) * k) in *. replace (b * S + a * S + (1 - a) * S + b * (a * CC) + b * ((1 - a) * CC)) with (S + b * (S + CC)) by ring.
    assert (b * (S + CC) <= 1 * (S + CC)) by (apply Rmult_le_compat_r; lra). lra.
Qed.
End Data.

(** ** The blended sums *)
Lemma weighted_within : forall n b (f f' : nat -> option V3) X, length b = n -> (forall x, In x b -> 0 <= x) ->
  (forall i, (i < n)%nat -> within X (f i) (f' i)) ->
  within (accumulate b * X) (osum n (fun i => a <- nth_error b i ;; p <- f i ;; Some (p *v a))) (osum n (fun i => a <- nth_error b i ;; p <- f' i ;; Some (p *v a))).
Proof.
  intros n b f f' X L P H. rewrite accumulate_rsum, L, <- rsum_scal_r. apply within_osum. intros i Hi. rewrite (nth_error_nth' b 0) by lia. cbn [bind].
  apply within_scale; [apply P, nth_In; lia|apply H; exact Hi].
Qed.
Lemma nth_prv_sum : forall n (b : list R), length b = n -> rsum n (fun i => nth (prv n i) b 0) = accumulate b.
Proof. intros n b L. rewrite (rsum_prv n (fun i => nth i b 0)), accumulate_rsum, L. reflexivity. Qed.

Lemma within_central : forall X M o o' c c' x, within X o o' -> apart c c' <= M -> within (X + Rabs x * M) (bind o (fun p => Some (p +v c *v x))) (bind o' (fun p => Some (p +v c' *v x))).
Proof.
  intros X M [p|] [p'|] c c' x H Hc; cbn [within bind] in *; try exact H. apply apart_le; [exact H|]. rewrite apart_scale_abs. apply Rmult_le_compat_l; [apply Rabs_pos|exact Hc].
Qed.

Lemma deficient_value : forall eps n sds, 0 < eps -> length sds = n -> unit_params sds -> exists b, blendCornerDeficient eps n sds = Some b /\ length b = n /\ forall x, In x b -> 0 <= x.
Proof.
  intros eps n sds He L U. unfold blendCornerDeficient. match goal with |- context [mapM ?f (seq 0 n)] => set (F := f) end.
  assert (T : forall i, (i < n)%nat -> exists x, F i = Some x /\ 0 <= x).
  { intros i Hi. unfold F. assert (Hn : (nxt n i < n)%nat) by (apply nxt_lt; lia). rewrite (nth_error_nth' sds pzero) by lia. cbn [bind]. rewrite (nth_error_nth' sds pzero) by lia. cbn [bind].
    destruct (U i (nth i sds pzero) ltac:(apply nth_error_nth'; lia)) as (A1 & A2). destruct (U (nxt n i) (nth (nxt n i) sds pzero) ltac:(apply nth_error_nth'; lia)) as (B1 & B2).
    set (a := nth i sds pzero) in *. set (c := nth (nxt n i) sds pzero) in *.
    assert (D : eps <= py a \/ eps <= py c -> exists x, fdiv (py c * hermite 0 (1 - px a) * hermite 0 (py a) + py a * hermite 0 (px c) * hermite 0 (py c)) (py a + py c) = Some x /\ 0 <= x).
    { intros Q. rewrite fdiv_some by lra. eexists. split; [reflexivity|].
      pose proof (blend_range (1 - px a) ltac:(lra)). pose proof (blend_range _ A2). pose proof (blend_range _ B1). pose proof (blend_range _ B2).
      apply Rmult_le_pos; [|left; apply Rinv_0_lt_compat; lra]. apply Rplus_le_le_0_compat; repeat apply Rmult_le_pos; lra. }
    destruct (Rlt_dec (py a) eps); [destruct (Rlt_dec (py c) eps); [exists 1; split; [reflexivity|lra]|]|]; apply D; lra. }
  destruct (mapM_total_nth _ F n) as (b & M1 & M2 & M3); [intros i Hi; destruct (T i Hi) as (x & E & _); exists x; exact E|].
  exists b. split; [exact M1|]. split; [exact M2|]. intros x Hx. apply (In_nth _ _ 0) in Hx. destruct Hx as (i & Hi & <-). rewrite M2 in Hi. destruct (T i Hi) as (x & E & P). pose proof (M3 i Hi) as Q. rewrite E in Q. apply (nth_error_nth _ _ 0) in Q. rewrite Q. exact P.
Qed.
