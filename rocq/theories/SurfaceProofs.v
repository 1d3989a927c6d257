(** Proofs about interpolants, corner corrections and patches on the boundary. *)
Require Import Verif.Base Verif.UtilModel Verif.DomainModel Verif.DomainPolygons Verif.ParamModel Verif.ParamSide
  Verif.RibbonModel Verif.SurfaceModel Verif.SurfaceSpec Verif.BlendProofs.
Require Import Reals List Lia Lra Psatz.
Import ListNotations.
Open Scope R_scope.

(** ** Gamma *)
Definition gv (g : bool) (d : R) : R := if g then d / (2 * d + 1) else d.
Definition gok (g : bool) (d : R) : Prop := g = true -> 2 * d + 1 <> 0.

Lemma gamma_value : forall g d, gok g d -> gamma g d = Some (gv g d).
Proof. intros [|] d H; unfold gamma, gv; [apply fdiv_some; apply H; reflexivity|reflexivity]. Qed.
Lemma gok_nonneg : forall g d, 0 <= d -> gok g d.
Proof. intros g d H _. lra. Qed.
Lemma gv_0 : forall g, gv g 0 = 0.
Proof. intros [|]; unfold gv; [field|reflexivity]. Qed.
Lemma gv_range : forall g d, 0 <= d -> 0 <= gv g d <= d.
Proof.
  intros [|] d H; unfold gv; [|lra]. assert (0 < 2 * d + 1) by lra.
  split; [apply Rmult_le_pos; [lra|apply Rlt_le, Rinv_0_lt_compat; lra]|].
  apply (Rmult_le_reg_r (2 * d + 1)); [lra|]. unfold Rdiv. rewrite Rmult_assoc, Rinv_l by lra. nra.
Qed.
Lemma gv_half : forall d, 0 <= d -> gv true d < 1 / 2.
Proof.
  intros d H; unfold gv. apply (Rmult_lt_reg_r (2 * d + 1)); [lra|]. unfold Rdiv at 1. rewrite Rmult_assoc, Rinv_l by lra. lra.
Qed.
Lemma gv_incr : forall g a b, 0 <= a -> a < b -> gv g a < gv g b.
Proof.
  intros [|] a b Ha Hb; unfold gv; [|exact Hb].
  apply (Rmult_lt_reg_r ((2 * a + 1) * (2 * b + 1))); [nra|].
  replace (a / (2 * a + 1) * ((2 * a + 1) * (2 * b + 1))) with (a * (2 * b + 1)) by (field; lra).
  replace (b / (2 * b + 1) * ((2 * a + 1) * (2 * b + 1))) with (b * (2 * a + 1)) by (field; lra). nra.
Qed.

(** ** Ribbon vocabulary *)
Section Surf.
Variables (eps : R) (sf : surf).
Hypothesis Heps : 0 < eps.
Let n := sf_n sf.
Let g := sf_gamma sf.
Hypothesis Hlen : length (sf_ribbons sf) = n.
Hypothesis Hcross : crosses_defined (sf_ribbons sf).

Definition dummyRib : sribbon := mkRib (mkCurve (fun _ => vzero) (fun _ => vzero) (fun _ _ => 0)) (fun _ => None).
Definition rb (i : nat) : sribbon := nth i (sf_ribbons sf) dummyRib.
Definition cv (i : nat) (s : R) : V3 := cpt (sr_curve (rb i)) s.
Definition xv (i : nat) (s : R) : V3 := match sr_cross (rb i) s with Some x => x | None => vzero end.

Lemma rb_nth : forall i, (i < n)%nat -> nth_error (sf_ribbons sf) i = Some (rb i).
Proof. intros i Hi. apply nth_error_nth'. rewrite Hlen. exact Hi. Qed.
Lemma xv_some : forall i s, (i < n)%nat -> 0 <= s <= 1 -> sr_cross (rb i) s = Some (xv i s).
Proof. intros i s Hi Hs. destruct (Hcross i (rb i) s (rb_nth i Hi) Hs) as [x Hx]. unfold xv. rewrite Hx. reflexivity. Qed.

Definition siv (i : nat) (s d : R) : V3 := cv i (clamp s 0 1) +v xv i (clamp s 0 1) *v Rmax (gv g d) 0.

Lemma side_value : forall i s d, (i < n)%nat -> gok g d -> sideInterpolant sf i s d = Some (siv i s d).
Proof.
  intros i s d Hi Hg. unfold sideInterpolant. fold g. rewrite (gamma_value g d Hg). cbn [bind].
  rewrite (rb_nth i Hi). cbn [bind]. unfold ribbonEval. cbn [px py].
  rewrite (xv_some i _ Hi) by (apply clamp_range; lra). reflexivity.
Qed.

Lemma siv_boundary : forall i s, siv i s 0 = cv i (clamp s 0 1).
Proof. intros i s. unfold siv. rewrite gv_0, Rmax_left by lra. v3ring. Qed.

(** ** With corner data *)
Hypothesis H2 : (2 <= n)%nat.
Hypothesis Hready : ready sf.

Definition point (i : nat) : V3 := cv i 1.
Lemma ends : forall i, (i < n)%nat -> cv i 1 = cv (nxt n i) 0 /\ xv i 1 = cder (sr_curve (rb (nxt n i))) 0 /\
  xv (nxt n i) 0 = vopp (cder (sr_curve (rb i)) 1).
Proof.
  intros i Hi. destruct Hready as [(_ & _ & E) _]. fold n in E.
  destruct (E i (rb i) (rb (nxt n i)) (rb_nth i Hi) (rb_nth _ (nxt_lt n i ltac:(lia)))) as (A & B & C).
  unfold cv, xv. rewrite B, C. auto.
Qed.

Lemma corner_data : forall i, (i < n)%nat -> exists t1 t2,
  nth_error (sf_corners sf) i = Some (mkCorner (cv i 1) (xv (nxt n i) 0) (xv i 1) t1 t2).
Proof.
  intros i Hi. destruct Hready as [_ U]. fold n in U. unfold updateCorners in U.
  assert (S := mapM_nth _ _ _ i i U). rewrite S by
    (rewrite (nth_error_nth' (seq 0 n) 0%nat) by (rewrite seq_length; exact Hi); rewrite seq_nth by exact Hi; reflexivity).
  unfold updateCorner. pose proof (nxt_lt n i ltac:(lia)) as Ln.
  rewrite (rb_nth i Hi), (rb_nth _ Ln). cbn [bind]. assert (K : 0 <= corner_step <= 1) by (unfold corner_step; lra).
  assert (K' : 0 <= 1 - corner_step <= 1) by lra.
  rewrite !xv_some by (assumption || lra). cbn [bind].
  destruct (ends i Hi) as (E1 & E2 & E3). do 2 eexists. rewrite <- E2, <- E3. reflexivity.
Qed.

(** The corner correction is defined at all admissible arguments, and it is linear
    on the two sides. *)
Lemma twist_total : forall a b f h, exists t, rationalTwist eps a b f h = Some t.
Proof.
  intros a b f h. unfold rationalTwist. destruct (Rlt_dec (Rabs (a + b)) eps) as [L|L]; [eexists; reflexivity|].
  rewrite vdiv_some; [eexists; reflexivity|]. intros E. apply L. rewrite E, Rabs_R0. exact Heps.
Qed.

Lemma correction_total : forall i a b, (i < n)%nat -> gok g a -> gok g b -> exists p, cornerCorrection eps sf i a b = Some p.
Proof.
  intros i a b Hi Ha Hb. unfold cornerCorrection. fold g. rewrite !gamma_value by assumption. cbn [bind].
  destruct (corner_data i Hi) as (t1 & t2 & ->). cbn [bind cn_twist1 cn_twist2].
  destruct (twist_total (clamp (gv g a) 0 1) (clamp (gv g b) 0 1) t2 t1) as [t ->]. eexists; reflexivity.
Qed.

Lemma clamp_gv : forall t, 0 <= t <= 1 -> clamp (gv g t) 0 1 = Rmax (gv g t) 0.
Proof.
  intros t Ht. pose proof (gv_range g t ltac:(lra)). rewrite clamp_id by lra. rewrite Rmax_left by lra. reflexivity.
Qed.

Lemma clamp_0 : clamp 0 0 1 = 0. Proof. apply clamp_id; lra. Qed.
Lemma clamp_1 : clamp 1 0 1 = 1. Proof. apply clamp_id; lra. Qed.

Lemma correction_first : forall i t, (i < n)%nat -> 0 <= t <= 1 ->
  cornerCorrection eps sf i t 0 = Some (siv (nxt n i) 0 t).
Proof.
  intros i t Hi Ht. unfold cornerCorrection. fold g. rewrite !gamma_value by (apply gok_nonneg; lra). cbn [bind].
  destruct (corner_data i Hi) as (t1 & t2 & ->). cbn [bind cn_twist1 cn_twist2 cn_point cn_tan1 cn_tan2].
  rewrite gv_0, clamp_0. destruct (twist_total (clamp (gv g t) 0 1) 0 t2 t1) as [w ->]. cbn [bind].
  rewrite (clamp_gv t Ht). unfold siv. rewrite clamp_0. destruct (ends i Hi) as (E & _). rewrite E.
  apply (f_equal Some). v3ring.
Qed.

Lemma correction_second : forall i t, (i < n)%nat -> 0 <= t <= 1 ->
  cornerCorrection eps sf i 0 t = Some (siv i 1 t).
Proof.
  intros i t Hi Ht. unfold cornerCorrection. fold g. rewrite !gamma_value by (apply gok_nonneg; lra). cbn [bind].
  destruct (corner_data i Hi) as (t1 & t2 & ->). cbn [bind cn_twist1 cn_twist2 cn_point cn_tan1 cn_tan2].
  rewrite gv_0, clamp_0. destruct (twist_total 0 (clamp (gv g t) 0 1) t2 t1) as [w ->]. cbn [bind].
  rewrite (clamp_gv t Ht). unfold siv. rewrite clamp_1. apply (f_equal Some). v3ring.
Qed.

Lemma interp_value : forall i sds a b c, (i < n)%nat -> nth_error sds i = Some a -> nth_error sds (nxt n i) = Some b ->
  0 <= px a <= 1 -> 0 <= px b <= 1 -> cornerCorrection eps sf i (1 - px a) (px b) = Some c ->
  cornerInterpolant eps sf i sds = Some (siv i (px a) (px b) +v siv (nxt n i) (px b) (1 - px a) -v c).
Proof.
  intros i sds a b c Hi Ea Eb Ha Hb Hc. unfold cornerInterpolant. fold n. rewrite Ea, Eb. cbn [bind].
  rewrite (side_value i) by (assumption || (apply gok_nonneg; lra)). cbn [bind].
  rewrite (side_value (nxt n i)) by ((apply nxt_lt; lia) || (apply gok_nonneg; lra)). cbn [bind].
  rewrite Hc. reflexivity.
Qed.

Lemma interp_total : forall i sds, (i < n)%nat -> length sds = n -> tame sds ->
  exists p, cornerInterpolant eps sf i sds = Some p.
Proof.
  intros i sds Hi L T. pose proof (nxt_lt n i ltac:(lia)) as Ln.
  destruct (nth_error_ex _ sds i ltac:(lia)) as [a Ea]. destruct (nth_error_ex _ sds (nxt n i) ltac:(lia)) as [b Eb].
  destruct (T _ _ Ea). destruct (T _ _ Eb).
  destruct (correction_total i (1 - px a) (px b) Hi) as [c Hc]; try (apply gok_nonneg; lra).
  eexists. apply (interp_value i sds a b c); assumption.
Qed.

(** The corner interpolant reproduces its two boundary curves. *)
Lemma interp_first : forall i sds s dd d1, (i < n)%nat -> 0 <= s <= 1 ->
  nth_error sds i = Some (mkV2 s dd) -> nth_error sds (nxt n i) = Some (mkV2 0 d1) ->
  cornerInterpolant eps sf i sds = Some (cv i s).
Proof.
  intros i sds s dd d1 Hi Hs Ea Eb.
  rewrite (interp_value i sds _ _ (siv (nxt n i) 0 (1 - s)) Hi Ea Eb); cbn [px]; try lra.
  - rewrite siv_boundary, clamp_id by lra. apply (f_equal Some). v3ring.
  - apply correction_first; [exact Hi|lra].
Qed.

Lemma interp_second : forall i sds s d0 d1, (i < n)%nat -> 0 <= s <= 1 ->
  nth_error sds i = Some (mkV2 1 d0) -> nth_error sds (nxt n i) = Some (mkV2 s d1) ->
  cornerInterpolant eps sf i sds = Some (cv (nxt n i) s).
Proof.
  intros i sds s d0 d1 Hi Hs Ea Eb.
  rewrite (interp_value i sds _ _ (siv i 1 s) Hi Ea Eb); cbn [px]; try lra.
  - replace (1 - 1) with 0 by ring. rewrite siv_boundary, clamp_id by lra. apply (f_equal Some). v3ring.
  - replace (1 - 1) with 0 by ring. apply correction_second; [exact Hi|lra].
Qed.
End Surf.
