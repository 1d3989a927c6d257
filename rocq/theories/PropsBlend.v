(** Properties of the blending functions and interpolants: C26 - C29. *)
Require Import Verif.Base Verif.UtilModel Verif.DomainModel Verif.ParamModel Verif.ParamSide Verif.RibbonModel Verif.SurfaceModel
  Verif.SurfaceSpec Verif.BlendProofs Verif.SurfaceProofs Verif.SurfacePatches Verif.BlendProps.
Require Import Reals List Lia Lra.
Import ListNotations.
Open Scope R_scope.

(** ** C26: singular side blends *)
Theorem C26_partition : forall eps sds, 0 < eps -> sds <> [] ->
  exists b, blendSideSingular eps sds = Some b /\ length b = length sds /\
    (forall w, In w b -> 0 <= w) /\ weights_sum b 1.
Proof.
  intros eps sds He Hn. destruct (sideSingular_partition eps sds He) as (b & E & L & P & S).
  { destruct sds; [congruence|simpl; lia]. }
  exists b. split; [exact E|]. split; [exact L|]. split; [|apply sums_weights; exact S].
  intros w I. apply In_nth_error in I. destruct I as [i I]. apply (P i w I).
Qed.
Print Assumptions C26_partition.

(** If some side is near, the weight is shared equally among the near sides. *)
Theorem C26_near_sides : forall eps sds b i, 0 < eps -> blendSideSingular eps sds = Some b -> near eps sds i ->
  exists k, (0 < k)%nat /\ k = length (filter (fun sd => if Rlt_dec (py sd) eps then true else false) sds) /\
  forall j w, nth_error b j = Some w -> (near eps sds j -> w = 1 / INR k) /\ (away eps sds j -> w = 0).
Proof. exact sideSingular_near. Qed.
Print Assumptions C26_near_sides.

(** Away from the sides a nearer side has a larger weight. *)
Theorem C26_monotone : forall eps sds b i j di dj wi wj, 0 < eps -> blendSideSingular eps sds = Some b ->
  (forall k, (k < length sds)%nat -> away eps sds k) ->
  nth_error sds i = Some di -> nth_error sds j = Some dj -> nth_error b i = Some wi -> nth_error b j = Some wj ->
  py di < py dj -> wj < wi.
Proof.
  intros eps sds b i j di dj wi wj He E F Ei Ej Hi Hj D.
  assert (Li : (i < length sds)%nat) by (apply nth_error_Some; congruence).
  assert (Lj : (j < length sds)%nat) by (apply nth_error_Some; congruence).
  assert (F' : forall k, (k < length sds)%nat -> eps <= dpar sds k) by (intros k Hk; apply away_dpar, F, Hk).
  pose proof (sideSingular_value eps sds He ltac:(lia)) as V. cbn zeta in V. rewrite (close_none eps sds F'), E in V.
  cbn [Nat.ltb Nat.leb] in V. injection V as V. rewrite V in Hi, Hj. apply tab_inv in Hi, Hj. destruct Hi as [_ <-], Hj as [_ <-].
  assert (Di : dpar sds i = py di) by (unfold dpar; rewrite (nth_error_nth sds i pzero Ei); reflexivity).
  assert (Dj : dpar sds j = py dj) by (unfold dpar; rewrite (nth_error_nth sds j pzero Ej); reflexivity).
  pose proof (F' i Li). pose proof (F' j Lj). rewrite Di, Dj in *.
  assert (0 < rsum (length sds) (fun k => 1 / dpar sds k ^ 2)).
  { apply rsum_pos; [lia|]. intros k Hk. apply inv_sq_pos. specialize (F' k Hk). lra. }
  apply Rmult_lt_compat_r; [apply Rinv_0_lt_compat; assumption|].
  unfold Rdiv. rewrite !Rmult_1_l. apply Rinv_lt_contravar; [apply Rmult_lt_0_compat; nra|nra].
Qed.
Print Assumptions C26_monotone.

Example C26_example : blendSideSingular (1/10) [mkV2 0 1; mkV2 0 2] = Some [4/5; 1/5].
Proof.
  unfold blendSideSingular, closeCount. cbn [filter py]. destruct (Rlt_dec 1 (1/10)); [lra|]. destruct (Rlt_dec 2 (1/10)); [lra|].
  cbn [length Nat.ltb Nat.leb mapM py]. unfold pow_2. rewrite !fdiv_some by lra. cbn [bind mapM]. unfold accumulate.
  cbn [fold_left]. rewrite !fdiv_some by (apply Rgt_not_eq; lra). cbn [bind]. apply (f_equal Some).
  repeat (apply (f_equal2 cons); [field; lra|]). reflexivity.
Qed.

(** ** C27: corner blends *)
Theorem C27_total : forall eps sds n, 0 < eps -> length sds = n -> (2 <= n)%nat ->
  exists b, blendCorner eps n sds = Some b /\ length b = n /\ forall w, In w b -> 0 <= w.
Proof.
  intros eps sds n He L H2. destruct (corner_total eps sds n He L H2) as (b & E & Lb & P).
  exists b. split; [exact E|]. split; [exact Lb|]. intros w I. apply In_nth_error in I. destruct I as [i I]. apply (P i w I).
Qed.
Print Assumptions C27_total.

Theorem C27_partition : forall eps sds n b, 0 < eps -> length sds = n -> (3 <= n)%nat -> blendCorner eps n sds = Some b ->
  (forall i, (i < n)%nat -> away eps sds i) \/
  (exists e, (e < n)%nat /\ near eps sds e /\ forall j, (j < n)%nat -> j <> e -> away eps sds j) \/
  (exists e, (e < n)%nat /\ near eps sds e /\ near eps sds (nxt n e) /\
     forall j, (j < n)%nat -> j <> e -> j <> nxt n e -> away eps sds j) ->
  weights_sum b 1.
Proof.
  intros eps sds n b He L H3 E [F|[(e & Hi & N & F)|(e & Hi & N & N' & F)]]; apply sums_weights.
  - destruct (corner_far_sum eps sds n He L ltac:(lia)) as (b' & E' & S); [intros; apply away_dpar, F; assumption|].
    rewrite E in E'. injection E' as <-. exact S.
  - destruct (corner_one_sum eps sds n He L ltac:(lia) e Hi (near_dpar _ _ _ N)) as (b' & E' & S); [intros; apply away_dpar, F; assumption|].
    rewrite E in E'. injection E' as <-. exact S.
  - rewrite (corner_adjacent eps sds n L ltac:(lia) H3 e Hi (near_dpar _ _ _ N) (near_dpar _ _ _ N')) in E by (intros; apply away_dpar, F; assumption).
    injection E as <-. apply sumsTo_tab. rewrite (rsum_single n _ e Hi); [rewrite Nat.eqb_refl; reflexivity|].
    intros j Hj Hne. destruct (Nat.eqb_spec j e); [contradiction|reflexivity].
Qed.
Print Assumptions C27_partition.

(** On a side the two corners of that side share the weight, the nearer
    neighbouring side giving the larger share. *)
Theorem C27_on_side : forall eps sds n e b, 0 < eps -> length sds = n -> (2 <= n)%nat -> (e < n)%nat -> near eps sds e ->
  (forall j, (j < n)%nat -> j <> e -> away eps sds j) -> blendCorner eps n sds = Some b ->
  forall i w, nth_error b i = Some w ->
    (i <> e -> i <> prv n e -> w = 0) /\
    (forall dn dp, nth_error sds (nxt n e) = Some dn -> nth_error sds (prv n e) = Some dp -> i = e ->
       w = py dp ^ 2 / (py dp ^ 2 + py dn ^ 2)).
Proof.
  intros eps sds n e b He L H2 Hi N F E i w Hw.
  destruct (corner_one eps sds n He L H2 e Hi (near_dpar _ _ _ N)) as (A & B & V); [intros; apply away_dpar, F; assumption|].
  rewrite E in V. injection V as V. rewrite V in Hw. apply tab_inv in Hw. destruct Hw as [Li <-]. split.
  - intros N1 N2. destruct (Nat.eqb_spec i e); [contradiction|]. destruct (Nat.eqb_spec i (prv n e)); [contradiction|reflexivity].
  - intros dn dp En Ep ->. rewrite Nat.eqb_refl.
    pose proof (F (nxt n e) (nxt_lt n e ltac:(lia)) (nxt_neq n e H2 Hi)) as Fn.
    pose proof (F (prv n e) (prv_lt n e ltac:(lia)) (prv_neq n e H2 Hi)) as Fp.
    apply away_dpar in Fn, Fp. unfold dpar in Fn, Fp |- *. rewrite (nth_error_nth _ _ pzero En), (nth_error_nth _ _ pzero Ep) in *. 
    field. split; [|lra]. nra.
Qed.
Print Assumptions C27_on_side.

(** Two near sides without a common corner: every weight is zero. *)
Theorem C27_nonadjacent_zero : forall eps sds n e f, 0 < eps -> length sds = n -> (2 <= n)%nat -> (e < n)%nat -> (f < n)%nat ->
  f <> e -> f <> nxt n e -> e <> nxt n f -> near eps sds e -> near eps sds f ->
  (forall j, (j < n)%nat -> j <> e -> j <> f -> away eps sds j) ->
  exists b, blendCorner eps n sds = Some b /\ weights_sum b 0 /\ forall w, In w b -> w = 0.
Proof.
  intros eps sds n e f He L H2 Hi Hf N1 N2 N3 Ne Nf F.
  exists (tabulate n (fun _ => 0)). split; [|split].
  - apply (corner_nonadjacent eps sds n L H2 e f); auto using near_dpar. intros; apply away_dpar, F; assumption.
  - apply sums_weights, sumsTo_tab. apply rsum_zero. reflexivity.
  - intros w I. apply In_nth_error in I. destruct I as [i I]. apply tab_inv in I. destruct I as [_ <-]. reflexivity.
Qed.
Print Assumptions C27_nonadjacent_zero.

(** Three consecutive near sides: the weights add up to two. *)
Theorem C27_three_consecutive : forall eps sds n e, 0 < eps -> length sds = n -> (4 <= n)%nat -> (e < n)%nat ->
  near eps sds e -> near eps sds (nxt n e) -> near eps sds (prv n e) ->
  (forall j, (j < n)%nat -> j <> e -> j <> nxt n e -> j <> prv n e -> away eps sds j) ->
  exists b, blendCorner eps n sds = Some b /\ weights_sum b 2.
Proof.
  intros eps sds n e He L H4 Hi N1 N2 N3 F.
  destruct (corner_three eps sds n L ltac:(lia) H4 e Hi) as (b & E & S); auto using near_dpar.
  - intros; apply away_dpar, F; assumption.
  - exists b. split; [exact E|apply sums_weights, S].
Qed.
Print Assumptions C27_three_consecutive.

Example C27_example : blendCorner (1/10) 3 [mkV2 0 0; mkV2 0 1; mkV2 0 2] = Some [4/5; 0; 1/5].
Proof.
  unfold blendCorner, closeCount. cbn [filter py]. destruct (Rlt_dec 0 (1/10)); [|lra].
  destruct (Rlt_dec 1 (1/10)); [lra|]. destruct (Rlt_dec 2 (1/10)); [lra|].
  change (nxt 3) with (fun i => nxt 3 i). cbn [length Nat.ltb Nat.leb seq mapM].
  change (nxt 3 0) with 1%nat. change (nxt 3 1) with 2%nat. change (nxt 3 2) with 0%nat. change (prv 3 0) with 2%nat.
  change (prv 3 1) with 0%nat. change (prv 3 2) with 1%nat.
  cbn [nth_error bind py]. destruct (Rlt_dec 0 (1/10)); [|lra]. destruct (Rlt_dec 1 (1/10)); [lra|]. destruct (Rlt_dec 2 (1/10)); [lra|].
  change (nxt 3 0) with 1%nat. cbn [nth_error bind py].
  unfold pow_2. rewrite !fdiv_some by lra. cbn [bind]. rewrite !fdiv_some by (apply Rgt_not_eq; lra). cbn [bind].
  apply (f_equal Some). repeat (apply (f_equal2 cons); [field|]). reflexivity.
Qed.

(** ** C28: quadratic dominance *)
Theorem C28_weight : forall eps sds i, 0 < eps -> (i < length sds)%nat ->
  (forall j, (j < length sds)%nat -> away eps sds j) ->
  exists b w, blendSideSingular eps sds = Some b /\ nth_error b i = Some w /\
    0 <= 1 - w <= dpar sds i ^ 2 * rsum (length sds) (fun j => if Nat.eqb j i then 0 else 1 / dpar sds j ^ 2).
Proof. intros eps sds i He Hi F. apply (dominance eps sds i He Hi). intros j Hj. apply away_dpar, F, Hj. Qed.
Print Assumptions C28_weight.

(** In every direction [v], the side-based patch differs from ribbon [i] by at
    most a multiple of the square of the distance from side [i]. *)
Theorem C28_patch : forall eps sf sds i r v, 0 < eps -> (i < sf_n sf)%nat -> length (sf_ribbons sf) = sf_n sf ->
  crosses_defined (sf_ribbons sf) -> length sds = sf_n sf -> tame sds ->
  (forall j, (j < sf_n sf)%nat -> eps <= dpar sds j) ->
  (forall j, (j < sf_n sf)%nat -> sideInterpolant sf j (spar sds j) (dpar sds j) = Some (r j)) ->
  exists p, sideBased eps sf sds = Some p /\
    Rabs (vdot (p -v r i) v) <= dpar sds i ^ 2 *
      rsum (sf_n sf) (fun j => if Nat.eqb j i then 0 else Rabs (vdot (r j -v r i) v) / dpar sds j ^ 2).
Proof. exact dominance_patch. Qed.
Print Assumptions C28_patch.

Example C28_example : exists b w, blendSideSingular (1/10) [mkV2 0 1; mkV2 0 2] = Some b /\ nth_error b 0 = Some w /\
  0 <= 1 - w <= 1 / 4.
Proof. rewrite C26_example. eexists; exists (4/5). split; [reflexivity|]. split; [reflexivity|lra]. Qed.

(** ** C29: gamma and corner data on the boundary *)
Theorem C29_gamma : forall g, gamma g 0 = Some 0 /\
  (forall d, 0 <= d -> exists x, gamma g d = Some x /\ 0 <= x <= d /\ (g = true -> x < 1 / 2)) /\
  (forall a b x y, 0 <= a -> a < b -> gamma g a = Some x -> gamma g b = Some y -> x < y).
Proof.
  intros g. split; [rewrite gamma_value by (apply gok_nonneg; lra); rewrite gv_0; reflexivity|]. split.
  - intros d Hd. exists (gv g d). split; [apply gamma_value, gok_nonneg, Hd|]. split; [apply gv_range, Hd|].
    intros ->. apply gv_half, Hd.
  - intros a b x y Ha Hb. rewrite !gamma_value by (apply gok_nonneg; lra). intros Ex Ey. injection Ex as <-. injection Ey as <-.
    apply gv_incr; assumption.
Qed.
Print Assumptions C29_gamma.

(** The ribbon surface contains the boundary curve. *)
Theorem C29_side : forall sf i s p, length (sf_ribbons sf) = sf_n sf -> crosses_defined (sf_ribbons sf) -> (i < sf_n sf)%nat ->
  0 <= s <= 1 -> side_point sf i s p -> sideInterpolant sf i s 0 = Some p.
Proof.
  intros sf i s p L C Hi Hs (r & E & <-). rewrite (side_value sf L C i s 0 Hi) by (apply gok_nonneg; lra).
  rewrite siv_boundary, clamp_id by lra. unfold cv. rewrite (rb_nth sf L i Hi) in E. injection E as <-. reflexivity.
Qed.
Print Assumptions C29_side.

(** On the boundary of a corner patch the correction term is the ribbon of the
    neighbouring side. *)
Theorem C29_correction : forall eps sf i t, 0 < eps -> (2 <= sf_n sf)%nat -> ready sf -> (i < sf_n sf)%nat -> 0 <= t <= 1 ->
  cornerCorrection eps sf i t 0 = sideInterpolant sf (nxt (sf_n sf) i) 0 t /\
  cornerCorrection eps sf i 0 t = sideInterpolant sf i 1 t.
Proof.
  intros eps sf i t He H2 Rd Hi Ht. destruct Rd as [Cp U] eqn:Q. clear Q. assert (Rd' : ready sf) by (split; assumption).
  destruct Cp as (L & C & _).
  rewrite (correction_first eps sf He L C H2 Rd' i t Hi Ht), (correction_second eps sf He L C H2 Rd' i t Hi Ht).
  rewrite !(side_value sf L C) by (assumption || (apply nxt_lt; lia) || (apply gok_nonneg; lra)). auto.
Qed.
Print Assumptions C29_correction.

Theorem C29_corner_interpolant : forall eps sf i sds s, 0 < eps -> (2 <= sf_n sf)%nat -> ready sf -> (i < sf_n sf)%nat -> 0 <= s <= 1 ->
  (forall p d0 d1, side_point sf i s p -> nth_error sds i = Some (mkV2 s d0) -> nth_error sds (nxt (sf_n sf) i) = Some (mkV2 0 d1) ->
     cornerInterpolant eps sf i sds = Some p) /\
  (forall p d0 d1, side_point sf (nxt (sf_n sf) i) s p -> nth_error sds i = Some (mkV2 1 d0) ->
     nth_error sds (nxt (sf_n sf) i) = Some (mkV2 s d1) -> cornerInterpolant eps sf i sds = Some p).
Proof.
  intros eps sf i sds s He H2 Rd Hi Hs. destruct (proj1 Rd) as (L & C & _). pose proof (nxt_lt (sf_n sf) i ltac:(lia)) as Ln. split.
  - intros p d0 d1 (r & E & <-) E0 E1. rewrite (interp_first eps sf He L C H2 Rd i sds s d0 d1 Hi Hs E0 E1).
    unfold cv. rewrite (rb_nth sf L i Hi) in E. injection E as <-. reflexivity.
  - intros p d0 d1 (r & E & <-) E0 E1. rewrite (interp_second eps sf He L C H2 Rd i sds s d0 d1 Hi Hs E0 E1).
    unfold cv. rewrite (rb_nth sf L _ Ln) in E. injection E as <-. reflexivity.
Qed.
Print Assumptions C29_corner_interpolant.

(** A surface with straight sides over any closed polygon is an instance. *)
Example C29_example_ready : forall g a b c, exists cs, ready (mkSurf 3 g (lineRibs [a; b; c]) cs).
Proof.
  intros g a b c. destruct (lineRibs_ok [a; b; c] ltac:(simpl; lia)) as (C & cs & U). exists cs. split; [exact C|exact U].
Qed.
Example C29_example : gamma true 1 = Some (1/3) /\ gamma false 1 = Some 1.
Proof. unfold gamma. rewrite fdiv_some by lra. split; [apply (f_equal Some); field|reflexivity]. Qed.
