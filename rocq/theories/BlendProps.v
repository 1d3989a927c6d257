(** Consequences of the blend lemmas in the vocabulary of SurfaceSpec. *)
Require Import Verif.Base Verif.GeomSpec Verif.UtilModel Verif.DomainModel Verif.DomainPolygons Verif.ParamModel Verif.ParamSide Verif.RibbonModel
  Verif.SurfaceModel Verif.SurfaceSpec Verif.BlendProofs Verif.SurfaceProofs Verif.SurfacePatches.
Require Import Reals List Lia Lra.
Import ListNotations.
Open Scope R_scope.

Lemma fold_rsum : forall l, fold_right Rplus 0 l = rsum (length l) (fun i => nth i l 0).
Proof.
  induction l as [|a l IH]; [reflexivity|]. cbn [fold_right length]. rewrite rsum_first. cbn [nth]. rewrite IH. reflexivity.
Qed.
Lemma sums_weights : forall b x, sumsTo b x <-> weights_sum b x.
Proof. intros b x. unfold weights_sum, sumsTo. rewrite fold_rsum. reflexivity. Qed.

Lemma near_dpar : forall eps sds i, near eps sds i -> dpar sds i < eps.
Proof. intros eps sds i (sd & E & H). unfold dpar. rewrite (nth_error_nth sds i pzero E). exact H. Qed.
Lemma away_dpar : forall eps sds i, away eps sds i -> eps <= dpar sds i.
Proof. intros eps sds i (sd & E & H). unfold dpar. rewrite (nth_error_nth sds i pzero E). exact H. Qed.
Lemma near_lt : forall eps sds i, near eps sds i -> (i < length sds)%nat.
Proof. intros eps sds i (sd & E & H). apply nth_error_Some. congruence. Qed.

(** All the weight goes to the near sides, equally. *)
Lemma sideSingular_near : forall eps sds b i, 0 < eps -> blendSideSingular eps sds = Some b -> near eps sds i ->
  exists k, (0 < k)%nat /\ k = length (filter (fun sd => if Rlt_dec (py sd) eps then true else false) sds) /\
  forall j w, nth_error b j = Some w -> (near eps sds j -> w = 1 / INR k) /\ (away eps sds j -> w = 0).
Proof.
  intros eps sds b i He E N. pose proof (near_lt _ _ _ N) as Li. pose proof (near_dpar _ _ _ N) as Di.
  pose proof (sideSingular_value eps sds He ltac:(lia)) as V. cbn zeta in V. rewrite E in V.
  pose proof (close_some eps sds i Li Di) as C. exists (closeCount eps sds). split; [exact C|]. split; [reflexivity|].
  intros j w Hw. destruct (Nat.ltb_spec 0 (closeCount eps sds)) as [_|]; [|lia].
  injection V as V. rewrite V in Hw. apply tab_inv in Hw. destruct Hw as [Hj <-]. rewrite <- closeCount_rsum.
  split; intros K; unfold isclose.
  - apply near_dpar in K. destruct (Rlt_dec _ _); [reflexivity|lra].
  - apply away_dpar in K. destruct (Rlt_dec _ _); [lra|]. unfold Rdiv; ring.
Qed.

Lemma rsum_abs : forall n f, Rabs (rsum n f) <= rsum n (fun i => Rabs (f i)).
Proof.
  induction n as [|n IH]; intros f; [simpl; rewrite Rabs_R0; lra|]. rewrite !rsum_S.
  eapply Rle_trans; [apply Rabs_triang|]. specialize (IH f). lra.
Qed.

Lemma vdot_vsum : forall n f v, vdot (vsum n f) v = rsum n (fun i => vdot (f i) v).
Proof.
  intros n f v. induction n as [|n IH]; [unfold vdot; simpl; ring|]. rewrite rsum_S, <- IH. unfold vdot; simpl; ring.
Qed.

(** The patch against one of its ribbons. *)
Lemma dominance_patch : forall eps sf sds i r v, 0 < eps -> (i < sf_n sf)%nat -> length (sf_ribbons sf) = sf_n sf ->
  crosses_defined (sf_ribbons sf) -> length sds = sf_n sf -> tame sds ->
  (forall j, (j < sf_n sf)%nat -> eps <= dpar sds j) ->
  (forall j, (j < sf_n sf)%nat -> sideInterpolant sf j (spar sds j) (dpar sds j) = Some (r j)) ->
  exists p, sideBased eps sf sds = Some p /\
    Rabs (vdot (p -v r i) v) <= dpar sds i ^ 2 *
      rsum (sf_n sf) (fun j => if Nat.eqb j i then 0 else Rabs (vdot (r j -v r i) v) / dpar sds j ^ 2).
Proof.
  intros eps sf sds i r v He Hi Lr Cr Ls T F Hr.
  destruct (sideBased_value eps sf He Lr Cr sds Ls (fun i sd E => proj2 (T i sd E)) ltac:(lia)) as (b & E & Lb & ->).
  eexists; split; [reflexivity|].
  pose proof (sideSingular_value eps sds He ltac:(lia)) as V. cbn zeta in V. rewrite E in V.
  rewrite (close_none eps sds) in V by (rewrite Ls; exact F). cbn [Nat.ltb Nat.leb] in V. rewrite Ls in V.
  set (n := sf_n sf) in *. set (W := rsum n (fun j => 1 / dpar sds j ^ 2)) in *.
  assert (P : forall j, (j < n)%nat -> 0 < 1 / dpar sds j ^ 2).
  { intros j Hj. apply inv_sq_pos. specialize (F j Hj). lra. }
  assert (WP : 0 < W) by (apply rsum_pos; [lia|exact P]).
  assert (Wi : 1 / dpar sds i ^ 2 <= W).
  { unfold W. rewrite (rsum_split1 _ _ i Hi).
    assert (0 <= rsum n (fun j => if Nat.eqb j i then 0 else 1 / dpar sds j ^ 2)); [|lra].
    apply rsum_nonneg. intros j Hj. destruct (Nat.eqb j i); [lra|]. left; apply P; exact Hj. }
  assert (Bv : forall j, (j < n)%nat -> nth j b 0 = (1 / dpar sds j ^ 2) / W) by (intros j Hj; apply (some_tab_nth b n _ j V Hj)).
  assert (X : vdot (vsum n (fun j => siv sf j (spar sds j) (dpar sds j) *v nth j b 0) -v r i) v =
              rsum n (fun j => (if Nat.eqb j i then 0 else vdot (r j -v r i) v * ((1 / dpar sds j ^ 2) / W)))).
  { replace (vdot (vsum n (fun j => siv sf j (spar sds j) (dpar sds j) *v nth j b 0) -v r i) v)
      with (vdot (vsum n (fun j => siv sf j (spar sds j) (dpar sds j) *v nth j b 0)) v - vdot (r i) v) by (unfold vdot; simpl; ring).
    rewrite vdot_vsum.
    replace (vdot (r i) v) with (rsum n (fun j => vdot (r i) v * ((1 / dpar sds j ^ 2) / W))).
    2:{ rewrite rsum_scal, rsum_div. fold W. field. lra. }
    rewrite <- rsum_minus. apply rsum_ext. intros j Hj. rewrite Bv by exact Hj.
    pose proof (Hr j Hj) as Hrj. rewrite (side_value sf Lr Cr j) in Hrj; [|exact Hj|apply gok_nonneg; specialize (F j Hj); lra].
    injection Hrj as <-. destruct (Nat.eqb_spec j i) as [->|N]; [|unfold vdot; simpl; ring].
    pose proof (Hr i Hi) as Hri. rewrite (side_value sf Lr Cr i) in Hri; [|exact Hi|apply gok_nonneg; specialize (F i Hi); lra].
    injection Hri as <-. unfold vdot; simpl; ring. }
  rewrite X. eapply Rle_trans; [apply rsum_abs|]. rewrite <- rsum_scal. apply rsum_le. intros j Hj.
  destruct (Nat.eqb j i); [rewrite Rabs_R0; lra|]. rewrite Rabs_mult.
  pose proof (P j Hj) as Pj. assert (Dj : 0 < dpar sds j) by (specialize (F j Hj); lra). assert (Di : 0 < dpar sds i) by (specialize (F i Hi); lra).
  assert (Q : 0 < (1 / dpar sds j ^ 2) / W) by (apply Rdiv_lt_0_compat; lra).
  rewrite (Rabs_right ((1 / dpar sds j ^ 2) / W)) by lra.
  assert (Q2 : / W <= dpar sds i ^ 2).
  { replace (dpar sds i ^ 2) with (/ (1 / dpar sds i ^ 2)) by (field; lra). apply Rinv_le_contravar; [apply P; exact Hi|exact Wi]. }
  pose proof (Rabs_pos (vdot (r j -v r i) v)) as Ra. set (A := Rabs _) in *.
  replace (A * (1 / dpar sds j ^ 2 / W)) with (A * (1 / dpar sds j ^ 2) * / W) by (unfold Rdiv; ring).
  replace (dpar sds i ^ 2 * (A / dpar sds j ^ 2)) with (A * (1 / dpar sds j ^ 2) * dpar sds i ^ 2) by (field; lra).
  apply Rmult_le_compat_l; [|exact Q2]. apply Rmult_le_pos; lra.
Qed.

(** ** The sample surface is ready for evaluation. *)
Lemma lineRibs_ok : forall ps, (2 <= length ps)%nat ->
  compatible_loop (length ps) (lineRibs ps) /\ exists c, updateCorners (length ps) (lineRibs ps) = Some c.
Proof.
  intros ps H2. set (n := length ps) in *.
  assert (C : compatible_loop n (lineRibs ps)).
  { split; [apply tabulate_length|]. split.
    - intros i r s E _. unfold lineRibs in E. apply tab_inv in E. destruct E as [_ <-]. eexists; reflexivity.
    - intros i r rp E E'. unfold lineRibs in E, E'. apply tab_inv in E, E'. destruct E as [Hi <-], E' as [Hn <-].
      fold n in Hi, Hn |- *. unfold lineRib. fold n. cbn [sr_curve sr_cross lineCurve cpt cder]. rewrite (prv_nxt n i Hi). 
      split; [unfold affine3; v3ring|]. split; apply (f_equal Some); unfold affine3; v3ring. }
  split; [exact C|]. eexists. unfold updateCorners. apply mapM_seq. intros i Hi. unfold updateCorner.
  unfold lineRibs. rewrite !(tabulate_nth_error) by (try apply nxt_lt; fold n; lia). cbn [bind]. unfold lineRib.
  cbn [sr_curve sr_cross bind]. reflexivity.
Qed.
