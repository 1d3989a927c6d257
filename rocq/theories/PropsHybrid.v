(** Properties of hybrid patches: C66. *)
From Verif Require Import Base UtilModel UtilSpec UtilProofs DomainModel DomainProofs DomainPolygons ParamModel RibbonModel SurfaceModel SurfaceSpec SurfaceProofs BlendProps GBModel GBSpec GBProofs GBEval GBEval2 PropsGB HybridModel HybridProofs.
From Coq Require Import Reals List Lia Lra Bool.
Import ListNotations.
Open Scope R_scope.

(** The ribbon of side [i] at the ribbon coordinates of the point. *)
Definition ribbon_at (sf : surf) (sds : list V2) (i : nat) (p : V3) : Prop :=
  exists sd, nth_error sds i = Some sd /\ sideInterpolant sf i (px sd) (py sd) = Some p.

(** ** C66: the value is an affine combination of the ribbons, the control points
    from the third row on, and the central control point: moving all of them by
    [t] moves the patch by [t]. *)
Theorem C66_affine : forall eps n d g g' sf sf' sds r t p, shaped n d g -> shaped n d g' -> gb_sq g' = gb_sq g -> 0 < eps ->
  off_corners eps n sds ->
  (forall i, (i < n)%nat -> ribbon_at sf sds i (r i) /\ ribbon_at sf' sds i (r i +v t)) ->
  (forall i j k q, inRange n d (i, j, k) -> (2 <= k)%nat -> controlPoint g i j k = Some q -> controlPoint g' i j k = Some (q +v t)) ->
  gb_cen g' = gb_cen g +v t ->
  hybridEval eps g sf sds = Some p -> hybridEval eps g' sf' sds = Some (p +v t).
Proof.
  intros eps n d g g' sf sf' sds r t p S S' Q He O Hr Hc Cc E.
  destruct (C46_formula n d g eps sds S He O) as (W & HW & _).
  assert (HW1 : forall i j k, (i < n)%nat -> (j <= d)%nat -> (k < (d + 1) / 2)%nat -> gbWeight eps g sds i j k = Some (W i j k)).
  { intros i j k Hi Hj Hk. apply HW. apply lay_le in Hk. cbn [inRange]. lia. }
  assert (HW2 : forall i j k, (i < n)%nat -> (j <= d)%nat -> (k < (d + 1) / 2)%nat -> gbWeight eps g' sds i j k = Some (W i j k)).
  { intros i j k Hi Hj Hk. rewrite <- (HW1 i j k Hi Hj Hk). unfold gbWeight. destruct S as (-> & -> & _), S' as (-> & -> & _). rewrite Q. reflexivity. }
  rewrite (hybrid_value eps n d g sf sds S W HW1 r (fun i Hi => proj1 (Hr i Hi))) in E. injection E as <-.
  rewrite (hybrid_value eps n d g' sf' sds S' W HW2 (fun i => r i +v t) (fun i Hi => proj2 (Hr i Hi))). f_equal. rewrite Cc.
  set (l := ((d + 1) / 2)%nat) in *.
  set (ins := fun i => rsum l (fun k => rsum (d + 1) (fun j => if (2 <=? k)%nat then W i j k else 0))).
  assert (I : forall i, (i < n)%nat -> hinner d g' W i = hinner d g W i +v t *v ins i).
  { intros i Hi. unfold hinner, ins. fold l. rewrite <- vsum_const. rewrite <- vsum_add. apply vsum_ext. intros k Hk.
    rewrite <- vsum_const, <- vsum_add. apply vsum_ext. intros j Hj. destruct (Nat.leb_spec 2 k) as [K|K]; [|v3ring].
    assert (R : inRange n d (i, j, k)) by (apply lay_le in Hk; cbn [inRange]; lia).
    pose proof (cpv_some n d g i j k S R) as C1. pose proof (Hc i j k _ R K C1) as C2. rewrite (cpv_some n d g' i j k S' R) in C2.
    injection C2 as C2. rewrite C2. v3ring. }
  assert (T : forall i, htotal d W i = hblend d W i + ins i).
  { intros i. unfold htotal, hblend, ins. fold l. rewrite <- rsum_plus. apply rsum_ext. intros k Hk. rewrite <- rsum_plus. apply rsum_ext.
    intros j Hj. destruct (2 <=? k)%nat; ring. }
  rewrite (vsum_ext n (hinner d g' W) (fun i => hinner d g W i +v t *v ins i) I), vsum_add, vsum_const.
  rewrite (vsum_ext n (fun i => (r i +v t) *v hblend d W i) (fun i => r i *v hblend d W i +v t *v hblend d W i)) by (intros; v3ring).
  rewrite vsum_add, vsum_const. rewrite (rsum_ext n (htotal d W) (fun i => hblend d W i + ins i) (fun i _ => T i)), rsum_plus. v3ring.
Qed.
Print Assumptions C66_affine.

Lemma ribbon_at_side : forall sf sds i s, length (sf_ribbons sf) = sf_n sf -> crosses_defined (sf_ribbons sf) -> (i < sf_n sf)%nat ->
  0 <= s <= 1 -> nth_error sds i = Some (mkV2 s 0) -> ribbon_at sf sds i (cv sf i s).
Proof.
  intros sf sds i s L C Hi Hs E. exists (mkV2 s 0). split; [exact E|]. cbn [px py]. rewrite (side_value sf L C i s 0 Hi ltac:(apply gok_nonneg; lra)).
  rewrite siv_boundary, clamp_id by lra. reflexivity.
Qed.

(** ** C66: on a side away from its ends the patch is the curve of the ribbon. *)
Theorem C66_boundary : forall n d g sf vs dm eps e s uv p, (3 <= n)%nat -> (2 <= d)%nat -> shaped n d g -> sf_n sf = n ->
  length (sf_ribbons sf) = n -> crosses_defined (sf_ribbons sf) ->
  regularVertices n = Some vs -> domainFrames pzero vs = Some dm -> (e < n)%nat -> 0 < eps <= 1/2 -> eps <= s <= 1 - eps ->
  edgePoint dm e s = Some uv -> side_point sf e s p -> hybridSurfaceEval eps dm g sf uv = Some p.
Proof.
  intros n d g sf vs dm eps e s uv p H3 Hd S Nn L C Hv Hdm Hen He Hs E (rr & Er & Ep).
  destruct (side_functions n vs dm eps e s uv H3 Hv Hdm Hen He ltac:(lra) E) as (sds & f & h & M & Hsd & F1 & F2 & F3 & F4 & F5 & F6 & F7).
  unfold hybridSurfaceEval. rewrite M. cbn [bind].
  assert (Hp : (prv n e < n)%nat) by (apply prv_lt; lia). assert (Hx : (nxt n e < n)%nat) by (apply nxt_lt; lia).
  assert (H0 : forall i, (i < n)%nat -> i <> e -> eps <= h i).
  { intros i Hi N1. destruct (Nat.eq_dec i (nxt n e)) as [->|N2]; [lra|].
    destruct (Nat.eq_dec i (prv n e)) as [->|N3]; [lra|]. rewrite F7 by assumption. lra. }
  assert (H00 : forall i, (i < n)%nat -> 0 <= h i) by (intros i Hi; destruct (Nat.eq_dec i e) as [->|N]; [lra|pose proof (H0 i Hi N); lra]).
  assert (Hc : forall i, (i < n)%nat -> eps <= h i + h (nxt n i)).
  { intros i Hi. pose proof (nxt_lt n i ltac:(lia)) as Ln. pose proof (H00 i Hi). pose proof (H00 _ Ln). destruct (Nat.eq_dec i e) as [->|N].
    - pose proof (H0 _ Hx ltac:(apply nxt_neq; lia)). lra.
    - pose proof (H0 i Hi N). lra. }
  set (W := fun i j k => if (i =? e)%nat then if (k =? 0)%nat then bern d j s else 0 else 0).
  assert (HW : forall i j k, (i < n)%nat -> (j <= d)%nat -> (k < (d + 1) / 2)%nat -> gbWeight eps g sds i j k = Some (W i j k)).
  { intros i j k Hi Hj Hk. rewrite (weight_value n d g S f h sds Hsd eps ltac:(lra) i j k Hi Hj Hk (Hc i Hi)).
    - f_equal. apply wgt_side; first [assumption | lra | apply F5; lra].
    - pose proof (Hc (prv n i) ltac:(apply prv_lt; lia)) as X. rewrite nxt_prv in X by exact Hi. exact X. }
  rewrite (hybrid_value eps n d g sf sds S _ HW (fun i => siv sf i (f i) (h i))).
  2:{ intros i Hi. eexists. split; [apply Hsd; exact Hi|]. cbn [px py]. apply side_value; rewrite ?Nn; try assumption. apply gok_nonneg, H00; exact Hi. }
  f_equal. set (l := ((d + 1) / 2)%nat) in *. assert (Hl : (0 < l)%nat) by (apply lay_le; lia).
  assert (B : forall i, (i < n)%nat -> hblend d W i = if (i =? e)%nat then 1 else 0).
  { intros i Hi. unfold hblend, W. fold l. destruct (Nat.eqb_spec i e) as [->|N].
    - rewrite (rsum_single l _ 0%nat Hl); [cbn [Nat.leb Nat.eqb]; apply bern_sum|]. intros k Hk N. apply rsum_zero. intros j Hj.
      destruct (Nat.eqb_spec k 0); [contradiction|]. destruct (2 <=? k)%nat; reflexivity.
    - apply rsum_zero. intros k Hk. apply rsum_zero. intros j Hj. destruct (2 <=? k)%nat; reflexivity. }
  assert (T : forall i, (i < n)%nat -> htotal d W i = if (i =? e)%nat then 1 else 0).
  { intros i Hi. unfold htotal, W. fold l. destruct (Nat.eqb_spec i e) as [->|N].
    - rewrite (rsum_single l _ 0%nat Hl); [cbn [Nat.eqb]; apply bern_sum|]. intros k Hk N. apply rsum_zero. intros j Hj.
      destruct (Nat.eqb_spec k 0); [contradiction|]. reflexivity.
    - apply rsum_zero. intros k Hk. apply rsum_zero. intros j Hj. reflexivity. }
  assert (I : forall i, (i < n)%nat -> hinner d g W i = vzero).
  { intros i Hi. unfold hinner, W. apply vsum_zero. intros k Hk. apply vsum_zero. intros j Hj.
    destruct (Nat.leb_spec 2 k) as [K|K]; [|v3ring]. destruct (Nat.eqb_spec k 0); [lia|]. destruct (i =? e)%nat; v3ring. }
  rewrite (vsum_zero n _ I). rewrite (rsum_ext n _ _ T), (rsum_single n _ e Hen), Nat.eqb_refl.
  2:{ intros i Hi N. destruct (Nat.eqb_spec i e); [contradiction|reflexivity]. }
  rewrite (vsum_single n _ e Hen), (B e Hen), Nat.eqb_refl.
  2:{ intros i Hi N. rewrite (B i Hi). destruct (Nat.eqb_spec i e); [contradiction|v3ring]. }
  rewrite F1, F2, siv_boundary, clamp_id by lra. subst p. unfold cv. rewrite (rb_nth sf ltac:(congruence) e ltac:(lia)) in Er. injection Er as <-. v3ring.
Qed.
Print Assumptions C66_boundary.

Lemma hybrid_row0 : forall eps n d g sf sds W r, (1 <= d)%nat -> shaped n d g ->
  (forall i j k, (i < n)%nat -> (j <= d)%nat -> (k < (d + 1) / 2)%nat -> gbWeight eps g sds i j k = Some (if (k =? 0)%nat then W i j else 0)) ->
  (forall i, (i < n)%nat -> ribbon_at sf sds i (r i)) ->
  hybridEval eps g sf sds = Some (gb_cen g *v (1 - rsum n (fun i => rsum (d + 1) (W i))) +v vsum n (fun i => r i *v rsum (d + 1) (W i))).
Proof.
  intros eps n d g sf sds W r Hd S HW Hr.
  rewrite (hybrid_value eps n d g sf sds S (fun i j k => if (k =? 0)%nat then W i j else 0) HW r Hr). f_equal.
  set (l := ((d + 1) / 2)%nat) in *. assert (Hl : (0 < l)%nat) by (apply lay_le; lia).
  set (V := fun i j k : nat => if (k =? 0)%nat then W i j else 0) in *.
  rewrite (vsum_zero n (hinner d g V)).
  2:{ intros i Hi. unfold hinner, V. apply vsum_zero. intros k Hk. apply vsum_zero. intros j Hj.
      destruct (Nat.leb_spec 2 k) as [K|K]; [|v3ring]. destruct (Nat.eqb_spec k 0); [lia|v3ring]. }
  rewrite (rsum_ext n (htotal d V) (fun i => rsum (d + 1) (W i))).
  2:{ intros i Hi. unfold htotal, V. fold l. rewrite (rsum_single l _ 0%nat Hl); [reflexivity|]. intros k Hk N. apply rsum_zero. intros j Hj.
      destruct (Nat.eqb_spec k 0); [contradiction|reflexivity]. }
  rewrite (vsum_ext n (fun i => r i *v hblend d V i) (fun i => r i *v rsum (d + 1) (W i))); [v3ring|].
  intros i Hi. f_equal. unfold hblend, V. fold l. rewrite (rsum_single l _ 0%nat Hl); [reflexivity|]. intros k Hk N. apply rsum_zero. intros j Hj.
  destruct (Nat.eqb_spec k 0); [contradiction|]. destruct (2 <=? k)%nat; reflexivity.
Qed.

(** Within the tolerance of the beginning of a side the patch is the mean of the two
    ribbons of that corner: at the corner itself their common point. *)
Theorem C66_start : forall n d g sf vs dm eps e s uv p q, (3 <= n)%nat -> (2 <= d)%nat -> shaped n d g -> sf_n sf = n ->
  length (sf_ribbons sf) = n -> crosses_defined (sf_ribbons sf) ->
  regularVertices n = Some vs -> domainFrames pzero vs = Some dm -> (e < n)%nat -> 0 < eps <= 1/2 -> 0 <= s < eps ->
  edgePoint dm e s = Some uv -> side_point sf e s p -> sideInterpolant sf (prv n e) 1 s = Some q ->
  hybridSurfaceEval eps dm g sf uv = Some ((p +v q) *v (1 / 2)).
Proof.
  intros n d g sf vs dm eps e s uv p q H3 Hd S Nn L C Hv Hdm Hen He Hs E (rr & Er & Ep) Eq.
  destruct (side_functions n vs dm eps e s uv H3 Hv Hdm Hen He ltac:(lra) E) as (sds & f & h & M & Hsd & F1 & F2 & F3 & F4 & F5 & F6 & F7).
  unfold hybridSurfaceEval. rewrite M. cbn [bind]. specialize (F5 ltac:(lra)).
  assert (Hp : (prv n e < n)%nat) by (apply prv_lt; lia). assert (Hx : (nxt n e < n)%nat) by (apply nxt_lt; lia).
  assert (Nx : nxt n e <> e) by (apply nxt_neq; lia). assert (Np : prv n e <> e) by (apply prv_neq; lia).
  assert (Nnp : nxt n e <> prv n e) by (apply nxt_prv_neq; assumption).
  assert (H0 : forall i, (i < n)%nat -> i <> e -> i <> prv n e -> eps <= h i).
  { intros i Hi N1 N3. destruct (Nat.eq_dec i (nxt n e)) as [->|N2]; [lra|]. rewrite F7 by assumption. lra. }
  assert (H00 : forall i, (i < n)%nat -> 0 <= h i).
  { intros i Hi; destruct (Nat.eq_dec i e) as [->|N]; [lra|]. destruct (Nat.eq_dec i (prv n e)) as [->|N2]; [lra|]. pose proof (H0 i Hi N N2); lra. }
  set (W := fun i j => if (i =? e)%nat then if (j =? 0)%nat then 1 / 2 else 0 else if (i =? prv n e)%nat then if (j =? d)%nat then 1 / 2 else 0 else 0).
  assert (HW : forall i j k, (i < n)%nat -> (j <= d)%nat -> (k < (d + 1) / 2)%nat -> gbWeight eps g sds i j k = Some (if (k =? 0)%nat then W i j else 0)).
  { intros i j k Hi Hj Hk. unfold W. destruct (Nat.eqb_spec i e) as [->|N1]; [|destruct (Nat.eqb_spec i (prv n e)) as [->|N2]].
    - unfold gbWeight. destruct S as (Sn & Sd & _). rewrite Sn, Sd.
      destruct (Nat.leb_spec 2 k) as [K|K]; cbn [andb].
      + destruct (Nat.eqb_spec k 0); [lia|]. destruct (_ || _)%bool; [reflexivity|]. rewrite !Hsd by assumption. cbn [bind px py].
        destruct (Rlt_dec _ eps); [lra|]. destruct (Rlt_dec _ eps); [|lra]. rewrite andb_false_r. reflexivity.
      + rewrite !Hsd by assumption. cbn [bind px py]. destruct (Rlt_dec _ eps); [lra|]. destruct (Rlt_dec _ eps); [|lra].
        destruct (k =? 0)%nat; rewrite ?andb_false_r, ?andb_true_r; reflexivity.
    - unfold gbWeight. destruct S as (Sn & Sd & _). rewrite Sn, Sd. rewrite nxt_prv by exact Hen.
      assert (Hpp : (prv n (prv n e) < n)%nat) by (apply prv_lt; lia).
      destruct (Nat.leb_spec 2 k) as [K|K]; cbn [andb].
      + destruct (Nat.eqb_spec k 0); [lia|]. destruct (_ || _)%bool; [reflexivity|]. rewrite !Hsd by assumption. cbn [bind px py].
        destruct (Rlt_dec _ eps); [|lra]. rewrite andb_false_r. reflexivity.
      + rewrite !Hsd by assumption. cbn [bind px py]. destruct (Rlt_dec _ eps); [|lra].
        destruct (k =? 0)%nat; rewrite ?andb_false_r, ?andb_true_r; reflexivity.
    - pose proof (H0 i Hi N1 N2) as Q. pose proof (H00 _ (nxt_lt n i ltac:(lia))) as Q1. pose proof (H00 _ (prv_lt n i ltac:(lia))) as Q2.
      rewrite (weight_value n d g S f h sds Hsd eps ltac:(lra) i j k Hi Hj Hk) by lra.
      replace (if (k =? 0)%nat then 0 else 0) with 0 by (destruct (k =? 0)%nat; reflexivity). f_equal.
      destruct (Req_dec s 0) as [Z|Z].
      + apply wgt_far; [exact Hk|]. destruct (Nat.eq_dec i (nxt n e)) as [->|N3]; [lra|]. apply F7; assumption.
      + rewrite (wgt_side n d g f h e s) by first [assumption | lra]. destruct (Nat.eqb_spec i e); [contradiction|reflexivity]. }
  rewrite (hybrid_row0 eps n d g sf sds W (fun i => siv sf i (f i) (h i)) ltac:(lia) S HW).
  2:{ intros i Hi. eexists. split; [apply Hsd; exact Hi|]. cbn [px py]. apply side_value; rewrite ?Nn; try assumption. apply gok_nonneg, H00; exact Hi. }
  assert (T : forall i, (i < n)%nat -> rsum (d + 1) (W i) = if (i =? e)%nat then 1 / 2 else if (i =? prv n e)%nat then 1 / 2 else 0).
  { intros i Hi. unfold W. destruct (i =? e)%nat; [|destruct (i =? prv n e)%nat].
    - rewrite (rsum_single (d + 1) _ 0%nat ltac:(lia)); [reflexivity|]. intros j Hj N. destruct (Nat.eqb_spec j 0); [contradiction|reflexivity].
    - rewrite (rsum_single (d + 1) _ d ltac:(lia)); [rewrite Nat.eqb_refl; reflexivity|]. intros j Hj N. destruct (Nat.eqb_spec j d); [contradiction|reflexivity].
    - apply rsum_zero. reflexivity. }
  rewrite (rsum_ext n _ _ T), (rsum_double n _ e (prv n e)); try assumption; try congruence.
  2:{ intros i Hi N1 N2. destruct (Nat.eqb_spec i e); [contradiction|]. destruct (Nat.eqb_spec i (prv n e)); [contradiction|reflexivity]. }
  rewrite (vsum_double n _ e (prv n e)); try assumption; try congruence.
  2:{ intros i Hi N1 N2. rewrite (T i Hi). destruct (Nat.eqb_spec i e); [contradiction|]. destruct (Nat.eqb_spec i (prv n e)); [contradiction|v3ring]. }
  rewrite !T by assumption. rewrite !Nat.eqb_refl. destruct (Nat.eqb_spec (prv n e) e); [contradiction|].
  rewrite F1, F2, F5, F6, siv_boundary, clamp_id by lra. f_equal. subst p. unfold cv.
  rewrite (side_value sf ltac:(congruence) C (prv n e)) in Eq by (rewrite ?Nn; first [assumption | apply gok_nonneg; lra]). injection Eq as <-.
  rewrite (rb_nth sf ltac:(congruence) e ltac:(lia)) in Er. injection Er as <-. v3field.
Qed.
Print Assumptions C66_start.

(** Degree one: the previous ribbon still contributes on the side. *)
Theorem C66_degree_one : forall n g sf vs dm eps e s uv p q, (3 <= n)%nat -> shaped n 1 g -> sf_n sf = n ->
  length (sf_ribbons sf) = n -> crosses_defined (sf_ribbons sf) ->
  regularVertices n = Some vs -> domainFrames pzero vs = Some dm -> (e < n)%nat -> 0 < eps <= 1/2 -> eps <= s <= 1 - eps ->
  edgePoint dm e s = Some uv -> side_point sf e s p -> sideInterpolant sf (prv n e) 1 s = Some q ->
  exists w, 0 < w /\ hybridSurfaceEval eps dm g sf uv = Some (p +v (q -v gb_cen g) *v w).
Proof.
  intros n g sf vs dm eps e s uv p q H3 S Nn L C Hv Hdm Hen He Hs E (rr & Er & Ep) Eq.
  destruct (side_functions n vs dm eps e s uv H3 Hv Hdm Hen He ltac:(lra) E) as (sds & f & h & M & Hsd & F1 & F2 & F3 & F4 & F5 & F6 & F7).
  unfold hybridSurfaceEval. rewrite M. cbn [bind]. specialize (F5 ltac:(lra)).
  assert (Hp : (prv n e < n)%nat) by (apply prv_lt; lia). assert (Hx : (nxt n e < n)%nat) by (apply nxt_lt; lia).
  assert (Np : prv n e <> e) by (apply prv_neq; lia).
  assert (H0 : forall i, (i < n)%nat -> i <> e -> eps <= h i).
  { intros i Hi N1. destruct (Nat.eq_dec i (nxt n e)) as [->|N2]; [lra|].
    destruct (Nat.eq_dec i (prv n e)) as [->|N3]; [lra|]. rewrite F7 by assumption. lra. }
  assert (H00 : forall i, (i < n)%nat -> 0 <= h i) by (intros i Hi; destruct (Nat.eq_dec i e) as [->|N]; [lra|pose proof (H0 i Hi N); lra]).
  assert (Hc : forall i, (i < n)%nat -> eps <= h i + h (nxt n i)).
  { intros i Hi. pose proof (nxt_lt n i ltac:(lia)) as Ln. pose proof (H00 i Hi). pose proof (H00 _ Ln). destruct (Nat.eq_dec i e) as [->|N].
    - pose proof (H0 _ Hx ltac:(apply nxt_neq; lia)). lra.
    - pose proof (H0 i Hi N). lra. }
  set (w1 := (1 - s) * rat (gb_sq g) (h (prv n (prv n e))) s).
  set (W := fun i j => if (i =? e)%nat then bern 1 j s else if ((i =? prv n e) && (j =? 1))%nat%bool then w1 else 0).
  exists w1. split; [eapply (w1_pos n g); first [eassumption | lra]|].
  assert (HW : forall i j k, (i < n)%nat -> (j <= 1)%nat -> (k < (1 + 1) / 2)%nat -> gbWeight eps g sds i j k = Some (if (k =? 0)%nat then W i j else 0)).
  { intros i j k Hi Hj Hk. rewrite (weight_value n 1 g S f h sds Hsd eps ltac:(lra) i j k Hi Hj Hk (Hc i Hi)).
    2:{ pose proof (Hc (prv n i) ltac:(apply prv_lt; lia)) as X. rewrite nxt_prv in X by exact Hi. exact X. }
    assert (k = 0)%nat by (change ((1 + 1) / 2)%nat with 1%nat in Hk; lia). subst k. cbn [Nat.eqb]. f_equal.
    eapply linear_wgt; first [eassumption | lra]. }
  rewrite (hybrid_row0 eps n 1 g sf sds W (fun i => siv sf i (f i) (h i)) ltac:(lia) S HW).
  2:{ intros i Hi. eexists. split; [apply Hsd; exact Hi|]. cbn [px py]. apply side_value; rewrite ?Nn; try assumption. apply gok_nonneg, H00; exact Hi. }
  assert (T : forall i, (i < n)%nat -> rsum (1 + 1) (W i) = if (i =? e)%nat then 1 else if (i =? prv n e)%nat then w1 else 0).
  { intros i Hi. change (1 + 1)%nat with 2%nat. cbn [rsum]. unfold W. destruct (bern1 s) as [B0 B1]. rewrite B0, B1.
    destruct (i =? e)%nat; [ring|]. destruct (i =? prv n e)%nat; cbn [andb Nat.eqb]; ring. }
  rewrite (rsum_ext n _ _ T), (rsum_double n _ e (prv n e)); try assumption; try congruence.
  2:{ intros i Hi N1 N2. destruct (Nat.eqb_spec i e); [contradiction|]. destruct (Nat.eqb_spec i (prv n e)); [contradiction|reflexivity]. }
  rewrite (vsum_double n _ e (prv n e)); try assumption; try congruence.
  2:{ intros i Hi N1 N2. rewrite (T i Hi). destruct (Nat.eqb_spec i e); [contradiction|]. destruct (Nat.eqb_spec i (prv n e)); [contradiction|v3ring]. }
  rewrite !T by assumption. rewrite !Nat.eqb_refl. destruct (Nat.eqb_spec (prv n e) e); [contradiction|].
  rewrite F1, F2, F5, F6, siv_boundary, clamp_id by lra. f_equal. subst p. unfold cv.
  rewrite (side_value sf ltac:(congruence) C (prv n e)) in Eq by (rewrite ?Nn; first [assumption | apply gok_nonneg; lra]). injection Eq as <-.
  rewrite (rb_nth sf ltac:(congruence) e ltac:(lia)) in Er. injection Er as <-. v3ring.
Qed.
Print Assumptions C66_degree_one.

(** A square with straight sides: the middle and the start of side 2. *)
Example C66_example : forall eps a b c d, 0 < eps <= 1/4 -> exists vs dm uv uv0 sf, regularVertices 4 = Some vs /\ domainFrames pzero vs = Some dm /\
  edgePoint dm 2 (1/2) = Some uv /\ edgePoint dm 2 0 = Some uv0 /\ sf_ribbons sf = lineRibs [a; b; c; d] /\
  hybridSurfaceEval eps dm (useSquared (quadNet 3) true) sf uv = Some ((b +v c) *v (1/2)) /\
  hybridSurfaceEval eps dm (useSquared (quadNet 3) true) sf uv0 = Some b.
Proof.
  intros eps a b c d He. assert (Hv : exists vs, regularVertices 4 = Some vs) by (eexists; reflexivity). destruct Hv as [vs Hv]. exists vs.
  destruct (regular_convex 4 vs ltac:(lia) Hv) as (L & _ & _). rewrite frames_closed. eexists.
  assert (E := edge_point_total pzero vs _ 2 (1/2) (frames_closed pzero vs) ltac:(lia)). eexists.
  assert (E0 := edge_point_total pzero vs _ 2 0 (frames_closed pzero vs) ltac:(lia)). eexists.
  exists (mkSurf 4 false (lineRibs [a; b; c; d]) []).
  assert (S : shaped 4 3 (useSquared (quadNet 3) true)) by (assert (X : gb_n (gbNew 0 0 vzero) <> 4%nat) by (cbn; lia); destruct (init_new vzero (gbNew 0 0 vzero) 4 3 (or_introl X)) as (Y & _); exact Y).
  destruct (lineRibs_ok [a; b; c; d] ltac:(simpl; lia)) as [(Ll & Lc & _) _].
  split; [exact Hv|]. split; [reflexivity|]. split; [exact E|]. split; [exact E0|]. split; [reflexivity|]. split.
  - apply (C66_boundary 4 3 _ (mkSurf 4 false (lineRibs [a; b; c; d]) []) vs _ eps 2 (1/2) _ _ ltac:(lia) ltac:(lia) S eq_refl Ll Lc Hv (frames_closed pzero vs) ltac:(lia) ltac:(lra) ltac:(lra) E).
    eexists; split; [reflexivity|]. unfold affine3; simpl. v3field.
  - assert (X := C66_start 4 3 _ (mkSurf 4 false (lineRibs [a; b; c; d]) []) vs _ eps 2 0 _ b b ltac:(lia) ltac:(lia) S eq_refl Ll Lc Hv (frames_closed pzero vs) ltac:(lia) ltac:(lra) ltac:(lra) E0).
    rewrite X; [f_equal; v3field| |].
    + eexists; split; [reflexivity|]. unfold affine3; simpl. v3ring.
    + rewrite side_value; [|exact Ll|exact Lc|cbn; lia|apply gok_nonneg; lra]. f_equal. rewrite siv_boundary, clamp_id by lra. unfold cv, affine3; simpl. v3ring.
Qed.
