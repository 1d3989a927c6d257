(** Going round the boundary the other way: generalized Bezier and hybrid patches. *)
From Verif Require Import Base GeomSpec UtilModel UtilSpec UtilProofs DomainModel DomainProofs ParamModel RibbonModel SurfaceModel SurfaceEval.
From Verif Require Import GBModel GBSpec GBProofs GBEval GBEval2 HybridModel HybridProofs RotSpec RotProofs RotParam RotMotion RotPatches MirSpec MirProofs MirDomains.
From Verif Require SuperDProofs.
From Coq Require Import FunctionalExtensionality.
Open Scope R_scope.

(** The rows of side [i] run backwards, and the sides follow in reversed order. *)
Definition mirGB (g : gbsurf) : gbsurf :=
  mkGB (gb_n g) (gb_deg g) (gb_lay g) (gb_cen g) (map (@rev (list V3)) (mir (gb_nets g))) (gb_sq g) (gb_dom g).
Lemma in_mir : forall A (x : A) l, In x (mir l) -> In x l.
Proof. intros A x [|a l] H; [exact H|]. cbn [mir] in H. destruct H as [H|H]; [left; exact H|right; apply in_rev; exact H]. Qed.
Lemma shaped_mir : forall n d g, shaped n d g -> shaped n d (mirGB g).
Proof.
  intros n d g (A & B & C & D & E). unfold shaped, mirGB. cbn [gb_n gb_deg gb_lay gb_nets]. rewrite map_length, mir_length. repeat (split; [assumption|]).
  intros x H. apply in_map_iff in H. destruct H as (y & <- & H). apply in_mir in H. destruct (E y H) as [L F]. rewrite rev_length. split; [exact L|]. intros z Z. apply F, in_rev, Z.
Qed.
Lemma vsum_sid : forall n f, vsum n (fun i => f (sid n i)) = vsum n f.
Proof. intros n f. rewrite <- (vsum_nxt n f), <- (vsum_cor n (fun i => f (nxt n i))). apply vsum_ext. intros i Hi. rewrite nxt_cor by exact Hi. reflexivity. Qed.
Lemma vsum_back : forall d f, vsum (d + 1) (fun j => f (d - j)%nat) = vsum (d + 1) f.
Proof. intros d f. rewrite <- (vsum_cor (d + 1) f). apply vsum_ext. intros j Hj. f_equal. unfold cor. lia. Qed.
Lemma rsum_back : forall d f, rsum (d + 1) (fun j => f (d - j)%nat) = rsum (d + 1) f.
Proof. intros d f. rewrite <- (rsum_cor (d + 1) f). apply rsum_ext. intros j Hj. f_equal. unfold cor. lia. Qed.

(** The factor, seen from the other end of the side: for degrees of at least three. *)
Lemma factor_mir : forall d j k a b x, (3 <= d)%nat -> (j <= d)%nat -> (2 * k + 1 <= d)%nat -> gbFactor d (d - j) k b a x = gbFactor d j k a b x.
Proof.
  intros d j k a b x Hd Hj Hk. unfold gbFactor, above, meets. destruct (Nat.ltb_spec d 2); [lia|]. destruct (Nat.ltb_spec d k); [lia|].
  destruct (Nat.ltb_spec k 2); cbn [andb].
  - destruct (Nat.ltb_spec (d - j) 2); destruct (Nat.ltb_spec j 2); cbn [orb].
    + lia.
    + destruct (Nat.ltb_spec (d - 2) j); [reflexivity|lia].
    + destruct (Nat.ltb_spec (d - 2) (d - j)); [reflexivity|lia].
    + destruct (Nat.ltb_spec (d - 2) (d - j)); [lia|]. destruct (Nat.ltb_spec (d - 2) j); [lia|].
      destruct (Nat.eqb_spec (d - j) k); destruct (Nat.eqb_spec j k); destruct (Nat.eqb_spec (d - j) (d - k)); destruct (Nat.eqb_spec j (d - k)); cbn [orb]; try lia; try reflexivity.
      destruct (Nat.ltb_spec (d - j) k); destruct (Nat.ltb_spec j k); destruct (Nat.ltb_spec (d - k) (d - j)); destruct (Nat.ltb_spec (d - k) j); cbn [orb]; try lia; reflexivity.
  - destruct (Nat.eqb_spec (d - j) k); destruct (Nat.eqb_spec j k); destruct (Nat.eqb_spec (d - j) (d - k)); destruct (Nat.eqb_spec j (d - k)); cbn [orb]; try lia; try reflexivity.
    destruct (Nat.ltb_spec (d - j) k); destruct (Nat.ltb_spec j k); destruct (Nat.ltb_spec (d - k) (d - j)); destruct (Nat.ltb_spec (d - k) j); cbn [orb]; try lia; reflexivity.
Qed.

Lemma cp_mir : forall n d g i j k, shaped n d g -> (i < n)%nat -> (j <= d)%nat -> controlPoint (mirGB g) i j k = controlPoint g (sid n i) (d - j) k.
Proof.
  intros n d g i j k Sh Hi Hj. assert (L : length (gb_nets g) = n) by apply Sh. unfold controlPoint, get3, mirGB. cbn [gb_nets]. rewrite mapped_nth, (mir_nth _ _ n) by assumption.
  destruct (nth_error (gb_nets g) (sid n i)) as [net|] eqn:E; [|reflexivity]. cbn [option_map bind].
  assert (Ln : length net = (d + 1)%nat) by (apply Sh; eapply nth_error_In; exact E). rewrite (rev_nth _ net (d + 1)) by (assumption || lia).
  replace (cor (d + 1) j) with (d - j)%nat by (unfold cor; lia). reflexivity.
Qed.
Lemma cpv_mir : forall n d g i j k, shaped n d g -> (i < n)%nat -> (j <= d)%nat -> cpv (mirGB g) i j k = cpv g (sid n i) (d - j) k.
Proof. intros n d g i j k Sh Hi Hj. unfold cpv. rewrite (cp_mir n d) by assumption. reflexivity. Qed.

Section GB.
Variables (n d : nat) (g : gbsurf) (sds : list V2) (eps : R).
Hypothesis Sh : shaped n d g.
Hypothesis Ls : length sds = n.
Notation co_s := (co_s sds).
Notation co_d := (co_d sds).
Let sds_co := sds_co n sds Ls.
Lemma mir_co : forall i, (i < n)%nat -> nth_error (mirSds sds) i = Some (mkV2 (1 - co_s (sid n i)) (co_d (sid n i))).
Proof. intros i Hi. rewrite (sds_nth n) by assumption. rewrite sds_co by (apply sid_lt; exact Hi). reflexivity. Qed.

(** The corner variant: the quadrants of the corners, written from the other side. *)
Lemma gbcEval_mir : forall sds', (forall i, (i < n)%nat -> exists s, nth_error sds' i = Some (mkV2 s (co_d (sid n i)))) -> consistent n d g -> gbcEval (mirGB g) sds' = gbcEval g sds.
Proof.
  intros sds' Hs Co. rewrite (corner_eval n d g Sh co_d sds) by (intros i Hi; exists (co_s i); apply sds_co; exact Hi).
  rewrite (corner_eval n d (mirGB g) (shaped_mir n d g Sh) (fun i => co_d (sid n i)) sds' Hs).
  cbn [mirGB gb_cen]. fold (mirGB g). f_equal. set (l := ((d + 1) / 2)%nat).
  rewrite <- (vsum_cor n (fun i => vsum l (fun j => vsum l (fun k => cpv g i (d - j) k *v cwgt n d co_d i j k)))).
  rewrite <- (rsum_cor n (fun i => rsum l (fun j => rsum l (fun k => cwgt n d co_d i j k)))).
  assert (W : forall i j k, (i < n)%nat -> cwgt n d (fun i => co_d (sid n i)) i j k = cwgt n d co_d (cor n i) k j).
  { intros i j k Hi. unfold cwgt. rewrite sid_nxt, nxt_cor by exact Hi. ring. }
  rewrite (vsum_ext n _ (fun i => vsum l (fun j => vsum l (fun k => cpv g (cor n i) (d - j) k *v cwgt n d co_d (cor n i) j k)))).
  - rewrite (rsum_ext n _ (fun i => rsum l (fun j => rsum l (fun k => cwgt n d co_d (cor n i) j k)))); [reflexivity|].
    intros i Hi. rewrite (rsum_swap l l). apply rsum_ext; intros k Hk. apply rsum_ext; intros j Hj. apply W; exact Hi.
  - intros i Hi. rewrite (SuperDProofs.vsum_swap l l). apply vsum_ext; intros j Hj. apply vsum_ext; intros k Hk. rewrite W by exact Hi. f_equal.
    assert (Hj' := proj1 (lay_le d j) Hj). assert (Hk' := proj1 (lay_le d k) Hk). rewrite (cpv_mir n d) by (assumption || lia). replace (d - (d - k))%nat with k by lia.
    assert (Q := Co ((cor n i + 1) mod n, k, j)%nat (cor n i, d - j, k)%nat). assert (N : ((cor n i + 1) mod n)%nat = sid n i) by (rewrite <- (nxt_cor n i Hi); reflexivity).
    unfold cpv. cbn [getp] in Q. rewrite N in Q. rewrite Q; [reflexivity| | |]; [cbn [inRange]|cbn [inRange]|].
    + pose proof (sid_lt n i Hi). lia.
    + pose proof (cor_lt n i Hi). lia.
    + rewrite <- N. constructor. exact Hk'.
Qed.

Hypothesis He : 0 < eps.
Hypothesis Hd : (3 <= d)%nat.
Lemma wgt_mir : forall i j k, (i < n)%nat -> (j <= d)%nat -> (2 * k + 1 <= d)%nat ->
  wgt n d (mirGB g) (fun i => 1 - co_s (sid n i)) (fun i => co_d (sid n i)) i j k = wgt n d g co_s co_d (sid n i) (d - j) k.
Proof.
  intros i j k Hi Hj Hk. unfold wgt. cbn [mirGB gb_sq]. rewrite sid_nxt, sid_prv by exact Hi. rewrite prv_sid by exact Hi. rewrite bern_sym by exact Hj.
  rewrite <- (factor_mir d (d - j) k _ _ _ Hd) by lia. replace (d - (d - j))%nat with j by lia. reflexivity.
Qed.
Lemma gbEval_mir_far : (forall i, (i < n)%nat -> eps <= co_d i + co_d (nxt n i)) -> gbEval eps (mirGB g) (mirSds sds) = gbEval eps g sds.
Proof.
  intros F. rewrite (eval_sum n d g Sh co_s co_d sds sds_co eps He F).
  rewrite (eval_sum n d (mirGB g) (shaped_mir n d g Sh) (fun i => 1 - co_s (sid n i)) (fun i => co_d (sid n i)) (mirSds sds) mir_co eps He).
  2:{ intros i Hi. rewrite sid_nxt by exact Hi. rewrite <- (nxt_cor n i Hi) at 1. rewrite Rplus_comm. apply F, cor_lt, Hi. }
  cbn [mirGB gb_cen]. fold (mirGB g). f_equal. set (l := ((d + 1) / 2)%nat).
  rewrite <- (vsum_sid n (fun i => vsum l (fun k => vsum (d + 1) (fun j => cpv g i j k *v wgt n d g co_s co_d i j k)))).
  rewrite <- (rsum_sid n (fun i => rsum l (fun k => rsum (d + 1) (fun j => wgt n d g co_s co_d i j k)))). f_equal.
  - apply vsum_ext; intros i Hi. apply vsum_ext; intros k Hk. rewrite <- (vsum_back d (fun j => cpv g (sid n i) j k *v _)). apply vsum_ext; intros j Hj.
    apply lay_le in Hk. rewrite (cpv_mir n d), wgt_mir by (assumption || lia). reflexivity.
  - do 2 f_equal. apply rsum_ext; intros i Hi. apply rsum_ext; intros k Hk. rewrite <- (rsum_back d (fun j => wgt n d g co_s co_d (sid n i) j k)). apply rsum_ext; intros j Hj.
    apply lay_le in Hk. apply wgt_mir; assumption || lia.
Qed.
End GB.

Lemma consistent_mir : forall n d g, shaped n d g -> consistent n d g -> consistent n d (mirGB g).
Proof.
  intros n d g Sh Co p q P Q M. destruct M as [i j k Hj]. cbn [inRange] in P, Q. cbn [getp]. rewrite !(cp_mir n d g) by (assumption || lia). replace (d - (d - k))%nat with k by lia.
  fold (nxt n i) in *. rewrite sid_nxt by lia. symmetry. assert (Hc : (cor n i < n)%nat) by (apply cor_lt; lia).
  assert (E : sid n i = ((cor n i + 1) mod n)%nat) by (rewrite <- nxt_cor by lia; reflexivity). rewrite E.
  apply (Co ((cor n i + 1) mod n, k, j)%nat (cor n i, d - j, k)%nat).
  - cbn [inRange]. split; [apply Nat.mod_upper_bound; lia|lia].
  - cbn [inRange]. lia.
  - constructor. lia.
Qed.
Lemma co_mir : forall n sds i, length sds = n -> (i < n)%nat -> co_d (mirSds sds) i = co_d sds (sid n i).
Proof.
  intros n sds i L Hi. assert (A := mir_co n sds L i Hi). assert (L' : length (mirSds sds) = n) by (unfold mirSds; rewrite map_length, mir_length; exact L).
  rewrite (sds_co n (mirSds sds) L' i Hi) in A. congruence.
Qed.
Lemma gbEval_mir : forall n d g sds eps, shaped n d g -> consistent n d g -> length sds = n -> (2 <= n)%nat -> (3 <= d)%nat -> 0 < eps -> one_corner eps sds ->
  gbEval eps (mirGB g) (mirSds sds) = gbEval eps g sds.
Proof.
  intros n d g sds eps Sh Co L H2 Hd He On.
  destruct (first_near (fun i => co_d sds i + co_d sds (nxt n i) < eps) n) as [A|(e & Hen & Ne & _)]; [intros; apply Rlt_dec| |].
  - apply (gbEval_mir_far n d g sds eps Sh L He Hd). intros i Hi. apply Rnot_lt_le. exact (A i Hi).
  - assert (F : forall i, (i < n)%nat -> i <> e -> eps <= co_d sds i + co_d sds (nxt n i)).
    { intros i Hi N. apply Rnot_lt_le. intros Lt. apply N. apply On; rewrite L; try assumption. }
    rewrite (gbEval_corner n d g sds eps e) by (assumption || lia). assert (Hc : (cor n e < n)%nat) by (apply cor_lt; lia).
    assert (L' : length (mirSds sds) = n) by (unfold mirSds; rewrite map_length, mir_length; exact L).
    rewrite (gbEval_corner n d (mirGB g) (mirSds sds) eps (cor n e)); try assumption; try lia.
    + rewrite (cpv_mir n d g) by (assumption || lia). rewrite Nat.sub_diag. f_equal.
      assert (E : sid n (cor n e) = ((e + 1) mod n)%nat) by (change ((e + 1) mod n)%nat with (nxt n e); unfold cor, sid; rewrite (nxt_cases n e Hen); destruct (Nat.eqb_spec (n - 1 - e) 0); destruct (Nat.eqb_spec (S e) n); lia).
      assert (Q := Co ((e + 1) mod n, 0, 0)%nat (e, d - 0, 0)%nat). cbn [getp] in Q. rewrite Nat.sub_0_r in Q. unfold cpv. rewrite E, Q; [reflexivity| | |].
      * cbn [inRange]. split; [apply Nat.mod_upper_bound; lia|lia].
      * cbn [inRange]. lia.
      * assert (V := mirror_intro n d e 0 0 ltac:(lia)). rewrite Nat.sub_0_r in V. exact V.
    + apply shaped_mir; exact Sh.
    + apply consistent_mir; assumption.
    + rewrite !(co_mir n) by (try assumption; apply nxt_lt; lia). rewrite nxt_cor, sid_sid by exact Hen.
      assert (E : sid n (cor n e) = nxt n e) by (unfold cor, sid; rewrite (nxt_cases n e Hen); destruct (Nat.eqb_spec (n - 1 - e) 0); destruct (Nat.eqb_spec (S e) n); lia). rewrite E. lra.
    + intros i Hi N. assert (Hx : (nxt n i < n)%nat) by (apply nxt_lt; lia). rewrite !(co_mir n) by assumption. rewrite sid_nxt, Rplus_comm by exact Hi. rewrite <- (nxt_cor n i Hi).
      apply F; [apply cor_lt; exact Hi|]. intros E. apply N. rewrite <- E, cor_cor by exact Hi. reflexivity.
Qed.

(** ** Hybrid patches *)
Lemma gbWeight_mir : forall n d g sds eps i j k, shaped n d g -> length sds = n -> (3 <= n)%nat -> 0 < eps -> (3 <= d)%nat -> one_corner eps sds -> (i < n)%nat -> (j <= d)%nat -> (2 * k + 1 <= d)%nat ->
  gbWeight eps (mirGB g) (mirSds sds) i j k = gbWeight eps g sds (sid n i) (d - j) k.
Proof.
  intros n d g sds eps i j k Sh L H3 He Hd On Hi Hj Hk. assert (Hs := sid_lt n i Hi). assert (Hk' := proj2 (lay_le d k) Hk).
  assert (L' : length (mirSds sds) = n) by (unfold mirSds; rewrite map_length, mir_length; exact L).
  set (a := co_d sds (sid n i) + co_d sds (nxt n (sid n i))). set (b := co_d sds (cor n i) + co_d sds (sid n i)).
  assert (Ea : co_d (mirSds sds) (prv n i) + co_d (mirSds sds) i = a) by (unfold a; rewrite !(co_mir n) by (try assumption; apply prv_lt; lia); rewrite sid_prv by exact Hi; ring).
  assert (Eb : co_d (mirSds sds) i + co_d (mirSds sds) (nxt n i) = b) by (unfold b; rewrite !(co_mir n) by (try assumption; apply nxt_lt; lia); rewrite sid_nxt by exact Hi; ring).
  assert (Ep : co_d sds (prv n (sid n i)) + co_d sds (sid n i) = b) by (unfold b; rewrite prv_sid by exact Hi; reflexivity).
  assert (NN : ~ (a < eps /\ b < eps)).
  { intros [A B]. unfold a, b in *. rewrite <- (nxt_cor n i Hi) in B. assert (X := On (sid n i) (cor n i)). rewrite L in X. specialize (X Hs (cor_lt n i Hi) A B).
    rewrite <- (prv_sid n i Hi) in X. symmetry in X. revert X. apply prv_neq; lia. }
  destruct (Rlt_dec a eps) as [A|A]; [|destruct (Rlt_dec b eps) as [B|B]].
  3: { rewrite (weight_value n d g Sh (co_s sds) (co_d sds) sds (sds_co n sds L) eps He) by (try assumption; try lia; fold a; lra).
       rewrite (weight_value n d (mirGB g) (shaped_mir n d g Sh) (fun i => 1 - co_s sds (sid n i)) (fun i => co_d sds (sid n i)) (mirSds sds) (mir_co n sds L) eps He); try assumption.
       - rewrite (wgt_mir n d g sds L Hd) by assumption. reflexivity.
       - rewrite <- !(co_mir n) by (try assumption; apply nxt_lt; lia). lra.
       - rewrite <- !(co_mir n) by (try assumption; apply prv_lt; lia). lra. }
  all: unfold gbWeight; assert (Sn : gb_n g = n) by apply Sh; assert (Sd : gb_deg g = d) by apply Sh; cbn [mirGB gb_n gb_deg gb_sq]; rewrite Sn, Sd.
  all: rewrite !(sds_co n sds L) by (try exact Hs; try apply prv_lt; try apply nxt_lt; lia); rewrite !(sds_co n (mirSds sds) L') by (try exact Hi; try apply prv_lt; try apply nxt_lt; lia); cbn [bind py]; rewrite Ea, Eb, Ep; fold a.
  all: assert (G : ((2 <=? k)%nat && ((j <? k)%nat || above j d k) = (2 <=? k)%nat && ((d - j <? k)%nat || above (d - j) d k))%bool)
    by (unfold above; destruct (Nat.ltb_spec d k); [lia|]; destruct (Nat.ltb_spec j k); destruct (Nat.ltb_spec (d - j) k); destruct (Nat.ltb_spec (d - k) j); destruct (Nat.ltb_spec (d - k) (d - j)); cbn [orb]; try lia; reflexivity).
  all: rewrite G; clear G; destruct ((2 <=? k)%nat && ((d - j <? k)%nat || above (d - j) d k))%bool; [reflexivity|].
  - destruct (Rlt_dec a eps); [|contradiction]. destruct (Rlt_dec b eps) as [B|_]; [tauto|]. f_equal.
    destruct (Nat.eqb_spec j 0); destruct (Nat.eqb_spec (d - j) d); try lia; reflexivity.
  - destruct (Rlt_dec b eps); [|contradiction]. destruct (Rlt_dec a eps); [contradiction|]. f_equal.
    destruct (Nat.eqb_spec j d); destruct (Nat.eqb_spec (d - j) 0); try lia; reflexivity.
Qed.
Lemma hybridEval_mir : forall n d g sf sds eps, shaped n d g -> length sds = n -> sf_n sf = n -> length (sf_ribbons sf) = n -> (3 <= n)%nat -> (3 <= d)%nat -> 0 < eps -> one_corner eps sds ->
  hybridEval eps (mirGB g) (mirSurf sf) (mirSds sds) = hybridEval eps g sf sds.
Proof.
  intros n d g sf sds eps Sh L Sn Lr H3 Hd He On. rewrite (hybrid_split n d g sf sds eps Sh L He). cbv zeta.
  assert (L' : length (mirSds sds) = n) by (unfold mirSds; rewrite map_length, mir_length; exact L).
  rewrite (hybrid_split n d (mirGB g) (mirSurf sf) (mirSds sds) eps (shaped_mir n d g Sh) L' He). cbv zeta.
  set (W := wval eps g sds). set (W' := wval eps (mirGB g) (mirSds sds)).
  assert (E : forall i j k, (i < n)%nat -> (j <= d)%nat -> (k < (d + 1) / 2)%nat -> W' i j k = W (sid n i) (d - j)%nat k).
  { intros i j k Hi Hj Hk. apply lay_le in Hk. unfold W, W', wval. rewrite (gbWeight_mir n d g sds eps) by assumption. reflexivity. }
  assert (B : forall i, (i < n)%nat -> hblend d W' i = hblend d W (sid n i)).
  { intros i Hi. unfold hblend. apply rsum_ext; intros k Hk. rewrite <- (rsum_back d (fun j => if (2 <=? k)%nat then 0 else W (sid n i) j k)). apply rsum_ext; intros j Hj. rewrite E by (assumption || lia). reflexivity. }
  assert (T : forall i, (i < n)%nat -> htotal d W' i = htotal d W (sid n i)).
  { intros i Hi. unfold htotal. apply rsum_ext; intros k Hk. rewrite <- (rsum_back d (fun j => W (sid n i) j k)). apply rsum_ext; intros j Hj. apply E; assumption || lia. }
  assert (I : forall i, (i < n)%nat -> hinner d (mirGB g) W' i = hinner d g W (sid n i)).
  { intros i Hi. unfold hinner. apply vsum_ext; intros k Hk. rewrite <- (vsum_back d (fun j => cpv g (sid n i) j k *v _)). apply vsum_ext; intros j Hj. rewrite E by (assumption || lia). rewrite (cpv_mir n d g) by (assumption || lia). reflexivity. }
  rewrite (vsum_ext n _ _ I), (rsum_ext n _ _ T), (vsum_sid n (hinner d g W)), (rsum_sid n (htotal d W)). cbn [mirGB gb_cen]. f_equal.
  apply osum_sid. intros i Hi. rewrite B by exact Hi. rewrite (sds_nth n) by assumption. destruct (nth_error sds (sid n i)) as [sd|]; [|reflexivity]. cbn [option_map bind flipSd px py].
  replace (sideInterpolant (mirSurf sf) i (1 - px sd) (py sd)) with (sideInterpolant sf (sid n i) (px sd) (py sd)); [reflexivity|].
  unfold sideInterpolant. cbn [mirSurf sf_gamma sf_ribbons]. rewrite mapped_nth, (mir_nth _ _ n) by assumption. apply bind_cong. intros ga _.
  destruct (nth_error (sf_ribbons sf) (sid n i)) as [r|]; [|reflexivity]. cbn [option_map bind flipRib flipCurve sr_curve sr_cross]. unfold ribbonEval. cbn [px py]. unfold flipCurve. cbn [cpt]. rewrite clamp_flip. replace (1 - (1 - clamp (px sd) 0 1)) with (clamp (px sd) 0 1) by ring. reflexivity.
Qed.

(** ** Degrees one and two *)
Lemma factor_low : forall d j a b x, (1 <= d <= 2)%nat -> (j <= d)%nat -> gbFactor d j 0 a b x = if (j <? 2)%nat then x * a else x * b.
Proof.
  intros d j a b x Hd Hj. unfold gbFactor, above. destruct d as [|[|[|d]]]; try lia; destruct j as [|[|[|j]]]; try lia; reflexivity.
Qed.
Lemma low_term : forall d j a b x, (1 <= d <= 2)%nat -> (j <= d)%nat ->
  gbFactor d (d - j) 0 b a x = gbFactor d j 0 a b x + (if ((j <? 2) && (d - j <? 2))%nat%bool then x * (b - a) else 0).
Proof.
  intros d j a b x Hd Hj. rewrite !factor_low by lia. destruct d as [|[|[|d]]]; try lia; destruct j as [|[|[|j]]]; try lia; cbn [Nat.sub Nat.ltb Nat.leb andb]; ring.
Qed.
Lemma vadd_0_l : forall v, vzero +v v = v.
Proof. intros v. unfold vzero. v3ring. Qed.
Section Low.
Variables (n d : nat) (g : gbsurf) (sds : list V2) (eps : R).
Hypothesis Sh : shaped n d g.
Hypothesis Ls : length sds = n.
Hypothesis He : 0 < eps.
Hypothesis Hd : (1 <= d <= 2)%nat.
Hypothesis F : forall i, (i < n)%nat -> eps <= co_d sds i + co_d sds (nxt n i).
Definition low_gap (i j : nat) : R := if ((j <? 2) && (d - j <? 2))%nat%bool then
  bern d j (co_s sds i) * bern d 0 (co_d sds i) * (rat (gb_sq g) (co_d sds (nxt n i)) (co_d sds i) - rat (gb_sq g) (co_d sds (prv n i)) (co_d sds i)) else 0.
Lemma gbEval_low : exists p p', gbEval eps g sds = Some p /\ gbEval eps (mirGB g) (mirSds sds) = Some p' /\
  p' = p +v vsum n (fun i => vsum (d + 1) (fun j => (cpv g i j 0 -v gb_cen g) *v low_gap i j)).
Proof.
  eexists; eexists. split; [apply (eval_sum n d g Sh (co_s sds) (co_d sds) sds (sds_co n sds Ls) eps He F)|]. split.
  { apply (eval_sum n d (mirGB g) (shaped_mir n d g Sh) (fun i => 1 - co_s sds (sid n i)) (fun i => co_d sds (sid n i)) (mirSds sds) (mir_co n sds Ls) eps He).
    intros i Hi. rewrite sid_nxt by exact Hi. rewrite <- (nxt_cor n i Hi) at 1. rewrite Rplus_comm. apply F, cor_lt, Hi. }
  assert (Hl : ((d + 1) / 2 = 1)%nat) by (destruct d as [|[|[|k]]]; try lia; reflexivity). rewrite Hl. cbn [mirGB gb_cen]. fold (mirGB g).
  assert (W : forall i j, (i < n)%nat -> (j <= d)%nat -> wgt n d (mirGB g) (fun i => 1 - co_s sds (sid n i)) (fun i => co_d sds (sid n i)) i j 0 = wgt n d g (co_s sds) (co_d sds) (sid n i) (d - j) 0 + low_gap (sid n i) (d - j)).
  { intros i j Hi Hj. unfold wgt, low_gap. cbn [mirGB gb_sq]. rewrite sid_nxt, sid_prv by exact Hi. rewrite prv_sid by exact Hi. rewrite bern_sym by exact Hj.
    rewrite <- low_term by lia. replace (d - (d - j))%nat with j by lia. reflexivity. }
  set (w := fun i j => wgt n d g (co_s sds) (co_d sds) i j 0). set (w' := fun i j => w i j + low_gap i j).
  rewrite (vsum_ext n _ (fun i => vsum (d + 1) (fun j => cpv g (sid n i) j 0 *v w' (sid n i) j))).
  2:{ intros i Hi. cbn [vsum]. rewrite vadd_0_l, <- (vsum_back d (fun j => cpv g (sid n i) j 0 *v w' (sid n i) j)). apply vsum_ext; intros j Hj. rewrite W, (cpv_mir n d) by (assumption || lia). reflexivity. }
  rewrite (rsum_ext n _ (fun i => rsum (d + 1) (fun j => w' (sid n i) j))).
  2:{ intros i Hi. cbn [rsum]. rewrite Rplus_0_l, <- (rsum_back d (fun j => w' (sid n i) j)). apply rsum_ext; intros j Hj. rewrite W by (assumption || lia). reflexivity. }
  rewrite (vsum_sid n (fun i => vsum (d + 1) (fun j => cpv g i j 0 *v w' i j))), (rsum_sid n (fun i => rsum (d + 1) (fun j => w' i j))).
  unfold w'. rewrite (vsum_ext n _ (fun i => vsum (d + 1) (fun j => cpv g i j 0 *v w i j) +v vsum (d + 1) (fun j => cpv g i j 0 *v low_gap i j))).
  2:{ intros i Hi. rewrite <- vsum_add. apply vsum_ext; intros j Hj. v3ring. }
  rewrite (rsum_ext n (fun i => rsum (d + 1) (fun j => w i j + _)) (fun i => rsum (d + 1) (fun j => w i j) + rsum (d + 1) (fun j => low_gap i j))) by (intros i Hi; apply rsum_plus).
  rewrite vsum_add, rsum_plus.
  rewrite (vsum_ext n (fun i => vsum (d + 1) (fun j => (cpv g i j 0 -v gb_cen g) *v _)) (fun i => vsum (d + 1) (fun j => cpv g i j 0 *v low_gap i j) -v gb_cen g *v rsum (d + 1) (fun j => low_gap i j))).
  2:{ intros i Hi. rewrite <- vsum_const, <- vsum_sub. apply vsum_ext; intros j Hj. v3ring. }
  rewrite vsum_sub, (vsum_const n (gb_cen g)).
  rewrite (vsum_ext n (fun i => vsum 1 (fun k => vsum (d + 1) (fun j => cpv g i j k *v wgt n d g (co_s sds) (co_d sds) i j k))) (fun i => vsum (d + 1) (fun j => cpv g i j 0 *v w i j))) by (intros i Hi; cbn [vsum]; apply vadd_0_l).
  rewrite (rsum_ext n (fun i => rsum 1 (fun k => rsum (d + 1) (fun j => wgt n d g (co_s sds) (co_d sds) i j k))) (fun i => rsum (d + 1) (fun j => w i j))) by (intros i Hi; cbn [rsum]; apply Rplus_0_l).
  v3ring.
Qed.
End Low.

(** ** The disc *)
Lemma fmod_pair : forall x y k, 0 <= x -> 0 <= y -> x + y = 2 * PI * IZR k -> fmod x (2 * PI) + fmod y (2 * PI) = 2 * PI \/ fmod x (2 * PI) = 0 /\ fmod y (2 * PI) = 0.
Proof.
  intros x y k Hx Hy E. pose proof PI_RGT_0 as P. unfold fmod. destruct (Rle_dec 0 x); [|lra]. destruct (Rle_dec 0 y); [|lra].
  assert (B : forall z, 0 <= z - 2 * PI * IZR (Int_part (z / (2 * PI))) < 2 * PI).
  { intros z. destruct (base_Int_part (z / (2 * PI))) as [L U]. assert (Z : z = 2 * PI * (z / (2 * PI))) by (field; lra). set (t := z / (2 * PI)) in *. set (q := IZR (Int_part t)) in *.
    assert (0 <= t - q < 1) by lra. assert (z - 2 * PI * q = 2 * PI * (t - q)) by (rewrite Z at 1; ring). nra. }
  pose proof (B x) as Bx. pose proof (B y) as By. set (a := Int_part (x / (2 * PI))) in *. set (b := Int_part (y / (2 * PI))) in *.
  assert (S : x - 2 * PI * IZR a + (y - 2 * PI * IZR b) = 2 * PI * IZR (k - a - b)) by (rewrite !minus_IZR; lra).
  assert (L : (0 <= k - a - b)%Z). { apply Z.lt_succ_r. apply lt_IZR. unfold Z.succ. rewrite plus_IZR. apply (Rmult_lt_reg_l (2 * PI)); lra. }
  assert (U : (k - a - b < 2)%Z). { apply lt_IZR. apply (Rmult_lt_reg_l (2 * PI)); lra. }
  assert (C : (k - a - b = 0 \/ k - a - b = 1)%Z) by lia. destruct C as [C|C]; rewrite C in S; [right; lra|left; lra].
Qed.
Lemma localPhi_mir : forall n i phi phi' m, (3 <= n)%nat -> (i < n)%nat -> - PI <= phi <= PI -> - PI <= phi' <= PI -> phi' = 2 * PI / INR n - phi + 2 * PI * IZR m ->
  exists a a', localPhi n (sid n i) phi = Some a /\ localPhi n i phi' = Some a' /\ (a' = - a \/ a' = a /\ a = - PI).
Proof.
  intros n i phi phi' m H3 Hi B1 B2 E. assert (N : 3 <= INR n) by (replace 3 with (INR 3) by (simpl; lra); apply le_INR; exact H3). pose proof PI_RGT_0 as P.
  unfold localPhi. rewrite !fdiv_some by lra. cbn [bind]. eexists; eexists. split; [reflexivity|]. split; [reflexivity|].
  assert (Q0 : 0 < PI / INR n) by (apply Rmult_lt_0_compat; [lra|apply Rinv_0_lt_compat; lra]).
  assert (Ps : forall j z, (j < n)%nat -> - PI <= z -> 0 <= z + (3 - (INR j * 2 + 1) / INR n) * PI).
  { intros j z Hj Hz. assert (IN : INR j + 1 <= INR n) by (rewrite <- S_INR; apply le_INR; lia). replace ((3 - (INR j * 2 + 1) / INR n) * PI) with (PI + PI / INR n * (2 * (INR n - (INR j + 1)) + 1)) by (field; lra). nra. }
  assert (Si := sid_lt n i Hi). pose proof (Ps i phi' Hi ltac:(lra)) as X. pose proof (Ps _ phi Si ltac:(lra)) as Y.
  assert (S : exists k, phi' + (3 - (INR i * 2 + 1) / INR n) * PI + (phi + (3 - (INR (sid n i) * 2 + 1) / INR n) * PI) = 2 * PI * IZR k).
  { unfold sid. destruct (Nat.eqb_spec i 0) as [->|Ni].
    - exists (3 + m)%Z. rewrite E, plus_IZR. simpl (INR 0). field. lra.
    - exists (2 + m)%Z. rewrite E, plus_IZR, minus_INR by lia. field. lra. }
  destruct S as (k & S). destruct (fmod_pair _ _ k X Y S) as [R|[R1 R2]]; [left; lra|right; rewrite R1, R2; lra].
Qed.
Lemma deviation_even : forall eps n x y, deviation eps n (mkV2 x (- y)) = deviation eps n (mkV2 x y).
Proof.
  intros eps n x y. apply functional_extensionality. intros h. unfold deviation, hcircle. destruct (fdiv ((2 * h + 1) * PI) (INR n)) as [phi|]; [cbn [bind]|reflexivity]. cbv zeta.
  destruct (Rlt_dec _ _) as [Z|Z].
  - cbn [bind px]. destruct (Req_EM_T 0 0); [reflexivity|congruence].
  - destruct (fdiv _ _) as [q|]; [cbn [bind px py]|reflexivity]. destruct (Req_EM_T _ 0); [reflexivity|].
    replace (pnorm (mkV2 (cos phi + q) 0 -p mkV2 x (- y))) with (pnorm (mkV2 (cos phi + q) 0 -p mkV2 x y)) by (unfold pnorm; apply (f_equal sqrt); unfold pdot; cbn [px py psub]; ring).
    replace ((- y - 0) * (- y - 0)) with ((y - 0) * (y - 0)) by ring. reflexivity.
Qed.
Lemma circularMap_mir : forall eps n i r phi phi' m, (3 <= n)%nat -> (i < n)%nat -> - PI <= phi <= PI -> - PI <= phi' <= PI -> phi' = 2 * PI / INR n - phi + 2 * PI * IZR m ->
  circularMap eps n i (mkV2 r phi') = circularMap eps n (sid n i) (mkV2 r phi).
Proof.
  intros eps n i r phi phi' m H3 Hi B1 B2 E. destruct (localPhi_mir n i phi phi' m H3 Hi B1 B2 E) as (a & a' & A & A' & C). unfold circularMap. cbn [px py]. rewrite A, A'. cbn [bind].
  destruct C as [->|[-> _]]; [|reflexivity]. rewrite Rabs_Ropp, cos_neg, sin_neg. replace (r * - sin a) with (- (r * sin a)) by ring. rewrite deviation_even. reflexivity.
Qed.
