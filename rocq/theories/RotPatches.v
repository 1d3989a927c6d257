(** Counting the sides from another one: generalized Bezier, hybrid, elastic,
    polar, super-D and C0 Coons patches. *)
From Coq Require Import FunctionalExtensionality.
From Verif Require Import Base MeshModel GeomSpec UtilModel UtilSpec UtilProofs DomainModel DomainProofs ParamModel RibbonModel SurfaceModel SurfaceEval.
From Verif Require Import GBModel GBSpec GBProofs GBEval GBEval2 HybridModel HybridProofs ElasticModel PolarModel PolarPatchModel SuperDModel.
From Verif Require Import RotSpec RotProofs RotParam RotMotion.
Open Scope R_scope.

(** ** Generalized Bezier patches *)
Lemma in_rot : forall A (x : A) l, In x (rot l) -> In x l.
Proof. intros A x [|a l] H; [exact H|]. cbn [rot] in H. apply in_app_or in H. destruct H as [H|[H|[]]]; [right; exact H|left; exact H]. Qed.
Lemma shaped_rot : forall n d g, shaped n d g -> shaped n d (rotGB g).
Proof. intros n d g (A & B & C & D & E). unfold shaped, rotGB. cbn [gb_n gb_deg gb_lay gb_nets]. rewrite rot_length. split; [exact A|]. split; [exact B|]. split; [exact C|]. split; [exact D|]. intros x H. apply E. apply in_rot. exact H. Qed.
Lemma get3_rot : forall (a : nets) n i j k, length a = n -> (i < n)%nat -> get3 (rot a) i j k = get3 a (nxt n i) j k.
Proof. intros a n i j k L Hi. unfold get3. rewrite (rot_nth _ a n i L Hi). reflexivity. Qed.

Section Coord.
Variables (n : nat) (sds : list V2).
Hypothesis Ls : length sds = n.
Definition co_s (i : nat) : R := px (nth i sds pzero).
Definition co_d (i : nat) : R := py (nth i sds pzero).
Lemma sds_co : forall i, (i < n)%nat -> nth_error sds i = Some (mkV2 (co_s i) (co_d i)).
Proof. intros i Hi. unfold co_s, co_d. rewrite (nth_error_nth' sds pzero) by lia. destruct (nth i sds pzero); reflexivity. Qed.
Lemma rot_co : forall i, (i < n)%nat -> nth_error (rot sds) i = Some (mkV2 (co_s (nxt n i)) (co_d (nxt n i))).
Proof. intros i Hi. rewrite (rot_nth _ sds n i Ls Hi). apply sds_co. apply nxt_lt. lia. Qed.

End Coord.

Section GB.
Variables (n d : nat) (g : gbsurf) (sds : list V2) (eps : R).
Hypothesis Sh : shaped n d g.
Hypothesis Ls : length sds = n.
Notation co_s := (co_s sds).
Notation co_d := (co_d sds).
Let sds_co := sds_co n sds Ls.
Let rot_co := rot_co n sds Ls.
Let L : length (gb_nets g) = n. Proof. apply Sh. Qed.

Lemma cp_rot : forall i j k, (i < n)%nat -> controlPoint (rotGB g) i j k = controlPoint g (nxt n i) j k.
Proof. intros i j k Hi. unfold controlPoint, rotGB. cbn [gb_nets]. apply get3_rot; assumption. Qed.
Lemma cpv_rot : forall i j k, (i < n)%nat -> cpv (rotGB g) i j k = cpv g (nxt n i) j k.
Proof. intros i j k Hi. unfold cpv. rewrite cp_rot by exact Hi. reflexivity. Qed.

Lemma gbWeight_rot : forall i j k, (i < n)%nat -> gbWeight eps (rotGB g) (rot sds) i j k = gbWeight eps g sds (nxt n i) j k.
Proof.
  intros i j k Hi. unfold gbWeight. assert (E : gb_n g = n) by apply Sh. cbn [rotGB gb_n gb_deg gb_sq]. rewrite E.
  destruct (_ && _)%bool; [reflexivity|]. rot_idx n i Hi. reflexivity.
Qed.
Lemma cornerWeight_rot : forall i j k, (i < n)%nat -> cornerWeight (rotGB g) (rot sds) i j k = cornerWeight g sds (nxt n i) j k.
Proof. intros i j k Hi. unfold cornerWeight. assert (E : gb_n g = n) by apply Sh. cbn [rotGB gb_n gb_deg]. rewrite E. rot_idx n i Hi. reflexivity. Qed.
Lemma gbcWeight_rot : forall i j k, (i < n)%nat -> gbcWeight (rotGB g) (rot sds) i j k = gbcWeight g sds (nxt n i) j k.
Proof.
  intros i j k Hi. unfold gbcWeight. assert (E : gb_n g = n) by apply Sh. cbn [rotGB gb_n gb_deg gb_lay]. fold (rotGB g). rewrite E.
  rewrite !cornerWeight_rot by (try exact Hi; apply prv_lt; lia). rewrite (nxt_prv n i Hi), (prv_nxt n i Hi). reflexivity.
Qed.

Lemma gbcEval_rot : gbcEval (rotGB g) (rot sds) = gbcEval g sds.
Proof.
  rewrite (corner_eval n d g Sh co_d sds) by (intros i Hi; exists (co_s i); apply sds_co; exact Hi).
  rewrite (corner_eval n d (rotGB g) (shaped_rot n d g Sh) (fun i => co_d (nxt n i)) (rot sds)) by (intros i Hi; exists (co_s (nxt n i)); apply rot_co; exact Hi).
  cbn [rotGB gb_cen]. fold (rotGB g). f_equal. set (l := ((d + 1) / 2)%nat).
  rewrite <- (vsum_nxt n (fun i => vsum l (fun j => vsum l (fun k => cpv g i (d - j) k *v cwgt n d co_d i j k)))).
  rewrite <- (rsum_nxt n (fun i => rsum l (fun j => rsum l (fun k => cwgt n d co_d i j k)))).
  rewrite (vsum_ext n _ (fun i => vsum l (fun j => vsum l (fun k => cpv g (nxt n i) (d - j) k *v cwgt n d co_d (nxt n i) j k)))); [reflexivity|].
  intros i Hi. apply vsum_ext; intros j Hj. apply vsum_ext; intros k Hk. rewrite cpv_rot by exact Hi. reflexivity.
Qed.

Hypothesis He : 0 < eps.
Lemma gbEval_rot_far : (forall i, (i < n)%nat -> eps <= co_d i + co_d (nxt n i)) -> gbEval eps (rotGB g) (rot sds) = gbEval eps g sds.
Proof.
  intros F. rewrite (eval_sum n d g Sh co_s co_d sds sds_co eps He F).
  rewrite (eval_sum n d (rotGB g) (shaped_rot n d g Sh) (fun i => co_s (nxt n i)) (fun i => co_d (nxt n i)) (rot sds) rot_co eps He) by (intros i Hi; apply F; apply nxt_lt; lia).
  cbn [rotGB gb_cen]. fold (rotGB g). f_equal. set (l := ((d + 1) / 2)%nat).
  set (W := wgt n d g co_s co_d). set (W' := wgt n d (rotGB g) (fun i => co_s (nxt n i)) (fun i => co_d (nxt n i))).
  assert (E : forall i j k, (i < n)%nat -> W' i j k = W (nxt n i) j k).
  { intros i j k Hi. unfold W, W', wgt. cbn [rotGB gb_sq]. rewrite (nxt_prv n i Hi), (prv_nxt n i Hi). reflexivity. }
  rewrite <- (vsum_nxt n (fun i => vsum l (fun k => vsum (d + 1) (fun j => cpv g i j k *v W i j k)))).
  rewrite <- (rsum_nxt n (fun i => rsum l (fun k => rsum (d + 1) (fun j => W i j k)))).
  rewrite (vsum_ext n _ (fun i => vsum l (fun k => vsum (d + 1) (fun j => cpv g (nxt n i) j k *v W (nxt n i) j k)))).
  - rewrite (rsum_ext n _ (fun i => rsum l (fun k => rsum (d + 1) (fun j => W (nxt n i) j k)))); [reflexivity|].
    intros i Hi. apply rsum_ext; intros k Hk. apply rsum_ext; intros j Hj. apply E. exact Hi.
  - intros i Hi. apply vsum_ext; intros k Hk. apply vsum_ext; intros j Hj. rewrite cpv_rot, E by exact Hi. reflexivity.
Qed.
End GB.

(** At one corner. *)
Lemma gbEval_corner : forall n d g sds eps e, shaped n d g -> consistent n d g -> length sds = n -> (2 <= n)%nat -> (1 <= d)%nat -> 0 < eps -> (e < n)%nat ->
  co_d sds e + co_d sds (nxt n e) < eps -> (forall i, (i < n)%nat -> i <> e -> eps <= co_d sds i + co_d sds (nxt n i)) ->
  gbEval eps g sds = Some (cpv g e d 0).
Proof.
  intros n d g sds eps e Sh Co Ls Hn Hd He Hen Ne Fa. assert (Sn : gb_n g = n) by apply Sh. assert (Sd : gb_deg g = d) by apply Sh. 
  assert (Hsd := sds_co n sds Ls). unfold gbEval. rewrite Sn.
  assert (Cw : get3 (gb_nets g) e d 0 = Some (cpv g e d 0)) by (apply (cpv_some n d g e d 0 Sh); cbn [inRange]; lia).
  destruct (Nat.eq_dec (S e) n) as [Z|Z].
  - assert (Nx : nxt n e = 0%nat) by (rewrite nxt_cases by exact Hen; destruct (Nat.eqb_spec (S e) n); [reflexivity|lia]).
    assert (Px : prv n 0 = e) by (rewrite <- Nx; apply prv_nxt; exact Hen).
    assert (M : get3 (gb_nets g) 0 0 0 = get3 (gb_nets g) e d 0).
    { assert (Q := Co ((e + 1) mod n, 0, 0)%nat (e, d - 0, 0)%nat). cbn [getp] in Q. unfold controlPoint in Q. unfold nxt in Nx. rewrite Nx, Nat.sub_0_r in Q. apply Q; [cbn [inRange]; lia|cbn [inRange]; lia|].
      assert (V := mirror_intro n d e 0 0 ltac:(lia)). rewrite Nx, Nat.sub_0_r in V. exact V. }
    destruct n as [|m]; [lia|]. cbn [seq gbLoop]. rewrite Sn, Px. rewrite !Hsd by (try lia; apply nxt_lt; lia). cbn [bind py].
    destruct (Rlt_dec (co_d sds 0 + co_d sds (nxt (S m) 0)) eps) as [A|A]; [assert (B := Fa 0%nat ltac:(lia) ltac:(lia)); lra|].
    rewrite Nx in Ne. destruct (Rlt_dec (co_d sds e + co_d sds 0) eps) as [_|C]; [|lra]. rewrite M, Cw. reflexivity.
  - assert (Nx : nxt n e = S e) by (rewrite nxt_cases by exact Hen; destruct (Nat.eqb_spec (S e) n); [lia|reflexivity]).
    replace n with (e + S (n - S e))%nat at 1 by lia. rewrite seq_app.
    assert (Sp : forall l1 l2 st st', gbLoop eps g sds l1 st = Some (inr st') -> gbLoop eps g sds (l1 ++ l2) st = gbLoop eps g sds l2 st').
    { intros l1; induction l1 as [|x l1 IH]; intros l2 st st' E; [cbn [gbLoop] in E; injection E as ->; reflexivity|]. cbn [gbLoop app] in *.
      destruct (nth_error sds x); [cbn [bind] in *|discriminate]. destruct (nth_error sds (prv (gb_n g) x)); [cbn [bind] in *|discriminate]. destruct (nth_error sds (nxt (gb_n g) x)); [cbn [bind] in *|discriminate].
      destruct (Rlt_dec _ eps); [match type of E with bind ?x _ = _ => destruct x end; cbn [bind] in E; discriminate E|]. destruct (Rlt_dec _ eps); [match type of E with bind ?x _ = _ => destruct x end; cbn [bind] in E; discriminate E|].
      destruct (gbRatio _ _ _); [cbn [bind] in *|discriminate]. destruct (gbRatio _ _ _); [cbn [bind] in *|discriminate]. destruct (nth_error _ x); [cbn [bind] in *|discriminate].
      destruct (gbSide _ _ _ _ _ _ _ _); [cbn [bind] in *|discriminate]. apply IH. exact E. }
    erewrite Sp.
    2:{ apply (loop_sum n d g Sh (co_s sds) (co_d sds) sds Hsd eps He e 0); [lia|]. intros i Hi. split; [apply Fa; lia|].
        assert (Q := Fa (prv n i) ltac:(apply prv_lt; lia)). rewrite nxt_prv in Q by lia. apply Q. intros E. assert (W := nxt_prv n i ltac:(lia)). rewrite E in W. lia. }
    cbn [Nat.add seq gbLoop]. rewrite Sn, Sd. rewrite !Hsd by (try lia; try apply nxt_lt; try apply prv_lt; lia). cbn [bind py].
    destruct (Rlt_dec (co_d sds e + co_d sds (nxt n e)) eps) as [_|C]; [|lra]. rewrite Cw. reflexivity.
Qed.
Lemma consistent_rot : forall n d g, shaped n d g -> consistent n d g -> consistent n d (rotGB g).
Proof.
  intros n d g Sh Co p q P Q M. destruct M as [i j k Hj]. cbn [inRange] in P, Q. cbn [getp]. rewrite !(cp_rot n d g Sh) by lia.
  assert (E : nxt n ((i + 1) mod n) = ((nxt n i + 1) mod n)%nat) by (unfold nxt; reflexivity). rewrite E.
  apply (Co ((nxt n i + 1) mod n, j, k)%nat (nxt n i, d - k, j)%nat).
  - cbn [inRange]. split; [apply Nat.mod_upper_bound; lia|lia].
  - cbn [inRange]. split; [apply nxt_lt; lia|lia].
  - constructor. exact Hj.
Qed.
Lemma co_rot : forall n sds i, length sds = n -> (i < n)%nat -> co_d (rot sds) i = co_d sds (nxt n i).
Proof.
  intros n sds i L Hi. assert (A := rot_co n sds L i Hi). assert (L' : length (rot sds) = n) by (rewrite rot_length; exact L).
  rewrite (sds_co n (rot sds) L' i Hi) in A. congruence.
Qed.
Lemma gbEval_rot : forall n d g sds eps, shaped n d g -> consistent n d g -> length sds = n -> (2 <= n)%nat -> (1 <= d)%nat -> 0 < eps -> one_corner eps sds ->
  gbEval eps (rotGB g) (rot sds) = gbEval eps g sds.
Proof.
  intros n d g sds eps Sh Co L H2 Hd He On.
  destruct (first_near (fun i => co_d sds i + co_d sds (nxt n i) < eps) n) as [A|(e & Hen & Ne & _)]; [intros; apply Rlt_dec| |].
  - apply (gbEval_rot_far n d g sds eps Sh L He). intros i Hi. apply Rnot_lt_le. exact (A i Hi).
  - assert (F : forall i, (i < n)%nat -> i <> e -> eps <= co_d sds i + co_d sds (nxt n i)).
    { intros i Hi N. apply Rnot_lt_le. intros Lt. apply N. apply On; rewrite L; try assumption. }
    rewrite (gbEval_corner n d g sds eps e) by assumption. assert (Hp : (prv n e < n)%nat) by (apply prv_lt; lia).
    rewrite (gbEval_corner n d (rotGB g) (rot sds) eps (prv n e)).
    + rewrite (cpv_rot n d g Sh) by exact Hp. rewrite nxt_prv by exact Hen. reflexivity.
    + apply shaped_rot; exact Sh.
    + apply consistent_rot; assumption.
    + rewrite rot_length. exact L.
    + exact H2.
    + exact Hd.
    + exact He.
    + exact Hp.
    + rewrite !(co_rot n) by (try assumption; apply nxt_lt; lia). rewrite nxt_prv by exact Hen. exact Ne.
    + intros i Hi N. assert (Hx : (nxt n i < n)%nat) by (apply nxt_lt; lia). rewrite !(co_rot n) by assumption. apply F; [exact Hx|]. intros E. apply N. rewrite <- E. symmetry. apply prv_nxt. exact Hi.
Qed.

(** ** Hybrid patches *)
Lemma gbWeight_total : forall n d g sds eps i j k, shaped n d g -> length sds = n -> 0 < eps -> (i < n)%nat -> (j <= d)%nat -> (k < (d + 1) / 2)%nat ->
  exists w, gbWeight eps g sds i j k = Some w.
Proof.
  intros n d g sds eps i j k Sh L He Hi Hj Hk. assert (Hsd := sds_co n sds L).
  destruct (Rlt_dec (co_d sds i + co_d sds (nxt n i)) eps) as [A|A]; [|destruct (Rlt_dec (co_d sds (prv n i) + co_d sds i) eps) as [B|B]].
  - unfold gbWeight. assert (Sn : gb_n g = n) by apply Sh. rewrite Sn. destruct (_ && _)%bool; [eexists; reflexivity|]. rewrite !Hsd by (try exact Hi; try apply prv_lt; try apply nxt_lt; lia). cbn [bind py].
    destruct (Rlt_dec (co_d sds i + co_d sds (nxt n i)) eps); [eexists; reflexivity|contradiction].
  - unfold gbWeight. assert (Sn : gb_n g = n) by apply Sh. rewrite Sn. destruct (_ && _)%bool; [eexists; reflexivity|]. rewrite !Hsd by (try exact Hi; try apply prv_lt; try apply nxt_lt; lia). cbn [bind py].
    destruct (Rlt_dec (co_d sds i + co_d sds (nxt n i)) eps); [eexists; reflexivity|]. destruct (Rlt_dec (co_d sds (prv n i) + co_d sds i) eps); [eexists; reflexivity|contradiction].
  - eexists. apply (weight_value n d g Sh (co_s sds) (co_d sds) sds Hsd eps He); try assumption; lra.
Qed.
Definition wval (eps : R) (g : gbsurf) (sds : list V2) (i j k : nat) : R := match gbWeight eps g sds i j k with Some w => w | None => 0 end.
Lemma hybrid_split : forall n d g sf sds eps, shaped n d g -> length sds = n -> 0 < eps -> let W := wval eps g sds in
  hybridEval eps g sf sds = (r <- osum n (fun i => sd <- nth_error sds i ;; q <- sideInterpolant sf i (px sd) (py sd) ;; Some (q *v hblend d W i)) ;;
    Some (vsum n (hinner d g W) +v gb_cen g *v (1 - rsum n (htotal d W)) +v r)).
Proof.
  intros n d g sf sds eps Sh L He W. unfold hybridEval. pose proof Sh as (Sn & _). rewrite Sn.
  assert (HW : forall i j k, (i < n)%nat -> (j <= d)%nat -> (k < (d + 1) / 2)%nat -> gbWeight eps g sds i j k = Some (W i j k)).
  { intros i j k Hi Hj Hk. unfold W, wval. destruct (gbWeight_total n d g sds eps i j k Sh L He Hi Hj Hk) as (w & ->). reflexivity. }
  set (F := fun (st : V3 * R * list R) i => let '(p, w, bs) := st in
      ' (p', w', b) <- hybridSide eps g sds i (p, w, 0) ;; Some (p', w', bs ++ [b])).
  assert (Q : foldM F (vzero, 0, []) (seq 0 n) = Some (vsum n (hinner d g W), rsum n (htotal d W), map (hblend d W) (seq 0 n))).
  { apply (foldM_states _ F (fun m => (vsum m (hinner d g W), rsum m (htotal d W), map (hblend d W) (seq 0 m))) n 0).
    intros i Hi. cbn [Nat.add]. unfold F. rewrite (hybrid_side eps n d g sds Sh W HW) by exact Hi. cbn [bind]. rewrite seq_S, map_app. reflexivity. }
  rewrite Q. cbn [bind]. f_equal. apply osum_ext. intros i Hi. apply bind_cong; intros sd _. apply bind_cong; intros q _.
  rewrite (map_nth_error (hblend d W) i (seq 0 n) (d := i)); [reflexivity|].
  rewrite (nth_error_nth' (seq 0 n) 0%nat) by (rewrite seq_length; exact Hi). rewrite seq_nth by exact Hi. reflexivity.
Qed.
Lemma hybridEval_rot : forall n d g sf sds eps, shaped n d g -> length sds = n -> length (sf_ribbons sf) = n -> 0 < eps ->
  hybridEval eps (rotGB g) (rotSurf sf) (rot sds) = hybridEval eps g sf sds.
Proof.
  intros n d g sf sds eps Sh L Lr He. rewrite (hybrid_split n d g sf sds eps Sh L He). cbv zeta.
  rewrite (hybrid_split n d (rotGB g) (rotSurf sf) (rot sds) eps (shaped_rot n d g Sh)); [|rewrite rot_length; exact L|exact He]. cbv zeta.
  set (W := wval eps g sds). set (W' := wval eps (rotGB g) (rot sds)).
  assert (E : forall i j k, (i < n)%nat -> W' i j k = W (nxt n i) j k) by (intros i j k Hi; unfold W, W', wval; rewrite (gbWeight_rot n d g sds eps Sh L) by exact Hi; reflexivity).
  assert (B : forall i, (i < n)%nat -> hblend d W' i = hblend d W (nxt n i)).
  { intros i Hi. unfold hblend. apply rsum_ext; intros k _. apply rsum_ext; intros j _. rewrite E by exact Hi. reflexivity. }
  assert (T : forall i, (i < n)%nat -> htotal d W' i = htotal d W (nxt n i)).
  { intros i Hi. unfold htotal. apply rsum_ext; intros k _. apply rsum_ext; intros j _. rewrite E by exact Hi. reflexivity. }
  assert (I : forall i, (i < n)%nat -> hinner d (rotGB g) W' i = hinner d g W (nxt n i)).
  { intros i Hi. unfold hinner. apply vsum_ext; intros k _. apply vsum_ext; intros j _. rewrite E by exact Hi. rewrite (cpv_rot n d g Sh) by exact Hi. reflexivity. }
  rewrite (vsum_ext n _ _ I), (rsum_ext n _ _ T), (vsum_nxt n (hinner d g W)), (rsum_nxt n (htotal d W)). cbn [rotGB gb_cen]. f_equal.
  apply osum_rot. intros i Hi. rewrite B by exact Hi. rewrite (rot_nth _ sds n i L Hi). apply bind_cong; intros sd _.
  replace (sideInterpolant (rotSurf sf) i (px sd) (py sd)) with (sideInterpolant sf (nxt n i) (px sd) (py sd)); [reflexivity|].
  unfold sideInterpolant. cbn [rotSurf sf_gamma sf_ribbons]. rewrite (rot_nth _ _ n i Lr Hi). reflexivity.
Qed.
