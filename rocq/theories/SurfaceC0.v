(** Coons ribbons and the C0 Coons patch; histories of the midpoint. *)
From Verif Require Import Base MeshModel GeomSpec DomainModel UtilModel UtilSpec ParamModel.
From Verif Require Import DomainProofs DomainPolygons UtilProofs ParamBary ParamMaps ParamRegular ParamSide.
From Verif Require Import RibbonModel SurfaceModel SurfaceSpec BlendProofs ParamTame SurfaceProofs SurfacePatches SurfaceEval SurfaceCentre.
Open Scope R_scope.

Lemma bern_cubic : forall u, bern 3 0 u = (1-u)^3 /\ bern 3 1 u = 3 * u * (1-u)^2 /\ bern 3 2 u = 3 * u^2 * (1-u) /\ bern 3 3 u = u^3.
Proof. intros u. unfold bern, Binomial.C. simpl. repeat split; field. Qed.

Lemma cubic_value : forall a b c e u, bcEval [a; b; c; e] u =
  Some (a *v (1-u)^3 +v b *v (3 * u * (1-u)^2) +v c *v (3 * u^2 * (1-u)) +v e *v u^3).
Proof.
  intros a b c e u. rewrite (bcEval_spec _ 3) by reflexivity. apply (f_equal Some). unfold bezier, pnth. simpl.
  destruct (bern_cubic u) as (-> & -> & -> & ->). v3ring.
Qed.
Lemma const_value : forall a u, bcEval [a] u = Some a.
Proof.
  intros a u. rewrite (bcEval_spec _ 0) by reflexivity. apply (f_equal Some). unfold bezier, pnth. simpl. rewrite bern_0_0. v3ring.
Qed.

(** A Coons ribbon interpolates the four curves around it. *)
Section Ribbon.
Variables (l2 l c r r2 : curve) (same : bool).
Let k := coonsUpdate l2 l c r r2 same.
Hypothesis Htri : same = true -> cpt l 0 = cpt r 1.

Lemma top_total : forall u, exists t, bcEval (co_top k) u = Some t.
Proof. clear Htri. intros u. unfold k, coonsUpdate. destruct same; cbn [co_top]; [rewrite const_value|rewrite cubic_value]; eexists; reflexivity. Qed.
Lemma top_start : bcEval (co_top k) 0 = Some (cpt r 1).
Proof.
  unfold k, coonsUpdate. destruct same; cbn [co_top].
  - rewrite const_value, Htri; reflexivity.
  - rewrite cubic_value. apply (f_equal Some). v3ring.
Qed.
Lemma top_end : bcEval (co_top k) 1 = Some (cpt l 0).
Proof.
  clear Htri. unfold k, coonsUpdate. destruct same; cbn [co_top].
  - apply const_value.
  - rewrite cubic_value. apply (f_equal Some). v3ring.
Qed.

Lemma coons_bottom : forall s, 0 <= s <= 1 -> cpt l 1 = cpt c 0 -> cpt r 0 = cpt c 1 -> coonsEval c k (mkV2 s 0) = Some (cpt c s).
Proof.
  intros s Hs El Er. unfold coonsEval. cbn [px py]. rewrite (clamp_id s), (clamp_id 0), (clamp_id (1 - s)) by lra. rewrite (clamp_id (1 - 0)) by lra.
  destruct (top_total (1 - s)) as [t ->]. cbn [bind]. apply (f_equal Some). replace (1 - 0) with 1 by ring.
  replace (cpt (co_left k) 1) with (cpt c 0) by (symmetry; exact El). replace (cpt (co_right k) 0) with (cpt c 1) by (symmetry; exact Er).
  replace (co_bl k) with (cpt c 0) by reflexivity. replace (co_br k) with (cpt c 1) by reflexivity. v3ring.
Qed.
Lemma coons_left : forall d, 0 <= d <= 1 -> coonsEval c k (mkV2 0 d) = Some (cpt l (1 - d)).
Proof.
  clear Htri. intros d Hd. unfold coonsEval. cbn [px py]. rewrite (clamp_id 0), (clamp_id d), (clamp_id (1 - d)) by lra. rewrite (clamp_id (1 - 0)) by lra.
  replace (1 - 0) with 1 by ring. rewrite top_end. cbn [bind]. apply (f_equal Some).
  replace (co_left k) with l by reflexivity. replace (co_bl k) with (cpt c 0) by reflexivity. replace (co_tl k) with (cpt l 0) by reflexivity. v3ring.
Qed.
Lemma coons_right : forall d, 0 <= d <= 1 -> coonsEval c k (mkV2 1 d) = Some (cpt r d).
Proof.
  intros d Hd. unfold coonsEval. cbn [px py]. rewrite (clamp_id 1), (clamp_id d), (clamp_id (1 - d)) by lra. rewrite (clamp_id (1 - 1)) by lra.
  replace (1 - 1) with 0 by ring. rewrite top_start. cbn [bind]. apply (f_equal Some).
  replace (co_right k) with r by reflexivity. replace (co_br k) with (cpt c 1) by reflexivity. replace (co_tr k) with (cpt r 1) by reflexivity. v3ring.
Qed.
Lemma coons_top : forall s, 0 <= s <= 1 -> coonsEval c k (mkV2 s 1) = bcEval (co_top k) (1 - s).
Proof.
  intros s Hs. unfold coonsEval. cbn [px py]. rewrite (clamp_id s), (clamp_id 1), (clamp_id (1 - s)) by lra. rewrite (clamp_id (1 - 1)) by lra.
  destruct (top_total (1 - s)) as [t ->]. cbn [bind]. apply (f_equal Some). replace (1 - 1) with 0 by ring.
  replace (co_left k) with l by reflexivity. replace (co_right k) with r by reflexivity. replace (co_tl k) with (cpt l 0) by reflexivity. replace (co_tr k) with (cpt r 1) by reflexivity. v3ring.
Qed.
Lemma coons_total : forall sd, exists p, coonsEval c k sd = Some p.
Proof. clear Htri. intros sd. unfold coonsEval. destruct (top_total (clamp (1 - clamp (px sd) 0 1) 0 1)) as [t ->]. eexists; reflexivity. Qed.
End Ribbon.

(** The i-th curve of a list, and closed loops. *)
Definition crv (cs : list curve) (i : nat) : curve := nth i cs (mkCurve (fun _ => vzero) (fun _ => vzero) (fun _ _ => 0)).
Lemma crv_nth : forall cs i, (i < length cs)%nat -> nth_error cs i = Some (crv cs i).
Proof. intros cs i Hi. apply nth_error_nth'. exact Hi. Qed.

Section Patch.
Variable cs : list curve.
Let n := length cs.
Hypothesis H3 : (3 <= n)%nat.
Hypothesis Hclosed : forall i, (i < n)%nat -> cpt (crv cs i) 1 = cpt (crv cs (nxt n i)) 0.

Let kd (i : nat) := coonsUpdate (crv cs (prv n (prv n i))) (crv cs (prv n i)) (crv cs i) (crv cs (nxt n i)) (crv cs (nxt n (nxt n i)))
  (nxt n (nxt n i) =? prv n i)%nat.

Lemma coonsRibbon_value : forall i, (i < n)%nat -> coonsRibbon cs i = Some (coonsEval (crv cs i) (kd i)).
Proof.
  intros i Hi. unfold coonsRibbon. fold n. assert (Lp : (prv n i < n)%nat) by (apply prv_lt; lia). assert (Ln : (nxt n i < n)%nat) by (apply nxt_lt; lia).
  rewrite !crv_nth by (fold n; try assumption; try (apply prv_lt; lia); apply nxt_lt; lia). reflexivity.
Qed.

Lemma tri_same : forall i, (i < n)%nat -> (nxt n (nxt n i) =? prv n i)%nat = true -> cpt (crv cs (prv n i)) 0 = cpt (crv cs (nxt n i)) 1.
Proof.
  intros i Hi E. apply Nat.eqb_eq in E. rewrite <- E. symmetry. apply Hclosed. apply nxt_lt; lia.
Qed.

Lemma c0coons_side : forall e s sds, (e < n)%nat -> 0 <= s <= 1 -> length sds = n ->
  nth_error sds e = Some (mkV2 s 0) -> nth_error sds (nxt n e) = Some (mkV2 0 (1 - s)) ->
  (exists sp, nth_error sds (prv n e) = Some (mkV2 sp s) /\ (sp = 1 \/ s = 1)) ->
  (forall j sd, nth_error sds j = Some sd -> j <> e -> j <> nxt n e -> j <> prv n e -> py sd = 1) ->
  (rs <- mapM (coonsRibbon cs) (seq 0 n) ;; c0coons rs n sds) = Some (cpt (crv cs e) s).
Proof.
  intros e s sds He Hs Ls Ee En (sp & Ep & Hsp) F.
  assert (Lp : (prv n e < n)%nat) by (apply prv_lt; lia). assert (Ln : (nxt n e < n)%nat) by (apply nxt_lt; lia).
  assert (Np := prv_neq n e ltac:(lia) He). assert (Nn := nxt_neq n e ltac:(lia) He). assert (Nnp := nxt_prv_neq n e H3 He).
  rewrite (mapM_seq _ n _ (fun i => coonsEval (crv cs i) (kd i))) by (intros i Hi; apply coonsRibbon_value; exact Hi). cbn [bind]. unfold c0coons.
  assert (TT : exists f, forall i, (i < n)%nat -> coonsEval (crv cs i) (kd i) (mkV2 (spar sds i) (dpar sds i)) = Some (f i)).
  { exists (fun i => match coonsEval (crv cs i) (kd i) (mkV2 (spar sds i) (dpar sds i)) with Some p => p | None => vzero end).
    intros i Hi. destruct (coons_total (crv cs (prv n (prv n i))) (crv cs (prv n i)) (crv cs i) (crv cs (nxt n i)) (crv cs (nxt n (nxt n i)))
      (nxt n (nxt n i) =? prv n i)%nat (mkV2 (spar sds i) (dpar sds i))) as [p E]. fold (kd i) in E. rewrite E. reflexivity. }
  destruct TT as [f Hf].
  rewrite (osum_total n _ (fun i => f i *v (1 - dpar sds i) *v / 2)).
  2:{ intros i Hi. rewrite tabulate_nth_error by exact Hi. cbn [bind]. rewrite nth_sd by lia. cbn [bind]. rewrite (Hf i Hi). reflexivity. }
  apply (f_equal Some).
  assert (A : forall i a b, (i < n)%nat -> nth_error sds i = Some (mkV2 a b) -> spar sds i = a /\ dpar sds i = b).
  { intros i a b Hi E. rewrite nth_sd in E by lia. injection E as A B. auto. }
  destruct (A e _ _ He Ee) as [S0 D0]. destruct (A _ _ _ Ln En) as [S1 D1]. destruct (A _ _ _ Lp Ep) as [S2 D2].
  assert (Fe := Hf e He). rewrite S0, D0 in Fe.
  unfold kd in Fe. rewrite coons_bottom in Fe; [|exact Hs| |].
  2:{ rewrite (Hclosed _ Lp), (nxt_prv n e He). reflexivity. }
  2:{ symmetry. apply Hclosed; exact He. }
  injection Fe as Fe.
  assert (Fn := Hf _ Ln). rewrite S1, D1 in Fn. unfold kd in Fn. rewrite coons_left in Fn by lra.
  rewrite (prv_nxt n e He) in Fn. replace (1 - (1 - s)) with s in Fn by ring. injection Fn as Fn.
  rewrite (vsum_triple n _ e (nxt n e) (prv n e)); auto.
  - rewrite <- Fe, <- Fn, D0, D1, D2. destruct Hsp as [-> | ->].
    + assert (Fp := Hf _ Lp). rewrite S2, D2 in Fp. unfold kd in Fp. rewrite coons_right in Fp; [|intros E; apply tri_same; assumption|lra].
      rewrite (nxt_prv n e He) in Fp. injection Fp as Fp. rewrite <- Fp. v3field.
    + v3field.
  - intros j Hj J1 J2 J3. assert (X := F j _ (nth_sd sds j ltac:(lia)) J1 J2 J3). cbn [py] in X. rewrite X. v3field.
Qed.
End Patch.

(** The weights of the C0 Coons patch. *)
Lemma bary_weights : forall t eps d uv sds l, d_n d = length l -> barycentric t eps d uv = Some l -> rsum (length l) (fun i => nth i l 0) = 1 ->
  mapToRibbons (KBary t) eps d uv = Some sds -> rsum (length l) (fun i => (1 - dpar sds i) * / 2) = 1.
Proof.
  intros t eps d uv sds l Hn B S M. unfold mapToRibbons in M. rewrite Hn in M. set (n := length l) in *.
  assert (Ls : length sds = n) by (rewrite (mapM_length _ _ _ M), seq_length; reflexivity).
  assert (D : forall i, (i < n)%nat -> 1 - dpar sds i = nth i l 0 + nth (prv n i) l 0).
  { intros i Hi. assert (Lp : (prv n i < n)%nat) by (apply prv_lt; lia).
    assert (E : nth_error sds i = mapToRibbon (KBary t) eps d i uv).
    { symmetry. rewrite <- (mapM_nth _ _ _ i i M); [reflexivity|].
      rewrite (nth_error_nth' (seq 0 n) 0%nat) by (rewrite seq_length; exact Hi). rewrite seq_nth by exact Hi. reflexivity. }
    cbn [mapToRibbon] in E. unfold baryMap in E. rewrite B in E. cbn [bind] in E. unfold baryRibbon in E. rewrite Hn in E.
    rewrite !(nth_error_nth' l 0) in E by assumption. cbn [bind] in E. rewrite nth_sd in E by lia.
    destruct (if Rlt_dec _ _ then _ else _) as [x|]; [|discriminate]. cbn [bind] in E. injection E as _ E. rewrite E. ring. }
  rewrite (rsum_ext n _ (fun i => (nth i l 0) * / 2 + (nth (prv n i) l 0) * / 2)).
  2:{ intros i Hi. rewrite (D i Hi). ring. }
  rewrite rsum_plus, !rsum_scal_r.
  assert (P : rsum n (fun i => nth (prv n i) l 0) = rsum n (fun i => nth i l 0)).
  { apply (rsum_prv n (fun i => nth i l 0)). }
  rewrite P, S. field.
Qed.
