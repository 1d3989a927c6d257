(** N-sided ribbons with the perpendicular-polar parameterization. *)
From Verif Require Import Base MeshModel GeomSpec DomainModel UtilModel ParamModel MeshParams MeshGeom MeshGeom2 DomainProofs RibbonModel RibbonSpec RibbonProofs.
Open Scope R_scope.

Lemma sin_acos_ratio : forall a b r, 0 < r -> r * r = a * a + b * b -> 0 <= a ->
  cos (acos (clamp (b / r) (-1) 1)) = b / r /\ sin (acos (clamp (b / r) (-1) 1)) = a / r.
Proof.
  intros a b r Hr E Ha.
  assert (B : -1 <= b / r <= 1).
  { assert (b * b <= r * r) by nra. split.
    - apply (Rmult_le_reg_r r); [exact Hr|]. unfold Rdiv. rewrite Rmult_assoc, Rinv_l by lra. nra.
    - apply (Rmult_le_reg_r r); [exact Hr|]. unfold Rdiv. rewrite Rmult_assoc, Rinv_l by lra. nra. }
  rewrite clamp_id by lra. split; [apply cos_acos; exact B|]. rewrite sin_acos by exact B.
  replace (1 - (b / r)²) with ((a / r) * (a / r)).
  - apply sqrt_square. apply Rmult_le_pos; [exact Ha|]. left; apply Rinv_0_lt_compat; exact Hr.
  - unfold Rsqr. replace 1 with ((a * a + b * b) / (r * r)) by (rewrite <- E; field; lra). field. lra.
Qed.

(** The length and the direction of a vector given in a frame of two
    perpendicular vectors of the same length. *)
Lemma frame_polar : forall s v a b, pdot s v = 0 -> pdot v v = pdot s s -> s <> pzero ->
  let w := s *p a +p v *p b in let r := sqrt (a * a + b * b) in
  (pnorm w = pnorm s * r) /\
  (0 < r -> exists x y, pnormalize v = Some x /\ pnormalize w = Some y /\ pdot x y = b / r) /\
  (0 < r -> exists x y, pnormalize (popp v) = Some x /\ pnormalize w = Some y /\ pdot x y = - b / r).
Proof.
  intros s v a b P Q Ns w r.
  assert (N : pdot s s <> 0) by (intros E; apply Ns, pdot_zero, E).
  assert (Np : 0 < pdot s s). { assert (0 <= pdot s s) by (destruct s; unfold pdot; simpl; nra). lra. }
  assert (L : 0 < pnorm s) by (unfold pnorm, pnorm2; apply sqrt_lt_R0; exact Np).
  assert (Ls : pnorm s * pnorm s = pdot s s) by (unfold pnorm, pnorm2; apply sqrt_sqrt; lra).
  assert (W : pdot w w = pdot s s * (a * a + b * b)).
  { unfold w. transitivity (a * a * pdot s s + 2 * a * b * pdot s v + b * b * pdot v v); [unfold pdot; simpl; ring|rewrite P, Q; ring]. }
  assert (A : 0 <= a * a + b * b) by nra.
  assert (Nw : pnorm w = pnorm s * r).
  { unfold pnorm at 1, pnorm2. rewrite W. rewrite sqrt_mult by lra. reflexivity. }
  assert (Lv : pnorm v = pnorm s) by (unfold pnorm, pnorm2; rewrite Q; reflexivity).
  assert (Lo : pnorm (popp v) = pnorm s).
  { unfold pnorm, pnorm2. rewrite <- Q. f_equal. unfold pdot, popp; simpl; ring. }
  assert (D : pdot v w = b * pdot s s).
  { unfold w. transitivity (a * pdot s v + b * pdot v v); [unfold pdot; simpl; ring|rewrite P, Q; ring]. }
  split; [exact Nw|]. split; intros Hr.
  - unfold pnormalize. rewrite Lv, Nw. rewrite !pdiv_some by nra. do 2 eexists. split; [reflexivity|]. split; [reflexivity|].
    transitivity (pdot v w / (pnorm s * (pnorm s * r))); [unfold pdot; simpl; field; split; lra|]. rewrite D, <- Ls. field. split; lra.
  - unfold pnormalize. rewrite Lo, Nw. rewrite !pdiv_some by nra. do 2 eexists. split; [reflexivity|]. split; [reflexivity|].
    transitivity (- pdot v w / (pnorm s * (pnorm s * r))); [unfold pdot, popp; simpl; field; split; lra|]. rewrite D, <- Ls. field. split; lra.
Qed.

Section Map.
Variables (ctr : V2) (vs : list V2) (d : dom) (i : nat).
Hypothesis Hd : domainFrames ctr vs = Some d.
Hypothesis Hi : (i < length vs)%nat.
Hypothesis Hs : sidevec vs i <> pzero.

(** Decomposition of any vector in the local frame. *)
Lemma local_split : forall v p, toLocal d i v = Some p -> v = sidevec vs i *p px p +p frame_dv ctr vs i *p py p.
Proof.
  intros v p E. pose proof (from_to ctr vs d Hd i Hi v Hs) as X. rewrite E in X. cbn [bind] in X.
  rewrite (fromLocal_eq ctr vs d Hd i Hi) in X. injection X as X. symmetry; exact X.
Qed.
Lemma dn : d_n d = length vs. Proof. rewrite (d_eq ctr vs d Hd). reflexivity. Qed.
Lemma dverts : d_verts d = vs. Proof. rewrite (d_eq ctr vs d Hd). reflexivity. Qed.
Lemma edge_len : edgeLength d i = Some (pnorm (sidevec vs i)).
Proof.
  unfold edgeLength. rewrite dn, dverts, !vtx_nth by (try apply prv_lt; lia). reflexivity.
Qed.
Lemma from_up : fromLocal d i (mkV2 0 1) = Some (frame_dv ctr vs i).
Proof.
  rewrite (fromLocal_eq ctr vs d Hd i Hi). apply (f_equal Some). destruct (sidevec vs i), (frame_dv ctr vs i). unfold padd, pscale; simpl; f_equal; ring.
Qed.

Lemma perp_polar_cases : forall uv p, toLocal d i (uv -p vtx vs (prv (length vs) i)) = Some p ->
  exists sd, perpPolarMap d i uv = Some sd /\
    ((0 <= px p <= 1 /\ sd = p) \/
     (px p < 0 /\ px sd < 0 /\ cos (- px sd) * py sd = py p /\ sin (- px sd) * py sd = - px p) \/
     (1 < px p /\ 1 < px sd /\ cos (px sd - 1) * py sd = - py p /\ sin (px sd - 1) * py sd = px p - 1)).
Proof.
  intros uv p E. unfold perpPolarMap. rewrite dn, dverts, vtx_nth by (apply prv_lt; lia). cbn [bind]. rewrite E. cbn [bind].
  assert (Sp := local_split _ _ E). pose proof (frame_perp ctr vs i) as P. pose proof (frame_same ctr vs i) as Q.
  assert (L : 0 < pnorm (sidevec vs i)).
  { unfold pnorm, pnorm2. apply sqrt_lt_R0. assert (pdot (sidevec vs i) (sidevec vs i) <> 0) by (intros X; apply Hs, pdot_zero, X).
    assert (0 <= pdot (sidevec vs i) (sidevec vs i)) by (destruct (sidevec vs i); unfold pdot; simpl; nra). lra. }
  destruct (Rle_dec 0 (px p)) as [H0|H0].
  - destruct (Rle_dec (px p) 1) as [H1|H1]; [eexists; split; [reflexivity|]; left; split; [lra|reflexivity]|].
    rewrite vtx_nth by exact Hi. cbn [bind]. rewrite from_up, edge_len. cbn [bind].
    assert (W : uv -p vtx vs i = sidevec vs i *p (px p - 1) +p frame_dv ctr vs i *p py p).
    { assert (X : uv -p vtx vs i = (uv -p vtx vs (prv (length vs) i)) -p sidevec vs i) by (unfold sidevec; destruct uv, (vtx vs i), (vtx vs (prv (length vs) i)); unfold psub; simpl; f_equal; ring).
      rewrite X, Sp. destruct (sidevec vs i), (frame_dv ctr vs i). unfold padd, psub, pscale; simpl; f_equal; ring. }
    rewrite W. destruct (frame_polar (sidevec vs i) (frame_dv ctr vs i) (px p - 1) (py p) P Q Hs) as (N & _ & K). cbv zeta in *.
    set (a := px p - 1) in *. set (b := py p) in *. set (r := sqrt (a * a + b * b)) in *.
    assert (Ha : 0 < a) by (unfold a; lra). assert (Hr : 0 < r) by (apply sqrt_lt_R0; nra). assert (Rr : r * r = a * a + b * b) by (apply sqrt_sqrt; nra).
    destruct (K Hr) as (x & y & Ex & Ey & Exy). rewrite N, fdiv_some by lra. cbn [bind]. rewrite Ex, Ey. cbn [bind]. rewrite Exy.
    eexists; split; [reflexivity|]. right; right. cbn [px py].
    destruct (sin_acos_ratio a (- b) r Hr ltac:(lra) ltac:(lra)) as [C Sn]. set (phi := acos (clamp (- b / r) (-1) 1)) in *.
    assert (Fr : pnorm (sidevec vs i) * r / pnorm (sidevec vs i) = r) by (field; lra). rewrite Fr.
    split; [lra|]. split.
    + assert (0 <= phi <= PI) by apply acos_bound. assert (phi <> 0). { intros Z. rewrite Z, sin_0 in Sn. assert (0 < a / r) by (apply Rdiv_lt_0_compat; lra). lra. } lra.
    + replace (1 + phi - 1) with phi by ring. rewrite C, Sn. split; field; lra.
  - rewrite from_up, edge_len. cbn [bind]. rewrite Sp.
    destruct (frame_polar (sidevec vs i) (frame_dv ctr vs i) (px p) (py p) P Q Hs) as (N & K & _). cbv zeta in *.
    set (a := px p) in *. set (b := py p) in *. set (r := sqrt (a * a + b * b)) in *.
    assert (Ha : a < 0) by lra. assert (Hr : 0 < r) by (apply sqrt_lt_R0; nra). assert (Rr : r * r = a * a + b * b) by (apply sqrt_sqrt; nra).
    destruct (K Hr) as (x & y & Ex & Ey & Exy). rewrite N, fdiv_some by lra. cbn [bind]. rewrite Ex, Ey. cbn [bind]. rewrite Exy.
    eexists; split; [reflexivity|]. right; left. cbn [px py].
    destruct (sin_acos_ratio (- a) b r Hr ltac:(lra) ltac:(lra)) as [C Sn]. set (phi := acos (clamp (b / r) (-1) 1)) in *.
    assert (Fr : pnorm (sidevec vs i) * r / pnorm (sidevec vs i) = r) by (field; lra). rewrite Fr.
    split; [exact Ha|]. split.
    + assert (0 <= phi <= PI) by apply acos_bound. assert (phi <> 0). { intros Z. rewrite Z, sin_0 in Sn. assert (0 < - a / r) by (apply Rdiv_lt_0_compat; lra). lra. } lra.
    + replace (- - phi) with phi by ring. rewrite C, Sn. split; field; lra.
Qed.
End Map.
