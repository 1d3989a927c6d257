(** Polar parameterization: angles, sides, the inverse. *)
From Coq Require Import Reals List Lra Lia.
From Verif Require Import Base MeshModel GeomSpec DomainModel UtilModel ParamModel.
From Verif Require Import DomainProofs DomainPolygons UtilProofs ParamBary PolarModel.
Import ListNotations.
Open Scope R_scope.

(** ** Mean value coordinates on a side *)
Section MVSide.
Variables (vs : list V2) (e : nat) (s : R).
Let n := length vs.
Hypothesis C : strictly_convex vs.
Hypothesis H3 : (3 <= n)%nat.
Hypothesis He : (e < n)%nat.
Hypothesis Hs : 0 < s < 1.
Let uv := sidePt vs e s.
Let z := prv n e.
Let L := pnorm (vtx vs e -p vtx vs z).
Let K := far vs e s * corner vs e * corner vs z.

Lemma zlt : (z < n)%nat. Proof. apply prv_lt; lia. Qed.
Lemma znz : nxt n z = e. Proof. apply nxt_prv; exact He. Qed.
Lemma zne : z <> e. Proof. apply prv_neq; lia. Qed.

Lemma sv_z : svec vs uv z = (vtx vs e -p vtx vs z) *p s.
Proof. unfold svec, uv, sidePt. fold n z. apply V2_ext; simpl; ring. Qed.
Lemma sv_e : svec vs uv e = (vtx vs e -p vtx vs z) *p (- (1 - s)).
Proof. unfold svec, uv, sidePt. fold n z. apply V2_ext; simpl; ring. Qed.
Lemma pnorm_scale : forall v k, pnorm (v *p k) = Rabs k * pnorm v.
Proof.
  intros v k. unfold pnorm. replace (pdot (v *p k) (v *p k)) with (k * k * pdot v v) by (unfold pdot; simpl; ring).
  rewrite sqrt_mult; [|nra|unfold pdot; nra]. f_equal. fold (Rsqr k). apply sqrt_Rsqr_abs.
Qed.
Lemma r_z : pnorm (svec vs uv z) = s * L.
Proof. rewrite sv_z, pnorm_scale, Rabs_right by lra. reflexivity. Qed.
Lemma r_e : pnorm (svec vs uv e) = (1 - s) * L.
Proof. rewrite sv_e, pnorm_scale, Rabs_Ropp, Rabs_right by lra. reflexivity. Qed.
Lemma Lpos : 0 < L.
Proof.
  apply pnorm_pos. intros E. assert (P := corner_pos vs ltac:(lia) C H3 e He). unfold corner in P. fold n z in P.
  assert (Ex := f_equal px E). assert (Ey := f_equal py E). simpl in Ex, Ey. unfold sarea, pcross in P. simpl in P.
  replace (px (vtx vs e)) with (px (vtx vs z)) in P by lra. replace (py (vtx vs e)) with (py (vtx vs z)) in P by lra. lra.
Qed.
Lemma bcr_e : bcr vs uv e = - s * corner vs e.
Proof. unfold bcr. fold n z. rewrite sv_z. unfold svec, uv, sidePt, corner, sarea, pcross. fold n z. simpl. field. Qed.
Lemma bcr_z : bcr vs uv z = - (1 - s) * corner vs z.
Proof. unfold bcr. fold n. rewrite znz, sv_e. unfold svec, uv, sidePt, corner, sarea, pcross. fold n z. rewrite znz. simpl. field. Qed.

Lemma but_zero : forall i, (i < n)%nat -> i <> z -> prodBut vs uv i = 0.
Proof.
  intros i Hi N. unfold prodBut. fold n. rewrite (rprod_zero n _ z); [ring|apply zlt|].
  destruct (Nat.eqb_spec z i); [congruence|]. apply (tri_side vs e s He).
Qed.
Lemma but2_zero : forall i, (i < n)%nat -> i <> e -> i <> z -> prodBut2 vs uv i (prv n i) = 0.
Proof.
  intros i Hi N1 N2. unfold prodBut2. fold n. rewrite (rprod_zero n _ z); [ring|apply zlt|].
  destruct (Nat.eqb_spec z i); [congruence|]. destruct (Nat.eqb_spec z (prv n i)) as [E|E]; [|apply (tri_side vs e s He)].
  exfalso. apply N1. apply (prv_inj n); [exact Hi|exact He|symmetry; exact E].
Qed.

(** From the Wachspress weights. *)
Lemma p2_e : corner vs e * prodBut2 vs uv e z = s * K.
Proof. pose proof (weight_end vs e s H3 He) as W. fold n z uv in W. rewrite wachspress_weight in W by (fold n; lia). exact W. Qed.
Lemma p2_z : corner vs z * prodBut2 vs uv z (prv n z) = (1 - s) * K.
Proof. pose proof (weight_start vs e s H3 He) as W. fold n z uv in W. rewrite wachspress_weight in W by (fold n; try apply zlt; lia). exact W. Qed.

Lemma p_z : prodBut vs uv z = s * (1 - s) * K.
Proof.
  rewrite (prodBut2_but vs uv ltac:(fold n; lia) z e) by (fold n; try apply zlt; try apply zne; lia).
  pose proof (tri_next vs e s) as T. fold uv in T. rewrite T, (prodBut2_sym vs uv z e).
  replace ((1 - s) * corner vs e * prodBut2 vs uv e z) with ((1 - s) * (corner vs e * prodBut2 vs uv e z)) by ring. rewrite p2_e. ring.
Qed.

Lemma mv_e : wfun vs uv MeanValue e = s * (2 * s * (1 - s) * L * K).
Proof.
  unfold wfun. cbn [baryRadius]. fold n z. rewrite r_z, r_e, p_z, (but_zero e He ltac:(pose proof zne; congruence)), bcr_e.
  replace (s * L * (s * (1 - s) * K) + pnorm (svec vs uv (nxt n e)) * 0 - (1 - s) * L * (- s * corner vs e) * prodBut2 vs uv e z)
    with (s * L * (s * (1 - s) * K) + (1 - s) * L * s * (corner vs e * prodBut2 vs uv e z)) by ring. rewrite p2_e. ring.
Qed.
Lemma mv_z : wfun vs uv MeanValue z = (1 - s) * (2 * s * (1 - s) * L * K).
Proof.
  unfold wfun. cbn [baryRadius]. fold n. rewrite znz, r_z, r_e, p_z, (but_zero (prv n z)), bcr_z.
  - replace (pnorm (svec vs uv (prv n z)) * 0 + (1 - s) * L * (s * (1 - s) * K) - s * L * (- (1 - s) * corner vs z) * prodBut2 vs uv z (prv n z))
      with ((1 - s) * L * (s * (1 - s) * K) + s * L * (1 - s) * (corner vs z * prodBut2 vs uv z (prv n z))) by ring. rewrite p2_z. ring.
  - apply prv_lt; lia.
  - apply prv_neq; [lia|apply zlt].
Qed.
Lemma mv_0 : forall i, (i < n)%nat -> i <> e -> i <> z -> wfun vs uv MeanValue i = 0.
Proof.
  intros i Hi N1 N2. unfold wfun. cbn [baryRadius]. fold n. rewrite (but_zero i Hi N2), (but2_zero i Hi N1 N2), (but_zero (prv n i)).
  - ring.
  - apply prv_lt; lia.
  - intros E. apply N1. apply (prv_inj n); assumption.
Qed.

Lemma mv_side : forall d eps, d_verts d = vs -> (forall i, (i < n)%nat -> eps <= pnorm (uv -p vtx vs i)) ->
  exists l, barycentric MeanValue eps d uv = Some l /\ length l = n /\
    nth_error l e = Some s /\ nth_error l z = Some (1 - s) /\
    forall i, (i < n)%nat -> i <> e -> i <> z -> nth_error l i = Some 0.
Proof.
  intros d eps Hd Hr. assert (P : 0 < 2 * s * (1 - s) * L * K).
  { pose proof (scale_pos vs e s C H3 He ltac:(lra)) as PK. fold n z in PK. fold K in PK. pose proof Lpos.
    apply Rmult_lt_0_compat; [apply Rmult_lt_0_compat; [nra|exact Lpos]|exact PK]. }
  set (M := 2 * s * (1 - s) * L * K) in *.
  assert (S : rsum n (wfun vs uv MeanValue) = M).
  { rewrite (rsum_double n _ e z); [rewrite mv_e, mv_z; fold M; ring|exact He|apply zlt|pose proof zne; congruence|apply mv_0]. }
  rewrite (bary_closed vs uv d Hd) by (fold n; try lia; intros; apply Hr; assumption).
  fold n. rewrite S. destruct (Req_EM_T _ 0) as [E|_]; [lra|].
  eexists; split; [reflexivity|]. split; [apply tabulate_length|].
  repeat split.
  - rewrite tabulate_nth_error by exact He. rewrite mv_e. fold M. f_equal. field. lra.
  - rewrite tabulate_nth_error by apply zlt. rewrite mv_z. fold M. f_equal. field. lra.
  - intros i Hi A B. rewrite tabulate_nth_error by exact Hi. rewrite mv_0 by assumption. f_equal. unfold Rdiv; ring.
Qed.
End MVSide.

(** ** Angles *)
Definition cw (v : V2) : V2 := mkV2 (py v) (- px v).

Lemma normal_unit : forall v, v <> pzero -> exists a, pnormalize v = Some a /\ pdot a a = 1 /\ v = a *p pnorm v.
Proof.
  intros v N. pose proof (pnorm_pos v N) as P. unfold pnormalize. rewrite pdiv_some by lra. eexists. split; [reflexivity|].
  assert (Q : pnorm v * pnorm v = pdot v v) by (unfold pnorm; apply sqrt_sqrt; unfold pdot; nra).
  split.
  - transitivity (pdot v v / (pnorm v * pnorm v)); [unfold pdot; simpl; field; lra|]. rewrite Q. field. rewrite <- Q. nra.
  - apply V2_ext; simpl; field; lra.
Qed.

Lemma dot_bound : forall a b, pdot a a = 1 -> pdot b b = 1 -> pdot a b * pdot a b + pcross b a * pcross b a = 1.
Proof.
  intros a b A B. transitivity (pdot a a * pdot b b); [unfold pdot, pcross; ring|]. rewrite A, B. ring.
Qed.

(** [b] is reached from [a] by turning clockwise by the angle between them. *)
Lemma turn_value : forall a b, pdot a a = 1 -> pdot b b = 1 -> 0 <= pcross b a ->
  let al := acos (clamp (pdot a b) (-1) 1) in 0 <= al <= PI /\ cos al = pdot a b /\ sin al = pcross b a /\ b = a *p cos al +p cw a *p sin al.
Proof.
  intros a b A B P al. pose proof (dot_bound a b A B) as Q.
  assert (R : -1 <= pdot a b <= 1) by nra.
  unfold al. rewrite clamp_id by exact R. split; [apply acos_bound|].
  assert (Cs : cos (acos (pdot a b)) = pdot a b) by (apply cos_acos; exact R).
  assert (Sn : sin (acos (pdot a b)) = pcross b a).
  { rewrite sin_acos by exact R. replace (1 - (pdot a b)²) with (pcross b a * pcross b a) by (unfold Rsqr; lra). apply sqrt_square. exact P. }
  split; [exact Cs|]. split; [exact Sn|]. rewrite Cs, Sn. apply V2_ext; simpl.
  - transitivity (px b * pdot a a); [rewrite A; ring|]. unfold pdot, pcross; ring.
  - transitivity (py b * pdot a a); [rewrite A; ring|]. unfold pdot, pcross; ring.
Qed.

(** The angle of a point given by its direction. *)
Lemma angle_of_dir : forall a th, pdot a a = 1 -> 0 <= th <= PI ->
  pdot (a *p cos th +p cw a *p sin th) (a *p cos th +p cw a *p sin th) = 1 /\
  acos (clamp (pdot a (a *p cos th +p cw a *p sin th)) (-1) 1) = th.
Proof.
  intros a th A Hth. pose proof (sin2_cos2 th) as T. unfold Rsqr in T. split.
  - transitivity (pdot a a * (sin th * sin th + cos th * cos th)); [unfold pdot, cw; simpl; ring|]. rewrite A, T. ring.
  - replace (pdot a (a *p cos th +p cw a *p sin th)) with (cos th * pdot a a) by (unfold pdot, cw; simpl; ring). rewrite A, Rmult_1_r.
    rewrite clamp_id by apply COS_bound. apply acos_cos. exact Hth.
Qed.

Lemma normalize_scaled : forall b r, pdot b b = 1 -> 0 < r -> pnormalize (b *p r) = Some b /\ pnorm (b *p r) = r.
Proof.
  intros b r B Hr. assert (N : pnorm (b *p r) = r).
  { rewrite pnorm_scale. unfold pnorm. rewrite B, sqrt_1, Rmult_1_r. apply Rabs_right. lra. }
  split; [|exact N]. unfold pnormalize. rewrite N, pdiv_some by lra. f_equal. apply V2_ext; simpl; field; lra.
Qed.

(** ** At one vertex of a convex polygon *)
Section Vertex.
Variables (vs : list V2) (d : dom) (i : nat).
Let n := length vs.
Hypothesis Dv : d_verts d = vs.
Hypothesis Dn : d_n d = n.
Hypothesis C : strictly_convex vs.
Hypothesis H3 : (3 <= n)%nat.
Hypothesis Hi : (i < n)%nat.

Lemma vnth : forall j, (j < n)%nat -> nth_error (d_verts d) j = Some (vtx vs j).
Proof. intros j Hj. rewrite Dv. unfold vtx. apply nth_error_nth'. exact Hj. Qed.

Lemma vertex_frame : exists a b al lp ln, 0 < lp /\ 0 < ln /\ pdot a a = 1 /\ pdot b b = 1 /\
  vtx vs (prv n i) -p vtx vs i = a *p lp /\ vtx vs (nxt n i) -p vtx vs i = b *p ln /\
  pnormalize (vtx vs (prv n i) -p vtx vs i) = Some a /\ pnormalize (vtx vs (nxt n i) -p vtx vs i) = Some b /\
  angle d i = Some al /\ 0 < al < PI /\ b = a *p cos al +p cw a *p sin al.
Proof.
  assert (Lp : (prv n i < n)%nat) by (apply prv_lt; lia). assert (Ln : (nxt n i < n)%nat) by (apply nxt_lt; lia).
  pose proof (corner_pos vs ltac:(lia) C H3 i Hi) as P. unfold corner in P. fold n in P.
  assert (X : 0 < pcross (vtx vs (nxt n i) -p vtx vs i) (vtx vs (prv n i) -p vtx vs i)) by (unfold sarea, pcross in *; simpl in *; lra).
  assert (N1 : vtx vs (prv n i) -p vtx vs i <> pzero) by (intros E; rewrite E in X; unfold pcross in X; simpl in X; lra).
  assert (N2 : vtx vs (nxt n i) -p vtx vs i <> pzero) by (intros E; rewrite E in X; unfold pcross in X; simpl in X; lra).
  destruct (normal_unit _ N1) as (a & Ea & A & Va). destruct (normal_unit _ N2) as (b & Eb & B & Vb).
  pose proof (pnorm_pos _ N1) as P1. pose proof (pnorm_pos _ N2) as P2.
  set (lp := pnorm (vtx vs (prv n i) -p vtx vs i)) in *. set (ln := pnorm (vtx vs (nxt n i) -p vtx vs i)) in *. clearbody lp ln.
  assert (Cr : 0 < pcross b a).
  { rewrite Va, Vb in X. replace (pcross (b *p ln) (a *p lp)) with (ln * lp * pcross b a) in X by (unfold pcross; simpl; ring).
    assert (0 < ln * lp) by nra. destruct (Rlt_le_dec 0 (pcross b a)); [assumption|nra]. }
  destruct (turn_value a b A B ltac:(lra)) as (R & Cs & Sn & Bt).
  exists a, b, (acos (clamp (pdot a b) (-1) 1)), lp, ln. repeat (split; [assumption|]). split.
  - unfold angle. rewrite Dn, !vnth by assumption. cbn [bind]. rewrite Ea, Eb. reflexivity.
  - split; [|exact Bt]. set (al := acos _) in *. destruct R as [R1 R2]. split.
    + destruct R1 as [R1|R1]; [exact R1|]. rewrite <- R1, sin_0 in Sn. lra.
    + destruct R2 as [R2|R2]; [exact R2|]. rewrite R2, sin_PI in Sn. lra.
Qed.

(** Points in the direction with the given share of the angle. *)
Lemma polar_angle : forall eps t r l li, 0 < eps <= r -> 0 <= t <= 1 ->
  forall a al, pnormalize (vtx vs (prv n i) -p vtx vs i) = Some a -> angle d i = Some al ->
  let uv := vtx vs i +p (a *p cos (t * al) +p cw a *p sin (t * al)) *p r in
  barycentric MeanValue eps d uv = Some l -> nth_error l i = Some li ->
  polarMap eps d i uv = Some (mkV2 t li).
Proof.
  intros eps t r l li He Ht a al Ea Eal uv B Bi.
  destruct vertex_frame as (a' & b & al' & lp & ln & P1 & P2 & A & Bu & Va & Vb & Ea' & Eb & Eal' & Ral & _).
  assert (a' = a) by congruence. assert (al' = al) by congruence. subst a' al'.
  assert (Lp : (prv n i < n)%nat) by (apply prv_lt; lia).
  destruct (angle_of_dir a (t * al) A ltac:(nra)) as [U Ac].
  set (dir := a *p cos (t * al) +p cw a *p sin (t * al)) in *.
  assert (V2' : uv -p vtx vs i = dir *p r) by (unfold uv; apply V2_ext; simpl; ring).
  destruct (normalize_scaled dir r U ltac:(lra)) as [Nd Nn].
  unfold polarMap. rewrite Dn, !vnth by assumption. cbn [bind]. rewrite V2', Nn.
  destruct (Rlt_dec r eps) as [L|L]; [lra|]. rewrite Ea, Nd. cbn [bind]. rewrite Ac, Eal. cbn [bind].
  rewrite fdiv_some by lra. cbn [bind]. rewrite B. cbn [bind]. rewrite Bi. cbn [bind]. do 2 f_equal. field. lra.
Qed.

Lemma polar_near : forall eps uv, pnorm (uv -p vtx vs i) < eps -> polarMap eps d i uv = Some (mkV2 0 1).
Proof.
  intros eps uv L. unfold polarMap. rewrite Dn, !vnth by (try apply prv_lt; lia). cbn [bind]. destruct (Rlt_dec (pnorm (uv -p vtx vs i)) eps); [reflexivity|lra].
Qed.

(** Anywhere else the first coordinate is defined. *)
Lemma polar_total : forall eps uv l li, 0 < eps <= pnorm (uv -p vtx vs i) -> barycentric MeanValue eps d uv = Some l -> nth_error l i = Some li ->
  exists t, polarMap eps d i uv = Some (mkV2 t li) /\ 0 <= t.
Proof.
  intros eps uv l li He B Bi. assert (Lp : (prv n i < n)%nat) by (apply prv_lt; lia).
  destruct vertex_frame as (a & b & al & lp & ln & P1 & P2 & A & Bu & Va & Vb & Ea & Eb & Eal & Ral & _).
  assert (N : uv -p vtx vs i <> pzero).
  { intros E. rewrite E in He. unfold pnorm, pdot in He. simpl in He. replace (0 * 0 + 0 * 0) with 0 in He by ring. rewrite sqrt_0 in He. lra. }
  destruct (normal_unit _ N) as (c & Ec & _ & _).
  unfold polarMap. rewrite Dn, !vnth by assumption. cbn [bind]. destruct (Rlt_dec _ eps) as [L|L]; [lra|]. rewrite Ea, Ec. cbn [bind]. rewrite Eal. cbn [bind].
  rewrite fdiv_some by lra. cbn [bind]. rewrite B. cbn [bind]. rewrite Bi. cbn [bind]. eexists. split; [reflexivity|].
  apply Rmult_le_pos; [apply acos_bound|]. left. apply Rinv_0_lt_compat. lra.
Qed.

(** Every point of the angle at the vertex lies in such a direction. *)
Lemma polar_share : forall uv a al, pnormalize (vtx vs (prv n i) -p vtx vs i) = Some a -> angle d i = Some al ->
  uv <> vtx vs i -> 0 <= sarea (vtx vs (prv n i)) (vtx vs i) uv -> 0 <= sarea (vtx vs i) (vtx vs (nxt n i)) uv ->
  exists t, 0 <= t <= 1 /\ uv = vtx vs i +p (a *p cos (t * al) +p cw a *p sin (t * al)) *p pnorm (uv -p vtx vs i).
Proof.
  intros uv a al Ea Eal N S1 S2.
  destruct vertex_frame as (a' & b & al' & lp & ln & P1 & P2 & A & Bu & Va & Vb & Ea' & Eb & Eal' & Ral & Bt).
  assert (a' = a) by congruence. assert (al' = al) by congruence. subst a' al'.
  assert (N' : uv -p vtx vs i <> pzero).
  { intros E. apply N. assert (X := f_equal px E). assert (Y := f_equal py E). simpl in X, Y. apply V2_ext; lra. }
  destruct (normal_unit _ N') as (c & _ & Cu & Ec).
  assert (Rp : 0 < pnorm (uv -p vtx vs i)) by (apply pnorm_pos; exact N').
  set (r := pnorm (uv -p vtx vs i)) in *.
  assert (K1 : 0 <= pcross c a).
  { assert (X : sarea (vtx vs (prv n i)) (vtx vs i) uv = pcross (uv -p vtx vs i) (vtx vs (prv n i) -p vtx vs i)) by (unfold sarea, pcross; simpl; ring).
    rewrite Ec, Va in X. assert (Y : pcross (c *p r) (a *p lp) = (lp * r) * pcross c a) by (unfold pcross; simpl; ring). assert (0 < lp * r) by nra. nra. }
  destruct (turn_value a c A Cu K1) as (R & Cs & Sn & Ct). set (ph := acos (clamp (pdot a c) (-1) 1)) in *.
  assert (K2 : 0 <= sin (al - ph)).
  { assert (X : sarea (vtx vs i) (vtx vs (nxt n i)) uv = pcross (vtx vs (nxt n i) -p vtx vs i) (uv -p vtx vs i)) by (unfold sarea; reflexivity).
    rewrite Ec, Vb, Bt, Ct in X.
    assert (Y : pcross ((a *p cos al +p cw a *p sin al) *p ln) ((a *p cos ph +p cw a *p sin ph) *p r) = (ln * r) * (sin (al - ph) * pdot a a)).
    { rewrite sin_minus. unfold pcross, pdot, cw. simpl. ring. }
    rewrite A, Rmult_1_r in Y. assert (0 < ln * r) by nra. nra. }
  assert (Ph : ph <= al).
  { destruct (Rle_dec ph al) as [L|L]; [exact L|exfalso]. assert (0 < sin (ph - al)) by (apply sin_gt_0; lra).
    replace (al - ph) with (- (ph - al)) in K2 by ring. rewrite sin_neg in K2. lra. }
  exists (ph / al). split.
  - split; [apply Rmult_le_pos; [lra|left; apply Rinv_0_lt_compat; lra]|]. apply (Rmult_le_reg_r al); [lra|]. unfold Rdiv. rewrite Rmult_assoc, Rinv_l by lra. lra.
  - replace (ph / al * al) with ph by (field; lra). rewrite <- Ct, <- Ec. apply V2_ext; simpl; ring.
Qed.

Lemma sweep_value : forall eps psi a al, 0 < eps -> pnormalize (vtx vs (prv n i) -p vtx vs i) = Some a -> angle d i = Some al ->
  sweepDir eps d i psi = Some (a *p cos (psi * al) +p cw a *p sin (psi * al)).
Proof.
  intros eps psi a al He Ea Eal. assert (Lp : (prv n i < n)%nat) by (apply prv_lt; lia). assert (Ln : (nxt n i < n)%nat) by (apply nxt_lt; lia).
  destruct vertex_frame as (a' & b & al' & lp & ln & P1 & P2 & A & Bu & Va & Vb & Ea' & Eb & Eal' & Ral & Bt).
  assert (a' = a) by congruence. assert (al' = al) by congruence. subst a' al'.
  unfold sweepDir. rewrite Dn, !vnth by assumption. cbn [bind]. rewrite Ea, Eb. cbn [bind]. rewrite Eal. cbn [bind].
  fold (cw a). destruct (Rlt_dec (pdot (cw a) b) (- eps)) as [L|L]; [|reflexivity]. exfalso.
  assert (pdot (cw a) b = sin al).
  { rewrite Bt. transitivity (sin al * pdot a a); [unfold pdot, cw; simpl; ring|rewrite A; ring]. }
  assert (0 < sin al) by (apply sin_gt_0; lra). lra.
Qed.
End Vertex.

(** ** The inverse *)
Lemma mod_cases : forall a n, (0 < n)%nat -> (a < 2 * n)%nat -> (a mod n = if a <? n then a else a - n)%nat.
Proof.
  intros a n Hn H. destruct (Nat.ltb_spec a n); [apply Nat.mod_small; assumption|].
  replace a with (a - n + 1 * n)%nat at 1 by lia. rewrite Nat.mod_add by lia. apply Nat.mod_small. lia.
Qed.
Lemma farSides_in : forall n i j, (3 <= n)%nat -> (i < n)%nat -> In j (farSides n i) -> (j < n)%nat /\ j <> i /\ j <> nxt n i /\ (prv n j < n)%nat /\ prv n j <> i.
Proof.
  intros n i j H3 Hi J. unfold farSides in J. apply in_map_iff in J. destruct J as (k & <- & Hk). apply in_seq in Hk.
  assert (B : forall a, (a < 2 * n)%nat -> (a mod n = if a <? n then a else a - n)%nat) by (intros; apply mod_cases; lia).
  rewrite (B (i + 2 + k)%nat) by lia. unfold nxt, prv. rewrite (B (i + 1)%nat) by lia.
  destruct (Nat.ltb_spec (i + 2 + k) n); destruct (Nat.ltb_spec (i + 1) n); rewrite B by lia;
    match goal with |- context [(if (?a <? n)%nat then _ else _)] => destruct (Nat.ltb_spec a n) end; lia.
Qed.

Lemma bisect_spec : forall dist p q target k lo hi cur r, lo <= hi ->
  polarBisect dist p q target lo hi cur (S k) = Some r ->
  exists lo' hi' m, lo <= lo' /\ lo' <= hi' /\ hi' <= hi /\ hi' - lo' = (hi - lo) / 2 ^ S k /\ (m = lo' \/ m = hi') /\
    r = p *p (1 - m) +p q *p m /\
    (lo' = lo \/ exists x, dist (p *p (1 - lo') +p q *p lo') = Some x /\ target < x) /\
    (hi' = hi \/ exists x, dist (p *p (1 - hi') +p q *p hi') = Some x /\ x <= target).
Proof.
  intros dist p q target. induction k as [|k IH]; intros lo hi cur r L E.
  - cbn [polarBisect] in E. set (mid := (lo + hi) / 2) in *. destruct (dist (p *p (1 - mid) +p q *p mid)) as [x|] eqn:D; [|discriminate]. cbn [bind] in E.
    destruct (Rlt_dec target x) as [T|T]; injection E as <-.
    + exists mid, hi, mid. assert (W : hi - mid = (hi - lo) / 2 ^ 1) by (unfold mid; simpl; field).
      split; [unfold mid; lra|]. split; [unfold mid; lra|]. split; [lra|]. split; [exact W|]. split; [left; reflexivity|]. split; [reflexivity|].
      split; [right; exists x; split; [exact D|exact T]|left; reflexivity].
    + exists lo, mid, mid. assert (W : mid - lo = (hi - lo) / 2 ^ 1) by (unfold mid; simpl; field).
      split; [lra|]. split; [unfold mid; lra|]. split; [unfold mid; lra|]. split; [exact W|]. split; [right; reflexivity|]. split; [reflexivity|].
      split; [left; reflexivity|right; exists x; split; [exact D|lra]].
  - change (polarBisect dist p q target lo hi cur (S (S k))) with
      (let mid := (lo + hi) / 2 in let nx := p *p (1 - mid) +p q *p mid in
       x <- dist nx ;; if Rlt_dec target x then polarBisect dist p q target mid hi nx (S k) else polarBisect dist p q target lo mid nx (S k)) in E.
    cbv zeta in E. set (mid := (lo + hi) / 2) in *. destruct (dist (p *p (1 - mid) +p q *p mid)) as [x|] eqn:D; [|discriminate]. cbn [bind] in E.
    destruct (Rlt_dec target x) as [T|T].
    + destruct (IH mid hi _ r ltac:(unfold mid; lra) E) as (lo' & hi' & m & A1 & A2 & A3 & A4 & A5 & A6 & A7 & A8).
      exists lo', hi', m. split; [unfold mid in *; lra|]. repeat split; try assumption.
      * rewrite A4. unfold mid. simpl. field. apply pow_nonzero. lra.
      * destruct A7 as [->|A7]; [|right; exact A7]. right. exists x. auto.
    + destruct (IH lo mid _ r ltac:(unfold mid; lra) E) as (lo' & hi' & m & A1 & A2 & A3 & A4 & A5 & A6 & A7 & A8).
      exists lo', hi', m. split; [assumption|]. split; [assumption|]. split; [unfold mid in *; lra|]. repeat split; try assumption.
      * rewrite A4. unfold mid. simpl. field. apply pow_nonzero. lra.
      * destruct A8 as [->|A8]; [|right; exact A8]. right. exists x. split; [exact D|lra].
Qed.

Lemma firstHit_in : forall eps d p v js q, firstHit eps d p v js = Some (Some q) -> exists j, In j js /\ intersectEdgeWithRay eps d j p v = Some (Some q).
Proof.
  intros eps d p v. induction js as [|j js IH]; intros q E; cbn [firstHit] in E; [discriminate|].
  destruct (intersectEdgeWithRay eps d j p v) as [[x|]|] eqn:X; cbn [bind] in E; [| |discriminate].
  - injection E as <-. exists j. split; [left; reflexivity|exact X].
  - destruct (IH q E) as (j' & I & H). exists j'. split; [right; exact I|exact H].
Qed.
Lemma firstHit_some : forall eps d p v js, (forall j, In j js -> intersectEdgeWithRay eps d j p v <> None) ->
  (exists j q, In j js /\ intersectEdgeWithRay eps d j p v = Some (Some q)) -> exists q, firstHit eps d p v js = Some (Some q).
Proof.
  intros eps d p v. induction js as [|j js IH]; intros T (j0 & q0 & I & H); [destruct I|]. cbn [firstHit].
  destruct (intersectEdgeWithRay eps d j p v) as [[x|]|] eqn:X; cbn [bind]; [eexists; reflexivity| |exfalso; apply (T j (or_introl eq_refl) X)].
  apply IH; [intros; apply T; right; assumption|]. destruct I as [->|I]; [congruence|]. exists j0, q0. auto.
Qed.

(** A sign change along a sequence. *)
Lemma sign_change : forall (f : nat -> R) m, f 0%nat < 0 -> 0 <= f m -> exists k, (k < m)%nat /\ f k < 0 /\ 0 <= f (S k).
Proof.
  intros f. induction m as [|m IH]; intros H0 Hm; [lra|]. destruct (Rlt_le_dec (f m) 0) as [L|L]; [exists m; auto|].
  destruct (IH H0 L) as (k & Hk & A & B). exists k. split; [lia|auto].
Qed.

Section Sweep.
Variables (vs : list V2) (d : dom) (i : nat).
Let n := length vs.
Hypothesis Dv : d_verts d = vs.
Hypothesis Dn : d_n d = n.
Hypothesis C : strictly_convex vs.
Hypothesis H3 : (3 <= n)%nat.
Hypothesis Hi : (i < n)%nat.

Lemma sweep_crosses : forall eps psi dir, 0 < eps -> 0 < psi < 1 -> sweepDir eps d i psi = Some dir ->
  exists j, In j (farSides n i) /\
    pcross dir (vtx vs (prv n j) -p vtx vs i) < 0 /\ 0 <= pcross dir (vtx vs j -p vtx vs i).
Proof.
  intros eps psi dir He Hp E.
  destruct (vertex_frame vs d i Dv Dn C H3 Hi) as (a & b & al & lp & ln & P1 & P2 & A & Bu & Va & Vb & Ea & Eb & Eal & Ral & Bt).
  rewrite (sweep_value vs d i Dv Dn C H3 Hi eps psi a al He Ea Eal) in E. injection E as <-.
  set (dir := a *p cos (psi * al) +p cw a *p sin (psi * al)).
  set (f := fun k => pcross dir (vtx vs ((i + 1 + k) mod n) -p vtx vs i)).
  assert (B : forall x, (x < 2 * n)%nat -> (x mod n = if x <? n then x else x - n)%nat) by (intros; apply mod_cases; lia).
  assert (F0 : f 0%nat < 0).
  { unfold f. rewrite Nat.add_0_r. fold (nxt n i). fold n in Vb. rewrite Vb, Bt. unfold dir.
    assert (T : pcross (a *p cos (psi * al) +p cw a *p sin (psi * al)) ((a *p cos al +p cw a *p sin al) *p ln) = - ln * (sin (al - psi * al) * pdot a a)).
    { rewrite sin_minus. unfold pcross, pdot, cw. simpl. ring. }
    rewrite T, A. assert (0 < sin (al - psi * al)) by (apply sin_gt_0; nra). nra. }
  assert (Fm : 0 <= f (n - 2)%nat).
  { unfold f. replace (i + 1 + (n - 2))%nat with (i + n - 1)%nat by lia. fold (prv n i). fold n in Va. rewrite Va. unfold dir.
    assert (T : pcross (a *p cos (psi * al) +p cw a *p sin (psi * al)) (a *p lp) = lp * (sin (psi * al) * pdot a a)).
    { unfold pcross, pdot, cw. simpl. ring. }
    rewrite T, A. assert (0 < sin (psi * al)) by (apply sin_gt_0; nra). nra. }
  destruct (sign_change f (n - 2) F0 Fm) as (k & Hk & A1 & A2).
  exists ((i + 2 + k) mod n)%nat. split; [apply in_map_iff; exists k; split; [reflexivity|apply in_seq; lia]|].
  replace (prv n ((i + 2 + k) mod n))%nat with ((i + 1 + k) mod n)%nat.
  - split; [exact A1|]. unfold f in A2. replace (i + 1 + S k)%nat with (i + 2 + k)%nat in A2 by lia. exact A2.
  - unfold prv. rewrite (B (i + 1 + k)%nat), (B (i + 2 + k)%nat) by lia.
    destruct (Nat.ltb_spec (i + 2 + k) n); destruct (Nat.ltb_spec (i + 1 + k) n); rewrite B by lia;
      match goal with |- context [(if (?a <? n)%nat then _ else _)] => destruct (Nat.ltb_spec a n) end; lia.
Qed.

Lemma sweep_hits : forall eps psi dir, 0 < eps -> 0 < psi < 1 -> sweepDir eps d i psi = Some dir ->
  (forall j, In j (farSides n i) -> pcross dir (vtx vs (prv n j) -p vtx vs i) < 0 -> 0 <= pcross dir (vtx vs j -p vtx vs i) ->
    eps <= pcross dir (vtx vs j -p vtx vs (prv n j))) ->
  exists q, firstHit eps d (vtx vs i) dir (farSides n i) = Some (Some q).
Proof.
  intros eps psi dir He Hp E G. apply firstHit_some.
  - intros j J. destruct (farSides_in n i j H3 Hi J) as (J1 & _ & _ & J2 & _).
    rewrite (intersect_cases eps d j (vtx vs i) dir (vtx vs (prv n j)) (vtx vs j) He); [|rewrite Dn; apply (vnth vs d Dv); exact J2|apply (vnth vs d Dv); exact J1].
    destruct (Rlt_dec _ eps); [discriminate|]. destruct (Rlt_dec _ (- eps)); [discriminate|]. destruct (Rlt_dec (1 + eps) _); discriminate.
  - destruct (sweep_crosses eps psi dir He Hp E) as (j & J & A1 & A2). specialize (G j J A1 A2).
    destruct (farSides_in n i j H3 Hi J) as (J1 & _ & _ & J2 & _).
    set (q1 := vtx vs (prv n j)) in *. set (q2 := vtx vs j) in *. set (p := vtx vs i) in *.
    assert (Dd : pcross dir (q2 -p q1) = pcross dir (q2 -p p) - pcross dir (q1 -p p)) by (unfold pcross; simpl; ring).
    exists j. eexists. split; [exact J|].
    rewrite (intersect_cases eps d j p dir q1 q2 He); [|rewrite Dn; apply (vnth vs d Dv); exact J2|apply (vnth vs d Dv); exact J1].
    assert (R : 0 <= raw_t p dir q1 q2 <= 1).
    { unfold raw_t. replace (pcross dir (p -p q1)) with (- pcross dir (q1 -p p)) by (unfold pcross; simpl; ring).
      split; [apply Rmult_le_pos; [lra|left; apply Rinv_0_lt_compat; lra]|].
      apply (Rmult_le_reg_r (pcross dir (q2 -p q1))); [lra|]. unfold Rdiv. rewrite Rmult_assoc, Rinv_l, Rmult_1_r, Rmult_1_l by lra. lra. }
    destruct (Rlt_dec (Rabs _) eps) as [L|L]; [rewrite Rabs_right in L by lra; exfalso; lra|].
    destruct (Rlt_dec _ (- eps)); [exfalso; lra|]. destruct (Rlt_dec (1 + eps) _); [exfalso; lra|]. reflexivity.
Qed.

Lemma inverse_inner : forall k eps psi dd r, 0 < eps -> eps <= psi <= 1 - eps -> polarInverseSteps (S k) eps d i (mkV2 psi dd) = Some r ->
  exists dir j q lo hi m, sweepDir eps d i psi = Some dir /\ In j (farSides n i) /\ intersectEdgeWithRay eps d j (vtx vs i) dir = Some (Some q) /\
    0 <= lo /\ lo <= hi /\ hi <= 1 /\ hi - lo = / 2 ^ S k /\ (m = lo \/ m = hi) /\ r = vtx vs i *p (1 - m) +p q *p m /\
    (lo = 0 \/ exists sd, polarMap eps d i (vtx vs i *p (1 - lo) +p q *p lo) = Some sd /\ dd < py sd) /\
    (hi = 1 \/ exists sd, polarMap eps d i (vtx vs i *p (1 - hi) +p q *p hi) = Some sd /\ py sd <= dd).
Proof.
  intros k eps psi dd r He Hp E. unfold polarInverseSteps in E. cbn [px py] in E.
  destruct (Rlt_dec psi eps) as [L|_]; [lra|]. destruct (Rlt_dec (1 - eps) psi) as [L|_]; [lra|].
  destruct (sweepDir eps d i psi) as [dir|] eqn:Ed; [|discriminate]. cbn [bind] in E. rewrite (vnth vs d Dv i Hi) in E. cbn [bind] in E.
  rewrite Dn in E. destruct (firstHit eps d (vtx vs i) dir (farSides n i)) as [[q|]|] eqn:Eq; cbn [bind] in E; try discriminate.
  destruct (firstHit_in _ _ _ _ _ _ Eq) as (j & J & Ej).
  assert (L01 : (0 <= 1)%R) by (clear; lra).
  destruct (bisect_spec _ (vtx vs i) q dd k 0 1 (vtx vs i) r L01 E) as (lo & hi & m & A1 & A2 & A3 & A4 & A5 & A6 & A7 & A8).
  exists dir, j, q, lo, hi, m. split; [reflexivity|]. split; [exact J|]. split; [exact Ej|]. split; [exact A1|]. split; [exact A2|]. split; [exact A3|].
  split; [rewrite A4; unfold Rdiv; rewrite Rminus_0_r, Rmult_1_l; reflexivity|]. split; [exact A5|]. split; [exact A6|]. split.
  - destruct A7 as [A7|(x & A7 & B)]; [left; exact A7|right]. destruct (polarMap eps d i (vtx vs i *p (1 - lo) +p q *p lo)) as [sd|]; [|discriminate]. cbn [bind] in A7. injection A7 as <-. exists sd. auto.
  - destruct A8 as [A8|(x & A8 & B)]; [left; exact A8|right]. destruct (polarMap eps d i (vtx vs i *p (1 - hi) +p q *p hi)) as [sd|]; [|discriminate]. cbn [bind] in A8. injection A8 as <-. exists sd. auto.
Qed.
End Sweep.
