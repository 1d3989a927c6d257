(** Harmonic patches over a convex domain: the mesh, the boundary values and
    the properties of the solution. *)
From Verif Require Import Base MeshModel MeshSpec MeshEdge MeshGeom MeshGeom2 GeomSpec UtilModel DomainModel DomainProofs DomainPolygons MeshParams.
From Verif Require Import ParamModel ParamMaps ParamBary PropsGeom PropsParam.
From Verif Require Import LinAlg HarmonicModel FEMSpec FEMProofs FEMSolve FEMVoronoi FEMBiharm.
Open Scope R_scope.

(** ** Side of a boundary point *)
Lemma maxFrom_or : forall l best at_ i,
  (maxFrom l best at_ i = at_ /\ forall k, (k < length l)%nat -> nth k l 0 <= best) \/
  exists k, (k < length l)%nat /\ maxFrom l best at_ i = (i + k)%nat /\ best <= nth k l 0 /\ forall k', (k' < length l)%nat -> nth k' l 0 <= nth k l 0.
Proof.
  induction l as [|x l IH]; intros best at_ i; cbn [maxFrom length]; [left; split; [reflexivity|intros; lia]|].
  destruct (Rlt_dec best x) as [L|L].
  - right. destruct (IH x i (S i)) as [(E & B)|(k & Hk & E & B1 & B2)].
    + exists 0%nat. split; [lia|]. split; [rewrite E; lia|]. cbn [nth]. split; [lra|]. intros [|k'] Hk'; cbn [nth]; [lra|]. apply B. lia.
    + exists (S k). split; [lia|]. split; [rewrite E; lia|]. cbn [nth]. split; [lra|]. intros [|k'] Hk'; cbn [nth]; [lra|]. apply B2. lia.
  - destruct (IH best at_ (S i)) as [(E & B)|(k & Hk & E & B1 & B2)].
    + left. split; [exact E|]. intros [|k'] Hk'; cbn [nth]; [lra|]. apply B. lia.
    + right. exists (S k). split; [lia|]. split; [rewrite E; lia|]. cbn [nth]. split; [lra|]. intros [|k'] Hk'; cbn [nth]; [lra|]. apply B2. lia.
Qed.

Lemma maxElement_spec : forall l, l <> [] -> exists j, maxElement l = Some j /\ (j < length l)%nat /\ forall k, (k < length l)%nat -> nth k l 0 <= nth j l 0.
Proof.
  intros [|x l] N; [contradiction|]. cbn [maxElement length]. destruct (maxFrom_or l x 0 1) as [(E & B)|(k & Hk & E & B1 & B2)]; rewrite E; eexists; (split; [reflexivity|]).
  - split; [lia|]. intros [|k] Hk; cbn [nth]; [lra|]. apply B. lia.
  - split; [lia|]. replace (1 + k)%nat with (S k) by lia. cbn [nth]. intros [|k'] Hk'; cbn [nth]; [lra|]. apply B2. lia.
Qed.

Lemma sideOf_side : forall n l e s, (3 <= n)%nat -> length l = n -> (e < n)%nat -> 0 < s <= 1 ->
  nth_error l e = Some s -> nth_error l (prv n e) = Some (1 - s) ->
  (forall i, (i < n)%nat -> i <> e -> i <> prv n e -> nth_error l i = Some 0) -> sideOf n l = Some (e, s).
Proof.
  intros n l e s H3 Hl He Hs E1 E2 E0. unfold sideOf.
  assert (Pe : (prv n e < n)%nat) by (apply prv_lt; lia).
  assert (NE : prv n e <> e) by (intros X; revert X; rewrite prv_cases by exact He; destruct (Nat.eqb_spec e 0); lia).
  destruct (maxElement_spec l) as (j & -> & Hj & B); [intros ->; cbn in Hl; lia|]. cbn [bind].
  assert (V1 : nth e l 0 = s) by (apply nth_error_nth; exact E1).
  assert (V2 : nth (prv n e) l 0 = 1 - s) by (apply nth_error_nth; exact E2).
  assert (C : j = e \/ j = prv n e).
  { destruct (Nat.eq_dec j e) as [|N1]; [left; assumption|]. destruct (Nat.eq_dec j (prv n e)) as [|N2]; [right; assumption|]. exfalso.
    assert (Z : nth j l 0 = 0) by (apply nth_error_nth, E0; [lia|exact N1|exact N2]). specialize (B e ltac:(lia)). rewrite V1, Z in B. lra. }
  destruct C as [-> | ->].
  - assert (Q1 : (nxt n e < n)%nat) by (apply nxt_lt; lia).
    rewrite (E0 (nxt n e) Q1) by (try (apply nxt_neq; lia); apply nxt_prv_neq; lia). cbn [bind]. rewrite E2. cbn [bind].
    destruct (Rlt_dec (1 - s) 0) as [L|L]; [lra|]. rewrite E1. reflexivity.
  - replace (nxt n (prv n e)) with e by (symmetry; apply nxt_prv; lia). rewrite E1. cbn [bind].
    assert (Q1 : (prv n (prv n e) < n)%nat) by (apply prv_lt; lia).
    rewrite (E0 _ Q1).
    + cbn [bind]. destruct (Rlt_dec 0 s) as [_|L]; [|lra]. rewrite E1. reflexivity.
    + rewrite (prv_cases n (prv n e)) by exact Pe. rewrite prv_cases by exact He.
      destruct (Nat.eqb_spec e 0); [destruct (Nat.eqb_spec (n - 1) 0)|destruct (Nat.eqb_spec (e - 1) 0)]; lia.
    + intros X. apply NE. apply (prv_inj n); [exact Pe|exact He|exact X].
Qed.

(** ** The mesh of a convex domain *)
Section Domain.
Variables (vs : list V2) (cen : V2) (d : dom) (r : nat) (rsqrt : nat -> nat) (eps : R) (ps : list V2).
Let n := length vs.
Hypothesis H3 : (3 <= n)%nat.
Hypothesis Hr : (1 <= r)%nat.
Hypothesis Hd : domainFrames cen vs = Some d.
Hypothesis C : strictly_convex vs.
Hypothesis I : inside vs cen.
Hypothesis Hq : n = 3%nat -> forall m, (m * m <= 8 * meshSize 3 r + 1)%nat -> rsqrt (m * m)%nat = m.
Hypothesis Heps : 0 < eps <= 1.
Hypothesis Hps : parametersImpl n cen vs r = Some ps.

Lemma ps_length : length ps = meshSize n r.
Proof. destruct (parameters_length n cen vs r H3 Hr eq_refl) as (ps' & E & L). rewrite Hps in E. injection E as <-. exact L. Qed.

Definition bverts : list nat := filter (onEdge rsqrt n r) (seq 0 (length ps)).
Definition uv (k : nat) : V2 := nth k ps pzero.

Lemma q_at : forall k, (k < meshSize n r)%nat -> n = 3%nat -> forall m, (m * m <= 8 * k + 9)%nat -> rsqrt (m * m)%nat = m.
Proof. intros k Hk E m Hm. apply Hq; [exact E|]. rewrite E in Hk. lia. Qed.

Lemma in_bverts : forall k, In k bverts <-> (k < meshSize n r)%nat /\ onEdge rsqrt n r k = true.
Proof. intros k. unfold bverts. rewrite filter_In, in_seq, ps_length. intuition lia. Qed.

Lemma bverts_lt : forall i, In i bverts -> (i < length ps)%nat.
Proof. intros i Hi. apply in_bverts in Hi. rewrite ps_length. tauto. Qed.
Lemma bverts_nodup : NoDup bverts.
Proof. apply NoDup_filter, seq_NoDup. Qed.

Lemma uv_at : forall k, (k < length ps)%nat -> nth_error ps k = Some (uv k).
Proof. intros k Hk. apply nth_error_nth'. exact Hk. Qed.

Lemma domain_mesh : plane_mesh (length ps) (meshTopology n r) uv (fun k => In k bverts).
Proof.
  split; [|split; [|split; [|split]]].
  - intros t Ht. rewrite ps_length. apply mesh_proper; assumption.
  - intros k Hk. rewrite ps_length in Hk. apply mesh_used; assumption.
  - intros a b c Ht. destruct (mesh_orientation vs cen r ps a b c H3 Hr Hps (fun _ => C) (fun _ => I) Ht) as (p & q & s & E1 & E2 & E3 & S).
    unfold uv. rewrite (nth_error_nth _ _ _ E1), (nth_error_nth _ _ _ E2), (nth_error_nth _ _ _ E3). exact S.
  - apply mesh_manifold; assumption.
  - intros e He.
    assert (R : (fst e < meshSize n r)%nat /\ (snd e < meshSize n r)%nat).
    { destruct He as [He _]. unfold mesh_edges in He. apply in_flat_map in He. destruct He as ([[a b] c] & Ht & He).
      pose proof (mesh_proper n r _ H3 Ht) as [L _]. cbn [dedges] in He. destruct He as [<-|[<-|[<-|[]]]]; cbn [fst snd]; lia. }
    apply (mesh_boundary n r H3) in He. destruct He as (p & Hp & ->). cbn [fst snd] in *.
    destruct R as [R1 R2]. split; apply in_bverts; (split; [assumption|]).
    + apply (mesh_onEdge rsqrt n r _ H3 Hr R1 (q_at _ R1)). exists p. split; [exact Hp|reflexivity].
    + apply (mesh_onEdge rsqrt n r _ H3 Hr R2 (q_at _ R2)). exists ((p + 1) mod (n * r))%nat. split; [apply Nat.mod_upper_bound; lia|reflexivity].
Qed.

(** *** Boundary vertices *)
Lemma side_point : forall k e s, (k < length ps)%nat -> (e < n)%nat -> 0 < s <= 1 -> uv k = sidePt vs e s -> boundaryAt eps d ps k = Some (e, s).
Proof.
  intros k e s Hk He Hs E. unfold boundaryAt. rewrite uv_at by exact Hk. cbn [bind]. rewrite E.
  destruct (side_linear vs e s C H3 He ltac:(lra) d eps (d_verts_eq cen vs d Hd) Heps) as (l & -> & Hl & E1 & E2 & E0). cbn [bind].
  rewrite (d_n_eq cen vs d Hd). fold n in Hl, E2, E0 |- *. apply sideOf_side; assumption.
Qed.

Lemma side_is_edge : forall k e s, (k < length ps)%nat -> (e < n)%nat -> uv k = sidePt vs e s -> In k bverts.
Proof.
  intros k e s Hk He E. apply in_bverts. rewrite ps_length in Hk. split; [exact Hk|]. destruct (onEdge rsqrt n r k) eqn:O; [reflexivity|exfalso].
  destruct (C06_interior_parameters rsqrt vs cen r ps k H3 Hr (q_at k Hk) Hps C I Hk O) as (q & E' & _ & N).
  rewrite uv_at in E' by (rewrite ps_length; exact Hk). injection E' as E'. apply (N e s He). rewrite <- E', E.
  unfold sidePt. try (unfold padd; f_equal; ring).
Qed.

Lemma edge_is_side : forall k, In k bverts -> exists e i, (e < n)%nat /\ (1 <= i <= r)%nat /\ uv k = sidePt vs e (INR i / INR r).
Proof.
  intros k Hk. apply in_bverts in Hk. destruct Hk as [Hk O].
  destruct (C06_edge_parameters rsqrt vs cen r ps k H3 Hr (q_at k Hk) Hps Hk O) as (e & i & He & Hi & E).
  rewrite uv_at in E by (rewrite ps_length; exact Hk). injection E as E.
  pose proof (INR_neq0 r Hr) as R0. fold n in He, E.
  destruct (Nat.eq_dec i 0) as [->|Ni].
  - exists (prv n e), r. split; [apply prv_lt; lia|]. split; [lia|]. rewrite E. unfold sidePt. fold n. simpl (INR 0). v2field; assumption.
  - exists e, i. split; [exact He|]. split; [lia|]. rewrite E. unfold sidePt. fold n. v2field; assumption.
Qed.

Lemma side_hit : forall e i, (e < n)%nat -> (i <= r)%nat -> exists k, (k < length ps)%nat /\ uv k = sidePt vs e (INR i / INR r).
Proof.
  intros e i He Hi. destruct (edge_params_onto vs cen r ps e i H3 Hr Hps He Hi) as (p & Hp & E).
  rewrite edgePoint_some in E by exact He. pose proof (nth_error_lt _ _ _ E) as L. rewrite uv_at in E by exact L. injection E as E.
  eexists; split; [exact L|]. rewrite E. unfold sidePt. try (unfold padd; f_equal; ring).
Qed.

(** *** The system *)
Definition Q : list V3 := map from2D ps.
Lemma Q_length : length Q = length ps.
Proof. apply map_length. Qed.
Lemma Q_at : forall k, at3 Q k = from2D (uv k).
Proof. intros k. unfold at3, Q, uv. change vzero with (from2D pzero). apply map_nth. Qed.
Lemma flat_cross : forall p q s, vcross (from2D q -v from2D p) (from2D s -v from2D p) = mkV3 0 0 (sarea p q s).
Proof. intros p q s. unfold sarea, pcross, from2D, vcross, vsub, psub; cbn [vx vy vz px py]. apply V3_ext; cbn [vx vy vz]; ring. Qed.
Lemma flat_area : forall p q s, 0 < sarea p q s -> twice_area (from2D p) (from2D q) (from2D s) = sarea p q s.
Proof.
  intros p q s S. unfold twice_area. rewrite flat_cross. unfold vnorm, vnorm2, vdot; cbn [vx vy vz].
  replace (0 * 0 + 0 * 0 + sarea p q s * sarea p q s) with (sarea p q s * sarea p q s) by ring. apply sqrt_square. lra.
Qed.
Lemma Q_mesh : plane_mesh (length Q) (meshTopology n r) uv (fun k => In k bverts).
Proof. rewrite Q_length. exact domain_mesh. Qed.
Lemma tri_pos : forall a b c, In (a, b, c) (meshTopology n r) -> 0 < sarea (uv a) (uv b) (uv c).
Proof. exact (proj1 (proj2 (proj2 domain_mesh))). Qed.
Lemma Q_nondeg : forall a b c, In (a, b, c) (meshTopology n r) -> twice_area (at3 Q a) (at3 Q b) (at3 Q c) <> 0.
Proof. intros a b c Ht. rewrite !Q_at, flat_area by (apply tri_pos; exact Ht). pose proof (tri_pos a b c Ht). lra. Qed.
Lemma Q_bverts : forall i, In i bverts -> (i < length Q)%nat.
Proof. intros i Hi. rewrite Q_length. apply bverts_lt; exact Hi. Qed.
Notation wtQ := (wq Q).
Lemma matrix : exists A, laplacian cotsH Q (meshTopology n r) = Some A /\ forall i j, A i j = lsum (fun t => tcoef t (wtQ t) i j) (meshTopology n r).
Proof. exact (laplacianH_value (meshTopology n r) uv bverts Q Q_mesh Q_nondeg). Qed.
Section Matrix.
Variable A : mat.
Hypothesis VA : forall i j, A i j = lsum (fun t => tcoef t (wtQ t) i j) (meshTopology n r).
Let HW := wq_half (meshTopology n r) Q Q_nondeg.
Lemma A_out1 : forall i j, (length ps <= i)%nat -> A i j = 0.
Proof. intros i j Hi. apply (A_outside (length ps) (meshTopology n r) uv bverts domain_mesh wtQ A VA). left; exact Hi. Qed.
Lemma A_out2 : forall i j, (length ps <= j)%nat -> A i j = 0.
Proof. intros i j Hi. apply (A_outside (length ps) (meshTopology n r) uv bverts domain_mesh wtQ A VA). right; exact Hi. Qed.
Lemma A_unique : dirichlet_unique (length ps) bverts A.
Proof. exact (laplace_unique (length ps) (meshTopology n r) uv bverts domain_mesh (at3 Q) wtQ A HW VA). Qed.
Lemma A_invertible : invertible (length ps + length bverts) (constrain (length ps) bverts A).
Proof. apply dirichlet_invertible; [exact bverts_lt|exact bverts_nodup|exact A_out1|exact A_out2|exact A_unique]. Qed.
End Matrix.

Section Curves.
Variables (curves : list (R -> V3)) (solve : nat -> mat -> (nat -> V3) -> nat -> V3).
Hypothesis Hc : (n <= length curves)%nat.
Hypothesis ES : exact_solver solve.

Definition bval (k : nat) : V3 := match boundaryAt eps d ps k with Some (e, s) => nth e curves (fun _ => vzero) s | None => vzero end.

Lemma boundary_some : forall k, In k bverts -> exists e s, boundaryAt eps d ps k = Some (e, s) /\ (e < n)%nat /\ 0 < s <= 1.
Proof.
  intros k Hk. pose proof (bverts_lt k Hk) as L. destruct (edge_is_side k Hk) as (e & i & He & Hi & E).
  assert (R0 : 0 < INR r) by (apply lt_0_INR; lia). assert (R1 : 0 < INR i) by (apply lt_0_INR; lia). assert (R2 : INR i <= INR r) by (apply le_INR; lia).
  assert (B : 0 < INR i / INR r <= 1).
  { split; [apply Rdiv_lt_0_compat; assumption|]. apply (Rmult_le_reg_r (INR r)); [exact R0|]. unfold Rdiv. rewrite Rmult_assoc, Rinv_l by lra. lra. }
  exists e, (INR i / INR r). split; [exact (side_point k e _ L He B E)|]. split; assumption.
Qed.

Lemma bval_side : forall k e s, (k < length ps)%nat -> (e < n)%nat -> 0 < s <= 1 -> uv k = sidePt vs e s -> bval k = nth e curves (fun _ => vzero) s.
Proof. intros k e s Hk He Hs E. unfold bval. rewrite (side_point k e s Hk He Hs E). reflexivity. Qed.

Lemma frames_params : parametersImpl (d_n d) (d_center d) (d_verts d) r = Some ps.
Proof. rewrite (d_n_eq cen vs d Hd), (d_verts_eq cen vs d Hd). rewrite (d_eq cen vs d Hd). exact Hps. Qed.

Lemma harmonic_result : exists A X, (forall i j, A i j = lsum (fun t => tcoef t (wtQ t) i j) (meshTopology n r)) /\
  harmonicEval solve rsqrt eps d curves r = Some (meshTopology n r, tabulate (length ps) X) /\
  (forall k, In k bverts -> X k = bval k) /\
  forall g i, (i < length ps)%nat -> ~ In i bverts -> mapply (length ps) A (fun k => vdot g (X k)) i = 0.
Proof.
  destruct matrix as (A & EA & VA).
  exists A, (solve (length ps + length bverts)%nat (constrain (length ps) bverts A) (rhs (length ps) (fun _ => vzero) (map bval bverts))).
  split; [exact VA|].
  pose proof (A_invertible A VA) as INV.
  assert (SD : forall g, dirichlet (length ps) bverts A (fun i => vdot g (rhs (length ps) (fun _ => vzero) (map bval bverts) i))
    (fun j => vdot g (rhs (length ps) (fun _ => vzero) (map bval bverts) (length ps + j)%nat))
    (fun i => vdot g (solve (length ps + length bverts)%nat (constrain (length ps) bverts A) (rhs (length ps) (fun _ => vzero) (map bval bverts)) i))).
  { intros g. apply (system_dirichlet (length ps) bverts A bverts_lt (A_out1 A VA) (A_out2 A VA) (fun i => vdot g (rhs (length ps) (fun _ => vzero) (map bval bverts) i))).
    exact (solve_functional solve _ _ _ g ES INV). }
  split; [|split].
  - unfold harmonicEval. rewrite frames_params. cbn [bind]. rewrite (d_n_eq cen vs d Hd). fold n bverts Q.
    rewrite (mapM_total _ bval).
    + cbn [bind]. rewrite EA. reflexivity.
    + intros k Hk. unfold bval. destruct (boundary_some k Hk) as (e & s & -> & He & _). cbn [bind].
      rewrite (nth_error_nth' curves (fun _ => vzero)) by lia. reflexivity.
  - intros k Hk. apply vdot_ext. intros g. destruct (SD g) as [B _].
    destruct (In_nth bverts k 0%nat Hk) as (j & Hj & E). specialize (B j Hj). rewrite E in B. rewrite B. f_equal.
    unfold rhs. destruct (Nat.ltb_spec (length ps + j) (length ps)); [lia|]. replace (length ps + j - length ps)%nat with j by lia.
    rewrite (nth_indep _ vzero (bval 0%nat)) by (rewrite map_length; exact Hj). rewrite map_nth, E. reflexivity.
  - intros g i Hi Nb. destruct (SD g) as [_ B]. rewrite (B i Hi Nb). unfold rhs. destruct (Nat.ltb_spec i (length ps)); [|lia].
    unfold vdot, vzero; cbn [vx vy vz]. ring.
Qed.

(** *** Energy, half-spaces, linear data *)
Lemma energy_form : forall x, dirichlet_energy uv x (meshTopology n r) = lsum (fun t => tform t (wtQ t) x x) (meshTopology n r).
Proof.
  intros x. assert (G : forall l, (forall t, In t l -> In t (meshTopology n r)) -> dirichlet_energy uv x l = lsum (fun t => tform t (wtQ t) x x) l).
  { induction l as [|[[a b] c] l IH]; intros Hl; cbn [dirichlet_energy lsum]; [reflexivity|].
    rewrite IH by (intros t Ht; apply Hl; right; exact Ht). f_equal.
    assert (Ht : In (a, b, c) (meshTopology n r)) by (apply Hl; left; reflexivity).
    pose proof (tri_pos a b c Ht) as S. pose proof (wq_half (meshTopology n r) Q Q_nondeg a b c Ht) as W.
    pose proof (tform_square _ _ _ _ a b c x W) as F. fold (twice_area (at3 Q a) (at3 Q b) (at3 Q c)) in F.
    rewrite !Q_at, flat_area in F by exact S. set (T := tform (a, b, c) (wtQ (a, b, c)) x x) in *. clearbody T.
    set (s := sarea (uv a) (uv b) (uv c)) in *.
    assert (E : vnorm2 ((from2D (uv c) -v from2D (uv a)) *v (x b - x a) -v (from2D (uv b) -v from2D (uv a)) *v (x c - x a)) =
      pnorm2 (slope (uv a) (uv b) (uv c) (x a) (x b) (x c)) * (s * s)).
    { unfold slope, pnorm2, pdot, vnorm2, vdot, from2D; cbn [px py vx vy vz vsub vscale]. fold s. field. lra. }
    rewrite E in F. apply (Rmult_eq_reg_r (2 * s)); [|lra]. rewrite F. field. }
  apply G. auto.
Qed.

Lemma energy_split : forall (A : mat) x y, (forall i j, A i j = lsum (fun t => tcoef t (wtQ t) i j) (meshTopology n r)) ->
  (forall i, (i < length ps)%nat -> ~ In i bverts -> mapply (length ps) A x i = 0) -> (forall k, In k bverts -> y k = x k) ->
  dirichlet_energy uv y (meshTopology n r) = dirichlet_energy uv x (meshTopology n r) + dirichlet_energy uv (fun k => y k - x k) (meshTopology n r).
Proof.
  intros A x y VA HX HB. rewrite !energy_form.
  assert (Z : lsum (fun t => tform t (wtQ t) x (fun k => y k - x k)) (meshTopology n r) = 0).
  { rewrite <- (A_form (length ps) (meshTopology n r) wtQ A (proj1 domain_mesh) VA). apply rsum_zero. intros i Hi.
    destruct (in_dec Nat.eq_dec i bverts) as [Hb|Nb]; [rewrite HB by exact Hb; ring|]. rewrite HX by assumption. ring. }
  transitivity (lsum (fun t => tform t (wtQ t) x x) (meshTopology n r) + lsum (fun t => tform t (wtQ t) (fun k => y k - x k) (fun k => y k - x k)) (meshTopology n r)
    + 2 * lsum (fun t => tform t (wtQ t) x (fun k => y k - x k)) (meshTopology n r)); [|rewrite Z; ring].
  rewrite <- lsum_scal, <- !lsum_plus. apply lsum_ext. intros [[a b] c] _. unfold tform. destruct (wtQ (a, b, c)) as [[v1 v2] v3]. ring.
Qed.

Lemma energy_nonneg : forall x, 0 <= dirichlet_energy uv x (meshTopology n r).
Proof.
  intros x. rewrite energy_form. apply lsum_nonneg. intros [[a b] c] Ht. eapply tform_nonneg. exact (wq_half (meshTopology n r) Q Q_nondeg a b c Ht).
Qed.

Lemma energy_null : forall x, (forall k, In k bverts -> x k = 0) -> dirichlet_energy uv x (meshTopology n r) <= 0 -> forall k, (k < length ps)%nat -> x k = 0.
Proof.
  intros x HB E. rewrite energy_form in E.
  exact (energy_zero (length ps) (meshTopology n r) uv bverts domain_mesh (at3 Q) wtQ (wq_half (meshTopology n r) Q Q_nondeg) x HB E).
Qed.

Lemma flat_dot : forall p q s, vdot (from2D q -v from2D p) (from2D s -v from2D p) = pdot (q -p p) (s -p p).
Proof. intros. unfold vdot, pdot, from2D; cbn [vx vy vz px py vsub psub]. ring. Qed.

Definition acute_mesh : Prop := forall a b c, In (a, b, c) (meshTopology n r) ->
  0 <= pdot (uv b -p uv a) (uv c -p uv a) /\ 0 <= pdot (uv a -p uv b) (uv c -p uv b) /\ 0 <= pdot (uv a -p uv c) (uv b -p uv c).

Lemma half_space : acute_mesh -> forall (A : mat) x top, (forall i j, A i j = lsum (fun t => tcoef t (wtQ t) i j) (meshTopology n r)) ->
  (forall i, (i < length ps)%nat -> ~ In i bverts -> mapply (length ps) A x i = 0) -> (forall k, In k bverts -> x k <= top) -> forall k, (k < length ps)%nat -> x k <= top.
Proof.
  intros AC A x top VA HX HB.
  apply (maximum (length ps) (meshTopology n r) uv bverts domain_mesh (at3 Q) wtQ A (wq_half (meshTopology n r) Q Q_nondeg) VA); try assumption.
  intros [[a b] c] Ht. pose proof (tri_pos a b c Ht) as S. destruct (AC a b c Ht) as (D1 & D2 & D3).
  unfold wq, wcots. fold (twice_area (at3 Q a) (at3 Q b) (at3 Q c)). rewrite !Q_at, flat_area, !flat_dot by exact S.
  repeat split; apply Rmult_le_pos; try assumption; apply Rlt_le, Rinv_0_lt_compat; lra.
Qed.

Lemma linear_solution : forall (A : mat) (x : nat -> R) u v w, (forall i j, A i j = lsum (fun t => tcoef t (wtQ t) i j) (meshTopology n r)) ->
  (forall i, (i < length ps)%nat -> ~ In i bverts -> mapply (length ps) A x i = 0) ->
  (forall k, In k bverts -> x k = u * px (uv k) + v * py (uv k) + w) -> forall k, (k < length ps)%nat -> x k = u * px (uv k) + v * py (uv k) + w.
Proof.
  intros A x u v w VA HX HB k Hk.
  assert (L : forall i, (i < length ps)%nat -> ~ In i bverts -> mapply (length ps) A (fun k => u * px (uv k) + v * py (uv k) + w) i = 0).
  { intros i Hi Nb. rewrite <- (linear_precision (length ps) (meshTopology n r) uv bverts domain_mesh (at3 Q) wtQ A (wq_half (meshTopology n r) Q Q_nondeg) VA (mkV3 0 0 1) (mkV3 u v 0) w) with (i := i); try assumption.
    - apply rsum_ext. intros j _. rewrite Q_at. unfold from2D, vdot; cbn [vx vy vz]. ring.
    - intros a b c Ht. pose proof (tri_pos a b c Ht) as S. fold (twice_area (at3 Q a) (at3 Q b) (at3 Q c)). rewrite !Q_at, flat_area, flat_cross by exact S.
      apply V3_ext; cbn [vx vy vz vscale]; ring. }
  apply (dirichlet_same (length ps) bverts A (A_unique A VA) (fun _ => 0) (fun j => (fun k => u * px (uv k) + v * py (uv k) + w) (nth j bverts 0%nat)) (fun k => u * px (uv k) + v * py (uv k) + w) x); [| |exact Hk].
  - split; [intros j Hj; reflexivity|exact L].
  - split; [|exact HX]. intros j Hj. apply HB. apply nth_In. exact Hj.
Qed.
End Curves.
End Domain.

(** ** The meshes of regular domains have no obtuse angle *)
Lemma pdot_scaled : forall p q s u v h, q -p p = u *p h -> s -p p = v *p h -> 0 <= pdot u v -> 0 <= pdot (q -p p) (s -p p).
Proof. intros p q s u v h -> -> H. replace (pdot (u *p h) (v *p h)) with (pdot u v * (h * h)) by (unfold pdot; cbn [px py pscale]; ring). apply Rmult_le_pos; [exact H|nra]. Qed.

Definition acute (p q s : V2) : Prop := 0 <= pdot (q -p p) (s -p p) /\ 0 <= pdot (p -p q) (s -p q) /\ 0 <= pdot (p -p s) (q -p s).

Lemma acute_rot : forall p q s, acute p q s -> acute q s p.
Proof. intros p q s (A & B & C). unfold acute. unfold pdot in *. cbn [px py psub] in *. repeat split; lra. Qed.

(** A triangle whose edge vectors are those of [p q s] scaled by [h]. *)
Lemma acute_similar : forall p q s p' q' s' h, acute p q s -> q' -p p' = (q -p p) *p h -> s' -p p' = (s -p p) *p h -> acute p' q' s'.
Proof.
  intros p q s p' q' s' h (A & B & C) E1 E2.
  assert (E3 : s' -p q' = (s -p q) *p h).
  { unfold psub, pscale in *. injection E1 as X1 Y1. injection E2 as X2 Y2. cbn [px py] in *. f_equal; lra. }
  split; [|split].
  - apply (pdot_scaled _ _ _ (q -p p) (s -p p) h E1 E2 A).
  - apply (pdot_scaled _ _ _ (p -p q) (s -p q) h); [|exact E3|exact B].
    unfold psub, pscale in *. injection E1 as X1 Y1. cbn [px py] in *. f_equal; lra.
  - apply (pdot_scaled _ _ _ (p -p s) (q -p s) h); [| |exact C].
    + unfold psub, pscale in *. injection E2 as X2 Y2. cbn [px py] in *. f_equal; lra.
    + unfold psub, pscale in *. injection E3 as X2 Y2. cbn [px py] in *. f_equal; lra.
Qed.

Lemma acute3 : forall vs r ps a b c, length vs = 3%nat -> (1 <= r)%nat -> params3 vs r = Some ps -> acute (vtx vs 0) (vtx vs 1) (vtx vs 2) ->
  In (a, b, c) (topology3 r) -> exists p q s, nth_error ps a = Some p /\ nth_error ps b = Some q /\ nth_error ps c = Some s /\ acute p q s.
Proof.
  intros vs r ps a b c Hl Hr H AC Ht. rewrite MeshProofs.topology3_closed in Ht. apply in_map_iff in Ht.
  destruct Ht as ([[i j] up] & E & Hx). apply MeshProofs.in_idx3 in Hx. destruct Hx as (Hi & Hj & Hb).
  pose proof (INR_neq0 r Hr) as Hr0.
  destruct up; cbn [MeshProofs.tri3_of] in E; apply pair_equal_spec in E; destruct E as [E <-]; apply pair_equal_spec in E; destruct E as [<- <-].
  - exists (pt3 vs r (i+1) j), (pt3 vs r (i+1) (j+1)), (pt3 vs r i j).
    split; [apply params3_nth; auto; lia|]. split; [apply params3_nth; auto; lia|]. split; [apply params3_nth; auto; lia|].
    apply (acute_similar (vtx vs 0) (vtx vs 1) (vtx vs 2) _ _ _ (/ INR r) AC); unfold pt3; rewrite ?plus_INR; simpl (INR 1); v2field; exact Hr0.
  - specialize (Hb eq_refl). exists (pt3 vs r (i+1) (j+1)), (pt3 vs r i (j+1)), (pt3 vs r i j).
    split; [apply params3_nth; auto; lia|]. split; [apply params3_nth; auto; lia|]. split; [apply params3_nth; auto; lia|].
    apply (acute_similar (vtx vs 2) (vtx vs 0) (vtx vs 1) _ _ _ (- / INR r) (acute_rot _ _ _ (acute_rot _ _ _ AC))); unfold pt3; rewrite ?plus_INR; simpl (INR 1); v2field; exact Hr0.
Qed.

Lemma acuteR : forall vs cen r ps a b c, (3 <= length vs)%nat -> (1 <= r)%nat -> paramsRing (length vs) cen vs r = Some ps ->
  (forall s, (s < length vs)%nat -> acute cen (vtx vs (prv (length vs) s)) (vtx vs s)) ->
  In (a, b, c) (topologyRing (length vs) r) -> exists p q s, nth_error ps a = Some p /\ nth_error ps b = Some q /\ nth_error ps c = Some s /\ acute p q s.
Proof.
  intros vs cen r ps a b c Hn Hr H AC Ht. rewrite MeshProofsRing.topologyRing_closed in Ht. apply in_map_iff in Ht.
  destruct Ht as ([[[l s] v] outer] & E & Hx). apply MeshProofsRing.in_idxR in Hx. destruct Hx as (Hl & Hs & Hv & Hb).
  pose proof (INR_neq0 r Hr) as Hr0. specialize (AC s Hs).
  assert (Il : INR (l - 1) = INR l - 1) by (rewrite minus_INR by lia; reflexivity).
  destruct outer; cbn [MeshProofsRing.triR_of] in E; apply pair_equal_spec in E; destruct E as [E <-]; apply pair_equal_spec in E; destruct E as [<- <-].
  - exists (ptR vs cen r (l-1) s v), (ptR vs cen r l s v), (ptR vs cen r l s (v+1)).
    split; [apply paramsRing_nth; auto; lia|]. split; [apply paramsRing_nth; auto; lia|].
    split; [rewrite <- Nat.add_assoc; apply paramsRing_nth; auto; lia|].
    apply (acute_similar cen (vtx vs (prv (length vs) s)) (vtx vs s) _ _ _ (/ INR r) AC); unfold ptR; rewrite ?plus_INR, ?Il; simpl (INR 1); v2field; exact Hr0.
  - specialize (Hb eq_refl).
    exists (ptR vs cen r (l-1) s v), (ptR vs cen r l s (v+1)), (ptR vs cen r (l-1) s (v+1)).
    split; [apply paramsRing_nth; auto; lia|].
    split; [rewrite <- Nat.add_assoc; apply paramsRing_nth; auto; lia|].
    split; [rewrite <- Nat.add_assoc; apply paramsRing_nth; auto; lia|].
    apply (acute_similar (vtx vs s) cen (vtx vs (prv (length vs) s)) _ _ _ (- / INR r) (acute_rot _ _ _ (acute_rot _ _ _ AC))); unfold ptR; rewrite ?plus_INR, ?Il; simpl (INR 1); v2field; exact Hr0.
Qed.

Lemma acute4 : forall r ps a b c, let vs := [mkV2 1 1; mkV2 (-1) 1; mkV2 (-1) (-1); mkV2 1 (-1)] in (1 <= r)%nat -> params4 vs r = Some ps ->
  In (a, b, c) (topology4 r) -> exists p q s, nth_error ps a = Some p /\ nth_error ps b = Some q /\ nth_error ps c = Some s /\ acute p q s.
Proof.
  intros r ps a b c vs Hr H Ht. assert (Hl : length vs = 4%nat) by reflexivity. rewrite MeshProofs4.topology4_closed in Ht. apply in_map_iff in Ht.
  destruct Ht as ([[i j] lower] & E & Hx). apply MeshProofs4.in_idx4 in Hx. destruct Hx as (Hi & Hj).
  pose proof (INR_neq0 r Hr) as Hr0.
  destruct lower; cbn [MeshProofs4.tri4_of] in E; apply pair_equal_spec in E; destruct E as [E <-]; apply pair_equal_spec in E; destruct E as [<- <-].
  - exists (pt4 vs r i j), (pt4 vs r (i+1) j), (pt4 vs r i (j+1)).
    split; [apply params4_nth; auto; lia|]. split; [apply params4_nth; auto; lia|]. split; [apply params4_nth; auto; lia|].
    apply (acute_similar (mkV2 1 1) (mkV2 (-1) 1) (mkV2 1 (-1)) _ _ _ (/ INR r)).
    + unfold acute, pdot; cbn [px py psub]. repeat split; lra.
    + unfold pt4, vtx; cbn [vs nth]. rewrite ?plus_INR; simpl (INR 1); v2field; exact Hr0.
    + unfold pt4, vtx; cbn [vs nth]. rewrite ?plus_INR; simpl (INR 1); v2field; exact Hr0.
  - exists (pt4 vs r i (j+1)), (pt4 vs r (i+1) j), (pt4 vs r (i+1) (j+1)).
    split; [apply params4_nth; auto; lia|]. split; [apply params4_nth; auto; lia|]. split; [apply params4_nth; auto; lia|].
    apply (acute_similar (mkV2 1 (-1)) (mkV2 (-1) 1) (mkV2 (-1) (-1)) _ _ _ (/ INR r)).
    + unfold acute, pdot; cbn [px py psub]. repeat split; lra.
    + unfold pt4, vtx; cbn [vs nth]. rewrite ?plus_INR; simpl (INR 1); v2field; exact Hr0.
    + unfold pt4, vtx; cbn [vs nth]. rewrite ?plus_INR; simpl (INR 1); v2field; exact Hr0.
Qed.

Lemma regular_adjacent : forall m vs k, (3 <= m)%nat -> m <> 4%nat -> regularVertices m = Some vs -> (k < m)%nat ->
  pdot (vtx vs (prv m k)) (vtx vs k) = cos (2 * PI / INR m) /\ pdot (vtx vs k) (vtx vs k) = 1.
Proof.
  intros m vs k Hm H4 H Hk. rewrite regular_closed in H by lia. injection H as <-.
  assert (Hp : 0 < INR m) by (apply lt_0_INR; lia). set (al := 2 * PI / INR m). assert (Hal : al * INR m = 2 * PI) by (unfold al; field; lra).
  rewrite !vtx_tabulate by (try apply prv_lt; lia). fold al.
  assert (D : forall x y, pdot (onc x) (onc y) = cos (y - x)) by (intros x y; unfold pdot, onc; cbn [px py]; rewrite cos_minus; ring).
  split; [|rewrite D; replace (al * INR k - al * INR k) with 0 by ring; apply cos_0].
  rewrite prv_cases by exact Hk. destruct (Nat.eqb_spec k 0) as [->|E].
  - rewrite <- (onc_period (al * INR 0)). rewrite D. f_equal. rewrite minus_INR by lia. simpl (INR 0). simpl (INR 1). lra.
  - rewrite D. f_equal. rewrite minus_INR by lia. simpl (INR 1). ring.
Qed.

Lemma regular_acute : forall m vs r ps, (3 <= m)%nat -> (1 <= r)%nat -> regularVertices m = Some vs -> parametersImpl m pzero vs r = Some ps ->
  forall a b c, In (a, b, c) (meshTopology m r) -> acute (nth a ps pzero) (nth b ps pzero) (nth c ps pzero).
Proof.
  intros m vs r ps Hm Hr Hv H a b c Ht. destruct (regular_convex m vs Hm Hv) as (Hl & _ & _).
  assert (G : exists p q s, nth_error ps a = Some p /\ nth_error ps b = Some q /\ nth_error ps c = Some s /\ acute p q s).
  { unfold parametersImpl, meshTopology in *. destruct (Nat.eqb_spec m 3) as [E3|N3].
    - rewrite E3 in Hv, Hl. apply (acute3 vs r ps a b c Hl Hr H); [|exact Ht].
      destruct (regular_adjacent 3 vs 0 ltac:(lia) ltac:(lia) Hv ltac:(lia)) as [A0 B0].
      destruct (regular_adjacent 3 vs 1 ltac:(lia) ltac:(lia) Hv ltac:(lia)) as [A1 B1].
      destruct (regular_adjacent 3 vs 2 ltac:(lia) ltac:(lia) Hv ltac:(lia)) as [A2 B2].
      change (prv 3 0) with 2%nat in A0. change (prv 3 1) with 0%nat in A1. change (prv 3 2) with 1%nat in A2.
      pose proof (COS_bound (2 * PI / INR 3)) as [_ CB]. unfold acute, pdot in *. cbn [px py psub] in *. repeat split; lra.
    - destruct (Nat.eqb_spec m 4) as [E4|N4].
      + rewrite E4 in Hv. injection Hv as <-. exact (acute4 r ps a b c Hr H Ht).
      + subst m. apply (acuteR vs pzero r ps a b c Hm Hr H); [|exact Ht]. intros s Hs.
        destruct (regular_adjacent (length vs) vs s Hm N4 Hv Hs) as [A B].
        destruct (regular_adjacent (length vs) vs (prv (length vs) s) Hm N4 Hv ltac:(apply prv_lt; lia)) as [_ B'].
        assert (Hp : 5 <= INR (length vs)) by (replace 5 with (INR 5) by (simpl; lra); apply le_INR; lia).
        pose proof PI_RGT_0 as Pi.
        assert (C0 : 0 <= cos (2 * PI / INR (length vs))).
        { apply cos_ge_0.
          - apply Rle_trans with 0; [lra|]. apply Rmult_le_pos; [lra|]. apply Rlt_le, Rinv_0_lt_compat. lra.
          - apply (Rmult_le_reg_r (INR (length vs))); [lra|]. unfold Rdiv. rewrite Rmult_assoc, Rinv_l by lra. nra. }
        pose proof (COS_bound (2 * PI / INR (length vs))) as [_ CB]. unfold acute, pzero, pdot in *. cbn [px py psub] in *. repeat split; lra. }
  destruct G as (p & q & s & E1 & E2 & E3 & AC). rewrite (nth_error_nth _ _ _ E1), (nth_error_nth _ _ _ E2), (nth_error_nth _ _ _ E3). exact AC.
Qed.
