(** Biharmonic patches over a convex domain. *)
From Verif Require Import Base MeshModel MeshSpec GeomSpec UtilModel DomainModel DomainProofs ParamModel ParamMaps ParamBary.
From Verif Require Import LinAlg HarmonicModel FEMSpec FEMProofs FEMSolve FEMVoronoi FEMBiharm FEMPatch.
From Coq Require Import Permutation.
Open Scope R_scope.

(** ** Sums over the edges of a mesh *)
Lemma edge_dec : forall x y : nat * nat, {x = y} + {x <> y}.
Proof. decide equality; apply Nat.eq_dec. Qed.

Lemma flip_sum : forall (E : list (nat * nat)) (G : nat * nat -> R), NoDup E ->
  (forall e, In e E -> ~ In (flip e) E -> G e = 0 /\ G (flip e) = 0) -> lsum G E = lsum (fun e => G (flip e)) E.
Proof.
  intros E G N Z. set (p := fun e => if in_dec edge_dec (flip e) E then true else false).
  assert (S : forall (f : nat * nat -> R) l, (forall e, In e l -> p e = false -> f e = 0) -> lsum f l = lsum f (filter p l)).
  { intros f l. induction l as [|e l IH]; intros H; cbn [lsum filter]; [reflexivity|]. rewrite IH by (intros e' He'; apply H; right; exact He').
    destruct (p e) eqn:Pe; cbn [lsum]; [reflexivity|]. rewrite (H e (or_introl eq_refl) Pe). ring. }
  assert (PF : forall e, p e = false -> ~ In (flip e) E) by (intros e; unfold p; destruct (in_dec edge_dec (flip e) E); [discriminate|auto]).
  assert (PT : forall e, p e = true <-> In (flip e) E) by (intros e; unfold p; destruct (in_dec edge_dec (flip e) E); split; auto; discriminate).
  rewrite (S G E), (S (fun e => G (flip e)) E).
  - rewrite <- (lsum_map _ _ flip G). apply lsum_perm. apply NoDup_Permutation; [apply NoDup_filter; exact N|apply NoDup_flip, NoDup_filter; exact N|].
    intros e. rewrite in_map_iff, filter_In, PT. split.
    + intros [H1 H2]. exists (flip e). split; [apply flip_flip|]. apply filter_In. rewrite PT, flip_flip. tauto.
    + intros (f & <- & Hf). apply filter_In in Hf. rewrite PT in Hf. rewrite flip_flip. tauto.
  - intros e He Pe. apply Z; auto.
  - intros e He Pe. apply Z; auto.
Qed.

(** ** Mean curvature vectors for a constant normal *)
Section Mean.
Variables (edge : nat -> bool) (X N : nat -> V3) (ts : list triangle) (nu : V3).
Hypothesis HN : forall a b c, In (a, b, c) ts -> N a = nu /\ N b = nu /\ N c = nu.
Hypothesis NE : oriented_manifold ts.
Hypothesis BE : forall e, boundary_edge ts e -> edge (fst e) = true /\ edge (snd e) = true.
Let om := normalized (nu *v 3).
Let ind (b : bool) : R := if b then 1 else 0.

Lemma triple_swap : forall g w D, vdot g (vcross w D) = vdot (vcross g w) D.
Proof. intros g w D. unfold vdot, vcross; cbn [vx vy vz]. ring. Qed.

Lemma mean_component : forall g m i1 i2 i3 k, N i1 = nu -> N i2 = nu -> N i3 = nu ->
  vdot g (meanComponent edge X N m i1 i2 i3 k) = vdot g (m k) + dl k i1 *
    ((1 - ind (edge i1) * ind (edge i3)) * (vdot (vcross g om) (X i3) - vdot (vcross g om) (X i1)) - (1 - ind (edge i1) * ind (edge i2)) * (vdot (vcross g om) (X i2) - vdot (vcross g om) (X i1))).
Proof.
  intros g m i1 i2 i3 k E1 E2 E3.
  assert (O1 : normalized (nu *v 2 +v nu) = om) by (unfold om; f_equal; apply V3_ext; cbn [vx vy vz vadd vscale]; ring).
  assert (O2 : normalized (nu +v nu +v nu) = om) by (unfold om; f_equal; apply V3_ext; cbn [vx vy vz vadd vscale]; ring).
  assert (VA : forall v i x, vdot g (vaccum v i x k) = vdot g (v k) + dl k i * vdot g x).
  { intros v i x. unfold vaccum, dl. destruct (k =? i)%nat; unfold vdot; cbn [vx vy vz vadd]; ring. }
  assert (TS : forall A B, vdot g (vcross om (A -v B)) = vdot (vcross g om) A - vdot (vcross g om) B).
  { intros A B. rewrite triple_swap. unfold vdot; cbn [vx vy vz vsub]. ring. }
  unfold meanComponent. rewrite E1, E2, E3, O1, O2. destruct (edge i1), (edge i2), (edge i3); cbn [ind]; rewrite !VA, !TS; unfold ind; ring.
Qed.

Lemma mean_zero : forall k, meanVectors edge X N ts k = vzero.
Proof.
  intros k. apply vdot_ext. intros g. unfold meanVectors. set (F := fun j => vdot (vcross g om) (X j)).
  set (G := fun e : nat * nat => dl k (snd e) * ((1 - ind (edge (snd e)) * ind (edge (fst e))) * (F (fst e) - F (snd e)))).
  assert (S : forall l m0, (forall t, In t l -> In t ts) ->
    vdot g (fold_left (fun m t => let '(a, b, c) := t in meanComponent edge X N (meanComponent edge X N (meanComponent edge X N m a b c) b c a) c a b) l m0 k)
    = vdot g (m0 k) + lsum (fun t => lsum (fun e => G e - G (flip e)) (dedges t)) l).
  { induction l as [|[[a b] c] l IH]; intros m0 Hl; cbn [fold_left lsum]; [ring|].
    rewrite IH by (intros t Ht; apply Hl; right; exact Ht). destruct (HN a b c (Hl _ (or_introl eq_refl))) as (Na & Nb & Nc).
    rewrite !mean_component by assumption. cbn [dedges lsum]. unfold G, flip, F. cbn [fst snd]. ring. }
  rewrite S by auto. rewrite <- lsum_flat. fold (mesh_edges ts). rewrite lsum_minus.
  rewrite <- (flip_sum (mesh_edges ts) G NE); [unfold vdot, vzero; cbn [vx vy vz]; ring|].
  intros e He Ne. destruct (BE e (conj He Ne)) as [B1 B2]. unfold G, flip. cbn [fst snd]. rewrite B1, B2. unfold ind. split; ring.
Qed.
End Mean.

(** A degenerate triangle makes the Laplace matrix fail. *)
Lemma foldM_none : forall (T U : Type) (f : U -> T -> option U) l x, In x l -> (forall u, f u x = None) -> forall u, foldM f u l = None.
Proof.
  intros T U f l x. induction l as [|y l IH]; intros Hx H u; [destruct Hx|]. cbn [foldM]. destruct (f u y) as [u'|] eqn:E; cbn [bind]; [|reflexivity].
  destruct Hx as [<-|Hx]; [rewrite H in E; discriminate|]. apply IH; assumption.
Qed.

Lemma laplacian_degenerate : forall P ts a b c, In (a, b, c) ts -> twice_area (at3 P a) (at3 P b) (at3 P c) = 0 -> laplacian cotsB P ts = None.
Proof.
  intros P ts a b c Ht Z. unfold laplacian. apply (foldM_none _ _ _ _ (a, b, c) Ht). intros A.
  destruct (nth_error P a) as [p|] eqn:E1; [|reflexivity]. destruct (nth_error P b) as [q|] eqn:E2; [|reflexivity]. destruct (nth_error P c) as [s|] eqn:E3; [|reflexivity].
  cbn [bind]. unfold at3 in Z. rewrite (nth_error_nth _ _ _ E1), (nth_error_nth _ _ _ E2), (nth_error_nth _ _ _ E3) in Z.
  destruct (cots_degenerate p q s) as [_ ->]; [|reflexivity]. apply vnorm_zero. exact Z.
Qed.

(** ** The patch *)
Section Patch.
Variables (vs : list V2) (cen : V2) (d : dom) (r : nat) (rsqrt : nat -> nat) (eps : R) (ps : list V2).
Let n := length vs.
Hypothesis H3 : (3 <= n)%nat.
Hypothesis Hr : (1 <= r)%nat.
Hypothesis Hd : domainFrames cen vs = Some d.
Hypothesis C : strictly_convex vs.
Hypothesis I : inside vs cen.
Hypothesis Hq : n = 3%nat -> forall m, (m * m <= 8 * meshSize 3 r + 1)%nat -> rsqrt (m * m)%nat = m.
Hypothesis Heps : 0 < eps <= 1.
Hypothesis Hps : parametersImpl n cen vs r = Some ps.
Variables (curves normals : list (R -> V3)) (solve : nat -> mat -> (nat -> V3) -> nat -> V3).
Hypothesis Hc : (n <= length curves)%nat.
Hypothesis Hm : (n <= length normals)%nat.
Hypothesis ES : exact_solver solve.
Notation B := (bverts vs r rsqrt ps).
Notation uv := (uv ps).
Notation Q := (Q ps).
Notation T := (meshTopology n r).
Notation N := (length ps).
Let DM := domain_mesh vs cen r rsqrt eps ps H3 Hr C I Hq Heps Hps.
Let BL := bverts_lt vs cen r rsqrt eps ps H3 Hr Hq Heps Hps.
Let BN := bverts_nodup vs r rsqrt ps.
Let QM := Q_mesh vs cen r rsqrt eps ps H3 Hr C I Hq Heps Hps.
Let QN := Q_nondeg vs cen r rsqrt eps ps H3 Hr C I Hq Heps Hps.
Let QB : forall i, In i B -> (i < length Q)%nat := Q_bverts vs cen r rsqrt eps ps H3 Hr Hq Heps Hps.
Let QL := Q_length ps.

(** The solution of the propagation system is harmonic. *)
Lemma propagation_harmonic : forall A1 (A : mat) (bf : nat -> R) b z, prepareSolver Q T B true = Some A1 ->
  (forall i j, A i j = lsum (fun t => tcoef t (wq Q t) i j) T) -> (forall i, (i < N)%nat -> b i = 0) -> (forall j, (j < length B)%nat -> b (N + j)%nat = bf (nth j B 0%nat)) ->
  solves (N + length B) A1 b z ->
  (forall k, In k B -> z k = bf k) /\ forall i, (i < N)%nat -> ~ In i B -> mapply N A z i = 0.
Proof.
  intros A1 A bf b z EA VA Bt Bb SZ.
  destruct (prepare_value T uv B Q QM QN true) as (Ls & ar & EL & VL & EV & PV & EP). rewrite EA in EP. injection EP as ->. rewrite QL in PV, SZ.
  set (K := block N (KP N Ls (mass B ar))) in *.
  assert (UK : dirichlet_unique N B K).
  { pose proof (prepare_unique T uv B Q QM QN true Ls ar VL) as U. rewrite QL in U. exact (U PV). }
  assert (SD : dirichlet N B K b (fun j => b (N + j)%nat) z).
  { apply system_dirichlet; [exact BL|intros; apply block_row; assumption|intros; apply block_col; assumption|exact SZ]. }
  destruct (dirichlet_exists N B A) with (b := fun _ : nat => 0) (p := fun j => b (N + j)%nat) as (x & X1 & X2).
  { exact BL. } { exact BN. } { exact (A_out1 vs cen r rsqrt eps ps H3 Hr C I Hq Heps Hps A VA). } { exact (A_out2 vs cen r rsqrt eps ps H3 Hr C I Hq Heps Hps A VA). } { exact (A_unique vs cen r rsqrt eps ps H3 Hr C I Hq Heps Hps A VA). }
  assert (XD : dirichlet N B K b (fun j => b (N + j)%nat) x).
  { split; [exact X1|]. intros i Hi Nb. rewrite Bt by exact Hi. unfold K. rewrite block_apply by exact Hi. apply (KP_zero N B); [intros k Hk; apply mass_in; exact Hk|].
    intros k Hk Nk. rewrite <- (X2 k Hk Nk). apply rsum_ext. intros j _. rewrite VA, VL. reflexivity. }
  assert (E : forall i, (i < N)%nat -> z i = x i) by (exact (dirichlet_same N B K UK _ _ x z XD SD)).
  split.
  - intros k Hk. destruct (In_nth B k 0%nat Hk) as (j & Hj & <-). rewrite (proj1 SD j Hj). apply Bb. exact Hj.
  - intros i Hi Nb. rewrite <- (X2 i Hi Nb). apply rsum_ext. intros j Hj. rewrite E by exact Hj. reflexivity.
Qed.

(** First stage: points and normals. *)
Lemma stage_one : forall (bf : nat -> V3), exists A1, prepareSolver Q T B true = Some A1 /\ invertible (N + length B) A1 /\
  let Z := solve (N + length B)%nat A1 (rhs N (fun _ => vzero) (map bf B)) in
  (forall k, In k B -> Z k = bf k) /\
  forall A g i, (forall i j, A i j = lsum (fun t => tcoef t (wq Q t) i j) T) -> (i < N)%nat -> ~ In i B -> mapply N A (fun k => vdot g (Z k)) i = 0.
Proof.
  intros bf. destruct (prepare_invertible T uv B Q QM QB BN QN true) as (A1 & EA & INV). rewrite QL in INV. exists A1. split; [exact EA|]. split; [exact INV|]. intros Z.
  destruct (matrix vs cen r rsqrt eps ps H3 Hr C I Hq Heps Hps) as (A0 & _ & VA0). fold n in VA0.
  assert (G : forall A g, (forall i j, A i j = lsum (fun t => tcoef t (wq Q t) i j) T) ->
    (forall k, In k B -> vdot g (Z k) = vdot g (bf k)) /\ forall i, (i < N)%nat -> ~ In i B -> mapply N A (fun k => vdot g (Z k)) i = 0).
  { intros A g VA. apply (propagation_harmonic A1 A (fun k => vdot g (bf k)) (fun i => vdot g (rhs N (fun _ => vzero) (map bf B) i)) (fun k => vdot g (Z k)) EA VA).
    - intros i Hi. unfold rhs. destruct (Nat.ltb_spec i N); [|lia]. unfold vdot, vzero; cbn [vx vy vz]. ring.
    - intros j Hj. unfold rhs. destruct (Nat.ltb_spec (N + j) N); [lia|]. replace (N + j - N)%nat with j by lia.
      rewrite (nth_indep _ vzero (bf 0%nat)) by (rewrite map_length; exact Hj). rewrite map_nth. reflexivity.
    - exact (solve_functional solve _ _ _ g ES INV). }
  split.
  - intros k Hk. apply vdot_ext. intros g. exact (proj1 (G A0 g VA0) k Hk).
  - intros A g i VA Hi Nb. exact (proj2 (G A g VA) i Hi Nb).
Qed.

Notation bv := (bval d eps ps curves).
Notation nv := (bval d eps ps normals).
Definition surf (A1 : mat) : nat -> V3 := solve (N + length B)%nat A1 (rhs N (fun _ => vzero) (map bv B)).
Definition nrm (A1 : mat) : nat -> V3 := fun i => normalized (solve (N + length B)%nat A1 (rhs N (fun _ => vzero) (map nv B)) i).
Notation edge := (onEdge rsqrt n r).

Lemma at3_tab : forall (X : nat -> V3) k, (k < N)%nat -> at3 (tabulate N X) k = X k.
Proof. intros X k Hk. unfold at3. apply nth_error_nth. rewrite tabulate_nth_error by exact Hk. reflexivity. Qed.

Lemma tri_lt : forall a b c, In (a, b, c) T -> (a < N /\ b < N /\ c < N)%nat.
Proof. intros a b c Ht. destruct (proj1 DM _ Ht) as [L _]. exact L. Qed.

Lemma unfold_eval : forall A1, prepareSolver Q T B true = Some A1 ->
  biharmonicEval solve rsqrt eps d curves normals r =
  (A2 <- prepareSolver (tabulate N (surf A1)) T B false ;;
   Ls <- laplacian cotsB (tabulate N (surf A1)) T ;;
   areas <- voronoiAreas (tabulate N (surf A1)) T ;;
   _ <- reciprocals areas (seq 0 N) ;;
   mean <- curvatures N areas edge (surf A1) (nrm A1) T ;;
   Some (T, tabulate N (solve (N + length B)%nat A2 (rhs N (fun i => vsum N (fun j => vopp (nrm A1 j) *v nth j mean 0 *v (/ areas i * Ls i j))) (map (surf A1) B))))).
Proof.
  intros A1 EA. unfold biharmonicEval. rewrite (frames_params vs cen d r ps Hd Hps). cbn [bind]. rewrite (d_n_eq cen vs d Hd).
  unfold biharmonicSolve. change (filter (onEdge rsqrt (length vs) r) (seq 0 N)) with B. change (map from2D ps) with Q. change (length vs) with n.
  rewrite (mapM_total _ (fun k => (bv k, nv k))).
  - cbn [bind]. rewrite EA. cbn [bind]. rewrite !map_map. cbn [fst snd]. fold (surf A1). reflexivity.
  - intros k Hk. destruct (boundary_some vs cen d r rsqrt eps ps H3 Hr Hd C Hq Heps Hps curves Hc k Hk) as (e & s & E & He & _).
    unfold bval. rewrite E. cbn [bind]. rewrite (nth_error_nth' curves (fun _ => vzero)) by (unfold n in Hc; lia). cbn [bind]. rewrite (nth_error_nth' normals (fun _ => vzero)) by (unfold n in Hm; lia). reflexivity.
Qed.

Lemma eval_degenerate : forall A1 a b c, prepareSolver Q T B true = Some A1 -> In (a, b, c) T -> twice_area (surf A1 a) (surf A1 b) (surf A1 c) = 0 ->
  biharmonicEval solve rsqrt eps d curves normals r = None.
Proof.
  intros A1 a b c EA Ht Z. rewrite (unfold_eval A1 EA). unfold prepareSolver. destruct (tri_lt a b c Ht) as (L1 & L2 & L3).
  rewrite (laplacian_degenerate (tabulate N (surf A1)) T a b c Ht); [reflexivity|]. rewrite !at3_tab by assumption. exact Z.
Qed.

Lemma eval_value : forall A1, prepareSolver Q T B true = Some A1 -> (forall a b c, In (a, b, c) T -> twice_area (surf A1 a) (surf A1 b) (surf A1 c) <> 0) ->
  exists Ls ar Y, (forall i j, Ls i j = lsum (fun t => tcoef t (wq (tabulate N (surf A1)) t) i j) T) /\ (forall k, (k < N)%nat -> 0 < ar k) /\
    biharmonicEval solve rsqrt eps d curves normals r = Some (T, tabulate N Y) /\
    (forall k, In k B -> Y k = surf A1 k) /\ dirichlet_unique N B (block N (KQ N Ls (mass B ar))) /\
    forall g i, (i < N)%nat -> ~ In i B -> mapply N (block N (KQ N Ls (mass B ar))) (fun k => vdot g (Y k)) i =
      vdot g (vsum N (fun j => vopp (nrm A1 j) *v (vnorm (meanVectors edge (surf A1) (nrm A1) T j) / (2 * ar j)) *v (/ ar i * Ls i j))).
Proof.
  intros A1 EA ND. set (P2 := tabulate N (surf A1)).
  assert (LP : length P2 = N) by apply tabulate_length.
  assert (M2 : plane_mesh (length P2) T uv (fun k => In k B)) by (rewrite LP; exact DM).
  assert (B2 : forall i, In i B -> (i < length P2)%nat) by (rewrite LP; exact BL).
  assert (ND2 : forall a b c, In (a, b, c) T -> twice_area (at3 P2 a) (at3 P2 b) (at3 P2 c) <> 0).
  { intros a b c Ht. destruct (tri_lt a b c Ht) as (L1 & L2 & L3). unfold P2. rewrite !at3_tab by assumption. exact (ND a b c Ht). }
  destruct (prepare_value T uv B P2 M2 ND2 false) as (Ls & ar & EL & VL & EV & PV & EP). rewrite LP in EP, PV.
  pose proof (prepare_unique T uv B P2 M2 ND2 false Ls ar VL) as UK. rewrite LP in UK. specialize (UK PV). cbn [negb] in UK.
  set (K := block N (KQ N Ls (mass B ar))) in *.
  assert (Z1 : forall i j, (N <= i)%nat -> K i j = 0) by (intros; apply block_row; assumption).
  assert (Z2 : forall i j, (N <= j)%nat -> K i j = 0) by (intros; apply block_col; assumption).
  pose proof (dirichlet_invertible N B K BL BN Z1 Z2 UK) as INV.
  destruct (reciprocals_ok ar (seq 0 N)) as (rc & ER); [intros k Hk; apply in_seq in Hk; apply PV; lia|].
  assert (EM : curvatures N ar edge (surf A1) (nrm A1) T = Some (tabulate N (fun i => vnorm (meanVectors edge (surf A1) (nrm A1) T i) / (2 * ar i)))).
  { unfold curvatures. apply mapM_seq. intros i Hi. rewrite fdiv_some by (specialize (PV i Hi); lra). reflexivity. }
  set (LH := fun i => vsum N (fun j => vopp (nrm A1 j) *v nth j (tabulate N (fun i => vnorm (meanVectors edge (surf A1) (nrm A1) T i) / (2 * ar i))) 0 *v (/ ar i * Ls i j))).
  set (b := rhs N LH (map (surf A1) B)).
  exists Ls, ar, (solve (N + length B)%nat (constrain N B K) b). split; [exact VL|]. split; [exact PV|].
  assert (SD : forall g, dirichlet N B K (fun i => vdot g (b i)) (fun j => vdot g (b (N + j)%nat)) (fun i => vdot g (solve (N + length B)%nat (constrain N B K) b i))).
  { intros g. apply (system_dirichlet N B K BL Z1 Z2 (fun i => vdot g (b i))). exact (solve_functional solve _ _ _ g ES INV). }
  split; [|split; [|split]].
  - rewrite (unfold_eval A1 EA). fold P2. rewrite EP. cbn [bind]. rewrite EL. cbn [bind]. rewrite EV. cbn [bind]. rewrite ER. cbn [bind]. rewrite EM. reflexivity.
  - intros k Hk. apply vdot_ext. intros g. destruct (SD g) as [BB _]. destruct (In_nth B k 0%nat Hk) as (j & Hj & E). specialize (BB j Hj). rewrite E in BB. rewrite BB. f_equal.
    unfold b, rhs. destruct (Nat.ltb_spec (N + j) N); [lia|]. replace (N + j - N)%nat with j by lia.
    rewrite (nth_indep _ vzero (surf A1 0%nat)) by (rewrite map_length; exact Hj). rewrite map_nth, E. reflexivity.
  - exact UK.
  - intros g i Hi Nb. fold K. destruct (SD g) as [_ BB]. rewrite (BB i Hi Nb). unfold b, rhs. destruct (Nat.ltb_spec i N); [|lia]. f_equal. unfold LH.
    apply vsum_ext. intros j Hj. f_equal. f_equal. apply nth_error_nth. rewrite tabulate_nth_error by exact Hj. reflexivity.
Qed.

Lemma surf_props : forall A1, prepareSolver Q T B true = Some A1 -> (forall k, In k B -> surf A1 k = bv k) /\
  forall A g i, (forall i j, A i j = lsum (fun t => tcoef t (wq Q t) i j) T) -> (i < N)%nat -> ~ In i B -> mapply N A (fun k => vdot g (surf A1 k)) i = 0.
Proof. intros A1 EA. destruct (stage_one bv) as (A1' & EA' & _ & P). rewrite EA in EA'. injection EA' as <-. exact P. Qed.

Lemma surf_harmonic : forall A1 A X, prepareSolver Q T B true = Some A1 -> (forall i j, A i j = lsum (fun t => tcoef t (wq Q t) i j) T) ->
  (forall k, In k B -> X k = bv k) -> (forall g i, (i < N)%nat -> ~ In i B -> mapply N A (fun k => vdot g (X k)) i = 0) ->
  forall k, (k < N)%nat -> surf A1 k = X k.
Proof.
  intros A1 A X EA VA XB XI k Hk. destruct (surf_props A1 EA) as [SB SI]. apply vdot_ext. intros g.
  apply (dirichlet_same N B A (A_unique vs cen r rsqrt eps ps H3 Hr C I Hq Heps Hps A VA) (fun _ => 0) (fun j => vdot g (bv (nth j B 0%nat))) (fun k => vdot g (X k)) (fun k => vdot g (surf A1 k))); [| |exact Hk].
  - split; [intros j Hj; rewrite XB by (apply nth_In; exact Hj); reflexivity|]. intros i Hi Nb. apply XI; assumption.
  - split; [intros j Hj; rewrite SB by (apply nth_In; exact Hj); reflexivity|]. intros i Hi Nb. apply SI; assumption.
Qed.

(** *** Flat data *)
Section Affine.
Variables (p0 U V nu : V3).
Let aff (p : V2) : V3 := p0 +v U *v px p +v V *v py p.
Hypothesis NUV : vcross U V <> vzero.
Hypothesis FC : forall k, In k B -> bv k = aff (uv k).
Hypothesis FN : forall k, In k B -> nv k = nu.

Lemma dot_aff : forall g p, vdot g (aff p) = vdot g U * px p + vdot g V * py p + vdot g p0.
Proof. intros g p. unfold aff, vdot; cbn [vx vy vz vadd vscale]. ring. Qed.

Lemma surf_affine : forall A1 k, prepareSolver Q T B true = Some A1 -> (k < N)%nat -> surf A1 k = aff (uv k).
Proof.
  intros A1 k EA Hk. destruct (surf_props A1 EA) as [SB SI]. destruct (matrix vs cen r rsqrt eps ps H3 Hr C I Hq Heps Hps) as (A & _ & VA).
  apply vdot_ext. intros g. rewrite dot_aff.
  apply (linear_solution vs cen r rsqrt eps ps H3 Hr C I Hq Heps Hps A (fun k => vdot g (surf A1 k)) (vdot g U) (vdot g V) (vdot g p0) VA); [| |exact Hk].
  - intros i Hi Nb. apply SI; assumption.
  - intros j Hj. rewrite SB, FC by exact Hj. apply dot_aff.
Qed.

Lemma nrm_const : forall A1 k, prepareSolver Q T B true = Some A1 -> (k < N)%nat -> nrm A1 k = normalized nu.
Proof.
  intros A1 k EA Hk. unfold nrm. f_equal. destruct (stage_one nv) as (A1' & EA' & _ & SB & SI). rewrite EA in EA'. injection EA' as <-.
  set (Z := solve (N + length B)%nat A1 (rhs N (fun _ => vzero) (map nv B))) in *.
  destruct (matrix vs cen r rsqrt eps ps H3 Hr C I Hq Heps Hps) as (A & _ & VA). apply vdot_ext. intros g.
  transitivity (0 * px (uv k) + 0 * py (uv k) + vdot g nu); [|ring].
  apply (linear_solution vs cen r rsqrt eps ps H3 Hr C I Hq Heps Hps A (fun k => vdot g (Z k)) 0 0 (vdot g nu) VA); [| |exact Hk].
  - intros i Hi Nb. apply SI; assumption.
  - intros j Hj. rewrite SB, FN by exact Hj. ring.
Qed.

Lemma aff_cross : forall p q s, vcross (aff q -v aff p) (aff s -v aff p) = vcross U V *v sarea p q s.
Proof. intros p q s. unfold aff, sarea, pcross. apply V3_ext; cbn [vx vy vz vcross vsub vadd vscale px py psub]; ring. Qed.

Lemma aff_area : forall p q s, 0 < sarea p q s -> twice_area (aff p) (aff q) (aff s) = vnorm (vcross U V) * sarea p q s.
Proof.
  intros p q s S. unfold twice_area. rewrite aff_cross. 
  unfold vnorm, vnorm2. replace (vdot (vcross U V *v sarea p q s) (vcross U V *v sarea p q s)) with (vdot (vcross U V) (vcross U V) * (sarea p q s * sarea p q s)) by (unfold vdot; cbn [vx vy vz vscale]; ring).
  rewrite sqrt_mult_alt by (unfold vdot; nra). rewrite (sqrt_square (sarea p q s)) by lra. reflexivity.
Qed.

Lemma flat_eval : biharmonicEval solve rsqrt eps d curves normals r = Some (T, map aff ps).
Proof.
  destruct (prepare_invertible T uv B Q QM QB BN QN true) as (A1 & EA & _).
  pose proof (vnorm_pos _ NUV) as PN.
  assert (TP : forall a b c, In (a, b, c) T -> 0 < sarea (uv a) (uv b) (uv c)) by exact (proj1 (proj2 (proj2 DM))).
  assert (AR : forall a b c, In (a, b, c) T -> twice_area (surf A1 a) (surf A1 b) (surf A1 c) = vnorm (vcross U V) * sarea (uv a) (uv b) (uv c)).
  { intros a b c Ht. destruct (tri_lt a b c Ht) as (L1 & L2 & L3). rewrite !surf_affine by assumption. apply aff_area, TP. exact Ht. }
  destruct (eval_value A1 EA) as (Ls & ar & Y & VL & PV & EY & YB & UK & YI).
  { intros a b c Ht. rewrite AR by exact Ht. pose proof (TP a b c Ht). assert (0 < vnorm (vcross U V) * sarea (uv a) (uv b) (uv c)) by (apply Rmult_lt_0_compat; assumption). lra. }
  set (K := block N (KQ N Ls (mass B ar))) in *.
  assert (MZ : forall j, meanVectors edge (surf A1) (nrm A1) T j = vzero).
  { intros j. apply (mean_zero edge (surf A1) (nrm A1) T (normalized nu)).
    - intros a b c Ht. destruct (tri_lt a b c Ht) as (L1 & L2 & L3). rewrite !nrm_const by assumption. auto.
    - exact (proj1 (proj2 (proj2 (proj2 DM)))).
    - intros e He. destruct (proj2 (proj2 (proj2 (proj2 DM))) e He) as [B1 B2]. unfold bverts in B1, B2. apply filter_In in B1, B2. tauto. }
  assert (LZ : forall g i, (i < N)%nat -> ~ In i B -> mapply N K (fun k => vdot g (Y k)) i = 0).
  { intros g i Hi Nb. rewrite (YI g i Hi Nb). rewrite (vsum_zero N).
    - unfold vdot, vzero; cbn [vx vy vz]; ring.
    - intros j Hj. rewrite MZ. replace (vnorm vzero) with 0 by (unfold vnorm, vnorm2, vdot, vzero; cbn [vx vy vz]; replace (0 * 0 + 0 * 0 + 0 * 0) with 0 by ring; symmetry; apply sqrt_0).
      apply V3_ext; cbn [vx vy vz vscale vopp vzero]; unfold Rdiv; ring. }
  assert (LS : forall g i, (i < N)%nat -> ~ In i B -> mapply N K (fun k => vdot g (surf A1 k)) i = 0).
  { intros g i Hi Nb. unfold K. rewrite block_apply by exact Hi. apply (KQ_zero N B); [intros k Hk; apply mass_in; exact Hk|]. intros k Hk Nk.
    assert (HW : forall a b c, In (a, b, c) T -> half_cots (surf A1 a) (surf A1 b) (surf A1 c) (wq (tabulate N (surf A1)) (a, b, c))).
    { intros a b c Ht. destruct (tri_lt a b c Ht) as (L1 & L2 & L3). unfold wq. rewrite !at3_tab by assumption. apply wcots_half.
      apply cross_nonzero. rewrite AR by exact Ht. pose proof (TP a b c Ht). assert (0 < vnorm (vcross U V) * sarea (uv a) (uv b) (uv c)) by (apply Rmult_lt_0_compat; assumption). lra. }
    rewrite <- (linear_precision N T uv B DM (surf A1) (wq (tabulate N (surf A1))) Ls HW VL (vcross U V *v (/ vnorm (vcross U V))) g 0) with (i := k); [|  |exact Hk|exact Nk].
    - apply rsum_ext. intros j _. ring.
    - intros a b c Ht. fold (twice_area (surf A1 a) (surf A1 b) (surf A1 c)). rewrite AR by exact Ht. destruct (tri_lt a b c Ht) as (L1 & L2 & L3). rewrite !surf_affine by assumption. rewrite aff_cross.
      set (q := vnorm (vcross U V)) in *. clearbody q. apply V3_ext; cbn [vx vy vz vscale]; field; lra. }
  assert (E : forall k, (k < N)%nat -> Y k = aff (uv k)).
  { intros k Hk. rewrite <- (surf_affine A1 k EA Hk). apply vdot_ext. intros g.
    apply (dirichlet_same N B K UK (fun _ => 0) (fun j => vdot g (surf A1 (nth j B 0%nat))) (fun k => vdot g (surf A1 k)) (fun k => vdot g (Y k))); [| |exact Hk].
    - split; [intros j Hj; reflexivity|]. exact (LS g).
    - split; [intros j Hj; rewrite YB by (apply nth_In; exact Hj); reflexivity|]. exact (LZ g). }
  rewrite EY. f_equal. f_equal. apply nth_ext with (d := vzero) (d' := aff pzero); [rewrite tabulate_length, map_length; reflexivity|].
  intros k Hk. rewrite tabulate_length in Hk. rewrite map_nth. transitivity (Y k); [|apply E; exact Hk].
  apply nth_error_nth. rewrite tabulate_nth_error by exact Hk. reflexivity.
Qed.
End Affine.
End Patch.
