(** Properties of elastic patches: C72. *)
From Verif Require Import Base GeomSpec UtilModel UtilSpec DomainModel ParamModel RibbonModel SurfaceModel SurfaceEval.
From Verif Require Import FEMSpec FEMSolve LinSolve ElasticModel ElasticProofs.
From Verif Require Import PropsSurface DomainProofs DomainPolygons UtilProofs ParamBary ParamMaps ParamRegular ParamSide ParamTame ParamFar PropsParam SurfaceSpec SurfaceProofs SurfaceBase BlendProofs.
From Coq Require Import Reals List Lra Lia.
Import ListNotations.
Open Scope R_scope.

(** The foot points of [uv] on the sides of the domain, the boundary points that
    belong to them, and the cross derivatives there. *)
Definition feet (eps : R) (d : dom) (sf : surf) (uv : V2) (foot : nat -> V2) (P T : nat -> V3) : Prop :=
  exists sds, mapToRibbons KBilinear eps d uv = Some sds /\ forall i, (i < sf_n sf)%nat ->
    exists sd a b r, nth_error sds i = Some sd /\ nth_error (d_verts d) (prv (sf_n sf) i) = Some a /\ nth_error (d_verts d) i = Some b /\
      nth_error (sf_ribbons sf) i = Some r /\
      let s := Rmin (Rmax (px sd) 0) 1 in foot i = a *p (1 - s) +p b *p s /\ P i = cpt (sr_curve r) s /\ sr_cross r s = Some (T i).

(** One beam from each boundary point to [q]; over the segment from the foot point to
    [uv] it leaves with the cross derivative and arrives with the derivative in this
    direction of a map with partial derivatives [Ku] and [Kv].  [E] is the sum of the
    bending energies. *)
Definition bundle (n : nat) (uv : V2) (foot : nat -> V2) (P T : nat -> V3) (q Ku Kv : V3) (E : R) : Prop :=
  exists e : nat -> R, E = rsum n e /\ forall i, (i < n)%nat ->
    let r := uv -p foot i in let L := pnorm r in
    beam L (P i) (T i) q (Ku *v (px r / L) +v Kv *v (py r / L)) (e i).

(** Two of the segments have different directions. *)
Definition spanning (n : nat) (uv : V2) (foot : nat -> V2) : Prop :=
  exists i j, (i < n)%nat /\ (j < n)%nat /\ pcross (uv -p foot i) (uv -p foot j) <> 0.

(** A beam is bent least if it is a cubic, so the energy of a bundle is at least the
    one of the cubics. *)
Definition total (n : nat) (uv : V2) (foot : nat -> V2) (P T : nat -> V3) (q Ku Kv : V3) : R :=
  rsum n (fun i => let r := uv -p foot i in let L := pnorm r in cubicEnergy L (P i) (T i) q (Ku *v (px r / L) +v Kv *v (py r / L))).

Lemma total_bundle : forall n uv foot P T q Ku Kv, (forall i, (i < n)%nat -> 0 < pnorm (uv -p foot i)) ->
  bundle n uv foot P T q Ku Kv (total n uv foot P T q Ku Kv).
Proof. intros n uv foot P T q Ku Kv H. eexists. split; [reflexivity|]. intros i Hi. apply cubic_beam. apply H, Hi. Qed.
Lemma total_least : forall n uv foot P T q Ku Kv E, (forall i, (i < n)%nat -> 0 < pnorm (uv -p foot i)) ->
  bundle n uv foot P T q Ku Kv E -> total n uv foot P T q Ku Kv <= E.
Proof. intros n uv foot P T q Ku Kv E H (e & -> & B). apply rsum_le. intros i Hi. apply beam_least; [apply H, Hi|]. apply (B i Hi). Qed.

Lemma total_coordinates : forall n uv foot P T q Ku Kv, (forall i, (i < n)%nat -> 0 < pnorm (uv -p foot i)) ->
  let w i := / pnorm (uv -p foot i) ^ 3 in let x i := px uv - px (foot i) in let y i := py uv - py (foot i) in
  let c (f : V3 -> R) := rsum n (phi w x y (fun i => f (P i)) (fun i => f (T i *v pnorm (uv -p foot i))) (f q) (f Ku) (f Kv)) in
  total n uv foot P T q Ku Kv = c vx + c vy + c vz.
Proof.
  intros n uv foot P T q Ku Kv H w x y c. unfold c, total. rewrite <- !rsum_plus. apply rsum_ext. intros i Hi. cbv zeta.
  assert (Z : pnorm (uv -p foot i) <> 0) by (specialize (H i Hi); lra).
  unfold cubicEnergy, phi, w, x, y, vdot. simpl px. simpl py. set (L := pnorm (uv -p foot i)) in *. clearbody L. simpl. field. exact Z.
Qed.

Section Min.
Variable solve : nat -> (nat -> nat -> R) -> (nat -> V3) -> nat -> V3.
Hypothesis HS : exact_solver solve.

Lemma minimum : forall tol eps d sf uv foot P T, 0 < tol -> feet eps d sf uv foot P T ->
  (forall i, (i < sf_n sf)%nat -> tol <= pnorm (uv -p foot i)) -> spanning (sf_n sf) uv foot ->
  exists p Ju Jv, elasticSurfaceEval solve tol eps d sf uv = Some p /\
    forall q Ku Kv, total (sf_n sf) uv foot P T p Ju Jv <= total (sf_n sf) uv foot P T q Ku Kv /\
      (total (sf_n sf) uv foot P T q Ku Kv = total (sf_n sf) uv foot P T p Ju Jv -> q = p /\ Ku = Ju /\ Kv = Jv).
Proof.
  intros tol eps d sf uv foot P T Ht (sds & Em & F) Hd Sp. set (n := sf_n sf) in *.
  assert (Hp : forall i, (i < n)%nat -> 0 < pnorm (uv -p foot i)) by (intros i Hi; specialize (Hd i Hi); lra).
  set (w := fun i => / pnorm (uv -p foot i) ^ 3). set (x := fun i => px uv - px (foot i)). set (y := fun i => py uv - py (foot i)).
  set (a := fun i => T i *v pnorm (uv -p foot i)).
  assert (Hw : forall i, (i < n)%nat -> 0 < w i) by (intros i Hi; apply Rinv_0_lt_compat, pow_lt, Hp, Hi).
  set (st := fold_left (fun st i => elasticAcc uv st (foot i) (P i) (a i) (w i)) (seq 0 n) elasticZero).
  assert (Ev : elasticSurfaceEval solve tol eps d sf uv = Some (solve 3 (es_A st) (es_b st) 0%nat)).
  { unfold elasticSurfaceEval, elasticEval. rewrite Em. cbn [bind]. unfold elastic.
    rewrite (loop_state esys (elasticAcc uv) (elasticSolve solve) tol sf (d_verts d) uv sds foot P T (sf_n sf) 0 elasticZero); [reflexivity| |].
    - intros i Hi. apply F. unfold n. lia.
    - intros i Hi. split; [apply Hd; unfold n; lia|]. specialize (Hp i ltac:(unfold n; lia)). lra. }
  destruct (acc_state uv foot P a w n 0 elasticZero) as (SA & SB). cbv zeta in SA, SB. fold st in SA, SB. cbn [Nat.add] in SA, SB.
  assert (EA : es_A st = sysA n w x y).
  { apply FunctionalExtensionality.functional_extensionality; intros i. apply FunctionalExtensionality.functional_extensionality; intros j. rewrite SA. cbn [elasticZero es_A]. rewrite Rplus_0_l. reflexivity. }
  assert (Sp' : exists i j, (i < n)%nat /\ (j < n)%nat /\ x i * y j - y i * x j <> 0) by exact Sp.
  pose proof (sys_invertible n w x y Hw Sp') as Inv.
  rewrite EA in Ev. set (z := solve 3 (sysA n w x y) (es_b st)) in *. destruct (HS 3%nat (sysA n w x y) (es_b st) Inv) as (Sx & Sy & Sz). fold z in Sx, Sy, Sz.
  exists (z 0%nat), (vopp (z 1%nat)), (vopp (z 2%nat)). split; [exact Ev|].
  assert (N : forall f : V3 -> R, (forall u v, f (u +v v) = f u + f v) -> (forall u t, f (u *v t) = f u * t) -> f vzero = 0 -> (forall u, f (vopp u) = - f u) ->
     (forall m g, f (vsum m g) = rsum m (fun i => f (g i))) ->
     solves 3 (sysA n w x y) (fun i => f (es_b st i)) (fun i => f (z i)) -> forall q Ku Kv,
     rsum n (phi w x y (fun i => f (P i)) (fun i => f (a i)) (f q) (f Ku) (f Kv)) =
     rsum n (phi w x y (fun i => f (P i)) (fun i => f (a i)) (f (z 0%nat)) (f (vopp (z 1%nat))) (f (vopp (z 2%nat)))) +
     rsum n (quad w x y (f q - f (z 0%nat)) (f Ku - f (vopp (z 1%nat))) (f Kv - f (vopp (z 2%nat))))).
  { intros f F1 F2 F3 F4 F5 So q Ku Kv. destruct (sys_rows n w x y (fun i => f (z i))) as (R0 & R1 & R2).
    rewrite (So 0%nat ltac:(lia)) in R0. rewrite (So 1%nat ltac:(lia)) in R1. rewrite (So 2%nat ltac:(lia)) in R2.
    rewrite SB in R0, R1, R2. cbn [elasticZero es_b elasticRhs] in R0, R1, R2. rewrite F1, F3, F5, Rplus_0_l in R0, R1, R2.
    apply phi_difference.
    - rewrite !F4. transitivity (rsum n (fun i => (2 * f (z 0%nat) + (f (z 1%nat) * x i + f (z 2%nat) * y i)) * w i)); [apply rsum_ext; intros; ring|]. rewrite <- R0.
      apply rsum_ext. intros i _. rewrite F2, F1, F2. ring.
    - rewrite !F4. transitivity (rsum n (fun i => x i * (3 * f (z 0%nat) + 2 * (f (z 1%nat) * x i + f (z 2%nat) * y i)) * w i)); [apply rsum_ext; intros; ring|]. rewrite <- R1.
      apply rsum_ext. intros i _. rewrite F2, F1, !F2. unfold x. ring.
    - rewrite !F4. transitivity (rsum n (fun i => y i * (3 * f (z 0%nat) + 2 * (f (z 1%nat) * x i + f (z 2%nat) * y i)) * w i)); [apply rsum_ext; intros; ring|]. rewrite <- R2.
      apply rsum_ext. intros i _. rewrite F2, F1, !F2. unfold y. ring. }
  intros q Ku Kv. rewrite !(total_coordinates n uv foot P T) by exact Hp. cbv zeta. fold w x y. fold a.
  pose proof (N vx ltac:(reflexivity) ltac:(reflexivity) eq_refl ltac:(reflexivity) vsum_x Sx q Ku Kv) as Nx.
  pose proof (N vy ltac:(reflexivity) ltac:(reflexivity) eq_refl ltac:(reflexivity) vsum_y Sy q Ku Kv) as Ny.
  pose proof (N vz ltac:(reflexivity) ltac:(reflexivity) eq_refl ltac:(reflexivity) vsum_z Sz q Ku Kv) as Nz.
  assert (Q : forall de k1 k2, 0 <= rsum n (quad w x y de k1 k2)) by (intros; apply rsum_nonneg; intros i Hi; apply (quad_nonneg n w x y Hw); exact Hi).
  unfold a in Nx, Ny, Nz. rewrite Nx, Ny, Nz.
  pose proof (Q (vx q - vx (z 0%nat)) (vx Ku - vx (vopp (z 1%nat))) (vx Kv - vx (vopp (z 2%nat)))) as Qx.
  pose proof (Q (vy q - vy (z 0%nat)) (vy Ku - vy (vopp (z 1%nat))) (vy Kv - vy (vopp (z 2%nat)))) as Qy.
  pose proof (Q (vz q - vz (z 0%nat)) (vz Ku - vz (vopp (z 1%nat))) (vz Kv - vz (vopp (z 2%nat)))) as Qz.
  split; [lra|]. intros Eq.
  assert (Ux : rsum n (quad w x y (vx q - vx (z 0%nat)) (vx Ku - vx (vopp (z 1%nat))) (vx Kv - vx (vopp (z 2%nat)))) = 0) by lra.
  assert (Uy : rsum n (quad w x y (vy q - vy (z 0%nat)) (vy Ku - vy (vopp (z 1%nat))) (vy Kv - vy (vopp (z 2%nat)))) = 0) by lra.
  assert (Uz : rsum n (quad w x y (vz q - vz (z 0%nat)) (vz Ku - vz (vopp (z 1%nat))) (vz Kv - vz (vopp (z 2%nat)))) = 0) by lra.
  destruct (quad_zero n w x y Hw _ _ _ Sp' Ux) as (X1 & X2 & X3).
  destruct (quad_zero n w x y Hw _ _ _ Sp' Uy) as (Y1 & Y2 & Y3).
  destruct (quad_zero n w x y Hw _ _ _ Sp' Uz) as (Z1 & Z2 & Z3).
  split; [|split]; apply V3_ext; lra.
Qed.
End Min.

(** ** C72: the patch is where elastic beams from the boundary meet with the least
    bending energy. *)
Theorem C72_minimum : forall solve tol eps d sf uv foot P T, exact_solver solve -> 0 < tol -> feet eps d sf uv foot P T ->
  (forall i, (i < sf_n sf)%nat -> tol <= pnorm (uv -p foot i)) -> spanning (sf_n sf) uv foot ->
  exists p Ju Jv E, elasticSurfaceEval solve tol eps d sf uv = Some p /\ bundle (sf_n sf) uv foot P T p Ju Jv E /\
    forall q Ku Kv E', bundle (sf_n sf) uv foot P T q Ku Kv E' -> E <= E' /\ (E' = E -> q = p /\ Ku = Ju /\ Kv = Jv).
Proof.
  intros solve tol eps d sf uv foot P T HS Ht F Hd Sp. destruct (minimum solve HS tol eps d sf uv foot P T Ht F Hd Sp) as (p & Ju & Jv & Ev & M).
  assert (Hp : forall i, (i < sf_n sf)%nat -> 0 < pnorm (uv -p foot i)) by (intros i Hi; specialize (Hd i Hi); lra).
  exists p, Ju, Jv, (total (sf_n sf) uv foot P T p Ju Jv). split; [exact Ev|]. split; [apply total_bundle; exact Hp|].
  intros q Ku Kv E' B. pose proof (total_least _ _ _ _ _ _ _ _ _ Hp B) as Le. destruct (M q Ku Kv) as (M1 & M2). split; [lra|]. intros ->. apply M2. lra.
Qed.
Print Assumptions C72_minimum.

(** A beam's energy is not negative, and straight beams have none. *)
Lemma straight_beam : forall L P T q, q = P +v T *v L -> beam L P T q T 0.
Proof.
  intros L P T q ->. exists (fun x => P +v T *v x +v vzero *v x ^ 2 +v vzero *v x ^ 3), (fun x => T +v vzero *v (2 * x) +v vzero *v (3 * x ^ 2)), (fun x => vzero *v 2 +v vzero *v (6 * x)), (fun _ => 0).
  split; [|repeat split; try ring; v3ring]. intros t _. split; [apply cubic_d1|]. split; [apply cubic_d2|].
  replace (vnorm2 (vzero *v 2 +v vzero *v (6 * t))) with 0 by (unfold vnorm2, vdot; simpl; ring). apply derivable_pt_lim_const.
Qed.
Lemma cubic_nonneg : forall L P T q D, 0 < L -> 0 <= cubicEnergy L P T q D.
Proof.
  intros L P T q D HL. unfold cubicEnergy. apply Rmult_le_pos; [|left; apply Rinv_0_lt_compat, pow_lt; exact HL].
  set (y := q -v P). set (a := T *v L). set (b := D *v L).
  replace (12 * vdot y y - 12 * vdot y (a +v b) + 4 * (vdot a a + vdot a b + vdot b b)) with (3 * vnorm2 (y *v 2 -v (a +v b)) + vnorm2 (a -v b)) by (unfold vnorm2, vdot; simpl; ring).
  pose proof (vnorm2_pos (y *v 2 -v (a +v b))). pose proof (vnorm2_pos (a -v b)). unfold vnorm2. lra.
Qed.

(** A flat patch is reproduced: if the boundary points are those of an affine map
    and the cross derivatives are its derivatives towards [uv], the result is its
    value at [uv]. *)
Theorem C72_affine : forall solve tol eps d sf uv foot P T c a b, exact_solver solve -> 0 < tol -> feet eps d sf uv foot P T ->
  (forall i, (i < sf_n sf)%nat -> tol <= pnorm (uv -p foot i)) -> spanning (sf_n sf) uv foot ->
  let A q := c +v a *v px q +v b *v py q in
  (forall i, (i < sf_n sf)%nat -> P i = A (foot i) /\ T i = (A uv -v A (foot i)) *v / pnorm (uv -p foot i)) ->
  elasticSurfaceEval solve tol eps d sf uv = Some (A uv).
Proof.
  intros solve tol eps d sf uv foot P T c a b HS Ht F Hd Sp A HA. destruct (C72_minimum solve tol eps d sf uv foot P T HS Ht F Hd Sp) as (p & Ju & Jv & E & Ev & (e & -> & B) & M).
  rewrite Ev. f_equal. symmetry.
  assert (Hp : forall i, (i < sf_n sf)%nat -> 0 < pnorm (uv -p foot i)) by (intros i Hi; specialize (Hd i Hi); lra).
  assert (N : 0 <= rsum (sf_n sf) e).
  { apply rsum_nonneg. intros i Hi. eapply Rle_trans; [|apply beam_least; [|exact (B i Hi)]]; [apply cubic_nonneg|]; apply Hp, Hi. }
  assert (Z : bundle (sf_n sf) uv foot P T (A uv) a b 0).
  { exists (fun _ => 0). split; [symmetry; apply rsum_zero; reflexivity|]. intros i Hi r L. destruct (HA i Hi) as (HP & HT).
    assert (L0 : L <> 0) by (specialize (Hp i Hi); unfold L, r; lra).
    assert (ED : a *v (px r / L) +v b *v (py r / L) = T i) by (rewrite HT; unfold A; fold r; fold L; subst r; v3field; exact L0).
    rewrite ED. apply straight_beam. rewrite HT, HP. fold r. fold L. v3field; exact L0. }
  destruct (M _ _ _ _ Z) as (M1 & M2). apply M2. lra.
Qed.
Print Assumptions C72_affine.

(** Inside of a convex domain the segments to points in the interior of the sides do
    not all have the same direction. *)
Lemma left_of_side : forall vs a b s, strictly_convex vs -> (3 <= length vs)%nat -> (a < length vs)%nat -> (b < length vs)%nat -> a <> b -> 0 < s < 1 ->
  0 < sarea (vtx vs (prv (length vs) b)) (vtx vs b) (vtx vs (prv (length vs) a) *p (1 - s) +p vtx vs a *p s).
Proof.
  intros vs a b s C H3 Ha Hb N Hs. set (n := length vs) in *.
  replace (sarea (vtx vs (prv n b)) (vtx vs b) (vtx vs (prv n a) *p (1 - s) +p vtx vs a *p s)) with
    ((1 - s) * sarea (vtx vs (prv n b)) (vtx vs b) (vtx vs (prv n a)) + s * sarea (vtx vs (prv n b)) (vtx vs b) (vtx vs a)) by (unfold sarea, pcross; simpl; ring).
  assert (La : (prv n a < n)%nat) by (apply prv_lt; lia).
  assert (Z : forall k, (k < n)%nat -> 0 <= sarea (vtx vs (prv n b)) (vtx vs b) (vtx vs k)).
  { intros k Hk. destruct (Nat.eq_dec k b) as [->|N1]; [right; unfold sarea, pcross; simpl; ring|].
    destruct (Nat.eq_dec k (prv n b)) as [->|N2]; [right; unfold sarea, pcross; simpl; ring|]. left. apply C; assumption. }
  pose proof (Z a Ha) as Za. pose proof (Z (prv n a) La) as Zp.
  destruct (Nat.eq_dec a (prv n b)) as [Ea|Ea].
  - assert (0 < sarea (vtx vs (prv n b)) (vtx vs b) (vtx vs (prv n a))).
    { apply C; fold n; try assumption; destruct (prv_spec n b Hb) as [[? ?]|[? ?]]; destruct (prv_spec n a Ha) as [[? ?]|[? ?]]; lia. }
    nra.
  - assert (0 < sarea (vtx vs (prv n b)) (vtx vs b) (vtx vs a)) by (apply C; fold n; assumption). nra.
Qed.

Lemma parallel_multiple : forall r q, r <> pzero -> pcross r q = 0 -> exists t, q = r *p t.
Proof.
  intros r q Hr Hc. unfold pcross in Hc.
  assert (N : px r * px r + py r * py r <> 0).
  { intros E. apply Hr. apply V2_ext; simpl; apply Rsqr_0_uniq; unfold Rsqr; nra. }
  exists (pdot r q / (px r * px r + py r * py r)). unfold pdot. apply V2_ext; simpl; apply (Rmult_eq_reg_r (px r * px r + py r * py r)); try exact N.
  - replace (px r * ((px r * px q + py r * py q) / (px r * px r + py r * py r)) * (px r * px r + py r * py r)) with (px r * (px r * px q + py r * py q)) by (field; exact N).
    assert (K : px r * py q = py r * px q) by lra. replace (px r * (px r * px q + py r * py q)) with (px r * px r * px q + py r * (px r * py q)) by ring. rewrite K. ring.
  - replace (py r * ((px r * px q + py r * py q) / (px r * px r + py r * py r)) * (px r * px r + py r * py r)) with (py r * (px r * px q + py r * py q)) by (field; exact N).
    assert (K : px r * py q = py r * px q) by lra. replace (py r * (px r * px q + py r * py q)) with (px r * (py r * px q) + py r * py r * py q) by ring. rewrite <- K. ring.
Qed.

Theorem C72_spanning : forall vs uv foot, strictly_convex vs -> (3 <= length vs)%nat -> inside vs uv ->
  (forall i, (i < length vs)%nat -> exists s, 0 < s < 1 /\ foot i = vtx vs (prv (length vs) i) *p (1 - s) +p vtx vs i *p s) ->
  spanning (length vs) uv foot.
Proof.
  intros vs uv foot C H3 I F. set (n := length vs) in *.
  set (g := fun b p => sarea (vtx vs (prv n b)) (vtx vs b) p). set (G := fun b r => pcross (vtx vs b -p vtx vs (prv n b)) r).
  assert (Own : forall b, (b < n)%nat -> G b (uv -p foot b) = g b uv /\ 0 < g b uv).
  { intros b Hb. split; [|apply I; exact Hb]. destruct (F b Hb) as (s & _ & ->). unfold G, g, sarea, pcross. simpl. ring. }
  assert (Oth : forall a b, (a < n)%nat -> (b < n)%nat -> a <> b -> G b (uv -p foot a) < g b uv).
  { intros a b Ha Hb N. destruct (F a Ha) as (s & Hs & E). pose proof (left_of_side vs a b s C H3 Ha Hb N Hs) as P. fold n in P. rewrite <- E in P.
    change (0 < g b (foot a)) in P. replace (G b (uv -p foot a)) with (g b uv - g b (foot a)) by (unfold G, g, sarea, pcross; simpl; ring). lra. }
  destruct (Req_EM_T (pcross (uv -p foot 0%nat) (uv -p foot 1%nat)) 0) as [E1|N1]; [|exists 0%nat, 1%nat; repeat split; [lia|lia|exact N1]].
  destruct (Req_EM_T (pcross (uv -p foot 0%nat) (uv -p foot 2%nat)) 0) as [E2|N2]; [|exists 0%nat, 2%nat; repeat split; [lia|lia|exact N2]].
  exfalso.
  assert (R0 : uv -p foot 0%nat <> pzero).
  { intros E. destruct (Own 0%nat ltac:(lia)) as (O1 & O2). rewrite E in O1. unfold G, pcross in O1. simpl in O1. lra. }
  destruct (parallel_multiple _ _ R0 E1) as (t1 & T1). destruct (parallel_multiple _ _ R0 E2) as (t2 & T2).
  assert (L : forall b t, G b ((uv -p foot 0%nat) *p t) = t * G b (uv -p foot 0%nat)) by (intros; unfold G, pcross; simpl; ring).
  pose proof (Own 0%nat ltac:(lia)) as (A0 & P0). pose proof (Own 1%nat ltac:(lia)) as (A1 & P1). pose proof (Own 2%nat ltac:(lia)) as (A2 & P2).
  pose proof (Oth 1%nat 0%nat ltac:(lia) ltac:(lia) ltac:(lia)) as B10. pose proof (Oth 2%nat 0%nat ltac:(lia) ltac:(lia) ltac:(lia)) as B20.
  pose proof (Oth 0%nat 1%nat ltac:(lia) ltac:(lia) ltac:(lia)) as B01. pose proof (Oth 2%nat 1%nat ltac:(lia) ltac:(lia) ltac:(lia)) as B21.
  pose proof (Oth 0%nat 2%nat ltac:(lia) ltac:(lia) ltac:(lia)) as B02. pose proof (Oth 1%nat 2%nat ltac:(lia) ltac:(lia) ltac:(lia)) as B12.
  rewrite T1, L in A1, B10, B12. rewrite T2, L in A2, B20, B21.
  set (c0 := G 0%nat (uv -p foot 0%nat)) in *. set (c1 := G 1%nat (uv -p foot 0%nat)) in *. set (c2 := G 2%nat (uv -p foot 0%nat)) in *.
  set (g0 := g 0%nat uv) in *. set (g1 := g 1%nat uv) in *. set (g2 := g 2%nat uv) in *.
  clearbody c0 c1 c2 g0 g1 g2. clear - A0 P0 A1 P1 A2 P2 B10 B20 B01 B21 B02 B12. subst g0 g1 g2.
  assert (t1 < 1) by nra. assert (t2 < 1) by nra.
  assert (t1 < 0). { destruct (Rle_lt_dec 0 t1) as [Q|Q]; [|exact Q]. assert (0 < t1) by (destruct Q as [Q|<-]; [exact Q|lra]). assert (0 < c1) by nra. nra. }
  assert (t2 < 0). { destruct (Rle_lt_dec 0 t2) as [Q|Q]; [|exact Q]. assert (0 < t2) by (destruct Q as [Q|<-]; [exact Q|lra]). assert (0 < c2) by nra. nra. }
  assert (c1 < 0) by nra. assert (c2 < 0) by nra. assert (t1 < t2) by nra. assert (t2 < t1) by nra. lra.
Qed.
Print Assumptions C72_spanning.

(** *** The regular domain *)
Lemma hg_hull : forall vs i p w, combination vs w p -> rsum (length vs) w = 1 -> hg vs i p = rsum (length vs) (fun k => w k * hg vs i (vtx vs k)).
Proof.
  intros vs i p w Cm Sw. unfold hg, Rdiv. rewrite (rsum_ext _ _ (fun k => (w k * sarea (vtx vs (prv (length vs) i)) (vtx vs i) (vtx vs k)) * / len2 vs i)) by (intros; ring).
  rewrite rsum_scal_r. f_equal. set (A := vtx vs (prv (length vs) i)). set (B := vtx vs i).
  rewrite (rsum_ext _ _ (fun k => (px B - px A) * (w k * py (vtx vs k)) + - (py B - py A) * (w k * px (vtx vs k)) + (- ((px B - px A) * py A - (py B - py A) * px A)) * w k))
    by (intros; unfold sarea, pcross; simpl; ring).
  rewrite !rsum_plus, !rsum_scal, Sw. unfold combination in Cm.
  assert (Ex : px p = rsum (length vs) (fun k => w k * px (vtx vs k))) by (rewrite Cm; rewrite psum_x; apply rsum_ext; intros; simpl; ring).
  assert (Ey : py p = rsum (length vs) (fun k => w k * py (vtx vs k))) by (rewrite Cm; rewrite psum_y; apply rsum_ext; intros; simpl; ring).
  rewrite <- Ex, <- Ey. unfold sarea, pcross. simpl. ring.
Qed.

Lemma neighbour_heights : forall m vs d q i eps, (4 <= m)%nat -> regularVertices m = Some vs -> domainFrames pzero vs = Some d -> 0 < eps <= 1 -> inside vs q -> (i < m)%nat ->
  sin (2 * PI / INR m) <= hg vs (prv m i) q + hg vs (nxt m i) q.
Proof.
  intros m vs d q i eps H4 Hv Hd He I Hi. assert (H3 : (3 <= m)%nat) by lia. destruct (regular_convex m vs H3 Hv) as (L & C & _).
  destruct (C19_wachspress vs d eps q (d_verts_eq _ _ _ Hd) ltac:(lia) C I He) as (l & B & Ll & Pl & Sl).
  assert (W : forall k, (k < length vs)%nat -> 0 < nth k l 0) by (intros k Hk; apply Pl, nth_In; lia).
  destruct (C20_linear_precision Wachspress vs d eps q l (d_verts_eq _ _ _ Hd) ltac:(lia)) as (_ & S1 & Cm); [|intros; lra|exact B|].
  { intros k Hk. apply Rgt_not_eq. apply I. exact Hk. }
  rewrite (hg_hull vs (prv m i) q _ Cm S1), (hg_hull vs (nxt m i) q _ Cm S1). rewrite <- rsum_plus.
  replace (sin (2 * PI / INR m)) with (rsum (length vs) (fun k => nth k l 0 * sin (2 * PI / INR m))) by (rewrite rsum_scal_r, S1; ring).
  apply rsum_le. intros k Hk. rewrite L in Hk. specialize (W k ltac:(lia)).
  assert (Lp : (prv m i < m)%nat) by (apply prv_lt; lia). assert (Lx : (nxt m i < m)%nat) by (apply nxt_lt; lia).
  pose proof (vtx_closed vs C k ltac:(lia)) as Vc.
  pose proof (hg_nonneg vs ltac:(lia) C (prv m i) (vtx vs k) ltac:(lia) Vc) as Z1. pose proof (hg_nonneg vs ltac:(lia) C (nxt m i) (vtx vs k) ltac:(lia) Vc) as Z2.
  rewrite <- Rmult_plus_distr_l. apply Rmult_le_compat_l; [lra|].
  destruct (Nat.eq_dec k (prv m i)) as [E|N1]; [|destruct (Nat.eq_dec k (prv m (prv m i))) as [E|N2]].
  3: { pose proof (hg_far m vs H3 Hv (prv m i) k Lp Hk N1 N2). lra. }
  all: assert (F : k <> nxt m i /\ k <> prv m (nxt m i)).
  1,3: rewrite prv_nxt by exact Hi; subst k; destruct (prv_spec m i Hi) as [[? ?]|[? ?]]; destruct (nxt_spec m i Hi) as [[? ?]|[? ?]]; destruct (prv_spec m (prv m i) Lp) as [[? ?]|[? ?]]; lia.
  all: pose proof (hg_far m vs H3 Hv (nxt m i) k Lx Hk (proj1 F) (proj2 F)); lra.
Qed.

(** On the regular domain all of this holds in the interior. *)
Theorem C72_regular : forall solve m vs d tol eps sf uv, exact_solver solve ->
  (4 <= m)%nat -> regularVertices m = Some vs -> domainFrames pzero vs = Some d ->
  sf_n sf = m -> length (sf_ribbons sf) = m -> crosses_defined (sf_ribbons sf) ->
  0 < eps -> eps <= sin (2 * PI / INR m) -> 0 < tol -> inside vs uv ->
  (forall i t q, (i < m)%nat -> 0 <= t <= 1 -> edgePoint d i t = Some q -> tol <= pnorm (uv -p q)) ->
  exists foot P T, feet eps d sf uv foot P T /\ (forall i, (i < m)%nat -> exists s, 0 < s < 1 /\ edgePoint d i s = Some (foot i) /\ side_point sf i s (P i)) /\
    exists p Ju Jv E, elasticSurfaceEval solve tol eps d sf uv = Some p /\ bundle m uv foot P T p Ju Jv E /\
      forall q Ku Kv E', bundle m uv foot P T q Ku Kv E' -> E <= E' /\ (E' = E -> q = p /\ Ku = Ju /\ Kv = Jv).
Proof.
  intros solve m vs d tol eps sf uv HS H4 Hv Hd Hn Hl Hc He Hh Ht I Hb. assert (H3 : (3 <= m)%nat) by lia.
  destruct (regular_convex m vs H3 Hv) as (L & C & _).
  assert (E1 : eps <= 1) by (pose proof (SIN_bound (2 * PI / INR m)); lra).
  set (a := fun i => hg vs (prv m i) uv). set (b := fun i => hg vs (nxt m i) uv). set (s := fun i => a i / (a i + b i)).
  assert (Hp : forall i, (i < m)%nat -> 0 < hg vs i uv).
  { intros i Hi. unfold hg. apply Rdiv_lt_0_compat; [apply I; lia|]. apply len2_pos; [lia|exact C|lia]. }
  assert (Rs : forall i, (i < m)%nat -> 0 < s i < 1).
  { intros i Hi. pose proof (Hp (prv m i) (prv_lt m i ltac:(lia))) as A. pose proof (Hp (nxt m i) (nxt_lt m i ltac:(lia))) as B. unfold s, a, b. split.
    - apply Rdiv_lt_0_compat; lra.
    - apply (Rmult_lt_reg_r (hg vs (prv m i) uv + hg vs (nxt m i) uv)); [lra|]. unfold Rdiv. rewrite Rmult_assoc, Rinv_l by lra. lra. }
  assert (Bm : forall i, (i < m)%nat -> bilinearMap eps d i uv = Some (mkV2 (s i) (hg vs i uv / sin (2 * PI / INR m)))).
  { intros i Hi. rewrite (bilinear_value m vs d H3 Hv Hd eps i uv Hi He (inside_closed vs uv I)). pose proof (neighbour_heights m vs d uv i eps H4 Hv Hd ltac:(lra) I Hi) as Q.
    destruct (Rlt_dec _ eps); [lra|]. reflexivity. }
  set (foot := fun i => vtx vs (prv m i) *p (1 - s i) +p vtx vs i *p s i).
  set (P := fun i => cv sf i (s i)). set (T := fun i => xv sf i (s i)).
  assert (Er : forall i, (i < m)%nat -> nth_error (sf_ribbons sf) i = Some (rb sf i)) by (intros i Hi; apply nth_error_nth'; lia).
  assert (Fe : feet eps d sf uv foot P T).
  { destruct (mapM_total_nth _ (fun i => mapToRibbon KBilinear eps d i uv) m) as (sds & L1 & L2 & L3); [intros i Hi; eexists; apply Bm, Hi|].
    exists sds. split; [unfold mapToRibbons; rewrite (reg_n m vs d H3 Hv Hd); exact L1|]. intros i Hi. rewrite Hn in Hi.
    exists (mkV2 (s i) (hg vs i uv / sin (2 * PI / INR m))), (vtx vs (prv m i)), (vtx vs i), (rb sf i). rewrite Hn.
    assert (V : forall q, (q < m)%nat -> nth_error (d_verts d) q = Some (vtx vs q)) by (intros q Hq; apply (verts_nth pzero vs d Hd); lia).
    split; [rewrite (L3 i Hi); apply Bm, Hi|]. split; [apply V, prv_lt; lia|]. split; [apply V, Hi|]. split; [apply Er, Hi|]. cbv zeta. cbn [px].
    specialize (Rs i Hi). rewrite Rmax_left by lra. rewrite Rmin_left by lra. split; [reflexivity|]. split; [reflexivity|].
    destruct (Hc i (rb sf i) (s i) (Er i Hi) ltac:(lra)) as (x & Ex). unfold T, xv. rewrite Ex. reflexivity. }
  exists foot, P, T. split; [exact Fe|].
  assert (Ed : forall i, (i < m)%nat -> edgePoint d i (s i) = Some (foot i)).
  { intros i Hi. rewrite (edge_total pzero vs d i (s i) Hd ltac:(lia)). unfold sidePt, foot. rewrite L. f_equal. apply V2_ext; simpl; ring. }
  split; [intros i Hi; exists (s i); split; [apply Rs, Hi|split; [apply Ed, Hi|exists (rb sf i); split; [apply Er, Hi|reflexivity]]]|].
  rewrite <- Hn. apply (C72_minimum solve tol eps d sf uv foot P T HS Ht Fe).
  - intros i Hi. rewrite Hn in Hi. apply (Hb i (s i)); [exact Hi|specialize (Rs i Hi); lra|apply Ed, Hi].
  - rewrite Hn, <- L. apply C72_spanning; [exact C|lia|exact I|]. rewrite L. intros i Hi. exists (s i). split; [apply Rs, Hi|reflexivity].
Qed.
Print Assumptions C72_regular.

(** Close to a side the loop returns the boundary point. *)
Lemma loop_near : forall (S : Type) (acc : S -> V2 -> V3 -> V3 -> R -> S) solve tol sf vs uv sds foot P T n k j st, 0 < tol ->
  (forall i, (i < n)%nat -> exists sd a b r, nth_error sds i = Some sd /\ nth_error vs (prv (sf_n sf) i) = Some a /\ nth_error vs i = Some b /\
     nth_error (sf_ribbons sf) i = Some r /\ let s := Rmin (Rmax (px sd) 0) 1 in foot i = a *p (1 - s) +p b *p s /\ P i = cpt (sr_curve r) s /\ sr_cross r s = Some (T i)) ->
  forall e, (j <= e < j + k)%nat -> (e < n)%nat -> (forall i, (i < e)%nat -> tol <= pnorm (uv -p foot i)) -> pnorm (uv -p foot e) < tol ->
  elasticLoop S acc solve tol sf vs uv sds (seq j k) st = Some (P e).
Proof.
  intros S acc solve tol sf vs uv sds foot P T n k. induction k as [|k IH]; intros j st Ht H e Hje He F N; [lia|]. cbn [seq elasticLoop].
  destruct (H j ltac:(lia)) as (sd & a & b & r & E1 & E2 & E3 & E4 & Ef & EP & ET).
  rewrite E1. cbn [bind]. rewrite E2, E3. cbn [bind]. rewrite E4. cbn [bind].
  assert (Cl : clamp (px sd) 0 1 = Rmin (Rmax (px sd) 0) 1).
  { unfold clamp, Rmin, Rmax. repeat destruct Rle_dec; repeat destruct Rlt_dec; lra. }
  rewrite Cl. set (s := Rmin (Rmax (px sd) 0) 1) in *.
  unfold ribbonEval. cbn [px py]. rewrite ET. cbn [bind].
  replace (affine2 a s b) with (foot j) by (rewrite Ef; unfold affine2; apply V2_ext; simpl; ring).
  replace (cpt (sr_curve r) s +v T j *v 0) with (P j) by (rewrite EP; v3ring).
  destruct (Nat.eq_dec j e) as [->|Nj].
  - destruct (Rlt_dec (pnorm (uv -p foot e)) tol) as [_|C]; [reflexivity|contradiction].
  - pose proof (F j ltac:(lia)) as G. destruct (Rlt_dec (pnorm (uv -p foot j)) tol) as [C|_]; [lra|].
    rewrite fdiv_some by (apply pow_nonzero; lra). cbn [bind]. apply (IH (Datatypes.S j) _ Ht H e ltac:(lia) He F N).
Qed.
Theorem C72_near : forall solve tol eps d sf uv foot P T e, 0 < tol -> feet eps d sf uv foot P T -> (e < sf_n sf)%nat ->
  (forall i, (i < e)%nat -> tol <= pnorm (uv -p foot i)) -> pnorm (uv -p foot e) < tol ->
  elasticSurfaceEval solve tol eps d sf uv = Some (P e).
Proof.
  intros solve tol eps d sf uv foot P T e Ht (sds & Em & F) He Fa N. unfold elasticSurfaceEval, elasticEval. rewrite Em. cbn [bind]. unfold elastic.
  apply (loop_near _ _ _ _ _ _ _ _ foot P T (sf_n sf)); try assumption. lia.
Qed.
Print Assumptions C72_near.

(** A plane over the square. *)
Definition planeAt (q : V2) : V3 := mkV3 1 0 (1/2) +v mkV3 1 0 1 *v px q +v mkV3 0 1 2 *v py q.
Definition planeRib (vs : list V2) (uv : V2) (i : nat) : sribbon :=
  mkRib (mkCurve (fun s => planeAt (sidePt vs i s)) (fun _ => vzero) (fun _ _ => 0))
        (fun s => Some ((planeAt uv -v planeAt (sidePt vs i s)) *v / pnorm (uv -p sidePt vs i s))).
Definition square4 : list V2 := [mkV2 1 1; mkV2 (-1) 1; mkV2 (-1) (-1); mkV2 1 (-1)].
Lemma norm_above : forall q t, 0 <= t -> t <= Rabs (px q) \/ t <= Rabs (py q) -> t <= pnorm q.
Proof.
  intros q t H0 H. unfold pnorm. rewrite <- (sqrt_Rsqr t H0). apply sqrt_le_1_alt. unfold pdot. destruct H as [H|H].
  - assert (Rsqr t <= Rsqr (px q)) by (rewrite (Rsqr_abs (px q)); apply Rsqr_incr_1; [exact H|exact H0|apply Rabs_pos]). unfold Rsqr in *. nra.
  - assert (Rsqr t <= Rsqr (py q)) by (rewrite (Rsqr_abs (py q)); apply Rsqr_incr_1; [exact H|exact H0|apply Rabs_pos]). unfold Rsqr in *. nra.
Qed.
Lemma square_far : forall i s, (i < 4)%nat -> 1/2 <= pnorm (mkV2 (1/4) (1/3) -p sidePt square4 i s).
Proof.
  intros i s Hi. apply norm_above; [lra|]. unfold sidePt, square4, vtx.
  destruct i as [|[|[|[|i]]]]; [| | | |lia]; cbv [length prv Nat.add Nat.sub Nat.modulo Nat.divmod fst snd nth]; simpl.
  - left. replace (1/4 - (1 * s + 1 * (1 - s))) with (- (3/4)) by field. rewrite Rabs_Ropp, Rabs_pos_eq; lra.
  - right. replace (1/3 - (1 * s + 1 * (1 - s))) with (- (2/3)) by field. rewrite Rabs_Ropp, Rabs_pos_eq; lra.
  - left. replace (1/4 - (-1 * s + -1 * (1 - s))) with (5/4) by field. rewrite Rabs_pos_eq; lra.
  - right. replace (1/3 - (-1 * s + -1 * (1 - s))) with (4/3) by field. rewrite Rabs_pos_eq; lra.
Qed.
Example C72_example : forall eps tol, 0 < eps <= 1/2 -> 0 < tol <= 1/2 -> exists d,
  regularVertices 4 = Some square4 /\ domainFrames pzero square4 = Some d /\
  elasticSurfaceEval gaussSolver tol eps d (mkSurf 4 true (map (planeRib square4 (mkV2 (1/4) (1/3))) (seq 0 4)) []) (mkV2 (1/4) (1/3)) =
  Some (mkV3 (5/4) (1/3) (17/12)).
Proof.
  intros eps tol He Ht. set (uv := mkV2 (1/4) (1/3)). set (sf := mkSurf 4 true (map (planeRib square4 uv) (seq 0 4)) []).
  rewrite frames_closed. eexists. split; [reflexivity|]. split; [reflexivity|].
  assert (Hd := frames_closed pzero square4). match type of Hd with _ = Some ?x => set (d := x) in * end. fold d.
  assert (Hv : regularVertices 4 = Some square4) by reflexivity.
  destruct (regular_convex 4 square4 ltac:(lia) Hv) as (L & C & _).
  assert (Sn : sin (2 * PI / INR 4) = 1) by (replace (2 * PI / INR 4) with (PI / 2) by (simpl; field); apply sin_PI2).
  assert (I : inside square4 uv).
  { intros k Hk. rewrite L in *. unfold sarea, pcross, vtx, square4, uv. destruct k as [|[|[|[|k]]]]; [| | | |lia]; cbv [prv Nat.add Nat.sub Nat.modulo Nat.divmod fst snd nth]; simpl; lra. }
  assert (Er : forall i, (i < 4)%nat -> nth_error (sf_ribbons sf) i = Some (planeRib square4 uv i)).
  { intros i Hi. destruct i as [|[|[|[|i]]]]; [| | | |lia]; reflexivity. }
  assert (Far : forall i t q, (i < 4)%nat -> 0 <= t <= 1 -> edgePoint d i t = Some q -> tol <= pnorm (uv -p q)).
  { intros i t q Hi _ E. rewrite (edge_total pzero square4 d i t Hd) in E by (rewrite L; exact Hi). injection E as <-. pose proof (square_far i t Hi). unfold uv. lra. }
  destruct (C72_regular gaussSolver 4 square4 d tol eps sf uv gauss_exact ltac:(lia) Hv Hd eq_refl eq_refl) as (foot & P & T & F & Sd & _); try lra; try assumption.
  { intros i r s E _. assert (Hi : (i < 4)%nat) by (change 4%nat with (length (sf_ribbons sf)); apply nth_error_Some; rewrite E; discriminate). rewrite (Er i Hi) in E. injection E as <-. eexists. reflexivity. }
  replace (mkV3 (5/4) (1/3) (17/12)) with (planeAt uv) by (unfold planeAt, uv; apply V3_ext; simpl; field).
  assert (Vn : forall q, (q < 4)%nat -> nth_error (d_verts d) q = Some (vtx square4 q)) by (intros q Hq; apply (verts_nth pzero square4 d Hd); rewrite L; exact Hq).
  apply (C72_affine gaussSolver tol eps d sf uv foot P T (mkV3 1 0 (1/2)) (mkV3 1 0 1) (mkV3 0 1 2) gauss_exact ltac:(lra) F).
  - intros i Hi. destruct (Sd i Hi) as (s & Hs & E & _). apply (Far i s (foot i) Hi ltac:(lra) E).
  - apply (C72_spanning square4 uv foot C); [rewrite L; lia|exact I|]. rewrite L. intros i Hi. destruct (Sd i Hi) as (s & Hs & E & _). exists s. split; [exact Hs|].
    rewrite (edge_total pzero square4 d i s Hd) in E by (rewrite L; exact Hi). injection E as <-. unfold sidePt. rewrite L. apply V2_ext; simpl; ring.
  - intros i Hi. destruct F as (sds & _ & F). destruct (F i Hi) as (sd & a & b & r & E1 & E2 & E3 & E4 & Ef & EP & ET).
    rewrite (Er i Hi) in E4. injection E4 as <-. cbn [planeRib sr_curve sr_cross cpt] in EP, ET. set (s := Rmin (Rmax (px sd) 0) 1) in *.
    cbn [sf_n sf] in E2. rewrite (Vn _ (prv_lt 4 i ltac:(lia))) in E2. rewrite (Vn _ Hi) in E3. injection E2 as <-. injection E3 as <-.
    assert (Es : sidePt square4 i s = foot i) by (rewrite Ef; unfold sidePt; rewrite L; apply V2_ext; simpl; ring).
    rewrite Es in EP, ET. injection ET as ET. split; [exact EP|]. symmetry. exact ET.
Qed.
