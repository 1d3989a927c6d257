(** Proofs about the remaining runs of the test driver: normals of the sides, fences and
    ribbons, reused surfaces, boundaries of Bezier nets. *)
From Verif Require Import Base MeshModel UtilModel UtilSpec UtilProofs DomainModel ParamModel RibbonModel RibbonSpec RibbonProofs PropsRibbon SurfaceModel SurfaceSpec SurfaceEval SurfaceObj.
From Verif Require Import ObjSpec ObjProofs JoinModel DriverModel ChainModel ChainSpec ChainProofs GBModel GBSpec GBProofs GBEnum HybridModel ClassAModel BezierTestModel BezierTestProofs RunModel.
From Verif Require PropsChain PropsDriver2 PropsUtil PropsClassA PropsObjects2 PropsTotal PropsJoin PropsJoinKinds.
From Coq Require Import String.
Open Scope R_scope.

(** ** Normals *)
Section Normals.
Variables (eps : R) (res : nat).
Hypotheses (Hp : 0 < eps) (Hres : (1 <= res)%nat).
Variables (cs : list curve).
Hypotheses (HL : good_loop eps res cs).
Variables (k : nat) (gm : bool).
Let n := List.length cs.

(** The normal of a side after the update: of unit length everywhere, and at the start
    perpendicular to this curve and the previous one. *)
Lemma side_normal : forall w w', around cs k gm w -> updateAll RKHandler eps res w k = Some w' -> forall i, (i < n)%nat ->
  (forall u, 0 <= u <= 1 -> exists x, sideNormal eps w' k i u = Some x /\ unitv x) /\
  exists x cp c, nth_error cs (prv n i) = Some cp /\ nth_error cs i = Some c /\ sideNormal eps w' k i 0 = Some x /\ directs x (vcross (cder cp 1) (cder c 0)).
Proof.
  intros w w' Aw E i Hi. destruct (around_data eps res Hres cs HL k gm RKHandler w w' Aw E) as (_ & s & Hs & Sn & Sg & Dt).
  destruct (Dt i Hi) as (r & o & cp & c & cn & d & Ep & Ec & En & Gc & X0 & X1 & Hr & Ho & Hc & Fe & Hd & Dd).
  destruct (side_frames eps res Hp Hres cp c cn Gc X0 X1) as (st & m & Eu & Us & (en & Em) & Rc & St & La).
  assert (N : forall u, sideNormal eps w' k i u = rmfEval eps m u).
  { intros u. unfold sideNormal. rewrite Hs. cbn [bind]. rewrite Hr. cbn [bind]. unfold ribNormal. rewrite Ho. cbn [bind]. rewrite Hc, Hd. cbn [bind]. rewrite Fe.
    unfold normalOf. cbn [bind]. unfold ribDerive in Dd. rewrite Eu in Dd. cbn [bind] in Dd. binv Dd. injection Dd as <-. cbn [rd_frames rd_angle]. rewrite <- Rc. destruct m; reflexivity. }
  split.
  - intros u Hu. rewrite N. apply (C30_eval_defined eps res c st en m u Hp Hres Em Us); [lra|]. apply (proj1 Gc). exact Hu.
  - destruct (C30_ribbon eps res cp c cn m Hp Hres Eu) as ((x & Ex & Dx) & _). exists x, cp, c. rewrite N. auto.
Qed.
End Normals.

(** ** The view does not depend on the history *)
Lemma surf_unique : forall eps res cs kd k1 k2 g1 g2 w1 w1' w2 w2' s1 s2, 0 < eps -> (1 <= res)%nat -> good_loop eps res cs ->
  kd = RKCompatible \/ kd = RKHandler /\ all_bisected eps res cs ->
  around cs k1 g1 w1 -> updateAll kd eps res w1 k1 = Some w1' -> viewSurface kd eps w1' k1 = Some s1 ->
  around cs k2 g2 w2 -> updateAll kd eps res w2 k2 = Some w2' -> viewSurface kd eps w2' k2 = Some s2 ->
  s2 = mkSurf (sf_n s1) g2 (sf_ribbons s1) (sf_corners s1).
Proof.
  intros eps res cs kd k1 k2 g1 g2 w1 w1' w2 w2' s1 s2 Hp Hres HL K A1 U1 V1 A2 U2 V2.
  destruct (view_ready eps res Hp Hres cs HL k1 g1 kd w1 w1' A1 U1 K) as (x & Ex & N1 & G1 & C1 & R1). assert (x = s1) by congruence. subst x.
  destruct (view_ready eps res Hp Hres cs HL k2 g2 kd w2 w2' A2 U2 K) as (x & Ex' & N2 & G2 & C2 & R2). assert (x = s2) by congruence. subst x.
  destruct (view_ribs eps res Hres cs HL k1 g1 kd w1 w1' s1 A1 U1 V1) as [L1 B1]. destruct (view_ribs eps res Hres cs HL k2 g2 kd w2 w2' s2 A2 U2 V2) as [L2 B2].
  assert (Rb : sf_ribbons s2 = sf_ribbons s1).
  { apply list_ext. intros j. destruct (nth_error (sf_ribbons s2) j) as [b2|] eqn:E2.
    - assert (Hj : (j < List.length (sf_ribbons s1))%nat) by (rewrite L1, <- L2; eapply nth_lt; exact E2). destruct (nth_error_ex _ _ _ Hj) as [b1 E1]. rewrite E1. apply (f_equal Some).
      destruct (B1 j b1 E1) as (cp & c & cn & d & P1 & P2 & P3 & D1 & ->). destruct (B2 j b2 E2) as (cp' & c' & cn' & d' & P1' & P2' & P3' & D2 & ->). congruence.
    - symmetry. apply nth_error_None. apply nth_error_None in E2. lia. }
  destruct R1 as [_ K1]. destruct R2 as [_ K2]. rewrite Rb, N2 in K2. rewrite N1 in K1. assert (Q : sf_corners s2 = sf_corners s1) by congruence.
  rewrite N1, <- N2, <- G2, <- Rb, <- Q. destruct s2; reflexivity.
Qed.

(** ** Boundaries of nets *)
Section Boundary.
Variable len : list V3 -> R -> R -> R.
Lemma bezier_curve_point : forall cp d, List.length cp = (d + 1)%nat -> forall u, cpt (bezierCurve len cp) u = bezier d (pnth cp) u.
Proof. intros cp d L u. cbn [bezierCurve cpt]. rewrite (bcEval_spec cp d u L). reflexivity. Qed.
Lemma bezier_curve_der : forall cp d, List.length cp = (d + 1)%nat -> (1 <= d)%nat -> forall u, cder (bezierCurve len cp) u = bezier (d - 1) (dcps d 1 (pnth cp)) u.
Proof.
  intros cp d L Hd u. cbn [bezierCurve cder]. destruct (bcEvalDer_spec cp d u 1 L) as (der & -> & _ & V). specialize (V 1%nat ltac:(lia)).
  destruct (Nat.leb_spec 1 d); [|lia]. rewrite (nth_error_nth _ _ _ V). reflexivity.
Qed.
(** The derivative is the derivative. *)
Lemma bezier_curve_derives : forall cp u, cp <> [] -> vderiv (cpt (bezierCurve len cp)) u (cder (bezierCurve len cp) u).
Proof.
  intros cp u Ne. destruct cp as [|p cp]; [contradiction|]. destruct (PropsUtil.C18_derivatives (p :: cp) (List.length cp)) as (D & D0 & Ds & _ & Dd); [cbn; lia|].
  destruct (Dd u 1%nat) as (der & E & _ & V). cbn [bezierCurve cpt cder]. rewrite E, (nth_error_nth _ _ _ (V 1%nat ltac:(lia))).
  assert (Q : (fun v => match bcEval (p :: cp) v with Some q => q | None => vzero end) = D 0%nat).
  { apply FunctionalExtensionality.functional_extensionality. intros v. rewrite D0. reflexivity. }
  rewrite Q. apply Ds.
Qed.
Lemma hermite_ends : forall c, let h := bezierCurve len (hermite c) in cpt h 0 = cpt c 0 /\ cpt h 1 = cpt c 1 /\ cder h 0 = cder c 0 /\ cder h 1 = cder c 1.
Proof.
  intros c h. unfold h. rewrite !(bezier_curve_point (hermite c) 3), !(bezier_curve_der (hermite c) 3) by (reflexivity || lia).
  rewrite !PropsClassA.bezier_at_0, !PropsClassA.bezier_at_1. unfold pnth, hermite. cbn [nth dcps Nat.sub]. unfold INR.
  split; [reflexivity|]. split; [reflexivity|]. split.
  - destruct (cpt c 0), (cder c 0). unfold vadd, vsub, vscale. simpl. f_equal; field.
  - destruct (cpt c 1), (cder c 1). unfold vadd, vsub, vscale. simpl. f_equal; field.
Qed.
Lemma boundary_rows : forall n d g, (1 <= d)%nat -> shaped n d g -> exists rows, gbBoundary g = Some rows /\ List.length rows = n /\
  forall i, (i < n)%nat -> exists row, nth_error rows i = Some row /\ List.length row = (d + 1)%nat /\ forall u, cpt (bezierCurve len row) u = boundaryCurve g d i u.
Proof.
  intros n d g Hd S. destruct (boundary_some n d g Hd S) as [rows E]. exists rows. split; [exact E|]. unfold gbBoundary in E. pose proof S as (Sn & Sd & _). rewrite Sn, Sd in E.
  pose proof (mapM_length _ _ _ E) as L. rewrite seq_length in L. split; [exact L|]. intros i Hi. destruct (PropsObjects2.mapM_at _ _ n rows i E Hi) as (row & Er & Fr). exists row. split; [exact Er|].
  pose proof (mapM_length _ _ _ Fr) as Lr. rewrite seq_length in Lr. split; [exact Lr|]. intros u. rewrite (bezier_curve_point row d Lr). unfold boundaryCurve, bezier.
  apply vsum_ext. intros j Hj. destruct (PropsObjects2.mapM_at _ _ (d + 1) row j Fr Hj) as (p & Ep & Fp). rewrite Fp. unfold pnth. rewrite (nth_error_nth _ _ _ Ep). reflexivity.
Qed.
End Boundary.
