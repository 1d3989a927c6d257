(** Counting the sides from another one: regular and circular domains, the
    disc. *)
From Verif Require Import Base MeshModel GeomSpec UtilModel UtilProofs DomainModel DomainProofs DomainPolygons ParamModel ParamCircular ParamRegular GBModel GBSpec.
From Verif Require Import RibbonModel SurfaceModel RotSpec RotProofs RotParam RotMotion RotPatches.
Open Scope R_scope.

Lemma turn_onc : forall a x, turned (cos a) (sin a) pzero (onc x) = onc (x + a).
Proof. intros a x. unfold turned, onc. simpl. rewrite cos_plus, sin_plus. apply V2_ext; simpl; ring. Qed.
Lemma turn_unit : forall a, cos a * cos a + sin a * sin a = 1.
Proof. intros a. pose proof (sin2_cos2 a). unfold Rsqr in *. lra. Qed.

(** A regular polygon turned by one side. *)
Lemma regular_rot : forall n vs, (3 <= n)%nat -> regularVertices n = Some vs -> rot vs = map (turned (cos (2 * PI / INR n)) (sin (2 * PI / INR n)) pzero) vs.
Proof.
  intros n vs H3 H. destruct (Nat.eq_dec n 4) as [->|H4].
  - cbn in H. injection H as <-. replace (2 * PI / INR 4) with (PI / 2) by (simpl INR; field). rewrite cos_PI2, sin_PI2. unfold turned. simpl. repeat (f_equal; try (apply V2_ext; simpl; ring)).
  - pose proof (vs_len n vs H3 H4 H) as L. apply list_ext. intros i. rewrite nth_error_map. destruct (Nat.lt_ge_cases i n) as [Hi|Hi].
    + rewrite (rot_nth _ vs n i L Hi). rewrite (vtx_some vs (nxt n i)), (vtx_some vs i) by (rewrite L; try exact Hi; apply nxt_lt; lia). cbn [option_map]. f_equal.
      rewrite (vtx_next n vs H3 H4 H i Hi), (vtx_eq n vs H3 H4 H i Hi), turn_onc. f_equal. ring.
    + rewrite !(proj2 (nth_error_None _ i)); [reflexivity|lia|rewrite rot_length; lia].
Qed.

Lemma circularLoop_app : forall ls l a, circularLoop a (ls ++ [l]) = circularLoop a ls ++ [onc (a + fold_right Rplus 0 ls + l)].
Proof.
  induction ls as [|x ls IH]; intros l a; cbn [app circularLoop fold_right].
  - unfold onc. rewrite Rplus_0_r. reflexivity.
  - cbv zeta. rewrite IH. replace (a + (x + fold_right Rplus 0 ls) + l) with (a + x + fold_right Rplus 0 ls + l) by ring. reflexivity.
Qed.
Lemma circularLoop_turn : forall ls a b, map (turned (cos b) (sin b) pzero) (circularLoop a ls) = circularLoop (a + b) ls.
Proof.
  induction ls as [|x ls IH]; intros a b; [reflexivity|]. cbn [circularLoop map]. cbv zeta. rewrite IH. change (mkV2 (cos (a + x)) (sin (a + x))) with (onc (a + x)). rewrite turn_onc.
  replace (a + x + b) with (a + b + x) by ring. reflexivity.
Qed.
Lemma accumulate_right : forall l, accumulate l = fold_right Rplus 0 l.
Proof.
  intros l. unfold accumulate. cut (forall a, fold_left Rplus l a = a + fold_right Rplus 0 l); [intros H; rewrite H; ring|].
  induction l as [|x l IH]; intros a; cbn [fold_left fold_right]; [ring|]. rewrite IH. ring.
Qed.
(** A circular domain whose sides are counted from the second one is turned back
    by the arc of the first side. *)
Lemma circular_rot : forall l ls vs, circularVertices (l :: ls) = Some vs ->
  let b := - (l * (2 * PI / accumulate (l :: ls))) in
  circularVertices (rot (l :: ls)) = Some (map (turned (cos b) (sin b) pzero) (rot vs)).
Proof.
  intros l ls vs H b. unfold circularVertices in *. replace (accumulate (rot (l :: ls))) with (accumulate (l :: ls)) by (rewrite !accumulate_right; cbn [rot]; rewrite fold_right_app; cbn [fold_right]; clear;
    induction ls as [|x ls IH]; cbn [fold_right]; [reflexivity|rewrite <- IH; ring]).
  set (A := accumulate (l :: ls)) in *. destruct (fdiv (2 * PI) A) as [nu|] eqn:E; [cbn [bind] in *|discriminate]. apply some_eq in H. subst vs. f_equal.
  assert (En : nu = 2 * PI / A /\ A <> 0). { unfold fdiv in E. destruct (Req_EM_T A 0); [discriminate|]. apply some_eq in E. auto. }
  destruct En as (En & NA). unfold b. rewrite <- En. clear b. cbn [rot map circularLoop]. cbv zeta. rewrite map_app. cbn [map]. rewrite circularLoop_app, map_app, circularLoop_turn. cbn [map].
  change (mkV2 (cos (0 + l * nu)) (sin (0 + l * nu))) with (onc (0 + l * nu)). rewrite turn_onc. f_equal.
  - f_equal. ring.
  - f_equal. replace (0 + l * nu + - (l * nu)) with 0 by ring. rewrite <- (onc_period 0). f_equal.
    replace (fold_right Rplus 0 (map (fun x => x * nu) ls)) with (fold_right Rplus 0 ls * nu) by (clear; induction ls as [|x ls IH]; cbn [map fold_right]; [ring|rewrite <- IH; ring]).
    transitivity (accumulate (l :: ls) * nu); [rewrite accumulate_right; cbn [fold_right]; ring|]. fold A. rewrite En. field. exact NA.
Qed.

(** The disc. *)
Lemma fmod_turn : forall x, 0 <= x -> fmod (x + 2 * PI) (2 * PI) = fmod x (2 * PI).
Proof.
  intros x H. pose proof PI_RGT_0 as P. unfold fmod. destruct (Rle_dec 0 (x + 2 * PI)) as [_|]; [|lra]. destruct (Rle_dec 0 x) as [_|]; [|lra].
  replace (Int_part ((x + 2 * PI) / (2 * PI))) with (Int_part (x / (2 * PI)) + 1)%Z; [rewrite plus_IZR; ring|].
  apply Int_part_unique. rewrite plus_IZR. replace ((x + 2 * PI) / (2 * PI)) with (x / (2 * PI) + 1) by (field; lra). destruct (base_Int_part (x / (2 * PI))). lra.
Qed.
Definition phi_back (n : nat) (phi phi' : R) : Prop :=
  - PI <= phi <= PI /\ - PI <= phi' <= PI /\ (phi' = phi - 2 * PI / INR n \/ phi' = phi - 2 * PI / INR n + 2 * PI).
Lemma localPhi_rot : forall n i phi phi', (3 <= n)%nat -> (i < n)%nat -> phi_back n phi phi' -> localPhi n i phi' = localPhi n (nxt n i) phi.
Proof.
  intros n i phi phi' H3 Hi (B1 & B2 & E). assert (N : 3 <= INR n) by (replace 3 with (INR 3) by (simpl; lra); apply le_INR; exact H3). pose proof PI_RGT_0 as P.
  unfold localPhi. rewrite !fdiv_some by lra. cbn [bind]. f_equal. f_equal.
  assert (IN : INR i + 1 <= INR n) by (rewrite <- S_INR; apply le_INR; lia). pose proof (pos_INR i) as I0.
  assert (Q : PI / INR n * INR n = PI) by (field; lra). assert (Q0 : 0 < PI / INR n) by (apply Rmult_lt_0_compat; [lra|apply Rinv_0_lt_compat; lra]).
  rewrite nxt_cases by exact Hi. destruct (Nat.eqb_spec (S i) n) as [En|En].
  - assert (Ei : INR i = INR n - 1) by (rewrite <- En, S_INR; ring). destruct E as [E|E].
    + rewrite <- (fmod_turn (phi' + _)).
      * f_equal. rewrite E, Ei. simpl (INR 0). field. lra.
      * rewrite Ei. replace ((3 - ((INR n - 1) * 2 + 1) / INR n) * PI) with (PI + PI / INR n) by (field; lra). lra.
    + f_equal. rewrite E, Ei. simpl (INR 0). field. lra.
  - assert (IN' : INR i + 2 <= INR n) by (rewrite <- (S_INR i) in IN; replace (INR i + 2) with (INR (S (S i))) by (rewrite !S_INR; ring); apply le_INR; lia). destruct E as [E|E].
    + f_equal. rewrite E, S_INR. field. lra.
    + rewrite <- (fmod_turn (phi + _)).
      * f_equal. rewrite E, S_INR. field. lra.
      * rewrite S_INR. replace ((3 - ((INR i + 1) * 2 + 1) / INR n) * PI) with (PI + PI / INR n * (2 * (INR n - (INR i + 2)) + 1)) by (field; lra). nra.
Qed.
Lemma circularMap_rot : forall eps n i r phi phi', (3 <= n)%nat -> (i < n)%nat -> phi_back n phi phi' -> circularMap eps n i (mkV2 r phi') = circularMap eps n (nxt n i) (mkV2 r phi).
Proof. intros eps n i r phi phi' H3 Hi B. unfold circularMap. cbn [px py]. rewrite (localPhi_rot n i phi phi' H3 Hi B). reflexivity. Qed.
