(** Inside the disk the circular parameterization takes finitely many values,
    so patches over it are step functions: C95. *)
From Verif Require Import Base GeomSpec DomainModel UtilModel ParamModel GBModel GBSpec ContSpec ContProofs StepSpec.
From Verif Require ParamCircular.
From Coq Require Import Rsqrt_def.
Open Scope R_scope.

(** ** Finitely many values *)
Lemma loop_values : forall steps xl xh, exists L, forall eps f xm, In (bisectLoop eps f xl xh xm steps) (xm :: L).
Proof.
  induction steps as [|k IH]; intros xl xh; [exists []; intros; left; reflexivity|]. set (m := (xl + xh) / 2).
  destruct (IH xl m) as [L1 H1]. destruct (IH m xh) as [L2 H2]. exists (m :: L1 ++ L2). intros eps f xm. cbn [bisectLoop]. fold m. right.
  assert (M : In m (m :: L1 ++ L2)) by (left; reflexivity).
  match goal with |- context [if ?b then m else _] => destruct b end; [exact M|]. destruct (f xl) as [a|]; [|exact M]. destruct (f m) as [b|]; [|exact M].
  destruct (Rlt_dec (a * b) 0); [|destruct (Rlt_dec 0 (a * b)); [|exact M]].
  - destruct (H1 eps f m) as [E|E]; [left; exact E|right; apply in_or_app; left; exact E].
  - destruct (H2 eps f m) as [E|E]; [left; exact E|right; apply in_or_app; right; exact E].
Qed.

(** One list serves for all tolerances, numbers of sides, sides and points. *)
Theorem C95_distances : exists L : list R, forall eps n i uv sd, px uv <= 1 - eps -> circularMap eps n i uv = Some sd -> exists h, sd = mkV2 h h /\ In h L.
Proof.
  destruct (loop_values 100 (2 / 10) 1) as [L1 H1]. destruct (loop_values 100 0 (8 / 10)) as [L2 H2]. exists ((2 / 10 :: L1) ++ (0 :: L2)). intros eps n i uv sd Hr E. unfold circularMap in E.
  destruct (localPhi n i (py uv)) as [phi|]; [|discriminate]. cbn [bind] in E. destruct (Rlt_dec (1 - eps) (px uv)) as [G|_]; [lra|]. cbv zeta in E. injection E as <-.
  eexists. split; [reflexivity|]. apply in_or_app. destruct (Rlt_dec _ 0); [left; apply H1|right; apply H2].
Qed.
Print Assumptions C95_distances.

(** The lists of [n] members of a list. *)
Lemma choices : forall T (L : list T) n, exists LL, forall l, length l = n -> (forall x, In x l -> In x L) -> In l LL.
Proof.
  intros T L n. induction n as [|n [LL H]].
  - exists [[]]. intros [|x l] E _; [left; reflexivity|discriminate].
  - exists (flat_map (fun x => map (cons x) LL) L). intros [|x l] E F; [discriminate|]. apply in_flat_map. exists x. split; [apply F; left; reflexivity|]. apply in_map. apply H; [injection E as E; exact E|]. intros y Hy. apply F. right. exact Hy.
Qed.
Theorem C95_values : forall g, exists L : list V3, forall eps uv p, px uv <= 1 - eps -> gbcSurfaceEval eps g uv = Some p -> In p L.
Proof.
  intros g. destruct C95_distances as [L H]. destruct (choices V2 (map (fun h => mkV2 h h) L) (gb_n g)) as [LL HL].
  exists (flat_map (fun sds => match gbcEval g sds with Some p => [p] | None => [] end) LL). intros eps uv p Hr E. unfold gbcSurfaceEval in E.
  destruct (mapM (fun i => circularMap eps (gb_n g) i uv) (seq 0 (gb_n g))) as [sds|] eqn:M; [|discriminate]. cbn [bind] in E. apply in_flat_map. exists sds. split; [|rewrite E; left; reflexivity].
  pose proof (mapM_length _ _ _ M) as Len. rewrite seq_length in Len. apply HL; [exact Len|]. intros sd Hsd. apply In_nth_error in Hsd. destruct Hsd as (i & Hi).
  assert (Li : (i < gb_n g)%nat) by (rewrite <- Len; apply nth_error_Some; congruence).
  pose proof (Base.mapM_nth _ _ _ i i M ltac:(rewrite (nth_error_nth' _ 0%nat) by (rewrite seq_length; exact Li); rewrite seq_nth by exact Li; reflexivity)) as Q. rewrite Hi in Q. symmetry in Q.
  destruct (H eps _ i uv sd Hr Q) as (h & -> & Hh). apply (in_map (fun h => mkV2 h h)). exact Hh.
Qed.
Print Assumptions C95_values.

(** ** Jumps *)
Lemma apart_values : forall (L : list R) l, exists e, 0 < e /\ forall x, In x L -> R_dist x l < e -> x = l.
Proof.
  induction L as [|x L IH]; intros l; [exists 1; split; [lra|intros ? []]|]. destruct (IH l) as (e & E & H). destruct (Req_EM_T x l) as [->|N].
  - exists e. split; [exact E|]. intros y [<-|Hy] D; [reflexivity|apply H; assumption].
  - exists (Rmin e (R_dist x l)). assert (0 < R_dist x l) by (apply Rabs_pos_lt; lra). split; [apply Rmin_pos; assumption|]. intros y [<-|Hy] D; [pose proof (Rmin_r e (R_dist x l)); lra|].
    apply H; [exact Hy|]. pose proof (Rmin_l e (R_dist x l)). lra.
Qed.
Lemma settles : forall (L : list R) u l, eventually (fun k => In (u k) L) -> Un_cv u l -> eventually (fun k => u k = l).
Proof.
  intros L u l [N HN] C. destruct (apart_values L l) as (e & E & H). destruct (C e E) as [M HM]. exists (Nat.max N M). intros k Hk. apply H; [apply HN; lia|apply HM; lia].
Qed.

(** The values of [C]-convergent sequences with finitely many values. *)
Definition discrete {T : Type} (C : (nat -> T) -> T -> Prop) : Prop := forall (L : list T) u l, eventually (fun k => In (u k) L) -> C u l -> eventually (fun k => u k = l).
Lemma discrete2 : discrete cv2.
Proof.
  intros L u l H [C1 C2]. pose proof (settles (map px L) _ _ (ev_mono _ _ (fun k => in_map px L (u k)) H) C1) as E1. pose proof (settles (map py L) _ _ (ev_mono _ _ (fun k => in_map py L (u k)) H) C2) as E2.
  refine (ev_mono _ _ _ (ev_and _ _ E1 E2)). intros k [? ?]. apply V2_ext; assumption.
Qed.
Lemma discrete3 : discrete cv3.
Proof.
  intros L u l H (C1 & C2 & C3). pose proof (settles (map vx L) _ _ (ev_mono _ _ (fun k => in_map vx L (u k)) H) C1) as E1. pose proof (settles (map vy L) _ _ (ev_mono _ _ (fun k => in_map vy L (u k)) H) C2) as E2.
  pose proof (settles (map vz L) _ _ (ev_mono _ _ (fun k => in_map vz L (u k)) H) C3) as E3. refine (ev_mono _ _ _ (ev_and _ _ E1 (ev_and _ _ E2 E3))). intros k (? & ? & ?). apply V3_ext; assumption.
Qed.
Lemma dec2 : forall x y : V2, {x = y} + {x <> y}.
Proof. intros [a b] [c d]. destruct (Req_EM_T a c) as [->|N]; [destruct (Req_EM_T b d) as [->|N]; [left; reflexivity|]|]; right; congruence. Qed.
Lemma dec3 : forall x y : V3, {x = y} + {x <> y}.
Proof. intros [a b e] [c d f]. destruct (Req_EM_T a c) as [->|N]; [destruct (Req_EM_T b d) as [->|N]; [destruct (Req_EM_T e f) as [->|N]; [left; reflexivity|]|]|]; right; congruence. Qed.
Lemma decO : forall T, (forall x y : T, {x = y} + {x <> y}) -> forall x y : option T, {x = y} + {x <> y}.
Proof. intros T D [x|] [y|]; [destruct (D x y) as [->|N]; [left; reflexivity|right; congruence]|right; discriminate|right; discriminate|left; reflexivity]. Qed.

Lemma cv_between : forall a b u t, Un_cv u t -> cv2 (fun k => between a b (u k)) (between a b t).
Proof. intros a b u t H. unfold between. apply cv2_add; [apply cv2_const|apply cv2_scale; [apply cv2_const|exact H]]. Qed.

Lemma jump : forall T (C : (nat -> T) -> T -> Prop) f L a b, discrete C -> (forall x y : T, {x = y} + {x <> y}) ->
  (forall t p, 0 <= t <= 1 -> f (between a b t) = Some p -> In p L) -> f a <> f b -> exists t, 0 <= t <= 1 /\ ~ steady_at C f (between a b t).
Proof.
  intros T C f L a b Dc De F N. set (P := fun t => if decO T De (f (between a b t)) (f b) then true else false).
  assert (B0 : between a b 0 = a) by (unfold between; apply V2_ext; simpl; ring). assert (B1 : between a b 1 = b) by (unfold between; apply V2_ext; simpl; ring).
  assert (P0 : P 0 = false) by (unfold P; rewrite B0; destruct (decO T De (f a) (f b)); [contradiction|reflexivity]).
  assert (P1 : P 1 = true) by (unfold P; rewrite B1; destruct (decO T De (f b) (f b)); [reflexivity|contradiction]).
  destruct (dicho_lb_cv 0 1 P Rle_0_1) as [l1 C1]. destruct (dicho_up_cv 0 1 P Rle_0_1) as [l2 C2]. pose proof (cv_dicho 0 1 l1 l2 P Rle_0_1 C1 C2) as E. subst l2.
  assert (In1 : forall k, 0 <= dicho_lb 0 1 P k <= 1 /\ 0 <= dicho_up 0 1 P k <= 1).
  { unfold dicho_lb, dicho_up. induction k as [|k [[A1 A2] [A3 A4]]]; [cbn [Dichotomy_lb Dichotomy_ub]; repeat split; lra|]. cbn [Dichotomy_lb Dichotomy_ub]. destruct (P (_ / 2)); repeat split; lra. }
  exists l1. split.
  { split; [apply (@Rle_cv_lim (fun _ => 0) (dicho_lb 0 1 P) 0 l1); [intros k; apply In1|apply cv_const|exact C1]|apply (@Rle_cv_lim (dicho_lb 0 1 P) (fun _ => 1) l1 1); [intros k; apply In1|exact C1|apply cv_const]]. }
  intros (y & Ey & H).
  assert (S : forall u, (forall k, 0 <= u k <= 1) -> Un_cv u l1 -> eventually (fun k => f (between a b (u k)) = Some y)).
  { intros u U Cu. destruct (H _ (cv_between a b u l1 Cu)) as (v & V1 & V2). pose proof (Dc L v y (ev_mono _ _ (fun k Q => F (u k) (v k) (U k) Q) V1) V2) as V3.
    refine (ev_mono _ _ _ (ev_and _ _ V1 V3)). intros k [-> ->]. reflexivity. }
  destruct (S _ (fun k => proj1 (In1 k)) C1) as [n1 S1]. destruct (S _ (fun k => proj2 (In1 k)) C2) as [n2 S2]. specialize (S1 n1 (Nat.le_refl _)). specialize (S2 n2 (Nat.le_refl _)).
  pose proof (dicho_lb_car 0 1 P n1 P0) as Q1. pose proof (dicho_up_car 0 1 P n2 P1) as Q2. unfold P in Q1 at 1. unfold P in Q2 at 1. rewrite S1 in Q1. rewrite S2 in Q2.
  destruct (decO T De (Some y) (f b)); discriminate.
Qed.

(** Wherever the distance, or the patch, has two values inside the disk, it
    jumps on the way from one point to the other. *)
Theorem C95_distance_jumps : forall eps n i a b, px a <= 1 - eps -> px b <= 1 - eps -> circularMap eps n i a <> circularMap eps n i b ->
  exists t, 0 <= t <= 1 /\ ~ steady_at cv2 (circularMap eps n i) (between a b t).
Proof.
  intros eps n i a b Ha Hb N. destruct C95_distances as [L H]. apply (jump V2 cv2 _ (map (fun h => mkV2 h h) L) a b discrete2 dec2); [|exact N]. intros t p Ht E.
  destruct (H eps n i (between a b t) p) as (h & -> & Hh); [|exact E|apply (in_map (fun h => mkV2 h h)); exact Hh]. unfold between. cbn [padd psub pscale px py]. nra.
Qed.
Print Assumptions C95_distance_jumps.
Theorem C95_patch_jumps : forall eps g a b, px a <= 1 - eps -> px b <= 1 - eps -> gbcSurfaceEval eps g a <> gbcSurfaceEval eps g b ->
  exists t, 0 <= t <= 1 /\ ~ continuous_at (gbcSurfaceEval eps g) (between a b t).
Proof.
  intros eps g a b Ha Hb N. destruct (C95_values g) as [L H]. apply (jump V3 cv3 _ L a b discrete3 dec3); [|exact N]. intros t p Ht E. apply (H eps (between a b t) p); [|exact E]. unfold between. cbn [padd psub pscale px py]. nra.
Qed.
Print Assumptions C95_patch_jumps.

(** ** The size of the steps *)

(** In the half of the disk beyond the middle, seen from the side, the distances
    are on a grid whose width is of the order of the tolerance. *)
Lemma loop_grid : forall eps f lo m steps xl xh xm, 0 < lo -> lo <= xl < xh -> xm = xl \/ xm = xh -> (m < steps)%nat -> (xh - xl) / 2 ^ m < 2 * (eps * lo) ->
  exists k : nat, bisectLoop eps f xl xh xm steps = xl + (xh - xl) * INR k / 2 ^ S m /\ (k <= 2 ^ S m)%nat.
Proof.
  intros eps f lo m. induction m as [|m IH]; intros steps xl xh xm Hlo Hx Hm Hs Hw; (destruct steps as [|steps]; [lia|]); cbn [bisectLoop]; set (c := (xl + xh) / 2) in *; assert (Hc : xl < c < xh) by (unfold c; lra).
  - assert (E : c = xl + (xh - xl) * INR 1 / 2 ^ 1) by (unfold c; simpl; field).
    destruct (Req_EM_T c 0) as [Z|Z]; [lra|]. destruct (Rlt_dec (Rabs ((c - xm) / c)) eps) as [L|L]; [exists 1%nat; split; [exact E|simpl; lia]|]. exfalso. apply L. unfold Rdiv. rewrite Rabs_mult, (Rabs_right (/ c)) by (left; apply Rinv_0_lt_compat; lra).
    apply (Rmult_lt_reg_r c); [lra|]. rewrite Rmult_assoc, Rinv_l, Rmult_1_r by exact Z. cbn [pow] in Hw. assert (Ae : Rabs (c - xm) = (xh - xl) / 2) by (destruct Hm as [->| ->]; [rewrite Rabs_right by lra|rewrite Rabs_left by lra]; unfold c; field).
    rewrite Ae. assert (0 < eps) by nra. assert (eps * lo <= eps * c) by (apply Rmult_le_compat_l; lra). lra.
  - assert (P : 0 < 2 ^ m) by (apply pow_lt; lra). assert (E : c = xl + (xh - xl) * INR (2 ^ S m) / 2 ^ S (S m)) by (unfold c; rewrite pow_INR; change (INR 2) with 2; cbn [pow]; field; lra).
    assert (M : exists k : nat, c = xl + (xh - xl) * INR k / 2 ^ S (S m) /\ (k <= 2 ^ S (S m))%nat) by (exists (2 ^ S m)%nat; split; [exact E|apply Nat.pow_le_mono_r; lia]).
    assert (H2 : forall w, w = (xh - xl) / 2 -> w / 2 ^ m < 2 * (eps * lo)) by (intros w ->; cbn [pow] in Hw; replace ((xh - xl) / 2 / 2 ^ m) with ((xh - xl) / (2 * 2 ^ m)) by (field; lra); exact Hw).
    match goal with |- context [if ?b then c else _] => destruct b end; [exact M|]. destruct (f xl) as [a|]; [|exact M]. destruct (f c) as [b|]; [|exact M].
    destruct (Rlt_dec (a * b) 0); [|destruct (Rlt_dec 0 (a * b)); [|exact M]].
    + destruct (IH steps xl c c Hlo ltac:(lra) (or_intror eq_refl) ltac:(lia) ltac:(apply H2; unfold c; field)) as (k & -> & K). exists k. split; [unfold c; cbn [pow]; field; lra|]. cbn [Nat.pow] in *. lia.
    + destruct (IH steps c xh c Hlo ltac:(lra) (or_introl eq_refl) ltac:(lia) ltac:(apply H2; unfold c; field)) as (k & -> & K). exists (2 ^ S m + k)%nat. split; [|cbn [Nat.pow] in *; lia].
      rewrite plus_INR, pow_INR. change (INR 2) with 2. unfold c. cbn [pow]. field. lra.
Qed.
Theorem C95_grid : forall eps n i uv sd phi m, 0 < eps -> (m < 100)%nat -> 2 < eps * 2 ^ m -> px uv <= 1 - eps -> localPhi n i (py uv) = Some phi -> px uv * cos phi < 0 ->
  circularMap eps n i uv = Some sd -> exists k : nat, (k <= 2 ^ S m)%nat /\ py sd = 2 / 10 + 8 / 10 * INR k / 2 ^ S m.
Proof.
  intros eps n i uv sd phi m He Hm H2 Hr Ep Hx E. unfold circularMap in E. rewrite Ep in E. cbn [bind] in E. destruct (Rlt_dec (1 - eps) (px uv)) as [G|_]; [lra|]. cbv zeta in E. cbn [px] in E.
  destruct (Rlt_dec (px uv * cos phi) 0) as [_|G]; [|lra]. injection E as <-. cbn [py]. unfold bisect.
  assert (P : 0 < 2 ^ m) by (apply pow_lt; lra).
  destruct (loop_grid eps (deviation eps n (mkV2 (px uv * cos phi) (px uv * sin phi))) (2 / 10) m 100 (2 / 10) 1 (2 / 10) ltac:(lra) ltac:(lra) (or_introl eq_refl) Hm) as (k & -> & K).
  - apply (Rmult_lt_reg_r (2 ^ m)); [exact P|]. unfold Rdiv at 1. rewrite Rmult_assoc, Rinv_l, Rmult_1_r by lra. lra.
  - exists k. split; [exact K|]. replace (1 - 2 / 10) with (8 / 10) by field. reflexivity.
Qed.
Print Assumptions C95_grid.

(** ** Example: a patch with four sides and one control point off the origin *)
Lemma loop_strict : forall eps f steps xl xh xm, xl < xh -> (1 <= steps)%nat -> xl < bisectLoop eps f xl xh xm steps < xh.
Proof.
  intros eps f. induction steps as [|k IH]; intros xl xh xm H Hs; [lia|]. cbn [bisectLoop]. set (m := (xl + xh) / 2). assert (M : xl < m < xh) by (unfold m; lra).
  assert (A : forall a b, xl <= a -> a < b -> b <= xh -> (m = a \/ m = b) -> xl < bisectLoop eps f a b m k < xh).
  { intros a b Ha Hab Hb Hm. destruct k as [|k]; [exact M|]. pose proof (IH a b m Hab ltac:(lia)). lra. }
  match goal with |- context [if ?b then m else _] => destruct b end; [exact M|]. destruct (f xl) as [a|]; [|exact M]. destruct (f m) as [b|]; [|exact M].
  destruct (Rlt_dec (a * b) 0); [apply A; lra|]. destruct (Rlt_dec 0 (a * b)); [apply A; lra|exact M].
Qed.
Lemma bisect_unfold : forall eps f xl xh, bisect eps f xl xh = bisectLoop eps f xl xh xl (Datatypes.S 99).
Proof. reflexivity. Qed.
Lemma loop_first : forall k eps f a b, (1 <= k)%nat -> eps <= 1 -> f 0 = Some a -> f (4 / 10) = Some b -> 0 < a ->
  (0 < b -> 4 / 10 < bisectLoop eps f 0 (8 / 10) 0 (Datatypes.S k)) /\ (b < 0 -> bisectLoop eps f 0 (8 / 10) 0 (Datatypes.S k) < 4 / 10).
Proof.
  intros k eps f a b K He E0 E1 Ha. cbn [bisectLoop].
  replace ((0 + 8 / 10) / 2) with (4 / 10) by field. rewrite E0, E1. destruct (Req_EM_T (4 / 10) 0) as [Z|_]; [lra|].
  replace ((4 / 10 - 0) / (4 / 10)) with 1 by field. rewrite Rabs_R1. destruct (Rlt_dec 1 eps); [lra|]. split; intros Hb.
  - assert (P : 0 < a * b) by (apply Rmult_lt_0_compat; assumption). destruct (Rlt_dec (a * b) 0); [lra|]. destruct (Rlt_dec 0 (a * b)); [|lra]. apply loop_strict; [lra|exact K].
  - assert (P : 0 < a * - b) by (apply Rmult_lt_0_compat; lra). destruct (Rlt_dec (a * b) 0); [|lra]. apply loop_strict; [lra|exact K].
Qed.
Lemma first_step : forall eps f a b, eps <= 1 -> f 0 = Some a -> f (4 / 10) = Some b -> 0 < a -> (0 < b -> 4 / 10 < bisect eps f 0 (8 / 10)) /\ (b < 0 -> bisect eps f 0 (8 / 10) < 4 / 10).
Proof. intros eps f a b He E0 E1 Ha. rewrite bisect_unfold. assert (K : (1 <= 99)%nat) by lia. revert K. generalize 99%nat. intros k K. apply (loop_first k eps f a b K He E0 E1 Ha). Qed.

(** The circles for the distances 0 and 2/5 of a patch with four sides. *)
Lemma circle_0 : forall eps p, eps <= 1 / 2 -> py p * py p <= 1 -> deviation eps 4 p 0 = Some (sqrt (1 - py p * py p) - px p).
Proof.
  intros eps p He Hy. unfold deviation, hcircle. rewrite fdiv_some by (simpl; lra). cbn [bind]. replace ((2 * 0 + 1) * PI / INR 4) with (PI / 4) by (simpl; field).
  replace (0 * PI - PI / 4) with (- (PI / 4)) by ring. rewrite sin_neg, cos_neg. set (s := sin (PI / 4)) in *. assert (Cs : cos (PI / 4) = s) by (unfold s; rewrite sin_PI4, cos_PI4; reflexivity). rewrite Cs.
  assert (S2 : s * s = 1 / 2) by (unfold s; rewrite sin_PI4; replace (1 / sqrt 2 * (1 / sqrt 2)) with (/ (sqrt 2 * sqrt 2)) by (field; pose proof Rlt_sqrt2_0; lra); rewrite sqrt_sqrt by lra; field).
  assert (S0 : 0 < s) by (unfold s; apply sin_gt_0; pose proof PI_RGT_0; lra). assert (S1 : 1 / 2 < s) by nra. cbn [px py]. rewrite Rabs_Ropp, Rabs_right by lra. destruct (Rlt_dec s eps); [lra|].
  rewrite fdiv_some by lra. cbn [bind]. replace (s + s * s / - s) with 0 by (field; lra). cbn [px py].
  assert (N : pnorm (mkV2 0 0 -p mkV2 s s) = 1) by (unfold pnorm, pdot, psub; cbn [px py]; replace ((0 - s) * (0 - s) + (0 - s) * (0 - s)) with 1 by lra; apply sqrt_1). rewrite N.
  destruct (Req_EM_T 1 0); [lra|]. destruct (Rlt_dec (8 / 10) 0); [lra|]. unfold fsqrt. replace (1 * 1 - (py p - 0) * (py p - 0)) with (1 - py p * py p) by ring. destruct (Rlt_dec (1 - py p * py p) 0); [lra|]. cbn [bind]. cbv zeta.
  rewrite Rplus_0_l. destruct (Rlt_dec 1 (sqrt (1 - py p * py p))) as [G|_]; [|reflexivity]. exfalso. assert (sqrt (1 - py p * py p) <= sqrt 1) by (apply sqrt_le_1_alt; nra). rewrite sqrt_1 in *. lra.
Qed.
Lemma circle_4 : forall eps p, py p * py p <= 1 -> exists x, deviation eps 4 p (4 / 10) = Some (x - px p) /\ x < 4 / 10 /\ (py p = 0 -> 0 < x).
Proof.
  intros eps p Hy. unfold deviation, hcircle. rewrite fdiv_some by (simpl; lra). cbn [bind]. replace ((2 * (4 / 10) + 1) * PI / INR 4) with (PI / 2 - PI / 20) by (simpl; field).
  replace (4 / 10 * PI - (PI / 2 - PI / 20)) with (- (PI / 20)) by field. rewrite sin_neg, cos_neg, cos_shift, sin_shift. set (s := sin (PI / 20)). set (c := cos (PI / 20)).
  pose proof PI_RGT_0 as Pi. pose proof PI_4 as P4.
  assert (S0 : 0 < s) by (apply sin_gt_0; lra). assert (C0 : 0 < c) by (apply cos_gt_0; lra). assert (SC : s * s + c * c = 1) by (unfold s, c; pose proof (sin2_cos2 (PI / 20)) as Q; unfold Rsqr in Q; exact Q).
  assert (C1 : c < 1) by nra.
  assert (S5 : s < 2 / 10) by (pose proof (sin_lt_x (PI / 20) ltac:(lra)) as Q; fold s in Q; lra). clearbody s c. cbn [px py]. rewrite Rabs_Ropp, Rabs_right by lra. destruct (Rlt_dec s eps) as [_|_].
  - cbn [bind]. destruct (Req_EM_T 0 0) as [_|Z]; [|lra]. exists s. cbn [px]. split; [reflexivity|]. split; lra.
  - rewrite fdiv_some by lra. cbn [bind]. set (a := s + c * c / - s). assert (Ea : a = s - c * c / s) by (unfold a; field; lra).
    assert (K : 0 < c / s) by (apply Rdiv_lt_0_compat; assumption).
    assert (N : pnorm (mkV2 a 0 -p mkV2 s c) = c / s).
    { unfold pnorm, pdot, psub. cbn [px py]. rewrite Ea. replace ((s - c * c / s - s) * (s - c * c / s - s) + (0 - c) * (0 - c)) with (Rsqr (c / s)); [apply sqrt_Rsqr; lra|].
      unfold Rsqr. replace ((s - c * c / s - s) * (s - c * c / s - s) + (0 - c) * (0 - c)) with ((s * s + c * c) * (c / s * (c / s))) by (field; lra). rewrite SC. ring. }
    rewrite N. destruct (Req_EM_T (c / s) 0); [lra|]. destruct (Rlt_dec (8 / 10) (4 / 10)); [lra|]. cbn [px py]. unfold fsqrt. replace ((py p - 0) * (py p - 0)) with (py p * py p) by ring.
    assert (K2 : 1 <= c / s) by (apply (Rmult_le_reg_r s); [lra|]; unfold Rdiv; rewrite Rmult_assoc, Rinv_l by lra; nra).
    destruct (Rlt_dec (c / s * (c / s) - py p * py p) 0); [nra|]. cbn [bind]. cbv zeta. set (D := sqrt (c / s * (c / s) - py p * py p)).
    assert (HD : D <= c / s) by (unfold D; rewrite <- (sqrt_Rsqr (c / s)) at 3 by lra; apply sqrt_le_1_alt; unfold Rsqr; nra).
    assert (Hx : a + D < 4 / 10).
    { assert (Q : c / s - c * c / s <= s). { replace (c / s - c * c / s) with (c * (1 - c) / s) by (field; lra). apply (Rmult_le_reg_r s); [lra|]. unfold Rdiv. rewrite Rmult_assoc, Rinv_l by lra. nra. } lra. }
    destruct (Rlt_dec 1 (a + D)); [lra|]. exists (a + D). split; [reflexivity|]. split; [exact Hx|]. intros Y.
    assert (ED : D = c / s) by (unfold D; rewrite Y, Rmult_0_l, Rminus_0_r; change (c / s * (c / s)) with (Rsqr (c / s)); apply sqrt_Rsqr; lra).
    rewrite ED, Ea. replace (s - c * c / s + c / s) with (s + c * (1 - c) * / s) by (field; lra). assert (0 < c * (1 - c) * / s) by (apply Rmult_lt_0_compat; [nra|apply Rinv_0_lt_compat; lra]). lra.
Qed.
Lemma inner_step : forall eps p, 0 < eps <= 1 / 4 -> px p * px p + py p * py p < 1 ->
  (p = pzero -> 4 / 10 < bisect eps (deviation eps 4 p) 0 (8 / 10)) /\ (4 / 10 <= px p -> bisect eps (deviation eps 4 p) 0 (8 / 10) < 4 / 10).
Proof.
  intros eps p He Hp. assert (Y : py p * py p <= 1) by nra. destruct (circle_4 eps p Y) as (x & E4 & X1 & X2). pose proof (circle_0 eps p ltac:(lra) Y) as E0.
  assert (A : 0 <= px p -> 0 < sqrt (1 - py p * py p) - px p). { intros H. assert (Q : sqrt (Rsqr (px p)) < sqrt (1 - py p * py p)) by (apply sqrt_lt_1_alt; unfold Rsqr; nra). rewrite sqrt_Rsqr in Q by exact H. lra. }
  split.
  - intros ->. cbn [pzero px py] in *. apply (first_step eps _ _ _ ltac:(lra) E0 E4 ltac:(apply A; lra)). specialize (X2 eq_refl). lra.
  - intros H. apply (first_step eps _ _ _ ltac:(lra) E0 E4 ltac:(apply A; lra)). lra.
Qed.
Lemma circular_inner : forall eps n i uv phi, px uv <= 1 - eps -> localPhi n i (py uv) = Some phi -> 0 <= px uv * cos phi ->
  let h := bisect eps (deviation eps n (mkV2 (px uv * cos phi) (px uv * sin phi))) 0 (8 / 10) in circularMap eps n i uv = Some (mkV2 h h).
Proof.
  intros eps n i uv phi Hr E Hx h. unfold circularMap. rewrite E. cbn [bind]. destruct (Rlt_dec (1 - eps) (px uv)); [lra|]. cbv zeta. cbn [px]. destruct (Rlt_dec (px uv * cos phi) 0); [lra|]. reflexivity.
Qed.
Lemma from_middle : forall eps i phi, 0 < eps <= 1 / 4 -> exists h, circularMap eps 4 i (mkV2 0 phi) = Some (mkV2 h h) /\ 4 / 10 < h <= 1.
Proof.
  intros eps i phi He. assert (L : exists a, localPhi 4 i phi = Some a) by (unfold localPhi; rewrite fdiv_some by (simpl; lra); eexists; reflexivity). destruct L as [a La].
  pose proof (circular_inner eps 4 i (mkV2 0 phi) a ltac:(cbn [px]; lra) La ltac:(cbn [px]; lra)) as E. cbv zeta in E. cbn [px] in E. rewrite !Rmult_0_l in E.
  eexists. split; [exact E|]. change (mkV2 0 0) with pzero. split.
  - apply (inner_step eps pzero He); [cbn [pzero px py]; lra|reflexivity].
  - pose proof (ParamCircular.bisect_range eps (deviation eps 4 pzero) 0 (8 / 10) ltac:(lra)). lra.
Qed.
Lemma cos_eighth : (3 / 4 * cos (PI / 4)) * (3 / 4 * cos (PI / 4)) = 9 / 32 /\ 0 < cos (PI / 4).
Proof.
  pose proof Rlt_sqrt2_0. rewrite cos_PI4. split; [|apply Rdiv_lt_0_compat; lra]. replace (3 / 4 * (1 / sqrt 2) * (3 / 4 * (1 / sqrt 2))) with (9 / 16 / (sqrt 2 * sqrt 2)) by (field; lra). rewrite sqrt_sqrt by lra. field.
Qed.
Lemma from_corner : forall eps i, 0 < eps <= 1 / 4 -> (i < 2)%nat -> exists h, circularMap eps 4 i (mkV2 (3 / 4) (PI / 2)) = Some (mkV2 h h) /\ 0 <= h < 4 / 10.
Proof.
  intros eps i He Hi. pose proof PI_RGT_0 as Pi. destruct cos_eighth as [C2 C0].
  assert (L : exists a, localPhi 4 i (PI / 2) = Some a /\ cos a = cos (PI / 4) /\ sin a * sin a = cos (PI / 4) * cos (PI / 4)).
  { unfold localPhi. rewrite fdiv_some by (simpl; lra). cbn [bind]. assert (SC : sin (PI / 4) = cos (PI / 4)) by (rewrite sin_PI4, cos_PI4; reflexivity). destruct i as [|[|i]]; [| |lia]; eexists; (split; [reflexivity|]).
    - replace (PI / 2 + (3 - (INR 0 * 2 + 1) / INR 4) * PI) with (PI / 4 + 3 * PI) by (simpl; field). rewrite (ParamCircular.fmod_wrap (PI / 4) 0) by lra. rewrite Rmult_0_r, Rminus_0_r, SC. split; reflexivity.
    - replace (PI / 2 + (3 - (INR 1 * 2 + 1) / INR 4) * PI) with (- (PI / 4) + 3 * PI) by (simpl; field). rewrite (ParamCircular.fmod_wrap (- (PI / 4)) 0) by lra. rewrite Rmult_0_r, Rminus_0_r, cos_neg, sin_neg, SC. split; [reflexivity|ring]. }
  destruct L as (a & La & Ca & Sa). pose proof (circular_inner eps 4 i (mkV2 (3 / 4) (PI / 2)) a ltac:(cbn [px]; lra) La ltac:(cbn [px]; lra)) as E. cbv zeta in E. cbn [px] in E.
  eexists. split; [exact E|]. split.
  - apply (ParamCircular.bisect_range eps _ 0 (8 / 10) ltac:(lra)).
  - apply (inner_step eps _ He); cbn [px py]; rewrite Ca; nra.
Qed.

(** For every tolerance up to 1/4: between the middle of the disk and a point
    towards the corner of the control point the patch jumps. *)
Definition one_corner : gbsurf := mkGB 4 1 1 vzero [[[vzero]; [mkV3 0 0 1]]; [[vzero]; [vzero]]; [[vzero]; [vzero]]; [[vzero]; [vzero]]] false 0.
Lemma one_value : forall a b c d, gbcEval one_corner [mkV2 a a; mkV2 b b; mkV2 c c; mkV2 d d] = Some (mkV3 0 0 ((1 - a) * (1 - b))).
Proof. intros. cbv -[Rplus Rmult Rminus Ropp Rinv Rdiv IZR]. apply (f_equal Some). apply V3_ext; simpl; ring. Qed.
Example C95_example : forall eps, 0 < eps <= 1 / 4 -> shaped 4 1 one_corner /\
  exists t, 0 <= t <= 1 /\ ~ continuous_at (gbcSurfaceEval eps one_corner) (between (mkV2 0 (PI / 2)) (mkV2 (3 / 4) (PI / 2)) t).
Proof.
  intros eps He. split; [split; [reflexivity|split; [reflexivity|split; [reflexivity|split; [reflexivity|]]]]; intros x Hx; cbn [one_corner gb_nets In] in Hx; repeat (destruct Hx as [<-|Hx]; [split; [reflexivity|intros y Hy; cbn [In] in Hy; repeat (destruct Hy as [<-|Hy]; [reflexivity|]); contradiction]|]); contradiction|].
  apply C95_patch_jumps; [cbn [px]; lra|cbn [px]; lra|].
  assert (V : forall uv, exists h0 h1, circularMap eps 4 0 uv = Some (mkV2 h0 h0) /\ circularMap eps 4 1 uv = Some (mkV2 h1 h1) /\ gbcSurfaceEval eps one_corner uv = Some (mkV3 0 0 ((1 - h0) * (1 - h1)))).
  { intros uv. destruct (ParamCircular.circular_range eps 4 0 uv ltac:(lia)) as (h0 & E0 & _). destruct (ParamCircular.circular_range eps 4 1 uv ltac:(lia)) as (h1 & E1 & _).
    destruct (ParamCircular.circular_range eps 4 2 uv ltac:(lia)) as (h2 & E2 & _). destruct (ParamCircular.circular_range eps 4 3 uv ltac:(lia)) as (h3 & E3 & _). exists h0, h1. split; [exact E0|]. split; [exact E1|].
    unfold gbcSurfaceEval. change (gb_n one_corner) with 4%nat. cbn [seq mapM]. rewrite E0, E1, E2, E3. cbn [bind]. apply one_value. }
  destruct (V (mkV2 0 (PI / 2))) as (a0 & a1 & A0 & A1 & ->). destruct (V (mkV2 (3 / 4) (PI / 2))) as (b0 & b1 & B0 & B1 & ->). intros Q.
  destruct (from_middle eps 0 (PI / 2) He) as (x0 & X0 & ?). destruct (from_middle eps 1 (PI / 2) He) as (x1 & X1 & ?). destruct (from_corner eps 0 He ltac:(lia)) as (y0 & Y0 & ?). destruct (from_corner eps 1 He ltac:(lia)) as (y1 & Y1 & ?).
  assert (a0 = x0) by congruence. assert (a1 = x1) by congruence. assert (b0 = y0) by congruence. assert (b1 = y1) by congruence. subst. injection Q as Q. nra.
Qed.
