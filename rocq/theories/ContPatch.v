(** Continuity of the parameterizations and of the patches in their ribbon
    coordinates. *)
From Verif Require Import Base MeshModel DomainModel UtilModel UtilSpec UtilProofs ParamModel RibbonModel SurfaceModel SurfaceEval GBModel HybridModel SPatchModel ContSpec ContProofs.
Open Scope R_scope.

(** ** Parameterizations *)
Lemma ocv_toLocal : forall d i v l, cv2 v l -> ocv cv2 (fun k => toLocal d i (v k)) (toLocal d i l).
Proof.
  intros d i v l H. unfold toLocal. destruct (nth_error (d_du d) i) as [du|]; [|apply ocv_none]. destruct (nth_error (d_dv d) i) as [dv|]; [|apply ocv_none]. cbn [bind].
  apply (ocv_pdiv (fun k => mkV2 (pdot (v k) du) (pdot (v k) dv)) (fun _ => pnorm2 du)); [|apply cv_const].
  apply cv2_mk; apply cv2_dot; try exact H; apply cv2_const.
Qed.
Lemma cv_cross2 : forall u v l m, cv2 u l -> cv2 v m -> Un_cv (fun k => (px (u k) * py (v k) - py (u k) * px (v k)) / 2) ((px l * py m - py l * px m) / 2).
Proof. intros u v l m [A B] [C D]. apply cv_div; [|apply cv_const|lra]. apply CV_minus; apply CV_mult; assumption. Qed.
Lemma ocv_areas : forall u l, cvL cv2 u l -> ocv (cvL Un_cv) (fun k => baryAreas (u k)) (baryAreas l).
Proof.
  intros u l H. unfold baryAreas. apply (ocv_ev _ _ (fun k => mapM (fun i => si <- nth_error (u k) i ;; si1 <- nth_error (u k) (nxt (length l) i) ;;
    Some ((px si * py si1 - py si * px si1) / 2)) (seq 0 (length l)))); [apply ev_all; intros k; rewrite (proj1 H k); reflexivity|].
  apply ocv_mapM_seq. intros i _. apply (ocv_bind cv2); [apply ocv_nth; exact H|]. intros a a0 _ A. apply (ocv_bind cv2); [apply ocv_nth; exact H|]. intros b b0 _ B.
  apply (ocv_some _ (fun k => (px (a k) * py (b k) - py (a k) * px (b k)) / 2)). apply cv_cross2; assumption.
Qed.
Definition cvT (u : nat -> R * R * R) (l : R * R * R) : Prop :=
  Un_cv (fun k => fst (fst (u k))) (fst (fst l)) /\ Un_cv (fun k => snd (fst (u k))) (snd (fst l)) /\ Un_cv (fun k => snd (u k)) (snd l).
Lemma ocv_products : forall n i u l, cvL Un_cv u l -> ocv cvT (fun k => baryProducts n i (u k)) (baryProducts n i l).
Proof.
  intros n i u l H. unfold baryProducts.
  apply (ocv_foldM _ _ cvT (fun k st j => let '(Ai, Ai_1, Ai_1i) := st in a <- nth_error (u k) j ;;
    Some (if (j =? i)%nat then (Ai, Ai_1 * a, Ai_1i) else if (j =? prv n i)%nat then (Ai * a, Ai_1, Ai_1i) else (Ai * a, Ai_1 * a, Ai_1i * a))) _ (seq 0 n) (fun _ => (1, 1, 1))).
  - split; [|split]; apply cv_const.
  - intros j v x _ (A & B & C). destruct x as [[x y] z]. cbn [fst snd] in A, B, C.
    apply (ocv_ev _ _ (fun k => a <- nth_error (u k) j ;; Some (if (j =? i)%nat then (fst (fst (v k)), snd (fst (v k)) * a, snd (v k))
      else if (j =? prv n i)%nat then (fst (fst (v k)) * a, snd (fst (v k)), snd (v k)) else (fst (fst (v k)) * a, snd (fst (v k)) * a, snd (v k) * a)))).
    { apply ev_all. intros k. destruct (v k) as [[? ?] ?]. reflexivity. }
    apply (ocv_bind Un_cv); [apply ocv_nth; exact H|]. intros a a0 _ Ha.
    apply (ocv_some cvT (fun k => if (j =? i)%nat then (fst (fst (v k)), snd (fst (v k)) * a k, snd (v k))
      else if (j =? prv n i)%nat then (fst (fst (v k)) * a k, snd (fst (v k)), snd (v k)) else (fst (fst (v k)) * a k, snd (fst (v k)) * a k, snd (v k) * a k))).
    destruct (j =? i)%nat; [|destruct (j =? prv n i)%nat]; (split; [|split]); cbn [fst snd]; repeat (assumption || apply CV_mult).
Qed.
Lemma cv_radius : forall t u l, cv2 u l -> Un_cv (fun k => baryRadius t (u k)) (baryRadius t l).
Proof.
  intros t u l H. assert (D : Un_cv (fun k => pdot (u k) (u k)) (pdot l l)) by (apply cv2_dot; exact H). destruct t; unfold baryRadius, pnorm, pnorm2; [apply cv_const| |exact D].
  apply cv_sqrt; [exact D|]. unfold pdot. nra.
Qed.
Definition cvS (u : nat -> R + unit) (s : R + unit) : Prop :=
  match s with inl x => exists v, eventually (fun k => u k = inl (v k)) /\ Un_cv v x | inr _ => eventually (fun k => u k = inr tt) end.
Lemma ocv_weight : forall t eps u a l b i, cvL cv2 u l -> cvL Un_cv a b -> (forall j x, nth_error l j = Some x -> baryRadius t x <> eps) ->
  ocv cvS (fun k => baryWeight t eps (u k) (a k) i) (baryWeight t eps l b i).
Proof.
  intros t eps u a l b i H G N. unfold baryWeight. set (n := length l).
  apply (ocv_ev _ _ (fun k => ' (Ai, Ai_1, Ai_1i) <- baryProducts n i (a k) ;; si_1 <- nth_error (u k) (prv n i) ;; si <- nth_error (u k) i ;; si1 <- nth_error (u k) (nxt n i) ;;
    Some (if Rlt_dec (baryRadius t si) eps then inr tt else inl (baryRadius t si_1 * Ai_1 + baryRadius t si1 * Ai - baryRadius t si * ((px si_1 * py si1 - py si_1 * px si1) / 2) * Ai_1i)))).
  { apply ev_all. intros k. rewrite (proj1 H k). fold n. reflexivity. }
  apply (ocv_bind cvT); [apply ocv_products; exact G|]. intros v x _ (A & B & C). destruct x as [[x y] z]. cbn [fst snd] in A, B, C.
  apply (ocv_ev _ _ (fun k => si_1 <- nth_error (u k) (prv n i) ;; si <- nth_error (u k) i ;; si1 <- nth_error (u k) (nxt n i) ;;
    Some (if Rlt_dec (baryRadius t si) eps then inr tt else inl (baryRadius t si_1 * snd (fst (v k)) + baryRadius t si1 * fst (fst (v k)) - baryRadius t si * ((px si_1 * py si1 - py si_1 * px si1) / 2) * snd (v k))))).
  { apply ev_all. intros k. destruct (v k) as [[? ?] ?]. reflexivity. }
  apply (ocv_bind cv2); [apply ocv_nth; exact H|]. intros s1 m1 _ S1. apply (ocv_bind cv2); [apply ocv_nth; exact H|]. intros s2 m2 E2 S2. apply (ocv_bind cv2); [apply ocv_nth; exact H|]. intros s3 m3 _ S3.
  cbn [bind]. match goal with |- ocv cvS (fun k => Some (@?f k)) (Some ?y) => apply (ocv_some cvS f y) end. specialize (N i m2 E2).
  pose proof (cv_radius t _ _ S2) as R2. destruct (Rlt_dec (baryRadius t m2) eps) as [L|L]; cbn.
  - apply (ev_mono (fun k => baryRadius t (s2 k) < eps)); [|apply (ev_lt _ _ _ R2 L)]. intros k K. destruct (Rlt_dec (baryRadius t (s2 k)) eps); [reflexivity|contradiction].
  - exists (fun k => baryRadius t (s1 k) * snd (fst (v k)) + baryRadius t (s3 k) * fst (fst (v k)) - baryRadius t (s2 k) * ((px (s1 k) * py (s3 k) - py (s1 k) * px (s3 k)) / 2) * snd (v k)). split.
    + apply (ev_mono (fun k => eps < baryRadius t (s2 k))); [|apply (ev_gt _ _ _ R2); lra]. intros k K. destruct (Rlt_dec (baryRadius t (s2 k)) eps); [lra|reflexivity].
    + apply CV_minus; [apply CV_plus; apply CV_mult; try assumption; apply cv_radius; assumption|]. apply CV_mult; [|exact C]. apply CV_mult; [exact R2|]. apply cv_cross2; assumption.
Qed.
Lemma ocv_loop : forall t eps u a l b is, cvL cv2 u l -> cvL Un_cv a b -> (forall j x, nth_error l j = Some x -> baryRadius t x <> eps) ->
  forall v m, cvL Un_cv v m -> ocv (cvL Un_cv) (fun k => baryLoop t eps (u k) (a k) (v k) is) (baryLoop t eps l b m is).
Proof.
  intros t eps u a l b is H G N. induction is as [|i is IH]; intros v m V; cbn [baryLoop]; [apply ocv_some; exact V|].
  apply (ocv_bind cvS); [apply ocv_weight; assumption|]. intros w x _ W. destruct x as [x|[]]; cbn in W.
  - destruct W as (y & E & Y). apply (ocv_ev _ _ (fun k => baryLoop t eps (u k) (a k) (v k ++ [y k]) is)).
    + apply (ev_mono _ _ (fun k (Q : w k = inl (y k)) => f_equal (fun z => match z with inl x => baryLoop t eps (u k) (a k) (v k ++ [x]) is | inr _ => upd (repeat 0 (length (u k))) i 1 end) Q)). exact E.
    + apply IH. apply cvL_app; [exact V|]. apply (cvL_cons _ y (fun _ => [])); [exact Y|apply cvL_nil].
  - apply (ocv_ev _ _ (fun _ => upd (repeat 0 (length l)) i 1)); [|apply ocv_const; intros z; apply cvL_const; apply cv_const].
    apply (ev_mono (fun k => w k = inr tt)); [|exact W]. intros k ->. rewrite (proj1 H k). reflexivity.
Qed.
Lemma ocv_barycentric : forall t eps d q p, cv2 q p -> (forall v, In v (d_verts d) -> baryRadius t (p -p v) <> eps) ->
  ocv (cvL Un_cv) (fun k => barycentric t eps d (q k)) (barycentric t eps d p).
Proof.
  intros t eps d q p H N. unfold barycentric.
  assert (V : cvL cv2 (fun k => map (fun v => q k -p v) (d_verts d)) (map (fun v => p -p v) (d_verts d))).
  { apply (cvL_map _ _ cv2 cv2 (fun k v => q k -p v) (fun v => p -p v) (fun _ => d_verts d)); [apply cvL_const; apply cv2_const|]. intros i v x _ X. apply cv2_sub; assumption. }
  assert (M : forall j x, nth_error (map (fun v => p -p v) (d_verts d)) j = Some x -> baryRadius t x <> eps).
  { intros j x X. rewrite nth_error_map in X. destruct (nth_error (d_verts d) j) as [v|] eqn:Ev; [|discriminate]. cbn in X. injection X as <-. apply N. eapply nth_error_In; exact Ev. }
  apply (ocv_bind (cvL Un_cv)); [apply ocv_areas; exact V|]. intros a b _ A. apply (ocv_bind (cvL Un_cv)).
  - apply (ocv_ev _ _ (fun k => baryLoop t eps (map (fun v => q k -p v) (d_verts d)) (a k) [] (seq 0 (length (d_verts d))))); [apply ev_all; intros k; rewrite map_length; reflexivity|].
    rewrite map_length. apply (ocv_loop t eps _ a _ b _ V A M (fun _ => []) []). apply cvL_nil.
  - intros l m _ L. apply (ocv_mapM _ _ Un_cv Un_cv (fun k x => fdiv x (accumulate (l k)))); [exact L|]. intros i v x _ X. apply ocv_fdiv; [exact X|]. apply cv_accumulate; exact L.
Qed.

Lemma ocv_baryRibbon : forall eps d i q p l m, cv2 q p -> cvL Un_cv l m -> off_bary eps d m p -> ocv cv2 (fun k => baryRibbon eps d (l k) i (q k)) (baryRibbon eps d m i p).
Proof.
  intros eps d i q p l m H L N. unfold baryRibbon. apply (ocv_bind Un_cv); [apply ocv_nth; exact L|]. intros a a0 Ea A. apply (ocv_bind Un_cv); [apply ocv_nth; exact L|]. intros b b0 Eb B.
  destruct (N i a0 b0 Ea Eb) as [N1 N2]. pose proof (CV_plus b a b0 a0 B A) as S. apply (ocv_bind Un_cv).
  - apply ocv_lt; [exact S|exact N1| |intros _; apply ocv_fdiv; assumption]. intros Lt. specialize (N2 Lt).
    destruct (angle d i) as [al|]; [|apply ocv_none]. cbn [bind]. destruct (angle d (prv (d_n d) i)) as [be|]; [|apply ocv_none]. cbn [bind].
    destruct (nth_error (d_verts d) (prv (d_n d) i)) as [vp|]; [|apply ocv_none]. cbn [bind]. destruct (nth_error (d_verts d) i) as [vi|]; [|apply ocv_none]. cbn [bind].
    apply (ocv_bind cv2); [apply ocv_toLocal; apply cv2_sub; [exact H|apply cv2_const]|]. intros x x0 Ex X.
    destruct (edgeLength d (prv (d_n d) i)) as [lp|]; [|apply ocv_none]. cbn [bind].
    apply (ocv_bind cv2); [apply ocv_toLocal; apply cv2_sub; [exact H|apply cv2_const]|]. intros y y0 Ey Y.
    destruct (edgeLength d (nxt (d_n d) i)) as [ln|]; [|apply ocv_none]. cbn [bind].
    specialize (N2 al be vp vi x0 lp y0 ln eq_refl eq_refl eq_refl eq_refl Ex eq_refl Ey eq_refl).
    assert (C1 : Un_cv (fun k => sin al * (py (x k) * lp)) (sin al * (py x0 * lp))) by (apply CV_mult; [apply cv_const|apply CV_mult; [apply X|apply cv_const]]).
    assert (C2 : Un_cv (fun k => sin be * (py (y k) * ln)) (sin be * (py y0 * ln))) by (apply CV_mult; [apply cv_const|apply CV_mult; [apply Y|apply cv_const]]).
    apply ocv_lt; [apply CV_plus; assumption|exact N2|intros _; apply ocv_const; apply cv_const|]. intros _. apply ocv_fdiv; [exact C1|apply CV_plus; assumption].
  - intros s s0 _ S'. apply (ocv_some cv2 (fun k => mkV2 (s k) (1 - a k - b k))). apply cv2_mk; [exact S'|]. apply CV_minus; [apply CV_minus; [apply cv_const|exact A]|exact B].
Qed.
Lemma ocv_baryMap : forall t eps d i q p, cv2 q p -> (forall v, In v (d_verts d) -> baryRadius t (p -p v) <> eps) ->
  (forall l, barycentric t eps d p = Some l -> off_bary eps d l p) -> ocv cv2 (fun k => baryMap t eps d i (q k)) (baryMap t eps d i p).
Proof.
  intros t eps d i q p H N O. unfold baryMap. apply (ocv_bind (cvL Un_cv)); [apply ocv_barycentric; assumption|]. intros l m E L. apply ocv_baryRibbon; [exact H|exact L|apply O; exact E].
Qed.

Lemma cvmin : forall u v l m, Un_cv u l -> Un_cv v m -> Un_cv (fun k => if Rlt_dec (u k) (v k) then u k else v k) (if Rlt_dec l m then l else m).
Proof.
  intros u v l m A B e He. destruct (A e He) as [N P]. destruct (B e He) as [M Q]. exists (Nat.max N M). intros k Hk. specialize (P k ltac:(lia)). specialize (Q k ltac:(lia)). revert P Q.
  unfold R_dist. destruct (Rlt_dec (u k) (v k)), (Rlt_dec l m); unfold Rabs; repeat destruct (Rcase_abs _); lra.
Qed.
Lemma cvmax : forall u v l m, Un_cv u l -> Un_cv v m -> Un_cv (fun k => if Rlt_dec (u k) (v k) then v k else u k) (if Rlt_dec l m then m else l).
Proof.
  intros u v l m A B e He. destruct (A e He) as [N P]. destruct (B e He) as [M Q]. exists (Nat.max N M). intros k Hk. specialize (P k ltac:(lia)). specialize (Q k ltac:(lia)). revert P Q.
  unfold R_dist. destruct (Rlt_dec (u k) (v k)), (Rlt_dec l m); unfold Rabs; repeat destruct (Rcase_abs _); lra.
Qed.
Lemma cv_max0 : forall u l, Un_cv u l -> Un_cv (fun k => Rmax 0 (u k)) (Rmax 0 l).
Proof. intros u l H. apply (cv_ext (fun k => Rmax (u k) 0)); [intros; apply Rmax_comm|]. rewrite (Rmax_comm 0 l). apply cv_max. exact H. Qed.
Lemma ocv_solve : forall eps a b c b0 c0, 0 < eps -> Un_cv b b0 -> Un_cv c c0 -> off_quadratic eps a b0 c0 -> ocv Un_cv (fun k => bilinearSolve eps a (b k) (c k)) (bilinearSolve eps a b0 c0).
Proof.
  intros eps a b c b0 c0 Hp B C [N1 N2]. unfold bilinearSolve. destruct (Rlt_dec (Rabs a) eps) as [L|L].
  - apply ocv_lt; [apply cv_abs; exact B|apply N1; exact L|intros _; apply ocv_const; apply cv_const|]. intros _. apply ocv_fdiv; [|exact B]. apply CV_opp. exact C.
  - assert (L' : eps <= Rabs a) by lra. assert (A0 : a <> 0) by (intros ->; rewrite Rabs_R0 in L'; lra). destruct (N2 L') as [M1 M2]. set (D0 := b0 * b0 - 4 * a * c0) in *. cbv zeta.
    assert (CD : Un_cv (fun k => b k * b k - 4 * a * c k) D0) by (apply CV_minus; [apply CV_mult; exact B|apply CV_mult; [apply cv_const|exact C]]).
    set (D1 := if Rlt_dec D0 eps then 0 else D0) in *.
    assert (C1 : Un_cv (fun k => if Rlt_dec (b k * b k - 4 * a * c k) eps then 0 else b k * b k - 4 * a * c k) D1).
    { unfold D1. destruct (Rlt_dec D0 eps) as [G|G].
      - apply (cv_ev (fun _ => 0)); [|apply cv_const]. apply (ev_mono (fun k => b k * b k - 4 * a * c k < eps)); [|apply (ev_lt _ _ _ CD G)]. intros k K. destruct (Rlt_dec _ eps); [reflexivity|contradiction].
      - apply (cv_ev (fun k => b k * b k - 4 * a * c k)); [|exact CD]. apply (ev_mono (fun k => eps < b k * b k - 4 * a * c k)); [|apply (ev_gt _ _ _ CD); lra]. intros k K. destruct (Rlt_dec _ eps); [lra|reflexivity]. }
    assert (P1 : 0 <= D1) by (unfold D1; destruct (Rlt_dec D0 eps); lra).
    rewrite (fdiv_some (sqrt D1)), (fdiv_some (- b0)) by lra. cbn [bind].
    set (X := fun k => sqrt (if Rlt_dec (b k * b k - 4 * a * c k) eps then 0 else b k * b k - 4 * a * c k) / (2 * a)).
    set (Y := fun k => - b k / (2 * a)).
    assert (CX : Un_cv X (sqrt D1 / (2 * a))) by (apply cv_div; [apply cv_sqrt; assumption|apply cv_const|lra]).
    assert (CY : Un_cv Y (- b0 / (2 * a))) by (apply cv_div; [apply CV_opp; exact B|apply cv_const|lra]).
    set (x := sqrt D1 / (2 * a)) in *. set (y := - b0 / (2 * a)) in *.
    apply (ocv_ev _ _ (fun k => let hi := if Rlt_dec (Y k + X k) (Y k - X k) then Y k - X k else Y k + X k in let lo := if Rlt_dec (Y k + X k) (Y k - X k) then Y k + X k else Y k - X k in
      Some (if Rlt_dec (Rmax 0 (hi - 1)) (Rmax 0 (- lo)) then hi else lo))).
    { apply ev_all. intros k. rewrite (fdiv_some (sqrt _)), (fdiv_some (- b k)) by lra. reflexivity. }
    pose proof (CV_plus _ _ _ _ CY CX) as Cs. pose proof (CV_minus _ _ _ _ CY CX) as Cd. cbv zeta.
    pose proof (cvmax _ _ _ _ Cs Cd) as Hi. pose proof (cvmin _ _ _ _ Cs Cd) as Lo. cbv beta in Hi, Lo.
    set (hi := fun k => if Rlt_dec (Y k + X k) (Y k - X k) then Y k - X k else Y k + X k) in *. set (lo := fun k => if Rlt_dec (Y k + X k) (Y k - X k) then Y k + X k else Y k - X k) in *.
    set (hi0 := if Rlt_dec (y + x) (y - x) then y - x else y + x) in *. set (lo0 := if Rlt_dec (y + x) (y - x) then y + x else y - x) in *.
    assert (Ne : Rmax 0 (hi0 - 1) <> Rmax 0 (- lo0)).
    { apply M2.
      - unfold lo0, hi0. destruct (Rlt_dec (y + x) (y - x)); lra.
      - replace (- b0 / a) with (y + y) by (unfold y; field; exact A0). unfold lo0, hi0. destruct (Rlt_dec (y + x) (y - x)); ring.
      - fold D1. assert (Sq : x * x * (4 * (a * a)) = D1) by (unfold x; transitivity (sqrt D1 * sqrt D1); [field; exact A0|apply sqrt_sqrt; exact P1]). unfold lo0, hi0. destruct (Rlt_dec (y + x) (y - x)); nra. }
    assert (Df : Un_cv (fun k => Rmax 0 (hi k - 1) - Rmax 0 (- lo k)) (Rmax 0 (hi0 - 1) - Rmax 0 (- lo0))).
    { apply CV_minus; apply cv_max0; [apply CV_minus; [exact Hi|apply cv_const]|apply CV_opp; exact Lo]. }
    apply (ocv_some Un_cv (fun k => if Rlt_dec (Rmax 0 (hi k - 1)) (Rmax 0 (- lo k)) then hi k else lo k)). destruct (Rlt_dec (Rmax 0 (hi0 - 1)) (Rmax 0 (- lo0))) as [G|G].
    + apply (cv_ev hi); [|exact Hi]. apply (ev_mono (fun k => Rmax 0 (hi k - 1) - Rmax 0 (- lo k) < 0)); [|apply (ev_lt _ _ 0 Df); lra]. intros k K. destruct (Rlt_dec (Rmax 0 (hi k - 1)) (Rmax 0 (- lo k))); [reflexivity|lra].
    + apply (cv_ev lo); [|exact Lo]. apply (ev_mono (fun k => 0 < Rmax 0 (hi k - 1) - Rmax 0 (- lo k))); [|apply (ev_gt _ _ 0 Df); lra]. intros k K. destruct (Rlt_dec (Rmax 0 (hi k - 1)) (Rmax 0 (- lo k))); [lra|reflexivity].
Qed.
Lemma ocv_bilinear : forall eps d i q p, 0 < eps -> cv2 q p -> off_bilinear eps d i p -> ocv cv2 (fun k => bilinearMap eps d i (q k)) (bilinearMap eps d i p).
Proof.
  intros eps d i q p Hp H N. unfold bilinearMap. unfold off_bilinear in N.
  destruct (nth_error (d_verts d) (prv2 (d_n d) i)) as [v0|]; [|apply ocv_none]. cbn [bind]. destruct (nth_error (d_verts d) (prv (d_n d) i)) as [v1|]; [|apply ocv_none]. cbn [bind].
  destruct (nth_error (d_verts d) i) as [v2|]; [|apply ocv_none]. cbn [bind]. destruct (nth_error (d_verts d) (nxt (d_n d) i)) as [v3|]; [|apply ocv_none]. cbn [bind].
  destruct (toLocal d i (v0 -p v1)) as [p1|] eqn:E1; [|apply ocv_none]. cbn [bind]. destruct (toLocal d i (v3 -p v2)) as [p2|] eqn:E2; [|apply ocv_none]. cbn [bind].
  apply (ocv_bind cv2); [apply ocv_toLocal; apply cv2_sub; [exact H|apply cv2_const]|]. intros x x0 Ex [X Y].
  specialize (N v0 v1 v2 v3 p1 p2 x0 eq_refl eq_refl eq_refl eq_refl E1 E2 Ex). unfold bilinearLocal. cbv zeta.
  assert (Cb : Un_cv (fun k => px (x k) * py p2 - (px (x k) + 1) * py p1 + (px p1 - px p2) * py (x k)) (px x0 * py p2 - (px x0 + 1) * py p1 + (px p1 - px p2) * py x0)).
  { apply CV_plus; [apply CV_minus; apply CV_mult; try apply cv_const; [exact X|apply CV_plus; [exact X|apply cv_const]]|apply CV_mult; [apply cv_const|exact Y]]. }
  assert (Cc : Un_cv (fun k => px (x k) * py p1 - py (x k) * px p1) (px x0 * py p1 - py x0 * px p1)) by (apply CV_minus; apply CV_mult; try apply cv_const; assumption).
  apply (ocv_bind Un_cv); [apply (ocv_solve eps (py p1 - py p2) _ _ _ _ Hp Cb Cc N)|]. intros s s0 _ S. apply (ocv_bind Un_cv).
  - apply ocv_fdiv; [exact Y|]. apply CV_plus; apply CV_mult; try apply cv_const; [apply CV_minus; [apply cv_const|exact S]|exact S].
  - intros h h0 _ Hh. apply (ocv_some cv2 (fun k => mkV2 (s k) (h k))). apply cv2_mk; assumption.
Qed.
Lemma ocv_interconnected : forall eps d i q p, 0 < eps -> cv2 q p -> (forall j, off_bilinear eps d j p) -> ocv cv2 (fun k => interconnectedMap eps d i (q k)) (interconnectedMap eps d i p).
Proof.
  intros eps d i q p Hp H N. unfold interconnectedMap. do 3 (apply (ocv_bind cv2); [apply ocv_bilinear; auto|]; intros ? ? _ [? ?]). cbv zeta.
  match goal with |- ocv cv2 (fun k => Some (@?f k)) (Some ?y) => apply (ocv_some cv2 f y) end. apply cv2_mk; [assumption|].
  apply CV_plus; apply CV_mult; try assumption; try (apply CV_minus; [apply cv_const|]); try assumption; apply cv_hermite; assumption.
Qed.
Lemma ocv_parallel : forall eps d m i q p, 0 < eps -> cv2 q p -> off_bilinear eps d i p -> ocv cv2 (fun k => parallelMap eps d m i (q k)) (parallelMap eps d m i p).
Proof.
  intros eps d m i q p Hp H N. unfold parallelMap. apply (ocv_bind cv2); [apply ocv_bilinear; auto|]. intros a a0 _ [A _].
  destruct (nth_error (d_verts d) i) as [v|]; [|apply ocv_none]. cbn [bind]. apply (ocv_bind cv2); [apply ocv_toLocal; apply cv2_sub; [exact H|apply cv2_const]|]. intros l l0 _ [_ L].
  destruct (nth_error m i) as [x|]; [|apply ocv_none]. cbn [bind]. apply (ocv_some cv2 (fun k => mkV2 (px (a k)) (py (l k) * x))). apply cv2_mk; [exact A|]. apply CV_mult; [exact L|apply cv_const].
Qed.

(** Counting the members below the tolerance. *)
Lemma ev_count : forall T (C : (nat -> T) -> T -> Prop) (f : T -> R) eps l u, (forall v x, C v x -> Un_cv (fun k => f (v k)) (f x)) -> cvL C u l ->
  (forall i x, nth_error l i = Some x -> f x <> eps) ->
  eventually (fun k => length (filter (fun x => if Rlt_dec (f x) eps then true else false) (u k)) = length (filter (fun x => if Rlt_dec (f x) eps then true else false) l)).
Proof.
  intros T C f eps l. induction l as [|x l IH]; intros u Cf H N.
  - apply ev_all. intros k. destruct H as [L _]. specialize (L k). destruct (u k); [reflexivity|discriminate].
  - destruct (cvL_inv C u x l H) as (v & w & P & Q & W). specialize (Cf v x Q) as V. specialize (N 0%nat x eq_refl) as N0.
    apply (ev_mono (fun k => ((if Rlt_dec (f (v k)) eps then true else false) = (if Rlt_dec (f x) eps then true else false)) /\
      length (filter (fun x => if Rlt_dec (f x) eps then true else false) (w k)) = length (filter (fun x => if Rlt_dec (f x) eps then true else false) l))).
    + intros k [A B]. rewrite P. cbn [filter]. rewrite A. destruct (Rlt_dec (f x) eps); cbn [length]; rewrite B; reflexivity.
    + apply ev_and; [|apply IH; [exact Cf|exact W|]; intros i y Y; apply (N (S i) y Y)]. destruct (Rlt_dec (f x) eps) as [L|L].
      * apply (ev_mono (fun k => f (v k) < eps)); [|apply (ev_lt _ _ _ V L)]. intros k K. destruct (Rlt_dec (f (v k)) eps); [reflexivity|contradiction].
      * apply (ev_mono (fun k => eps < f (v k))); [|apply (ev_gt _ _ _ V); lra]. intros k K. destruct (Rlt_dec (f (v k)) eps); [lra|reflexivity].
Qed.
Lemma cv_lt : forall x l e A a B b, Un_cv x l -> l <> e -> (l < e -> Un_cv A a) -> (e < l -> Un_cv B b) -> Un_cv (fun k => if Rlt_dec (x k) e then A k else B k) (if Rlt_dec l e then a else b).
Proof.
  intros x l e A a B b H N HA HB. destruct (Rlt_dec l e) as [L|L].
  - apply (cv_ev A); [|apply HA; exact L]. apply (ev_mono (fun k => x k < e)); [|apply (ev_lt x l e H L)]. intros k K. destruct (Rlt_dec (x k) e); [reflexivity|contradiction].
  - assert (G : e < l) by lra. apply (cv_ev B); [|apply HB; exact G]. apply (ev_mono (fun k => e < x k)); [|apply (ev_gt x l e H G)]. intros k K. destruct (Rlt_dec (x k) e); [lra|reflexivity].
Qed.
Lemma ocv_pow_2 : forall x l, Un_cv x l -> ocv Un_cv (fun k => pow_2 (x k)) (pow_2 l).
Proof. intros x l H. unfold pow_2. apply (ocv_fdiv (fun _ => 1)); [apply cv_const|apply cv_pow; exact H]. Qed.
Lemma ocv_singularBlend : forall eps u l, cvL Un_cv u l -> (forall i x, nth_error l i = Some x -> x <> eps) -> ocv (cvL Un_cv) (fun k => singularBlend eps (u k)) (singularBlend eps l).
Proof.
  intros eps u l H N. unfold singularBlend. cbv zeta. set (c := length (filter (fun w => if Rlt_dec w eps then true else false) l)).
  apply (ocv_ev _ _ (fun k => if (0 <? c)%nat then val <- fdiv 1 (INR c) ;; Some (map (fun w => if Rlt_dec w eps then val else 0) (u k))
    else blends <- mapM (fun w => fdiv 1 (w ^ 2)) (u k) ;; mapM (fun x => fdiv x (accumulate blends)) blends)).
  { apply (ev_mono (fun k => length (filter (fun w => if Rlt_dec w eps then true else false) (u k)) = c)); [intros k ->; reflexivity|].
    apply (ev_count R Un_cv (fun w => w) eps l u); [auto|exact H|exact N]. }
  destruct (0 <? c)%nat.
  - destruct (fdiv 1 (INR c)) as [val|]; [|apply ocv_none]. cbn [bind]. apply (ocv_some _ (fun k => map (fun w => if Rlt_dec w eps then val else 0) (u k))).
    apply (cvL_map _ _ Un_cv Un_cv (fun _ w => if Rlt_dec w eps then val else 0)); [exact H|]. intros i v x X V. apply cv_lt; [exact V|apply (N i x X)| |]; intros _; apply cv_const.
  - apply (ocv_bind (cvL Un_cv)).
    + apply (ocv_mapM _ _ Un_cv Un_cv (fun _ w => fdiv 1 (w ^ 2))); [exact H|]. intros i v x _ V. apply (ocv_fdiv (fun _ => 1)); [apply cv_const|apply cv_pow; exact V].
    + intros b b0 _ B. apply (ocv_mapM _ _ Un_cv Un_cv (fun k x => fdiv x (accumulate (b k)))); [exact B|]. intros i v x _ V. apply ocv_fdiv; [exact V|apply cv_accumulate; exact B].
Qed.
Lemma ocv_constrainedRibbon : forall eps a b c a0 b0 c0, cv2 a a0 -> cv2 b b0 -> cv2 c c0 -> off_square eps a0 -> ocv cv2 (fun k => constrainedRibbon eps (a k) (b k) (c k)) (constrainedRibbon eps a0 b0 c0).
Proof.
  intros eps a b c a0 b0 c0 [Ax Ay] [Bx By] [Cx Cy] (N1 & N2 & N3 & N4). unfold constrainedRibbon. apply (ocv_bind (cvL Un_cv)).
  - apply (ocv_singularBlend eps (fun k => [py (a k); 1 - px (a k); 1 - py (a k); px (a k)])).
    + repeat (apply (cvL_cons Un_cv _ (fun k => _)); [first [assumption|apply CV_minus; [apply cv_const|assumption]]|]). apply cvL_nil.
    + intros [|[|[|[|i]]]] x X; cbn in X; try (injection X as <-; assumption). destruct i; discriminate.
  - intros w w0 _ W. do 4 (apply (ocv_bind Un_cv); [apply ocv_nth; exact W|]; intros ? ? _ ?).
    match goal with |- ocv cv2 (fun k => Some (@?f k)) (Some ?y) => apply (ocv_some cv2 f y) end. apply cv2_mk; [assumption|].
    apply CV_plus; [apply CV_plus|]; apply CV_mult; try assumption; [apply CV_plus; assumption|]. apply CV_minus; [apply cv_const|assumption].
Qed.
Lemma ocv_constrained : forall t eps d i q p, cv2 q p -> (forall v, In v (d_verts d) -> baryRadius t (p -p v) <> eps) ->
  (forall l, barycentric t eps d p = Some l -> off_bary eps d l p) -> (forall sd, baryMap t eps d i p = Some sd -> off_square eps sd) ->
  ocv cv2 (fun k => constrainedMap t eps d i (q k)) (constrainedMap t eps d i p).
Proof.
  intros t eps d i q p H N O S. unfold constrainedMap. apply (ocv_bind cv2); [apply ocv_baryMap; assumption|]. intros a a0 Ea A. apply (ocv_bind cv2); [apply ocv_baryMap; assumption|]. intros b b0 _ B.
  apply (ocv_bind cv2); [apply ocv_baryMap; assumption|]. intros c c0 _ C. apply ocv_constrainedRibbon; try assumption. apply S; exact Ea.
Qed.

(** ** Ribbons and corners *)
Lemma ocv_gamma : forall g u l, Un_cv u l -> ocv Un_cv (fun k => gamma g (u k)) (gamma g l).
Proof.
  intros [|] u l H; unfold gamma; [|apply ocv_some; exact H]. apply ocv_fdiv; [exact H|]. apply CV_plus; [apply CV_mult; [apply cv_const|exact H]|apply cv_const].
Qed.
Lemma ocv_twist : forall eps u v l m f g, Un_cv u l -> Un_cv v m -> Rabs (l + m) <> eps -> ocv cv3 (fun k => rationalTwist eps (u k) (v k) f g) (rationalTwist eps l m f g).
Proof.
  intros eps u v l m f g A B N. pose proof (CV_plus _ _ _ _ A B) as S. unfold rationalTwist. apply ocv_lt; [apply cv_abs; exact S|exact N|intros _; apply ocv_some; apply cv3_const|].
  intros _. apply ocv_vdiv; [|exact S]. apply cv3_add; apply cv3_scale; try assumption; apply cv3_const.
Qed.
Lemma ocv_correction : forall eps sf i u v l m, Un_cv u l -> Un_cv v m -> off_twist eps (sf_gamma sf) l m -> ocv cv3 (fun k => cornerCorrection eps sf i (u k) (v k)) (cornerCorrection eps sf i l m).
Proof.
  intros eps sf i u v l m A B N. unfold cornerCorrection. apply (ocv_bind Un_cv); [apply ocv_gamma; exact A|]. intros x x0 Ex X. apply (ocv_bind Un_cv); [apply ocv_gamma; exact B|]. intros y y0 Ey Y.
  cbv zeta. destruct (nth_error (sf_corners sf) i) as [c|]; [|apply ocv_none]. cbn [bind].
  assert (X' : Un_cv (fun k => clamp (x k) 0 1) (clamp x0 0 1)) by (apply cv_clamp; [lra|exact X]). assert (Y' : Un_cv (fun k => clamp (y k) 0 1) (clamp y0 0 1)) by (apply cv_clamp; [lra|exact Y]).
  apply (ocv_bind cv3).
  - apply ocv_twist; [exact X'|exact Y'|]. rewrite Rabs_pos_eq; [apply (N x0 y0 Ex Ey)|]. pose proof (clamp_unit x0). pose proof (clamp_unit y0). lra.
  - intros t t0 _ T. match goal with |- ocv cv3 (fun k => Some (@?f k)) (Some ?z) => apply (ocv_some cv3 f z) end.
    apply cv3_add; [apply cv3_add; [apply cv3_add; [apply cv3_const|]|]|]; repeat (apply cv3_scale; try assumption); apply cv3_const.
Qed.
Lemma ocv_side : forall sf i u v l m, steady sf -> Un_cv u l -> Un_cv v m -> ocv cv3 (fun k => sideInterpolant sf i (u k) (v k)) (sideInterpolant sf i l m).
Proof.
  intros sf i u v l m St A B. unfold sideInterpolant. cbv zeta. apply (ocv_bind Un_cv); [apply ocv_gamma; exact B|]. intros g g0 _ G.
  destruct (nth_error (sf_ribbons sf) i) as [r|] eqn:Er; [|apply ocv_none]. cbn [bind]. unfold ribbonEval. cbn [px py].
  destruct (proj1 (Forall_forall _ _) St r (nth_error_In _ _ Er)) as [Cc Cx]. assert (U : Un_cv (fun k => clamp (u k) 0 1) (clamp l 0 1)) by (apply cv_clamp; [lra|exact A]).
  apply (ocv_bind cv3); [apply Cx; [intros; apply clamp_unit|exact U]|]. intros x x0 _ X. match goal with |- ocv cv3 (fun k => Some (@?f k)) (Some ?z) => apply (ocv_some cv3 f z) end.
  apply cv3_add; [apply (Cc _ _ (fun k => clamp_unit (u k)) U)|]. apply cv3_scale; [exact X|apply cv_max; exact G].
Qed.
Lemma cv_1m : forall u l, Un_cv u l -> Un_cv (fun k => 1 - u k) (1 - l).
Proof. intros u l H. apply CV_minus; [apply cv_const|exact H]. Qed.
Ltac osome := match goal with |- ocv ?C (fun k => Some (@?f k)) (Some ?z) => apply (ocv_some C f z) end.
Lemma ocv_cornerInterpolant : forall eps sf i s s0, steady sf -> cvL cv2 s s0 -> off_corners eps sf s0 -> ocv cv3 (fun k => cornerInterpolant eps sf i (s k)) (cornerInterpolant eps sf i s0).
Proof.
  intros eps sf i s s0 St H N. unfold cornerInterpolant. cbv zeta. apply (ocv_bind cv2); [apply ocv_nth; exact H|]. intros a a0 Ea [A _]. apply (ocv_bind cv2); [apply ocv_nth; exact H|]. intros b b0 Eb [B _].
  apply (ocv_bind cv3); [apply ocv_side; assumption|]. intros x x0 _ X. apply (ocv_bind cv3); [apply ocv_side; [exact St|exact B|apply cv_1m; exact A]|]. intros y y0 _ Y.
  apply (ocv_bind cv3); [apply ocv_correction; [apply cv_1m; exact A|exact B|apply (N i a0 b0 Ea Eb)]|]. intros z z0 _ Z. osome. apply cv3_sub; [apply cv3_add|]; assumption.
Qed.
Lemma ocv_composite : forall eps sf i u l, steady sf -> cv2 u l -> off_twist eps (sf_gamma sf) (py l) (px l) -> off_twist eps (sf_gamma sf) (1 - px l) (py l) ->
  ocv cv3 (fun k => compositeRibbon eps sf i (u k)) (compositeRibbon eps sf i l).
Proof.
  intros eps sf i u l St [A B] N1 N2. unfold compositeRibbon. cbv zeta.
  apply (ocv_bind cv3); [apply ocv_side; assumption|]. intros x1 y1 _ X1. apply (ocv_bind cv3); [apply ocv_side; [exact St|apply cv_1m; exact B|exact A]|]. intros x2 y2 _ X2.
  apply (ocv_bind cv3); [apply ocv_side; [exact St|exact B|apply cv_1m; exact A]|]. intros x3 y3 _ X3. apply (ocv_bind cv3); [apply ocv_correction; assumption|]. intros x4 y4 _ X4.
  apply (ocv_bind cv3); [apply ocv_correction; [apply cv_1m; exact A|exact B|exact N2]|]. intros x5 y5 _ X5. osome.
  pose proof (cv_hermite 0 _ _ A) as Ha. pose proof (cv_hermite 0 _ _ B) as Hb. pose proof (cv_1m _ _ Ha) as Hc.
  apply cv3_sub; [apply cv3_sub; [apply cv3_add; [apply cv3_add|]|]|]; repeat (apply cv3_scale; try assumption).
Qed.

(** ** Blends *)
Lemma ev_close : forall eps s s0, cvL cv2 s s0 -> off_sides eps s0 -> eventually (fun k => closeCount eps (s k) = closeCount eps s0).
Proof. intros eps s s0 H N. unfold closeCount. apply (ev_count V2 cv2 py eps s0 s); [intros v x V; apply V|exact H|exact N]. Qed.
Lemma ocv_normalize : forall b b0, cvL Un_cv b b0 -> ocv (cvL Un_cv) (fun k => mapM (fun x => fdiv x (accumulate (b k))) (b k)) (mapM (fun x => fdiv x (accumulate b0)) b0).
Proof. intros b b0 B. apply (ocv_mapM _ _ Un_cv Un_cv (fun k x => fdiv x (accumulate (b k)))); [exact B|]. intros i v x _ V. apply ocv_fdiv; [exact V|apply cv_accumulate; exact B]. Qed.
Lemma ocv_blendSide : forall eps s s0, cvL cv2 s s0 -> off_sides eps s0 -> ocv (cvL Un_cv) (fun k => blendSideSingular eps (s k)) (blendSideSingular eps s0).
Proof.
  intros eps s s0 H N. unfold blendSideSingular. cbv zeta. set (c := closeCount eps s0).
  apply (ocv_ev _ _ (fun k => if (0 <? c)%nat then val <- fdiv 1 (INR c) ;; Some (map (fun sd => if Rlt_dec (py sd) eps then val else 0) (s k))
    else blf <- mapM (fun sd => pow_2 (py sd)) (s k) ;; mapM (fun x => fdiv x (accumulate blf)) blf)).
  { apply (ev_mono (fun k => closeCount eps (s k) = c)); [intros k ->; reflexivity|]. apply ev_close; assumption. }
  destruct (0 <? c)%nat.
  - destruct (fdiv 1 (INR c)) as [val|]; [|apply ocv_none]. cbn [bind]. osome.
    apply (cvL_map _ _ cv2 Un_cv (fun _ w => if Rlt_dec (py w) eps then val else 0)); [exact H|]. intros i v x X [_ V]. apply cv_lt; [exact V|apply (N i x X)| |]; intros _; apply cv_const.
  - apply (ocv_bind (cvL Un_cv)); [|intros b b0 _ B; apply ocv_normalize; exact B].
    apply (ocv_mapM _ _ cv2 Un_cv (fun _ sd => pow_2 (py sd))); [exact H|]. intros i v x _ [_ V]. apply ocv_pow_2. exact V.
Qed.
Lemma ocv_blendCorner : forall eps n s s0, cvL cv2 s s0 -> off_sides eps s0 -> ocv (cvL Un_cv) (fun k => blendCorner eps n (s k)) (blendCorner eps n s0).
Proof.
  intros eps n s s0 H N. unfold blendCorner. cbv zeta. set (c := closeCount eps s0).
  match goal with |- ocv _ _ (if _ then mapM ?f _ else _) => set (f0 := f) end.
  apply (ocv_ev _ _ (fun k => if (0 <? c)%nat then mapM (fun i => let ip := nxt n i in
      sd <- nth_error (s k) i ;; sdp <- nth_error (s k) ip ;;
      if (1 <? c)%nat then Some (if Rlt_dec (py sd) eps then if Rlt_dec (py sdp) eps then 1 else 0 else 0)
      else if Rlt_dec (py sd) eps then sdm <- nth_error (s k) (prv n i) ;; tmp <- pow_2 (py sdp) ;; q <- pow_2 (py sdm) ;; fdiv tmp (tmp + q)
      else if Rlt_dec (py sdp) eps then sdn <- nth_error (s k) (nxt n ip) ;; tmp <- pow_2 (py sd) ;; q <- pow_2 (py sdn) ;; fdiv tmp (tmp + q)
      else Some 0) (seq 0 n)
    else blf <- mapM (fun i => sd <- nth_error (s k) i ;; sdp <- nth_error (s k) (nxt n i) ;; pow_2 (py sd * py sdp)) (seq 0 n) ;; mapM (fun x => fdiv x (accumulate blf)) blf)).
  { apply (ev_mono (fun k => closeCount eps (s k) = c)); [intros k ->; reflexivity|]. apply ev_close; assumption. }
  unfold f0. destruct (0 <? c)%nat.
  - apply ocv_mapM_seq. intros i _. cbv zeta. apply (ocv_bind cv2); [apply ocv_nth; exact H|]. intros a a0 Ea [_ A]. apply (ocv_bind cv2); [apply ocv_nth; exact H|]. intros b b0 Eb [_ B].
    pose proof (N _ _ Ea) as Na. pose proof (N _ _ Eb) as Nb. destruct (1 <? c)%nat.
    + osome. apply cv_lt; [exact A|exact Na| |intros _; apply cv_const]. intros _. apply cv_lt; [exact B|exact Nb| |]; intros _; apply cv_const.
    + apply ocv_lt; [exact A|exact Na| |].
      * intros _. apply (ocv_bind cv2); [apply ocv_nth; exact H|]. intros e e0 _ [_ E]. apply (ocv_bind Un_cv); [apply ocv_pow_2; exact B|]. intros x x0 _ X. apply (ocv_bind Un_cv); [apply ocv_pow_2; exact E|]. intros y y0 _ Y.
        apply ocv_fdiv; [exact X|apply CV_plus; assumption].
      * intros _. apply ocv_lt; [exact B|exact Nb| |intros _; apply ocv_const; apply cv_const].
        intros _. apply (ocv_bind cv2); [apply ocv_nth; exact H|]. intros e e0 _ [_ E]. apply (ocv_bind Un_cv); [apply ocv_pow_2; exact A|]. intros x x0 _ X. apply (ocv_bind Un_cv); [apply ocv_pow_2; exact E|]. intros y y0 _ Y.
        apply ocv_fdiv; [exact X|apply CV_plus; assumption].
  - apply (ocv_bind (cvL Un_cv)); [|intros b b0 _ B; apply ocv_normalize; exact B]. apply ocv_mapM_seq. intros i _.
    apply (ocv_bind cv2); [apply ocv_nth; exact H|]. intros a a0 _ [_ A]. apply (ocv_bind cv2); [apply ocv_nth; exact H|]. intros b b0 _ [_ B]. apply ocv_pow_2. apply CV_mult; assumption.
Qed.
Lemma ocv_blendDeficient : forall eps n s s0, cvL cv2 s s0 -> off_sides eps s0 -> ocv (cvL Un_cv) (fun k => blendCornerDeficient eps n (s k)) (blendCornerDeficient eps n s0).
Proof.
  intros eps n s s0 H N. unfold blendCornerDeficient. apply ocv_mapM_seq. intros i _. apply (ocv_bind cv2); [apply ocv_nth; exact H|]. intros a a0 Ea [A1 A2]. apply (ocv_bind cv2); [apply ocv_nth; exact H|]. intros b b0 Eb [B1 B2].
  assert (F : ocv Un_cv (fun k => fdiv (py (b k) * hermite 0 (1 - px (a k)) * hermite 0 (py (a k)) + py (a k) * hermite 0 (px (b k)) * hermite 0 (py (b k))) (py (a k) + py (b k)))
                (fdiv (py b0 * hermite 0 (1 - px a0) * hermite 0 (py a0) + py a0 * hermite 0 (px b0) * hermite 0 (py b0)) (py a0 + py b0))).
  { apply ocv_fdiv; apply CV_plus; try assumption; repeat (apply CV_mult; try assumption); apply cv_hermite; try assumption; apply cv_1m; assumption. }
  apply ocv_lt; [exact A2|apply (N _ _ Ea)| |intros _; exact F]. intros _. apply ocv_lt; [exact B2|apply (N _ _ Eb)| |intros _; exact F]. intros _. apply ocv_const. apply cv_const.
Qed.

(** ** Patches *)
Section Patches.
Variables (eps : R) (sf : surf) (s : nat -> list V2) (s0 : list V2).
Hypotheses (St : steady sf) (H : cvL cv2 s s0) (N : off_sides eps s0).

Lemma ocv_sideBased : ocv cv3 (fun k => sideBased eps sf (s k)) (sideBased eps sf s0).
Proof.
  unfold sideBased. apply (ocv_bind (cvL Un_cv)); [apply ocv_blendSide; assumption|]. intros b b0 _ B. apply ocv_osum. intros i _.
  apply (ocv_bind cv2); [apply ocv_nth; exact H|]. intros x x0 _ [X1 X2]. apply (ocv_bind Un_cv); [apply ocv_nth; exact B|]. intros y y0 _ Y. apply (ocv_bind cv3); [apply ocv_side; assumption|]. intros z z0 _ Z.
  osome. apply cv3_scale; assumption.
Qed.
Lemma ocv_coonsTerm : forall b b0 i, cvL Un_cv b b0 -> off_corners eps sf s0 -> ocv cv3 (fun k => coonsTerm eps sf (s k) (b k) i) (coonsTerm eps sf s0 b0 i).
Proof.
  intros b b0 i B O. unfold coonsTerm. cbv zeta. apply (ocv_bind cv2); [apply ocv_nth; exact H|]. intros x x0 Ex [X1 X2]. apply (ocv_bind cv2); [apply ocv_nth; exact H|]. intros y y0 Ey [Y1 Y2].
  apply (ocv_bind Un_cv); [apply ocv_nth; exact B|]. intros v v0 _ V. apply (ocv_bind Un_cv); [apply ocv_nth; exact B|]. intros w w0 _ W. apply (ocv_bind cv3); [apply ocv_side; assumption|]. intros z z0 _ Z.
  apply (ocv_bind cv3); [apply ocv_correction; [apply cv_1m; exact X1|exact Y1|apply (O i x0 y0 Ex Ey)]|]. intros t t0 _ T. osome.
  apply cv3_sub; apply cv3_scale; try assumption. apply CV_plus; assumption.
Qed.
Lemma ocv_cornerBased : off_corners eps sf s0 -> ocv cv3 (fun k => cornerBased eps sf (s k)) (cornerBased eps sf s0).
Proof.
  intros O. unfold cornerBased. apply (ocv_bind (cvL Un_cv)); [apply ocv_blendCorner; assumption|]. intros b b0 _ B. apply ocv_osum. intros i _.
  apply (ocv_bind Un_cv); [apply ocv_nth; exact B|]. intros y y0 _ Y. apply (ocv_bind cv3); [apply ocv_cornerInterpolant; assumption|]. intros z z0 _ Z. osome. apply cv3_scale; assumption.
Qed.
Lemma ocv_generalizedCoons : off_corners eps sf s0 -> ocv cv3 (fun k => generalizedCoons eps sf (s k)) (generalizedCoons eps sf s0).
Proof.
  intros O. unfold generalizedCoons. apply (ocv_bind (cvL Un_cv)); [apply ocv_blendCorner; assumption|]. intros b b0 _ B. apply ocv_osum. intros i _. apply ocv_coonsTerm; assumption.
Qed.
Lemma ocv_compositePatch : off_ribbons eps sf s0 -> ocv cv3 (fun k => compositeRibbonPatch eps sf (s k)) (compositeRibbonPatch eps sf s0).
Proof.
  intros O. unfold compositeRibbonPatch. cbv zeta. apply (ocv_bind (cvL Un_cv)); [apply ocv_blendCorner; assumption|]. intros b b0 _ B. apply (ocv_bind cv3).
  - apply ocv_osum. intros i _. apply (ocv_bind cv2); [apply ocv_nth; exact H|]. intros x x0 Ex X. apply (ocv_bind Un_cv); [apply ocv_nth; exact B|]. intros v v0 _ V. apply (ocv_bind Un_cv); [apply ocv_nth; exact B|]. intros w w0 _ W.
    destruct (O i x0 Ex). apply (ocv_bind cv3); [apply ocv_composite; assumption|]. intros z z0 _ Z. osome. apply cv3_scale; [exact Z|apply CV_plus; assumption].
  - intros z z0 _ Z. osome. apply cv3_scale; [exact Z|apply cv_const].
Qed.
Lemma ocv_mpatch : forall k cp, off_corners eps sf s0 -> ocv cv3 (fun j => mpatch k eps sf cp (s j)) (mpatch k eps sf cp s0).
Proof.
  intros k cp O. destruct k; cbn [mpatch]; [unfold midpointPatch|unfold midpointCoons]; (apply (ocv_bind (cvL Un_cv)); [apply ocv_blendDeficient; assumption|]; intros b b0 _ B; apply (ocv_bind cv3)).
  - apply ocv_osum. intros i _. apply (ocv_bind Un_cv); [apply ocv_nth; exact B|]. intros y y0 _ Y. apply (ocv_bind cv3); [apply ocv_cornerInterpolant; assumption|]. intros z z0 _ Z. osome. apply cv3_scale; assumption.
  - intros z z0 _ Z. osome. apply cv3_add; [exact Z|]. apply cv3_scale; [apply cv3_const|apply cv_1m; apply cv_accumulate; exact B].
  - apply ocv_osum. intros i _. apply ocv_coonsTerm; assumption.
  - intros z z0 _ Z. osome. apply cv3_add; [exact Z|]. apply cv3_scale; [apply cv3_const|apply cv_1m; apply cv_accumulate; exact B].
Qed.
End Patches.

Lemma ocv_params : forall k eps d q p, 0 < eps -> cv2 q p -> off_params k eps d p -> ocv (cvL cv2) (fun j => mapToRibbons k eps d (q j)) (mapToRibbons k eps d p).
Proof.
  intros k eps d q p He H O. unfold mapToRibbons. apply ocv_mapM_seq. intros i _. destruct k; cbn [mapToRibbon off_params] in *.
  - destruct O. apply ocv_baryMap; assumption.
  - apply ocv_bilinear; [exact He|exact H|apply O].
  - apply ocv_interconnected; assumption.
  - destruct O as [[O1 O2] O3]. apply ocv_constrained; try assumption. apply O3.
  - destruct (parallelMultipliers d) as [m|]; [|apply ocv_none]. cbn [bind]. apply ocv_parallel; [exact He|exact H|apply O].
  - destruct (superdMultipliers d) as [m|]; [|apply ocv_none]. cbn [bind]. apply ocv_parallel; [exact He|exact H|apply O].
  - contradiction.
Qed.

(** *** Bezier patches *)
Lemma cvL_bernstein : forall d u l, Un_cv u l -> cvL Un_cv (fun k => bernsteinList d (u k)) (bernsteinList d l).
Proof.
  intros d u l H. split; [intros k; rewrite !bernsteinList_length; reflexivity|]. intros i x X.
  assert (Hi : (i <= d)%nat) by (assert (i < length (bernsteinList d l))%nat by (apply nth_error_Some; congruence); rewrite bernsteinList_length in *; lia).
  exists (fun k => bern d i (u k)). split; [intros k; apply bernsteinList_nth; exact Hi|]. rewrite bernsteinList_nth in X by exact Hi. injection X as <-. unfold bern.
  apply CV_mult; [apply CV_mult; [apply cv_const|apply cv_pow; exact H]|apply cv_pow; apply cv_1m; exact H].
Qed.
Definition cvP (u : nat -> V3 * R) (l : V3 * R) : Prop := cv3 (fun k => fst (u k)) (fst l) /\ Un_cv (fun k => snd (u k)) (snd l).
Lemma cv_factor : forall d j k a b x a0 b0 x0, Un_cv a a0 -> Un_cv b b0 -> Un_cv x x0 -> Un_cv (fun m => gbFactor d j k (a m) (b m) (x m)) (gbFactor d j k a0 b0 x0).
Proof.
  intros d j k a b x a0 b0 x0 A B X. unfold gbFactor. destruct ((k <? 2)%nat && ((j <? 2)%nat || above j d 2))%bool; [destruct (j <? 2)%nat; apply CV_mult; assumption|].
  destruct ((j =? k)%nat || meets j d k)%bool; [apply CV_mult; [exact X|apply cv_const]|]. destruct ((j <? k)%nat || above j d k)%bool; [apply cv_const|exact X].
Qed.
Lemma ocv_gbSide : forall net d l bs bd a b st bs0 bd0 a0 b0 st0, cvL Un_cv bs bs0 -> cvL Un_cv bd bd0 -> Un_cv a a0 -> Un_cv b b0 -> cvP st st0 ->
  ocv cvP (fun k => gbSide net d l (bs k) (bd k) (a k) (b k) (st k)) (gbSide net d l bs0 bd0 a0 b0 st0).
Proof.
  intros net d l bs bd a b st bs0 bd0 a0 b0 st0 Hs Hd A B P. unfold gbSide.
  apply (ocv_foldM _ _ cvP (fun m st k => foldM (fun st j => bj <- nth_error (bs m) j ;; bk <- nth_error (bd m) k ;;
      let blend := gbFactor d j k (a m) (b m) (bj * bk) in row <- nth_error net j ;; p <- nth_error row k ;; Some (fst st +v p *v blend, snd st + blend)) st (seq 0 (d + 1)))); [exact P|].
  intros k u u0 _ U.
  apply (ocv_foldM _ _ cvP (fun m st j => bj <- nth_error (bs m) j ;; bk <- nth_error (bd m) k ;;
      let blend := gbFactor d j k (a m) (b m) (bj * bk) in row <- nth_error net j ;; p <- nth_error row k ;; Some (fst st +v p *v blend, snd st + blend))); [exact U|].
  intros j v v0 _ [V1 V2]. apply (ocv_bind Un_cv); [apply ocv_nth; exact Hs|]. intros x x0 _ X. apply (ocv_bind Un_cv); [apply ocv_nth; exact Hd|]. intros y y0 _ Y. cbv zeta.
  destruct (nth_error net j) as [row|]; [|apply ocv_none]. cbn [bind]. destruct (nth_error row k) as [p|]; [|apply ocv_none]. cbn [bind]. osome.
  assert (F := cv_factor d j k a b (fun m => x m * y m) a0 b0 (x0 * y0) A B (CV_mult _ _ _ _ X Y)).
  split; cbn [fst snd]; [apply cv3_add; [exact V1|apply cv3_scale; [apply cv3_const|exact F]]|apply CV_plus; assumption].
Qed.
Lemma ocv_ratio : forall sq a b a0 b0, Un_cv a a0 -> Un_cv b b0 -> ocv Un_cv (fun k => gbRatio sq (a k) (b k)) (gbRatio sq a0 b0).
Proof.
  intros sq a b a0 b0 A B. unfold gbRatio. destruct sq; apply ocv_fdiv; try assumption; [apply CV_mult; assumption| |apply CV_plus; assumption]. apply CV_plus; apply CV_mult; assumption.
Qed.
Definition cvW (u : nat -> V3 + V3 * R) (s : V3 + V3 * R) : Prop :=
  match s with inl x => eventually (fun k => u k = inl x) | inr x => exists v, eventually (fun k => u k = inr (v k)) /\ cvP v x end.
Lemma off_before : forall eps n sds i sd sdp, off_pairs eps n sds -> length sds = n -> nth_error sds i = Some sd -> nth_error sds (prv n i) = Some sdp -> py sdp + py sd <> eps.
Proof.
  intros eps n sds i sd sdp O L E Ep. assert (Hi : (i < n)%nat) by (rewrite <- L; apply nth_error_Some; congruence).
  apply (O (prv n i) sdp sd Ep). rewrite nxt_prv by exact Hi. exact E.
Qed.
Lemma ocv_gbLoop : forall eps g s s0, cvL cv2 s s0 -> off_pairs eps (gb_n g) s0 -> length s0 = gb_n g -> forall is st st0, cvP st st0 ->
  ocv cvW (fun k => gbLoop eps g (s k) is (st k)) (gbLoop eps g s0 is st0).
Proof.
  intros eps g s s0 H O L is. induction is as [|i is IH]; intros st st0 P; cbn [gbLoop].
  - intros r E. injection E as <-. exists (fun k => inr (st k)). split; [apply ev_all; reflexivity|]. exists st. split; [apply ev_all; reflexivity|exact P].
  - apply (ocv_bind cv2); [apply ocv_nth; exact H|]. intros x x0 Ex [X1 X2]. apply (ocv_bind cv2); [apply ocv_nth; exact H|]. intros y y0 Ey [Y1 Y2]. apply (ocv_bind cv2); [apply ocv_nth; exact H|]. intros z z0 Ez [Z1 Z2].
    assert (K : forall p : V3, cvW (fun _ => inl p) (inl p)) by (intros p; apply ev_all; reflexivity).
    apply (ocv_lt _ (fun k => py (x k) + py (z k))); [apply CV_plus; assumption|apply (O i _ _ Ex Ez)| |].
    + intros _. destruct (get3 (gb_nets g) i (gb_deg g) 0) as [p|]; [|apply ocv_none]. cbn [bind]. apply (ocv_some cvW (fun _ => inl p)). apply K.
    + intros _. apply (ocv_lt _ (fun k => py (y k) + py (x k))); [apply CV_plus; assumption|apply (off_before eps (gb_n g) s0 i _ _ O L Ex Ey)| |].
      * intros _. destruct (get3 (gb_nets g) i 0 0) as [p|]; [|apply ocv_none]. cbn [bind]. apply (ocv_some cvW (fun _ => inl p)). apply K.
      * intros _. apply (ocv_bind Un_cv); [apply ocv_ratio; assumption|]. intros a a0 _ A. apply (ocv_bind Un_cv); [apply ocv_ratio; assumption|]. intros b b0 _ B.
        destruct (nth_error (gb_nets g) i) as [net|]; [|apply ocv_none]. cbn [bind]. apply (ocv_bind cvP).
        { apply ocv_gbSide; try assumption; apply cvL_bernstein; assumption. }
        intros v v0 _ V. apply IH. exact V.
Qed.
Lemma ocv_gbEval : forall eps g s s0, cvL cv2 s s0 -> off_pairs eps (gb_n g) s0 -> length s0 = gb_n g -> ocv cv3 (fun k => gbEval eps g (s k)) (gbEval eps g s0).
Proof.
  intros eps g s s0 H O L. unfold gbEval. apply (ocv_bind cvW).
  - apply (ocv_gbLoop eps g s s0 H O L _ (fun _ => (vzero, 0))). split; [apply cv3_const|apply cv_const].
  - intros v r _ W. destruct r as [p|[q w]]; cbn [cvW] in W.
    + apply (ocv_ev _ _ (fun _ => Some p)); [apply (ev_mono _ _ (fun k (E : v k = inl p) => f_equal (fun z => Some (match z with inl p => p | inr (q, w) => q +v gb_cen g *v (1 - w) end)) E)); exact W|].
      apply (ocv_some cv3 (fun _ => p)). apply cv3_const.
    + destruct W as (u & E & U1 & U2). apply (ocv_ev _ _ (fun k => Some (fst (u k) +v gb_cen g *v (1 - snd (u k))))).
      * refine (ev_mono _ _ (fun k Q => _) E). rewrite Q. destruct (u k). reflexivity.
      * osome. apply cv3_add; [exact U1|]. apply cv3_scale; [apply cv3_const|apply cv_1m; exact U2].
Qed.
Lemma ocv_spSum : forall m u l, cvL Un_cv u l -> ocv cv3 (fun k => spSum m (u k)) (spSum m l).
Proof.
  intros m u l H. unfold spSum. apply (ocv_foldM _ _ cv3 (fun k p cp => w <- multiBernstein (fst cp) (u k) ;; Some (p +v snd cp *v w)) _ m (fun _ => vzero)); [apply cv3_const|].
  intros cp v x _ V. apply (ocv_bind Un_cv).
  - unfold multiBernstein. destruct (multinomial (fst cp)) as [mm|]; [|apply ocv_none]. cbn [bind].
    apply (ocv_foldM _ _ Un_cv (fun k r i => b <- nth_error (u k) i ;; e <- nth_error (fst cp) i ;; Some (r * b ^ e)) _ _ (fun _ => IZR (Z.of_N mm))); [apply cv_const|].
    intros i w y _ W. apply (ocv_bind Un_cv); [apply ocv_nth; exact H|]. intros z z0 _ Zz. destruct (nth_error (fst cp) i) as [e|]; [|apply ocv_none]. cbn [bind]. osome. apply CV_mult; [exact W|apply cv_pow; exact Zz].
  - intros w w0 _ W. osome. apply cv3_add; [exact V|]. apply cv3_scale; [apply cv3_const|exact W].
Qed.
