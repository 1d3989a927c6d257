(** The system of fitWithOriginal as a whole. *)
From Verif Require Import Base UtilModel UtilSpec UtilProofs GBModel GBSpec GBProofs GBEnum GBElev GBEval GBFitModel PropsGB GBFitProofs GBFitSmooth LeastSquares.
From Coq Require Import List.
Import ListNotations.
Open Scope R_scope.

(** The sample has the weights of C46: it is away from the corners, or exactly one of them. *)
Definition proper (eps : R) (n : nat) (sds : list V2) : Prop :=
  off_corners eps n sds \/
  length sds = n /\ exists e, (e < n)%nat /\ forall i sd, nth_error sds i = Some sd -> py sd = if ((i =? e) || (i =? nxt n e))%nat%bool then 0 else 1.

Lemma proper_weights : forall n d h eps sds, (3 <= n)%nat -> (1 <= d)%nat -> shaped n d h -> consistent n d h -> 0 < eps <= 1 -> proper eps n sds ->
  exists W, (forall i j k, inRange n d (i, j, k) -> gbWeight eps h sds i j k = Some (W i j k)) /\ gbEval eps h sds = Some (combined n d W h).
Proof.
  intros n d h eps sds Hn Hd Sh Ch He [P|(L & e & Hen & P)].
  - apply C46_formula; [exact Sh|lra|exact P].
  - destruct (C46_corner n d h eps sds e Hn Hd Sh Ch He Hen L P) as (W & H1 & H2 & _). exists W. split; assumption.
Qed.

Lemma mapM_sum : forall A B (F : A -> option B) (Q : B -> R) (G : A -> R) l,
  (forall a, In a l -> exists e, F a = Some e /\ Q e = G a) -> exists es, mapM F l = Some es /\ lrsum Q es = lrsum G l.
Proof.
  intros A B F Q G l; induction l as [|a l IH]; intros H; [exists []; split; reflexivity|].
  destruct (H a (or_introl eq_refl)) as (e & E & V). destruct IH as (es & Es & Vs); [intros x I; apply H; right; exact I|].
  exists (e :: es). cbn [mapM]. rewrite E. cbn [bind]. rewrite Es. split; [reflexivity|]. cbn [lrsum]. rewrite V, Vs. reflexivity.
Qed.

Definition roughPoint (h : gbsurf) (q : position) : V3 :=
  let '(s, c, r) := q in
  lattice h s c r -v (lattice h s (c - 1) r +v lattice h s (c + 1) r +v lattice h s c (r - 1) +v lattice h s c (r + 1)) *v (/ 4).
Definition roughCenter (n d : nat) (h : gbsurf) : V3 :=
  let l := ((d + 1) / 2)%nat in gb_cen h -v vsum n (fun i => lattice h i l (l - 1)) *v (/ INR n).
Definition energy (n d f : nat) (eps smoothing : R) (samples : list (list V2 * V3)) (h : gbsurf) : R :=
  lrsum (fun s : list V2 * V3 => vnorm2 (valueAt eps h (fst s) -v snd s)) samples +
  (smoothing * smoothing * vnorm2 (roughCenter n d h) +
   lrsum (fun cq : nat * position => smoothing * smoothing * vnorm2 (roughPoint h (snd cq))) (movable n d f (n * (d + 1 - f) * f))).

Lemma vnorm2_scale : forall v s, vnorm2 (v *v s) = s * s * vnorm2 v.
Proof. intros v s. unfold vnorm2, vdot. cbn. ring. Qed.

Section Fit.
Variables (n d f : nat) (g : gbsurf) (eps smoothing : R) (samples : list (list V2 * V3)).
Hypothesis Hn : (3 <= n)%nat.
Hypothesis Hd : (1 <= d)%nat.
Hypothesis Hf : (1 <= f <= (d + 1) / 2)%nat.
Hypothesis He : 0 < eps <= 1.
Hypothesis Sg : shaped n d g.
Hypothesis Cg : consistent n d g.
Hypothesis Hs : forall s, In s samples -> proper eps n (fst s).
Let b := (n * (d + 1 - f) * f)%nat.

Definition competes (h : gbsurf) : Prop :=
  shaped n d h /\ consistent n d h /\ gb_sq h = gb_sq g /\
  forall a, (a < b)%nat -> gpv h (nth a (enumerate n d) (0, 0, 0)%nat) = gpv g (nth a (enumerate n d) (0, 0, 0)%nat).

Lemma system_at : forall h, competes h ->
  exists rows, fitSystem eps g f b smoothing samples = Some rows /\
    lrsum (fun e => vnorm2 (lhs n d b h e -v snd e)) rows = energy n d f eps smoothing samples h.
Proof.
  intros h (Sh & Ch & Qh & Fx). destruct (enum_tail n d f ltac:(lia) ltac:(lia)) as (_ & _ & _ & Lb & _). fold b in Lb.
  set (Q := fun e : equation => vnorm2 (lhs n d b h e -v snd e)). unfold fitSystem. pose proof Sg as (Gn & Gd & _). rewrite Gn, Gd.
  destruct (mapM_sum _ _ (fitSample eps g b) Q (fun s : list V2 * V3 => vnorm2 (valueAt eps h (fst s) -v snd s)) samples) as (rs & E1 & V1).
  { intros [sds p] I. specialize (Hs _ I). cbn [fst snd] in *.
    destruct (sample_equation n d g h eps b sds p ltac:(lia) Hd Sg Sh Ch (eq_sym Qh) Lb Fx (proper_weights n d h eps sds Hn Hd Sh Ch He Hs)) as (e & E & V).
    exists e. split; [exact E|]. unfold Q. rewrite V. reflexivity. }
  destruct (center_sem n d f g h ltac:(lia) ltac:(lia) Sg Sh Cg Ch Fx smoothing Hd) as (ec & E2 & V2). fold b in E2.
  destruct (mapM_sum _ _ (smoothPoint g b smoothing) Q (fun cq : nat * position => smoothing * smoothing * vnorm2 (roughPoint h (snd cq))) (movable n d f b)) as (ss & E3 & V3).
  { intros [a [[s c] r]] I. destruct (point_sem n d f g h ltac:(lia) ltac:(lia) Sg Sh Cg Ch Fx smoothing a s c r Hn ltac:(lia) I) as (e & E & V). fold b in E.
    exists e. split; [exact E|]. unfold Q. unfold sem in V. fold b in V. rewrite V, vnorm2_scale. reflexivity. }
  rewrite E1. cbn [bind]. rewrite E2. cbn [bind]. rewrite E3. cbn [bind]. exists (rs ++ ec :: ss). split; [reflexivity|].
  rewrite lrsum_app. cbn [lrsum]. rewrite V1, V3. unfold energy. fold b. f_equal. f_equal. unfold Q. unfold sem in V2. fold b in V2. rewrite V2, vnorm2_scale. reflexivity.
Qed.

Lemma residual_at : forall h rows, lrsum (fun e => vnorm2 (lhs n d b h e -v snd e)) rows =
  residual (length rows) (gbCount n d - b) (fun j c => fst (nth j rows ((fun _ => 0), vzero)) c) (fun j => snd (nth j rows ((fun _ => 0), vzero)))
    (fun c => netv n d h (number b c)).
Proof. intros h rows. exact (lrsum_nth equation _ ((fun _ => 0), vzero) rows). Qed.

Variables (lu svd : nat -> nat -> (nat -> nat -> R) -> (nat -> V3) -> nat -> V3) (tol : R).
Hypothesis Lsq : least_squares_solver svd.

(** Everything after the patch the fit starts from. *)
Lemma fit_spec : exists rows r,
  fitSystem eps g f b smoothing samples = Some rows /\
  fitFill g (movable n d f b) (fitSolve lu svd tol (length rows) (gbCount n d - b) (fun j c => fst (nth j rows ((fun _ => 0), vzero)) c) (fun j => snd (nth j rows ((fun _ => 0), vzero)))) = Some r /\
  competes r /\ gb_dom r = gb_dom g /\
  (forall s c k q, In (s, c, k) (enumerate n d) -> (k < f)%nat -> inRange n d q -> same n d (s, c, k) q -> getp r q = getp g q) /\
  forall h z, competes h -> competes z -> (forall c, (c < gbCount n d - b)%nat -> netv n d z (number b c) = vzero) ->
    energy n d f eps smoothing samples r <= energy n d f eps smoothing samples h \/
    energy n d f eps smoothing samples r <= tol * tol * energy n d f eps smoothing samples z.
Proof.
  assert (Cgg : competes g) by (repeat split; try assumption; try reflexivity; apply Sg; assumption).
  destruct (system_at g Cgg) as (rows & Er & _).
  set (A := fun j c => fst (nth j rows ((fun _ => 0), vzero)) c). set (B := fun j => snd (nth j rows ((fun _ => 0), vzero))).
  set (x := fitSolve lu svd tol (length rows) (gbCount n d - b) A B).
  destruct (fill_spec n d f g x ltac:(lia) ltac:(lia) Sg Cg) as (r & Ef & Sr & Cr & Qr & Dr & Vr & Kr). fold b in Ef, Vr.
  assert (Cpr : competes r).
  { split; [exact Sr|]. split; [exact Cr|]. split; [exact Qr|]. intros a Ha. unfold gpv.
    destruct (enum_tail n d f ltac:(lia) ltac:(lia)) as (_ & _ & _ & Lb & _). fold b in Lb.
    assert (L : (a < length (enumerate n d))%nat) by (rewrite enumerate_length; lia).
    pose proof (nth_error_nth' (enumerate n d) (0, 0, 0)%nat L) as En. destruct (nth a (enumerate n d) (0, 0, 0)%nat) as [[s c] k].
    assert (I := nth_error_In _ _ En). pose proof (proj1 (fixed_row n d f a s c k ltac:(lia) ltac:(lia) En) Ha) as Hk.
    rewrite (Kr s c k (s, c, k) I Hk (enum_range n d _ ltac:(lia) I) (or_introl eq_refl)). reflexivity. }
  assert (En : forall h, competes h -> energy n d f eps smoothing samples h = residual (length rows) (gbCount n d - b) A B (fun c => netv n d h (number b c))).
  { intros h Ch. destruct (system_at h Ch) as (rows' & Er' & V). assert (rows' = rows) by congruence. subst rows'. rewrite <- V. apply residual_at. }
  assert (Rx : energy n d f eps smoothing samples r = residual (length rows) (gbCount n d - b) A B x).
  { rewrite (En r Cpr). unfold residual. apply rsum_ext. intros j _. do 2 f_equal. apply vsum_ext. intros c Hc. rewrite Vr by exact Hc. reflexivity. }
  exists rows, r. split; [exact Er|]. split; [exact Ef|]. split; [exact Cpr|]. split; [exact Dr|]. split; [exact Kr|].
  intros h z Chh Cz Zz. rewrite Rx. unfold x, fitSolve. destruct (isApprox _ _ _ _) eqn:Ap.
  - right. rewrite (En z Cz). unfold isApprox in Ap. destruct (Rle_dec _ _) as [Le|_]; [|discriminate Ap]. unfold residual at 1.
    eapply Rle_trans; [exact Le|]. apply Rmult_le_compat_l; [pose proof (Rle_0_sqr tol) as T; exact T|]. eapply Rle_trans; [apply Rmin_r|]. right.
    unfold residual. apply rsum_ext. intros j _. rewrite (vsum_ext _ _ (fun _ => vzero)) by (intros c Hc; rewrite Zz by exact Hc; v3ring). rewrite vsum_zero by reflexivity.
    unfold vnorm2, vdot. cbn. ring.
  - left. rewrite (En h Chh). apply Lsq.
Qed.
End Fit.
