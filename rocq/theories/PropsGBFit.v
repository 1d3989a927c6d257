(** Properties of fitting a generalized Bezier patch to points: C68. *)
From Verif Require Import Base UtilModel UtilSpec UtilProofs GBModel GBSpec GBProofs GBEnum GBElev GBEval GBFitModel PropsGB PropsGB2 LeastSquares GBFitProofs GBFitSmooth GBFitTotal.
From Coq Require Import List.
Import ListNotations.
Open Scope R_scope.

(** ** What the fit is about

    [distances]: the sum of the squared distances of the samples.  A sample is what the
    parameterization gives at its domain point, and the point it should be mapped to. *)
Fixpoint distances (eps : R) (h : gbsurf) (samples : list (list V2 * V3)) : R :=
  match samples with
  | [] => 0
  | (sds, p) :: ss => match gbEval eps h sds with Some v => vnorm2 (v -v p) | None => vnorm2 p end + distances eps h ss
  end.

(** The deviation of a control point from the mean of its four neighbours, in the control
    point lattice of a side that is continued over the mirrored positions up to the
    central control point (C52). *)
Definition bump (n d : nat) (h : gbsurf) (i j k : nat) : V3 :=
  latticePoint n d h i j k -v
  (latticePoint n d h i (j - 1) k +v latticePoint n d h i (j + 1) k +v latticePoint n d h i j (k - 1) +v latticePoint n d h i j (k + 1)) *v (/ 4).
(** The deviations of all control points that are not in the first [f] rows, and of the
    central one from the mean of the innermost ones. *)
Definition roughness (n d f : nat) (h : gbsurf) : R :=
  let l := ((d + 1) / 2)%nat in
  vnorm2 (gb_cen h -v vsum n (fun i => latticePoint n d h i l (l - 1)) *v (/ INR n)) +
  rsum (l - f) (fun k => rsum n (fun i => rsum (d - 2 * (f + k)) (fun j => vnorm2 (bump n d h i (f + k + j) (f + k))))).
Definition objective (n d f : nat) (eps smoothing : R) (samples : list (list V2 * V3)) (h : gbsurf) : R :=
  distances eps h samples + smoothing * smoothing * roughness n d f h.

(** A patch with default weights that has the first [f] rows of [o]. *)
Definition keeps (n d f : nat) (o h : gbsurf) : Prop :=
  shaped n d h /\ consistent n d h /\ gb_sq h = false /\
  forall i j k, inRange n d (i, j, k) -> (k < f)%nat -> controlPoint h i j k = controlPoint o i j k.

Lemma combine_sum : forall (F : position -> R) L a, lrsum (fun cq : nat * position => F (snd cq)) (combine (seq a (length L)) L) = lrsum F L.
Proof. intros F L; induction L as [|q L IH]; intros a; [reflexivity|]. cbn [length seq combine lrsum snd]. rewrite IH. reflexivity. Qed.
Lemma lrsum_scal : forall A (F : A -> R) s l, lrsum (fun a => s * F a) l = s * lrsum F l.
Proof. intros A F s l; induction l as [|a l IH]; cbn [lrsum]; [ring|rewrite IH; ring]. Qed.

Lemma energy_objective : forall n d f eps smoothing samples h, (1 <= n)%nat -> (f <= (d + 1) / 2)%nat -> shaped n d h ->
  energy n d f eps smoothing samples h = objective n d f eps smoothing samples h.
Proof.
  intros n d f eps w samples h Hn Hf (Sn & Sd & _). pose proof (half_le d) as HL. unfold energy, objective. f_equal.
  - induction samples as [|[sds p] ss IH]; [reflexivity|]. cbn [lrsum distances fst snd]. rewrite IH. f_equal. unfold valueAt.
    destruct (gbEval eps h sds) as [v|]; [reflexivity|]. unfold vnorm2, vdot. cbn. ring.
  - rewrite lrsum_scal, <- Rmult_plus_distr_l. f_equal. unfold roughness, roughCenter, bump. rewrite <- Sn, <- Sd.
    change (latticePoint (gb_n h) (gb_deg h) h) with (lattice h). rewrite Sn, Sd. f_equal.
    unfold movable. set (m := (gbCount n d - 1 - n * (d + 1 - f) * f)%nat).
    assert (Lm : length (enumLoop n d m 0 f f) = m) by apply enumLoop_length.
    replace (seq 1 m) with (seq 1 (length (enumLoop n d m 0 f f))) by (rewrite Lm; reflexivity).
    rewrite (combine_sum (fun q => vnorm2 (roughPoint h q))).
    assert (Split : forall t row u, (u <= t)%nat -> gridCount n d row t = (gridCount n d row u + gridCount n d (row + u) (t - u))%nat).
    { induction t as [|t IH]; intros row u Hu.
      - replace u with 0%nat by lia. reflexivity.
      - destruct u as [|u]; [cbn [gridCount Nat.sub]; rewrite Nat.add_0_r; reflexivity|]. cbn [gridCount Nat.sub]. rewrite (IH (Datatypes.S row) u) by lia.
        replace (Datatypes.S row + u)%nat with (row + Datatypes.S u)%nat by lia. lia. }
    assert (T : m = gridCount n d f ((d + 1) / 2 - f)).
    { unfold m. rewrite count_grid. rewrite (Split ((d + 1) / 2)%nat 0%nat f Hf). rewrite (gridCount_val n d f 0) by lia.
      replace (d + 1 - 2 * 0 - f)%nat with (d + 1 - f)%nat by lia. cbn [plus]. lia. }
    rewrite T. rewrite enum_grid by lia. rewrite lrsum_concat, lrsum_seq. apply rsum_ext. intros k Hk. unfold rowAll. rewrite lrsum_concat, lrsum_seq.
    apply rsum_ext. intros i Hi. unfold rowBlock. rewrite lrsum_map, lrsum_seq. replace (d - (f + k) - (f + k))%nat with (d - 2 * (f + k))%nat by lia. apply rsum_ext. intros j Hj. reflexivity.
Qed.

Lemma keeps_competes : forall n d f o g h, (1 <= n)%nat -> (f <= (d + 1) / 2)%nat -> gb_sq g = false ->
  (forall i j k, inRange n d (i, j, k) -> (k < f)%nat -> getp g (i, j, k) = getp o (i, j, k)) -> (keeps n d f o h -> competes n d f g h).
Proof.
  intros n d f o g h Hn Hf Qg Kg (Sh & Ch & Qh & Kh). split; [exact Sh|]. split; [exact Ch|]. split; [congruence|]. intros a Ha.
  destruct (enum_tail n d f Hn Hf) as (_ & _ & _ & Lb & _). assert (L : (a < length (enumerate n d))%nat) by (rewrite enumerate_length; lia).
  pose proof (nth_error_nth' (enumerate n d) (0, 0, 0)%nat L) as En. destruct (nth a (enumerate n d) (0, 0, 0)%nat) as [[s c] k].
  assert (R := enum_range n d _ Hn (nth_error_In _ _ En)). pose proof (proj1 (fixed_row n d f a s c k Hn Hf En) Ha) as Hk. unfold gpv.
  cbn [getp]. rewrite (Kh s c k R Hk). pose proof (Kg s c k R Hk) as E. cbn [getp] in E. rewrite E. reflexivity.
Qed.

(** The enumerated address of a control point is in the lowest of its rows. *)
Lemma main_row : forall n d i j k, (1 <= n)%nat -> inRange n d (i, j, k) ->
  exists s c r, In (s, c, r) (enumerate n d) /\ same n d (s, c, r) (i, j, k) /\ (r <= k)%nat.
Proof.
  intros n d i j k Hn R. destruct (enum_cover n d _ Hn R) as ([[s c] r] & I & Sm). exists s, c, r. split; [exact I|]. split; [exact Sm|].
  apply enum_In in I; [|exact Hn]. destruct Sm as [E|[M|M]]; [injection E as -> -> ->; lia| |]; clear -M I R; inversion M; subst; lia.
Qed.

Section Props.
Variables lu svd : nat -> nat -> (nat -> nat -> R) -> (nat -> V3) -> nat -> V3.

(** From degree three on the fit always succeeds.  It keeps the first one or two rows of the
    original patch, and among all patches that do, it minimizes the sum of the squared
    distances plus the roughness - up to the tolerance with which the code accepts the
    solution of the LU decomposition, relative to the objective of the patch whose free
    control points are all zero. *)
Theorem C68_minimal : forall n d f o eps v0 c0 d0 l0 samples smoothing tol,
  (3 <= n)%nat -> (3 <= d)%nat -> (1 <= f <= 2)%nat -> 0 < eps <= 1 ->
  shaped n d o -> consistent n d o -> gb_dom o = n -> least_squares_solver svd ->
  (forall s, In s samples -> proper eps n (fst s)) ->
  exists r z, fitWithOriginal lu svd tol eps v0 c0 d0 l0 o samples smoothing f = Some r /\
    keeps n d f o r /\ gb_dom r = n /\ (forall s, In s samples -> gbEval eps r (fst s) <> None) /\
    keeps n d f o z /\ gb_cen z = vzero /\ (forall i j k, (i < n)%nat -> (f <= k <= j)%nat -> (j + k < d)%nat -> controlPoint z i j k = Some vzero) /\
    forall h, keeps n d f o h ->
      objective n d f eps smoothing samples r <= objective n d f eps smoothing samples h \/
      objective n d f eps smoothing samples r <= tol * tol * objective n d f eps smoothing samples z.
Proof.
  intros n d f o eps v0 c0 d0 l0 samples w tol Hn Hd Hf He So Co Do Lsq Hs.
  assert (Fl : (1 <= f <= (d + 1) / 2)%nat).
  { pose proof (Nat.div_mod (d + 1) 2 ltac:(lia)). pose proof (Nat.mod_upper_bound (d + 1) 2 ltac:(lia)). lia. }
  destruct (start_spec n d o v0 c0 d0 l0 ltac:(lia) Hd So Co Do) as (g & Eg & Sg & Cg & Qg & Dg & _ & Kg & _).
  destruct (enum_tail n d f ltac:(lia) ltac:(lia)) as (_ & _ & _ & Lb & _). assert (Gc : (1 <= gbCount n d)%nat) by (unfold gbCount; lia).
  destruct (fit_spec n d f g eps w samples Hn ltac:(lia) Fl He Sg Cg Hs lu svd tol Lsq) as (rows & r & Er & Ef & Cr & Dr & Kr & Mn).
  destruct (fill_spec n d f g (fun _ => vzero) ltac:(lia) ltac:(lia) Sg Cg) as (z & Ez & Sz & Cz & Qz & Dz & Vz & Kz).
  assert (Keep : forall x, shaped n d x -> consistent n d x -> gb_sq x = gb_sq g ->
    (forall s c k q, In (s, c, k) (enumerate n d) -> (k < f)%nat -> inRange n d q -> same n d (s, c, k) q -> getp x q = getp g q) -> keeps n d f o x).
  { intros x Sx Cx Qx Kx. split; [exact Sx|]. split; [exact Cx|]. split; [congruence|]. intros i j k R Hk.
    destruct (main_row n d i j k ltac:(lia) R) as (s & c & k' & I & Sm & Lk).
    exact (eq_trans (Kx s c k' (i, j, k) I ltac:(lia) R Sm) (Kg i j k R ltac:(lia))). }
  pose proof Cr as (Sr & Crr & Qr & _).
  exists r, z. split; [|split; [|split; [|split; [|split; [|split; [|split]]]]]].
  - unfold fitWithOriginal. rewrite Eg. cbn [bind]. pose proof Sg as (Gn & Gd & _). rewrite Gn, Gd. cbv zeta.
    destruct (Nat.ltb_spec (d + 1) f); [lia|]. destruct (Nat.leb_spec (gbCount n d) (n * (d + 1 - f) * f)); [lia|]. rewrite Er. cbn [bind]. exact Ef.
  - apply Keep; [exact Sr|exact Crr|exact Qr|exact Kr].
  - congruence.
  - intros s I. destruct (proper_weights n d r eps (fst s) Hn ltac:(lia) Sr Crr He (Hs s I)) as (W & _ & E). rewrite E. discriminate.
  - apply Keep; assumption.
  - apply (Vz 0%nat). lia.
  - intros i j k Hi H1 H2. assert (I : In (i, j, k) (enumerate n d)) by (apply enum_In; lia). destruct (In_nth_error _ _ I) as [a A].
    pose proof (fixed_row n d f _ _ _ _ ltac:(lia) ltac:(lia) A) as FR. pose proof (enum_lt n d _ _ A) as La.
    assert (V := Vz (a + 1 - n * (d + 1 - f) * f)%nat ltac:(lia)). unfold number in V.
    destruct (Nat.eqb_spec (a + 1 - n * (d + 1 - f) * f) 0) as [Q|Q]; [exfalso; lia|].
    replace (n * (d + 1 - f) * f + (a + 1 - n * (d + 1 - f) * f))%nat with (Datatypes.S a) in V by lia. cbn [netv] in V.
    replace (nth a (enumerate n d) (0, 0, 0)%nat) with (i, j, k) in V by (symmetry; exact (nth_error_nth _ _ _ A)).
    pose proof (gpv_some n d z (i, j, k) Sz (enum_range n d _ ltac:(lia) I)) as E. rewrite V in E. exact E.
  - intros h Kh. rewrite <- !energy_objective by (try assumption; try lia; apply Kh). apply Mn.
    + apply (keeps_competes n d f o); try assumption; try lia. intros i j k R Hk. apply Kg; [exact R|lia].
    + apply (keeps_competes n d f o); try assumption; try lia; [intros i j k R Hk; apply Kg; [exact R|lia]|apply Keep; assumption].
    + exact Vz.
Qed.

(** Without smoothing: if some patch with the same rows goes through all the samples, so
    does the result, and it is that patch if the samples leave no other choice. *)
Theorem C68_recovers : forall n d f o eps v0 c0 d0 l0 samples h,
  (3 <= n)%nat -> (3 <= d)%nat -> (1 <= f <= 2)%nat -> 0 < eps <= 1 ->
  shaped n d o -> consistent n d o -> gb_dom o = n -> least_squares_solver svd ->
  (forall s, In s samples -> proper eps n (fst s)) ->
  keeps n d f o h -> (forall sds p, In (sds, p) samples -> gbEval eps h sds = Some p) ->
  exists r, fitWithOriginal lu svd 0 eps v0 c0 d0 l0 o samples 0 f = Some r /\
    keeps n d f o r /\ (forall sds p, In (sds, p) samples -> gbEval eps r sds = Some p) /\
    ((forall h', keeps n d f o h' -> (forall sds p, In (sds, p) samples -> gbEval eps h' sds = Some p) ->
        gb_cen h' = gb_cen h /\ forall i j k, inRange n d (i, j, k) -> controlPoint h' i j k = controlPoint h i j k) ->
     gb_cen r = gb_cen h /\ forall i j k, inRange n d (i, j, k) -> controlPoint r i j k = controlPoint h i j k).
Proof.
  intros n d f o eps v0 c0 d0 l0 samples h Hn Hd Hf He So Co Do Lsq Hs Kh Th.
  destruct (C68_minimal n d f o eps v0 c0 d0 l0 samples 0 0 Hn Hd Hf He So Co Do Lsq Hs) as (r & z & E & Kr & _ & Er & _ & _ & _ & Mn).
  assert (Z : forall ss, (forall sds p, In (sds, p) ss -> gbEval eps h sds = Some p) -> distances eps h ss = 0).
  { induction ss as [|[sds p] ss IH]; intros H; [reflexivity|]. cbn [distances]. rewrite (H sds p (or_introl eq_refl)), IH by (intros; apply H; right; assumption).
    unfold vnorm2, vdot. cbn. ring. }
  assert (P : forall ss, 0 <= distances eps r ss).
  { induction ss as [|[sds p] ss IH]; cbn [distances]; [lra|]. destruct (gbEval eps r sds) as [v|]; [pose proof (vnorm2_pos (v -v p))|pose proof (vnorm2_pos p)]; unfold vnorm2 in *; lra. }
  assert (D : distances eps r samples <= 0) by (destruct (Mn h Kh) as [Q|Q]; unfold objective in Q; [rewrite (Z samples Th) in Q|]; lra).
  assert (Tr : forall sds p, In (sds, p) samples -> gbEval eps r sds = Some p).
  { clear -D P Er. induction samples as [|[sds p] ss IH]; intros sds' p' I; [destruct I|]. cbn [distances] in D. pose proof (P ss) as Ps.
    pose proof (Er (sds, p) (or_introl eq_refl)) as N. cbn [fst] in N. destruct (gbEval eps r sds) as [v|] eqn:Ev; [|congruence].
    pose proof (vnorm2_pos (v -v p)) as Pv. unfold vnorm2 in D. destruct I as [Q|I].
    - injection Q as <- <-. rewrite Ev. f_equal. assert (Q : vdot (v -v p) (v -v p) = 0) by lra. unfold vdot in Q. cbn in Q.
      pose proof (Rle_0_sqr (vx v - vx p)) as X. pose proof (Rle_0_sqr (vy v - vy p)) as Y. pose proof (Rle_0_sqr (vz v - vz p)) as W. unfold Rsqr in X, Y, W.
      apply V3_ext; apply Rminus_diag_uniq; apply Rsqr_0_uniq; unfold Rsqr; lra.
    - apply IH; [intros s Is; apply Er; right; exact Is|lra|exact I]. }
  exists r. split; [exact E|]. split; [exact Kr|]. split; [exact Tr|]. intros U. exact (U r Kr Tr).
Qed.

(** Only the first two rows of the original patch count. *)
Lemma foldM_ext' : forall A S (F G : S -> A -> option S) l s, (forall s a, In a l -> F s a = G s a) -> foldM F s l = foldM G s l.
Proof.
  intros A S F G l; induction l as [|a l IH]; intros s H; [reflexivity|]. cbn [foldM]. rewrite H by (left; reflexivity).
  destruct (G s a); [|reflexivity]. cbn [bind]. apply IH. intros s' x I. apply H. right; exact I.
Qed.
Theorem C68_two_rows : forall o o' eps v0 c0 d0 l0 samples smoothing f tol,
  gb_deg o = gb_deg o' -> gb_dom o = gb_dom o' ->
  (forall i j k, (k < 2)%nat -> controlPoint o i j k = controlPoint o' i j k) ->
  fitWithOriginal lu svd tol eps v0 c0 d0 l0 o samples smoothing f = fitWithOriginal lu svd tol eps v0 c0 d0 l0 o' samples smoothing f.
Proof.
  intros o o' eps v0 c0 d0 l0 samples w f tol Ed Ed' K. unfold fitWithOriginal.
  assert (E : fitStart v0 c0 d0 l0 o = fitStart v0 c0 d0 l0 o').
  { unfold fitStart. rewrite Ed, Ed'. destruct (gb_deg o' =? 0)%nat; [reflexivity|]. f_equal. apply foldM_ext'. intros g i _. apply foldM_ext'. intros g' j _.
    apply foldM_ext'. intros g'' k I. apply in_seq in I. rewrite K by lia. reflexivity. }
  rewrite E. reflexivity.
Qed.

(** Three fixed rows: the third one is not taken from the original patch, it is whatever a
    new point contains. *)
Theorem C68_three_rows : forall n d o eps v0 c0 d0 l0 samples smoothing tol,
  (3 <= n)%nat -> (5 <= d)%nat -> 0 < eps <= 1 -> shaped n d o -> consistent n d o -> gb_dom o = n -> least_squares_solver svd ->
  (forall s, In s samples -> proper eps n (fst s)) ->
  exists r, fitWithOriginal lu svd tol eps v0 c0 d0 l0 o samples smoothing 3 = Some r /\ keeps n d 2 o r /\
    forall i j, (i < n)%nat -> (2 <= j)%nat -> (j + 2 < d)%nat -> controlPoint r i j 2 = Some v0.
Proof.
  intros n d o eps v0 c0 d0 l0 samples w tol Hn Hd He So Co Do Lsq Hs.
  assert (Fl : (1 <= 3 <= (d + 1) / 2)%nat).
  { pose proof (Nat.div_mod (d + 1) 2 ltac:(lia)). pose proof (Nat.mod_upper_bound (d + 1) 2 ltac:(lia)). lia. }
  destruct (start_spec n d o v0 c0 d0 l0 ltac:(lia) ltac:(lia) So Co Do) as (g & Eg & Sg & Cg & Qg & Dg & _ & Kg & Vg).
  destruct (enum_tail n d 3 ltac:(lia) ltac:(lia)) as (_ & _ & _ & Lb & _). assert (Gc : (1 <= gbCount n d)%nat) by (unfold gbCount; lia).
  destruct (fit_spec n d 3 g eps w samples Hn ltac:(lia) Fl He Sg Cg Hs lu svd tol Lsq) as (rows & r & Er & Ef & Cr & Dr & Kr & _).
  pose proof Cr as (Sr & Crr & Qr & _). exists r. split; [|split].
  - unfold fitWithOriginal. rewrite Eg. cbn [bind]. pose proof Sg as (Gn & Gd & _). rewrite Gn, Gd. cbv zeta.
    destruct (Nat.ltb_spec (d + 1) 3); [lia|]. destruct (Nat.leb_spec (gbCount n d) (n * (d + 1 - 3) * 3)); [lia|]. rewrite Er. cbn [bind]. exact Ef.
  - split; [exact Sr|]. split; [exact Crr|]. split; [congruence|]. intros i j k R Hk. destruct (main_row n d i j k ltac:(lia) R) as (s & c & k' & I & Sm & Lk).
    exact (eq_trans (Kr s c k' (i, j, k) I ltac:(lia) R Sm) (Kg i j k R ltac:(lia))).
  - intros i j Hi H1 H2. assert (I : In (i, j, 2)%nat (enumerate n d)) by (apply enum_In; lia). assert (R := enum_range n d _ ltac:(lia) I).
    exact (eq_trans (Kr i j 2%nat (i, j, 2)%nat I ltac:(lia) R (or_introl eq_refl)) (Vg i j 2%nat (i, j, 2)%nat I ltac:(lia) R (or_introl eq_refl))).
Qed.

(** Degree two has one row only, but two are copied: out of range. *)
Theorem C68_degree_two : forall n o eps v0 c0 d0 l0 samples smoothing f tol,
  (1 <= n)%nat -> shaped n 2 o -> gb_dom o = n -> fitWithOriginal lu svd tol eps v0 c0 d0 l0 o samples smoothing f = None.
Proof.
  intros n o eps v0 c0 d0 l0 samples w f tol Hn So Do. pose proof So as (On & Od & Ol & Ln & Lx). unfold fitWithOriginal.
  replace (fitStart v0 c0 d0 l0 o) with (@None gbsurf); [reflexivity|]. symmetry. unfold fitStart. rewrite Do, Od. cbn [Nat.eqb Nat.sub].
  destruct n as [|n]; [lia|]. cbn [seq foldM].
  assert (N : controlPoint o 0 0 1 = None).
  { unfold controlPoint, get3. destruct (nth_error (gb_nets o) 0) as [x|] eqn:X; [|reflexivity]. cbn [bind]. destruct (Lx x (nth_error_In _ _ X)) as [Lx1 Lx2].
    destruct (nth_error x 0) as [y|] eqn:Y; [|reflexivity]. cbn [bind]. apply nth_error_None. rewrite (Lx2 y (nth_error_In _ _ Y)). cbn. lia. }
  destruct (controlPoint o 0 0 0) as [p|]; [|reflexivity]. cbn [bind]. destruct (setControlPoint _ 0 0 0 p) as [g|]; [|reflexivity]. cbn [bind]. rewrite N. reflexivity.
Qed.

(** Degree one with the default two fixed rows: the movable control points are looked for
    in a row that does not exist. *)
Theorem C68_degree_one : forall n o eps v0 c0 d0 l0 samples smoothing tol,
  (1 <= n)%nat -> gb_deg o = 1%nat -> gb_dom o = n -> fitWithOriginal lu svd tol eps v0 c0 d0 l0 o samples smoothing 2 = None.
Proof.
  intros n o eps v0 c0 d0 l0 samples w tol Hn Od Do. unfold fitWithOriginal.
  destruct (fitStart v0 c0 d0 l0 o) as [g|] eqn:Eg; [|reflexivity]. cbn [bind].
  assert (Sg : shaped n 1 g).
  { unfold fitStart in Eg. rewrite Do, Od in Eg. cbn [Nat.eqb Nat.sub seq foldM] in Eg.
    assert (F : forall (s : gbsurf) (l : list nat), foldM (fun s _ => Some s) s l = Some s) by (intros s l; induction l as [|a l IH]; [reflexivity|exact IH]).
    rewrite F in Eg. cbn [bind] in Eg. destruct (init_new v0 (gbNew d0 l0 c0) n 1 ltac:(left; cbn; lia)) as [S0 _]. unfold gbSetupLoop in Eg.
    destruct (gbBoundary _); [|discriminate]. injection Eg as <-. exact S0. }
  pose proof Sg as (Gn & Gd & Gl & Ln & Lx). rewrite Gn, Gd. cbv zeta. cbn [plus Nat.ltb Nat.leb]. rewrite Nat.mul_0_r, Nat.mul_0_l.
  destruct (gbCount n 1 <=? 0)%nat; [reflexivity|]. destruct (fitSystem eps g 2 0 w samples) as [rows|]; [|reflexivity]. cbn [bind].
  generalize (fitSolve lu svd tol (length rows) (gbCount n 1 - 0) (fun j c => fst (nth j rows (fun _ : nat => 0, vzero)) c) (fun j => snd (nth j rows (fun _ : nat => 0, vzero)))).
  intros x. unfold movable. replace (gbCount n 1 - 1 - 0)%nat with n by (unfold gbCount; cbn; lia). destruct n as [|n]; [lia|].
  cbn [seq enumLoop carry Nat.ltb Nat.leb combine]. unfold fitFill. cbn [foldM].
  replace (setControlPoint (setCentral g (x 0%nat)) 0 2 2 (x 1%nat)) with (@None gbsurf); [reflexivity|]. symmetry. unfold setControlPoint.
  replace (set3 (gb_nets (setCentral g (x 0%nat))) 0 2 2 (x 1%nat)) with (@None nets); [reflexivity|]. symmetry. cbn [setCentral gb_nets].
  unfold set3.
  destruct (nth_error (gb_nets g) 0) as [y|] eqn:Y; [|reflexivity]. cbn [bind]. destruct (Lx y (nth_error_In _ _ Y)) as [Ly _].
  replace (nth_error y 2) with (@None (list V3)); [reflexivity|]. symmetry. apply nth_error_None. cbn in Ly. lia.
Qed.

(** Degree one with one fixed row: nothing is copied at all, every corner of the result is
    what a new point contains. *)
Theorem C68_corners_lost : forall n o eps v0 c0 d0 l0 samples smoothing tol,
  (3 <= n)%nat -> 0 < eps <= 1 -> shaped n 1 o -> gb_dom o = n -> least_squares_solver svd ->
  (forall s, In s samples -> proper eps n (fst s)) ->
  exists r, fitWithOriginal lu svd tol eps v0 c0 d0 l0 o samples smoothing 1 = Some r /\
    forall i j, (i < n)%nat -> (j <= 1)%nat -> controlPoint r i j 0 = Some v0.
Proof.
  intros n o eps v0 c0 d0 l0 samples w tol Hn He So Do Lsq Hs. pose proof So as (On & Od & _).
  destruct (init_new v0 (gbNew d0 l0 c0) n 1 ltac:(left; cbn; lia)) as [S0 V0]. set (g0 := initNetwork v0 (gbNew d0 l0 c0) n 1) in *.
  assert (C0 : consistent n 1 g0) by (intros p q Rp Rq _; rewrite !V0 by assumption; reflexivity).
  destruct (boundary_some n 1 g0 ltac:(lia) S0) as [bd Bd].
  set (g := mkGB (gb_n g0) (gb_deg g0) (gb_lay g0) (gb_cen g0) (gb_nets g0) (gb_sq g0) (gb_n g0)).
  assert (Eg : fitStart v0 c0 d0 l0 o = Some g).
  { unfold fitStart. rewrite Do, Od. cbn [Nat.eqb Nat.sub seq foldM]. fold g0.
    assert (F : forall (s : gbsurf) (l : list nat), foldM (fun s _ => Some s) s l = Some s) by (intros s l; induction l as [|a l IH]; [reflexivity|exact IH]).
    rewrite F. cbn [bind]. unfold gbSetupLoop. rewrite Bd. reflexivity. }
  assert (Sg : shaped n 1 g) by exact S0. assert (Cg : consistent n 1 g) by exact C0.
  destruct (fit_spec n 1 1 g eps w samples Hn ltac:(lia) ltac:(cbn; lia) He Sg Cg Hs lu svd tol Lsq) as (rows & r & Er & Ef & Cr & Dr & Kr & _).
  exists r. split.
  - unfold fitWithOriginal. rewrite Eg. cbn [bind]. pose proof Sg as (Gn & Gd & _). rewrite Gn, Gd. cbv zeta.
    destruct (Nat.ltb_spec (1 + 1) 1); [lia|]. destruct (Nat.leb_spec (gbCount n 1) (n * (1 + 1 - 1) * 1)) as [L|_]; [unfold gbCount in L; cbn in L; lia|]. rewrite Er. cbn [bind]. exact Ef.
  - intros i j Hi Hj. assert (R : inRange n 1 (i, j, 0)%nat) by (cbn [inRange]; lia). destruct (main_row n 1 i j 0 ltac:(lia) R) as (s & c & k' & I & Sm & Lk).
    exact (eq_trans (Kr s c k' (i, j, 0)%nat I ltac:(lia) R Sm) (V0 (i, j, 0)%nat R)).
Qed.
End Props.

(** A patch of three sides, flat but for one interior control point, sampled at one point of
    its domain and fitted with one fixed row. *)
Example C68_example : exists o p r, let sds := [mkV2 (1/2) (1/2); mkV2 (1/3) (1/3); mkV2 (3/4) (1/4)] in
  controlPoint o 0 1 1 = Some (mkV3 1 2 3) /\ gbEval (1/10) o sds = Some p /\
  fitWithOriginal projectSolver projectSolver 0 (1/10) vzero vzero 0 0 o [(sds, p)] 0 1 = Some r /\
  controlPoint r 2 1 0 = Some vzero /\ gbEval (1/10) r sds = Some p.
Proof.
  set (sds := [mkV2 (1/2) (1/2); mkV2 (1/3) (1/3); mkV2 (3/4) (1/4)]).
  destruct (init_new vzero (mkGB 0 0 0 vzero [] false 3) 3 3 ltac:(left; cbn; lia)) as [S0 V0]. set (g0 := initNetwork vzero (mkGB 0 0 0 vzero [] false 3) 3 3) in *.
  assert (C0 : consistent 3 3 g0) by (intros p q Rp Rq _; rewrite !V0 by assumption; reflexivity).
  set (ops := [OSet (0, 1, 1)%nat (mkV3 1 2 3)]).
  assert (F : Forall (opOk 3 3) ops) by (constructor; [cbn; lia|constructor]).
  destruct (run_spec 3 3 ops g0 S0 F) as (o & E & So & Do & W).
  assert (Co : consistent 3 3 o) by (apply (run_consistent 3 3 ops g0 o S0 F); [intros q p [Q|[]]; discriminate Q|exact C0|exact E]).
  assert (Qo : gb_sq o = false).
  { destruct (run_cen ops g0 o) as [_ Q]; [intros x [<-|[]]; eauto|exact E|]. rewrite Q. reflexivity. }
  assert (Pr : proper (1/10) 3 sds).
  { left. split; [reflexivity|]. intros i a b Ha Hb. destruct i as [|[|[|i]]]; cbn in Ha, Hb; [| | |destruct i; discriminate Ha];
      injection Ha as <-; injection Hb as <-; cbn; lra. }
  destruct (proper_weights 3 3 o (1/10) sds ltac:(lia) ltac:(lia) So Co ltac:(lra) Pr) as (Wt & _ & Ev).
  assert (Keep : keeps 3 3 1 o o) by (split; [exact So|]; split; [exact Co|]; split; [exact Qo|]; intros; reflexivity).
  destruct (C68_recovers projectSolver projectSolver 3 3 1 o (1/10) vzero vzero 0 0 [(sds, combined 3 3 Wt o)] o ltac:(lia) ltac:(lia) ltac:(lia) ltac:(lra) So Co Do
    project_least_squares ltac:(intros s [<-|[]]; exact Pr) Keep ltac:(intros x p [Q|[]]; injection Q as <- <-; exact Ev)) as (r & Er & Kr & Tr & _).
  exists o, (combined 3 3 Wt o), r. cbv zeta. fold sds.
  split; [|split; [exact Ev|split; [exact Er|split; [|apply Tr; left; reflexivity]]]].
  - apply (proj1 (W (0, 1, 1)%nat ltac:(cbn; lia)) [] (OSet (0, 1, 1)%nat (mkV3 1 2 3)) []); [reflexivity|split; [left; reflexivity|reflexivity]|intros o' p' []].
  - destruct Kr as (_ & _ & _ & Kr). rewrite (Kr 2 1 0)%nat by (cbn; lia). apply (eq_trans (proj2 (W (2, 1, 0)%nat ltac:(cbn; lia)) ltac:(intros x p [<-|[]] [Sm _]; destruct Sm as [Q|[M|M]]; [discriminate Q|inversion M; cbn in *; lia|inversion M; cbn in *; lia]))).
    apply V0. cbn; lia.
Qed.

Print Assumptions C68_minimal.
Print Assumptions C68_recovers.
Print Assumptions C68_two_rows.
Print Assumptions C68_three_rows.
Print Assumptions C68_degree_two.
Print Assumptions C68_degree_one.
Print Assumptions C68_corners_lost.
