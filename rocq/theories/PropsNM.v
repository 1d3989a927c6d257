(** Properties of the Nelder-Mead optimizer: C55. *)
From Verif Require Import Base UtilModel UtilProofs NMModel NMProofs.
Open Scope R_scope.

(** ** C55: the optimizer *)

(** The start point and its displacements by [h] along the axes. *)
Definition displaced (x : npoint) (i : nat) (h : R) : npoint := firstn i x ++ (nth i x 0 + h) :: skipn (S i) x.
Definition start_points (x : npoint) (h : R) : list npoint := x :: map (fun i => displaced x i h) (seq 0 (length x)).

(** A simplex of n+1 points of dimension n, with the values of [f]. *)
Definition valued (f : npoint -> R) (n : nat) (s : simplex) : Prop :=
  length (sx_S s) = (n + 1)%nat /\ (forall p, In p (sx_S s) -> length p = n) /\ sx_y s = map f (sx_S s).

Lemma start_valued : forall f x h, valued f (length x) (mkSx (start_points x h) (map f (start_points x h))).
Proof.
  intros f x h. split; [|split; [|reflexivity]]; unfold start_points; cbn [sx_S].
  - cbn [length]. rewrite map_length, seq_length. lia.
  - intros p [<-|Hp]; [reflexivity|]. apply in_map_iff in Hp. destruct Hp as (i & <- & Hi). apply in_seq in Hi. apply bump_length. lia.
Qed.

(** The result exists, and is not worse than any point of the first simplex. *)
Lemma optimize_value : forall f x K tol h, exists delta s m p, nmLoop f (length x) tol K None (mkSx (start_points x h) (map f (start_points x h))) = Some (delta, s) /\
  valued f (length x) s /\ (delta = None /\ s = mkSx (start_points x h) (map f (start_points x h)) \/ delta = Some (nmDelta (length x) (sx_y s))) /\
  argmin (sx_y s) (length x) = Some m /\ nth_error (sx_S s) m = Some p /\ (forall q, In q (sx_S s) -> f p <= f q) /\
  (forall q, In q (start_points x h) -> f p <= f q) /\
  nmOptimize f x K tol h = Some (match delta with None => false | Some v => if Rlt_dec v tol then true else false end, p).
Proof.
  intros f x K tol h. destruct (start_spec x h) as (S0 & E0 & V0). change (S0 = start_points x h) in V0. subst S0.
  pose proof (start_valued f x h) as W0. destruct (loop_spec f (length x) tol K None _ W0) as (delta & s & E & W & D & V).
  destruct (argmin_spec (sx_y s) (length x) (wf_y f (length x) s W)) as (m & Em & Hm & Vm). destruct (wf_at f (length x) s m W Hm) as (p & Ep & Lp & Yp).
  exists delta, s, m, p. split; [exact E|]. split; [exact W|]. split; [exact D|]. split; [exact Em|]. split; [exact Ep|].
  assert (A : forall q, In q (sx_S s) -> f p <= f q).
  { intros q Hq. apply In_nth_error in Hq. destruct Hq as (i & Ei). assert (Hi : (i < length (sx_S s))%nat) by (apply nth_error_Some; congruence).
    destruct W as (Ls & Pl & Y). rewrite Ls in Hi. specialize (Vm i ltac:(lia)). rewrite Yp in Vm. replace (f q) with (yv (sx_y s) i); [exact Vm|].
    rewrite Y. unfold yv. apply nth_error_nth. apply map_nth_error. exact Ei. }
  split; [exact A|]. split.
  - intros q Hq. apply In_nth_error in Hq. destruct Hq as (i & Ei). assert (Hi : (i < length (start_points x h))%nat) by (apply nth_error_Some; congruence).
    destruct W0 as (Ls & _). cbn [sx_S] in Ls. rewrite Ls in Hi. destruct (V i ltac:(lia)) as (j & Hj & Lj). cbn [sx_y] in Lj.
    specialize (Vm j Hj). rewrite Yp in Vm. replace (f q) with (yv (map f (start_points x h)) i); [lra|]. unfold yv. apply nth_error_nth. apply map_nth_error. exact Ei.
  - unfold nmOptimize. rewrite E0. cbn [bind]. rewrite E. cbn [bind]. rewrite Em. cbn [bind]. rewrite Ep. reflexivity.
Qed.

Theorem C55_result : forall f x K tol h, exists ok x', nmOptimize f x K tol h = Some (ok, x') /\ length x' = length x /\
  forall p, In p (start_points x h) -> f x' <= f p.
Proof.
  intros f x K tol h. destruct (optimize_value f x K tol h) as (delta & s & m & p & _ & (_ & W & _) & _ & _ & Ep & _ & A & E).
  eexists _, p. split; [exact E|]. split; [apply W; apply (nth_error_In _ _ Ep)|exact A].
Qed.
Print Assumptions C55_result.

(** More iterations never give a worse point; after success they change
    nothing.  Without an iteration there is no success. *)
Theorem C55_more_iterations : forall f x K L tol h ok ok' a b,
  nmOptimize f x K tol h = Some (ok, a) -> nmOptimize f x (K + L) tol h = Some (ok', b) ->
  f b <= f a /\ (ok = true -> ok' = true /\ b = a).
Proof.
  intros f x K L tol h ok ok' a b. destruct (optimize_value f x K tol h) as (delta & s & m & p & E1 & W & D & Em & Ep & B & A & E).
  destruct (optimize_value f x (K + L) tol h) as (delta' & s' & m' & p' & E1' & W' & D' & Em' & Ep' & B' & A' & E'). rewrite E, E'. intros [= <- <-] [= <- <-].
  rewrite loop_split, E1 in E1'. cbn [bind] in E1'. destruct (loop_spec f (length x) tol L delta s W) as (d2 & s2 & E2 & W2 & D2 & V2). rewrite E2 in E1'. injection E1' as -> ->. split.
  - assert (Hm : (m < length (sx_S s))%nat) by (apply nth_error_Some; congruence). destruct W as (Ls & _ & Y). rewrite Ls in Hm.
    destruct (V2 m ltac:(lia)) as (j & Hj & Lj). destruct (wf_at f (length x) s' j W' Hj) as (q & Eq & _ & Yq). rewrite Yq in Lj.
    specialize (B' q (nth_error_In _ _ Eq)). replace (f p) with (yv (sx_y s) m); [lra|]. rewrite Y. unfold yv. apply nth_error_nth. apply map_nth_error. exact Ep.
  - intros Ok. destruct delta as [v|]; [|discriminate]. destruct (Rlt_dec v tol) as [Lv|]; [|discriminate].
    assert (N : nmLoop f (length x) tol L (Some v) s = Some (Some v, s)).
    { destruct L as [|L]; cbn [nmLoop]; [reflexivity|]. destruct (Rle_dec tol v); [lra|reflexivity]. }
    rewrite N in E2. injection E2 as <- <-. destruct (Rlt_dec v tol); [|lra]. split; [reflexivity|].
    rewrite Em in Em'. injection Em' as <-. rewrite Ep in Ep'. injection Ep' as <-. reflexivity.
Qed.
Print Assumptions C55_more_iterations.

(** Success means that some simplex containing the result has values of small
    variance, and all of them are at least the value of the result. *)
Theorem C55_success : forall f x K tol h a, nmOptimize f x K tol h = Some (true, a) ->
  exists S, length S = (length x + 1)%nat /\ In a S /\ (forall p, In p S -> length p = length x /\ f a <= f p) /\
    let mean := fold_right Rplus 0 (map f S) / INR (length S) in
    fold_right Rplus 0 (map (fun p => (f p - mean) ^ 2) S) / INR (length S) < tol.
Proof.
  intros f x K tol h a. destruct (optimize_value f x K tol h) as (delta & s & m & p & E1 & W & D & Em & Ep & B & A & E). rewrite E.
  destruct delta as [v|]; [|discriminate]. destruct (Rlt_dec v tol) as [Lv|]; [|discriminate]. intros [= <-].
  destruct D as [[D _]|D]; [discriminate|]. injection D as ->. destruct W as (Ls & Pl & Y). exists (sx_S s).
  split; [exact Ls|]. split; [apply (nth_error_In _ _ Ep)|]. split; [intros q Hq; split; [apply Pl|apply B]; exact Hq|].
  cbv zeta. assert (FL : forall (g : R -> R) l a, fold_left (fun a yi => a + g yi) l a = a + fold_right Rplus 0 (map g l)).
  { intros g l. induction l as [|y l IH]; intros c; cbn [fold_left map fold_right]; [ring|]. rewrite IH. ring. }
  unfold nmDelta in Lv. rewrite Ls. rewrite Y in Lv.
  set (mean' := fold_left Rplus (map f (sx_S s)) 0 / (INR (length x) + 1)) in Lv.
  assert (M : mean' = fold_right Rplus 0 (map f (sx_S s)) / INR (length x + 1)).
  { unfold mean'. rewrite plus_INR. change (INR 1) with 1. f_equal. change (fold_left (fun a yi => a + (fun z => z) yi) (map f (sx_S s)) 0 = fold_right Rplus 0 (map f (sx_S s))).
    rewrite FL, map_id. ring. }
  rewrite (FL (fun yi => (yi - mean') ^ 2)), map_map, Rplus_0_l, M in Lv. exact Lv.
Qed.
Print Assumptions C55_success.

(** ** The extremes.  The lowest and the highest vertex are found; the second
    highest only if the first vertex is not a highest one: otherwise the index
    of the second highest vertex stays 0, that of the highest. *)
Theorem C55_extremes : forall y n, length y = (n + 1)%nat -> exists low high second, extremes y n = Some (low, high, second) /\
  (low <= n)%nat /\ (high <= n)%nat /\ (second <= n)%nat /\ (forall i, (i <= n)%nat -> nth low y 0 <= nth i y 0 <= nth high y 0) /\
  ((exists i, (i <= n)%nat /\ nth 0 y 0 < nth i y 0) -> second <> high /\ forall i, (i <= n)%nat -> i <> high -> nth i y 0 <= nth second y 0) /\
  ((forall i, (i <= n)%nat -> nth i y 0 <= nth 0 y 0) -> high = 0%nat /\ second = 0%nat).
Proof.
  intros y n Ly. destruct (extremes_spec y n Ly) as ([[low high] second] & E & A1 & A2 & A3 & B & _ & C & _ & D & D9).
  exists low, high, second. split; [exact E|]. split; [exact A1|]. split; [exact A2|]. split; [exact A3|]. split; [intros i Hi; apply B; lia|]. split.
  - intros (i & Hi & L). assert (high <> 0%nat). { intros ->. specialize (B i ltac:(lia)). unfold yv in B. lra. }
    destruct (D H) as [D1 D2]. split; [exact D1|]. intros j Hj N. apply D2; [lia|exact N].
  - intros M. destruct (Nat.eq_dec high 0) as [Z|Z]; [split; [exact Z|exact (C Z)]|]. specialize (D9 Z). specialize (M high A2). unfold yv in D9. lra.
Qed.
Print Assumptions C55_extremes.

(** ** One iteration in closed form *)
Section Iteration.
Variables (f : npoint -> R) (n : nat) (s : simplex) (low high second : nat).
Let X (i k : nat) : R := nth k (nth i (sx_S s) []) 0.
Let y (i : nat) : R := nth i (sx_y s) 0.
(** Centroid of the face opposite the highest vertex. *)
Definition face_centre (k : nat) : R := (rsum (n + 1) (fun i => X i k) - X high k) / INR n.
Definition reflected : npoint := tabulate n (fun k => 2 * face_centre k - X high k).
Definition expanded : npoint := tabulate n (fun k => 3 * face_centre k - 2 * X high k).
Definition contracted (p : npoint) : npoint := tabulate n (fun k => (face_centre k + nth k p 0) / 2).
(** The simplex with the highest vertex replaced; halved towards the lowest. *)
Definition replaced (p : npoint) : list npoint := tabulate (n + 1) (fun j => if (j =? high)%nat then p else nth j (sx_S s) []).
Definition halved (S : list npoint) : list npoint := tabulate (n + 1) (fun i => if (i =? low)%nat then nth low S []
  else tabulate n (fun k => (nth k (nth i S []) 0 + nth k (nth low S []) 0) / 2)).
Definition with_values (S : list npoint) : simplex := mkSx S (map f S).
Definition next_simplex : list npoint :=
  let r := f reflected in
  if Rlt_dec r (y low) then if Rlt_dec (f expanded) r then replaced expanded else replaced reflected
  else if Rle_dec r (y second) then replaced reflected
  else if Rle_dec r (y high) then
    if Rle_dec (f (contracted reflected)) r then replaced (contracted reflected) else halved (replaced reflected)
  else
    if Rle_dec (f (contracted (nth high (sx_S s) []))) (y high) then replaced (contracted (nth high (sx_S s) [])) else halved (sx_S s).
End Iteration.

Theorem C55_step : forall f n s low high second, (1 <= n)%nat -> valued f n s -> extremes (sx_y s) n = Some (low, high, second) ->
  nmStep f n s = Some (with_values f (next_simplex f n s low high second)).
Proof.
  intros f n s low high second n1 W E. pose proof (wf_y f n s W) as Ly.
  destruct (extremes_spec (sx_y s) n Ly) as (t & E' & P). rewrite E in E'. injection E' as <-. destruct P as (A1 & A2 & A3 & _).
  unfold nmStep. rewrite E. cbn [bind]. rewrite (centroid_value f n s W n1 high A2). cbn [bind].
  destruct (S_at f n s W high A2) as (Eh & Lh). rewrite Eh. cbn [bind].
  set (c := cen n s high). assert (Hc : forall k, (k < n)%nat -> crd (tabulate n c) k = c k) by (intros k Hk; apply crd_tab; exact Hk).
  assert (Lc : length (tabulate n c) = n) by apply tabulate_length.
  rewrite (comb_value n n1 (tabulate n c) (tabulate n c) c c 1 Lc Lc Hc Hc). cbn [bind].
  rewrite (comb_value n n1 _ (pnt (sx_S s) high) (fun k => c k + c k * 1) (crd (pnt (sx_S s) high)) (- 1) (tabulate_length _ _ _) Lh); [|intros k Hk; apply crd_tab; exact Hk|reflexivity].
  cbn [bind]. rewrite !(y_at (sx_y s) n Ly) by assumption. cbn [bind].
  assert (ER : tabulate n (fun k => c k + c k * 1 + crd (pnt (sx_S s) high) k * -1) = reflected n s high).
  { apply tabulate_ext. intros k Hk. change (face_centre n s high k) with (c k). unfold crd, pnt. ring. }
  rewrite ER. assert (LR : length (reflected n s high) = n) by apply tabulate_length.
  assert (CR : forall k, (k < n)%nat -> crd (reflected n s high) k = 2 * c k - crd (pnt (sx_S s) high) k) by (intros k Hk; unfold reflected; rewrite crd_tab by exact Hk; reflexivity).
  assert (PV : forall p, length p = n -> put s high p (f p) = Some (with_values f (replaced n s high p)) /\ valued f n (with_values f (replaced n s high p))).
  { intros p Lp. exact (put_value f n s W n1 high p A2 Lp). }
  assert (PN : forall p, pnt (sx_S (with_values f (replaced n s high p))) high = p).
  { intros p. unfold pnt, with_values, replaced. cbn [sx_S]. apply nth_error_nth. rewrite tabulate_nth_error by lia. rewrite Nat.eqb_refl. reflexivity. }
  unfold next_simplex. change (nth low (sx_y s) 0) with (yv (sx_y s) low). change (nth second (sx_y s) 0) with (yv (sx_y s) second). change (nth high (sx_y s) 0) with (yv (sx_y s) high).
  destruct (Rlt_dec (f (reflected n s high)) (yv (sx_y s) low)) as [K|K].
  - rewrite (comb_value n n1 (tabulate n c) (reflected n s high) c (fun k => 2 * c k - crd (pnt (sx_S s) high) k) 2 Lc LR Hc CR). cbn [bind].
    rewrite (comb_value n n1 _ (tabulate n c) (fun k => c k + (2 * c k - crd (pnt (sx_S s) high) k) * 2) c (- 2) (tabulate_length _ _ _) Lc); [|intros k Hk; apply crd_tab; exact Hk|exact Hc].
    cbn [bind]. replace (tabulate n (fun k => c k + (2 * c k - crd (pnt (sx_S s) high) k) * 2 + c k * -2)) with (expanded n s high).
    2: { apply tabulate_ext. intros k Hk. change (face_centre n s high k) with (c k). unfold crd, pnt. ring. }
    destruct (Rlt_dec (f (expanded n s high)) _); [apply PV; apply tabulate_length|apply PV; exact LR].
  - destruct (Rlt_dec (yv (sx_y s) second) (f (reflected n s high))) as [K2|K2]; destruct (Rle_dec (f (reflected n s high)) (yv (sx_y s) second)) as [K3|K3]; try lra.
    + destruct (Rle_dec (f (reflected n s high)) (yv (sx_y s) high)) as [K4|K4].
      * destruct (PV _ LR) as (-> & W1). cbn [bind]. destruct (S_at f n _ W1 high A2) as (-> & _). rewrite PN. cbn [bind].
        rewrite (comb_value n n1 (tabulate n c) (reflected n s high) c (crd (reflected n s high)) (/ 2) Lc LR Hc ltac:(reflexivity)). cbn [bind].
        rewrite (comb_value n n1 _ (tabulate n c) (fun k => c k + crd (reflected n s high) k * / 2) c (- / 2) (tabulate_length _ _ _) Lc); [|intros k Hk; apply crd_tab; exact Hk|exact Hc].
        cbn [bind]. replace (tabulate n (fun k => c k + crd (reflected n s high) k * / 2 + c k * - / 2)) with (contracted n s high (reflected n s high)).
        2: { apply tabulate_ext. intros k Hk. change (face_centre n s high k) with (c k). unfold crd. field. }
        assert (Y1 : nth_error (sx_y (with_values f (replaced n s high (reflected n s high)))) high = Some (f (reflected n s high))).
        { unfold with_values, replaced. cbn [sx_y]. rewrite nth_error_map, tabulate_nth_error by lia. rewrite Nat.eqb_refl. reflexivity. }
        rewrite Y1. cbn [bind]. destruct (Rlt_dec (f (reflected n s high)) (f (contracted n s high (reflected n s high)))) as [K5|K5]; destruct (Rle_dec (f (contracted n s high (reflected n s high))) (f (reflected n s high))); try lra.
        -- exact (shrink_value f n _ low W1 n1 A1).
        -- destruct (put_value f n _ W1 n1 high (contracted n s high (reflected n s high)) A2 (tabulate_length _ _ _)) as (-> & _). f_equal. unfold swapped, with_values.
           assert (ES : tabulate (n + 1) (fun j => if (j =? high)%nat then contracted n s high (reflected n s high) else pnt (sx_S (mkSx (replaced n s high (reflected n s high)) (map f (replaced n s high (reflected n s high))))) j) = replaced n s high (contracted n s high (reflected n s high))).
           { apply tabulate_ext. intros j Hj. destruct (Nat.eqb_spec j high) as [|N]; [reflexivity|]. unfold pnt, replaced. cbn [sx_S]. apply nth_error_nth. rewrite tabulate_nth_error by exact Hj.
             destruct (Nat.eqb_spec j high); [contradiction|reflexivity]. }
           rewrite ES. reflexivity.
      * cbn [bind]. rewrite Eh. cbn [bind].
        rewrite (comb_value n n1 (tabulate n c) (pnt (sx_S s) high) c (crd (pnt (sx_S s) high)) (/ 2) Lc Lh Hc ltac:(reflexivity)). cbn [bind].
        rewrite (comb_value n n1 _ (tabulate n c) (fun k => c k + crd (pnt (sx_S s) high) k * / 2) c (- / 2) (tabulate_length _ _ _) Lc); [|intros k Hk; apply crd_tab; exact Hk|exact Hc].
        cbn [bind]. replace (tabulate n (fun k => c k + crd (pnt (sx_S s) high) k * / 2 + c k * - / 2)) with (contracted n s high (nth high (sx_S s) [])).
        2: { apply tabulate_ext. intros k Hk. change (face_centre n s high k) with (c k). unfold crd, pnt. field. }
        rewrite (y_at (sx_y s) n Ly) by assumption. cbn [bind].
        destruct (Rlt_dec (yv (sx_y s) high) (f (contracted n s high (nth high (sx_S s) [])))) as [K5|K5]; destruct (Rle_dec (f (contracted n s high (nth high (sx_S s) []))) (yv (sx_y s) high)); try lra.
        -- exact (shrink_value f n s low W n1 A1).
        -- apply PV. apply tabulate_length.
    + apply PV. exact LR.
Qed.
Print Assumptions C55_step.

(** The values stay those of the simplex, and the best value never grows. *)
Theorem C55_values : forall f n s, valued f n s -> exists s', nmStep f n s = Some s' /\ valued f n s' /\
  forall p, In p (sx_S s) -> exists q, In q (sx_S s') /\ f q <= f p.
Proof.
  intros f n s W. destruct (step_spec f n s W) as (s' & E & W' & V). exists s'. split; [exact E|]. split; [exact W'|].
  intros p Hp. apply In_nth_error in Hp. destruct Hp as (i & Ei). assert (Hi : (i < length (sx_S s))%nat) by (apply nth_error_Some; congruence).
  destruct W as (Ls & _ & Y). rewrite Ls in Hi. destruct (V i ltac:(lia)) as (j & Hj & Lj). destruct (wf_at f n s' j W' Hj) as (q & Eq & _ & Yq).
  exists q. split; [apply (nth_error_In _ _ Eq)|]. rewrite <- Yq. replace (f p) with (yv (sx_y s) i); [exact Lj|]. rewrite Y. unfold yv. apply nth_error_nth. apply map_nth_error. exact Ei.
Qed.
Print Assumptions C55_values.

(** The consequence of the missing second highest vertex: when the first vertex
    is the highest one, a reflected point worse than all others but not worse
    than the first vertex is taken over without trying to contract. *)
Corollary C55_no_contraction : forall f n s, (1 <= n)%nat -> valued f n s ->
  (forall i, (i <= n)%nat -> nth i (sx_y s) 0 <= nth 0 (sx_y s) 0) ->
  let r := reflected n s 0 in (exists i, (i <= n)%nat /\ nth i (sx_y s) 0 <= f r) -> f r <= nth 0 (sx_y s) 0 ->
  nmStep f n s = Some (with_values f (replaced n s 0 r)).
Proof.
  intros f n s n1 W M r (i & Hi & Li) Lr. destruct (C55_extremes (sx_y s) n (wf_y f n s W)) as (low & high & second & E & _ & _ & _ & B & _ & Z).
  destruct (Z M) as [-> ->]. rewrite (C55_step f n s low 0 0 n1 W E). f_equal. unfold next_simplex. fold r.
  destruct (Rlt_dec (f r) (nth low (sx_y s) 0)) as [K|K]; [specialize (B i Hi); lra|]. destruct (Rle_dec (f r) (nth 0 (sx_y s) 0)); [reflexivity|contradiction].
Qed.
Print Assumptions C55_no_contraction.

(** A quadratic in two variables from (1,1) with step 1: the first iteration
    reflects (2,1)... and the start value 2 is improved. *)
Example C55_example : let f := fun p : npoint => nth 0 p 0 ^ 2 + nth 1 p 0 ^ 2 in
  start_points [1; 1] 1 = [[1; 1]; [1 + 1; 1]; [1; 1 + 1]] /\
  (exists ok p, nmOptimize f [1; 1] 1 1 1 = Some (ok, p) /\ f p <= 2) /\
  extremes [5; 3; 4] 2 = Some (1, 0, 0)%nat /\ extremes [3; 5; 4] 2 = Some (0, 1, 2)%nat.
Proof.
  split; [reflexivity|]. split; [|split].
  - destruct (C55_result (fun p => nth 0 p 0 ^ 2 + nth 1 p 0 ^ 2) [1; 1] 1 1 1) as (ok & p & E & _ & A). exists ok, p. split; [exact E|].
    specialize (A [1; 1] (or_introl eq_refl)). cbn [nth] in A |- *. lra.
  - unfold extremes. cbn [Nat.add seq foldM extremeStep bind nth_error].
    repeat (match goal with |- context[Rlt_dec ?a ?b] => destruct (Rlt_dec a b); try lra end; cbn [bind nth_error extremeStep]). reflexivity.
  - unfold extremes. cbn [Nat.add seq foldM extremeStep bind nth_error].
    repeat (match goal with |- context[Rlt_dec ?a ?b] => destruct (Rlt_dec a b); try lra end; cbn [bind nth_error extremeStep]). reflexivity.
Qed.
