(** Nelder-Mead: the loop keeps the values of the simplex and its minimum never
    grows. *)
From Verif Require Import Base UtilModel UtilProofs NMModel.
Open Scope R_scope.

Lemma nth_error_eq : forall A (l l' : list A), (forall j, nth_error l j = nth_error l' j) -> l = l'.
Proof.
  induction l as [|a l IH]; intros [|b l'] H; [reflexivity|discriminate (H 0%nat)|discriminate (H 0%nat)|].
  f_equal; [injection (H 0%nat); auto|]. apply IH. intros j. exact (H (S j)).
Qed.

Lemma foldM_seq : forall (T : Type) (f : T -> nat -> option T) (P : nat -> T -> Prop) m a s, P a s ->
  (forall i s, (a <= i < a + m)%nat -> P i s -> exists s', f s i = Some s' /\ P (S i) s') ->
  exists s', foldM f s (seq a m) = Some s' /\ P (a + m)%nat s'.
Proof.
  intros T f P m. induction m as [|m IH]; intros a s H0 H; cbn [seq foldM].
  - exists s. split; [reflexivity|]. rewrite Nat.add_0_r. exact H0.
  - destruct (H a s ltac:(lia) H0) as (s1 & E & P1). rewrite E. cbn [bind].
    destruct (IH (S a) s1 P1) as (s' & E' & P'); [intros i t Hi; apply H; lia|]. exists s'. split; [exact E'|].
    replace (a + S m)%nat with (S a + m)%nat by lia. exact P'.
Qed.

Lemma addmul_total : forall x d a, length x = length d -> exists r, addmul x d a = Some r /\ length r = length x.
Proof.
  induction x as [|b x IH]; intros [|c d] a H; try discriminate; cbn [addmul]; [eexists; split; reflexivity|].
  destruct (IH d a ltac:(simpl in H; lia)) as (r & -> & L). cbn [bind]. eexists; split; [reflexivity|simpl; lia].
Qed.
Lemma average_total : forall x d, length x = length d -> exists r, average x d = Some r /\ length r = length x.
Proof.
  induction x as [|b x IH]; intros [|c d] H; try discriminate; cbn [average]; [eexists; split; reflexivity|].
  destruct (IH d ltac:(simpl in H; lia)) as (r & -> & L). cbn [bind]. eexists; split; [reflexivity|simpl; lia].
Qed.

Definition yv (y : list R) (i : nat) : R := nth i y 0.

(** ** The extremes *)
Section Ext.
Variable y : list R.
Variable n : nat.
Hypothesis Ly : length y = (n + 1)%nat.
Let g (i : nat) := yv y i.
Definition extInv (k : nat) (s : nat * nat * nat) : Prop :=
  let '(low, high, second) := s in
  (low <= n)%nat /\ (high <= n)%nat /\ (second <= n)%nat /\
  (forall i, (i < k)%nat -> g low <= g i <= g high) /\ (k = 0%nat -> low = 0%nat /\ high = 0%nat /\ second = 0%nat) /\
  (high = 0%nat -> second = 0%nat) /\
  ((0 < k)%nat -> (low < k)%nat /\ (high < k)%nat /\ (second < k)%nat) /\
  (high <> 0%nat -> second <> high /\ forall i, (i < k)%nat -> i <> high -> g i <= g second) /\
  (high <> 0%nat -> g 0 < g high).

Lemma y_at : forall i, (i <= n)%nat -> nth_error y i = Some (g i).
Proof. intros i Hi. apply nth_error_nth'. lia. Qed.

Lemma extremes_spec : exists s, extremes y n = Some s /\ extInv (n + 1) s.
Proof.
  unfold extremes. destruct (foldM_seq _ (extremeStep y) extInv (n + 1) 0 (0, 0, 0)%nat) as (s & E & P); [| |exists s; split; assumption].
  - unfold extInv. repeat split; intros; lia.
  - intros i [[low high] second] Hi (A1 & A2 & A3 & B & C0 & C & D0 & D & D9). unfold extremeStep. rewrite !y_at by lia. cbn [bind].
    destruct (Rlt_dec (g i) (g low)) as [K|K]; [|rewrite ?y_at by lia; cbn [bind]; destruct (Rlt_dec (g high) (g i)) as [K2|K2];
      [|rewrite ?y_at by lia; cbn [bind]; destruct (Rlt_dec (g second) (g i)) as [K3|K3]]]; (eexists; split; [reflexivity|]).
    + assert (Hk : (0 < i)%nat). { destruct i; [|lia]. destruct (C0 eq_refl) as (-> & _). lra. }
      destruct (D0 Hk) as (D1 & D2 & D3). pose proof (B high D2). pose proof (B second D3). split; [lia|]. split; [exact A2|]. split; [exact A3|]. split; [|split; [|split; [exact C|split; [|split]]]].
      * intros j Hj. destruct (Nat.eq_dec j i) as [->|N]; [lra|]. specialize (B j ltac:(lia)). lra.
      * lia.
      * lia.
      * intros Z. destruct (D Z) as [D4 D5]. split; [exact D4|]. intros j Hj N. destruct (Nat.eq_dec j i) as [->|N']; [lra|]. apply D5; [lia|exact N].
      * exact D9.
    + assert (Hk : (0 < i)%nat). { destruct i; [|lia]. destruct (C0 eq_refl) as (_ & -> & _). lra. }
      destruct (D0 Hk) as (D1 & D2 & D3). pose proof (B high D2). split; [exact A1|]. split; [lia|]. split; [exact A2|]. split; [|split; [|split; [|split; [|split]]]].
      * intros j Hj. destruct (Nat.eq_dec j i) as [->|N]; [lra|]. specialize (B j ltac:(lia)). lra.
      * lia.
      * lia.
      * lia.
      * intros Z. split; [lia|]. intros j Hj N. apply B. lia.
      * intros _. specialize (B 0%nat Hk). lra.
    + assert (Hk : (0 < i)%nat). { destruct i; [|lia]. destruct (C0 eq_refl) as (_ & _ & ->). lra. }
      destruct (D0 Hk) as (D1 & D2 & D3). pose proof (B high D2).
      assert (Hh : high <> 0%nat). { intros Z. rewrite (C Z) in K3. rewrite Z in K2. lra. }
      split; [exact A1|]. split; [lia|]. split; [lia|]. split; [|split; [|split; [|split; [|split]]]].
      * intros j Hj. destruct (Nat.eq_dec j i) as [->|N]; [lra|]. specialize (B j ltac:(lia)). lra.
      * lia.
      * lia.
      * lia.
      * intros Z. destruct (D Z) as [D4 D5]. split; [lia|]. intros j Hj N. destruct (Nat.eq_dec j i) as [->|N']; [lra|]. specialize (D5 j ltac:(lia) N). lra.
      * exact D9.
    + split; [exact A1|]. split; [lia|]. split; [lia|]. split; [|split; [|split; [exact C|split; [|split]]]].
      * intros j Hj. destruct (Nat.eq_dec j i) as [->|N]; [lra|]. specialize (B j ltac:(lia)). lra.
      * lia.
      * intros _. destruct i; [destruct (C0 eq_refl) as (-> & -> & ->); lia|]. specialize (D0 ltac:(lia)). lia.
      * intros Z. destruct (D Z) as [D4 D5]. split; [exact D4|]. intros j Hj N. destruct (Nat.eq_dec j i) as [->|N']; [lra|]. apply D5; [lia|exact N].
      * exact D9.
Qed.

Lemma argmin_spec : exists m, argmin y n = Some m /\ (m <= n)%nat /\ forall i, (i <= n)%nat -> g m <= g i.
Proof.
  unfold argmin. destruct (foldM_seq _ (fun min i => yi <- nth_error y i ;; ym <- nth_error y min ;; Some (if Rlt_dec yi ym then i else min))
    (fun k m => (m < k)%nat /\ forall i, (i < k)%nat -> g m <= g i) n 1 0%nat) as (m & E & P).
  - split; [lia|]. intros i Hi. replace i with 0%nat by lia. lra.
  - intros i m Hi (A & B). rewrite !y_at by lia. cbn [bind]. eexists. split; [reflexivity|]. destruct (Rlt_dec (g i) (g m)).
    + split; [lia|]. intros j Hj. destruct (Nat.eq_dec j i) as [->|N]; [lra|]. specialize (B j ltac:(lia)). lra.
    + split; [lia|]. intros j Hj. destruct (Nat.eq_dec j i) as [->|N]; [lra|]. apply B. lia.
  - exists m. split; [exact E|]. destruct P as [A B]. split; [lia|]. intros i Hi. apply B. lia.
Qed.
End Ext.

(** ** One iteration *)
Section Step.
Variables (f : npoint -> R) (n : nat).
Definition wfS (s : simplex) : Prop :=
  length (sx_S s) = (n + 1)%nat /\ (forall p, In p (sx_S s) -> length p = n) /\ sx_y s = map f (sx_S s).
Definition best (s : simplex) (v : R) : Prop := exists i, (i <= n)%nat /\ yv (sx_y s) i <= v.

Lemma wf_y : forall s, wfS s -> length (sx_y s) = (n + 1)%nat.
Proof. intros s (A & _ & C). rewrite C, map_length. exact A. Qed.
Lemma wf_at : forall s i, wfS s -> (i <= n)%nat -> exists p, nth_error (sx_S s) i = Some p /\ length p = n /\ yv (sx_y s) i = f p.
Proof.
  intros s i (A & B & C) Hi. destruct (nth_error_ex _ (sx_S s) i ltac:(lia)) as (p & E). exists p. split; [exact E|]. split; [apply B; apply (nth_error_In _ _ E)|].
  rewrite C. unfold yv. apply nth_error_nth. apply map_nth_error. exact E.
Qed.

Lemma put_spec : forall s i p, wfS s -> (i <= n)%nat -> length p = n -> exists s', put s i p (f p) = Some s' /\ wfS s' /\
  (forall j, (j <= n)%nat -> yv (sx_y s') j = if (j =? i)%nat then f p else yv (sx_y s) j).
Proof.
  intros s i p W Hi Lp. pose proof (wf_y s W) as Ly. destruct W as (A & B & C).
  destruct (upd_spec _ (sx_S s) i p ltac:(lia)) as (S' & E1 & L1 & N1). destruct (upd_spec _ (sx_y s) i (f p) ltac:(lia)) as (y' & E2 & L2 & N2).
  unfold put. rewrite E1. cbn [bind]. rewrite E2. cbn [bind]. eexists. split; [reflexivity|]. cbn [sx_S sx_y]. split; [split; [cbn; lia|split]|].
  - cbn [sx_S]. intros q Hq. apply In_nth_error in Hq. destruct Hq as (j & Ej). rewrite N1 in Ej. destruct (j =? i)%nat; [congruence|]. apply B. apply (nth_error_In _ _ Ej).
  - cbn [sx_S sx_y]. apply nth_error_eq. intros j. rewrite N2, nth_error_map, N1. destruct (j =? i)%nat; [reflexivity|]. rewrite C, nth_error_map. reflexivity.
  - intros j Hj. unfold yv. apply nth_error_nth. rewrite N2. destruct (j =? i)%nat; [reflexivity|]. apply nth_error_nth'. lia.
Qed.

Lemma centroid_total : forall s high, wfS s -> (high <= n)%nat -> exists c, centroidOf (sx_S s) n high = Some c /\ length c = n.
Proof.
  intros s high W Hh. unfold centroidOf.
  destruct (foldM_seq _ (fun c i => p <- nth_error (sx_S s) i ;; addmul c p (/ INR n)) (fun _ c => length c = n) (n + 1) 0 (repeat 0 n)) as (c & E & L).
  - apply repeat_length.
  - intros i c Hi L. destruct (wf_at s i W ltac:(lia)) as (p & -> & Lp & _). cbn [bind]. destruct (addmul_total c p (/ INR n) ltac:(lia)) as (r & -> & Lr). exists r. split; [reflexivity|lia].
  - rewrite E. cbn [bind]. destruct (wf_at s high W Hh) as (p & -> & Lp & _). cbn [bind].
    destruct (addmul_total c p (- / INR n) ltac:(lia)) as (r & -> & Lr). exists r. split; [reflexivity|lia].
Qed.

Lemma shrink_spec : forall s low, wfS s -> (low <= n)%nat -> exists s', shrink f n low s = Some s' /\ wfS s' /\ yv (sx_y s') low = yv (sx_y s) low.
Proof.
  intros s low W Hl. unfold shrink. destruct (foldM_seq _ (fun s i =>
    if (i =? low)%nat then Some s
    else p <- nth_error (sx_S s) i ;; q <- nth_error (sx_S s) low ;; m <- average p q ;; put s i m (f m))
    (fun _ s' => wfS s' /\ yv (sx_y s') low = yv (sx_y s) low) (n + 1) 0 s) as (s' & E & P).
  - auto.
  - intros i t Hi (A & B). destruct (Nat.eqb_spec i low) as [->|N]; [exists t; auto|].
    destruct (wf_at t i A ltac:(lia)) as (p & -> & Lp & _). destruct (wf_at t low A ltac:(lia)) as (q & -> & Lq & _). cbn [bind].
    destruct (average_total p q ltac:(lia)) as (m & -> & Lm). cbn [bind]. destruct (put_spec t i m A ltac:(lia) ltac:(lia)) as (t' & -> & W' & V).
    exists t'. split; [reflexivity|]. split; [exact W'|]. rewrite V by exact Hl. destruct (Nat.eqb_spec low i); [lia|exact B].
  - exists s'. split; [exact E|exact P].
Qed.

Lemma step_spec : forall s, wfS s -> exists s', nmStep f n s = Some s' /\ wfS s' /\
  forall i, (i <= n)%nat -> exists j, (j <= n)%nat /\ yv (sx_y s') j <= yv (sx_y s) i.
Proof.
  intros s W. pose proof (wf_y s W) as Ly. unfold nmStep.
  destruct (extremes_spec (sx_y s) n Ly) as ([[low high] second] & E & A1 & A2 & A3 & B & _ & C & _ & _ & _). rewrite E. cbn [bind].
  destruct (centroid_total s high W A2) as (c & -> & Lc). cbn [bind]. destruct (wf_at s high W A2) as (ph & Eph & Lph & Vph). rewrite Eph. cbn [bind].
  destruct (addmul_total c c 1 eq_refl) as (xr0 & -> & L0). cbn [bind]. destruct (addmul_total xr0 ph (- 1) ltac:(lia)) as (xr & -> & Lr). cbn [bind].
  rewrite !(y_at (sx_y s) n Ly) by assumption. cbn [bind].
  set (y := sx_y s) in *.
  assert (Min : forall i, (i <= n)%nat -> yv y low <= yv y i) by (intros i Hi; apply B; lia).
  (* it is enough to look at the lowest value *)
  enough (Q : exists s', (if Rlt_dec (f xr) (yv y low) then
        xe0 <- addmul c xr 2 ;; xe <- addmul xe0 c (- 2) ;; if Rlt_dec (f xe) (f xr) then put s high xe (f xe) else put s high xr (f xr)
      else if Rlt_dec (yv y second) (f xr) then
        s1 <- (if Rle_dec (f xr) (yv y high) then put s high xr (f xr) else Some s) ;;
        ph1 <- nth_error (sx_S s1) high ;; xc0 <- addmul c ph1 (/ 2) ;; xc <- addmul xc0 c (- / 2) ;;
        yh1 <- nth_error (sx_y s1) high ;; if Rlt_dec yh1 (f xc) then shrink f n low s1 else put s1 high xc (f xc)
      else put s high xr (f xr)) = Some s' /\ wfS s' /\ exists j, (j <= n)%nat /\ yv (sx_y s') j <= yv y low).
  { destruct Q as (s' & E' & W' & j & Hj & Vj). exists s'. split; [exact E'|]. split; [exact W'|]. intros i Hi. exists j. split; [exact Hj|]. specialize (Min i Hi). lra. }
  assert (All : low = high -> forall i, (i <= n)%nat -> yv y i = yv y low).
  { intros X i Hi. specialize (B i ltac:(lia)). rewrite <- X in B. unfold y in *. lra. }
  destruct (Rlt_dec (f xr) (yv y low)) as [K|K].
  - destruct (addmul_total c xr 2 ltac:(lia)) as (xe0 & -> & L1). cbn [bind]. destruct (addmul_total xe0 c (- 2) ltac:(lia)) as (xe & -> & L2). cbn [bind].
    destruct (Rlt_dec (f xe) (f xr)).
    + destruct (put_spec s high xe W A2 ltac:(lia)) as (s' & -> & W' & V). exists s'. split; [reflexivity|]. split; [exact W'|]. exists high. split; [exact A2|].
      rewrite V by exact A2. rewrite Nat.eqb_refl. lra.
    + destruct (put_spec s high xr W A2 ltac:(lia)) as (s' & -> & W' & V). exists s'. split; [reflexivity|]. split; [exact W'|]. exists high. split; [exact A2|].
      rewrite V by exact A2. rewrite Nat.eqb_refl. lra.
  - destruct (Rlt_dec (yv y second) (f xr)) as [K2|K2].
    + assert (S1 : exists s1, (if Rle_dec (f xr) (yv y high) then put s high xr (f xr) else Some s) = Some s1 /\ wfS s1 /\
        (low = high -> s1 = s) /\ (low <> high -> yv (sx_y s1) low = yv y low)).
      { destruct (Rle_dec (f xr) (yv y high)) as [K3|K3].
        - destruct (put_spec s high xr W A2 ltac:(lia)) as (s1 & E1 & W1 & V). exists s1. split; [exact E1|]. split; [exact W1|]. split.
          + intros X. exfalso. rewrite (All X second A3) in K2. rewrite <- X in K3. lra.
          + intros X. rewrite V by exact A1. destruct (Nat.eqb_spec low high); [contradiction|reflexivity].
        - exists s. auto. }
      destruct S1 as (s1 & -> & W1 & X1 & X2). cbn [bind]. destruct (wf_at s1 high W1 A2) as (ph1 & -> & Lp1 & _). cbn [bind].
      destruct (addmul_total c ph1 (/ 2) ltac:(lia)) as (xc0 & -> & L1). cbn [bind]. destruct (addmul_total xc0 c (- / 2) ltac:(lia)) as (xc & -> & L2). cbn [bind].
      rewrite (y_at (sx_y s1) n (wf_y s1 W1)) by exact A2. cbn [bind].
      assert (X3 : yv (sx_y s1) low = yv y low) by (destruct (Nat.eq_dec low high) as [X|X]; [rewrite (X1 X); reflexivity|exact (X2 X)]).
      destruct (Rlt_dec (yv (sx_y s1) high) (f xc)) as [K4|K4].
      * destruct (shrink_spec s1 low W1 A1) as (s' & -> & W' & V). exists s'. split; [reflexivity|]. split; [exact W'|]. exists low. split; [exact A1|]. lra.
      * destruct (put_spec s1 high xc W1 A2 ltac:(lia)) as (s' & -> & W' & V). exists s'. split; [reflexivity|]. split; [exact W'|]. exists low. split; [exact A1|].
        rewrite V by exact A1. destruct (Nat.eqb_spec low high) as [X|X]; [rewrite <- X in K4|]; lra.
    + destruct (put_spec s high xr W A2 ltac:(lia)) as (s' & -> & W' & V). exists s'. split; [reflexivity|]. split; [exact W'|]. exists low. split; [exact A1|].
      rewrite V by exact A1. destruct (Nat.eqb_spec low high) as [X|X]; [rewrite (All X second A3) in K2; lra|apply Rle_refl].
Qed.

(** ** The loop *)
Lemma loop_spec : forall tol fuel delta s, wfS s -> exists delta' s', nmLoop f n tol fuel delta s = Some (delta', s') /\ wfS s' /\
  (delta' = delta /\ s' = s \/ delta' = Some (nmDelta n (sx_y s'))) /\
  forall i, (i <= n)%nat -> exists j, (j <= n)%nat /\ yv (sx_y s') j <= yv (sx_y s) i.
Proof.
  intros tol fuel. induction fuel as [|k IH]; intros delta s W; cbn [nmLoop].
  - exists delta, s. split; [reflexivity|]. split; [exact W|]. split; [left; auto|]. intros i Hi. exists i. split; [exact Hi|lra].
  - destruct (match delta with Some x => _ | None => true end).
    + destruct (step_spec s W) as (s1 & -> & W1 & V1). cbn [bind]. destruct (IH (Some (nmDelta n (sx_y s1))) s1 W1) as (delta' & s' & E & W' & D & V).
      exists delta', s'. split; [exact E|]. split; [exact W'|]. split; [right; destruct D as [[-> ->]| ->]; reflexivity|]. intros i Hi. destruct (V1 i Hi) as (j & Hj & Lj). destruct (V j Hj) as (l & Hl & Ll).
      exists l. split; [exact Hl|lra].
    + exists delta, s. split; [reflexivity|]. split; [exact W|]. split; [left; auto|]. intros i Hi. exists i. split; [exact Hi|lra].
Qed.

Lemma loop_split : forall tol k l delta s, nmLoop f n tol (k + l) delta s =
  ' (delta', s') <- nmLoop f n tol k delta s ;; nmLoop f n tol l delta' s'.
Proof.
  intros tol k. induction k as [|k IH]; intros l delta s; cbn [nmLoop Nat.add bind]; [reflexivity|].
  destruct (match delta with Some x => _ | None => true end) eqn:E.
  - destruct (nmStep f n s) as [s1|]; cbn [bind]; [apply IH|reflexivity].
  - cbn [bind]. destruct l as [|l]; cbn [nmLoop]; [reflexivity|]. rewrite E. reflexivity.
Qed.
End Step.

(** ** The start *)
Definition bump (x : npoint) (i : nat) (h : R) : npoint := firstn i x ++ (nth i x 0 + h) :: skipn (S i) x.

Lemma bump_nth : forall x i h j, (i < length x)%nat -> nth_error (bump x i h) j = if (j =? i)%nat then Some (nth i x 0 + h) else nth_error x j.
Proof.
  induction x as [|a x IH]; intros i h j Hi; [simpl in Hi; lia|]. destruct i as [|i].
  - destruct j; reflexivity.
  - destruct j as [|j]; [reflexivity|]. change (bump (a :: x) (S i) h) with (a :: bump x i h). cbn [nth_error Nat.eqb nth]. apply IH. simpl in Hi; lia.
Qed.
Lemma bump_length : forall x i h, (i < length x)%nat -> length (bump x i h) = length x.
Proof. intros x i h Hi. unfold bump. rewrite app_length. cbn [length]. rewrite firstn_length, skipn_length. lia. Qed.

Lemma start_spec : forall x h, exists S, startSimplex x h = Some S /\ S = x :: map (fun i => bump x i h) (seq 0 (length x)).
Proof.
  intros x h. unfold startSimplex. set (n := length x).
  destruct (foldM_seq _ (fun S i => p <- nth_error S i ;; a <- nth_error p (i - 1) ;; p' <- upd p (i - 1) (a + h) ;; upd S i p')
    (fun k S => length S = (n + 1)%nat /\ forall i, (i <= n)%nat -> nth_error S i = Some (if (i =? 0)%nat then x else if (i <? k)%nat then bump x (i - 1) h else x))
    n 1 (repeat x (n + 1))) as (S & E & L & V).
  - split; [apply repeat_length|]. intros i Hi. rewrite nth_error_repeat by lia. destruct (Nat.eqb_spec i 0); [reflexivity|]. destruct (Nat.ltb_spec i 1); [lia|reflexivity].
  - intros i S Hi (L & V). rewrite (V i ltac:(lia)). destruct (Nat.eqb_spec i 0); [lia|]. destruct (Nat.ltb_spec i i); [lia|]. cbn [bind].
    rewrite (nth_error_nth' x 0) by (unfold n in *; lia). cbn [bind].
    destruct (upd_spec _ x (i - 1) (nth (i - 1) x 0 + h) ltac:(unfold n in *; lia)) as (p & Ep & Lp & Np). rewrite Ep. cbn [bind].
    assert (Eb : p = bump x (i - 1) h).
    { apply nth_error_eq. intros j. rewrite Np, bump_nth by (unfold n in *; lia). reflexivity. }
    destruct (upd_spec _ S i p ltac:(lia)) as (S' & ES & LS & NS). exists S'. split; [exact ES|]. split; [lia|]. intros j Hj. rewrite NS.
    destruct (Nat.eqb_spec j i) as [->|N].
    + destruct (Nat.eqb_spec i 0); [lia|]. destruct (Nat.ltb_spec i (Datatypes.S i)); [|lia]. rewrite Eb. reflexivity.
    + rewrite V by exact Hj. destruct (j =? 0)%nat; [reflexivity|]. destruct (Nat.ltb_spec j i); destruct (Nat.ltb_spec j (Datatypes.S i)); (reflexivity || lia).
  - exists S. split; [exact E|]. apply nth_error_eq. intros i. destruct (le_lt_dec i n) as [Hi|Hi].
    + rewrite V by exact Hi. destruct i as [|i]; [reflexivity|]. cbn [Nat.eqb nth_error]. destruct (Nat.ltb_spec (Datatypes.S i) (1 + n)); [|lia].
      symmetry. rewrite nth_error_map. rewrite (nth_error_nth' (seq 0 n) 0%nat) by (rewrite seq_length; lia). rewrite seq_nth by lia. cbn [option_map Nat.add]. do 2 f_equal. lia.
    + transitivity (@None npoint); [apply nth_error_None; eapply Nat.le_trans; [apply Nat.eq_le_incl; exact L|lia]|]. symmetry. apply nth_error_None. cbn [length]. rewrite map_length, seq_length. lia.
Qed.

(** ** The new points in closed form *)
Definition pnt (S : list npoint) (i : nat) : npoint := nth i S [].
Definition crd (p : npoint) (k : nat) : R := nth k p 0.

Lemma addmul_crd : forall x d a r, addmul x d a = Some r -> forall k, (k < length x)%nat -> crd r k = crd x k + crd d k * a.
Proof.
  induction x as [|b x IH]; intros [|c d] a r E k Hk; cbn [addmul] in E; try (simpl in Hk; lia); try discriminate.
  destruct (addmul x d a) as [r'|] eqn:E'; [|discriminate]. cbn [bind] in E. injection E as <-. destruct k as [|k]; [reflexivity|].
  apply (IH d a r' E' k). simpl in Hk; lia.
Qed.
Lemma average_crd : forall x d r, average x d = Some r -> forall k, (k < length x)%nat -> crd r k = (crd x k + crd d k) / 2.
Proof.
  induction x as [|b x IH]; intros [|c d] r E k Hk; cbn [average] in E; try (simpl in Hk; lia); try discriminate.
  destruct (average x d) as [r'|] eqn:E'; [|discriminate]. cbn [bind] in E. injection E as <-. destruct k as [|k]; [reflexivity|].
  apply (IH d r' E' k). simpl in Hk; lia.
Qed.
Lemma point_eq : forall n (p : npoint) g, length p = n -> (forall k, (k < n)%nat -> crd p k = g k) -> p = tabulate n g.
Proof.
  intros n p g L H. apply nth_error_eq. intros k. destruct (le_lt_dec n k) as [G|G].
  - rewrite (proj2 (nth_error_None p k)) by lia. symmetry. apply nth_error_None. rewrite tabulate_length. lia.
  - rewrite tabulate_nth_error by exact G. rewrite <- H by exact G. apply nth_error_nth'. lia.
Qed.

Section Forms.
Variables (f : npoint -> R) (n : nat) (s : simplex).
Hypothesis W : wfS f n s.
Hypothesis n1 : (1 <= n)%nat.
Let X (i k : nat) : R := crd (pnt (sx_S s) i) k.

Lemma S_at : forall i, (i <= n)%nat -> nth_error (sx_S s) i = Some (pnt (sx_S s) i) /\ length (pnt (sx_S s) i) = n.
Proof.
  intros i Hi. destruct (wf_at f n s i W Hi) as (p & E & L & _). unfold pnt. rewrite (nth_error_nth _ _ [] E). split; [exact E|exact L].
Qed.

Definition cen (high k : nat) : R := (rsum (n + 1) (fun i => X i k) - X high k) / INR n.
Lemma centroid_value : forall high, (high <= n)%nat -> centroidOf (sx_S s) n high = Some (tabulate n (cen high)).
Proof.
  intros high Hh. unfold centroidOf. assert (N0 : INR n <> 0) by (apply not_0_INR; lia).
  destruct (foldM_seq _ (fun c i => p <- nth_error (sx_S s) i ;; addmul c p (/ INR n))
    (fun k c => length c = n /\ forall j, (j < n)%nat -> crd c j = rsum k (fun i => X i j) * / INR n) (n + 1) 0 (repeat 0 n)) as (c & E & L & V).
  - split; [apply repeat_length|]. intros j Hj. unfold crd. rewrite (nth_error_nth (repeat 0 n) j 0 (x := 0)) by (apply nth_error_repeat; exact Hj). cbn [rsum]. ring.
  - intros i c Hi (L & V). destruct (S_at i ltac:(lia)) as (-> & Lp). cbn [bind]. destruct (addmul_total c (pnt (sx_S s) i) (/ INR n) ltac:(lia)) as (r & E & Lr).
    exists r. split; [exact E|]. split; [lia|]. intros j Hj. rewrite (addmul_crd _ _ _ _ E) by lia. rewrite V by exact Hj. cbn [rsum]. unfold X. ring.
  - change (0 + (n + 1))%nat with (n + 1)%nat in V. rewrite E. cbn [bind]. destruct (S_at high Hh) as (-> & Lp). cbn [bind]. destruct (addmul_total c (pnt (sx_S s) high) (- / INR n) ltac:(lia)) as (r & E' & Lr).
    rewrite E'. f_equal. apply point_eq; [lia|]. intros k Hk. rewrite (addmul_crd _ _ _ _ E') by lia. rewrite V by exact Hk. unfold cen, X. field. exact N0.
Qed.

Lemma comb_value : forall p q g h a, length p = n -> length q = n -> (forall k, (k < n)%nat -> crd p k = g k) -> (forall k, (k < n)%nat -> crd q k = h k) ->
  addmul p q a = Some (tabulate n (fun k => g k + h k * a)).
Proof.
  intros p q g h a Lp Lq Vp Vq. destruct (addmul_total p q a ltac:(lia)) as (r & E & Lr). rewrite E. f_equal. apply point_eq; [lia|].
  intros k Hk. rewrite (addmul_crd _ _ _ _ E) by lia. rewrite Vp, Vq by exact Hk. reflexivity.
Qed.
Lemma crd_tab : forall g k, (k < n)%nat -> crd (tabulate n g) k = g k.
Proof. intros g k Hk. unfold crd. apply nth_error_nth. apply tabulate_nth_error. exact Hk. Qed.

(** The simplex with vertex [i] replaced. *)
Definition swapped (i : nat) (p : npoint) : simplex :=
  let S := tabulate (n + 1) (fun j => if (j =? i)%nat then p else pnt (sx_S s) j) in mkSx S (map f S).

Lemma put_value : forall i p, (i <= n)%nat -> length p = n -> put s i p (f p) = Some (swapped i p) /\ wfS f n (swapped i p).
Proof.
  intros i p Hi Lp. destruct (put_spec f n s i p W Hi Lp) as (s' & E & (A & B & C) & _). enough (s' = swapped i p) by (subst s'; split; [exact E|split; [exact A|split; [exact B|exact C]]]).
  unfold put in E. destruct (upd_spec _ (sx_S s) i p ltac:(destruct W; lia)) as (S' & E1 & L1 & N1). rewrite E1 in E. cbn [bind] in E.
  destruct (upd (sx_y s) i (f p)) as [y'|]; [|discriminate]. cbn [bind] in E. injection E as <-. cbn [sx_S sx_y] in *. rewrite C. unfold swapped.
  assert (ES : S' = tabulate (n + 1) (fun j => if (j =? i)%nat then p else pnt (sx_S s) j)); [|rewrite ES; reflexivity].
  apply nth_error_eq. intros j. rewrite N1. destruct W as (Ls & _ & _). destruct (le_lt_dec (n + 1) j) as [G|G].
  - destruct (Nat.eqb_spec j i); [lia|]. transitivity (@None npoint); [apply nth_error_None; lia|]. symmetry. apply nth_error_None. rewrite tabulate_length. lia.
  - rewrite tabulate_nth_error by exact G. destruct (Nat.eqb_spec j i); [reflexivity|]. apply S_at. lia.
Qed.
End Forms.

(** Shrinking towards vertex [low]. *)
Definition shrunk (f : npoint -> R) (n : nat) (s : simplex) (low : nat) : simplex :=
  let S := tabulate (n + 1) (fun i => if (i =? low)%nat then pnt (sx_S s) low
                                      else tabulate n (fun k => (crd (pnt (sx_S s) i) k + crd (pnt (sx_S s) low) k) / 2)) in mkSx S (map f S).

Lemma shrink_value : forall f n s low, wfS f n s -> (1 <= n)%nat -> (low <= n)%nat -> shrink f n low s = Some (shrunk f n s low).
Proof.
  intros f n s low W n1 Hl. unfold shrink.
  destruct (foldM_seq _ (fun s i =>
    if (i =? low)%nat then Some s
    else p <- nth_error (sx_S s) i ;; q <- nth_error (sx_S s) low ;; m <- average p q ;; put s i m (f m))
    (fun k s' => wfS f n s' /\ forall i, (i <= n)%nat -> pnt (sx_S s') i = if (i =? low)%nat then pnt (sx_S s) low
      else if (i <? k)%nat then tabulate n (fun k => (crd (pnt (sx_S s) i) k + crd (pnt (sx_S s) low) k) / 2) else pnt (sx_S s) i) (n + 1) 0 s) as (s' & E & W' & V).
  - split; [exact W|]. intros i Hi. destruct (Nat.eqb_spec i low) as [->|]; reflexivity.
  - intros i t Hi (A & B). destruct (Nat.eqb_spec i low) as [->|N].
    { exists t. split; [reflexivity|]. split; [exact A|]. intros j Hj. rewrite B by exact Hj. destruct (Nat.eqb_spec j low); [reflexivity|].
      destruct (Nat.ltb_spec j low); destruct (Nat.ltb_spec j (Datatypes.S low)); (reflexivity || lia). }
    destruct (S_at f n t A i ltac:(lia)) as (-> & Lp). destruct (S_at f n t A low ltac:(lia)) as (-> & Lq). cbn [bind].
    destruct (average_total (pnt (sx_S t) i) (pnt (sx_S t) low) ltac:(lia)) as (m & Em & Lm). rewrite Em. cbn [bind].
    destruct (put_value f n t A n1 i m ltac:(lia) ltac:(lia)) as (-> & Wt). eexists. split; [reflexivity|]. split; [exact Wt|].
    intros j Hj. assert (Pj : pnt (sx_S (swapped f n t i m)) j = if (j =? i)%nat then m else pnt (sx_S t) j).
    { unfold swapped, pnt. cbn [sx_S]. rewrite (nth_error_nth _ j [] (tabulate_nth_error npoint (n + 1) (fun j => if (j =? i)%nat then m else nth j (sx_S t) []) j ltac:(lia))). reflexivity. }
    rewrite Pj. destruct (Nat.eqb_spec j i) as [->|Nj].
    + destruct (Nat.eqb_spec i low); [contradiction|]. destruct (Nat.ltb_spec i (Datatypes.S i)); [|lia]. apply point_eq; [lia|]. intros k Hk.
      rewrite (average_crd _ _ _ Em) by lia. rewrite !B by lia. destruct (Nat.eqb_spec i low); [contradiction|]. destruct (Nat.ltb_spec i i); [lia|]. rewrite Nat.eqb_refl. reflexivity.
    + rewrite B by exact Hj. destruct (Nat.eqb_spec j low); [reflexivity|]. destruct (Nat.ltb_spec j i); destruct (Nat.ltb_spec j (Datatypes.S i)); (reflexivity || lia).
  - rewrite E. f_equal. destruct s' as [S' y']. destruct W' as (Ls & _ & C). cbn [sx_S sx_y] in *. unfold shrunk. subst y'.
    assert (ES : S' = tabulate (n + 1) (fun i => if (i =? low)%nat then pnt (sx_S s) low
                                      else tabulate n (fun k => (crd (pnt (sx_S s) i) k + crd (pnt (sx_S s) low) k) / 2))); [|rewrite ES; reflexivity].
    apply nth_error_eq. intros j. destruct (le_lt_dec (n + 1) j) as [G|G].
    + transitivity (@None npoint); [apply nth_error_None; lia|]. symmetry. apply nth_error_None. rewrite tabulate_length. lia.
    + rewrite tabulate_nth_error by exact G. rewrite (nth_error_nth' S' []) by lia. f_equal. change (nth j S' []) with (pnt S' j). rewrite V by lia.
      destruct (j =? low)%nat; [reflexivity|]. destruct (Nat.ltb_spec j (0 + (n + 1))); [reflexivity|lia].
Qed.
