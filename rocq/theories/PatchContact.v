(** Contact of the composite ribbon patch and the midpoint patches with the ribbon of a side. *)
From Verif Require Import Base UtilModel DomainModel ParamModel RibbonModel SurfaceModel SurfaceSpec SurfaceProofs SurfacePatches BlendProofs UtilProofs BlendProps PropsCorner PropsContact.
From Coq Require Import Reals List Lia Lra Psatz.
Import ListNotations.
Open Scope R_scope.

(** Ribbon coordinates of a point beside side [e], away from its ends: [d] bounds what
    vanishes on the side, [g] how much the neighbouring distances differ from what they
    are on the side; all other sides are farther than [m]. *)
Definition beside (n e : nat) (m s d g : R) (sds : list V2) : Prop :=
  length sds = n /\ (forall j sd, nth_error sds j = Some sd -> 0 <= px sd <= 1 /\ 0 <= py sd <= 1) /\ m <= s <= 1 - m /\
  (exists h, nth_error sds e = Some (mkV2 s h) /\ h <= d) /\
  (exists x h1, nth_error sds (nxt n e) = Some (mkV2 x h1) /\ x <= d /\ Rabs (h1 - (1 - s)) <= g) /\
  (exists y h2, nth_error sds (prv n e) = Some (mkV2 y h2) /\ 1 - y <= d /\ Rabs (h2 - s) <= g) /\
  (forall j sd, nth_error sds j = Some sd -> j <> e -> m <= py sd) /\
  (forall j sd, nth_error sds j = Some sd -> j <> e -> j <> nxt n e -> j <> prv n e -> 1 - py sd <= d).

(** [v] is normal to the ribbon of side [e] at [s]: seen along [v] the curve stays quadratically
    close to its point at [s], and the cross derivative linearly close to zero. *)
Definition flat_at (sf : surf) (e : nat) (s : R) (v : V3) (F : R) (P : V3) : Prop :=
  exists c c' X, side_data sf e c c' X /\ P = c s /\
    forall t, 0 <= t <= 1 -> Rabs (vdot (c t -v c s) v) <= F * (t - s) ^ 2 /\ Rabs (vdot (X t) v) <= F * Rabs (t - s).

(** All ribbons and corner terms are within [M] of [P], seen along [v]. *)
Definition extent (eps : R) (sf : surf) (P v : V3) (M : R) : Prop :=
  forall i a b p, 0 <= a <= 1 -> 0 <= b <= 1 ->
    sideInterpolant sf i a b = Some p \/ cornerCorrection eps sf i a b = Some p -> Rabs (vdot (p -v P) v) <= M.

Lemma herm_form : forall x, hermite 0 x = 1 - x ^ 2 * (3 - 2 * x).
Proof. intros x. simpl. ring. Qed.
Lemma herm_near0 : forall x, 0 <= x <= 1 -> 0 <= 1 - hermite 0 x <= 3 * x ^ 2.
Proof. intros x H. rewrite herm_form. pose proof (pow2_ge_0 x). split; nra. Qed.
Lemma herm_near1 : forall x, 0 <= x <= 1 -> 0 <= hermite 0 x <= 3 * (1 - x) ^ 2.
Proof. intros x H. pose proof (herm_near0 (1 - x) ltac:(lra)) as N. rewrite hermite0_sym in N. lra. Qed.
Lemma herm_lo : forall x, 0 <= x <= 1 -> 0 <= hermite 0 x <= 1.
Proof. intros x H. pose proof (herm_near0 x H). pose proof (herm_near1 x H). lra. Qed.
Lemma herm_lip : forall x y, 0 <= x <= 1 -> 0 <= y <= 1 -> Rabs (hermite 0 x - hermite 0 y) <= 2 * Rabs (x - y).
Proof.
  intros x y Hx Hy. replace (hermite 0 x - hermite 0 y) with (- (x - y) * (3 * (x + y) - 2 * (x ^ 2 + x * y + y ^ 2))) by (rewrite !herm_form; ring).
  rewrite Rabs_mult, Rabs_Ropp, Rmult_comm. apply Rmult_le_compat_r; [apply Rabs_pos|].
  assert (x * x <= x) by nra. assert (y * y <= y) by nra. pose proof (pow2_ge_0 (x - y)). pose proof (pow2_ge_0 (x + y - 1)).
  apply Rabs_le. split; simpl in *; nra.
Qed.
Lemma abs_scale : forall a A w W, Rabs a <= A -> 0 <= w <= W -> Rabs (a * w) <= A * W.
Proof. intros a A w W H0 H1. rewrite Rabs_mult, (Rabs_right w) by lra. apply Rmult_le_compat; try lra. apply Rabs_pos. Qed.
Lemma abs2 : forall a b A B, Rabs a <= A -> Rabs b <= B -> Rabs (a + b) <= A + B.
Proof. intros a b A B H0 H1. eapply Rle_trans; [apply Rabs_triang|lra]. Qed.

Section One.
Variables (eps : R) (sf : surf) (e : nat) (s m d g K F T M : R) (v P : V3) (sds : list V2).
Let n := sf_n sf.
Hypothesis He : 0 < eps.
Hypothesis H3 : (3 <= n)%nat.
Hypothesis Rd : ready sf.
Hypothesis G : sf_gamma sf = false.
Hypothesis Hi : (e < n)%nat.
Hypothesis Hm : eps <= m.
Hypothesis K0 : 0 <= K.
Hypothesis NB : neighbours_bend sf e v K T.
Hypothesis F0 : 0 <= F.
Hypothesis Fl : flat_at sf e s v F P.
Hypothesis Ex : extent eps sf P v M.
Hypothesis Be : beside n e m s d g sds.

Let L : length (sf_ribbons sf) = n. Proof. apply Rd. Qed.
Let C : crosses_defined (sf_ribbons sf). Proof. apply Rd. Qed.
Let H2 : (2 <= sf_n sf)%nat. Proof. fold n. lia. Qed.
Definition fl (p : V3) : R := vdot (p -v P) v.
Definition quad (x : R) : R := (2 * K + T) * x ^ 2 + K / 10000 * x.

Lemma T0 : 0 <= T.
Proof.
  destruct NB as (_ & _ & HT). destruct (corner_data sf L C H2 Rd e Hi) as (t1 & t2 & Ek).
  specialize (HT _ (or_introl Ek)). eapply Rle_trans; [apply Rabs_pos|exact HT].
Qed.
Lemma quad_mono : forall x y, 0 <= x -> x <= y -> quad x <= quad y.
Proof.
  intros x y X0 XY. unfold quad. pose proof T0. assert (x ^ 2 <= y ^ 2) by (apply pow_incr; lra).
  apply Rplus_le_compat; apply Rmult_le_compat_l; try lra.
Qed.

Lemma sv : forall i a b, (i < n)%nat -> 0 <= a <= 1 -> 0 <= b <= 1 -> exists p, sideInterpolant sf i a b = Some p /\ Rabs (fl p) <= M.
Proof.
  intros i a b I A B. assert (E := side_value sf L C i a b I (gok_nonneg (sf_gamma sf) b ltac:(lra))).
  eexists; split; [exact E|]. apply (Ex i a b); auto.
Qed.
Lemma kv : forall i a b, (i < n)%nat -> 0 <= a <= 1 -> 0 <= b <= 1 -> exists p, cornerCorrection eps sf i a b = Some p /\ Rabs (fl p) <= M.
Proof.
  intros i a b I A B. destruct (correction_total eps sf He L C H2 Rd i a b I) as [p Ep]; try (apply gok_nonneg; lra).
  exists p. split; [exact Ep|]. apply (Ex i a b); auto.
Qed.
Lemma M0 : 0 <= M.
Proof. destruct (sv e 0 0 Hi ltac:(lra) ltac:(lra)) as (p & _ & B). eapply Rle_trans; [apply Rabs_pos|exact B]. Qed.

(** The neighbours' ribbons against the corner terms of side [e]. *)
Lemma next_rest : forall t x p q, 0 <= t <= 1 -> 0 <= x <= 1 -> eps <= t + x ->
  sideInterpolant sf (nxt n e) x t = Some p -> cornerCorrection eps sf e t x = Some q -> Rabs (fl p - fl q) <= quad x.
Proof.
  intros t x p q Ht Hx Htx Ep Eq. destruct NB as ((c1 & c1' & X1 & D1 & S1 & B1 & B1') & _ & HT). fold n in S1, HT.
  pose proof (nxt_lt n e ltac:(lia)) as Ln. destruct (corner_data sf L C H2 Rd e Hi) as (t1 & t2 & Ek). set (kk := mkCorner _ _ _ t1 t2) in Ek.
  rewrite (side_value sf L C _) in Ep by (assumption || (apply gok_nonneg; lra)). injection Ep as <-. rewrite siv_plain by (assumption || lra).
  destruct (side_data_at sf _ c1 c1' X1 L Ln S1 x Hx) as (A1 & A2 & _). rewrite A1, A2.
  assert (Q := rest_first eps sf He H2 Rd G e kk c1 c1' X1 D1 v K (1 - t) x q Hi Ek S1 B1 B1' ltac:(lra) Hx ltac:(lra)). replace (1 - (1 - t)) with t in Q by ring.
  specialize (Q Eq). specialize (HT kk (or_introl Ek)). unfold fl.
  replace (vdot (c1 x +v X1 x *v t -v P) v - vdot (q -v P) v) with (vdot (c1 x +v X1 x *v t -v q) v) by (unfold vdot; simpl; ring).
  eapply Rle_trans; [exact Q|]. unfold quad. apply Rplus_le_compat_r. apply Rmult_le_compat_r; [apply pow2_ge_0|lra].
Qed.
Lemma prev_rest : forall t x p q, 0 <= t <= 1 -> 0 <= x <= 1 -> eps <= t + x ->
  sideInterpolant sf (prv n e) (1 - x) t = Some p -> cornerCorrection eps sf (prv n e) x t = Some q -> Rabs (fl p - fl q) <= quad x.
Proof.
  intros t x p q Ht Hx Htx Ep Eq. destruct NB as (_ & (c1 & c1' & X1 & D1 & S1 & B1 & B1') & HT). fold n in S1, HT.
  pose proof (prv_lt n e ltac:(lia)) as Lp. destruct (corner_data sf L C H2 Rd _ Lp) as (t1 & t2 & Ek). set (kk := mkCorner _ _ _ t1 t2) in Ek.
  rewrite (side_value sf L C _) in Ep by (assumption || (apply gok_nonneg; lra)). injection Ep as <-. rewrite siv_plain by (assumption || lra).
  destruct (side_data_at sf _ c1 c1' X1 L Lp S1 (1 - x) ltac:(lra)) as (A1 & A2 & _). rewrite A1, A2.
  assert (Q := rest_second eps sf He H2 Rd G (prv n e) kk c1 c1' X1 D1 v K t x q Lp Ek S1 B1 B1' Ht Hx Htx Eq).
  specialize (HT kk (or_intror Ek)). unfold fl.
  replace (vdot (c1 (1 - x) +v X1 (1 - x) *v t -v P) v - vdot (q -v P) v) with (vdot (c1 (1 - x) +v X1 (1 - x) *v t -v q) v) by (unfold vdot; simpl; ring).
  eapply Rle_trans; [exact Q|]. unfold quad. apply Rplus_le_compat_r. apply Rmult_le_compat_r; [apply pow2_ge_0|lra].
Qed.
(** The ribbon itself. *)
Lemma own : forall t x p, 0 <= t <= 1 -> 0 <= x <= 1 -> sideInterpolant sf e t x = Some p -> Rabs (fl p) <= F * (t - s) ^ 2 + F * Rabs (t - s) * x.
Proof.
  intros t x p Ht Hx Ep. destruct Fl as (c & c' & X & Sd & EP & Fx).
  rewrite (side_value sf L C _) in Ep by (assumption || (apply gok_nonneg; lra)). injection Ep as <-. rewrite siv_plain by (assumption || lra).
  destruct (side_data_at sf _ c c' X L Hi Sd t Ht) as (A1 & A2 & _). rewrite A1, A2. destruct (Fx t Ht) as [F1 F2].
  unfold fl. rewrite EP. replace (vdot (c t +v X t *v x -v c s) v) with (vdot (c t -v c s) v + vdot (X t) v * x) by (unfold vdot; simpl; ring).
  apply abs2; [exact F1|]. eapply Rle_trans; [apply (abs_scale _ _ x x F2); lra|lra].
Qed.

(** The coordinates as functions. *)
Lemma bs : forall j, (j < n)%nat -> 0 <= spar sds j <= 1 /\ 0 <= dpar sds j <= 1.
Proof. intros j J. destruct Be as (Ls & U & _). apply (U j (mkV2 (spar sds j) (dpar sds j))). apply nth_sd. lia. Qed.
Lemma sds_at : forall j a b, (j < n)%nat -> nth_error sds j = Some (mkV2 a b) -> spar sds j = a /\ dpar sds j = b.
Proof. intros j a b J E. rewrite nth_sd in E by (destruct Be as (-> & _); exact J). injection E as -> ->. split; reflexivity. Qed.
Lemma beE : spar sds e = s /\ dpar sds e <= d.
Proof. destruct Be as (_ & _ & _ & (h & E & Hh) & _). destruct (sds_at e s h Hi E) as [-> ->]. auto. Qed.
Lemma beX : spar sds (nxt n e) <= d /\ Rabs (dpar sds (nxt n e) - (1 - s)) <= g.
Proof. destruct Be as (_ & _ & _ & _ & (x & h & E & Hh) & _). destruct (sds_at _ x h (nxt_lt n e ltac:(lia)) E) as [-> ->]. auto. Qed.
Lemma beP : 1 - spar sds (prv n e) <= d /\ Rabs (dpar sds (prv n e) - s) <= g.
Proof. destruct Be as (_ & _ & _ & _ & _ & (x & h & E & Hh) & _). destruct (sds_at _ x h (prv_lt n e ltac:(lia)) E) as [-> ->]. auto. Qed.
Lemma beO : forall j, (j < n)%nat -> j <> e -> m <= dpar sds j.
Proof. intros j J N. destruct Be as (Ls & _ & _ & _ & _ & _ & O & _). apply (O j _ (nth_sd sds j ltac:(lia)) N). Qed.
Lemma beF : forall j, (j < n)%nat -> j <> e -> j <> nxt n e -> j <> prv n e -> 1 - dpar sds j <= d.
Proof. intros j J N1 N2 N3. destruct Be as (Ls & _ & _ & _ & _ & _ & _ & O). apply (O j _ (nth_sd sds j ltac:(lia)) N1 N2 N3). Qed.
Lemma beS : m <= s <= 1 - m. Proof. apply Be. Qed.
Lemma d0 : 0 <= d. Proof. pose proof (bs e Hi). pose proof beE. lra. Qed.
Lemma g0 : 0 <= g. Proof. pose proof beX. eapply Rle_trans; [apply Rabs_pos|apply H]. Qed.

(** ** Composite ribbons *)
Lemma comp_value : forall i x y, (i < n)%nat -> 0 <= x <= 1 -> 0 <= y <= 1 ->
  exists q a b c k l, compositeRibbon eps sf i (mkV2 x y) = Some q /\
    sideInterpolant sf i x y = Some a /\ sideInterpolant sf (prv n i) (1 - y) x = Some b /\ sideInterpolant sf (nxt n i) y (1 - x) = Some c /\
    cornerCorrection eps sf (prv n i) y x = Some k /\ cornerCorrection eps sf i (1 - x) y = Some l /\
    Rabs (fl a) <= M /\ Rabs (fl b) <= M /\ Rabs (fl c) <= M /\ Rabs (fl k) <= M /\ Rabs (fl l) <= M /\
    fl q = fl a * hermite 0 y + fl b * hermite 0 x + fl c * (1 - hermite 0 x) - fl k * hermite 0 x * hermite 0 y - fl l * (1 - hermite 0 x) * hermite 0 y.
Proof.
  intros i x y I X Y. pose proof (nxt_lt n i ltac:(lia)) as Ln. pose proof (prv_lt n i ltac:(lia)) as Lp.
  destruct (sv i x y I X Y) as (a & Ea & Ma). destruct (sv (prv n i) (1 - y) x Lp ltac:(lra) X) as (b & Eb & Mb). destruct (sv (nxt n i) y (1 - x) Ln Y ltac:(lra)) as (c & Ec & Mc).
  destruct (kv (prv n i) y x Lp Y X) as (k & Ek & Mk). destruct (kv i (1 - x) y I ltac:(lra) Y) as (l & El & Ml).
  eexists. exists a, b, c, k, l. split; [unfold compositeRibbon; fold n; cbn [px py]; rewrite Ea, Eb, Ec, Ek, El; cbn [bind]; reflexivity|].
  repeat (split; [assumption|]). unfold fl, vdot; simpl; ring.
Qed.

Lemma three : forall A B D M' w1 w2, Rabs A <= M' -> Rabs B <= M' -> Rabs D <= M' -> 0 <= w1 <= 1 -> 0 <= w2 <= 1 -> Rabs (A * w1 + B - D * w2) <= 3 * M'.
Proof.
  intros A B D M' w1 w2 HA HB HD W1 W2. replace (A * w1 + B - D * w2) with (A * w1 + B + - D * w2) by ring.
  assert (HD' : Rabs (- D) <= M') by (rewrite Rabs_Ropp; exact HD).
  replace (3 * M') with (M' + M' + M') by ring. apply abs3; [apply scaled_abs; assumption|assumption|apply scaled_abs; assumption].
Qed.

Lemma comp_any : forall i x y q, (i < n)%nat -> 0 <= x <= 1 -> 0 <= y <= 1 -> compositeRibbon eps sf i (mkV2 x y) = Some q -> Rabs (fl q) <= 3 * M.
Proof.
  intros i x y q I X Y E. destruct (comp_value i x y I X Y) as (q' & a & b & c & k & l & E' & _ & _ & _ & _ & _ & Ma & Mb & Mc & Mk & Ml & V).
  rewrite E in E'. injection E' as <-. rewrite V. pose proof (herm_lo x X) as Hx. pose proof (herm_lo y Y) as Hy. set (hx := hermite 0 x) in *. set (hy := hermite 0 y) in *.
  replace (fl a * hy + fl b * hx + fl c * (1 - hx) - fl k * hx * hy - fl l * (1 - hx) * hy) with (fl a * hy + (fl b * hx + fl c * (1 - hx)) - (fl k * hx + fl l * (1 - hx)) * hy) by ring.
  assert (Cv : forall u w, Rabs u <= M -> Rabs w <= M -> Rabs (u * hx + w * (1 - hx)) <= M).
  { intros u w Hu Hw. replace M with (M * hx + M * (1 - hx)) by ring. apply abs2; apply abs_scale; lra. }
  apply three; auto.
Qed.

Lemma comp_e : forall q, compositeRibbon eps sf e (mkV2 s (dpar sds e)) = Some q -> Rabs (fl q) <= quad d + 3 * M * d ^ 2.
Proof.
  intros q E. destruct beE as [Se De]. destruct (bs e Hi) as [S01 D01]. rewrite Se in S01. set (h := dpar sds e) in *. pose proof beS.
  destruct (comp_value e s h Hi S01 D01) as (q' & a & b & c & k & l & E' & Ea & Eb & Ec & Ek & El & Ma & Mb & Mc & Mk & Ml & V).
  rewrite E in E'. injection E' as <-. rewrite V. pose proof (herm_lo s S01) as Hx. pose proof (herm_near0 h D01) as Hy. pose proof (herm_lo h D01) as Hy'. set (hx := hermite 0 s) in *. set (hy := hermite 0 h) in *.
  assert (A : fl a = 0). { pose proof (own s h a S01 D01 Ea) as O. replace (s - s) with 0 in O by ring. rewrite Rabs_R0 in O. destruct (Req_dec (fl a) 0) as [Z|Z]; [exact Z|]. apply Rabs_pos_lt in Z. nra. }
  assert (B := prev_rest s h b k S01 D01 ltac:(lra) Eb Ek). assert (Cc := next_rest (1 - s) h c l ltac:(lra) D01 ltac:(lra) Ec El).
  pose proof (quad_mono h d ltac:(lra) De) as Q. pose proof M0.
  replace (fl a * hy + fl b * hx + fl c * (1 - hx) - fl k * hx * hy - fl l * (1 - hx) * hy) with
    (((fl b - fl k) * hx + (fl c - fl l) * (1 - hx)) + (fl k * hx + fl l * (1 - hx)) * (1 - hy)) by (rewrite A; ring).
  apply abs2.
  - replace (quad d) with (quad d * hx + quad d * (1 - hx)) by ring. apply abs2; apply abs_scale; lra.
  - eapply Rle_trans; [apply (abs_scale _ M _ (3 * h ^ 2)); [|lra]|].
    + replace M with (M * hx + M * (1 - hx)) by ring. apply abs2; apply abs_scale; lra.
    + assert (h ^ 2 <= d ^ 2) by (apply pow_incr; lra). nra.
Qed.

Definition nearby : R := F * g ^ 2 + F * g * d + quad d + 9 * M * d ^ 2.
Lemma edge_le : forall t x, 0 <= x -> x <= d -> Rabs (t - s) <= g -> F * (t - s) ^ 2 + F * Rabs (t - s) * x <= F * g ^ 2 + F * g * d.
Proof.
  intros t x X0 Xd Tg. assert ((t - s) ^ 2 <= g ^ 2) by (rewrite <- (pow2_abs (t - s)); apply pow_incr; split; [apply Rabs_pos|exact Tg]).
  pose proof (Rabs_pos (t - s)). assert (Rabs (t - s) * x <= g * d) by (apply Rmult_le_compat; lra). nra.
Qed.
Lemma comp_x : forall q, compositeRibbon eps sf (nxt n e) (mkV2 (spar sds (nxt n e)) (dpar sds (nxt n e))) = Some q -> Rabs (fl q) <= nearby.
Proof.
  intros q E. pose proof (nxt_lt n e ltac:(lia)) as Ln. destruct beX as [Xd Yg]. destruct (bs _ Ln) as [X01 Y01]. assert (Ym := beO _ Ln (nxt_neq n e ltac:(lia) Hi)).
  set (x := spar sds (nxt n e)) in *. set (y := dpar sds (nxt n e)) in *.
  destruct (comp_value _ x y Ln X01 Y01) as (q' & a & b & c & k & l & E' & Ea & Eb & Ec & Ek & El & Ma & Mb & Mc & Mk & Ml & V).
  rewrite E in E'. injection E' as <-. rewrite V. pose proof (herm_near0 x X01) as Hx. pose proof (herm_lo x X01) as Hx'. pose proof (herm_lo y Y01) as Hy. set (hx := hermite 0 x) in *. set (hy := hermite 0 y) in *.
  rewrite (prv_nxt n e Hi) in Eb, Ek.
  assert (B := own (1 - y) x b ltac:(lra) X01 Eb). assert (Q := edge_le (1 - y) x ltac:(lra) Xd ltac:(rewrite <- Rabs_Ropp; replace (- (1 - y - s)) with (y - (1 - s)) by ring; exact Yg)).
  assert (R := next_rest y x a k Y01 X01 ltac:(lra) Ea Ek). pose proof (quad_mono x d ltac:(lra) Xd) as Q'. pose proof M0.
  replace (fl a * hy + fl b * hx + fl c * (1 - hx) - fl k * hx * hy - fl l * (1 - hx) * hy) with
    (fl b * hx + (fl a - fl k) * (hx * hy) + (fl a * hy + fl c - fl l * hy) * (1 - hx)) by ring.
  unfold nearby. replace (F * g ^ 2 + F * g * d + quad d + 9 * M * d ^ 2) with ((F * g ^ 2 + F * g * d) + quad d + 3 * M * (3 * d ^ 2)) by ring.
  apply abs3.
  - apply scaled_abs; [lra|exact Hx'].
  - apply scaled_abs; [lra|]. split; [apply Rmult_le_pos; lra|]. nra.
  - eapply Rle_trans; [apply (abs_scale _ (3 * M) _ (3 * x ^ 2)); [apply three; assumption|lra]|]. assert (x ^ 2 <= d ^ 2) by (apply pow_incr; lra). nra.
Qed.
Lemma comp_p : forall q, compositeRibbon eps sf (prv n e) (mkV2 (spar sds (prv n e)) (dpar sds (prv n e))) = Some q -> Rabs (fl q) <= nearby.
Proof.
  intros q E. pose proof (prv_lt n e ltac:(lia)) as Lp. destruct beP as [Xd Yg]. destruct (bs _ Lp) as [X01 Y01]. assert (Ym := beO _ Lp (prv_neq n e ltac:(lia) Hi)).
  set (x := spar sds (prv n e)) in *. set (y := dpar sds (prv n e)) in *.
  destruct (comp_value _ x y Lp X01 Y01) as (q' & a & b & c & k & l & E' & Ea & Eb & Ec & Ek & El & Ma & Mb & Mc & Mk & Ml & V).
  rewrite E in E'. injection E' as <-. rewrite V. pose proof (herm_near1 x X01) as Hx. pose proof (herm_lo x X01) as Hx'. pose proof (herm_lo y Y01) as Hy. set (hx := hermite 0 x) in *. set (hy := hermite 0 y) in *.
  rewrite (nxt_prv n e Hi) in Ec.
  assert (B := own y (1 - x) c Y01 ltac:(lra) Ec). assert (Q := edge_le y (1 - x) ltac:(lra) Xd Yg).
  replace x with (1 - (1 - x)) in Ea by ring.
  assert (R := prev_rest y (1 - x) a l Y01 ltac:(lra) ltac:(lra) Ea El). pose proof (quad_mono (1 - x) d ltac:(lra) Xd) as Q'. pose proof M0.
  replace (fl a * hy + fl b * hx + fl c * (1 - hx) - fl k * hx * hy - fl l * (1 - hx) * hy) with
    (fl c * (1 - hx) + (fl a - fl l) * ((1 - hx) * hy) + (fl a * hy + fl b - fl k * hy) * hx) by ring.
  unfold nearby. replace (F * g ^ 2 + F * g * d + quad d + 9 * M * d ^ 2) with ((F * g ^ 2 + F * g * d) + quad d + 3 * M * (3 * d ^ 2)) by ring.
  apply abs3.
  - apply scaled_abs; lra.
  - apply scaled_abs; [lra|]. split; [apply Rmult_le_pos; lra|]. nra.
  - eapply Rle_trans; [apply (abs_scale _ (3 * M) _ (3 * (1 - x) ^ 2)); [apply three; assumption|lra]|]. assert ((1 - x) ^ 2 <= d ^ 2) by (apply pow_incr; lra). nra.
Qed.

(** ** Mixtures *)
Lemma mix : forall (w z : nat -> R) p A B c, (e < n)%nat -> (p < n)%nat -> p <> e -> 0 <= B ->
  (forall j, (j < n)%nat -> 0 <= w j) -> (forall j, (j < n)%nat -> j <> e -> j <> p -> w j <= c) ->
  (forall j, (j < n)%nat -> Rabs (z j) <= B) -> Rabs (z e) <= A -> Rabs (z p) <= A ->
  Rabs (rsum n (fun j => z j * w j)) <= A * (w e + w p) + INR n * (B * c).
Proof.
  intros w z p A B c Le Lp Np B0 W0 Wc Zb Ze Zp.
  assert (c0 : 0 <= c \/ (forall j, (j < n)%nat -> j = e \/ j = p)).
  { destruct (Rle_dec 0 c) as [Hc|Hc]; [left; exact Hc|right]. intros j J. destruct (Nat.eq_dec j e); [auto|]. destruct (Nat.eq_dec j p); [auto|].
    specialize (Wc j J n0 n1). specialize (W0 j J). lra. }
  rewrite (rsum_split1 _ _ e Le), (rsum_split1 _ _ p Lp). destruct (Nat.eqb_spec p e) as [|_]; [contradiction|].
  assert (Oth : Rabs (rsum n (fun j => if Nat.eqb j p then 0 else if Nat.eqb j e then 0 else z j * w j)) <= INR n * (B * c)).
  { rewrite <- rsum_const. eapply Rle_trans; [apply rsum_abs|]. apply rsum_le. intros j J.
    destruct c0 as [c0|c0].
    - pose proof (Rmult_le_pos B c B0 c0). destruct (Nat.eqb_spec j p); [rewrite Rabs_R0; lra|]. destruct (Nat.eqb_spec j e); [rewrite Rabs_R0; lra|].
      apply abs_scale; auto.
    - exfalso. destruct (c0 (nxt n e) (nxt_lt n e ltac:(lia))) as [X|X]; [apply (nxt_neq n e ltac:(lia) Hi X)|].
      destruct (c0 (prv n e) (prv_lt n e ltac:(lia))) as [Y|Y]; [apply (prv_neq n e ltac:(lia) Hi Y)|].
      apply (nxt_prv_neq n e H3 Hi). congruence. }
  replace (A * (w e + w p) + INR n * (B * c)) with (A * w e + (A * w p + INR n * (B * c))) by ring.
  apply abs2; [|apply abs2; [|exact Oth]]; apply abs_scale; try assumption; split; auto; lra.
Qed.

Lemma prvE : (prv n e < n)%nat /\ prv n e <> e.
Proof. split; [apply prv_lt; lia|apply prv_neq; [lia|exact Hi]]. Qed.
Lemma m0 : 0 < m. Proof. lra. Qed.
Lemma Lsd : length sds = n. Proof. apply Be. Qed.
Lemma Tme : tame sds.
Proof. destruct Be as (_ & U & _). intros j sd E. destruct (U j sd E). split; lra. Qed.

Lemma corner_weights : exists b, blendCorner eps n sds = Some b /\ length b = n /\ rsum n (fun j => nth j b 0) = 1 /\
  (forall j, (j < n)%nat -> 0 <= nth j b 0) /\ (forall j, (j < n)%nat -> j <> e -> j <> prv n e -> nth j b 0 <= d ^ 2 / m ^ 4).
Proof.
  pose proof m0 as Pm. pose proof d0 as Pd.
  assert (C0 : 0 <= d ^ 2 / m ^ 4) by (apply Rmult_le_pos; [apply pow2_ge_0|left; apply Rinv_0_lt_compat, pow_lt; exact Pm]).
  destruct (Rle_dec eps (dpar sds e)) as [Fe|Fe].
  - assert (Fa : forall i, (i < n)%nat -> eps <= dpar sds i).
    { intros i I. destruct (Nat.eq_dec i e) as [->|N]; [exact Fe|]. pose proof (beO i I N). lra. }
    destruct (corner_far eps sds n He Lsd ltac:(lia) Fa) as [V W]. set (w := fun i => 1 / (dpar sds i * dpar sds (nxt n i)) ^ 2) in *. set (ws := rsum n w) in *.
    assert (WP : 0 < ws) by (apply rsum_pos; [lia|exact W]).
    eexists; split; [exact V|]. split; [apply tabulate_length|].
    assert (Bv : forall j, (j < n)%nat -> nth j (tabulate n (fun i => w i / ws)) 0 = w j / ws) by (intros j J; apply nth_error_nth; rewrite (tabulate_nth_error R n _ j J); reflexivity).
    split; [|split].
    + rewrite (rsum_ext n _ (fun j => w j / ws)) by exact Bv. rewrite rsum_div. fold ws. field. lra.
    + intros j J. rewrite Bv by exact J. left. apply Rdiv_lt_0_compat; [apply W; exact J|exact WP].
    + intros j J N1 N2. rewrite Bv by exact J. pose proof (nxt_lt n e ltac:(lia)) as Ln.
      assert (Nj : nxt n j <> e) by (intros X; apply N2; rewrite <- X, prv_nxt by exact J; reflexivity).
      assert (Wj : w j <= / m ^ 4).
      { unfold w. pose proof (beO j J N1). pose proof (beO _ (nxt_lt n j ltac:(lia)) Nj). unfold Rdiv. rewrite Rmult_1_l. apply Rinv_le_contravar; [apply pow_lt; lra|].
        replace (m ^ 4) with ((m * m) ^ 2) by ring. apply pow_incr. split; [nra|]. apply Rmult_le_compat; lra. }
      assert (We : / d ^ 2 <= ws).
      { apply Rle_trans with (w e).
        - unfold w, Rdiv. rewrite Rmult_1_l. destruct (bs e Hi) as [_ D]. destruct (bs _ Ln) as [_ D']. pose proof (beO _ Ln (nxt_neq n e ltac:(lia) Hi)). pose proof (proj2 beE) as De.
          apply Rinv_le_contravar; [apply pow_lt, Rmult_lt_0_compat; lra|]. apply pow_incr. split; [apply Rmult_le_pos; lra|]. rewrite <- (Rmult_1_r d). apply Rmult_le_compat; lra.
        - unfold ws. rewrite (rsum_split1 n w e Hi). rewrite <- (Rplus_0_r (w e)) at 1. apply Rplus_le_compat_l. apply rsum_nonneg. intros k Hk. destruct (Nat.eqb k e); [lra|left; apply W; exact Hk]. }
      pose proof (proj2 beE) as De. assert (Dp : 0 < d ^ 2) by (apply pow_lt; lra).
      apply (Rmult_le_reg_r ws); [exact WP|]. unfold Rdiv at 1. rewrite Rmult_assoc, Rinv_l, Rmult_1_r by lra.
      eapply Rle_trans; [exact Wj|]. apply Rle_trans with (d ^ 2 / m ^ 4 * / d ^ 2); [|apply Rmult_le_compat_l; assumption].
      right. field. split; lra.
  - assert (Oe : forall j, (j < n)%nat -> j <> e -> eps <= dpar sds j) by (intros j J N; pose proof (beO j J N); lra).
    destruct (corner_one eps sds n He Lsd ltac:(lia) e Hi ltac:(lra) Oe) as (A & B & V).
    set (a := 1 / dpar sds (nxt n e) ^ 2) in *. set (b := 1 / dpar sds (prv n e) ^ 2) in *.
    eexists; split; [exact V|]. split; [apply tabulate_length|]. set (w := fun i : nat => if Nat.eqb i e then a / (a + b) else if Nat.eqb i (prv n e) then b / (b + a) else 0) in *.
    assert (Bv : forall j, (j < n)%nat -> nth j (tabulate n w) 0 = w j) by (intros j J; apply nth_error_nth; rewrite (tabulate_nth_error R n _ j J); reflexivity).
    destruct prvE as [Lp Np].
    split; [|split].
    + rewrite (rsum_ext n _ w) by exact Bv. rewrite (rsum_double n _ e (prv n e)); auto.
      * unfold w. rewrite Nat.eqb_refl. destruct (Nat.eqb_spec (prv n e) e); [congruence|]. rewrite Nat.eqb_refl. field. lra.
      * intros k _ K1 K2. unfold w. destruct (Nat.eqb_spec k e); [congruence|]. destruct (Nat.eqb_spec k (prv n e)); [congruence|reflexivity].
    + intros j J. rewrite Bv by exact J. unfold w. destruct (Nat.eqb j e); [left; apply Rdiv_lt_0_compat; lra|]. destruct (Nat.eqb j (prv n e)); [left; apply Rdiv_lt_0_compat; lra|lra].
    + intros j J N1 N2. rewrite Bv by exact J. unfold w. destruct (Nat.eqb_spec j e); [congruence|]. destruct (Nat.eqb_spec j (prv n e)); [congruence|]. exact C0.
Qed.

Lemma composite_contact : exists p, compositeRibbonPatch eps sf sds = Some p /\
  Rabs (vdot (p -v P) v) <= F * g ^ 2 + F * g * d + (2 * K + T) * d ^ 2 + K / 10000 * d + 9 * M * d ^ 2 + 3 * INR n * M * d ^ 2 / m ^ 4.
Proof.
  destruct corner_weights as (b & Eb & Lb & Sb & B0 & Bo).
  destruct (compositePatch_value eps sf He H3 Rd sds Lsd Tme b Eb Lb) as (f & Hf & V). fold n in Hf, V.
  eexists; split; [exact V|]. destruct prvE as [Lp Np]. pose proof (nxt_lt n e ltac:(lia)) as Ln.
  assert (Any : forall j, (j < n)%nat -> Rabs (fl (f j)) <= 3 * M).
  { intros j J. destruct (bs j J) as [X Y]. apply (comp_any j _ _ _ J X Y (Hf j J)). }
  assert (Fe : Rabs (fl (f e)) <= nearby).
  { assert (E := Hf e Hi). rewrite (proj1 beE) in E. eapply Rle_trans; [apply (comp_e _ E)|]. unfold nearby. pose proof M0. pose proof g0. pose proof d0. pose proof (pow2_ge_0 d). pose proof (pow2_ge_0 g).
    assert (0 <= F * g ^ 2) by (apply Rmult_le_pos; assumption). assert (0 <= F * g * d) by (apply Rmult_le_pos; [apply Rmult_le_pos|]; assumption). assert (0 <= M * d ^ 2) by (apply Rmult_le_pos; assumption). lra. }
  assert (Fx : Rabs (fl (f (nxt n e))) <= nearby) by (apply comp_x, Hf; exact Ln).
  assert (Fp : Rabs (fl (f (prv n e))) <= nearby) by (apply comp_p, Hf; exact Lp).
  set (z := fun j => (fl (f j) + fl (f (nxt n j))) / 2).
  assert (half : forall x y A, Rabs x <= A -> Rabs y <= A -> Rabs ((x + y) / 2) <= A).
  { intros x y A Hx Hy. unfold Rdiv. rewrite Rabs_mult, (Rabs_right (/ 2)) by lra. pose proof (Rabs_triang x y). lra. }
  assert (X : vdot (vsum n (fun i => f i *v (nth i b 0 + nth (prv n i) b 0)) *v / 2 -v P) v = rsum n (fun j => z j * nth j b 0)).
  { assert (S1 : vsum n (fun i => f i *v (nth i b 0 + nth (prv n i) b 0)) = vsum n (fun i => (f i +v f (nxt n i)) *v nth i b 0)).
    { rewrite (vsum_ext n _ (fun i => f i *v nth i b 0 +v f i *v nth (prv n i) b 0)) by (intros; v3ring).
      rewrite vsum_add. rewrite <- (vsum_nxt n (fun i => f i *v nth (prv n i) b 0)). rewrite <- vsum_add. apply vsum_ext.
      intros i Li. rewrite (prv_nxt n i Li). v3ring. }
    rewrite S1. replace (vdot (vsum n (fun i => (f i +v f (nxt n i)) *v nth i b 0) *v / 2 -v P) v) with
      (vdot (vsum n (fun i => (f i +v f (nxt n i)) *v nth i b 0)) v / 2 - vdot P v * 1) by (unfold vdot; simpl; field).
    rewrite vdot_vsum, <- Sb, <- rsum_scal. unfold Rdiv at 1. rewrite Rmult_comm, <- rsum_scal, <- rsum_minus. apply rsum_ext. intros j J.
    unfold z, fl, vdot; simpl; field. }
  rewrite X. pose proof M0.
  eapply Rle_trans; [apply (mix (fun j => nth j b 0) z (prv n e) nearby (3 * M) (d ^ 2 / m ^ 4) Hi Lp Np ltac:(lra) B0 Bo)|].
  - intros j J. apply half; apply Any; [exact J|apply nxt_lt; lia].
  - apply half; assumption.
  - unfold z. rewrite (nxt_prv n e Hi). apply half; assumption.
  - assert (Two : nth e b 0 + nth (prv n e) b 0 <= 1).
    { rewrite <- Sb. rewrite (rsum_split1 n _ e Hi), (rsum_split1 n _ (prv n e) Lp). destruct (Nat.eqb_spec (prv n e) e); [contradiction|].
      assert (0 <= rsum n (fun j => if Nat.eqb j (prv n e) then 0 else if Nat.eqb j e then 0 else nth j b 0)); [|lra].
      apply rsum_nonneg. intros j J. destruct (Nat.eqb j (prv n e)); [lra|]. destruct (Nat.eqb j e); [lra|]. apply B0; exact J. }
    assert (N0 : 0 <= nearby) by (eapply Rle_trans; [apply Rabs_pos|exact Fe]).
    pose proof (B0 e Hi). pose proof (B0 _ Lp).
    apply Rle_trans with (nearby * 1 + INR n * (3 * M * (d ^ 2 / m ^ 4))).
    + apply Rplus_le_compat_r, Rmult_le_compat_l; assumption.
    + unfold nearby, quad. right. field. pose proof m0. lra.
Qed.

(** ** The deficient blends *)
Definition W : R := 3 * d ^ 2 + d * (3 * d ^ 2 + 2 * g) / m.
Notation wd := (wdef eps sf sds).

Lemma frac : forall a b u w, 0 < a + b -> 0 <= a -> 0 <= b -> forall A, Rabs u <= A -> Rabs w <= A -> Rabs ((a * u + b * w) / (a + b)) <= A.
Proof.
  intros a b u w S0 A0 B0 A Hu Hw. unfold Rdiv. rewrite Rabs_mult, (Rabs_right (/ (a + b))) by (left; apply Rinv_0_lt_compat; exact S0).
  apply (Rmult_le_reg_r (a + b)); [exact S0|]. rewrite Rmult_assoc, Rinv_l, Rmult_1_r by lra.
  replace (A * (a + b)) with (A * a + A * b) by ring. rewrite (Rmult_comm a), (Rmult_comm b). apply abs2; apply abs_scale; lra.
Qed.
Lemma wd_form : forall i, (i < n)%nat -> (eps <= dpar sds i \/ eps <= dpar sds (nxt n i)) ->
  wd i = (dpar sds (nxt n i) * (hermite 0 (1 - spar sds i) * hermite 0 (dpar sds i)) + dpar sds i * (hermite 0 (spar sds (nxt n i)) * hermite 0 (dpar sds (nxt n i)))) / (dpar sds (nxt n i) + dpar sds i).
Proof.
  intros i I Z. unfold wdef. fold n. destruct (Rlt_dec _ _) as [L0|L0]; [destruct (Rlt_dec _ _) as [L1|L1]; [lra|]|]; rewrite (Rplus_comm (dpar sds (nxt n i))); f_equal; ring.
Qed.
Lemma some_far : forall i, (i < n)%nat -> eps <= dpar sds i \/ eps <= dpar sds (nxt n i).
Proof.
  intros i I. destruct (Nat.eq_dec i e) as [->|N]; [right|left].
  - pose proof (beO _ (nxt_lt n e ltac:(lia)) (nxt_neq n e ltac:(lia) Hi)). lra.
  - pose proof (beO i I N). lra.
Qed.
Lemma wd_range : forall i, (i < n)%nat -> 0 <= wd i <= 1.
Proof.
  intros i I. rewrite wd_form by (try apply some_far; exact I). destruct (bs i I) as [A B]. pose proof (nxt_lt n i ltac:(lia)) as Li. destruct (bs _ Li) as [A' B'].
  pose proof (herm_lo (1 - spar sds i) ltac:(lra)). pose proof (herm_lo _ B). pose proof (herm_lo _ A'). pose proof (herm_lo _ B').
  pose proof (some_far i I) as Sf. assert (S0 : 0 < dpar sds (nxt n i) + dpar sds i) by lra.
  assert (pr : forall u w, 0 <= u <= 1 -> 0 <= w <= 1 -> 0 <= u * w <= 1) by (intros u w Hu Hw; split; [apply Rmult_le_pos; lra|nra]).
  pose proof (pr _ _ H H0) as P1. pose proof (pr _ _ H1 H4) as P2. split.
  - apply Rmult_le_pos; [|left; apply Rinv_0_lt_compat; exact S0]. apply Rplus_le_le_0_compat; apply Rmult_le_pos; lra.
  - eapply Rle_trans; [apply Rle_abs|]. apply frac; try lra; apply Rabs_le; lra.
Qed.
Lemma wd_far : forall j, (j < n)%nat -> j <> e -> j <> prv n e -> wd j <= 3 * d ^ 2.
Proof.
  intros j J N1 N2. rewrite wd_form by (try apply some_far; exact J). destruct (bs j J) as [A B]. pose proof (nxt_lt n j ltac:(lia)) as Lj. destruct (bs _ Lj) as [A' B'].
  assert (Nj : nxt n j <> e) by (intros X; apply N2; rewrite <- X, prv_nxt by exact J; reflexivity).
  pose proof (herm_lo (1 - spar sds j) ltac:(lra)). pose proof (herm_lo _ B). pose proof (herm_lo _ A'). pose proof (herm_lo _ B').
  pose proof (some_far j J) as Sf. assert (S0 : 0 < dpar sds (nxt n j) + dpar sds j) by lra.
  assert (lp : forall u w c, 0 <= u <= c -> 0 <= w <= 1 -> Rabs (u * w) <= c) by (intros u w c Hu Hw; apply scaled_abs; [rewrite Rabs_right; lra|exact Hw]).
  assert (sq : forall x, 0 <= x -> x <= d -> 3 * x ^ 2 <= 3 * d ^ 2) by (intros x X0 Xd; assert (x ^ 2 <= d ^ 2) by (apply pow_incr; lra); lra).
  eapply Rle_trans; [apply Rle_abs|]. apply frac; try lra.
  - destruct (Nat.eq_dec j (nxt n e)) as [->|N3].
    + apply lp; [|assumption]. split; [apply H|]. pose proof (herm_near1 (1 - spar sds (nxt n e)) ltac:(lra)) as Q. replace (1 - (1 - spar sds (nxt n e))) with (spar sds (nxt n e)) in Q by ring.
      pose proof (sq (spar sds (nxt n e)) ltac:(lra) (proj1 beX)). lra.
    + rewrite Rmult_comm. apply lp; [|assumption]. split; [apply H0|]. pose proof (herm_near1 _ B). pose proof (beF j J N1 N3 N2). pose proof (sq (1 - dpar sds j) ltac:(lra) ltac:(lra)). lra.
  - destruct (Nat.eq_dec (nxt n j) (prv n e)) as [E|N3].
    + apply lp; [|assumption]. split; [apply H1|]. pose proof (herm_near1 _ A') as Q. rewrite E in *. pose proof beP. pose proof (sq (1 - spar sds (prv n e)) ltac:(lra) ltac:(lra)). lra.
    + rewrite Rmult_comm. apply lp; [|assumption]. split; [apply H4|]. pose proof (herm_near1 _ B').
      assert (N4 : nxt n j <> nxt n e) by (intros X; apply N1; rewrite <- (prv_nxt n j J), X, prv_nxt by exact Hi; reflexivity).
      pose proof (beF _ Lj Nj N4 N3). pose proof (sq (1 - dpar sds (nxt n j)) ltac:(lra) ltac:(lra)). lra.
Qed.
Lemma own_weight : forall h x t u, 0 <= h <= 1 -> h <= d -> 0 <= x <= 1 -> x <= d -> m <= t <= 1 -> 0 <= u <= 1 -> Rabs (t - u) <= g ->
  Rabs ((t * (hermite 0 u * hermite 0 h) + h * (hermite 0 x * hermite 0 t)) / (t + h) - hermite 0 u) <= W.
Proof.
  intros h x t u Hh Hd Hx Xd Ht Hu Tu. pose proof m0 as Pm. pose proof d0.
  pose proof (herm_near0 h Hh). pose proof (herm_near0 x Hx). pose proof (herm_lo u Hu). pose proof (herm_lo t ltac:(lra)). pose proof (herm_lip t u ltac:(lra) Hu).
  assert (sq : forall y, 0 <= y -> y <= d -> 3 * y ^ 2 <= 3 * d ^ 2) by (intros y X0 Yd; assert (y ^ 2 <= d ^ 2) by (apply pow_incr; lra); lra).
  pose proof (sq h ltac:(lra) Hd). pose proof (sq x ltac:(lra) Xd).
  replace ((t * (hermite 0 u * hermite 0 h) + h * (hermite 0 x * hermite 0 t)) / (t + h) - hermite 0 u) with
    (- (hermite 0 u * (1 - hermite 0 h)) * (t / (t + h)) + ((hermite 0 t - hermite 0 u) - hermite 0 t * (1 - hermite 0 x)) * (h / (t + h))) by (field; lra).
  assert (F1 : 0 <= t / (t + h) <= 1).
  { split; [apply Rmult_le_pos; [lra|left; apply Rinv_0_lt_compat; lra]|]. apply (Rmult_le_reg_r (t + h)); [lra|]. unfold Rdiv. rewrite Rmult_assoc, Rinv_l by lra. lra. }
  assert (F2 : 0 <= h / (t + h) <= d / m).
  { split; [apply Rmult_le_pos; [lra|left; apply Rinv_0_lt_compat; lra]|]. apply Rmult_le_compat; [lra|left; apply Rinv_0_lt_compat; lra|lra|]. apply Rinv_le_contravar; lra. }
  unfold W. replace (3 * d ^ 2 + d * (3 * d ^ 2 + 2 * g) / m) with (3 * d ^ 2 * 1 + (2 * g + 3 * d ^ 2) * (d / m)) by (field; lra).
  apply abs2; apply abs_scale; try assumption.
  - rewrite Rabs_Ropp, Rmult_comm. apply scaled_abs; [rewrite Rabs_right; lra|lra].
  - unfold Rminus at 1. apply abs2; [lra|]. rewrite Rabs_Ropp, Rmult_comm. apply scaled_abs; [rewrite Rabs_right; lra|lra].
Qed.
Lemma wd_e : Rabs (wd e - hermite 0 (1 - s)) <= W.
Proof.
  rewrite wd_form by (try apply some_far; exact Hi). rewrite (proj1 beE). pose proof (nxt_lt n e ltac:(lia)) as Ln. destruct (bs e Hi) as [_ B]. destruct (bs _ Ln) as [A' B'].
  pose proof beS. pose proof m0. pose proof (beO _ Ln (nxt_neq n e ltac:(lia) Hi)). destruct beX. apply own_weight; try assumption; try lra. apply beE.
Qed.
Lemma wd_p : Rabs (wd (prv n e) - hermite 0 s) <= W.
Proof.
  destruct prvE as [Lp Np]. rewrite wd_form by (try apply some_far; exact Lp). rewrite (nxt_prv n e Hi), (proj1 beE). destruct (bs e Hi) as [_ B]. destruct (bs _ Lp) as [A' B'].
  pose proof beS. pose proof m0. pose proof (beO _ Lp Np). destruct beP.
  rewrite (Rplus_comm (dpar sds e)), (Rplus_comm (dpar sds e * _)). apply own_weight; try assumption; try lra. apply beE.
Qed.

Lemma deficient_mix : forall (z : nat -> R) A B c, 0 <= B -> Rabs c <= M -> (forall j, (j < n)%nat -> Rabs (z j) <= B) -> Rabs (z e) <= A -> Rabs (z (prv n e)) <= A ->
  Rabs (rsum n (fun j => z j * wd j) + c * (1 - rsum n wd)) <= 2 * A + INR n * B * (3 * d ^ 2) + M * (2 * W + INR n * (3 * d ^ 2)).
Proof.
  intros z A B c B0 Hc Zb Ze Zp. destruct prvE as [Lp Np]. pose proof (wd_range e Hi). pose proof (wd_range _ Lp).
  assert (A0 : 0 <= A) by (eapply Rle_trans; [apply Rabs_pos|exact Ze]).
  apply abs2.
  - eapply Rle_trans; [apply (mix wd z (prv n e) A B (3 * d ^ 2) Hi Lp Np B0); auto|].
    + intros j J. apply wd_range; exact J.
    + exact wd_far.
    + rewrite (Rmult_comm 2 A), Rmult_assoc. apply Rplus_le_compat_r, Rmult_le_compat_l; lra.
  - apply prod_le; [exact Hc|].
    rewrite (rsum_split1 n wd e Hi), (rsum_split1 n _ (prv n e) Lp). destruct (Nat.eqb_spec (prv n e) e); [contradiction|].
    set (o := rsum n _). assert (O : Rabs (- o) <= INR n * (3 * d ^ 2)).
    { rewrite Rabs_Ropp, <- rsum_const. eapply Rle_trans; [apply rsum_abs|]. apply rsum_le. intros j J. pose proof (pow2_ge_0 d).
      destruct (Nat.eqb_spec j (prv n e)); [rewrite Rabs_R0; lra|]. destruct (Nat.eqb_spec j e); [rewrite Rabs_R0; lra|].
      rewrite Rabs_right by (apply Rle_ge, wd_range; exact J). apply wd_far; assumption. }
    pose proof wd_e as We. pose proof wd_p as Wp. rewrite hermite0_sym in We. rewrite <- Rabs_Ropp in We, Wp.
    replace (1 - (wd e + (wd (prv n e) + o))) with (- (wd e - (1 - hermite 0 s)) + - (wd (prv n e) - hermite 0 s) + - o) by ring.
    replace (2 * W) with (W + W) by ring. apply abs3; assumption.
Qed.

Lemma midpoint_contact : forall cp, Rabs (vdot (cp -v P) v) <= M -> exists p, midpointPatch eps sf cp sds = Some p /\
  Rabs (vdot (p -v P) v) <= 2 * ((2 * K + T) * d ^ 2 + K / 10000 * d) + INR n * (3 * M) * (3 * d ^ 2) + M * (2 * W + INR n * (3 * d ^ 2)).
Proof.
  intros cp Hc. unfold midpointPatch. rewrite (deficient_value eps sf He H3 Rd sds Lsd Tme). cbn [bind]. fold n. destruct prvE as [Lp Np]. pose proof (nxt_lt n e ltac:(lia)) as Ln.
  destruct (civ eps sf He H3 Rd sds Lsd Tme) as [f Hf]. fold n in Hf.
  rewrite (osum_total n _ (fun i => f i *v wd i)) by (intros i I; fold n; rewrite (tabulate_nth_error R n _ i I); cbn [bind]; rewrite (Hf i I); reflexivity).
  cbn [bind]. eexists; split; [reflexivity|]. rewrite accumulate_tab.
  assert (X : vdot (vsum n (fun i => f i *v wd i) +v cp *v (1 - rsum n wd) -v P) v = rsum n (fun j => fl (f j) * wd j) + vdot (cp -v P) v * (1 - rsum n wd)).
  { rewrite (rsum_ext n (fun j => fl (f j) * wd j) (fun j => vdot (f j *v wd j) v - vdot P v * wd j)) by (intros; unfold fl, vdot; simpl; ring).
    rewrite rsum_minus, rsum_scal, <- vdot_vsum. unfold vdot; simpl; ring. }
  fold n. rewrite X. pose proof M0.
  assert (In : forall j, (j < n)%nat -> exists a b c, sideInterpolant sf j (spar sds j) (spar sds (nxt n j)) = Some a /\ sideInterpolant sf (nxt n j) (spar sds (nxt n j)) (1 - spar sds j) = Some b /\
    cornerCorrection eps sf j (1 - spar sds j) (spar sds (nxt n j)) = Some c /\ Rabs (fl a) <= M /\ Rabs (fl b) <= M /\ Rabs (fl c) <= M /\ fl (f j) = fl a + fl b - fl c).
  { intros j J. pose proof (nxt_lt n j ltac:(lia)) as Lj. destruct (bs j J) as [A _]. destruct (bs _ Lj) as [A' _].
    destruct (sv j _ _ J A A') as (a & Ea & Ma). destruct (sv (nxt n j) (spar sds (nxt n j)) (1 - spar sds j) Lj A' ltac:(lra)) as (b & Eb & Mb). destruct (kv j (1 - spar sds j) (spar sds (nxt n j)) J ltac:(lra) A') as (k & Ek & Mk).
    exists a, b, k. do 6 (split; [assumption|]). assert (E := Hf j J). unfold cornerInterpolant in E. fold n in E. rewrite !nth_sd in E by (rewrite Lsd; assumption). cbn [bind px py] in E.
    rewrite Ea, Eb, Ek in E. cbn [bind] in E. injection E as <-. unfold fl, vdot; simpl; ring. }
  change (INR n * (3 * M) * (3 * d ^ 2)) with (INR n * (3 * M) * (3 * d ^ 2)). fold (quad d). pose proof beS. pose proof m0.
  assert (z0 : forall t x p, 0 <= t <= 1 -> 0 <= x <= 1 -> t = s -> sideInterpolant sf e t x = Some p -> fl p = 0).
  { intros t x p Ht Hx -> Ea. pose proof (own s x p Ht Hx Ea) as O. replace (s - s) with 0 in O by ring. rewrite Rabs_R0 in O. destruct (Req_dec (fl p) 0) as [Z|Z]; [exact Z|]. apply Rabs_pos_lt in Z. nra. }
  apply (deficient_mix (fun j => fl (f j)) (quad d) (3 * M) _ ltac:(lra) Hc).
  - intros j J. destruct (In j J) as (a & b & c & _ & _ & _ & Ma & Mb & Mc & ->). replace (fl a + fl b - fl c) with (fl a * 1 + fl b - fl c * 1) by ring. apply three; try assumption; lra.
  - destruct (In e Hi) as (a & b & c & Ea & Eb & Ec & _ & _ & _ & ->). destruct (bs e Hi) as [A _]. destruct (bs _ Ln) as [A' _]. rewrite (proj1 beE) in *.
    rewrite (z0 _ _ _ A A' eq_refl Ea). replace (0 + fl b - fl c) with (fl b - fl c) by ring. destruct beX as [Xd _].
    eapply Rle_trans; [apply (next_rest (1 - s) _ b c ltac:(lra) A' ltac:(lra) Eb Ec)|]. apply quad_mono; lra.
  - destruct (In _ Lp) as (a & b & c & Ea & Eb & Ec & _ & _ & _ & ->). rewrite (nxt_prv n e Hi) in *. destruct (bs e Hi) as [A _]. destruct (bs _ Lp) as [A' _]. rewrite (proj1 beE) in *.
    set (y := spar sds (prv n e)) in *. destruct beP as [Xd _]. fold y in Xd.
    rewrite (z0 s (1 - y) b A ltac:(lra) eq_refl Eb). replace (fl a + 0 - fl c) with (fl a - fl c) by ring.
    replace y with (1 - (1 - y)) in Ea by ring. eapply Rle_trans; [apply (prev_rest s (1 - y) a c A ltac:(lra) ltac:(lra) Ea Ec)|]. apply quad_mono; lra.
Qed.

(** [N] bounds the cross derivatives of the neighbours seen along [v]. *)
Definition crosses_within (N : R) : Prop := forall j c c' X t, j = nxt n e \/ j = prv n e -> side_data sf j c c' X -> 0 <= t <= 1 -> Rabs (vdot (X t) v) <= N.

Lemma tilt : forall N j x t u p q, crosses_within N -> j = nxt n e \/ j = prv n e -> 0 <= x <= 1 -> 0 <= t <= 1 -> 0 <= u <= 1 -> Rabs (t - u) <= g ->
  sideInterpolant sf j x t = Some p -> sideInterpolant sf j x u = Some q -> Rabs (fl p - fl q) <= N * g.
Proof.
  intros N j x t u p q Cr Hj Hx Ht Hu Tu Ep Eq. assert (Lj : (j < n)%nat) by (destruct Hj as [->| ->]; [apply nxt_lt|apply prv_lt]; lia).
  assert (Sd : exists c c' X, side_data sf j c c' X).
  { destruct NB as ((c1 & c1' & X1 & D1 & S1 & _) & (c2 & c2' & X2 & D2 & S2 & _) & _). fold n in S1, S2. destruct Hj as [->| ->]; [exists c1, c1', X1; exact S1|exists c2, c2', X2; exact S2]. }
  destruct Sd as (c & c' & X & Sd). destruct (side_data_at sf _ c c' X L Lj Sd x Hx) as (A1 & A2 & _).
  rewrite (side_value sf L C _) in Ep, Eq by (assumption || (apply gok_nonneg; lra)). injection Ep as <-. injection Eq as <-. rewrite !siv_plain by (assumption || lra). rewrite A1, A2.
  unfold fl. replace (vdot (c x +v X x *v t -v P) v - vdot (c x +v X x *v u -v P) v) with (vdot (X x) v * (t - u)) by (unfold vdot; simpl; ring).
  apply prod_le; [|exact Tu]. apply (Cr j c c' X); assumption.
Qed.

Lemma midpointCoons_contact : forall cp N, Rabs (vdot (cp -v P) v) <= M -> crosses_within N -> exists p, midpointCoons eps sf cp sds = Some p /\
  Rabs (vdot (p -v P) v) <= 2 * ((2 * K + T) * d ^ 2 + K / 10000 * d + N * g) + INR n * (3 * M) * (3 * d ^ 2) + M * (2 * W + INR n * (3 * d ^ 2)).
Proof.
  intros cp N Hc Cr. unfold midpointCoons. rewrite (deficient_value eps sf He H3 Rd sds Lsd Tme). cbn [bind]. fold n. destruct prvE as [Lp Np]. pose proof (nxt_lt n e ltac:(lia)) as Ln. fold n.
  destruct (coonsTerm_value eps sf He H3 Rd sds Lsd Tme (tabulate n wd) ltac:(apply tabulate_length)) as (k & Hk & V). fold n in Hk, V. rewrite V. cbn [bind]. eexists; split; [reflexivity|]. rewrite accumulate_tab.
  set (r := fun i => siv sf i (spar sds i) (dpar sds i)).
  assert (Hr : forall i, (i < n)%nat -> sideInterpolant sf i (spar sds i) (dpar sds i) = Some (r i)) by (intros i I; apply (side_value sf L C i _ _ I); apply gok_nonneg; apply (bs i I)).
  assert (wn : forall i, (i < n)%nat -> nth i (tabulate n wd) 0 = wd i) by (intros i I; apply nth_error_nth; rewrite (tabulate_nth_error R n _ i I); reflexivity).
  set (q := fun i => r i +v r (nxt n i) -v k i).
  assert (S1 : vsum n (fun i => siv sf i (spar sds i) (dpar sds i) *v (nth i (tabulate n wd) 0 + nth (prv n i) (tabulate n wd) 0) -v k i *v nth i (tabulate n wd) 0) = vsum n (fun i => q i *v wd i)).
  { rewrite (vsum_ext n _ (fun i => (r i -v k i) *v wd i +v r i *v wd (prv n i))).
    2:{ intros i I. rewrite !wn by (try apply prv_lt; lia). fold (r i). v3ring. }
    rewrite vsum_add. rewrite <- (vsum_nxt n (fun i => r i *v wd (prv n i))). rewrite <- vsum_add. apply vsum_ext. intros i I. rewrite (prv_nxt n i I). unfold q. v3ring. }
  rewrite S1.
  assert (X : vdot (vsum n (fun i => q i *v wd i) +v cp *v (1 - rsum n wd) -v P) v = rsum n (fun j => fl (q j) * wd j) + vdot (cp -v P) v * (1 - rsum n wd)).
  { rewrite (rsum_ext n (fun j => fl (q j) * wd j) (fun j => vdot (q j *v wd j) v - vdot P v * wd j)) by (intros; unfold fl, vdot; simpl; ring).
    rewrite rsum_minus, rsum_scal, <- vdot_vsum. unfold vdot; simpl; ring. }
  rewrite X. pose proof M0. fold (quad d). pose proof beS. pose proof m0.
  assert (Fq : forall j, fl (q j) = fl (r j) + fl (r (nxt n j)) - fl (k j)) by (intros j; unfold q, fl, vdot; simpl; ring).
  assert (Mr : forall j, (j < n)%nat -> Rabs (fl (r j)) <= M).
  { intros j J. destruct (bs j J) as [A B]. destruct (sv j _ _ J A B) as (a & Ea & Ma). rewrite (Hr j J) in Ea. injection Ea as <-. exact Ma. }
  assert (re0 : fl (r e) = 0).
  { pose proof (Hr e Hi) as Ea. destruct (bs e Hi) as [A B]. rewrite (proj1 beE) in *. pose proof (own s _ _ A B Ea) as O. replace (s - s) with 0 in O by ring. rewrite Rabs_R0 in O.
    destruct (Req_dec (fl (r e)) 0) as [Z|Z]; [exact Z|]. apply Rabs_pos_lt in Z. nra. }
  apply (deficient_mix (fun j => fl (q j)) (quad d + N * g) (3 * M) _ ltac:(lra) Hc).
  - intros j J. rewrite Fq. replace (fl (r j) + fl (r (nxt n j)) - fl (k j)) with (fl (r j) * 1 + fl (r (nxt n j)) - fl (k j) * 1) by ring. apply three; try lra; [apply Mr; exact J|apply Mr, nxt_lt; lia|].
    destruct (bs j J) as [A _]. destruct (bs _ (nxt_lt n j ltac:(lia))) as [A' _]. destruct (kv j (1 - spar sds j) (spar sds (nxt n j)) J ltac:(lra) A') as (kk & Ek & Mk). rewrite (Hk j J) in Ek. injection Ek as <-. exact Mk.
  - rewrite Fq, re0. pose proof (Hr _ Ln) as Er. pose proof (Hk e Hi) as Ek. destruct (bs e Hi) as [A _]. destruct (bs _ Ln) as [A' B']. rewrite (proj1 beE) in *. destruct beX as [Xd Yg].
    destruct (sv (nxt n e) (spar sds (nxt n e)) (1 - s) Ln A' ltac:(lra)) as (b & Eb & _).
    replace (0 + fl (r (nxt n e)) - fl (k e)) with ((fl b - fl (k e)) + (fl (r (nxt n e)) - fl b)) by ring. apply abs2.
    + eapply Rle_trans; [apply (next_rest (1 - s) _ b _ ltac:(lra) A' ltac:(lra) Eb Ek)|]. apply quad_mono; lra.
    + apply (tilt N (nxt n e) (spar sds (nxt n e)) (dpar sds (nxt n e)) (1 - s)); auto; lra.
  - rewrite Fq. rewrite (nxt_prv n e Hi), re0. pose proof (Hr _ Lp) as Er. pose proof (Hk _ Lp) as Ek. rewrite (nxt_prv n e Hi) in Ek. destruct (bs e Hi) as [A _]. destruct (bs _ Lp) as [A' B']. rewrite (proj1 beE) in *. destruct beP as [Xd Yg].
    set (y := spar sds (prv n e)) in *. destruct (sv (prv n e) y s Lp A' A) as (b & Eb & _).
    replace (fl (r (prv n e)) + 0 - fl (k (prv n e))) with ((fl b - fl (k (prv n e))) + (fl (r (prv n e)) - fl b)) by ring. apply abs2.
    + pose proof Eb as Eb'. replace y with (1 - (1 - y)) in Eb' by ring. eapply Rle_trans; [apply (prev_rest s (1 - y) b _ A ltac:(lra) ltac:(lra) Eb' Ek)|]. apply quad_mono; lra.
    + apply (tilt N (prv n e) y (dpar sds (prv n e)) s); auto.
Qed.
End One.
