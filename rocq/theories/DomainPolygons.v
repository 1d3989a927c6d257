(** The vertex layouts of regular, circular and angular domains. *)

From Verif Require Import Base MeshModel GeomSpec DomainModel MeshParams MeshGeom MeshGeom2.
Open Scope R_scope.

(** A point of the unit circle. *)
Definition onc (a : R) : V2 := mkV2 (cos a) (sin a).

Lemma sarea_circle : forall a b c,
  sarea (onc a) (onc b) (onc c) = 4 * sin ((b - a) / 2) * sin ((c - b) / 2) * sin ((c - a) / 2).
Proof.
  intros a b c.
  set (x := (b - a) / 2). set (y := (c - b) / 2).
  replace ((c - a) / 2) with (x + y) by (unfold x, y; lra).
  replace b with (a + 2 * x) by (unfold x; lra).
  replace c with (a + 2 * x + 2 * y) by (unfold x, y; lra).
  clearbody x y. unfold sarea, pcross, psub, onc; simpl.
  assert (D : forall p q, cos p * sin q - sin p * cos q = sin (q - p)).
  { intros p q. rewrite sin_minus; ring. }
  transitivity (sin (2 * x) + sin (2 * y) - sin (2 * (x + y))).
  - transitivity ((cos a * sin (a + 2 * x) - sin a * cos (a + 2 * x))
      + (cos (a + 2 * x) * sin (a + 2 * x + 2 * y) - sin (a + 2 * x) * cos (a + 2 * x + 2 * y))
      - (cos a * sin (a + 2 * x + 2 * y) - sin a * cos (a + 2 * x + 2 * y))); [ring|].
    rewrite !D. replace (a + 2 * x - a) with (2 * x) by ring.
    replace (a + 2 * x + 2 * y - (a + 2 * x)) with (2 * y) by ring.
    replace (a + 2 * x + 2 * y - a) with (2 * (x + y)) by ring. ring.
  - rewrite !sin_2a, sin_plus, cos_plus.
    pose proof (sin2_cos2 x) as X. pose proof (sin2_cos2 y) as Y. unfold Rsqr in X, Y.
    revert X Y. generalize (sin x) (cos x) (sin y) (cos y). intros sx cx sy cy X Y.
    assert (X' : cx * cx = 1 - sx * sx) by lra. assert (Y' : cy * cy = 1 - sy * sy) by lra.
    transitivity (2 * sx * cx + 2 * sy * cy - 2 * (sx * (cx * (cy * cy)) + sy * (cy * (cx * cx)) - sx * sx * sy * cy - sy * sy * sx * cx));
      [|rewrite X', Y'; ring]. ring.
Qed.

Lemma onc_period : forall a, onc (a + 2 * PI) = onc a.
Proof. intros a; unfold onc. rewrite cos_plus, sin_plus, cos_2PI, sin_2PI. apply V2_ext; simpl; ring. Qed.

(** Vertices at increasing angles within one turn form a strictly convex
    polygon. *)
Lemma circle_convex : forall vs (th : nat -> R), let n := length vs in (3 <= n)%nat ->
  (forall i, (i < n)%nat -> vtx vs i = onc (th i)) ->
  (forall i, (S i < n)%nat -> th i < th (S i)) ->
  th (n - 1)%nat < th 0%nat + 2 * PI ->
  strictly_convex vs.
Proof.
  intros vs th n Hn Hv Hm Hw k i Hk Hi Hik Hip. fold n in Hk, Hi, Hip |- *.
  assert (M : forall a b, (a < b)%nat -> (b < n)%nat -> th a < th b).
  { intros a b. induction b as [|b IH]; [lia|]. intros H1 H2.
    destruct (Nat.eq_dec a b) as [->|E]; [apply Hm; exact H2|].
    apply Rlt_trans with (th b); [apply IH; lia|apply Hm; exact H2]. }
  assert (P0 : (prv n k < n)%nat) by (apply prv_lt; lia).
  rewrite !Hv by assumption.
  assert (W : forall a b, (a < n)%nat -> (b < n)%nat -> th a < th b + 2 * PI).
  { intros a b Ha Hb.
    assert (th a <= th (n - 1)%nat) by (destruct (Nat.eq_dec a (n - 1)) as [->|]; [lra|left; apply M; lia]).
    assert (th 0%nat <= th b) by (destruct (Nat.eq_dec b 0) as [->|]; [lra|left; apply M; lia]). lra. }
  assert (G : forall a b c, a < b -> b < c -> c < a + 2 * PI -> 0 < sarea (onc a) (onc b) (onc c)).
  { intros a b c H1 H2 H3. rewrite sarea_circle.
    assert (0 < sin ((b - a) / 2)) by (apply sin_gt_0; lra).
    assert (0 < sin ((c - b) / 2)) by (apply sin_gt_0; lra).
    assert (0 < sin ((c - a) / 2)) by (apply sin_gt_0; lra).
    repeat apply Rmult_lt_0_compat; lra. }
  rewrite prv_cases in * by exact Hk. destruct (Nat.eqb_spec k 0) as [->|E].
  - (* side from n-1 to 0 *)
    rewrite <- (onc_period (th 0%nat)), <- (onc_period (th i)).
    apply G.
    + apply W; lia.
    + apply Rplus_lt_compat_r, M; lia.
    + apply Rplus_lt_compat_r, M; lia.
  - destruct (Nat.lt_trichotomy i k) as [L|[L|L]]; [|lia|].
    + rewrite <- (onc_period (th i)). apply G; [apply M; lia|apply W; lia|].
      apply Rplus_lt_compat_r, M; lia.
    + apply G; [apply M; lia|apply M; lia|apply W; lia].
Qed.

(** *** Regular domains *)
Lemma regular_closed : forall m, (1 <= m)%nat -> m <> 4%nat ->
  regularVertices m = Some (tabulate m (fun i => onc (2 * PI / INR m * INR i))).
Proof.
  intros m Hm H4; unfold regularVertices. destruct (Nat.eqb_spec m 4); [lia|].
  rewrite fdiv_some by (apply INR_neq0; lia). reflexivity.
Qed.

Lemma vtx_tabulate : forall m f i, (i < m)%nat -> vtx (tabulate m f) i = f i.
Proof.
  intros m f i H. unfold vtx. erewrite nth_error_nth; [reflexivity|]. apply tabulate_nth_error; exact H.
Qed.

Lemma regular_convex : forall m vs, (3 <= m)%nat -> regularVertices m = Some vs ->
  length vs = m /\ strictly_convex vs /\ inside vs pzero.
Proof.
  intros m vs Hm H. destruct (Nat.eq_dec m 4) as [->|H4].
  - injection H as <-. split; [reflexivity|]. split.
    + intros k i Hk Hi Hik Hip. simpl in Hk, Hi.
      do 4 (try destruct k as [|k]); try lia; do 4 (try destruct i as [|i]); try lia;
        try (exfalso; apply Hip; reflexivity); unfold sarea, pcross, psub, vtx; simpl; lra.
    + intros k Hk. simpl in Hk. do 4 (try destruct k as [|k]); try lia;
        unfold sarea, pcross, psub, vtx, pzero; simpl; lra.
  - rewrite regular_closed in H by lia. injection H as <-.
    rewrite tabulate_length. split; [reflexivity|].
    assert (Hp : 0 < INR m) by (apply lt_0_INR; lia). pose proof PI_RGT_0 as Pi.
    set (al := 2 * PI / INR m).
    assert (Ha : 0 < al) by (unfold al; apply Rmult_lt_0_compat; [lra|apply Rinv_0_lt_compat, Hp]).
    assert (Hal : al * INR m = 2 * PI) by (unfold al; field; lra).
    split.
    + apply circle_convex with (th := fun i => al * INR i); rewrite tabulate_length.
      * exact Hm.
      * intros i Hi; apply vtx_tabulate; exact Hi.
      * intros i Hi. rewrite S_INR. nra.
      * rewrite minus_INR by lia. simpl (INR 1). simpl (INR 0). nra.
    + intros k Hk. rewrite tabulate_length in Hk |- *.
      rewrite !vtx_tabulate by (try apply prv_lt; lia).
      assert (X : sarea (onc (al * INR k - al)) (onc (al * INR k)) pzero = sin al).
      { unfold sarea, pcross, psub, onc, pzero; simpl. rewrite cos_minus, sin_minus.
        pose proof (sin2_cos2 (al * INR k)) as S. unfold Rsqr in S.
        generalize dependent (sin (al * INR k)); intros s S. generalize dependent (cos (al * INR k)); intros c S.
        transitivity (sin al * (s * s + c * c)); [ring|rewrite S; ring]. }
      assert (S : 0 < sin al).
      { apply sin_gt_0; [exact Ha|]. assert (3 <= INR m) by (replace 3 with (INR 3) by (simpl; lra); apply le_INR; lia). nra. }
      rewrite prv_cases by exact Hk. destruct (Nat.eqb_spec k 0) as [->|E].
      * rewrite <- (onc_period (al * INR 0)).
        replace (al * INR 0 + 2 * PI) with (al * INR m) by (simpl (INR 0); lra).
        replace (al * INR (m - 1)) with (al * INR m - al) by (rewrite minus_INR by lia; simpl (INR 1); ring).
        rewrite <- X in S.
        (* same computation with k replaced by m *)
        unfold sarea, pcross, psub, onc, pzero; simpl. rewrite cos_minus, sin_minus.
        pose proof (sin2_cos2 (al * INR m)) as T. unfold Rsqr in T. rewrite X in S.
        revert T. generalize (sin (al * INR m)) (cos (al * INR m)); intros s c T.
        replace ((c - (c * cos al + s * sin al)) * (0 - (s * cos al - c * sin al)) -
          (s - (s * cos al - c * sin al)) * (0 - (c * cos al + s * sin al)))
          with (sin al * (s * s + c * c)) by ring. rewrite T. lra.
      * replace (al * INR (k - 1)) with (al * INR k - al) by (rewrite minus_INR by lia; simpl (INR 1); ring).
        rewrite X. exact S.
Qed.

Lemma regular_unit : forall m vs v, m <> 4%nat -> regularVertices m = Some vs -> In v vs ->
  px v * px v + py v * py v = 1.
Proof.
  intros m vs v H4 H Hv. unfold regularVertices in H. destruct (Nat.eqb_spec m 4); [contradiction|].
  destruct (fdiv (2 * PI) (INR m)); simpl in H; [|discriminate]. injection H as <-.
  unfold tabulate in Hv. apply in_map_iff in Hv. destruct Hv as (i & <- & _); simpl.
  pose proof (sin2_cos2 (r * INR i)); unfold Rsqr in *; lra.
Qed.

(** *** Circular domains *)
Lemma circularLoop_length : forall ls a, length (circularLoop a ls) = length ls.
Proof. induction ls as [|l ls IH]; intros a; simpl; [reflexivity|rewrite IH; reflexivity]. Qed.

Definition prefix (ls : list R) (i : nat) : R := rsum (S i) (fun j => nth j ls 0).

Lemma circularLoop_vtx : forall ls a i, (i < length ls)%nat ->
  vtx (circularLoop a ls) i = onc (a + prefix ls i).
Proof.
  induction ls as [|l ls IH]; intros a i Hi; simpl in Hi; [lia|].
  destruct i as [|i].
  - unfold vtx, prefix, onc; simpl. apply V2_ext; simpl; f_equal; ring.
  - change (vtx (circularLoop a (l :: ls)) (S i)) with (vtx (circularLoop (a + l) ls) i).
    rewrite IH by lia. f_equal. unfold prefix. rewrite (rsum_first (S i)). simpl. ring.
Qed.

Lemma accumulate_rsum : forall l, accumulate l = rsum (length l) (fun j => nth j l 0).
Proof.
  intros l. rewrite (list_as_tabulate _ l 0) at 1. apply fold_rplus.
Qed.

Lemma circular_convex : forall lens vs, (3 <= length lens)%nat ->
  (forall l, In l lens -> 0 < l) -> circularVertices lens = Some vs ->
  length vs = length lens /\ strictly_convex vs.
Proof.
  intros lens vs Hn Hpos H.
  assert (Hnth : forall i, (i < length lens)%nat -> 0 < nth i lens 0) by (intros; apply Hpos, nth_In; assumption).
  assert (Tot : 0 < accumulate lens) by (rewrite accumulate_rsum; apply rsum_pos; [lia|exact Hnth]).
  unfold circularVertices in H. rewrite fdiv_some in H by lra. cbn [bind] in H. injection H as <-.
  rewrite circularLoop_length, map_length. split; [reflexivity|].
  pose proof PI_RGT_0 as Pi.
  set (nu := 2 * PI / accumulate lens).
  assert (Hnu : 0 < nu) by (unfold nu; apply Rmult_lt_0_compat; [lra|apply Rinv_0_lt_compat, Tot]).
  assert (Hpre : forall i, (i < length lens)%nat ->
    prefix (map (fun x => x * nu) lens) i = prefix lens i * nu).
  { intros i Hi. unfold prefix. rewrite <- rsum_scal_r. apply rsum_ext; intros j Hj.
    rewrite (nth_indep _ 0 (0 * nu)) by (rewrite map_length; lia). apply (map_nth (fun x => x * nu)). }
  apply circle_convex with (th := fun i => 0 + prefix (map (fun x => x * nu) lens) i);
    rewrite circularLoop_length, map_length.
  - exact Hn.
  - intros i Hi; apply circularLoop_vtx. rewrite map_length; exact Hi.
  - intros i Hi. rewrite !Hpre by lia. unfold prefix. rewrite (rsum_S (S i)).
    specialize (Hnth (S i) Hi). nra.
  - rewrite !Hpre by lia.
    replace (prefix lens (length lens - 1)) with (accumulate lens)
      by (rewrite accumulate_rsum; unfold prefix; f_equal; lia).
    assert (0 < prefix lens 0) by (unfold prefix; simpl; specialize (Hnth 0%nat); lra || (rewrite Rplus_0_l; apply Hnth; lia)).
    replace (accumulate lens * nu) with (2 * PI) by (unfold nu; field; lra). nra.
Qed.

Lemma circular_unit : forall lens vs v, circularVertices lens = Some vs -> In v vs ->
  px v * px v + py v * py v = 1.
Proof.
  intros lens vs v H Hv. unfold circularVertices in H.
  destruct (fdiv (2 * PI) _) as [nu|]; simpl in H; [|discriminate]. injection H as <-.
  revert Hv. generalize 0. generalize (map (fun x => x * nu) lens) as ls.
  induction ls as [|l ls IH]; intros a Hv; simpl in Hv; [contradiction|].
  destruct Hv as [<-|Hv]; [|eapply IH; exact Hv]. simpl.
  pose proof (sin2_cos2 (a + l)); unfold Rsqr in *; lra.
Qed.

(** The arc of side [i] is proportional to its length, starting at angle 0
    and ending at a full turn. *)
Lemma circular_angles : forall lens vs i, circularVertices lens = Some vs -> (i < length lens)%nat ->
  nth_error vs i = Some (onc (2 * PI * (prefix lens i / accumulate lens))).
Proof.
  intros lens vs i H Hi. unfold circularVertices in H.
  destruct (Req_dec (accumulate lens) 0) as [E|E]; [rewrite E, fdiv_zero in H; discriminate|].
  rewrite fdiv_some in H by exact E. cbn [bind] in H. injection H as <-.
  rewrite vtx_nth by (rewrite circularLoop_length, map_length; exact Hi).
  rewrite circularLoop_vtx by (rewrite map_length; exact Hi). do 2 f_equal.
  rewrite Rplus_0_l. unfold prefix.
  transitivity (rsum (S i) (fun j => nth j lens 0 * (2 * PI / accumulate lens))).
  - apply rsum_ext; intros j Hj.
    rewrite (nth_indep _ 0 (0 * (2 * PI / accumulate lens))) by (rewrite map_length; lia).
    apply (map_nth (fun x => x * (2 * PI / accumulate lens))).
  - rewrite rsum_scal_r. field; exact E.
Qed.

(** *** Angular domains *)
Lemma openLoop_length : forall st d p, length (openLoop d p st) = length st.
Proof. induction st as [|[l a] st IH]; intros; simpl; [reflexivity|rewrite IH; reflexivity]. Qed.

Lemma closeLoop_nth : forall vs lens acc lst total out, total <> 0 -> (length vs <= length lens)%nat ->
  closeLoop acc lst total vs lens = Some out ->
  length out = length vs /\
  forall i, (i < length vs)%nat ->
    vtx out i = vtx vs i -p lst *p ((acc + prefix lens i) / total).
Proof.
  induction vs as [|v vs IH]; intros lens acc lst total out Ht Hl H; simpl in H.
  - injection H as <-. split; [reflexivity|]. simpl; lia.
  - destruct lens as [|l lens]; [simpl in Hl; lia|].
    rewrite pdiv_some in H by exact Ht. cbn [bind] in H.
    destruct (closeLoop (acc + l) lst total vs lens) as [rest|] eqn:E; simpl in H; [|discriminate].
    injection H as <-. destruct (IH lens (acc + l) lst total rest Ht) as [L N]; [simpl in Hl; lia|exact E|].
    split; [simpl; lia|]. intros [|i] Hi.
    + unfold vtx, prefix; simpl. v2field; exact Ht.
    + change (vtx (_ :: rest) (S i)) with (vtx rest i). change (vtx (v :: vs) (S i)) with (vtx vs i).
      rewrite N by (simpl in Hi; lia). do 2 f_equal. f_equal. unfold prefix.
      rewrite (rsum_first (S i)). simpl. ring.
Qed.

Lemma closed_polygon : forall lens turns vs, lens <> [] -> length turns = length lens ->
  accumulate lens <> 0 -> closedPolygon lens turns = Some vs ->
  length vs = length lens /\ vtx vs (length vs - 1) = pzero.
Proof.
  intros lens turns vs Hne Hl Ht H. unfold closedPolygon in H.
  set (o := openLoop 0 pzero (combine lens turns)) in *.
  assert (Lo : length o = length lens).
  { unfold o. rewrite openLoop_length, combine_length. lia. }
  assert (P : (0 < length lens)%nat) by (destruct lens; [contradiction|simpl; lia]).
  rewrite vtx_nth in H by lia. cbn [bind] in H.
  destruct (closeLoop_nth o lens 0 _ _ vs Ht ltac:(lia) H) as [L N].
  split; [lia|]. rewrite L, N by lia.
  replace (0 + prefix lens (length o - 1)) with (accumulate lens)
    by (rewrite accumulate_rsum, Rplus_0_l; unfold prefix; rewrite Lo; f_equal; lia).
  v2field; exact Ht.
Qed.

(** Corrections: each vertex is moved by the closing gap times its share of
    the total length. *)
Lemma fold_min_le : forall (f : V2 -> R) vs m, fold_left (fun m v => Rmin m (f v)) vs m <= m /\
  forall v, In v vs -> fold_left (fun m v => Rmin m (f v)) vs m <= f v.
Proof.
  intros f vs; induction vs as [|x vs IH]; intros m; simpl; [split; [lra|contradiction]|].
  destruct (IH (Rmin m (f x))) as [A B]. pose proof (Rmin_l m (f x)). pose proof (Rmin_r m (f x)).
  split; [lra|]. intros v [->|Hv]; [lra|]. specialize (B v Hv). lra.
Qed.
Lemma fold_max_ge : forall (f : V2 -> R) vs m, m <= fold_left (fun m v => Rmax m (f v)) vs m /\
  forall v, In v vs -> f v <= fold_left (fun m v => Rmax m (f v)) vs m.
Proof.
  intros f vs; induction vs as [|x vs IH]; intros m; simpl; [split; [lra|contradiction]|].
  destruct (IH (Rmax m (f x))) as [A B]. pose proof (Rmax_l m (f x)). pose proof (Rmax_r m (f x)).
  split; [lra|]. intros v [->|Hv]; [lra|]. specialize (B v Hv). lra.
Qed.

Lemma mapM_in : forall {A B} (f : A -> option B) l r b, mapM f l = Some r -> In b r ->
  exists a, In a l /\ f a = Some b.
Proof.
  intros A B f l; induction l as [|a l IH]; intros r b H Hb; simpl in H.
  - injection H as <-; contradiction.
  - destruct (f a) as [c|] eqn:E; simpl in H; [|discriminate].
    destruct (mapM f l) as [cs|]; simpl in H; [|discriminate]. injection H as <-.
    destruct Hb as [<-|Hb]; [exists a; simpl; auto|].
    destruct (IH cs b eq_refl Hb) as (a' & Ha & E'). exists a'; simpl; auto.
Qed.

Lemma rescale_box : forall vs out v, rescale vs = Some out -> In v out ->
  -1 <= px v <= 1 /\ -1 <= py v <= 1.
Proof.
  intros vs out v H Hv. unfold rescale in H.
  destruct (mapM_in _ _ _ _ H Hv) as (a & Ha & E). clear H Hv.
  destruct (fold_min_le px vs 0) as [X0 X1]. destruct (fold_max_ge px vs 0) as [X2 X3].
  destruct (fold_min_le py vs 0) as [Y0 Y1]. destruct (fold_max_ge py vs 0) as [Y2 Y3].
  specialize (X1 a Ha). specialize (X3 a Ha). specialize (Y1 a Ha). specialize (Y3 a Ha).
  revert X0 X1 X2 X3 Y0 Y1 Y2 Y3 E.
  generalize (fold_left (fun m v => Rmin m (px v)) vs 0) as x0.
  generalize (fold_left (fun m v => Rmin m (py v)) vs 0) as y0.
  generalize (fold_left (fun m v => Rmax m (px v)) vs 0) as x1.
  generalize (fold_left (fun m v => Rmax m (py v)) vs 0) as y1.
  intros y1 x1 y0 x0 X0 X1 X2 X3 Y0 Y1 Y2 Y3 E.
  pose proof (Rmax_l (x1 - x0) (y1 - y0)). pose proof (Rmax_r (x1 - x0) (y1 - y0)).
  set (w := Rmax (x1 - x0) (y1 - y0)) in *. clearbody w.
  unfold pdiv in E. destruct (Req_EM_T w 0) as [Z|Z]; simpl in E; [discriminate|].
  injection E as <-; simpl. assert (W : 0 < w) by lra.
  assert (G : forall t, 0 <= t <= w -> -1 <= -1 + t * 2 * / w <= 1).
  { intros t [T0 T1]. assert (I : 0 < / w) by (apply Rinv_0_lt_compat, W).
    assert (t * / w <= 1). { apply Rmult_le_reg_r with w; [exact W|]. rewrite Rmult_assoc, Rinv_l by lra. lra. }
    assert (0 <= t * / w) by (apply Rmult_le_pos; lra). lra. }
  split; apply G; lra.
Qed.

(** Rescaling is one uniform scaling with a positive factor and a
    translation. *)
Lemma rescale_similar : forall vs out, rescale vs = Some out -> vs <> [] ->
  exists s t, 0 < s /\ out = map (fun v => t +p v *p s) vs.
Proof.
  intros vs out H Hne. unfold rescale in H.
  set (x0 := fold_left (fun m v => Rmin m (px v)) vs 0) in *.
  set (y0 := fold_left (fun m v => Rmin m (py v)) vs 0) in *.
  set (x1 := fold_left (fun m v => Rmax m (px v)) vs 0) in *.
  set (y1 := fold_left (fun m v => Rmax m (py v)) vs 0) in *.
  set (w := Rmax (x1 - x0) (y1 - y0)) in *.
  assert (W : w <> 0).
  { intros E. destruct vs as [|v vs]; [contradiction|]. simpl in H. unfold pdiv in H.
    destruct (Req_EM_T w 0); [discriminate|contradiction]. }
  assert (W0 : 0 <= w).
  { pose proof (Rmax_l (x1 - x0) (y1 - y0)). fold w in H0.
    destruct (fold_min_le px vs 0) as [X0 _]. destruct (fold_max_ge px vs 0) as [X2 _].
    fold x0 in X0; fold x1 in X2. lra. }
  exists (2 / w), (mkV2 (-1 - x0 * (2 / w)) (-1 - y0 * (2 / w))).
  split; [apply Rmult_lt_0_compat; [lra|apply Rinv_0_lt_compat; lra]|].
  rewrite (mapM_total _ (fun v => mkV2 (-1 - x0 * (2 / w)) (-1 - y0 * (2 / w)) +p v *p (2 / w))) in H.
  - congruence.
  - intros v _. rewrite pdiv_some by exact W. cbn [bind]. f_equal. v2field; exact W.
Qed.

(** The convexity test at one corner. *)
Lemma pnormalize_spec : forall a b, pnormalize a = Some b ->
  exists l, 0 < l /\ b = a *p l /\ pdot b b = 1.
Proof.
  intros a b; unfold pnormalize, pdiv. destruct (Req_EM_T (pnorm a) 0) as [E|E]; [discriminate|].
  intros H; injection H as <-. exists (/ pnorm a).
  pose proof (pnorm_nonneg a). split; [apply Rinv_0_lt_compat; lra|]. split; [reflexivity|].
  pose proof (pnorm_sqr a) as S. unfold pdot in *; simpl.
  replace (px a * / pnorm a * (px a * / pnorm a) + py a * / pnorm a * (py a * / pnorm a))
    with ((px a * px a + py a * py a) * (/ pnorm a * / pnorm a)) by ring.
  rewrite <- S. field; exact E.
Qed.

(** Side into corner [i] and side out of it. *)
Definition side_in (vs : list V2) (i : nat) : V2 := vtx vs i -p vtx vs (prv (length vs) i).
Definition side_out (vs : list V2) (i : nat) : V2 := vtx vs (nxt (length vs) i) -p vtx vs i.

Lemma cornerFlagged_spec : forall vs i b, (i < length vs)%nat -> cornerFlagged vs i = Some b ->
  (b = true <-> py (side_in vs i) <> 0 /\ pcross (side_in vs i) (side_out vs i) < 0).
Proof.
  intros vs i b Hi. unfold cornerFlagged.
  rewrite !vtx_nth by (try apply prv_lt; try apply nxt_lt; lia). cbn [bind].
  fold (side_in vs i) (side_out vs i).
  destruct (pnormalize (side_in vs i)) as [v1|] eqn:E1; cbn [bind]; [|discriminate].
  destruct (pnormalize (side_out vs i)) as [v2|] eqn:E2; cbn [bind]; [|discriminate].
  intros H; injection H as <-.
  apply pnormalize_spec in E1. apply pnormalize_spec in E2.
  destruct E1 as (l & Hl & -> & U1). destruct E2 as (m & Hm & -> & U2).
  set (a := side_in vs i) in *. set (c := side_out vs i) in *. clearbody a c.
  assert (K : (px (c *p m) - px (a *p l) * pdot (a *p l) (c *p m)) * py (a *p l)
    = - (py (a *p l) * py (a *p l)) * (pcross a c * (l * m))).
  { unfold pdot in U1 |- *. unfold pcross. simpl in *.
    set (ax := px a * l) in *. set (ay := py a * l) in *.
    replace ((px a * py c - py a * px c) * (l * m)) with (ax * (py c * m) - ay * (px c * m)) by (unfold ax, ay; ring).
    transitivity ((px c * m * (ax * ax + ay * ay) - ax * (ax * (px c * m) + ay * (py c * m))) * ay); [rewrite U1; ring|ring]. }
  change (px (c *p m) - px (a *p l *p pdot (a *p l) (c *p m)))
    with (px (c *p m) - px (a *p l) * pdot (a *p l) (c *p m)).
  destruct (Rlt_dec 0 _) as [L|L].
  - split; [intros _|reflexivity]. simpl in L, K. rewrite K in L. split.
    + intros Z. rewrite Z in L. rewrite Rmult_0_l in L. lra.
    + apply Rnot_le_lt; intros Q. assert (0 <= pcross a c * (l * m)) by (apply Rmult_le_pos; [exact Q|nra]).
      assert (0 <= py a * l * (py a * l)) by nra. nra.
  - split; [discriminate|]. intros [N C]. exfalso; apply L. simpl in K |- *. rewrite K.
    assert (pcross a c * (l * m) < 0) by (assert (0 < l * m) by nra; nra).
    assert (0 < py a * l * (py a * l)).
    { assert (Q : py a * l <> 0) by (apply Rmult_integral_contrapositive; split; lra).
      assert (0 <= (py a * l) * (py a * l)) by nra.
      destruct (Req_dec (py a * l * (py a * l)) 0) as [Z|Z]; [|lra].
      apply Rmult_integral in Z. tauto. }
    nra.
Qed.

Lemma convexTest_spec : forall vs b, convexTest vs = Some b ->
  (b = true <-> forall i, (i < length vs)%nat ->
     py (side_in vs i) = 0 \/ 0 <= pcross (side_in vs i) (side_out vs i)).
Proof.
  intros vs b. unfold convexTest.
  destruct (mapM (cornerFlagged vs) (seq 0 (length vs))) as [fl|] eqn:E; simpl; [|discriminate].
  intros H; injection H as <-. pose proof (mapM_length _ _ _ E) as L. rewrite seq_length in L.
  assert (N : forall i, (i < length vs)%nat -> exists f, nth_error fl i = Some f /\ cornerFlagged vs i = Some f).
  { intros i Hi. destruct (nth_error_ex _ fl i) as (f & Hf); [lia|]. exists f; split; [exact Hf|].
    rewrite <- Hf. symmetry. eapply mapM_nth; [exact E|]. rewrite (nth_error_nth' _ 0%nat) by (rewrite seq_length; exact Hi).
    rewrite seq_nth by exact Hi. reflexivity. }
  split.
  - intros Hn i Hi. destruct (N i Hi) as (f & Hf & Hc).
    assert (F : f = false).
    { destruct f; [|reflexivity]. exfalso. apply nth_error_In in Hf.
      assert (existsb (fun b => b) fl = true) by (apply existsb_exists; exists true; auto).
      rewrite H in Hn; discriminate. }
    pose proof (cornerFlagged_spec vs i f Hi Hc) as S. subst f.
    destruct (Req_dec (py (side_in vs i)) 0) as [Z|Z]; [left; exact Z|right].
    destruct (Rle_lt_dec 0 (pcross (side_in vs i) (side_out vs i))) as [Q|Q]; [exact Q|].
    assert (false = true) by (apply S; auto). discriminate.
  - intros Ha. apply Bool.negb_true_iff. destruct (existsb (fun b => b) fl) eqn:X; [|reflexivity].
    apply existsb_exists in X. destruct X as (f & Hf & ->).
    apply In_nth_error in Hf. destruct Hf as (i & Hi).
    assert (I : (i < length vs)%nat) by (rewrite <- L; apply nth_error_Some; rewrite Hi; discriminate).
    destruct (N i I) as (f & Hf & Hc). rewrite Hi in Hf; injection Hf as <-.
    pose proof (cornerFlagged_spec vs i true I Hc) as S.
    destruct (proj1 S eq_refl) as [A B]. destruct (Ha i I); [contradiction|lra].
Qed.
