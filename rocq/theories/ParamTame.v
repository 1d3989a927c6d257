(** Ranges of the ribbon coordinates: side parameters in [0,1] and distances
    from the sides that are not adjacent. *)

From Verif Require Import Base MeshModel GeomSpec DomainModel UtilModel ParamModel.
From Verif Require Import DomainProofs DomainPolygons UtilProofs ParamBary ParamMaps ParamRegular ParamSide.
From Verif Require Import RibbonModel SurfaceModel SurfaceSpec BlendProofs.
Open Scope R_scope.

(** The closed polygon. *)
Definition closed_in (vs : list V2) (p : V2) : Prop :=
  forall k, (k < length vs)%nat -> 0 <= sarea (vtx vs (prv (length vs) k)) (vtx vs k) p.

(** Height over side [i], in units of the side length. *)
Definition hg (vs : list V2) (i : nat) (p : V2) : R := sarea (vtx vs (prv (length vs) i)) (vtx vs i) p / len2 vs i.

Lemma inside_closed : forall vs p, inside vs p -> closed_in vs p.
Proof. intros vs p I k Hk. left. apply I; exact Hk. Qed.

Section Conv.
Variables (c : V2) (vs : list V2) (d : dom).
Let n := length vs.
Hypothesis Hd : domainFrames c vs = Some d.
Hypothesis H3 : (3 <= n)%nat.
Hypothesis C : strictly_convex vs.
Hypothesis I : inside vs c.

Lemma vtx_closed : forall j, (j < n)%nat -> closed_in vs (vtx vs j).
Proof.
  intros j Hj k Hk. fold n in Hk |- *. destruct (Nat.eq_dec j k) as [->|N1]; [right; unfold sarea, pcross; simpl; ring|].
  destruct (Nat.eq_dec j (prv n k)) as [->|N2]; [right; unfold sarea, pcross; simpl; ring|].
  left. apply C; assumption.
Qed.

Lemma sarea_side : forall a b e s, sarea a b (sidePt vs e s) = s * sarea a b (vtx vs e) + (1 - s) * sarea a b (vtx vs (prv n e)).
Proof. intros a b e s. unfold sidePt, sarea, pcross. fold n. simpl. ring. Qed.

Lemma side_closed : forall e s, (e < n)%nat -> 0 <= s <= 1 -> closed_in vs (sidePt vs e s).
Proof.
  intros e s He Hs k Hk. rewrite sarea_side. fold n in Hk |- *.
  pose proof (vtx_closed e He k Hk) as A. pose proof (vtx_closed (prv n e) (prv_lt n e ltac:(lia)) k Hk) as B. fold n in A, B.
  assert (0 <= s * sarea (vtx vs (prv n k)) (vtx vs k) (vtx vs e)) by (apply Rmult_le_pos; lra).
  assert (0 <= (1 - s) * sarea (vtx vs (prv n k)) (vtx vs k) (vtx vs (prv n e))) by (apply Rmult_le_pos; lra). lra.
Qed.

Lemma hg_nonneg : forall i p, (i < n)%nat -> closed_in vs p -> 0 <= hg vs i p.
Proof.
  intros i p Hi Hp. unfold hg. apply Rmult_le_pos; [apply Hp; exact Hi|].
  left. apply Rinv_0_lt_compat. apply len2_pos; assumption.
Qed.

Lemma hg_side : forall i e s, hg vs i (sidePt vs e s) = s * hg vs i (vtx vs e) + (1 - s) * hg vs i (vtx vs (prv n e)).
Proof. intros i e s. unfold hg. rewrite sarea_side. unfold Rdiv. ring. Qed.

Lemma angle_sin : forall i a, angle d i = Some a -> 0 <= sin a.
Proof.
  intros i a E. unfold angle in E.
  repeat match type of E with bind ?x _ = _ => destruct x; [cbn [bind] in E|discriminate] end.
  injection E as <-. apply sin_ge_0; [apply acos_bound|apply acos_bound].
Qed.

Lemma sidelen_pos : forall i, (i < n)%nat -> 0 < pnorm (sidevec vs i).
Proof.
  intros i Hi. pose proof (len2_pos vs H3 C i Hi) as P. apply sqrt_lt_R0. exact P.
Qed.

(** The side parameter of the barycentric map, in terms of heights. *)
Lemma baryRibbon_value : forall eps l i uv li lp al be, 0 < eps -> (i < n)%nat ->
  nth_error l i = Some li -> nth_error l (prv n i) = Some lp -> angle d i = Some al -> angle d (prv n i) = Some be ->
  let dp := hg vs (prv n i) uv * pnorm (sidevec vs (prv n i)) in
  let dn := hg vs (nxt n i) uv * pnorm (sidevec vs (nxt n i)) in
  baryRibbon eps d l i uv = Some (mkV2 (if Rlt_dec (lp + li) eps then
      if Rlt_dec (sin al * dp + sin be * dn) eps then 0 else sin al * dp / (sin al * dp + sin be * dn)
    else li / (lp + li)) (1 - li - lp)).
Proof.
  intros eps l i uv li lp al be He Hi Ei Ep Ea Eb dp dn. unfold baryRibbon.
  assert (Hp : (prv n i < n)%nat) by (apply prv_lt; lia). assert (Hx : (nxt n i < n)%nat) by (apply nxt_lt; lia).
  rewrite (d_n_eq c vs d Hd). fold n. rewrite Ei, Ep. cbn [bind].
  destruct (Rlt_dec (lp + li) eps) as [L|L].
  - rewrite Ea, Eb. cbn [bind]. rewrite !(verts_nth c vs d Hd) by assumption. cbn [bind].
    rewrite !(local_closed c vs d Hd H3 C I) by assumption. cbn [bind]. rewrite !(edgeLength_some c vs d Hd H3) by assumption. cbn [bind py].
    replace (pcross (sidevec vs (prv n i)) (uv -p vtx vs (prv n i)) / len2 vs (prv n i) * pnorm (sidevec vs (prv n i))) with dp.
    2:{ unfold dp, hg. f_equal. unfold Rdiv. f_equal. fold n. unfold sarea, sidevec. fold n. unfold pcross; simpl; ring. }
    replace (pcross (sidevec vs (nxt n i)) (uv -p vtx vs i) / len2 vs (nxt n i) * pnorm (sidevec vs (nxt n i))) with dn.
    2:{ unfold dn, hg. f_equal. unfold Rdiv. f_equal. fold n. unfold sarea, sidevec. fold n. rewrite prv_nxt by exact Hi. reflexivity. }
    destruct (Rlt_dec (sin al * dp + sin be * dn) eps); [reflexivity|]. rewrite fdiv_some by lra. reflexivity.
  - rewrite fdiv_some by lra. reflexivity.
Qed.

Lemma ratio_range : forall a b, 0 <= a -> 0 <= b -> 0 < a + b -> 0 <= a / (a + b) <= 1.
Proof.
  intros a b Ha Hb Hab. split; [apply Rmult_le_pos; [lra|left; apply Rinv_0_lt_compat; lra]|].
  apply (Rmult_le_reg_r (a + b)); [lra|]. unfold Rdiv. rewrite Rmult_assoc, Rinv_l by lra. lra.
Qed.

Lemma bary_tame : forall eps l i uv li lp, 0 < eps -> (i < n)%nat -> closed_in vs uv ->
  nth_error l i = Some li -> nth_error l (prv n i) = Some lp -> 0 <= li -> 0 <= lp ->
  exists s, baryRibbon eps d l i uv = Some (mkV2 s (1 - li - lp)) /\ 0 <= s <= 1.
Proof.
  intros eps l i uv li lp He Hi Cl Ei Ep P1 P2.
  assert (Hp : (prv n i < n)%nat) by (apply prv_lt; lia). assert (Hx : (nxt n i < n)%nat) by (apply nxt_lt; lia).
  destruct (angle_some c vs d Hd H3 C i Hi) as [al Ea]. destruct (angle_some c vs d Hd H3 C _ Hp) as [be Eb].
  rewrite (baryRibbon_value eps l i uv li lp al be He Hi Ei Ep Ea Eb).
  eexists; split; [reflexivity|]. pose proof (angle_sin _ _ Ea) as Sa. pose proof (angle_sin _ _ Eb) as Sb. fold n in Sb.
  assert (D1 : 0 <= sin al * (hg vs (prv n i) uv * pnorm (sidevec vs (prv n i)))).
  { apply Rmult_le_pos; [exact Sa|]. apply Rmult_le_pos; [apply hg_nonneg; assumption|left; apply sidelen_pos; exact Hp]. }
  assert (D2 : 0 <= sin be * (hg vs (nxt n i) uv * pnorm (sidevec vs (nxt n i)))).
  { apply Rmult_le_pos; [exact Sb|]. apply Rmult_le_pos; [apply hg_nonneg; assumption|left; apply sidelen_pos; exact Hx]. }
  destruct (Rlt_dec (lp + li) eps) as [L|L].
  - destruct (Rlt_dec _ eps) as [L'|L']; [lra|]. apply ratio_range; lra.
  - rewrite (Rplus_comm lp li). apply ratio_range; lra.
Qed.

(** Coordinates of a point of side [e], near the corners as well: next to the
    far end of the side the side parameter of the previous side may be wrong,
    but that side is far there. *)
Lemma bary_side_coords : forall eps e s, (e < n)%nat -> 0 < eps <= 1/2 -> 0 <= s <= 1 ->
  exists sds, mapToRibbons (KBary Wachspress) eps d (sidePt vs e s) = Some sds /\ side_coords eps n e s sds /\ tame sds /\
    (forall j sd, nth_error sds j = Some sd -> j <> e -> j <> nxt n e -> j <> prv n e -> py sd = 1) /\
    (exists sp, nth_error sds (prv n e) = Some (mkV2 sp s)).
Proof.
  intros eps e s He Hp Hs.
  assert (Lp : (prv n e < n)%nat) by (apply prv_lt; lia). assert (Lx : (nxt n e < n)%nat) by (apply nxt_lt; lia).
  destruct (bary_ribbon_values c vs d Hd H3 C I eps e s He ltac:(lra) Hs) as (al & _ & B0 & B1 & B2 & BT). fold n in B1, B2.
  set (sp := if Rlt_dec (1 - s) eps then _ else _) in B2.
  assert (Sp : eps <= 1 - s -> sp = 1) by (intros L; unfold sp; destruct (Rlt_dec (1 - s) eps); [lra|reflexivity]).
  destruct (side_linear vs e s C H3 He Hs d eps (d_verts_eq c vs d Hd) ltac:(lra)) as (l & B & Ll & L1 & L2 & L0).
  fold n in L2, L0, Ll.
  destruct (mapM_total_nth _ (fun i => mapToRibbon (KBary Wachspress) eps d i (sidePt vs e s)) n BT) as (sds & M1 & M2 & M3).
  exists sds. unfold mapToRibbons. rewrite (d_n_eq c vs d Hd). fold n. split; [exact M1|].
  cbn [mapToRibbon] in M3.
  assert (V : forall i li lp, (i < n)%nat -> nth_error l i = Some li -> nth_error l (prv n i) = Some lp -> 0 <= li -> 0 <= lp ->
    exists t, nth_error sds i = Some (mkV2 t (1 - li - lp)) /\ 0 <= t <= 1).
  { intros i li lp Hi E1 E2 P1 P2. rewrite M3 by exact Hi. unfold baryMap. rewrite B. cbn [bind].
    apply bary_tame; try assumption; [lra|]. apply side_closed; assumption. }
  assert (G : forall i, (i < n)%nat -> exists li, nth_error l i = Some li /\ 0 <= li /\ (i <> e -> i <> prv n e -> li = 0) /\ (i = e -> li = s) /\ (i = prv n e -> li = 1 - s)).
  { intros i Hi. assert (Np : prv n e <> e) by (apply prv_neq; lia).
    destruct (Nat.eq_dec i e) as [->|N1]; [exists s; repeat split; try lra; try congruence; auto; intros X; exfalso; apply Np; auto|].
    destruct (Nat.eq_dec i (prv n e)) as [->|N2]; [exists (1 - s); repeat split; try lra; try congruence; auto|].
    exists 0. repeat split; try lra; try congruence; auto. }
  split; [|split; [|split]].
  - split; [exact M2|]. rewrite !M3 by assumption. split; [exact B0|]. split; [exact B1|]. split.
    + exists sp, s. split; [exact B2|]. split; [intros L; auto|]. intros L; lra.
    + intros j sd Ej N1 N2 N3. assert (Hj : (j < n)%nat) by (rewrite <- M2; apply nth_error_Some; congruence).
      destruct (G j Hj) as (li & E1 & P1 & Z1 & _). destruct (G (prv n j) (prv_lt n j ltac:(lia))) as (lp & E2 & P2 & Z2 & _).
      destruct (V j li lp Hj E1 E2 P1 P2) as (t & E & _). rewrite E in Ej. injection Ej as <-. cbn [py].
      rewrite Z1, Z2; auto; [lra| |].
      * intros X. apply N2. rewrite <- X. rewrite nxt_prv by exact Hj. reflexivity.
      * intros X. apply N1. rewrite <- (nxt_prv n j Hj), X, (nxt_prv n e He). reflexivity.
  - intros j sd Ej. assert (Hj : (j < n)%nat) by (rewrite <- M2; apply nth_error_Some; congruence).
    destruct (G j Hj) as (li & E1 & P1 & Z1 & S1 & T1). destruct (G (prv n j) (prv_lt n j ltac:(lia))) as (lp & E2 & P2 & Z2 & S2 & T2).
    destruct (V j li lp Hj E1 E2 P1 P2) as (t & E & Rt). rewrite E in Ej. injection Ej as <-. cbn [px py]. split; [exact Rt|].
    destruct (Nat.eq_dec j e) as [->|N1].
    + rewrite S1, T2 by reflexivity. lra.
    + destruct (Nat.eq_dec j (prv n e)) as [->|N2].
      * rewrite T1 by reflexivity. rewrite Z2; [lra| |apply prv_neq; lia].
        intros X. apply (nxt_prv_neq n e H3 He). rewrite <- X at 1. apply nxt_prv. exact Lp.
      * rewrite Z1 by assumption. destruct (Nat.eq_dec (prv n j) e) as [X|X]; [rewrite (S2 X); lra|].
        rewrite Z2; [lra|exact X|]. intros X'. apply N1. rewrite <- (nxt_prv n j Hj), X', (nxt_prv n e He). reflexivity.
  - intros j sd Ej N1 N2 N3. assert (Hj : (j < n)%nat) by (rewrite <- M2; apply nth_error_Some; congruence).
    destruct (G j Hj) as (li & E1 & P1 & Z1 & _). destruct (G (prv n j) (prv_lt n j ltac:(lia))) as (lp & E2 & P2 & Z2 & _).
    destruct (V j li lp Hj E1 E2 P1 P2) as (t & E & _). rewrite E in Ej. injection Ej as <-. cbn [py].
    rewrite Z1, Z2; auto; [lra| |].
    * intros X. apply N2. rewrite <- X. rewrite nxt_prv by exact Hj. reflexivity.
    * intros X. apply N1. rewrite <- (nxt_prv n j Hj), X, (nxt_prv n e He). reflexivity.
  - exists sp. rewrite M3 by assumption. exact B2.
Qed.

End Conv.
