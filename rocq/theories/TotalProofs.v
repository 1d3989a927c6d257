(** Patches have a value at every point of their domain. *)
From Verif Require Import Base MeshModel MeshSpec MeshParams MeshGeom2 GeomSpec DomainModel UtilModel UtilSpec UtilProofs DomainProofs DomainPolygons.
From Verif Require Import JoinModel JoinProofs TotalSpec.
From Verif Require PropsParam PropsJoin.
From Verif Require Import RibbonModel SurfaceModel SurfaceSpec BlendProofs SurfaceProofs SurfacePatches SurfaceEval SurfaceC0 SurfaceBase ParamBary ParamMaps ParamRegular ParamSide ParamTame ParamFar ParamFar2 ParamModel.
From Verif Require Import GBModel GBSpec GBProofs GBEval HybridModel HybridProofs.
Open Scope R_scope.

(** ** The quadratic equation *)
Lemma solve_range : forall eps a b c, 0 < eps -> 0 <= c -> a + b + c <= 0 ->
  Rabs a < eps \/ eps <= b * b - 4 * a * c ->
  exists s, bilinearSolve eps a b c = Some s /\ 0 <= s /\ (0 <= a \/ eps <= Rabs a -> s <= 1).
Proof.
  intros eps a b c He Hc Hf Hs. unfold bilinearSolve. destruct (Rlt_dec (Rabs a) eps) as [La|La].
  - destruct (Rlt_dec (Rabs b) eps) as [Lb|Lb]; [exists 0; repeat split; lra|].
    assert (Nb : b <> 0) by (intros ->; rewrite Rabs_R0 in Lb; lra). rewrite fdiv_some by exact Nb. eexists; split; [reflexivity|].
    assert (Bn : b < 0).
    { destruct (Rtotal_order b 0) as [L|[E|G]]; [exact L|contradiction|]. exfalso. rewrite (Rabs_right b) in Lb by lra. apply Rabs_def2 in La. lra. }
    assert (Ib : 0 < / - b) by (apply Rinv_0_lt_compat; lra).
    assert (E : - c / b = c * / - b) by (field; lra). rewrite E. split; [apply Rmult_le_pos; lra|].
    intros [Ha|Ha]; [|lra]. apply (Rmult_le_reg_r (- b)); [lra|]. rewrite Rmult_assoc, Rinv_l by lra. lra.
  - destruct Hs as [Hs|Hs]; [contradiction|].
    assert (Na : a <> 0) by (intros ->; rewrite Rabs_R0 in La; lra).
    destruct (Rlt_dec (b * b - 4 * a * c) eps) as [L|_]; [lra|]. rewrite !fdiv_some by lra. cbn [bind].
    set (D := b * b - 4 * a * c) in *. set (q := sqrt D). assert (Q0 : 0 < q) by (apply sqrt_lt_R0; lra). assert (QQ : q * q = D) by (apply sqrt_sqrt; lra).
    set (s1 := - b / (2 * a) + q / (2 * a)). set (s2 := - b / (2 * a) - q / (2 * a)).
    assert (R1 : a * s1 * s1 + b * s1 + c = 0).
    { replace (a * s1 * s1 + b * s1 + c) with ((q * q - (b * b - 4 * a * c)) / (4 * a)) by (unfold s1; field; exact Na). rewrite QQ. unfold D. field. exact Na. }
    assert (R2 : a * s2 * s2 + b * s2 + c = 0).
    { replace (a * s2 * s2 + b * s2 + c) with ((q * q - (b * b - 4 * a * c)) / (4 * a)) by (unfold s2; field; exact Na). rewrite QQ. unfold D. field. exact Na. }
    assert (Vs : s1 + s2 = - b / a) by (unfold s1, s2; field; exact Na). assert (Vp : a * (s1 * s2) = c).
    { replace (a * (s1 * s2)) with ((b * b - q * q) / (4 * a)) by (unfold s1, s2; field; exact Na). rewrite QQ. unfold D. field. exact Na. }
    assert (F1 : a * ((1 - s1) * (1 - s2)) = a + b + c).
    { replace (a * ((1 - s1) * (1 - s2))) with (a - a * (s1 + s2) + a * (s1 * s2)) by ring. rewrite Vs, Vp. field. exact Na. }
    assert (Df : s1 - s2 = q / a) by (unfold s1, s2; field; exact Na).
    set (hi := if Rlt_dec s1 s2 then s2 else s1). set (lo := if Rlt_dec s1 s2 then s1 else s2).
    assert (HL : lo <= hi /\ a * (lo * hi) = c /\ a * ((1 - lo) * (1 - hi)) = a + b + c).
    { unfold lo, hi. destruct (Rlt_dec s1 s2); (split; [lra|]); (split; [rewrite <- Vp; ring|rewrite <- F1; ring]). }
    assert (HN : lo < hi).
    { destruct HL as [[HL|HL] _]; [exact HL|]. exfalso. assert (Z : s1 - s2 = 0) by (unfold lo, hi in HL; destruct (Rlt_dec s1 s2); lra). rewrite Df in Z.
      assert (q = 0) by (replace q with (q / a * a) by (field; exact Na); rewrite Z; ring). lra. }
    clearbody hi lo. destruct HL as (_ & P1 & P2). clear - HN P1 P2 Hc Hf Na.
    assert (K : (0 <= lo <= 1 /\ 0 <= hi) \/ (lo < 0 /\ 0 <= hi <= 1)).
    { destruct (Rtotal_order a 0) as [An|[Z|Ap]]; [|contradiction|].
      - assert (lo * hi <= 0) by nra. assert (0 <= (1 - lo) * (1 - hi)) by nra. destruct (Rlt_dec lo 0); [right|left]; split; try lra; try nra.
      - assert (0 <= lo * hi) by nra. assert ((1 - lo) * (1 - hi) <= 0) by nra. left. split; nra. }
    destruct K as [K|K].
    + assert (Dv : Rmax 0 (- lo) = 0) by (apply Rmax_left; lra). rewrite Dv. pose proof (Rmax_l 0 (hi - 1)).
      destruct (Rlt_dec (Rmax 0 (hi - 1)) 0); [lra|]. exists lo. repeat split; lra.
    + assert (Dv : Rmax 0 (hi - 1) = 0) by (apply Rmax_left; lra). rewrite Dv. rewrite Rmax_right by lra.
      destruct (Rlt_dec 0 (- lo)); [|lra]. exists hi. repeat split; lra.
Qed.

Lemma local_range : forall eps p1 p2 p, 0 < eps -> 0 < py p1 -> 0 < py p2 -> 0 <= py p ->
  let a := py p1 - py p2 in let A := px p * py p1 - py p * px p1 in let B := (1 - px p) * py p2 + py p * px p2 in
  0 <= A -> 0 <= B -> Rabs a < eps \/ eps <= (a + B - A) * (a + B - A) + 4 * A * B ->
  exists s t, bilinearLocal eps p1 p2 p = Some (mkV2 s t) /\ 0 <= t /\ 0 <= s /\ (0 <= a \/ eps <= Rabs a -> s <= 1).
Proof.
  intros eps p1 p2 p He H1 H2 Hp a A B HA HB Hs. unfold bilinearLocal. fold a A.
  set (b := px p * py p2 - (px p + 1) * py p1 + (px p1 - px p2) * py p). assert (Eb : b = - B - A - a) by (unfold a, A, B, b; ring).
  destruct (solve_range eps a b A He HA) as (s & Es & S0 & S1).
  - rewrite Eb. lra.
  - destruct Hs as [Hs|Hs]; [left; exact Hs|right]. rewrite Eb. replace ((- B - A - a) * (- B - A - a) - 4 * a * A) with ((a + B - A) * (a + B - A) + 4 * A * B) by ring. exact Hs.
  - rewrite Es. cbn [bind]. assert (P : 0 < py p1 * (1 - s) + py p2 * s).
    { destruct (Rlt_dec a 0) as [L|L].
      - replace (py p1 * (1 - s) + py p2 * s) with (py p1 - a * s) by (unfold a; ring). nra.
      - specialize (S1 ltac:(lra)). destruct (Rlt_dec s 1); nra. }
    rewrite fdiv_some by lra. cbn [bind]. do 2 eexists. split; [reflexivity|]. split; [|split; assumption].
    unfold Rdiv. apply Rmult_le_pos; [exact Hp|]. left. apply Rinv_0_lt_compat. exact P.
Qed.

Lemma local_stuck : forall eps p1 p2 p, 0 < eps ->
  let a := py p1 - py p2 in let A := px p * py p1 - py p * px p1 in let B := (1 - px p) * py p2 + py p * px p2 in
  eps <= Rabs a -> (a + B - A) * (a + B - A) + 4 * A * B < eps ->
  (A + B = py p1 + py p2 -> bilinearLocal eps p1 p2 p = None) /\ (A + B <> py p1 + py p2 -> exists r, bilinearLocal eps p1 p2 p = Some r).
Proof.
  intros eps p1 p2 p He a A B La Ld. unfold bilinearLocal. fold a A.
  set (b := px p * py p2 - (px p + 1) * py p1 + (px p1 - px p2) * py p). assert (Eb : b = - B - A - a) by (unfold a, A, B, b; ring).
  unfold bilinearSolve. destruct (Rlt_dec (Rabs a) eps) as [L|_]; [lra|]. assert (Na : a <> 0) by (intros E; rewrite E, Rabs_R0 in La; lra).
  destruct (Rlt_dec (b * b - 4 * a * A) eps) as [_|N].
  2: { exfalso. apply N. rewrite Eb. replace ((- B - A - a) * (- B - A - a) - 4 * a * A) with ((a + B - A) * (a + B - A) + 4 * A * B) by ring. exact Ld. }
  rewrite sqrt_0. rewrite !fdiv_some by lra. cbn [bind]. set (s := - b / (2 * a)). replace (s + 0 / (2 * a)) with s by (field; lra). replace (s - 0 / (2 * a)) with s by (field; lra).
  assert (W : forall c1 c2 : bool, (if c1 then s else s) = s) by (intros [|]; reflexivity).
  destruct (Rlt_dec s s) as [X|_]; [lra|]. assert (V : (if Rlt_dec (Rmax 0 (s - 1)) (Rmax 0 (- s)) then s else s) = s) by (destruct (Rlt_dec _ _); reflexivity). rewrite V. cbn [bind].
  assert (Ep : py p1 * (1 - s) + py p2 * s = (py p1 + py p2 - (A + B)) / 2).
  { replace (py p1 * (1 - s) + py p2 * s) with (py p1 - a * s) by (unfold a; ring). unfold s. rewrite Eb. unfold a. field. fold a. exact Na. }
  rewrite Ep. split; intros E.
  - replace ((py p1 + py p2 - (A + B)) / 2) with 0 by lra. unfold fdiv. destruct (Req_EM_T 0 0); [reflexivity|contradiction].
  - rewrite fdiv_some by lra. eexists; reflexivity.
Qed.

(** ** Ribbon coordinates in a convex polygon *)
Section Conv.
Variables (c : V2) (vs : list V2) (d : dom).
Let n := length vs.
Hypothesis Hd : domainFrames c vs = Some d.
Hypothesis H3 : (3 <= n)%nat.
Hypothesis C : strictly_convex vs.
Hypothesis I : inside vs c.

Lemma polygon_cases : forall p, in_polygon vs p -> inside vs p \/ exists e s, (e < n)%nat /\ 0 <= s <= 1 /\ p = sidePt vs e s.
Proof.
  intros p Hp.
  assert (Dec : (forall k, (k < n)%nat -> 0 < sarea (vtx vs (prv n k)) (vtx vs k) p) \/ exists e, (e < n)%nat /\ sarea (vtx vs (prv n e)) (vtx vs e) p = 0).
  { assert (G : forall m, (m <= n)%nat -> (forall k, (k < m)%nat -> 0 < sarea (vtx vs (prv n k)) (vtx vs k) p) \/ exists e, (e < n)%nat /\ sarea (vtx vs (prv n e)) (vtx vs e) p = 0).
    { induction m as [|m IH]; intros Hm; [left; intros; lia|]. destruct (IH ltac:(lia)) as [A|A]; [|right; exact A].
      destruct (Hp m ltac:(fold n; lia)) as [L|E].
      - left. intros k Hk. destruct (Nat.eq_dec k m) as [->|]; [exact L|apply A; lia].
      - right. exists m. split; [lia|]. symmetry. exact E. }
    apply (G n). lia. }
  destruct Dec as [A|(e & He & Z)]; [left; exact A|right].
  set (s := pdot (p -p vtx vs (prv n e)) (sidevec vs e) / len2 vs e). pose proof (len2_pos vs H3 C e He) as Lp.
  assert (E : p = sidePt vs e s).
  { unfold sarea, pcross in Z. unfold s, sidePt, len2, pnorm2, pdot, sidevec in *. fold n in Lp |- *. simpl in *. revert Z Lp.
    destruct (vtx vs (prv n e)) as [ax ay], (vtx vs e) as [bx by_], p as [x y]. simpl. intros Z Lp.
    set (L := (bx - ax) * (bx - ax) + (by_ - ay) * (by_ - ay)) in *. set (t := ((x - ax) * (bx - ax) + (y - ay) * (by_ - ay)) / L).
    assert (EL : L * t = (x - ax) * (bx - ax) + (y - ay) * (by_ - ay)) by (unfold t; field; lra). clearbody t. apply V2_ext; simpl.
    - apply (Rmult_eq_reg_l L); [|lra]. replace (L * (bx * t + ax * (1 - t))) with (ax * L + (bx - ax) * (L * t)) by ring. rewrite EL.
      apply Rminus_diag_uniq. transitivity (- (by_ - ay) * ((bx - ax) * (y - ay) - (by_ - ay) * (x - ax))); [unfold L; ring|rewrite Z; ring].
    - apply (Rmult_eq_reg_l L); [|lra]. replace (L * (by_ * t + ay * (1 - t))) with (ay * L + (by_ - ay) * (L * t)) by ring. rewrite EL.
      apply Rminus_diag_uniq. transitivity ((bx - ax) * ((bx - ax) * (y - ay) - (by_ - ay) * (x - ax))); [unfold L; ring|rewrite Z; ring]. }
  exists e, s. split; [exact He|]. split; [|exact E].
  assert (Hx : (nxt n e < n)%nat) by (apply nxt_lt; lia). assert (Hq : (prv n e < n)%nat) by (apply prv_lt; lia).
  pose proof (Hp (nxt n e) Hx) as A1. pose proof (Hp (prv n e) Hq) as A2. fold n in A1, A2. rewrite prv_nxt in A1 by exact He. rewrite E in A1, A2.
  pose proof (tri_next vs e s) as T1. pose proof (tri_prev vs e s) as T2. fold n in T1, T2. specialize (T2 H3 He). unfold tri in T1, T2. fold n in T1, T2.
  rewrite nxt_prv in T2 by exact Hq.
  pose proof (corner_pos vs ltac:(fold n; lia) C H3 e He) as C1. pose proof (corner_pos vs ltac:(fold n; lia) C H3 (prv n e) Hq) as C2.
  split; nra.
Qed.

Lemma bary_polygon : forall eps uv, 0 < eps <= 1 -> in_polygon vs uv ->
  exists l, barycentric Wachspress eps d uv = Some l /\ length l = n /\ (forall i, 0 <= nth i l 0) /\ rsum n (fun i => nth i l 0) = 1.
Proof.
  intros eps uv He Hp. destruct (polygon_cases uv Hp) as [Hi|(e & s & Hen & Hs & ->)].
  - destruct (normalized vs uv ltac:(fold n; lia) Wachspress (wachspress_pos vs uv ltac:(fold n; lia) C H3 Hi)) as (N & P & S).
    rewrite (bary_closed vs uv d (d_verts_eq c vs d Hd) ltac:(fold n; lia)) by (intros; cbn [baryRadius]; lra).
    fold n in N, P, S |- *. set (W := rsum n (wfun vs uv Wachspress)) in *. destruct (Req_EM_T W 0); [contradiction|]. set (l := tabulate n _). exists l. split; [reflexivity|].
    assert (Ll : length l = n) by apply tabulate_length. split; [exact Ll|].
    assert (V : forall i, (i < n)%nat -> nth i l 0 = wfun vs uv Wachspress i / W).
    { intros i Hin. apply nth_error_nth. unfold l. apply (tabulate_nth_error R n (fun i => wfun vs uv Wachspress i / W)). exact Hin. }
    split.
    + intros i. destruct (le_lt_dec n i) as [G|L]; [rewrite nth_overflow by (rewrite Ll; exact G); lra|]. rewrite (V i L). left. apply P. exact L.
    + rewrite (rsum_ext n _ (fun i => wfun vs uv Wachspress i / W)) by (intros i Hin; apply V; exact Hin). exact S.
  - destruct (side_linear vs e s C H3 Hen Hs d eps (d_verts_eq c vs d Hd) He) as (l & B & Ll & L1 & L2 & L0). fold n in Ll, L2, L0.
    exists l. split; [exact B|]. split; [exact Ll|].
    assert (V : forall i, (i < n)%nat -> nth i l 0 = if (i =? e)%nat then s else if (i =? prv n e)%nat then 1 - s else 0).
    { intros i Hi. apply nth_error_nth. destruct (Nat.eqb_spec i e) as [->|N1]; [exact L1|]. destruct (Nat.eqb_spec i (prv n e)) as [->|N2]; [exact L2|]. apply L0; assumption. }
    split.
    + intros i. destruct (le_lt_dec n i) as [G|L]; [rewrite nth_overflow by lia; lra|]. rewrite (V i L). destruct (i =? e)%nat; [lra|]. destruct (i =? prv n e)%nat; lra.
    + rewrite (rsum_double n _ e (prv n e)).
      * rewrite !V by (try apply prv_lt; lia). rewrite !Nat.eqb_refl. pose proof (prv_neq n e ltac:(lia) Hen). destruct (Nat.eqb_spec (prv n e) e); [contradiction|]. ring.
      * exact Hen.
      * apply prv_lt; lia.
      * intros X. apply (prv_neq n e ltac:(lia) Hen). symmetry. exact X.
      * intros i Hi N1 N2. rewrite V by exact Hi. destruct (Nat.eqb_spec i e); [contradiction|]. destruct (Nat.eqb_spec i (prv n e)); [contradiction|reflexivity].
Qed.

Definition unit_coords (sds : list V2) : Prop := length sds = n /\ forall i sd, nth_error sds i = Some sd -> 0 <= px sd <= 1 /\ 0 <= py sd <= 1.

Lemma two_of_one : forall f i j, (forall k, 0 <= f k) -> (i < n)%nat -> (j < n)%nat -> i <> j -> rsum n f = 1 -> f i + f j <= 1.
Proof.
  intros f i j P Hi Hj N S. rewrite (rsum_split1 n f i Hi) in S. rewrite (rsum_split1 n (fun k => if (k =? i)%nat then 0 else f k) j Hj) in S.
  destruct (Nat.eqb_spec j i); [congruence|].
  assert (0 <= rsum n (fun k => if (k =? j)%nat then 0 else if (k =? i)%nat then 0 else f k)).
  { apply rsum_nonneg. intros k Hk. destruct (k =? j)%nat; [lra|]. destruct (k =? i)%nat; [lra|]. apply P. }
  lra.
Qed.

Lemma bary_map_range : forall eps uv i, 0 < eps <= 1 -> in_polygon vs uv -> (i < n)%nat ->
  exists r, baryMap Wachspress eps d i uv = Some r /\ 0 <= px r <= 1 /\ 0 <= py r <= 1.
Proof.
  intros eps uv i He Hp Hi. destruct (bary_polygon eps uv He Hp) as (l & B & Ll & P & S). unfold baryMap. rewrite B. cbn [bind].
  assert (Hq : (prv n i < n)%nat) by (apply prv_lt; lia).
  destruct (bary_tame c vs d Hd H3 C I eps l i uv (nth i l 0) (nth (prv n i) l 0)) as (s & E & Rs); try assumption; try lra; try apply P.
  - apply nth_error_nth'. lia.
  - apply nth_error_nth'. fold n. lia.
  - exists (mkV2 s (1 - nth i l 0 - nth (prv n i) l 0)). split; [exact E|]. cbn [px py]. split; [exact Rs|].
    pose proof (P i). pose proof (P (prv n i)). pose proof (two_of_one (fun k => nth k l 0) i (prv n i) P Hi Hq ltac:(intros X; apply (prv_neq n i ltac:(lia) Hi); auto) S). simpl in *. lra.
Qed.

Lemma map_total : forall k eps uv (Q : V2 -> Prop), (forall i, (i < n)%nat -> exists r, mapToRibbon k eps d i uv = Some r /\ Q r) ->
  exists sds, mapToRibbons k eps d uv = Some sds /\ length sds = n /\ forall i sd, nth_error sds i = Some sd -> Q sd.
Proof.
  intros k eps uv Q H. unfold mapToRibbons. rewrite (d_n_eq c vs d Hd). fold n.
  destruct (mapM_total_nth _ (fun i => mapToRibbon k eps d i uv) n) as (l & E & L & V).
  { intros i Hi. destruct (H i Hi) as (r & Er & _). exists r. exact Er. }
  exists l. split; [exact E|]. split; [exact L|]. intros i sd Ei. assert (Hi : (i < n)%nat) by (rewrite <- L; apply nth_error_Some; congruence).
  destruct (H i Hi) as (r & Er & Qr). rewrite (V i Hi) in Ei. rewrite Er in Ei. injection Ei as <-. exact Qr.
Qed.

Lemma bary_total : forall eps uv, 0 < eps <= 1 -> in_polygon vs uv -> exists sds, mapToRibbons (KBary Wachspress) eps d uv = Some sds /\ unit_coords sds.
Proof. intros eps uv He Hp. apply (map_total (KBary Wachspress) eps uv (fun sd => 0 <= px sd <= 1 /\ 0 <= py sd <= 1)). intros i Hi. apply bary_map_range; assumption. Qed.

Lemma constrained_total : forall eps uv, 0 < eps <= 1 -> in_polygon vs uv -> exists sds, mapToRibbons (KConstrained Wachspress) eps d uv = Some sds /\ unit_coords sds.
Proof.
  intros eps uv He Hp. apply (map_total (KConstrained Wachspress) eps uv (fun sd => 0 <= px sd <= 1 /\ 0 <= py sd <= 1)). intros i Hi. cbn [mapToRibbon]. unfold constrainedMap.
  rewrite (d_n_eq c vs d Hd). fold n.
  destruct (bary_map_range eps uv i He Hp Hi) as (r & -> & R1 & R2). destruct (bary_map_range eps uv (prv n i) He Hp ltac:(apply prv_lt; lia)) as (rp & -> & P1 & P2).
  destruct (bary_map_range eps uv (nxt n i) He Hp ltac:(apply nxt_lt; lia)) as (rn & -> & N1 & N2). cbn [bind]. unfold constrainedRibbon.
  destruct (singular_four eps (py r) (1 - px r) (1 - py r) (px r) ltac:(lra)) as (b0 & b1 & b2 & b3 & -> & Q0 & Q1 & Q2 & Q3 & S & _). cbn [bind nth_error].
  eexists. split; [reflexivity|]. cbn [px py]. split; [exact R1|]. split; [|].
  - assert (0 <= py r * (b0 + b2)) by (apply Rmult_le_pos; lra). assert (0 <= px rn * b1) by (apply Rmult_le_pos; lra). assert (0 <= (1 - px rp) * b3) by (apply Rmult_le_pos; lra). lra.
  - assert (py r * (b0 + b2) <= 1 * (b0 + b2)) by (apply Rmult_le_compat_r; lra). assert (px rn * b1 <= 1 * b1) by (apply Rmult_le_compat_r; lra).
    assert ((1 - px rp) * b3 <= 1 * b3) by (apply Rmult_le_compat_r; lra). lra.
Qed.

(** *** The bilinear kinds *)
Definition lpt (i : nat) (uv : V2) : V2 := mkV2 (pdot (uv -p vtx vs (prv n i)) (sidevec vs i) / len2 vs i) (pcross (sidevec vs i) (uv -p vtx vs (prv n i)) / len2 vs i).
Lemma local_facts : forall uv i, (i < n)%nat ->
  px (lpt i uv) * py (loc1 vs i) - py (lpt i uv) * px (loc1 vs i) = over vs i (vtx vs (prv n (prv n i))) (vtx vs (prv n i)) uv /\
  (1 - px (lpt i uv)) * py (loc2 vs i) + py (lpt i uv) * px (loc2 vs i) = over vs i (vtx vs i) (vtx vs (nxt n i)) uv /\
  (in_polygon vs uv -> 0 <= py (lpt i uv) /\ 0 <= over vs i (vtx vs (prv n (prv n i))) (vtx vs (prv n i)) uv /\ 0 <= over vs i (vtx vs i) (vtx vs (nxt n i)) uv).
Proof.
  intros uv i Hi. pose proof (len2_pos vs H3 C i Hi) as Lp. assert (Hq : (prv n i < n)%nat) by (apply prv_lt; lia). assert (Hx : (nxt n i < n)%nat) by (apply nxt_lt; lia).
  assert (I0 : 0 <= / len2 vs i) by (left; apply Rinv_0_lt_compat; exact Lp). split; [|split].
  - unfold lpt, loc1, over. fold n. change (pdot (vtx vs i -p vtx vs (prv n i)) (vtx vs i -p vtx vs (prv n i))) with (len2 vs i).
    cbn [px py]. apply (Rmult_eq_reg_r (len2 vs i)); [|lra]. field_simplify; [|lra..]. revert Lp. unfold len2, pnorm2, pdot, pcross, sarea, sidevec. fold n. unfold pcross.
    destruct (vtx vs (prv n i)) as [ax ay], (vtx vs i) as [bx by_], (vtx vs (prv n (prv n i))) as [ex ey], uv as [x y]. simpl. intros Lp. field. lra.
  - unfold lpt, loc2, over. fold n. change (pdot (vtx vs i -p vtx vs (prv n i)) (vtx vs i -p vtx vs (prv n i))) with (len2 vs i).
    cbn [px py]. apply (Rmult_eq_reg_r (len2 vs i)); [|lra]. field_simplify; [|lra..]. revert Lp. unfold len2, pnorm2, pdot, pcross, sarea, sidevec. fold n. unfold pcross.
    destruct (vtx vs (prv n i)) as [ax ay], (vtx vs i) as [bx by_], (vtx vs (nxt n i)) as [ex ey], uv as [x y]. simpl. intros Lp. field. lra.
  - intros Hp. unfold lpt. cbn [py]. unfold Rdiv. split; [apply Rmult_le_pos; [|exact I0]; apply (Hp i Hi)|]. split; unfold over; apply Rmult_le_pos; try exact I0.
    + apply (Hp (prv n i) Hq).
    + pose proof (Hp (nxt n i) Hx) as Z. fold n in Z. rewrite prv_nxt in Z by exact Hi. exact Z.
Qed.

Lemma bilinear_polygon : forall eps uv i, 0 < eps -> in_polygon vs uv -> (i < n)%nat -> separated vs eps i uv ->
  exists s t, bilinearMap eps d i uv = Some (mkV2 s t) /\ 0 <= t /\ 0 <= s /\
    (0 <= heightPrev vs i - heightNext vs i \/ eps <= Rabs (heightPrev vs i - heightNext vs i) -> s <= 1).
Proof.
  intros eps uv i He Hp Hi Sp. rewrite (bilinearMap_closed c vs d Hd H3 C I eps i uv Hi). fold n. fold (lpt i uv).
  destruct (local_facts uv i Hi) as (EA & EB & P). destruct (P Hp) as (Q0 & Q1 & Q2). assert (Y1 := loc1_y vs i). assert (Y2 := loc2_y vs i).
  destruct (local_range eps (loc1 vs i) (loc2 vs i) (lpt i uv) He) as (s & t & E & T0 & S0 & S1).
  - rewrite Y1 by exact Hi. apply heightPrev_pos; assumption.
  - rewrite Y2 by exact Hi. apply heightNext_pos; assumption.
  - exact Q0.
  - rewrite EA. exact Q1.
  - rewrite EB. exact Q2.
  - rewrite EA, EB, Y1, Y2 by exact Hi. exact Sp.
  - exists s, t. split; [exact E|]. split; [exact T0|]. split; [exact S0|]. rewrite Y1, Y2 in S1 by exact Hi. exact S1.
Qed.

Lemma bilinear_stuck : forall eps uv i, 0 < eps -> in_polygon vs uv -> (i < n)%nat -> (bilinearMap eps d i uv = None <-> stuck vs eps i uv).
Proof.
  intros eps uv i He Hp Hi. assert (Y1 := loc1_y vs i Hi). assert (Y2 := loc2_y vs i Hi). destruct (local_facts uv i Hi) as (EA & EB & _).
  pose proof (local_stuck eps (loc1 vs i) (loc2 vs i) (lpt i uv) He) as S. cbv zeta in S. rewrite EA, EB, Y1, Y2 in S.
  assert (M : bilinearMap eps d i uv = bilinearLocal eps (loc1 vs i) (loc2 vs i) (lpt i uv)) by (rewrite (bilinearMap_closed c vs d Hd H3 C I eps i uv Hi); reflexivity).
  unfold stuck. fold n.
  change (over vs i (vtx vs (prv n i)) (vtx vs i) (vtx vs (prv n (prv n i)))) with (heightPrev vs i).
  change (over vs i (vtx vs (prv n i)) (vtx vs i) (vtx vs (nxt n i))) with (heightNext vs i).
  set (A := over vs i (vtx vs (prv n (prv n i))) (vtx vs (prv n i)) uv) in *. set (B := over vs i (vtx vs i) (vtx vs (nxt n i)) uv) in *.
  split.
  - intros E. destruct (Rlt_dec (Rabs (heightPrev vs i - heightNext vs i)) eps) as [L|L].
    { destruct (bilinear_polygon eps uv i He Hp Hi (or_introl L)) as (s & t & E' & _). congruence. }
    destruct (Rlt_dec ((heightPrev vs i - heightNext vs i + B - A) * (heightPrev vs i - heightNext vs i + B - A) + 4 * A * B) eps) as [L2|L2].
    + split; [lra|]. split; [exact L2|]. destruct (S ltac:(lra) L2) as [_ S2]. destruct (Req_dec (A + B) (heightPrev vs i + heightNext vs i)) as [Q|Q]; [exact Q|]. destruct (S2 Q) as [r R]. rewrite M, R in E. discriminate.
    + exfalso. destruct (bilinear_polygon eps uv i He Hp Hi) as (s & t & E' & _); [right; fold n A B; change (eps <= (heightPrev vs i - heightNext vs i + B - A) * (heightPrev vs i - heightNext vs i + B - A) + 4 * A * B); lra|]. congruence.
  - intros (L & L2 & Q). rewrite M. apply (S L L2). exact Q.
Qed.

Lemma separated_equal : forall eps i uv, 0 < eps -> (i < n)%nat -> heightPrev vs i = heightNext vs i -> separated vs eps i uv.
Proof.
  intros eps i uv He Hi E. left. unfold over. fold n.
  change (Rabs (heightPrev vs i - heightNext vs i) < eps). rewrite E, Rminus_diag_eq, Rabs_R0 by reflexivity. exact He.
Qed.

Lemma parallel_polygon : forall eps uv, 0 < eps -> in_polygon vs uv -> (forall i, (i < n)%nat -> ~ stuck vs eps i uv) ->
  exists sds, mapToRibbons KParallel eps d uv = Some sds /\ length sds = n /\ forall i sd, nth_error sds i = Some sd -> 0 <= py sd.
Proof.
  intros eps uv He Hp Sp. destruct (multipliers_some c vs d Hd H3 C I) as (ms & Em & Lm & Pm).
  apply (map_total KParallel eps uv (fun sd => 0 <= py sd)). intros i Hi. cbn [mapToRibbon]. rewrite Em. cbn [bind].
  destruct (Pm i Hi) as (m & Hm & P). destruct (bilinearMap eps d i uv) as [r|] eqn:B; [|apply (bilinear_stuck eps uv i He Hp Hi) in B; destruct (Sp i Hi B)].
  rewrite (parallel_any c vs d Hd H3 C I eps ms i m uv _ Hi Hm B). eexists. split; [reflexivity|]. cbn [px py].
  apply Rmult_le_pos; [|lra]. apply (hg_nonneg vs H3 C i uv Hi Hp).
Qed.

Lemma parallel_none : forall eps uv i, 0 < eps -> in_polygon vs uv -> (i < n)%nat -> stuck vs eps i uv -> mapToRibbons KParallel eps d uv = None.
Proof.
  intros eps uv i He Hp Hi S. apply (bilinear_stuck eps uv i He Hp Hi) in S. destruct (mapToRibbons KParallel eps d uv) as [sds|] eqn:E; [|reflexivity]. exfalso.
  destruct (parallel_sds c vs d Hd H3 C I eps uv sds E) as (L & ms & _ & V). destruct (nth_error sds i) as [sd|] eqn:Ei; [|apply nth_error_None in Ei; fold n in L; lia].
  destruct (V i sd Ei) as (b & m & B & _). congruence.
Qed.
End Conv.

(** ** Meshes *)
Lemma hull_polygon : forall vs p, (3 <= length vs)%nat -> strictly_convex vs -> in_hull vs p -> in_polygon vs p.
Proof.
  intros vs p H3 C (w & (P & S) & Ep) k Hk. set (n := length vs) in *.
  assert (Hq : (prv n k < n)%nat) by (apply prv_lt; lia).
  rewrite Ep. fold n. rewrite sarea_psum by exact S. apply rsum_nonneg. intros i Hi. apply Rmult_le_pos; [|apply P; exact Hi].
  apply (vtx_closed vs C i Hi k Hk).
Qed.

Lemma inside_hull : forall c vs d, domainFrames c vs = Some d -> (3 <= length vs)%nat -> strictly_convex vs -> inside vs c -> in_hull vs c.
Proof.
  intros c vs d Hd H3 C I. destruct (bary_polygon c vs d Hd H3 C 1 c ltac:(lra) (inside_closed vs c I)) as (l & B & Ll & P & S).
  exists (fun i => nth i l 0). split; [split; [intros i _; apply P|exact S]|].

  apply (PropsParam.C20_linear_precision Wachspress vs d 1 c l (d_verts_eq c vs d Hd) H3); [|intros; lra|exact B].
  intros k Hk E. specialize (I k Hk). lra.
Qed.

Lemma total_on_intro : forall c vs d eval, domainFrames c vs = Some d -> (3 <= length vs)%nat -> strictly_convex vs -> inside vs c ->
  (forall uv, in_polygon vs uv -> exists p, eval uv = Some p) -> total_on d vs eval.
Proof.
  intros c vs d eval Hd H3 C I H. split; [exact H|]. intros r Hr. destruct (PropsJoin.dom_parts c vs d Hd) as (N & Cn & V). rewrite N, Cn, V.
  destruct (parameters_length (length vs) c vs r H3 Hr eq_refl) as (ps & E & L). unfold surfaceMesh. rewrite E. cbn [bind].
  assert (T : forall p, In p ps -> exists q, eval p = Some q).
  { intros p Hp. apply H. apply hull_polygon; try assumption. apply (params_in_hull vs c r ps p H3 Hr); try assumption. intros _ _. apply (inside_hull c vs d); assumption. }
  assert (M : exists pts, mapM eval ps = Some pts /\ length pts = length ps).
  { clear - T. induction ps as [|p ps IH]; [exists []; split; reflexivity|]. destruct (T p (or_introl eq_refl)) as [q Q]. destruct IH as (pts & M & L); [intros; apply T; right; assumption|].
    exists (q :: pts). cbn [mapM]. rewrite Q. cbn [bind]. rewrite M. split; [reflexivity|simpl; rewrite L; reflexivity]. }
  destruct M as (pts & M & Lp). rewrite M. cbn [bind]. eexists. split; [reflexivity|]. cbn [pm_points]. rewrite Lp. exact L.
Qed.

(** ** Patches from ribbon coordinates *)
Lemma osum_ex : forall m f, (forall i, (i < m)%nat -> exists p : V3, f i = Some p) -> exists p, osum m f = Some p.
Proof.
  intros m f H. exists (vsum m (fun i => match f i with Some p => p | None => vzero end)). apply osum_total. intros i Hi. destruct (H i Hi) as [p ->]. reflexivity.
Qed.
Lemma nth_some : forall A (l : list A) i m, length l = m -> (i < m)%nat -> exists x, nth_error l i = Some x.
Proof. intros A l i m L H. destruct (nth_error l i) as [x|] eqn:E; [exists x; reflexivity|]. apply nth_error_None in E. lia. Qed.

Section Patch.
Variables (eps : R) (sf : surf) (sds : list V2).
Let n := sf_n sf.
Hypothesis Heps : 0 < eps.
Hypothesis H3 : (3 <= n)%nat.
Hypothesis Hready : ready sf.
Hypothesis Lsd : length sds = n.
Hypothesis Ht : tame sds.

Lemma Hlen' : length (sf_ribbons sf) = sf_n sf. Proof. apply Hready. Qed.
Lemma Hcross' : crosses_defined (sf_ribbons sf). Proof. apply Hready. Qed.

Lemma cornerBased_ex : exists p, cornerBased eps sf sds = Some p.
Proof.
  unfold cornerBased. destruct (corner_total eps sds n Heps Lsd ltac:(lia)) as (b & B & Lb & _). fold n. rewrite B. cbn [bind]. apply osum_ex. intros i Hi.
  destruct (nth_some _ b i n Lb Hi) as [x ->]. cbn [bind]. destruct (interp_total eps sf Heps Hlen' Hcross' ltac:(fold n; lia) Hready i sds Hi Lsd Ht) as [p ->]. eexists; reflexivity.
Qed.

Lemma coonsTerm_ex : forall b i, length b = n -> (i < n)%nat -> exists p, coonsTerm eps sf sds b i = Some p.
Proof.
  intros b i Lb Hi. unfold coonsTerm. fold n. assert (Hx : (nxt n i < n)%nat) by (apply nxt_lt; lia). assert (Hq : (prv n i < n)%nat) by (apply prv_lt; lia).
  destruct (nth_some _ sds i n Lsd Hi) as [sd Esd]. destruct (nth_some _ sds (nxt n i) n Lsd Hx) as [sx Esx]. rewrite Esd, Esx. cbn [bind].
  destruct (nth_some _ b i n Lb Hi) as [x ->]. destruct (nth_some _ b (prv n i) n Lb Hq) as [y ->]. cbn [bind].
  destruct (Ht i sd Esd) as [A1 A2]. destruct (Ht (nxt n i) sx Esx) as [B1 B2].
  rewrite (side_value sf Hlen' Hcross' i (px sd) (py sd) Hi (gok_nonneg _ _ A2)). cbn [bind].
  destruct (correction_total eps sf Heps Hlen' Hcross' ltac:(fold n; lia) Hready i (1 - px sd) (px sx) Hi) as [p ->]; [apply gok_nonneg; lra|apply gok_nonneg; lra|]. eexists; reflexivity.
Qed.

Lemma coons_ex : exists p, generalizedCoons eps sf sds = Some p.
Proof.
  unfold generalizedCoons. destruct (corner_total eps sds n Heps Lsd ltac:(lia)) as (b & B & Lb & _). fold n. rewrite B. cbn [bind]. apply osum_ex. intros i Hi.
  apply coonsTerm_ex; assumption.
Qed.

Lemma compositePatch_ex : exists p, compositeRibbonPatch eps sf sds = Some p.
Proof.
  unfold compositeRibbonPatch. fold n. destruct (corner_total eps sds n Heps Lsd ltac:(lia)) as (b & B & Lb & _). rewrite B. cbn [bind].
  match goal with |- context [osum n ?f] => destruct (osum_ex n f) as [p ->] end; [|eexists; reflexivity]. intros i Hi.
  assert (Hq : (prv n i < n)%nat) by (apply prv_lt; lia). destruct (nth_some _ sds i n Lsd Hi) as [sd Esd]. rewrite Esd. cbn [bind].
  destruct (nth_some _ b i n Lb Hi) as [x ->]. destruct (nth_some _ b (prv n i) n Lb Hq) as [y ->]. cbn [bind]. destruct (Ht i sd Esd) as [A1 A2].
  destruct (composite_total eps sf Heps H3 Hready sds Lsd i sd Hi A1 A2) as [p ->]. eexists; reflexivity.
Qed.

Lemma mpatch_ex : forall k cp, exists p, mpatch k eps sf cp sds = Some p.
Proof.
  intros k cp. destruct k; cbn [mpatch]; [unfold midpointPatch|unfold midpointCoons]; rewrite (deficient_value eps sf Heps H3 Hready sds Lsd Ht); cbn [bind]; fold n.
  - match goal with |- context [osum n ?f] => destruct (osum_ex n f) as [p ->] end; [|eexists; reflexivity]. intros i Hi.
    destruct (nth_some _ (tabulate n (wdef eps sf sds)) i n (tabulate_length _ _ _) Hi) as [x ->]. cbn [bind].
    destruct (interp_total eps sf Heps Hlen' Hcross' ltac:(fold n; lia) Hready i sds Hi Lsd Ht) as [p ->]. eexists; reflexivity.
  - match goal with |- context [osum n ?f] => destruct (osum_ex n f) as [p ->] end; [|eexists; reflexivity]. intros i Hi.
    apply coonsTerm_ex; [apply tabulate_length|exact Hi].
Qed.

Lemma updateCentral_ex : forall k m, exists r, updateCentral eps sf (mpatch k eps sf) sds m = Some r.
Proof.
  intros k m. unfold updateCentral. fold n.
  assert (M : exists mid, match m with Some p => Some p | None => p <- osum n (fun i => sideInterpolant sf i (1 / 2) (1 / 2)) ;; vdiv p (INR n) end = Some mid).
  { destruct m as [p|]; [exists p; reflexivity|]. destruct (osum_ex n (fun i => sideInterpolant sf i (1 / 2) (1 / 2))) as [p ->].
    - intros i Hi. eexists. apply (side_value sf Hlen' Hcross' i _ _ Hi). apply gok_nonneg. lra.
    - cbn [bind]. rewrite vdiv_some by (apply not_0_INR; lia). eexists; reflexivity. }
  destruct M as [mid ->]. cbn [bind]. destruct (mpatch_ex k vzero) as [s ->]. cbn [bind].
  unfold deficiency, n. rewrite (deficient_value eps sf Heps H3 Hready sds Lsd Ht). cbn [bind].
  match goal with |- context [Rabs ?x] => set (x0 := x) end. destruct (Rlt_dec (Rabs x0) eps) as [L|L]; cbn [bind]; [eexists; reflexivity|].
  rewrite vdiv_some; [eexists; reflexivity|]. intros E. rewrite E, Rabs_R0 in L. lra.
Qed.
End Patch.

Lemma sideBased_ex : forall eps sf sds, 0 < eps -> (0 < sf_n sf)%nat -> length (sf_ribbons sf) = sf_n sf -> crosses_defined (sf_ribbons sf) -> length sds = sf_n sf ->
  (forall i sd, nth_error sds i = Some sd -> 0 <= py sd) -> exists p, sideBased eps sf sds = Some p.
Proof. intros eps sf sds He Hn Hl Hc Ls Hp. destruct (sideBased_value eps sf He Hl Hc sds Ls Hp Hn) as (b & _ & _ & E). eexists. exact E. Qed.

Lemma c0coons_ex : forall cs sds, (3 <= length cs)%nat -> length sds = length cs -> exists p, (rs <- mapM (coonsRibbon cs) (seq 0 (length cs)) ;; c0coons rs (length cs) sds) = Some p.
Proof.
  intros cs sds H3 Ls. destruct (mapM_total_nth _ (coonsRibbon cs) (length cs)) as (rs & E & L & V).
  { intros i Hi. rewrite (coonsRibbon_value cs H3 i Hi). eexists; reflexivity. }
  rewrite E. cbn [bind]. unfold c0coons. apply osum_ex. intros i Hi. rewrite (V i Hi). rewrite (coonsRibbon_value cs H3 i Hi). cbn [bind].
  destruct (nth_some _ sds i _ Ls Hi) as [sd ->]. cbn [bind].
  match goal with |- context [coonsEval ?c (coonsUpdate ?a ?b ?c ?e ?f ?g) ?sd] => destruct (coons_total a b c e f g sd) as [p ->] end. eexists; reflexivity.
Qed.

(** ** Generalized Bezier patches *)
Section GB.
Variables (eps : R) (n d : nat) (g : gbsurf) (sds : list V2).
Hypothesis Heps : 0 < eps.
Hypothesis H3 : (3 <= n)%nat.
Hypothesis Hd : (1 <= d)%nat.
Hypothesis Hs : shaped n d g.
Hypothesis Lsd : length sds = n.

Let Dp (i : nat) : R := dpar sds i.
Let Sp (i : nat) : R := spar sds i.
Lemma sds_at : forall i, (i < n)%nat -> nth_error sds i = Some (mkV2 (Sp i) (Dp i)).
Proof. intros i Hi. apply nth_sd. lia. Qed.

Lemma gbLoop_ex : forall m a st, (a + m <= n)%nat -> exists r, gbLoop eps g sds (seq a m) st = Some r.
Proof.
  destruct Hs as (En & Ed & El & Ln & Sh). assert (K0 : (0 < (d + 1) / 2)%nat) by (pose proof (Nat.div_le_mono 2 (d + 1) 2 ltac:(lia) ltac:(lia)) as Z; change (2 / 2)%nat with 1%nat in Z; lia).
  induction m as [|m IH]; intros a st Ha; [eexists; reflexivity|]. cbn [seq gbLoop]. rewrite En, Ed, El.
  assert (Hi : (a < n)%nat) by lia. assert (Hq : (prv n a < n)%nat) by (apply prv_lt; lia). assert (Hx : (nxt n a < n)%nat) by (apply nxt_lt; lia).
  rewrite (sds_at a Hi), (sds_at _ Hq), (sds_at _ Hx). cbn [bind px py].
  destruct (net_some n d g Hs a Hi) as (net & N1 & N2).
  destruct (Rlt_dec (Dp a + Dp (nxt n a)) eps) as [L1|L1].
  { unfold get3. rewrite N1. cbn [bind]. destruct (N2 d 0%nat ltac:(lia) K0) as (row & -> & R2). cbn [bind]. rewrite R2. eexists; reflexivity. }
  destruct (Rlt_dec (Dp (prv n a) + Dp a) eps) as [L2|L2].
  { unfold get3. rewrite N1. cbn [bind]. destruct (N2 0%nat 0%nat ltac:(lia) K0) as (row & -> & R2). cbn [bind]. rewrite R2. eexists; reflexivity. }
  rewrite (ratio_rat (gb_sq g) (Dp (prv n a)) (Dp a)) by lra. rewrite (ratio_rat (gb_sq g) (Dp (nxt n a)) (Dp a)) by lra. cbn [bind]. rewrite N1. cbn [bind].
  rewrite (side_sum n d g Hs Sp Dp a net st Hi N1). cbn [bind]. apply IH. lia.
Qed.

Lemma gbEval_ex : exists p, gbEval eps g sds = Some p.
Proof.
  unfold gbEval. destruct Hs as (En & _). rewrite En. destruct (gbLoop_ex n 0%nat (vzero, 0) ltac:(lia)) as [r ->]. eexists; reflexivity.
Qed.

Lemma gbWeight_ex : forall i j k, (i < n)%nat -> (j <= d)%nat -> (k < (d + 1) / 2)%nat -> exists w, gbWeight eps g sds i j k = Some w.
Proof.
  intros i j k Hi Hj Hk. destruct Hs as (En & Ed & _). unfold gbWeight. rewrite En, Ed.
  assert (Hq : (prv n i < n)%nat) by (apply prv_lt; lia). assert (Hx : (nxt n i < n)%nat) by (apply nxt_lt; lia).
  destruct ((2 <=? k)%nat && _)%bool; [eexists; reflexivity|]. rewrite (sds_at i Hi), (sds_at _ Hq), (sds_at _ Hx). cbn [bind px py].
  destruct (Rlt_dec (Dp i + Dp (nxt n i)) eps) as [L1|L1]; [eexists; reflexivity|]. destruct (Rlt_dec (Dp (prv n i) + Dp i) eps) as [L2|L2]; [eexists; reflexivity|].
  rewrite !bernsteinSingle_spec by (try exact Hj; pose proof (Nat.div_le_upper_bound (d + 1) 2 (d + 1) ltac:(lia) ltac:(lia)); lia). cbn [bind].
  destruct ((k <? 2)%nat && _)%bool.
  - assert (Sq : forall x y, ~ x + y < eps -> x * x + y * y <> 0) by (intros x y L E; pose proof (sumsq_pos x y ltac:(lra)); lra).
    destruct (j <? 2)%nat; destruct (gb_sq g); (rewrite fdiv_some; [eexists; reflexivity|]); try lra; apply Sq; lra.
  - destruct ((j =? k)%nat || _)%bool; eexists; reflexivity.
Qed.

Lemma hybrid_ex : forall sf, sf_n sf = n -> length (sf_ribbons sf) = n -> crosses_defined (sf_ribbons sf) -> (forall i sd, nth_error sds i = Some sd -> 0 <= py sd) ->
  exists p, hybridEval eps g sf sds = Some p.
Proof.
  intros sf Hn Hl Hc Hp. eexists. apply (hybrid_value eps n d g sf sds Hs (fun i j k => match gbWeight eps g sds i j k with Some w => w | None => 0 end)) with (r := fun i => siv sf i (Sp i) (Dp i)).
  - intros i j k Hi Hj Hk. destruct (gbWeight_ex i j k Hi Hj Hk) as [w ->]. reflexivity.
  - intros i Hi. exists (mkV2 (Sp i) (Dp i)). split; [apply sds_at; exact Hi|]. cbn [px py]. apply side_value; [lia|exact Hc|lia|]. apply gok_nonneg. apply (Hp i _ (sds_at i Hi)).
Qed.

Lemma gbc_ex : exists p, gbcEval g sds = Some p.
Proof.
  destruct Hs as (En & Ed & El & Ln & Sh). unfold gbcEval. rewrite En.
  match goal with |- context [foldM ?f ?s (seq 0 n)] => set (F := f) end.
  assert (G : forall m a st, (a + m <= n)%nat -> exists r, foldM F st (seq a m) = Some r).
  { induction m as [|m IH]; intros a st Ha; [eexists; reflexivity|]. cbn [seq foldM].
    assert (E : exists st', F st a = Some st').
    { unfold F. rewrite (sds_at a ltac:(lia)), (sds_at (nxt n a) ltac:(apply nxt_lt; lia)). cbn [bind px py]. destruct (net_some n d g Hs a ltac:(lia)) as (net & -> & N2). cbn [bind]. rewrite Ed, El.
      unfold gbcCorner. set (l := ((d + 1) / 2)%nat). assert (Ld : (l <= d)%nat) by (unfold l; pose proof (Nat.div_lt (d + 1) 2 ltac:(lia) ltac:(lia)); lia).
      match goal with |- context [foldM ?f ?s (seq 0 l)] => set (G1 := f) end.
      assert (H1 : forall m' a' st', (a' + m' <= l)%nat -> exists r, foldM G1 st' (seq a' m') = Some r).
      { induction m' as [|m' IH']; intros a' st' Ha'; [eexists; reflexivity|]. cbn [seq foldM].
        assert (E1 : exists s1, G1 st' a' = Some s1).
        { unfold G1. match goal with |- context [foldM ?f st' (seq 0 l)] => set (G2 := f) end.
          assert (H2 : forall m2 a2 s2, (a2 + m2 <= l)%nat -> exists r, foldM G2 s2 (seq a2 m2) = Some r).
          { induction m2 as [|m2 IH2]; intros a2 s2 Ha2; [eexists; reflexivity|]. cbn [seq foldM].
            assert (E2 : exists s3, G2 s2 a2 = Some s3).
            { unfold G2. destruct (nth_some _ (bernsteinList d (Dp (nxt n a))) a' (d + 1)%nat) as [x ->]; [rewrite bernsteinList_length; lia|lia|].
              destruct (nth_some _ (bernsteinList d (Dp a)) a2 (d + 1)%nat) as [y ->]; [rewrite bernsteinList_length; lia|lia|]. cbn [bind].
              destruct (N2 (d - a')%nat a2 ltac:(lia) ltac:(fold l; lia)) as (row & -> & R2). cbn [bind]. rewrite R2. eexists; reflexivity. }
            destruct E2 as [s3 ->]. cbn [bind]. apply IH2. lia. }
          apply H2. lia. }
        destruct E1 as [s1 ->]. cbn [bind]. apply IH'. lia. }
      apply H1. lia. }
    destruct E as [st' ->]. cbn [bind]. apply IH. lia. }
  destruct (G n 0%nat (vzero, 0) ltac:(lia)) as [[q w] ->]. eexists; reflexivity.
Qed.
End GB.
