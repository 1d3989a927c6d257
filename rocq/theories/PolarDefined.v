(** When the inverse of the polar parameterization is defined. *)
From Verif Require Import Base MeshModel GeomSpec UtilModel DomainModel DomainProofs ParamModel ParamBary ParamMaps ParamTame PolarModel PolarProofs PropsParam PropsPolar.
From Coq Require Import Reals List Lia Lra.
Import ListNotations.
Open Scope R_scope.

Lemma bisect_total : forall dist p q target k lo hi cur, lo < hi ->
  (forall m, lo < m < hi -> exists x, dist (p *p (1 - m) +p q *p m) = Some x) ->
  exists m, lo < m < hi /\ polarBisect dist p q target lo hi cur (S k) = Some (p *p (1 - m) +p q *p m).
Proof.
  intros dist p q target k. induction k as [|k IH]; intros lo hi cur L T; cbn [polarBisect].
  - set (mid := (lo + hi) / 2). destruct (T mid ltac:(unfold mid; lra)) as [x ->]. cbn [bind]. exists mid. split; [unfold mid; lra|]. destruct (Rlt_dec target x); reflexivity.
  - set (mid := (lo + hi) / 2). destruct (T mid ltac:(unfold mid; lra)) as [x ->]. cbn [bind]. cbn [polarBisect] in IH. destruct (Rlt_dec target x).
    + destruct (IH mid hi (p *p (1 - mid) +p q *p mid) ltac:(unfold mid; lra)) as (m & Hm & E); [intros m Hm; apply T; unfold mid in Hm; lra|].
      exists m. split; [unfold mid in Hm; lra|]. exact E.
    + destruct (IH lo mid (p *p (1 - mid) +p q *p mid) ltac:(unfold mid; lra)) as (m & Hm & E); [intros m Hm; apply T; unfold mid in Hm; lra|].
      exists m. split; [unfold mid in Hm; lra|]. exact E.
Qed.

Section Defined.
Variables (d : dom) (i : nat) (eps : R).
Let vs := d_verts d.
Let n := length vs.
Hypothesis Dn : d_n d = n.
Hypothesis H3 : (3 <= n)%nat.
Hypothesis C : strictly_convex vs.
Hypothesis Hi : (i < n)%nat.
Hypothesis He : 0 < eps.

(** The first vertex within the tolerance, if any. *)
Lemma near_or_far : forall w k, (k <= n)%nat -> (forall j, (j < k)%nat -> eps <= pnorm (w -p vtx vs j)) \/
  exists i0, (i0 < k)%nat /\ pnorm (w -p vtx vs i0) < eps /\ forall j, (j < i0)%nat -> eps <= pnorm (w -p vtx vs j).
Proof.
  intros w k. induction k as [|k IH]; intros Hk; [left; intros; lia|]. destruct (IH ltac:(lia)) as [F|(i0 & A & B)].
  - destruct (Rlt_dec (pnorm (w -p vtx vs k)) eps) as [L|L]; [right; exists k; split; [lia|split; [exact L|exact F]]|].
    left. intros j Hj. destruct (Nat.eq_dec j k) as [->|]; [lra|]. apply F. lia.
  - right. exists i0. split; [lia|exact B].
Qed.

(** Mean value coordinates are defined between a vertex and a point of a side not touching it. *)
Lemma segment_coords : forall j t m, (j < n)%nat -> j <> i -> j <> nxt n i -> 0 <= t <= 1 -> 0 < m < 1 ->
  let q := vtx vs (prv n j) *p (1 - t) +p vtx vs j *p t in let w := vtx vs i *p (1 - m) +p q *p m in
  exists l, barycentric MeanValue eps d w = Some l /\ length l = n.
Proof.
  intros j t m Hj N1 N2 Ht Hm q w.
  destruct (near_or_far w n (le_n n)) as [F|(i0 & A & B & F)].
  2:{ destruct (C20_near_vertex MeanValue vs d eps w i0 eq_refl ltac:(fold n; lia) A ltac:(discriminate) B F) as (l & E & Ll & _). exists l. split; [exact E|exact Ll]. }
  assert (Far : forall v, In v vs -> eps <= pnorm (w -p v)).
  { intros v Hv. apply (In_nth vs v pzero) in Hv. destruct Hv as (k & Hk & <-). exact (F k Hk). }
  assert (Hp : (prv n j < n)%nat) by (apply prv_lt; lia). assert (Np : prv n j <> i) by (intros E; apply N2; rewrite <- E, nxt_prv by exact Hj; reflexivity).
  assert (Hpi : (prv n i < n)%nat) by (apply prv_lt; lia). assert (Hxi : (nxt n i < n)%nat) by (apply nxt_lt; lia).
  assert (V0 : forall k a, (k < n)%nat -> (a < n)%nat -> 0 <= sarea (vtx vs (prv n k)) (vtx vs k) (vtx vs a)).
  { intros k a Hk Ha. apply (vtx_closed vs C a Ha k Hk). }
  assert (Sw : forall k, sarea (vtx vs (prv n k)) (vtx vs k) w = (1 - m) * sarea (vtx vs (prv n k)) (vtx vs k) (vtx vs i)
     + m * ((1 - t) * sarea (vtx vs (prv n k)) (vtx vs k) (vtx vs (prv n j)) + t * sarea (vtx vs (prv n k)) (vtx vs k) (vtx vs j))).
  { intros k. unfold w, q, sarea, pcross. simpl. ring. }
  assert (Q : forall x y v, 0 <= v -> 0 <= x -> 0 <= y -> 0 < v \/ (0 < x /\ t <> 0) \/ (0 < y /\ t <> 1) -> 0 < (1 - m) * v + m * ((1 - t) * y + t * x)).
  { intros x y v Pv Px Py G. assert (0 <= (1 - m) * v) by (apply Rmult_le_pos; lra). assert (0 <= t * x) by (apply Rmult_le_pos; lra). assert (0 <= (1 - t) * y) by (apply Rmult_le_pos; lra).
    destruct G as [G|[[G T]|[G T]]].
    - assert (0 < (1 - m) * v) by (apply Rmult_lt_0_compat; lra). assert (0 <= m * ((1 - t) * y + t * x)) by (apply Rmult_le_pos; lra). lra.
    - assert (0 < t * x) by (apply Rmult_lt_0_compat; lra). assert (0 < m * ((1 - t) * y + t * x)) by (apply Rmult_lt_0_compat; lra). lra.
    - assert (0 < (1 - t) * y) by (apply Rmult_lt_0_compat; lra). assert (0 < m * ((1 - t) * y + t * x)) by (apply Rmult_lt_0_compat; lra). lra. }
  assert (K : (j = prv n i /\ t = 1) \/ (prv n j = nxt n i /\ t = 0) \/ ((j <> prv n i \/ t <> 1) /\ (prv n j <> nxt n i \/ t <> 0))).
  { destruct (Nat.eq_dec j (prv n i)), (Req_dec t 1), (Nat.eq_dec (prv n j) (nxt n i)), (Req_dec t 0); tauto. }
  destruct K as [[Ej T]|[[Ex T]|[K1 K2]]].
  - assert (W : w = sidePt vs i (1 - m)) by (unfold w, q, sidePt; fold n; rewrite T, Ej; apply V2_ext; simpl; ring).
    destruct (mv_side vs i (1 - m) C H3 Hi ltac:(lra) d eps eq_refl) as (l & E & Ll & _); [rewrite <- W; exact F|]. rewrite <- W in E. exists l. split; [exact E|exact Ll].
  - assert (W : w = sidePt vs (nxt n i) m) by (unfold w, q, sidePt; fold n; rewrite prv_nxt, T, Ex by exact Hi; apply V2_ext; simpl; ring).
    destruct (mv_side vs (nxt n i) m C H3 Hxi ltac:(lra) d eps eq_refl) as (l & E & Ll & _); [rewrite <- W; exact F|]. rewrite <- W in E. exists l. split; [exact E|exact Ll].
  - destruct (C19_mean_value vs d eps w eq_refl H3) as (l & E & Ll & _); [|exact Far|exists l; split; [exact E|exact Ll]].
    intros k Hk. fold n in Hk |- *. rewrite Sw. apply Q; [apply V0; assumption|apply V0; assumption|apply V0; assumption|].
    destruct (Nat.eq_dec k i) as [->|E1]; [right|destruct (Nat.eq_dec k (nxt n i)) as [->|E2]; [right|left]].
    + assert (Y : 0 < sarea (vtx vs (prv n i)) (vtx vs i) (vtx vs (prv n j))).
      { apply C; [exact Hi|exact Hp|exact Np|]. intros G. apply N1. rewrite <- (nxt_prv n j Hj). fold n in G. rewrite G, nxt_prv by exact Hi. reflexivity. }
      destruct (Req_dec t 1) as [T|T]; [left|right; split; assumption]. split; [|lra].
      apply C; [exact Hi|exact Hj|exact N1|destruct K1; [assumption|contradiction]].
    + assert (Y : 0 < sarea (vtx vs (prv n (nxt n i))) (vtx vs (nxt n i)) (vtx vs j)).
      { apply C; [exact Hxi|exact Hj|exact N2|]. fold n. rewrite prv_nxt by exact Hi. exact N1. }
      destruct (Req_dec t 0) as [T|T]; [right|left; split; assumption]. split; [|lra].
      apply C; [exact Hxi|exact Hp|destruct K2; [assumption|contradiction]|]. fold n. rewrite prv_nxt by exact Hi. exact Np.
    + apply C; [exact Hk|exact Hi|congruence|]. fold n. intros G. apply E2. rewrite G, nxt_prv by exact Hk. reflexivity.
Qed.

(** If the sweep line hits a side, the inverse is defined and is not the vertex itself. *)
Lemma inverse_defined : forall psi dir q0 dd, eps <= psi <= 1 - eps -> sweepDir eps d i psi = Some dir ->
  firstHit eps d (vtx vs i) dir (farSides n i) = Some (Some q0) ->
  exists r, polarInverse eps d i (mkV2 psi dd) = Some r /\ r <> vtx vs i.
Proof.
  intros psi dir q0 dd Hp Ed Eh. unfold polarInverse, polarInverseSteps. cbn [px py].
  destruct (Rlt_dec psi eps); [lra|]. destruct (Rlt_dec (1 - eps) psi); [lra|]. rewrite Ed. cbn [bind].
  assert (Vn : forall j, (j < n)%nat -> nth_error (d_verts d) j = Some (vtx vs j)) by (intros; apply nth_error_nth'; assumption).
  rewrite (Vn i Hi). cbn [bind]. rewrite Dn, Eh. cbn [bind].
  destruct (firstHit_in _ _ _ _ _ _ Eh) as (j & J & Ej). destruct (farSides_in n i j H3 Hi J) as (J1 & J2 & J3 & J4 & J5).
  assert (V1 : nth_error (d_verts d) (prv (d_n d) j) = Some (vtx vs (prv n j))) by (rewrite Dn; apply Vn; exact J4).
  destruct (hit_on_side eps d j (vtx vs i) dir _ _ He V1 (Vn j J1) q0 Ej) as (t & Ht & Q & _).
  assert (Q' : q0 = vtx vs (prv n j) *p (1 - t) +p vtx vs j *p t) by (rewrite Q; apply V2_ext; simpl; ring).
  change 20%nat with (S 19).
  destruct (bisect_total (fun uv => sd <- polarMap eps d i uv ;; Some (py sd)) (vtx vs i) q0 dd 19 0 1 (vtx vs i) ltac:(lra)) as (m & Hm & E).
  - intros m Hm. destruct (Rlt_dec (pnorm (vtx vs i *p (1 - m) +p q0 *p m -p vtx vs i)) eps) as [L|L].
    + rewrite (polar_near vs d i eq_refl Dn H3 Hi eps _ L). cbn [bind]. eexists; reflexivity.
    + destruct (segment_coords j t m J1 J2 J3 Ht Hm) as (l & B & Ll). rewrite <- Q' in B.
      destruct (nth_error l i) as [li|] eqn:Li; [|apply nth_error_None in Li; lia].
      destruct (polar_total vs d i eq_refl Dn C H3 Hi eps (vtx vs i *p (1 - m) +p q0 *p m) l li ltac:(lra) B Li) as (x & -> & _). cbn [bind]. eexists; reflexivity.
  - rewrite E. eexists. split; [reflexivity|]. intros G.
    assert (Qv : q0 = vtx vs i).
    { apply V2_ext; [apply (f_equal px) in G|apply (f_equal py) in G]; simpl in G; apply (Rmult_eq_reg_r m); lra. }
    assert (Z : sarea (vtx vs (prv n j)) (vtx vs j) q0 = 0) by (rewrite Q'; unfold sarea, pcross; simpl; ring).
    rewrite Qv in Z. pose proof (C j i J1 Hi (not_eq_sym J2) (not_eq_sym J5)). fold n in H. lra.
Qed.
End Defined.
