(** Properties of the test driver's meshes and error measures: C74. *)
From Verif Require Import Base MeshSpec MeshModel MeshProofs MeshParams GeomSpec UtilModel DomainModel ParamModel DomainProofs.
From Verif Require Import BlendProofs ParamMaps ParamBary PropsSurface DriverModel DriverMesh.
Open Scope R_scope.

(** ** Points *)
Lemma pairs_nth : forall (f : nat -> nat -> list V3) n r i j b, (forall i j, length (f i j) = 2%nat) -> (i < n)%nat -> (j < r)%nat -> (b < 2)%nat ->
  nth_error (flat_map (fun i => flat_map (f i) (seq 0 r)) (seq 0 n)) (2 * (i * r + j) + b) = nth_error (f i j) b.
Proof.
  intros f n r i j b L Hi Hj Hb.
  assert (Lr : forall i m a, length (flat_map (f i) (seq a m)) = (2 * m)%nat).
  { intros i0 m. induction m as [|m IH]; intros a; [reflexivity|]. cbn [seq flat_map]. rewrite app_length, L, IH. lia. }
  pose proof (nth_blocks (fun i => flat_map (f i) (seq 0 r)) (fun i => (2 * r * i)%nat) n 0 i (2 * j + b)%nat) as N. cbv beta in N.
  replace (2 * (i * r + j) + b)%nat with (2 * r * i - 2 * r * 0 + (2 * j + b))%nat by lia. rewrite N.
  - pose proof (nth_blocks (f i) (fun j => (2 * j)%nat) r 0 j b) as N2. cbv beta in N2. replace (2 * j + b)%nat with (2 * j - 2 * 0 + b)%nat by lia. apply N2; [|lia|rewrite L; exact Hb].
    intros k _. rewrite L. lia.
  - intros k _. rewrite Lr. lia.
  - lia.
  - rewrite Lr. lia.
Qed.
Lemma pairs_length : forall (f : nat -> nat -> list V3) n r, (forall i j, length (f i j) = 2%nat) ->
  length (flat_map (fun i => flat_map (f i) (seq 0 r)) (seq 0 n)) = (2 * (n * r))%nat.
Proof.
  intros f n r L.
  assert (Lr : forall i m a, length (flat_map (f i) (seq a m)) = (2 * m)%nat).
  { intros i0 m. induction m as [|m IH]; intros a; [reflexivity|]. cbn [seq flat_map]. rewrite app_length, L, IH. lia. }
  assert (G : forall m a, length (flat_map (fun i => flat_map (f i) (seq 0 r)) (seq a m)) = (2 * (m * r))%nat); [|apply G].
  intros m. induction m as [|m IH]; intros a; [reflexivity|]. cbn [seq flat_map]. rewrite app_length, Lr, IH. lia.
Qed.
Lemma quads_length : forall (f : nat -> nat) l, length (flat_map (fun k => quad k (f k)) l) = (2 * length l)%nat.
Proof. intros f l. induction l as [|k l IH]; [reflexivity|]. simpl. rewrite IH. lia. Qed.
Lemma ratio_some : forall j r, (1 <= r)%nat -> ratio j r = Some (INR j / INR r).
Proof. intros j r H. unfold ratio. apply fdiv_some. apply not_0_INR. lia. Qed.

(** ** C74: the fence is a closed band of triangles along the boundary, and the ribbons
    are separate strips; the points are where they should be. *)
Theorem C74_fence : forall n res, (3 <= n * res)%nat -> exists ts, fenceTriangles n res = Some ts /\ length ts = (2 * (n * res))%nat /\
  oriented_manifold ts /\ (forall t, In t ts -> proper_triangle (2 * (n * res)) t) /\
  (forall e, boundary_edge ts e <-> exists k, (k < n * res)%nat /\
     (e = (2 * ((k + 1) mod (n * res)), 2 * k) \/ e = (2 * k + 1, 2 * ((k + 1) mod (n * res)) + 1))%nat).
Proof.
  intros n res H. exists (strip (n * res)). split; [apply fence_value; lia|]. set (m := (n * res)%nat) in *. split.
  { unfold strip. rewrite quads_length, seq_length. reflexivity. }
  split; [apply strip_manifold; lia|]. split; [intros t Ht; apply strip_proper; [lia|exact Ht]|].
  intros e. rewrite strip_boundary by exact H. unfold nxt. split; intros (k & Hk & E); exists k; (split; [exact Hk|]); exact E.
Qed.
Print Assumptions C74_fence.

(** Without points the loop's bound wraps around, and it does not end. *)
Theorem C74_fence_empty : forall n res, fenceTriangles n res = None <-> n = 0%nat \/ res = 0%nat.
Proof.
  intros n res. split.
  - intros E. destruct (Nat.eq_dec n 0) as [->|Hn]; [left; reflexivity|]. destruct (Nat.eq_dec res 0) as [->|Hr]; [right; reflexivity|].
    rewrite fence_value in E by nia. discriminate.
  - intros H. unfold fenceTriangles. replace (n * res * 2)%nat with 0%nat by nia. reflexivity.
Qed.
Print Assumptions C74_fence_empty.

Theorem C74_fence_points : forall n res curve normal scaling, (1 <= res)%nat -> (forall i u, (i < n)%nat -> 0 <= u < 1 -> exists nr, normal i u = Some nr) ->
  exists pts, fencePoints n res curve normal scaling = Some pts /\ length pts = (2 * (n * res))%nat /\
    forall i j, (i < n)%nat -> (j < res)%nat -> let u := INR j / INR res in
      exists nr, normal i u = Some nr /\ nth_error pts (2 * (i * res + j)) = Some (curve i u) /\ nth_error pts (2 * (i * res + j) + 1) = Some (curve i u +v nr *v scaling).
Proof.
  intros n res curve normal scaling Hr Hn. set (nrm := fun i u => match normal i u with Some v => v | None => vzero end).
  set (f := fun i j => let u := INR j / INR res in [curve i u; curve i u +v nrm i u *v scaling]).
  assert (R : forall j, (j < res)%nat -> 0 <= INR j / INR res < 1).
  { intros j Hj. assert (0 < INR res) by (apply lt_0_INR; lia). pose proof (pos_INR j). assert (INR j < INR res) by (apply lt_INR; exact Hj). split.
    - unfold Rdiv. apply Rmult_le_pos; [lra|]. left. apply Rinv_0_lt_compat. lra.
    - apply (Rmult_lt_reg_r (INR res)); [lra|]. unfold Rdiv. rewrite Rmult_assoc, Rinv_l by lra. lra. }
  assert (N : forall i j, (i < n)%nat -> (j < res)%nat -> normal i (INR j / INR res) = Some (nrm i (INR j / INR res))).
  { intros i j Hi Hj. unfold nrm. destruct (Hn i (INR j / INR res) Hi (R j Hj)) as (nr & ->). reflexivity. }
  exists (flat_map (fun i => flat_map (f i) (seq 0 res)) (seq 0 n)). split; [|split].
  - unfold fencePoints. apply flat_mapM_total. intros i Hi. apply in_seq in Hi. apply flat_mapM_total. intros j Hj. apply in_seq in Hj. rewrite ratio_some by exact Hr. cbn [bind].
    rewrite N by lia. reflexivity.
  - apply pairs_length. reflexivity.
  - intros i j Hi Hj u. exists (nrm i u). split; [apply N; assumption|]. split.
    + pose proof (pairs_nth f n res i j 0 ltac:(reflexivity) Hi Hj ltac:(lia)) as P. rewrite Nat.add_0_r in P. exact P.
    + exact (pairs_nth f n res i j 1 ltac:(reflexivity) Hi Hj ltac:(lia)).
Qed.
Print Assumptions C74_fence_points.

Theorem C74_ribbons : forall n res, let ts := ribbonTriangles n res in length ts = (2 * (n * res))%nat /\ oriented_manifold ts /\
  forall t, In t ts -> proper_triangle (2 * (n * (res + 1))) t /\
    exists i, (i < n)%nat /\ forall k, In k (corners t) -> (2 * (i * (res + 1)) <= k < 2 * (i * (res + 1)) + 2 * (res + 1))%nat.
Proof.
  intros n res ts. split; [|split; [apply ribbon_manifold|]].
  - unfold ts. rewrite ribbon_value. assert (Lc : length (columns n res) = (n * res)%nat).
    { unfold columns. assert (G : forall m a, length (flat_map (fun i => seq (i * (res + 1)) res) (seq a m)) = (m * res)%nat); [|apply G].
      intros m. induction m as [|m IH]; intros a; [reflexivity|]. cbn [seq flat_map]. rewrite app_length, seq_length, IH. lia. }
    rewrite <- Lc. apply quads_length.
  - intros t Ht. unfold ts in Ht. rewrite ribbon_value in Ht. apply in_flat_map in Ht. destruct Ht as (c & Hc & Ht). apply columns_in in Hc. destruct Hc as (i & j & Hi & Hj & ->).
    assert (M : (i * (res + 1) + (res + 1) <= n * (res + 1))%nat) by nia.
    split; [destruct Ht as [<-|[<-|[]]]; simpl; repeat split; lia|]. exists i. split; [exact Hi|].
    intros k Hk. destruct Ht as [<-|[<-|[]]]; simpl in Hk; repeat match type of Hk with _ \/ _ => destruct Hk as [Hk|Hk] end; try contradiction; subst k; lia.
Qed.
Print Assumptions C74_ribbons.

Theorem C74_ribbon_points : forall n res curve ribbon len, (1 <= res)%nat -> (forall i u, (i < n)%nat -> 0 <= u <= 1 -> exists p, ribbon i (mkV2 u len) = Some p) ->
  exists pts, ribbonPoints n res curve ribbon len = Some pts /\ length pts = (2 * (n * (res + 1)))%nat /\
    forall i j, (i < n)%nat -> (j <= res)%nat -> let u := INR j / INR res in
      nth_error pts (2 * (i * (res + 1) + j)) = Some (curve i u) /\ nth_error pts (2 * (i * (res + 1) + j) + 1) = ribbon i (mkV2 u len).
Proof.
  intros n res curve ribbon len Hr Hn. set (rv := fun i u => match ribbon i (mkV2 u len) with Some v => v | None => vzero end).
  set (f := fun i j => let u := INR j / INR res in [curve i u; rv i u]).
  assert (R : forall j, (j <= res)%nat -> 0 <= INR j / INR res <= 1).
  { intros j Hj. assert (0 < INR res) by (apply lt_0_INR; lia). pose proof (pos_INR j). assert (INR j <= INR res) by (apply le_INR; exact Hj). split.
    - unfold Rdiv. apply Rmult_le_pos; [lra|]. left. apply Rinv_0_lt_compat. lra.
    - apply (Rmult_le_reg_r (INR res)); [lra|]. unfold Rdiv. rewrite Rmult_assoc, Rinv_l by lra. lra. }
  assert (N : forall i j, (i < n)%nat -> (j <= res)%nat -> ribbon i (mkV2 (INR j / INR res) len) = Some (rv i (INR j / INR res))).
  { intros i j Hi Hj. unfold rv. destruct (Hn i (INR j / INR res) Hi (R j Hj)) as (nr & ->). reflexivity. }
  exists (flat_map (fun i => flat_map (f i) (seq 0 (res + 1))) (seq 0 n)). split; [|split].
  - unfold ribbonPoints. apply flat_mapM_total. intros i Hi. apply in_seq in Hi. apply flat_mapM_total. intros j Hj. apply in_seq in Hj. rewrite ratio_some by exact Hr. cbn [bind].
    rewrite N by lia. reflexivity.
  - apply pairs_length. reflexivity.
  - intros i j Hi Hj u. unfold u. rewrite (N i j Hi Hj). split.
    + pose proof (pairs_nth f n (res + 1) i j 0 ltac:(reflexivity) Hi ltac:(lia) ltac:(lia)) as P. rewrite Nat.add_0_r in P. exact P.
    + exact (pairs_nth f n (res + 1) i j 1 ltac:(reflexivity) Hi ltac:(lia) ltac:(lia)).
Qed.
Print Assumptions C74_ribbon_points.

Example C74_example_mesh : fenceTriangles 3 1 = Some [(0, 1, 2); (1, 3, 2); (2, 3, 4); (3, 5, 4); (4, 5, 0); (5, 1, 0)]%nat /\
  ribbonTriangles 2 1 = [(0, 1, 2); (1, 3, 2); (4, 5, 6); (5, 7, 6)]%nat.
Proof. split; reflexivity. Qed.

(** ** The errors *)
Lemma square_zero : forall t, vdot t t <= 0 -> t = vzero.
Proof. intros [x y z] L. unfold vdot in L. simpl in L. apply V3_ext; simpl; apply Rsqr_0_uniq; unfold Rsqr; nra. Qed.
Lemma largest_from : forall l a, a <= fold_left Rmax l a /\ (forall x, In x l -> x <= fold_left Rmax l a) /\ (fold_left Rmax l a = a \/ In (fold_left Rmax l a) l).
Proof.
  intros l. induction l as [|x l IH]; intros a; simpl; [repeat split; auto; [lra|contradiction]|]. destruct (IH (Rmax a x)) as (A & B & C).
  pose proof (Rmax_l a x). pose proof (Rmax_r a x). split; [lra|]. split.
  - intros y [<-|Hy]; [lra|apply B, Hy].
  - destruct C as [C|C]; [|right; right; exact C]. rewrite C. unfold Rmax. destruct (Rle_dec a x); [right; left; reflexivity|left; reflexivity].
Qed.
Lemma largest_bound : forall l b, largest l <= b <-> 0 <= b /\ forall x, In x l -> x <= b.
Proof.
  intros l b. unfold largest. destruct (largest_from l 0) as (A & B & C). split.
  - intros H. split; [lra|]. intros x Hx. specialize (B x Hx). lra.
  - intros (H0 & H). destruct C as [->|C]; [exact H0|apply H, C].
Qed.

Section Errors.
Variables (d : dom) (res : nat).

Lemma samples_total : forall (f : nat -> nat -> option R), (forall i j, (i < d_n d)%nat -> (j <= res)%nat -> exists e, f i j = Some e) ->
  exists es, flat_mapM (fun i => mapM (f i) (seq 0 (res + 1))) (seq 0 (d_n d)) = Some es /\
    forall x, In x es <-> exists i j, (i < d_n d)%nat /\ (j <= res)%nat /\ f i j = Some x.
Proof.
  intros f H. set (g := fun i j => match f i j with Some e => e | None => 0 end).
  assert (G : forall i j, (i < d_n d)%nat -> (j <= res)%nat -> f i j = Some (g i j)) by (intros i j Hi Hj; unfold g; destruct (H i j Hi Hj) as (e & ->); reflexivity).
  exists (flat_map (fun i => map (g i) (seq 0 (res + 1))) (seq 0 (d_n d))). split.
  - apply flat_mapM_total. intros i Hi. apply in_seq in Hi. apply mapM_total. intros j Hj. apply in_seq in Hj. apply G; lia.
  - intros x. rewrite in_flat_map. split.
    + intros (i & Hi & Hx). apply in_seq in Hi. apply in_map_iff in Hx. destruct Hx as (j & <- & Hj). apply in_seq in Hj. exists i, j. split; [lia|]. split; [lia|]. apply G; lia.
    + intros (i & j & Hi & Hj & E). exists i. split; [apply in_seq; lia|]. apply in_map_iff. exists j. split; [|apply in_seq; lia]. rewrite (G i j Hi Hj) in E. injection E as <-. reflexivity.
Qed.
End Errors.

(** The positional error is the largest distance at the samples. *)
Theorem C74_positional : forall c vs d res eval curve, domainFrames c vs = Some d -> (1 <= res)%nat ->
  (forall i s uv, (i < length vs)%nat -> 0 <= s <= 1 -> edgePoint d i s = Some uv -> exists p, eval uv = Some p) ->
  exists e, positionalError d res eval curve = Some e /\ 0 <= e /\
    forall b, e <= b <-> 0 <= b /\ forall i j uv p, (i < length vs)%nat -> (j <= res)%nat -> edgePoint d i (INR j / INR res) = Some uv -> eval uv = Some p ->
      vnorm (p -v curve i (INR j / INR res)) <= b.
Proof.
  intros c vs d res eval curve Hd Hr He. assert (Nd : d_n d = length vs) by (apply (d_n_eq c vs d Hd)).
  assert (Ej : forall j, (j <= res)%nat -> 0 <= INR j / INR res <= 1).
  { intros j Hj. assert (0 < INR res) by (apply lt_0_INR; lia). pose proof (pos_INR j). assert (INR j <= INR res) by (apply le_INR; exact Hj). split.
    - unfold Rdiv. apply Rmult_le_pos; [lra|]. left. apply Rinv_0_lt_compat. lra.
    - apply (Rmult_le_reg_r (INR res)); [lra|]. unfold Rdiv. rewrite Rmult_assoc, Rinv_l by lra. lra. }
  set (f := fun i j => s <- ratio j res ;; uv <- edgePoint d i s ;; p <- eval uv ;; Some (vnorm (p -v curve i s))).
  assert (F : forall i j, (i < d_n d)%nat -> (j <= res)%nat -> exists p, eval (sidePt vs i (INR j / INR res)) = Some p /\ f i j = Some (vnorm (p -v curve i (INR j / INR res)))).
  { intros i j Hi Hj. rewrite Nd in Hi. assert (E := edge_total c vs d i (INR j / INR res) Hd Hi). destruct (He i (INR j / INR res) _ Hi (Ej j Hj) E) as (p & Ep). exists p. split; [exact Ep|].
    unfold f. rewrite ratio_some by exact Hr. cbn [bind]. rewrite E. cbn [bind]. rewrite Ep. reflexivity. }
  destruct (samples_total d res f) as (es & Es & Hes); [intros i j Hi Hj; destruct (F i j Hi Hj) as (p & _ & E); eexists; exact E|].
  exists (largest es). split; [|split].
  - unfold positionalError. fold f. change (es0 <- flat_mapM (fun i => mapM (f i) (seq 0 (res + 1))) (seq 0 (d_n d)) ;; Some (largest es0) = Some (largest es)). rewrite Es. reflexivity.
  - destruct (proj1 (largest_bound es (largest es)) (Rle_refl _)) as (H0 & _). exact H0.
  - intros b. rewrite largest_bound. split; intros (H0 & H); (split; [exact H0|]).
    + intros i j uv p Hi Hj E Ep. apply H. apply Hes. exists i, j. rewrite <- Nd in Hi. split; [exact Hi|]. split; [exact Hj|].
      destruct (F i j Hi Hj) as (p' & Ep' & ->). rewrite Nd in Hi. rewrite (edge_total c vs d i _ Hd Hi) in E. injection E as <-. rewrite Ep in Ep'. injection Ep' as <-. reflexivity.
    + intros x Hx. apply Hes in Hx. destruct Hx as (i & j & Hi & Hj & E). destruct (F i j Hi Hj) as (p & Ep & E'). rewrite E' in E. injection E as <-. rewrite Nd in Hi.
      apply (H i j _ p Hi Hj (edge_total c vs d i _ Hd Hi) Ep).
Qed.
Print Assumptions C74_positional.

(** It is zero for patches that interpolate their boundary curves. *)
Theorem C74_interpolating : forall c vs d res eval curve, domainFrames c vs = Some d -> (1 <= res)%nat ->
  (forall i s uv, (i < length vs)%nat -> 0 <= s <= 1 -> edgePoint d i s = Some uv -> eval uv = Some (curve i s)) -> positionalError d res eval curve = Some 0.
Proof.
  intros c vs d res eval curve Hd Hr He. destruct (C74_positional c vs d res eval curve Hd Hr) as (e & E & H0 & B).
  - intros i s uv Hi Hs Eu. eexists. apply (He i s uv Hi Hs Eu).
  - rewrite E. f_equal. apply Rle_antisym; [|exact H0]. apply B. split; [lra|]. intros i j uv p Hi Hj Eu Ep.
    assert (0 < INR res) by (apply lt_0_INR; lia). pose proof (pos_INR j). assert (INR j <= INR res) by (apply le_INR; exact Hj).
    assert (S : 0 <= INR j / INR res <= 1).
    { split; [unfold Rdiv; apply Rmult_le_pos; [lra|]; left; apply Rinv_0_lt_compat; lra|]. apply (Rmult_le_reg_r (INR res)); [lra|]. unfold Rdiv. rewrite Rmult_assoc, Rinv_l by lra. lra. }
    rewrite (He i _ uv Hi S Eu) in Ep. injection Ep as <-. right. replace (curve i (INR j / INR res) -v curve i (INR j / INR res)) with vzero by v3ring.
    unfold vnorm. replace (vdot vzero vzero) with 0 by (unfold vdot; simpl; ring). apply sqrt_0.
Qed.
Print Assumptions C74_interpolating.

(** The direction of the tangential test: perpendicular to the side, of unit length,
    and into the domain. *)
Theorem C74_inwards : forall c vs d i, domainFrames c vs = Some d -> inside vs c -> (i < length vs)%nat ->
  exists w, inwards d i = Some w /\ pdot w w = 1 /\ pdot w (vtx vs i -p vtx vs (prv (length vs) i)) = 0 /\
    forall s step, 0 < step -> 0 < sarea (vtx vs (prv (length vs) i)) (vtx vs i) (sidePt vs i s +p w *p step).
Proof.
  intros c vs d i Hd Hin Hi. set (n := length vs) in *. assert (V : forall q, (q < n)%nat -> nth_error (d_verts d) q = Some (vtx vs q)) by (intros q Hq; apply (verts_nth c vs d Hd); exact Hq).
  unfold inwards. rewrite (V i Hi). cbn [bind]. rewrite (d_n_eq c vs d Hd). fold n. rewrite (V (prv n i) (prv_lt n i ltac:(lia))). cbn [bind].
  pose proof (Hin i Hi) as A. fold n in A. unfold sarea in A. rewrite (d_eq c vs d Hd). cbn [d_center]. unfold sidePt. fold n. set (a := vtx vs (prv n i)) in *. set (b := vtx vs i) in *.
  assert (E : pdot (c -p b) (mkV2 (py (b -p a)) (- px (b -p a))) = - pcross (b -p a) (c -p a)) by (unfold pdot, pcross; simpl; ring).
  rewrite E. destruct (Rlt_dec (- pcross (b -p a) (c -p a)) 0) as [L|N]; [|lra]. set (e := b -p a) in *. set (p := mkV2 (py e) (- px e) *p -1).
  assert (Q : pdot p p = pdot e e) by (unfold p, pdot; simpl; ring).
  assert (P : 0 < pdot e e).
  { unfold pcross in A. unfold pdot. destruct (Req_dec (px e) 0) as [Z1|Z1]; destruct (Req_dec (py e) 0) as [Z2|Z2]; [rewrite Z1, Z2 in A; lra| | |]; nra. }
  assert (Pn : 0 < pnorm p) by (unfold pnorm; apply sqrt_lt_R0; lra). assert (P2 : pnorm p * pnorm p = pdot e e) by (unfold pnorm; rewrite sqrt_sqrt; lra).
  unfold pdiv. destruct (Req_EM_T (pnorm p) 0); [lra|]. eexists. split; [reflexivity|]. set (l := pnorm p) in *. clearbody l. split; [|split].
  - replace (pdot (p *p / l) (p *p / l)) with (pdot p p / (l * l)) by (unfold pdot; simpl; field; lra). rewrite Q, <- P2. field. lra.
  - unfold p, pdot. simpl. ring.
  - intros s step Hs. unfold sarea. fold e. replace (pcross e (b *p s +p a *p (1 - s) +p p *p / l *p step -p a)) with (pdot e e / l * step).
    + apply Rmult_lt_0_compat; [|exact Hs]. apply Rdiv_lt_0_compat; lra.
    + unfold p, pdot, pcross, e. simpl. field. lra.
Qed.
Print Assumptions C74_inwards.

(** The angle is zero exactly if the point inside is in the half plane spanned by the
    tangent and the direction to the left of it around the normal. *)
Theorem C74_angle : forall (t n w : V3), vdot n n = 1 -> vdot t n = 0 -> vcross t w <> vzero ->
  exists sn, vnormalize (vcross t w) = Some sn /\ 0 <= acos (vdot sn n) <= PI /\
    (acos (vdot sn n) = 0 <-> vdot w n = 0 /\ 0 < vdot w (vcross n t)).
Proof.
  intros t n w Hn Ht Hw. assert (P : 0 < vnorm (vcross t w)).
  { unfold vnorm. apply sqrt_lt_R0. destruct (Rle_lt_dec (vdot (vcross t w) (vcross t w)) 0) as [L|L]; [exfalso|exact L]. apply Hw, square_zero, L. }
  assert (P2 : vnorm (vcross t w) * vnorm (vcross t w) = vdot (vcross t w) (vcross t w)).
  { unfold vnorm. apply sqrt_sqrt. unfold vdot. nra. }
  exists (vcross t w *v / vnorm (vcross t w)). unfold vnormalize, vdiv. destruct (Req_EM_T (vnorm (vcross t w)) 0); [lra|]. split; [reflexivity|].
  set (l := vnorm (vcross t w)) in *. set (m := vcross t w) in *. clearbody l. set (x := vdot (m *v / l) n).
  assert (Ex : x = vdot m n / l) by (unfold x, vdot; simpl; field; lra).
  assert (CS : vdot m n * vdot m n <= vdot m m * vdot n n) by (unfold vdot; destruct m as [a b c], n as [p q r]; simpl; pose proof (pow2_ge_0 (a * q - b * p)); pose proof (pow2_ge_0 (b * r - c * q)); pose proof (pow2_ge_0 (c * p - a * r)); nra).
  rewrite Hn, <- P2 in CS. assert (B : -1 <= x <= 1).
  { rewrite Ex. assert (- l <= vdot m n <= l) by nra. split.
    - apply (Rmult_le_reg_r l); [lra|]. unfold Rdiv. rewrite Rmult_assoc, Rinv_l by lra. lra.
    - apply (Rmult_le_reg_r l); [lra|]. unfold Rdiv. rewrite Rmult_assoc, Rinv_l by lra. lra. }
  split; [apply acos_bound|].
  assert (Z : acos x = 0 <-> x = 1). { split; intros E; [|rewrite E; apply acos_1]. rewrite <- (cos_acos x B), E. apply cos_0. }
  rewrite Z, Ex. assert (Z2 : vdot m n / l = 1 <-> vdot m n = l). { split; intros E; [|rewrite E; field; lra]. apply (Rmult_eq_reg_r (/ l)); [|apply Rinv_neq_0_compat; lra]. rewrite Rinv_r by lra. exact E. }
  rewrite Z2. assert (Mn : vdot m n = vdot w (vcross n t)) by (unfold m, vdot, vcross; simpl; ring).
  assert (Id : vdot m m = vdot m n * vdot m n + vdot t t * (vdot w n * vdot w n)).
  { assert (I1 : vdot m m = vdot t t * vdot w w - vdot t w * vdot t w) by (unfold m, vdot, vcross; simpl; ring).
    assert (I2 : vdot m n * vdot m n + vdot t t * (vdot w n * vdot w n) = vdot t t * vdot w w * vdot n n - vdot t w * vdot t w * vdot n n + 2 * vdot t w * vdot w n * vdot t n - vdot w w * vdot t n * vdot t n)
      by (unfold m, vdot, vcross; simpl; ring).
    rewrite Ht, Hn in I2. lra. }
  assert (Tp : 0 < vdot t t).
  { destruct (Rle_lt_dec (vdot t t) 0) as [L|L]; [exfalso|exact L]. assert (vdot m m <= 0).
    { unfold m. rewrite (square_zero t L). unfold vdot, vcross. simpl. lra. }
    nra. }
  split.
  - intros E. rewrite <- P2, E in Id. split; [|rewrite <- Mn, E; exact P]. apply Rsqr_0_uniq. unfold Rsqr. nra.
  - intros (E1 & E2). rewrite E1 in Id. rewrite <- Mn in E2. rewrite <- P2 in Id. nra.
Qed.
Print Assumptions C74_angle.

(** So the tangential error is zero exactly if the surface starts in the tangent plane of the
    ribbon, on its proper side, at all samples. *)
Theorem C74_tangential : forall c vs d res step eval curve_deriv normal, domainFrames c vs = Some d -> inside vs c -> (1 <= res)%nat ->
  (forall i s w uv, (i < length vs)%nat -> 0 <= s <= 1 -> inwards d i = Some w -> edgePoint d i s = Some uv ->
    exists p q nr, eval uv = Some p /\ eval (uv +p w *p step) = Some q /\ normal i s = Some nr /\ vdot nr nr = 1 /\ vdot (curve_deriv i s) nr = 0 /\ vcross (curve_deriv i s) (q -v p) <> vzero) ->
  exists e, tangentialError d res step eval curve_deriv normal = Some e /\ 0 <= e <= PI /\
    (e = 0 <-> forall i j w uv p q nr, (i < length vs)%nat -> (j <= res)%nat -> let s := INR j / INR res in
       inwards d i = Some w -> edgePoint d i s = Some uv -> eval uv = Some p -> eval (uv +p w *p step) = Some q -> normal i s = Some nr ->
       vdot (q -v p) nr = 0 /\ 0 < vdot (q -v p) (vcross nr (curve_deriv i s))).
Proof.
  intros c vs d res step eval dv normal Hd Hin Hr He. assert (Nd : d_n d = length vs) by (apply (d_n_eq c vs d Hd)).
  assert (Ej : forall j, (j <= res)%nat -> 0 <= INR j / INR res <= 1).
  { intros j Hj. assert (0 < INR res) by (apply lt_0_INR; lia). pose proof (pos_INR j). assert (INR j <= INR res) by (apply le_INR; exact Hj). split.
    - unfold Rdiv. apply Rmult_le_pos; [lra|]. left. apply Rinv_0_lt_compat. lra.
    - apply (Rmult_le_reg_r (INR res)); [lra|]. unfold Rdiv. rewrite Rmult_assoc, Rinv_l by lra. lra. }
  set (f := angleError d res step eval dv normal).
  assert (F : forall i j, (i < d_n d)%nat -> (j <= res)%nat -> exists w p q nr x, inwards d i = Some w /\ eval (sidePt vs i (INR j / INR res)) = Some p /\
      eval (sidePt vs i (INR j / INR res) +p w *p step) = Some q /\ normal i (INR j / INR res) = Some nr /\ f i j = Some x /\ 0 <= x <= PI /\
      (x = 0 <-> vdot (q -v p) nr = 0 /\ 0 < vdot (q -v p) (vcross nr (dv i (INR j / INR res))))).
  { intros i j Hi Hj. rewrite Nd in Hi. assert (E := edge_total c vs d i (INR j / INR res) Hd Hi). destruct (C74_inwards c vs d i Hd Hin Hi) as (w & Ew & _).
    destruct (He i (INR j / INR res) w _ Hi (Ej j Hj) Ew E) as (p & q & nr & Ep & Eq & En & N1 & N2 & N3). destruct (C74_angle _ nr _ N1 N2 N3) as (sn & Es & B & Z).
    exists w, p, q, nr, (acos (vdot sn nr)). split; [exact Ew|]. split; [exact Ep|]. split; [exact Eq|]. split; [exact En|]. split; [|split; [exact B|exact Z]].
    unfold f, angleError. rewrite Ew. cbn [bind]. rewrite ratio_some by exact Hr. cbn [bind]. rewrite E. cbn [bind]. rewrite Ep. cbn [bind]. rewrite Eq. cbn [bind]. rewrite Es. cbn [bind]. rewrite En. reflexivity. }
  destruct (samples_total d res f) as (es & Es & Hes); [intros i j Hi Hj; destruct (F i j Hi Hj) as (w & p & q & nr & x & _ & _ & _ & _ & E & _); eexists; exact E|].
  exists (largest es). split; [|split].
  - unfold tangentialError. fold f. change (fun i => mapM (angleError d res step eval dv normal i) (seq 0 (res + 1))) with (fun i => mapM (f i) (seq 0 (res + 1))). rewrite Es. reflexivity.
  - split; [exact (proj1 (proj1 (largest_bound es (largest es)) (Rle_refl _)))|]. apply largest_bound. split; [left; apply PI_RGT_0|].
    intros x Hx. apply Hes in Hx. destruct Hx as (i & j & Hi & Hj & E). destruct (F i j Hi Hj) as (w & p & q & nr & x' & _ & _ & _ & _ & E' & B & _). rewrite E' in E. injection E as <-. apply B.
  - split.
    + intros Z i j w uv p q nr Hi Hj s Ew Eu Ep Eq En. unfold s in *. rewrite (edge_total c vs d i _ Hd Hi) in Eu. injection Eu as <-. rewrite <- Nd in Hi.
      destruct (F i j Hi Hj) as (w' & p' & q' & nr' & x & Ew' & Ep' & Eq' & En' & E & B & X). rewrite Ew in Ew'. injection Ew' as <-. rewrite Ep in Ep'. injection Ep' as <-. rewrite Eq in Eq'. injection Eq' as <-.
      rewrite En in En'. injection En' as <-. apply X. apply Rle_antisym; [|apply B]. rewrite <- Z. apply (proj2 (proj1 (largest_bound es (largest es)) (Rle_refl _))). apply Hes. exists i, j. auto.
    + intros H. apply Rle_antisym; [|exact (proj1 (proj1 (largest_bound es (largest es)) (Rle_refl _)))]. apply largest_bound. split; [lra|].
      intros x Hx. apply Hes in Hx. destruct Hx as (i & j & Hi & Hj & E). destruct (F i j Hi Hj) as (w & p & q & nr & x' & Ew & Ep & Eq & En & E' & B & X). rewrite E' in E. injection E as <-. right. apply X.
      rewrite Nd in Hi. apply (H i j w _ p q nr Hi Hj Ew (edge_total c vs d i _ Hd Hi) Ep Eq En).
Qed.
Print Assumptions C74_tangential.

(** For generalized Bezier patches the normal is the one of the first two rows, and the
    error is zero exactly if the point inside is in the half plane spanned by the tangent
    and the direction from the boundary to the second row. *)
Lemma half_plane : forall t w x, vcross t w <> vzero ->
  vdot x (vcross t w) = 0 /\ 0 < vdot x (vcross (vcross t w) t) <-> exists a b, 0 < b /\ x = t *v a +v w *v b.
Proof.
  intros t w x H. set (D := vdot (vcross t w) (vcross t w)).
  assert (DP : 0 < D). { destruct (Rle_lt_dec D 0) as [L|L]; [exfalso; apply H, square_zero, L|exact L]. }
  split.
  - intros (E1 & E2). exists (vdot (vcross x w) (vcross t w) / D), (vdot x (vcross (vcross t w) t) / D). split; [apply Rdiv_lt_0_compat; assumption|].
    assert (I : x *v D = t *v vdot (vcross x w) (vcross t w) +v w *v vdot x (vcross (vcross t w) t) +v vcross t w *v vdot x (vcross t w)).
    { unfold D, vdot, vcross. apply V3_ext; simpl; ring. }
    rewrite E1 in I. replace x with (x *v D *v / D) at 1 by (apply V3_ext; simpl; field; lra). rewrite I. apply V3_ext; simpl; field; lra.
  - intros (a & b & Hb & ->). split; [unfold vdot, vcross; simpl; ring|].
    replace (vdot (t *v a +v w *v b) (vcross (vcross t w) t)) with (D * b) by (unfold D, vdot, vcross; simpl; ring).
    apply Rmult_lt_0_compat; assumption.
Qed.
Theorem C74_rows : forall c vs d res step eval curve deriv inner, domainFrames c vs = Some d -> inside vs c -> (1 <= res)%nat ->
  (forall i s w uv, (i < length vs)%nat -> 0 <= s <= 1 -> inwards d i = Some w -> edgePoint d i s = Some uv ->
    exists p q, eval uv = Some p /\ eval (uv +p w *p step) = Some q /\ vcross (deriv i s) (inner i s -v curve i s) <> vzero /\ vcross (deriv i s) (q -v p) <> vzero) ->
  exists e, tangentialError d res step eval deriv (rowNormal curve deriv inner) = Some e /\ 0 <= e <= PI /\
    (e = 0 <-> forall i j w uv p q, (i < length vs)%nat -> (j <= res)%nat -> let s := INR j / INR res in
       inwards d i = Some w -> edgePoint d i s = Some uv -> eval uv = Some p -> eval (uv +p w *p step) = Some q ->
       exists a b, 0 < b /\ q -v p = deriv i s *v a +v (inner i s -v curve i s) *v b).
Proof.
  intros c vs d res step eval curve dv inner Hd Hin Hr He.
  assert (Ej : forall j, (j <= res)%nat -> 0 <= INR j / INR res <= 1).
  { intros j Hj. assert (0 < INR res) by (apply lt_0_INR; lia). pose proof (pos_INR j). assert (INR j <= INR res) by (apply le_INR; exact Hj). split.
    - unfold Rdiv. apply Rmult_le_pos; [lra|]. left. apply Rinv_0_lt_compat. lra.
    - apply (Rmult_le_reg_r (INR res)); [lra|]. unfold Rdiv. rewrite Rmult_assoc, Rinv_l by lra. lra. }
  assert (RN : forall i s, vcross (dv i s) (inner i s -v curve i s) <> vzero ->
    exists l, 0 < l /\ rowNormal curve dv inner i s = Some (vcross (dv i s) (inner i s -v curve i s) *v / l) /\
      l * l = vdot (vcross (dv i s) (inner i s -v curve i s)) (vcross (dv i s) (inner i s -v curve i s))).
  { intros i s H. set (m := vcross (dv i s) (inner i s -v curve i s)) in *. exists (vnorm m).
    assert (DP : 0 < vdot m m). { destruct (Rle_lt_dec (vdot m m) 0) as [L|L]; [exfalso; apply H, square_zero, L|exact L]. }
    assert (0 < vnorm m) by (unfold vnorm; apply sqrt_lt_R0, DP). split; [assumption|]. split; [|unfold vnorm; apply sqrt_sqrt; lra].
    unfold rowNormal. fold m. unfold vnormalize. apply vdiv_some. lra. }
  destruct (C74_tangential c vs d res step eval dv (rowNormal curve dv inner) Hd Hin Hr) as (e & E & B & Z).
  - intros i s w uv Hi Hs Ew Eu. destruct (He i s w uv Hi Hs Ew Eu) as (p & q & Ep & Eq & N1 & N2). destruct (RN i s N1) as (l & Hl & En & L2).
    exists p, q. eexists. split; [exact Ep|]. split; [exact Eq|]. split; [exact En|]. set (m := vcross (dv i s) (inner i s -v curve i s)) in *. split; [|split; [|exact N2]].
    + replace (vdot (m *v / l) (m *v / l)) with (vdot m m / (l * l)) by (unfold vdot; simpl; field; lra). rewrite <- L2. field. lra.
    + replace (vdot (dv i s) (m *v / l)) with (vdot (dv i s) m / l) by (unfold vdot; simpl; field; lra).
      replace (vdot (dv i s) m) with 0 by (unfold m, vdot, vcross; simpl; ring). field. lra.
  - exists e. split; [exact E|]. split; [exact B|]. rewrite Z. clear Z E B.
    assert (K : forall i s x l, 0 < l -> vcross (dv i s) (inner i s -v curve i s) <> vzero ->
      let nr := vcross (dv i s) (inner i s -v curve i s) *v / l in
      vdot x nr = 0 /\ 0 < vdot x (vcross nr (dv i s)) <-> exists a b, 0 < b /\ x = dv i s *v a +v (inner i s -v curve i s) *v b).
    { intros i s x l Hl N nr. rewrite <- (half_plane _ _ x N). unfold nr. set (m := vcross (dv i s) (inner i s -v curve i s)).
      replace (vdot x (m *v / l)) with (vdot x m * / l) by (unfold vdot; simpl; ring).
      replace (vdot x (vcross (m *v / l) (dv i s))) with (vdot x (vcross m (dv i s)) * / l) by (unfold vdot, vcross; simpl; ring).
      assert (0 < / l) by (apply Rinv_0_lt_compat; exact Hl). split; intros (A1 & A2).
      - split; [|nra]. destruct (Rmult_integral _ _ A1); [assumption|lra].
      - rewrite A1. split; [ring|nra]. }
    split.
    + intros H i j w uv p q Hi Hj s Ew Eu Ep Eq. destruct (He i s w uv Hi (Ej j Hj) Ew Eu) as (p' & q' & _ & _ & N1 & _).
      destruct (RN i s N1) as (l & Hl & En & _). apply (K i s _ l Hl N1). exact (H i j w uv p q _ Hi Hj Ew Eu Ep Eq En).
    + intros H i j w uv p q nr Hi Hj s Ew Eu Ep Eq En. destruct (He i s w uv Hi (Ej j Hj) Ew Eu) as (p' & q' & _ & _ & N1 & _).
      destruct (RN i s N1) as (l & Hl & En' & _). fold s in En. rewrite En' in En. injection En as <-. apply (K i s _ l Hl N1). exact (H i j w uv p q Hi Hj Ew Eu Ep Eq).
Qed.
Print Assumptions C74_rows.

(** The deviation from a mesh is the distance to the plane of the closest triangle, and not to
    the triangle. *)
Theorem C74_deviation : forall a b c p, vcross (b -v a) (c -v a) <> vzero -> exists e, planeDeviation a b c p = Some e /\
  (exists s t, e = vnorm (p -v (a +v (b -v a) *v s +v (c -v a) *v t))) /\ forall s t, e <= vnorm (p -v (a +v (b -v a) *v s +v (c -v a) *v t)).
Proof.
  intros a b c p H. unfold planeDeviation. set (n := vcross (b -v a) (c -v a)) in *.
  assert (Nn : 0 < vdot n n).
  { destruct (Rle_lt_dec (vdot n n) 0) as [L|L]; [exfalso|exact L]. apply H, square_zero, L. }
  assert (Nl : 0 < vnorm n) by (unfold vnorm; apply sqrt_lt_R0; exact Nn). assert (N2 : vnorm n * vnorm n = vdot n n) by (unfold vnorm; apply sqrt_sqrt; lra).
  unfold vnormalize. rewrite vdiv_some by lra. cbn [bind]. eexists. split; [reflexivity|]. set (l := vnorm n) in *. set (k := vdot (a -v p) (n *v / l)).
  assert (V : forall x, vdot x x >= 0) by (intros x; unfold vdot; nra).
  assert (E : vnorm (p -v (p +v n *v / l *v k)) = Rabs k).
  { unfold vnorm. rewrite <- sqrt_Rsqr_abs. f_equal. unfold Rsqr. replace (vdot (p -v (p +v n *v / l *v k)) (p -v (p +v n *v / l *v k))) with (vdot n n / (l * l) * (k * k)) by (unfold vdot; simpl; field; lra).
    rewrite <- N2. field. lra. }
  split.
  - set (u := b -v a) in *. set (w := c -v a) in *. set (x := p -v a). set (D := vdot n n) in *.
    exists (vdot (vcross x w) n / D), (vdot (vcross u x) n / D). f_equal.
    assert (K : k = - vdot x n / l) by (unfold k, x, vdot; simpl; field; lra).
    assert (I : x *v D = u *v vdot (vcross x w) n +v w *v vdot (vcross u x) n +v n *v vdot x n).
    { unfold D, n, vdot, vcross. apply V3_ext; simpl; ring. }
    assert (X : x = u *v (vdot (vcross x w) n / D) +v w *v (vdot (vcross u x) n / D) +v n *v (vdot x n / D)).
    { replace x with (x *v D *v / D) at 1 by (apply V3_ext; simpl; field; lra). rewrite I. apply V3_ext; simpl; field; lra. }
    replace (p -v (a +v u *v (vdot (vcross x w) n / D) +v w *v (vdot (vcross u x) n / D))) with (x -v u *v (vdot (vcross x w) n / D) -v w *v (vdot (vcross u x) n / D)) by (unfold x; v3ring).
    assert (Y : x -v u *v (vdot (vcross x w) n / D) -v w *v (vdot (vcross u x) n / D) = n *v (vdot x n / D)).
    { set (s0 := vdot (vcross x w) n / D) in *. set (t0 := vdot (vcross u x) n / D) in *. set (r0 := vdot x n / D) in *. clearbody s0 t0 r0. rewrite X. v3ring. }
    rewrite Y, K. rewrite <- N2. apply V3_ext; simpl; field; lra.
  - intros s t. rewrite E. set (q := a +v (b -v a) *v s +v (c -v a) *v t).
    assert (K : k = - vdot (p -v q) n / l).
    { assert (Z : vdot (p -v q) n = vdot (p -v a) n) by (unfold q, n, vdot, vcross; simpl; ring). rewrite Z. unfold k, vdot. simpl. field. lra. }
    rewrite K. set (x := p -v q). clearbody x. unfold vnorm. rewrite <- sqrt_Rsqr_abs. apply sqrt_le_1_alt. unfold Rsqr.
    replace (- vdot x n / l * (- vdot x n / l)) with (vdot x n * vdot x n / (l * l)) by (field; lra). rewrite N2.
    assert (CS : vdot x n * vdot x n <= vdot x x * vdot n n).
    { clearbody n. unfold vdot. destruct x as [x1 x2 x3], n as [p1 q1 r1]; simpl. pose proof (pow2_ge_0 (x1 * q1 - x2 * p1)). pose proof (pow2_ge_0 (x2 * r1 - x3 * q1)). pose proof (pow2_ge_0 (x3 * p1 - x1 * r1)). nra. }
    apply (Rmult_le_reg_r (vdot n n)); [exact Nn|]. unfold Rdiv. rewrite Rmult_assoc, Rinv_l by lra. lra.
Qed.
Print Assumptions C74_deviation.

(** So points of the plane have no deviation, however far from the triangle they are. *)
Theorem C74_under_reports : forall a b c s t, vcross (b -v a) (c -v a) <> vzero -> planeDeviation a b c (a +v (b -v a) *v s +v (c -v a) *v t) = Some 0.
Proof.
  intros a b c s t H. set (p := a +v (b -v a) *v s +v (c -v a) *v t). destruct (C74_deviation a b c p H) as (e & E & (s0 & t0 & E1) & B). rewrite E. f_equal.
  specialize (B s t). fold p in B. replace (p -v p) with vzero in B by v3ring. assert (Z : vnorm vzero = 0) by (unfold vnorm; replace (vdot vzero vzero) with 0 by (unfold vdot; simpl; ring); apply sqrt_0).
  rewrite Z in B. apply Rle_antisym; [exact B|]. rewrite E1. apply sqrt_pos.
Qed.
Print Assumptions C74_under_reports.

Example C74_example_deviation : planeDeviation (mkV3 0 0 0) (mkV3 1 0 0) (mkV3 0 1 0) (mkV3 100 0 0) = Some 0.
Proof.
  replace (mkV3 100 0 0) with (mkV3 0 0 0 +v (mkV3 1 0 0 -v mkV3 0 0 0) *v 100 +v (mkV3 0 1 0 -v mkV3 0 0 0) *v 0) by (apply V3_ext; simpl; ring).
  apply C74_under_reports. intros Z. apply (f_equal vz) in Z. simpl in Z. lra.
Qed.

(** A flat patch over the unit square, [h] above its boundary curves, has positional error
    [|h|] and tangential error 0. *)
Example C74_example_flat : forall h, let vs := [mkV2 0 0; mkV2 1 0; mkV2 1 1; mkV2 0 1] in let c := mkV2 (1/2) (1/2) in
  exists d, domainFrames c vs = Some d /\
    let lift := fun z uv => Some (mkV3 (px uv) (py uv) z) in
    positionalError d 40 (lift h) (fun i s => mkV3 (px (sidePt vs i s)) (py (sidePt vs i s)) 0) = Some (Rabs h) /\
    tangentialError d 40 (/10000) (lift h) (fun i _ => let e := vtx vs i -p vtx vs (prv (length vs) i) in mkV3 (px e) (py e) 0) (fun _ _ => Some (mkV3 0 0 1)) = Some 0.
Proof.
  intros h vs c. eexists. split; [apply frames_closed|]. set (d := mkDom _ _ _ _ _) in *. assert (Hd : domainFrames c vs = Some d) by apply frames_closed. clearbody d.
  assert (In4 : inside vs c) by (intros [|[|[|[|k]]]] Hk; unfold sarea, pcross; simpl in *; try lia; lra).
  assert (A40 : (1 <= 40)%nat) by lia.
  intros lift. split.
  - destruct (C74_positional c vs d 40 (lift h) (fun i s => mkV3 (px (sidePt vs i s)) (py (sidePt vs i s)) 0) Hd A40) as (e & E & H0 & B); [intros; eexists; reflexivity|]. rewrite E. f_equal.
    assert (V : forall i s uv p, (i < length vs)%nat -> edgePoint d i s = Some uv -> lift h uv = Some p -> vnorm (p -v mkV3 (px (sidePt vs i s)) (py (sidePt vs i s)) 0) = Rabs h).
    { intros i s uv p Hi Eu Ep. rewrite (edge_total c vs d i s Hd Hi) in Eu. injection Eu as <-. injection Ep as <-. unfold vnorm. rewrite <- sqrt_Rsqr_abs. f_equal. unfold vdot, Rsqr. simpl. ring. }
    apply Rle_antisym.
    + apply B. split; [apply Rabs_pos|]. intros i j uv p Hi Hj Eu Ep. rewrite (V i _ uv p Hi Eu Ep). lra.
    + destruct (proj1 (B e) (Rle_refl e)) as (_ & S0). assert (Hi : (0 < length vs)%nat) by (simpl; lia). pose proof (edge_total c vs d 0 (INR 0 / INR 40) Hd Hi) as Eu.
      pose proof (S0 0%nat 0%nat _ _ Hi ltac:(lia) Eu eq_refl) as S1. rewrite (V 0%nat _ _ _ Hi Eu eq_refl) in S1. exact S1.
  - set (dv := fun (i : nat) (_ : R) => _). destruct (C74_tangential c vs d 40 (/10000) (lift h) dv (fun _ _ => Some (mkV3 0 0 1)) Hd In4 A40) as (e & E & _ & Z).
    + intros i s w uv Hi Hs Ew Eu. destruct (C74_inwards c vs d i Hd In4 Hi) as (w' & Ew' & W1 & W2 & W3). rewrite Ew in Ew'. injection Ew' as <-.
      exists (mkV3 (px uv) (py uv) h), (mkV3 (px (uv +p w *p /10000)) (py (uv +p w *p /10000)) h), (mkV3 0 0 1). repeat split; try (unfold vdot; simpl; ring).
      intros Zc. apply (f_equal vz) in Zc. rewrite (edge_total c vs d i s Hd Hi) in Eu. injection Eu as <-. specialize (W3 s (/10000) ltac:(lra)). 
      unfold sarea, pcross, sidePt in W3. unfold dv, vcross, sidePt in Zc. set (b := vtx vs i) in *. set (a := vtx vs (prv (length vs) i)) in *. clearbody a b. simpl in W3, Zc.
      match type of W3 with 0 < ?x => match type of Zc with ?y = _ => replace x with y in W3 by ring; rewrite Zc in W3; lra end end.
    + rewrite E. f_equal. apply Z. intros i j w uv p q nr Hi Hj s Ew Eu Ep Eq En. destruct (C74_inwards c vs d i Hd In4 Hi) as (w' & Ew' & W1 & W2 & W3). rewrite Ew in Ew'. injection Ew' as <-.
      injection Ep as <-. injection Eq as <-. injection En as <-. split; [unfold vdot; simpl; ring|]. rewrite (edge_total c vs d i s Hd Hi) in Eu. injection Eu as <-.
      specialize (W3 s (/10000) ltac:(lra)). unfold sarea, pcross, sidePt in W3. unfold dv, vdot, vcross, sidePt. clear Z E. set (b := vtx vs i) in *. set (a := vtx vs (prv (length vs) i)) in *. clearbody a b. simpl in W3 |- *.
      match type of W3 with 0 < ?x => match goal with |- 0 < ?y => replace y with x by ring; exact W3 end end.
Qed.
