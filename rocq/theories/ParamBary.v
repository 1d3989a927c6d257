(** Barycentric coordinates. *)

From Verif Require Import Base MeshModel GeomSpec DomainModel UtilModel ParamModel.
From Verif Require Import DomainProofs DomainPolygons UtilProofs.
Open Scope R_scope.

Section Bary.
Variables (vs : list V2) (uv : V2).
Let n := length vs.

Definition svec (i : nat) : V2 := uv -p vtx vs i.
(** Signed area of the triangle of vertices [j], [j+1] and the point. *)
Definition tri (j : nat) : R := sarea (vtx vs j) (vtx vs (nxt n j)) uv / 2.
Definition bcr (i : nat) : R := pcross (svec (prv n i)) (svec (nxt n i)) / 2.

Definition prodAll : R := rprod n tri.
Definition prodBut (k : nat) : R := rprod n (fun j => if (j =? k)%nat then 1 else tri j).
Definition prodBut2 (k l : nat) : R :=
  rprod n (fun j => if (j =? k)%nat then 1 else if (j =? l)%nat then 1 else tri j).

Definition wfun (t : btype) (i : nat) : R :=
  baryRadius t (svec (prv n i)) * prodBut (prv n i) + baryRadius t (svec (nxt n i)) * prodBut i
  - baryRadius t (svec i) * bcr i * prodBut2 i (prv n i).

Lemma vectors_length : length (map (fun p => uv -p p) vs) = n.
Proof. apply map_length. Qed.

Lemma vectors_nth : forall i, (i < n)%nat -> nth_error (map (fun p => uv -p p) vs) i = Some (svec i).
Proof.
  intros i H. rewrite nth_error_map. unfold svec, vtx. rewrite (nth_error_nth' vs pzero H). reflexivity.
Qed.

Lemma tri_cross : forall j, (px (svec j) * py (svec (nxt n j)) - py (svec j) * px (svec (nxt n j))) / 2 = tri j.
Proof. intros j; unfold tri, sarea, pcross, svec; simpl; field. Qed.

Lemma areas_closed : baryAreas (map (fun p => uv -p p) vs) = Some (tabulate n tri).
Proof.
  unfold baryAreas. rewrite vectors_length. apply mapM_seq. intros i Hi.
  rewrite !vectors_nth by (try apply nxt_lt; lia). cbn [bind]. f_equal. apply tri_cross.
Qed.

Lemma products_closed : forall i, (2 <= n)%nat -> (i < n)%nat ->
  baryProducts n i (tabulate n tri) = Some (prodBut i, prodBut (prv n i), prodBut2 i (prv n i)).
Proof.
  intros i Hn Hi. unfold baryProducts, prodBut, prodBut2.
  pose proof (prv_neq n i Hn Hi) as Hp. revert Hp. generalize (prv n i); intros k Hp.
  match goal with |- foldM ?F _ _ = _ => set (f := F) end.
  assert (G : forall m, (m <= n)%nat -> foldM f (1, 1, 1) (seq 0 m) =
    Some (rprod m (fun j => if (j =? i)%nat then 1 else tri j),
          rprod m (fun j => if (j =? k)%nat then 1 else tri j),
          rprod m (fun j => if (j =? i)%nat then 1 else if (j =? k)%nat then 1 else tri j))).
  { induction m as [|m IH]; intros Hm; [reflexivity|].
    rewrite seq_S, foldM_app, IH by lia. cbn [bind foldM Nat.add].
    unfold f at 1. rewrite tabulate_nth_error by lia. cbn [bind].
    cbn [rprod].
    destruct (Nat.eqb_spec m i) as [E|E]; destruct (Nat.eqb_spec m k) as [E'|E']; try lia; cbn [bind];
      (apply f_equal; apply (f_equal2 pair); [apply (f_equal2 pair)|]; ring). }
  apply G; lia.
Qed.

Lemma weight_closed : forall t eps i, (2 <= n)%nat -> (i < n)%nat -> eps <= baryRadius t (svec i) ->
  baryWeight t eps (map (fun p => uv -p p) vs) (tabulate n tri) i = Some (inl (wfun t i)).
Proof.
  intros t eps i Hn Hi Hr. unfold baryWeight. rewrite vectors_length, products_closed by assumption. cbn [bind].
  rewrite !vectors_nth by (try apply nxt_lt; try apply prv_lt; lia). cbn [bind].
  destruct (Rlt_dec (baryRadius t (svec i)) eps) as [L|L]; [lra|]. reflexivity.
Qed.

Lemma weight_break : forall t eps i, (2 <= n)%nat -> (i < n)%nat -> baryRadius t (svec i) < eps ->
  baryWeight t eps (map (fun p => uv -p p) vs) (tabulate n tri) i = Some (inr tt).
Proof.
  intros t eps i Hn Hi Hr. unfold baryWeight. rewrite vectors_length, products_closed by assumption. cbn [bind].
  rewrite !vectors_nth by (try apply nxt_lt; try apply prv_lt; lia). cbn [bind].
  destruct (Rlt_dec (baryRadius t (svec i)) eps) as [L|L]; [reflexivity|lra].
Qed.

Lemma loop_closed : forall t eps vec ar w is l, (forall i, In i is -> baryWeight t eps vec ar i = Some (inl (w i))) ->
  baryLoop t eps vec ar l is = Some (l ++ map w is).
Proof.
  intros t eps vec ar w is; induction is as [|i is IH]; intros l H; cbn [baryLoop map].
  - rewrite app_nil_r; reflexivity.
  - rewrite H by (left; reflexivity). cbn [bind]. rewrite IH by (intros; apply H; right; assumption).
    rewrite <- app_assoc; reflexivity.
Qed.

Variable d : dom.
Hypothesis Hd : d_verts d = vs.
Hypothesis Hn : (2 <= n)%nat.

Lemma bary_closed : forall t eps, (forall i, (i < n)%nat -> eps <= baryRadius t (svec i)) ->
  barycentric t eps d uv =
    if Req_EM_T (rsum n (wfun t)) 0 then None else Some (tabulate n (fun i => wfun t i / rsum n (wfun t))).
Proof.
  intros t eps Hr. unfold barycentric. rewrite Hd, areas_closed. cbn [bind]. rewrite vectors_length.
  rewrite (loop_closed t eps _ _ (wfun t)).
  2:{ intros i I. apply in_seq in I. apply weight_closed; [exact Hn|lia|apply Hr; lia]. }
  cbn [bind app]. change (map (wfun t) (seq 0 n)) with (tabulate n (wfun t)).
  assert (A : accumulate (tabulate n (wfun t)) = rsum n (wfun t)).
  { rewrite accumulate_rsum, tabulate_length. apply rsum_ext; intros j Hj.
    apply nth_error_nth. apply tabulate_nth_error; exact Hj. }
  rewrite A. destruct (Req_EM_T (rsum n (wfun t)) 0) as [E|E].
  - destruct n as [|m] eqn:En; [lia|]. unfold tabulate. cbn [seq map mapM]. rewrite E, fdiv_zero. reflexivity.
  - rewrite (mapM_total _ (fun x => x / rsum n (wfun t))).
    + unfold tabulate. rewrite map_map. reflexivity.
    + intros x _. apply fdiv_some; exact E.
Qed.

(** ** Products *)
Lemma prodBut_all : forall k, (k < n)%nat -> prodAll = tri k * prodBut k.
Proof. intros k Hk. unfold prodAll, prodBut. rewrite (rprod_split1 n tri k Hk). reflexivity. Qed.

Lemma prodBut2_but : forall k l, (k < n)%nat -> (l < n)%nat -> k <> l -> prodBut k = tri l * prodBut2 k l.
Proof.
  intros k l Hk Hl Hne. unfold prodBut, prodBut2.
  rewrite (rprod_split1 n (fun j => if (j =? k)%nat then 1 else tri j) l Hl).
  destruct (Nat.eqb_spec l k); [lia|]. f_equal. apply rprod_ext; intros j Hj.
  destruct (Nat.eqb_spec j l); destruct (Nat.eqb_spec j k); reflexivity.
Qed.

Lemma prodBut2_sym : forall k l, prodBut2 k l = prodBut2 l k.
Proof.
  intros k l; unfold prodBut2; apply rprod_ext; intros j Hj.
  destruct (Nat.eqb_spec j l); destruct (Nat.eqb_spec j k); reflexivity.
Qed.

(** The area of the corner triangle at vertex [i]. *)
Definition corner (i : nat) : R := sarea (vtx vs (prv n i)) (vtx vs i) (vtx vs (nxt n i)) / 2.

Lemma corner_eq : forall i, (i < n)%nat -> corner i = tri (prv n i) + tri i - bcr i.
Proof.
  intros i Hi. unfold corner, tri, bcr. rewrite nxt_prv by exact Hi.
  unfold sarea, pcross, svec; simpl; field.
Qed.

(** The Wachspress weight without divisions. *)
Lemma wachspress_weight : forall i, (i < n)%nat -> wfun Wachspress i = corner i * prodBut2 i (prv n i).
Proof.
  intros i Hi. unfold wfun; cbn [baryRadius]. rewrite corner_eq by exact Hi.
  rewrite (prodBut2_but i (prv n i)) by (try apply prv_lt; try (intros E; symmetry in E; revert E; apply prv_neq); lia).
  rewrite (prodBut2_but (prv n i) i) by (try apply prv_lt; try apply prv_neq; lia).
  rewrite (prodBut2_sym (prv n i) i). ring.
Qed.

(** ** Linear precision *)
Lemma cross_relation : forall i, (i < n)%nat ->
  svec i *p bcr i = svec (prv n i) *p tri i +p svec (nxt n i) *p tri (prv n i).
Proof.
  intros i Hi. unfold tri, bcr. rewrite nxt_prv by exact Hi.
  apply V2_ext; unfold sarea, pcross, svec; simpl; field.
Qed.

Lemma psum_nxt : forall m f, psum m (fun i => f (nxt m i)) = psum m f.
Proof.
  intros m f; apply V2_ext; rewrite ?psum_x, ?psum_y;
    [apply (rsum_nxt m (fun i => px (f i)))|apply (rsum_nxt m (fun i => py (f i)))].
Qed.

Lemma weighted_zero : forall t, (forall j, (j < n)%nat -> tri j <> 0) ->
  psum n (fun i => svec i *p wfun t i) = pzero.
Proof.
  intros t Hnz. set (r := fun i => baryRadius t (svec i)).
  assert (P : forall k, (k < n)%nat -> prodBut k = prodAll / tri k).
  { intros k Hk. rewrite (prodBut_all k Hk). field. apply Hnz; exact Hk. }
  assert (P2 : forall i, (i < n)%nat -> prodBut2 i (prv n i) = prodAll / (tri i * tri (prv n i))).
  { intros i Hi. rewrite (prodBut_all i Hi).
    rewrite (prodBut2_but i (prv n i)) by (try apply prv_lt; try (intros E; symmetry in E; revert E; apply prv_neq); lia).
    field. split; apply Hnz; try apply prv_lt; lia. }
  assert (T : forall i, (i < n)%nat -> svec i *p wfun t i =
    ((svec i *p (r (prv n i) / tri (prv n i)) -p svec (nxt n i) *p (r i / tri i))
     +p (svec i *p (r (nxt n i) / tri i) -p svec (prv n i) *p (r i / tri (prv n i)))) *p prodAll).
  { intros i Hi. unfold wfun. rewrite (P (prv n i)), (P i), (P2 i) by (try apply prv_lt; lia).
    fold (r i) (r (prv n i)) (r (nxt n i)).
    pose proof (cross_relation i Hi) as C.
    assert (Ni : tri i <> 0) by (apply Hnz; exact Hi).
    assert (Np : tri (prv n i) <> 0) by (apply Hnz; apply prv_lt; lia).
    assert (Cx := f_equal px C). assert (Cy := f_equal py C). cbn [padd psub pscale px py] in Cx, Cy.
    apply V2_ext; cbn [padd psub pscale px py].
    - replace (px (svec i) * (r (prv n i) * (prodAll / tri (prv n i)) + r (nxt n i) * (prodAll / tri i)
        - r i * bcr i * (prodAll / (tri i * tri (prv n i)))))
        with (px (svec i) * (r (prv n i) / tri (prv n i)) * prodAll + px (svec i) * (r (nxt n i) / tri i) * prodAll
        - (px (svec i) * bcr i) * r i * (prodAll / (tri i * tri (prv n i)))) by (field; auto).
      rewrite Cx. field; auto.
    - replace (py (svec i) * (r (prv n i) * (prodAll / tri (prv n i)) + r (nxt n i) * (prodAll / tri i)
        - r i * bcr i * (prodAll / (tri i * tri (prv n i)))))
        with (py (svec i) * (r (prv n i) / tri (prv n i)) * prodAll + py (svec i) * (r (nxt n i) / tri i) * prodAll
        - (py (svec i) * bcr i) * r i * (prodAll / (tri i * tri (prv n i)))) by (field; auto).
      rewrite Cy. field; auto. }
  rewrite (psum_ext _ _ _ T).
  (* both differences telescope around the polygon *)
  assert (S1 : psum n (fun i => svec i *p (r (prv n i) / tri (prv n i)))
             = psum n (fun i => svec (nxt n i) *p (r i / tri i))).
  { rewrite <- (psum_nxt n (fun i => svec i *p (r (prv n i) / tri (prv n i)))).
    apply psum_ext; intros i Hi. rewrite prv_nxt by exact Hi. reflexivity. }
  assert (S2 : psum n (fun i => svec (prv n i) *p (r i / tri (prv n i)))
             = psum n (fun i => svec i *p (r (nxt n i) / tri i))).
  { rewrite <- (psum_nxt n (fun i => svec (prv n i) *p (r i / tri (prv n i)))).
    apply psum_ext; intros i Hi. rewrite prv_nxt by exact Hi. reflexivity. }
  assert (S1x := f_equal px S1). assert (S1y := f_equal py S1).
  assert (S2x := f_equal px S2). assert (S2y := f_equal py S2).
  rewrite !psum_x in S1x, S2x. rewrite !psum_y in S1y, S2y. cbn [padd psub pscale px py] in S1x, S1y, S2x, S2y.
  apply V2_ext; rewrite ?psum_x, ?psum_y; cbn [padd psub pscale px py pzero].
  - rewrite (rsum_scal_r n prodAll (fun i => px (svec i) * (r (prv n i) / tri (prv n i)) - px (svec (nxt n i)) * (r i / tri i)
      + (px (svec i) * (r (nxt n i) / tri i) - px (svec (prv n i)) * (r i / tri (prv n i))))).
    rewrite (rsum_plus n (fun i => px (svec i) * (r (prv n i) / tri (prv n i)) - px (svec (nxt n i)) * (r i / tri i))),
      !rsum_minus. rewrite S1x, S2x. ring.
  - rewrite (rsum_scal_r n prodAll (fun i => py (svec i) * (r (prv n i) / tri (prv n i)) - py (svec (nxt n i)) * (r i / tri i)
      + (py (svec i) * (r (nxt n i) / tri i) - py (svec (prv n i)) * (r i / tri (prv n i))))).
    rewrite (rsum_plus n (fun i => py (svec i) * (r (prv n i) / tri (prv n i)) - py (svec (nxt n i)) * (r i / tri i))),
      !rsum_minus. rewrite S1y, S2y. ring.
Qed.

Lemma linear_precision : forall t, (forall j, (j < n)%nat -> tri j <> 0) -> rsum n (wfun t) <> 0 ->
  psum n (fun i => vtx vs i *p (wfun t i / rsum n (wfun t))) = uv.
Proof.
  intros t Hnz Hs. pose proof (weighted_zero t Hnz) as W.
  assert (Wx := f_equal px W). assert (Wy := f_equal py W). rewrite psum_x in Wx. rewrite psum_y in Wy.
  simpl in Wx, Wy. set (S := rsum n (wfun t)) in *.
  apply V2_ext; rewrite ?psum_x, ?psum_y; simpl.
  - rewrite (rsum_ext _ _ (fun i => / S * (px uv * wfun t i - (px uv - px (vtx vs i)) * wfun t i))).
    + rewrite rsum_scal, rsum_minus, rsum_scal, Wx. fold S. field; exact Hs.
    + intros i Hi. field; exact Hs.
  - rewrite (rsum_ext _ _ (fun i => / S * (py uv * wfun t i - (py uv - py (vtx vs i)) * wfun t i))).
    + rewrite rsum_scal, rsum_minus, rsum_scal, Wy. fold S. field; exact Hs.
    + intros i Hi. field; exact Hs.
Qed.

(** ** Positivity inside *)
Lemma corner_pos : strictly_convex vs -> (3 <= n)%nat -> forall i, (i < n)%nat -> 0 < corner i.
Proof.
  intros C H3 i Hi. unfold corner. apply Rdiv_lt_0_compat; [|lra].
  apply C; [exact Hi|apply nxt_lt; lia|apply nxt_neq; lia|apply nxt_prv_neq; lia].
Qed.

Lemma tri_pos : inside vs uv -> forall j, (j < n)%nat -> 0 < tri j.
Proof.
  intros I j Hj. unfold tri. apply Rdiv_lt_0_compat; [|lra].
  specialize (I (nxt n j)). fold n in I. rewrite prv_nxt in I by exact Hj. apply I. apply nxt_lt; lia.
Qed.

Lemma prodBut2_pos : (forall j, (j < n)%nat -> 0 < tri j) -> forall k l, 0 < prodBut2 k l.
Proof.
  intros H k l. apply rprod_pos; intros j Hj. destruct (j =? k)%nat; [lra|]. destruct (j =? l)%nat; [lra|]. apply H; exact Hj.
Qed.

Lemma wachspress_pos : strictly_convex vs -> (3 <= n)%nat -> inside vs uv ->
  forall i, (i < n)%nat -> 0 < wfun Wachspress i.
Proof.
  intros C H3 I i Hi. rewrite wachspress_weight by exact Hi.
  apply Rmult_lt_0_compat; [apply corner_pos; assumption|apply prodBut2_pos, tri_pos; exact I].
Qed.

Lemma pnorm_pos : forall v, v <> pzero -> 0 < pnorm v.
Proof. intros v H. destruct (pnorm_nonneg v) as [L|E]; [exact L|]. exfalso; apply H, pnorm_zero; symmetry; exact E. Qed.

(** Strict Cauchy-Schwarz for non-parallel vectors. *)
Lemma cauchy_strict : forall a b, pcross a b <> 0 -> pdot a b < pnorm a * pnorm b.
Proof.
  intros a b H.
  assert (E : pdot a b * pdot a b + pcross a b * pcross a b = (pnorm a * pnorm a) * (pnorm b * pnorm b)).
  { rewrite !pnorm_sqr. unfold pdot, pcross; ring. }
  assert (0 < pcross a b * pcross a b).
  { destruct (Rtotal_order (pcross a b) 0) as [L|[L|L]]; [|contradiction|]; nra. }
  pose proof (pnorm_nonneg a). pose proof (pnorm_nonneg b).
  assert (0 <= pnorm a * pnorm b) by (apply Rmult_le_pos; assumption). nra.
Qed.

Lemma mean_value_pos : inside vs uv -> forall i, (i < n)%nat -> 0 < wfun MeanValue i.
Proof.
  intros I i Hi. pose proof (tri_pos I) as T.
  assert (Hp : (prv n i < n)%nat) by (apply prv_lt; lia).
  assert (Ti := T i Hi). assert (Tp := T _ Hp).
  unfold wfun; cbn [baryRadius].
  rewrite (prodBut2_but i (prv n i)) by (try exact Hp; try exact Hi; intros E; symmetry in E; revert E; apply prv_neq; lia).
  rewrite (prodBut2_but (prv n i) i) by (try exact Hp; try exact Hi; apply prv_neq; lia).
  rewrite (prodBut2_sym (prv n i) i).
  pose proof (prodBut2_pos T i (prv n i)) as Q. set (q := prodBut2 i (prv n i)) in *.
  set (s0 := svec (prv n i)) in *. set (s := svec i) in *. set (s1 := svec (nxt n i)) in *.
  assert (C1 : pcross s0 s / 2 = tri (prv n i)).
  { rewrite <- tri_cross. rewrite nxt_prv by exact Hi. unfold s0, s, pcross. reflexivity. }
  assert (C2 : pcross s s1 / 2 = tri i).
  { rewrite <- tri_cross. unfold s, s1, pcross. reflexivity. }
  assert (N : 0 < pnorm s).
  { apply pnorm_pos. intros E. rewrite E in C2. unfold pcross in C2; simpl in C2. lra. }
  assert (K1 := cauchy_strict s0 s ltac:(lra)). assert (K2 := cauchy_strict s s1 ltac:(lra)).
  pose proof (cross_relation i Hi) as R0. fold s0 s s1 in R0.
  assert (R1 : bcr i * (pnorm s * pnorm s) = tri i * pdot s0 s + tri (prv n i) * pdot s s1).
  { rewrite pnorm_sqr. assert (Rx := f_equal px R0). assert (Ry := f_equal py R0). cbn [padd psub pscale px py] in Rx, Ry.
    unfold pdot.
    replace (bcr i * (px s * px s + py s * py s)) with ((px s * bcr i) * px s + (py s * bcr i) * py s) by ring.
    rewrite Rx, Ry. ring. }
  apply (Rmult_lt_reg_r (pnorm s)); [exact N|]. rewrite Rmult_0_l.
  replace ((pnorm s0 * (tri i * q) + pnorm s1 * (tri (prv n i) * q) - pnorm s * bcr i * q) * pnorm s)
    with (q * (tri i * (pnorm s0 * pnorm s - pdot s0 s) + tri (prv n i) * (pnorm s * pnorm s1 - pdot s s1))).
  - apply Rmult_lt_0_compat; [exact Q|]. apply Rplus_lt_0_compat; apply Rmult_lt_0_compat; lra.
  - replace ((pnorm s0 * (tri i * q) + pnorm s1 * (tri (prv n i) * q) - pnorm s * bcr i * q) * pnorm s)
      with (q * (tri i * (pnorm s0 * pnorm s) + tri (prv n i) * (pnorm s * pnorm s1) - bcr i * (pnorm s * pnorm s))) by ring.
    rewrite R1. ring.
Qed.

(** A positive family normalises. *)
Lemma normalized : forall t, (forall i, (i < n)%nat -> 0 < wfun t i) ->
  rsum n (wfun t) <> 0 /\ (forall i, (i < n)%nat -> 0 < wfun t i / rsum n (wfun t)) /\
  rsum n (fun i => wfun t i / rsum n (wfun t)) = 1.
Proof.
  intros t H. assert (P : 0 < rsum n (wfun t)) by (apply rsum_pos; [lia|exact H]).
  split; [lra|]. split.
  - intros i Hi. apply Rdiv_lt_0_compat; [apply H; exact Hi|exact P].
  - rewrite rsum_div. field. lra.
Qed.

End Bary.

(** ** On a side *)
Section Side.
Variables (vs : list V2) (e : nat) (s : R).
Let n := length vs.
Hypothesis C : strictly_convex vs.
Hypothesis H3 : (3 <= n)%nat.
Hypothesis He : (e < n)%nat.
Hypothesis Hs : 0 <= s <= 1.
Definition sidePt : V2 := vtx vs e *p s +p vtx vs (prv n e) *p (1 - s).

Lemma prv_e : (prv n e < n)%nat. Proof. apply prv_lt; lia. Qed.
Lemma prv_ne : prv n e <> e. Proof. apply prv_neq; lia. Qed.

Lemma tri_side : tri vs sidePt (prv n e) = 0.
Proof. unfold tri, sidePt. fold n. rewrite nxt_prv by exact He. unfold sarea, pcross; simpl; field. Qed.

Lemma tri_next : tri vs sidePt e = (1 - s) * corner vs e.
Proof. unfold tri, corner, sidePt. fold n. unfold sarea, pcross; simpl; field. Qed.

Lemma tri_prev : tri vs sidePt (prv n (prv n e)) = s * corner vs (prv n e).
Proof.
  unfold tri, corner, sidePt. fold n. rewrite nxt_prv by (apply prv_e). rewrite nxt_prv by exact He.
  unfold sarea, pcross; simpl; field.
Qed.

Lemma tri_other : forall j, (j < n)%nat -> j <> e -> j <> prv n e -> j <> prv n (prv n e) -> 0 < tri vs sidePt j.
Proof.
  intros j Hj N1 N2 N3. unfold tri. apply Rdiv_lt_0_compat; [|lra].
  assert (A : 0 < sarea (vtx vs j) (vtx vs (nxt n j)) (vtx vs e)).
  { pose proof (C (nxt n j) e) as X. fold n in X. rewrite prv_nxt in X by exact Hj. apply X; try assumption.
    - apply nxt_lt; lia.
    - intros E. apply N2. rewrite E, prv_nxt by exact Hj. reflexivity.
    - intros E; apply N1; symmetry; exact E. }
  assert (B : 0 < sarea (vtx vs j) (vtx vs (nxt n j)) (vtx vs (prv n e))).
  { pose proof (C (nxt n j) (prv n e)) as X. fold n in X. rewrite prv_nxt in X by exact Hj. apply X; try assumption.
    - apply nxt_lt; lia.
    - apply prv_e.
    - intros E. apply N3. rewrite E, prv_nxt by exact Hj. reflexivity.
    - intros E; apply N2; symmetry; exact E. }
  fold n. replace (sarea (vtx vs j) (vtx vs (nxt n j)) sidePt)
    with (s * sarea (vtx vs j) (vtx vs (nxt n j)) (vtx vs e) + (1 - s) * sarea (vtx vs j) (vtx vs (nxt n j)) (vtx vs (prv n e))).
  - destruct (Rle_lt_dec s (1/2)).
    + assert (0 <= s * sarea (vtx vs j) (vtx vs (nxt n j)) (vtx vs e)) by (apply Rmult_le_pos; lra).
      assert (0 < (1 - s) * sarea (vtx vs j) (vtx vs (nxt n j)) (vtx vs (prv n e))) by (apply Rmult_lt_0_compat; lra). lra.
    + assert (0 < s * sarea (vtx vs j) (vtx vs (nxt n j)) (vtx vs e)) by (apply Rmult_lt_0_compat; lra).
      assert (0 <= (1 - s) * sarea (vtx vs j) (vtx vs (nxt n j)) (vtx vs (prv n e))) by (apply Rmult_le_pos; lra). lra.
  - unfold sidePt, sarea, pcross; simpl; ring.
Qed.

(** The product over the sides away from the point. *)
Definition far : R := rprod n (fun j => if (j =? e)%nat then 1 else if (j =? prv n e)%nat then 1
  else if (j =? prv n (prv n e))%nat then 1 else tri vs sidePt j).

Lemma far_pos : 0 < far.
Proof.
  apply rprod_pos; intros j Hj. destruct (Nat.eqb_spec j e); [lra|]. destruct (Nat.eqb_spec j (prv n e)); [lra|].
  destruct (Nat.eqb_spec j (prv n (prv n e))); [lra|]. apply tri_other; assumption.
Qed.

Lemma prv2_ne : prv n (prv n e) <> e /\ prv n (prv n e) <> prv n e.
Proof.
  split; [|apply prv_neq; [lia|apply prv_e]]. intros E. apply (nxt_prv_neq n e H3 He).
  rewrite <- E at 1. rewrite nxt_prv by apply prv_e. reflexivity.
Qed.

Lemma weight_end : wfun vs sidePt Wachspress e = s * (far * corner vs e * corner vs (prv n e)).
Proof.
  rewrite wachspress_weight by (fold n; lia). fold n. unfold prodBut2. fold n.
  rewrite (rprod_split1 n _ (prv n (prv n e))) by (apply prv_lt; lia).
  destruct prv2_ne as [A B].
  destruct (Nat.eqb_spec (prv n (prv n e)) e); [contradiction|].
  destruct (Nat.eqb_spec (prv n (prv n e)) (prv n e)); [contradiction|].
  rewrite tri_prev. unfold far.
  rewrite (rprod_ext n (fun j => if (j =? prv n (prv n e))%nat then 1 else if (j =? e)%nat then 1 else if (j =? prv n e)%nat then 1 else tri vs sidePt j)
    (fun j => if (j =? e)%nat then 1 else if (j =? prv n e)%nat then 1 else if (j =? prv n (prv n e))%nat then 1 else tri vs sidePt j)).
  - ring.
  - intros j Hj. destruct (Nat.eqb_spec j (prv n (prv n e))); destruct (Nat.eqb_spec j e); destruct (Nat.eqb_spec j (prv n e)); reflexivity.
Qed.

Lemma weight_start : wfun vs sidePt Wachspress (prv n e) = (1 - s) * (far * corner vs e * corner vs (prv n e)).
Proof.
  rewrite wachspress_weight by (fold n; try apply prv_e; lia). fold n. unfold prodBut2. fold n.
  rewrite (rprod_split1 n _ e) by exact He.
  destruct prv2_ne as [A B]. pose proof prv_ne as D.
  destruct (Nat.eqb_spec e (prv n e)); [congruence|].
  destruct (Nat.eqb_spec e (prv n (prv n e))); [congruence|].
  rewrite tri_next. unfold far.
  ring.
Qed.

Lemma weight_zero : forall i, (i < n)%nat -> i <> e -> i <> prv n e -> wfun vs sidePt Wachspress i = 0.
Proof.
  intros i Hi N1 N2. rewrite wachspress_weight by (fold n; lia). fold n. unfold prodBut2. fold n.
  rewrite (rprod_zero n _ (prv n e)); [ring|apply prv_e|].
  destruct (Nat.eqb_spec (prv n e) i); [congruence|].
  destruct (Nat.eqb_spec (prv n e) (prv n i)) as [E|E].
  - exfalso; apply N1. apply (prv_inj n); [exact Hi|exact He|symmetry; exact E].
  - apply tri_side.
Qed.

Lemma side_sum : rsum n (wfun vs sidePt Wachspress) = far * corner vs e * corner vs (prv n e).
Proof.
  rewrite (rsum_double n _ e (prv n e)).
  - rewrite weight_end, weight_start. ring.
  - exact He.
  - apply prv_e.
  - intros E; apply prv_ne; symmetry; exact E.
  - intros i Hi A B. apply weight_zero; assumption.
Qed.

Lemma scale_pos : 0 < far * corner vs e * corner vs (prv n e).
Proof.
  apply Rmult_lt_0_compat; [apply Rmult_lt_0_compat; [apply far_pos|]|]; (apply corner_pos; try assumption; fold n; try lia; apply prv_e).
Qed.

Lemma side_linear : forall d eps, d_verts d = vs -> 0 < eps <= 1 ->
  exists l, barycentric Wachspress eps d sidePt = Some l /\ length l = n /\
    nth_error l e = Some s /\ nth_error l (prv n e) = Some (1 - s) /\
    forall i, (i < n)%nat -> i <> e -> i <> prv n e -> nth_error l i = Some 0.
Proof.
  intros d eps Hd Heps. pose proof scale_pos as P.
  rewrite (bary_closed vs sidePt d Hd) by (fold n; try lia; intros; cbn [baryRadius]; lra).
  fold n. rewrite side_sum. destruct (Req_EM_T _ 0) as [E|_]; [lra|].
  eexists; split; [reflexivity|]. split; [apply tabulate_length|].
  repeat split.
  - rewrite tabulate_nth_error by exact He. rewrite weight_end. f_equal. set (K := far * corner vs e * corner vs (prv n e)) in *. field. lra.
  - rewrite tabulate_nth_error by apply prv_e. rewrite weight_start. f_equal. set (K := far * corner vs e * corner vs (prv n e)) in *. field. lra.
  - intros i Hi A B. rewrite tabulate_nth_error by exact Hi. rewrite weight_zero by assumption. f_equal.
    unfold Rdiv; ring.
Qed.

End Side.
