(** Counting the sides from another one: domains and parameterizations. *)
From Verif Require Import Base MeshModel GeomSpec DomainModel UtilModel UtilProofs ParamModel.
From Verif Require Import DomainProofs DomainPolygons ParamBary RibbonModel SurfaceModel GBModel RotSpec RotProofs.
Open Scope R_scope.

Definition rotDom (d : dom) : dom := mkDom (d_n d) (d_center d) (rot (d_verts d)) (rot (d_du d)) (rot (d_dv d)).
Definition full (d : dom) : Prop := length (d_verts d) = d_n d /\ length (d_du d) = d_n d /\ length (d_dv d) = d_n d.

Lemma frames_full : forall c vs d, domainFrames c vs = Some d -> full d.
Proof. intros c vs d H. rewrite frames_closed in H. injection H as <-. unfold full. cbn [d_n d_verts d_du d_dv]. rewrite !tabulate_length. auto. Qed.
Lemma frames_rot : forall c vs, domainFrames c (rot vs) = option_map rotDom (domainFrames c vs).
Proof.
  intros c vs. unfold domainFrames. rewrite rot_length. remember (length vs) as n eqn:E. symmetry in E.
  rewrite (mapM_rot _ n (fun i => vi <- nth_error vs i ;; vp <- nth_error vs (prv n i) ;; let du := vi -p vp in let dv := mkV2 (py du) (- px du) in
    Some (du, if Rlt_dec (pdot (c -p vi) dv) 0 then popp dv else dv))).
  - rewrite bind_map_some, map_bind_out. apply bind_cong. intros fr _. unfold option_map, rotDom. cbn [d_n d_center d_verts d_du d_dv]. rewrite !map_rot. reflexivity.
  - intros i Hi. rot_idx n i Hi. reflexivity.
Qed.

(** ** Barycentric coordinates *)
Lemma some_eq : forall A (a b : A), Some a = Some b -> a = b.
Proof. intros A a b H. injection H as ->. reflexivity. Qed.
Lemma list_ext : forall A (l l' : list A), (forall j, nth_error l j = nth_error l' j) -> l = l'.
Proof.
  intros A l; induction l as [|a l IH]; intros [|b l'] H; [reflexivity|specialize (H 0%nat); discriminate|specialize (H 0%nat); discriminate|].
  f_equal; [specialize (H 0%nat); simpl in H; congruence|]. apply IH. intros j. exact (H (S j)).
Qed.
Lemma rprod_rot : forall m f, rprod m (fun i => f (nxt m i)) = rprod m f.
Proof.
  intros [|m] f; [reflexivity|].
  assert (F : forall k g, rprod (S k) g = g 0%nat * rprod k (fun i => g (S i))).
  { induction k as [|k IH]; intros g; [cbn [rprod]; ring|]. change (rprod (S (S k)) g) with (rprod (S k) g * g (S k)). rewrite IH. cbn [rprod]. ring. }
  rewrite (F m f). cbn [rprod]. rewrite (nxt_cases (S m) m) by lia. rewrite Nat.eqb_refl.
  rewrite (rprod_ext m (fun i => f (nxt (S m) i)) (fun i => f (S i))); [ring|]. intros i Hi. rewrite nxt_cases by lia. destruct (Nat.eqb_spec (S i) (S m)); [lia|reflexivity].
Qed.
Lemma eqb_nxt : forall m i j, (i < m)%nat -> (j < m)%nat -> (nxt m i =? nxt m j)%nat = (i =? j)%nat.
Proof. intros m i j Hi Hj. destruct (Nat.eqb_spec i j) as [->|N]; [apply Nat.eqb_refl|]. apply Nat.eqb_neq. intros E. apply N. apply (nxt_inj m); assumption. Qed.

(** With one near vertex: the coordinates of that vertex. *)
Lemma loop_break : forall uv t eps (ws : list V2) k, (2 <= length ws)%nat -> (k < length ws)%nat -> baryRadius t (svec ws uv k) < eps ->
  (forall i, (i < k)%nat -> eps <= baryRadius t (svec ws uv i)) ->
  baryLoop t eps (map (fun p => uv -p p) ws) (tabulate (length ws) (tri ws uv)) [] (seq 0 (length ws)) = upd (repeat 0 (length ws)) k 1.
Proof.
  intros uv t eps ws k L2 Hk N F.
  assert (G : forall r s l, (s + r = length ws)%nat -> (s <= k)%nat -> baryLoop t eps (map (fun p => uv -p p) ws) (tabulate (length ws) (tri ws uv)) l (seq s r) = upd (repeat 0 (length ws)) k 1).
  { induction r as [|r IH]; intros s l E Hs; [lia|]. cbn [seq baryLoop]. destruct (Nat.eq_dec s k) as [->|Ne].
    - rewrite (weight_break ws uv t eps k) by assumption. cbn [bind]. rewrite map_length. reflexivity.
    - rewrite (weight_closed ws uv t eps s) by (try assumption; try lia; apply F; lia). cbn [bind]. apply IH; lia. }
  apply G; lia.
Qed.
Lemma unit_list : forall k M, (k < M)%nat -> exists l, upd (repeat 0 M) k 1 = Some l /\ l = tabulate M (fun j => if (j =? k)%nat then 1 else 0).
Proof.
  intros k M Hk. destruct (upd_spec _ (repeat 0 M) k 1) as (l & E & L & Nn); [rewrite repeat_length; lia|]. exists l. split; [exact E|].
  rewrite repeat_length in L. apply list_ext. intros j. destruct (Nat.lt_ge_cases j M) as [Hj|Hj].
  - rewrite (tabulate_nth_error _ M) by exact Hj. rewrite Nn. destruct (Nat.eqb_spec j k) as [->|Ne]; [reflexivity|].
    rewrite nth_error_repeat by exact Hj. reflexivity.
  - rewrite (proj2 (nth_error_None l j)) by lia. symmetry. apply nth_error_None. rewrite tabulate_length. lia.
Qed.
Lemma tabulate_rot : forall A M (f g : nat -> A), (forall i, (i < M)%nat -> g i = f (nxt M i)) -> tabulate M g = rot (tabulate M f).
Proof.
  intros A M f g H. apply list_ext. intros j. destruct (Nat.lt_ge_cases j M) as [Hj|Hj].
  - rewrite (rot_nth _ _ M) by (try apply tabulate_length; exact Hj). rewrite !tabulate_nth_error by (try exact Hj; apply nxt_lt; lia). rewrite H by exact Hj. reflexivity.
  - rewrite !(proj2 (nth_error_None _ j)); [reflexivity| |]; rewrite ?rot_length, tabulate_length; lia.
Qed.
Lemma vtx_some : forall ws i, (i < length ws)%nat -> nth_error ws i = Some (vtx ws i).
Proof. intros. apply nth_error_nth'. assumption. Qed.
Lemma first_near : forall (P : nat -> Prop) M, (forall i, {P i} + {~ P i}) -> (forall i, (i < M)%nat -> ~ P i) \/ (exists k, (k < M)%nat /\ P k /\ forall i, (i < k)%nat -> ~ P i).
Proof.
  intros P M D; induction M as [|M IH]; [left; intros; lia|]. destruct IH as [A|(k & Hk & Pk & F)].
  - destruct (D M) as [Y|N]; [right; exists M; split; [lia|]; split; [exact Y|exact A]|]. left. intros i Hi. destruct (Nat.eq_dec i M) as [->|]; [exact N|apply A; lia].
  - right. exists k. split; [lia|]. split; assumption.
Qed.
Section BaryRot.
Variables (vs : list V2) (uv : V2).
Hypothesis H2 : (2 <= length vs)%nat.
Let m := length vs.
Let vs' := rot vs.
Lemma len_rot : length vs' = m.
Proof. apply rot_length. Qed.
Lemma vtx_rot : forall i, (i < m)%nat -> vtx vs' i = vtx vs (nxt m i).
Proof.
  intros i Hi. unfold vtx. assert (E := rot_nth _ vs m i eq_refl Hi). fold vs' in E.
  rewrite (nth_error_nth' vs pzero (n := nxt m i)) in E by (apply nxt_lt; lia). rewrite (nth_error_nth' vs' pzero (n := i)) in E by (rewrite len_rot; lia). congruence.
Qed.
Lemma svec_rot : forall i, (i < m)%nat -> svec vs' uv i = svec vs uv (nxt m i).
Proof. intros i Hi. unfold svec. rewrite vtx_rot by exact Hi. reflexivity. Qed.
Lemma tri_rot : forall i, (i < m)%nat -> tri vs' uv i = tri vs uv (nxt m i).
Proof. intros i Hi. unfold tri. rewrite len_rot. fold m. rewrite !vtx_rot by (try apply nxt_lt; lia). reflexivity. Qed.
Lemma bcr_rot : forall i, (i < m)%nat -> bcr vs' uv i = bcr vs uv (nxt m i).
Proof. intros i Hi. unfold bcr. rewrite len_rot. fold m. rewrite !svec_rot by (try apply nxt_lt; try apply prv_lt; lia). rewrite (nxt_prv m i Hi), (prv_nxt m i Hi). reflexivity. Qed.
Lemma prodBut_rot : forall k, (k < m)%nat -> prodBut vs' uv k = prodBut vs uv (nxt m k).
Proof.
  intros k Hk. unfold prodBut. rewrite len_rot. fold m. rewrite <- (rprod_rot m (fun j => if (j =? nxt m k)%nat then 1 else tri vs uv j)).
  apply rprod_ext. intros j Hj. rewrite eqb_nxt by assumption. rewrite tri_rot by exact Hj. reflexivity.
Qed.
Lemma prodBut2_rot : forall k l, (k < m)%nat -> (l < m)%nat -> prodBut2 vs' uv k l = prodBut2 vs uv (nxt m k) (nxt m l).
Proof.
  intros k l Hk Hl. unfold prodBut2. rewrite len_rot. fold m. rewrite <- (rprod_rot m (fun j => if (j =? nxt m k)%nat then 1 else if (j =? nxt m l)%nat then 1 else tri vs uv j)).
  apply rprod_ext. intros j Hj. rewrite !eqb_nxt by assumption. rewrite tri_rot by exact Hj. reflexivity.
Qed.
Lemma wfun_rot : forall t i, (i < m)%nat -> wfun vs' uv t i = wfun vs uv t (nxt m i).
Proof.
  intros t i Hi. assert (Hp : (prv m i < m)%nat) by (apply prv_lt; lia). assert (Hx : (nxt m i < m)%nat) by (apply nxt_lt; lia).
  unfold wfun. rewrite len_rot. fold m. rewrite !svec_rot, !prodBut_rot, prodBut2_rot, bcr_rot by assumption. rewrite (nxt_prv m i Hi), (prv_nxt m i Hi). reflexivity.
Qed.

End BaryRot.

Section Dom.
Variable d : dom.
Hypothesis Fu : full d.
Let n := d_n d.
Let Lv : length (d_verts d) = n. Proof. apply Fu. Qed.
Let Lu : length (d_du d) = n. Proof. apply Fu. Qed.
Let Lw : length (d_dv d) = n. Proof. apply Fu. Qed.
Notation d' := (rotDom d).

Lemma toLocal_rot : forall i v, (i < n)%nat -> toLocal d' i v = toLocal d (nxt n i) v.
Proof. intros i v Hi. unfold toLocal. cbn [rotDom d_du d_dv]. rot_idx n i Hi. reflexivity. Qed.
Lemma fromLocal_rot : forall i v, (i < n)%nat -> fromLocal d' i v = fromLocal d (nxt n i) v.
Proof. intros i v Hi. unfold fromLocal. cbn [rotDom d_du d_dv]. rot_idx n i Hi. reflexivity. Qed.
Lemma edgeLength_rot : forall i, (i < n)%nat -> edgeLength d' i = edgeLength d (nxt n i).
Proof. intros i Hi. unfold edgeLength. cbn [rotDom d_n d_verts]. fold n. rot_idx n i Hi. reflexivity. Qed.
Lemma angle_rot : forall i, (i < n)%nat -> angle d' i = angle d (nxt n i).
Proof. intros i Hi. unfold angle. cbn [rotDom d_n d_verts]. fold n. rot_idx n i Hi. reflexivity. Qed.
Lemma prv2_lt : forall i, (i < n)%nat -> (prv2 n i < n)%nat.
Proof. intros. unfold prv2. apply Nat.mod_upper_bound. lia. Qed.
Lemma prv2_prv : forall i, (i < n)%nat -> (2 <= n)%nat -> prv2 n i = prv n (prv n i).
Proof.
  intros i Hi H2. unfold prv2, prv.
  assert (C := prv_cases n i Hi). unfold prv in C. rewrite C. destruct (Nat.eqb_spec i 0) as [E|E].
  - subst i. replace (0 + n - 2)%nat with (n - 2)%nat by lia. replace (n - 1 + n - 1)%nat with (n - 2 + 1 * n)%nat by lia. rewrite Nat.mod_add by lia. reflexivity.
  - replace (i - 1 + n - 1)%nat with (i + n - 2)%nat by lia. reflexivity.
Qed.
Lemma bilinear_rot : forall eps i uv, (2 <= n)%nat -> (i < n)%nat -> bilinearMap eps d' i uv = bilinearMap eps d (nxt n i) uv.
Proof.
  intros eps i uv H2 Hi. assert (Hx : (nxt n i < n)%nat) by (apply nxt_lt; lia). assert (Hp : (prv n i < n)%nat) by (apply prv_lt; lia).
  unfold bilinearMap. cbn [rotDom d_n d_verts]. fold n. fold (rotDom d).
  rewrite (prv2_prv i Hi H2), (prv2_prv (nxt n i) Hx H2). rewrite !(rot_nth _ _ n) by (try assumption; apply prv_lt; lia).
  rewrite (nxt_prv n (prv n i) Hp), (nxt_prv n i Hi), (prv_nxt n i Hi).
  apply bind_cong; intros v0 _. apply bind_cong; intros v1 _. apply bind_cong; intros v2 _. apply bind_cong; intros v3 _.
  rewrite !toLocal_rot by exact Hi. reflexivity.
Qed.
Lemma interconnected_rot : forall eps i uv, (2 <= n)%nat -> (i < n)%nat -> interconnectedMap eps d' i uv = interconnectedMap eps d (nxt n i) uv.
Proof.
  intros eps i uv H2 Hi. unfold interconnectedMap. cbn [rotDom d_n]. fold n. fold (rotDom d).
  rewrite !bilinear_rot by (try assumption; try (apply prv_lt; lia); apply nxt_lt; lia). rewrite (nxt_prv n i Hi), (prv_nxt n i Hi). reflexivity.
Qed.

(** The largest height over a side does not depend on the order of the
    vertices. *)
Definition fmax (f : V2 -> R) (l : list V2) (m : R) : R := fold_left (fun m p => Rmax m (f p)) l m.
Lemma fmax_rot : forall f l m, fmax f (rot l) m = fmax f l m.
Proof.
  intros f [|a l] m; [reflexivity|]. unfold fmax. cbn [rot]. rewrite fold_left_app. cbn [fold_left].
  revert m. induction l as [|b l IH]; intros m; [reflexivity|]. cbn [fold_left]. rewrite IH. f_equal.
  rewrite <- !Rmax_assoc. f_equal. apply Rmax_comm.
Qed.
Lemma foldM_max : forall (g : V2 -> option V2) (f : V2 -> R) l m, (forall p, g p = Some (mkV2 (px (match g p with Some q => q | None => pzero end)) (f p))) ->
  foldM (fun m p => l <- g p ;; Some (if Rlt_dec m (py l) then py l else m)) m l = Some (fmax f l m).
Proof.
  intros g f l m H. revert m. induction l as [|p l IH]; intros m; [reflexivity|]. cbn [foldM]. rewrite H. cbn [bind py]. rewrite IH. unfold fmax. cbn [fold_left]. do 2 f_equal.
  unfold Rmax. destruct (Rlt_dec m (f p)); destruct (Rle_dec m (f p)); lra.
Qed.
Lemma foldM_none : forall A (g : V2 -> option A) (h : R -> A -> option R) l m, l <> [] -> (forall p, g p = None) -> foldM (fun m p => l <- g p ;; h m l) m l = None.
Proof. intros A g h [|p l] m N H; [contradiction|]. cbn [foldM]. rewrite H. reflexivity. Qed.
Lemma rot_nil : forall A (l : list A), rot l = [] -> l = [].
Proof. intros A l H. apply length_zero_iff_nil. rewrite <- rot_length, H. reflexivity. Qed.
Lemma foldM_ext : forall A B (f g : A -> B -> option A) l a, (forall a b, f a b = g a b) -> foldM f a l = foldM g a l.
Proof. intros A B f g l; induction l as [|b l IH]; intros a H; [reflexivity|]. cbn [foldM]. rewrite H. destruct (g a b); [apply IH; exact H|reflexivity]. Qed.
Lemma maxDist_rot : forall i, (i < n)%nat -> maxDist d' i = maxDist d (nxt n i).
Proof.
  intros i Hi. assert (Hx : (nxt n i < n)%nat) by (apply nxt_lt; lia). unfold maxDist. cbn [rotDom d_verts]. fold (rotDom d). rot_idx n i Hi.
  apply bind_cong. intros vi _.
  rewrite (foldM_ext _ _ _ (fun m p => l <- toLocal d (nxt n i) (p -p vi) ;; Some (if Rlt_dec m (py l) then py l else m))) by (intros; rewrite toLocal_rot by exact Hi; reflexivity).
  assert (Nv : d_verts d <> []) by (intros E; rewrite E in Lv; simpl in Lv; lia).
  destruct (nth_error (d_du d) (nxt n i)) as [du|] eqn:Eu; [|exfalso; apply nth_error_None in Eu; rewrite Lu in Eu; lia].
  destruct (nth_error (d_dv d) (nxt n i)) as [dv|] eqn:Ev; [|exfalso; apply nth_error_None in Ev; rewrite Lw in Ev; lia].
  assert (T : forall v, toLocal d (nxt n i) v = pdiv (mkV2 (pdot v du) (pdot v dv)) (pnorm2 du)) by (intros v; unfold toLocal; rewrite Eu, Ev; reflexivity).
  destruct (Req_EM_T (pnorm2 du) 0) as [Z|Z].
  - rewrite !foldM_none; [reflexivity| | | |]; try assumption; try (intros p; rewrite T; unfold pdiv; destruct (Req_EM_T (pnorm2 du) 0); [reflexivity|contradiction]).
    intros E. apply Nv. apply rot_nil in E. exact E.
  - assert (F : forall p, toLocal d (nxt n i) (p -p vi) = Some (mkV2 (pdot (p -p vi) du / pnorm2 du) (pdot (p -p vi) dv / pnorm2 du))) by (intros p; rewrite T, pdiv_some by exact Z; reflexivity).
    rewrite !(foldM_max (fun p => toLocal d (nxt n i) (p -p vi)) (fun p => pdot (p -p vi) dv / pnorm2 du)) by (intros p; rewrite F; reflexivity).
    rewrite fmax_rot. reflexivity.
Qed.
Lemma multipliers_rot : parallelMultipliers d' = option_map rot (parallelMultipliers d).
Proof. unfold parallelMultipliers. cbn [rotDom d_n]. fold n. fold (rotDom d). apply mapM_rot. intros i Hi. rewrite maxDist_rot by exact Hi. reflexivity. Qed.
Lemma multipliers_length : forall ms, parallelMultipliers d = Some ms -> length ms = n.
Proof. intros ms E. unfold parallelMultipliers in E. apply mapM_length in E. rewrite seq_length in E. exact E. Qed.
Lemma parallel_rot : forall eps ms i uv, length ms = n -> (2 <= n)%nat -> (i < n)%nat -> parallelMap eps d' (rot ms) i uv = parallelMap eps d ms (nxt n i) uv.
Proof.
  intros eps ms i uv Lm H2 Hi. unfold parallelMap. cbn [rotDom d_verts]. fold (rotDom d). rewrite bilinear_rot by assumption. rot_idx n i Hi.
  apply bind_cong; intros sd _. apply bind_cong; intros vi _. rewrite toLocal_rot by exact Hi. reflexivity.
Qed.
Lemma perpPolar_rot : forall i uv, (i < n)%nat -> perpPolarMap d' i uv = perpPolarMap d (nxt n i) uv.
Proof.
  intros i uv Hi. unfold perpPolarMap. cbn [rotDom d_n d_verts]. fold n. fold (rotDom d). rot_idx n i Hi.
  apply bind_cong; intros b _. rewrite toLocal_rot by exact Hi. apply bind_cong; intros p _.
  rewrite fromLocal_rot, edgeLength_rot by exact Hi. reflexivity.
Qed.


Lemma bary_rot : forall t eps uv, (2 <= n)%nat -> one_near t eps (d_verts d) uv -> barycentric t eps d' uv = option_map rot (barycentric t eps d uv).
Proof.
  intros t eps uv H2 On. set (vs := d_verts d). assert (L2 : (2 <= length vs)%nat) by (unfold vs; lia).
  assert (L' : length (rot vs) = length vs) by apply rot_length. assert (L2' : (2 <= length (rot vs))%nat) by lia.
  destruct (first_near (fun i => baryRadius t (svec vs uv i) < eps) (length vs)) as [A|(k & Hk & Nk & Fk)]; [intros; apply Rlt_dec| |].
  - rewrite (bary_closed vs uv d eq_refl L2 t eps) by (intros i Hi; apply Rnot_lt_le; exact (A i Hi)).
    rewrite (bary_closed (rot vs) uv d' eq_refl L2' t eps).
    2:{ intros i Hi. rewrite svec_rot by lia. assert (B := A (nxt (length vs) i)). cbv beta in B. apply Rnot_lt_le. apply B. apply nxt_lt. lia. }
    rewrite L'. rewrite (rsum_ext (length vs) (wfun (rot vs) uv t) (fun i => wfun vs uv t (nxt (length vs) i))) by (intros i Hi; apply wfun_rot; lia).
    rewrite rsum_rot. destruct (Req_EM_T _ 0); [reflexivity|]. cbn [option_map]. f_equal. apply tabulate_rot. intros i Hi. rewrite wfun_rot by lia. reflexivity.
  - assert (Un : forall i, (i < length vs)%nat -> i <> k -> eps <= baryRadius t (svec vs uv i)).
    { intros i Hi Ne. apply Rnot_lt_le. intros Lt. apply Ne. apply (On i k (vtx vs i) (vtx vs k)); [apply vtx_some; exact Hi|apply vtx_some; exact Hk|exact Lt|exact Nk]. }
    unfold barycentric. cbn [rotDom d_verts]. fold vs. rewrite !areas_closed. cbn [bind]. rewrite !map_length.
    rewrite (loop_break uv t eps vs k) by (try assumption; intros i Hi; apply Un; lia).
    rewrite (loop_break uv t eps (rot vs) (prv (length vs) k)).
    + rewrite L'. destruct (unit_list k (length vs) Hk) as (l & E & El). destruct (unit_list (prv (length vs) k) (length vs)) as (l' & E' & El'); [apply prv_lt; lia|].
      rewrite E, E'. cbn [bind]. assert (R : l' = rot l).
      { rewrite El, El'. apply tabulate_rot. intros i Hi. rewrite <- (nxt_prv (length vs) k Hk) at 2. rewrite eqb_nxt; [reflexivity|exact Hi|apply prv_lt; lia]. }
      rewrite R, accumulate_rot. apply mapM_rot_list.
    + exact L2'.
    + rewrite L'. apply prv_lt. lia.
    + rewrite svec_rot by (try apply prv_lt; lia). rewrite nxt_prv by exact Hk. exact Nk.
    + intros i Hi. assert (Hp : (prv (length vs) k < length vs)%nat) by (apply prv_lt; lia). rewrite svec_rot by lia. apply Un; [apply nxt_lt; lia|].
      intros E. assert (I : (i < length vs)%nat) by lia. assert (Q := prv_nxt (length vs) i I). rewrite E in Q. lia.
Qed.
Lemma bary_length : forall t eps uv l, (2 <= n)%nat -> one_near t eps (d_verts d) uv -> barycentric t eps d uv = Some l -> length l = n.
Proof.
  intros t eps uv l H2 On E. set (vs := d_verts d) in *. assert (L2 : (2 <= length vs)%nat) by lia.
  destruct (first_near (fun i => baryRadius t (svec vs uv i) < eps) (length vs)) as [A|(k & Hk & Nk & Fk)]; [intros; apply Rlt_dec| |].
  - rewrite (bary_closed vs uv d eq_refl L2 t eps) in E by (intros i Hi; apply Rnot_lt_le; exact (A i Hi)). destruct (Req_EM_T _ 0); [discriminate|]. apply some_eq in E. subst l. rewrite tabulate_length. exact Lv.
  - unfold barycentric in E. fold vs in E. rewrite areas_closed in E. cbn [bind] in E. rewrite map_length in E.
    rewrite (loop_break uv t eps vs k) in E by (try assumption; intros i Hi; apply Rnot_lt_le; exact (Fk i Hi)).
    destruct (unit_list k (length vs) Hk) as (l0 & E0 & El). rewrite E0 in E. cbn [bind] in E. apply mapM_length in E. rewrite E, El, tabulate_length. exact Lv.
Qed.

Lemma baryRibbon_rot : forall eps l i uv, length l = n -> (i < n)%nat -> baryRibbon eps d' (rot l) i uv = baryRibbon eps d l (nxt n i) uv.
Proof.
  intros eps l i uv L Hi. assert (Hx : (nxt n i < n)%nat) by (apply nxt_lt; lia). assert (Hp : (prv n i < n)%nat) by (apply prv_lt; lia).
  unfold baryRibbon. cbn [rotDom d_n d_verts]. fold n. fold (rotDom d). rot_idx n i Hi. apply bind_cong; intros li _. apply bind_cong; intros lp _. f_equal.
  destruct (Rlt_dec (lp + li) eps); [|reflexivity]. rewrite !angle_rot by assumption. rewrite (nxt_prv n i Hi).
  apply bind_cong; intros al _. apply bind_cong; intros be _. apply bind_cong; intros vp _. apply bind_cong; intros vi _.
  rewrite !toLocal_rot, !edgeLength_rot by assumption. rewrite (nxt_prv n i Hi). reflexivity.
Qed.
Lemma baryMap_rot : forall t eps i uv, (2 <= n)%nat -> one_near t eps (d_verts d) uv -> (i < n)%nat -> baryMap t eps d' i uv = baryMap t eps d (nxt n i) uv.
Proof.
  intros t eps i uv H2 On Hi. unfold baryMap. rewrite bary_rot, bind_map_some by assumption. apply bind_cong. intros l E. apply baryRibbon_rot; [|exact Hi]. apply (bary_length t eps uv); assumption.
Qed.
Lemma constrained_rot : forall t eps i uv, (2 <= n)%nat -> one_near t eps (d_verts d) uv -> (i < n)%nat -> constrainedMap t eps d' i uv = constrainedMap t eps d (nxt n i) uv.
Proof.
  intros t eps i uv H2 On Hi. unfold constrainedMap. cbn [rotDom d_n]. fold n. fold (rotDom d).
  rewrite !baryMap_rot by (try assumption; try (apply prv_lt; lia); apply nxt_lt; lia). rewrite (nxt_prv n i Hi), (prv_nxt n i Hi). reflexivity.
Qed.
Lemma nxt_plus : forall i j, (i < n)%nat -> nxt n ((i + j) mod n) = ((nxt n i + j) mod n)%nat.
Proof.
  intros i j Hi. unfold nxt. rewrite Nat.add_mod_idemp_l by lia. rewrite Nat.add_mod_idemp_l by lia. f_equal. lia.
Qed.
Lemma overlap_rot : forall t eps i uv, (2 <= n)%nat -> one_near t eps (d_verts d) uv -> (i < n)%nat -> overlapMap t eps d' i uv = overlapMap t eps d (nxt n i) uv.
Proof.
  intros t eps i uv H2 On Hi. unfold overlapMap. cbn [rotDom d_n]. fold n. fold (rotDom d). destruct (Nat.odd n); [reflexivity|].
  rewrite bary_rot, bind_map_some by assumption. apply bind_cong. intros l E. apply bary_length in E; [|assumption|assumption].
  rewrite (orsum_ext (n / 2) (fun j => nth_error (rot l) ((i + j) mod n)) (fun j => nth_error l ((nxt n i + j) mod n))); [reflexivity|].
  intros j _. rewrite (rot_nth _ _ n) by (try exact E; apply Nat.mod_upper_bound; lia). rewrite nxt_plus by exact Hi. reflexivity.
Qed.
Lemma polar_rot : forall eps i uv, (2 <= n)%nat -> one_near MeanValue eps (d_verts d) uv -> (i < n)%nat -> polarMap eps d' i uv = polarMap eps d (nxt n i) uv.
Proof.
  intros eps i uv H2 On Hi. unfold polarMap. cbn [rotDom d_n d_verts]. fold n. fold (rotDom d). rot_idx n i Hi. apply bind_cong; intros vp _. apply bind_cong; intros vi _.
  destruct (Rlt_dec _ eps); [reflexivity|]. apply bind_cong; intros a _. apply bind_cong; intros b _. rewrite angle_rot by exact Hi. apply bind_cong; intros al _. apply bind_cong; intros ra _.
  rewrite bary_rot, bind_map_some by assumption. apply bind_cong; intros l E. apply bary_length in E; [|assumption|assumption]. rot_idx n i Hi. reflexivity.
Qed.

Lemma map_rot_one : forall k eps i uv, k <> KSuperD -> (2 <= n)%nat -> kind_near k eps (d_verts d) uv -> (i < n)%nat ->
  mapToRibbon k eps d' i uv = mapToRibbon k eps d (nxt n i) uv.
Proof.
  intros k eps i uv NS H2 On Hi. destruct k; cbn [mapToRibbon kind_near] in *.
  - apply baryMap_rot; assumption.
  - apply bilinear_rot; assumption.
  - apply interconnected_rot; assumption.
  - apply constrained_rot; assumption.
  - rewrite multipliers_rot, bind_map_some. apply bind_cong. intros ms E. apply parallel_rot; [apply multipliers_length; exact E|assumption|assumption].
  - contradiction.
  - apply overlap_rot; assumption.
Qed.
Lemma ribbons_rot : forall k eps uv, k <> KSuperD -> (2 <= n)%nat -> kind_near k eps (d_verts d) uv -> mapToRibbons k eps d' uv = option_map rot (mapToRibbons k eps d uv).
Proof. intros k eps uv NS H2 On. unfold mapToRibbons. cbn [rotDom d_n]. fold n. fold (rotDom d). apply mapM_rot. intros i Hi. apply map_rot_one; assumption. Qed.
Lemma superd_rot : forall ms uv eps, superdMultipliers d' = superdMultipliers d -> superdMultipliers d = Some ms -> (2 <= n)%nat ->
  mapToRibbons KSuperD eps d' uv = option_map rot (mapToRibbons KSuperD eps d uv).
Proof.
  intros ms uv eps Sm E H2. unfold mapToRibbons. cbn [rotDom d_n]. fold n. fold (rotDom d). apply mapM_rot. intros i Hi. cbn [mapToRibbon]. rewrite Sm, E. cbn [bind].
  assert (R : exists x, ms = repeat x n). { unfold superdMultipliers in E. fold n in E. repeat (match type of E with bind ?x _ = _ => destruct x; [cbn [bind] in E|discriminate] end). injection E as <-. eexists; reflexivity. }
  destruct R as (x & ->). rewrite <- parallel_rot; [|apply repeat_length|exact H2|exact Hi]. f_equal. apply list_ext. intros j. destruct (Nat.lt_ge_cases j n) as [Hj|Hj].
  - rewrite (rot_nth _ _ n) by (try apply repeat_length; exact Hj). rewrite !nth_error_repeat by (try exact Hj; apply nxt_lt; lia). reflexivity.
  - rewrite !(proj2 (nth_error_None _ j)); [reflexivity| |]; rewrite ?rot_length, repeat_length; lia.
Qed.
End Dom.
