(** Assembly of the cotangent Laplacian, its quadratic form, uniqueness. *)
From Verif Require Import Base UtilModel LinAlg MeshModel MeshSpec GeomSpec HarmonicModel FEMSpec.
From Coq Require Import Permutation.
Open Scope R_scope.

(** ** Entries *)
Definition dl (i a : nat) : R := if (i =? a)%nat then 1 else 0.
Lemma dl_same : forall a, dl a a = 1.
Proof. intros a. unfold dl. rewrite Nat.eqb_refl. reflexivity. Qed.
Lemma dl_diff : forall a b, a <> b -> dl a b = 0.
Proof. intros a b N. unfold dl. destruct (Nat.eqb_spec a b); [contradiction|reflexivity]. Qed.
Lemma madd_dl : forall A a b v i j, madd A a b v i j = A i j + v * dl i a * dl j b.
Proof. intros A a b v i j. unfold madd, dl. destruct (i =? a)%nat, (j =? b)%nat; cbn [andb]; ring. Qed.
Lemma rsum_dl : forall n a f, (a < n)%nat -> rsum n (fun i => dl i a * f i) = f a.
Proof.
  intros n a f Ha. rewrite (rsum_single n _ a Ha); [rewrite dl_same; ring|]. intros j Hj N. rewrite dl_diff by exact N. ring.
Qed.

Definition tcoef (t : tri) (w : R * R * R) (i j : nat) : R :=
  let '(a, b, c) := t in let '(v1, v2, v3) := w in
  v3 * (dl i a - dl i b) * (dl j a - dl j b) + v2 * (dl i a - dl i c) * (dl j a - dl j c) + v1 * (dl i b - dl i c) * (dl j b - dl j c).

Lemma addTri_coef : forall A t w i j, addTri A t w i j = A i j + tcoef t w i j.
Proof. intros A [[a b] c] [[v1 v2] v3] i j. unfold addTri, tcoef. rewrite !madd_dl. ring. Qed.

Definition at3 (P : list V3) (i : nat) : V3 := nth i P vzero.

Lemma at3_some : forall P i, (i < length P)%nat -> nth_error P i = Some (at3 P i).
Proof. intros P i Hi. unfold at3. apply nth_error_nth'. exact Hi. Qed.

Lemma laplacian_value : forall cots P ts wt,
  (forall a b c, In (a, b, c) ts -> (a < length P /\ b < length P /\ c < length P)%nat /\ cots (at3 P a) (at3 P b) (at3 P c) = Some (wt (a, b, c))) ->
  exists A, laplacian cots P ts = Some A /\ forall i j, A i j = lsum (fun t => tcoef t (wt t) i j) ts.
Proof.
  intros cots P ts wt H. unfold laplacian.
  assert (G : forall A0, exists A, foldM (fun A t => let '(a, b, c) := t in
    p1 <- nth_error P a ;; p2 <- nth_error P b ;; p3 <- nth_error P c ;;
    w <- cots p1 p2 p3 ;; Some (addTri A t w)) A0 ts = Some A /\ forall i j, A i j = A0 i j + lsum (fun t => tcoef t (wt t) i j) ts).
  { induction ts as [|[[a b] c] ts IH]; intros A0; cbn [foldM lsum].
    - exists A0. split; [reflexivity|]. intros. ring.
    - destruct (H a b c (or_introl eq_refl)) as ((Ha & Hb & Hc) & E). rewrite !at3_some by assumption. cbn [bind]. rewrite E. cbn [bind].
      destruct (IH) with (A0 := addTri A0 (a, b, c) (wt (a, b, c))) as (A & -> & V); [intros; apply H; right; assumption|].
      exists A. split; [reflexivity|]. intros i j. rewrite V, addTri_coef. ring. }
  destruct (G mzero) as (A & E & V). exists A. split; [exact E|]. intros i j. rewrite V. unfold mzero. ring.
Qed.

(** ** The bilinear form *)
Definition tform (t : tri) (w : R * R * R) (x y : nat -> R) : R :=
  let '(a, b, c) := t in let '(v1, v2, v3) := w in
  v3 * (x a - x b) * (y a - y b) + v2 * (x a - x c) * (y a - y c) + v1 * (x b - x c) * (y b - y c).

Lemma rsum_dl2 : forall n a b f, (a < n)%nat -> (b < n)%nat -> rsum n (fun i => (dl i a - dl i b) * f i) = f a - f b.
Proof.
  intros n a b f Ha Hb. rewrite (rsum_ext n _ (fun i => dl i a * f i - dl i b * f i)) by (intros; ring). rewrite rsum_minus, !rsum_dl by assumption. reflexivity.
Qed.

Definition trow (t : tri) (w : R * R * R) (x : nat -> R) (i : nat) : R :=
  let '(a, b, c) := t in let '(v1, v2, v3) := w in
  v3 * (dl i a - dl i b) * (x a - x b) + v2 * (dl i a - dl i c) * (x a - x c) + v1 * (dl i b - dl i c) * (x b - x c).

Lemma tcoef_row : forall n t w x i, proper_triangle n t -> rsum n (fun j => tcoef t w i j * x j) = trow t w x i.
Proof.
  intros n [[a b] c] [[v1 v2] v3] x i ((Ha & Hb & Hc) & _). unfold tcoef, trow.
  rewrite (rsum_ext n _ (fun j => v3 * (dl i a - dl i b) * ((dl j a - dl j b) * x j) + v2 * (dl i a - dl i c) * ((dl j a - dl j c) * x j) + v1 * (dl i b - dl i c) * ((dl j b - dl j c) * x j))) by (intros; ring).
  rewrite !rsum_plus, !rsum_scal, !rsum_dl2 by assumption. reflexivity.
Qed.

Lemma trow_form : forall n t w x y, proper_triangle n t -> rsum n (fun i => y i * trow t w x i) = tform t w x y.
Proof.
  intros n [[a b] c] [[v1 v2] v3] x y ((Ha & Hb & Hc) & _). unfold trow, tform.
  rewrite (rsum_ext n _ (fun j => v3 * (x a - x b) * ((dl j a - dl j b) * y j) + v2 * (x a - x c) * ((dl j a - dl j c) * y j) + v1 * (x b - x c) * ((dl j b - dl j c) * y j))) by (intros; ring).
  rewrite !rsum_plus, !rsum_scal, !rsum_dl2 by assumption. ring.
Qed.

Section Matrix.
Variables (n : nat) (ts : list tri) (wt : tri -> R * R * R) (A : mat).
Hypothesis PT : forall t, In t ts -> proper_triangle n t.
Hypothesis VA : forall i j, A i j = lsum (fun t => tcoef t (wt t) i j) ts.

Lemma A_sym : forall i j, A i j = A j i.
Proof. intros i j. rewrite !VA. apply lsum_ext. intros [[a b] c] _. destruct (wt (a, b, c)) as [[v1 v2] v3]. unfold tcoef. ring. Qed.

Lemma A_row : forall x i, mapply n A x i = lsum (fun t => trow t (wt t) x i) ts.
Proof.
  intros x i. unfold mapply. rewrite (rsum_ext n _ (fun j => lsum (fun t => tcoef t (wt t) i j * x j) ts)).
  - rewrite rsum_lsum. apply lsum_ext. intros t Ht. apply tcoef_row. apply PT. exact Ht.
  - intros j Hj. rewrite VA, Rmult_comm, <- lsum_scal. apply lsum_ext. intros; ring.
Qed.

Lemma A_const : forall c i, mapply n A (fun _ => c) i = 0.
Proof. intros c i. rewrite A_row. apply lsum_zero. intros [[a b] d] _. destruct (wt (a, b, d)) as [[v1 v2] v3]. unfold trow. ring. Qed.

Lemma A_form : forall x y, rsum n (fun i => y i * mapply n A x i) = lsum (fun t => tform t (wt t) x y) ts.
Proof.
  intros x y. rewrite (rsum_ext n _ (fun i => lsum (fun t => y i * trow t (wt t) x i) ts)) by (intros i Hi; rewrite A_row, lsum_scal; reflexivity).
  rewrite rsum_lsum. apply lsum_ext. intros t Ht. apply trow_form. apply PT. exact Ht.
Qed.
End Matrix.

(** ** Cotangent weights *)
Definition half_cots (p1 p2 p3 : V3) (w : R * R * R) : Prop :=
  let S := vnorm (vcross (p2 -v p1) (p3 -v p1)) in let '(v1, v2, v3) := w in
  0 < S /\ v1 * (2 * S) = vdot (p2 -v p1) (p3 -v p1) /\ v2 * (2 * S) = vdot (p1 -v p2) (p3 -v p2) /\ v3 * (2 * S) = vdot (p1 -v p3) (p2 -v p3).

Definition wcots (p1 p2 p3 : V3) : R * R * R :=
  let S := vnorm (vcross (p2 -v p1) (p3 -v p1)) in
  (vdot (p2 -v p1) (p3 -v p1) / (2 * S), vdot (p1 -v p2) (p3 -v p2) / (2 * S), vdot (p1 -v p3) (p2 -v p3) / (2 * S)).

Lemma wcots_half : forall p1 p2 p3, vcross (p2 -v p1) (p3 -v p1) <> vzero -> half_cots p1 p2 p3 (wcots p1 p2 p3).
Proof.
  intros p1 p2 p3 N. unfold half_cots, wcots. set (S := vnorm (vcross (p2 -v p1) (p3 -v p1))).
  assert (0 < S). { destruct (Rle_lt_or_eq_dec 0 S (vnorm_nonneg _)) as [L|E]; [exact L|]. exfalso. apply N. apply vnorm_zero. symmetry. exact E. }
  split; [exact H|]. repeat split; field; lra.
Qed.

Lemma cotsH_some : forall p1 p2 p3, vcross (p2 -v p1) (p3 -v p1) <> vzero -> cotsH p1 p2 p3 = Some (wcots p1 p2 p3).
Proof.
  intros p1 p2 p3 N. unfold cotsH, wcots. set (S := vnorm (vcross (p2 -v p1) (p3 -v p1))).
  assert (HS : S <> 0) by (intros E; apply N, vnorm_zero, E). rewrite !fdiv_some by exact HS. cbn [bind]. f_equal. f_equal; [f_equal|].
  - field. exact HS.
  - field. exact HS.
  - replace (vdot (p2 -v p3) (p1 -v p3)) with (vdot (p1 -v p3) (p2 -v p3)) by (unfold vdot; ring). field. exact HS.
Qed.

Lemma cotsB_some : forall p1 p2 p3, vcross (p2 -v p1) (p3 -v p1) <> vzero -> cotsB p1 p2 p3 = Some (wcots p1 p2 p3).
Proof.
  intros p1 p2 p3 N. unfold cotsB, wcots.
  replace (vcross (p1 -v p3) (p2 -v p1)) with (vcross (p2 -v p1) (p3 -v p1)) by (apply V3_ext; unfold vcross, vsub; simpl; ring).
  set (S := vnorm (vcross (p2 -v p1) (p3 -v p1))).
  assert (HS : S <> 0) by (intros E; apply N, vnorm_zero, E). rewrite !fdiv_some by exact HS. cbn [bind]. f_equal. f_equal; [f_equal|].
  - unfold vdot, vsub. simpl. field. exact HS.
  - unfold vdot, vsub. simpl. field. exact HS.
  - unfold vdot, vsub. simpl. field. exact HS.
Qed.

Lemma cots_degenerate : forall p1 p2 p3, vcross (p2 -v p1) (p3 -v p1) = vzero -> cotsH p1 p2 p3 = None /\ cotsB p1 p2 p3 = None.
Proof.
  intros p1 p2 p3 E. unfold cotsH, cotsB.
  replace (vcross (p1 -v p3) (p2 -v p1)) with (vcross (p2 -v p1) (p3 -v p1)) by (apply V3_ext; unfold vcross, vsub; simpl; ring).
  rewrite E. replace (vnorm vzero) with 0 by (unfold vnorm, vdot; simpl; replace (0 * 0 + 0 * 0 + 0 * 0) with 0 by ring; rewrite sqrt_0; reflexivity). rewrite !fdiv_zero. split; reflexivity.
Qed.

(** The form of one triangle is a square. *)
Lemma tform_square : forall p1 p2 p3 w a b c x, half_cots p1 p2 p3 w ->
  tform (a, b, c) w x x * (2 * vnorm (vcross (p2 -v p1) (p3 -v p1))) =
  vnorm2 ((p3 -v p1) *v (x b - x a) -v (p2 -v p1) *v (x c - x a)).
Proof.
  intros p1 p2 p3 [[v1 v2] v3] a b c x. unfold half_cots. set (S := vnorm (vcross (p2 -v p1) (p3 -v p1))). intros (HS & E1 & E2 & E3). unfold tform.
  replace ((v3 * (x a - x b) * (x a - x b) + v2 * (x a - x c) * (x a - x c) + v1 * (x b - x c) * (x b - x c)) * (2 * S))
    with (v3 * (2 * S) * (x a - x b) ^ 2 + v2 * (2 * S) * (x a - x c) ^ 2 + v1 * (2 * S) * (x b - x c) ^ 2) by ring.
  rewrite E1, E2, E3. unfold vnorm2, vdot, vsub, vscale; simpl. ring.
Qed.

Lemma tform_nonneg : forall p1 p2 p3 w a b c x, half_cots p1 p2 p3 w -> 0 <= tform (a, b, c) w x x.
Proof.
  intros p1 p2 p3 w a b c x H. pose proof (tform_square p1 p2 p3 w a b c x H) as E. destruct w as [[v1 v2] v3]. destruct H as (HS & _).
  pose proof (vnorm2_pos ((p3 -v p1) *v (x b - x a) -v (p2 -v p1) *v (x c - x a))) as P. unfold vnorm2 in E. rewrite <- E in P.
  apply (Rmult_le_reg_r (2 * vnorm (vcross (p2 -v p1) (p3 -v p1)))); lra.
Qed.

Lemma vcross_lin : forall u v s t, vcross u (v *v s -v u *v t) = vcross u v *v s.
Proof. intros. apply V3_ext; unfold vcross, vsub, vscale; simpl; ring. Qed.

Lemma tform_zero : forall p1 p2 p3 w a b c x, half_cots p1 p2 p3 w -> tform (a, b, c) w x x = 0 -> x b = x a /\ x c = x a.
Proof.
  intros p1 p2 p3 w a b c x H Z. pose proof (tform_square p1 p2 p3 w a b c x H) as E. rewrite Z, Rmult_0_l in E. symmetry in E. apply vdot_zero in E.
  destruct w as [[v1 v2] v3]. destruct H as (HS & _). set (u := p2 -v p1) in *. set (v := p3 -v p1) in *.
  assert (N : vcross u v <> vzero). { intros K. rewrite K in HS. unfold vnorm, vdot in HS; simpl in HS. replace (0 * 0 + 0 * 0 + 0 * 0) with 0 in HS by ring. rewrite sqrt_0 in HS. lra. }
  assert (Z1 : vcross u v *v (x b - x a) = vzero). { rewrite <- (vcross_lin u v _ (x c - x a)), E. apply V3_ext; unfold vcross; simpl; ring. }
  assert (Z2 : vcross v u *v (x c - x a) = vzero).
  { rewrite <- (vcross_lin v u _ (x b - x a)). replace (u *v (x c - x a) -v v *v (x b - x a)) with (vopp (v *v (x b - x a) -v u *v (x c - x a))) by (apply V3_ext; unfold vopp, vsub, vscale; simpl; ring).
    rewrite E. apply V3_ext; unfold vcross, vopp; simpl; ring. }
  assert (K : forall q s, q *v s = vzero -> s <> 0 -> q = vzero).
  { intros q s Eq Hs. assert (X := f_equal vx Eq). assert (Y := f_equal vy Eq). assert (W := f_equal vz Eq). simpl in X, Y, W.
    apply V3_ext; simpl; [apply Rmult_integral in X|apply Rmult_integral in Y|apply Rmult_integral in W]; tauto. }
  split.
  - destruct (Req_dec (x b - x a) 0) as [|K1]; [lra|]. exfalso. apply N. exact (K _ _ Z1 K1).
  - destruct (Req_dec (x c - x a) 0) as [|K1]; [lra|]. exfalso. apply N. pose proof (K _ _ Z2 K1) as Y. apply V3_ext; [assert (X := f_equal vx Y)|assert (X := f_equal vy Y)|assert (X := f_equal vz Y)]; unfold vcross in *; simpl in *; lra.
Qed.

(** ** Combinatorics of the mesh *)
Lemma flip_flip : forall e, flip (flip e) = e.
Proof. intros [a b]. reflexivity. Qed.

Lemma NoDup_flip : forall E, NoDup E -> NoDup (map flip E).
Proof.
  intros E N. induction N as [|e E Ne N IH]; cbn [map]; constructor; [|exact IH]. intros H. apply in_map_iff in H. destruct H as (f & Ef & Hf).
  apply Ne. rewrite <- (flip_flip e), <- Ef, flip_flip. exact Hf.
Qed.

Lemma NoDup_filter_tri : forall (p : triangle -> bool) ts, NoDup (mesh_edges ts) -> NoDup (mesh_edges (filter p ts)).
Proof.
  intros p ts. unfold mesh_edges. induction ts as [|t ts IH]; cbn [flat_map filter]; intros N; [constructor|].
  assert (N2 : NoDup (flat_map dedges ts)).
  { destruct t as [[a b] c]. cbn [dedges app] in N. inversion N as [|? ? _ N4]; subst. inversion N4 as [|? ? _ N6]; subst. inversion N6; assumption. }
  destruct (p t); [|apply IH; exact N2]. cbn [flat_map]. destruct t as [[a b] c]. cbn [dedges app] in *.
  assert (I : forall e, In e (flat_map dedges (filter p ts)) -> In e (flat_map dedges ts)).
  { intros e He. apply in_flat_map in He. destruct He as (t & Ht & He). apply filter_In in Ht. apply in_flat_map. exists t. tauto. }
  inversion N as [|? ? N3 N4]; subst. inversion N4 as [|? ? N5 N6]; subst. inversion N6 as [|? ? N7 N8]; subst.
  constructor; [|constructor; [|constructor; [|apply IH; exact N2]]].
  - intros [K|[K|K]]; apply N3; [left|right; left|right; right; apply I]; exact K.
  - intros [K|K]; apply N5; [left|right; apply I]; exact K.
  - intros K; apply N7; apply I; exact K.
Qed.

Lemma sarea_edges : forall (P : nat -> V2) t, let '(a, b, c) := t in sarea (P a) (P b) (P c) = lsum (fun e => pcross (P (fst e)) (P (snd e))) (dedges t).
Proof. intros P [[a b] c]. cbn [dedges lsum fst snd]. unfold sarea, pcross, psub; simpl. ring. Qed.

Section Mesh.
Variables (n : nat) (ts : list triangle) (P : nat -> V2) (bnd : nat -> Prop).
Hypothesis M : plane_mesh n ts P bnd.

(** A function that is constant on every triangle and zero at the boundary is
    zero: otherwise the triangles with some value would be a closed surface of
    positive area in the plane. *)
Lemma constant_zero : forall x : nat -> R, (forall a b c, In (a, b, c) ts -> x b = x a /\ x c = x a) -> (forall k, (k < n)%nat -> bnd k -> x k = 0) ->
  forall k, (k < n)%nat -> x k = 0.
Proof.
  destruct M as (PT & US & AR & NE & BE). intros x Cx Bx k Hk. destruct (Req_dec (x k) 0) as [|Nz]; [assumption|exfalso].
  set (v := x k) in *. set (sel := fun t : triangle => let '(a, b, c) := t in if Req_EM_T (x a) v then true else false).
  set (us := filter sel ts). set (E := mesh_edges us).
  assert (NE' : NoDup E) by (apply NoDup_filter_tri; exact NE).
  assert (IE : forall e, In e E -> In (flip e) E).
  { intros e He. unfold E, mesh_edges in He. apply in_flat_map in He. destruct He as ([[a b] c] & Ht & He). apply filter_In in Ht. destruct Ht as [Ht Hs].
    unfold sel in Hs. destruct (Req_EM_T (x a) v) as [Xa|]; [|discriminate]. destruct (Cx a b c Ht) as [Xb Xc].
    assert (Xe : x (fst e) = v /\ x (snd e) = v). { cbn [dedges] in He. destruct He as [<-|[<-|[<-|[]]]]; cbn [fst snd]; split; congruence. }
    assert (Le : (fst e < n /\ snd e < n)%nat). { destruct (PT _ Ht) as ((L1 & L2 & L3) & _). cbn [dedges] in He. destruct He as [<-|[<-|[<-|[]]]]; cbn [fst snd]; tauto. }
    assert (F : In (flip e) (mesh_edges ts)).
    { destruct (in_dec (fun x y : nat * nat => ltac:(decide equality; apply Nat.eq_dec)) (flip e) (mesh_edges ts)) as [I|I]; [exact I|exfalso].
      assert (B : boundary_edge ts e) by (split; [apply in_flat_map; exists (a, b, c); split; assumption|exact I]).
      destruct (BE e B) as [B1 _]. apply Nz. destruct Xe as [<- _]. apply Bx; [tauto|exact B1]. }
    apply in_flat_map in F. destruct F as ([[a' b'] c'] & Ht' & He'). destruct (Cx a' b' c' Ht') as [Xb' Xc'].
    apply in_flat_map. exists (a', b', c'). split; [|exact He']. apply filter_In. split; [exact Ht'|]. unfold sel.
    destruct (Req_EM_T (x a') v) as [|N]; [reflexivity|exfalso]. apply N. destruct e as [e1 e2]. cbn [flip fst snd dedges] in *. destruct He' as [Z|[Z|[Z|[]]]]; injection Z as -> ->; destruct Xe; congruence. }
  assert (Pm : Permutation E (map flip E)).
  { apply NoDup_Permutation; [exact NE'|apply NoDup_flip; exact NE'|]. intros e. split; intros H.
    - apply in_map_iff. exists (flip e). split; [apply flip_flip|apply IE; exact H].
    - apply in_map_iff in H. destruct H as (f & <- & Hf). apply IE. exact Hf. }
  assert (Z : lsum (fun e => pcross (P (fst e)) (P (snd e))) E = 0).
  { pose proof (lsum_perm (fun e => pcross (P (fst e)) (P (snd e))) _ _ Pm) as Q. rewrite lsum_map in Q.
    rewrite (lsum_ext (fun a => pcross (P (fst (flip a))) (P (snd (flip a)))) (fun e => -1 * pcross (P (fst e)) (P (snd e)))) in Q by (intros [a b] _; unfold flip, pcross; simpl; ring).
    rewrite lsum_scal in Q. lra. }
  unfold E, mesh_edges in Z. rewrite lsum_flat in Z.
  assert (Q : 0 < lsum (fun t => lsum (fun e => pcross (P (fst e)) (P (snd e))) (dedges t)) us); [|lra].
  apply lsum_pos.
  - destruct (US k Hk) as ([[a b] c] & Ht & Hc). intros Z0. assert (I : In (a, b, c) us); [|rewrite Z0 in I; exact I].
    apply filter_In. split; [exact Ht|]. unfold sel. destruct (Cx a b c Ht) as [Xb Xc]. destruct (Req_EM_T (x a) v) as [|N]; [reflexivity|exfalso].
    apply N. unfold v. cbn [corners] in Hc. destruct Hc as [<-|[<-|[<-|[]]]]; congruence.
  - intros [[a b] c] Ht. apply filter_In in Ht. rewrite <- (sarea_edges P (a, b, c)). apply AR. apply Ht.
Qed.

(** At a vertex that is not on the boundary the opposite edges form a closed
    polygon. *)
Lemma closed_fan : forall (F : nat -> R) i, (i < n)%nat -> ~ bnd i ->
  lsum (fun t => let '(a, b, c) := t in dl i a * (F c - F b) + dl i b * (F a - F c) + dl i c * (F b - F a)) ts = 0.
Proof.
  destruct M as (PT & US & AR & NE & BE). intros F i Hi Nb. set (E := mesh_edges ts).
  rewrite (lsum_ext _ (fun t => lsum (fun e => dl i (snd e) * F (fst e)) (dedges t) - lsum (fun e => dl i (fst e) * F (snd e)) (dedges t))).
  2: { intros [[a b] c] _. cbn [dedges lsum fst snd]. ring. }
  rewrite lsum_minus, <- !lsum_flat. fold (mesh_edges ts). fold E.
  assert (S : forall (p : nat * nat -> bool) (f : nat * nat -> R) l, lsum (fun e => (if p e then 1 else 0) * f e) l = lsum f (filter p l)).
  { intros p f l. induction l as [|e l IH]; cbn [lsum filter]; [reflexivity|]. rewrite IH. destruct (p e); cbn [lsum]; ring. }
  unfold dl. rewrite (S (fun e => (i =? snd e)%nat) (fun e => F (fst e))), (S (fun e => (i =? fst e)%nat) (fun e => F (snd e))).
  assert (Fl : forall e, In e E -> fst e = i \/ snd e = i -> In (flip e) E).
  { intros e He K. destruct (in_dec (fun x y : nat * nat => ltac:(decide equality; apply Nat.eq_dec)) (flip e) E) as [I|I]; [exact I|exfalso].
    destruct (BE e (conj He I)) as [B1 B2]. destruct K as [K|K]; rewrite K in *; contradiction. }
  assert (Pm : Permutation (map flip (filter (fun e => (i =? snd e)%nat) E)) (filter (fun e => (i =? fst e)%nat) E)).
  { apply NoDup_Permutation; [apply NoDup_flip, NoDup_filter; exact NE|apply NoDup_filter; exact NE|]. intros e. rewrite in_map_iff, filter_In. split.
    - intros (f & <- & Hf). apply filter_In in Hf. destruct Hf as [Hf Ef]. apply Nat.eqb_eq in Ef. split; [apply Fl; [exact Hf|right; symmetry; exact Ef]|].
      apply Nat.eqb_eq. exact Ef.
    - intros [He Ee]. apply Nat.eqb_eq in Ee. exists (flip e). split; [apply flip_flip|]. apply filter_In. split; [apply Fl; [exact He|left; symmetry; exact Ee]|apply Nat.eqb_eq; exact Ee]. }
  rewrite <- (lsum_perm _ _ _ Pm), lsum_map. unfold flip. cbn [fst snd]. ring.
Qed.
End Mesh.
