(** Properties of the parameterizations: C19 - C25. *)

From Verif Require Import Base MeshModel GeomSpec DomainModel UtilModel UtilSpec ParamModel.
From Verif Require Import DomainProofs DomainPolygons UtilProofs ParamBary ParamMaps ParamRegular ParamSide ParamCache ParamCircular.
Open Scope R_scope.

Lemma in_tabulate : forall (A : Type) n (f : nat -> A) x, In x (tabulate n f) -> exists i, (i < n)%nat /\ x = f i.
Proof.
  intros A n f x X. apply In_nth_error in X. destruct X as [i X].
  assert (Hi : (i < n)%nat) by (rewrite <- (tabulate_length A n f); apply nth_error_Some; congruence).
  rewrite tabulate_nth_error in X by exact Hi. injection X as <-. exists i; auto.
Qed.

(** ** C19: barycentric coordinates inside. *)
Theorem C19_wachspress : forall vs d eps uv, d_verts d = vs -> (3 <= length vs)%nat -> strictly_convex vs -> inside vs uv ->
  0 < eps <= 1 ->
  exists l, barycentric Wachspress eps d uv = Some l /\ length l = length vs /\
    (forall x, In x l -> 0 < x) /\ rsum (length l) (fun i => nth i l 0) = 1.
Proof.
  intros vs d eps uv Hd H3 C I He.
  destruct (normalized vs uv ltac:(lia) Wachspress (wachspress_pos vs uv ltac:(lia) C H3 I)) as (N & P & S).
  rewrite (bary_closed vs uv d Hd ltac:(lia)) by (intros; cbn [baryRadius]; lra).
  destruct (Req_EM_T _ 0); [contradiction|]. eexists. split; [reflexivity|]. rewrite tabulate_length. split; [reflexivity|]. split.
  - intros x X. apply in_tabulate in X. destruct X as (i & Hi & ->). apply P; exact Hi.
  - rewrite <- S. apply rsum_ext. intros i Hi. apply nth_error_nth. apply tabulate_nth_error; exact Hi.
Qed.
Print Assumptions C19_wachspress.

(** Mean value coordinates, away from the vertices (convexity is not needed
    beyond the point being left of every side). *)
Theorem C19_mean_value : forall vs d eps uv, d_verts d = vs -> (3 <= length vs)%nat -> inside vs uv ->
  (forall v, In v vs -> eps <= pnorm (uv -p v)) ->
  exists l, barycentric MeanValue eps d uv = Some l /\ length l = length vs /\
    (forall x, In x l -> 0 < x) /\ rsum (length l) (fun i => nth i l 0) = 1.
Proof.
  intros vs d eps uv Hd H3 I He.
  destruct (normalized vs uv ltac:(lia) MeanValue (mean_value_pos vs uv ltac:(lia) I)) as (N & P & S).
  rewrite (bary_closed vs uv d Hd ltac:(lia)) by (intros; cbn [baryRadius]; apply He, nth_In; assumption).
  destruct (Req_EM_T _ 0); [contradiction|]. eexists. split; [reflexivity|]. rewrite tabulate_length. split; [reflexivity|]. split.
  - intros x X. apply in_tabulate in X. destruct X as (i & Hi & ->). apply P; exact Hi.
  - rewrite <- S. apply rsum_ext. intros i Hi. apply nth_error_nth. apply tabulate_nth_error; exact Hi.
Qed.
Print Assumptions C19_mean_value.

Definition tri3 : list V2 := [mkV2 0 0; mkV2 1 0; mkV2 0 1].
Lemma tri3_convex : strictly_convex tri3.
Proof.
  intros k i Hk Hi N1 N2. simpl in Hk, Hi.
  destruct k as [|[|[|k]]]; [| | |lia]; (destruct i as [|[|[|i]]]; [| | |lia]);
    cbv [length tri3 prv Nat.add Nat.sub Nat.modulo Nat.divmod fst snd] in *; try lia;
    unfold sarea, pcross, vtx; simpl; lra.
Qed.

Example C19_example : forall eps, 0 < eps <= 1 ->
  barycentric Wachspress eps (mkDom 3 pzero tri3 [] []) (mkV2 (1/4) (1/2)) = Some [1/4; 1/4; 1/2].
Proof.
  intros eps He. rewrite (bary_closed tri3 _ (mkDom 3 pzero tri3 [] []) eq_refl) by (try (simpl; lia); intros; cbn [baryRadius]; lra).
  assert (W : forall i, (i < 3)%nat -> wfun tri3 (mkV2 (1/4) (1/2)) Wachspress i = nth i [1/16; 1/16; 1/8] 0).
  { intros i Hi. unfold wfun, prodBut, prodBut2, bcr, tri, svec, vtx, sarea, pcross, baryRadius, rprod.
    destruct i as [|[|[|i]]]; [| | |lia]; cbv [length tri3 prv nxt Nat.add Nat.sub Nat.modulo Nat.divmod fst snd nth Nat.eqb seq map fold_right rprod]; simpl; field. }
  assert (S : rsum (length tri3) (wfun tri3 (mkV2 (1/4) (1/2)) Wachspress) = 1/4).
  { rewrite (rsum_ext 3 _ (fun i => nth i [1/16; 1/16; 1/8] 0)) by exact W. cbv [rsum nth]. field. }
  rewrite S. destruct (Req_EM_T (1/4) 0); [lra|]. f_equal. cbv [tabulate length tri3 seq map].
  rewrite !W by lia. simpl. repeat (apply (f_equal2 cons); [field|]). reflexivity.
Qed.

(** ** C20: linear precision. *)
Theorem C20_linear_precision : forall t vs d eps uv l, d_verts d = vs -> (3 <= length vs)%nat ->
  (forall k, (k < length vs)%nat -> sarea (vtx vs (prv (length vs) k)) (vtx vs k) uv <> 0) ->
  (forall v, In v vs -> eps <= match t with Wachspress => 1 | MeanValue => pnorm (uv -p v) | Harmonic => pnorm2 (uv -p v) end) ->
  barycentric t eps d uv = Some l ->
  length l = length vs /\ rsum (length vs) (fun i => nth i l 0) = 1 /\ combination vs (fun i => nth i l 0) uv.
Proof.
  intros t vs d eps uv l Hd H3 Off He B.
  assert (T : forall j, (j < length vs)%nat -> tri vs uv j <> 0).
  { intros j Hj E. apply (Off (nxt (length vs) j)); [apply nxt_lt; lia|]. rewrite prv_nxt by exact Hj.
    unfold tri in E. lra. }
  rewrite (bary_closed vs uv d Hd ltac:(lia)) in B.
  2: { intros i Hi. specialize (He (vtx vs i) (nth_In _ _ Hi)). destruct t; exact He. }
  destruct (Req_EM_T _ 0) as [E|N]; [discriminate|]. injection B as <-.
  split; [apply tabulate_length|]. split.
  - rewrite (rsum_ext _ _ (fun i => wfun vs uv t i / rsum (length vs) (wfun vs uv t))).
    + rewrite rsum_div. unfold Rdiv. apply Rinv_r. exact N.
    + intros i Hi. apply nth_error_nth, tabulate_nth_error; exact Hi.
  - unfold combination. rewrite <- (linear_precision vs uv ltac:(lia) t T N) at 1.
    apply psum_ext. intros i Hi. f_equal. symmetry. apply nth_error_nth, tabulate_nth_error; exact Hi.
Qed.
Print Assumptions C20_linear_precision.

(** Within the tolerance of a vertex the coordinates are those of the vertex. *)
Theorem C20_near_vertex : forall t vs d eps uv i, d_verts d = vs -> (2 <= length vs)%nat -> (i < length vs)%nat -> t <> Wachspress ->
  (match t with Wachspress => 1 | MeanValue => pnorm (uv -p vtx vs i) | Harmonic => pnorm2 (uv -p vtx vs i) end) < eps ->
  (forall j, (j < i)%nat -> eps <= match t with Wachspress => 1 | MeanValue => pnorm (uv -p vtx vs j) | Harmonic => pnorm2 (uv -p vtx vs j) end) ->
  exists l, barycentric t eps d uv = Some l /\ length l = length vs /\ combination vs (fun k => nth k l 0) (vtx vs i) /\
    forall k, (k < length vs)%nat -> nth_error l k = Some (if (k =? i)%nat then 1 else 0).
Proof.
  intros t vs d eps uv i Hd H2 Hi Ht Hr Hj. unfold barycentric. rewrite Hd, areas_closed. cbn [bind]. rewrite vectors_length.
  assert (L : forall is l0, (forall j, In j is -> (j < i)%nat) -> forall rest,
    baryLoop t eps (map (fun p => uv -p p) vs) (tabulate (length vs) (tri vs uv)) l0 (is ++ i :: rest) =
    upd (repeat 0 (length vs)) i 1).
  { intros is; induction is as [|j is IH]; intros l0 Hlt rest; cbn [app baryLoop].
    - rewrite (weight_break vs uv t eps i H2 Hi) by (unfold svec; destruct t; exact Hr). cbn [bind]. rewrite vectors_length. reflexivity.
    - assert (j < i)%nat by (apply Hlt; left; reflexivity).
      rewrite (weight_closed vs uv t eps j H2 ltac:(lia)) by (unfold svec; specialize (Hj j H); destruct t; exact Hj).
      cbn [bind]. apply IH. intros k Hk; apply Hlt; right; exact Hk. }
  replace (seq 0 (length vs)) with (seq 0 i ++ i :: seq (S i) (length vs - S i)).
  2: { replace (length vs) with (i + S (length vs - S i))%nat at 2 by lia. rewrite seq_app. reflexivity. }
  rewrite L by (intros j Hj'; apply in_seq in Hj'; lia).
  destruct (upd_spec _ (repeat 0 (length vs)) i 1) as (l & E & Ll & Ln); [rewrite repeat_length; exact Hi|].
  rewrite repeat_length in Ll. rewrite E. cbn [bind].
  assert (Nl : forall k, (k < length vs)%nat -> nth k l 0 = if (k =? i)%nat then 1 else 0).
  { intros k Hk. apply nth_error_nth. rewrite Ln. destruct (Nat.eqb_spec k i); [reflexivity|].
    rewrite (nth_error_nth' _ 0) by (rewrite repeat_length; exact Hk). f_equal. apply nth_repeat. }
  assert (S : accumulate l = 1).
  { rewrite accumulate_rsum, Ll. rewrite (rsum_single _ _ i Hi).
    - rewrite Nl by exact Hi. rewrite Nat.eqb_refl. reflexivity.
    - intros k Hk Nk. rewrite Nl by exact Hk. destruct (Nat.eqb_spec k i); [contradiction|reflexivity]. }
  rewrite S. exists l. split.
  - clear - l. induction l as [|x l IH]; [reflexivity|]. cbn [mapM]. rewrite fdiv_some by lra. cbn [bind]. rewrite IH. cbn [bind].
    replace (x / 1) with x by field. reflexivity.
  - split; [exact Ll|]. split; [unfold combination; apply V2_ext; rewrite ?psum_x, ?psum_y; simpl;
      rewrite (rsum_single _ _ i Hi); rewrite ?Nl by exact Hi; rewrite ?Nat.eqb_refl; try ring;
      intros k Hk Nk; rewrite Nl by exact Hk; (destruct (Nat.eqb_spec k i); [contradiction|ring])|].
    intros k Hk. rewrite (nth_error_nth' l 0) by lia. rewrite Nl by exact Hk. reflexivity.
Qed.
Print Assumptions C20_near_vertex.

Example C20_example : combination tri3 (fun i => nth i [1/4; 1/4; 1/2] 0) (mkV2 (1/4) (1/2)).
Proof. unfold combination. cbv [length tri3 psum vtx nth]. apply V2_ext; simpl; field. Qed.

(** ** C21: coordinates on a side. *)
Lemma edgePoint_side : forall d e s uv, d_n d = length (d_verts d) -> (e < length (d_verts d))%nat ->
  edgePoint d e s = Some uv -> uv = sidePt (d_verts d) e s.
Proof.
  intros d e s uv Hn He E. unfold edgePoint in E. rewrite Hn in E.
  rewrite (nth_error_nth' (d_verts d) pzero He) in E.
  rewrite (nth_error_nth' (d_verts d) pzero (prv_lt (length (d_verts d)) e ltac:(lia))) in E. cbn [bind] in E. injection E as <-. reflexivity.
Qed.

Theorem C21_linear_on_side : forall d eps e s uv, let vs := d_verts d in let n := length vs in
  d_n d = n -> (3 <= n)%nat -> strictly_convex vs -> (e < n)%nat -> 0 <= s <= 1 -> 0 < eps <= 1 ->
  edgePoint d e s = Some uv ->
  exists l, barycentric Wachspress eps d uv = Some l /\ length l = n /\
    nth_error l e = Some s /\ nth_error l (prv n e) = Some (1 - s) /\
    forall i, (i < n)%nat -> i <> e -> i <> prv n e -> nth_error l i = Some 0.
Proof.
  intros d eps e s uv vs n Hn H3 C He Hs Hp E. rewrite (edgePoint_side d e s uv Hn He E).
  exact (side_linear vs e s C H3 He Hs d eps eq_refl Hp).
Qed.
Print Assumptions C21_linear_on_side.

Example C21_example : edgePoint (mkDom 3 pzero tri3 [] []) 2 (1/4) = Some (mkV2 (3/4) (1/4)).
Proof. unfold edgePoint. simpl. f_equal. apply V2_ext; simpl; field. Qed.

(** ** C22: ribbon coordinates on the boundary.

    [constrained_sds n e s sds] says: entry [e] is (s, 0), the next entry is
    (0, 1-s), the previous one is (1, s); [boundary_sds] leaves the two
    distances open. *)

Lemma edge_of_frames : forall c vs d e s uv, domainFrames c vs = Some d -> (e < length vs)%nat ->
  edgePoint d e s = Some uv -> uv = sidePt vs e s.
Proof.
  intros c vs d e s uv Hd He E. pose proof (d_verts_eq c vs d Hd) as V. pose proof (d_n_eq c vs d Hd) as N. rewrite <- V in N, He |- *.
  exact (edgePoint_side d e s uv N He E).
Qed.

Theorem C22_barycentric : forall c vs d eps e s uv, domainFrames c vs = Some d -> (3 <= length vs)%nat -> strictly_convex vs -> inside vs c ->
  (e < length vs)%nat -> 0 < eps -> eps <= s <= 1 - eps -> edgePoint d e s = Some uv ->
  exists sds, mapToRibbons (KBary Wachspress) eps d uv = Some sds /\ constrained_sds (length vs) e s sds.
Proof.
  intros c vs d eps e s uv Hd H3 C I He Hp Hs E. rewrite (edge_of_frames c vs d e s uv Hd He E).
  apply (bary_sds c vs d Hd H3 C I eps e s He Hp); lra.
Qed.
Print Assumptions C22_barycentric.

(** On the whole side, ends included: everything is defined, the side itself
    and the next one are exact, and the previous one is exact except within
    the tolerance of the last corner, where its parameter may become 0. *)
Theorem C22_barycentric_ends : forall c vs d eps e s uv, let n := length vs in
  domainFrames c vs = Some d -> (3 <= n)%nat -> strictly_convex vs -> inside vs c ->
  (e < n)%nat -> 0 < eps <= 1 -> 0 <= s <= 1 -> edgePoint d e s = Some uv ->
  exists al, angle d (prv n e) = Some al /\
  baryMap Wachspress eps d e uv = Some (mkV2 s 0) /\
  baryMap Wachspress eps d (nxt n e) uv = Some (mkV2 0 (1 - s)) /\
  (exists sp, baryMap Wachspress eps d (prv n e) uv = Some (mkV2 sp s) /\
     (eps <= 1 - s \/ eps <= sin al * (sarea (vtx vs (prv n (prv n (prv n e)))) (vtx vs (prv n (prv n e))) uv
        / pnorm (vtx vs (prv n (prv n e)) -p vtx vs (prv n (prv n (prv n e))))) -> sp = 1)) /\
  forall i, (i < n)%nat -> exists r, baryMap Wachspress eps d i uv = Some r.
Proof.
  intros c vs d eps e s uv n Hd H3 C I He Hp Hs E. rewrite (edge_of_frames c vs d e s uv Hd He E).
  destruct (bary_ribbon_values c vs d Hd H3 C I eps e s He Hp Hs) as (al & A & B0 & B1 & B2 & BT).
  exists al. repeat split; try assumption. eexists. split; [exact B2|]. fold n.
  intros [L|L]; (destruct (Rlt_dec (1 - s) eps); [|reflexivity]); [lra|].
  destruct (Rlt_dec _ eps) as [L'|L']; [|reflexivity]. exfalso. unfold sidevec in L'. fold n in L'. lra.
Qed.
Print Assumptions C22_barycentric_ends.

(** On a triangle the last corner of a side does get the wrong end. *)
Theorem C22_triangle_corner : forall c vs d eps e uv, domainFrames c vs = Some d -> length vs = 3%nat -> strictly_convex vs -> inside vs c ->
  (e < 3)%nat -> 0 < eps <= 1 -> edgePoint d e 1 = Some uv ->
  baryMap Wachspress eps d (prv 3 e) uv = Some (mkV2 0 1).
Proof.
  intros c vs d eps e uv Hd L C I He Hp E. rewrite (edge_of_frames c vs d e 1 uv Hd ltac:(lia) E).
  exact (triangle_corner c vs d eps e Hd L C I He Hp).
Qed.
Print Assumptions C22_triangle_corner.

Theorem C22_constrained : forall c vs d eps e s uv, domainFrames c vs = Some d -> (3 <= length vs)%nat -> strictly_convex vs -> inside vs c ->
  (e < length vs)%nat -> 0 < eps -> eps <= s <= 1 - eps -> edgePoint d e s = Some uv ->
  exists sds, mapToRibbons (KConstrained Wachspress) eps d uv = Some sds /\ constrained_sds (length vs) e s sds.
Proof.
  intros c vs d eps e s uv Hd H3 C I He Hp Hs E. rewrite (edge_of_frames c vs d e s uv Hd He E).
  apply (constrained_sds_ok c vs d Hd H3 C I eps e s He Hp); lra.
Qed.
Print Assumptions C22_constrained.

(** Bilinear on any convex polygon, under the solver's tolerance conditions. *)
Theorem C22_bilinear : forall c vs d eps e s uv, let n := length vs in
  domainFrames c vs = Some d -> (3 <= n)%nat -> strictly_convex vs -> inside vs c ->
  (e < n)%nat -> 0 < eps -> 0 <= s <= 1 -> ((4 <= n)%nat \/ 0 < s < 1) ->
  solvable vs eps e s 0 -> solvable vs eps (nxt n e) 0 (1 - s) -> solvable vs eps (prv n e) 1 s ->
  edgePoint d e s = Some uv ->
  bilinearMap eps d e uv = Some (mkV2 s 0) /\
  bilinearMap eps d (nxt n e) uv = Some (mkV2 0 (1 - s)) /\
  bilinearMap eps d (prv n e) uv = Some (mkV2 1 s).
Proof.
  intros c vs d eps e s uv n Hd H3 C I He Hp Hs Hq S1 S2 S3 E. rewrite (edge_of_frames c vs d e s uv Hd He E).
  exact (bilinear_on_side c vs d Hd H3 C I eps e s He Hp Hs Hq S1 S2 S3).
Qed.
Print Assumptions C22_bilinear.

(** On the regular domain the conditions are explicit. *)
Definition regular_tolerance (m : nat) (eps s : R) : Prop :=
  ((4 <= m)%nat -> eps <= sin (2 * PI / INR m)) /\
  (m = 3%nat -> eps <= sin (2 * PI / 3) * s /\ eps <= sin (2 * PI / 3) * (1 - s)).

Theorem C22_bilinear_regular : forall m vs d eps e s uv, (3 <= m)%nat -> regularVertices m = Some vs -> domainFrames pzero vs = Some d ->
  (e < m)%nat -> 0 < eps -> 0 <= s <= 1 -> regular_tolerance m eps s -> edgePoint d e s = Some uv ->
  exists sds, mapToRibbons KBilinear eps d uv = Some sds /\ constrained_sds m e s sds.
Proof.
  intros m vs d eps e s uv H3 Hv Hd He Hp Hs [T4 T3] E. destruct (regular_convex m vs H3 Hv) as (L & _).
  rewrite (edge_of_frames pzero vs d e s uv Hd ltac:(lia) E).
  exact (reg_bilinear_sds m vs d H3 Hv Hd eps s e He Hp Hs T4 T3).
Qed.
Print Assumptions C22_bilinear_regular.

Theorem C22_interconnected_regular : forall m vs d eps e s uv, (3 <= m)%nat -> regularVertices m = Some vs -> domainFrames pzero vs = Some d ->
  (e < m)%nat -> 0 < eps -> 0 <= s <= 1 -> regular_tolerance m eps s -> edgePoint d e s = Some uv ->
  exists sds, mapToRibbons KInterconnected eps d uv = Some sds /\ constrained_sds m e s sds.
Proof.
  intros m vs d eps e s uv H3 Hv Hd He Hp Hs [T4 T3] E. destruct (regular_convex m vs H3 Hv) as (L & _).
  rewrite (edge_of_frames pzero vs d e s uv Hd ltac:(lia) E).
  exact (reg_interconnected_sds m vs d H3 Hv Hd eps s e He Hp Hs T4 T3).
Qed.
Print Assumptions C22_interconnected_regular.

Theorem C22_parallel_regular : forall m vs d eps e s uv, (3 <= m)%nat -> regularVertices m = Some vs -> domainFrames pzero vs = Some d ->
  (e < m)%nat -> 0 < eps -> 0 <= s <= 1 -> regular_tolerance m eps s -> edgePoint d e s = Some uv ->
  exists sds, mapToRibbons KParallel eps d uv = Some sds /\ boundary_sds m e s sds.
Proof.
  intros m vs d eps e s uv H3 Hv Hd He Hp Hs [T4 T3] E. destruct (regular_convex m vs H3 Hv) as (L & C & I).
  rewrite (edge_of_frames pzero vs d e s uv Hd ltac:(lia) E).
  destruct (multipliers_some pzero vs d Hd ltac:(lia) C I) as (ms & M & Lm & _).
  apply (reg_parallel_sds m vs d H3 Hv Hd eps s e He Hp Hs T4 T3 KParallel ms); [left; auto|lia].
Qed.
Print Assumptions C22_parallel_regular.

(** The circular parameterization returns the distance in both coordinates;
    on the boundary circle it is 0 for the side itself, s and 1-s for its
    neighbours and 1 for every other side. *)
Theorem C22_circular : forall eps n e s i, 0 < eps -> (3 <= n)%nat -> (e < n)%nat -> (i < n)%nat -> 0 <= s <= 1 ->
  let h := if (i =? e)%nat then 0 else if (i =? prv n e)%nat then s else if (i =? nxt n e)%nat then 1 - s else 1 in
  circularMap eps n i (mkV2 1 (2 * PI * (INR e + s) / INR n)) = Some (mkV2 h h).
Proof.
  intros eps n e s i Hp H3 He Hi Hs h.
  destruct (le_lt_dec i e) as [L|L].
  - rewrite (circular_boundary eps n i e s (e - i)) by (try lia; assumption). do 2 f_equal;
    unfold h; rewrite prv_cases, nxt_cases by exact He; destruct (Nat.eqb_spec e 0), (Nat.eqb_spec (S e) n);
    repeat (match goal with |- context [Nat.eqb ?a ?b] => destruct (Nat.eqb_spec a b); try lia end); try reflexivity.
  - rewrite (circular_boundary eps n i e s (e + n - i)) by (try lia; assumption). do 2 f_equal;
    unfold h; rewrite prv_cases, nxt_cases by exact He; destruct (Nat.eqb_spec e 0), (Nat.eqb_spec (S e) n);
    repeat (match goal with |- context [Nat.eqb ?a ?b] => destruct (Nat.eqb_spec a b); try lia end); try reflexivity.
Qed.
Print Assumptions C22_circular.

Example C22_example : regular_tolerance 4 1 0 /\ constrained_sds 4 1 (1/4) [mkV2 1 (1/4); mkV2 (1/4) 0; mkV2 0 (3/4); mkV2 (3/4) 1].
Proof.
  split.
  - split; [intros _|lia]. replace (2 * PI / INR 4) with (PI / 2) by (simpl; field). rewrite sin_PI2. lra.
  - unfold constrained_sds. cbv [nxt prv Nat.add Nat.sub Nat.modulo Nat.divmod fst snd nth_error length]. repeat split; do 2 f_equal; lra.
Qed.

(** ** C23: the bilinear parameterization inverts the bilinear map. *)
Theorem C23_bilinear_inverse : forall c vs d eps i s t, let n := length vs in
  domainFrames c vs = Some d -> (3 <= n)%nat -> strictly_convex vs -> inside vs c ->
  (i < n)%nat -> 0 < eps -> 0 <= s <= 1 -> 0 <= t <= 1 -> ((4 <= n)%nat \/ t < 1) -> solvable vs eps i s t ->
  let low := vtx vs (prv n i) *p (1 - s) +p vtx vs i *p s in
  let high := vtx vs (prv n (prv n i)) *p (1 - s) +p vtx vs (nxt n i) *p s in
  bilinearMap eps d i (low *p (1 - t) +p high *p t) = Some (mkV2 s t).
Proof.
  intros c vs d eps i s t n Hd H3 C I Hi Hp Hs Ht Hq S low high.
  rewrite <- (bilinear_in_quad c vs d Hd H3 C I eps i s t Hi Hp Hs Ht Hq S). f_equal.
  unfold biImage, low, high. fold n. apply V2_ext; simpl; ring.
Qed.
Print Assumptions C23_bilinear_inverse.

(** On the regular domain with at least four sides the only condition is on
    the tolerance. *)
Theorem C23_regular : forall m vs d eps i s t, (4 <= m)%nat -> regularVertices m = Some vs -> domainFrames pzero vs = Some d ->
  (i < m)%nat -> 0 < eps <= sin (2 * PI / INR m) -> 0 <= s <= 1 -> 0 <= t <= 1 ->
  let low := vtx vs (prv m i) *p (1 - s) +p vtx vs i *p s in
  let high := vtx vs (prv m (prv m i)) *p (1 - s) +p vtx vs (nxt m i) *p s in
  bilinearMap eps d i (low *p (1 - t) +p high *p t) = Some (mkV2 s t).
Proof.
  intros m vs d eps i s t H4 Hv Hd Hi Hp Hs Ht.
  destruct (regular_convex m vs ltac:(lia) Hv) as (L & C & I).
  pose proof (C23_bilinear_inverse pzero vs d eps i s t) as X. cbv zeta in X. rewrite L in X.
  apply X; try assumption; try lia; try lra. apply (regular_solvable m); try assumption; try lia. intros _; lra.
Qed.
Print Assumptions C23_regular.

Example C23_example : forall vs i s t, regularVertices 4 = Some vs -> (i < 4)%nat -> solvable vs 1 i s t.
Proof. intros vs i s t Hv Hi. destruct (square_heights vs i s t Hv Hi) as (A & B & C). left. rewrite A, B, C. lra. Qed.

(** ** C24: caches.

    [disciplined false os = Some true]: in the history [os] no query happens
    between a change of the domain and the next update, and the last change
    was followed by an update. *)
Theorem C24_cache_invisible : forall k eps os d0 st0 d st uv, well_formed d0 -> domains_ok os ->
  disciplined false os = Some true -> prun k eps (d0, st0) os = Some (d, st) ->
  match mapToRibbonsObj k eps d st uv with Some (l, _) => Some l | None => None end = mapToRibbons k eps d uv.
Proof. exact history. Qed.
Print Assumptions C24_cache_invisible.

(** Entry [i] of the answer is what mapToRibbon returns on the object. *)
Theorem C24_entries : forall k eps os d0 st0 d st uv l st' i, well_formed d0 -> domains_ok os ->
  disciplined false os = Some true -> prun k eps (d0, st0) os = Some (d, st) ->
  mapToRibbonsObj k eps d st uv = Some (l, st') -> (i < d_n d)%nat ->
  exists r s1 s2, mapToRibbonObj k eps d st i uv = Some (r, s1) /\ mapToRibbonObj k eps d st' i uv = Some (r, s2) /\ nth_error l i = Some r.
Proof.
  intros k eps os d0 st0 d st uv l st' i W Ws D R Q Hi.
  pose proof (prun_good k eps os false d0 st0 d st W Ws ltac:(discriminate) D R) as G.
  pose proof (mapToRibbonsObj_ok k eps d st uv G) as A. rewrite Q in A. destruct A as [A G'].
  pose proof (mapM_seq_nth _ _ _ _ i A Hi) as N. cbn beta in N.
  assert (L : length l = d_n d) by (apply mapM_length in A; rewrite seq_length in A; exact A).
  destruct (nth_error_ex _ l i ltac:(lia)) as [r E]. rewrite E in N. exists r.
  pose proof (mapToRibbonObj_ok k eps d st i uv G) as M1. pose proof (mapToRibbonObj_ok k eps d st' i uv G') as M2.
  destruct (mapToRibbonObj k eps d st i uv) as [[r1 s1]|]; simpl in M1; [destruct M1 as [M1 _]|]; [|congruence].
  destruct (mapToRibbonObj k eps d st' i uv) as [[r2 s2]|]; simpl in M2; [destruct M2 as [M2 _]|]; [|congruence].
  exists s1, s2. rewrite M1 in N. rewrite M1 in M2. injection N as <-. injection M2 as <-. auto.
Qed.
Print Assumptions C24_entries.

(** The discipline is needed: after a change of the domain without an update
    the old answer is returned, whatever the new domain is. *)
Theorem C24_stale_without_update : forall k eps d1 d2 st uv l st', k <> KInterconnected ->
  mapToRibbonsObj k eps d1 st uv = Some (l, st') ->
  prun k eps (d1, st) [PQuery uv; PDomain d2] = Some (d2, st') /\
  mapToRibbonsObj k eps d2 st' uv = Some (l, st').
Proof.
  intros k eps d1 d2 st uv l st' K H. split; [|exact (stale k eps d1 d2 st uv l st' K H)].
  unfold prun. cbn [foldM pstep fst snd]. rewrite H. reflexivity.
Qed.
Print Assumptions C24_stale_without_update.

Example C24_example : forall eps d0 st d1 d2 a b,
  disciplined false [PDomain d1; PUpdate; PQuery a; PQuery a; PQuery b; PDomain d2; PUpdate; PQuery a] = Some true /\
  disciplined false [PDomain d1; PUpdate; PQuery a; PDomain d2; PQuery a] = None /\
  exists st', prun KBilinear eps (d0, st) [PDomain d1; PUpdate] = Some (d1, st') /\ ps_n st' = length (d_verts d1).
Proof. intros. repeat split. eexists. split; reflexivity. Qed.

(** ** C25: bisection. *)
Theorem C25_range : forall eps f xl xh, xl <= xh -> xl <= bisect eps f xl xh <= xh.
Proof. exact bisect_range. Qed.
Print Assumptions C25_range.

(** With a sign change at the ends, the result is a zero, or an end or the
    midpoint of a bracket with a sign change that was reached by halving; it
    is an end only after all 100 steps, and a midpoint only when half of the
    bracket is below the relative tolerance. *)
Theorem C25_bracket : forall eps f xl xh, xl < xh ->
  (forall x, xl <= x <= xh -> exists y, f x = Some y) -> sign_change f xl xh ->
  let r := bisect eps f xl xh in
  f r = Some 0 \/
  exists j a b, (j <= 100)%nat /\ xl <= a /\ b <= xh /\ b - a = (xh - xl) / 2 ^ j /\ sign_change f a b /\
    ((j = 100%nat /\ (r = a \/ r = b)) \/ (r = (a + b) / 2 /\ (b - a) / 2 < eps * Rabs r)).
Proof.
  intros eps f xl xh H T S. exact (bisectLoop_bracket eps f 100 xl xh xl H (or_introl eq_refl) T S).
Qed.
Print Assumptions C25_bracket.

(** For a continuous function it is close to a zero. *)
Theorem C25_root : forall eps f g xl xh, xl < xh ->
  (forall x, xl <= x <= xh -> f x = Some (g x)) -> (forall x, xl <= x <= xh -> continuity_pt g x) ->
  g xl * g xh < 0 ->
  let r := bisect eps f xl xh in
  exists z, xl <= z <= xh /\ g z = 0 /\ (Rabs (r - z) < eps * Rabs r \/ Rabs (r - z) <= (xh - xl) / 2 ^ 100).
Proof. exact bisect_root. Qed.
Print Assumptions C25_root.

Theorem C25_distance_range : forall eps n i uv, n <> 0%nat -> exists h, circularMap eps n i uv = Some (mkV2 h h) /\ 0 <= h <= 1.
Proof. exact circular_range. Qed.
Print Assumptions C25_distance_range.

Example C25_example : bisect (1/100) (fun x => Some (x - 1/2)) 0 1 = 1/2.
Proof.
  unfold bisect. change 100%nat with (S 99). generalize 99%nat. intros k. cbn [bisectLoop]. replace ((0 + 1) / 2) with (1/2) by field.
  destruct (Req_EM_T (1/2) 0); [lra|]. replace ((1/2 - 0) / (1/2)) with 1 by field. rewrite Rabs_R1.
  destruct (Rlt_dec 1 (1/100)); [lra|]. replace (1/2 - 1/2) with 0 by ring. rewrite Rmult_0_r.
  destruct (Rlt_dec 0 0); [lra|]. reflexivity.
Qed.
