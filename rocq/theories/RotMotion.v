(** Turning and shifting a domain. *)
From Verif Require Import Base MeshModel GeomSpec DomainModel UtilModel UtilProofs ParamModel.
From Verif Require Import DomainProofs DomainPolygons MeshGeom MeshGeom2 ParamBary RibbonModel SurfaceModel GBModel RotSpec RotProofs RotParam.
Open Scope R_scope.

Section Motion.
Variables (c s : R) (t : V2).
Hypothesis Un : c * c + s * s = 1.
Definition lin (p : V2) : V2 := mkV2 (c * px p - s * py p) (s * px p + c * py p).
Notation T := (turned c s t).
Definition moveDom (d : dom) : dom := mkDom (d_n d) (T (d_center d)) (map T (d_verts d)) (map lin (d_du d)) (map lin (d_dv d)).

Lemma T_sub : forall p q, T p -p T q = lin (p -p q).
Proof. intros. unfold turned, lin. v2ring. Qed.
Lemma lin_sub : forall p q, lin p -p lin q = lin (p -p q).
Proof. intros. unfold lin. v2ring. Qed.
Lemma lin_add : forall p q, lin p +p lin q = lin (p +p q).
Proof. intros. unfold lin. v2ring. Qed.
Lemma lin_scale : forall p r, lin p *p r = lin (p *p r).
Proof. intros. unfold lin. v2ring. Qed.
Lemma lin_opp : forall p, popp (lin p) = lin (popp p).
Proof. intros. unfold lin, popp. v2ring. Qed.
Lemma lin_dot : forall p q, pdot (lin p) (lin q) = pdot p q.
Proof. intros [a b] [x y]. unfold pdot, lin. cbn [px py]. transitivity ((c * c + s * s) * (a * x + b * y)); [ring|rewrite Un; ring]. Qed.
Lemma lin_cross : forall p q, px (lin p) * py (lin q) - py (lin p) * px (lin q) = px p * py q - py p * px q.
Proof. intros [a b] [x y]. unfold lin. cbn [px py]. transitivity ((c * c + s * s) * (a * y - b * x)); [ring|rewrite Un; ring]. Qed.
Lemma lin_norm : forall p, pnorm (lin p) = pnorm p.
Proof. intros. unfold pnorm. rewrite lin_dot. reflexivity. Qed.
Lemma lin_norm2 : forall p, pnorm2 (lin p) = pnorm2 p.
Proof. intros. apply lin_dot. Qed.
Lemma lin_radius : forall b p, baryRadius b (lin p) = baryRadius b p.
Proof. intros [| |] p; cbn [baryRadius]; [reflexivity|apply lin_norm|apply lin_norm2]. Qed.
Lemma lin_normalize : forall p, pnormalize (lin p) = option_map lin (pnormalize p).
Proof.
  intros p. unfold pnormalize. rewrite lin_norm. unfold pdiv. destruct (Req_EM_T (pnorm p) 0); [reflexivity|]. cbn [option_map]. f_equal. unfold lin, pscale. apply V2_ext; cbn [px py]; field; assumption.
Qed.
Lemma lin_turn : forall p, mkV2 (py (lin p)) (- px (lin p)) = lin (mkV2 (py p) (- px p)).
Proof. intros. unfold lin. v2ring. Qed.

Lemma bind_some_map : forall A B C (x : option A) (f : A -> B) (g : B -> option C), bind (option_map f x) g = bind x (fun a => g (f a)).
Proof. intros A B C [a|] f g; reflexivity. Qed.

Lemma mapM_post : forall A B C (F : B -> C) (G : A -> option B) l, mapM (fun i => option_map F (G i)) l = option_map (map F) (mapM G l).
Proof. intros A B C F G l; induction l as [|a l IH]; [reflexivity|]. cbn [mapM]. rewrite IH. destruct (G a); [|reflexivity]. destruct (mapM G l); reflexivity. Qed.

Lemma frames_move : forall ce vs, domainFrames (T ce) (map T vs) = option_map moveDom (domainFrames ce vs).
Proof.
  intros ce vs. unfold domainFrames. rewrite map_length. remember (length vs) as n eqn:E. clear E.
  rewrite (mapM_ext _ (fun i => option_map (fun f => (lin (fst f), lin (snd f))) (vi <- nth_error vs i ;; vp <- nth_error vs (prv n i) ;; let du := vi -p vp in let dv := mkV2 (py du) (- px du) in
    Some (du, if Rlt_dec (pdot (ce -p vi) dv) 0 then popp dv else dv)))).
  - rewrite mapM_post, bind_some_map, map_bind_out. apply bind_cong. intros fr _. cbn [option_map]. unfold moveDom. cbn [d_n d_center d_verts d_du d_dv]. do 2 f_equal; rewrite !map_map; reflexivity.
  - intros i _. rewrite !nth_error_map. destruct (nth_error vs i) as [vi|]; [|reflexivity]. destruct (nth_error vs (prv n i)) as [vp|]; [|reflexivity]. cbn [bind option_map]. rewrite !T_sub.
    cbv beta zeta. rewrite lin_turn, lin_dot. cbn [option_map fst snd]. do 2 f_equal. destruct (Rlt_dec _ 0); [apply lin_opp|reflexivity].
Qed.

Section Dom.
Variable d : dom.
Notation d' := (moveDom d).
Lemma toLocal_move : forall i v, toLocal d' i (lin v) = toLocal d i v.
Proof.
  intros i v. unfold toLocal. cbn [moveDom d_du d_dv]. rewrite !nth_error_map. destruct (nth_error (d_du d) i); [|reflexivity]. destruct (nth_error (d_dv d) i); [|reflexivity]. cbn [bind option_map].
  rewrite !lin_dot, lin_norm2. reflexivity.
Qed.
Lemma fromLocal_move : forall i v, fromLocal d' i v = option_map lin (fromLocal d i v).
Proof.
  intros i v. unfold fromLocal. cbn [moveDom d_du d_dv]. rewrite !nth_error_map. destruct (nth_error (d_du d) i); [|reflexivity]. destruct (nth_error (d_dv d) i); [|reflexivity]. cbn [bind option_map].
  rewrite !lin_scale, lin_add. reflexivity.
Qed.
Lemma edgeLength_move : forall i, edgeLength d' i = edgeLength d i.
Proof.
  intros i. unfold edgeLength. cbn [moveDom d_n d_verts]. rewrite !nth_error_map. destruct (nth_error (d_verts d) i); [|reflexivity]. cbn [bind option_map]. destruct (nth_error (d_verts d) _); [|reflexivity]. cbn [bind option_map].
  rewrite T_sub, lin_norm. reflexivity.
Qed.
Lemma angle_move : forall i, angle d' i = angle d i.
Proof.
  intros i. unfold angle. cbn [moveDom d_n d_verts]. rewrite !nth_error_map. destruct (nth_error (d_verts d) i); [|reflexivity]. cbn [bind option_map]. destruct (nth_error (d_verts d) (prv _ _)); [|reflexivity]. cbn [bind option_map].
  destruct (nth_error (d_verts d) (nxt _ _)); [|reflexivity]. cbn [bind option_map]. rewrite !T_sub, !lin_normalize, bind_some_map. apply bind_cong; intros a _. rewrite bind_some_map. apply bind_cong; intros b _. rewrite lin_dot. reflexivity.
Qed.
Lemma bilinear_move : forall eps i uv, bilinearMap eps d' i (T uv) = bilinearMap eps d i uv.
Proof.
  intros eps i uv. unfold bilinearMap. cbn [moveDom d_n d_verts]. fold (moveDom d). rewrite !nth_error_map.
  destruct (nth_error (d_verts d) (prv2 _ _)); [|reflexivity]. destruct (nth_error (d_verts d) (prv _ _)); [|reflexivity]. destruct (nth_error (d_verts d) i); [|reflexivity]. destruct (nth_error (d_verts d) (nxt _ _)); [|reflexivity].
  cbn [bind option_map]. rewrite !T_sub, !toLocal_move. reflexivity.
Qed.
Lemma interconnected_move : forall eps i uv, interconnectedMap eps d' i (T uv) = interconnectedMap eps d i uv.
Proof. intros eps i uv. unfold interconnectedMap. cbn [moveDom d_n]. fold (moveDom d). rewrite !bilinear_move. reflexivity. Qed.
Lemma maxDist_move : forall i, maxDist d' i = maxDist d i.
Proof.
  intros i. unfold maxDist. cbn [moveDom d_verts]. fold (moveDom d). rewrite nth_error_map. destruct (nth_error (d_verts d) i) as [vi|]; [|reflexivity]. cbn [bind option_map].
  generalize 0. induction (d_verts d) as [|p l IH]; intros m; [reflexivity|]. cbn [map foldM]. rewrite T_sub, toLocal_move. destruct (toLocal d i (p -p vi)); [|reflexivity]. cbn [bind]. apply IH.
Qed.
Lemma multipliers_move : parallelMultipliers d' = parallelMultipliers d.
Proof. unfold parallelMultipliers. cbn [moveDom d_n]. fold (moveDom d). apply mapM_ext. intros i _. rewrite maxDist_move. reflexivity. Qed.
Lemma superd_move : superdMultipliers d' = superdMultipliers d.
Proof.
  unfold superdMultipliers. cbn [moveDom d_n d_verts]. fold (moveDom d). rewrite !nth_error_map. destruct (nth_error (d_verts d) (if (d_n d <=? 6)%nat then 1 else (d_n d - 3) / 2)%nat); [|reflexivity].
  destruct (nth_error (d_verts d) 0); [|reflexivity]. cbn [bind option_map]. rewrite T_sub, toLocal_move. reflexivity.
Qed.
Lemma parallel_move : forall eps ms i uv, parallelMap eps d' ms i (T uv) = parallelMap eps d ms i uv.
Proof.
  intros eps ms i uv. unfold parallelMap. cbn [moveDom d_verts]. fold (moveDom d). rewrite bilinear_move. apply bind_cong; intros sd _. rewrite nth_error_map. destruct (nth_error (d_verts d) i); [|reflexivity]. cbn [bind option_map].
  rewrite T_sub, toLocal_move. reflexivity.
Qed.
Lemma perpPolar_move : forall i uv, perpPolarMap d' i (T uv) = perpPolarMap d i uv.
Proof.
  intros i uv. unfold perpPolarMap. cbn [moveDom d_n d_verts]. fold (moveDom d). rewrite !nth_error_map. destruct (nth_error (d_verts d) (prv _ _)) as [b|]; [|reflexivity]. cbn [bind option_map]. rewrite T_sub, toLocal_move.
  apply bind_cong; intros p _. rewrite fromLocal_move, edgeLength_move. destruct (Rle_dec 0 (px p)).
  - destruct (Rle_dec (px p) 1); [reflexivity|]. destruct (nth_error (d_verts d) i); [|reflexivity]. cbn [bind option_map]. rewrite T_sub, bind_some_map. apply bind_cong; intros vb _. apply bind_cong; intros len _.
    rewrite lin_norm. apply bind_cong; intros dd _. rewrite lin_opp, lin_normalize, bind_some_map. apply bind_cong; intros a _. rewrite lin_normalize, bind_some_map. apply bind_cong; intros e _. rewrite lin_dot. reflexivity.
  - rewrite bind_some_map. apply bind_cong; intros vb _. apply bind_cong; intros len _.
    rewrite lin_norm. apply bind_cong; intros dd _. rewrite lin_normalize, bind_some_map. apply bind_cong; intros a _. rewrite lin_normalize, bind_some_map. apply bind_cong; intros e _. rewrite lin_dot. reflexivity.
Qed.

Lemma areas_move : forall vec, baryAreas (map lin vec) = baryAreas vec.
Proof.
  intros vec. unfold baryAreas. rewrite map_length. apply mapM_ext. intros i _. rewrite !nth_error_map. destruct (nth_error vec i); [|reflexivity]. destruct (nth_error vec (nxt _ _)); [|reflexivity]. cbn [bind option_map]. rewrite lin_cross. reflexivity.
Qed.
Lemma weight_move : forall b eps vec ar i, baryWeight b eps (map lin vec) ar i = baryWeight b eps vec ar i.
Proof.
  intros b eps vec ar i. unfold baryWeight. rewrite map_length. apply bind_cong. intros [[A A1] A2] _. rewrite !nth_error_map.
  destruct (nth_error vec (prv _ _)); [|reflexivity]. destruct (nth_error vec i); [|reflexivity]. destruct (nth_error vec (nxt _ _)); [|reflexivity]. cbn [bind option_map]. rewrite lin_cross, !lin_radius. reflexivity.
Qed.
Lemma loop_move : forall b eps vec ar is l, baryLoop b eps (map lin vec) ar l is = baryLoop b eps vec ar l is.
Proof.
  intros b eps vec ar is; induction is as [|i is IH]; intros l; [reflexivity|]. cbn [baryLoop]. rewrite weight_move. apply bind_cong. intros [x|[]] _; [apply IH|]. rewrite map_length. reflexivity.
Qed.
Lemma bary_move : forall b eps uv, barycentric b eps d' (T uv) = barycentric b eps d uv.
Proof.
  intros b eps uv. unfold barycentric. cbn [moveDom d_verts].
  replace (map (fun p => T uv -p p) (map T (d_verts d))) with (map lin (map (fun p => uv -p p) (d_verts d))) by (rewrite !map_map; apply map_ext; intros; symmetry; apply T_sub).
  rewrite areas_move. apply bind_cong; intros ar _. rewrite loop_move, map_length. reflexivity.
Qed.
Lemma baryRibbon_move : forall eps l i uv, baryRibbon eps d' l i (T uv) = baryRibbon eps d l i uv.
Proof.
  intros eps l i uv. unfold baryRibbon. cbn [moveDom d_n d_verts]. fold (moveDom d). apply bind_cong; intros li _. apply bind_cong; intros lp _. f_equal. destruct (Rlt_dec (lp + li) eps); [|reflexivity].
  rewrite !angle_move. apply bind_cong; intros al _. apply bind_cong; intros be _. rewrite !nth_error_map. destruct (nth_error (d_verts d) (prv _ _)); [|reflexivity]. destruct (nth_error (d_verts d) i); [|reflexivity]. cbn [bind option_map].
  rewrite !T_sub, !toLocal_move, !edgeLength_move. reflexivity.
Qed.
Lemma baryMap_move : forall b eps i uv, baryMap b eps d' i (T uv) = baryMap b eps d i uv.
Proof. intros b eps i uv. unfold baryMap. rewrite bary_move. apply bind_cong; intros l _. apply baryRibbon_move. Qed.
Lemma constrained_move : forall b eps i uv, constrainedMap b eps d' i (T uv) = constrainedMap b eps d i uv.
Proof. intros b eps i uv. unfold constrainedMap. cbn [moveDom d_n]. fold (moveDom d). rewrite !baryMap_move. reflexivity. Qed.
Lemma overlap_move : forall b eps i uv, overlapMap b eps d' i (T uv) = overlapMap b eps d i uv.
Proof. intros b eps i uv. unfold overlapMap. cbn [moveDom d_n]. fold (moveDom d). rewrite !bary_move. reflexivity. Qed.
Lemma polar_move : forall eps i uv, polarMap eps d' i (T uv) = polarMap eps d i uv.
Proof.
  intros eps i uv. unfold polarMap. cbn [moveDom d_n d_verts]. fold (moveDom d). rewrite !nth_error_map. destruct (nth_error (d_verts d) (prv _ _)); [|reflexivity]. destruct (nth_error (d_verts d) i); [|reflexivity]. cbn [bind option_map].
  rewrite !T_sub, lin_norm. destruct (Rlt_dec _ eps); [reflexivity|]. rewrite !lin_normalize, bind_some_map. apply bind_cong; intros a _. rewrite bind_some_map. apply bind_cong; intros b _. rewrite lin_dot, angle_move, bary_move. reflexivity.
Qed.
Lemma map_move_one : forall k eps i uv, mapToRibbon k eps d' i (T uv) = mapToRibbon k eps d i uv.
Proof.
  intros k eps i uv. destruct k; cbn [mapToRibbon].
  - apply baryMap_move.
  - apply bilinear_move.
  - apply interconnected_move.
  - apply constrained_move.
  - rewrite multipliers_move. apply bind_cong; intros m _. apply parallel_move.
  - rewrite superd_move. apply bind_cong; intros m _. apply parallel_move.
  - apply overlap_move.
Qed.
Lemma ribbons_move : forall k eps uv, mapToRibbons k eps d' (T uv) = mapToRibbons k eps d uv.
Proof. intros k eps uv. unfold mapToRibbons. cbn [moveDom d_n]. fold (moveDom d). apply mapM_ext. intros i _. apply map_move_one. Qed.
End Dom.

(** ** The centre *)
Lemma vtx_move : forall vs i, (i < length vs)%nat -> vtx (map T vs) i = T (vtx vs i).
Proof.
  intros vs i Hi. unfold vtx. rewrite (nth_indep (map T vs) pzero (T pzero)) by (rewrite map_length; exact Hi). apply map_nth.
Qed.
Lemma slen_move : forall vs i, (i < length vs)%nat -> slen (map T vs) i = slen vs i.
Proof. intros vs i Hi. unfold slen. rewrite map_length, !vtx_move by (try apply prv_lt; lia). rewrite T_sub, lin_norm. reflexivity. Qed.
Lemma perimeter_move : forall vs, perimeter (map T vs) = perimeter vs.
Proof. intros vs. unfold perimeter. rewrite map_length. apply rsum_ext. intros i Hi. apply slen_move. exact Hi. Qed.
Lemma T_sum : forall n (v : nat -> V2) w, rsum n w = 1 -> psum n (fun i => T (v i) *p w i) = T (psum n (fun i => v i *p w i)).
Proof.
  intros n v w W. unfold turned. apply V2_ext; cbn [px py]; rewrite ?psum_x, ?psum_y; cbn [pscale px py].
  - transitivity (c * rsum n (fun i => px (v i) * w i) - s * rsum n (fun i => py (v i) * w i) + px t * rsum n w); [|rewrite W; ring].
    rewrite <- !rsum_scal, <- rsum_minus, <- rsum_plus. apply rsum_ext. intros; ring.
  - transitivity (s * rsum n (fun i => px (v i) * w i) + c * rsum n (fun i => py (v i) * w i) + py t * rsum n w); [|rewrite W; ring].
    rewrite <- !rsum_scal, <- !rsum_plus. apply rsum_ext. intros; ring.
Qed.
Lemma center_move : forall vs, computeCenter (map T vs) = option_map T (computeCenter vs).
Proof.
  intros vs. destruct (Req_dec (perimeter vs) 0) as [E|E].
  - rewrite !computeCenter_none; [reflexivity|exact E|rewrite perimeter_move; exact E].
  - rewrite !computeCenter_closed by (rewrite ?perimeter_move; exact E). cbn [option_map]. f_equal. rewrite map_length, perimeter_move.
    rewrite <- (T_sum (length vs) (vtx vs)) by (apply center_weights_sum; exact E). apply psum_ext. intros i Hi. rewrite vtx_move, !slen_move by (try exact Hi; apply nxt_lt; lia). reflexivity.
Qed.
End Motion.

Lemma slen_rot : forall vs i, (i < length vs)%nat -> slen (rot vs) i = slen vs (nxt (length vs) i).
Proof. 
  intros vs i Hi. unfold slen. rewrite rot_length. assert (V : forall j, (j < length vs)%nat -> vtx (rot vs) j = vtx vs (nxt (length vs) j)).
  { intros j Hj. unfold vtx. assert (E := rot_nth _ vs (length vs) j eq_refl Hj).
    rewrite (nth_error_nth' vs pzero (n := nxt (length vs) j)) in E by (apply nxt_lt; lia). rewrite (nth_error_nth' (rot vs) pzero (n := j)) in E by (rewrite rot_length; lia). congruence. }
  rewrite !V by (try apply prv_lt; lia). rewrite nxt_prv, prv_nxt by exact Hi. reflexivity.
Qed.
Lemma center_rot : forall vs, computeCenter (rot vs) = computeCenter vs.
Proof.
  intros vs. assert (P : perimeter (rot vs) = perimeter vs).
  { unfold perimeter. rewrite rot_length. rewrite <- (rsum_nxt (length vs) (slen vs)). apply rsum_ext. intros i Hi. apply slen_rot. exact Hi. }
  destruct (Req_dec (perimeter vs) 0) as [E|E].
  - rewrite !computeCenter_none; [reflexivity|exact E|rewrite P; exact E].
  - rewrite !computeCenter_closed by (rewrite ?P; exact E). f_equal. rewrite rot_length, P.
    destruct (Nat.lt_ge_cases (length vs) 2) as [L|L].
    + destruct vs as [|a [|b vs]]; [reflexivity|reflexivity|simpl in L; lia].
    + rewrite <- (psum_nxt (length vs) (fun i => vtx vs i *p ((slen vs i + slen vs (nxt (length vs) i)) / (2 * perimeter vs)))).
      apply psum_ext. intros i Hi. rewrite (vtx_rot vs L i Hi), !slen_rot by (try exact Hi; apply nxt_lt; lia). reflexivity.
Qed.
