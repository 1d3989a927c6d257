(** Properties of the polar parameterization: C61. *)

From Verif Require Import Base MeshModel GeomSpec DomainModel UtilModel UtilSpec ParamModel PolarModel.
From Verif Require Import DomainProofs DomainPolygons UtilProofs ParamBary ParamMaps ParamTame PolarProofs PropsParam.
Open Scope R_scope.

(** ** C61: first coordinate is the share of the angle, second the mean value coordinate.

    [turned v th] is [v] turned clockwise by [th]: from the previous side
    towards the next one, since the polygon is counter-clockwise. *)
Definition turned (v : V2) (th : R) : V2 := mkV2 (px v * cos th + py v * sin th) (py v * cos th - px v * sin th).

Lemma turned_cw : forall v th, turned v th = v *p cos th +p cw v *p sin th.
Proof. intros. unfold turned, cw. apply V2_ext; simpl; ring. Qed.

Theorem C61_angle : forall d i, let vs := d_verts d in let n := length vs in
  let w := vtx vs (prv n i) -p vtx vs i in let w' := vtx vs (nxt n i) -p vtx vs i in
  d_n d = n -> (3 <= n)%nat -> strictly_convex vs -> (i < n)%nat ->
  exists al, angle d i = Some al /\ 0 < al < PI /\ cos al * (pnorm w * pnorm w') = pdot w w' /\
    turned w al *p pnorm w' = w' *p pnorm w /\
    (forall eps t k l li, 0 < eps -> 0 <= t <= 1 -> 0 < k -> let uv := vtx vs i +p turned w (t * al) *p k in
      eps <= pnorm (uv -p vtx vs i) -> barycentric MeanValue eps d uv = Some l -> nth_error l i = Some li ->
      polarMap eps d i uv = Some (mkV2 t li)) /\
    (forall uv, closed_in vs uv -> uv <> vtx vs i ->
      exists t k, 0 <= t <= 1 /\ 0 < k /\ uv = vtx vs i +p turned w (t * al) *p k).
Proof.
  intros d i vs n w w' Hn H3 C Hi.
  destruct (vertex_frame vs d i eq_refl Hn C H3 Hi) as (a & b & al & lp & ln & P1 & P2 & A & Bu & Va & Vb & Ea & Eb & Eal & Ral & Bt).
  fold n w in Va, Ea. fold n w' in Vb, Eb.
  destruct (normalize_scaled a lp A P1) as [_ Nw]. rewrite <- Va in Nw.
  destruct (normalize_scaled b ln Bu P2) as [_ Nw']. rewrite <- Vb in Nw'.
  exists al. split; [exact Eal|]. split; [exact Ral|]. split.
  - rewrite Nw, Nw', Va, Vb, Bt. transitivity (lp * ln * cos al * pdot a a); [rewrite A; ring|unfold pdot, cw; simpl; ring].
  - split; [|split].
    + rewrite Nw, Nw', Va, Vb, Bt, turned_cw. apply V2_ext; unfold cw; simpl; ring.
    + intros eps t k l li He Ht Hk uv Hr B Bi.
      assert (U : uv = vtx vs i +p (a *p cos (t * al) +p cw a *p sin (t * al)) *p (lp * k)).
      { unfold uv. rewrite turned_cw, Va. apply V2_ext; unfold cw; simpl; ring. }
      destruct (angle_of_dir a (t * al) A ltac:(nra)) as [Du _].
      assert (Rn : pnorm (uv -p vtx vs i) = lp * k).
      { rewrite U. replace (vtx vs i +p (a *p cos (t * al) +p cw a *p sin (t * al)) *p (lp * k) -p vtx vs i)
          with ((a *p cos (t * al) +p cw a *p sin (t * al)) *p (lp * k)) by (apply V2_ext; simpl; ring).
        apply normalize_scaled; [exact Du|nra]. }
      rewrite Rn in Hr. rewrite U in B |- *.
      exact (polar_angle vs d i eq_refl Hn C H3 Hi eps t (lp * k) l li ltac:(lra) Ht a al Ea Eal B Bi).
    + intros uv Cl N.
      assert (S2 : 0 <= sarea (vtx vs i) (vtx vs (nxt n i)) uv).
      { pose proof (Cl (nxt n i) (nxt_lt n i ltac:(lia))) as X. fold n in X. rewrite prv_nxt in X by exact Hi. exact X. }
      destruct (polar_share vs d i eq_refl Hn C H3 Hi uv a al Ea Eal N (Cl i Hi) S2) as (t & Ht & U).
      assert (Rp : 0 < pnorm (uv -p vtx vs i)).
      { apply pnorm_pos. intros E. apply N. assert (X := f_equal px E). assert (Y := f_equal py E). simpl in X, Y. apply V2_ext; lra. }
      exists t, (pnorm (uv -p vtx vs i) / lp). split; [exact Ht|]. split; [apply Rmult_lt_0_compat; [exact Rp|apply Rinv_0_lt_compat; exact P1]|].
      set (r := pnorm (uv -p vtx vs i)) in *. rewrite U, turned_cw, Va. apply V2_ext; unfold cw; simpl; field; lra.
Qed.
Print Assumptions C61_angle.

(** At (or within the tolerance of) the vertex the first coordinate is 0. *)
Theorem C61_near : forall d i eps uv, let vs := d_verts d in d_n d = length vs -> (3 <= length vs)%nat -> (i < length vs)%nat ->
  pnorm (uv -p vtx vs i) < eps -> polarMap eps d i uv = Some (mkV2 0 1).
Proof. intros d i eps uv vs Hn H3 Hi L. exact (polar_near vs d i eq_refl Hn H3 Hi eps uv L). Qed.
Print Assumptions C61_near.

(** Inside the polygon both coordinates are in the unit interval. *)
Theorem C61_interior : forall d i eps uv, let vs := d_verts d in let n := length vs in
  d_n d = n -> (3 <= n)%nat -> strictly_convex vs -> (i < n)%nat -> 0 < eps -> inside vs uv ->
  (forall v, In v vs -> eps <= pnorm (uv -p v)) ->
  exists t li l, polarMap eps d i uv = Some (mkV2 t li) /\ 0 <= t <= 1 /\ 0 < li < 1 /\
    barycentric MeanValue eps d uv = Some l /\ nth_error l i = Some li.
Proof.
  intros d i eps uv vs n Hn H3 C Hi He I Far.
  destruct (C19_mean_value vs d eps uv eq_refl H3 I Far) as (l & B & Ll & Pos & Sum).
  assert (Hil : (i < length l)%nat) by (fold n in Ll; lia).
  assert (Bi := nth_error_nth' l 0 Hil). set (li := nth i l 0) in *.
  assert (Fi : eps <= pnorm (uv -p vtx vs i)) by (apply Far, nth_In; exact Hi).
  assert (N : uv <> vtx vs i).
  { intros E. rewrite E in Fi. unfold pnorm, pdot in Fi. simpl in Fi. replace (_ * _ + _ * _) with 0 in Fi by ring. rewrite sqrt_0 in Fi. lra. }
  destruct (C61_angle d i Hn H3 C Hi) as (al & _ & _ & _ & _ & Val & Sh).
  destruct (Sh uv (inside_closed vs uv I) N) as (t & k & Ht & Hk & U).
  exists t, li, l. split; [|split; [exact Ht|split; [|split; [exact B|exact Bi]]]].
  - rewrite U. apply (Val eps t k l li He Ht Hk); rewrite <- ?U; assumption.
  - assert (P : forall j, (j < length l)%nat -> 0 < nth j l 0) by (intros; apply Pos, nth_In; assumption).
    split; [apply P; exact Hil|].
    assert (Hx : (nxt n i < length l)%nat) by (rewrite Ll; apply nxt_lt; unfold n in *; lia).
    assert (Ne : nxt n i <> i) by (apply nxt_neq; unfold n in *; lia).
    set (f := fun j => (if Nat.eqb j i then li else 0) + (if Nat.eqb j (nxt n i) then nth (nxt n i) l 0 else 0)).
    assert (Lt : li + nth (nxt n i) l 0 <= 1).
    { rewrite <- Sum. replace (li + nth (nxt n i) l 0) with (rsum (length l) f).
      - apply rsum_le. intros j Hj. unfold f. destruct (Nat.eqb_spec j i) as [E0|E0]; destruct (Nat.eqb_spec j (nxt n i)) as [E|E].
        + exfalso. apply Ne. rewrite <- E. exact E0.
        + subst j. fold li. lra.
        + subst j. lra.
        + specialize (P j Hj). lra.
      - unfold f. rewrite rsum_plus. f_equal.
        + rewrite (rsum_single _ _ i Hil); [rewrite Nat.eqb_refl; reflexivity|]. intros j _ X. destruct (Nat.eqb_spec j i); [contradiction|reflexivity].
        + rewrite (rsum_single _ _ (nxt n i) Hx); [rewrite Nat.eqb_refl; reflexivity|]. intros j _ X. destruct (Nat.eqb_spec j (nxt n i)); [contradiction|reflexivity]. }
    specialize (P (nxt n i) Hx). lra.
Qed.
Print Assumptions C61_interior.

(** On side [e], away from all vertices: the vertex at its end sees angle 0, the
    vertex at its start the whole angle, and every other vertex has distance 0. *)
Theorem C61_side : forall d e s eps uv, let vs := d_verts d in let n := length vs in
  d_n d = n -> (3 <= n)%nat -> strictly_convex vs -> (e < n)%nat -> 0 < s < 1 -> 0 < eps ->
  edgePoint d e s = Some uv -> (forall v, In v vs -> eps <= pnorm (uv -p v)) ->
  polarMap eps d e uv = Some (mkV2 0 s) /\ polarMap eps d (prv n e) uv = Some (mkV2 1 (1 - s)) /\
  (forall i, (i < n)%nat -> i <> e -> i <> prv n e -> exists t, polarMap eps d i uv = Some (mkV2 t 0) /\ 0 <= t <= 1).
Proof.
  intros d e s eps uv vs n Hn H3 C He Hs Hp E Far.
  assert (U := edgePoint_side d e s uv Hn He E). fold vs in U. clear E.
  assert (Fv : forall i, (i < n)%nat -> eps <= pnorm (uv -p vtx vs i)) by (intros i Hi; apply Far, nth_In; exact Hi).
  destruct (mv_side vs e s C H3 He Hs d eps eq_refl) as (l & B & Ll & Be & Bz & B0); [rewrite <- U; exact Fv|].
  rewrite <- U in B. fold n in Bz, B0.
  assert (Hz : (prv n e < n)%nat) by (apply prv_lt; lia).
  assert (Neq : forall i, (i < n)%nat -> uv <> vtx vs i).
  { intros i Hi X. specialize (Fv i Hi). rewrite X in Fv. unfold pnorm, pdot in Fv. simpl in Fv. replace (_ * _ + _ * _) with 0 in Fv by ring. rewrite sqrt_0 in Fv. lra. }
  split; [|split].
  - destruct (C61_angle d e Hn H3 C He) as (al & _ & _ & _ & _ & Val & _).
    assert (U' : uv = vtx vs e +p turned (vtx vs (prv n e) -p vtx vs e) (0 * al) *p (1 - s)).
    { rewrite U. unfold turned. rewrite Rmult_0_l, cos_0, sin_0. unfold sidePt. fold n. apply V2_ext; simpl; ring. }
    rewrite U' in B |- *. apply (Val eps 0 (1 - s) l s Hp ltac:(lra) ltac:(lra)); [eapply Rle_trans; [apply (Fv e He)|right; rewrite U' at 1; reflexivity]|exact B|exact Be].
  - destruct (C61_angle d (prv n e) Hn H3 C Hz) as (al & _ & _ & _ & Tn & Val & _). fold vs in Tn, Val. fold n in Tn, Val. rewrite (nxt_prv n e He) in Tn.
    set (w := vtx vs (prv n (prv n e)) -p vtx vs (prv n e)) in *. set (w' := vtx vs e -p vtx vs (prv n e)) in *.
    assert (Pw : 0 < pnorm w /\ 0 < pnorm w').
    { pose proof (corner_pos vs ltac:(fold n; lia) C H3 (prv n e) Hz) as P. unfold corner in P. fold n in P. rewrite (nxt_prv n e He) in P.
      split; apply pnorm_pos; intros Q; assert (X := f_equal px Q); assert (Y := f_equal py Q); unfold w, w' in X, Y; simpl in X, Y;
        unfold sarea, pcross in P; simpl in P; rewrite ?X, ?Y in P.
      - replace (px (vtx vs (prv n e)) - px (vtx vs (prv n (prv n e)))) with 0 in P by lra.
        replace (py (vtx vs (prv n e)) - py (vtx vs (prv n (prv n e)))) with 0 in P by lra. lra.
      - replace (px (vtx vs e)) with (px (vtx vs (prv n e))) in P by lra. replace (py (vtx vs e)) with (py (vtx vs (prv n e))) in P by lra. lra. }
    destruct Pw as [Pw Pw'].
    assert (U' : uv = vtx vs (prv n e) +p turned w (1 * al) *p (s * pnorm w' / pnorm w)).
    { rewrite U, Rmult_1_l. unfold sidePt. fold n.
      assert (X := f_equal px Tn). assert (Y := f_equal py Tn). unfold w' in X, Y. cbn [px py pscale psub] in X, Y. fold w' in X, Y.
      apply V2_ext; cbn [px py padd pscale].
      - replace (px (turned w al) * (s * pnorm w' / pnorm w)) with (s * (px (turned w al) * pnorm w') / pnorm w) by (field; lra). rewrite X. field; lra.
      - replace (py (turned w al) * (s * pnorm w' / pnorm w)) with (s * (py (turned w al) * pnorm w') / pnorm w) by (field; lra). rewrite Y. field; lra. }
    assert (Kp : 0 < s * pnorm w' / pnorm w) by (apply Rmult_lt_0_compat; [nra|apply Rinv_0_lt_compat; exact Pw]).
    rewrite U' in B |- *. apply (Val eps 1 _ l (1 - s) Hp ltac:(lra) Kp); [eapply Rle_trans; [apply (Fv _ Hz)|right; rewrite U' at 1; reflexivity]|exact B|exact Bz].
  - intros i Hi N1 N2. destruct (C61_angle d i Hn H3 C Hi) as (al & _ & _ & _ & _ & Val & Sh).
    assert (Cl : closed_in vs uv).
    { rewrite U. intros k Hk. fold n in Hk |- *.
      assert (V : forall j, (j < n)%nat -> 0 <= sarea (vtx vs (prv n k)) (vtx vs k) (vtx vs j)).
      { intros j Hj. destruct (Nat.eq_dec j k) as [->|A]; [unfold sarea, pcross; simpl; lra|].
        destruct (Nat.eq_dec j (prv n k)) as [->|A']; [unfold sarea, pcross; simpl; lra|]. left. apply C; assumption. }
      unfold sidePt. fold n.
      replace (sarea (vtx vs (prv n k)) (vtx vs k) (vtx vs e *p s +p vtx vs (prv n e) *p (1 - s)))
        with (s * sarea (vtx vs (prv n k)) (vtx vs k) (vtx vs e) + (1 - s) * sarea (vtx vs (prv n k)) (vtx vs k) (vtx vs (prv n e)))
        by (unfold sarea, pcross; simpl; ring).
      apply Rplus_le_le_0_compat; apply Rmult_le_pos; try lra; apply V; assumption. }
    destruct (Sh uv Cl (Neq i Hi)) as (t & k & Ht & Hk & Ut). exists t. split; [|exact Ht].
    rewrite Ut in B. rewrite Ut. apply (Val eps t k l 0 Hp Ht Hk); [eapply Rle_trans; [apply (Fv i Hi)|right; rewrite Ut at 1; reflexivity]|exact B|apply B0; assumption].
Qed.
Print Assumptions C61_side.

(** The inverse on the two sides at the vertex, and that it undoes the map there. *)
Theorem C61_inverse_sides : forall d i eps psi dd, let vs := d_verts d in let n := length vs in
  d_n d = n -> (3 <= n)%nat -> (i < n)%nat -> 0 < eps <= 1/2 ->
  (psi < eps -> polarInverse eps d i (mkV2 psi dd) = Some (vtx vs i *p dd +p vtx vs (prv n i) *p (1 - dd))) /\
  (1 - eps < psi -> polarInverse eps d i (mkV2 psi dd) = Some (vtx vs (nxt n i) *p (1 - dd) +p vtx vs i *p dd)).
Proof.
  intros d i eps psi dd vs n Hn H3 Hi He.
  assert (V : forall j, (j < n)%nat -> nth_error (d_verts d) j = Some (vtx vs j)) by (intros; apply nth_error_nth'; assumption).
  assert (Hp : (prv n i < n)%nat) by (apply prv_lt; lia). assert (Hx : (nxt n i < n)%nat) by (apply nxt_lt; lia).
  unfold polarInverse, polarInverseSteps. cbn [px py]. split; intros L.
  - destruct (Rlt_dec psi eps); [|lra]. unfold edgePoint. rewrite Hn, !V by assumption. cbn [bind]. reflexivity.
  - destruct (Rlt_dec psi eps) as [L'|_]; [lra|]. destruct (Rlt_dec (1 - eps) psi); [|lra]. unfold edgePoint. rewrite Hn, (prv_nxt n i Hi), !V by assumption. cbn [bind].
    f_equal. apply V2_ext; simpl; ring.
Qed.
Print Assumptions C61_inverse_sides.

Theorem C61_inverse_undoes : forall d e s eps uv, let vs := d_verts d in let n := length vs in
  d_n d = n -> (3 <= n)%nat -> strictly_convex vs -> (e < n)%nat -> 0 < s < 1 -> 0 < eps <= 1/2 ->
  edgePoint d e s = Some uv -> (forall v, In v vs -> eps <= pnorm (uv -p v)) ->
  forall i, i = e \/ i = prv n e -> exists pd, polarMap eps d i uv = Some pd /\ polarInverse eps d i pd = Some uv.
Proof.
  intros d e s eps uv vs n Hn H3 C He Hs Hp E Far i Hi.
  assert (U := edgePoint_side d e s uv Hn He E). fold vs in U.
  destruct (C61_side d e s eps uv Hn H3 C He Hs ltac:(lra) E Far) as (A & B & _). fold vs in B. fold n in B.
  destruct Hi as [->| ->].
  - eexists. split; [exact A|]. rewrite (proj1 (C61_inverse_sides d e eps 0 s Hn H3 He Hp)) by lra. rewrite U. reflexivity.
  - eexists. split; [exact B|]. assert (Hz : (prv n e < n)%nat) by (apply prv_lt; lia).
    rewrite (proj2 (C61_inverse_sides d (prv n e) eps 1 (1 - s) Hn H3 Hz Hp)) by lra. fold vs; fold n; rewrite (nxt_prv n e He), U. unfold sidePt. fold n. f_equal. apply V2_ext; simpl; ring.
Qed.
Print Assumptions C61_inverse_undoes.

(** The inverse between the two sides.  The result lies on the segment from the
    vertex to a point [q] of a side not touching the vertex; [q] is at most the
    tolerance away from the sweep line (in units of that side), and the position
    on the segment is one end of an interval of length 2^-20 on which the
    distance coordinate passes the target.  When [q] is exactly on the sweep
    line, the result has the requested share of the angle. *)
Theorem C61_inverse : forall d i eps psi dd al r, let vs := d_verts d in let n := length vs in
  let w := vtx vs (prv n i) -p vtx vs i in
  d_n d = n -> (3 <= n)%nat -> strictly_convex vs -> (i < n)%nat -> 0 < eps -> eps <= psi <= 1 - eps ->
  angle d i = Some al -> polarInverse eps d i (mkV2 psi dd) = Some r ->
  exists j t lo hi m, let q := vtx vs (prv n j) *p (1 - t) +p vtx vs j *p t in let at_ x := vtx vs i *p (1 - x) +p q *p x in
    (j < n)%nat /\ j <> i /\ j <> nxt n i /\ 0 <= t <= 1 /\
    Rabs (pcross (turned w (psi * al)) (q -p vtx vs i)) <= eps * Rabs (pcross (turned w (psi * al)) (vtx vs j -p vtx vs (prv n j))) /\
    0 <= lo /\ hi <= 1 /\ hi - lo = / 2 ^ 20 /\ (m = lo \/ m = hi) /\ r = at_ m /\
    (lo = 0 \/ exists sd, polarMap eps d i (at_ lo) = Some sd /\ dd < py sd) /\
    (hi = 1 \/ exists sd, polarMap eps d i (at_ hi) = Some sd /\ py sd <= dd) /\
    (pcross (turned w (psi * al)) (q -p vtx vs i) = 0 -> forall l li, eps <= pnorm (r -p vtx vs i) ->
      barycentric MeanValue eps d r = Some l -> nth_error l i = Some li -> polarMap eps d i r = Some (mkV2 psi li)).
Proof.
  intros d i eps psi dd al r vs n w Hn H3 C Hi He Hp Eal E. unfold polarInverse in E.
  destruct (inverse_inner vs d i eq_refl Hn Hi 19 eps psi dd r He Hp E) as (dir & j & q & lo & hi & m & Ed & J & Ej & A1 & A2 & A3 & A4 & A5 & A6 & A7 & A8). clear E.
  fold n in J. destruct (farSides_in n i j H3 Hi J) as (J1 & J2 & J3 & J4 & J5).
  assert (V : forall j, (j < n)%nat -> nth_error (d_verts d) j = Some (vtx vs j)) by (intros; apply nth_error_nth'; assumption).
  assert (V1 : nth_error (d_verts d) (prv (d_n d) j) = Some (vtx vs (prv n j))) by (rewrite Hn; apply V; exact J4).
  destruct (hit_on_side eps d j (vtx vs i) dir _ _ He V1 (V j J1) q Ej) as (t & Ht & Q & _).
  destruct (hit_near_line eps d j (vtx vs i) dir _ _ He V1 (V j J1) q Ej) as (Nl & _).
  destruct (vertex_frame vs d i eq_refl Hn C H3 Hi) as (a & b & al' & lp & ln & P1 & P2 & A & Bu & Va & Vb & Ea & Eb & Eal' & Ral & Bt).
  assert (al' = al) by congruence. subst al'. clear Eal'. fold n w in Va, Ea.
  rewrite (sweep_value vs d i eq_refl Hn C H3 Hi eps psi a al He Ea Eal) in Ed. injection Ed as Ed.
  assert (Tw : turned w (psi * al) = dir *p lp) by (rewrite turned_cw, Va, <- Ed; apply V2_ext; unfold cw; simpl; ring).
  assert (Sc : forall x, pcross (dir *p lp) x = lp * pcross dir x) by (intros; unfold pcross; simpl; ring).
  exists j, t, lo, hi, m. cbv zeta. rewrite <- Q.
  split; [exact J1|]. split; [exact J2|]. split; [exact J3|]. split; [exact Ht|]. split.
  { rewrite Tw, !Sc, !Rabs_mult. pose proof (Rabs_pos lp). assert (Rabs lp * Rabs (pcross dir (q -p vtx vs i)) <= Rabs lp * (eps * Rabs (pcross dir (vtx vs j -p vtx vs (prv n j))))) by (apply Rmult_le_compat_l; assumption). lra. }
  split; [exact A1|]. split; [exact A3|]. split; [exact A4|]. split; [exact A5|]. split; [exact A6|]. split; [exact A7|]. split; [exact A8|].
  intros Z l li Fr B Bi. rewrite Tw, Sc in Z. assert (Z' : pcross dir (q -p vtx vs i) = 0) by (apply Rmult_integral in Z; destruct Z; [lra|assumption]). clear Z.
  assert (M0 : 0 <= m) by (destruct A5; subst m; lra).
  assert (Hx : (nxt n i < n)%nat) by (apply nxt_lt; lia). assert (Hpi : (prv n i < n)%nat) by (apply prv_lt; lia).
  assert (Ri : r -p vtx vs i = (q -p vtx vs i) *p m) by (rewrite A6; apply V2_ext; simpl; ring).
  assert (Nq : q <> vtx vs i).
  { intros X. rewrite Ri, X in Fr. unfold pnorm, pdot in Fr. simpl in Fr. replace (_ * _ + _ * _) with 0 in Fr by ring. rewrite sqrt_0 in Fr. lra. }
  assert (Np : 0 < pnorm (q -p vtx vs i)).
  { apply pnorm_pos. intros X. apply Nq. assert (X1 := f_equal px X). assert (X2 := f_equal py X). simpl in X1, X2. apply V2_ext; lra. }
  assert (Cv : forall k, (k < n)%nat -> 0 <= sarea (vtx vs (prv n k)) (vtx vs k) q).
  { intros k Hk. assert (W : forall x, (x < n)%nat -> 0 <= sarea (vtx vs (prv n k)) (vtx vs k) (vtx vs x)).
    { intros x Hxx. destruct (Nat.eq_dec x k) as [->|N1]; [unfold sarea, pcross; simpl; lra|].
      destruct (Nat.eq_dec x (prv n k)) as [->|N2]; [unfold sarea, pcross; simpl; lra|]. left. apply C; assumption. }
    rewrite Q. replace (sarea (vtx vs (prv n k)) (vtx vs k) (vtx vs (prv n j) *p (1 - t) +p vtx vs j *p t))
      with ((1 - t) * sarea (vtx vs (prv n k)) (vtx vs k) (vtx vs (prv n j)) + t * sarea (vtx vs (prv n k)) (vtx vs k) (vtx vs j))
      by (unfold sarea, pcross; simpl; ring).
    apply Rplus_le_le_0_compat; apply Rmult_le_pos; try lra; apply W; assumption. }
  assert (S2 : 0 <= sarea (vtx vs i) (vtx vs (nxt n i)) q).
  { pose proof (Cv (nxt n i) Hx) as X. rewrite (prv_nxt n i Hi) in X. exact X. }
  destruct (polar_share vs d i eq_refl Hn C H3 Hi q a al Ea Eal Nq (Cv i Hi) S2) as (t' & Ht' & Uq).
  set (rq := pnorm (q -p vtx vs i)) in *.
  assert (Sp : sin ((psi - t') * al) = 0).
  { assert (X : pcross dir (q -p vtx vs i) = rq * (sin ((psi - t') * al) * pdot a a)).
    { rewrite Uq, <- Ed. replace ((psi - t') * al) with (psi * al - t' * al) by ring. rewrite sin_minus. unfold pcross, pdot, cw. simpl. ring. }
    rewrite X, A, Rmult_1_r in Z'. apply Rmult_integral in Z'. destruct Z'; [lra|assumption]. }
  assert (Et : t' = psi).
  { destruct (Rtotal_order psi t') as [L|[L|L]]; [exfalso|auto|exfalso].
    - assert (0 < sin ((t' - psi) * al)) by (apply sin_gt_0; [nra|assert ((t' - psi) * al <= 1 * al) by (apply Rmult_le_compat_r; lra); lra]).
      replace ((psi - t') * al) with (- ((t' - psi) * al)) in Sp by ring. rewrite sin_neg in Sp. lra.
    - assert (0 < sin ((psi - t') * al)) by (apply sin_gt_0; [nra|assert ((psi - t') * al <= 1 * al) by (apply Rmult_le_compat_r; lra); lra]). lra. }
  subst t'.
  assert (Mp : eps <= m * rq).
  { rewrite Ri, pnorm_scale, (Rabs_right m) in Fr by lra. exact Fr. }
  assert (Ur : r = vtx vs i +p (a *p cos (psi * al) +p cw a *p sin (psi * al)) *p (m * rq)).
  { rewrite A6. rewrite Uq at 1. apply V2_ext; simpl; ring. }
  rewrite Ur in B |- *. exact (polar_angle vs d i eq_refl Hn C H3 Hi eps psi (m * rq) l li ltac:(lra) ltac:(lra) a al Ea Eal B Bi).
Qed.
Print Assumptions C61_inverse.

(** The sweep line always properly crosses a side not touching the vertex; the
    side is found when the crossing is not too flat. *)
Theorem C61_hits : forall d i eps psi al, let vs := d_verts d in let n := length vs in
  let w := vtx vs (prv n i) -p vtx vs i in
  d_n d = n -> (3 <= n)%nat -> strictly_convex vs -> (i < n)%nat -> 0 < eps -> 0 < psi < 1 -> angle d i = Some al ->
  (forall j, (j < n)%nat -> j <> i -> j <> nxt n i ->
    pcross (turned w (psi * al)) (vtx vs (prv n j) -p vtx vs i) < 0 -> 0 <= pcross (turned w (psi * al)) (vtx vs j -p vtx vs i) ->
    eps * pnorm w <= pcross (turned w (psi * al)) (vtx vs j -p vtx vs (prv n j))) ->
  exists dir q, sweepDir eps d i psi = Some dir /\ firstHit eps d (vtx vs i) dir (farSides n i) = Some (Some q).
Proof.
  intros d i eps psi al vs n w Hn H3 C Hi He Hp Eal G.
  destruct (vertex_frame vs d i eq_refl Hn C H3 Hi) as (a & b & al' & lp & ln & P1 & P2 & A & Bu & Va & Vb & Ea & Eb & Eal' & Ral & Bt).
  assert (al' = al) by congruence. subst al'. clear Eal'. fold n w in Va, Ea.
  destruct (normalize_scaled a lp A P1) as [_ Nw]. rewrite <- Va in Nw.
  assert (Ed := sweep_value vs d i eq_refl Hn C H3 Hi eps psi a al He Ea Eal).
  set (dir := a *p cos (psi * al) +p cw a *p sin (psi * al)) in *.
  assert (Tw : turned w (psi * al) = dir *p lp) by (rewrite turned_cw, Va; unfold dir; apply V2_ext; unfold cw; simpl; ring).
  assert (Sc : forall x, pcross (turned w (psi * al)) x = lp * pcross dir x) by (intros; rewrite Tw; unfold pcross; simpl; ring).
  destruct (sweep_hits vs d i eq_refl Hn C H3 Hi eps psi dir He Hp Ed) as [q Q].
  - intros j J B1 B2. fold n in J. destruct (farSides_in n i j H3 Hi J) as (J1 & J2 & J3 & _ & _).
    specialize (G j J1 J2 J3). rewrite !Sc, Nw in G. specialize (G ltac:(fold n in B1; nra) ltac:(nra)). fold n. nra.
  - exists dir, q. split; [exact Ed|exact Q].
Qed.
Print Assumptions C61_hits.

(** When all sides are shorter than the tolerance no side is found, and the point
    that the code then bisects towards was never set. *)
Theorem C61_inverse_unset : forall d i eps psi dd, let vs := d_verts d in let n := length vs in
  d_n d = n -> (3 <= n)%nat -> strictly_convex vs -> (i < n)%nat -> 0 < eps -> eps <= psi <= 1 - eps ->
  (forall j, (j < n)%nat -> pnorm (vtx vs j -p vtx vs (prv n j)) < eps) ->
  polarInverse eps d i (mkV2 psi dd) = None.
Proof.
  intros d i eps psi dd vs n Hn H3 C Hi He Hp Sh.
  destruct (vertex_frame vs d i eq_refl Hn C H3 Hi) as (a & b & al & lp & ln & P1 & P2 & A & Bu & Va & Vb & Ea & Eb & Eal & Ral & Bt).
  assert (V : forall j, (j < n)%nat -> nth_error (d_verts d) j = Some (vtx vs j)) by (intros; apply nth_error_nth'; assumption).
  unfold polarInverse, polarInverseSteps. cbn [px py]. destruct (Rlt_dec psi eps) as [L|_]; [lra|]. destruct (Rlt_dec (1 - eps) psi) as [L|_]; [lra|].
  rewrite (sweep_value vs d i eq_refl Hn C H3 Hi eps psi a al He Ea Eal). cbn [bind]. rewrite (V i Hi). cbn [bind]. rewrite Hn.
  destruct (angle_of_dir a (psi * al) A ltac:(nra)) as [Du _].
  set (dir := a *p cos (psi * al) +p cw a *p sin (psi * al)) in *.
  assert (F : forall js, (forall j, In j js -> (j < n)%nat) -> firstHit eps d (vtx vs i) dir js = Some None).
  { induction js as [|j js IH]; intros Hj; cbn [firstHit]; [reflexivity|].
    assert (Hj' : (j < n)%nat) by (apply Hj; left; reflexivity). assert (Hpj : (prv n j < n)%nat) by (apply prv_lt; lia).
    rewrite (intersect_cases eps d j (vtx vs i) dir (vtx vs (prv n j)) (vtx vs j) He); [|rewrite Hn; apply V; exact Hpj|apply V; exact Hj'].
    set (x := vtx vs j -p vtx vs (prv n j)) in *.
    assert (Bd : Rabs (pcross dir x) < eps).
    { apply Rle_lt_trans with (pnorm x); [|apply Sh; exact Hj'].
      rewrite <- sqrt_Rsqr_abs. unfold pnorm. apply sqrt_le_1_alt.
      assert (X : Rsqr (pcross dir x) + Rsqr (pdot dir x) = pdot dir dir * pdot x x) by (unfold Rsqr, pcross, pdot; ring).
      rewrite Du in X. pose proof (Rle_0_sqr (pdot dir x)). lra. }
    destruct (Rlt_dec (Rabs (pcross dir x)) eps); [|contradiction]. cbn [bind]. apply IH. intros j' J. apply Hj. right; exact J. }
  rewrite F; [reflexivity|]. intros j J. apply (farSides_in n i j H3 Hi J).
Qed.
Print Assumptions C61_inverse_unset.

(** The unit square, seen from the vertex at the origin: the centre is half way
    through the angle, with mean value coordinate 1/4; the point (1/4, 0) of the
    side to the next vertex is at the end of the angle. *)
Definition usq : list V2 := [mkV2 0 0; mkV2 1 0; mkV2 1 1; mkV2 0 1].
Definition usq_dom : dom := mkDom 4 (mkV2 (1/2) (1/2)) usq [] [].
Lemma usq_convex : strictly_convex usq.
Proof.
  intros k i Hk Hi N1 N2. simpl in Hk, Hi.
  destruct k as [|[|[|[|k]]]]; [| | | |lia]; (destruct i as [|[|[|[|i]]]]; [| | | |lia]);
    cbv [length usq prv Nat.add Nat.sub Nat.modulo Nat.divmod fst snd] in *; try lia;
    unfold sarea, pcross, vtx; simpl; lra.
Qed.

Example C61_example : forall eps, 0 < eps <= 1/4 ->
  polarMap eps usq_dom 0 (mkV2 (1/2) (1/2)) = Some (mkV2 (1/2) (1/4)) /\
  polarMap eps usq_dom 0 (mkV2 (1/4) 0) = Some (mkV2 1 (3/4)) /\
  polarInverse eps usq_dom 0 (mkV2 1 (3/4)) = Some (mkV2 (1/4) 0).
Proof.
  intros eps He. set (c := mkV2 (1/2) (1/2)).
  assert (Hc : forall v, In v usq -> pnorm (c -p v) = sqrt (1/2)).
  { intros v V. simpl in V. destruct V as [<-|[<-|[<-|[<-|[]]]]]; unfold pnorm, pdot; simpl; f_equal; field. }
  assert (Q : 1/4 <= sqrt (1/2)).
  { replace (1/4) with (sqrt (1/16)); [apply sqrt_le_1_alt; lra|]. replace (1/16) with (Rsqr (1/4)) by (unfold Rsqr; lra). rewrite sqrt_Rsqr_abs, Rabs_right by lra. reflexivity. }
  split; [|].
  - assert (B : barycentric MeanValue eps usq_dom c = Some [1/4; 1/4; 1/4; 1/4]).
    { rewrite (bary_closed usq c usq_dom eq_refl) by (try (simpl; lia); intros i Hi; cbn [baryRadius]; change (eps <= pnorm (c -p vtx usq i)); rewrite Hc by (apply nth_In; exact Hi); lra).
      assert (W : forall i, (i < 4)%nat -> wfun usq c MeanValue i = sqrt (1/2) / 32).
      { intros i Hi. unfold wfun, baryRadius, svec.
        assert (R : forall j, (j < 4)%nat -> pnorm (c -p vtx usq j) = sqrt (1/2)) by (intros; apply Hc, nth_In; assumption).
        assert (P : (prv 4 i < 4)%nat /\ (nxt 4 i < 4)%nat) by (split; [apply prv_lt|apply nxt_lt]; lia).
        change (length usq) with 4%nat. rewrite !R by (try apply P; exact Hi).
        unfold prodBut, prodBut2, bcr, tri, svec, vtx, sarea, pcross, rprod.
        destruct i as [|[|[|[|i]]]]; [| | | |lia]; cbv [length usq prv nxt Nat.add Nat.sub Nat.modulo Nat.divmod fst snd nth Nat.eqb seq map fold_right rprod c]; simpl; field. }
      assert (S : rsum (length usq) (wfun usq c MeanValue) = sqrt (1/2) / 8).
      { rewrite (rsum_ext 4 _ (fun _ => sqrt (1/2) / 32)) by exact W. cbv [rsum]. field. }
      rewrite S. destruct (Req_EM_T _ 0); [lra|]. f_equal. cbv [tabulate length usq seq map]. fold usq. rewrite !W by lia.
      repeat (f_equal; [field; lra|]). f_equal; [field; lra]. }
    destruct (C61_angle usq_dom 0 eq_refl ltac:(simpl; lia) usq_convex ltac:(simpl; lia)) as (al & _ & Ra & Ca & _ & Val & _).
    assert (Al : al = PI / 2).
    { rewrite <- (acos_cos al) by lra. rewrite <- acos_0. f_equal. simpl in Ca. unfold vtx in Ca. simpl in Ca.
      assert (X : forall v, pdot v v = 1 -> pnorm v = 1) by (intros v V; unfold pnorm; rewrite V; apply sqrt_1).
      rewrite !X in Ca by (unfold pdot; simpl; ring). unfold pdot in Ca. simpl in Ca. lra. }
    assert (S2 : / sqrt 2 * / sqrt 2 = 1/2).
    { assert (0 < sqrt 2) by (apply sqrt_lt_R0; lra). assert (D : sqrt 2 * sqrt 2 = 2) by (apply sqrt_sqrt; lra).
      rewrite <- Rinv_mult. rewrite D. lra. }
    assert (U : c = vtx usq 0 +p turned (vtx usq (prv 4 0) -p vtx usq 0) (1/2 * al) *p / sqrt 2).
    { unfold turned. rewrite Al. replace (1/2 * (PI/2)) with (PI/4) by field. rewrite cos_PI4, sin_PI4.
      apply V2_ext; unfold vtx; simpl; lra. }
    assert (Kp : 0 < / sqrt 2) by (apply Rinv_0_lt_compat, sqrt_lt_R0; lra).
    rewrite U in B |- *. apply (Val eps (1/2) (/ sqrt 2) [1/4; 1/4; 1/4; 1/4] (1/4) ltac:(lra) ltac:(lra) Kp); [|exact B|reflexivity].
    apply Rle_trans with (pnorm (c -p vtx usq 0)); [rewrite Hc by (left; reflexivity); lra|right; rewrite U at 1; reflexivity].
  - assert (Hs : 0 < 1/4 < 1) by lra.
    destruct (C61_side usq_dom 1 (1/4) eps (mkV2 (1/4) 0) eq_refl ltac:(simpl; lia) usq_convex ltac:(simpl; lia) Hs ltac:(lra)) as (_ & A & _).
    + unfold edgePoint. simpl. f_equal. apply V2_ext; simpl; ring.
    + intros v V. apply Rle_trans with (1/4); [lra|].
      replace (1/4) with (sqrt (1/16)) at 1.
      * apply sqrt_le_1_alt. simpl in V. destruct V as [<-|[<-|[<-|[<-|[]]]]]; unfold pdot; simpl; lra.
      * replace (1/16) with (Rsqr (1/4)) by (unfold Rsqr; lra). rewrite sqrt_Rsqr_abs, Rabs_right by lra. reflexivity.
    + split.
      * simpl in A. replace (3/4) with (1 - 1/4) by field. exact A.
      * rewrite (proj2 (C61_inverse_sides usq_dom 0 eps 1 (3/4) eq_refl ltac:(simpl; lia) ltac:(simpl; lia) ltac:(lra))) by lra.
        f_equal. apply V2_ext; unfold vtx; simpl; field.
Qed.
