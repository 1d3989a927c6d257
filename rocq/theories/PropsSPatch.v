(** Properties of S-patches: C53. *)
From Coq Require Import NArith Permutation Factorial.
From Verif Require Import Base UtilModel UtilSpec UtilProofs DomainModel DomainProofs DomainPolygons GeomSpec ParamModel ParamSide ParamTame ParamMaps PropsParam SPatchModel SPatchProofs.
Open Scope R_scope.

(** ** C53: S-patches *)

(** The weight coefficient is the multinomial coefficient, without overflow,
    for depths up to 20. *)
Theorem C53_multinomial : forall ix, (list_sum ix <= 20)%nat ->
  exists m, multinomial ix = Some (N.of_nat m) /\ (m * fold_right Nat.mul 1 (map fact ix) = fact (list_sum ix))%nat.
Proof.
  intros ix H. exists (multi ix). split; [apply multinomial_value; exact H|]. rewrite <- multi_fact. f_equal.
  clear H. induction ix as [|k r IH]; [reflexivity|]. cbn [map fold_right factprod]. rewrite IH. reflexivity.
Qed.
Print Assumptions C53_multinomial.

(** A net is what remains of a sequence of setControlPoint calls. *)
Definition written (ws : list (index * V3)) : snet := fold_left (fun m w => netSet m (fst w) (snd w)) ws [].

Lemma rev_ind_cases : forall A (l : list A), l = [] \/ exists x l', l = l' ++ [x].
Proof. intros A l. induction l as [|x l _] using rev_ind; [left; reflexivity|right; exists x, l; reflexivity]. Qed.
Lemma written_ordered : forall ws, ordered (written ws).
Proof. intros l. induction l as [|w l IH] using rev_ind; [exact I|]. unfold written. rewrite fold_left_app. cbn. apply netSet_ordered. exact IH. Qed.

Theorem C53_net : forall ws ix p,
  netAt (written ws) ix = Some p <-> exists ws1 ws2, ws = ws1 ++ (ix, p) :: ws2 /\ forall q, ~ In (ix, q) ws2.
Proof.
  intros ws. induction ws as [|[k q] ws IH] using rev_ind; intros ix p.
  - cbn. split; [discriminate|]. intros (w1 & w2 & E & _). destruct w1; discriminate.
  - unfold written. rewrite fold_left_app. cbn [fold_left fst snd]. fold (written ws). rewrite netAt_set by apply written_ordered.
    destruct (list_eq_dec Nat.eq_dec ix k) as [->|N].
    + split.
      * intros [= ->]. exists ws, []. split; [reflexivity|]. intros q' [].
      * intros (w1 & w2 & E & H). destruct (rev_ind_cases _ w2) as [->|(x & w3 & ->)].
        -- apply app_inj_tail in E. destruct E as [_ E]. congruence.
        -- rewrite app_comm_cons, app_assoc in E. apply app_inj_tail in E. destruct E as [_ E]. exfalso. apply (H q). rewrite <- E. apply in_app_iff. right; left; reflexivity.
    + rewrite IH. split.
      * intros (w1 & w2 & -> & H). exists w1, (w2 ++ [(k, q)]). split; [rewrite <- app_assoc; reflexivity|].
        intros q' X. apply in_app_iff in X. destruct X as [X|[X|[]]]; [apply (H q' X)|congruence].
      * intros (w1 & w2 & E & H). destruct (rev_ind_cases _ w2) as [->|(x & w3 & ->)].
        -- apply app_inj_tail in E. destruct E as [_ E]. congruence.
        -- rewrite app_comm_cons, app_assoc in E. apply app_inj_tail in E. destruct E as [-> _]. exists w1, w3. split; [reflexivity|].
           intros q' X. apply (H q'). apply in_app_iff. left. exact X.
Qed.
Print Assumptions C53_net.

(** All indices of n numbers adding up to d have a control point, and no
    others. *)
Definition full (n d : nat) (m : snet) : Prop := forall ix, netAt m ix <> None <-> (length ix = n /\ list_sum ix = d).
Lemma full_complete : forall n d ws, full n d (written ws) -> complete n d (written ws).
Proof. intros n d ws F. split; [apply written_ordered|exact F]. Qed.

(** Inside the domain the value is a convex combination of the control
    points. *)
Theorem C53_convex : forall n d ws eps vs dm uv, (3 <= n)%nat -> (d <= 20)%nat -> full n d (written ws) -> 0 < eps <= 1 ->
  regularVertices n = Some vs -> domainFrames pzero vs = Some dm -> inside vs uv ->
  exists w : index -> R, (forall ix, 0 <= w ix) /\ lsum (fun cp => w (fst cp)) (written ws) = 1 /\
    spEval eps dm (written ws) uv = Some (lvsum (fun cp => snd cp *v w (fst cp)) (written ws)).
Proof.
  intros n d ws eps vs dm uv H3 Hd F He Hv Hdm I. pose proof (full_complete n d ws F) as C. destruct (regular_convex n vs H3 Hv) as (L & Cv & I0).
  destruct (C19_wachspress vs dm eps uv (d_verts_eq _ _ _ Hdm) ltac:(lia) Cv I He) as (l & B & Ll & Pl & Sl).
  exists (fun ix => weight ix l). split; [|split].
  - intros ix. apply weight_nonneg. intros b Hb. left. apply Pl. exact Hb.
  - apply (weights_sum n d _ l C); [lia|]. rewrite Ll, L in Sl. exact Sl.
  - unfold spEval. rewrite B. cbn [bind]. apply spSum_value. intros ix p Hp. destruct (complete_entry n d _ ix p C Hp). lia.
Qed.
Print Assumptions C53_convex.

(** Control points d, 0, ..., 0, ..., 0, d: column [j] of the side from vertex
    [p] to vertex [e]. *)
Definition side_index (n d p e j : nat) : index :=
  map (fun i => if (i =? e)%nat then j else if (i =? p)%nat then (d - j)%nat else 0%nat) (seq 0 n).

(** On side [e] of the domain (from vertex e-1 to e). *)
Theorem C53_boundary : forall n d ws eps vs dm e s uv, (3 <= n)%nat -> (d <= 20)%nat -> full n d (written ws) -> 0 < eps <= 1 ->
  regularVertices n = Some vs -> domainFrames pzero vs = Some dm -> (e < n)%nat -> 0 <= s <= 1 -> edgePoint dm e s = Some uv ->
  spEval eps dm (written ws) uv =
  Some (bezier d (fun j => match netAt (written ws) (side_index n d (prv n e) e j) with Some q => q | None => vzero end) s).
Proof.
  intros n d ws eps vs dm e s uv H3 Hd F He Hv Hdm Hen Hs E. pose proof (full_complete n d ws F) as C. destruct (regular_convex n vs H3 Hv) as (L & Cv & I0).
  assert (Ev : d_verts dm = vs) by exact (d_verts_eq _ _ _ Hdm). assert (En : d_n dm = n) by (rewrite (d_n_eq _ _ _ Hdm); exact L).
  pose proof (C21_linear_on_side dm eps e s uv) as X. cbv zeta in X. rewrite Ev, L in X.
  destruct (X En H3 Cv Hen Hs He E) as (l & B & Ll & L1 & L2 & L0).
  unfold spEval. rewrite B. cbn [bind]. rewrite spSum_value.
  2: { intros ix p Hp. destruct (complete_entry n d _ ix p C Hp). lia. }
  f_equal. apply (side_eval n d (prv n e) e); try assumption.
  - apply prv_lt; lia.
  - apply prv_neq; lia.
  - apply nth_error_nth; exact L1.
  - apply nth_error_nth; exact L2.
  - intros i Hi N1 N2. apply nth_error_nth. apply L0; assumption.
Qed.
Print Assumptions C53_boundary.

(** setupLoop registers, for ribbon [i], the control points of side i+1; it
    creates the boundary control points that are missing, and changes nothing
    else. *)
Theorem C53_registered : forall v0 n d ws, (2 <= n)%nat ->
  exists m cs, spCurves v0 (mkSP n d (written ws)) = Some (mkSP n d m, cs) /\ length cs = n /\
    (forall i, (i < n)%nat -> nth_error cs i =
       Some (map (fun j => match netAt (written ws) (side_index n d i (nxt n i) j) with Some q => q | None => v0 end) (seq 0 (d + 1)))) /\
    forall ix, netAt m ix = match netAt (written ws) ix with
      | Some q => Some q
      | None => if in_dec (list_eq_dec Nat.eq_dec) ix (concat (map (fun i => map (side_index n d i (nxt n i)) (seq 0 (d + 1))) (seq 0 n))) then Some v0 else None end.
Proof.
  intros v0 n d ws Hn. destruct (curves_value v0 n d (written ws) Hn (written_ordered ws)) as (m & E & O & A).
  eexists _, _. split; [exact E|]. split; [rewrite map_length, seq_length; reflexivity|]. split; [|exact A].
  intros i Hi. change (map (fun i => map (fun j => valAt v0 (written ws) (sideIx n d i (nxt n i) j)) (seq 0 (d + 1))) (seq 0 n)) with
    (tabulate n (fun i => map (fun j => valAt v0 (written ws) (sideIx n d i (nxt n i) j)) (seq 0 (d + 1)))).
  rewrite tabulate_nth_error by exact Hi. reflexivity.
Qed.
Print Assumptions C53_registered.

(** With a full net: the patch along side [e] is the curve registered for the
    ribbon before. *)
Corollary C53_shifted : forall v0 n d ws eps vs dm e s uv, (3 <= n)%nat -> (d <= 20)%nat -> full n d (written ws) -> 0 < eps <= 1 ->
  regularVertices n = Some vs -> domainFrames pzero vs = Some dm -> (e < n)%nat -> 0 <= s <= 1 -> edgePoint dm e s = Some uv ->
  exists cs cp, spCurves v0 (mkSP n d (written ws)) = Some (mkSP n d (written ws), cs) /\
    nth_error cs (prv n e) = Some cp /\ length cp = (d + 1)%nat /\ spEval eps dm (written ws) uv = Some (bezier d (pnth cp) s).
Proof.
  intros v0 n d ws eps vs dm e s uv H3 Hd F He Hv Hdm Hen Hs E.
  destruct (C53_registered v0 n d ws ltac:(lia)) as (m & cs & R & L & V & A).
  assert (Hp : (prv n e < n)%nat) by (apply prv_lt; lia).
  assert (Lk : forall i ip j, (i < n)%nat -> (ip < n)%nat -> i <> ip -> (j <= d)%nat -> netAt (written ws) (side_index n d i ip j) <> None).
  { intros i ip j Hi Hip N Hj. apply F. split; [apply side_length|apply (side_sum n d i ip Hi Hip N j Hj)]. }
  assert (M : m = written ws).
  { destruct (curves_value v0 n d (written ws) ltac:(lia) (written_ordered ws)) as (m' & E' & O' & _). rewrite E' in R. injection R as R _. subst m'.
    apply ordered_ext; [exact O'|apply written_ordered|]. intros ix. rewrite A. destruct (netAt (written ws) ix) eqn:N; [reflexivity|].
    destruct (in_dec (list_eq_dec Nat.eq_dec) ix _) as [J|J]; [|reflexivity]. exfalso. apply in_concat in J. destruct J as (x & X & J). apply in_map_iff in X. destruct X as (i & <- & Hi). apply in_seq in Hi.
    apply in_map_iff in J. destruct J as (j & <- & Hj). apply in_seq in Hj. revert N. apply Lk; [lia|apply nxt_lt; lia| |lia].
    intros X. apply (nxt_neq n i); [lia|lia|congruence]. }
  subst m. eexists cs, _. split; [exact R|]. split; [exact (V (prv n e) Hp)|]. split; [rewrite map_length, seq_length; reflexivity|].
  rewrite (C53_boundary n d ws eps vs dm e s uv H3 Hd F He Hv Hdm Hen Hs E). f_equal. unfold bezier. apply vsum_ext. intros j Hj. f_equal.
  unfold pnth. rewrite nxt_prv by exact Hen. symmetry. apply nth_error_nth.
  set (f := fun j => match netAt (written ws) (side_index n d (prv n e) e j) with Some q => q | None => v0 end).
  change (nth_error (tabulate (d + 1) f) j = Some (match netAt (written ws) (side_index n d (prv n e) e j) with Some q => q | None => vzero end)).
  rewrite tabulate_nth_error by exact Hj. unfold f. f_equal.
  destruct (netAt (written ws) (side_index n d (prv n e) e j)) eqn:N; [reflexivity|]. exfalso. revert N. apply Lk; try assumption; [apply prv_neq; lia|lia].
Qed.
Print Assumptions C53_shifted.

(** A triangular patch of depth 2; the curve registered for ribbon 0 is not
    the one of side 0. *)
Definition tri2 : list (index * V3) :=
  [([2; 0; 0], mkV3 0 0 0); ([0; 2; 0], mkV3 4 0 0); ([0; 0; 2], mkV3 0 4 0);
   ([1; 1; 0], mkV3 2 0 1); ([0; 1; 1], mkV3 2 2 1); ([1; 0; 1], mkV3 0 2 1)]%nat.
Example C53_example : full 3 2 (written tri2) /\
  map fst (written tri2) = [[0; 0; 2]; [0; 1; 1]; [0; 2; 0]; [1; 0; 1]; [1; 1; 0]; [2; 0; 0]]%nat /\
  multinomial [1; 0; 3]%nat = Some 4%N /\
  (exists cs, spCurves vzero (mkSP 3 2 (written tri2)) = Some (mkSP 3 2 (written tri2), cs) /\
    nth_error cs 0 = Some [mkV3 0 0 0; mkV3 2 0 1; mkV3 4 0 0]) /\
  map (fun j => netAt (written tri2) (side_index 3 2 2 0 j)) (seq 0 3) = [Some (mkV3 0 4 0); Some (mkV3 0 2 1); Some (mkV3 0 0 0)].
Proof.
  split; [|split; [reflexivity|split; [reflexivity|split; [eexists; split; reflexivity|reflexivity]]]].
  intros ix. rewrite netAt_ordered_key by apply written_ordered. cbn. split.
  - intros H. repeat (destruct H as [<-|H]; [split; reflexivity|]). destruct H.
  - intros [L H]. destruct ix as [|a [|b [|c [|? ?]]]]; try discriminate. cbn in H.
    destruct a as [|[|[|a]]]; destruct b as [|[|[|b]]]; cbn in H; try lia;
    [assert (c = 2)%nat by lia|assert (c = 1)%nat by lia|assert (c = 0)%nat by lia|assert (c = 1)%nat by lia|assert (c = 0)%nat by lia|assert (c = 0)%nat by lia]; subst c; tauto.
Qed.
