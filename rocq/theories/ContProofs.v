(** Continuity of the operations of the evaluators. *)
From Verif Require Import Base MeshModel DomainModel UtilModel UtilProofs ParamModel RibbonModel SurfaceModel SurfaceEval GBModel ContSpec.
Open Scope R_scope.

(** ** Sequences *)
Lemma ev_and : forall P Q, eventually P -> eventually Q -> eventually (fun k => P k /\ Q k).
Proof. intros P Q [N A] [M B]. exists (Nat.max N M). intros k Hk. split; [apply A|apply B]; lia. Qed.
Lemma ev_all : forall P : nat -> Prop, (forall k, P k) -> eventually P.
Proof. intros P H. exists 0%nat. intros k _. apply H. Qed.
Lemma ev_mono : forall P Q : nat -> Prop, (forall k, P k -> Q k) -> eventually P -> eventually Q.
Proof. intros P Q H [N A]. exists N. intros k Hk. apply H, A, Hk. Qed.

Lemma cv_const : forall c, Un_cv (fun _ => c) c.
Proof. intros c e He. exists 0%nat. intros k _. unfold R_dist. rewrite Rminus_diag_eq by reflexivity. rewrite Rabs_R0. exact He. Qed.
Lemma cv_ev : forall u v l, eventually (fun k => u k = v k) -> Un_cv u l -> Un_cv v l.
Proof.
  intros u v l [N A] H e He. destruct (H e He) as [M B]. exists (Nat.max N M). intros k Hk. rewrite <- A by lia. apply B. lia.
Qed.
Lemma cv_ext : forall u v l, (forall k, u k = v k) -> Un_cv u l -> Un_cv v l.
Proof. intros u v l H. apply cv_ev. apply ev_all. exact H. Qed.
Lemma cv_inv : forall u l, Un_cv u l -> l <> 0 -> Un_cv (fun k => / u k) (/ l).
Proof.
  intros u l H Hl. apply (continuity_seq Rinv u l); [|exact H]. change (continuity_pt (/ id)%F l). apply continuity_pt_inv; [|exact Hl].
  apply derivable_continuous_pt, derivable_pt_id.
Qed.
Lemma cv_div : forall u v l m, Un_cv u l -> Un_cv v m -> m <> 0 -> Un_cv (fun k => u k / v k) (l / m).
Proof. intros. unfold Rdiv. apply CV_mult; [assumption|]. apply cv_inv; assumption. Qed.
Lemma cv_abs : forall u l, Un_cv u l -> Un_cv (fun k => Rabs (u k)) (Rabs l).
Proof. intros u l H. apply (cv_cvabs u l H). Qed.
Lemma cv_sqrt : forall u l, Un_cv u l -> 0 <= l -> Un_cv (fun k => sqrt (u k)) (sqrt l).
Proof. intros u l H Hl. apply (continuity_seq sqrt u l); [|exact H]. apply continuity_pt_sqrt. exact Hl. Qed.
Lemma cv_pow : forall u l n, Un_cv u l -> Un_cv (fun k => u k ^ n) (l ^ n).
Proof. intros u l n H. induction n as [|n IH]; simpl; [apply cv_const|]. apply CV_mult; assumption. Qed.
Lemma cv_max : forall u l c, Un_cv u l -> Un_cv (fun k => Rmax (u k) c) (Rmax l c).
Proof.
  intros u l c H e He. destruct (H e He) as [N A]. exists N. intros k Hk. specialize (A k Hk). unfold R_dist in *. revert A. unfold Rmax.
  destruct (Rle_dec (u k) c), (Rle_dec l c); unfold Rabs; repeat destruct (Rcase_abs _); lra.
Qed.
Lemma cv_clamp : forall u l a b, a <= b -> Un_cv u l -> Un_cv (fun k => clamp (u k) a b) (clamp l a b).
Proof.
  intros u l a b Hab H e He. destruct (H e He) as [N A]. exists N. intros k Hk. specialize (A k Hk). unfold R_dist in *. revert A. unfold clamp.
  destruct (Rlt_dec (u k) a), (Rlt_dec b (u k)), (Rlt_dec l a), (Rlt_dec b l); unfold Rabs; repeat destruct (Rcase_abs _); lra.
Qed.
Lemma clamp_unit : forall x, 0 <= clamp x 0 1 <= 1.
Proof. intros x. unfold clamp. destruct (Rlt_dec x 0), (Rlt_dec 1 x); lra. Qed.
Lemma ev_lt : forall u l e, Un_cv u l -> l < e -> eventually (fun k => u k < e).
Proof. intros u l e H L. destruct (H (e - l) ltac:(lra)) as [N A]. exists N. intros k Hk. specialize (A k Hk). unfold R_dist, Rabs in A. destruct (Rcase_abs _) in A; lra. Qed.
Lemma ev_gt : forall u l e, Un_cv u l -> e < l -> eventually (fun k => e < u k).
Proof. intros u l e H L. destruct (H (l - e) ltac:(lra)) as [N A]. exists N. intros k Hk. specialize (A k Hk). unfold R_dist, Rabs in A. destruct (Rcase_abs _) in A; lra. Qed.
Lemma ev_neq : forall u l, Un_cv u l -> l <> 0 -> eventually (fun k => u k <> 0).
Proof.
  intros u l H Hl. destruct (Rtotal_order l 0) as [L|[L|L]]; [|contradiction|].
  - apply (ev_mono (fun k => u k < 0)); [intros; lra|]. apply (ev_lt u l 0 H L).
  - apply (ev_mono (fun k => 0 < u k)); [intros; lra|]. apply (ev_gt u l 0 H L).
Qed.

Lemma cv2_const : forall c, cv2 (fun _ => c) c.
Proof. intros. split; apply cv_const. Qed.
Lemma cv3_const : forall c, cv3 (fun _ => c) c.
Proof. intros. split; [|split]; apply cv_const. Qed.
Lemma cv2_mk : forall u v l m, Un_cv u l -> Un_cv v m -> cv2 (fun k => mkV2 (u k) (v k)) (mkV2 l m).
Proof. intros. split; assumption. Qed.
Lemma cv2_sub : forall u v l m, cv2 u l -> cv2 v m -> cv2 (fun k => u k -p v k) (l -p m).
Proof. intros u v l m [A B] [C D]. split; simpl; apply CV_minus; assumption. Qed.
Lemma cv2_add : forall u v l m, cv2 u l -> cv2 v m -> cv2 (fun k => u k +p v k) (l +p m).
Proof. intros u v l m [A B] [C D]. split; simpl; apply CV_plus; assumption. Qed.
Lemma cv2_scale : forall u v l m, cv2 u l -> Un_cv v m -> cv2 (fun k => u k *p v k) (l *p m).
Proof. intros u v l m [A B] C. split; simpl; apply CV_mult; assumption. Qed.
Lemma cv2_dot : forall u v l m, cv2 u l -> cv2 v m -> Un_cv (fun k => pdot (u k) (v k)) (pdot l m).
Proof. intros u v l m [A B] [C D]. unfold pdot. apply CV_plus; apply CV_mult; assumption. Qed.
Lemma cv3_add : forall u v l m, cv3 u l -> cv3 v m -> cv3 (fun k => u k +v v k) (l +v m).
Proof. intros u v l m (A & B & C) (D & E & F). split; [|split]; simpl; apply CV_plus; assumption. Qed.
Lemma cv3_sub : forall u v l m, cv3 u l -> cv3 v m -> cv3 (fun k => u k -v v k) (l -v m).
Proof. intros u v l m (A & B & C) (D & E & F). split; [|split]; simpl; apply CV_minus; assumption. Qed.
Lemma cv3_scale : forall u v l m, cv3 u l -> Un_cv v m -> cv3 (fun k => u k *v v k) (l *v m).
Proof. intros u v l m (A & B & C) D. split; [|split]; simpl; apply CV_mult; assumption. Qed.
Lemma cv_px : forall u l, cv2 u l -> Un_cv (fun k => px (u k)) (px l). Proof. intros u l H. apply H. Qed.
Lemma cv_py : forall u l, cv2 u l -> Un_cv (fun k => py (u k)) (py l). Proof. intros u l H. apply H. Qed.
Lemma cv_hermite : forall i u l, Un_cv u l -> Un_cv (fun k => hermite i (u k)) (hermite i l).
Proof.
  intros i u l H. assert (O : Un_cv (fun k => 1 - u k) (1 - l)) by (apply CV_minus; [apply cv_const|exact H]).
  destruct i as [|[|[|[|i]]]]; unfold hermite;
    repeat first [exact O | exact H | apply cv_const | apply cv_pow | apply CV_plus | apply CV_mult].
Qed.

(** ** Values that may be missing *)
Section Combinators.
Context {T D : Type} (C : (nat -> T) -> T -> Prop) (E : (nat -> D) -> D -> Prop).

Lemma ocv_some : forall u l, C u l -> ocv C (fun k => Some (u k)) (Some l).
Proof. intros u l H m X. injection X as <-. exists u. split; [apply ev_all; reflexivity|exact H]. Qed.
Lemma ocv_none : forall u, ocv C u None.
Proof. intros u l X. discriminate. Qed.
Lemma ocv_const : forall o, (forall l, C (fun _ => l) l) -> ocv C (fun _ => o) o.
Proof. intros o H l X. exists (fun _ => l). split; [apply ev_all; intros; exact X|apply H]. Qed.
Lemma ocv_bind : forall u o f g, ocv C u o -> (forall v l, o = Some l -> C v l -> ocv E (fun k => f k (v k)) (g l)) ->
  ocv E (fun k => bind (u k) (f k)) (bind o g).
Proof.
  intros u o f g H F m X. destruct o as [l|]; [|discriminate]. cbn [bind] in X. destruct (H l eq_refl) as (v & A & B). destruct (F v l eq_refl B m X) as (w & G & I).
  exists w. split; [|exact I]. apply (ev_mono _ _ (fun k (P : u k = Some (v k) /\ f k (v k) = Some (w k)) => eq_trans (f_equal (fun z => bind z (f k)) (proj1 P)) (proj2 P))).
  apply ev_and; assumption.
Qed.
Lemma ocv_ev : forall u v o, eventually (fun k => u k = v k) -> ocv C v o -> ocv C u o.
Proof.
  intros u v o A H l X. destruct (H l X) as (w & B & I). exists w. split; [|exact I].
  apply (ev_mono (fun k => u k = v k /\ v k = Some (w k))); [intros k [P Q]; congruence|]. apply ev_and; assumption.
Qed.
Lemma ocv_lt : forall x l e A a B b, Un_cv x l -> l <> e -> (l < e -> ocv C A a) -> (e < l -> ocv C B b) ->
  ocv C (fun k => if Rlt_dec (x k) e then A k else B k) (if Rlt_dec l e then a else b).
Proof.
  intros x l e A a B b H N HA HB. destruct (Rlt_dec l e) as [L|L].
  - apply (ocv_ev _ A); [|apply HA; exact L]. apply (ev_mono (fun k => x k < e)); [|apply (ev_lt x l e H L)]. intros k K. destruct (Rlt_dec (x k) e); [reflexivity|contradiction].
  - assert (G : e < l) by lra. apply (ocv_ev _ B); [|apply HB; exact G]. apply (ev_mono (fun k => e < x k)); [|apply (ev_gt x l e H G)]. intros k K. destruct (Rlt_dec (x k) e); [lra|reflexivity].
Qed.
Lemma ocv_nth : forall u l i, cvL C u l -> ocv C (fun k => nth_error (u k) i) (nth_error l i).
Proof. intros u l i [_ H] x X. destruct (H i x X) as (v & A & B). exists v. split; [apply ev_all; exact A|exact B]. Qed.

Lemma cvL_nil : cvL C (fun _ => []) [].
Proof. split; [reflexivity|]. intros [|i] x X; discriminate. Qed.
Lemma cvL_cons : forall u v l m, C u l -> cvL C v m -> cvL C (fun k => u k :: v k) (l :: m).
Proof.
  intros u v l m H [A B]. split; [intros k; simpl; rewrite A; reflexivity|]. intros [|i] x X; simpl in X.
  - injection X as <-. exists u. split; [reflexivity|exact H].
  - destruct (B i x X) as (w & P & Q). exists w. split; [exact P|exact Q].
Qed.
Lemma cvL_app : forall u v l m, cvL C u l -> cvL C v m -> cvL C (fun k => u k ++ v k) (l ++ m).
Proof.
  intros u v l m [A B] [A' B']. split; [intros k; rewrite !app_length, A, A'; reflexivity|]. intros i x X. destruct (le_lt_dec (length l) i) as [G|G].
  - rewrite nth_error_app2 in X by exact G. destruct (B' _ x X) as (w & P & Q). exists w. split; [|exact Q]. intros k. rewrite nth_error_app2 by (rewrite A; exact G). rewrite A. apply P.
  - rewrite nth_error_app1 in X by exact G. destruct (B _ x X) as (w & P & Q). exists w. split; [|exact Q]. intros k. rewrite nth_error_app1 by (rewrite A; exact G). apply P.
Qed.
Lemma cvL_const : forall l, (forall x, C (fun _ => x) x) -> cvL C (fun _ => l) l.
Proof. intros l H. split; [reflexivity|]. intros i x X. exists (fun _ => x). split; [intros; exact X|apply H]. Qed.
Lemma cvL_inv : forall u x l, cvL C u (x :: l) -> exists v w, (forall k, u k = v k :: w k) /\ C v x /\ cvL C w l.
Proof.
  intros u x l [A B]. destruct (B 0%nat x eq_refl) as (v & P & Q). exists v, (fun k => tl (u k)). split; [|split; [exact Q|]].
  - intros k. specialize (P k). destruct (u k); [discriminate|]. simpl in *. congruence.
  - split; [intros k; specialize (A k); specialize (P k); destruct (u k); [discriminate|simpl in *; lia]|].
    intros i y Y. destruct (B (S i) y Y) as (w & P' & Q'). exists w. split; [|exact Q']. intros k. specialize (P k). specialize (P' k). destruct (u k); [discriminate|exact P'].
Qed.
End Combinators.

Lemma cvL_map : forall T D (C : (nat -> T) -> T -> Prop) (E : (nat -> D) -> D -> Prop) (f : nat -> T -> D) g u l, cvL C u l ->
  (forall i v x, nth_error l i = Some x -> C v x -> E (fun k => f k (v k)) (g x)) -> cvL E (fun k => map (f k) (u k)) (map g l).
Proof.
  intros T D C E f g u l [A B] H. split; [intros k; rewrite !map_length; apply A|]. intros i y Y. rewrite nth_error_map in Y. destruct (nth_error l i) as [x|] eqn:X; [|discriminate].
  cbn in Y. injection Y as <-. destruct (B i x X) as (v & P & Q). exists (fun k => f k (v k)). split; [|apply (H i v x X Q)]. intros k. rewrite nth_error_map, P. reflexivity.
Qed.
Lemma ocv_mapM : forall T D (C : (nat -> T) -> T -> Prop) (E : (nat -> D) -> D -> Prop) (f : nat -> T -> option D) g l u, cvL C u l ->
  (forall i v x, nth_error l i = Some x -> C v x -> ocv E (fun k => f k (v k)) (g x)) -> ocv (cvL E) (fun k => mapM (f k) (u k)) (mapM g l).
Proof.
  intros T D C E f g l. induction l as [|x l IH]; intros u H F.
  - destruct H as [A _]. apply (ocv_ev _ _ (fun _ => Some [])); [apply ev_all; intros k; specialize (A k); destruct (u k); [reflexivity|discriminate]|].
    simpl. apply (ocv_some _ (fun _ => [])). apply cvL_nil.
  - destruct (cvL_inv C u x l H) as (v & w & P & Q & R). apply (ocv_ev _ _ (fun k => mapM (f k) (v k :: w k))); [apply ev_all; intros k; rewrite P; reflexivity|].
    simpl. apply (ocv_bind E); [apply (F 0%nat v x eq_refl Q)|]. intros a a0 _ Ca. apply (ocv_bind (cvL E)).
    + apply IH; [exact R|]. intros i v' y Y. apply (F (S i) v' y Y).
    + intros b b0 _ Cb. apply (ocv_some _ (fun k => a k :: b k)). apply cvL_cons; assumption.
Qed.
(** Over fixed indices. *)
Lemma ocv_mapM_seq : forall A D (E : (nat -> D) -> D -> Prop) (f : nat -> A -> option D) g l,
  (forall i, In i l -> ocv E (fun k => f k i) (g i)) -> ocv (cvL E) (fun k => mapM (f k) l) (mapM g l).
Proof.
  intros A D E f g l. induction l as [|i l IH]; intros F; simpl.
  - apply (ocv_some _ (fun _ => [])). apply cvL_nil.
  - apply (ocv_bind E); [apply F; left; reflexivity|]. intros a a0 _ Ca. apply (ocv_bind (cvL E)); [apply IH; intros j J; apply F; right; exact J|].
    intros b b0 _ Cb. apply (ocv_some _ (fun k => a k :: b k)). apply cvL_cons; assumption.
Qed.
Lemma ocv_foldM : forall A D (E : (nat -> D) -> D -> Prop) (f : nat -> D -> A -> option D) g l u s, E u s ->
  (forall i v x, In i l -> E v x -> ocv E (fun k => f k (v k) i) (g x i)) -> ocv E (fun k => foldM (f k) (u k) l) (foldM g s l).
Proof.
  intros A D E f g l. induction l as [|i l IH]; intros u s H F; simpl; [apply ocv_some; exact H|].
  apply (ocv_bind E); [apply F; [left; reflexivity|exact H]|]. intros v x _ Cv. apply IH; [exact Cv|]. intros j w y J. apply F. right. exact J.
Qed.
Lemma ocv_osum : forall n f g, (forall i, (i < n)%nat -> ocv cv3 (fun k => f k i) (g i)) -> ocv cv3 (fun k => osum n (f k)) (osum n g).
Proof.
  induction n as [|n IH]; intros f g F; simpl; [apply ocv_some; apply cv3_const|]. apply (ocv_bind cv3); [apply IH; intros i Hi; apply F; lia|].
  intros v l _ A. apply (ocv_bind cv3); [apply F; lia|]. intros w m _ B. apply (ocv_some _ (fun k => v k +v w k)). apply cv3_add; assumption.
Qed.
Lemma ocv_fdiv : forall x y l m, Un_cv x l -> Un_cv y m -> ocv Un_cv (fun k => fdiv (x k) (y k)) (fdiv l m).
Proof.
  intros x y l m A B z Z. unfold fdiv in Z. destruct (Req_EM_T m 0) as [|N]; [discriminate|]. injection Z as <-. exists (fun k => x k / y k). split; [|apply cv_div; assumption].
  apply (ev_mono (fun k => y k <> 0)); [intros k K; apply fdiv_some; exact K|]. apply (ev_neq y m B N).
Qed.
Lemma ocv_vdiv : forall x y l m, cv3 x l -> Un_cv y m -> ocv cv3 (fun k => vdiv (x k) (y k)) (vdiv l m).
Proof.
  intros x y l m A B z Z. unfold vdiv in Z. destruct (Req_EM_T m 0) as [|N]; [discriminate|]. injection Z as <-. exists (fun k => x k *v / y k). split; [|apply cv3_scale; [exact A|apply cv_inv; assumption]].
  apply (ev_mono (fun k => y k <> 0)); [intros k K; apply vdiv_some; exact K|]. apply (ev_neq y m B N).
Qed.
Lemma ocv_pdiv : forall x y l m, cv2 x l -> Un_cv y m -> ocv cv2 (fun k => pdiv (x k) (y k)) (pdiv l m).
Proof.
  intros x y l m A B z Z. unfold pdiv in Z. destruct (Req_EM_T m 0) as [|N]; [discriminate|]. injection Z as <-. exists (fun k => x k *p / y k). split; [|apply cv2_scale; [exact A|apply cv_inv; assumption]].
  apply (ev_mono (fun k => y k <> 0)); [intros k K; unfold pdiv; destruct (Req_EM_T (y k) 0); [contradiction|reflexivity]|]. apply (ev_neq y m B N).
Qed.
Lemma cv_accumulate : forall l u, cvL Un_cv u l -> Un_cv (fun k => accumulate (u k)) (accumulate l).
Proof.
  intros l. unfold accumulate. assert (G : forall l u a a0, Un_cv a a0 -> cvL Un_cv u l -> Un_cv (fun k => fold_left Rplus (u k) (a k)) (fold_left Rplus l a0)).
  { clear l. induction l as [|x l IH]; intros u a a0 A H.
    - destruct H as [L _]. apply (cv_ext a); [|exact A]. intros k. specialize (L k). destruct (u k); [reflexivity|discriminate].
    - destruct (cvL_inv Un_cv u x l H) as (v & w & P & Q & R). simpl. apply (cv_ext (fun k => fold_left Rplus (w k) (a k + v k))); [intros k; rewrite P; reflexivity|].
      apply IH; [apply CV_plus; assumption|exact R]. }
  intros u H. apply (G l u (fun _ => 0) 0); [apply cv_const|exact H].
Qed.
