(** Affine maps of control points and boundary curves: the patches with control points and C0 Coons patches. *)
Require Import Verif.Base Verif.UtilModel Verif.DomainModel Verif.ParamModel Verif.RibbonModel Verif.SurfaceModel Verif.SurfaceObj Verif.SurfaceSpec Verif.BlendProofs Verif.SurfaceEval Verif.SurfaceC0.
Require Import Verif.UtilSpec Verif.UtilProofs Verif.BlendProps Verif.SPatchModel Verif.SPatchProofs Verif.SuperDModel.
Require Import Verif.GBModel Verif.HybridModel Verif.MoveSpec Verif.MoveProofs Verif.MovePatches.
Open Scope R_scope.

Section Patches.
Variables (L : V3 -> V3) (t : V3).
Hypothesis HL : linear L.
Notation mvP := (mvPoint L t).
Notation mvS := (mvSurf L t).
Notation affw := (aff L t).

(** ** Generalized Bezier patches *)
Definition mvGB (g : gbsurf) : gbsurf := mkGB (gb_n g) (gb_deg g) (gb_lay g) (mvP (gb_cen g)) (map (map (map mvP)) (gb_nets g)) (gb_sq g) (gb_dom g).
Definition affState (st : V3 * R) : V3 * R := (affw (snd st) (fst st), snd st).
Lemma foldM_state : forall {S A : Type} (m : S -> S) (f g : S -> A -> option S), (forall s a, g (m s) a = option_map m (f s a)) -> forall l s, foldM g (m s) l = option_map m (foldM f s l).
Proof. intros S A m f g H l s. apply foldM_map, H. Qed.
Lemma affState_step : forall st p b, (fst (affState st) +v mvP p *v b, snd (affState st) + b) = affState (fst st +v p *v b, snd st + b).
Proof. intros st p b. unfold affState. cbn [fst snd]. f_equal. unfold aff, mvPoint. rewrite (L_add L HL), (L_scale L HL). v3ring. Qed.
Lemma gbSide_aff : forall net d l bs bd al be st, gbSide (map (map mvP) net) d l bs bd al be (affState st) = option_map affState (gbSide net d l bs bd al be st).
Proof.
  intros net d l bs bd al be st. unfold gbSide. apply foldM_state. intros s k. apply foldM_state. intros s' j.
  rewrite map_bind. apply bind_ext. intros bj _. rewrite map_bind. apply bind_ext. intros bk _. rewrite nth_map, bind_map, map_bind. apply bind_ext. intros row _. rewrite nth_map, bind_map, map_bind. apply bind_ext. intros p _. cbn [option_map].
  rewrite affState_step. reflexivity.
Qed.
Lemma get3_aff : forall a i j k, get3 (map (map (map mvP)) a) i j k = option_map mvP (get3 a i j k).
Proof. intros a i j k. unfold get3. rewrite nth_map, bind_map, map_bind. apply bind_ext. intros net _. rewrite nth_map, bind_map, map_bind. apply bind_ext. intros row _. apply nth_map. Qed.
Definition affResult (r : V3 + V3 * R) : V3 + V3 * R := match r with inl p => inl (mvP p) | inr st => inr (affState st) end.
Lemma gbLoop_aff : forall eps g sds is st, gbLoop eps (mvGB g) sds is (affState st) = option_map affResult (gbLoop eps g sds is st).
Proof.
  intros eps g sds is. induction is as [|i is IH]; intros st; [reflexivity|]. cbn [gbLoop]. cbn [mvGB gb_n gb_deg gb_lay gb_cen gb_nets gb_sq].
  rewrite map_bind. apply bind_ext. intros sd _. rewrite map_bind. apply bind_ext. intros sdp _. rewrite map_bind. apply bind_ext. intros sdn _.
  destruct (Rlt_dec (py sd + py sdn) eps); [rewrite get3_aff, bind_map, map_bind; reflexivity|]. destruct (Rlt_dec (py sdp + py sd) eps); [rewrite get3_aff, bind_map, map_bind; reflexivity|].
  rewrite map_bind. apply bind_ext. intros al _. rewrite map_bind. apply bind_ext. intros be _. rewrite nth_map, bind_map, map_bind. apply bind_ext. intros net _. rewrite gbSide_aff, bind_map, map_bind. apply bind_ext. intros st' _. apply IH.
Qed.
Lemma zero_state : (vzero, 0) = affState (vzero, 0).
Proof. unfold affState, aff. cbn [fst snd]. rewrite (L_zero L HL). f_equal. v3ring. Qed.
Lemma gb_aff : forall eps g sds, gbEval eps (mvGB g) sds = option_map mvP (gbEval eps g sds).
Proof.
  intros eps g sds. unfold gbEval. cbn [mvGB gb_n]. rewrite zero_state, gbLoop_aff, bind_map, map_bind, <- zero_state. apply bind_ext. intros [p|[q w]] _; [reflexivity|]. cbn [affResult affState option_map fst snd mvGB gb_cen]. f_equal.
  unfold aff, mvPoint. rewrite (L_add L HL), (L_scale L HL). v3ring.
Qed.
Lemma gbc_aff : forall g sds, gbcEval (mvGB g) sds = option_map mvP (gbcEval g sds).
Proof.
  intros g sds. unfold gbcEval. cbn [mvGB gb_n gb_deg gb_lay gb_nets gb_cen].
  rewrite zero_state. rewrite (foldM_state affState (fun st i => sd <- nth_error sds i ;; sdn <- nth_error sds (nxt (gb_n g) i) ;; net <- nth_error (gb_nets g) i ;;
      gbcCorner net (gb_deg g) (gb_lay g) (bernsteinList (gb_deg g) (py sd)) (bernsteinList (gb_deg g) (py sdn)) st)).
  - rewrite bind_map, map_bind, <- zero_state. apply bind_ext. intros [q w] _. cbn [affState option_map fst snd]. f_equal. unfold aff, mvPoint. rewrite (L_add L HL), (L_scale L HL). v3ring.
  - intros s i. rewrite map_bind. apply bind_ext. intros sd _. rewrite map_bind. apply bind_ext. intros sdn _. rewrite nth_map, bind_map, map_bind. apply bind_ext. intros net _. unfold gbcCorner. apply foldM_state. intros s' j. apply foldM_state. intros s'' k.
    rewrite map_bind. apply bind_ext. intros bj _. rewrite map_bind. apply bind_ext. intros bk _. rewrite nth_map, bind_map, map_bind. apply bind_ext. intros row _. rewrite nth_map, bind_map, map_bind. apply bind_ext. intros p _. cbn [option_map].
    rewrite affState_step. reflexivity.
Qed.

(** ** Hybrid patches *)
Lemma gbWeight_aff : forall eps g sds i j k, gbWeight eps (mvGB g) sds i j k = gbWeight eps g sds i j k.
Proof. reflexivity. Qed.
Definition mvH (e : R) (st : V3 * R * R) : V3 * R * R := let '(p, w, b) := st in (affw (w - e - b) p, w, b).
Lemma hybridSide_aff : forall eps g sds i e st, hybridSide eps (mvGB g) sds i (mvH e st) = option_map (mvH e) (hybridSide eps g sds i st).
Proof.
  intros eps g sds i e st. unfold hybridSide. cbn [mvGB gb_deg gb_lay]. apply foldM_state. intros s k. apply foldM_state. intros [[p w] b] j. cbn [mvH]. rewrite gbWeight_aff, map_bind. apply bind_ext. intros bl _. destruct (2 <=? k)%nat.
  - unfold controlPoint. cbn [mvGB gb_nets]. rewrite get3_aff, bind_map, map_bind. apply bind_ext. intros q _. cbn [option_map mvH]. do 3 f_equal. unfold aff, mvPoint. rewrite (L_add L HL), (L_scale L HL). v3ring.
  - cbn [option_map mvH]. do 4 f_equal. ring.
Qed.
Definition total (l : list R) : R := fold_right Rplus 0 l.
Definition mvHL (st : V3 * R * list R) : V3 * R * list R := let '(p, w, bs) := st in (affw (w - total bs) p, w, bs).
Lemma total_app : forall l x, total (l ++ [x]) = total l + x.
Proof. intros l x. unfold total. induction l as [|a l IH]; simpl; [ring|rewrite IH; ring]. Qed.
Lemma total_rsum : forall l, total l = rsum (length l) (fun i => nth i l 0).
Proof. intros l. rewrite <- DomainPolygons.accumulate_rsum. unfold accumulate, total. symmetry. apply fold_symmetric; intros; ring. Qed.
Lemma hybrid_aff : forall eps g sf sds, hybridEval eps (mvGB g) (mvS sf) sds = option_map mvP (hybridEval eps g sf sds).
Proof.
  intros eps g sf sds. unfold hybridEval. cbn [mvGB gb_n]. set (F := fun g0 (st : V3 * R * list R) i => let '(p, w, bs) := st in ' (p', w', b) <- hybridSide eps g0 sds i (p, w, 0) ;; Some (p', w', bs ++ [b])).
  change (mkGB (gb_n g) (gb_deg g) (gb_lay g) (mvP (gb_cen g)) (map (map (map mvP)) (gb_nets g)) (gb_sq g) (gb_dom g)) with (mvGB g).
  assert (Z : (vzero, 0, []) = mvHL (vzero, 0, [])) by (unfold mvHL, total, aff; simpl; rewrite (L_zero L HL); do 2 f_equal; v3ring).
  assert (E : foldM (F (mvGB g)) (vzero, 0, []) (seq 0 (gb_n g)) = option_map mvHL (foldM (F g) (vzero, 0, []) (seq 0 (gb_n g)))).
  { rewrite Z at 1. apply foldM_state. intros [[p w] bs] i. unfold F, mvHL at 1. assert (H := hybridSide_aff eps g sds i (total bs) (p, w, 0)). cbn [mvH] in H. rewrite Rminus_0_r in H. rewrite H, bind_map, map_bind. apply bind_ext. intros [[p' w'] b] _.
    cbn [mvH option_map mvHL]. rewrite total_app. do 4 f_equal. ring. }
  fold (F (mvGB g)). fold (F g). rewrite E, bind_map, map_bind. apply bind_ext. intros [[p w] bs] Eb. cbn [mvHL].
  assert (Lb : length bs = gb_n g).
  { assert (G : forall l st st', foldM (F g) st l = Some st' -> length (snd st') = (length (snd st) + length l)%nat).
    { intros l. induction l as [|i l IH]; intros st st' H; [injection H as <-; simpl; lia|]. cbn [foldM] in H. destruct (F g st i) as [s1|] eqn:E1; [cbn [bind] in H|discriminate]. apply IH in H. rewrite H. cbn [length].
      destruct st as [[p0 w0] b0]. unfold F in E1. destruct (hybridSide eps g sds i (p0, w0, 0)) as [[[p1 w1] b1]|]; [|discriminate]. cbn [bind] in E1. injection E1 as <-. cbn [snd]. rewrite app_length. simpl. lia. }
    apply G in Eb. cbn [snd length] in Eb. rewrite seq_length in Eb. exact Eb. }
  rewrite (osum_aff L t HL (gb_n g) (fun i => sd <- nth_error sds i ;; q <- sideInterpolant sf i (px sd) (py sd) ;; b <- nth_error bs i ;; Some (q *v b)) _ (fun i => nth i bs 0)).
  - rewrite bind_map, map_bind. apply bind_ext. intros r _. cbn [option_map mvGB gb_cen]. f_equal. rewrite total_rsum, Lb. unfold aff, mvPoint. rewrite !(L_add L HL), (L_scale L HL). v3ring.
  - intros i Hi. rewrite map_bind. apply bind_ext. intros sd _. rewrite (side_aff L t HL), bind_map, map_bind. apply bind_ext. intros q _. rewrite map_bind. apply bind_ext. intros b Ebi. simpl. rewrite (nth_nth_error _ _ _ 0 Ebi), (aff_scale L t HL). reflexivity.
Qed.

(** ** C0 Coons patches *)
Lemma clamp_1 : forall x, clamp (1 - clamp x 0 1) 0 1 = 1 - clamp x 0 1.
Proof. intros x. unfold clamp. destruct (Rlt_dec x 0), (Rlt_dec 1 x); repeat match goal with |- context [Rlt_dec ?a ?b] => destruct (Rlt_dec a b) end; lra. Qed.
Lemma coons_eval_aff : forall l2 l c r r2 same sd, coonsEval (mvCurve L t c) (coonsUpdate (mvCurve L t l2) (mvCurve L t l) (mvCurve L t c) (mvCurve L t r) (mvCurve L t r2) same) sd =
  option_map mvP (coonsEval c (coonsUpdate l2 l c r r2 same) sd).
Proof.
  intros l2 l c r r2 same sd. unfold coonsEval, coonsUpdate. cbn [co_top co_left co_right co_bl co_br co_tl co_tr mvCurve cpt cder]. rewrite !clamp_1. set (s := clamp (px sd) 0 1). set (d := clamp (py sd) 0 1). clearbody s d.
  assert (Ht : forall u, bcEval (if same then [mvP (cpt l 0)] else [mvP (cpt r 1); mvP (cpt r 1) +v L (cder r2 0) *v / 3; mvP (cpt l 0) -v L (cder l2 1) *v / 3; mvP (cpt l 0)]) u =
    option_map mvP (bcEval (if same then [cpt l 0] else [cpt r 1; cpt r 1 +v cder r2 0 *v / 3; cpt l 0 -v cder l2 1 *v / 3; cpt l 0]) u)).
  { intros u. destruct same; [rewrite !const_value; reflexivity|]. rewrite !cubic_value. simpl. f_equal. unfold mvPoint. rewrite ?(L_add L HL), ?(L_sub L HL), ?(L_scale L HL), ?(L_add L HL), ?(L_sub L HL), ?(L_scale L HL). v3ring. }
  rewrite Ht, bind_map, map_bind. apply bind_ext. intros tp _. cbn [option_map]. f_equal. unfold mvPoint. rewrite ?(L_add L HL), ?(L_sub L HL), ?(L_add L HL), ?(L_scale L HL), ?(L_add L HL), ?(L_scale L HL). v3ring.
Qed.
Lemma coonsRibbon_aff : forall cs i sd, (r <- coonsRibbon (map (mvCurve L t) cs) i ;; r sd) = option_map mvP (r <- coonsRibbon cs i ;; r sd).
Proof.
  intros cs i sd. unfold coonsRibbon. rewrite map_length, !nth_map. destruct (nth_error cs i) as [c|]; [cbn [bind option_map]|reflexivity]. destruct (nth_error cs (prv (length cs) i)) as [l|]; [cbn [bind option_map]|reflexivity].
  destruct (nth_error cs (nxt (length cs) i)) as [r|]; [cbn [bind option_map]|reflexivity]. destruct (nth_error cs (prv (length cs) (prv (length cs) i))) as [l2|]; [cbn [bind option_map]|reflexivity].
  destruct (nth_error cs (nxt (length cs) (nxt (length cs) i))) as [r2|]; [cbn [bind option_map]|reflexivity]. apply coons_eval_aff.
Qed.
Definition ribAt (cs : list curve) (i : nat) : V2 -> option V3 := match coonsRibbon cs i with Some r => r | None => fun _ => None end.
Lemma ribbons_all : forall cs, (1 <= length cs)%nat -> mapM (coonsRibbon cs) (seq 0 (length cs)) = Some (tabulate (length cs) (ribAt cs)).
Proof.
  intros cs Hn. rewrite (mapM_seq _ (length cs) _ (ribAt cs)); [reflexivity|]. intros i Hi. simpl. unfold ribAt.
  assert (E : exists r, coonsRibbon cs i = Some r); [|destruct E as [r ->]; reflexivity].
  unfold coonsRibbon. assert (P := prv_lt (length cs) i ltac:(lia)). assert (N := nxt_lt (length cs) i ltac:(lia)). assert (P2 := prv_lt (length cs) (prv (length cs) i) ltac:(lia)). assert (N2 := nxt_lt (length cs) (nxt (length cs) i) ltac:(lia)).
  destruct (nth_error cs i) eqn:E1; [|apply nth_error_None in E1; lia]. destruct (nth_error cs (prv (length cs) i)) eqn:E2; [|apply nth_error_None in E2; lia]. destruct (nth_error cs (nxt (length cs) i)) eqn:E3; [|apply nth_error_None in E3; lia].
  destruct (nth_error cs (prv (length cs) (prv (length cs) i))) eqn:E4; [|apply nth_error_None in E4; lia]. destruct (nth_error cs (nxt (length cs) (nxt (length cs) i))) eqn:E5; [|apply nth_error_None in E5; lia]. eexists; reflexivity.
Qed.
Lemma c0_aff : forall eps d cs uv sds, (1 <= length cs)%nat -> mapToRibbons (KBary Wachspress) eps d uv = Some sds -> rsum (length cs) (fun i => (1 - py (nth i sds pzero)) / 2) = 1 ->
  c0coonsEval eps d (map (mvCurve L t) cs) uv = option_map mvP (c0coonsEval eps d cs uv).
Proof.
  intros eps d cs uv sds Hn M W. unfold c0coonsEval. rewrite M. cbn [bind]. rewrite !ribbons_all by (rewrite ?map_length; exact Hn). cbn [bind]. rewrite map_length. unfold c0coons.
  rewrite (osum_aff L t HL (length cs) (fun i => r <- nth_error (tabulate (length cs) (ribAt cs)) i ;; sd <- nth_error sds i ;; p <- r sd ;; Some (p *v (1 - py sd) *v / 2)) _ (fun i => (1 - py (nth i sds pzero)) / 2)).
  - rewrite W. apply aff_one_map.
  - intros i Hi. rewrite !tabulate_nth_error by exact Hi. cbn [bind]. rewrite map_bind. apply bind_ext. intros sd Es. rewrite (nth_nth_error _ _ _ pzero Es).
    assert (E : ribAt (map (mvCurve L t) cs) i sd = option_map mvP (ribAt cs i sd)).
    { assert (H := coonsRibbon_aff cs i sd). unfold ribAt. destruct (coonsRibbon (map (mvCurve L t) cs) i), (coonsRibbon cs i); exact H. }
    rewrite E, bind_map, map_bind. apply bind_ext. intros p _. simpl. f_equal. unfold aff, mvPoint, Rdiv. rewrite !(L_scale L HL). v3ring.
Qed.

(** ** S-patches *)
Definition mvNet (m : snet) : snet := map (fun cp => (fst cp, mvP (snd cp))) m.
Lemma spSum_aff : forall n d m bc, complete n d m -> (d <= 20)%nat -> length bc = n -> rsum n (fun i => nth i bc 0) = 1 -> spSum (mvNet m) bc = option_map mvP (spSum m bc).
Proof.
  intros n d m bc C Hd Lb W. pose proof (SPatchProofs.weights_sum n d m bc C Lb W) as Wm.
  rewrite (spSum_value m bc) by (intros ix p Hp; destruct (complete_entry n d _ ix p C Hp); lia).
  rewrite (spSum_value (mvNet m) bc).
  - simpl. f_equal. unfold mvNet. rewrite lvsum_map. cbn [fst snd]. transitivity (affw (lsum (fun cp => weight (fst cp) bc) m) (lvsum (fun cp => snd cp *v weight (fst cp) bc) m)); [|rewrite Wm; apply aff_one].
    clear C Wm. induction m as [|[k p] m IH]; [unfold aff; simpl; rewrite (L_zero L HL); v3ring|]. simpl. rewrite IH. unfold aff, mvPoint. rewrite (L_add L HL), (L_scale L HL). v3ring.
  - intros ix p Hp. unfold mvNet in Hp. apply in_map_iff in Hp. destruct Hp as ([k q] & E & Hq). injection E as <- <-. cbn [fst]. destruct (complete_entry n d _ k q C Hq). lia.
Qed.

(** ** Super-D patches *)
Definition mvSD (p : superd) : superd := mkSD (su_n p) (su_full p) (map mvP (su_f p)) (map mvP (su_e p)) (mvP (su_v p)) (map (map (map mvP)) (su_q p)).
Lemma affine_aff : forall a x b, affine3 (mvP a) x (mvP b) = mvP (affine3 a x b).
Proof. intros a x b. unfold affine3, mvPoint. rewrite (L_add L HL), !(L_scale L HL). v3ring. Qed.
Lemma quartic_aff : forall f a b c, quartic f (mvP a) (mvP b) (mvP c) = map mvP (quartic f a b c).
Proof. intros f a b c. unfold quartic. rewrite !affine_aff. reflexivity. Qed.
Lemma base_aff : forall p i, sdBase (mvSD p) i = option_map (map mvP) (sdBase p i).
Proof. intros p i. unfold sdBase. cbn [mvSD su_n su_f su_e su_full]. rewrite nth_map, bind_map, map_bind. apply bind_ext. intros a _. rewrite nth_map, bind_map, map_bind. apply bind_ext. intros b _. rewrite nth_map, bind_map, map_bind. apply bind_ext. intros c _. simpl. f_equal. apply quartic_aff. Qed.
Lemma mapM_aff : forall {A B C : Type} (m : B -> C) (f : A -> option B) (g : A -> option C) l, (forall a, g a = option_map m (f a)) -> mapM g l = option_map (map m) (mapM f l).
Proof. intros A B C m f g l H. induction l as [|a l IH]; [reflexivity|]. cbn [mapM]. rewrite H, bind_map, map_bind. apply bind_ext. intros b _. rewrite IH, bind_map, map_bind. reflexivity. Qed.
Lemma ribbon_aff : forall p i, sdRibbon (mvSD p) i = option_map (map (map mvP)) (sdRibbon p i).
Proof.
  intros p i. unfold sdRibbon. rewrite base_aff, bind_map, map_bind. apply bind_ext. intros base _. change (su_n (mvSD p)) with (su_n p). destruct (4 <? su_n p)%nat.
  - rewrite base_aff, bind_map, map_bind. apply bind_ext. intros l _. rewrite base_aff, bind_map, map_bind. apply bind_ext. intros r _. apply mapM_aff. intros j. apply mapM_aff. intros k.
    rewrite nth_map, bind_map, map_bind. apply bind_ext. intros b _. rewrite nth_map, bind_map, map_bind. apply bind_ext. intros x _. rewrite nth_map, bind_map, map_bind. apply bind_ext. intros x4 _.
    rewrite nth_map, bind_map, map_bind. apply bind_ext. intros y _. rewrite nth_map, bind_map, map_bind. apply bind_ext. intros y0 _. simpl. f_equal. unfold mvPoint. rewrite !(L_add L HL), !(L_scale L HL), !(L_sub L HL). v3ring.
  - assert (Em : sdMid (mvSD p) i = option_map (map mvP) (sdMid p i)).
    { unfold sdMid. cbn [mvSD su_n su_e su_full su_v]. rewrite nth_map, bind_map, map_bind. apply bind_ext. intros a _. rewrite nth_map, bind_map, map_bind. apply bind_ext. intros c _. simpl. f_equal. apply quartic_aff. }
    assert (Eo : sdOpp (mvSD p) i = option_map (map mvP) (sdOpp p i)).
    { unfold sdOpp. change (su_n (mvSD p)) with (su_n p). destruct (su_n p =? 3)%nat.
      - cbn [mvSD su_f]. rewrite nth_map, bind_map, map_bind. apply bind_ext. intros c _. reflexivity.
      - destruct (su_n p =? 4)%nat; [|reflexivity]. rewrite base_aff, bind_map, map_bind. apply bind_ext. intros r _. simpl. rewrite map_rev. reflexivity. }
    rewrite Em, bind_map, map_bind. apply bind_ext. intros mid _. rewrite Eo, bind_map, map_bind. apply bind_ext. intros opp _. apply mapM_aff. intros j.
    rewrite nth_map, bind_map, map_bind. apply bind_ext. intros b _. rewrite nth_map, bind_map, map_bind. apply bind_ext. intros m _. rewrite nth_map, bind_map, map_bind. apply bind_ext. intros o _. simpl. f_equal. apply quartic_aff.
Qed.
Lemma update_aff : forall p, sdUpdateRibbons (mvSD p) = option_map mvSD (sdUpdateRibbons p).
Proof. intros p. unfold sdUpdateRibbons. change (su_n (mvSD p)) with (su_n p). rewrite (mapM_aff (map (map mvP)) (sdRibbon p) _ _ (ribbon_aff p)), bind_map, map_bind. reflexivity. Qed.
Lemma bezier_aff : forall s u v, sdBezier (map (map mvP) s) u v = option_map mvP (sdBezier s u v).
Proof.
  intros s u v. unfold sdBezier.
  rewrite (osum_aff L t HL 5 (fun i => osum 5 (fun j => r <- nth_error s i ;; q <- nth_error r j ;; bu <- nth_error (bernsteinList 4 u) i ;; bv <- nth_error (bernsteinList 4 v) j ;; Some (q *v bu *v bv))) _ (fun i => rsum 5 (fun j => bern 4 i u * bern 4 j v))).
  - transitivity (option_map (affw 1) (osum 5 (fun i => osum 5 (fun j => r <- nth_error s i ;; q <- nth_error r j ;; bu <- nth_error (bernsteinList 4 u) i ;; bv <- nth_error (bernsteinList 4 v) j ;; Some (q *v bu *v bv))))); [|apply aff_one_map].
    do 2 f_equal. transitivity (rsum 5 (fun i => bern 4 i u)); [|exact (bern_sum 4 u)]. apply rsum_ext. intros i Hi. assert (B := bern_sum 4 v). simpl (4 + 1)%nat in B. rewrite rsum_scal, B. ring.
  - intros i Hi. apply (osum_aff L t HL). intros j Hj. rewrite nth_map, bind_map, map_bind. apply bind_ext. intros r _. rewrite nth_map, bind_map, map_bind. apply bind_ext. intros q _. rewrite !bernsteinList_nth by lia. cbn [bind option_map]. f_equal. unfold aff, mvPoint. rewrite !(L_scale L HL). v3ring.
Qed.
Lemma superd_aff : forall eps d p uv sds b, mapToRibbons KSuperD eps d uv = Some sds -> blendSideSingular eps sds = Some b -> length b = su_n p -> SurfaceSpec.weights_sum b 1 -> sdEval eps d (mvSD p) uv = option_map mvP (sdEval eps d p uv).
Proof.
  intros eps d p uv sds b M E Lb W. unfold sdEval. rewrite M. cbn [bind]. rewrite E. cbn [bind mvSD su_n su_q].
  rewrite (osum_aff L t HL (su_n p) (fun i => q <- nth_error (su_q p) i ;; sd <- nth_error sds i ;; b0 <- nth_error b i ;; x <- sdBezier q (px sd) (py sd) ;; Some (x *v b0)) _ (fun i => nth i b 0)).
  - apply sums_weights in W. unfold sumsTo in W. rewrite Lb in W. rewrite W. apply aff_one_map.
  - intros i Hi. rewrite nth_map, bind_map, map_bind. apply bind_ext. intros q _. rewrite map_bind. apply bind_ext. intros sd _. rewrite map_bind. apply bind_ext. intros b0 Eb. rewrite bezier_aff, bind_map, map_bind. apply bind_ext. intros x _. simpl. f_equal. rewrite (nth_nth_error _ _ _ 0 Eb). apply (aff_scale L t HL).
Qed.
End Patches.
