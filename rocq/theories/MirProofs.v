(** Going round the boundary the other way: lists, sums, blends, patches. *)
From Verif Require Import Base UtilModel UtilSpec UtilProofs DomainModel DomainProofs ParamModel MeshParams RibbonModel SurfaceModel RotSpec RotProofs RotParam MirSpec.
Open Scope R_scope.

(** ** Indices *)
Definition sid (n i : nat) : nat := if (i =? 0)%nat then 0%nat else (n - i)%nat.
Definition cor (n i : nat) : nat := (n - 1 - i)%nat.
Ltac idx := unfold sid, cor; repeat rewrite nxt_cases by lia; repeat rewrite prv_cases by lia;
  repeat match goal with
    | |- context [(?a =? ?b)%nat] => destruct (Nat.eqb_spec a b)
    | H : context [(?a =? ?b)%nat] |- _ => destruct (Nat.eqb_spec a b)
    end; try lia.
Lemma sid_lt : forall n i, (i < n)%nat -> (sid n i < n)%nat. Proof. intros. idx. Qed.
Lemma cor_lt : forall n i, (i < n)%nat -> (cor n i < n)%nat. Proof. intros. idx. Qed.
Lemma sid_sid : forall n i, (i < n)%nat -> sid n (sid n i) = i. Proof. intros. idx. Qed.
Lemma cor_cor : forall n i, (i < n)%nat -> cor n (cor n i) = i. Proof. intros. idx. Qed.
Lemma nxt_cor : forall n i, (i < n)%nat -> nxt n (cor n i) = sid n i. Proof. intros. idx. Qed.
Lemma prv_sid : forall n i, (i < n)%nat -> prv n (sid n i) = cor n i.
Proof. intros. rewrite <- nxt_cor by assumption. apply prv_nxt. apply cor_lt. assumption. Qed.
Lemma sid_nxt : forall n i, (i < n)%nat -> sid n (nxt n i) = cor n i. Proof. intros. idx. Qed.
Lemma sid_prv : forall n i, (i < n)%nat -> sid n (prv n i) = nxt n (sid n i).
Proof. intros n i H. rewrite <- (nxt_cor n (prv n i)) by (apply prv_lt; lia). f_equal. idx. Qed.
Lemma cor_nxt : forall n i, (i < n)%nat -> cor n (nxt n i) = prv n (cor n i).
Proof. intros n i H. rewrite <- (prv_sid n (nxt n i)) by (apply nxt_lt; lia). rewrite sid_nxt by exact H. reflexivity. Qed.
Lemma cor_prv : forall n i, (i < n)%nat -> cor n (prv n i) = sid n i. Proof. intros. idx. Qed.

(** ** Lists *)
Lemma mir_length : forall A (l : list A), length (mir l) = length l.
Proof. intros A [|a l]; [reflexivity|]. simpl. rewrite rev_length. reflexivity. Qed.
Lemma rev_nth : forall A (l : list A) n i, length l = n -> (i < n)%nat -> nth_error (rev l) i = nth_error l (cor n i).
Proof.
  intros A l n i L H. subst n. destruct (nth_error l (cor (length l) i)) as [a|] eqn:E; [|apply nth_error_None in E; pose proof (cor_lt (length l) i H); lia].
  rewrite (nth_error_nth' (rev l) a) by (rewrite rev_length; exact H). rewrite List.rev_nth by exact H. f_equal. replace (length l - S i)%nat with (cor (length l) i) by (unfold cor; lia).
  apply nth_error_nth. exact E.
Qed.
Lemma mir_nth : forall A (l : list A) n i, length l = n -> (i < n)%nat -> nth_error (mir l) i = nth_error l (sid n i).
Proof.
  intros A [|a l] n i L H; cbn [length] in L; [lia|]. destruct i as [|i]; [reflexivity|]. cbn [mir nth_error]. rewrite (rev_nth _ l (length l)) by lia.
  unfold sid, cor. cbn [Nat.eqb]. subst n. destruct (length l - 1 - i)%nat eqn:E; replace (S (length l) - S i)%nat with (S (length l - 1 - i)) by lia; rewrite E; reflexivity.
Qed.
Lemma map_mir : forall A B (f : A -> B) l, map f (mir l) = mir (map f l).
Proof. intros A B f [|a l]; [reflexivity|]. simpl. rewrite map_rev. reflexivity. Qed.
Lemma mapM_rev_list : forall A B (f : A -> option B) l, mapM f (rev l) = option_map (@rev B) (mapM f l).
Proof.
  intros A B f l; induction l as [|a l IH]; [reflexivity|]. cbn [rev mapM]. rewrite mapM_app, IH. cbn [mapM].
  destruct (mapM f l); destruct (f a); reflexivity.
Qed.
Lemma mapM_mir_list : forall A B (f : A -> option B) l, mapM f (mir l) = option_map mir (mapM f l).
Proof.
  intros A B f [|a l]; [reflexivity|]. cbn [mir mapM]. rewrite mapM_rev_list. destruct (f a); [|reflexivity]. cbn [bind]. destruct (mapM f l); reflexivity.
Qed.
Lemma rev_seq : forall n, rev (seq 0 n) = map (cor n) (seq 0 n).
Proof.
  intros n. apply list_ext. intros j. destruct (Nat.lt_ge_cases j n) as [H|H].
  - rewrite (rev_nth _ _ n) by (try apply seq_length; exact H). rewrite (nth_error_map_seq (cor n) 0) by exact H. rewrite (nth_error_nth' (seq 0 n) 0%nat) by (rewrite seq_length; apply cor_lt; exact H).
    rewrite seq_nth by (apply cor_lt; exact H). reflexivity.
  - rewrite !(proj2 (nth_error_None _ j)); [reflexivity| |]; rewrite ?rev_length, ?map_length, seq_length; exact H.
Qed.
Lemma mir_seq : forall n, mir (seq 0 n) = map (sid n) (seq 0 n).
Proof.
  intros n. apply list_ext. intros j. destruct (Nat.lt_ge_cases j n) as [H|H].
  - rewrite (mir_nth _ _ n) by (try apply seq_length; exact H). rewrite (nth_error_map_seq (sid n) 0) by exact H. rewrite (nth_error_nth' (seq 0 n) 0%nat) by (rewrite seq_length; apply sid_lt; exact H).
    rewrite seq_nth by (apply sid_lt; exact H). reflexivity.
  - rewrite !(proj2 (nth_error_None _ j)); [reflexivity| |]; rewrite ?mir_length, ?map_length, seq_length; exact H.
Qed.
Lemma mapM_map : forall A B C (g : A -> B) (f : B -> option C) l, mapM f (map g l) = mapM (fun a => f (g a)) l.
Proof. intros A B C g f l; induction l as [|a l IH]; [reflexivity|]. cbn [map mapM]. rewrite IH. reflexivity. Qed.
Lemma mapM_rev : forall B n (f f' : nat -> option B), (forall i, (i < n)%nat -> f' i = f (cor n i)) -> mapM f' (seq 0 n) = option_map (@rev B) (mapM f (seq 0 n)).
Proof. intros B n f f' H. rewrite <- mapM_rev_list, rev_seq, mapM_map. apply mapM_ext. intros i I. apply H. apply in_seq in I. lia. Qed.
Lemma mapM_mir : forall B n (f f' : nat -> option B), (forall i, (i < n)%nat -> f' i = f (sid n i)) -> mapM f' (seq 0 n) = option_map mir (mapM f (seq 0 n)).
Proof. intros B n f f' H. rewrite <- mapM_mir_list, mir_seq, mapM_map. apply mapM_ext. intros i I. apply H. apply in_seq in I. lia. Qed.
Lemma mapM_out : forall A B C (m : B -> C) (f : A -> option B) l, mapM (fun a => option_map m (f a)) l = option_map (map m) (mapM f l).
Proof. intros A B C m f l; induction l as [|a l IH]; [reflexivity|]. cbn [mapM]. rewrite IH. destruct (f a); [|reflexivity]. destruct (mapM f l); reflexivity. Qed.

(** ** Sums *)
Lemma accumulate_app : forall l1 l2, accumulate (l1 ++ l2) = accumulate l1 + accumulate l2.
Proof. intros l1 l2. unfold accumulate at 1. rewrite fold_left_app. rewrite accumulate_from. reflexivity. Qed.
Lemma accumulate_cons : forall a l, accumulate (a :: l) = a + accumulate l.
Proof. intros a l. unfold accumulate at 1. cbn [fold_left]. rewrite accumulate_from. lra. Qed.
Lemma accumulate_rev : forall l, accumulate (rev l) = accumulate l.
Proof. induction l as [|a l IH]; [reflexivity|]. cbn [rev]. rewrite accumulate_app, !accumulate_cons, IH. unfold accumulate at 2. cbn [fold_left]. lra. Qed.
Lemma accumulate_mir : forall l, accumulate (mir l) = accumulate l.
Proof. intros [|a l]; [reflexivity|]. cbn [mir]. rewrite !accumulate_cons, accumulate_rev. reflexivity. Qed.
Lemma vsum_cor : forall n f, vsum n (fun i => f (cor n i)) = vsum n f.
Proof.
  induction n as [|n IH]; intros f; [reflexivity|]. rewrite vsum_first. cbn [vsum].
  rewrite (vsum_ext n (fun i => f (cor (S n) (S i))) (fun i => f (cor n i))); [|intros i Hi; f_equal; unfold cor; lia]. rewrite IH.
  replace (cor (S n) 0) with n by (unfold cor; lia). v3ring.
Qed.
Lemma rsum_cor : forall n f, rsum n (fun i => f (cor n i)) = rsum n f.
Proof.
  induction n as [|n IH]; intros f; [reflexivity|]. rewrite rsum_first. cbn [rsum].
  rewrite (rsum_ext n (fun i => f (cor (S n) (S i))) (fun i => f (cor n i))); [|intros i Hi; f_equal; unfold cor; lia]. rewrite IH.
  replace (cor (S n) 0) with n by (unfold cor; lia). lra.
Qed.
Lemma osum_cor : forall n f f', (forall i, (i < n)%nat -> f' i = f (cor n i)) -> osum n f' = osum n f.
Proof.
  intros n f f' H. rewrite (osum_ext n f' (fun i => f (cor n i)) H). clear f' H.
  destruct (all_or_none V3 vzero n f) as [(g & G)|(i & Hi & E)].
  - rewrite (osum_total n f g G), (osum_total n _ (fun i => g (cor n i))); [rewrite vsum_cor; reflexivity|]. intros i Hi. apply G. apply cor_lt. exact Hi.
  - rewrite (osum_none n f i Hi E). apply (osum_none n _ (cor n i)); [apply cor_lt; exact Hi|]. rewrite cor_cor by exact Hi. exact E.
Qed.
Lemma osum_sid : forall n f f', (forall i, (i < n)%nat -> f' i = f (sid n i)) -> osum n f' = osum n f.
Proof.
  intros n f f' H. rewrite <- (osum_rot n f (fun i => f (nxt n i))) by reflexivity. apply osum_cor. intros i Hi. rewrite nxt_cor by exact Hi. apply H. exact Hi.
Qed.
Lemma osum_sub : forall n A C, osum n (fun i => a <- A i ;; c <- C i ;; Some (a -v c)) = (a <- osum n A ;; c <- osum n C ;; Some (a -v c)).
Proof.
  intros n A C. induction n as [|n IH]; [cbn [osum bind]; f_equal; v3ring|]. cbn [osum]. rewrite IH.
  destruct (osum n A) as [a|]; [cbn [bind]|reflexivity]. destruct (osum n C) as [c|]; cbn [bind].
  - destruct (A n) as [a'|]; [cbn [bind]|reflexivity]. destruct (C n) as [c'|]; [cbn [bind]; f_equal; v3ring|reflexivity].
  - destruct (A n); reflexivity.
Qed.

(** Sides and corners of reversed lists. *)
Ltac mir_idx n i Hi :=
  rewrite ?(mir_nth _ _ n) by (try assumption; try (apply prv_lt; lia); try (apply nxt_lt; lia));
  rewrite ?(rev_nth _ _ n) by (try assumption; try (apply prv_lt; lia); try (apply nxt_lt; lia));
  rewrite ?(sid_nxt n i Hi), ?(sid_prv n i Hi), ?(cor_prv n i Hi), ?(cor_nxt n i Hi).
Lemma mapped_nth : forall A B (f : A -> B) l i, nth_error (map f l) i = option_map f (nth_error l i).
Proof. intros. apply nth_error_map. Qed.

(** ** Blends *)
Lemma hermite_flip : forall x, hermite 0 (1 - x) = 1 - hermite 0 x.
Proof. intros x. unfold hermite. ring. Qed.
Lemma clamp_flip : forall s, clamp (1 - s) 0 1 = 1 - clamp s 0 1.
Proof. intros s. unfold clamp. repeat (destruct (Rlt_dec _ _)); lra. Qed.
Lemma closeCount_mir : forall eps sds, closeCount eps (mirSds sds) = closeCount eps sds.
Proof.
  intros eps sds. unfold closeCount, mirSds. set (F := fun sd : V2 => if Rlt_dec (py sd) eps then true else false).
  assert (R : forall l, length (filter F (rev l)) = length (filter F l)).
  { induction l as [|a l IH]; [reflexivity|]. cbn [rev]. rewrite filter_app, app_length, IH. cbn [filter]. destruct (F a); simpl; lia. }
  assert (M : forall l, length (filter F (map flipSd l)) = length (filter F l)).
  { induction l as [|a l IH]; [reflexivity|]. cbn [map filter]. change (F (flipSd a)) with (F a). destruct (F a); cbn [length]; rewrite IH; reflexivity. }
  rewrite M. destruct sds as [|a l]; [reflexivity|]. cbn [mir filter]. destruct (F a); cbn [length]; rewrite R; reflexivity.
Qed.
Lemma close_two : forall eps sds i j a b, nth_error sds i = Some a -> nth_error sds j = Some b -> i <> j -> py a < eps -> py b < eps -> (2 <= closeCount eps sds)%nat.
Proof.
  intros eps. unfold closeCount. set (F := fun sd : V2 => if Rlt_dec (py sd) eps then true else false).
  assert (One : forall l j b, nth_error l j = Some b -> py b < eps -> (1 <= length (filter F l))%nat).
  { induction l as [|x l IH]; intros j b E Hb; [destruct j; discriminate|]. cbn [filter]. destruct j as [|j].
    - injection E as ->. unfold F at 1. destruct (Rlt_dec (py b) eps); [cbn [length]; lia|contradiction].
    - specialize (IH j b E Hb). destruct (F x); cbn [length]; lia. }
  induction sds as [|x l IH]; intros i j a b Ei Ej N Ha Hb; [destruct i; discriminate|]. cbn [filter].
  destruct i as [|i]; destruct j as [|j]; [contradiction| | |].
  - injection Ei as ->. cbn in Ej. unfold F at 1. destruct (Rlt_dec (py a) eps); [|contradiction]. cbn [length]. pose proof (One l j b Ej Hb). lia.
  - injection Ej as ->. cbn in Ei. unfold F at 1. destruct (Rlt_dec (py b) eps); [|contradiction]. cbn [length]. pose proof (One l i a Ei Ha). lia.
  - cbn in Ei, Ej. pose proof (IH i j a b Ei Ej ltac:(lia) Ha Hb). destruct (F x); cbn [length]; lia.
Qed.
Lemma sds_nth : forall n sds i, length sds = n -> (i < n)%nat -> nth_error (mirSds sds) i = option_map flipSd (nth_error sds (sid n i)).
Proof. intros n sds i L Hi. unfold mirSds. rewrite mapped_nth, (mir_nth _ _ n) by assumption. reflexivity. Qed.
Lemma sideSingular_mir : forall eps sds, blendSideSingular eps (mirSds sds) = option_map mir (blendSideSingular eps sds).
Proof.
  intros eps sds. unfold blendSideSingular. rewrite closeCount_mir. destruct (0 <? closeCount eps sds)%nat.
  - rewrite map_bind_out. apply bind_cong. intros v _. cbn [option_map]. f_equal. unfold mirSds. rewrite map_map, map_mir. reflexivity.
  - unfold mirSds at 1. rewrite mapM_map. change (fun a : V2 => pow_2 (py (flipSd a))) with (fun a : V2 => pow_2 (py a)). rewrite mapM_mir_list, bind_map_some, map_bind_out. apply bind_cong. intros b _. rewrite accumulate_mir. apply mapM_mir_list.
Qed.
Lemma blendCorner_mir : forall eps n sds, (2 <= n)%nat -> length sds = n -> blendCorner eps n (mirSds sds) = option_map (@rev R) (blendCorner eps n sds).
Proof.
  intros eps n sds H2 L. unfold blendCorner. rewrite closeCount_mir. destruct (0 <? closeCount eps sds)%nat.
  - apply mapM_rev. intros i Hi. pose proof (cor_lt n i Hi) as Hc. pose proof (sid_lt n i Hi) as Hs.
    rewrite !(sds_nth n) by (try assumption; try (apply nxt_lt; lia); apply prv_lt; lia). rewrite (sid_nxt n i Hi), (sid_prv n i Hi), (nxt_cor n i Hi).
    destruct (nth_error sds (sid n i)) as [b|] eqn:Eb; destruct (nth_error sds (cor n i)) as [a|] eqn:Ea; cbn [option_map bind]; try reflexivity.
    cbn [flipSd py]. destruct (1 <? closeCount eps sds)%nat eqn:E1.
    + destruct (Rlt_dec (py a) eps); destruct (Rlt_dec (py b) eps); reflexivity.
    + destruct (Rlt_dec (py b) eps) as [B|B]; destruct (Rlt_dec (py a) eps) as [A|A].
      * exfalso. apply Nat.ltb_ge in E1. assert (sid n i <> cor n i) by idx. pose proof (close_two eps sds (sid n i) (cor n i) b a Eb Ea ltac:(assumption) B A). lia.
      * destruct (nth_error sds (nxt n (sid n i))) as [c|]; reflexivity.
      * rewrite (sid_nxt n (nxt n i)) by (apply nxt_lt; lia). rewrite (cor_nxt n i Hi). destruct (nth_error sds (prv n (cor n i))) as [c|]; reflexivity.
      * reflexivity.
  - rewrite (mapM_rev _ n (fun i => sd <- nth_error sds i ;; sdp <- nth_error sds (nxt n i) ;; pow_2 (py sd * py sdp))).
    + rewrite bind_map_some, map_bind_out. apply bind_cong. intros b _. rewrite accumulate_rev. apply mapM_rev_list.
    + intros i Hi. rewrite !(sds_nth n) by (try assumption; apply nxt_lt; lia). rewrite (sid_nxt n i Hi), (nxt_cor n i Hi).
      destruct (nth_error sds (sid n i)) as [b|]; destruct (nth_error sds (cor n i)) as [a|]; try reflexivity. cbn [option_map bind flipSd py]. f_equal. ring.
Qed.
Lemma cornerDeficient_mir : forall eps n sds, length sds = n -> blendCornerDeficient eps n (mirSds sds) = option_map (@rev R) (blendCornerDeficient eps n sds).
Proof.
  intros eps n sds L. unfold blendCornerDeficient. apply mapM_rev. intros i Hi. rewrite !(sds_nth n) by (try assumption; apply nxt_lt; lia). rewrite (sid_nxt n i Hi), (nxt_cor n i Hi).
  destruct (nth_error sds (sid n i)) as [b|]; destruct (nth_error sds (cor n i)) as [a|]; try reflexivity. cbn [option_map bind flipSd py px].
  replace (1 - (1 - px b)) with (px b) by ring. rewrite (Rplus_comm (py b) (py a)), (Rplus_comm (py a * hermite 0 (px b) * hermite 0 (py b))).
  destruct (Rlt_dec (py a) eps); destruct (Rlt_dec (py b) eps); reflexivity.
Qed.
Lemma updateCorners_mir : forall n rs, length rs = n -> (forall i r rp, nth_error rs i = Some r -> nth_error rs (nxt n i) = Some rp -> cpt (sr_curve r) 1 = cpt (sr_curve rp) 0) ->
  updateCorners n (map flipRib (mir rs)) = option_map (fun l => map flipCorner (rev l)) (updateCorners n rs).
Proof.
  intros n rs L J. unfold updateCorners. rewrite (mapM_rev _ n (fun i => option_map flipCorner (updateCorner n rs i))).
  - rewrite mapM_out. destruct (mapM (updateCorner n rs) (seq 0 n)); [|reflexivity]. cbn [option_map]. rewrite map_rev. reflexivity.
  - intros i Hi. unfold updateCorner. rewrite !mapped_nth. mir_idx n i Hi. rewrite (nxt_cor n i Hi).
    destruct (nth_error rs (sid n i)) as [rp|] eqn:Ep; destruct (nth_error rs (cor n i)) as [r|] eqn:Er; try reflexivity. cbn [option_map bind flipRib flipCurve sr_curve sr_cross cpt cder].
    rewrite (J (cor n i) r rp Er) by (rewrite (nxt_cor n i Hi); exact Ep).
    replace (1 - 1) with 0 by ring. replace (1 - (1 - corner_step)) with corner_step by ring. rewrite Rminus_0_r.
    destruct (sr_cross rp 0) as [b1|]; destruct (sr_cross rp corner_step) as [b2|]; destruct (sr_cross r 1) as [a1|]; destruct (sr_cross r (1 - corner_step)) as [a2|]; try reflexivity.
    cbn [bind option_map flipCorner cn_point cn_tan1 cn_tan2 cn_twist1 cn_twist2]. f_equal. unfold flipCorner. cbn [cn_point cn_tan1 cn_tan2 cn_twist1 cn_twist2]. f_equal. v3ring.
Qed.

(** ** Patches *)
Section Patch.
Variables (eps : R) (sf : surf) (sds : list V2).
Let n := sf_n sf.
Hypothesis Cp : complete sf sds.
Hypothesis H2 : (2 <= n)%nat.
Let Lr : length (sf_ribbons sf) = n. Proof. apply Cp. Qed.
Let Lc : length (sf_corners sf) = n. Proof. apply Cp. Qed.
Let Ls : length sds = n. Proof. apply Cp. Qed.

Lemma side_mir : forall i s s' d, (i < n)%nat -> s' = 1 - s -> sideInterpolant (mirSurf sf) i s' d = sideInterpolant sf (sid n i) s d.
Proof.
  intros i s s' d Hi ->. unfold sideInterpolant. cbn [mirSurf sf_gamma sf_ribbons]. rewrite mapped_nth. mir_idx n i Hi. apply bind_cong. intros g _.
  destruct (nth_error (sf_ribbons sf) (sid n i)) as [r|]; [|reflexivity]. cbn [option_map bind flipRib flipCurve sr_curve sr_cross]. unfold ribbonEval. cbn [px py]. unfold flipCurve. cbn [cpt]. rewrite clamp_flip. replace (1 - (1 - clamp s 0 1)) with (clamp s 0 1) by ring. reflexivity.
Qed.
Lemma correction_mir : forall i s d, (i < n)%nat -> cornerCorrection eps (mirSurf sf) i s d = cornerCorrection eps sf (cor n i) d s.
Proof.
  intros i s d Hi. unfold cornerCorrection. cbn [mirSurf sf_gamma sf_corners]. rewrite mapped_nth. mir_idx n i Hi.
  destruct (gamma (sf_gamma sf) s) as [g1|]; destruct (gamma (sf_gamma sf) d) as [g2|]; try reflexivity. cbn [bind].
  destruct (nth_error (sf_corners sf) (cor n i)) as [c|]; [|reflexivity]. cbn [option_map bind flipCorner cn_point cn_tan1 cn_tan2 cn_twist1 cn_twist2].
  set (a := clamp g1 0 1). set (b := clamp g2 0 1). unfold rationalTwist. rewrite (Rplus_comm a b). replace (cn_twist1 c *v a +v cn_twist2 c *v b) with (cn_twist2 c *v b +v cn_twist1 c *v a) by v3ring.
  apply bind_cong. intros t _. f_equal. v3ring.
Qed.
Lemma bind2_swap : forall A B (x : option A) (y : option A) (f g : A -> A -> option B), (forall a b, x = Some a -> y = Some b -> f a b = g b a) -> (a <- x ;; b <- y ;; f a b) = (b <- y ;; a <- x ;; g b a).
Proof. intros A B [a|] [b|] f g H; try reflexivity. apply H; reflexivity. Qed.
Lemma sum3_swap : forall a b c : option V3, (x <- a ;; y <- b ;; z <- c ;; Some (x +v y -v z)) = (x <- b ;; y <- a ;; z <- c ;; Some (x +v y -v z)).
Proof. intros [a|] [b|] [c|]; try reflexivity. cbn [bind]. f_equal. v3ring. Qed.
Lemma corner_mir : forall i, (i < n)%nat -> cornerInterpolant eps (mirSurf sf) i (mirSds sds) = cornerInterpolant eps sf (cor n i) sds.
Proof.
  intros i Hi. assert (Hx : (nxt n i < n)%nat) by (apply nxt_lt; lia). assert (Hc := cor_lt n i Hi). unfold cornerInterpolant. cbn [mirSurf sf_n]. fold n. fold (mirSurf sf).
  rewrite !(sds_nth n) by assumption. rewrite (sid_nxt n i Hi), (nxt_cor n i Hi).
  destruct (nth_error sds (sid n i)) as [b|]; destruct (nth_error sds (cor n i)) as [a|]; try reflexivity. cbn [option_map bind flipSd px py].
  rewrite (side_mir i (px b)), (side_mir (nxt n i) (px a)), correction_mir by (try assumption; reflexivity). rewrite (sid_nxt n i Hi).
  replace (1 - (1 - px b)) with (px b) by ring. apply sum3_swap.
Qed.
Lemma cornerD_mir : forall i, (i < n)%nat -> cornerInterpolantD eps (mirSurf sf) i (mirSds sds) = cornerInterpolantD eps sf (cor n i) sds.
Proof.
  intros i Hi. assert (Hx : (nxt n i < n)%nat) by (apply nxt_lt; lia). assert (Hc := cor_lt n i Hi). unfold cornerInterpolantD. cbn [mirSurf sf_n]. fold n. fold (mirSurf sf).
  rewrite !(sds_nth n) by assumption. rewrite (sid_nxt n i Hi), (nxt_cor n i Hi).
  destruct (nth_error sds (sid n i)) as [b|]; destruct (nth_error sds (cor n i)) as [a|]; try reflexivity. cbn [option_map bind flipSd px py].
  rewrite (side_mir i (py a)), (side_mir (nxt n i) (1 - py b)), correction_mir by (try assumption; ring). rewrite (sid_nxt n i Hi). apply sum3_swap.
Qed.
Lemma sideBased_mir : sideBased eps (mirSurf sf) (mirSds sds) = sideBased eps sf sds.
Proof.
  unfold sideBased. rewrite sideSingular_mir, bind_map_some. apply bind_cong. intros b B. cbn [mirSurf sf_n]. fold n. fold (mirSurf sf). apply osum_sid. intros i Hi.
  apply singular_length in B. rewrite Ls in B. rewrite (sds_nth n) by assumption. mir_idx n i Hi. destruct (nth_error sds (sid n i)) as [sd|]; [|reflexivity]. cbn [option_map bind flipSd px py]. apply bind_cong. intros x _.
  rewrite (side_mir i (px sd)) by (try assumption; reflexivity). reflexivity.
Qed.
Lemma cornerBased_mir : cornerBased eps (mirSurf sf) (mirSds sds) = cornerBased eps sf sds.
Proof.
  unfold cornerBased. cbn [mirSurf sf_n]. fold n. fold (mirSurf sf). rewrite blendCorner_mir, bind_map_some by (try exact Ls; exact H2). apply bind_cong. intros b B. apply osum_cor. intros i Hi.
  apply blend_length in B. mir_idx n i Hi. apply bind_cong. intros x _. rewrite corner_mir by exact Hi. reflexivity.
Qed.

(** The loop of the Coons patches: a sum over the sides and a sum over the
    corners. *)
Definition coonsSide (sf : surf) (sds : list V2) (b : list R) (i : nat) : option V3 :=
  sd <- nth_error sds i ;; x <- nth_error b i ;; y <- nth_error b (prv (sf_n sf) i) ;; p <- sideInterpolant sf i (px sd) (py sd) ;; Some (p *v (x + y)).
Definition coonsCorner (sf : surf) (sds : list V2) (b : list R) (i : nat) : option V3 :=
  sd <- nth_error sds i ;; sd1 <- nth_error sds (nxt (sf_n sf) i) ;; x <- nth_error b i ;; c <- cornerCorrection eps sf i (1 - px sd) (px sd1) ;; Some (c *v x).
Lemma coons_split : forall sf sds b, length sds = sf_n sf -> length b = sf_n sf ->
  osum (sf_n sf) (coonsTerm eps sf sds b) = (a <- osum (sf_n sf) (coonsSide sf sds b) ;; c <- osum (sf_n sf) (coonsCorner sf sds b) ;; Some (a -v c)).
Proof.
  clear. intros sf sds b Ls Lb. rewrite <- osum_sub. apply osum_ext. intros i Hi. unfold coonsTerm, coonsSide, coonsCorner.
  assert (Hx : (nxt (sf_n sf) i < sf_n sf)%nat) by (apply nxt_lt; lia). assert (Hp : (prv (sf_n sf) i < sf_n sf)%nat) by (apply prv_lt; lia).
  destruct (nth_error sds i) as [sd|]; [|reflexivity]. destruct (nth_error sds (nxt (sf_n sf) i)) as [sd1|] eqn:E; [|apply nth_error_None in E; lia]. destruct (nth_error b i) as [x|]; [|reflexivity].
  destruct (nth_error b (prv (sf_n sf) i)) as [y|]; [|reflexivity]. cbn [bind]. destruct (sideInterpolant _ _ _ _) as [p|]; [|reflexivity]. destruct (cornerCorrection _ _ _ _ _); reflexivity.
Qed.
Lemma coons_mir : forall b, length b = n -> osum n (coonsTerm eps (mirSurf sf) (mirSds sds) (rev b)) = osum n (coonsTerm eps sf sds b).
Proof.
  intros b B. assert (Sm : length (mirSds sds) = n) by (unfold mirSds; rewrite map_length, mir_length; exact Ls).
  change (osum n (coonsTerm eps (mirSurf sf) (mirSds sds) (rev b))) with (osum (sf_n (mirSurf sf)) (coonsTerm eps (mirSurf sf) (mirSds sds) (rev b))).
  rewrite coons_split by (try exact Sm; rewrite rev_length; exact B). unfold n. rewrite (coons_split sf sds b) by assumption. fold n.
  change (sf_n (mirSurf sf)) with n.
  rewrite (osum_sid n (coonsSide sf sds b) (coonsSide (mirSurf sf) (mirSds sds) (rev b))).
  - rewrite (osum_cor n (coonsCorner sf sds b) (coonsCorner (mirSurf sf) (mirSds sds) (rev b))); [reflexivity|]. intros i Hi. unfold coonsCorner. change (sf_n (mirSurf sf)) with n. fold n. rewrite !(sds_nth n) by (try assumption; apply nxt_lt; lia). mir_idx n i Hi. rewrite (nxt_cor n i Hi).
    destruct (nth_error sds (sid n i)) as [sp|]; destruct (nth_error sds (cor n i)) as [sd|]; try reflexivity. cbn [option_map bind flipSd px py]. apply bind_cong. intros x _. rewrite correction_mir by exact Hi.
    replace (1 - (1 - px sp)) with (px sp) by ring. reflexivity.
  - intros i Hi. assert (Hp : (prv n i < n)%nat) by (apply prv_lt; lia). unfold coonsSide. change (sf_n (mirSurf sf)) with n. fold n. rewrite (sds_nth n) by assumption. mir_idx n i Hi. rewrite (prv_sid n i Hi).
    destruct (nth_error sds (sid n i)) as [sd|]; [|reflexivity]. cbn [option_map bind flipSd px py]. destruct (nth_error b (cor n i)) as [x|]; destruct (nth_error b (sid n i)) as [y|]; try reflexivity. cbn [bind].
    rewrite (side_mir i (px sd)) by (try assumption; reflexivity). rewrite (Rplus_comm x y). reflexivity.
Qed.
Lemma generalizedCoons_mir : generalizedCoons eps (mirSurf sf) (mirSds sds) = generalizedCoons eps sf sds.
Proof.
  unfold generalizedCoons. cbn [mirSurf sf_n]. fold n. fold (mirSurf sf). rewrite blendCorner_mir, bind_map_some by (try exact Ls; exact H2). apply bind_cong. intros b B. apply coons_mir. eapply blend_length. exact B.
Qed.
Lemma compositeRibbon_mir : forall i sd, (i < n)%nat -> compositeRibbon eps (mirSurf sf) i (flipSd sd) = compositeRibbon eps sf (sid n i) sd.
Proof.
  intros i sd Hi. assert (Hx : (nxt n i < n)%nat) by (apply nxt_lt; lia). assert (Hp : (prv n i < n)%nat) by (apply prv_lt; lia). unfold compositeRibbon. cbn [mirSurf sf_n flipSd px py]. fold n. fold (mirSurf sf).
  rewrite (side_mir i (px sd)), (side_mir (prv n i) (py sd)), (side_mir (nxt n i) (1 - py sd)), !correction_mir by (try assumption; ring).
  rewrite (sid_nxt n i Hi), (sid_prv n i Hi), (cor_prv n i Hi), (prv_sid n i Hi). rewrite hermite_flip. replace (1 - (1 - px sd)) with (px sd) by ring.
  destruct (sideInterpolant sf (sid n i) (px sd) (py sd)); [|reflexivity]. cbn [bind].
  destruct (sideInterpolant sf (nxt n (sid n i)) (py sd) (1 - px sd)); destruct (sideInterpolant sf (cor n i) (1 - py sd) (px sd)); try reflexivity. cbn [bind].
  destruct (cornerCorrection eps sf (sid n i) (1 - px sd) (py sd)); destruct (cornerCorrection eps sf (cor n i) (py sd) (px sd)); try reflexivity. cbn [bind]. f_equal. v3ring.
Qed.
Lemma compositePatch_mir : compositeRibbonPatch eps (mirSurf sf) (mirSds sds) = compositeRibbonPatch eps sf sds.
Proof.
  unfold compositeRibbonPatch. cbn [mirSurf sf_n]. fold n. fold (mirSurf sf). rewrite blendCorner_mir, bind_map_some by (try exact Ls; exact H2). apply bind_cong. intros b B. apply blend_length in B. f_equal. apply osum_sid. intros i Hi.
  assert (Hp : (prv n i < n)%nat) by (apply prv_lt; lia). rewrite (sds_nth n) by assumption. mir_idx n i Hi. rewrite (prv_sid n i Hi).
  destruct (nth_error sds (sid n i)) as [sd|]; [|reflexivity]. cbn [option_map bind]. destruct (nth_error b (cor n i)) as [x|]; destruct (nth_error b (sid n i)) as [y|]; try reflexivity. cbn [bind].
  rewrite compositeRibbon_mir by exact Hi. rewrite (Rplus_comm x y). reflexivity.
Qed.
Lemma midpoint_mir : forall cp, midpointPatch eps (mirSurf sf) cp (mirSds sds) = midpointPatch eps sf cp sds.
Proof.
  intros cp. unfold midpointPatch. cbn [mirSurf sf_n]. fold n. fold (mirSurf sf). rewrite cornerDeficient_mir, bind_map_some by exact Ls. apply bind_cong. intros b B. apply deficient_length in B. rewrite accumulate_rev. f_equal. apply osum_cor. intros i Hi. mir_idx n i Hi.
  apply bind_cong. intros x _. rewrite corner_mir by exact Hi. reflexivity.
Qed.
Lemma midpointCoons_mir : forall cp, midpointCoons eps (mirSurf sf) cp (mirSds sds) = midpointCoons eps sf cp sds.
Proof.
  intros cp. unfold midpointCoons. cbn [mirSurf sf_n]. fold n. fold (mirSurf sf). rewrite cornerDeficient_mir, bind_map_some by exact Ls. apply bind_cong. intros b B. apply deficient_length in B. rewrite accumulate_rev, coons_mir by exact B. reflexivity.
Qed.
Lemma deficiency_mir : deficiency eps n (mirSds sds) = deficiency eps n sds.
Proof. unfold deficiency. rewrite cornerDeficient_mir, bind_map_some by exact Ls. apply bind_cong. intros b _. rewrite accumulate_rev. reflexivity. Qed.
Lemma central_mir : forall P P' m, P' vzero (mirSds sds) = P vzero sds -> updateCentral eps (mirSurf sf) P' (mirSds sds) m = updateCentral eps sf P sds m.
Proof.
  intros P P' m HP. unfold updateCentral. cbn [mirSurf sf_n]. fold n. rewrite HP, deficiency_mir. fold (mirSurf sf).
  rewrite (osum_sid n (fun i => sideInterpolant sf i (1/2) (1/2)) (fun i => sideInterpolant (mirSurf sf) i (1/2) (1/2))); [reflexivity|]. intros i Hi. apply side_mir; [exact Hi|lra].
Qed.
End Patch.

Lemma c0coons_mir : forall rs n sds, length rs = n -> length sds = n -> c0coons (map (fun r sd => r (flipSd sd)) (mir rs)) n (mirSds sds) = c0coons rs n sds.
Proof.
  intros rs n sds Lr Ls. unfold c0coons. apply osum_sid. intros i Hi. rewrite mapped_nth, (sds_nth n) by assumption. mir_idx n i Hi.
  destruct (nth_error rs (sid n i)) as [r|]; [|reflexivity]. destruct (nth_error sds (sid n i)) as [sd|]; [|reflexivity]. cbn [option_map bind]. replace (flipSd (flipSd sd)) with sd; [reflexivity|]. destruct sd as [x y]. unfold flipSd. cbn [px py]. f_equal. ring.
Qed.
