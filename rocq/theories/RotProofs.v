(** Counting the sides from another one: lists, sums, blends, patches. *)
From Verif Require Import Base UtilModel UtilSpec UtilProofs DomainModel DomainProofs ParamModel ParamSide RibbonModel SurfaceModel GBModel RotSpec.
Open Scope R_scope.

(** ** Lists *)
Lemma rot_length : forall A (l : list A), length (rot l) = length l.
Proof. intros A [|a l]; [reflexivity|]. simpl. rewrite app_length. simpl. lia. Qed.
Lemma rot_nth : forall A (l : list A) n i, length l = n -> (i < n)%nat -> nth_error (rot l) i = nth_error l (nxt n i).
Proof.
  intros A l n i L H. subst n. rewrite nxt_cases by exact H. destruct l as [|a l]; [simpl in H; lia|]. cbn [rot length] in *.
  destruct (Nat.eqb_spec (S i) (S (length l))) as [E|E].
  - rewrite nth_error_app2 by lia. replace (i - length l)%nat with 0%nat by lia. reflexivity.
  - rewrite nth_error_app1 by lia. reflexivity.
Qed.
Lemma map_rot : forall A B (f : A -> B) l, map f (rot l) = rot (map f l).
Proof. intros A B f [|a l]; [reflexivity|]. simpl. apply map_app. Qed.
Lemma mapM_app : forall A B (f : A -> option B) l1 l2, mapM f (l1 ++ l2) = (a <- mapM f l1 ;; b <- mapM f l2 ;; Some (a ++ b)).
Proof.
  intros A B f l1 l2; induction l1 as [|x l1 IH]; simpl; [destruct (mapM f l2); reflexivity|].
  destruct (f x); [|reflexivity]. cbn [bind]. rewrite IH. destruct (mapM f l1); [|reflexivity]. cbn [bind]. destruct (mapM f l2); reflexivity.
Qed.
Lemma mapM_rot_list : forall A B (f : A -> option B) l, mapM f (rot l) = option_map rot (mapM f l).
Proof.
  intros A B f [|a l]; [reflexivity|]. cbn [rot mapM]. rewrite mapM_app. cbn [mapM].
  destruct (mapM f l) as [r|]; destruct (f a) as [b|]; reflexivity.
Qed.
Lemma mapM_seq_shift : forall B (f : nat -> option B) m k, mapM (fun i => f (S i)) (seq k m) = mapM f (seq (S k) m).
Proof. intros B f m; induction m as [|m IH]; intros k; [reflexivity|]. cbn [seq mapM]. rewrite IH. reflexivity. Qed.
Lemma mapM_rot : forall B n (f f' : nat -> option B), (forall i, (i < n)%nat -> f' i = f (nxt n i)) ->
  mapM f' (seq 0 n) = option_map rot (mapM f (seq 0 n)).
Proof.
  intros B n f f' H. destruct n as [|m]; [reflexivity|].
  assert (Q : mapM f (seq 0 (S m)) = (b <- f 0%nat ;; r <- mapM f (seq 1 m) ;; Some (b :: r))) by reflexivity. rewrite Q. clear Q.
  rewrite seq_S, mapM_app. cbn [Nat.add]. rewrite (mapM_ext f' (fun i => f (S i)) (seq 0 m)).
  - rewrite mapM_seq_shift. cbn [mapM seq]. rewrite H, nxt_cases by lia. rewrite Nat.eqb_refl.
    destruct (mapM f (seq 1 m)); destruct (f 0%nat); reflexivity.
  - intros i I. apply in_seq in I. rewrite H, nxt_cases by lia. destruct (Nat.eqb_spec (S i) (S m)); [lia|reflexivity].
Qed.
Lemma seq_rot : forall n, rot (seq 0 n) = map (nxt n) (seq 0 n).
Proof.
  intros [|m]; [reflexivity|]. cbn [seq rot]. change (0%nat :: seq 1 m) with (seq 0 (S m)). rewrite seq_S, map_app. cbn [map Nat.add]. f_equal.
  - rewrite <- seq_shift. apply map_ext_in. intros i I. apply in_seq in I. rewrite nxt_cases by lia. destruct (Nat.eqb_spec (S i) (S m)); [lia|reflexivity].
  - rewrite nxt_cases by lia. rewrite Nat.eqb_refl. reflexivity.
Qed.

(** ** Sums *)
Lemma rsum_rot : forall n f, rsum n (fun i => f (nxt n i)) = rsum n f.
Proof.
  intros [|m] f; [reflexivity|]. rewrite (rsum_first m f). cbn [rsum]. rewrite (nxt_cases (S m) m) by lia. rewrite Nat.eqb_refl.
  rewrite (rsum_ext m (fun i => f (nxt (S m) i)) (fun i => f (S i))); [lra|]. intros i Hi. rewrite nxt_cases by lia. destruct (Nat.eqb_spec (S i) (S m)); [lia|reflexivity].
Qed.
Lemma vsum_rot : forall n f, vsum n (fun i => f (nxt n i)) = vsum n f.
Proof.
  intros [|m] f; [reflexivity|]. rewrite (vsum_first m f). cbn [vsum]. rewrite (nxt_cases (S m) m) by lia. rewrite Nat.eqb_refl.
  rewrite (vsum_ext m (fun i => f (nxt (S m) i)) (fun i => f (S i))); [v3ring|]. intros i Hi. rewrite nxt_cases by lia. destruct (Nat.eqb_spec (S i) (S m)); [lia|reflexivity].
Qed.
Lemma osum_ext : forall n f g, (forall i, (i < n)%nat -> f i = g i) -> osum n f = osum n g.
Proof. intros n f g H; induction n as [|n IH]; [reflexivity|]. cbn [osum]. rewrite IH, H by (intros; apply H || idtac; lia). reflexivity. Qed.
Lemma orsum_ext : forall n f g, (forall i, (i < n)%nat -> f i = g i) -> orsum n f = orsum n g.
Proof. intros n f g H; induction n as [|n IH]; [reflexivity|]. cbn [orsum]. rewrite IH, H by (intros; apply H || idtac; lia). reflexivity. Qed.
Lemma osum_none : forall n f i, (i < n)%nat -> f i = None -> osum n f = None.
Proof.
  intros n f i; induction n as [|n IH]; intros Hi E; [lia|]. cbn [osum]. destruct (Nat.eq_dec i n) as [->|N].
  - rewrite E. destruct (osum n f); reflexivity.
  - rewrite IH by (lia || assumption). reflexivity.
Qed.
Lemma all_or_none : forall A (d : A) n (f : nat -> option A), (exists g, forall i, (i < n)%nat -> f i = Some (g i)) \/ (exists i, (i < n)%nat /\ f i = None).
Proof.
  intros A d n f; induction n as [|n IH]; [left; exists (fun _ => d); intros; lia|].
  destruct IH as [(g & G)|(i & Hi & E)]; [|right; exists i; split; [lia|exact E]].
  destruct (f n) as [x|] eqn:E; [|right; exists n; split; [lia|exact E]].
  left. exists (fun i => if (i =? n)%nat then x else g i). intros i Hi. destruct (Nat.eqb_spec i n) as [->|N]; [exact E|apply G; lia].
Qed.
Lemma osum_rot : forall n f f', (forall i, (i < n)%nat -> f' i = f (nxt n i)) -> osum n f' = osum n f.
Proof.
  intros n f f' H. rewrite (osum_ext n f' (fun i => f (nxt n i)) H). clear f' H.
  destruct (all_or_none V3 vzero n f) as [(g & G)|(i & Hi & E)].
  - rewrite (osum_total n f g G), (osum_total n _ (fun i => g (nxt n i))); [rewrite vsum_rot; reflexivity|]. intros i Hi. apply G. apply nxt_lt. lia.
  - rewrite (osum_none n f i Hi E). apply (osum_none n _ (prv n i)); [apply prv_lt; lia|]. rewrite nxt_prv by exact Hi. exact E.
Qed.
Lemma accumulate_from : forall l a, fold_left Rplus l a = a + accumulate l.
Proof.
  unfold accumulate. induction l as [|x l IH]; intros a; cbn [fold_left]; [lra|]. rewrite (IH (a + x)), (IH (0 + x)). lra.
Qed.
Lemma accumulate_rot : forall l, accumulate (rot l) = accumulate l.
Proof.
  intros [|a l]; [reflexivity|]. cbn [rot]. unfold accumulate. rewrite fold_left_app. cbn [fold_left]. rewrite (accumulate_from l (0 + a)). fold (accumulate l). lra.
Qed.
Lemma filter_rot : forall A (f : A -> bool) l, length (filter f (rot l)) = length (filter f l).
Proof.
  intros A f [|a l]; [reflexivity|]. cbn [rot]. rewrite filter_app, app_length. cbn [filter]. destruct (f a); simpl; lia.
Qed.
Lemma bind_map_some : forall A B C (x : option A) (m : A -> B) (f : B -> option C), (y <- option_map m x ;; f y) = (a <- x ;; f (m a)).
Proof. intros A B C [a|] m f; reflexivity. Qed.
Lemma bind_cong : forall A B (x : option A) (f g : A -> option B), (forall a, x = Some a -> f a = g a) -> bind x f = bind x g.
Proof. intros A B [a|] f g H; [apply H; reflexivity|reflexivity]. Qed.
Lemma map_bind_out : forall A B C (x : option A) (f : A -> option B) (m : B -> C), option_map m (bind x f) = bind x (fun a => option_map m (f a)).
Proof. intros A B C [a|] f m; reflexivity. Qed.

(** Sides [prv (nxt i)] and [nxt (prv i)]. *)
Ltac rot_idx n i Hi :=
  rewrite ?(rot_nth _ _ n) by (try assumption; try (apply prv_lt; lia); try (apply nxt_lt; lia));
  rewrite ?(nxt_prv n i Hi), ?(prv_nxt n i Hi).

(** ** Blends *)
Lemma closeCount_rot : forall eps sds, closeCount eps (rot sds) = closeCount eps sds.
Proof. intros. apply filter_rot. Qed.
Lemma sideSingular_rot : forall eps sds, blendSideSingular eps (rot sds) = option_map rot (blendSideSingular eps sds).
Proof.
  intros eps sds. unfold blendSideSingular. rewrite closeCount_rot. destruct (0 <? closeCount eps sds)%nat.
  - rewrite map_bind_out. apply bind_cong. intros v _. cbn [option_map]. rewrite map_rot. reflexivity.
  - rewrite mapM_rot_list, bind_map_some, map_bind_out. apply bind_cong. intros b _. rewrite accumulate_rot. apply mapM_rot_list.
Qed.
Lemma blendCorner_rot : forall eps n sds, length sds = n -> blendCorner eps n (rot sds) = option_map rot (blendCorner eps n sds).
Proof.
  intros eps n sds L. unfold blendCorner. rewrite closeCount_rot. destruct (0 <? closeCount eps sds)%nat.
  - apply mapM_rot. intros i Hi. rot_idx n i Hi. reflexivity.
  - rewrite (mapM_rot _ n (fun i => sd <- nth_error sds i ;; sdp <- nth_error sds (nxt n i) ;; pow_2 (py sd * py sdp))).
    + rewrite bind_map_some, map_bind_out. apply bind_cong. intros b _. rewrite accumulate_rot. apply mapM_rot_list.
    + intros i Hi. rot_idx n i Hi. reflexivity.
Qed.
Lemma cornerDeficient_rot : forall eps n sds, length sds = n -> blendCornerDeficient eps n (rot sds) = option_map rot (blendCornerDeficient eps n sds).
Proof. intros eps n sds L. unfold blendCornerDeficient. apply mapM_rot. intros i Hi. rot_idx n i Hi. reflexivity. Qed.
Lemma updateCorners_rot : forall n rs, length rs = n -> updateCorners n (rot rs) = option_map rot (updateCorners n rs).
Proof. intros n rs L. unfold updateCorners. apply mapM_rot. intros i Hi. unfold updateCorner. rot_idx n i Hi. reflexivity. Qed.
Lemma blend_length : forall eps n sds b, blendCorner eps n sds = Some b -> length b = n.
Proof.
  intros eps n sds b E. unfold blendCorner in E. destruct (_ <? _)%nat; [apply mapM_length in E; rewrite seq_length in E; exact E|].
  destruct (mapM _ (seq 0 n)) as [x|] eqn:X; [|discriminate]. cbn [bind] in E. apply mapM_length in E. apply mapM_length in X. rewrite seq_length in X. lia.
Qed.
Lemma deficient_length : forall eps n sds b, blendCornerDeficient eps n sds = Some b -> length b = n.
Proof. intros eps n sds b E. unfold blendCornerDeficient in E. apply mapM_length in E. rewrite seq_length in E. exact E. Qed.
Lemma singular_length : forall eps sds b, blendSideSingular eps sds = Some b -> length b = length sds.
Proof.
  intros eps sds b E. unfold blendSideSingular in E. destruct (_ <? _)%nat.
  - destruct (fdiv _ _); [|discriminate]. cbn [bind] in E. injection E as <-. apply map_length.
  - destruct (mapM _ sds) as [x|] eqn:X; [|discriminate]. cbn [bind] in E. apply mapM_length in E. apply mapM_length in X. lia.
Qed.

(** ** Patches *)
Section Patch.
Variables (eps : R) (sf : surf) (sds : list V2).
Let n := sf_n sf.
Hypothesis Cp : complete sf sds.
Let Lr : length (sf_ribbons sf) = n. Proof. apply Cp. Qed.
Let Lc : length (sf_corners sf) = n. Proof. apply Cp. Qed.
Let Ls : length sds = n. Proof. apply Cp. Qed.

Lemma side_rot : forall i s d, (i < n)%nat -> sideInterpolant (rotSurf sf) i s d = sideInterpolant sf (nxt n i) s d.
Proof. intros i s d Hi. unfold sideInterpolant. cbn [rotSurf sf_gamma sf_ribbons]. rot_idx n i Hi. reflexivity. Qed.
Lemma correction_rot : forall i s d, (i < n)%nat -> cornerCorrection eps (rotSurf sf) i s d = cornerCorrection eps sf (nxt n i) s d.
Proof. intros i s d Hi. unfold cornerCorrection. cbn [rotSurf sf_gamma sf_corners]. rot_idx n i Hi. reflexivity. Qed.
Lemma corner_rot : forall i, (i < n)%nat -> cornerInterpolant eps (rotSurf sf) i (rot sds) = cornerInterpolant eps sf (nxt n i) sds.
Proof.
  intros i Hi. assert (Hx : (nxt n i < n)%nat) by (apply nxt_lt; lia). unfold cornerInterpolant. cbn [rotSurf sf_n]. fold n. rot_idx n i Hi.
  apply bind_cong. intros sd _. apply bind_cong. intros sd1 _. fold (rotSurf sf). rewrite !side_rot, correction_rot by assumption. reflexivity.
Qed.
Lemma cornerD_rot : forall i, (i < n)%nat -> cornerInterpolantD eps (rotSurf sf) i (rot sds) = cornerInterpolantD eps sf (nxt n i) sds.
Proof.
  intros i Hi. assert (Hx : (nxt n i < n)%nat) by (apply nxt_lt; lia). unfold cornerInterpolantD. cbn [rotSurf sf_n]. fold n. rot_idx n i Hi.
  apply bind_cong. intros sd _. apply bind_cong. intros sd1 _. fold (rotSurf sf). rewrite !side_rot, correction_rot by assumption. reflexivity.
Qed.
Lemma sideBased_rot : sideBased eps (rotSurf sf) (rot sds) = sideBased eps sf sds.
Proof.
  unfold sideBased. rewrite sideSingular_rot, bind_map_some. apply bind_cong. intros b B. cbn [rotSurf sf_n]. fold n. apply osum_rot. intros i Hi.
  apply singular_length in B. rewrite Ls in B. rot_idx n i Hi. apply bind_cong. intros sd _. apply bind_cong. intros x _. fold (rotSurf sf). rewrite side_rot by exact Hi. reflexivity.
Qed.
Lemma cornerBased_rot : cornerBased eps (rotSurf sf) (rot sds) = cornerBased eps sf sds.
Proof.
  unfold cornerBased. cbn [rotSurf sf_n]. fold n. rewrite blendCorner_rot, bind_map_some by exact Ls. apply bind_cong. intros b B. apply osum_rot. intros i Hi.
  apply blend_length in B. rot_idx n i Hi. apply bind_cong. intros x _. fold (rotSurf sf). rewrite corner_rot by exact Hi. reflexivity.
Qed.
Lemma coonsTerm_rot : forall b i, length b = n -> (i < n)%nat -> coonsTerm eps (rotSurf sf) (rot sds) (rot b) i = coonsTerm eps sf sds b (nxt n i).
Proof.
  intros b i B Hi. unfold coonsTerm. cbn [rotSurf sf_n]. fold n. rot_idx n i Hi. apply bind_cong. intros sd _. apply bind_cong. intros sd1 _. apply bind_cong. intros x _. apply bind_cong. intros y _.
  fold (rotSurf sf). rewrite side_rot, correction_rot by exact Hi. reflexivity.
Qed.
Lemma generalizedCoons_rot : generalizedCoons eps (rotSurf sf) (rot sds) = generalizedCoons eps sf sds.
Proof.
  unfold generalizedCoons. cbn [rotSurf sf_n]. fold n. rewrite blendCorner_rot, bind_map_some by exact Ls. apply bind_cong. intros b B. apply osum_rot. intros i Hi.
  apply (coonsTerm_rot b i); [eapply blend_length; exact B|exact Hi].
Qed.
Lemma compositeRibbon_rot : forall i sd, (i < n)%nat -> compositeRibbon eps (rotSurf sf) i sd = compositeRibbon eps sf (nxt n i) sd.
Proof.
  intros i sd Hi. assert (Hx : (nxt n i < n)%nat) by (apply nxt_lt; lia). assert (Hp : (prv n i < n)%nat) by (apply prv_lt; lia). unfold compositeRibbon. cbn [rotSurf sf_n]. fold n. fold (rotSurf sf).
  rewrite !side_rot, !correction_rot by assumption. rewrite (nxt_prv n i Hi), (prv_nxt n i Hi). reflexivity.
Qed.
Lemma compositePatch_rot : compositeRibbonPatch eps (rotSurf sf) (rot sds) = compositeRibbonPatch eps sf sds.
Proof.
  unfold compositeRibbonPatch. cbn [rotSurf sf_n]. fold n. rewrite blendCorner_rot, bind_map_some by exact Ls. apply bind_cong. intros b B. apply blend_length in B. f_equal. apply osum_rot. intros i Hi. rot_idx n i Hi.
  apply bind_cong. intros sd _. apply bind_cong. intros x _. apply bind_cong. intros y _. fold (rotSurf sf). rewrite compositeRibbon_rot by exact Hi. reflexivity.
Qed.
Lemma midpoint_rot : forall cp, midpointPatch eps (rotSurf sf) cp (rot sds) = midpointPatch eps sf cp sds.
Proof.
  intros cp. unfold midpointPatch. cbn [rotSurf sf_n]. fold n. rewrite cornerDeficient_rot, bind_map_some by exact Ls. apply bind_cong. intros b B. apply deficient_length in B. rewrite accumulate_rot. f_equal. apply osum_rot. intros i Hi. rot_idx n i Hi.
  apply bind_cong. intros x _. fold (rotSurf sf). rewrite corner_rot by exact Hi. reflexivity.
Qed.
Lemma midpointCoons_rot : forall cp, midpointCoons eps (rotSurf sf) cp (rot sds) = midpointCoons eps sf cp sds.
Proof.
  intros cp. unfold midpointCoons. cbn [rotSurf sf_n]. fold n. rewrite cornerDeficient_rot, bind_map_some by exact Ls. apply bind_cong. intros b B. apply deficient_length in B. rewrite accumulate_rot. f_equal. apply osum_rot. intros i Hi.
  apply (coonsTerm_rot b i); assumption.
Qed.
Lemma deficiency_rot : deficiency eps n (rot sds) = deficiency eps n sds.
Proof. unfold deficiency. rewrite cornerDeficient_rot, bind_map_some by exact Ls. apply bind_cong. intros b _. rewrite accumulate_rot. reflexivity. Qed.
Lemma central_rot : forall P P' m, P' vzero (rot sds) = P vzero sds -> updateCentral eps (rotSurf sf) P' (rot sds) m = updateCentral eps sf P sds m.
Proof.
  intros P P' m HP. unfold updateCentral. cbn [rotSurf sf_n]. fold n. rewrite HP, deficiency_rot. fold (rotSurf sf).
  rewrite (osum_rot n (fun i => sideInterpolant sf i (1/2) (1/2)) (fun i => sideInterpolant (rotSurf sf) i (1/2) (1/2))); [reflexivity|]. intros i Hi. apply side_rot. exact Hi.
Qed.
End Patch.

Lemma c0coons_rot : forall rs n sds, length rs = n -> length sds = n -> c0coons (rot rs) n (rot sds) = c0coons rs n sds.
Proof. intros rs n sds Lr Ls. unfold c0coons. apply osum_rot. intros i Hi. rot_idx n i Hi. reflexivity. Qed.
