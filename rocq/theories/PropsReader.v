(** C58, C59: what the file readers return for complete and for damaged files.
    The proofs are in ReaderProofs.v. *)
From Coq Require Import NArith ZArith List.
From Verif Require Import Base UtilModel UtilProofs UtilSpec GBModel SPatchModel SPatchProofs PropsSPatch SuperDModel PropsSuperD ReaderModel ReaderProofs.
Import ListNotations.
Open Scope R_scope.

(** ** C58: curve loops, S-patches, Super-D models *)

(** A complete file of curves is read back exactly, whatever follows in it.
    [lopTokens] writes the degree, the number of knots, the knots, the number of
    control points, the control points. *)
Theorem C58_lop : forall v0 cs rest, readLOP v0 (TNat (length cs) :: concat (map lopTokens cs) ++ rest) = Some cs.
Proof. intros. apply lop_read. Qed.
Print Assumptions C58_lop.

(** A file that announces [n] curves but ends after [length cs] of them is not
    reported: the last curve is repeated. *)
Theorem C58_lop_truncated : forall v0 cs c n, (length cs + 1 <= n)%nat ->
  readLOP v0 (TNat n :: concat (map lopTokens (cs ++ [c]))) = Some (cs ++ repeat c (n - length cs)).
Proof. intros. apply lop_truncated. exact H. Qed.
Print Assumptions C58_lop_truncated.

(** If the file ends within a curve, that curve is completed with old data and
    then repeated. *)
Theorem C58_lop_cut : forall v0 cs c0 c n k, (length cs + 2 <= n)%nat -> (k < length (lopTokens c))%nat ->
  exists c', readLOP v0 (TNat n :: concat (map lopTokens (cs ++ [c0])) ++ firstn k (lopTokens c)) =
    Some ((cs ++ [c0]) ++ repeat c' (n - length cs - 1)).
Proof. intros. apply lop_cut_read; assumption. Qed.
Print Assumptions C58_lop_cut.

(** With nothing to repeat, uninitialised variables are used. *)
Theorem C58_lop_empty : forall v0 n, readLOP v0 [] = None /\ ((1 <= n)%nat -> readLOP v0 [TNat n] = None) /\ readLOP v0 [TNat 0] = Some [].
Proof. intros v0 n. split; [reflexivity|]. split; [|reflexivity]. intros H. destruct n; [lia|reflexivity]. Qed.
Print Assumptions C58_lop_empty.

(** The product formed by binomial never exceeds 64 bits (see C14). *)
Definition count_fits (n d : nat) : Prop := (N.of_nat (n + d) < two64)%N /\
  forall j, (1 <= j <= d)%nat -> (N.of_nat (length (sublists (j - 1) (seq 0 (n + d - 1)))) * N.of_nat (n + d - 1 - (j - 1)) < two64)%N.

(** A file with one entry for every index, in any order, followed by anything.
    loadSPatch reads exactly these entries. *)
Theorem C58_spatch : forall v0 n d ws rest, (2 <= n)%nat -> count_fits n d -> NoDup (map fst ws) ->
  (forall ix, In ix (map fst ws) <-> length ix = n /\ list_sum ix = d) ->
  exists m, loadSPatch v0 (TNat n :: TNat d :: concat (map entryTokens ws) ++ rest) = Some (mkSP n d m) /\
    forall ix p, netAt m ix = Some p <-> In (ix, p) ws.
Proof.
  intros v0 n d ws rest Hn [C1 C2] ND H.
  assert (C2' : forall j, (1 <= j <= d)%nat -> (N.of_nat (choose (n + d - 1) (j - 1)) * N.of_nat (n + d - 1 - (j - 1)) < two64)%N).
  { intros j Hj. specialize (C2 j Hj). rewrite sublists_count, seq_length in C2. exact C2. }
  unfold loadSPatch. cbn [takeNat bind]. rewrite (spCount_value n d ltac:(lia) C1 C2').
  rewrite <- (comps_perm_length n d (map fst ws) ltac:(lia) ND H), map_length.
  rewrite sp_loop by (intros w Hw; apply H; apply in_map; exact Hw). cbn [bind spInit sp_n sp_depth sp_net]. fold (written ws).
  assert (W : forall ix p, netAt (written ws) ix = Some p <-> In (ix, p) ws).
  { intros ix p. rewrite C53_net. split.
    - intros (w1 & w2 & -> & _). apply in_app_iff. right; left; reflexivity.
    - intros I. destruct (in_split _ _ I) as (w1 & w2 & ->). exists w1, w2. split; [reflexivity|]. intros q J.
      rewrite map_app in ND. cbn [map fst] in ND. apply NoDup_remove_2 in ND. apply ND. apply in_app_iff. right. apply in_map_iff. exists (ix, q). auto. }
  destruct (C53_registered v0 n d ws Hn) as (m & cs & E & _ & _ & A). rewrite E. cbn [bind]. exists m. split; [reflexivity|].
  intros ix p. rewrite <- W, A. destruct (netAt (written ws) ix) as [q|] eqn:Q; [reflexivity|].
  destruct (in_dec (list_eq_dec Nat.eq_dec) ix _) as [J|J]; [|reflexivity]. exfalso. apply in_concat in J. destruct J as (x & X & J). apply in_map_iff in X. destruct X as (i & <- & Hi). apply in_seq in Hi.
  apply in_map_iff in J. destruct J as (j & <- & Hj). apply in_seq in Hj.
  assert (K : In (side_index n d i (nxt n i) j) (map fst ws)).
  { apply H. split; [apply side_length|]. apply side_sum; [lia|apply nxt_lt; lia| |lia]. intros Y. apply (nxt_neq n i); [lia|lia|congruence]. }
  apply in_map_iff in K. destruct K as ([kx q] & Y & K). cbn in Y. subst kx. apply W in K. congruence.
Qed.
Print Assumptions C58_spatch.

(** A shorter file raises an exception.  The number of entries is the number of
    ways to choose d of n + d - 1. *)
Theorem C58_spatch_short : forall v0 n d f, (1 <= n)%nat -> count_fits n d ->
  (length f < (n + 3) * length (sublists d (seq 0 (n + d - 1))))%nat -> loadSPatch v0 (TNat n :: TNat d :: f) = None.
Proof.
  intros v0 n d f Hn [C1 C2] L. unfold loadSPatch. cbn [takeNat bind].
  destruct (foldM _ (spInit n d, f) _) as [s'|] eqn:E; [|reflexivity]. exfalso. apply sp_loop_len in E. rewrite seq_length in E. cbn [snd] in E.
  rewrite (spCount_value n d Hn C1) in E by (intros j Hj; specialize (C2 j Hj); rewrite sublists_count, seq_length in C2; exact C2).
  rewrite sublists_count, seq_length in L. lia.
Qed.
Print Assumptions C58_spatch_short.

(** A Super-D model file; a patch is (face points, edge points, vertex point). *)
Definition sdPatch : Type := list V3 * list V3 * V3.
Definition sdTokens (p : sdPatch) : list token :=
  let '(fs, es, v) := p in TNat (length fs) :: concat (map ptTokens (fs ++ es ++ [v])).
Definition sdWell (p : sdPatch) : Prop := let '(fs, es, _) := p in (3 <= length fs)%nat /\ length es = length fs.
(** What [q] should be for [p]: the data of [p], fullness 1/2 and ribbons that
    contain the boundary curves (C54). *)
Definition sdLoaded (p : sdPatch) (q : superd) : Prop :=
  let '(fs, es, v) := p in su_n q = length fs /\ su_full q = 1 / 2 /\ su_f q = fs /\ su_e q = es /\ su_v q = v /\
  length (su_q q) = length fs /\
  forall i, (i < length fs)%nat -> exists r, nth_error (su_q q) i = Some r /\ forall s, sdBezier r s 0 = Some (sd_side q i s).

Lemma patch_loaded : forall v0 fs es v c f f0, sdWell (fs, es, v) -> yields (None, None, None) f (fs ++ es ++ [v]) c f0 ->
  exists q, sdReadPatch v0 (TNat (length fs) :: f) = Some (q, f0) /\ sdLoaded (fs, es, v) q.
Proof.
  intros v0 fs es v c f f0 [W1 W2] Y. rewrite (patch_read v0 (length fs) fs es v c f f0 eq_refl W2 Y).
  set (p := mkSD (length fs) (/ 2) fs es v []). assert (W : complete_net p) by (repeat split; assumption).
  destruct (C54_registered p W) as (cs & E & _). rewrite E. cbn [bind].
  destruct (C54_ribbons p W) as (q & E' & Q1 & Q2 & Q3 & Q4 & Q5 & Q6 & Q7). rewrite E'. cbn [bind]. exists q. split; [reflexivity|].
  unfold p in *. cbn [su_n su_full su_f su_e su_v] in *. repeat split; try assumption; [lra|].
  intros i Hi. destruct (Q7 i Hi) as (r & R & B & _). exists r. split; [exact R|]. intros s. rewrite B. unfold sd_side. cbn [su_n su_full su_f su_e]. rewrite Q1, Q2, Q3, Q4. reflexivity.
Qed.

Lemma patches_loaded : forall v0 ps a acc f, Forall sdWell ps ->
  exists qs, foldM (fun s (_ : nat) => let '(res, f) := s in ' (q, f') <- sdReadPatch v0 f ;; Some (res ++ [q], f')) (acc, concat (map sdTokens ps) ++ f) (seq a (length ps)) = Some (acc ++ qs, f) /\
    Forall2 sdLoaded ps qs.
Proof.
  intros v0. induction ps as [|[[fs es] v] ps IH]; intros a acc f F; cbn [length seq foldM map concat].
  - exists []. rewrite app_nil_r. split; [reflexivity|constructor].
  - inversion F as [|? ? P F']; subst. unfold sdTokens at 1. cbn [app]. rewrite <- app_assoc.
    destruct (yields_tokens (fs ++ es ++ [v]) (None, None, None) (concat (map sdTokens ps) ++ f)) as (c & Y & _).
    destruct (patch_loaded v0 fs es v c _ _ P Y) as (q & E & L). rewrite E. cbn [bind].
    destruct (IH (S a) (acc ++ [q]) f F') as (qs & E' & L'). exists (q :: qs). split; [rewrite E', <- app_assoc; reflexivity|]. constructor; assumption.
Qed.

Theorem C58_superd : forall v0 ps rest, Forall sdWell ps ->
  exists qs, loadSuperDModel v0 (TNat (length ps) :: concat (map sdTokens ps) ++ rest) = Some qs /\ Forall2 sdLoaded ps qs.
Proof.
  intros v0 ps rest F. unfold loadSuperDModel. cbn [readNat bind]. destruct (patches_loaded v0 ps 0 [] rest F) as (qs & E & L). rewrite E. cbn [bind]. exists qs. auto.
Qed.
Print Assumptions C58_superd.

(** If the file ends within the points of the last patch, the missing points
    are silently taken to be the last point read. *)
Theorem C58_superd_truncated : forall v0 ps n pts z, Forall sdWell ps -> (3 <= n)%nat -> (length pts <= 2 * n)%nat ->
  exists qs fs es v q, loadSuperDModel v0 (TNat (length ps + 1) :: concat (map sdTokens ps) ++ TNat n :: concat (map ptTokens (pts ++ [z]))) = Some (qs ++ [q]) /\
    Forall2 sdLoaded ps qs /\ sdLoaded (fs, es, v) q /\ length fs = n /\
    fs ++ es ++ [v] = pts ++ repeat z (2 * n + 1 - length pts).
Proof.
  intros v0 ps n pts z F H3 Hp. unfold loadSuperDModel. cbn [readNat bind]. rewrite seq_app, foldM_app.
  destruct (patches_loaded v0 ps 0 [] (TNat n :: concat (map ptTokens (pts ++ [z]))) F) as (qs & E & L). rewrite E. cbn [bind seq foldM Nat.add app].
  set (all := pts ++ repeat z (2 * n + 1 - length pts)).
  assert (La : length all = (2 * n + 1)%nat) by (unfold all; rewrite app_length, repeat_length; lia).
  set (fs := firstn n all). set (es := firstn n (skipn n all)). set (v := nth (2 * n) all vzero).
  assert (Lf : length fs = n) by (unfold fs; rewrite firstn_length; lia).
  assert (Le : length es = n) by (unfold es; rewrite firstn_length, skipn_length; lia).
  assert (A : fs ++ es ++ [v] = all).
  { rewrite <- (firstn_skipn n all) at 1. fold fs. f_equal. rewrite <- (firstn_skipn n (skipn n all)). fold es. f_equal.
    rewrite skipn_skipn'. replace (n + n)%nat with (2 * n)%nat by lia. destruct (skipn (2 * n) all) as [|x r] eqn:Q.
    - exfalso. apply (f_equal (@length V3)) in Q. rewrite skipn_length in Q. cbn in Q. lia.
    - assert (x = v).
      { unfold v. rewrite <- (firstn_skipn (2 * n) all), Q, app_nth2; rewrite firstn_length, La; [|lia].
        replace (2 * n - Nat.min (2 * n) (2 * n + 1))%nat with 0%nat by lia. reflexivity. }
      subst x. apply (f_equal (@length V3)) in Q. rewrite skipn_length in Q. cbn in Q. destruct r; [reflexivity|cbn in Q; lia]. }
  assert (Y : yields (None, None, None) (concat (map ptTokens (pts ++ [z]))) (fs ++ es ++ [v]) (some3 z) []).
  { rewrite A. unfold all. replace (2 * n + 1 - length pts)%nat with (S (2 * n - length pts)) by lia. cbn [repeat].
    change (z :: repeat z (2 * n - length pts)) with ([z] ++ repeat z (2 * n - length pts)). rewrite app_assoc.
    destruct (yields_tokens (pts ++ [z]) (None, None, None) []) as (c & Y & C). rewrite app_nil_r in Y.
    specialize (C z ltac:(destruct pts; discriminate)). rewrite last_last in C. subst c. exact (yields_app _ _ _ _ _ _ _ _ Y (yields_nil _ z)). }
  assert (W : sdWell (fs, es, v)) by (split; lia).
  destruct (patch_loaded v0 fs es v _ _ _ W Y) as (q & E' & L'). rewrite Lf in E'. rewrite E'. cbn [bind].
  exists qs, fs, es, v, q. auto.
Qed.
Print Assumptions C58_superd_truncated.

(** If the file ends before the points of a patch, uninitialised variables are
    used. *)
Theorem C58_superd_missing : forall v0 ps n k, Forall sdWell ps -> (1 <= n)%nat -> (1 <= k)%nat ->
  loadSuperDModel v0 (TNat (length ps + k) :: concat (map sdTokens ps)) = None /\
  loadSuperDModel v0 (TNat (length ps + k) :: concat (map sdTokens ps) ++ [TNat n]) = None.
Proof.
  intros v0 ps n k F Hn Hk. destruct k as [|k]; [lia|]. destruct n as [|n]; [lia|]. unfold loadSuperDModel. cbn [readNat bind]. rewrite !seq_app, !foldM_app. split.
  - destruct (patches_loaded v0 ps 0 [] [] F) as (qs & E & _). rewrite app_nil_r in E. rewrite E. reflexivity.
  - destruct (patches_loaded v0 ps 0 [] [TNat (S n)] F) as (qs & E & _). rewrite E. reflexivity.
Qed.
Print Assumptions C58_superd_missing.

(** A truncated file with one curve out of three; an S-patch file; a damaged
    Super-D file with 5 of 7 points. *)
Definition seg01 : lopcurve := (1%nat, [0; 0; 1; 1], [mkV3 0 0 0; mkV3 1 2 3]).
Example C58_example :
  readLOP vzero (TNat 3 :: lopTokens seg01) = Some [seg01; seg01; seg01] /\
  readLOP vzero (TNat 2 :: lopTokens seg01 ++ firstn 9 (lopTokens (1%nat, [2; 2; 5; 5], [mkV3 7 7 7; mkV3 8 8 8]))) =
    Some [seg01; (1%nat, [2; 2; 5; 5], [mkV3 7 7 0; mkV3 1 2 3])] /\
  (exists m, loadSPatch vzero (TNat 3 :: TNat 2 :: concat (map entryTokens tri2)) = Some (mkSP 3 2 m) /\ netAt m [1; 1; 0]%nat = Some (mkV3 2 0 1)) /\
  loadSPatch vzero (TNat 3 :: TNat 2 :: concat (map entryTokens (tl tri2))) = None /\
  (exists q, loadSuperDModel vzero (TNat 1 :: TNat 3 :: concat (map ptTokens [mkV3 0 0 0; mkV3 1 0 0; mkV3 0 1 0; mkV3 2 2 2; mkV3 4 4 4])) = Some [q] /\
    su_e q = [mkV3 2 2 2; mkV3 4 4 4; mkV3 4 4 4] /\ su_v q = mkV3 4 4 4).
Proof.
  assert (CF : count_fits 3 2).
  { split; [reflexivity|]. intros j Hj. assert (j = 1 \/ j = 2)%nat as [-> | ->] by lia; vm_compute; reflexivity. }
  split; [|split; [|split; [|split]]].
  - pose proof (C58_lop_truncated vzero [] seg01 3 ltac:(cbn; lia)) as X. cbn [map concat app length Nat.sub repeat] in X. rewrite app_nil_r in X. exact X.
  - reflexivity.
  - destruct (C58_spatch vzero 3 2 tri2 [] ltac:(lia) CF) as (m & E & A).
    + repeat constructor; cbn; intuition discriminate.
    + intros ix. destruct C53_example as (F & K & _). rewrite <- (F ix). clear F. split.
      * intros I. apply in_map_iff in I. destruct I as ([k q] & <- & I). cbn [fst]. cbn in I. decompose [or] I; try contradiction; match goal with X : (_, _) = (k, q) |- _ => injection X as <- <- end; vm_compute; discriminate.
      * intros N. destruct (netAt (written tri2) ix) as [q|] eqn:Q; [|contradiction]. apply C53_net in Q. destruct Q as (w1 & w2 & Q & _). rewrite Q. apply in_map_iff. exists (ix, q). split; [reflexivity|]. apply in_app_iff. right; left; reflexivity.
    + rewrite app_nil_r in E. exists m. split; [exact E|]. apply A. cbn. tauto.
  - apply C58_spatch_short; [lia|exact CF|]. vm_compute. lia.
  - destruct (C58_superd_truncated vzero [] 3 [mkV3 0 0 0; mkV3 1 0 0; mkV3 0 1 0; mkV3 2 2 2] (mkV3 4 4 4) ltac:(constructor) ltac:(lia) ltac:(cbn; lia)) as (qs & fs & es & v & q & E & F & L & Lf & A).
    inversion F; subst qs. exists q. split; [exact E|]. destruct L as (_ & _ & L1 & L2 & L3 & _ & _).
    destruct fs as [|f0 [|f1 [|f2 [|]]]]; try discriminate Lf. cbn in A. injection A as A1 A2 A3 A4.
    rewrite L2, L3. destruct es as [|e0 [|e1 [|e2 [|e3 [|]]]]]; cbn in A4; try discriminate A4; injection A4; intros; subst; split; congruence.
Qed.

(** ** C59: OBJ files

    [plain] lines are empty, or start with neither v nor f, or are a vertex line
    with three numbers, or a face line with three whole numbers (possibly
    followed by others).  Lines like "vn x y z" are vertex lines as well. *)

(** The points are the vertices before the first face; later ones are lost.  The
    triangles are those of all faces. *)
Theorem C59_plain : forall p0 pre f post, Forall plain (pre ++ f :: post) -> existsb isFace pre = false -> isFace f = true ->
  readOBJ p0 (pre ++ f :: post) = Some (pick vertexOf pre, map tri64 (pick faceOf (f :: post))).
Proof.
  intros p0 pre f post F N I. apply Forall_app in F. destruct F as [F1 F2]. inversion F2 as [|? ? Pf F3]; subst.
  unfold readOBJ. rewrite foldM_app.
  destruct (plain_run pre (mkObj p0 (None, None, None) [] false false [] []) F1 eq_refl) as (s & E & B & V & T & S & Q & LP & LT). rewrite E. cbn [bind foldM].
  cbn [ob_pv ob_tris ob_set ob_points ob_p ob_t app orb] in *. rewrite N in S.
  assert (T0 : pick faceOf pre = []).
  { clear - N. induction pre as [|ln pre IH]; [reflexivity|]. cbn [existsb] in N. apply Bool.orb_false_iff in N. destruct N as [N1 N2]. destruct ln; try discriminate N1; cbn [pick faceOf]; apply IH; exact N2. }
  rewrite T0 in T. cbn [map] in T.
  destruct f as [| |r|r]; try discriminate I. cbn in Pf. destruct r as [[|[i|?|?|] [|[j|?|?|] [|[k|?|?|] l]]]|]; try (exfalso; apply Pf; reflexivity).
  cbn [objStep ossLine pick faceOf map]. destruct (ob_t s) as [[a b] c]. rewrite B, S. cbn [ossNat bind].
  match goal with |- context [foldM objStep ?t post] => destruct (plain_run post t F3 eq_refl) as (s' & E' & _ & _ & T' & _ & Q' & _ & _) end.
  rewrite E'. cbn [bind ob_set ob_points ob_tris] in *. rewrite (Q' (or_introl eq_refl)), V, T', T. reflexivity.
Qed.
Print Assumptions C59_plain.

(** Without faces the mesh has no points. *)
Theorem C59_no_face : forall p0 lines, Forall plain lines -> existsb isFace lines = false -> readOBJ p0 lines = Some ([], []).
Proof.
  intros p0 lines F N. unfold readOBJ.
  destruct (plain_run lines (mkObj p0 (None, None, None) [] false false [] []) F eq_refl) as (s & E & B & V & T & S & Q & _ & _). rewrite E. cbn [bind].
  cbn [ob_tris ob_points app] in *. rewrite Q, T by (right; exact N).
  assert (T0 : pick faceOf lines = []).
  { clear - N. induction lines as [|ln lines IH]; [reflexivity|]. cbn [existsb] in N. apply Bool.orb_false_iff in N. destruct N as [N1 N2]. destruct ln; try discriminate N1; cbn [pick faceOf]; apply IH; exact N2. }
  rewrite T0. reflexivity.
Qed.
Print Assumptions C59_no_face.

(** Indices: 1-based to 0-based; index 0 becomes 2^64 - 1. *)
Theorem C59_index : forall i, ((1 <= Z.of_nat i <= 2 ^ 64)%Z -> pred64 i = (Z.of_nat i - 1)%Z) /\ pred64 0 = (2 ^ 64 - 1)%Z.
Proof. intros i. split; [|reflexivity]. intros H. unfold pred64. apply Z.mod_small. lia. Qed.
Print Assumptions C59_index.

(** A line "v.." with only two numbers, like a texture coordinate, puts the
    string stream into the failed state, and nothing resets it: every later face
    repeats the last one before. *)
Theorem C59_sticky : forall p0 pre f mid a b x y i j k vs post, Forall plain (pre ++ f :: mid) -> existsb isFace pre = false -> isFace f = true ->
  onum a = Some x -> onum b = Some y -> pick faceOf (f :: mid) = vs ++ [(i, j, k)] -> pick vertexOf (pre ++ f :: mid) <> [] ->
  readOBJ p0 ((pre ++ f :: mid) ++ LV (Some [a; b]) :: post) =
  Some (pick vertexOf pre, map tri64 (vs ++ [(i, j, k)] ++ repeat (i, j, k) (length (filter isFace post)))).
Proof.
  intros p0 pre f mid a b x y i j k vs post F N I Ha Hb Hf Hv. pose proof (C59_plain p0 pre f mid F N I) as PL. unfold readOBJ in *. rewrite foldM_app.
  destruct (plain_run (pre ++ f :: mid) (mkObj p0 (None, None, None) [] false false [] []) F eq_refl) as (s & E & B & V & T & S & _ & LP & LT). rewrite E in *. cbn [bind foldM] in *.
  cbn [ob_pv ob_tris ob_set ob_points ob_p ob_t app orb] in *. injection PL as P1 P2.
  assert (LP' : exists q, ob_p s = some3 q).
  { rewrite LP. destruct (rev_ind_cases _ (pick vertexOf (pre ++ f :: mid))) as [Z|(q & l & Z)]; [contradiction|]. rewrite Z, map_app. cbn [map]. rewrite last_last. exists q. reflexivity. }
  destruct LP' as ([qx qy qz] & LP'). cbn [objStep]. rewrite LP'. cbn [some3 vx vy vz ossLine]. rewrite B. rewrite (onum_read a x) by exact Ha. rewrite (onum_read b y) by exact Hb.
  cbn [ossReal point3 bind snd].
  assert (PF : pick faceOf (pre ++ f :: mid) = vs ++ [(i, j, k)]).
  { rewrite <- Hf. clear - N. induction pre as [|ln pre IH]; [reflexivity|]. cbn [existsb] in N. apply Bool.orb_false_iff in N. destruct N as [N1 N2]. destruct ln; try discriminate N1; cbn [app pick faceOf] in *; apply IH; exact N2. }
  assert (LT' : ob_t s = some_t (i, j, k)) by (rewrite LT, PF, map_app; cbn [map]; rewrite last_last; reflexivity).
  assert (S' : ob_set s = true) by (rewrite S, existsb_app; cbn [existsb]; rewrite I; cbn; apply Bool.orb_true_r).
  match goal with |- context [foldM objStep ?t post] => destruct (bad_run post t (mkV3 x y qz) (i, j, k) eq_refl eq_refl LT' S') as (s' & E' & Q' & T') end.
  rewrite E'. cbn [bind ob_points ob_tris] in *. rewrite Q', P1, T', T, PF, !map_app.
  assert (RM : forall m, map tri64 (repeat (i, j, k) m) = repeat (tri64 (i, j, k)) m) by (induction m as [|m IHm]; [reflexivity|cbn [repeat map]; rewrite IHm; reflexivity]).
  rewrite <- RM, <- !map_app, <- app_assoc. reflexivity.
Qed.
Print Assumptions C59_sticky.

(** When this happens before the first face, or the first face has the form
    i/j..., the vertex indices are uninitialised variables. *)
Theorem C59_undefined : forall p0 pre a b x y mid r post, Forall plain pre -> existsb isFace pre = false -> existsb isFace mid = false ->
  onum a = Some x -> onum b = Some y -> pick vertexOf pre <> [] ->
  readOBJ p0 (pre ++ LV (Some [a; b]) :: mid ++ LF r :: post) = None.
Proof.
  intros p0 pre a b x y mid r post F N N2 Ha Hb Hv. unfold readOBJ. rewrite foldM_app.
  destruct (plain_run pre (mkObj p0 (None, None, None) [] false false [] []) F eq_refl) as (s & E & B & V & T & S & _ & LP & LT). rewrite E in *. cbn [bind foldM] in *.
  cbn [ob_p ob_t] in *.
  assert (LP' : exists q, ob_p s = some3 q).
  { rewrite LP. destruct (rev_ind_cases _ (pick vertexOf pre)) as [Z|(q & l & Z)]; [contradiction|]. rewrite Z, map_app. cbn [map]. rewrite last_last. exists q. reflexivity. }
  destruct LP' as ([qx qy qz] & LP'). cbn [objStep]. rewrite LP'. cbn [some3 vx vy vz ossLine]. rewrite B. rewrite (onum_read a x) by exact Ha. rewrite (onum_read b y) by exact Hb.
  cbn [ossReal point3 bind snd].
  assert (T0 : pick faceOf pre = []).
  { clear - N. induction pre as [|ln pre IH]; [reflexivity|]. cbn [existsb] in N. apply Bool.orb_false_iff in N. destruct N as [N1 N2]. destruct ln; try discriminate N1; cbn [pick faceOf]; apply IH; exact N2. }
  rewrite T0 in LT. cbn [map last] in LT. rewrite LT. clear - N2.
  match goal with |- context [foldM objStep ?t _] => set (s0 := t) end.
  assert (B : ob_bad s0 = true /\ ob_t s0 = (None, None, None) /\ exists q, ob_p s0 = some3 q) by (split; [reflexivity|split; [reflexivity|exists (mkV3 x y qz); reflexivity]]). clearbody s0.
  revert s0 B. induction mid as [|ln mid IH]; intros s0 (B & T & (q & P)).
  - cbn [app foldM objStep]. rewrite T, B. destruct r; reflexivity.
  - cbn [existsb] in N2. apply Bool.orb_false_iff in N2. destruct N2 as [N2 N3]. cbn [app foldM]. destruct ln as [| |l|l]; try discriminate N2.
    + apply (IH N3 s0). eauto.
    + apply (IH N3 s0). eauto.
    + cbn [objStep]. rewrite P, B. cbn [some3]. destruct l as [l|]; cbn [ossLine ossReal point3 bind snd]; apply (IH N3); cbn [ob_bad ob_t ob_p]; (split; [reflexivity|split; [exact T|exists q; reflexivity]]).
Qed.
Print Assumptions C59_undefined.

Theorem C59_slash : forall p0 pre i l post, Forall plain pre -> existsb isFace pre = false ->
  readOBJ p0 (pre ++ LF (Some (OPart i :: l)) :: post) = None.
Proof.
  intros p0 pre i l post F N. unfold readOBJ. rewrite foldM_app.
  destruct (plain_run pre (mkObj p0 (None, None, None) [] false false [] []) F eq_refl) as (s & E & B & V & T & S & _ & LP & LT). rewrite E in *. cbn [bind foldM] in *.
  cbn [ob_t] in *.
  assert (T0 : pick faceOf pre = []).
  { clear - N. induction pre as [|ln pre IH]; [reflexivity|]. cbn [existsb] in N. apply Bool.orb_false_iff in N. destruct N as [N1 N2]. destruct ln; try discriminate N1; cbn [pick faceOf]; apply IH; exact N2. }
  rewrite T0 in LT. cbn [map last] in LT. cbn [objStep]. rewrite LT, B. reflexivity.
Qed.
Print Assumptions C59_slash.

(** Two triangles; the same file with a late vertex; with a texture line between
    the faces. *)
Definition sq : list oline := [LOther; LV (Some [ONat 0; ONat 0; ONat 0]); LV (Some [ONat 1; ONat 0; ONat 0]); LV (Some [ONat 1; ONat 1; OReal (1/2)]); LV (Some [ONat 0; ONat 1; ONat 0])].
Definition sqp : list V3 := [mkV3 (INR 0) (INR 0) (INR 0); mkV3 (INR 1) (INR 0) (INR 0); mkV3 (INR 1) (INR 1) (1/2); mkV3 (INR 0) (INR 1) (INR 0)].
Definition fc (i j k : nat) : oline := LF (Some [ONat i; ONat j; ONat k]).
Example C59_example : forall p0,
  readOBJ p0 (sq ++ [fc 1 2 3; LEmpty; fc 1 3 4]) = Some (sqp, [(0, 1, 2); (0, 2, 3)]%Z) /\
  readOBJ p0 (sq ++ [fc 1 2 3; LV (Some [ONat 5; ONat 5; ONat 5]); fc 1 3 5]) = Some (sqp, [(0, 1, 2); (0, 2, 4)]%Z) /\
  readOBJ p0 ((sq ++ [fc 1 2 3]) ++ [LV (Some [ONat 0; ONat 1]); fc 1 3 4; fc 2 3 4]) = Some (sqp, [(0, 1, 2); (0, 1, 2); (0, 1, 2)]%Z) /\
  readOBJ p0 (sq ++ [LV (Some [ONat 0; ONat 1]); fc 1 2 3]) = None /\
  readOBJ p0 sq = Some ([], []) /\
  readOBJ p0 (sq ++ [fc 1 0 3]) = Some (sqp, [(0, 18446744073709551615, 2)]%Z).
Proof.
  assert (P : Forall plain sq) by (repeat constructor; discriminate).
  assert (P' : forall i j k, plain (fc i j k)) by (intros; discriminate).
  intros p0. split; [|split; [|split; [|split; [|split]]]].
  - apply (C59_plain p0 sq (fc 1 2 3) [LEmpty; fc 1 3 4]); [|reflexivity|reflexivity]. apply Forall_app. split; [exact P|]. repeat constructor; apply P'.
  - apply (C59_plain p0 sq (fc 1 2 3) [LV (Some [ONat 5; ONat 5; ONat 5]); fc 1 3 5]); [|reflexivity|reflexivity]. apply Forall_app. split; [exact P|]. repeat constructor; try apply P'. discriminate.
  - apply (C59_sticky p0 sq (fc 1 2 3) [] (ONat 0) (ONat 1) (INR 0) (INR 1) 1 2 3 [] [fc 1 3 4; fc 2 3 4]); try reflexivity; [|discriminate]. apply Forall_app. split; [exact P|]. repeat constructor; apply P'.
  - apply (C59_undefined p0 sq (ONat 0) (ONat 1) (INR 0) (INR 1) [] (Some [ONat 1; ONat 2; ONat 3]) []); try reflexivity; [exact P|discriminate].
  - apply C59_no_face; [exact P|reflexivity].
  - apply (C59_plain p0 sq (fc 1 0 3) []); [|reflexivity|reflexivity]. apply Forall_app. split; [exact P|]. repeat constructor; apply P'.
Qed.
