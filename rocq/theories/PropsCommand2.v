(** Which files a command line reads, and what the S-patch and super-D runs write
    for it: C92. *)
From Verif Require Import Base UtilModel UtilProofs UtilSpec MeshModel DomainModel ParamModel GBModel SPatchModel SuperDModel ReaderModel JoinModel JoinSpec TotalSpec BezierTestModel CommandModel CommandProofs PropsCommand.
From Verif Require PropsReader ReaderProofs PropsJoin PropsSPatch PropsSuperD.
From Coq Require Import String Ascii ZArith Lia Lra.
Open Scope R_scope.

(** The files a command line reads. *)
Theorem C92_reads : forall strtod,
  (forall mode ext x l, In (mode, ext) [("bezier", ".gbp"); ("bezier-corner", ".gbp"); ("hybrid", ".gbp"); ("cloud", ".lop"); ("spatch", ".sp"); ("superd", ".sdm")]%string -> ignored 2 l ->
     exists c, commandOf strtod (mode :: x :: l) = Some (Runs c) /\ reads c = [("../../models/" ++ x ++ ext)%string]) /\
  (forall mode ext x m l, In (mode, ext) [("mesh-fit", ".gbp"); ("deviation", ".lop")]%string -> ignored 1 l ->
     exists c, commandOf strtod (mode :: x :: m :: l) = Some (Runs c) /\ reads c = [("../../models/" ++ x ++ ext)%string; ("../../models/" ++ m ++ ".obj")%string]) /\
  (forall l, ignored 3 l -> exists c, commandOf strtod ("class-a"%string :: l) = Some (Runs c) /\ reads c = ["../../models/pocket6sided.lop"%string]) /\
  (forall name l c, ~ In name modes -> commandOf strtod (name :: l) = Some (Runs c) -> reads c = [("../../models/" ++ name ++ ".lop")%string]).
Proof.
  intros strtod. split; [|split; [|split]].
  - intros mode ext x l I L. cbn [In] in I.
    assert (F : forall c, asks strtod (mode :: x :: l) (Runs c) -> reads c = [("../../models/" ++ x ++ ext)%string] ->
      exists c, commandOf strtod (mode :: x :: l) = Some (Runs c) /\ reads c = [("../../models/" ++ x ++ ext)%string]) by (intros c A R; exists c; split; [apply C92_arguments; exact A|exact R]).
    destruct I as [E|[E|[E|[E|[E|[E|[]]]]]]]; injection E as <- <-.
    + exact (F _ (ABezier strtod x l L) eq_refl).
    + exact (F _ (ACorner strtod x l L) eq_refl).
    + exact (F _ (AHybrid strtod x l L) eq_refl).
    + exact (F _ (ACloud strtod x l L) eq_refl).
    + exact (F _ (ASPatch strtod x l L) eq_refl).
    + destruct l as [|f l]; [exact (F _ (ASuperD1 strtod x) eq_refl)|]. apply (F (SuperD x (strtod f))); [|reflexivity]. apply ASuperD. unfold ignored in *. cbn [List.length] in L. lia.
  - intros mode ext x m l I L. cbn [In] in I. destruct I as [E|[E|[]]]; injection E as <- <-; (eexists; split; [apply C92_arguments|]); [apply AMeshFit; exact L|reflexivity|apply ADeviation; exact L|reflexivity].
  - intros l L. eexists. split; [apply C92_arguments; apply AClassA; exact L|reflexivity].
  - intros name l c Nm E. apply C92_arguments in E. inversion E; subst; try reflexivity; exfalso; apply Nm; cbn; tauto.
Qed.
Print Assumptions C92_reads.

(** "spatch" and "superd" end to end: the patches of the file are evaluated at
    resolution 15. *)
Theorem C92_spatch_run : forall strtod eps v0 sp x l n d ixs (P : SPatchModel.index -> V3) rest, ignored 2 l -> (3 <= n)%nat -> (1 <= d <= 20)%nat -> PropsReader.count_fits n d -> NoDup ixs ->
  (forall ix, In ix ixs <-> List.length ix = n /\ list_sum ix = d) -> 0 < eps <= 1 ->
  sp x = TNat n :: TNat d :: List.concat (map ReaderProofs.entryTokens (map (fun ix => (ix, P ix)) ixs)) ++ rest ->
  exists c m, commandOf strtod ("spatch"%string :: x :: l) = Some (Runs c) /\ runSPatch eps v0 sp c = Some [(("../../models/" ++ x ++ "-SP.obj")%string, CMesh m)] /\
    List.length (pm_points m) = meshSize n 15 /\ PropsJoin.chords m n 15 (fun e => bezier d (fun j => P (PropsSPatch.side_index n d (prv n e) e j))).
Proof.
  intros strtod eps v0 sp x l n d ixs P rest L H3 Hd Cf ND H He E. destruct (C92_spatch eps v0 15 x n d ixs P rest H3 Hd Cf ND H He ltac:(lia)) as (m & R & Lm & Ch).
  exists (SPatch x), m. split; [apply C92_arguments; apply ASPatch; exact L|]. split; [cbn [runSPatch]; rewrite E; exact R|]. split; assumption.
Qed.
Print Assumptions C92_spatch_run.
Theorem C92_superd_run : forall strtod eps v0 sdm x l ps rest, ignored 2 l -> Forall PropsReader.sdWell ps ->
  (forall fs es v, In (fs, es, v) ps -> let n := List.length fs in let hw := sin (2 * PI / INR n) * sin (PI / INR n) in 0 < eps <= hw / 2 /\ eps * INR 15 <= hw) ->
  sdm x = TNat (List.length ps) :: List.concat (map PropsReader.sdTokens ps) ++ rest ->
  exists c out, commandOf strtod ("superd"%string :: x :: l) = Some (Runs c) /\ runSuperD eps v0 sdm c = Some out /\ List.length out = List.length ps /\
    forall i fs es v, nth_error ps i = Some (fs, es, v) -> let n := List.length fs in
      exists m, nth_error out i = Some (("../../models/" ++ x ++ "-SD-" ++ decimal i ++ ".obj")%string, CMesh m) /\
        List.length (pm_points m) = meshSize n 15 /\
        PropsJoin.chords m n 15 (fun e => PropsSuperD.quartic_curve (1 / 2) (nth (prv n e) fs vzero) (nth e es vzero) (nth e fs vzero)).
Proof.
  intros strtod eps v0 sdm x l ps rest L W He E. destruct (C92_superd eps v0 15 x ps rest W ltac:(lia) He) as (out & R & Lo & Ch).
  destruct l as [|f l].
  - exists (SuperD x (1 / 2)), out. split; [apply C92_arguments; apply ASuperD1|]. split; [cbn [runSuperD]; rewrite E; exact R|]. split; assumption.
  - exists (SuperD x (strtod f)), out. split; [apply C92_arguments; apply ASuperD; unfold ignored in *; cbn [List.length] in L; lia|]. split; [cbn [runSuperD]; rewrite E; exact R|]. split; assumption.
Qed.
Print Assumptions C92_superd_run.
Example C92_reads_example : forall strtod, exists c, commandOf strtod ["spatch"; "sphere"]%string = Some (Runs c) /\ reads c = ["../../models/sphere.sp"%string].
Proof. intros strtod. exact (proj1 (C92_reads strtod) "spatch"%string ".sp"%string "sphere"%string [] ltac:(cbn; tauto) ltac:(unfold ignored; cbn; lia)). Qed.
