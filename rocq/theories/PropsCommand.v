(** C92: the command line of the test driver, the files of its runs, and the runs for
    S-patches and super-D patches.  Lemmas about strings and numbers are in
    CommandProofs.v. *)
From Verif Require Import Base UtilModel UtilProofs UtilSpec MeshModel DomainModel ParamModel GBModel SPatchModel SuperDModel ReaderModel JoinModel JoinSpec TotalSpec BezierTestModel CommandModel CommandProofs.
From Verif Require DomainProofs MeshParams PropsDomain SPatchProofs DriverModel PropsReader PropsSPatch PropsSuperD PropsJoin PropsJoinKinds PropsTotal TotalProofs ReaderProofs PropsBezierTest.
From Coq Require Import String Ascii ZArith Lia Lra.
Open Scope R_scope.

(** ** Numbers on the command line *)

(** [says s z] (CommandProofs.v): [s] consists of blanks, a sign or none, digits with the
    decimal value |z|, and a rest, each part being as long as possible. *)
Theorem C92_atoi : forall s, exists z, says s z /\ (forall z', says s z' -> z' = z) /\
  ((- 2 ^ 31 <= z < 2 ^ 31)%Z -> atoi s = Some z) /\ (~ (- 2 ^ 31 <= z < 2 ^ 31)%Z -> atoi s = None).
Proof.
  intros s. exists (readSigned (skipBlanks s)). split; [apply says_spec; reflexivity|]. split; [intros z' H; apply says_spec in H; congruence|].
  unfold atoi. set (z := readSigned (skipBlanks s)). split; intros H.
  - replace ((- 2 ^ 31 <=? z) && (z <? 2 ^ 31))%Z%bool with true; [reflexivity|]. symmetry. apply Bool.andb_true_iff. rewrite Z.leb_le, Z.ltb_lt. exact H.
  - destruct ((- 2 ^ 31 <=? z) && (z <? 2 ^ 31))%Z%bool eqn:E; [|reflexivity]. apply Bool.andb_true_iff in E. rewrite Z.leb_le, Z.ltb_lt in E. contradiction.
Qed.

(** A printed number is read back. *)
Theorem C92_printed : forall n rest, (Z.of_nat n < 2 ^ 31)%Z -> ~ starts numeral rest -> atoi (decimal n ++ rest) = Some (Z.of_nat n).
Proof.
  intros n rest Hn Nr. destruct (decimal_spec n) as (E & (c & u & Ec) & V). destruct (C92_atoi (decimal n ++ rest)) as (z & _ & U & In & _).
  assert (S : says (decimal n ++ rest) (Z.of_nat n)).
  { exists ""%string, ""%string, (decimal n), rest. rewrite Ec in E. destruct E as [Hc Hu]. destruct (numeral_not c Hc) as (B & Sg & _). split; [reflexivity|]. split; [exact Logic.I|].
    rewrite Ec. cbn [append starts every]. split; [exact B|]. split; [split; assumption|]. split; [exact Nr|]. right. right. split; [reflexivity|]. split; [exact Sg|]. rewrite <- Ec. congruence. }
  pose proof (U _ S) as Q. subst z. apply In. lia.
Qed.
Print Assumptions C92_printed.

(** ** The arguments *)
Definition modes : list string := ["bezier"; "bezier-corner"; "hybrid"; "cloud"; "class-a"; "mesh-fit"; "deviation"; "spatch"; "superd"]%string.

(** The usage text, line by line, with the defaults: test.cc:487-497.  [numbers r s l] are
    resolution, scaling and ribbon length for the arguments after the name of a model. *)
Inductive numbers (strtod : string -> R) : list string -> Z -> R -> R -> Prop :=
| N0 : numbers strtod [] 15 20 (1 / 4)
| N1 : forall r z, says r z -> (- 2 ^ 31 <= z < 2 ^ 31)%Z -> numbers strtod [r] (z mod 2 ^ 64) 20 (1 / 4)
| N2 : forall r z s, says r z -> (- 2 ^ 31 <= z < 2 ^ 31)%Z -> numbers strtod [r; s] (z mod 2 ^ 64) (strtod s) (1 / 4)
| N3 : forall r z s l, says r z -> (- 2 ^ 31 <= z < 2 ^ 31)%Z -> numbers strtod [r; s; l] (z mod 2 ^ 64) (strtod s) (strtod l).
(** At most [k] arguments that are not looked at. *)
Definition ignored (k : nat) (l : list string) : Prop := (List.length l <= k)%nat.
Inductive asks (strtod : string -> R) : list string -> outcome -> Prop :=
| ANone : asks strtod [] Usage
| AMany : forall l, (5 <= List.length l)%nat -> asks strtod l Usage
| AModel : forall name l r s d, ~ In name modes -> numbers strtod l r s d -> asks strtod (name :: l) (Runs (Model name r s d))
| ABezier0 : asks strtod ["bezier"%string] (Runs (Bezier "cagd86"))
| ABezier : forall x l, ignored 2 l -> asks strtod ("bezier"%string :: x :: l) (Runs (Bezier x))
| ACorner0 : asks strtod ["bezier-corner"%string] (Runs (BezierCorner "cagd86"))
| ACorner : forall x l, ignored 2 l -> asks strtod ("bezier-corner"%string :: x :: l) (Runs (BezierCorner x))
| AHybrid0 : asks strtod ["hybrid"%string] (Runs (Hybrid "cagd86"))
| AHybrid : forall x l, ignored 2 l -> asks strtod ("hybrid"%string :: x :: l) (Runs (Hybrid x))
| ACloud0 : asks strtod ["cloud"%string] (Runs (Cloud "cagd86"))
| ACloud : forall x l, ignored 2 l -> asks strtod ("cloud"%string :: x :: l) (Runs (Cloud x))
| AClassA : forall l, ignored 3 l -> asks strtod ("class-a"%string :: l) (Runs ClassA)
| AMeshFit : forall x m l, ignored 1 l -> asks strtod ("mesh-fit"%string :: x :: m :: l) (Runs (MeshFit x m))
| AMeshFit0 : forall l, ignored 1 l -> asks strtod ("mesh-fit"%string :: l) NotEnough
| ADeviation : forall x m l, ignored 1 l -> asks strtod ("deviation"%string :: x :: m :: l) (Runs (Deviation x m))
| ADeviation0 : forall l, ignored 1 l -> asks strtod ("deviation"%string :: l) NotEnough
| ASPatch0 : asks strtod ["spatch"%string] (Runs (SPatch "cagd86"))
| ASPatch : forall x l, ignored 2 l -> asks strtod ("spatch"%string :: x :: l) (Runs (SPatch x))
| ASuperD0 : asks strtod ["superd"%string] (Runs (SuperD "trebol" (1 / 2)))
| ASuperD1 : forall x, asks strtod ["superd"%string; x] (Runs (SuperD x (1 / 2)))
| ASuperD : forall x f l, ignored 1 l -> asks strtod ("superd"%string :: x :: f :: l) (Runs (SuperD x (strtod f))).

Lemma atoi_says : forall s z, atoi s = Some z <-> says s z /\ (- 2 ^ 31 <= z < 2 ^ 31)%Z.
Proof.
  intros s z. destruct (C92_atoi s) as (w & Sw & U & A & B). assert (D : (- 2 ^ 31 <= w < 2 ^ 31)%Z \/ ~ (- 2 ^ 31 <= w < 2 ^ 31)%Z) by lia. split.
  - intros E. destruct D as [D|D]; [rewrite (A D) in E; injection E as <-; split; assumption|rewrite (B D) in E; discriminate].
  - intros [S R]. rewrite (U z S) in *. apply A. exact R.
Qed.
Lemma type_of : forall name, ~ In name modes -> forall m, In m modes -> (name =? m)%string = false.
Proof. intros name H m I. apply String.eqb_neq. intros ->. contradiction. Qed.

(** The command for the arguments is the one described by the usage text, and there is
    only one; it is undefined exactly if a resolution is given for a model that an int
    cannot hold. *)
Theorem C92_arguments : forall strtod args,
  (forall o, commandOf strtod args = Some o <-> asks strtod args o) /\
  (commandOf strtod args = None <-> exists name r l z, args = name :: r :: l /\ ~ In name modes /\ ignored 2 l /\ says r z /\ ~ (- 2 ^ 31 <= z < 2 ^ 31)%Z).
Proof.
  intros strtod args.
  assert (Half : 5 / 10 = 1 / 2) by field. assert (Quarter : 25 / 100 = 1 / 4) by field.
  assert (Fwd : forall o, asks strtod args o -> commandOf strtod args = Some o).
  { intros o A. destruct A as [|l L|name l r s d Nm Nu| |x l L| |x l L| |x l L| |x l L|l L|x m l L|l L|x m l L|l L| |x l L| |x|x f l L]; unfold ignored in *;
      try reflexivity; try (destruct l as [|a1 [|a2 [|a3 [|a4 l]]]]; cbn [List.length] in L; try lia; reflexivity).
    - unfold commandOf. destruct l as [|a1 [|a2 [|a3 [|a4 [|a5 l]]]]]; cbn [List.length] in L |- *; try lia. reflexivity.
    - assert (T := type_of name Nm). unfold commandOf. cbn [nth].
      rewrite (T "bezier"%string), (T "bezier-corner"%string), (T "hybrid"%string), (T "cloud"%string), (T "class-a"%string), (T "mesh-fit"%string), (T "deviation"%string), (T "spatch"%string), (T "superd"%string) by (cbn; tauto).
      destruct Nu as [|r z S Rg|r z s S Rg|r z s l S Rg]; cbn [List.length nth orb Nat.ltb Nat.leb Nat.eqb bind]; try rewrite (proj2 (atoi_says r z) (conj S Rg)); cbn [bind]; rewrite ?Quarter; reflexivity.
    - unfold commandOf. cbn. rewrite Half. reflexivity.
    - unfold commandOf. cbn. rewrite Half. reflexivity. }
  assert (Bwd : (exists o, asks strtod args o) \/ exists name r l z, args = name :: r :: l /\ ~ In name modes /\ ignored 2 l /\ says r z /\ ~ (- 2 ^ 31 <= z < 2 ^ 31)%Z).
  { destruct args as [|name l]; [left; eexists; apply ANone|]. destruct (le_lt_dec 4 (List.length l)) as [L|L]; [left; eexists; apply AMany; cbn [List.length]; lia|].
    destruct (in_dec string_dec name modes) as [M|M].
    - left. cbn [modes In] in M. destruct M as [<-|[<-|[<-|[<-|[<-|[<-|[<-|[<-|[<-|[]]]]]]]]]].
      + destruct l as [|x l]; [eexists; apply ABezier0|eexists; apply ABezier; unfold ignored; cbn [List.length] in L; lia].
      + destruct l as [|x l]; [eexists; apply ACorner0|eexists; apply ACorner; unfold ignored; cbn [List.length] in L; lia].
      + destruct l as [|x l]; [eexists; apply AHybrid0|eexists; apply AHybrid; unfold ignored; cbn [List.length] in L; lia].
      + destruct l as [|x l]; [eexists; apply ACloud0|eexists; apply ACloud; unfold ignored; cbn [List.length] in L; lia].
      + eexists; apply AClassA; unfold ignored; lia.
      + destruct l as [|x [|m l]]; [eexists; apply AMeshFit0; unfold ignored; cbn; lia..|eexists; apply AMeshFit; unfold ignored; cbn [List.length] in L; lia].
      + destruct l as [|x [|m l]]; [eexists; apply ADeviation0; unfold ignored; cbn; lia..|eexists; apply ADeviation; unfold ignored; cbn [List.length] in L; lia].
      + destruct l as [|x l]; [eexists; apply ASPatch0|eexists; apply ASPatch; unfold ignored; cbn [List.length] in L; lia].
      + destruct l as [|x [|f l]]; [eexists; apply ASuperD0|eexists; apply ASuperD1|eexists; apply ASuperD; unfold ignored; cbn [List.length] in L; lia].
    - destruct l as [|r l]; [left; eexists; apply AModel; [exact M|apply N0]|]. destruct (C92_atoi r) as (z & S & _).
      assert (D : (- 2 ^ 31 <= z < 2 ^ 31)%Z \/ ~ (- 2 ^ 31 <= z < 2 ^ 31)%Z) by lia. destruct D as [D|D].
      + left. destruct l as [|s [|d [|e l]]]; cbn [List.length] in L; try lia; eexists; apply AModel; try exact M.
        * apply (N1 strtod r z S D). * apply (N2 strtod r z s S D). * apply (N3 strtod r z s d S D).
      + right. exists name, r, l, z. split; [reflexivity|]. split; [exact M|]. split; [unfold ignored; cbn [List.length] in L; lia|]. split; assumption. }
  assert (Bad : (exists name r l z, args = name :: r :: l /\ ~ In name modes /\ ignored 2 l /\ says r z /\ ~ (- 2 ^ 31 <= z < 2 ^ 31)%Z) -> commandOf strtod args = None).
  { intros (name & r & l & z & -> & Nm & L & S & Nz). assert (T := type_of name Nm). unfold commandOf. cbn [nth].
    rewrite (T "bezier"%string), (T "bezier-corner"%string), (T "hybrid"%string), (T "cloud"%string), (T "class-a"%string), (T "mesh-fit"%string), (T "deviation"%string), (T "spatch"%string), (T "superd"%string) by (cbn; tauto).
    assert (An : atoi r = None) by (destruct (C92_atoi r) as (w & _ & U & _ & B); apply B; rewrite <- (U z S); exact Nz).
    unfold ignored in L. destruct l as [|a [|b [|c l]]]; cbn [List.length] in L; try lia; cbn [List.length nth orb Nat.ltb Nat.leb Nat.eqb]; rewrite An; reflexivity. }
  split; [|split; [|exact Bad]].
  - intros o. split; [|apply Fwd]. intros E. destruct Bwd as [[o' A]|B]; [|rewrite (Bad B) in E; discriminate]. rewrite (Fwd o' A) in E. injection E as <-. exact A.
  - intros E. destruct Bwd as [[o' A]|B]; [rewrite (Fwd o' A) in E; discriminate|exact B].
Qed.
Print Assumptions C92_arguments.

(** A resolution without digits is 0, and then the fence has no triangles: its loop runs
    out of the bounds of the points.  A negative one becomes almost 2^64. *)
Lemma says_nothing : forall r, every (fun c => ~ numeral c) r -> says r 0.
Proof.
  intros r H. destruct (C92_atoi r) as (z & S & _). pose proof S as (ws & sg & ds & rest & E & _ & _ & Hd & _ & C).
  assert (D : ds = ""%string).
  { destruct ds as [|c ds]; [reflexivity|exfalso]. destruct Hd as [Hc _]. subst r. clear -H Hc.
    induction ws as [|w ws IH]; cbn [append every] in H; [|apply IH; apply H]. induction sg as [|g sg IH]; cbn [append every] in H; [destruct H as [N _]; contradiction|apply IH; apply H]. }
  subst ds. cbn [value] in C. assert (z = 0%Z) by (destruct C as [(_ & ->)|[(_ & ->)|(_ & _ & ->)]]; reflexivity). subst z. exact S.
Qed.
Theorem C92_resolution : forall strtod name l, ~ In name modes -> ignored 2 l ->
  (forall n rest, (Z.of_nat n < 2 ^ 31)%Z -> ~ starts numeral rest ->
     exists s d, commandOf strtod (name :: (decimal n ++ rest)%string :: l) = Some (Runs (Model name (Z.of_nat n) s d))) /\
  (forall r, every (fun c => ~ numeral c) r ->
     exists s d, commandOf strtod (name :: r :: l) = Some (Runs (Model name 0 s d))) /\
  (forall n rest, (1 <= n)%nat -> (Z.of_nat n <= 2 ^ 31)%Z -> ~ starts numeral rest ->
     exists s d, commandOf strtod (name :: ("-" ++ decimal n ++ rest)%string :: l) = Some (Runs (Model name (2 ^ 64 - Z.of_nat n) s d))) /\
  (forall n, DriverModel.fenceTriangles n 0 = None).
Proof.
  intros strtod name l Nm L.
  assert (G : forall r z, says r z -> (- 2 ^ 31 <= z < 2 ^ 31)%Z -> exists s d, commandOf strtod (name :: r :: l) = Some (Runs (Model name (z mod 2 ^ 64) s d))).
  { intros r z S Rg. unfold ignored in L. destruct l as [|s [|d [|e l]]]; cbn [List.length] in L; try lia; eexists _, _; apply C92_arguments; apply AModel; try exact Nm.
    - apply (N1 strtod r z S Rg). - apply (N2 strtod r z s S Rg). - apply (N3 strtod r z s d S Rg). }
  split; [|split; [|split]].
  - intros n rest Hn Nr. pose proof (proj1 (atoi_says _ _) (C92_printed n rest Hn Nr)) as [S Rg]. rewrite <- (Z.mod_small (Z.of_nat n) (2 ^ 64)) by (split; [lia|]; apply (Z.lt_trans _ _ _ Hn); reflexivity). apply G; assumption.
  - intros r H. change 0%Z with (0 mod 2 ^ 64)%Z. apply G; [apply says_nothing; exact H|lia].
  - intros n rest Hn Hb Nr. replace (2 ^ 64 - Z.of_nat n)%Z with ((- Z.of_nat n) mod 2 ^ 64)%Z.
    + apply G; [|lia]. destruct (decimal_spec n) as (E & (c & u & Ec) & V). exists ""%string, "-"%string, (decimal n), rest. split; [reflexivity|]. split; [exact Logic.I|]. split; [vm_compute; lia|].
      split; [exact E|]. split; [exact Nr|]. right. left. split; [reflexivity|]. rewrite V. reflexivity.
    + symmetry. apply (Z.mod_unique _ _ (-1)); [left; split; [|lia]|lia]. assert (2 ^ 31 < 2 ^ 64)%Z by reflexivity. lia.
  - intros n. unfold DriverModel.fenceTriangles. rewrite Nat.mul_0_r. reflexivity.
Qed.
Print Assumptions C92_resolution.

(** ** Names *)
Import PropsBezierTest.
Lemma in_models_inj : forall a b, inModels a = inModels b -> a = b.
Proof. intros a b E. unfold inModels in E. injection E as E. exact E. Qed.
Lemma in_models_in : forall x l, In (inModels x) (map inModels l) <-> In x l.
Proof. intros x l. rewrite in_map_iff. split; [intros (y & E & I); apply in_models_inj in E; congruence|intros I; exists x; auto]. Qed.
Ltac cases H := repeat match type of H with _ \/ _ => destruct H as [H|H] | False => destruct H end.
Lemma sd_end : forall x i, exists k t, numeral k /\ rev (list_ascii_of_string (x ++ "-SD-" ++ decimal i ++ ".obj")) = "j"%char :: "b"%char :: "o"%char :: "."%char :: k :: t.
Proof.
  intros x i. destruct (decimal_spec i) as (E & (c & u & Ec) & _).
  assert (X : exists k t, numeral k /\ rev (list_ascii_of_string (decimal i)) = k :: t).
  { assert (Fa : forall s, every numeral s -> Forall numeral (list_ascii_of_string s)) by (induction s as [|a s IH]; cbn; [constructor|intros [A B]; constructor; auto]).
    pose proof (Fa _ E) as F. apply Forall_rev in F. destruct (rev (list_ascii_of_string (decimal i))) as [|k t] eqn:Er.
    - rewrite Ec in Er. cbn in Er. apply (f_equal (@List.length ascii)) in Er. rewrite app_length in Er. cbn in Er. lia.
    - inversion F; subst. exists k, t. split; [assumption|reflexivity]. }
  destruct X as (k & t & Hk & Er). exists k. eexists. split; [exact Hk|]. rewrite !las_rev, Er. reflexivity.
Qed.
(** The name and the number of a super-D file. *)
Lemma sd_inj : forall x y i j, (x ++ "-SD-" ++ decimal i ++ ".obj" = y ++ "-SD-" ++ decimal j ++ ".obj")%string -> x = y /\ i = j.
Proof.
  intros x y i j E. rewrite <- !app_assoc_s in E. apply append_inj in E. rewrite !app_assoc_s in E.
  apply (f_equal (fun s => rev (list_ascii_of_string s))) in E. rewrite !las_rev in E. cbn [list_ascii_of_string rev app] in E. rewrite <- !app_assoc in E. cbn [app] in E.
  destruct (decimal_spec i) as (Ei & _ & _). destruct (decimal_spec j) as (Ej & _ & _).
  assert (Fa : forall s, every numeral s -> Forall numeral (rev (list_ascii_of_string s))).
  { intros s Hs. apply Forall_rev. revert Hs. induction s as [|a s IH]; cbn; [constructor|intros [A B]; constructor; auto]. }
  assert (Sp : forall a b p q, Forall numeral a -> Forall numeral b -> (a ++ "-"%char :: p = b ++ "-"%char :: q)%list -> a = b /\ p = q).
  { induction a as [|c a IH]; intros [|d b] p q Ha Hb H; cbn [app] in H.
    - injection H as H. auto.
    - injection H as H _. inversion Hb as [|? ? N _]; subst. exfalso. apply (proj2 (proj2 (numeral_not _ N))). reflexivity.
    - injection H as H _. inversion Ha as [|? ? N _]; subst. exfalso. apply (proj2 (proj2 (numeral_not _ N))). reflexivity.
    - injection H as -> H. inversion Ha; inversion Hb; subst. destruct (IH b p q) as [-> ->]; auto. }
  destruct (Sp _ _ _ _ (Fa _ Ei) (Fa _ Ej) E) as [A B]. injection B as B.
  assert (St : forall s t, rev (list_ascii_of_string s) = rev (list_ascii_of_string t) -> s = t).
  { intros s t H. apply (f_equal (@rev ascii)) in H. rewrite !rev_involutive in H. rewrite <- (string_of_list_ascii_of_string s), <- (string_of_list_ascii_of_string t), H. reflexivity. }
  split; [apply St; exact B|]. apply decimal_inj. apply St. exact A.
Qed.

(** No run writes a file twice. *)
Theorem C92_distinct : forall patches c, NoDup (writes patches c).
Proof.
  intros patches c. unfold writes. apply FinFun.Injective_map_NoDup; [intros a b; apply in_models_inj|].
  destruct c as [x|x|x|x| |x m|x m|x|x f|x r s d];
    try (repeat (constructor; [cbn [In]; intros H; cases H; try discriminate H; try other_end H; symmetry in H; other_end H|]); constructor).
  apply FinFun.Injective_map_NoDup; [|apply seq_NoDup]. intros i j E. apply sd_inj in E. apply E.
Qed.
Print Assumptions C92_distinct.

(** Only mesh-fit can overwrite what it has read, for these names (see C91). *)
Theorem C92_overwrites : forall patches c, (exists f, In f (reads c) /\ In f (writes patches c)) <->
  exists x m, c = MeshFit x m /\ (In x ["bezier-fitted"; "bezier-smooth02"; "bezier-smooth05"; "bezier-smooth10"]%string \/
    In m ["bezier"; "bezier-cpts"; "bezier-fitted"; "bezier-fitted-cpts"; "bezier-fitted-smooth02"; "bezier-fitted-smooth02-cpts";
       "bezier-fitted-smooth05"; "bezier-fitted-smooth05-cpts"; "bezier-fitted-smooth10"; "bezier-fitted-smooth10-cpts"]%string).
Proof.
  intros patches c. split.
  - intros (f & I & W). unfold reads in I. apply in_map_iff in I. destruct I as (n & <- & I). unfold writes in W. apply (proj1 (in_models_in _ _)) in W.
    destruct c as [x|x|x|x| |x m|x m|x|x fu|x r s d]; cbn [In] in I.
    6: { exists x, m. split; [reflexivity|]. cases I; subst n; cbn [In] in W; cases W; try (symmetry in W; other_end W); try other_end W.
         all: match type of W with
           | ?c = (_ ++ ".gbp")%string => let l := eval compute in (substring 0 (String.length c - 4) c) in change c with (l ++ ".gbp")%string in W; apply append_inj in W; left; rewrite <- W; cbn [In]; tauto
           | ?c = (_ ++ ".obj")%string => let l := eval compute in (substring 0 (String.length c - 4) c) in change c with (l ++ ".obj")%string in W; apply append_inj in W; right; rewrite <- W; cbn [In]; tauto
           end. }
    all: exfalso; cases I; subst n; try (cbn [In] in W; cases W; try discriminate W; other_end W).
    apply in_map_iff in W. destruct W as (i & W & _). destruct (sd_end x i) as (k & t & _ & Er). apply (f_equal (fun s => rev (list_ascii_of_string s))) in W. rewrite Er, las_rev in W. discriminate W.
  - intros (x & m & -> & [I|I]).
    + exists (inModels (x ++ ".gbp")). split; [left; reflexivity|]. apply in_models_in. cbn [In] in I. cases I; subst x; cbn [In append]; tauto.
    + exists (inModels (m ++ ".obj")). split; [right; left; reflexivity|]. apply in_models_in. cbn [In] in I. cases I; subst m; cbn [In append]; tauto.
Qed.
Print Assumptions C92_overwrites.

(** The runs whose files all carry the name of the model.  Different models, or different
    kinds of runs, never write the same file, except that hybrid and the plain run
    share the fence and the ribbons, and all hybrid runs share the control net. *)
Definition kind_of (c : command) : option (nat * string) :=
  match c with
  | Cloud x => Some (1%nat, x) | SPatch x => Some (2%nat, x) | SuperD x _ => Some (3%nat, x) | Model x _ _ _ => Some (4%nat, x) | _ => None
  end.
Theorem C92_models : forall patches patches' c c' k k' f, kind_of c = Some k -> kind_of c' = Some k' -> In f (writes patches c) -> In f (writes patches' c') -> k = k'.
Proof.
  assert (G : forall patches patches' c c' k k' f, kind_of c = Some k -> kind_of c' = Some k' -> (fst k <= fst k')%nat -> In f (writes patches c) -> In f (writes patches' c') -> k = k').
  { intros p p' c c' k k' f K K' Le W W'. unfold writes in W. apply in_map_iff in W. destruct W as (n & <- & W). unfold writes in W'. apply (proj1 (in_models_in _ _)) in W'.
    destruct c; try discriminate K; destruct c'; try discriminate K'; injection K as <-; injection K' as <-; cbn [fst] in Le; try lia;
      try (cbn [In] in W; cases W; subst n; cbn [In] in W'; cases W'; try (apply append_inj in W'; congruence); try discriminate W'; other_end W').
    - cbn [In] in W; cases W; subst n. apply in_map_iff in W'. destruct W' as (i & W' & _). match type of W' with ((?y ++ _)%string = _) => destruct (sd_end y i) as (q & t & _ & Er) end.
      apply (f_equal (fun s => rev (list_ascii_of_string s))) in W'. rewrite Er, las_rev in W'. discriminate W'.
    - cbn [In] in W; cases W; subst n. apply in_map_iff in W'. destruct W' as (i & W' & _). match type of W' with ((?y ++ _)%string = _) => destruct (sd_end y i) as (q & t & Nq & Er) end.
      apply (f_equal (fun s => rev (list_ascii_of_string s))) in W'. rewrite Er, las_rev in W'. cbn in W'. injection W' as -> _. vm_compute in Nq. lia.
    - apply in_map_iff in W. destruct W as (i & <- & _). apply in_map_iff in W'. destruct W' as (j & W' & _). apply sd_inj in W'. destruct W' as [-> _]. reflexivity.
    - apply in_map_iff in W. destruct W as (i & <- & _). match type of W' with In (?y ++ _)%string _ => destruct (sd_end y i) as (q & t & Nq & Er) end.
      cbn [In] in W'. cases W'; apply (f_equal (fun s => rev (list_ascii_of_string s))) in W'; rewrite Er, las_rev in W'; cbn in W'; injection W' as <- _; vm_compute in Nq; lia. }
  intros p p' c c' k k' f K K' W W'. destruct (Nat.le_ge_cases (fst k) (fst k')) as [L|L]; [exact (G p p' c c' k k' f K K' L W W')|symmetry; exact (G p' p c' c k' k f K' K L W' W)].
Qed.
Print Assumptions C92_models.
Theorem C92_shared : forall patches patches' x y r s d f,
  In f (writes patches (Hybrid x)) /\ In f (writes patches' (Model y r s d)) <-> x = y /\ (f = ("../../models/" ++ x ++ "-fence.obj")%string \/ f = ("../../models/" ++ x ++ "-ribbons.obj")%string).
Proof.
  intros p p' x y r s d f. split.
  - intros [W W']. unfold writes in W. apply in_map_iff in W. destruct W as (n & <- & W). unfold writes in W'. apply (proj1 (in_models_in _ _)) in W'.
    cbn [In] in W; cases W; subst n; cbn [In] in W'; cases W'; try (apply append_inj in W'; subst y; split; [reflexivity|unfold inModels; tauto]); exfalso; other_end W'.
  - intros [<- [->| ->]]; cbn [writes map In]; unfold inModels; tauto.
Qed.
Print Assumptions C92_shared.

(** ** The runs for S-patches and super-D patches *)
Lemma mesh_of : forall n vs d eval bd r, (3 <= n)%nat -> (1 <= r)%nat -> regularVertices n = Some vs -> domainFrames pzero vs = Some d -> total_on d vs eval ->
  follows n r (ParamModel.edgePoint d) eval bd -> loop_of n bd ->
  exists m, surfaceMesh (d_n d) (d_center d) (d_verts d) eval r = Some m /\ List.length (pm_points m) = meshSize n r /\ PropsJoin.chords m n r bd.
Proof.
  intros n vs d eval bd r H3 Hr Hv Hd T F Lo. destruct (PropsTotal.regular_convex n vs d H3 Hv Hd) as (L & _). destruct T as [_ T]. destruct (T r Hr) as (m & Em & Lm). exists m.
  split; [exact Em|]. split; [rewrite <- L; exact Lm|]. intros P Q. rewrite <- L. apply (PropsJoin.C82_rim pzero vs d r eval bd m Hd ltac:(lia) Hr Em); rewrite L; assumption.
Qed.
Lemma regular_domain : forall n, (3 <= n)%nat -> exists vs d, regularVertices n = Some vs /\ domainFrames pzero vs = Some d.
Proof.
  intros n H3. destruct (PropsDomain.C12_regular_convex n H3) as (vs & Hv & _). exists vs.
  assert (Hd : exists d, domainFrames pzero vs = Some d) by (rewrite DomainProofs.frames_closed; eexists; reflexivity). destruct Hd as [d Hd]. exists d. split; assumption.
Qed.

(** A complete file of an S-patch: one mesh, whose rim consists of the chords of the Bezier
    curves of the control points along the sides. *)
Theorem C92_spatch : forall eps v0 r filename n d ixs (P : SPatchModel.index -> V3) rest, (3 <= n)%nat -> (1 <= d <= 20)%nat -> PropsReader.count_fits n d -> NoDup ixs ->
  (forall ix, In ix ixs <-> List.length ix = n /\ list_sum ix = d) -> 0 < eps <= 1 -> (1 <= r)%nat ->
  exists m, spatchTest eps v0 r filename (TNat n :: TNat d :: List.concat (map ReaderProofs.entryTokens (map (fun ix => (ix, P ix)) ixs)) ++ rest) =
      Some [(("../../models/" ++ filename ++ "-SP.obj")%string, CMesh m)] /\
    List.length (pm_points m) = meshSize n r /\
    PropsJoin.chords m n r (fun e => bezier d (fun j => P (PropsSPatch.side_index n d (prv n e) e j))).
Proof.
  intros eps v0 r filename n d ixs P rest H3 Hd [C1 C2] ND H He Hr. set (ws := map (fun ix => (ix, P ix)) ixs).
  assert (Fst : map fst ws = ixs) by (unfold ws; rewrite map_map; cbn [fst]; apply map_id).
  assert (W : forall ix p, netAt (PropsSPatch.written ws) ix = Some p <-> In (ix, p) ws).
  { intros ix p. rewrite PropsSPatch.C53_net. split.
    - intros (w1 & w2 & -> & _). apply in_app_iff. right; left; reflexivity.
    - intros Ix. destruct (in_split _ _ Ix) as (w1 & w2 & E). exists w1, w2. split; [exact E|]. intros q J.
      rewrite E, map_app in Fst. cbn [map fst] in Fst. rewrite <- Fst in ND. apply NoDup_remove_2 in ND. apply ND. apply in_app_iff. right. apply in_map_iff. exists (ix, q). auto. }
  assert (W' : forall ix, List.length ix = n -> list_sum ix = d -> netAt (PropsSPatch.written ws) ix = Some (P ix)).
  { intros ix L S. apply W. unfold ws. apply in_map_iff. exists ix. split; [reflexivity|]. apply H. split; assumption. }
  assert (F : PropsSPatch.full n d (PropsSPatch.written ws)).
  { intros ix. split.
    - intros N. destruct (netAt (PropsSPatch.written ws) ix) as [p|] eqn:E; [|contradiction]. apply W in E. unfold ws in E. apply in_map_iff in E. destruct E as (y & E & I). injection E as -> _. apply H. exact I.
    - intros [L S]. rewrite (W' ix L S). discriminate. }
  destruct (regular_domain n H3) as (vs & dm & Hv & Hdm). destruct (PropsTotal.regular_convex n vs dm H3 Hv Hdm) as (L & CD).
  assert (Ld : loadSPatch v0 (TNat n :: TNat d :: List.concat (map ReaderProofs.entryTokens ws) ++ rest) = Some (mkSP n d (PropsSPatch.written ws))).
  { assert (C2' : forall j, (1 <= j <= d)%nat -> (N.of_nat (choose (n + d - 1) (j - 1)) * N.of_nat (n + d - 1 - (j - 1)) < two64)%N).
    { intros j Hj. specialize (C2 j Hj). rewrite sublists_count, seq_length in C2. exact C2. }
    unfold loadSPatch. cbn [takeNat bind]. rewrite (ReaderProofs.spCount_value n d ltac:(lia) C1 C2').
    assert (Lw : choose (n + d - 1) d = List.length ws) by (rewrite <- (ReaderProofs.comps_perm_length n d ixs ltac:(lia) ND H); unfold ws; rewrite map_length; reflexivity). rewrite Lw.
    rewrite ReaderProofs.sp_loop.
    2:{ intros w Hw. apply H. rewrite <- Fst. apply in_map. exact Hw. }
    cbn [bind spInit sp_n sp_depth sp_net]. fold (PropsSPatch.written ws).
    assert (Eu : exists uv, ParamModel.edgePoint dm 0 0 = Some uv).
    { destruct (PropsJoin.dom_parts pzero vs dm Hdm) as (Nd & _ & V). unfold ParamModel.edgePoint. rewrite Nd, V, L. pose proof (prv_lt n 0 ltac:(lia)). rewrite !MeshParams.vtx_nth by lia. cbn [bind]. eexists; reflexivity. }
    destruct Eu as [uv Eu].
    destruct (PropsSPatch.C53_shifted v0 n d ws eps vs dm 0 0 uv H3 ltac:(lia) F He Hv Hdm ltac:(lia) ltac:(lra) Eu) as (cs & cp & E & _). rewrite E. reflexivity. }
  unfold spatchTest. rewrite Ld. cbn [bind]. unfold spMesh. cbn [sp_n sp_net]. rewrite Hv. cbn [bind]. rewrite Hdm. cbn [bind].
  destruct (PropsJoinKinds.C82_spatch n d ws eps vs dm r H3 ltac:(lia) F He Hv Hdm) as [Fo Lo].
  destruct (mesh_of n vs dm (spEval eps dm (PropsSPatch.written ws)) (PropsJoinKinds.sp_side n d (PropsSPatch.written ws)) r H3 Hr Hv Hdm) as (m & -> & Lm & Ch); [|exact Fo|exact Lo|].
  - apply (PropsTotal.C84_spatch pzero vs dm eps d ws CD ltac:(lia)); [rewrite L; exact F|exact He].
  - exists m. split; [reflexivity|]. split; [exact Lm|].
    assert (B : forall e s, (e < n)%nat -> PropsJoinKinds.sp_side n d (PropsSPatch.written ws) e s = bezier d (fun j => P (PropsSPatch.side_index n d (prv n e) e j)) s).
    { intros e s Hen. unfold PropsJoinKinds.sp_side, bezier. apply vsum_ext. intros j Hj. rewrite W'; [reflexivity|apply SPatchProofs.side_length|].
      apply SPatchProofs.side_sum; try lia; [apply prv_lt; lia|apply prv_neq; lia]. }
    intros X Y. rewrite (Ch X Y). split; intros (e & i & Hen & Hi & EX & EY); exists e, i; rewrite ?B in * by exact Hen; repeat split; try assumption; rewrite B by exact Hen; assumption.
Qed.
Print Assumptions C92_spatch.

(** A complete super-D model: one mesh for every patch, numbered from 0.  The rim of each
    mesh consists of the chords of quartic curves with fullness 1/2. *)
Definition reading (p : PropsReader.sdPatch) (q : superd) : Prop :=
  let '(fs, es, v) := p in sdUpdateRibbons (mkSD (List.length fs) (/ 2) fs es v []) = Some q.
Lemma models_read : forall v0 ps a acc f, Forall PropsReader.sdWell ps ->
  exists qs, foldM (fun s (_ : nat) => let '(res, f) := s in ' (q, f') <- sdReadPatch v0 f ;; Some (res ++ [q], f'))%list (acc, List.concat (map PropsReader.sdTokens ps) ++ f)%list (seq a (List.length ps)) = Some (acc ++ qs, f)%list /\
    Forall2 reading ps qs.
Proof.
  intros v0. induction ps as [|[[fs es] v] ps IH]; intros a acc f F; cbn [List.length seq foldM map List.concat].
  - exists []. rewrite app_nil_r. split; [reflexivity|constructor].
  - inversion F as [|? ? W F']; subst. unfold PropsReader.sdTokens at 1. cbn [app]. rewrite <- app_assoc.
    destruct (ReaderProofs.yields_tokens (fs ++ es ++ [v])%list (None, None, None) (List.concat (map PropsReader.sdTokens ps) ++ f)%list) as (c & Y & _).
    destruct W as [W1 W2]. rewrite (ReaderProofs.patch_read v0 (List.length fs) fs es v c _ _ eq_refl W2 Y).
    assert (Cn : PropsSuperD.complete_net (mkSD (List.length fs) (/ 2) fs es v [])) by (repeat split; assumption).
    destruct (PropsSuperD.C54_registered _ Cn) as (cs & E & _). rewrite E. cbn [bind]. destruct (PropsSuperD.C54_ribbons _ Cn) as (q & E' & _). rewrite E'. cbn [bind].
    destruct (IH (S a) (acc ++ [q])%list f F') as (qs & E'' & L). exists (q :: qs). split; [rewrite E'', <- app_assoc; reflexivity|]. constructor; [exact E'|exact L].
Qed.
Theorem C92_superd : forall eps v0 r filename ps rest, Forall PropsReader.sdWell ps -> (1 <= r)%nat ->
  (forall fs es v, In (fs, es, v) ps -> let n := List.length fs in let hw := sin (2 * PI / INR n) * sin (PI / INR n) in 0 < eps <= hw / 2 /\ eps * INR r <= hw) ->
  exists out, superDTest eps v0 r filename (TNat (List.length ps) :: List.concat (map PropsReader.sdTokens ps) ++ rest) = Some out /\ List.length out = List.length ps /\
    forall i fs es v, nth_error ps i = Some (fs, es, v) -> let n := List.length fs in
      exists m, nth_error out i = Some (("../../models/" ++ filename ++ "-SD-" ++ decimal i ++ ".obj")%string, CMesh m) /\
        List.length (pm_points m) = meshSize n r /\
        PropsJoin.chords m n r (fun e => PropsSuperD.quartic_curve (1 / 2) (nth (prv n e) fs vzero) (nth e es vzero) (nth e fs vzero)).
Proof.
  intros eps v0 r filename ps rest Fw Hr He. unfold superDTest, loadSuperDModel. cbn [readNat bind].
  destruct (models_read v0 ps 0 [] rest Fw) as (qs & E & Rd). rewrite E. cbn [bind app]. clear E.
  assert (Lq : List.length qs = List.length ps) by (clear -Rd; induction Rd; cbn [List.length]; congruence). rewrite Lq.
  assert (M : forall i p, nth_error ps i = Some p -> let '(fs, es, v) := p in let n := List.length fs in exists q m, nth_error qs i = Some q /\ sdMesh eps q r = Some m /\ List.length (pm_points m) = meshSize n r /\
    PropsJoin.chords m n r (fun e => PropsSuperD.quartic_curve (1 / 2) (nth (prv n e) fs vzero) (nth e es vzero) (nth e fs vzero))).
  { intros i [[fs es] v] Ei n.
    assert (Q : exists q, nth_error qs i = Some q /\ reading (fs, es, v) q).
    { revert i Ei. clear -Rd. induction Rd as [|p q ps qs H Rd IH]; intros [|i] Ei; try discriminate Ei; cbn [nth_error] in Ei |- *; [injection Ei as ->; exists q; auto|apply IH; exact Ei]. }
    destruct Q as (q & Eq & U). unfold reading in U. exists q. apply nth_error_In in Ei as Ip.
    assert (W : PropsReader.sdWell (fs, es, v)) by (rewrite Forall_forall in Fw; exact (Fw _ Ip)). destruct W as [W1 W2]. fold n in W1, W2, U.
    assert (Cn : PropsSuperD.complete_net (mkSD n (/ 2) fs es v [])) by (repeat split; assumption).
    destruct (He fs es v Ip) as (He1 & He2). fold n in He1, He2. destruct (regular_domain n W1) as (vs & d & Hv & Hd).
    destruct (PropsJoinKinds.C82_superd (mkSD n (/ 2) fs es v []) q n vs d eps r Cn eq_refl U Hv Hd (proj2 He1) (conj (proj1 He1) He2)) as [Fo Lo].
    pose proof (PropsTotal.C84_superd n vs d eps (mkSD n (/ 2) fs es v []) q W1 Hv Hd Cn eq_refl U (proj1 He1)) as T.
    destruct (mesh_of n vs d (sdEval eps d q) _ r W1 Hr Hv Hd T Fo Lo) as (m & Em & Lm & Ch). exists m.
    assert (Nq : su_n q = n) by (destruct (PropsSuperD.C54_ribbons _ Cn) as (q' & E' & Nq' & _); assert (q' = q) by congruence; subst q'; exact Nq').
    split; [exact Eq|]. split; [unfold sdMesh; rewrite Nq, Hv; cbn [bind]; rewrite Hd; exact Em|]. split; [exact Lm|].
    replace (1 / 2) with (/ 2) by lra. exact Ch. }
  assert (G : forall k a, (a + k <= List.length ps)%nat -> exists out, mapM (fun i => p <- nth_error qs i ;; m <- sdMesh eps p r ;; Some (inModels (filename ++ "-SD-" ++ decimal i ++ ".obj"), CMesh m)) (seq a k) = Some out /\
    List.length out = k /\ forall i, (i < k)%nat -> exists q m, nth_error qs (a + i) = Some q /\ sdMesh eps q r = Some m /\ nth_error out i = Some (("../../models/" ++ filename ++ "-SD-" ++ decimal (a + i) ++ ".obj")%string, CMesh m)).
  { induction k as [|k IH]; intros a Ha; cbn [seq mapM]; [exists []; split; [reflexivity|]; split; [reflexivity|intros; lia]|].
    destruct (nth_error ps a) as [[[fs es] v]|] eqn:Ea; [|apply nth_error_None in Ea; lia]. destruct (M a _ Ea) as (q & m & Eq & Em & _). rewrite Eq. cbn [bind]. rewrite Em. cbn [bind].
    destruct (IH (S a) ltac:(lia)) as (out & Eo & Lo & Po). rewrite Eo. cbn [bind]. eexists. split; [reflexivity|]. split; [cbn [List.length]; lia|].
    intros [|i] Hi; [exists q, m; rewrite Nat.add_0_r; split; [exact Eq|]; split; [exact Em|reflexivity]|]. replace (a + S i)%nat with (S a + i)%nat by lia. apply Po. lia. }
  destruct (G (List.length ps) 0%nat ltac:(lia)) as (out & Eo & Lo & Po). exists out. split; [exact Eo|]. split; [exact Lo|]. 
  intros i fs es v Ei.
  destruct (M i _ Ei) as (q & m & Eq & Em & Lm & Ch). exists m. assert (Hi : (i < List.length ps)%nat) by (apply nth_error_Some; congruence). destruct (Po i Hi) as (q' & m' & Eq' & Em' & En).
  cbn [Nat.add] in Eq', En. assert (q' = q) by congruence. subst q'. assert (m' = m) by congruence. subst m'. split; [exact En|]. split; [exact Lm|exact Ch].
Qed.
Print Assumptions C92_superd.

(** The third argument of superd, the fullness, has no influence on the files. *)
Theorem C92_fullness : forall strtod eps v0 sdm x f l, ignored 1 l ->
  exists c c0, commandOf strtod ("superd"%string :: x :: f :: l) = Some (Runs c) /\ commandOf strtod ["superd"%string; x] = Some (Runs c0) /\
    runSuperD eps v0 sdm c = runSuperD eps v0 sdm c0 /\ forall k, writes k c = writes k c0.
Proof.
  intros strtod eps v0 sdm x f l L. eexists _, _. split; [apply C92_arguments; apply ASuperD; exact L|]. split; [apply C92_arguments; apply ASuperD1|]. split; reflexivity.
Qed.
Print Assumptions C92_fullness.

(** The names of C91 and of the super-D run are those of [writes]. *)
Theorem C92_written : forall lu svd tol eps fmt v0 c0 d0 l0 closest resolution fine projection more x m f points gs out,
  (BezierTestModel.bezierTest lu svd tol eps fmt v0 c0 d0 l0 closest resolution fine projection more x f = Some out -> map fst out = writes 0 (Bezier x)) /\
  (BezierTestModel.meshFitTest lu svd tol eps fmt v0 c0 d0 l0 closest resolution projection f points = Some (gs, out) -> map fst out = writes 0 (MeshFit x m)) /\
  (forall u, superDTest eps u resolution x f = Some out -> map fst out = writes (List.length out) (SuperD x (1 / 2))) /\
  (forall u, spatchTest eps u resolution x f = Some out -> map fst out = writes 0 (SPatch x)).
Proof.
  intros lu svd tol eps fmt v0 c0 d0 l0 closest resolution fine projection more x m f points gs out. split; [|split; [|split]].
  - intros E. unfold BezierTestModel.bezierTest in E.
    repeat match type of E with
    | bind (meshFile ?a ?b ?c ?d) _ = _ => let X := fresh "X" in destruct (meshFile a b c d) as [?|] eqn:X; [|discriminate E]; apply mesh_name in X; cbn [bind] in E
    | bind (netFile ?a ?b ?c) _ = _ => let X := fresh "X" in destruct (netFile a b c) as [?|] eqn:X; [|discriminate E]; apply net_name in X; cbn [bind] in E
    | bind ?x _ = _ => destruct x as [?|]; [|discriminate E]; cbn [bind] in E
    end.
    injection E as <-. cbn [map fst writes]. repeat match goal with H : fst ?p = _ |- context [fst ?p] => rewrite H; clear H end. reflexivity.
  - intros E.
    assert (P : forall k surf w name gbp g fs, meshFitPart lu svd tol eps fmt v0 c0 d0 l0 closest resolution projection k surf points w name gbp = Some (g, fs) ->
      map fst fs = ["../../models/" ++ name ++ ".obj"; "../../models/" ++ name ++ "-cpts.obj"; "../../models/" ++ gbp ++ ".gbp"]%string).
    { intros k surf w name gbp g fs X. unfold meshFitPart in X. destruct (gbProject _ _ _ _ _); [|discriminate X]. cbn [bind] in X. destruct (gbFit _ _ _ _ _ _ _ _ _ _ _ _ _) as [ft|]; [|discriminate X]. cbn [bind] in X.
      destruct (meshFile eps _ ft _) as [a|] eqn:A; [|discriminate X]. cbn [bind] in X. destruct (netFile fmt _ ft) as [b|] eqn:B; [|discriminate X]. cbn [bind] in X. destruct (gbpFile fmt _ ft) as [c|] eqn:C; [|discriminate X].
      cbn [bind] in X. injection X as _ <-. cbn [map]. rewrite (mesh_name _ _ _ _ _ A), (net_name _ _ _ _ B), (gbp_name _ _ _ _ C). reflexivity. }
    unfold BezierTestModel.meshFitTest in E. destruct (loadBezier _ f _) as [surf|]; [|discriminate E]. cbn [bind] in E.
    destruct (meshFile eps _ surf _) as [a|] eqn:A; [|discriminate E]. cbn [bind] in E. destruct (netFile fmt _ surf) as [b|] eqn:B; [|discriminate E]. cbn [bind] in E.
    repeat match type of E with bind (meshFitPart ?a1 ?a2 ?a3 ?a4 ?a5 ?a6 ?a7 ?a8 ?a9 ?a10 ?a11 ?a12 ?k ?s ?p ?w ?n ?g) _ = _ =>
      let X := fresh "X" in destruct (meshFitPart a1 a2 a3 a4 a5 a6 a7 a8 a9 a10 a11 a12 k s p w n g) as [[? ?]|] eqn:X; [|discriminate E]; apply P in X; cbn [bind] in E end.
    injection E as _ <-. cbn [map]. rewrite !map_app, X, X0, X1, X2, (mesh_name _ _ _ _ _ A), (net_name _ _ _ _ B). reflexivity.
  - intros u E. unfold superDTest in E. destruct (loadSuperDModel u f) as [ps|]; [|discriminate E]. cbn [bind] in E. unfold writes. rewrite map_map.
    assert (G : forall k a o, mapM (fun i => p <- nth_error ps i ;; mm <- sdMesh eps p resolution ;; Some (inModels (x ++ "-SD-" ++ decimal i ++ ".obj"), CMesh mm)) (seq a k) = Some o ->
      map fst o = map (fun i => inModels (x ++ "-SD-" ++ decimal i ++ ".obj")) (seq a (List.length o))).
    { induction k as [|k IH]; intros a o Q; cbn [seq mapM] in Q; [injection Q as <-; reflexivity|]. destruct (nth_error ps a) as [p|]; [|discriminate Q]. cbn [bind] in Q.
      destruct (sdMesh eps p resolution) as [mm|]; [|discriminate Q]. cbn [bind] in Q. destruct (mapM _ (seq (S a) k)) as [t|] eqn:Eo; [|discriminate Q]. cbn [bind] in Q. injection Q as <-.
      cbn [map fst List.length seq]. apply IH in Eo. rewrite Eo. reflexivity. }
    apply (G _ _ _ E).
  - intros u E. unfold spatchTest in E. destruct (loadSPatch u f) as [sp|]; [|discriminate E]. cbn [bind] in E. destruct (spMesh eps sp resolution) as [mm|]; [|discriminate E]. cbn [bind] in E. injection E as <-. reflexivity.
Qed.
Print Assumptions C92_written.

(** ** Example: arguments, and a super-D model with one triangle *)
Example C92_example : forall strtod, strtod "10.5"%string = 105 / 10 ->
  commandOf strtod ["cagd86"; "30"; "10.5"]%string = Some (Runs (Model "cagd86" 30 (105 / 10) (25 / 100))) /\
  commandOf strtod ["cagd86"; "  +7x"]%string = Some (Runs (Model "cagd86" 7 20 (25 / 100))) /\
  commandOf strtod ["cagd86"; "fine"]%string = Some (Runs (Model "cagd86" 0 20 (25 / 100))) /\
  commandOf strtod ["cagd86"; "-1"]%string = Some (Runs (Model "cagd86" 18446744073709551615 20 (25 / 100))) /\
  commandOf strtod ["cagd86"; "3000000000"]%string = None /\
  commandOf strtod ["mesh-fit"; "cagd86"]%string = Some NotEnough /\
  commandOf strtod ["bezier"]%string = Some (Runs (Bezier "cagd86")) /\
  commandOf strtod ["superd"]%string = Some (Runs (SuperD "trebol" (5 / 10))) /\
  writes 12 (SuperD "a" (5 / 10)) = map (fun k => ("../../models/a-SD-" ++ k ++ ".obj")%string) ["0"; "1"; "2"; "3"; "4"; "5"; "6"; "7"; "8"; "9"; "10"; "11"]%string.
Proof. intros strtod E. cbn -[Rdiv IZR]. rewrite E. repeat split. Qed.
Example C92_example_superd : forall v0 x, exists m,
  superDTest (1 / 100) v0 15 x (TNat 1 :: List.concat (map PropsReader.sdTokens [([mkV3 0 0 0; mkV3 1 0 0; mkV3 0 1 0], [mkV3 0 0 1; mkV3 1 0 1; mkV3 1 1 1], mkV3 1 1 2)]) ++ [])%list =
    Some [(("../../models/" ++ x ++ "-SD-0.obj")%string, CMesh m)] /\ List.length (pm_points m) = meshSize 3 15.
Proof.
  intros v0 x. assert (S1 : sin (2 * PI / INR 3) = sqrt 3 / 2) by (replace (2 * PI / INR 3) with (2 * (PI / 3)) by (simpl; field); apply sin_2PI3).
  assert (S2 : sin (PI / INR 3) = sqrt 3 / 2) by (replace (INR 3) with 3 by (simpl; ring); apply sin_PI3).
  assert (S3 : sqrt 3 * sqrt 3 = 3) by (apply sqrt_sqrt; lra).
  destruct (C92_superd (1 / 100) v0 15 x [([mkV3 0 0 0; mkV3 1 0 0; mkV3 0 1 0], [mkV3 0 0 1; mkV3 1 0 1; mkV3 1 1 1], mkV3 1 1 2)] []) as (out & E & L & P).
  - constructor; [split; [cbn; lia|reflexivity]|constructor].
  - lia.
  - intros fs es v [H|[]]. injection H as <- <- <-. cbn [List.length]. rewrite S1, S2. replace (INR 15) with 15 by (simpl; ring). nra.
  - destruct (P 0%nat _ _ _ eq_refl) as (m & En & Lm & _). exists m. split; [|exact Lm]. cbn [List.length] in E, L |- *. rewrite E. destruct out as [|o [|]]; try discriminate L. cbn in En. injection En as ->. reflexivity.
Qed.
