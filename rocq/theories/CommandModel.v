(** main of the test driver: what the arguments ask for, which files each run
    reads and writes, and the runs for S-patches and super-D patches.  The
    messages on the standard output and the times are not modelled. *)
From Verif Require Import Base MeshModel DomainModel ParamModel JoinModel GBModel SPatchModel SuperDModel ReaderModel BezierTestModel.
From Coq Require Import String Ascii ZArith.
Open Scope R_scope.

(** ** atoi (C11 7.22.1.2, 7.22.1.4): blanks, an optional sign, digits; the rest is
    not looked at.  A value that an int cannot hold is undefined behaviour. *)
Definition isBlank (c : ascii) : bool := let k := nat_of_ascii c in ((9 <=? k) && (k <=? 13) || (k =? 32))%nat.
Definition digitOf (c : ascii) : option Z :=
  let k := nat_of_ascii c in if ((48 <=? k) && (k <=? 57))%nat then Some (Z.of_nat (k - 48)) else None.
Fixpoint skipBlanks (s : string) : string :=
  match s with String c s' => if isBlank c then skipBlanks s' else s | EmptyString => s end.
Fixpoint readDigits (acc : Z) (s : string) : Z :=
  match s with
  | String c s' => match digitOf c with Some d => readDigits (10 * acc + d) s' | None => acc end
  | EmptyString => acc
  end.
Definition readSigned (s : string) : Z :=
  match s with
  | String c s' => if Ascii.eqb c "+" then readDigits 0 s' else if Ascii.eqb c "-" then (- readDigits 0 s')%Z else readDigits 0 s
  | EmptyString => 0%Z
  end.
Definition atoi (s : string) : option Z :=
  let z := readSigned (skipBlanks s) in if ((- 2 ^ 31 <=? z) && (z <? 2 ^ 31))%Z then Some z else None.

(** ** main, test.cc:479-558 *)

(** The functions called by main, with the globals of test.cc:31-36 that main sets
    for them.  [SuperD] has the fullness, [Model] the resolution (a size_t), the
    scaling and the ribbon length.  For the others the resolution is 15. *)
Inductive command :=
| Bezier (file : string) | BezierCorner (file : string) | Hybrid (file : string) | Cloud (file : string) | ClassA
| MeshFit (file mesh : string) | Deviation (file mesh : string) | SPatch (file : string)
| SuperD (file : string) (fullness : R) | Model (file : string) (resolution : Z) (scaling length : R).
(** Exit with code 1, after the usage text or after "Not enough parameters!", or a run. *)
Inductive outcome := Usage | NotEnough | Runs (c : command).

(** [args] are the arguments after the name of the program, so argc is their number plus
    one.  An int is converted to size_t modulo 2^64 (line 539). *)
Definition commandOf (strtod : string -> R) (args : list string) : option outcome :=
  let argc := S (List.length args) in
  if ((argc <? 2) || (5 <? argc))%nat then Some Usage else
  let type := nth 0 args ""%string in
  let file := if (argc =? 2)%nat then "cagd86"%string else nth 1 args ""%string in
  if (type =? "bezier")%string then Some (Runs (Bezier file))
  else if (type =? "bezier-corner")%string then Some (Runs (BezierCorner file))
  else if (type =? "hybrid")%string then Some (Runs (Hybrid file))
  else if (type =? "cloud")%string then Some (Runs (Cloud file))
  else if (type =? "class-a")%string then Some (Runs ClassA)
  else if ((type =? "mesh-fit")%string || (type =? "deviation")%string)%bool then
    if (argc <? 4)%nat then Some NotEnough
    else if (type =? "mesh-fit")%string then Some (Runs (MeshFit file (nth 2 args ""%string))) else Some (Runs (Deviation file (nth 2 args ""%string)))
  else if (type =? "spatch")%string then Some (Runs (SPatch file))
  else if (type =? "superd")%string then
    Some (Runs (SuperD (if (argc =? 2)%nat then "trebol"%string else file) (if (3 <? argc)%nat then strtod (nth 2 args ""%string) else 5 / 10)))
  else
    res <- (if (3 <=? argc)%nat then z <- atoi (nth 1 args ""%string) ;; Some (z mod 2 ^ 64)%Z else Some 15%Z) ;;
    Some (Runs (Model type res (if (4 <=? argc)%nat then strtod (nth 2 args ""%string) else 20)
                               (if (5 <=? argc)%nat then strtod (nth 3 args ""%string) else 25 / 100))).

(** ** The names of the files *)

(** std::stringstream << i for a size_t *)
Fixpoint decimalFrom (fuel n : nat) (tail : string) : string :=
  let s := String (ascii_of_nat (48 + n mod 10)) tail in
  match fuel with
  | O => s
  | S fuel' => if (n <? 10)%nat then s else decimalFrom fuel' (n / 10) s
  end.
Definition decimal (n : nat) : string := decimalFrom n n ""%string.

(** test.cc:195, 246, 266, 284, 298, 310, 328-329, 439-445, 452, 162 *)
Definition reads (c : command) : list string :=
  map inModels match c with
  | Bezier x | BezierCorner x | Hybrid x => [(x ++ ".gbp")%string]
  | Cloud x => [(x ++ ".lop")%string]
  | ClassA => ["pocket6sided.lop"%string]
  | MeshFit x m => [(x ++ ".gbp")%string; (m ++ ".obj")%string]
  | Deviation x m => [(x ++ ".lop")%string; (m ++ ".obj")%string]
  | SPatch x => [(x ++ ".sp")%string]
  | SuperD x _ => [(x ++ ".sdm")%string]
  | Model x _ _ _ => [(x ++ ".lop")%string]
  end.

(** The names in the order in which the files are written by a run that comes to its
    end: test.cc:199-241, 250-262,
    62, 86, 273-279, 323, 331-356, 288, 301-305, 472-476, 62, 86, 171.  [patches] is the
    number of patches of a super-D model. *)
Definition writes (patches : nat) (c : command) : list string :=
  map inModels match c with
  | Bezier x =>
    [(x ++ "-GB.obj")%string; "bezier.obj"; "bezier-cpts.obj"; "bezier-elevated-cpts.obj"; "bezier-elevated.obj";
     "bezier-elevated-30-times.obj"; "bezier-elevated-60-times.obj"; "bezier-sextic.obj"; "bezier-sextic-cpts.obj";
     "bezier-sextic-projected.obj"; "bezier-sextic-projected-cpts.obj"; "bezier-sextic-projected-smooth.obj";
     "bezier-sextic-projected-smooth-cpts.obj"]%string
  | BezierCorner x => [(x ++ "-GBC.obj")%string; "bezier.obj"; "bezier-cpts.obj"]%string
  | Hybrid x => [(x ++ "-fence.obj")%string; (x ++ "-ribbons.obj")%string; (x ++ "-HB.obj")%string; "hybrid-cpts.obj"]%string
  | Cloud x => [(x ++ ".pcp")%string]
  | ClassA => ["bezier-normal.obj"; "bezier-class-a.obj"]%string
  | MeshFit _ _ =>
    ["bezier.obj"; "bezier-cpts.obj"; "bezier-fitted.obj"; "bezier-fitted-cpts.obj"; "bezier-fitted.gbp";
     "bezier-fitted-smooth02.obj"; "bezier-fitted-smooth02-cpts.obj"; "bezier-smooth02.gbp";
     "bezier-fitted-smooth05.obj"; "bezier-fitted-smooth05-cpts.obj"; "bezier-smooth05.gbp";
     "bezier-fitted-smooth10.obj"; "bezier-fitted-smooth10-cpts.obj"; "bezier-smooth10.gbp"]%string
  | Deviation _ _ => []
  | SPatch x => [(x ++ "-SP.obj")%string]
  | SuperD x _ => map (fun i => (x ++ "-SD-" ++ decimal i ++ ".obj")%string) (seq 0 patches)
  | Model x _ _ _ => [(x ++ "-fence.obj")%string; (x ++ "-ribbons.obj")%string; (x ++ "-mc.obj")%string]
  end.

(** ** spatchTest and superDTest *)

(** surface.eval(resolution) on the regular polygon (surface-spatch.cc:14-17) *)
Definition spMesh (eps : R) (sp : spatch) (r : nat) : option pmesh :=
  vs <- regularVertices (sp_n sp) ;; d <- domainFrames pzero vs ;;
  surfaceMesh (d_n d) (d_center d) (d_verts d) (spEval eps d (sp_net sp)) r.
(** test.cc:283-292; [f] is the content of the .sp file *)
Definition spatchTest (eps : R) (v0 : V3) (r : nat) (filename : string) (f : list token) : option (list (string * content)) :=
  sp <- loadSPatch v0 f ;; m <- spMesh eps sp r ;; Some [(inModels (filename ++ "-SP.obj"), CMesh m)].

(** surfaces[i].eval(resolution) on the regular polygon (surface-superd.cc:14-18) *)
Definition sdMesh (eps : R) (p : superd) (r : nat) : option pmesh :=
  vs <- regularVertices (su_n p) ;; d <- domainFrames pzero vs ;;
  surfaceMesh (d_n d) (d_center d) (d_verts d) (sdEval eps d p) r.
(** test.cc:294-307; [f] is the content of the .sdm file *)
Definition superDTest (eps : R) (v0 : V3) (r : nat) (filename : string) (f : list token) : option (list (string * content)) :=
  ps <- loadSuperDModel v0 f ;;
  mapM (fun i => p <- nth_error ps i ;; m <- sdMesh eps p r ;; Some (inModels (filename ++ "-SD-" ++ decimal i ++ ".obj"), CMesh m))
    (seq 0 (List.length ps)).

(** The files written by [commandOf] for the two: line 528 and 530-533.  The fullness is a
    global that no function reads. *)
Definition runSPatch (eps : R) (v0 : V3) (sp : string -> list token) (c : command) : option (list (string * content)) :=
  match c with SPatch x => spatchTest eps v0 15 x (sp x) | _ => None end.
Definition runSuperD (eps : R) (v0 : V3) (sdm : string -> list token) (c : command) : option (list (string * content)) :=
  match c with SuperD x _ => superDTest eps v0 15 x (sdm x) | _ => None end.
