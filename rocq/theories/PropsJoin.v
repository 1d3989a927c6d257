(** C82: the meshes of neighbouring patches fit together. *)
From Verif Require Import Base MeshModel MeshSpec GeomSpec DomainModel UtilModel UtilSpec UtilProofs DomainProofs DomainPolygons.
From Verif Require Import JoinModel JoinSpec JoinProofs MeshParams MeshGeom.
From Verif Require Import RibbonModel SurfaceModel SurfaceSpec SurfaceProofs SurfaceBase ParamBary ParamMaps ParamRegular ParamSide ParamTame ParamModel PropsParam PropsSurface.
Open Scope R_scope.

Lemma dom_parts : forall c vs d, domainFrames c vs = Some d -> d_n d = length vs /\ d_center d = c /\ d_verts d = vs.
Proof.
  intros c vs d H. split; [apply (d_n_eq c vs d H)|]. split; [|apply (d_verts_eq c vs d H)].
  unfold domainFrames in H. destruct (mapM _ _); [|discriminate]. cbn [bind] in H. injection H as <-. reflexivity.
Qed.
Lemma edge_same : forall c vs d e s, domainFrames c vs = Some d -> edgePoint d e s = MeshModel.edgePoint (length vs) vs e s.
Proof.
  intros c vs d e s H. destruct (dom_parts c vs d H) as (N & _ & V). unfold edgePoint, MeshModel.edgePoint, vertex. rewrite N, V. reflexivity.
Qed.
Lemma follows_same : forall c vs d r eval bd, domainFrames c vs = Some d -> follows (length vs) r (edgePoint d) eval bd ->
  follows (length vs) r (MeshModel.edgePoint (length vs) vs) eval bd.
Proof. intros c vs d r eval bd H F e i uv He Hi E. apply (F e i uv He Hi). rewrite (edge_same c vs d e _ H). exact E. Qed.

(** The edges on the rim of the mesh are the chords of the boundary between
    consecutive samples, in the direction of the boundary. *)
Theorem C82_rim : forall c vs d r eval bd m, domainFrames c vs = Some d -> (3 <= length vs)%nat -> (1 <= r)%nat ->
  surfaceMesh (d_n d) (d_center d) (d_verts d) eval r = Some m -> follows (length vs) r (edgePoint d) eval bd -> loop_of (length vs) bd ->
  forall P Q, has_rim m P Q <-> exists e i, (e < length vs)%nat /\ (i < r)%nat /\ P = bd e (INR i / INR r) /\ Q = bd e (INR (S i) / INR r).
Proof.
  intros c vs d r eval bd m Hd Hn Hr H F C. destruct (dom_parts c vs d Hd) as (N & Cn & V). rewrite N, Cn, V in H.
  apply (mesh_rim vs c r eval bd m Hn Hr H (follows_same c vs d r eval bd Hd F) C).
Qed.
Print Assumptions C82_rim.
Theorem C82_rim_circle : forall n r eval bd m, (3 <= n)%nat -> (1 <= r)%nat -> surfaceMeshCircle n eval r = Some m ->
  follows n r (edgePointCircle n) eval bd -> loop_of n bd ->
  forall P Q, has_rim m P Q <-> exists e i, (e < n)%nat /\ (i < r)%nat /\ P = bd e (INR i / INR r) /\ Q = bd e (INR (S i) / INR r).
Proof. intros n r eval bd m Hn Hr H F C. apply (mesh_rim_circle n r eval bd m Hn Hr H F C). Qed.
Print Assumptions C82_rim_circle.

(** The mesh of a patch: its rim consists of the chords of the boundary. *)
Definition chords (m : pmesh) (n r : nat) (bd : nat -> R -> V3) : Prop :=
  forall P Q, has_rim m P Q <-> exists e i, (e < n)%nat /\ (i < r)%nat /\ P = bd e (INR i / INR r) /\ Q = bd e (INR (S i) / INR r).
Lemma facing_chord : forall b b' r i, (1 <= r)%nat -> (i < r)%nat -> facing b b' ->
  b' (INR (r - S i) / INR r) = b (INR (S i) / INR r) /\ b' (INR (S (r - S i)) / INR r) = b (INR i / INR r).
Proof.
  intros b b' r i Hr Hi F. assert (Rp : 0 < INR r) by (apply lt_0_INR; lia).
  assert (B : forall j, (j <= r)%nat -> 0 <= INR j / INR r <= 1 /\ INR (r - j) / INR r = 1 - INR j / INR r).
  { intros j Hj. pose proof (pos_INR j). assert (INR j <= INR r) by (apply le_INR; exact Hj). split; [split|].
    - unfold Rdiv. apply Rmult_le_pos; [lra|]. left. apply Rinv_0_lt_compat. exact Rp.
    - apply (Rmult_le_reg_r (INR r)); [exact Rp|]. unfold Rdiv. rewrite Rmult_assoc, Rinv_l by lra. lra.
    - rewrite minus_INR by exact Hj. field. lra. }
  destruct (B (S i) ltac:(lia)) as [B1 B2]. destruct (B i ltac:(lia)) as [B3 B4]. replace (S (r - S i)) with (r - i)%nat by lia.
  rewrite B2, B4. split; apply F; assumption.
Qed.

(** Two patches with a common side and the same resolution: every edge of one
    mesh along the side is an edge of the other one in the opposite direction. *)
Theorem C82_seam : forall m m' n n' r bd bd' e e', (1 <= r)%nat -> chords m n r bd -> chords m' n' r bd' -> (e < n)%nat -> (e' < n')%nat ->
  facing (bd e) (bd' e') -> forall i, (i < r)%nat ->
  has_rim m (bd e (INR i / INR r)) (bd e (INR (S i) / INR r)) /\ has_rim m' (bd e (INR (S i) / INR r)) (bd e (INR i / INR r)).
Proof.
  intros m m' n n' r bd bd' e e' Hr C C' He He' F i Hi. split.
  - apply C. exists e, i. repeat split; assumption.
  - apply C'. exists e', (r - S i)%nat. destruct (facing_chord (bd e) (bd' e') r i Hr Hi F) as [A B]. split; [exact He'|]. split; [lia|]. split; [symmetry; exact A|symmetry; exact B].
Qed.
Print Assumptions C82_seam.

(** A network of patches where every side faces a side of a patch, all meshes
    with the same resolution: every edge of a triangle is an edge of a triangle
    in the opposite direction, so there are no gaps anywhere. *)
Theorem C82_closed : forall (N r : nat) (mesh : nat -> pmesh) (n : nat -> nat) (bd : nat -> nat -> R -> V3), (1 <= r)%nat ->
  (forall j, (j < N)%nat -> chords (mesh j) (n j) r (bd j)) ->
  (forall j e, (j < N)%nat -> (e < n j)%nat -> exists j' e', (j' < N)%nat /\ (e' < n j')%nat /\ facing (bd j e) (bd j' e')) ->
  forall j P Q, (j < N)%nat -> has_edge (mesh j) P Q -> exists j', (j' < N)%nat /\ has_edge (mesh j') Q P.
Proof.
  intros N r mesh n bd Hr C F j P Q Hj E. destruct (edge_or_rim _ _ _ E) as [E'|E']; [exists j; split; assumption|].
  apply (C j Hj) in E'. destruct E' as (e & i & He & Hi & -> & ->). destruct (F j e Hj He) as (j' & e' & Hj' & He' & Fc). exists j'. split; [exact Hj'|].
  apply rim_edge. apply (C82_seam (mesh j) (mesh j') (n j) (n j') r (bd j) (bd j') e e' Hr (C j Hj) (C j' Hj') He He' Fc i Hi).
Qed.
Print Assumptions C82_closed.

(** With different resolutions the finer mesh has a vertex on the side which is
    no vertex of the other mesh there. *)
Theorem C82_resolutions : forall m' n' r r' (bd bd' : nat -> R -> V3) e e', (1 <= r)%nat -> (r < r')%nat -> chords m' n' r' bd' -> (e' < n')%nat ->
  facing (bd e) (bd' e') -> (forall s t, 0 <= s <= 1 -> 0 <= t <= 1 -> bd e s = bd e t -> s = t) ->
  exists P Q, has_rim m' P Q /\ forall i, (i <= r)%nat -> bd e (INR i / INR r) <> Q.
Proof.
  intros m' n' r r' bd bd' e e' Hr Hrr C He F Inj. assert (Rp : 0 < INR r) by (apply lt_0_INR; lia). assert (Rp' : 0 < INR r') by (apply lt_0_INR; lia).
  assert (L : INR r < INR r') by (apply lt_INR; exact Hrr).
  assert (I1 : 0 < INR 1 / INR r' <= 1). { simpl. split; [apply Rdiv_lt_0_compat; lra|]. apply (Rmult_le_reg_r (INR r')); [exact Rp'|]. unfold Rdiv. rewrite Rmult_assoc, Rinv_l by lra. assert (1 <= INR r') by (change 1 with (INR 1); apply le_INR; lia). lra. }
  exists (bd' e' (INR 0 / INR r')), (bd' e' (INR 1 / INR r')). split; [apply C; exists e', 0%nat; repeat split; try assumption; lia|].
  intros i Hi E. pose proof (pos_INR i). assert (INR i <= INR r) by (apply le_INR; exact Hi).
  assert (Bi : 0 <= INR i / INR r <= 1).
  { split; [unfold Rdiv; apply Rmult_le_pos; [lra|left; apply Rinv_0_lt_compat; exact Rp]|]. apply (Rmult_le_reg_r (INR r)); [exact Rp|]. unfold Rdiv. rewrite Rmult_assoc, Rinv_l by lra. lra. }
  replace (bd' e' (INR 1 / INR r')) with (bd e (1 - INR 1 / INR r')) in E.
  2:{ rewrite <- F by lra. f_equal. ring. }
  apply Inj in E; [|exact Bi|lra]. simpl in E. apply (f_equal (fun x => x * INR r * INR r')) in E.
  replace (INR i / INR r * INR r * INR r') with (INR i * INR r') in E by (field; lra).
  replace ((1 - 1 / INR r') * INR r * INR r') with (INR r * INR r' - INR r) in E by (field; lra).
  assert (Ei : (i < r)%nat). { destruct (Nat.eq_dec i r) as [->|]; [exfalso; lra|lia]. }
  assert (INR i <= INR r - 1). { replace (INR r - 1) with (INR (r - 1)) by (rewrite minus_INR by lia; reflexivity). apply le_INR; lia. } nra.
Qed.
Print Assumptions C82_resolutions.
