(** Proofs about hybrid patches. *)
From Verif Require Import Base UtilModel UtilProofs DomainModel ParamModel RibbonModel SurfaceModel SurfaceSpec SurfaceProofs GBModel GBSpec GBProofs GBEval GBEval2 HybridModel.
From Coq Require Import Reals List Lia Lra Bool.
Import ListNotations.
Open Scope R_scope.

Lemma foldM_states : forall St (f : St -> nat -> option St) (I : nat -> St) m a,
  (forall j, (j < m)%nat -> f (I j) (a + j)%nat = Some (I (S j))) -> foldM f (I 0%nat) (seq a m) = Some (I m).
Proof.
  intros St f I m; revert I; induction m as [|m IH]; intros I a H; [reflexivity|].
  cbn [seq foldM]. pose proof (H 0%nat ltac:(lia)) as H0. rewrite Nat.add_0_r in H0. rewrite H0. cbn [bind].
  apply (IH (fun j => I (S j)) (S a)). intros j Hj. rewrite <- (H (S j)) by lia. f_equal. lia.
Qed.

Lemma triple_eq : forall (a a' : V3) (b b' c c' : R), a = a' -> b = b' -> c = c' -> Some (a, b, c) = Some (a', b', c').
Proof. intros; subst; reflexivity. Qed.

Section Hyb.
Variables (eps : R) (n d : nat) (g : gbsurf) (sf : surf) (sds : list V2).
Hypothesis Sh : shaped n d g.
Variable W : nat -> nat -> nat -> R.
Let l := ((d + 1) / 2)%nat.
Hypothesis HW : forall i j k, (i < n)%nat -> (j <= d)%nat -> (k < l)%nat -> gbWeight eps g sds i j k = Some (W i j k).

(** The inner part of side [i], the part that goes to its ribbon, and all of it. *)
Definition hinner (i : nat) : V3 := vsum l (fun k => vsum (d + 1) (fun j => cpv g i j k *v (if (2 <=? k)%nat then W i j k else 0))).
Definition hblend (i : nat) : R := rsum l (fun k => rsum (d + 1) (fun j => if (2 <=? k)%nat then 0 else W i j k)).
Definition htotal (i : nat) : R := rsum l (fun k => rsum (d + 1) (fun j => W i j k)).

Lemma hybrid_side : forall i p w, (i < n)%nat -> hybridSide eps g sds i (p, w, 0) = Some (p +v hinner i, w + htotal i, hblend i).
Proof.
  intros i p w Hi. unfold hybridSide. pose proof Sh as (Sn & Sd & Sl & _). rewrite Sd, Sl. fold l.
  pose proof (foldM_states _ (fun st k => foldM (fun (st : V3 * R * R) j => let '(p, w, b) := st in
      blend <- gbWeight eps g sds i j k ;;
      if (2 <=? k)%nat then q <- controlPoint g i j k ;; Some (p +v q *v blend, w + blend, b) else Some (p, w + blend, b + blend)) st (seq 0 (d + 1)))
    (fun k => (p +v vsum k (fun k => vsum (d + 1) (fun j => cpv g i j k *v (if (2 <=? k)%nat then W i j k else 0))),
               w + rsum k (fun k => rsum (d + 1) (fun j => W i j k)),
               rsum k (fun k => rsum (d + 1) (fun j => if (2 <=? k)%nat then 0 else W i j k)))) l 0) as O.
  cbn [vsum rsum] in O. rewrite Rplus_0_r in O. replace (p +v vzero) with p in O by v3ring. rewrite O; [reflexivity|]. clear O.
  intros k Hk. cbn [Nat.add]. cbn [vsum rsum].
  set (P0 := p +v vsum k _). set (w0 := w + rsum k _). set (b0 := rsum k _).
  pose proof (foldM_states _ (fun (st : V3 * R * R) j => let '(p, w, b) := st in
      blend <- gbWeight eps g sds i j k ;;
      if (2 <=? k)%nat then q <- controlPoint g i j k ;; Some (p +v q *v blend, w + blend, b) else Some (p, w + blend, b + blend))
    (fun m => (P0 +v vsum m (fun j => cpv g i j k *v (if (2 <=? k)%nat then W i j k else 0)), w0 + rsum m (fun j => W i j k),
               b0 + rsum m (fun j => if (2 <=? k)%nat then 0 else W i j k))) (d + 1) 0) as O.
  cbn [vsum rsum] in O. rewrite !Rplus_0_r in O. replace (P0 +v vzero) with P0 in O by v3ring. rewrite O.
  - apply triple_eq; [unfold P0; v3ring|unfold w0; ring|unfold b0; ring].
  - clear O. intros j Hj. cbn [Nat.add vsum rsum]. rewrite HW by lia. cbn [bind]. destruct (2 <=? k)%nat.
    + rewrite (cpv_some n d g i j k Sh) by (apply lay_le in Hk; cbn [inRange]; lia). cbn [bind]. apply triple_eq; [v3ring|ring|ring].
    + apply triple_eq; [v3ring|ring|ring].
Qed.

Variable r : nat -> V3.
Hypothesis Hr : forall i, (i < n)%nat -> exists sd, nth_error sds i = Some sd /\ sideInterpolant sf i (px sd) (py sd) = Some (r i).

Lemma hybrid_value : hybridEval eps g sf sds =
  Some (vsum n hinner +v gb_cen g *v (1 - rsum n htotal) +v vsum n (fun i => r i *v hblend i)).
Proof.
  unfold hybridEval. pose proof Sh as (Sn & _). rewrite Sn.
  set (F := fun (st : V3 * R * list R) i => let '(p, w, bs) := st in
      ' (p', w', b) <- hybridSide eps g sds i (p, w, 0) ;; Some (p', w', bs ++ [b])).
  assert (O : foldM F (vzero, 0, []) (seq 0 n) = Some (vsum n hinner, rsum n htotal, map hblend (seq 0 n))).
  { apply (foldM_states _ F (fun m => (vsum m hinner, rsum m htotal, map hblend (seq 0 m))) n 0).
    intros i Hi. cbn [Nat.add]. unfold F. rewrite hybrid_side by exact Hi. cbn [bind]. rewrite seq_S, map_app. reflexivity. }
  rewrite O.
  cbn [bind]. rewrite (osum_total n _ (fun i => r i *v hblend i)); [reflexivity|].
  intros i Hi. destruct (Hr i Hi) as (sd & E & R1). rewrite E. cbn [bind]. rewrite R1. cbn [bind].
  rewrite (map_nth_error hblend i (seq 0 n) (d := i)); [reflexivity|].
  rewrite (nth_error_nth' (seq 0 n) 0%nat) by (rewrite seq_length; exact Hi). rewrite seq_nth by exact Hi. reflexivity.
Qed.
End Hyb.
