(** Degree elevation of patches with four sides. *)
From Verif Require Import Base MeshModel DomainModel UtilModel UtilSpec UtilProofs ParamModel RibbonModel SurfaceModel GBModel GBSpec GBProofs GBElev GBEval FourSpec FourProofs.
From Verif Require PropsGB2.
Open Scope R_scope.

(** The elevation rule for a grid of degree [d]. *)
Definition elevatedGrid (d : nat) (G : nat -> nat -> V3) (a b : nat) : V3 :=
  let eta := INR a / INR (d + 1) in let theta := INR b / INR (d + 1) in
  G (a - 1)%nat (b - 1)%nat *v (eta * theta) +v G a (b - 1)%nat *v ((1 - eta) * theta)
  +v G (a - 1)%nat b *v (eta * (1 - theta)) +v G a b *v ((1 - eta) * (1 - theta)).

Lemma tensor_ext : forall d F G u v, (forall a b, (a <= d)%nat -> (b <= d)%nat -> F a b = G a b) -> tensor d F u v = tensor d G u v.
Proof. intros d F G u v H. unfold tensor, bezier. apply vsum_ext. intros b Hb. f_equal. apply vsum_ext. intros a Ha. rewrite H by lia. reflexivity. Qed.

Lemma bezier_add : forall d P Q s, bezier d (fun k => P k +v Q k) s = bezier d P s +v bezier d Q s.
Proof. intros. unfold bezier. rewrite <- vsum_add. apply vsum_ext. intros. v3ring. Qed.
Lemma bezier_scale : forall d P x s, bezier d (fun k => P k *v x) s = bezier d P s *v x.
Proof. intros. unfold bezier. rewrite <- vsum_scale. apply vsum_ext. intros. v3ring. Qed.
Lemma bezier_ext : forall d P Q s, (forall k, (k <= d)%nat -> P k = Q k) -> bezier d P s = bezier d Q s.
Proof. intros d P Q s H. unfold bezier. apply vsum_ext. intros k Hk. rewrite H by lia. reflexivity. Qed.

Lemma tensor_elevate : forall d G u v, tensor (d + 1) (elevatedGrid d G) u v = tensor d G u v.
Proof.
  intros d G u v. unfold tensor.
  apply (bezier_elevate d (fun b => bezier d (fun a => G a b) u)). intros k Hk.
  rewrite <- (bezier_elevate d (fun a => G a (k - 1)%nat) (fun a => G (a - 1)%nat (k - 1)%nat *v (INR a / INR (d + 1)) +v G a (k - 1)%nat *v (1 - INR a / INR (d + 1)))) by (intros; reflexivity).
  rewrite <- (bezier_elevate d (fun a => G a k) (fun a => G (a - 1)%nat k *v (INR a / INR (d + 1)) +v G a k *v (1 - INR a / INR (d + 1)))) by (intros; reflexivity).
  rewrite <- !bezier_scale, <- bezier_add. apply bezier_ext. intros a Ha. unfold elevatedGrid. v3ring.
Qed.

(** Column [j] and row [k] of side [i] as a position of the grid. *)
Definition place4 (d i j k : nat) : nat * nat :=
  match i with 0 => (j, k) | 1 => (d - k, j) | 2 => (d - j, d - k) | _ => (k, d - j) end%nat.

Section Elev.
Variables (d : nat) (g : gbsurf).
Hypothesis Sh : shaped 4 d g.
Hypothesis Co : consistent 4 d g.

Lemma twin_prv : forall i j k, (i < 4)%nat -> (2 * j < d)%nat -> (2 * k < d)%nat -> gpoint g i j k = gpoint g (prv 4 i) (d - k) j.
Proof. exact (twin4 d g Co). Qed.
Lemma twin_nxt : forall i j k, (i < 4)%nat -> (2 * j < d)%nat -> (2 * k < d)%nat -> gpoint g i (d - k) j = gpoint g (nxt 4 i) j k.
Proof.
  intros i j k Hi Hj Hk. rewrite (twin_prv (nxt 4 i) j k) by (try apply nxt_lt; lia). rewrite prv_nxt by exact Hi. reflexivity.
Qed.

Lemma grid_side : forall i j k, (i < 4)%nat -> (j <= d)%nat -> (2 * k < d)%nat ->
  grid d g (fst (place4 d i j k)) (snd (place4 d i j k)) = gpoint g i j k.
Proof.
  intros i j k Hi Hj Hk. destruct (Nat.lt_trichotomy (2 * j) d) as [L|[E|L]].
  - destruct i as [|[|[|[|i]]]]; [| | | |lia]; cbn [place4 fst snd]; unfold grid.
    + destruct (Nat.ltb_spec (2 * k) d); [reflexivity|lia].
    + destruct (Nat.ltb_spec (2 * j) d); [|lia]. exact (twin_nxt 0 j k ltac:(lia) L Hk).
    + destruct (Nat.ltb_spec (2 * (d - k)) d); [lia|]. destruct (Nat.ltb_spec d (2 * (d - k))); [|lia]. f_equal; lia.
    + destruct (Nat.ltb_spec (2 * (d - j)) d); [lia|]. destruct (Nat.ltb_spec d (2 * (d - j))); [|lia]. replace (d - (d - j))%nat with j by lia. exact (twin_nxt 2 j k ltac:(lia) L Hk).
  - destruct i as [|[|[|[|i]]]]; [| | | |lia]; cbn [place4 fst snd]; unfold grid.
    + destruct (Nat.ltb_spec (2 * k) d); [reflexivity|lia].
    + destruct (Nat.ltb_spec (2 * j) d); [lia|]. destruct (Nat.ltb_spec d (2 * j)); [lia|]. destruct (Nat.ltb_spec (2 * (d - k)) d); [lia|]. destruct (Nat.ltb_spec d (2 * (d - k))); [|lia]. f_equal; lia.
    + destruct (Nat.ltb_spec (2 * (d - k)) d); [lia|]. destruct (Nat.ltb_spec d (2 * (d - k))); [|lia]. f_equal; lia.
    + destruct (Nat.ltb_spec (2 * (d - j)) d); [lia|]. destruct (Nat.ltb_spec d (2 * (d - j))); [lia|]. destruct (Nat.ltb_spec (2 * k) d); [|lia]. f_equal; lia.
  - assert (P : gpoint g i j k = gpoint g (nxt 4 i) k (d - j)) by (pose proof (twin_nxt i k (d - j) Hi Hk ltac:(lia)) as T; replace (d - (d - j))%nat with j in T by lia; exact T).
    destruct i as [|[|[|[|i]]]]; [| | | |lia]; cbn [place4 fst snd]; unfold grid.
    + destruct (Nat.ltb_spec (2 * k) d); [reflexivity|lia].
    + destruct (Nat.ltb_spec (2 * j) d); [lia|]. destruct (Nat.ltb_spec d (2 * j)); [|lia]. rewrite P. cbn [nxt Nat.add Nat.modulo Nat.divmod fst snd Nat.sub]. f_equal; lia.
    + destruct (Nat.ltb_spec (2 * (d - k)) d); [lia|]. destruct (Nat.ltb_spec d (2 * (d - k))); [|lia]. f_equal; lia.
    + destruct (Nat.ltb_spec (2 * (d - j)) d); [|lia]. rewrite P. reflexivity.
Qed.

Lemma lattice4 : forall i j k, (i < 4)%nat -> (j <= d)%nat -> (2 * k <= d)%nat ->
  PropsGB2.latticePoint 4 d g i j k = grid d g (fst (place4 d i j k)) (snd (place4 d i j k)).
Proof.
  intros i j k Hi Hj Hk. unfold PropsGB2.latticePoint. change (fun i j k => match controlPoint g i j k with Some p => p | None => vzero end) with (gpoint g). cbv zeta.
  destruct (Nat.leb_spec (2 * k + 1) d); [symmetry; apply (grid_side i j k); lia|].
  destruct (Nat.ltb_spec (2 * j) d).
  - change ((i + 4 - 1) mod 4)%nat with (prv 4 i). assert (Hp : (prv 4 i < 4)%nat) by (apply prv_lt; lia).
    assert (E : place4 d i j k = place4 d (prv 4 i) (d - k) j) by (destruct i as [|[|[|[|i]]]]; [| | | |lia]; cbn; f_equal; lia).
    rewrite E. rewrite (grid_side (prv 4 i) (d - k) j) by lia. reflexivity.
  - destruct (Nat.eqb_spec (2 * j) d).
    + unfold grid. destruct i as [|[|[|[|i]]]]; [| | | |lia]; cbn [place4 fst snd];
      repeat match goal with |- context [(?x <? ?y)%nat] => destruct (Nat.ltb_spec x y); [lia|] end; reflexivity.
    + change ((i + 1) mod 4)%nat with (nxt 4 i). assert (Hp : (nxt 4 i < 4)%nat) by (apply nxt_lt; lia).
      assert (E : place4 d i j k = place4 d (nxt 4 i) k (d - j)) by (destruct i as [|[|[|[|i]]]]; [| | | |lia]; cbn; f_equal; lia).
      rewrite E. rewrite (grid_side (nxt 4 i) k (d - j)) by lia. reflexivity.
Qed.

Lemma elevated4 : forall i j k, (i < 4)%nat -> (j <= d + 1)%nat -> (2 * k <= d)%nat ->
  PropsGB2.elevatedPoint 4 d g i j k = elevatedGrid d (grid d g) (fst (place4 (d + 1) i j k)) (snd (place4 (d + 1) i j k)).
Proof.
  intros i j k Hi Hj Hk. unfold PropsGB2.elevatedPoint. cbv zeta. assert (N : INR (d + 1) <> 0) by (apply not_0_INR; lia).
  assert (J0 : j = 0%nat -> INR j / INR (d + 1) = 0) by (intros ->; unfold Rdiv; cbn [INR]; ring).
  assert (J1 : j = (d + 1)%nat -> 1 - INR j / INR (d + 1) = 0) by (intros ->; field; exact N).
  assert (K0 : k = 0%nat -> INR k / INR (d + 1) = 0) by (intros ->; unfold Rdiv; cbn [INR]; ring).
  assert (EJ : INR (d + 1 - j) / INR (d + 1) = 1 - INR j / INR (d + 1)) by (rewrite minus_INR by lia; field; exact N).
  assert (EK : INR (d + 1 - k) / INR (d + 1) = 1 - INR k / INR (d + 1)) by (rewrite minus_INR by lia; field; exact N).
  set (eta := INR j / INR (d + 1)) in *. set (theta := INR k / INR (d + 1)) in *.
  (* columns and rows that do not exist have no weight *)
  assert (W : forall j' k' a b x y, (i < 4)%nat -> (2 * k' <= d)%nat -> x = y -> (y = 0 \/ (j' <= d)%nat /\ (a, b) = place4 d i j' k') ->
    PropsGB2.latticePoint 4 d g i j' k' *v x = grid d g a b *v y).
  { intros j' k' a b x y Hi' Hk' -> [->|(Hj' & E)]; [v3ring|]. rewrite lattice4 by assumption. rewrite <- E. reflexivity. }
  assert (Zj : j = 0%nat \/ (1 <= j)%nat) by lia. assert (Zk : k = 0%nat \/ (1 <= k)%nat) by lia. assert (Zd : j = (d + 1)%nat \/ (j <= d)%nat) by lia.
  assert (S1 : forall a b, (1 <= j -> 1 <= k -> (a, b) = place4 d i (j - 1) (k - 1))%nat ->
    PropsGB2.latticePoint 4 d g i (j - 1) (k - 1) *v (eta * theta) = grid d g a b *v (eta * theta)).
  { intros a b E. apply W; [exact Hi|lia|reflexivity|]. destruct Zj as [Q|Q]; [left; rewrite (J0 Q); ring|]. destruct Zk as [Q'|Q']; [left; rewrite (K0 Q'); ring|]. right. split; [lia|auto]. }
  assert (S2 : forall a b, (j <= d -> 1 <= k -> (a, b) = place4 d i j (k - 1))%nat ->
    PropsGB2.latticePoint 4 d g i j (k - 1) *v ((1 - eta) * theta) = grid d g a b *v ((1 - eta) * theta)).
  { intros a b E. apply W; [exact Hi|lia|reflexivity|]. destruct Zd as [Q|Q]; [left; rewrite (J1 Q); ring|]. destruct Zk as [Q'|Q']; [left; rewrite (K0 Q'); ring|]. right. split; [lia|auto]. }
  assert (S3 : forall a b, (1 <= j -> (a, b) = place4 d i (j - 1) k)%nat ->
    PropsGB2.latticePoint 4 d g i (j - 1) k *v (eta * (1 - theta)) = grid d g a b *v (eta * (1 - theta))).
  { intros a b E. apply W; [exact Hi|lia|reflexivity|]. destruct Zj as [Q|Q]; [left; rewrite (J0 Q); ring|]. right. split; [lia|auto]. }
  assert (S4 : forall a b, (j <= d -> (a, b) = place4 d i j k)%nat ->
    PropsGB2.latticePoint 4 d g i j k *v ((1 - eta) * (1 - theta)) = grid d g a b *v ((1 - eta) * (1 - theta))).
  { intros a b E. apply W; [exact Hi|lia|reflexivity|]. destruct Zd as [Q|Q]; [left; rewrite (J1 Q); ring|]. right. split; [lia|auto]. }
  clear W. unfold elevatedGrid. destruct i as [|[|[|[|i]]]]; [| | | |lia]; cbn [place4 fst snd] in *; cbv zeta; rewrite ?EJ, ?EK; fold eta theta.
  - rewrite (S1 (j - 1) (k - 1))%nat, (S2 j (k - 1))%nat, (S3 (j - 1) k)%nat, (S4 j k) by (intros; f_equal; lia). v3ring.
  - rewrite (S1 (d + 1 - k) (j - 1))%nat, (S2 (d + 1 - k) j)%nat, (S3 (d + 1 - k - 1) (j - 1))%nat, (S4 (d + 1 - k - 1) j)%nat by (intros; f_equal; lia). v3ring.
  - rewrite (S1 (d + 1 - j) (d + 1 - k))%nat, (S2 (d + 1 - j - 1) (d + 1 - k))%nat, (S3 (d + 1 - j) (d + 1 - k - 1))%nat, (S4 (d + 1 - j - 1) (d + 1 - k - 1))%nat by (intros; f_equal; lia). v3ring.
  - rewrite (S1 (k - 1) (d + 1 - j))%nat, (S2 (k - 1) (d + 1 - j - 1))%nat, (S3 k (d + 1 - j))%nat, (S4 k (d + 1 - j - 1))%nat by (intros; f_equal; lia). v3ring.
Qed.

(** The grid of the elevated net. *)
Variables (g' : gbsurf).
Hypothesis Val : forall i j k, inRange 4 (d + 1) (i, j, k) -> controlPoint g' i j k = Some (PropsGB2.elevatedPoint 4 d g i j k).

Lemma grid_elevated : forall a b, (a <= d + 1)%nat -> (b <= d + 1)%nat -> (2 * a = d + 1)%nat /\ (2 * b = d + 1)%nat \/
  grid (d + 1) g' a b = elevatedGrid d (grid d g) a b.
Proof.
  intros a b Ha Hb.
  assert (V : forall i j k, (i < 4)%nat -> (j <= d + 1)%nat -> (2 * k + 1 <= d + 1)%nat -> place4 (d + 1) i j k = (a, b) -> gpoint g' i j k = elevatedGrid d (grid d g) a b).
  { intros i j k Hi Hj Hk E. unfold gpoint. rewrite Val by (unfold inRange; lia). rewrite elevated4 by lia. rewrite E. reflexivity. }
  unfold grid at 1. destruct (Nat.ltb_spec (2 * b) (d + 1)); [right; apply V; try lia; reflexivity|].
  destruct (Nat.ltb_spec (d + 1) (2 * b)); [right; apply V; try lia; cbn; f_equal; lia|].
  destruct (Nat.ltb_spec (2 * a) (d + 1)); [right; apply V; try lia; cbn; f_equal; lia|].
  destruct (Nat.ltb_spec (d + 1) (2 * a)); [right; apply V; try lia; cbn; f_equal; lia|]. left. lia.
Qed.

Lemma tensor_even : (d mod 2 = 0)%nat -> forall u v, tensor (d + 1) (grid (d + 1) g') u v = tensor d (grid d g) u v.
Proof.
  intros Ev u v. rewrite <- (tensor_elevate d). apply tensor_ext. intros a b Ha Hb. destruct (grid_elevated a b Ha Hb) as [(X & _)|E]; [|exact E].
  pose proof (Nat.div_mod d 2 ltac:(lia)). lia.
Qed.

Lemma tensor_point : forall D F m c u v, (m <= D)%nat -> tensor D (fun a b => if ((a =? m) && (b =? m))%nat%bool then c else F a b) u v =
  tensor D F u v +v (c -v F m m) *v (bern D m u * bern D m v).
Proof.
  intros D F m c u v Hm. unfold tensor, bezier.
  assert (X : forall b, vsum (D + 1) (fun a => (if ((a =? m) && (b =? m))%nat%bool then c else F a b) *v bern D a u) =
    vsum (D + 1) (fun a => F a b *v bern D a u) +v (if (b =? m)%nat then (c -v F m m) *v bern D m u else vzero)).
  { intros b. transitivity (vsum (D + 1) (fun a => F a b *v bern D a u) +v vsum (D + 1) (fun a => if (a =? m)%nat then (if (b =? m)%nat then (c -v F m m) *v bern D m u else vzero) else vzero)).
    - rewrite <- vsum_add. apply vsum_ext. intros a Ha. destruct (Nat.eqb_spec a m) as [->|]; destruct (Nat.eqb_spec b m) as [->|]; cbn [andb]; v3ring.
    - f_equal. rewrite (vsum_single (D + 1) _ m); [|lia|intros a Ha Na; destruct (Nat.eqb_spec a m); [contradiction|reflexivity]]. rewrite Nat.eqb_refl. reflexivity. }
  rewrite (vsum_ext (D + 1) _ (fun b => vsum (D + 1) (fun a => F a b *v bern D a u) *v bern D b v +v (if (b =? m)%nat then (c -v F m m) *v bern D m u else vzero) *v bern D b v)).
  - rewrite vsum_add. f_equal. rewrite (vsum_single (D + 1) _ m); [|lia|intros b Hb Nb; destruct (Nat.eqb_spec b m); [contradiction|v3ring]]. rewrite Nat.eqb_refl. v3ring.
  - intros b Hb. rewrite X. v3ring.
Qed.

Lemma tensor_odd : forall m, (d + 1 = 2 * m)%nat -> forall u v, tensor (d + 1) (grid (d + 1) g') u v =
  tensor d (grid d g) u v +v (gb_cen g' -v (grid d g (m - 1) (m - 1) +v grid d g m (m - 1) +v grid d g (m - 1) m +v grid d g m m) *v (1 / 4)) *v (bern (d + 1) m u * bern (d + 1) m v).
Proof.
  intros m Em u v. rewrite <- (tensor_elevate d (grid d g)).
  assert (Ee : elevatedGrid d (grid d g) m m = (grid d g (m - 1)%nat (m - 1)%nat +v grid d g m (m - 1)%nat +v grid d g (m - 1)%nat m +v grid d g m m) *v (1 / 4)).
  { unfold elevatedGrid. rewrite Em. rewrite mult_INR. assert (Nm : INR m <> 0) by (apply not_0_INR; lia). replace (INR m / (INR 2 * INR m)) with (1 / 2) by (cbn [INR]; field; exact Nm). cbv zeta. v3field. }
  rewrite <- Ee, <- (tensor_point (d + 1) (elevatedGrid d (grid d g)) m (gb_cen g') u v) by lia. apply tensor_ext. intros a b Ha Hb.
  destruct (grid_elevated a b Ha Hb) as [(X & Y)|E].
  - assert (a = m) by lia. assert (b = m) by lia. subst a b. rewrite !Nat.eqb_refl. cbn [andb]. unfold grid.
    repeat match goal with |- context [(?x <? ?y)%nat] => destruct (Nat.ltb_spec x y); [lia|] end. reflexivity.
  - destruct (Nat.eqb_spec a m) as [->|]; [destruct (Nat.eqb_spec b m) as [->|]|]; cbn [andb]; [|exact E..]. unfold grid at 1.
    repeat match goal with |- context [(?x <? ?y)%nat] => destruct (Nat.ltb_spec x y); [lia|] end. reflexivity.
Qed.
End Elev.

(** What the middle control point of the elevated net differs from the one of
    the elevation rule. *)
Lemma center_elevated : forall d g m, shaped 4 d g -> consistent 4 d g -> (2 <= m)%nat -> (d + 1 = 2 * m)%nat ->
  let G := grid d g in
  vsum 4 (fun i => PropsGB2.elevatedPoint 4 d g i ((d + 2) / 2) ((d + 2) / 2 - 1)) *v (/ INR 4) -v (G (m - 1) (m - 1) +v G m (m - 1) +v G (m - 1) m +v G m m)%nat *v (1 / 4) =
  ((G (m - 1) (m - 2) +v G m (m - 2) +v G (m + 1) (m - 1) +v G (m + 1) m +v G m (m + 1) +v G (m - 1) (m + 1) +v G (m - 2) m +v G (m - 2) (m - 1))%nat *v (1 / 8)
   -v (G (m - 1) (m - 1) +v G m (m - 1) +v G (m - 1) m +v G m m)%nat *v (1 / 4)) *v ((INR m - 1) / (2 * INR m)).
Proof.
  intros d g m Sh Co Hm Em G. assert (Q : ((d + 2) / 2 = m)%nat) by (replace (d + 2)%nat with (1 + m * 2)%nat by lia; rewrite Nat.div_add by lia; reflexivity). rewrite Q.
  cbn [vsum]. rewrite !(elevated4 d g Co) by lia. cbn [place4 fst snd]. fold G. unfold elevatedGrid. cbv zeta. rewrite Em.
  replace (2 * m - (m - 1))%nat with (m + 1)%nat by lia. replace (2 * m - m)%nat with m by lia.
  replace (m + 1 - 1)%nat with m by lia. replace (m - 1 - 1)%nat with (m - 2)%nat by lia.
  rewrite mult_INR, plus_INR, minus_INR by lia. change (INR 1) with 1. replace (INR 2) with 2 by (simpl; ring). replace (INR 4) with 4 by (simpl; ring).
  assert (Nm : INR m <> 0) by (apply not_0_INR; lia). apply V3_ext; cbn; field; exact Nm.
Qed.
