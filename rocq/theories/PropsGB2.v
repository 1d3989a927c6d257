(** Properties of control point files and degree elevation: C49 - C52. *)
From Verif Require Import Base UtilModel UtilSpec UtilProofs DomainModel ParamModel GBModel GBSpec GBProofs GBEnum GBElev.
Open Scope R_scope.

(** ** C49: the enumeration *)
Theorem C49_count : forall n d, length (enumerate n d) = (n * (1 + d / 2) * ((d + 1) / 2))%nat.
Proof. intros n d. rewrite enumerate_length. unfold gbCount. lia. Qed.
Print Assumptions C49_count.

(** Every enumerated position exists, and every address denotes the same
    control point as exactly one of them. *)
Theorem C49_exactly_once : forall n d, (1 <= n)%nat ->
  (forall q, In q (enumerate n d) -> inRange n d q) /\
  forall q, inRange n d q -> exists a p, nth_error (enumerate n d) a = Some p /\ same n d p q /\
    forall a' p', nth_error (enumerate n d) a' = Some p' -> same n d p' q -> a' = a.
Proof. intros n d Hn. split; [intros q; apply enum_range; exact Hn|intros q; apply enum_index; exact Hn]. Qed.
Print Assumptions C49_exactly_once.

Example C49_example : enumerate 3 2 = [(0, 0, 0); (0, 1, 0); (1, 0, 0); (1, 1, 0); (2, 0, 0); (2, 1, 0)]%nat /\
  length (enumerate 5 4) = 30%nat /\ In (3, 2, 1)%nat (enumerate 5 4) /\ inRange 5 4 (3, 4, 1)%nat /\ same 5 4 (4, 1, 0)%nat (3, 4, 1)%nat.
Proof.
  split; [reflexivity|]. split; [reflexivity|]. split; [apply enum_In; lia|]. split; [cbn; lia|]. right; left.
  apply (mirror_intro 5 4 3 1 0). lia.
Qed.

(** ** C50: saving and loading

    [fmt] is the effect of printing and parsing one number. *)
Definition rounded (fmt : R -> R) (p : V3) : V3 := mkV3 (fmt (vx p)) (fmt (vy p)) (fmt (vz p)).

Theorem C50_round_trip : forall n d fmt v0 g g0, (1 <= n)%nat -> (1 <= d)%nat -> shaped n d g -> consistent n d g -> gb_dom g = n ->
  (gb_n g0 = n -> gb_deg g0 = d -> shaped n d g0) ->
  exists f g', saveBezier fmt g = Some f /\ loadBezier v0 f g0 = Some g' /\ shaped n d g' /\ gb_dom g' = n /\
    gb_cen g' = rounded fmt (gb_cen g) /\
    forall q, inRange n d q -> getp g' q = option_map (rounded fmt) (getp g q).
Proof.
  intros n d fmt v0 g g0 Hn Hd S C Hdom H0. destruct (save_load n d fmt v0 g g0 Hn Hd S C Hdom H0) as (f & g' & A & B & S' & D' & Ce & _ & V).
  exists f, g'. repeat split; try assumption; apply S' || apply V; assumption.
Qed.
Print Assumptions C50_round_trip.

(** The exact round trip. *)
Corollary C50_lossless : forall n d v0 g g0, (1 <= n)%nat -> (1 <= d)%nat -> shaped n d g -> consistent n d g -> gb_dom g = n ->
  (gb_n g0 = n -> gb_deg g0 = d -> shaped n d g0) ->
  exists f g', saveBezier (fun x => x) g = Some f /\ loadBezier v0 f g0 = Some g' /\ gb_cen g' = gb_cen g /\
    forall q, inRange n d q -> getp g' q = getp g q.
Proof.
  intros n d v0 g g0 Hn Hd S C Hdom H0. destruct (C50_round_trip n d (fun x => x) v0 g g0 Hn Hd S C Hdom H0) as (f & g' & A & B & _ & _ & Ce & V).
  exists f, g'. split; [exact A|]. split; [exact B|]. split; [rewrite Ce; unfold rounded; destruct (gb_cen g); reflexivity|].
  intros q Q. rewrite (V q Q). destruct (getp g q) as [[x y z]|]; reflexivity.
Qed.
Print Assumptions C50_lossless.

(** The number of sides is taken from the domain, which only setupLoop sets: a
    patch that was never set up is saved as one without sides. *)
Theorem C50_without_setup : forall fmt g, gb_dom g = 0%nat ->
  saveBezier fmt g = Some (TNat 0 :: TNat (gb_deg g) :: fmt3 fmt (gb_cen g)).
Proof. intros fmt g H. unfold saveBezier. rewrite H. unfold enumerate, gbCount. cbn. reflexivity. Qed.
Print Assumptions C50_without_setup.

(** The weight setting is not part of the file. *)
Theorem C50_squared : forall n d fmt v0 g g0, (1 <= n)%nat -> (1 <= d)%nat -> shaped n d g -> consistent n d g -> gb_dom g = n ->
  (gb_n g0 = n -> gb_deg g0 = d -> shaped n d g0) ->
  exists f g', saveBezier fmt g = Some f /\ loadBezier v0 f g0 = Some g' /\ gb_sq g' = gb_sq g0.
Proof.
  intros n d fmt v0 g g0 Hn Hd S C Hdom H0. destruct (save_load n d fmt v0 g g0 Hn Hd S C Hdom H0) as (f & g' & A & B & _ & _ & _ & Q & _).
  exists f, g'. auto.
Qed.
Print Assumptions C50_squared.

Example C50_example : exists g1 g2, setControlPoint (setCentral (initNetwork vzero (gbNew 0 0 vzero) 3 2) (mkV3 7 8 9)) 1 0 0 (mkV3 1 2 3) = Some g1 /\
  gbSetupLoop g1 = Some g2 /\ shaped 3 2 g2 /\ consistent 3 2 g2 /\ gb_dom g2 = 3%nat /\
  saveBezier (fun x => x) g2 = Some [TNat 3; TNat 2; TReal 7; TReal 8; TReal 9; TReal 0; TReal 0; TReal 0; TReal 0; TReal 0; TReal 0;
    TReal 1; TReal 2; TReal 3; TReal 0; TReal 0; TReal 0; TReal 0; TReal 0; TReal 0; TReal 0; TReal 0; TReal 0].
Proof.
  destruct (init_new vzero (gbNew 0 0 vzero) 3 2) as [S V]; [left; cbn; lia|].
  set (g0 := setCentral (initNetwork vzero (gbNew 0 0 vzero) 3 2) (mkV3 7 8 9)).
  assert (S0 : shaped 3 2 g0) by exact S.
  assert (C0 : consistent 3 2 g0). { assert (V0 : forall q, inRange 3 2 q -> getp g0 q = Some vzero) by exact V. intros p q P Q _. rewrite !V0 by assumption. reflexivity. }
  destruct (set_spec 3 2 g0 1 0 0 (mkV3 1 2 3) S0 ltac:(cbn; lia)) as (g1 & E1 & S1 & _).
  pose proof (set_consistent 3 2 g0 1 0 0 (mkV3 1 2 3) g1 S0 ltac:(cbn; lia) C0 E1) as C1.
  exists g1. injection E1 as <-. eexists. split; [reflexivity|]. split; [reflexivity|]. split; [exact S1|]. split; [exact C1|]. split; reflexivity.
Qed.

(** ** C51: the exported control net *)

(** The points of the cells of the net, side by side; the middle cells contain
    the central control point. *)
Definition netCells (n d : nat) (g : gbsurf) : list (list (option V3)) :=
  let l := ((d + 1) / 2)%nat in
  let c := controlPoint g in
  concat (map (fun i => concat (map (fun j => map (fun k =>
    [c i j k; c i (j + 1) k; c i (j + 1) (k + 1); c i j (k + 1)]%nat) (seq 0 (l - 1))) (seq 0 (d / 2 + 1)))) (seq 0 n)) ++
  map (fun i => [c i (l - 1) (l - 1); c i l (l - 1); Some (gb_cen g)]%nat ++
                (if (d mod 2 =? 0)%nat then [c ((i + n - 1) mod n) l (l - 1)]%nat else [])) (seq 0 n).

(** Looking up the (1-based) vertex numbers of every face gives the cells. *)
Theorem C51_faces : forall n d fmt g, (1 <= n)%nat -> (1 <= d)%nat -> shaped n d g -> consistent n d g -> gb_dom g = n ->
  exists vs fs, writeControlPoints fmt g = Some (vs, fs) /\
    length vs = gbCount n d /\ nth_error vs 0 = Some (rounded fmt (gb_cen g)) /\
    (forall f a, In f fs -> In a f -> (1 <= a <= length vs)%nat) /\
    map (map (fun a => nth_error vs (a - 1))) fs = map (map (option_map (rounded fmt))) (netCells n d g) /\
    forall c o, In c (netCells n d g) -> In o c -> o <> None.
Proof.
  intros n d fmt g Hn Hd S C Hdom. unfold writeControlPoints. pose proof S as (Sn & Sd & Sl & _). rewrite Hdom, Sd, Sl.
  set (l := ((d + 1) / 2)%nat). assert (Hl : (1 <= l)%nat) by (apply lay_le; lia).
  assert (Ll : (2 * (l - 1) + 1 <= d)%nat) by (apply lay_le; unfold l in *; lia).
  assert (Hs := half_sum d). fold l in Hs.
  destruct (Nat.eqb_spec l 0); [lia|]. rewrite (points_total n d g Hn S). cbn [bind].
  eexists _, _. split; [reflexivity|].
  change (map (fun p => mkV3 (fmt (vx p)) (fmt (vy p)) (fmt (vz p))) (gb_cen g :: map (gpv g) (enumerate n d)))
    with (map (fmtV fmt) (gb_cen g :: map (gpv g) (enumerate n d))).
  set (vs := map (fmtV fmt) (gb_cen g :: map (gpv g) (enumerate n d))).
  assert (Lv : length vs = gbCount n d).
  { unfold vs. rewrite map_length. cbn [length]. rewrite map_length, enumerate_length. unfold gbCount. lia. }
  split; [exact Lv|]. split; [reflexivity|].
  assert (F : forall i j k, inRange n d (i, j, k) -> (1 <= findControlPoint n d i j k <= length vs)%nat /\
    nth_error vs (findControlPoint n d i j k - 1) = option_map (rounded fmt) (controlPoint g i j k)).
  { intros i j k R. exact (vertex_found n d fmt g i j k Hn S C R). }
  assert (In1 : forall i j k, (i < n)%nat -> (j < d / 2 + 1)%nat -> (k < l - 1)%nat ->
    inRange n d (i, j, k) /\ inRange n d (i, j + 1, k)%nat /\ inRange n d (i, j + 1, k + 1)%nat /\ inRange n d (i, j, k + 1)%nat).
  { intros i j k Hi Hj Hk. assert (X : (2 * (k + 1) + 1 <= d)%nat) by (apply lay_le; fold l; lia). cbn [inRange]. lia. }
  assert (In2 : forall i, (i < n)%nat -> inRange n d (i, l - 1, l - 1)%nat /\ inRange n d (i, l, l - 1)%nat /\ inRange n d (prv n i, l, l - 1)%nat).
  { intros i Hi. pose proof (prv_lt n i Hn). cbn [inRange]. lia. }
  split; [|split].
  - intros f a If Ia. unfold objFaces in If. fold l in If. apply in_app_or in If. destruct If as [If|If].
    + apply in_concat in If. destruct If as (x & X & If). apply in_map_iff in X. destruct X as (i & <- & Hi). apply in_seq in Hi.
      apply in_concat in If. destruct If as (y & Y & If). apply in_map_iff in Y. destruct Y as (j & <- & Hj). apply in_seq in Hj.
      apply in_map_iff in If. destruct If as (k & <- & Hk). apply in_seq in Hk.
      destruct (In1 i j k ltac:(lia) ltac:(lia) ltac:(lia)) as (R1 & R2 & R3 & R4).
      destruct Ia as [<-|[<-|[<-|[<-|[]]]]]; apply F; assumption.
    + destruct (d mod 2 =? 0)%nat; apply in_map_iff in If; destruct If as (i & <- & Hi); apply in_seq in Hi;
      destruct (In2 i ltac:(lia)) as (R1 & R2 & R3).
      * destruct Ia as [<-|[<-|[<-|[<-|[]]]]]; try (apply F; assumption). rewrite Lv. unfold gbCount. lia.
      * destruct Ia as [<-|[<-|[<-|[]]]]; try (apply F; assumption). rewrite Lv. unfold gbCount. lia.
  - unfold objFaces, netCells. fold l. rewrite !map_app. f_equal.
    + rewrite !concat_map, !map_map. f_equal. apply map_ext_in. intros i Hi. apply in_seq in Hi.
      rewrite !concat_map, !map_map. f_equal. apply map_ext_in. intros j Hj. apply in_seq in Hj.
      rewrite !map_map. apply map_ext_in. intros k Hk. apply in_seq in Hk.
      destruct (In1 i j k ltac:(lia) ltac:(lia) ltac:(lia)) as (R1 & R2 & R3 & R4). cbn [map].
      rewrite (proj2 (F _ _ _ R1)), (proj2 (F _ _ _ R2)), (proj2 (F _ _ _ R3)), (proj2 (F _ _ _ R4)). reflexivity.
    + destruct (d mod 2 =? 0)%nat; rewrite !map_map; apply map_ext_in; intros i Hi; apply in_seq in Hi;
      destruct (In2 i ltac:(lia)) as (R1 & R2 & R3); cbn [map app]; fold (prv n i);
      rewrite (proj2 (F _ _ _ R1)), (proj2 (F _ _ _ R2)); [rewrite (proj2 (F _ _ _ R3))|]; reflexivity.
  - assert (Ns : forall i j k, inRange n d (i, j, k) -> controlPoint g i j k <> None).
    { intros i j k R. destruct (getp_some n d g _ S R) as [p E]. cbn [getp] in E. congruence. }
    intros c o Ic Io. unfold netCells in Ic. fold l in Ic. apply in_app_or in Ic. destruct Ic as [If|If].
    + apply in_concat in If. destruct If as (x & X & If). apply in_map_iff in X. destruct X as (i & <- & Hi). apply in_seq in Hi.
      apply in_concat in If. destruct If as (y & Y & If). apply in_map_iff in Y. destruct Y as (j & <- & Hj). apply in_seq in Hj.
      apply in_map_iff in If. destruct If as (k & <- & Hk). apply in_seq in Hk.
      destruct (In1 i j k ltac:(lia) ltac:(lia) ltac:(lia)) as (R1 & R2 & R3 & R4).
      destruct Io as [<-|[<-|[<-|[<-|[]]]]]; apply Ns; assumption.
    + apply in_map_iff in If; destruct If as (i & <- & Hi); apply in_seq in Hi. fold (prv n i) in Io.
      destruct (In2 i ltac:(lia)) as (R1 & R2 & R3). apply in_app_or in Io. destruct Io as [[<-|[<-|[<-|[]]]]|Io]; try (apply Ns; assumption); [discriminate|].
      destruct (d mod 2 =? 0)%nat; [destruct Io as [<-|[]]; apply Ns; assumption|destruct Io].
Qed.
Print Assumptions C51_faces.

Example C51_example : objFaces 3 2 1 = [[2; 3; 1; 7]; [4; 5; 1; 3]; [6; 7; 1; 5]]%nat /\
  objFaces 3 3 2 = [[2; 3; 11; 10]; [3; 4; 12; 11]; [5; 6; 12; 4]; [6; 7; 13; 12]; [8; 9; 13; 7]; [9; 10; 11; 13]; [11; 12; 1]; [12; 13; 1]; [13; 11; 1]]%nat.
Proof. split; reflexivity. Qed.

(** ** C52: degree elevation *)

(** The d+1 by d+1 lattice seen from side i: rows beyond the stored layers are
    those of the adjacent sides, the middle of an even degree net is the
    central control point. *)
Definition latticePoint (n d : nat) (g : gbsurf) (i j k : nat) : V3 :=
  let c i j k := match controlPoint g i j k with Some p => p | None => vzero end in
  if (2 * k + 1 <=? d)%nat then c i j k
  else if (2 * j <? d)%nat then c ((i + n - 1) mod n)%nat (d - k)%nat j
  else if (2 * j =? d)%nat then gb_cen g
  else c ((i + 1) mod n)%nat k (d - j)%nat.

Definition elevatedPoint (n d : nat) (g : gbsurf) (i j k : nat) : V3 :=
  let q (j k : nat) := latticePoint n d g i j k in
  let eta := INR j / INR (d + 1) in let theta := INR k / INR (d + 1) in
  q (j - 1)%nat (k - 1)%nat *v (eta * theta) +v q j (k - 1)%nat *v ((1 - eta) * theta) +v
  q (j - 1)%nat k *v (eta * (1 - theta)) +v q j k *v ((1 - eta) * (1 - theta)).

Lemma elevated_point : forall n d g i j k, shaped n d g -> elevatedPoint n d g i j k = elevated g (i, j, k).
Proof. intros n d g i j k (<- & <- & _). unfold elevatedPoint, elevated. change (latticePoint (gb_n g) (gb_deg g) g) with (lattice g). v3ring. Qed.

(** Every control point of the result is given by the tensor product rule, at
    all its addresses; the central one is the average of the innermost ones. *)
Theorem C52_values : forall n d g v0 c0 d0 l0, (1 <= n)%nat -> (1 <= d)%nat -> shaped n d g -> consistent n d g -> gb_dom g = n ->
  exists g', elevateDegree v0 c0 d0 l0 g = Some g' /\ shaped n (d + 1) g' /\ gb_dom g' = n /\
    (forall i j k, inRange n (d + 1) (i, j, k) -> controlPoint g' i j k = Some (elevatedPoint n d g i j k)) /\
    consistent n (d + 1) g' /\
    gb_cen g' = vsum n (fun i => elevatedPoint n d g i ((d + 2) / 2)%nat ((d + 2) / 2 - 1)%nat) *v (/ INR n).
Proof.
  intros n d g v0 c0 d0 l0 Hn Hd S C Hdom.
  destruct (elevate_all n d g Hn Hd S C v0 c0 d0 l0 Hdom) as (g' & E & S' & D' & _ & V & Ce).
  exists g'. split; [exact E|]. split; [exact S'|]. split; [exact D'|]. split; [|split].
  - intros i j k Q. rewrite (elevated_point n d g i j k S). exact (V (i, j, k) Q).
  - intros p q P Q M. rewrite (V p P), (V q Q). f_equal. exact (elevated_mirror n d g Hn Hd S C p q P Q M).
  - rewrite Ce. f_equal. replace (d + 1 + 1)%nat with (d + 2)%nat by lia. apply vsum_ext. intros i Hi. rewrite (elevated_point n d g _ _ _ S).
    assert (L1 : (1 <= (d + 2) / 2)%nat) by (replace (d + 2)%nat with (d + 1 + 1)%nat by lia; apply lay_le; lia).
    assert (Ll : (2 * ((d + 2) / 2 - 1) + 1 <= d + 1)%nat) by (apply lay_le; replace (d + 1 + 1)%nat with (d + 2)%nat by lia; lia).
    assert (Q : inRange n (d + 1) (i, (d + 2) / 2, (d + 2) / 2 - 1)%nat) by (cbn [inRange]; lia).
    specialize (V _ Q). unfold gpv. cbn [getp] in *. rewrite V. reflexivity.
Qed.
Print Assumptions C52_values.

Theorem C52_boundary : forall n d g v0 c0 d0 l0 g' i s, (1 <= n)%nat -> (1 <= d)%nat -> shaped n d g -> consistent n d g -> gb_dom g = n ->
  elevateDegree v0 c0 d0 l0 g = Some g' -> (i < n)%nat -> boundaryCurve g' (d + 1) i s = boundaryCurve g d i s.
Proof.
  intros n d g v0 c0 d0 l0 g' i s Hn Hd S C Hdom E Hi.
  destruct (elevate_all n d g Hn Hd S C v0 c0 d0 l0 Hdom) as (g1 & E1 & _ & _ & _ & V & _). rewrite E in E1. injection E1 as <-.
  unfold boundaryCurve. apply bezier_elevate. intros k Hk.
  assert (Q : inRange n (d + 1) (i, k, 0)%nat) by (cbn [inRange]; lia). specialize (V _ Q). cbn [getp] in V. rewrite V.
  rewrite (elevated_row0 n d g i k Hd S). reflexivity.
Qed.
Print Assumptions C52_boundary.

(** The weight setting of the original is not kept. *)
Theorem C52_squared : forall n d g v0 c0 d0 l0 g', (1 <= n)%nat -> (1 <= d)%nat -> shaped n d g -> consistent n d g -> gb_dom g = n ->
  elevateDegree v0 c0 d0 l0 g = Some g' -> gb_sq g' = false.
Proof.
  intros n d g v0 c0 d0 l0 g' Hn Hd S C Hdom E.
  destruct (elevate_all n d g Hn Hd S C v0 c0 d0 l0 Hdom) as (g1 & E1 & _ & _ & Q & _). rewrite E in E1. injection E1 as <-. exact Q.
Qed.
Print Assumptions C52_squared.

(** A patch that was never set up has no sides to elevate: the average of the
    central control points divides by zero. *)
Theorem C52_without_setup : forall g v0 c0 d0 l0, gb_dom g = 0%nat -> elevateDegree v0 c0 d0 l0 g = None.
Proof.
  intros g v0 c0 d0 l0 H. unfold elevateDegree. rewrite H. cbn [seq foldM bind].
  assert (F : forall A (f : gbsurf -> A -> option gbsurf), (forall g a, f g a = Some g) -> forall l g, foldM f g l = Some g).
  { intros A f Hf l. induction l; intros; cbn; [reflexivity|]. rewrite Hf. cbn. apply IHl. }
  rewrite F by reflexivity. cbn [bind]. rewrite F by (intros; apply F; reflexivity). cbn [bind osum].
  unfold vdiv. cbn [INR]. destruct (Req_EM_T 0 0); [reflexivity|congruence].
Qed.
Print Assumptions C52_without_setup.

(** A bilinear patch over a triangle. *)
Example C52_example : exists g1 g2 g', setControlPoint (setCentral (initNetwork vzero (gbNew 0 0 vzero) 3 1) (mkV3 7 8 9)) 1 0 0 (mkV3 2 4 6) = Some g1 /\
  gbSetupLoop g1 = Some g2 /\ shaped 3 1 g2 /\ consistent 3 1 g2 /\
  elevateDegree vzero vzero 0 0 g2 = Some g' /\ controlPoint g' 0 1 0 = Some (mkV3 1 2 3) /\ controlPoint g' 0 2 0 = Some (mkV3 2 4 6).
Proof.
  destruct (init_new vzero (gbNew 0 0 vzero) 3 1) as [S V]; [left; cbn; lia|].
  set (g0 := setCentral (initNetwork vzero (gbNew 0 0 vzero) 3 1) (mkV3 7 8 9)).
  assert (S0 : shaped 3 1 g0) by exact S.
  assert (C0 : consistent 3 1 g0). { assert (V0 : forall q, inRange 3 1 q -> getp g0 q = Some vzero) by exact V. intros p q P Q _. rewrite !V0 by assumption. reflexivity. }
  destruct (set_spec 3 1 g0 1 0 0 (mkV3 2 4 6) S0 ltac:(cbn; lia)) as (g1 & E1 & S1 & _).
  pose proof (set_consistent 3 1 g0 1 0 0 (mkV3 2 4 6) g1 S0 ltac:(cbn; lia) C0 E1) as C1.
  exists g1. injection E1 as <-. eexists.
  match goal with |- exists g', _ = Some ?x /\ gbSetupLoop ?x = Some _ /\ _ => set (g1 := x) in * end.
  destruct (C52_values 3 1 (mkGB 3 1 1 (gb_cen g1) (gb_nets g1) false 3) vzero vzero 0 0 ltac:(lia) ltac:(lia) S1 C1 eq_refl) as (g' & E & _ & _ & V' & _).
  exists g'. split; [reflexivity|]. split; [reflexivity|]. split; [exact S1|]. split; [exact C1|]. split; [exact E|].
  split; (rewrite V' by (cbn; lia); f_equal; unfold elevatedPoint, latticePoint; cbn; v3field).
Qed.
