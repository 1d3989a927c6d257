(** Degree elevation of generalized Bezier patches. *)
From Verif Require Import Base UtilModel UtilSpec UtilProofs DomainModel ParamModel GBModel GBSpec GBProofs GBEnum.
Open Scope R_scope.

(** ** Bezier curves *)
Lemma bezier_elevate : forall d (P Q : nat -> V3) s,
  (forall k, (k <= d + 1)%nat -> Q k = P (k - 1)%nat *v (INR k / INR (d + 1)) +v P k *v (1 - INR k / INR (d + 1))) ->
  bezier (d + 1) Q s = bezier d P s.
Proof.
  intros d P Q s H. assert (N : INR (d + 1) <> 0) by (apply not_0_INR; lia). unfold bezier.
  rewrite (vsum_ext _ _ (fun k => P (k - 1)%nat *v (INR k / INR (d + 1) * bern (d + 1) k s) +v P k *v ((1 - INR k / INR (d + 1)) * bern (d + 1) k s))).
  2: { intros k Hk. rewrite H by lia. v3ring. }
  rewrite vsum_add. replace (d + 1 + 1)%nat with (S (d + 1)) by lia.
  rewrite (vsum_first (d + 1) (fun k => P (k - 1)%nat *v _)). cbn [vsum].
  rewrite (vsum_ext (d + 1) (fun k => P k *v bern d k s) (fun k => P (S k - 1)%nat *v (INR (S k) / INR (d + 1) * bern (d + 1) (S k) s)
      +v P k *v ((1 - INR k / INR (d + 1)) * bern (d + 1) k s))).
  - rewrite vsum_add. simpl (INR 0). replace (1 - INR (d + 1) / INR (d + 1)) with 0 by (field; exact N). unfold Rdiv. v3ring.
  - intros k Hk. rewrite (bern_elevate d k s) by lia. replace (d + 1)%nat with (S d) in * by lia. replace (k + 1)%nat with (S k) by lia.
    rewrite (minus_INR (S d) k) by lia. replace (S k - 1)%nat with k by lia. v3field; exact N.
Qed.

(** ** Nested loops of writes *)
Lemma foldM_run : forall A (f : gbsurf -> A -> option gbsurf) (ops : A -> list gbop) l g,
  (forall g a, In a l -> f g a = gbrun g (ops a)) -> foldM f g l = gbrun g (concat (map ops l)).
Proof.
  intros A f ops l; induction l as [|a l IH]; intros g H; [reflexivity|]. cbn [foldM map concat]. rewrite H by (left; reflexivity).
  unfold gbrun at 2. rewrite foldM_app. fold (gbrun g (ops a)). destruct (gbrun g (ops a)) as [g1|]; [|reflexivity]. cbn [bind].
  apply IH. intros g2 b I. apply H. right; exact I.
Qed.
Lemma run_app : forall ops1 ops2 g, gbrun g (ops1 ++ ops2) = (g1 <- gbrun g ops1 ;; gbrun g1 ops2).
Proof. intros. apply foldM_app. Qed.
Lemma run_one : forall g i j k p, setControlPoint g i j k p = gbrun g [OSet (i, j, k) p].
Proof. intros. unfold gbrun. cbn [foldM gbstep]. destruct (setControlPoint g i j k p); reflexivity. Qed.
Lemma opsAt_concat : forall A (f : A -> list position) val l, concat (map (fun a => opsAt (f a) val) l) = opsAt (concat (map f l)) val.
Proof. intros A f val l; induction l as [|a l IH]; [reflexivity|]. cbn [map concat]. rewrite IH. unfold opsAt. rewrite map_app. reflexivity. Qed.

Lemma opsAt_app : forall l1 l2 val, opsAt (l1 ++ l2) val = opsAt l1 val ++ opsAt l2 val.
Proof. intros. apply map_app. Qed.
Lemma concat_single : forall A B (f : A -> B) l, concat (map (fun a => [f a]) l) = map f l.
Proof. intros A B f l; induction l as [|a l IH]; [reflexivity|]. simpl. rewrite IH. reflexivity. Qed.

(** Writing a set of positions that covers every control point. *)
Lemma run_cover : forall n d es g (val : position -> V3), shaped n d g -> Forall (inRange n d) es ->
  (forall q, inRange n d q -> exists e, In e es /\ same n d e q) ->
  (forall p q, inRange n d p -> inRange n d q -> same n d p q -> val p = val q) ->
  exists g', gbrun g (opsAt es val) = Some g' /\ shaped n d g' /\ gb_dom g' = gb_dom g /\ gb_sq g' = gb_sq g /\
    forall q, inRange n d q -> getp g' q = Some (val q).
Proof.
  intros n d es g val S Fe Cov V. rewrite Forall_forall in Fe.
  assert (A : forall o, In o (opsAt es val) -> exists e p, o = OSet e p).
  { intros o I. apply in_map_iff in I. destruct I as (e & <- & _). eauto. }
  assert (F : Forall (opOk n d) (opsAt es val)).
  { apply Forall_forall. intros o I. apply in_map_iff in I. destruct I as (e & <- & I). apply Fe; assumption. }
  destruct (run_spec n d _ g S F) as (g' & E & S' & D & _). exists g'. split; [exact E|]. split; [exact S'|]. split; [exact D|].
  split; [apply (run_cen _ g g' A E)|].
  intros q Q. apply (run_value n d (opsAt es val) g g' q (val q) S F Q A E).
  - destruct (Cov q Q) as (e & I & Sm). exists e. split; [|exact Sm]. rewrite <- (V e q (Fe e I) Q Sm).
    apply in_map_iff. exists e. split; [reflexivity|exact I].
  - intros e p I Sm. apply in_map_iff in I. destruct I as (e' & E' & I). injection E' as -> <-. apply V; [apply Fe|exact Q|]; assumption.
Qed.

(** ** The control points as one lattice per side, up to the middle row *)
Definition lattice (g : gbsurf) (i j k : nat) : V3 :=
  let n := gb_n g in let d := gb_deg g in
  if (2 * k + 1 <=? d)%nat then gpv g (i, j, k)
  else if (2 * j <? d)%nat then gpv g (prv n i, d - k, j)%nat
  else if (2 * j =? d)%nat then gb_cen g
  else gpv g (nxt n i, k, d - j)%nat.

(** The tensor product degree elevation rule on that lattice. *)
Definition elevated (g : gbsurf) (q : position) : V3 :=
  let '(i, j, k) := q in
  let eta := INR j / INR (gb_deg g + 1) in let theta := INR k / INR (gb_deg g + 1) in
  lattice g i (j - 1) (k - 1) *v eta *v theta +v lattice g i j (k - 1) *v (1 - eta) *v theta +v
  lattice g i (j - 1) k *v eta *v (1 - theta) +v lattice g i j k *v (1 - eta) *v (1 - theta).

Section Elev.
Variables (n d : nat) (old : gbsurf).
Hypothesis Hn : (1 <= n)%nat.
Hypothesis Hd : (1 <= d)%nat.
Hypothesis Sh : shaped n d old.
Hypothesis Co : consistent n d old.

Lemma lattice_in : forall i j k, (2 * k + 1 <= d)%nat -> lattice old i j k = gpv old (i, j, k).
Proof. intros i j k H. unfold lattice. destruct Sh as (_ & Sd & _). rewrite Sd. destruct (Nat.leb_spec (2 * k + 1) d); [reflexivity|lia]. Qed.

Lemma lattice_mirror : forall i a b, (i < n)%nat -> (2 * a <= d)%nat -> (2 * b <= d)%nat ->
  lattice old i a b = lattice old (prv n i) (d - b) a.
Proof.
  intros i a b Hi Ha Hb. pose proof (prv_lt n i Hn) as Hp. unfold lattice. destruct Sh as (Sn & Sd & _). rewrite Sn, Sd.
  destruct (Nat.leb_spec (2 * b + 1) d) as [B|B]; destruct (Nat.leb_spec (2 * a + 1) d) as [A|A].
  - unfold gpv. rewrite (Co (i, a, b) (prv n i, d - b, a)%nat); [reflexivity| | |]; try (cbn [inRange]; lia). apply mirror_prv; assumption.
  - destruct (Nat.ltb_spec (2 * (d - b)) d); [lia|]. destruct (Nat.eqb_spec (2 * (d - b)) d); [lia|]. rewrite nxt_prv by exact Hi.
    replace (d - (d - b))%nat with b by lia. reflexivity.
  - destruct (Nat.ltb_spec (2 * a) d); [reflexivity|lia].
  - destruct (Nat.ltb_spec (2 * a) d); [lia|]. destruct (Nat.eqb_spec (2 * a) d); [|lia].
    destruct (Nat.ltb_spec (2 * (d - b)) d); [lia|]. destruct (Nat.eqb_spec (2 * (d - b)) d); [reflexivity|lia].
Qed.

Lemma elevated_mirror : forall p q, inRange n (d + 1) p -> inRange n (d + 1) q -> mirror n (d + 1) p q -> elevated old p = elevated old q.
Proof.
  intros [[i j] k] q P Q M. pose proof P as (Pi & Pj & Pk). destruct (mirror_inv n (d + 1) i j k q M Q Pi) as [Hj ->]. clear M Q.
  unfold elevated. pose proof Sh as (Sn & Sd & _). rewrite Sd. assert (N : INR (d + 1) <> 0) by (apply not_0_INR; lia).
  rewrite (minus_INR (d + 1) k) by lia. replace (d + 1 - k - 1)%nat with (d - k)%nat by lia.
  replace ((INR (d + 1) - INR k) / INR (d + 1)) with (1 - INR k / INR (d + 1)) by (field; exact N).
  set (eta := INR j / INR (d + 1)). set (theta := INR k / INR (d + 1)).
  assert (E0 : j = 0%nat -> eta = 0) by (intros ->; unfold eta; simpl (INR 0); unfold Rdiv; ring).
  assert (T0 : k = 0%nat -> theta = 0) by (intros ->; unfold theta; simpl (INR 0); unfold Rdiv; ring).
  rewrite (lattice_mirror i j k Pi) by lia.
  assert (X1 : lattice old i (j - 1) k *v eta *v (1 - theta) = lattice old (prv n i) (d - k) (j - 1) *v eta *v (1 - theta)).
  { rewrite (lattice_mirror i (j - 1) k Pi) by lia. reflexivity. }
  assert (X2 : lattice old i j (k - 1) *v (1 - eta) *v theta = lattice old (prv n i) (d + 1 - k) j *v (1 - eta) *v theta).
  { destruct (Nat.eq_dec k 0) as [K|K]; [rewrite (T0 K); v3ring|]. rewrite (lattice_mirror i j (k - 1) Pi) by lia.
    replace (d - (k - 1))%nat with (d + 1 - k)%nat by lia. reflexivity. }
  assert (X3 : lattice old i (j - 1) (k - 1) *v eta *v theta = lattice old (prv n i) (d + 1 - k) (j - 1) *v eta *v theta).
  { destruct (Nat.eq_dec k 0) as [K|K]; [rewrite (T0 K); v3ring|]. rewrite (lattice_mirror i (j - 1) (k - 1) Pi) by lia.
    replace (d - (k - 1))%nat with (d + 1 - k)%nat by lia. reflexivity. }
  rewrite X1, X2, X3. v3ring.
Qed.

Lemma elevated_same : forall p q, inRange n (d + 1) p -> inRange n (d + 1) q -> same n (d + 1) p q -> elevated old p = elevated old q.
Proof. intros p q P Q [->|[M|M]]; [reflexivity|apply elevated_mirror; assumption|symmetry; apply elevated_mirror; assumption]. Qed.

(** The positions written. *)
Let l := ((d + 1 + 1) / 2)%nat.
Definition elevPositions : list position :=
  map (fun i => (i, 0, 0)%nat) (seq 0 n) ++
  concat (map (fun j => map (fun i => (i, j, 0)%nat) (seq 0 n)) (seq 1 d)) ++
  concat (map (fun j => concat (map (fun k => map (fun i => (i, j, k)) (seq 0 n)) (seq 1 (l - 1)))) (seq 1 ((d + 1) / 2))).

Lemma elev_In : forall i j k, In (i, j, k) elevPositions <->
  ((i < n) /\ ((k = 0 /\ j <= d) \/ (1 <= k /\ 2 * k <= d /\ 1 <= j /\ 2 * j <= d + 1)))%nat.
Proof.
  intros i j k. assert (L : forall k, (1 + (k - 1) < 1 + (l - 1) -> 1 <= k -> 2 * k <= d)%nat).
  { intros k' H H1. assert (H2 : (k' < l)%nat) by lia. apply lay_le in H2. lia. }
  assert (L' : forall k, (1 <= k -> 2 * k <= d -> k < 1 + (l - 1))%nat).
  { intros k' H H1. assert (H2 : (k' < l)%nat) by (apply lay_le; lia). lia. }
  pose proof (Nat.div_mod (d + 1) 2 ltac:(lia)) as DM. pose proof (Nat.mod_upper_bound (d + 1) 2 ltac:(lia)) as DU.
  unfold elevPositions. rewrite !in_app_iff. split.
  - intros [I|[I|I]].
    + apply in_map_iff in I. destruct I as (a & E & I). injection E as -> <- <-. apply in_seq in I. lia.
    + apply in_concat in I. destruct I as (x & X & I). apply in_map_iff in X. destruct X as (b & <- & B). apply in_map_iff in I. destruct I as (a & E & I).
      injection E as -> -> <-. apply in_seq in I, B. lia.
    + apply in_concat in I. destruct I as (x & X & I). apply in_map_iff in X. destruct X as (b & <- & B).
      apply in_concat in I. destruct I as (y & Y & I). apply in_map_iff in Y. destruct Y as (c & <- & C). apply in_map_iff in I. destruct I as (a & E & I).
      injection E as -> -> ->. apply in_seq in I, B, C. pose proof (L k ltac:(lia) ltac:(lia)). lia.
  - intros (Hi & [(-> & Hj)|(K1 & K2 & J1 & J2)]).
    + destruct j as [|j]; [left; apply in_map_iff; exists i; split; [reflexivity|apply in_seq; lia]|]. right; left.
      apply in_concat. eexists; split; [apply in_map_iff; exists (S j); split; [reflexivity|apply in_seq; lia]|].
      apply in_map_iff; exists i; split; [reflexivity|apply in_seq; lia].
    + right; right. apply in_concat. eexists; split; [apply in_map_iff; exists j; split; [reflexivity|apply in_seq; lia]|].
      apply in_concat. eexists; split; [apply in_map_iff; exists k; split; [reflexivity|apply in_seq; pose proof (L' k K1 K2); lia]|].
      apply in_map_iff; exists i; split; [reflexivity|apply in_seq; lia].
Qed.

Lemma elev_range : Forall (inRange n (d + 1)) elevPositions.
Proof. apply Forall_forall. intros [[i j] k] I. apply elev_In in I. cbn [inRange]. lia. Qed.

Lemma elev_cover : forall q, inRange n (d + 1) q -> exists e, In e elevPositions /\ same n (d + 1) e q.
Proof.
  intros [[i j] k] (Hi & Hj & Hk). pose proof (prv_lt n i Hn) as Hp. pose proof (nxt_lt n i Hn) as Hx.
  assert (Mp : (2 * j + 1 <= d + 1)%nat -> same n (d + 1) (prv n i, d + 1 - k, j)%nat (i, j, k)).
  { intros H. right; right. apply mirror_prv; assumption. }
  assert (Mn : same n (d + 1) (nxt n i, k, d + 1 - j)%nat (i, j, k)).
  { right; left. pose proof (mirror_prv n (d + 1) (nxt n i) k (d + 1 - j) Hx Hk) as M. rewrite prv_nxt in M by exact Hi.
    replace (d + 1 - (d + 1 - j))%nat with j in M by lia. exact M. }
  destruct (Nat.eq_dec k 0) as [->|K].
  - destruct (Nat.eq_dec j (d + 1)) as [->|J].
    + exists (nxt n i, 0, d + 1 - (d + 1))%nat. split; [apply elev_In; lia|exact Mn].
    + exists (i, j, 0)%nat. split; [apply elev_In; lia|left; reflexivity].
  - destruct (Nat.eq_dec j 0) as [->|J]; [|destruct (le_lt_dec (2 * j) (d + 1)) as [J2|J2]].
    + exists (prv n i, d + 1 - k, 0)%nat. split; [apply elev_In; lia|apply Mp; lia].
    + exists (i, j, k). split; [apply elev_In; lia|left; reflexivity].
    + destruct (Nat.eq_dec j (d + 1)) as [->|J3].
      * exists (nxt n i, k, d + 1 - (d + 1))%nat. split; [apply elev_In; lia|exact Mn].
      * exists (nxt n i, k, d + 1 - j)%nat. split; [apply elev_In; lia|exact Mn].
Qed.

(** ** The program performs exactly these writes. *)
Lemma read_old : forall i j k, (i < n)%nat -> (j <= d)%nat -> (2 * k + 1 <= d)%nat -> controlPoint old i j k = Some (gpv old (i, j, k)).
Proof. intros i j k Hi Hj Hk. apply (gpv_some n d old (i, j, k) Sh). cbn [inRange]. lia. Qed.

Lemma elevateCell_lattice : forall i j k, (i < n)%nat -> (1 <= j)%nat -> (2 * j <= d + 1)%nat -> (1 <= k)%nat -> (2 * k <= d)%nat ->
  elevateCell old n (d + 1) i j k =
  Some (lattice old i (j - 1) (k - 1), lattice old i j (k - 1), lattice old i (j - 1) k, lattice old i j k).
Proof.
  intros i j k Hi Hj1 Hj2 Hk1 Hk2. unfold elevateCell.
  pose proof (Nat.div_mod (d + 1) 2 ltac:(lia)) as DM. pose proof (Nat.mod_upper_bound (d + 1) 2 ltac:(lia)) as DU.
  rewrite !read_old by lia. cbn [bind]. rewrite !(lattice_in i _ (k - 1)) by lia.
  destruct (Nat.eqb_spec ((d + 1) mod 2) 0) as [E|E]; cbn [orb]; [|destruct (Nat.ltb_spec k ((d + 1) / 2)) as [K|K]].
  - rewrite !read_old by lia. cbn [bind]. rewrite !lattice_in by lia. reflexivity.
  - rewrite !read_old by lia. cbn [bind]. rewrite !lattice_in by lia. reflexivity.
  - assert (2 * k = d)%nat by lia. fold (prv n i). pose proof (prv_lt n i Hn) as Hp.
    replace (d + 1 - k - 1)%nat with (d - k)%nat by lia. rewrite read_old by lia. cbn [bind].
    assert (G : forall a, (2 * a <= d)%nat -> lattice old i a k = if (2 * a =? d)%nat then gb_cen old else gpv old (prv n i, d - k, a)%nat).
    { intros a Ha. unfold lattice. destruct Sh as (Sn & Sd & _). rewrite Sn, Sd. destruct (Nat.leb_spec (2 * k + 1) d); [lia|].
      destruct (Nat.ltb_spec (2 * a) d); destruct (Nat.eqb_spec (2 * a) d); try lia; reflexivity. }
    rewrite !G by lia. destruct (Nat.eqb_spec (2 * (j - 1)) d); [lia|].
    destruct (Nat.eqb_spec j ((d + 1) / 2)) as [J|J]; destruct (Nat.eqb_spec (2 * j) d) as [J'|J']; try lia; [reflexivity|].
    rewrite read_old by lia. reflexivity.
Qed.

Lemma elevate_run : forall g c0 d0 l0 v0, initNetwork v0 (gbNew d0 l0 c0) n (d + 1) = g ->
  gb_dom old = n ->
  elevateDegree v0 c0 d0 l0 old =
  (r <- gbrun g (opsAt elevPositions (elevated old)) ;;
   s <- osum n (fun i => controlPoint r i l (l - 1)) ;;
   c <- vdiv s (INR n) ;; gbSetupLoop (setCentral r c)).
Proof.
  intros g c0 d0 l0 v0 Hg Hdom. unfold elevateDegree. rewrite Hdom. pose proof Sh as (Sn & Sd & _). rewrite Sd. rewrite Hg.
  assert (Lg : gb_lay g = l).
  { destruct (init_new v0 (gbNew d0 l0 c0) n (d + 1)) as ((_ & _ & L & _) & _); [left; cbn; lia|]. rewrite Hg in L. exact L. }
  rewrite Lg. replace (d + 1 - 1)%nat with d by lia. assert (N : INR (d + 1) <> 0) by (apply not_0_INR; lia).
  assert (R1 : forall g, foldM (fun g i => p <- controlPoint old i 0 0 ;; setControlPoint g i 0 0 p) g (seq 0 n) =
    gbrun g (opsAt (map (fun i => (i, 0, 0)%nat) (seq 0 n)) (elevated old))).
  { intros g1. rewrite (foldM_run nat _ (fun i => opsAt [(i, 0, 0)%nat] (elevated old))).
    - rewrite opsAt_concat, concat_single. reflexivity.
    - intros g2 i I. apply in_seq in I. rewrite read_old by lia. cbn [bind]. rewrite run_one. unfold opsAt. cbn [map]. do 3 f_equal.
      unfold elevated. rewrite Sd. rewrite !lattice_in by lia. simpl (INR 0). unfold Rdiv. v3ring. }
  assert (R2 : forall g, foldM (fun g j => foldM (fun g i =>
      let eta := INR j / INR (d + 1) in
      a <- controlPoint old i (j - 1) 0 ;; b <- controlPoint old i j 0 ;;
      setControlPoint g i j 0 (a *v eta +v b *v (1 - eta))) g (seq 0 n)) g (seq 1 d) =
    gbrun g (opsAt (concat (map (fun j => map (fun i => (i, j, 0)%nat) (seq 0 n)) (seq 1 d))) (elevated old))).
  { intros g1. rewrite <- opsAt_concat. apply foldM_run. intros g2 j J. apply in_seq in J.
    rewrite (foldM_run nat _ (fun i => opsAt [(i, j, 0)%nat] (elevated old))).
    - rewrite opsAt_concat, concat_single. reflexivity.
    - intros g3 i I. apply in_seq in I. cbv zeta. rewrite !read_old by lia. cbn [bind]. rewrite run_one. unfold opsAt. cbn [map]. do 3 f_equal.
      unfold elevated. rewrite Sd. rewrite !lattice_in by lia. simpl (INR 0). unfold Rdiv. v3ring. }
  assert (R3 : forall g, foldM (fun g j => foldM (fun g k => foldM (fun g i =>
      let eta := INR j / INR (d + 1) in let theta := INR k / INR (d + 1) in
      ' (p1, p2, p3, p4) <- elevateCell old n (d + 1) i j k ;;
      setControlPoint g i j k (p1 *v eta *v theta +v p2 *v (1 - eta) *v theta +v
                               p3 *v eta *v (1 - theta) +v p4 *v (1 - eta) *v (1 - theta)))
      g (seq 0 n)) g (seq 1 (l - 1))) g (seq 1 ((d + 1) / 2)) =
    gbrun g (opsAt (concat (map (fun j => concat (map (fun k => map (fun i => (i, j, k)) (seq 0 n)) (seq 1 (l - 1)))) (seq 1 ((d + 1) / 2)))) (elevated old))).
  { pose proof (Nat.div_mod (d + 1) 2 ltac:(lia)) as DM. pose proof (Nat.mod_upper_bound (d + 1) 2 ltac:(lia)) as DU.
    intros g1. rewrite <- opsAt_concat. apply foldM_run. intros g2 j J. apply in_seq in J.
    rewrite <- opsAt_concat. apply foldM_run. intros g3 k K. apply in_seq in K.
    assert (K2 : (2 * k + 1 <= d + 1)%nat) by (apply lay_le; fold l; lia).
    rewrite (foldM_run nat _ (fun i => opsAt [(i, j, k)%nat] (elevated old))).
    - rewrite opsAt_concat, concat_single. reflexivity.
    - intros g4 i I. apply in_seq in I. cbv zeta. rewrite elevateCell_lattice by lia. cbn [bind]. rewrite run_one. unfold opsAt. cbn [map]. do 3 f_equal.
      unfold elevated. rewrite Sd. reflexivity. }
  rewrite R1. unfold elevPositions. rewrite !opsAt_app, !run_app.
  destruct (gbrun g _) as [r1|]; [|reflexivity]. cbn [bind]. rewrite R2, run_app.
  destruct (gbrun r1 _) as [r2|]; [|reflexivity]. cbn [bind]. rewrite R3. reflexivity.
Qed.

Lemma elevate_all : forall v0 c0 d0 l0, gb_dom old = n ->
  exists g', elevateDegree v0 c0 d0 l0 old = Some g' /\ shaped n (d + 1) g' /\ gb_dom g' = n /\ gb_sq g' = false /\
    (forall q, inRange n (d + 1) q -> getp g' q = Some (elevated old q)) /\
    gb_cen g' = vsum n (fun i => gpv g' (i, l, l - 1)%nat) *v (/ INR n).
Proof.
  intros v0 c0 d0 l0 Hdom. rewrite (elevate_run _ c0 d0 l0 v0 eq_refl Hdom).
  destruct (init_new v0 (gbNew d0 l0 c0) n (d + 1)) as (S0 & _); [left; cbn; lia|].
  assert (Q0 : gb_sq (initNetwork v0 (gbNew d0 l0 c0) n (d + 1)) = false) by (unfold initNetwork; destruct (_ && _)%bool; reflexivity).
  set (g := initNetwork v0 (gbNew d0 l0 c0) n (d + 1)) in *.
  destruct (run_cover n (d + 1) elevPositions g (elevated old) S0 elev_range elev_cover elevated_same) as (r & E & S1 & D1 & Q1 & V1).
  rewrite E. cbn [bind].
  assert (L1 : (1 <= l)%nat) by (apply lay_le; lia).
  assert (Ll : (2 * (l - 1) + 1 <= d + 1)%nat) by (apply lay_le; unfold l in *; lia).
  rewrite (osum_total n _ (fun i => gpv r (i, l, l - 1)%nat)).
  2: { intros i Hi. apply (gpv_some n (d + 1) r (i, l, l - 1)%nat S1). cbn [inRange]. lia. }
  cbn [bind]. rewrite vdiv_some by (apply not_0_INR; lia). cbn [bind].
  set (c := vsum n _ *v / INR n). unfold gbSetupLoop.
  destruct (boundary_some n (d + 1) (setCentral r c) ltac:(lia) S1) as [b B]. rewrite B. cbn [bind].
  eexists; split; [reflexivity|]. pose proof S1 as (Sn2 & Sd2 & Sl2 & Sn2' & Sb2).
  split; [repeat split; try assumption; apply Sb2; assumption|]. split; [exact Sn2|]. split; [cbn; congruence|].
  split; [intros [[i j] k] Q; exact (V1 (i, j, k) Q)|]. reflexivity.
Qed.

End Elev.

Lemma elevated_row0 : forall n d old i j, (1 <= d)%nat -> shaped n d old ->
  elevated old (i, j, 0)%nat = gpv old (i, j - 1, 0)%nat *v (INR j / INR (d + 1)) +v gpv old (i, j, 0)%nat *v (1 - INR j / INR (d + 1)).
Proof.
  intros n d old i j Hd Sh. unfold elevated. pose proof Sh as (_ & Sd & _). rewrite Sd. unfold lattice. rewrite Sd. destruct (Nat.leb_spec (2 * 0 + 1) d); [|lia].
  change (0 - 1)%nat with 0%nat. destruct (Nat.leb_spec (2 * 0 + 1) d); [|lia]. simpl (INR 0). unfold Rdiv. v3ring.
Qed.
