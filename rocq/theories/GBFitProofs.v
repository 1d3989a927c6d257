(** The equations of fitWithOriginal. *)
From Verif Require Import Base UtilModel UtilSpec UtilProofs GBModel GBSpec GBProofs GBEnum GBEval GBFitModel PropsGB.
From Coq Require Import Permutation.
Open Scope R_scope.

(** ** Sums over lists *)
Fixpoint lvsum {A : Type} (F : A -> V3) (l : list A) : V3 := match l with [] => vzero | a :: l => F a +v lvsum F l end.
Fixpoint lrsum {A : Type} (F : A -> R) (l : list A) : R := match l with [] => 0 | a :: l => F a + lrsum F l end.

Lemma lvsum_app : forall A (F : A -> V3) l m, lvsum F (l ++ m) = lvsum F l +v lvsum F m.
Proof. intros A F l m; induction l as [|a l IH]; simpl; [v3ring|rewrite IH; v3ring]. Qed.
Lemma lrsum_app : forall A (F : A -> R) l m, lrsum F (l ++ m) = lrsum F l + lrsum F m.
Proof. intros A F l m; induction l as [|a l IH]; simpl; [ring|rewrite IH; ring]. Qed.
Lemma lvsum_ext : forall A (F G : A -> V3) l, (forall a, In a l -> F a = G a) -> lvsum F l = lvsum G l.
Proof. intros A F G l H; induction l as [|a l IH]; simpl; [reflexivity|]. rewrite H, IH by (try (left; reflexivity); intros; apply H; right; assumption). reflexivity. Qed.
Lemma lrsum_ext : forall A (F G : A -> R) l, (forall a, In a l -> F a = G a) -> lrsum F l = lrsum G l.
Proof. intros A F G l H; induction l as [|a l IH]; simpl; [reflexivity|]. rewrite H, IH by (try (left; reflexivity); intros; apply H; right; assumption). reflexivity. Qed.
Lemma lvsum_map : forall A B (F : B -> V3) (g : A -> B) l, lvsum F (map g l) = lvsum (fun a => F (g a)) l.
Proof. intros A B F g l; induction l as [|a l IH]; simpl; [reflexivity|rewrite IH; reflexivity]. Qed.
Lemma lrsum_map : forall A B (F : B -> R) (g : A -> B) l, lrsum F (map g l) = lrsum (fun a => F (g a)) l.
Proof. intros A B F g l; induction l as [|a l IH]; simpl; [reflexivity|rewrite IH; reflexivity]. Qed.
Lemma lvsum_concat : forall A B (F : B -> V3) (g : A -> list B) l, lvsum F (concat (map g l)) = lvsum (fun a => lvsum F (g a)) l.
Proof. intros A B F g l; induction l as [|a l IH]; simpl; [reflexivity|rewrite lvsum_app, IH; reflexivity]. Qed.
Lemma lrsum_concat : forall A B (F : B -> R) (g : A -> list B) l, lrsum F (concat (map g l)) = lrsum (fun a => lrsum F (g a)) l.
Proof. intros A B F g l; induction l as [|a l IH]; simpl; [reflexivity|rewrite lrsum_app, IH; reflexivity]. Qed.
Lemma lvsum_seq : forall F m a, lvsum F (seq a m) = vsum m (fun i => F (a + i)%nat).
Proof.
  intros F m; induction m as [|m IH]; intros a; [reflexivity|]. rewrite seq_S, lvsum_app, IH. cbn [lvsum vsum]. f_equal. v3ring.
Qed.
Lemma lrsum_seq : forall F m a, lrsum F (seq a m) = rsum m (fun i => F (a + i)%nat).
Proof.
  intros F m; induction m as [|m IH]; intros a; [reflexivity|]. rewrite seq_S, lrsum_app, IH. cbn [lrsum rsum]. f_equal. ring.
Qed.
Lemma lvsum_perm : forall A (F : A -> V3) l m, Permutation l m -> lvsum F l = lvsum F m.
Proof. intros A F l m P; induction P; simpl; [reflexivity|rewrite IHP; reflexivity|v3ring|congruence]. Qed.
Lemma lrsum_perm : forall A (F : A -> R) l m, Permutation l m -> lrsum F l = lrsum F m.
Proof. intros A F l m P; induction P; simpl; [reflexivity|rewrite IHP; reflexivity|ring|congruence]. Qed.
Lemma lvsum_nth : forall A (F : A -> V3) (z : A) l, lvsum F l = vsum (length l) (fun a => F (nth a l z)).
Proof.
  intros A F z l. transitivity (lvsum (fun a => F (nth a l z)) (seq 0 (length l))); [|apply lvsum_seq]. rewrite <- (lvsum_map _ _ F (fun a => nth a l z)). f_equal.
  apply (nth_ext _ _ z z); [rewrite map_length, seq_length; reflexivity|]. intros i Hi. rewrite (nth_indep (map (fun a => nth a l z) (seq 0 (length l))) z (nth 0 l z)) by (rewrite map_length, seq_length; exact Hi).
  rewrite (map_nth (fun a => nth a l z) (seq 0 (length l)) 0%nat i), seq_nth by exact Hi. reflexivity.
Qed.
Lemma lrsum_nth : forall A (F : A -> R) (z : A) l, lrsum F l = rsum (length l) (fun a => F (nth a l z)).
Proof.
  intros A F z l. transitivity (lrsum (fun a => F (nth a l z)) (seq 0 (length l))); [|apply lrsum_seq]. rewrite <- (lrsum_map _ _ F (fun a => nth a l z)). f_equal.
  apply (nth_ext _ _ z z); [rewrite map_length, seq_length; reflexivity|]. intros i Hi. rewrite (nth_indep (map (fun a => nth a l z) (seq 0 (length l))) z (nth 0 l z)) by (rewrite map_length, seq_length; exact Hi).
  rewrite (map_nth (fun a => nth a l z) (seq 0 (length l)) 0%nat i), seq_nth by exact Hi. reflexivity.
Qed.

(** ** All addresses, grouped by control point *)
Definition addresses (n d : nat) : list position :=
  concat (map (fun i => concat (map (fun k => map (fun j => (i, j, k)) (seq 0 (d + 1))) (seq 0 ((d + 1) / 2)))) (seq 0 n)).
Definition twins (n d : nat) (q : position) : list position :=
  let l := ((d + 1) / 2)%nat in
  let '(s, c, r) := q in
  (s, c, r) :: (if (c <? l)%nat then [(prv n s, d - r, c)%nat] else []) ++ (if above c d l then [(nxt n s, r, d - c)%nat] else []).

Lemma addresses_In : forall n d q, In q (addresses n d) <-> inRange n d q.
Proof.
  intros n d [[i j] k]. unfold addresses. rewrite in_concat. split.
  - intros (x & X & I). apply in_map_iff in X. destruct X as (i' & <- & Hi). apply in_seq in Hi. apply in_concat in I. destruct I as (y & Y & I).
    apply in_map_iff in Y. destruct Y as (k' & <- & Hk). apply in_seq in Hk. apply in_map_iff in I. destruct I as (j' & E & Hj). apply in_seq in Hj.
    injection E as -> -> ->. cbn [inRange]. assert ((2 * k + 1 <= d)%nat) by (apply lay_le; lia). lia.
  - cbn [inRange]. intros (Hi & Hj & Hk). apply lay_le in Hk. eexists. split; [apply in_map_iff; exists i; split; [reflexivity|apply in_seq; lia]|].
    apply in_concat. eexists. split; [apply in_map_iff; exists k; split; [reflexivity|apply in_seq; lia]|].
    apply in_map_iff. exists j. split; [reflexivity|apply in_seq; lia].
Qed.

Lemma addresses_NoDup : forall n d, NoDup (addresses n d).
Proof.
  intros n d. unfold addresses. apply NoDup_concat.
  - intros i Hi. apply NoDup_concat.
    + intros k Hk. apply FinFun.Injective_map_NoDup; [intros a b E; injection E as E; exact E|apply seq_NoDup].
    + intros k k' x Hk Hk' I I'. apply in_map_iff in I, I'. destruct I as (? & <- & _), I' as (? & E & _). injection E as _ E. lia.
  - intros i i' x Hi Hi' I I'. apply in_concat in I, I'. destruct I as (y & Y & I), I' as (y' & Y' & I').
    apply in_map_iff in Y, Y'. destruct Y as (? & <- & _), Y' as (? & <- & _). apply in_map_iff in I, I'. destruct I as (? & <- & _), I' as (? & E & _). injection E as E _ _. lia.
Qed.

Lemma above_iff : forall c d, (c <= d)%nat -> (1 <= d)%nat -> above c d ((d + 1) / 2) = true <-> (d < c + (d + 1) / 2)%nat.
Proof.
  intros c d Hc Hd. unfold above. assert (((d + 1) / 2 <= d)%nat) by (assert (2 * ((d + 1) / 2) <= d + 1)%nat by apply half_le; lia).
  destruct (Nat.ltb_spec d ((d + 1) / 2)); [lia|]. rewrite Nat.ltb_lt. lia.
Qed.

Lemma twins_same : forall n d p q, (1 <= n)%nat -> In p (enumerate n d) -> (In q (twins n d p) <-> inRange n d q /\ same n d p q).
Proof.
  intros n d [[s c] r] q Hn I. assert (RP := enum_range n d _ Hn I). apply enum_In in I; [|exact Hn]. destruct I as (Hs & Hc & Hr).
  assert (HL := half_le d). assert (HH := half_sum d). pose proof (Nat.div_mod d 2 ltac:(lia)) as DM. pose proof (Nat.mod_upper_bound d 2 ltac:(lia)) as DU.
  assert (LL : forall k, (k < (d + 1) / 2)%nat <-> (2 * k + 1 <= d)%nat) by (intros; apply lay_le).
  unfold twins. split.
  - intros [<-|J]; [split; [exact RP|left; reflexivity]|]. apply in_app_or in J. destruct J as [J|J].
    + destruct (Nat.ltb_spec c ((d + 1) / 2)) as [L|L]; [|destruct J]. destruct J as [<-|[]]. apply LL in L.
      split; [cbn [inRange]; assert (prv n s < n)%nat by (apply prv_lt; lia); lia|]. right; left. apply mirror_prv; lia.
    + destruct (above c d ((d + 1) / 2)) eqn:A; [|destruct J]. destruct J as [<-|[]]. apply above_iff in A; [|lia|lia].
      assert (X : (d - c < (d + 1) / 2)%nat) by lia. apply LL in X. assert (Nx : (nxt n s < n)%nat) by (apply nxt_lt; lia).
      split; [cbn [inRange]; lia|]. right; right. pose proof (mirror_prv n d (nxt n s) r (d - c) Nx ltac:(lia)) as M. rewrite prv_nxt in M by lia.
      replace (d - (d - c))%nat with c in M by lia. exact M.
  - intros [R [E|[M|M]]].
    + left. symmetry. symmetry. exact E.
    + right. apply in_or_app. left. destruct (mirror_inv n d s c r q M R Hs) as [L ->]. apply LL in L. destruct (Nat.ltb_spec c ((d + 1) / 2)); [left; reflexivity|lia].
    + right. apply in_or_app. right. destruct (mirror_inv2 n d s c r q M R RP) as [L ->]. destruct R as (_ & _ & R).
      assert (X := R). apply LL in X. destruct (above c d ((d + 1) / 2)) eqn:A; [left; reflexivity|].
      assert (B : above c d ((d + 1) / 2) = true) by (apply above_iff; lia). congruence.
Qed.

Lemma twins_NoDup : forall n d p, (2 <= n)%nat -> In p (enumerate n d) -> NoDup (twins n d p).
Proof.
  intros n d [[s c] r] Hn I. apply enum_In in I; [|lia]. destruct I as (Hs & Hc & Hr). unfold twins.
  assert (HL := half_le d). assert (HH := half_sum d). pose proof (Nat.div_mod d 2 ltac:(lia)) as DM. pose proof (Nat.mod_upper_bound d 2 ltac:(lia)) as DU.
  assert (Np : prv n s <> s) by (apply prv_neq; lia). assert (Nn : nxt n s <> s) by (intros E; apply Np; rewrite <- E at 1; apply prv_nxt; exact Hs).
  destruct (Nat.ltb_spec c ((d + 1) / 2)) as [L|L]; destruct (above c d ((d + 1) / 2)) eqn:A; cbn [app].
  - apply above_iff in A; lia.
  - constructor; [intros [E|[]]; injection E; lia|]. constructor; [intros []|constructor].
  - constructor; [intros [E|[]]; injection E; lia|]. constructor; [intros []|constructor].
  - constructor; [intros []|constructor].
Qed.

Lemma addresses_perm : forall n d, (2 <= n)%nat -> Permutation (concat (map (twins n d) (enumerate n d))) (addresses n d).
Proof.
  intros n d Hn. apply NoDup_Permutation; [|apply addresses_NoDup|].
  - assert (G : forall es, NoDup es -> incl es (enumerate n d) -> NoDup (concat (map (twins n d) es))).
    { induction es as [|e es IH]; intros ND In_; [constructor|]. cbn [map concat]. inversion ND as [|? ? N1 N2]; subst. apply NoDup_app'.
      - apply twins_NoDup; [exact Hn|apply In_; left; reflexivity].
      - apply IH; [exact N2|intros x X; apply In_; right; exact X].
      - intros q Q Q'. apply in_concat in Q'. destruct Q' as (t & T & Q'). apply in_map_iff in T. destruct T as (e' & <- & I').
        assert (Ie : In e (enumerate n d)) by (apply In_; left; reflexivity). assert (Ie' : In e' (enumerate n d)) by (apply In_; right; exact I').
        apply twins_same in Q; [|lia|exact Ie]. apply twins_same in Q'; [|lia|exact Ie']. destruct Q as [Rq Sq], Q' as [_ Sq'].
        assert (e = e'); [|congruence]. apply (enum_unique n d); try assumption; try lia.
        apply (same_trans n d e q e'); try assumption; try (apply enum_range; [lia|assumption]). apply same_sym; exact Sq'. }
    apply G; [apply enum_NoDup; lia|intros x X; exact X].
  - intros q. rewrite addresses_In, in_concat. split.
    + intros (t & T & Q). apply in_map_iff in T. destruct T as (e & <- & I). apply twins_same in Q; [apply Q|lia|exact I].
    + intros Rq. destruct (enum_cover n d q ltac:(lia) Rq) as (e & I & S). exists (twins n d e). split; [apply in_map; exact I|].
      apply twins_same; [lia|exact I|split; assumption].
Qed.

Lemma sum_grouped : forall n d (F : position -> V3), (2 <= n)%nat ->
  vsum n (fun i => vsum ((d + 1) / 2) (fun k => vsum (d + 1) (fun j => F (i, j, k)))) = lvsum (fun e => lvsum F (twins n d e)) (enumerate n d).
Proof.
  intros n d F Hn. rewrite <- lvsum_concat, (lvsum_perm _ F _ _ (addresses_perm n d Hn)). unfold addresses. rewrite lvsum_concat, lvsum_seq.
  apply vsum_ext. intros i Hi. rewrite lvsum_concat, lvsum_seq. apply vsum_ext. intros k Hk. rewrite lvsum_map, lvsum_seq. reflexivity.
Qed.
Lemma rsum_grouped : forall n d (F : position -> R), (2 <= n)%nat ->
  rsum n (fun i => rsum ((d + 1) / 2) (fun k => rsum (d + 1) (fun j => F (i, j, k)))) = lrsum (fun e => lrsum F (twins n d e)) (enumerate n d).
Proof.
  intros n d F Hn. rewrite <- lrsum_concat, (lrsum_perm _ F _ _ (addresses_perm n d Hn)). unfold addresses. rewrite lrsum_concat, lrsum_seq.
  apply rsum_ext. intros i Hi. rewrite lrsum_concat, lrsum_seq. apply rsum_ext. intros k Hk. rewrite lrsum_map, lrsum_seq. reflexivity.
Qed.

Lemma firstn_In' : forall A (l : list A) m a, In a (firstn m l) -> In a l.
Proof. intros A l m a I. rewrite <- (firstn_skipn m l). apply in_or_app. left; exact I. Qed.
Lemma nth_firstn' : forall A (l : list A) m a z, (a < m)%nat -> nth a (firstn m l) z = nth a l z.
Proof. intros A l; induction l as [|x l IH]; intros [|m] [|a] z H; try reflexivity; try lia. cbn [firstn nth]. apply IH. lia. Qed.

(** ** The control points as one vector: the central one, then the enumerated ones *)
Definition netv (n d : nat) (g : gbsurf) (a : nat) : V3 :=
  match a with O => gb_cen g | Datatypes.S a => gpv g (nth a (enumerate n d) (0, 0, 0)%nat) end.
Definition number (bcp c : nat) : nat := if (c =? 0)%nat then 0%nat else (bcp + c)%nat.
Definition lhs (n d bcp : nat) (h : gbsurf) (e : equation) : V3 := vsum (gbCount n d - bcp) (fun c => netv n d h (number bcp c) *v fst e c).
Definition valueAt (eps : R) (h : gbsurf) (sds : list V2) : V3 := match gbEval eps h sds with Some p => p | None => vzero end.

Lemma weight_indep : forall eps g h sds i j k, gb_n g = gb_n h -> gb_deg g = gb_deg h -> gb_sq g = gb_sq h ->
  gbWeight eps g sds i j k = gbWeight eps h sds i j k.
Proof. intros eps g h sds i j k E1 E2 E3. unfold gbWeight. rewrite E1, E2, E3. reflexivity. Qed.

Lemma sample_equation : forall n d g h eps bcp sds p, (2 <= n)%nat -> (1 <= d)%nat -> shaped n d g -> shaped n d h -> consistent n d h ->
  gb_sq g = gb_sq h -> (bcp <= gbCount n d - 1)%nat ->
  (forall a, (a < bcp)%nat -> gpv h (nth a (enumerate n d) (0, 0, 0)%nat) = gpv g (nth a (enumerate n d) (0, 0, 0)%nat)) ->
  (exists W, (forall i j k, inRange n d (i, j, k) -> gbWeight eps h sds i j k = Some (W i j k)) /\ gbEval eps h sds = Some (combined n d W h)) ->
  exists e, fitSample eps g bcp (sds, p) = Some e /\ lhs n d bcp h e -v snd e = valueAt eps h sds -v p.
Proof.
  intros n d g h eps bcp sds p Hn Hd Sg Sh Ch Sq Hb Fx (W & HW & Ev). pose proof Sg as (Gn & Gd & Gl & _). pose proof Sh as (Kn & Kd & _).
  set (W3 := fun q : position => let '(i, j, k) := q in W i j k). set (es := enumerate n d) in *.
  assert (Ln : length es = (gbCount n d - 1)%nat) by apply enumerate_length.
  assert (HW' : forall i j k, inRange n d (i, j, k) -> gbWeight eps g sds i j k = Some (W i j k)).
  { intros i j k R. rewrite (weight_indep eps g h) by congruence. apply HW; exact R. }
  assert (Bl : mapM (fitBlend eps g sds) es = Some (map (fun e => lrsum W3 (twins n d e)) es)).
  { apply mapM_total. intros [[s c] r] I. assert (R := enum_range n d _ ltac:(lia) I). assert (T := fun q => proj1 (twins_same n d (s, c, r) q ltac:(lia) I)).
    unfold fitBlend. rewrite Gn, Gd, Gl. rewrite HW' by exact R. cbn [bind]. unfold twins in T |- *. cbn [In] in T.
    destruct (c <? (d + 1) / 2)%nat.
    - rewrite HW' by (apply T; right; apply in_or_app; left; left; reflexivity). cbn [bind app]. destruct (above c d ((d + 1) / 2)).
      + rewrite HW' by (apply T; right; apply in_or_app; right; left; reflexivity). cbn [bind lrsum W3]. f_equal. ring.
      + cbn [bind lrsum W3]. f_equal. ring.
    - cbn [bind app]. destruct (above c d ((d + 1) / 2)).
      + rewrite HW' by (apply T; right; left; reflexivity). cbn [bind lrsum W3]. f_equal. ring.
      + cbn [bind lrsum W3]. f_equal. ring. }
  set (bs := map (fun e => lrsum W3 (twins n d e)) es) in *.
  assert (Ps : mapM (fun q : position => let '(i, j, k) := q in controlPoint g i j k) (firstn bcp es) = Some (map (gpv g) (firstn bcp es))).
  { apply mapM_total. intros [[i j] k] I. apply (gpv_some n d g (i, j, k) Sg). apply enum_range; [lia|]. apply (firstn_In' _ _ _ _ I). }
  unfold fitSample. cbn [fst snd]. rewrite Gn, Gd. fold es. rewrite Bl. cbn [bind]. rewrite Ps. cbn [bind]. eexists. split; [reflexivity|].
  set (z := (0, 0, 0)%nat) in *.
  assert (Lb : length bs = length es) by apply map_length. assert (Lp : length (map (gpv g) (firstn bcp es)) = bcp) by (rewrite map_length, firstn_length; lia).
  assert (B0 : forall a, (a < length es)%nat -> nth a bs 0 = lrsum W3 (twins n d (nth a es z))).
  { intros a Ha. unfold bs. rewrite (nth_indep _ 0 (lrsum W3 (twins n d z))) by (rewrite map_length; exact Ha). apply (map_nth (fun e => lrsum W3 (twins n d e))). }
  unfold lhs. cbn [fst snd]. rewrite Lp.
  assert (Cz : (gbCount n d >= 1)%nat) by (unfold gbCount; lia).
  replace (gbCount n d - bcp)%nat with (Datatypes.S (length es - bcp)) by lia. rewrite vsum_first. cbn [number Nat.eqb netv].
  assert (T1 : vsum (length es - bcp) (fun c => netv n d h (number bcp (Datatypes.S c)) *v nth (bcp + Datatypes.S c - 1) bs 0) = vsum (length es - bcp) (fun c => gpv h (nth (bcp + c) es z) *v nth (bcp + c) bs 0)).
  { apply vsum_ext. intros c Hc. unfold number. cbn [Nat.eqb]. replace (bcp + Datatypes.S c)%nat with (Datatypes.S (bcp + c)) by lia. cbn [netv]. replace (Datatypes.S (bcp + c) - 1)%nat with (bcp + c)%nat by lia. reflexivity. }
  assert (T2 : vsum bcp (fun a => nth a (map (gpv g) (firstn bcp es)) vzero *v nth a bs 0) = vsum bcp (fun a => gpv h (nth a es z) *v nth a bs 0)).
  { apply vsum_ext. intros a Ha. rewrite (nth_indep _ vzero (gpv g z)) by lia. rewrite map_nth, nth_firstn' by exact Ha. rewrite Fx by exact Ha. reflexivity. }
  assert (T3 : vsum (length es) (fun a => gpv h (nth a es z) *v nth a bs 0) = vsum n (fun i => vsum ((d + 1) / 2) (fun k => vsum (d + 1) (fun j => point h i j k *v W i j k)))).
  { etransitivity; [|symmetry; exact (sum_grouped n d (fun q => gpv h q *v W3 q) Hn)]. fold es. rewrite (lvsum_nth _ _ z). apply vsum_ext. intros a Ha. rewrite B0 by exact Ha.
    assert (I : In (nth a es z) es) by (apply nth_In; exact Ha). set (e := nth a es z) in *.
    assert (G : forall ts, (forall q, In q ts -> gpv h q = gpv h e) -> gpv h e *v lrsum W3 ts = lvsum (fun q => gpv h q *v W3 q) ts).
    { induction ts as [|t ts IH]; intros H; cbn [lrsum lvsum]; [v3ring|]. rewrite <- IH by (intros q Q; apply H; right; exact Q). rewrite (H t) by (left; reflexivity). v3ring. }
    apply G. intros q Q. apply twins_same in Q; [|lia|exact I]. destruct Q as [Rq Sm]. unfold gpv. rewrite (consistent_same n d h e q Ch (enum_range n d e ltac:(lia) I) Rq Sm). reflexivity. }
  assert (T4 : rsum (length bs) (fun a => nth a bs 0) = rsum n (fun i => rsum ((d + 1) / 2) (fun k => rsum (d + 1) (fun j => W i j k)))).
  { etransitivity; [|symmetry; exact (rsum_grouped n d W3 Hn)]. fold es. rewrite (lrsum_nth _ _ z), Lb. apply rsum_ext. exact B0. }
  unfold valueAt. rewrite Ev. unfold combined. rewrite <- T3, <- T4. rewrite T2.
  rewrite (vsum_ext _ _ (fun c => netv n d h (number bcp (Datatypes.S c)) *v nth (bcp + Datatypes.S c - 1) bs 0)) by reflexivity. rewrite T1.
  replace (length es) with (bcp + (length es - bcp))%nat at 2 by lia. rewrite vsum_app. v3ring.
Qed.
