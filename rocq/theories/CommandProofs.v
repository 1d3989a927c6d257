(** Lemmas about strings, atoi and printed numbers for C92. *)
From Verif Require Import Base CommandModel.
From Coq Require Import String Ascii ZArith Lia.
Open Scope string_scope.

(** ** What a string says as a number *)
Definition blank (c : ascii) : Prop := In (nat_of_ascii c) [9; 10; 11; 12; 13; 32]%nat.
Definition numeral (c : ascii) : Prop := (48 <= nat_of_ascii c <= 57)%nat.
Definition sign (c : ascii) : Prop := c = "+"%char \/ c = "-"%char.
Fixpoint every (P : ascii -> Prop) (s : string) : Prop := match s with String c s' => P c /\ every P s' | EmptyString => True end.
Definition starts (P : ascii -> Prop) (s : string) : Prop := match s with String c _ => P c | EmptyString => False end.
Fixpoint value (s : string) : Z :=
  match s with String c s' => ((Z.of_nat (nat_of_ascii c) - 48) * 10 ^ Z.of_nat (String.length s') + value s')%Z | EmptyString => 0%Z end.
(** Blanks, a sign or none, digits, the rest; each of the parts is as long as possible. *)
Definition says (s : string) (z : Z) : Prop := exists ws sg ds rest, s = ws ++ sg ++ ds ++ rest /\
  every blank ws /\ ~ starts blank (sg ++ ds ++ rest) /\ every numeral ds /\ ~ starts numeral rest /\
  (sg = "+" /\ z = value ds \/ sg = "-" /\ z = (- value ds)%Z \/ sg = "" /\ ~ starts sign (ds ++ rest) /\ z = value ds).

Lemma app_assoc_s : forall a b c : string, (a ++ b) ++ c = a ++ b ++ c.
Proof. intros a b c; induction a as [|x a IH]; [reflexivity|]. cbn [append]. rewrite IH. reflexivity. Qed.
Lemma length_app_s : forall a b, String.length (a ++ b) = (String.length a + String.length b)%nat.
Proof. intros a b; induction a as [|x a IH]; [reflexivity|]. cbn [append String.length]. rewrite IH. reflexivity. Qed.

Lemma isBlank_spec : forall c, isBlank c = true <-> blank c.
Proof.
  intros c. unfold isBlank, blank. set (k := nat_of_ascii c). cbn [In]. rewrite Bool.orb_true_iff, Bool.andb_true_iff, !Nat.leb_le, Nat.eqb_eq. lia.
Qed.
Lemma digit_spec : forall c, numeral c -> digitOf c = Some (Z.of_nat (nat_of_ascii c) - 48)%Z.
Proof.
  intros c H. unfold numeral in H. unfold digitOf. replace ((48 <=? nat_of_ascii c) && (nat_of_ascii c <=? 57))%bool%nat with true; [apply f_equal; lia|].
  symmetry. apply Bool.andb_true_iff. rewrite !Nat.leb_le. exact H.
Qed.
Lemma digit_none : forall c, ~ numeral c -> digitOf c = None.
Proof.
  intros c H. unfold numeral in H. unfold digitOf. destruct ((48 <=? nat_of_ascii c) && (nat_of_ascii c <=? 57))%bool%nat eqn:E; [|reflexivity].
  apply Bool.andb_true_iff in E. rewrite !Nat.leb_le in E. contradiction.
Qed.
Lemma numeral_dec : forall c, {numeral c} + {~ numeral c}.
Proof. intros c. unfold numeral. destruct (le_dec 48 (nat_of_ascii c)); destruct (le_dec (nat_of_ascii c) 57); (left; lia) || (right; lia). Qed.

Lemma digits_value : forall ds rest acc, every numeral ds -> ~ starts numeral rest ->
  readDigits acc (ds ++ rest) = (acc * 10 ^ Z.of_nat (String.length ds) + value ds)%Z.
Proof.
  induction ds as [|c ds IH]; intros rest acc H N; cbn [append].
  - cbn [String.length value]. replace (acc * 10 ^ Z.of_nat 0 + 0)%Z with acc by (change (10 ^ Z.of_nat 0)%Z with 1%Z; lia).
    destruct rest as [|c r]; [reflexivity|]. cbn [starts] in N. cbn [readDigits]. rewrite (digit_none c N). reflexivity.
  - destruct H as [Hc H]. cbn [readDigits]. rewrite (digit_spec c Hc), (IH rest _ H N). cbn [String.length value].
    rewrite Nat2Z.inj_succ, Z.pow_succ_r by lia. ring.
Qed.
Lemma digits_split : forall s, exists ds rest, s = ds ++ rest /\ every numeral ds /\ ~ starts numeral rest.
Proof.
  induction s as [|c s (ds & rest & -> & H & N)]; [exists "", ""; repeat split; intros []|].
  destruct (numeral_dec c) as [D|D]; [exists (String c ds), rest; split; [reflexivity|]; split; [split; assumption|exact N]|].
  exists "", (String c (ds ++ rest)). split; [reflexivity|]. split; [exact I|exact D].
Qed.
Lemma blanks_skip : forall ws s, every blank ws -> ~ starts blank s -> skipBlanks (ws ++ s) = s.
Proof.
  induction ws as [|c ws IH]; intros s H N; cbn [append].
  - destruct s as [|c s]; [reflexivity|]. cbn [starts] in N. cbn [skipBlanks]. destruct (isBlank c) eqn:E; [apply isBlank_spec in E; contradiction|reflexivity].
  - destruct H as [Hc H]. cbn [skipBlanks]. rewrite (proj2 (isBlank_spec c) Hc). apply IH; assumption.
Qed.
Lemma blanks_split : forall s, exists ws, s = ws ++ skipBlanks s /\ every blank ws /\ ~ starts blank (skipBlanks s).
Proof.
  induction s as [|c s (ws & E & H & N)]; [exists ""; repeat split; intros []|]. cbn [skipBlanks]. destruct (isBlank c) eqn:B.
  - exists (String c ws). split; [cbn [append]; rewrite <- E; reflexivity|]. split; [split; [apply isBlank_spec; exact B|exact H]|exact N].
  - exists "". split; [reflexivity|]. split; [exact I|]. cbn [starts]. rewrite <- isBlank_spec. congruence.
Qed.

Lemma says_spec : forall s z, says s z <-> readSigned (skipBlanks s) = z.
Proof.
  intros s z. split.
  - intros (ws & sg & ds & rest & -> & Hw & Nb & Hd & Nr & C). rewrite (blanks_skip ws _ Hw Nb).
    assert (V : readDigits 0 (ds ++ rest) = value ds) by (rewrite digits_value by assumption; ring).
    destruct C as [(-> & ->)|[(-> & ->)|(-> & Ns & ->)]]; cbn [append readSigned].
    + rewrite Ascii.eqb_refl. exact V.
    + change (Ascii.eqb "-" "+") with false. cbn. rewrite V. reflexivity.
    + destruct (ds ++ rest) as [|c t] eqn:E; [rewrite <- V; reflexivity|]. cbn [starts] in Ns. unfold sign in Ns. unfold readSigned.
      destruct (Ascii.eqb_spec c "+") as [->|_]; [tauto|]. destruct (Ascii.eqb_spec c "-") as [->|_]; [tauto|]. exact V.
  - intros <-. destruct (blanks_split s) as (ws & E & Hw & Nb). set (t := skipBlanks s) in *.
    destruct t as [|c u] eqn:Et.
    + exists ws, "", "", "". split; [exact E|]. split; [exact Hw|]. split; [exact Nb|]. split; [exact I|]. split; [intros []|]. right. right. split; [reflexivity|]. split; [intros []|reflexivity].
    + destruct (Ascii.eqb_spec c "+") as [P|P].
      * destruct (digits_split u) as (ds & rest & Eu & Hd & Nr). exists ws, "+", ds, rest. subst c u. split; [exact E|]. split; [exact Hw|]. split; [exact Nb|]. split; [exact Hd|]. split; [exact Nr|].
        left. split; [reflexivity|]. cbn [readSigned]. rewrite Ascii.eqb_refl, digits_value by assumption. ring.
      * destruct (Ascii.eqb_spec c "-") as [M|M].
        -- destruct (digits_split u) as (ds & rest & Eu & Hd & Nr). exists ws, "-", ds, rest. subst c u. split; [exact E|]. split; [exact Hw|]. split; [exact Nb|]. split; [exact Hd|]. split; [exact Nr|].
           right. left. split; [reflexivity|]. cbn [readSigned]. change (Ascii.eqb "-" "+") with false. rewrite Ascii.eqb_refl, digits_value by assumption. ring.
        -- destruct (digits_split (String c u)) as (ds & rest & Eu & Hd & Nr). exists ws, "", ds, rest. cbn [append]. rewrite <- Eu. split; [exact E|]. split; [exact Hw|]. split; [exact Nb|]. split; [exact Hd|]. split; [exact Nr|].
           right. right. split; [reflexivity|]. split; [cbn [starts]; unfold sign; tauto|]. unfold readSigned.
           destruct (Ascii.eqb_spec c "+"); [contradiction|]. destruct (Ascii.eqb_spec c "-"); [contradiction|]. rewrite Eu, digits_value by assumption. ring.
Qed.

(** ** Printed numbers *)
Lemma digit_char : forall k, (k < 10)%nat -> numeral (ascii_of_nat (48 + k)) /\ nat_of_ascii (ascii_of_nat (48 + k)) = (48 + k)%nat.
Proof. intros k H. assert (E : nat_of_ascii (ascii_of_nat (48 + k)) = (48 + k)%nat) by (apply nat_ascii_embedding; lia). split; [unfold numeral; rewrite E; lia|exact E]. Qed.
Lemma decimal_from : forall fuel n tail, (n <= fuel)%nat -> every numeral tail -> 
  let s := decimalFrom fuel n tail in every numeral s /\ (exists c u, s = String c u) /\ value s = (Z.of_nat n * 10 ^ Z.of_nat (String.length tail) + value tail)%Z.
Proof.
  induction fuel as [|fuel IH]; intros n tail Hn Ht; cbn [decimalFrom].
  - assert (n = 0%nat) by lia. subst n. destruct (digit_char 0 ltac:(lia)) as [A B]. split; [split; [exact A|exact Ht]|]. split; [eexists _, _; reflexivity|].
    cbn [value]. change (0 mod 10)%nat with 0%nat. rewrite B. change (Z.of_nat (48 + 0)) with 48%Z. ring_simplify. lia.
  - assert (M : (n mod 10 < 10)%nat) by (apply Nat.mod_upper_bound; lia). destruct (digit_char (n mod 10) M) as [A B].
    destruct (Nat.ltb_spec n 10) as [L|L].
    + split; [split; [exact A|exact Ht]|]. split; [eexists _, _; reflexivity|]. cbn [value]. rewrite B, (Nat.mod_small n 10 L), Nat2Z.inj_add. change (Z.of_nat 48) with 48%Z. ring.
    + assert (Hd : (n / 10 <= fuel)%nat). { assert (n / 10 < n)%nat by (apply Nat.div_lt; lia). lia. }
      destruct (IH (n / 10)%nat (String (ascii_of_nat (48 + n mod 10)) tail) Hd (conj A Ht)) as (P & Q & V). split; [exact P|]. split; [exact Q|]. rewrite V. cbn [String.length value].
      rewrite B, Nat2Z.inj_succ, Z.pow_succ_r, Nat2Z.inj_add by lia. change (Z.of_nat 48) with 48%Z.
      pose proof (Nat.div_mod n 10 ltac:(lia)) as D. set (q := (n / 10)%nat) in *. set (m := (n mod 10)%nat) in *. clearbody q m. rewrite D, Nat2Z.inj_add, Nat2Z.inj_mul. change (Z.of_nat 10) with 10%Z. ring.
Qed.
Lemma decimal_spec : forall n, every numeral (decimal n) /\ (exists c u, decimal n = String c u) /\ value (decimal n) = Z.of_nat n.
Proof.
  intros n. destruct (decimal_from n n "" (Nat.le_refl n) I) as (A & B & C). split; [exact A|]. split; [exact B|]. unfold decimal. rewrite C. cbn [String.length value]. change (10 ^ Z.of_nat 0)%Z with 1%Z. ring.
Qed.
Lemma decimal_inj : forall a b, decimal a = decimal b -> a = b.
Proof. intros a b E. apply Nat2Z.inj. destruct (decimal_spec a) as (_ & _ & <-). destruct (decimal_spec b) as (_ & _ & <-). rewrite E. reflexivity. Qed.
Lemma numeral_not : forall c, numeral c -> ~ blank c /\ ~ sign c /\ c <> "-"%char.
Proof.
  intros c H. unfold numeral in H. unfold blank, sign. cbn [In]. split; [lia|]. split; [intros [->| ->]; vm_compute in H; lia|]. intros ->. vm_compute in H; lia.
Qed.
