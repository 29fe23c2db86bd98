(** * Facts about Python style strings used by the naming passes. *)
From Coq Require Import List Arith Lia Bool String Ascii.
From Verif Require Import PyBase.
Import ListNotations.
Open Scope string_scope.
Open Scope nat_scope.

Lemma sapp_assoc (a b c : string) : (a ++ b) ++ c = a ++ (b ++ c).
Proof. induction a; simpl; congruence. Qed.
Lemma sapp_nil_r (a : string) : a ++ "" = a.
Proof. induction a; simpl; congruence. Qed.
Lemma slen_app (a b : string) : String.length (a ++ b) = String.length a + String.length b.
Proof. induction a; simpl; congruence. Qed.
Lemma sapp_inj_l (a b c : string) : a ++ b = a ++ c -> b = c.
Proof. induction a; simpl; auto. intros E; inversion E; auto. Qed.
Lemma sapp_eq_split (a b c d : string) :
  String.length a = String.length c -> a ++ b = c ++ d -> a = c /\ b = d.
Proof.
  revert c; induction a; destruct c; simpl; intros L E; try lia; auto.
  inversion E; subst. destruct (IHa c) as [-> ->]; auto.
Qed.
Lemma sapp_inj_r (a b c : string) : a ++ c = b ++ c -> a = b.
Proof.
  intros E. assert (L : String.length a = String.length b).
  { apply (f_equal String.length) in E. rewrite !slen_app in E. lia. }
  apply sapp_eq_split in E; tauto.
Qed.

(** Characters of a string. *)
Fixpoint chars (s : string) : list ascii :=
  match s with EmptyString => [] | String c s' => c :: chars s' end.
Lemma chars_app a b : chars (a ++ b) = (chars a ++ chars b)%list.
Proof. induction a; simpl; congruence. Qed.
Lemma chars_inj a b : chars a = chars b -> a = b.
Proof. revert b; induction a; destruct b; simpl; intros E; inversion E; subst; auto. f_equal; auto. Qed.

Definition is_digit (c : ascii) : bool :=
  let n := nat_of_ascii c in (48 <=? n) && (n <=? 57).

Lemma is_digit_digit_char n : n < 10 -> is_digit (digit_char n) = true.
Proof. intros L; do 10 (destruct n; [reflexivity|]). lia. Qed.
Lemma digit_val n : n < 10 -> nat_of_ascii (digit_char n) - 48 = n.
Proof. intros L; do 10 (destruct n; [reflexivity|]). lia. Qed.

Fixpoint decode (v : nat) (s : string) : nat :=
  match s with
  | EmptyString => v
  | String c s' => decode (v * 10 + (nat_of_ascii c - 48)) s'
  end.

Lemma decode_aux fuel n acc :
  n < fuel -> decode 0 (nat_to_string_aux fuel n acc) = decode n acc.
Proof.
  revert n acc; induction fuel; intros n acc L; [lia|].
  cbn [nat_to_string_aux].
  assert (M : n mod 10 < 10) by (apply Nat.mod_upper_bound; lia).
  pose proof (Nat.div_mod n 10 ltac:(lia)) as D.
  destruct (n / 10 =? 0) eqn:E.
  - apply Nat.eqb_eq in E. cbn [decode]. rewrite digit_val by auto. f_equal. lia.
  - apply Nat.eqb_neq in E. rewrite IHfuel.
    + cbn [decode]. rewrite digit_val by auto. f_equal. lia.
    + assert (n / 10 < n) by (apply Nat.div_lt; lia). lia.
Qed.

Lemma decode_nat_to_string n : decode 0 (nat_to_string n) = n.
Proof. unfold nat_to_string. rewrite decode_aux by lia. reflexivity. Qed.

Lemma nat_to_string_inj a b : nat_to_string a = nat_to_string b -> a = b.
Proof.
  intros E. apply (f_equal (decode 0)) in E. rewrite !decode_nat_to_string in E. auto.
Qed.

Lemma nat_to_string_aux_digits fuel n acc :
  forallb is_digit (chars acc) = true ->
  forallb is_digit (chars (nat_to_string_aux fuel n acc)) = true.
Proof.
  revert n acc; induction fuel; intros n acc A; auto.
  cbn [nat_to_string_aux].
  assert (M : n mod 10 < 10) by (apply Nat.mod_upper_bound; lia).
  assert (forallb is_digit (chars (String (digit_char (n mod 10)) acc)) = true)
    by (cbn [chars forallb]; rewrite is_digit_digit_char, A; auto).
  destruct (n / 10 =? 0); auto.
Qed.
Lemma nat_to_string_digits n : forallb is_digit (chars (nat_to_string n)) = true.
Proof. apply nat_to_string_aux_digits; reflexivity. Qed.

Lemma nat_to_string_aux_nonempty fuel n c acc :
  nat_to_string_aux fuel n (String c acc) <> "".
Proof.
  revert n c acc; induction fuel; intros n c acc; cbn [nat_to_string_aux]; try congruence.
  destruct (n / 10 =? 0); auto; congruence.
Qed.
Lemma nat_to_string_nonempty n : nat_to_string n <> "".
Proof.
  unfold nat_to_string. cbn [nat_to_string_aux].
  destruct (n / 10 =? 0); [congruence | apply nat_to_string_aux_nonempty].
Qed.

(** Python's [x in s] for a one-character [x]. *)
Definition has_char (c : ascii) (s : string) : bool := existsb (Ascii.eqb c) (chars s).
Lemma has_char_app c a b : has_char c (a ++ b) = has_char c a || has_char c b.
Proof. unfold has_char. rewrite chars_app, existsb_app. auto. Qed.
Lemma has_char_In c s : has_char c s = true <-> In c (chars s).
Proof.
  unfold has_char. rewrite existsb_exists. split.
  - intros (x & I & E). apply Ascii.eqb_eq in E; subst; auto.
  - intros I. exists c. split; auto. apply Ascii.eqb_refl.
Qed.
Lemma nat_to_string_no_char c n : is_digit c = false -> has_char c (nat_to_string n) = false.
Proof.
  intros D. destruct (has_char c (nat_to_string n)) eqn:E; auto.
  apply has_char_In in E. pose proof (nat_to_string_digits n) as A.
  rewrite forallb_forall in A. rewrite (A _ E) in D. congruence.
Qed.

(** Python's substring test [sub in s]. *)
Fixpoint is_prefix (p s : string) : bool :=
  match p, s with
  | EmptyString, _ => true
  | String a p', String b s' => Ascii.eqb a b && is_prefix p' s'
  | _, _ => false
  end.
Fixpoint contains (sub s : string) : bool :=
  is_prefix sub s || match s with EmptyString => false | String _ s' => contains sub s' end.

Lemma is_prefix_spec p s : is_prefix p s = true <-> exists t, s = p ++ t.
Proof.
  revert s; induction p; simpl; intros s.
  - split; auto. intros _; exists s; auto.
  - destruct s; simpl.
    + split; try congruence. intros [t E]; congruence.
    + rewrite andb_true_iff, Ascii.eqb_eq, IHp. split.
      * intros [-> [t ->]]. exists t; auto.
      * intros [t E]. inversion E; subst. split; auto. exists t; auto.
Qed.
Lemma contains_spec sub s : contains sub s = true <-> exists a b, s = a ++ sub ++ b.
Proof.
  revert sub; induction s; simpl; intros sub.
  - rewrite orb_false_r, is_prefix_spec. split.
    + intros [t E]. exists "", t. auto.
    + intros (a & b & E). destruct a; simpl in E; try congruence. exists b; auto.
  - rewrite orb_true_iff, is_prefix_spec, IHs. split.
    + intros [[t E]|(x & y & E)].
      * exists "", t; auto.
      * exists (String a x), y. simpl. congruence.
    + intros (x & y & E). destruct x; simpl in E.
      * left. exists y; auto.
      * right. inversion E; subst. exists x, y; auto.
Qed.

(** Splitting at the last occurrence of a separator: names [p ++ "_" ++ digits] are
    uniquely decomposed because the digits contain no separator. *)
Lemma sep_digits_inj (sep : ascii) a b x y :
  has_char sep x = false -> has_char sep y = false ->
  a ++ String sep x = b ++ String sep y -> a = b /\ x = y.
Proof.
  intros X Y. revert b. induction a; simpl; intros b E.
  - destruct b; simpl in E.
    + inversion E; auto.
    + inversion E; subst. rewrite has_char_app in X. apply orb_false_iff in X as [_ X].
      unfold has_char in X. simpl in X. rewrite Ascii.eqb_refl in X. discriminate.
  - destruct b; simpl in E.
    + inversion E; subst. rewrite has_char_app in Y. apply orb_false_iff in Y as [_ Y].
      unfold has_char in Y. simpl in Y. rewrite Ascii.eqb_refl in Y. discriminate.
    + inversion E; subst. destruct (IHa b) as [-> ->]; auto.
Qed.

Definition us : ascii := "_"%char.
(** [f"{p}_{i}"]. *)
Definition suffixed (p : string) (i : nat) : string := p ++ "_" ++ nat_to_string i.

Lemma suffixed_inj p q i j : suffixed p i = suffixed q j -> p = q /\ i = j.
Proof.
  unfold suffixed. intros E. change ("_" ++ nat_to_string i) with (String us (nat_to_string i)) in E.
  change ("_" ++ nat_to_string j) with (String us (nat_to_string j)) in E.
  apply sep_digits_inj in E; try (apply nat_to_string_no_char; reflexivity).
  destruct E as [-> E]. split; auto. apply nat_to_string_inj; auto.
Qed.
