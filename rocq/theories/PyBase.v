(** * Common base: exceptions as values, insertion ordered dictionaries, ordered sets.

    Python features used by the modelled code and how they are represented here:
    - raised exceptions: the [Err] constructor of [res];
    - [dict]: an association list in insertion order without duplicate keys
      ([dset] keeps the position of an existing key, appends a new one, as CPython does);
    - [set] / [OrderedSet]: a duplicate free list.  *)
From Coq Require Import List Arith Lia Bool String Ascii ZArith.
Import ListNotations.
Open Scope list_scope.

(** Kinds of Python exceptions that the modelled code raises. [OutOfFuel] is not a Python
    exception: it marks exhaustion of the explicit fuel of a modelled [while] loop. *)
Inductive exn :=
| ValueError | KeyError | TypeError | IndexError | RuntimeError | ZeroDivisionError
| AttributeError | AssertionError | GenericException | NameError | NotImplementedError | OverflowError | OutOfFuel.

Inductive res (A : Type) := Ok (a : A) | Err (e : exn).
Arguments Ok {A} _.
Arguments Err {A} _.

Definition bind {A B} (x : res A) (f : A -> res B) : res B :=
  match x with Ok a => f a | Err e => Err e end.

Declare Scope res_scope.
Delimit Scope res_scope with res.
Notation "'let*' x ':=' a 'in' b" := (bind a (fun x => b))
  (at level 200, x pattern, a at level 100, b at level 200) : res_scope.

Class EqDec (A : Type) := eq_dec : forall x y : A, {x = y} + {x <> y}.
#[global] Instance EqDec_nat : EqDec nat := Nat.eq_dec.
#[global] Instance EqDec_string : EqDec string := String.string_dec.
#[global] Instance EqDec_Z : EqDec Z := Z.eq_dec.
#[global] Instance EqDec_bool : EqDec bool := Bool.bool_dec.
#[global] Instance EqDec_list {A} `{EqDec A} : EqDec (list A).
Proof. intros x y. apply List.list_eq_dec. exact eq_dec. Defined.
#[global] Instance EqDec_prod {A B} `{EqDec A} `{EqDec B} : EqDec (A * B).
Proof. intros x y. decide equality; apply eq_dec. Defined.
#[global] Instance EqDec_option {A} `{EqDec A} : EqDec (option A).
Proof. intros x y. decide equality; apply eq_dec. Defined.

Definition eqb {A} `{EqDec A} (x y : A) : bool := if eq_dec x y then true else false.

Lemma eqb_eq {A} `{EqDec A} (x y : A) : eqb x y = true <-> x = y.
Proof. unfold eqb; destruct (eq_dec x y); split; congruence. Qed.
Lemma eqb_neq {A} `{EqDec A} (x y : A) : eqb x y = false <-> x <> y.
Proof. unfold eqb; destruct (eq_dec x y); split; congruence. Qed.
Lemma eqb_refl {A} `{EqDec A} (x : A) : eqb x x = true.
Proof. apply eqb_eq; reflexivity. Qed.

(** Membership test [x in xs]. *)
Definition mem {A} `{EqDec A} (x : A) (xs : list A) : bool := existsb (eqb x) xs.

Lemma mem_In {A} `{EqDec A} (x : A) xs : mem x xs = true <-> In x xs.
Proof.
  unfold mem; rewrite existsb_exists; split.
  - intros [y [Hy E]]. apply (proj1 (eqb_eq _ _)) in E. rewrite E; auto.
  - intros Hx. exists x. split; [exact Hx | apply eqb_refl].
Qed.
Lemma mem_not_In {A} `{EqDec A} (x : A) xs : mem x xs = false <-> ~ In x xs.
Proof.
  rewrite <- mem_In; destruct (mem x xs); split; intros; try congruence; auto.
Qed.
Lemma mem_spec {A} `{EqDec A} (x : A) xs : reflect (In x xs) (mem x xs).
Proof.
  destruct (mem x xs) eqn:E; constructor.
  - apply mem_In; auto.
  - apply mem_not_In; auto.
Qed.

(** ** Dictionaries *)
Section Dict.
  Context {K V : Type} `{EqDec K}.
  Definition dict := list (K * V).

  Fixpoint dget (k : K) (d : dict) : option V :=
    match d with
    | [] => None
    | (k', v) :: d' => if eq_dec k k' then Some v else dget k d'
    end.

  Fixpoint dset (k : K) (v : V) (d : dict) : dict :=
    match d with
    | [] => [(k, v)]
    | (k', v') :: d' => if eq_dec k k' then (k', v) :: d' else (k', v') :: dset k v d'
    end.

  Fixpoint ddel (k : K) (d : dict) : dict :=
    match d with
    | [] => []
    | (k', v') :: d' => if eq_dec k k' then d' else (k', v') :: ddel k d'
    end.

  Definition dkeys (d : dict) : list K := map fst d.
  Definition dvals (d : dict) : list V := map snd d.
  Definition dmem (k : K) (d : dict) : bool :=
    match dget k d with Some _ => true | None => false end.
  (** [dict(pairs)] / successive assignment. *)
  Definition dupdate (d : dict) (e : list (K * V)) : dict :=
    fold_left (fun d kv => dset (fst kv) (snd kv) d) e d.
  Definition dwf (d : dict) : Prop := NoDup (dkeys d).

  Lemma dget_dset_same k v d : dget k (dset k v d) = Some v.
  Proof.
    induction d as [|[k' v'] d IH]; simpl.
    - destruct (eq_dec k k); congruence.
    - destruct (eq_dec k k'); simpl; destruct (eq_dec k k'); try congruence; auto.
  Qed.
  Lemma dget_dset_other k k' v d : k <> k' -> dget k (dset k' v d) = dget k d.
  Proof.
    intros N; induction d as [|[k2 v2] d IH]; simpl.
    - destruct (eq_dec k k'); congruence.
    - destruct (eq_dec k' k2); simpl.
      + subst. destruct (eq_dec k k2); congruence.
      + destruct (eq_dec k k2); auto.
  Qed.
  Lemma dget_dset k k' v d :
    dget k (dset k' v d) = if eq_dec k k' then Some v else dget k d.
  Proof.
    destruct (eq_dec k k'); subst; auto using dget_dset_same, dget_dset_other.
  Qed.
  Lemma dget_In k v d : dget k d = Some v -> In (k, v) d.
  Proof.
    induction d as [|[k' v'] d IH]; simpl; try congruence.
    destruct (eq_dec k k'); intros E; [inversion E; subst; auto | auto].
  Qed.
  Lemma In_dget k v d : dwf d -> In (k, v) d -> dget k d = Some v.
  Proof.
    unfold dwf, dkeys.
    induction d as [|[k' v'] d IH]; simpl; try tauto.
    intros ND; inversion ND as [|? ? NI ND']; subst.
    intros [E|I].
    - inversion E; subst. destruct (eq_dec k k); congruence.
    - destruct (eq_dec k k'); auto; subst.
      exfalso; apply NI. apply in_map_iff. exists (k', v); auto.
  Qed.
  Lemma dget_None k d : dget k d = None <-> ~ In k (dkeys d).
  Proof.
    unfold dkeys; induction d as [|[k' v'] d IH]; simpl.
    - tauto.
    - destruct (eq_dec k k'); subst.
      + split; [congruence | tauto].
      + rewrite IH. split; intros; try tauto. intros [E|I]; auto; congruence.
  Qed.
  Lemma dmem_In k d : dmem k d = true <-> In k (dkeys d).
  Proof.
    unfold dmem. destruct (dget k d) eqn:E; split; intros; try congruence.
    - apply dget_In in E. apply in_map_iff; exists (k, v); auto.
    - apply dget_None in E; tauto.
  Qed.
  Lemma dmem_false k d : dmem k d = false <-> dget k d = None.
  Proof. unfold dmem; destruct (dget k d); split; congruence. Qed.
  Lemma dkeys_dset k v d :
    dkeys (dset k v d) = if dmem k d then dkeys d else dkeys d ++ [k].
  Proof.
    unfold dmem, dkeys; induction d as [|[k' v'] d IH]; simpl; auto.
    destruct (eq_dec k k'); simpl; subst; auto.
    rewrite IH. destruct (dget k d); auto.
  Qed.
  Lemma dwf_dset k v d : dwf d -> dwf (dset k v d).
  Proof.
    unfold dwf; intros W. rewrite dkeys_dset. destruct (dmem k d) eqn:E; auto.
    apply dmem_false, dget_None in E.
    induction (dkeys d) as [|a l IH]; simpl.
    - constructor; auto.
    - inversion W; subst. constructor.
      + rewrite in_app_iff. simpl. intros [I|[I|[]]]; auto. subst; apply E; left; auto.
      + apply IH; auto. intros I; apply E; right; auto.
  Qed.
  Lemma In_dkeys_ddel k k' d : In k (dkeys (ddel k' d)) -> In k (dkeys d).
  Proof.
    unfold dkeys; induction d as [|[k2 v2] d IH]; simpl; auto.
    destruct (eq_dec k' k2); simpl; auto. intros [E|I]; auto.
  Qed.
  Lemma dwf_ddel k d : dwf d -> dwf (ddel k d).
  Proof.
    unfold dwf; induction d as [|[k2 v2] d IH]; simpl; auto.
    intros W; inversion W; subst. destruct (eq_dec k k2); auto.
    simpl; constructor; auto. intros I; apply In_dkeys_ddel in I; auto.
  Qed.
  Lemma dget_ddel_same k d : dwf d -> dget k (ddel k d) = None.
  Proof.
    unfold dwf; induction d as [|[k2 v2] d IH]; simpl; auto.
    intros W; inversion W; subst. destruct (eq_dec k k2); simpl.
    - subst. apply dget_None; auto.
    - destruct (eq_dec k k2); try congruence; auto.
  Qed.
  Lemma dget_ddel_other k k' d : k <> k' -> dget k (ddel k' d) = dget k d.
  Proof.
    intros N; induction d as [|[k2 v2] d IH]; simpl; auto.
    destruct (eq_dec k' k2); simpl.
    - subst; destruct (eq_dec k k2); congruence.
    - destruct (eq_dec k k2); auto.
  Qed.
  Lemma dget_ddel k k' d : dwf d ->
    dget k (ddel k' d) = if eq_dec k k' then None else dget k d.
  Proof.
    intros W; destruct (eq_dec k k'); subst; auto using dget_ddel_same, dget_ddel_other.
  Qed.
  Lemma dget_app k d1 d2 :
    dget k (d1 ++ d2) = match dget k d1 with Some v => Some v | None => dget k d2 end.
  Proof.
    induction d1 as [|[k2 v2] d1 IH]; simpl; auto.
    destruct (eq_dec k k2); auto.
  Qed.
End Dict.
Arguments dict K V : clear implicits.

(** ** Ordered sets (duplicate free lists) *)
Section OSet.
  Context {A : Type} `{EqDec A}.
  Definition sadd (x : A) (s : list A) : list A := if mem x s then s else s ++ [x].
  Definition sremove (x : A) (s : list A) : list A := filter (fun y => negb (eqb x y)) s.
  Definition sunion (s t : list A) : list A := fold_left (fun s x => sadd x s) t s.
  Definition sinter (s t : list A) : list A := filter (fun x => mem x t) s.
  Definition sdiff (s t : list A) : list A := filter (fun x => negb (mem x t)) s.
  Definition ssubset (s t : list A) : bool := forallb (fun x => mem x t) s.

  Lemma In_sadd x y s : In x (sadd y s) <-> x = y \/ In x s.
  Proof.
    unfold sadd; destruct (mem_spec y s).
    - split; auto. intros [E|I]; subst; auto.
    - rewrite in_app_iff; simpl. intuition.
  Qed.
  Lemma NoDup_snoc (x : A) s : NoDup s -> ~ In x s -> NoDup (s ++ [x]).
  Proof.
    induction s; simpl; intros ND NI.
    - constructor; auto.
    - inversion ND; subst. constructor.
      + rewrite in_app_iff; simpl; intuition.
      + apply IHs; auto.
  Qed.
  Lemma NoDup_sadd x s : NoDup s -> NoDup (sadd x s).
  Proof.
    unfold sadd; destruct (mem_spec x s); auto. intros; apply NoDup_snoc; auto.
  Qed.
  Lemma In_sremove x y s : In x (sremove y s) <-> x <> y /\ In x s.
  Proof.
    unfold sremove; rewrite filter_In, negb_true_iff, eqb_neq. intuition.
  Qed.
  Lemma In_sunion x s t : In x (sunion s t) <-> In x s \/ In x t.
  Proof.
    unfold sunion; revert s; induction t; simpl; intros s.
    - tauto.
    - rewrite IHt, In_sadd. intuition.
  Qed.
  Lemma NoDup_sunion s t : NoDup s -> NoDup (sunion s t).
  Proof.
    unfold sunion; revert s; induction t; simpl; auto using NoDup_sadd.
  Qed.
  Lemma In_sinter x s t : In x (sinter s t) <-> In x s /\ In x t.
  Proof. unfold sinter; rewrite filter_In, mem_In; tauto. Qed.
  Lemma In_sdiff x s t : In x (sdiff s t) <-> In x s /\ ~ In x t.
  Proof. unfold sdiff; rewrite filter_In, negb_true_iff, mem_not_In; tauto. Qed.
  Lemma ssubset_spec s t : ssubset s t = true <-> (forall x, In x s -> In x t).
  Proof.
    unfold ssubset; rewrite forallb_forall. split; intros E x I; specialize (E x I);
    apply mem_In; auto.
  Qed.
  Lemma NoDup_filter_list (f : A -> bool) s : NoDup s -> NoDup (filter f s).
  Proof. apply NoDup_filter. Qed.
End OSet.

(** Monadic map over a list: stops at the first error (left to right). *)
Fixpoint mapM {A B} (f : A -> res B) (l : list A) : res (list B) :=
  match l with
  | [] => Ok []
  | x :: l' => bind (f x) (fun y => bind (mapM f l') (fun ys => Ok (y :: ys)))
  end.

Fixpoint foldM {A B} (f : A -> B -> res A) (l : list B) (a : A) : res A :=
  match l with
  | [] => Ok a
  | x :: l' => bind (f a x) (fun a' => foldM f l' a')
  end.

(** Decimal rendering of a natural number, as [str(n)] / f-strings produce. *)
Definition digit_char (n : nat) : ascii := ascii_of_nat (48 + n).
Fixpoint nat_to_string_aux (fuel n : nat) (acc : string) : string :=
  match fuel with
  | 0 => acc
  | S f =>
      let acc' := String (digit_char (n mod 10)) acc in
      if n / 10 =? 0 then acc' else nat_to_string_aux f (n / 10) acc'
  end.
Definition nat_to_string (n : nat) : string := nat_to_string_aux (S n) n EmptyString.
