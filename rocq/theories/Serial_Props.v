(** * C34, C35: saved types and shapes are loaded again *)
From Coq Require Import List Bool String Ascii ZArith Lia.
From Verif Require Import PyBase Serial_Model.
Import ListNotations.
Open Scope string_scope. Open Scope list_scope.

(** ** Types: specification *)
Definition generic (s : string) : Prop := s = "list" \/ s = "Tensor" \/ s = "tuple" \/ s = "dict".
Definition plain (s : string) : Prop := s = "float" \/ s = "int" \/ s = "bool" \/ s = "str".
Definition class_name (s : string) : Prop := generic s \/ plain s.
(** Types Python can form: unions have at least two members, different from each other and no unions themselves; list and Tensor have one
    argument; the ellipsis occurs only as an argument of other generic classes; plain classes take no arguments. *)
Section Types.
Variable same : ty -> ty -> bool.
Definition no_union (t : ty) : Prop := match t with TUnion _ | TDots => False | _ => True end.
Inductive formed : ty -> Prop :=
| f_class n : n <> "..." -> formed (TClass n)
| f_union l : 2 <= List.length l -> Forall formed l -> Forall no_union l -> ForallOrdPairs (fun t t' => same t' t = false) l -> formed (TUnion l)
| f_single o t : o = "list" \/ o = "Tensor" -> formed t -> t <> TDots -> formed (TGeneric o [t])
| f_generic o l : o <> "list" -> o <> "Tensor" -> ~ plain o -> o <> "..." -> Forall formed l -> formed (TGeneric o l)
| f_dots : formed TDots.
(** All names are in the table. *)
Inductive supported : ty -> Prop :=
| s_class n : class_name n -> supported (TClass n)
| s_union l : Forall supported l -> supported (TUnion l)
| s_generic o l : generic o -> Forall supported l -> supported (TGeneric o l)
| s_dots : supported TDots.

(** ** Proofs *)
Section Ind.
Variable P : ty -> Prop.
Hypotheses (Hc : forall n, P (TClass n)) (Hu : forall l, Forall P l -> P (TUnion l)) (Hg : forall o l, Forall P l -> P (TGeneric o l)) (Hd : P TDots).
Fixpoint ty_ind' (t : ty) : P t :=
  let all := fix all (l : list ty) : Forall P l := match l with [] => Forall_nil P | t :: l => Forall_cons t (ty_ind' t) (all l) end in
  match t with TClass n => Hc n | TUnion l => Hu l (all l) | TGeneric o l => Hg o l (all l) | TDots => Hd end.
End Ind.
Lemma union_snoc l t : 1 <= List.length l -> no_union t -> Forall no_union l -> (forall u, In u l -> same t u = false) -> or_type same (match l with [x] => x | l => TUnion l end) t = Ok (TUnion (l ++ [t])).
Proof.
  intros L Nt Nl Sm. assert (Add : add_member same l t = l ++ [t]). { unfold add_member. destruct (existsb (same t) l) eqn:E; [|auto]. apply existsb_exists in E as (u & Hu & Eu). rewrite Sm in Eu by auto. discriminate. }
  assert (Mt : members t = [t]) by (destruct t; auto; contradiction). assert (Ml : forall x, x = (match l with [x] => x | l => TUnion l end) -> x <> TDots /\ members x = l). { intros x ->. destruct l as [|a [|b l]]; [cbn in L; lia| |split; [discriminate|auto]]. inversion Nl as [|? ? Na _]; subst. destruct a; try contradiction; (split; [discriminate|auto]). }
  destruct (Ml _ eq_refl) as [Nd Mx]. remember (match l with [x] => x | l => TUnion l end) as x eqn:Ex. unfold or_type. assert (R : match fold_left (add_member same) (members t) (members x) with [t0] => t0 | l0 => TUnion l0 end = TUnion (l ++ [t])). { rewrite Mt, Mx. cbn [fold_left]. rewrite Add. destruct l as [|a [|b l]]; [cbn in L; lia|auto|auto]. }
  rewrite R. destruct x; try congruence; destruct t; auto; contradiction.
Qed.
Lemma pairs_split (R : ty -> ty -> Prop) l1 t l2 : ForallOrdPairs R (l1 ++ t :: l2) -> forall u, In u l1 -> R u t.
Proof. induction l1 as [|a l1 IH]; cbn [app]; intros F u Hu; [contradiction|]. inversion F as [|? ? Ra Rl]; subst. destruct Hu as [->|Hu]; [|auto]. rewrite Forall_forall in Ra. apply Ra. apply in_or_app. right. left. auto. Qed.
Lemma create_union_spec l : 2 <= List.length l -> Forall no_union l -> ForallOrdPairs (fun t t' => same t' t = false) l -> create_union same l = Ok (TUnion l).
Proof.
  intros L Nu Sm. assert (Gen : forall r l0, 1 <= List.length l0 -> l = l0 ++ r -> foldM (or_type same) r (match l0 with [x] => x | l => TUnion l end) = Ok (match l with [x] => x | l => TUnion l end)).
  { induction r as [|t r IH]; intros l0 L0 E; cbn [foldM]; [rewrite app_nil_r in E; subst; auto|]. assert (N0 : Forall no_union l0 /\ no_union t) by (rewrite E in Nu; apply Forall_app in Nu as [A B]; inversion B; auto). rewrite union_snoc; [|auto|tauto|tauto|].
    - cbn [bind]. specialize (IH (l0 ++ [t])). rewrite <- app_assoc in IH. rewrite app_length in IH. specialize (IH ltac:(cbn; lia) E). destruct l0 as [|a [|b l0]]; [cbn in L0; lia|exact IH|exact IH].
    - intros u Hu. rewrite E in Sm. apply (pairs_split _ _ _ _ Sm u Hu). }
  destruct l as [|t l]; [cbn in L; lia|]. cbn [create_union]. specialize (Gen l [t] ltac:(auto) eq_refl). cbn in Gen. rewrite Gen. destruct l; [cbn in L; lia|auto].
Qed.
Lemma each_ok {A B} (f : A -> res B) l (r : list B) : Forall2 (fun x y => f x = Ok y) l r -> each f l = Ok r.
Proof. induction 1 as [|x y l r E _ IH]; cbn; [auto|]. rewrite E. cbn [bind]. rewrite IH. auto. Qed.
Lemma table_class n : class_name n -> dget n type_dict = Some (TClass n).
Proof. unfold class_name, plain, generic. intros X. decompose [or] X; subst n; vm_compute; auto. Qed.
Lemma table_none n : ~ class_name n -> n <> "..." -> dget n type_dict = None.
Proof.
  intros N D. apply dget_None. intros X. unfold type_dict, dkeys in X. cbn [map fst] in X. apply N. unfold class_name, plain, generic. repeat (destruct X as [X|X]; [subst n; auto 8; try congruence|]); auto; try (exfalso; congruence). all: try contradiction.
Qed.
Lemma each_foreign (l : list ty) r : Forall2 (fun t s => serialize_type t = Ok s) l r -> Forall (fun t => forall s, serialize_type t = Ok s -> (supported t /\ deserialize_type same s = Ok t) \/ (~ supported t /\ deserialize_type same s = Err KeyError)) l ->
  (Forall supported l /\ each (deserialize_type same) r = Ok l) \/ (~ Forall supported l /\ each (deserialize_type same) r = Err KeyError).
Proof.
  induction 1 as [|t s l r E _ IH]; intros F; [left; split; auto|]. inversion F as [|? ? F1 F2]; subst. unfold each. fold (each (deserialize_type same)). destruct (F1 s E) as [[S1 ->]|[S1 ->]].
  - destruct (IH F2) as [[S2 E2]|[S2 E2]]; cbn [bind]; rewrite E2.
    + left. split; auto.
    + right. split; [intros X; inversion X; auto|]. auto.
  - right. split; [intros X; inversion X; auto|]. auto.
Qed.
Lemma class_dec n : {class_name n} + {~ class_name n}.
Proof. unfold class_name, plain, generic. destruct (string_dec n "list"), (string_dec n "Tensor"), (string_dec n "tuple"), (string_dec n "dict"), (string_dec n "float"), (string_dec n "int"), (string_dec n "bool"), (string_dec n "str"); (left; tauto) || (right; tauto). Qed.
(** Each type is saved; it is loaded as it was or, if a name is not in the table, not at all. *)
Lemma roundtrip_spec t : formed t -> exists s, serialize_type t = Ok s /\ (match s with SList _ => exists l, t = TUnion l | _ => forall l, t <> TUnion l end) /\
  ((supported t /\ deserialize_type same s = Ok t) \/ (~ supported t /\ deserialize_type same s = Err KeyError)).
Proof.
  assert (Sub : forall l, Forall (fun t => formed t -> exists s, serialize_type t = Ok s /\ (match s with SList _ => exists l, t = TUnion l | _ => forall l, t <> TUnion l end) /\ ((supported t /\ deserialize_type same s = Ok t) \/ (~ supported t /\ deserialize_type same s = Err KeyError))) l -> Forall formed l ->
    exists r, each serialize_type l = Ok r /\ ((Forall supported l /\ each (deserialize_type same) r = Ok l) \/ (~ Forall supported l /\ each (deserialize_type same) r = Err KeyError))).
  { intros l IH Fl. assert (X : exists r, Forall2 (fun t s => serialize_type t = Ok s) l r). { clear - IH Fl. induction l as [|t l IHl]; [exists []; constructor|]. inversion IH as [|? ? I1 I2]; inversion Fl as [|? ? F1 F2]; subst. destruct (I1 F1) as (s & E & _). destruct (IHl I2 F2) as (r & Er). exists (s :: r). constructor; auto. }
    destruct X as (r & Er). exists r. split; [apply each_ok; auto|]. apply each_foreign; [auto|]. apply Forall_forall. intros u Hu s Es. rewrite Forall_forall in IH, Fl. destruct (IH u Hu (Fl u Hu)) as (s' & E' & _ & D). congruence. }
  induction t as [n|l IH|o l IH|] using ty_ind'; intros F.
  - exists (SName n). split; [auto|]. split; [discriminate|]. inversion F; subst. cbn [deserialize_type]. destruct (class_dec n) as [Y|N]; [left; rewrite table_class by auto; split; [constructor|]; auto|right]. rewrite table_none by auto. split; [intros X; inversion X; auto|auto].
  - inversion F as [|? L Fl Nl Sm| | |]; subst. destruct (Sub l IH Fl) as (r & Er & D). exists (SList r). cbn [serialize_type]. rewrite Er. cbn [bind]. split; [auto|]. split; [eauto|]. cbn [deserialize_type].
    destruct D as [[S1 ->]|[S1 ->]]; cbn [bind]; [left|right]; (split; [|auto]); [constructor; auto| |intros X; inversion X; auto]. apply create_union_spec; auto.
  - inversion F as [| |? t Ho Ft Nd|? ? N1 N2 Np Ne Fl|]; subst.
    + inversion IH as [|? ? I1 _]; subst. destruct (I1 Ft) as (s & E & Sh & D). assert (Mo : mem o ["list"; "Tensor"] = true) by (destruct Ho as [-> | ->]; auto). cbn [serialize_type]. unfold each. rewrite E. cbn [bind]. rewrite Mo. assert (Go : dget o type_dict = Some (TClass o)) by (apply table_class; unfold class_name, generic; tauto).
      assert (Sup : supported t <-> supported (TGeneric o [t])). { split; intros X; [constructor; [unfold generic; tauto|constructor; auto]|inversion X as [| |? ? _ Y|]; subst; inversion Y; auto]. }
      assert (Plain : forall s', s' = s -> (match s' with SList _ => False | _ => True end) -> (supported (TGeneric o [t]) /\ deserialize_type same (SDict o [s']) = Ok (TGeneric o [t])) \/ (~ supported (TGeneric o [t]) /\ deserialize_type same (SDict o [s']) = Err KeyError)).
      { intros s' -> _. cbn [deserialize_type]. rewrite Go. unfold each. destruct D as [[S1 ->]|[S1 ->]]; cbn [bind]; [left|right]; (split; [tauto|]); [|auto]. rewrite Mo. auto. }
      destruct s as [n|sl|k sl].
      * exists (SDict o [SName n]). split; [auto|]. split; [discriminate|]. apply Plain; cbn; auto.
      * destruct Sh as (l & ->). exists (SDict o sl). split; [auto|]. split; [discriminate|]. cbn [deserialize_type] in *. rewrite Go. destruct D as [[S1 D]|[S1 D]]; destruct (each (deserialize_type same) sl) as [ts|e] eqn:Es; cbn [bind] in *.
        -- left. split; [tauto|]. rewrite Mo, D. auto.
        -- discriminate.
        -- right. split; [tauto|]. rewrite Mo, D. auto.
        -- right. split; [tauto|]. auto.
      * exists (SDict o [SDict k sl]). split; [auto|]. split; [discriminate|]. apply Plain; cbn; auto.
    + destruct (Sub l IH Fl) as (r & Er & D). assert (Mo : mem o ["list"; "Tensor"] = false) by (apply mem_not_In; intros [X|[X|[]]]; congruence). exists (SDict o r). cbn [serialize_type]. rewrite Er. cbn [bind]. rewrite Mo. split; [auto|]. split; [discriminate|]. cbn [deserialize_type].
      destruct (class_dec o) as [Co|Co].
      * assert (Go : generic o) by (destruct Co; [auto|contradiction]). rewrite table_class by auto. destruct D as [[S1 ->]|[S1 ->]]; cbn [bind]; [left|right]; (split; [|auto]); [constructor; auto| |intros X; inversion X; auto].
        rewrite Mo. assert (Mt : mem o ["tuple"; "dict"] = true) by (destruct Go as [->|[->|[->| ->]]]; try congruence; auto). rewrite Mt. auto.
      * right. rewrite table_none by auto. split; [|auto]. intros X. inversion X; subst. apply Co. left. auto.
  - exists (SName "..."). split; [auto|]. split; [discriminate|]. left. split; [constructor|auto].
Qed.
End Types.
(** C34: for every notion of equality of types, a type built of supported classes is saved, and loading it gives back that type. *)
Theorem C34_roundtrip same t : formed same t -> supported t -> exists s, serialize_type t = Ok s /\ deserialize_type same s = Ok t.
Proof. intros F Sp. destruct (roundtrip_spec same t F) as (s & E & _ & [[_ D]|[D _]]); [eauto|contradiction]. Qed.
(** C34: a type with any other class, anywhere, is saved as well, but loading it fails with a KeyError. *)
Theorem C34_foreign same t : formed same t -> ~ supported t -> exists s, serialize_type t = Ok s /\ deserialize_type same s = Err KeyError.
Proof. intros F Sp. destruct (roundtrip_spec same t F) as (s & E & _ & [[D _]|[_ D]]); [contradiction|eauto]. Qed.
(** Hence different supported types are saved differently. *)
Theorem C34_distinct same t t' : formed same t -> supported t -> formed same t' -> supported t' -> serialize_type t = serialize_type t' -> t = t'.
Proof. intros F S F' S' E. destruct (C34_roundtrip same t F S) as (s & E1 & D1), (C34_roundtrip same t' F' S') as (s' & E2 & D2). congruence. Qed.

(** Examples: Tensor[int | float] | list[dict[str, tuple[int, ...] | tuple[()]]] | bool can be saved and loaded, with structural equality. *)
Fixpoint teq (t u : ty) : bool :=
  let all := fix all (l m : list ty) := match l, m with [], [] => true | t :: l, u :: m => teq t u && all l m | _, _ => false end in
  match t, u with TClass a, TClass b => (a =? b)%string | TUnion l, TUnion m => all l m | TGeneric o l, TGeneric o' m => (o =? o')%string && all l m | TDots, TDots => true | _, _ => false end.
Definition ex_type : ty := TUnion [TGeneric "Tensor" [TUnion [TClass "int"; TClass "float"]]; TGeneric "list" [TGeneric "dict" [TClass "str"; TUnion [TGeneric "tuple" [TClass "int"; TDots]; TGeneric "tuple" []]]]; TClass "bool"].
Ltac formed_tac := match goal with
  | |- formed _ (TGeneric "list" [_]) => apply f_single; [tauto| |discriminate]
  | |- formed _ (TGeneric "Tensor" [_]) => apply f_single; [tauto| |discriminate]
  | |- formed _ (TGeneric _ _) => apply f_generic; [discriminate|discriminate|unfold plain; intuition discriminate|discriminate|]
  | |- formed _ (TUnion _) => apply f_union; [cbn; lia| | |]
  | |- formed _ _ => constructor
  | |- Forall _ [] => constructor | |- Forall _ (_ :: _) => constructor | |- ForallOrdPairs _ _ => constructor
  | |- no_union _ => exact Logic.I | |- _ <> _ => discriminate | |- _ = false => vm_compute; reflexivity end.
Example C34_formed_example : formed teq ex_type. Proof. unfold ex_type. repeat formed_tac. Qed.
Example C34_supported_example : supported ex_type. Proof. unfold ex_type. repeat (constructor; unfold class_name, plain, generic; try tauto). Qed.
Example C34_saved_example : serialize_type ex_type = Ok (SList [SDict "Tensor" [SName "int"; SName "float"]; SDict "list" [SDict "dict" [SName "str"; SList [SDict "tuple" [SName "int"; SName "..."]; SDict "tuple" []]]]; SName "bool"]).
Proof. vm_compute; reflexivity. Qed.
(** Finding: optional values, int | None, can be declared and saved, but a model with them cannot be loaded. *)
Theorem C34_none_refuted : ~ forall t s, formed teq t -> serialize_type t = Ok s -> deserialize_type teq s = Ok t.
Proof. intros X. specialize (X (TUnion [TClass "int"; TClass "NoneType"]) _ ltac:(repeat formed_tac) eq_refl). vm_compute in X. discriminate. Qed.

(** * Shapes *)
Definition no_comma (s : string) : Prop := forall a b, s <> (a ++ "," ++ b)%string.
Definition no_dots (s : string) : Prop := forall a b, s <> (a ++ "..." ++ b)%string.
Definition plain_item (i : item) : Prop := match i with ISym s => no_dots s | IVar n => no_comma n | _ => True end.
Lemma prefix_app p s : String.prefix p s = true <-> exists b, s = (p ++ b)%string.
Proof.
  revert s. induction p as [|c p IH]; intros s; [destruct s; cbn; split; eauto|]. destruct s as [|d s]; [cbn; split; [discriminate|intros (b & X); discriminate]|].
  change (String.prefix (String c p) (String d s)) with (if ascii_dec c d then String.prefix p s else false). destruct (ascii_dec c d) as [->|N].
  - rewrite (IH s). split; intros (b & X); exists b; [subst; auto|injection X; auto].
  - split; [discriminate|intros (b & X); injection X; congruence].
Qed.
Lemma has_dots_spec s : has_dots s = true <-> exists a b, s = (a ++ "..." ++ b)%string.
Proof.
  induction s as [|c s IH].
  - cbn. split; [discriminate|]. intros (a & b & X). destruct a; discriminate.
  - change (has_dots (String c s)) with (String.prefix "..." (String c s) || has_dots s). rewrite orb_true_iff, prefix_app, IH. split.
    + intros [(b & X)|(a & b & ->)]; [exists "", b; exact X|exists (String c a), b; reflexivity].
    + intros (a & b & X). destruct a as [|d a]; [left; exists b; exact X|right]. injection X as _ X. exists a, b. exact X.
Qed.
Lemma before_comma_app n r : no_comma n -> before_comma (n ++ "," ++ r)%string = n.
Proof. induction n as [|c n IH]; intros N; [auto|]. cbn. destruct (Ascii.eqb c ",") eqn:E; [apply Ascii.eqb_eq in E; subst; destruct (N "" n eq_refl)|]. f_equal. apply IH. intros a b ->. apply (N (String c a) b). auto. Qed.
Lemma before_comma_no s : no_comma (before_comma s).
Proof. induction s as [|c s IH]; intros a b X; cbn in X; [destruct a; discriminate|]. destruct (Ascii.eqb c ",") eqn:E; [destruct a; discriminate|]. destruct a as [|d a]; [cbn in X; injection X as -> _; discriminate|]. injection X as -> X. apply (IH a b). auto. Qed.
Lemma app_assoc_s a b c : ((a ++ b) ++ c = a ++ (b ++ c))%string.
Proof. induction a as [|d a IH]; cbn; [auto|]. rewrite IH. auto. Qed.
Lemma app_nil_s a : (a ++ "" = a)%string. Proof. induction a as [|d a IH]; cbn; [auto|]. rewrite IH. auto. Qed.
Lemma item_roundtrip i : load_item (save_item i) = i <-> plain_item i.
Proof.
  destruct i as [z|s| |n]; cbn [save_item load_item plain_item]; try tauto.
  - destruct (has_dots s) eqn:E; split; intros X; try discriminate; auto.
    + apply has_dots_spec in E as (a & b & ->). destruct (X a b); auto.
    + intros a b ->. assert (has_dots (a ++ "..." ++ b)%string = true) by (apply has_dots_spec; eauto). congruence.
  - replace (has_dots (n ++ ",...")%string) with true; [split; intros X|].
    + injection X as X. rewrite <- X. apply before_comma_no.
    + f_equal. apply (before_comma_app n "..." X).
    + symmetry. apply has_dots_spec. exists (n ++ ",")%string, "". rewrite app_assoc_s. auto.
Qed.
Lemma items_roundtrip l : map load_item (map save_item l) = l <-> Forall plain_item l.
Proof. induction l as [|i l IH]; cbn; [split; auto|]. split; intros X; [injection X as E1 E2; constructor; [apply item_roundtrip; auto|tauto]|]. inversion X; subst. f_equal; [apply item_roundtrip; auto|tauto]. Qed.
Lemma fold_map {A B} (f : A -> B) (l : dict string A) acc : dwf l -> (forall k, In k (dkeys l) -> ~ In k (dkeys acc)) -> fold_left (fun d kv => dset (fst kv) (f (snd kv)) d) l acc = acc ++ map (fun kv => (fst kv, f (snd kv))) l.
Proof.
  revert acc. induction l as [|[k v] l IH]; intros acc W N; cbn [fold_left map fst snd]; [rewrite app_nil_r; auto|]. unfold dwf in W. cbn [dkeys map fst] in W. inversion W as [|? ? W1 W2]; subst.
  assert (E : dset k (f v) acc = acc ++ [(k, f v)]).
  { assert (Nk : ~ In k (dkeys acc)) by (apply N; left; auto). clear - Nk. induction acc as [|[k' v'] acc IH]; [auto|]. cbn [dkeys map fst In] in Nk. cbn [dset app]. destruct (eq_dec k k') as [->|E]; [tauto|]. rewrite IH by (unfold dkeys; tauto). reflexivity. }
  rewrite E. rewrite IH; [rewrite <- app_assoc; auto|auto|]. intros k' Hk' X. unfold dkeys in X. rewrite map_app in X. apply in_app_or in X as [X|[X|[]]]; [apply (N k'); [right|]; auto|]. cbn in X. subst. contradiction.
Qed.
(** C35: converting the templates of any number of keys to the dictionary form and back gives the same templates, exactly if the names of
    variadics have no comma and the symbols no three dots in them. *)
Theorem C35_roundtrip (shapes : dict string (list item)) : NoDup (map fst shapes) ->
  (dict_to_shape (shape_to_dict shapes) = shapes <-> forall k l i, In (k, l) shapes -> In i l -> plain_item i).
Proof.
  intros W. unfold dict_to_shape, shape_to_dict. assert (K : forall A B (f : A -> B) (d : dict string A), map fst (map (fun kv => (fst kv, f (snd kv))) d) = map fst d) by (intros; rewrite map_map; auto).
  rewrite (fold_map (map save_item)); [|auto|intros k _ []]. rewrite (fold_map (map load_item)); [|unfold dwf, dkeys; cbn [app]; rewrite K; auto|intros k _ []]. cbn [app]. rewrite map_map. cbn [fst snd]. clear.
  induction shapes as [|[k l] d IH]; cbn [map fst snd]; [split; [intros _ k l i []|auto]|]. split.
  - intros X. injection X as E1 E2. apply items_roundtrip in E1. rewrite Forall_forall in E1. intros k' l' i [Y|Y] Hi; [injection Y as <- <-; auto|]. apply (proj1 IH E2 k' l'); auto.
  - intros X. f_equal; [f_equal; apply items_roundtrip; apply Forall_forall; intros i Hi; apply (X k l i); auto; left; auto|]. apply IH. intros k' l' i Y. apply (X k' l'). right. auto.
Qed.
(** The shapes a template stands for, by their rank *)
Definition has_var (l : list item) : Prop := exists n, In (IVar n) l.
Definition rank_ok (l : list item) (r : nat) : Prop := (has_var l /\ List.length l <= S r) \/ (~ has_var l /\ List.length l = r).
(** C35, finding: assigned shapes are reloaded unchanged only without variadics; a template with one is always reloaded as one of a fixed rank. *)
Theorem C35_assigned l : (reload_assigned (save_assigned l) = l <-> ~ has_var l) /\ forall r, rank_ok (reload_assigned (save_assigned l)) r <-> r = List.length l.
Proof.
  assert (NV : ~ has_var (reload_assigned (save_assigned l))). { intros (n & X). unfold reload_assigned, save_assigned in X. rewrite map_map in X. apply in_map_iff in X as (i & E & _). destruct i; discriminate. }
  split; [split|].
  - intros E. rewrite <- E. auto.
  - clear NV. intros NV. induction l as [|i l IH]; [auto|]. cbn. fold (save_assigned l). fold (reload_assigned (save_assigned l)). rewrite IH; [|intros (n & X); apply NV; exists n; right; auto]. destruct i; auto. destruct NV. eexists. left. eauto.
  - intros r. assert (L : List.length (reload_assigned (save_assigned l)) = List.length l) by (unfold reload_assigned, save_assigned; rewrite map_map, map_length; auto). unfold rank_ok. rewrite L. intuition auto.
Qed.
Theorem C35_assigned_refuted : ~ forall l, reload_assigned (save_assigned l) = l.
Proof. intros X. specialize (X [IVar "batch"; IInt 3]). vm_compute in X. discriminate. Qed.
Theorem C35_rank_refuted : ~ forall l r, rank_ok l r -> rank_ok (reload_assigned (save_assigned l)) r.
Proof. intros X. specialize (X [IVar "batch"; IInt 3] 4). apply (proj2 (C35_assigned _)) in X; [cbn in X; lia|]. left. split; [exists "batch"; left; auto|cbn; lia]. Qed.
(** Examples *)
Example C35_example : dict_to_shape (shape_to_dict [("x", [IVar "V"; IInt 3; ISym "a"; INone]); ("y", [])]) = [("x", [IVar "V"; IInt 3; ISym "a"; INone]); ("y", [])] /\
  shape_to_dict [("x", [IVar "V"; IInt 3; ISym "a"; INone]); ("y", [])] = [("x", [VStr "V,..."; VInt 3; VStr "a"; VNone]); ("y", [])].
Proof. split; vm_compute; reflexivity. Qed.
Example C35_plain_example : plain_item (IVar "V") /\ plain_item (ISym "a.b").
Proof. split; intros a b X; [destruct a as [|? [|? a]]; discriminate|]. destruct a as [|? [|? [|? [|? a]]]]; discriminate. Qed.
Example C35_comma_example : dict_to_shape (shape_to_dict [("x", [IVar "a,b"])]) = [("x", [IVar "a"])]. Proof. vm_compute; reflexivity. Qed.

Print Assumptions C34_roundtrip.
Print Assumptions C34_foreign.
Print Assumptions C34_distinct.
Print Assumptions C34_none_refuted.
Print Assumptions C35_roundtrip.
Print Assumptions C35_assigned.
Print Assumptions C35_assigned_refuted.
Print Assumptions C35_rank_refuted.
