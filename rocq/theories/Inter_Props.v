(** * Intersection of types: what users can rely on *)
From Coq Require Import List Bool String PeanoNat Lia.
From Verif Require Import PyBase Inter_Model Inter_Proofs Inter_Sound Inter_Step Inter_Main Inter_Full Inter_Total.
Import ListNotations.
Open Scope string_scope. Open Scope list_scope.
(** Type expressions Python can build: nonempty flat unions, one argument for list, Tensor and Sequence, an ellipsis only after the one element type of a tuple. *)
Definition expression : ty -> Prop := wf (fun _ => True) (fun _ => True) True.
(** Those the function supports: no generic classes beside list, tuple, Tensor and Sequence, and the class ToBeDetermined not inside a union or a tensor.
    Either no Sequence[...] occurs ... *)
Definition supported1 : ty -> Prop := wf (fun _ => True) (fun o => In o ["list"; "tuple"; "Tensor"]) False.
(** ... or no tuple without arguments. *)
Definition supported2 : ty -> Prop := wf (fun c => c <> "tuple") (fun o => In o ["list"; "tuple"; "Tensor"; "Sequence"]) False.
Definition supported (a b : ty) : Prop := (supported1 a /\ supported1 b) \/ (supported2 a /\ supported2 b).
Definition hasO (r : option ty) (v : value) : Prop := match r with Some t => has t v | None => False end.
Lemma supported_expr a b : supported a b -> expression a /\ expression b.
Proof. intros [[A B]|[A B]]; split; eapply wf_WF; eauto. Qed.
Lemma supported_sym a b : supported a b -> supported b a. Proof. unfold supported. tauto. Qed.

(** The computation ends with a result. *)
Theorem C29_total a b : expression a -> expression b -> exists r, find_intersection_type a b = Ok r.
Proof. intros A B. apply (proj1 (fuel_total _)); auto. Qed.
(** The result describes only values of both types. *)
Theorem C29_sound a b r : expression a -> expression b -> find_intersection_type a b = Ok (Some r) -> expression r /\ forall v, valid v -> has r v -> has a v /\ has b v.
Proof. intros A B E. apply (proj1 (fuel_sound _) a b r A B E). Qed.
(** Every shared value without empty lists and tuples inside belongs to the result; in particular there is one. *)
Theorem C29_complete a b r : supported a b -> find_intersection_type a b = Ok r -> forall v, valid v -> full v -> has a v -> has b v -> hasO r v.
Proof.
  intros S E v V F Ha Hb.
  assert (X : exists t, r = Some t /\ has t v).
  { destruct S as [[A B]|[A B]].
    - apply (fuel_complete (fun _ => True) (fun o => In o ["list"; "tuple"; "Tensor"]) Logic.I Logic.I Logic.I) with (6 := E); auto; [cbn; auto|cbn; intros; tauto|cbn; intuition discriminate].
    - apply (fuel_complete (fun c => c <> "tuple") (fun o => In o ["list"; "tuple"; "Tensor"; "Sequence"])) with (9 := E); auto; try discriminate; [cbn; auto|cbn; intros; tauto]. }
  destruct X as (t & -> & H). exact H.
Qed.
(** An inconsistency is reported only if no such value is shared. *)
Theorem C29_none a b : supported a b -> find_intersection_type a b = Ok None -> ~ exists v, valid v /\ full v /\ has a v /\ has b v.
Proof. intros S E (v & V & F & Ha & Hb). exact (C29_complete a b None S E v V F Ha Hb). Qed.
(** Symmetric in meaning *)
Theorem C29_symmetric a b : supported a b -> exists r1 r2, find_intersection_type a b = Ok r1 /\ find_intersection_type b a = Ok r2 /\ forall v, valid v -> full v -> (hasO r1 v <-> hasO r2 v).
Proof.
  intros S. destruct (supported_expr a b S) as [A B]. destruct (C29_total a b A B) as [r1 E1]. destruct (C29_total b a B A) as [r2 E2]. exists r1, r2. split; [auto|]. split; [auto|].
  assert (K : forall a b r, expression a -> expression b -> find_intersection_type a b = Ok r -> forall v, valid v -> hasO r v -> has a v /\ has b v) by (intros a' b' [t|] A' B' E v V H; [apply (C29_sound a' b' t A' B' E); auto|destruct H]).
  intros v V F. split; intros H.
  - destruct (K a b r1 A B E1 v V H). apply (C29_complete b a r2 (supported_sym _ _ S) E2); auto.
  - destruct (K b a r2 B A E2 v V H). apply (C29_complete a b r1 S E1); auto.
Qed.
(** With Any, ToBeDetermined or itself a type keeps its values. *)
Theorem C29_unchanged a b : expression a -> b = TAny \/ b = TTBD \/ b = a -> exists r s, find_intersection_type a b = Ok (Some r) /\ find_intersection_type b a = Ok (Some s) /\ forall v, valid v -> (has r v <-> has a v) /\ (has s v <-> has a v).
Proof.
  intros A Hb. destruct (squash_rec_spec (fun _ => True) (fun _ => True) True Logic.I Logic.I Logic.I Logic.I a A) as (u & Eu & _ & Su & _).
  assert (G : forall n x, inter_fuel (S n) x x = match squash_rec x with Ok r => Ok (Some r) | Err e => Err e end) by (intros; cbn [inter_fuel]; unfold inter_step; rewrite teq_refl; reflexivity).
  assert (Hf : forall x y, exists n, depth x + depth y + 2 = S n) by (intros x y; exists (depth x + depth y + 1); lia).
  assert (Top : is_top b = true -> exists r s, find_intersection_type a b = Ok (Some r) /\ find_intersection_type b a = Ok (Some s) /\ forall v, valid v -> (has r v <-> has a v) /\ (has s v <-> has a v)).
  { intros T. destruct (is_top a) eqn:Ta; [destruct a; try discriminate; destruct b; try discriminate; eexists; eexists; (split; [vm_compute; reflexivity|]); (split; [vm_compute; reflexivity|]); cbn; tauto|].
    assert (Tba : teq b a = false) by (destruct b; try discriminate; destruct a; try discriminate; reflexivity). assert (Tab : teq a b = false) by (destruct b; try discriminate; destruct a; try discriminate; reflexivity). unfold find_intersection_type. destruct (Hf a b) as [n ->]. destruct (Hf b a) as [m ->]. cbn [inter_fuel]. unfold inter_step. rewrite Tab, Tba, T, Ta, Eu.
    exists u, u. split; [reflexivity|]. split; [reflexivity|]. intros v V. split; apply Su; auto. }
  destruct Hb as [->|[->| ->]]; [apply Top; reflexivity|apply Top; reflexivity|]. exists u, u. unfold find_intersection_type. destruct (Hf a a) as [n ->]. rewrite G, Eu. split; [auto|]. split; [auto|]. intros v V. split; apply Su; auto.
Qed.
(** ** Checking values *)
(** No ToBeDetermined inside *)
Inductive known : value -> Prop :=
| k_obj c : c <> "ToBeDetermined" -> known (VObj c)
| k_list l : Forall known l -> known (VList l)
| k_tuple l : Forall known l -> known (VTuple l)
| k_range : known VRange
| k_tensor d : known (VTensor d)
| k_dict l : known (VDict l).
Section Value.
Variable K : value -> Prop.
Hypotheses (Ho : forall c, K (VObj c)) (Hl : forall l, Forall K l -> K (VList l)) (Ht : forall l, Forall K l -> K (VTuple l)) (Hr : K VRange) (Hd : forall d, K (VTensor d)) (Hm : forall l, K (VDict l)).
Fixpoint value_ind' (v : value) : K v :=
  let all := fix all (l : list value) : Forall K l := match l with [] => Forall_nil K | t :: l => Forall_cons t (value_ind' t) (all l) end in
  match v with VObj c => Ho c | VList l => Hl l (all l) | VTuple l => Ht l (all l) | VRange => Hr | VTensor d => Hd d | VDict l => Hm l end.
End Value.
Section Find.
Variables (P Q : string -> Prop).
Hypotheses (Pi : forall c, c <> "tuple" -> P c) (Qt : Q "Tensor") (Ql : Q "list") (Qp : Q "tuple").
Lemma find_type_spec v : valid v -> full v -> known v -> exists t, find_type v = Ok t /\ wf P Q False t /\ t <> TTBD /\ has t v.
Proof.
  induction v as [c|l IH|l IH| |d|l] using value_ind'; intros V F N.
  - inversion V; inversion N; subst. cbn. destruct (String.eqb_spec c "ToBeDetermined"); [congruence|]. eexists. split; [reflexivity|]. split; [constructor; apply Pi; intros ->; cbn in *; tauto|]. split; [discriminate|reflexivity].
  - assert (X : exists ts, each find_type l = Ok ts /\ Forall2 (fun v t => wf P Q False t /\ t <> TTBD /\ has t v) l ts).
    { inversion V; inversion N; subst. apply full_list in F as [F _]. clear V N. induction IH as [|v l Hv _ IHl]; [exists []; split; [reflexivity|constructor]|]. inversion F; inversion H0; inversion H2; subst. destruct Hv as (t & Et & Ht); auto. destruct IHl as (ts & Es & Hs); auto. exists (t :: ts). cbn. rewrite Et. cbn. rewrite Es. auto. }
    destruct X as (ts & Es & Fs). apply full_list in F as [_ Nl]. assert (Nts : ts <> []) by (intros ->; inversion Fs; congruence).
    assert (Ft : Forall (wf P Q False) ts /\ ~ In TTBD ts). { clear - Fs. induction Fs as [|v t l ts (A & B & _) _ [C D]]; [split; [constructor|intros []]|]. split; [auto|]. intros [->|X]; auto. } destruct Ft as [Ft Nt].
    destruct (wf_reduce P Q False ts Nts Ft) as (u & Eu & Wu & Xu).
    { right. exact Nt. }
    destruct (squash_spec P Q False) with (t := u) as (w & Ew & Ww & _ & Sw & _); auto; try (apply Pi; discriminate).
    exists (TGen "list" [w]). cbn [find_type]. rewrite Es. cbn [bind]. rewrite Eu. cbn [bind]. rewrite Ew. split; [reflexivity|]. split; [apply w_single; auto; [cbn; auto|discriminate]|]. split; [discriminate|]. apply has_list. exists l, w. split; [auto|]. split; [auto|]. inversion V as [|? Vl| | | |]; subst. rewrite Forall_forall in *. intros v Hv. apply (Sw v (Vl v Hv)). apply (has_reduce ts u v Eu).
    clear - Fs Hv. induction Fs as [|v0 t l ts (_ & _ & A) _ IH]; [destruct Hv|]. apply hasU_cons. destruct Hv as [->|Hv]; auto.
  - assert (X : exists ts, each find_type l = Ok ts /\ Forall2 (fun v t => wf P Q False t /\ t <> TTBD /\ has t v) l ts).
    { inversion V; inversion N; subst. apply full_tuple in F as [F _]. clear V N. induction IH as [|v l Hv _ IHl]; [exists []; split; [reflexivity|constructor]|]. inversion F; inversion H0; inversion H2; subst. destruct Hv as (t & Et & Ht); auto. destruct IHl as (ts & Es & Hs); auto. exists (t :: ts). cbn. rewrite Et. cbn. rewrite Es. auto. }
    destruct X as (ts & Es & Fs). exists (TGen "tuple" ts). cbn [find_type]. rewrite Es. split; [reflexivity|]. assert (Z : zip ts l) by (clear - Fs; induction Fs as [|v t l ts (_ & _ & A) _ IH]; cbn; auto). split; [apply w_tuple; [auto|]; clear - Fs; induction Fs as [|v t l ts (A & _) _ IH]; auto|]. split; [discriminate|]. apply has_tuple_zip; [eapply zip_no_dots; eauto|auto].
  - eexists. split; [reflexivity|]. split; [constructor; apply Pi; discriminate|]. split; [discriminate|reflexivity].
  - eexists. split; [reflexivity|]. split; [apply w_single; [cbn; auto|auto|constructor; apply Pi; inversion V as [| | | |? D|]; subst; cbn in D; intuition congruence|left; discriminate]|]. split; [discriminate|]. apply has_tensor. exists d, (TClass d). split; [auto|]. split; [auto|reflexivity].
  - eexists. split; [reflexivity|]. split; [constructor; apply Pi; discriminate|]. split; [discriminate|reflexivity].
Qed.
End Find.
(** A value of the type passes the check. *)
Theorem C29_isinstance v t : supported1 t \/ supported2 t -> valid v -> full v -> known v -> has t v -> enhanced_isinstance v t = Ok true.
Proof.
  intros S V F N H. unfold enhanced_isinstance.
  assert (X : exists u, find_type v = Ok u /\ supported u t /\ has u v).
  { destruct S as [S|S].
    - destruct (find_type_spec (fun _ => True) (fun o => In o ["list"; "tuple"; "Tensor"]) (fun _ _ => Logic.I) (or_intror (or_intror (or_introl eq_refl))) (or_introl eq_refl) (or_intror (or_introl eq_refl)) v V F N) as (u & E & W & _ & Hu). exists u. split; [auto|]. split; [left; auto|auto].
    - destruct (find_type_spec (fun c => c <> "tuple") (fun o => In o ["list"; "tuple"; "Tensor"; "Sequence"]) (fun _ h => h) (or_intror (or_intror (or_introl eq_refl))) (or_introl eq_refl) (or_intror (or_introl eq_refl)) v V F N) as (u & E & W & _ & Hu). exists u. split; [auto|]. split; [right; auto|auto]. }
  destruct X as (u & E & Su & Hu). rewrite E. cbn [bind]. destruct (supported_expr u t Su) as [A B]. destruct (C29_total u t A B) as [r Er]. pose proof (C29_complete u t r Su Er v V F Hu H) as Y. rewrite Er. cbn. destruct r; [reflexivity|destruct Y].
Qed.
(** ** Examples *)
Definition int := TClass "int". Definition float := TClass "float". Definition str := TClass "str".
(** list[int | str] | tuple[int, ...] | range  and  Sequence[int | float] *)
Definition ex1 : ty := TUnion [TGen "list" [TUnion [int; str]]; TGen "tuple" [int; TDots]; TClass "range"].
Definition ex2 : ty := TGen "Sequence" [TUnion [int; float]].
Ltac wf_tac := repeat match goal with
  | |- Inter_Sound.wf _ _ _ (TGen "tuple" [_; TDots]) => apply w_dots; [cbn; auto 6|]
  | |- Inter_Sound.wf _ _ _ (TGen "tuple" _) => apply w_tuple; [cbn; auto 6|repeat (apply Forall_cons || apply Forall_nil)]
  | |- Inter_Sound.wf _ _ _ (TGen _ _) => apply w_single; [cbn; auto 6|cbn; auto 6| |try discriminate; left; discriminate]
  | |- Inter_Sound.wf _ _ _ (TUnion _) => apply w_union; [discriminate|repeat (apply Forall_cons || apply Forall_nil)|repeat constructor|cbn; intuition discriminate]
  | |- Inter_Sound.wf _ _ _ _ => constructor; try discriminate; auto
  end; try discriminate; auto.
Example ex_supported : supported ex1 ex2.
Proof. right. split; unfold supported2, ex1, ex2, int, str, float; wf_tac; try (cbn; auto 6; fail). Qed.
Example C29_total_example : find_intersection_type ex1 ex2 = Ok (Some (TUnion [TClass "range"; TGen "list" [int]; TGen "tuple" [int; TDots]])).
Proof. vm_compute. reflexivity. Qed.
Example C29_complete_example : valid (VTuple [VObj "int"; VObj "int"]) /\ full (VTuple [VObj "int"; VObj "int"]) /\ has ex1 (VTuple [VObj "int"; VObj "int"]) /\ has ex2 (VTuple [VObj "int"; VObj "int"]).
Proof.
  split; [repeat constructor; cbn; intuition discriminate|]. split; [repeat constructor|]. split; [cbn; right; left; left; split; [auto|repeat constructor]|]. cbn. right. split; [auto|]. repeat constructor; left; reflexivity.
Qed.
Example C29_none_example : supported (TGen "list" [int]) (TGen "tuple" [int; TDots]) /\ find_intersection_type (TGen "list" [int]) (TGen "tuple" [int; TDots]) = Ok None.
Proof. split; [left; split; unfold supported1, int; wf_tac|vm_compute; reflexivity]. Qed.
Example C29_unchanged_example : find_intersection_type (TGen "list" [TUnion [TClass "Tensor"; int]]) TAny = Ok (Some (TGen "list" [TUnion [all_tensor; int]])).
Proof. vm_compute. reflexivity. Qed.
Example C29_isinstance_example : enhanced_isinstance (VTuple [VObj "int"; VList [VObj "int"; VObj "float"]]) (TGen "tuple" [int; ex2]) = Ok true /\ has (TGen "tuple" [int; ex2]) (VTuple [VObj "int"; VList [VObj "int"; VObj "float"]]).
Proof. split; [vm_compute; reflexivity|]. cbn. left. split; [auto|]. split; [auto|]. split; [|auto]. split; [auto|]. apply Forall_cons; [left; reflexivity|]. apply Forall_cons; [right; left; reflexivity|constructor]. Qed.
(** ** Findings *)
(** Empty containers: the shared () of tuple[()] and tuple[int, ...] and the shared [] of list[int] and list[str] are reported as inconsistencies. *)
Theorem C29_empty_refuted :
  (has (TGen "tuple" []) (VTuple []) /\ has (TGen "tuple" [int; TDots]) (VTuple []) /\ find_intersection_type (TGen "tuple" []) (TGen "tuple" [int; TDots]) = Ok None) /\
  (has (TGen "list" [int]) (VList []) /\ has (TGen "list" [str]) (VList []) /\ find_intersection_type (TGen "list" [int]) (TGen "list" [str]) = Ok None).
Proof. repeat split; try (vm_compute; reflexivity); cbn; try (left; split; [reflexivity|constructor]); auto. Qed.
(** tuple with Sequence[int] leaves only tuples of one element. *)
Theorem C29_tuple_refuted : has (TClass "tuple") (VTuple [VObj "int"; VObj "int"]) /\ has (TGen "Sequence" [int]) (VTuple [VObj "int"; VObj "int"]) /\ exists r, find_intersection_type (TClass "tuple") (TGen "Sequence" [int]) = Ok (Some r) /\ ~ has r (VTuple [VObj "int"; VObj "int"]).
Proof. split; [reflexivity|]. split; [cbn; right; split; [auto|repeat constructor]|]. eexists. split; [vm_compute; reflexivity|]. cbn. intros [[_ [_ []]]|[X _]]; discriminate X. Qed.
(** Two dict types are compatible only if equal. *)
Theorem C29_dict_refuted : has (TGen "dict" [str; int]) (VDict [(VObj "str", VObj "int")]) /\ has (TGen "dict" [str; TUnion [int; float]]) (VDict [(VObj "str", VObj "int")]) /\ find_intersection_type (TGen "dict" [str; int]) (TGen "dict" [str; TUnion [int; float]]) = Ok None.
Proof. split; [cbn; repeat (split; [auto; discriminate|]); repeat constructor|]. split; [cbn; split; [auto|]; split; [discriminate|]; repeat constructor|vm_compute; reflexivity]. Qed.
(** ToBeDetermined, compatible with everything alone, is an ordinary class inside a union. *)
Theorem C29_tbd_refuted : find_intersection_type TTBD str = Ok (Some str) /\ find_intersection_type (TUnion [int; TTBD]) str = Ok None.
Proof. split; vm_compute; reflexivity. Qed.
(** A list passes as list[int] though only some of its elements are integers. *)
Theorem C29_isinstance_refuted : enhanced_isinstance (VList [VObj "int"; VObj "str"]) (TGen "list" [int]) = Ok true /\ ~ has (TGen "list" [int]) (VList [VObj "int"; VObj "str"]).
Proof. split; [vm_compute; reflexivity|]. cbn. intros [_ F]. inversion F as [|? ? _ F2]; subst. inversion F2 as [|? ? X _]; subst. discriminate X. Qed.
(** The empty list has no type. *)
Theorem C29_isinstance_empty_refuted : has (TGen "list" [int]) (VList []) /\ enhanced_isinstance (VList []) (TGen "list" [int]) = Err TypeError.
Proof. split; [cbn; auto|vm_compute; reflexivity]. Qed.
Print Assumptions C29_total.
Print Assumptions C29_sound.
Print Assumptions C29_complete.
Print Assumptions C29_none.
Print Assumptions C29_symmetric.
Print Assumptions C29_unchanged.
Print Assumptions C29_isinstance.
Print Assumptions C29_empty_refuted.
Print Assumptions C29_tuple_refuted.
Print Assumptions C29_dict_refuted.
Print Assumptions C29_tbd_refuted.
Print Assumptions C29_isinstance_refuted.
Print Assumptions C29_isinstance_empty_refuted.
