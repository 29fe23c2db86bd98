(** * Meaning of types and of the operations on them *)
From Coq Require Import List Bool String PeanoNat Lia.
From Verif Require Import PyBase Inter_Model.
Import ListNotations.
Open Scope string_scope. Open Scope list_scope.

Definition class_of (v : value) : string := match v with VObj c => c | VList _ => "list" | VTuple _ => "tuple" | VRange => "range" | VTensor _ => "Tensor" | VDict _ => "dict" end.
(** Membership *)
Fixpoint has (t : ty) (v : value) {struct t} : Prop :=
  let zip := fix zip (ts : list ty) (vs : list value) {struct ts} := match ts, vs with [], [] => True | t :: ts, v :: vs => has t v /\ zip ts vs | _, _ => False end in
  match t with
  | TAny | TTBD => True
  | TDots => False
  | TClass c => c = class_of v
  | TUnion l => (fix any (ts : list ty) := match ts with [] => False | t :: ts => has t v \/ any ts end) l
  | TGen o args =>
      match v with
      | VObj _ => False
      | VList vs => match args with [t] => (o = "list" \/ o = "Sequence") /\ Forall (has t) vs | _ => False end
      | VTuple vs => (o = "tuple" /\ match args with [t; TDots] => Forall (has t) vs | _ => zip args vs end) \/ (o = "Sequence" /\ match args with [t] => Forall (has t) vs | _ => False end)
      | VRange => match args with [t] => o = "Sequence" /\ has t (VObj "int") | _ => False end
      | VTensor d => match args with [t] => o = "Tensor" /\ has t (VObj d) | _ => False end
      | VDict kvs => match args with [k; w] => o = "dict" /\ w <> TDots /\ Forall (fun p => has k (fst p) /\ has w (snd p)) kvs | _ => False end
      end
  end.
Definition containers := ["list"; "tuple"; "range"; "Tensor"; "dict"].
(** Values that exist: containers are no plain objects, tensors have one of three dtypes. *)
Inductive valid : value -> Prop :=
| v_obj c : ~ In c containers -> valid (VObj c)
| v_list l : Forall valid l -> valid (VList l)
| v_tuple l : Forall valid l -> valid (VTuple l)
| v_range : valid VRange
| v_tensor d : In d ["int"; "float"; "bool"] -> valid (VTensor d)
| v_dict l : Forall (fun p => valid (fst p) /\ valid (snd p)) l -> valid (VDict l).

Section Ind.
Variable P : ty -> Prop.
Hypotheses (Ha : P TAny) (Hb : P TTBD) (Hc : forall n, P (TClass n)) (Hu : forall l, Forall P l -> P (TUnion l)) (Hg : forall o l, Forall P l -> P (TGen o l)) (Hd : P TDots).
Fixpoint ty_ind' (t : ty) : P t :=
  let all := fix all (l : list ty) : Forall P l := match l with [] => Forall_nil P | t :: l => Forall_cons t (ty_ind' t) (all l) end in
  match t with TAny => Ha | TTBD => Hb | TClass n => Hc n | TUnion l => Hu l (all l) | TGen o l => Hg o l (all l) | TDots => Hd end.
End Ind.
Definition hasU (l : list ty) (v : value) : Prop := exists t, In t l /\ has t v.
Lemma has_union l v : has (TUnion l) v <-> hasU l v.
Proof. unfold hasU. cbn. induction l as [|t l IH]; [split; [tauto|intros (? & [] & _)]|]. rewrite IH. split; [intros [X|(u & A & B)]; [exists t|exists u]; cbn; auto|]. intros (u & [->|A] & B); eauto. Qed.
Definition zip := fix zip (ts : list ty) (vs : list value) {struct ts} := match ts, vs with [], [] => True | t :: ts, v :: vs => has t v /\ zip ts vs | _, _ => False end.
Lemma has_tuple_dots t vs : has (TGen "tuple" [t; TDots]) (VTuple vs) <-> Forall (has t) vs.
Proof. cbn. split; [intros [[_ X]|[X _]]; [auto|discriminate]|auto]. Qed.
Lemma has_tuple_zip l vs : (forall t, l <> [t; TDots]) -> (has (TGen "tuple" l) (VTuple vs) <-> zip l vs).
Proof. intros N. cbn. destruct l as [|a [|b l]]; [intuition congruence|intuition congruence|]. destruct b; destruct l; intuition congruence. Qed.
(** Equality of types *)
Definition teqs := fix all (l m : list ty) := match l, m with [], [] => true | t :: l, u :: m => teq t u && all l m | _, _ => false end.
Lemma teq_union l m : teq (TUnion l) (TUnion m) = true -> (forall x, In x l -> exists y, In y m /\ teq x y = true) /\ (forall y, In y m -> exists x, In x l /\ teq x y = true).
Proof. cbn. intros X. apply andb_true_iff in X as [A B]. rewrite forallb_forall in A, B. split; intros x Hx; [specialize (A x Hx); apply existsb_exists in A|specialize (B x Hx); apply existsb_exists in B]; auto. Qed.
Lemma teq_refl t : teq t t = true.
Proof.
  induction t as [| |n|l IH|o l IH|] using ty_ind'; auto.
  - cbn. apply String.eqb_refl.
  - cbn. rewrite Forall_forall in IH. apply andb_true_iff. split; apply forallb_forall; intros x Hx; apply existsb_exists; exists x; auto.
  - change (teq (TGen o l) (TGen o l)) with ((o =? o)%string && teqs l l). rewrite String.eqb_refl. cbn [andb]. induction IH as [|t l Ht _ IHl]; [auto|]. cbn. rewrite Ht. auto.
Qed.
Lemma teq_dots t u : teq t u = true -> (t = TDots <-> u = TDots).
Proof. destruct t, u; cbn; try discriminate; split; congruence. Qed.
Lemma teq_sem t : forall u, teq t u = true -> forall v, has t v <-> has u v.
Proof.
  induction t as [| |n|l IH|o l IH|] using ty_ind'; intros u E.
  1-3,6: destruct u; try discriminate; try tauto; cbn in E; apply String.eqb_eq in E; subst; tauto.
  - destruct u as [| | |m| |]; try discriminate. apply teq_union in E as [A B]. intros v. rewrite !has_union. rewrite Forall_forall in IH. split.
    + intros (t & Ht & Hv). destruct (A t Ht) as (u & Hu & E). exists u. split; [auto|]. apply (IH t Ht u E). auto.
    + intros (u & Hu & Hv). destruct (B u Hu) as (t & Ht & E). exists t. split; [auto|]. apply (IH t Ht u E). auto.
  - destruct u as [| | | |o' m|]; try discriminate. change (teq (TGen o l) (TGen o' m)) with ((o =? o')%string && teqs l m) in E. apply andb_true_iff in E as [E1 E2]. apply String.eqb_eq in E1. subst o'.
    assert (F : Forall2 (fun t u => (forall v, has t v <-> has u v) /\ (t = TDots <-> u = TDots)) l m). { revert m E2. induction IH as [|t l Ht _ IHl]; intros [|u m] E2; cbn in E2; try discriminate; constructor; apply andb_true_iff in E2 as [E2 E3]; [split; [apply Ht; auto|apply teq_dots; auto]|auto]. }
    clear IH E2. assert (S : forall t u, (forall v, has t v <-> has u v) -> forall vs, Forall (has t) vs <-> Forall (has u) vs) by (intros t u X vs; split; apply Forall_impl; intros v; apply X).
    assert (L1 : forall (K : ty -> Prop), (forall t u, (forall v, has t v <-> has u v) -> K t <-> K u) -> (match l with [t] => K t | _ => False end <-> match m with [t] => K t | _ => False end)).
    { intros K HK. inversion F as [|t u l' m' [F1 _] F2]; subst; [tauto|]. inversion F2; subst; [apply HK; auto|tauto]. }
    intros [c|vs|vs| |d|kvs]; cbn [has].
    + tauto.
    + apply (L1 (fun t => (o = "list" \/ o = "Sequence") /\ Forall (has t) vs)). intros t u X. rewrite (S t u X). tauto.
    + assert (Sq : match l with [t] => Forall (has t) vs | _ => False end <-> match m with [t] => Forall (has t) vs | _ => False end) by (apply (L1 (fun t => Forall (has t) vs)); intros t u X; apply S; auto).
      assert (Tp : o = "tuple" -> (has (TGen "tuple" l) (VTuple vs) <-> has (TGen "tuple" m) (VTuple vs))).
      { intros _. assert (D : (exists t, l = [t; TDots]) \/ forall t, l <> [t; TDots]) by (destruct l as [|a [|b [|]]]; try (right; discriminate); destruct b; try (right; intros ? Y; discriminate Y); left; eauto). destruct D as [(t & ->)|D].
        - inversion F as [|? u ? m1 [F1 _] F2]; subst. inversion F2 as [|? u2 ? m2 [_ F3] F4]; subst. inversion F4; subst. rewrite (proj1 F3 eq_refl). rewrite !has_tuple_dots. apply S; auto.
        - rewrite !has_tuple_zip; auto.
          + clear - F. revert vs. induction F as [|t u l m [F1 _] _ IH]; intros [|v vs]; cbn; try tauto. rewrite (F1 v). fold (zip l) (zip m). rewrite (IH vs). tauto.
          + intros u ->. inversion F as [|t ? l1 ? [F1 _] F2]; subst. inversion F2 as [|t2 ? l2 ? [_ F3] F4]; subst. inversion F4; subst. rewrite (proj2 F3 eq_refl) in D. apply (D t). auto. }
      cbn [has] in Tp. split; (intros [[-> X]|[-> X]]; [left; split; [auto|]|right; split; [auto|tauto]]).
      * specialize (Tp eq_refl). destruct Tp as [Tp _]. destruct (Tp (or_introl (conj eq_refl X))) as [[_ Y]|[Y _]]; [exact Y|discriminate].
      * specialize (Tp eq_refl). destruct Tp as [_ Tp]. destruct (Tp (or_introl (conj eq_refl X))) as [[_ Y]|[Y _]]; [exact Y|discriminate].
    + apply (L1 (fun t => o = "Sequence" /\ has t (VObj "int"))). intros t u X. rewrite X. tauto.
    + apply (L1 (fun t => o = "Tensor" /\ has t (VObj d))). intros t u X. rewrite X. tauto.
    + inversion F as [|t u l1 m1 [F1 _] F2]; subst; [tauto|]. inversion F2 as [|t2 u2 l2 m2 [F3 D3] F4]; subst; [tauto|]. inversion F4; subst; [|tauto]. split; intros (-> & N & X); (split; [auto|]); (split; [tauto|]); eapply Forall_impl; eauto; intros p [A B]; split; try apply F1; try apply F3; auto.
Qed.
(** Sets *)
Lemma tmem_sem t s v : tmem t s = true -> has t v -> hasU s v.
Proof. intros E H. apply existsb_exists in E as (u & Hu & E). exists u. split; [auto|]. apply (teq_sem t u E). auto. Qed.
Lemma In_tmem t s : In t s -> tmem t s = true.
Proof. intros H. apply existsb_exists. exists t. split; [auto|]. apply teq_refl. Qed.
Lemma In_tadd u s t : In u (tadd s t) -> In u s \/ u = t.
Proof. unfold tadd. destruct (tmem t s); [auto|]. intros X. apply in_app_or in X as [X|[X|[]]]; auto. Qed.
Lemma In_tadd_l u s t : In u s -> In u (tadd s t).
Proof. unfold tadd. destruct (tmem t s); [auto|]. intros X. apply in_or_app. auto. Qed.
Lemma hasU_tadd s t v : hasU (tadd s t) v <-> hasU s v \/ has t v.
Proof.
  split.
  - intros (u & Hu & Hv). apply In_tadd in Hu as [Hu| ->]; [left; exists u; auto|auto].
  - intros [(u & Hu & Hv)|Hv]; [exists u; split; [apply In_tadd_l; auto|auto]|]. unfold tadd. destruct (tmem t s) eqn:E; [eapply tmem_sem; eauto|]. exists t. split; [apply in_or_app; cbn; auto|auto].
Qed.
Lemma hasU_cons t l v : hasU (t :: l) v <-> has t v \/ hasU l v.
Proof. unfold hasU. cbn. split; [intros (u & [->|H] & Hv); [auto|right; eauto]|]. intros [H|(u & H & Hv)]; eauto. Qed.
Lemma hasU_taddall l : forall s v, hasU (taddall s l) v <-> hasU s v \/ hasU l v.
Proof. induction l as [|t l IH]; intros s v; cbn; [split; [auto|intros [X|(? & [] & _)]; auto]|]. unfold taddall in IH. rewrite IH, hasU_tadd, hasU_cons. tauto. Qed.
Lemma In_taddall l : forall s u, In u (taddall s l) -> In u s \/ In u l.
Proof. induction l as [|t l IH]; intros s u X; cbn in X; [auto|]. apply IH in X as [X|X]; [|cbn; auto]. apply In_tadd in X as [X|X]; cbn; auto. Qed.
Lemma In_taddall_l l : forall s u, In u s -> In u (taddall s l).
Proof. induction l as [|t l IH]; intros s u X; cbn; [auto|]. apply IH. apply In_tadd_l. auto. Qed.
Lemma taddall_nil l s : s <> [] -> taddall s l <> [].
Proof. revert s. induction l as [|t l IH]; intros s N; cbn; [auto|]. apply IH. unfold tadd. destruct (tmem t s); [auto|]. destruct s; discriminate. Qed.
Lemma hasU_nil v : ~ hasU [] v. Proof. intros (? & [] & _). Qed.
Lemma hasU_members t v : hasU (members t) v <-> has t v.
Proof. destruct t; cbn [members]; try (rewrite hasU_cons; split; [intros [X|X]; [auto|destruct (hasU_nil v X)]|auto]). symmetry. apply has_union. Qed.
Lemma has_mk_union l v : has (mk_union l) v <-> hasU l v.
Proof. destruct l as [|a [|b l]]; cbn [mk_union]; [apply has_union| |apply has_union]. rewrite hasU_cons. split; [auto|intros [X|X]; [auto|destruct (hasU_nil v X)]]. Qed.
Lemma has_or x y v : has (or_type x y) v <-> has x v \/ has y v.
Proof. unfold or_type. rewrite has_mk_union, !hasU_taddall, !hasU_members. split; [intros [[X|X]|X]; auto; destruct (hasU_nil v X)|tauto]. Qed.
Lemma has_fold_or l : forall t v, has (fold_left or_type l t) v <-> has t v \/ hasU l v.
Proof. induction l as [|u l IH]; intros t v; cbn; [split; [auto|intros [X|X]; [auto|destruct (hasU_nil v X)]]|]. rewrite IH, has_or, hasU_cons. tauto. Qed.
Lemma has_reduce l t v : reduce_or l = Ok t -> (has t v <-> hasU l v).
Proof. destruct l as [|u l]; [discriminate|]. cbn. intros X. injection X as <-. rewrite has_fold_or, hasU_cons. tauto. Qed.
(** Generic classes *)
Lemma has_list a v : has (TGen "list" a) v <-> exists vs t, v = VList vs /\ a = [t] /\ Forall (has t) vs.
Proof.
  split.
  - intros H. destruct v as [c|vs|vs| |d|kvs]; cbn in H; [tauto| | | | |]; destruct a as [|t [|t' [|t'' a]]]; cbn in H; try tauto; try (destruct H; discriminate); try (destruct H as [[H _]|[H _]]; discriminate); try (destruct H as [[H _]|[_ H]]; [discriminate|tauto]). destruct H as [_ H]. eauto.
  - intros (vs & t & -> & -> & H). cbn. auto.
Qed.
Lemma has_tensor a v : has (TGen "Tensor" a) v <-> exists d t, v = VTensor d /\ a = [t] /\ has t (VObj d).
Proof.
  split.
  - intros H. destruct v as [c|vs|vs| |d|kvs]; cbn in H; [tauto| | | | |]; destruct a as [|t [|t' [|t'' a]]]; cbn in H; try tauto; try (destruct H; discriminate); try (destruct H as [[H _]|[H _]]; discriminate); try (destruct H as [[H|H] _]; discriminate). destruct H as [_ H]. eauto.
  - intros (vs & t & -> & -> & H). cbn. auto.
Qed.
Lemma has_seq a v : has (TGen "Sequence" a) v <-> exists t, a = [t] /\ ((exists vs, (v = VList vs \/ v = VTuple vs) /\ Forall (has t) vs) \/ (v = VRange /\ has t (VObj "int"))).
Proof.
  split.
  - intros H. destruct v as [c|vs|vs| |d|kvs]; cbn in H; [tauto| | | | |].
    + destruct a as [|t [|]]; try tauto. destruct H as [_ H]. eauto 8.
    + destruct H as [[H _]|[_ H]]; [discriminate|]. destruct a as [|t [|]]; try tauto. eauto 8.
    + destruct a as [|t [|]]; try tauto. destruct H as [_ H]. eauto.
    + destruct a as [|t [|]]; try tauto. destruct H. discriminate.
    + destruct a as [|t [|t' [|]]]; try tauto. destruct H. discriminate.
  - intros (t & -> & [(vs & [->| ->] & H)|[-> H]]); cbn; auto.
Qed.
Lemma has_tuple a v : has (TGen "tuple" a) v -> exists vs, v = VTuple vs.
Proof. intros H. destruct v as [c|vs|vs| |d|kvs]; cbn in H; [tauto| |eauto| | |]; destruct a as [|t [|t' [|t'' a]]]; cbn in H; try tauto; try (destruct H; discriminate). destruct H as [[H|H] _]; discriminate. Qed.
Lemma has_class_gen c o a v : valid v -> has (TClass c) v -> has (TGen o a) v -> (c = "list" /\ (o = "list" \/ o = "Sequence")) \/ (c = "tuple" /\ (o = "tuple" \/ o = "Sequence")) \/ (c = "range" /\ o = "Sequence") \/ (c = "Tensor" /\ o = "Tensor") \/ (c = "dict" /\ o = "dict").
Proof. intros V C H. cbn in C. subst c. destruct v as [c|vs|vs| |d|kvs]; cbn in H |- *; [tauto| | | | |]; destruct a as [|t [|t' [|t'' a]]]; tauto. Qed.
