(** * The intersection contains all shared values without empty containers *)
From Coq Require Import List Bool String PeanoNat Lia.
From Verif Require Import PyBase Inter_Model Inter_Proofs Inter_Sound Inter_Step Inter_Main.
Import ListNotations.
Open Scope string_scope. Open Scope list_scope.
Local Open Scope res_scope.
(** No list or tuple in the value is empty *)
Inductive full : value -> Prop :=
| f_obj c : full (VObj c)
| f_list v l : full v -> Forall full l -> full (VList (v :: l))
| f_tuple v l : full v -> Forall full l -> full (VTuple (v :: l))
| f_range : full VRange
| f_tensor d : full (VTensor d)
| f_dict l : full (VDict l).
Lemma zip_len l : forall vs, zip l vs -> List.length l = List.length vs.
Proof. induction l as [|t l IH]; intros [|v vs] Z; cbn in Z; try tauto. cbn. f_equal. apply IH. tauto. Qed.
Lemma zip_no_dots l vs : zip l vs -> forall t, l <> [t; TDots].
Proof. intros Z t ->. destruct vs as [|a [|b vs]]; cbn in Z; tauto. Qed.
Section Full.
Variables (P Q : string -> Prop).
Hypotheses (Pi : P "int") (Pf : P "float") (Pb : P "bool") (Qt : Q "Tensor").
Hypothesis Qo : forall o, Q o -> In o ("tuple" :: singles).
Hypothesis Qs : Q "Sequence" -> ~ P "tuple".
Notation wf := (Inter_Sound.wf P Q False).
Definition complete (I : ty -> ty -> res (option ty)) : Prop := forall a b r, wf a -> wf b -> I a b = Ok r -> forall v, valid v -> full v -> has a v -> has b v -> exists t, r = Some t /\ has t v.
Variable I : ty -> ty -> res (option ty).
Hypothesis CI : complete I.
Lemma each_zip (f : ty -> res (option ty)) (K : value -> Prop) (C : forall y r, wf y -> f y = Ok r -> forall v, valid v -> full v -> has y v -> K v -> exists t, r = Some t /\ has t v) l : Forall wf l -> forall rs vs, each f l = Ok rs -> Forall valid vs -> Forall full vs -> zip l vs -> Forall K vs -> exists ts, all_some rs = Some ts /\ zip ts vs.
Proof.
  intros W. induction W as [|t l Wt _ IH]; intros rs [|v vs] E V F Z HK; cbn in Z; try tauto.
  - cbn in E. injection E as <-. exists []. auto.
  - cbn in E. destruct (f t) as [r|] eqn:Er; [|discriminate]. cbn [bind] in E. destruct (each f l) as [rs'|] eqn:Es; [|discriminate]. cbn in E. injection E as <-. inversion V; inversion F; inversion HK; subst. destruct Z as [Z1 Z2]. destruct (C t r Wt Er v) as (u & -> & Hu); auto. destruct (IH rs' vs) as (ts & A & B); auto. exists (u :: ts). cbn. rewrite A. auto.
Qed.
Lemma each2_zip l : Forall wf l -> forall m rs vs, Forall wf m -> each2 I l m = Ok rs -> Forall valid vs -> Forall full vs -> zip l vs -> zip m vs -> exists ts, all_some rs = Some ts /\ zip ts vs.
Proof.
  intros W. induction W as [|t l Wt _ IH]; intros m rs [|v vs] Wm E V F Z1 Z2; destruct m as [|u m]; cbn in Z1, Z2; try tauto.
  - cbn in E. injection E as <-. exists []. auto.
  - cbn in E. destruct (I t u) as [r|] eqn:Er; [|discriminate]. cbn [bind] in E. destruct (each2 I l m) as [rs'|] eqn:Es; [|discriminate]. cbn in E. injection E as <-. inversion V; inversion F; inversion Wm; subst. destruct (CI t u r) with (v := v) as (w & -> & Hw); auto; try tauto. destruct (IH m rs' vs) as (ts & A & B); auto; try tauto. exists (w :: ts). cbn. rewrite A. auto.
Qed.
Lemma full_tuple vs : full (VTuple vs) -> Forall full vs /\ vs <> [].
Proof. intros F. inversion F; subst. split; [constructor; auto|discriminate]. Qed.
Lemma full_list vs : full (VList vs) -> Forall full vs /\ vs <> [].
Proof. intros F. inversion F; subst. split; [constructor; auto|discriminate]. Qed.
(** the element types of two homogeneous containers *)
Lemma elems t1 t2 r vs : wf t1 -> wf t2 -> I t1 t2 = Ok r -> Forall valid vs -> Forall full vs -> vs <> [] -> Forall (has t1) vs -> Forall (has t2) vs -> exists t, r = Some t /\ Forall (has t) vs.
Proof.
  intros W1 W2 E V F N H1 H2. rewrite Forall_forall in *. destruct vs as [|v0 vs]; [congruence|]. destruct (CI t1 t2 r W1 W2 E v0) as (t & -> & _); cbn; auto; try (apply V || apply F || apply H1 || apply H2; cbn; auto). exists t. split; [auto|]. apply Forall_forall. intros v Hv. destruct (CI t1 t2 (Some t) W1 W2 E v) as (t' & X & Y); auto. injection X as <-. auto.
Qed.
Lemma tuple_complete a1 a2 x x' vs : wf (TGen "tuple" a1) -> wf (TGen "tuple" a2) -> tuple_pair I a1 a2 x = Ok x' -> valid (VTuple vs) -> full (VTuple vs) -> has (TGen "tuple" a1) (VTuple vs) -> has (TGen "tuple" a2) (VTuple vs) -> hasU x' (VTuple vs).
Proof.
  intros W1 W2 E V F H1 H2. apply full_tuple in F as [F Nv]. assert (Vs : Forall valid vs) by (inversion V; auto). unfold tuple_pair in E.
  assert (Fin : forall common : res (option (list ty)), (let* c := common in match c with Some l => Ok (tadd x (TGen "tuple" l)) | None => Ok x end) = Ok x' -> (forall r, common = Ok r -> exists l, r = Some l /\ has (TGen "tuple" l) (VTuple vs)) -> hasU x' (VTuple vs)).
  { intros [r|e] Ec Hc; [|discriminate]. destruct (Hc r eq_refl) as (l & -> & Hl). cbn in Ec. injection Ec as <-. apply hasU_tadd. auto. }
  apply Fin in E; [auto|]. clear Fin E. intros r E.
  destruct (tuple_inv _ _ _ a1 W1) as [(t1 & -> & Wt1 & D1)|(F1 & N1 & D1)], (tuple_inv _ _ _ a2 W2) as [(t2 & -> & Wt2 & D2)|(F2 & N2 & D2)]; rewrite D1, D2 in E; cbn [andb hd_ty] in E.
  - rewrite has_tuple_dots in H1, H2. destruct (I t1 t2) as [o|] eqn:Eo; [|discriminate]. destruct (elems t1 t2 o vs) as (t & -> & Ht); auto. cbn in E. injection E as <-. eexists. split; [reflexivity|]. apply has_tuple_dots. auto.
  - rewrite has_tuple_dots in H1. rewrite has_tuple_zip in H2 by auto. destruct (each (fun y => I t1 y) a2) as [rs|] eqn:Er; [|discriminate]. destruct (each_zip (fun y => I t1 y) (has t1)) with (l := a2) (rs := rs) (vs := vs) as (ts & A & B); auto. { intros y r' Wy Ey v Vv Fv Hy H1v. exact (CI t1 y r' Wt1 Wy Ey v Vv Fv H1v Hy). } cbn in E. injection E as <-. exists ts. split; [auto|]. apply has_tuple_zip; [eapply zip_no_dots; eauto|auto].
  - rewrite has_tuple_dots in H2. rewrite has_tuple_zip in H1 by auto. destruct (each (fun y => I y t2) a1) as [rs|] eqn:Er; [|discriminate]. destruct (each_zip (fun y => I y t2) (has t2)) with (l := a1) (rs := rs) (vs := vs) as (ts & A & B); auto. { intros y r' Wy Ey v Vv Fv Hy H1v. exact (CI y t2 r' Wy Wt2 Ey v Vv Fv Hy H1v). } cbn in E. injection E as <-. exists ts. split; [auto|]. apply has_tuple_zip; [eapply zip_no_dots; eauto|auto].
  - rewrite has_tuple_zip in H1, H2 by auto. rewrite (zip_len _ _ H1), (zip_len _ _ H2), Nat.eqb_refl in E. destruct (each2 I a1 a2) as [rs|] eqn:Er; [|discriminate]. destruct (each2_zip a1 F1 a2 rs vs) as (ts & A & B); auto. cbn in E. injection E as <-. exists ts. split; [auto|]. apply has_tuple_zip; [eapply zip_no_dots; eauto|auto].
Qed.
Lemma single_complete o a1 a2 x x' v : In o singles -> wf (TGen o a1) -> wf (TGen o a2) -> single_pair I o a1 a2 x = Ok x' -> valid v -> full v -> has (TGen o a1) v -> has (TGen o a2) v -> hasU x' v.
Proof.
  intros Io W1 W2 E V F H1 H2. destruct (single_inv _ _ _ o a1 Io W1) as (t1 & -> & W1'), (single_inv _ _ _ o a2 Io W2) as (t2 & -> & W2'). cbn [single_pair] in E. destruct (I t1 t2) as [r|] eqn:Er; [|discriminate]. cbn [bind] in E.
  assert (X : exists t, r = Some t /\ has (TGen o [t]) v).
  { cbn in Io. destruct Io as [<-|[<-|[<-|[]]]].
    - apply has_list in H1 as (vs & u & -> & X & H1). injection X as <-. apply has_list in H2 as (vs' & u & X & Y & H2). injection X as <-. injection Y as <-. inversion V; subst. apply full_list in F as [F N]. destruct (elems t1 t2 r vs) as (t & -> & Ht); auto. exists t. split; [auto|]. apply has_list. eauto.
    - apply has_tensor in H1 as (d & u & -> & X & H1). injection X as <-. apply has_tensor in H2 as (d' & u & X & Y & H2). injection X as <-. injection Y as <-. inversion V; subst. destruct (CI t1 t2 r W1' W2' Er (VObj d)) as (t & -> & Ht); auto; [apply valid_dtype; auto|constructor|]. exists t. split; [auto|]. apply has_tensor. eauto.
    - apply has_seq in H1 as (u & X & H1). injection X as <-. apply has_seq in H2 as (u & X & H2). injection X as <-. destruct H1 as [(vs & Hvs & H1)|[-> H1]].
      + assert (Vs : Forall valid vs /\ Forall full vs /\ vs <> []) by (destruct Hvs as [->| ->]; inversion V; subst; (split; [auto|]); [apply full_list|apply full_tuple]; auto). assert (H2' : Forall (has t2) vs) by (destruct H2 as [(vs' & X & H2)|[-> _]]; [destruct X as [->| ->]; destruct Hvs as [Y|Y]; congruence|destruct Hvs; discriminate]). destruct (elems t1 t2 r vs) as (t & -> & Ht); try tauto. exists t. split; [auto|]. apply has_seq. eexists. split; [reflexivity|]. left. eauto.
      + destruct H2 as [(vs' & [X|X] & _)|[_ H2]]; try discriminate. destruct (CI t1 t2 r W1' W2' Er (VObj "int")) as (t & -> & Ht); auto; [apply valid_int|constructor|]. exists t. split; [auto|]. apply has_seq. eauto. }
  destruct X as (t & -> & Ht). injection E as <-. apply hasU_tadd. auto.
Qed.
Lemma wf_Q o a : wf (TGen o a) -> Q o.
Proof. intros W. inversion W; auto. Qed.
Lemma sequence_complete a1 o a2 x x' v : o <> "Sequence" -> wf (TGen "Sequence" a1) -> wf (TGen o a2) -> sequence_pair I a1 o a2 x = Ok x' -> valid v -> full v -> has (TGen "Sequence" a1) v -> has (TGen o a2) v -> hasU x' v.
Proof.
  intros No W1 W2 E V F H1 H2. unfold sequence_pair in E. destruct (single_inv _ _ _ "Sequence" a1 ltac:(cbn; auto) W1) as (u & -> & Wu). apply has_seq in H1 as (u' & X & H1). injection X as <-. pose proof (wf_Q _ _ W2) as Qo2. destruct (Qo o Qo2) as [<-|[<-|[<-|[<-|[]]]]]; [| | |congruence].
  - cbn [String.eqb Ascii.eqb Bool.eqb] in E. rewrite reduce1 in E. cbn [bind] in E. destruct (has_tuple _ _ H2) as [vs ->]. assert (H1' : Forall (has u) vs) by (destruct H1 as [(vs' & [X|X] & H1)|[X _]]; try discriminate; injection X as <-; auto). destruct (I _ _) as [r|] eqn:Er in E; [|discriminate]. destruct (CI _ _ r (w_dots _ _ _ u Qo2 Wu) W2 Er (VTuple vs)) as (t & -> & Ht); auto; [apply has_tuple_dots; auto|]. cbn in E. injection E as <-. apply hasU_tadd. auto.
  - cbn [String.eqb Ascii.eqb Bool.eqb] in E. rewrite reduce1 in E. cbn [bind] in E. apply has_list in H2 as (vs & w & -> & -> & H2). assert (H1' : Forall (has u) vs) by (destruct H1 as [(vs' & [X|X] & H1)|[X _]]; try discriminate; injection X as <-; auto). destruct (I _ _) as [r|] eqn:Er in E; [|discriminate]. destruct (CI _ _ r (w_single _ _ _ "list" u ltac:(cbn; auto) Qo2 Wu ltac:(intros X; discriminate X)) W2 Er (VList vs)) as (t & -> & Ht); auto; [apply has_list; eauto|apply has_list; eauto|]. cbn in E. injection E as <-. apply hasU_tadd. auto.
  - apply has_tensor in H2 as (d & w & -> & _). destruct H1 as [(vs' & [X|X] & H1)|[X _]]; discriminate.
Qed.
Lemma pair_complete o1 a1 o2 a2 x x' v : wf (TGen o1 a1) -> wf (TGen o2 a2) -> pair_step I (TGen o1 a1) (TGen o2 a2) x = Ok x' -> valid v -> full v -> has (TGen o1 a1) v -> has (TGen o2 a2) v -> hasU x' v.
Proof.
  intros W1 W2 E V F H1 H2. cbn [pair_step] in E. destruct (String.eqb_spec o1 o2) as [<-|No].
  - assert (Ne : forall a, wf (TGen o1 a) -> has (TGen o1 a) v -> is_nil a = false).
    { intros [|u a] W H; [|reflexivity]. exfalso. destruct (Qo o1 (wf_Q _ _ W)) as [<-|Io]; [|destruct (single_inv _ _ _ o1 [] Io W) as (? & X & _); discriminate]. destruct (has_tuple _ _ H) as [vs ->]. apply full_tuple in F as [_ Nv]. rewrite has_tuple_zip in H by discriminate. destruct vs; [congruence|]. cbn in H. auto. }
    rewrite (Ne a1 W1 H1), (Ne a2 W2 H2) in E. cbn [orb] in E. destruct (String.eqb_spec o1 "tuple") as [->|Nt].
    + destruct (has_tuple _ _ H1) as [vs ->]. exact (tuple_complete a1 a2 x x' vs W1 W2 E V F H1 H2).
    + assert (Io : In o1 singles) by (destruct (Qo o1 (wf_Q _ _ W1)) as [<-|Io]; [congruence|auto]). assert (Es : (o1 =? "list")%string || (o1 =? "Tensor")%string || (o1 =? "Sequence")%string = true) by (cbn in Io; rewrite !orb_true_iff, !String.eqb_eq; intuition congruence). rewrite Es in E. exact (single_complete o1 a1 a2 x x' v Io W1 W2 E V F H1 H2).
  - destruct (String.eqb_spec o1 "Sequence") as [->|N1]; [refine (sequence_complete a1 o2 a2 x x' v _ W1 W2 E V F H1 H2); congruence|]. destruct (String.eqb_spec o2 "Sequence") as [->|N2]; [exact (sequence_complete a2 o1 a1 x x' v N1 W2 W1 E V F H2 H1)|]. exfalso.
    assert (K : forall o a, wf (TGen o a) -> o <> "Sequence" -> has (TGen o a) v -> o = class_of v). { intros o a W N H. destruct (Qo o (wf_Q _ _ W)) as [<-|[<-|[<-|[<-|[]]]]]; [| | |congruence]; [destruct (has_tuple _ _ H) as [vs ->]|apply has_list in H as (vs & t & -> & _)|apply has_tensor in H as (d & t & -> & _)]; reflexivity. }
    apply No. rewrite (K o1 a1), (K o2 a2); auto.
Qed.
(** Nothing is taken away *)
Definition grows (x x' : list ty) : Prop := forall v, hasU x v -> hasU x' v.
Lemma grows_tadd x t : grows x (tadd x t).
Proof. intros v H. apply hasU_tadd. auto. Qed.
Lemma grows_refl x : grows x x. Proof. intros v H. auto. Qed.
Lemma pair_grows t1 t2 x x' : pair_step I t1 t2 x = Ok x' -> grows x x'.
Proof.
  intros E. destruct t1 as [| | | |o1 a1|], t2 as [| | | |o2 a2|]; try (injection E as <-; apply grows_refl). cbn [pair_step] in E.
  assert (Sq : forall a o b, sequence_pair I a o b x = Ok x' -> grows x x'). { intros a o b Es. unfold sequence_pair in Es. destruct (o =? "Tensor")%string; [injection Es as <-; apply grows_refl|]. destruct (reduce_or a) as [u|]; [|discriminate]. cbn [bind] in Es. destruct (I _ _) as [[t|]|] in Es; cbn in Es; try discriminate; injection Es as <-; [apply grows_tadd|apply grows_refl]. }
  destruct (o1 =? o2)%string; [|destruct (o1 =? "Sequence")%string; [eapply Sq; eauto|]; destruct (o2 =? "Sequence")%string; [eapply Sq; eauto|]; injection E as <-; apply grows_refl].
  destruct (is_nil a1 || is_nil a2); [injection E as <-; apply grows_refl|]. destruct (o1 =? "tuple")%string.
  - unfold tuple_pair in E. match type of E with (let* c := ?k in _) = _ => destruct k as [[l|]|] end; cbn in E; try discriminate; injection E as <-; [apply grows_tadd|apply grows_refl].
  - destruct (_ || _); [|injection E as <-; apply grows_refl]. unfold single_pair in E. destruct a1 as [|t1 [|]]; try discriminate. destruct a2 as [|t2 [|]]; try discriminate. destruct (I t1 t2) as [[t|]|]; cbn in E; try discriminate; injection E as <-; [apply grows_tadd|apply grows_refl].
Qed.
Lemma bare_step_grows o t x x' : bare_step I o x t = Ok x' -> grows x x'.
Proof.
  intros E. destruct t as [| | | |o1 a1|]; try (injection E as <-; apply grows_refl). cbn [bare_step] in E. destruct (o1 =? o)%string; [injection E as <-; apply grows_tadd|]. destruct (o1 =? "Sequence")%string; [|injection E as <-; apply grows_refl]. destruct (o =? "range")%string.
  - destruct (I _ _) as [[t|]|]; cbn in E; try discriminate; injection E as <-; [apply grows_tadd|apply grows_refl].
  - destruct (reduce_or a1) as [u|]; cbn in E; try discriminate; injection E as <-. apply grows_tadd.
Qed.
Lemma foldM_grows {A} (f : list ty -> A -> res (list ty)) l : (forall y a y', f y a = Ok y' -> grows y y') -> forall x x', foldM f l x = Ok x' -> grows x x'.
Proof. intros H. induction l as [|a l IH]; intros x x' E; cbn in E; [injection E as <-; apply grows_refl|]. destruct (f x a) as [y|] eqn:Ey; [|discriminate]. cbn in E. intros v Hv. eapply IH; eauto. eapply H; eauto. Qed.
Lemma foldM_hit {A} (f : list ty -> A -> res (list ty)) l a v : (forall y a y', f y a = Ok y' -> grows y y') -> In a l -> (forall y y', f y a = Ok y' -> hasU y' v) -> forall x x', foldM f l x = Ok x' -> hasU x' v.
Proof. intros G. induction l as [|b l IH]; intros Ha Hit x x' E; [destruct Ha|]. cbn in E. destruct (f x b) as [y|] eqn:Ey; [|discriminate]. cbn in E. destruct Ha as [->|Ha]; [|eapply IH; eauto]. eapply foldM_grows; eauto. Qed.
Lemma bare_grows s other x x' : bare I s other x = Ok x' -> grows x x'.
Proof. unfold bare. apply foldM_grows. intros y o y' E. destruct (tmem (TClass o) s); [|injection E as <-; apply grows_refl]. revert E. apply foldM_grows. intros z t z'. apply bare_step_grows. Qed.
Lemma In_tdiff_or t s x : In t s -> In t (tdiff s x) \/ tmem t x = true.
Proof. intros H. unfold tdiff. destruct (tmem t x) eqn:E; [auto|]. left. apply filter_In. rewrite E. auto. Qed.
Lemma pairs_complete s1 s2 x x' o1 a1 o2 a2 v : pairs I s1 s2 x = Ok x' -> In (TGen o1 a1) s1 -> In (TGen o2 a2) s2 -> wf (TGen o1 a1) -> wf (TGen o2 a2) -> valid v -> full v -> has (TGen o1 a1) v -> has (TGen o2 a2) v -> hasU x' v.
Proof.
  intros E I1 I2 W1 W2 V F H1 H2. unfold pairs in E.
  assert (G : forall l y a y', foldM (fun x t2 => pair_step I a t2 x) (l y) y = Ok y' -> grows y y') by (intros l y a y'; apply foldM_grows; intros z t z'; apply pair_grows).
  destruct (In_tdiff_or _ _ x I1) as [J1|J1]; [|eapply foldM_grows; [|exact E|]; [intros y a y'; apply (G (fun y => tdiff s2 y))|eapply tmem_sem; eauto]].
  refine (foldM_hit _ _ _ v _ J1 _ x x' E); [intros y a y'; apply (G (fun y => tdiff s2 y))|]. intros y y' Ey. destruct (In_tdiff_or _ _ y I2) as [J2|J2]; [|eapply (G (fun y => tdiff s2 y)); eauto; eapply tmem_sem; eauto].
  refine (foldM_hit _ _ _ v _ J2 _ y y' Ey); [intros z t z'; apply pair_grows|]. intros z z' Ez. eapply pair_complete; [exact W1|exact W2|exact Ez| | | |]; auto.
Qed.
Lemma pairs_grows s1 s2 x x' : pairs I s1 s2 x = Ok x' -> grows x x'.
Proof. unfold pairs. apply foldM_grows. intros y a y'. apply foldM_grows. intros z t z'. apply pair_grows. Qed.
Lemma bare_step_complete c o a x x' v : In c ["list"; "tuple"; "range"] -> wf (TClass c) -> wf (TGen o a) -> bare_step I c x (TGen o a) = Ok x' -> valid v -> full v -> has (TClass c) v -> has (TGen o a) v -> hasU x' v.
Proof.
  intros Ic Wc W E V F H1 H2. cbn [bare_step] in E. destruct (String.eqb_spec o c) as [->|No]; [injection E as <-; apply hasU_tadd; auto|].
  assert (Os : o = "Sequence") by (destruct (has_class_gen c o a v V H1 H2) as [[-> [|]]|[[-> [|]]|[[-> ->]|[[-> ->]|[-> ->]]]]]; try congruence). subst o. cbn [String.eqb Ascii.eqb Bool.eqb] in E. destruct (single_inv _ _ _ "Sequence" a ltac:(cbn; auto) W) as (u & -> & Wu). rewrite reduce1 in E. cbn [bind hd_ty] in E. apply has_seq in H2 as (u' & X & H2). injection X as <-. cbn in H1. destruct (String.eqb_spec c "range") as [->|Nr].
  - assert (Hu : has u (VObj "int")) by (destruct H2 as [(vs & [->| ->] & _)|[-> H2]]; [discriminate|discriminate|auto]). destruct (I (TClass "int") u) as [r|] eqn:Er; [|discriminate]. destruct (CI _ _ r (w_class _ _ _ "int" Pi) Wu Er (VObj "int")) as (t & -> & Ht); auto; [apply valid_int|constructor|reflexivity|]. cbn in E. injection E as <-. apply hasU_tadd. right. auto.
  - injection E as <-. apply hasU_tadd. right. destruct H2 as [(vs & [->| ->] & H2)|[-> H2]]; cbn in H1; [| |congruence]; subst c.
    + apply has_list. eauto.
    + exfalso. apply (Qs (wf_Q _ _ W)). inversion Wc; auto.
Qed.
Lemma bare_complete s other x x' c o a v : In c ["list"; "tuple"; "range"] -> In (TClass c) s -> In (TGen o a) other -> wf (TClass c) -> wf (TGen o a) -> bare I s other x = Ok x' -> valid v -> full v -> has (TClass c) v -> has (TGen o a) v -> hasU x' v.
Proof.
  intros Ic I1 I2 Wc W E V F H1 H2. unfold bare in E. refine (foldM_hit _ _ c v _ Ic _ x x' E).
  - intros y b y' Ey. destruct (tmem (TClass b) s); [|injection Ey as <-; apply grows_refl]. revert Ey. apply foldM_grows. intros z t z'. apply bare_step_grows.
  - intros y y' Ey. rewrite (In_tmem _ _ I1) in Ey. refine (foldM_hit _ _ _ v _ I2 _ y y' Ey); [intros z t z'; apply bare_step_grows|]. intros z z' Ez. eapply bare_step_complete; eauto.
Qed.
Lemma step_complete : complete (inter_step I).
Proof.
  intros a b r Wa Wb E v V F Ha Hb. unfold inter_step in E.
  destruct (squash_rec_spec P Q False Pi Pf Pb Qt a Wa) as (a' & Ea & Wa' & Sa & _).
  destruct (squash_rec_spec P Q False Pi Pf Pb Qt b Wb) as (b' & Eb & Wb' & Sb & _).
  destruct (teq a b) eqn:Tab. { rewrite Ea in E. cbn in E. injection E as <-. eexists. split; [reflexivity|]. apply (Sa v V). auto. }
  destruct (is_top a) eqn:Ta. { rewrite Eb in E. cbn in E. injection E as <-. eexists. split; [reflexivity|]. apply (Sb v V). auto. }
  destruct (is_top b) eqn:Tb. { rewrite Ea in E. cbn in E. injection E as <-. eexists. split; [reflexivity|]. apply (Sa v V). auto. }
  clear a' Ea Wa' Sa b' Eb Wb' Sb.
  destruct (squash_spec P Q False Pi Pf Pb Qt a Wa) as (a' & Ea & Wa' & Na & Sa & Ca).
  destruct (squash_spec P Q False Pi Pf Pb Qt b Wb) as (b' & Eb & Wb' & Nb & Sb & Cb).
  rewrite Ea, Eb in E. cbn [bind] in E. cbv zeta in E.
  set (s1 := taddall [] (members a')) in *. set (s2 := taddall [] (members b')) in *.
  set (x0 := filter (fun t => tmem t s2) s1) in *. set (x1 := if tmem TAny s1 then taddall x0 s2 else x0) in *. set (n1 := filter (fun t => negb (teq TAny t)) s1) in *. set (x2 := if tmem TAny s2 then taddall x1 n1 else x1) in *. set (n2 := filter (fun t => negb (teq TAny t)) s2) in *.
  destruct (bare I n1 n2 x2) as [x3|] eqn:E3; [|discriminate]. cbn [bind] in E. destruct (bare I n2 n1 x3) as [x4|] eqn:E4; [|discriminate]. cbn [bind] in E. destruct (pairs I n1 n2 x4) as [x5|] eqn:E5; [|discriminate]. cbn [bind] in E.
  assert (Fin : hasU x5 v). 2: { destruct x5 as [|u x5]; [destruct (hasU_nil v Fin)|]. destruct (reduce_or (u :: x5)) as [t|] eqn:Et; [|discriminate]. cbn in E. injection E as <-. exists t. split; [auto|]. apply (has_reduce _ _ v Et). auto. }
  pose proof (pairs_grows _ _ _ _ E5 v) as G5. pose proof (bare_grows _ _ _ _ E4 v) as G4. pose proof (bare_grows _ _ _ _ E3 v) as G3.
  assert (G2 : hasU x1 v -> hasU x2 v) by (subst x2; destruct (tmem TAny s2); [rewrite hasU_taddall; auto|auto]).
  assert (G1 : hasU x0 v -> hasU x1 v) by (subst x1; destruct (tmem TAny s1); [rewrite hasU_taddall; auto|auto]).
  apply (Sa v V) in Ha. apply (Sb v V) in Hb.
  assert (M : forall t', wf t' -> (t' <> TTBD \/ False) -> ~ In (TClass "Tensor") (members t') -> has t' v -> exists t, In t (taddall [] (members t')) /\ has t v /\ wf t /\ not_union t /\ t <> TTBD /\ t <> TClass "Tensor").
  { intros t' W' N' C' H'. apply hasU_members in H'. assert (H2 : hasU (taddall [] (members t')) v) by (apply hasU_taddall; auto). destruct H2 as (t & It & Ht). exists t. split; [auto|]. split; [auto|]. assert (Jt : In t (members t')) by (apply In_taddall in It as [[]|]; auto). destruct (good_members P Q False t' W') as [G G']. rewrite Forall_forall in G, G'. split; [auto|]. split; [auto|]. split; [|intros ->; auto]. intros ->. destruct t' as [| | |l|o l|]; cbn in Jt; try (destruct Jt as [Jt|[]]; try discriminate Jt; destruct N'; auto). inversion W'; auto. }
  assert (Nta : a <> TTBD) by (intros ->; discriminate). assert (Ntb : b <> TTBD) by (intros ->; discriminate).
  destruct (M a' Wa' (Na Nta) Ca Ha) as (t1 & I1 & H1 & W1 & U1 & N1 & C1). destruct (M b' Wb' (Nb Ntb) Cb Hb) as (t2 & I2 & H2 & W2 & U2 & N2 & C2). fold s1 in I1. fold s2 in I2. clear M.
  assert (A1 : t1 = TAny \/ In t1 n1) by (destruct t1; auto; right; apply filter_In; auto). assert (A2 : t2 = TAny \/ In t2 n2) by (destruct t2; auto; right; apply filter_In; auto).
  destruct A1 as [->|J1]. { apply G5, G4, G3, G2. subst x1. rewrite (In_tmem _ _ I1). apply hasU_taddall. right. exists t2. auto. }
  destruct A2 as [->|J2]. { apply G5, G4, G3. subst x2. rewrite (In_tmem _ _ I2). apply hasU_taddall. right. exists t1. auto. }
  assert (Any1 : t1 <> TAny) by (intros ->; apply filter_In in J1 as [_ X]; discriminate X). assert (Any2 : t2 <> TAny) by (intros ->; apply filter_In in J2 as [_ X]; discriminate X).
  destruct t1 as [| |c1|l1|o1 a1|]; try congruence; [|destruct U1| |cbn in H1; tauto]; (destruct t2 as [| |c2|l2|o2 a2|]; try congruence; [|destruct U2| |cbn in H2; tauto]).
  - apply G5, G4, G3, G2, G1. exists (TClass c1). split; [|auto]. apply filter_In. split; [auto|]. cbn in H1, H2. subst c1 c2. apply In_tmem. auto.
  - apply G5, G4. assert (Ic : In c1 ["list"; "tuple"; "range"]). { destruct (has_class_gen c1 o2 a2 v V H1 H2) as [[-> _]|[[-> _]|[[-> _]|[[-> _]|[-> ->]]]]]; [cbn; auto|cbn; auto|cbn; auto|congruence|]. exfalso. destruct (Qo "dict" (wf_Q _ _ W2)) as [X|[X|[X|[X|[]]]]]; discriminate. } eapply (bare_complete n1 n2 x2 x3 c1 o2 a2); eauto.
  - apply G5. assert (Ic : In c2 ["list"; "tuple"; "range"]). { destruct (has_class_gen c2 o1 a1 v V H2 H1) as [[-> _]|[[-> _]|[[-> _]|[[-> _]|[-> ->]]]]]; [cbn; auto|cbn; auto|cbn; auto|congruence|]. exfalso. destruct (Qo "dict" (wf_Q _ _ W1)) as [X|[X|[X|[X|[]]]]]; discriminate. } eapply (bare_complete n2 n1 x3 x4 c2 o1 a1); eauto.
  - eapply pairs_complete; eauto.
Qed.
End Full.
Lemma fuel_complete (P Q : string -> Prop) (Pi : P "int") (Pf : P "float") (Pb : P "bool") (Qt : Q "Tensor") (Qo : forall o, Q o -> In o ("tuple" :: singles)) (Qs : Q "Sequence" -> ~ P "tuple") n : complete P Q (inter_fuel n).
Proof. induction n as [|n IH]; cbn [inter_fuel]; [intros a b r _ _ E; discriminate|]. apply step_complete; auto. Qed.
