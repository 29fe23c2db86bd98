(** * One step of the intersection *)
From Coq Require Import List Bool String PeanoNat Lia.
From Verif Require Import PyBase Inter_Model Inter_Proofs Inter_Sound.
Import ListNotations.
Open Scope string_scope. Open Scope list_scope.

Lemma valid_dtype d : In d ["int"; "float"; "bool"] -> valid (VObj d).
Proof. intros H. constructor. cbn in *. intuition (subst; discriminate). Qed.
Lemma valid_int : valid (VObj "int"). Proof. apply valid_dtype. cbn. auto. Qed.
Definition sem_eq (t u : ty) : Prop := forall v, valid v -> (has t v <-> has u v).
Lemma Forall_sem t u vs : sem_eq t u -> Forall valid vs -> (Forall (has t) vs <-> Forall (has u) vs).
Proof. intros S V. split; intros H; rewrite Forall_forall in *; intros v Hv; apply (S v); auto. Qed.
Lemma dots_dec l : (exists t, l = [t; TDots]) \/ forall t, l <> [t; TDots].
Proof. destruct l as [|a [|b [|]]]; try (right; discriminate). destruct b; try (right; intros ? Y; discriminate Y). left; eauto. Qed.
Lemma gen_congr o l m : Forall2 (fun t u => sem_eq t u /\ (t = TDots <-> u = TDots)) l m -> sem_eq (TGen o l) (TGen o m).
Proof.
  intros F v V.
  assert (L1 : forall (K : ty -> Prop), (forall t u, sem_eq t u -> K t <-> K u) -> (match l with [t] => K t | _ => False end <-> match m with [t] => K t | _ => False end)).
  { intros K HK. inversion F as [|t u l' m' [F1 _] F2]; subst; [tauto|]. inversion F2; subst; [apply HK; auto|tauto]. }
  inversion V as [c N|vs Vs|vs Vs| |d D|kvs Vk]; subst; cbn [has].
  - tauto.
  - apply (L1 (fun t => (o = "list" \/ o = "Sequence") /\ Forall (has t) vs)). intros t u X. rewrite (Forall_sem t u vs X Vs). tauto.
  - assert (Sq : match l with [t] => Forall (has t) vs | _ => False end <-> match m with [t] => Forall (has t) vs | _ => False end) by (apply (L1 (fun t => Forall (has t) vs)); intros t u X; apply Forall_sem; auto).
    assert (Tp : has (TGen "tuple" l) (VTuple vs) <-> has (TGen "tuple" m) (VTuple vs)).
    { destruct (dots_dec l) as [(t & ->)|D].
      - inversion F as [|? u ? m1 [F1 _] F2]; subst. inversion F2 as [|? u2 ? m2 [_ F3] F4]; subst. inversion F4; subst. rewrite (proj1 F3 eq_refl). rewrite !has_tuple_dots. apply Forall_sem; auto.
      - rewrite !has_tuple_zip; auto.
        + clear - F Vs. revert vs Vs. induction F as [|t u l m [F1 _] _ IH]; intros [|v vs] Vs; cbn; try tauto. inversion Vs; subst. rewrite (F1 v) by auto. fold (zip l) (zip m). rewrite (IH vs) by auto. tauto.
        + intros u ->. inversion F as [|t ? l1 ? [F1 _] F2]; subst. inversion F2 as [|t2 ? l2 ? [_ F3] F4]; subst. inversion F4; subst. rewrite (proj2 F3 eq_refl) in D. apply (D t). auto. }
    cbn [has] in Tp. split; (intros [[-> X]|[-> X]]; [left; split; [auto|]|right; split; [auto|tauto]]).
    + destruct Tp as [Tp _]. destruct (Tp (or_introl (conj eq_refl X))) as [[_ Y]|[Y _]]; [exact Y|discriminate].
    + destruct Tp as [_ Tp]. destruct (Tp (or_introl (conj eq_refl X))) as [[_ Y]|[Y _]]; [exact Y|discriminate].
  - apply (L1 (fun t => o = "Sequence" /\ has t (VObj "int"))). intros t u X. rewrite (X _ valid_int). tauto.
  - apply (L1 (fun t => o = "Tensor" /\ has t (VObj d))). intros t u X. rewrite (X _ (valid_dtype d D)). tauto.
  - inversion F as [|t u l1 m1 [F1 _] F2]; subst; [tauto|]. inversion F2 as [|t2 u2 l2 m2 [F3 D3] F4]; subst; [tauto|]. inversion F4; subst; [|tauto].
    split; intros (-> & N & X); (split; [auto|]); (split; [tauto|]); rewrite Forall_forall in *; intros p Hp; destruct (X p Hp) as [A B]; destruct (Vk p Hp) as [C D]; (split; [apply (F1 _ C)|apply (F3 _ D)]); auto.
Qed.
Lemma each_spec {A B} (f : A -> res B) l r : each f l = Ok r -> Forall2 (fun x y => f x = Ok y) l r.
Proof. revert r. induction l as [|x l IH]; intros r E; cbn in E; [injection E as <-; constructor|]. destruct (f x) as [y|] eqn:Ex; [|discriminate]. cbn [bind] in E. fold (each f) in E. destruct (each f l) as [ys|]; [|discriminate]. cbn in E. injection E as <-. constructor; auto. Qed.
Lemma each_ok {A B} (f : A -> res B) l : (forall x, In x l -> exists y, f x = Ok y) -> exists r, each f l = Ok r.
Proof. induction l as [|x l IH]; intros H; [exists []; auto|]. destruct (H x) as [y Ey]; [left; auto|]. destruct IH as [r Er]; [intros z Hz; apply H; right; auto|]. exists (y :: r). cbn. rewrite Ey. cbn [bind]. fold (each f). rewrite Er. auto. Qed.
Section Wf.
Variables (P Q : string -> Prop) (R : Prop).
Hypotheses (Pi : P "int") (Pf : P "float") (Pb : P "bool") (Qt : Q "Tensor").
Notation wf := (wf P Q R).
Lemma class_not_tensor c : c <> "Tensor" -> squash_rec (TClass c) = Ok (TClass c).
Proof. intros N. unfold squash_rec. repeat (match goal with |- (match ?x with _ => _ end) = _ => destruct x; try reflexivity end). congruence. Qed.
Lemma wf_not_dots t : wf t -> t <> TDots. Proof. intros W ->. inversion W. Qed.
Definition regs := fix regs l := match l with [] => Ok [] | t :: l => if is_tensor t then regs l else bind (squash_rec t) (fun r => bind (regs l) (fun rs => Ok (r :: rs))) end.
(** Squashing recursively keeps the meaning. *)
Lemma squash_rec_spec t : wf t -> exists u, squash_rec t = Ok u /\ wf u /\ sem_eq u t /\ (u = TTBD -> t = TTBD \/ R).
Proof.
  induction t as [| |c|l IH|o l IH|] using ty_ind'; intros W.
  - exists TAny. split; [auto|]. split; [auto|]. split; [intros v _; tauto|discriminate].
  - exists TTBD. split; [auto|]. split; [auto|]. split; [intros v _; tauto|auto].
  - destruct (String.eqb_spec c "Tensor") as [->|N].
    + exists all_tensor. split; [reflexivity|]. split; [apply wf_all_tensor; auto|]. split; [|discriminate]. intros v V. apply (expand_spec P Q R Pi Pf Pb Qt (TClass "Tensor")); auto.
    + exists (TClass c). split; [apply class_not_tensor; auto|]. split; [auto|]. split; [intros v _; tauto|discriminate].
  - inversion W as [| | |? Ne Fl Nu Tb| | | |]; subst. destruct (tensors_of P Q R Pi Pf Pb Qt l Fl) as [T1 T2].
    assert (X : exists rs, regs l = Ok rs /\ Forall wf rs /\ (In TTBD rs -> In TTBD l \/ R) /\ (rs = [] <-> filter (fun t => negb (is_tensor t)) l = []) /\ forall v, valid v -> (hasU rs v <-> hasU (filter (fun t => negb (is_tensor t)) l) v)).
    { clear - IH Fl. induction l as [|t l IHl]; [exists []; cbn; repeat split; try tauto; auto; constructor|]. inversion IH as [|? ? I1 I2]; inversion Fl as [|? ? F1 F2]; subst. destruct (IHl I2 F2) as (rs & Er & Wr & Tr & Nr & Hr). cbn [regs]. fold regs. cbn [filter]. destruct (is_tensor t) eqn:E; cbn [negb].
      - exists rs. split; [auto|]. split; [auto|]. split; [intros X; destruct (Tr X); cbn; auto|]. auto.
      - destruct (I1 F1) as (u & Eu & Wu & Su & Tu). exists (u :: rs). rewrite Eu. cbn [bind]. rewrite Er. cbn [bind]. split; [auto|]. split; [auto|]. split; [intros [X|X]; cbn; [destruct (Tu X); auto|destruct (Tr X); auto]|]. split; [split; discriminate|]. intros v V. rewrite !hasU_cons, (Su v V), (Hr v V). tauto. }
    destruct X as (rs & Er & Wr & Tr & Nr & Hr). destruct (join_spec P Q R Qt (taddall [] (map expand (filter is_tensor l))) rs) as (u & Eu & Wu & Nt & Hu & _); auto.
    + intros X. destruct (Tr X); auto.
    + destruct l as [|x l]; [congruence|]. cbn [filter] in *. destruct (is_tensor x); cbn [negb] in *; [left; cbn; apply taddall_nil; cbn; discriminate|]. right. intros ->. destruct Nr as [Nr _]. specialize (Nr eq_refl). discriminate.
    + exists u. split; [change (squash_rec (TUnion l)) with (bind (regs l) (fun rs => squash_join (taddall [] (map expand (filter is_tensor l))) rs)); rewrite Er; exact Eu|]. split; [auto|]. split; [|intros ->; destruct Nt; auto; congruence]. intros v V. rewrite Hu, has_union, (T2 v V), (Hr v V), <- hasU_split. tauto.
  - cbn [squash_rec]. destruct (String.eqb_spec o "Tensor") as [->|N].
    + eexists. split; [reflexivity|]. split; [auto|]. split; [intros v _; tauto|discriminate].
    + fold (each squash_rec). assert (X : forall a, In a l -> exists u, squash_rec a = Ok u /\ (a = TDots /\ u = TDots \/ wf a /\ wf u /\ sem_eq u a /\ (u = TTBD -> a = TTBD \/ R))).
      { intros a Ha. rewrite Forall_forall in IH. assert (D : a = TDots \/ wf a).
        { inversion W as [| | | |? t In1 Qo Wt Nt|t Qo Wt|? Qo Wl|? ? No Qo Wl]; subst; [destruct Ha as [<-|[]]; auto|destruct Ha as [<-|[<-|[]]]; auto| |]; rewrite Forall_forall in Wl; auto. }
        destruct D as [->|D]; [exists TDots; auto|]. destruct (IH a Ha D) as (u & Eu & Wu & Su & Tu). exists u. split; [auto|]. right. auto. }
      destruct (each_ok squash_rec l) as [m Em]; [intros x Hx; destruct (X x Hx) as (u & Eu & _); eauto|]. rewrite Em. cbn [bind]. eexists. split; [reflexivity|]. pose proof (each_spec _ _ _ Em) as F2.
      assert (F : Forall2 (fun t u => (t = TDots /\ u = TDots \/ wf t /\ wf u /\ sem_eq t u /\ (t = TTBD -> u = TTBD \/ R))) m l). { clear - X F2. induction F2 as [|a u l m E _ IH]; constructor; [|apply IH; intros x Hx; apply X; right; auto]. destruct (X a) as (u' & E' & Y); [left; auto|]. assert (u' = u) by congruence. subst. tauto. }
      split; [|split; [|discriminate]].
      * clear - F W. inversion W as [| | | |? t In1 Qo Wt Nt|t Qo Wt|? Qo Wl|? ? No Qo Wl]; subst.
        -- inversion F as [|u ? m1 ? F1 F2]; subst. inversion F2; subst. apply w_single; auto; [destruct F1 as [[_ ->]|(F1 & _)]; [destruct (wf_not_dots _ Wt); auto|auto]|]. intros E. destruct F1 as [[-> _]|(_ & _ & _ & F1)]; [left; discriminate|]. destruct (Nt E) as [Nt'|]; auto. assert (D : u = TTBD \/ u <> TTBD) by (destruct u; auto; right; discriminate). destruct D as [D|D]; auto. destruct (F1 D); [congruence|auto].
        -- inversion F as [|u ? m1 ? F1 F2]; subst. inversion F2 as [|u2 ? m2 ? F3 F4]; subst. inversion F4; subst. destruct F3 as [[-> _]|(_ & F3 & _)]; [|inversion F3]. apply w_dots; auto. destruct F1 as [[_ ->]|(F1 & _)]; [destruct (wf_not_dots _ Wt); auto|auto].
        -- apply w_tuple; auto. clear W. revert m F. induction Wl as [|t l Wt _ IH]; intros m F; inversion F as [|u ? m1 ? F1 F2]; subst; constructor; auto. destruct F1 as [[_ ->]|(F1 & _)]; [destruct (wf_not_dots _ Wt); auto|auto].
        -- apply w_other; auto. clear - F. induction F as [|u ? m1 ? F1 F2]; constructor; auto. tauto.
      * apply gen_congr. clear - F. induction F as [|u t m1 l1 F1 F2]; constructor; auto. destruct F1 as [[-> ->]|(A & B & C & _)]; [split; [intros v _; tauto|tauto]|]. split; [auto|]. split; intros ->; [inversion A|inversion B].
  - inversion W.
Qed.
End Wf.
(** ** Soundness *)
Notation WF := (Inter_Sound.wf (fun _ => True) (fun _ => True) True).
Lemma wf_WF P Q R t : Inter_Sound.wf P Q R t -> WF t.
Proof.
  induction t as [| |c|l IH|o l IH|] using ty_ind'; intros W; inversion W as [| | |? Ne Fl Nu Tb|? t In1 Qo Wt Nt|t Qo Wt|? Qo Wl|? ? No Qo Wl]; subst.
  - constructor.
  - constructor.
  - constructor; auto.
  - constructor; auto. rewrite Forall_forall in *. auto.
  - inversion IH; subst. apply w_single; auto.
  - inversion IH; subst. apply w_dots; auto.
  - apply w_tuple; auto. rewrite Forall_forall in *. auto.
  - apply w_other; auto. rewrite Forall_forall in *. intros t Ht. destruct (Wl t Ht); auto.
Qed.
Lemma WF_reduce l : l <> [] -> Forall WF l -> exists t, reduce_or l = Ok t /\ WF t.
Proof. intros N F. destruct (wf_reduce (fun _ => True) (fun _ => True) True l N F) as (t & A & B & _); [right; intros _; exact Logic.I|eauto]. Qed.
Definition sound (I : ty -> ty -> res (option ty)) : Prop := forall a b r, WF a -> WF b -> I a b = Ok (Some r) -> WF r /\ forall v, valid v -> has r v -> has a v /\ has b v.
Definition int_ok (I : ty -> ty -> res (option ty)) : Prop := forall t r, WF t -> I (TClass "int") t = Ok (Some r) -> has t (VObj "int").
Lemma tuple_inv P Q R a : Inter_Sound.wf P Q R (TGen "tuple" a) -> (exists t, a = [t; TDots] /\ Inter_Sound.wf P Q R t /\ has_dots a = true) \/ (Forall (Inter_Sound.wf P Q R) a /\ (forall t, a <> [t; TDots]) /\ has_dots a = false).
Proof.
  intros W. inversion W as [| | | |? t In1 Qo Wt Nt|t Qo Wt|? Qo Wl|? ? No Qo Wl]; subst.
  - cbn in In1. intuition discriminate.
  - left. exists t. split; [auto|]. split; [auto|]. unfold has_dots. cbn. apply orb_true_r.
  - right. split; [auto|]. assert (D : ~ In TDots a) by (intros X; rewrite Forall_forall in Wl; specialize (Wl _ X); inversion Wl). split; [intros t ->; apply D; cbn; auto|]. unfold has_dots. destruct (existsb (teq TDots) a) eqn:E; [|auto]. apply existsb_exists in E as (u & Hu & E). destruct u; cbn in E; try discriminate. contradiction.
  - destruct No. cbn. auto.
Qed.
Lemma single_inv P Q R o a : In o singles -> Inter_Sound.wf P Q R (TGen o a) -> exists t, a = [t] /\ Inter_Sound.wf P Q R t.
Proof. intros Io W. inversion W as [| | | |? t In1 Qo Wt Nt|t Qo Wt|? Qo Wl|? ? No Qo Wl]; subst; [eauto| | |]; [cbn in Io; intuition discriminate|cbn in Io; intuition discriminate|]. destruct No. right. auto. Qed.
Lemma all_some_spec l ts : all_some l = Some ts -> Forall2 (fun x y => x = Some y) l ts.
Proof. revert ts. induction l as [|[t|] l IH]; cbn; intros ts E; [injection E as <-; constructor| |discriminate]. destruct (all_some l) as [m|]; [|discriminate]. injection E as <-. constructor; auto. Qed.
Inductive zip3 (f : ty -> ty -> res (option ty)) : list ty -> list ty -> list ty -> Prop :=
| z_nil : zip3 f [] [] []
| z_cons a b t l m r : f a b = Ok (Some t) -> zip3 f l m r -> zip3 f (a :: l) (b :: m) (t :: r).
Lemma each2_spec f l : forall m r ts, List.length l = List.length m -> each2 f l m = Ok r -> all_some r = Some ts -> zip3 f l m ts.
Proof.
  induction l as [|a l IH]; intros [|b m] r ts L E S; try discriminate.
  - cbn in E. injection E as <-. cbn in S. injection S as <-. constructor.
  - cbn in E. destruct (f a b) as [x|] eqn:Ex; [|discriminate]. cbn [bind] in E. destruct (each2 f l m) as [xs|] eqn:Es; [|discriminate]. cbn in E. injection E as <-. cbn in S. destruct x as [t|]; [|discriminate]. destruct (all_some xs) as [us|] eqn:Eu; [|discriminate]. injection S as <-. constructor; auto. eapply IH; eauto.
Qed.
Definition fresh (t1 t2 t : ty) : Prop := WF t /\ forall v, valid v -> has t v -> has t1 v /\ has t2 v.
Section Sound.
Variable I : ty -> ty -> res (option ty).
Hypotheses (SI : sound I) (NI : int_ok I).
Lemma zip_all t ts vs : Forall (fun u => forall v, valid v -> has u v -> has t v) ts -> Forall valid vs -> zip ts vs -> Forall (has t) vs.
Proof. intros F. revert vs. induction F as [|u ts Hu _ IH]; intros [|v vs] V Z; cbn in Z; try tauto; auto. inversion V; subst. destruct Z as [Z1 Z2]. constructor; auto. Qed.
Lemma tuple_sound a1 a2 x x' : WF (TGen "tuple" a1) -> WF (TGen "tuple" a2) -> tuple_pair I a1 a2 x = Ok x' -> forall t, In t x' -> In t x \/ fresh (TGen "tuple" a1) (TGen "tuple" a2) t.
Proof.
  intros W1 W2 E t Ht. unfold tuple_pair in E.
  assert (Fin : forall (common : res (option (list ty))), (let* c := common in match c with Some l => Ok (tadd x (TGen "tuple" l)) | None => Ok x end)%res = Ok x' -> (forall l, common = Ok (Some l) -> fresh (TGen "tuple" a1) (TGen "tuple" a2) (TGen "tuple" l)) -> In t x \/ fresh (TGen "tuple" a1) (TGen "tuple" a2) t).
  { intros [[l|]|e] Ec Hc; cbn in Ec; try discriminate; injection Ec as <-; [|auto]. apply In_tadd in Ht as [Ht| ->]; auto. }
  apply Fin in E; [auto|]. clear Fin. intros l El. destruct (tuple_inv _ _ _ a1 W1) as [(t1 & -> & Wt1 & D1)|(F1 & N1 & D1)], (tuple_inv _ _ _ a2 W2) as [(t2 & -> & Wt2 & D2)|(F2 & N2 & D2)]; rewrite D1, D2 in El; cbn [andb hd_ty] in El.
  - destruct (I t1 t2) as [[r|]|] eqn:Er; cbn in El; try discriminate. injection El as <-. destruct (SI t1 t2 r Wt1 Wt2 Er) as [Wr Sr]. split; [apply w_dots; auto|]. intros v V Hv. destruct (has_tuple _ _ Hv) as [vs ->]. inversion V; subst. rewrite !has_tuple_dots in *. split; rewrite Forall_forall in *; intros u Hu; apply (Sr u); auto.
  - destruct (each (fun y => I t1 y) a2) as [rs|] eqn:Er; cbn in El; [|discriminate]. injection El as El. apply all_some_spec in El. apply each_spec in Er.
    assert (X : Forall2 (fun y t => WF t /\ forall v, valid v -> has t v -> has t1 v /\ has y v) a2 l). { clear - Er El SI Wt1 F2. revert l El. induction Er as [|y o a2 rs E _ IH]; intros l El; inversion El; subst; constructor; [|inversion F2; auto]. inversion F2; subst. apply SI; auto. }
    assert (Wl : Forall WF l) by (clear - X; induction X as [|? ? ? ? [A _]]; auto). split; [apply w_tuple; auto|]. intros v V Hv. destruct (has_tuple _ _ Hv) as [vs ->]. inversion V; subst. assert (Nl : forall u, l <> [u; TDots]) by (intros u ->; inversion Wl as [|? ? _ A]; subst; inversion A as [|? ? B _]; inversion B). rewrite (has_tuple_zip l) in Hv by auto. rewrite has_tuple_dots, (has_tuple_zip a2) by auto. split.
    + eapply zip_all; [|eauto|eauto]. clear - X. induction X as [|? ? ? ? [_ A]]; constructor; auto. intros. apply A; auto.
    + clear - X Hv H0. revert vs Hv H0. induction X as [|? ? ? ? [_ A] _ IH]; intros [|v vs] Z V; cbn in *; try tauto. inversion V; subst. split; [apply A; tauto|]. apply IH; tauto.
  - destruct (each (fun y => I y t2) a1) as [rs|] eqn:Er; cbn in El; [|discriminate]. injection El as El. apply all_some_spec in El. apply each_spec in Er.
    assert (X : Forall2 (fun y t => WF t /\ forall v, valid v -> has t v -> has y v /\ has t2 v) a1 l). { clear - Er El SI Wt2 F1. revert l El. induction Er as [|y o a2 rs E _ IH]; intros l El; inversion El; subst; constructor; [|inversion F1; auto]. inversion F1; subst. apply SI; auto. }
    assert (Wl : Forall WF l) by (clear - X; induction X as [|? ? ? ? [A _]]; auto). split; [apply w_tuple; auto|]. intros v V Hv. destruct (has_tuple _ _ Hv) as [vs ->]. inversion V; subst. assert (Nl : forall u, l <> [u; TDots]) by (intros u ->; inversion Wl as [|? ? _ A]; subst; inversion A as [|? ? B _]; inversion B). rewrite (has_tuple_zip l) in Hv by auto. rewrite has_tuple_dots, (has_tuple_zip a1) by auto. split.
    + clear - X Hv H0. revert vs Hv H0. induction X as [|? ? ? ? [_ A] _ IH]; intros [|v vs] Z V; cbn in *; try tauto. inversion V; subst. split; [apply A; tauto|]. apply IH; tauto.
    + eapply zip_all; [|eauto|eauto]. clear - X. induction X as [|? ? ? ? [_ A]]; constructor; auto. intros. apply A; auto.
  - destruct (Nat.eqb_spec (List.length a1) (List.length a2)) as [L|]; [|cbn in El; discriminate]. destruct (each2 I a1 a2) as [rs|] eqn:Er; cbn in El; [|discriminate]. injection El as El. pose proof (each2_spec I a1 a2 rs l L Er El) as Z.
    assert (Wl : Forall WF l) by (clear - Z SI F1 F2; induction Z; inversion F1; inversion F2; subst; constructor; auto; eapply SI; [| |eauto]; auto). split; [apply w_tuple; auto|]. intros v V Hv. destruct (has_tuple _ _ Hv) as [vs ->]. inversion V; subst. assert (Nl : forall u, l <> [u; TDots]) by (intros u ->; inversion Wl as [|? ? _ A]; subst; inversion A as [|? ? B _]; inversion B). rewrite (has_tuple_zip l) in Hv by auto. rewrite (has_tuple_zip a1), (has_tuple_zip a2) by auto.
    clear - Z Hv H0 SI F1 F2. revert vs Hv H0. induction Z as [|a b t l m r E Z IH]; intros [|v vs] Hv V; cbn in *; try tauto. apply Forall_cons_iff in V as [V1 V2], F1 as [F1 F1'], F2 as [F2 F2']. destruct (SI a b t) as [_ S]; auto. destruct (S v) as [A B]; try tauto. destruct (IH F1' F2' vs); tauto.
Qed.
End Sound.
