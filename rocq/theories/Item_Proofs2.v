(** * Types of entries: the rule *)
From Coq Require Import List Bool String ZArith Lia.
From Verif Require Import PyBase Inter_Model Inter_Proofs Inter_Sound Inter_Step Inter_Main Inter_Full Inter_Total Inter_Keep Item_Model Item_Spec Item_Proofs.
Import ListNotations.
Open Scope string_scope. Open Scope list_scope. Open Scope res_scope.

Lemma F2_length' {A B} (R : A -> B -> Prop) l m : Forall2 R l m -> List.length l = List.length m. Proof. induction 1; cbn; auto. Qed.
Lemma F2_nth' {A B} (R : A -> B -> Prop) l m : Forall2 R l m -> forall p x y, nth_error l p = Some x -> nth_error m p = Some y -> R x y.
Proof. induction 1 as [|x y l m H _ IH]; intros [|p] a b E F; cbn in *; try discriminate; [injection E as ->; injection F as ->; auto|eapply IH; eauto]. Qed.
Section Rule.
Variables P Q : string -> Prop.
Hypotheses (Pi : P "int") (Pf : P "float") (Pb : P "bool") (Pr : P "range") (Qt : Q "Tensor") (Ql : Q "list") (Qu : Q "tuple").
Hypotheses (Qo : forall o, Q o -> In o ("tuple" :: singles)) (Qs : Q "Sequence" -> ~ P "tuple").
Notation W := (Inter_Sound.wf P Q False).
Lemma find_complete a b r v : W a -> W b -> find_intersection_type a b = Ok r -> valid v -> full v -> has a v -> has b v -> exists t, r = Some t /\ has t v.
Proof. intros Wa Wb E. exact (fuel_complete P Q Pi Pf Pb Qt Qo Qs _ a b r Wa Wb E v). Qed.
Lemma find_total a b : W a -> W b -> exists r, find_intersection_type a b = Ok r.
Proof. intros A B. apply (proj1 (fuel_total _)); try lia; eapply wf_WF; eauto. Qed.
Lemma find_keeps a b r : W a -> W b -> find_intersection_type a b = Ok (Some r) -> W r /\ (r = TTBD -> a = TTBD \/ b = TTBD).
Proof. exact (proj1 (fuel_keeps P Q Pi Pf Pb Pr Qt Ql Qu Qo _) a b r). Qed.
Lemma find_sound a b r v : W a -> W b -> find_intersection_type a b = Ok (Some r) -> valid v -> has r v -> has a v /\ has b v.
Proof. intros A B E. intros V H. apply (proj1 (fuel_sound (depth a + depth b + 2)) a b r); [eapply wf_WF; eauto|eapply wf_WF; eauto|exact E|exact V|exact H]. Qed.
Lemma meets_ok a b v : W a -> W b -> valid v -> full v -> has a v -> has b v -> meets a b = Ok true.
Proof. intros A B V F Ha Hb. unfold meets. destruct (find_total a b A B) as [r E]. rewrite E. destruct (find_complete a b r v A B E V F Ha Hb) as (t & -> & _). reflexivity. Qed.
Lemma set_type_ok cur t v : W cur -> W t -> valid v -> full v -> has cur v -> has t v -> exists u, set_type cur t = Ok u /\ has u v.
Proof.
  intros A B V F Ha Hb. unfold set_type. destruct (teq cur t); [eauto|]. destruct (find_total cur t A B) as [r E]. rewrite E. destruct (find_complete cur t r v A B E V F Ha Hb) as (u & -> & Hu). cbn [bind]. destruct (teq cur u); eauto.
Qed.
Lemma set_type_sound cur t u v : W cur -> W t -> set_type cur t = Ok u -> valid v -> has u v -> has cur v /\ has t v.
Proof.
  intros A B E V H. unfold set_type in E. destruct (teq cur t) eqn:T; [injection E as <-; split; [auto|apply (teq_sem _ _ T); auto]|]. destruct (find_intersection_type cur t) as [[r|]|] eqn:Er; cbn in E; try discriminate.
  apply (find_sound cur t r v A B Er V). destruct (teq cur r) eqn:T2; injection E as <-; [apply (teq_sem _ _ T2)|]; auto.
Qed.
Lemma set_type_same t : set_type t t = Ok t. Proof. unfold set_type. rewrite teq_refl. reflexivity. Qed.
(** ** Tuples of known length *)
Lemma W_not_dots ts : Forall W ts -> ~ In TDots ts.
Proof. intros F I. rewrite Forall_forall in F. specialize (F _ I). inversion F. Qed.
Lemma no_dots ts : ~ In TDots ts -> has_dots ts = false.
Proof. intros N. unfold has_dots. destruct (existsb (teq TDots) ts) eqn:E; [|auto]. apply existsb_exists in E as (u & Hu & E). destruct u; try discriminate. contradiction. Qed.
Lemma exact_W ts : ~ In TDots ts -> W (TGen "tuple" ts) -> Forall W ts.
Proof. intros N X. destruct (tuple_inv _ _ _ ts X) as [(t & -> & _)|(F & _)]; [destruct N; cbn; auto|auto]. Qed.
Lemma exact_ne ts : ~ In TDots ts -> forall t, ts <> [t; TDots]. Proof. intros N t ->. apply N. cbn. auto. Qed.
Definition below (t u : ty) : Prop := forall v, valid v -> has u v -> has t v.
Lemma zip3_below n a1 a2 l : zip3 (inter_fuel n) a1 a2 l -> Forall W a1 -> Forall W a2 -> Forall2 below a1 l.
Proof. induction 1 as [|a b t l m r E _ IH]; intros A B; inversion A; inversion B; subst; constructor; auto. intros v V Hv. apply (proj1 (fuel_sound n) a b t); [eapply wf_WF; eauto|eapply wf_WF; eauto|exact E|exact V|exact Hv]. Qed.
Lemma exact_inter a1 a2 r : Forall W a1 -> Forall W a2 -> find_intersection_type (TGen "tuple" a1) (TGen "tuple" a2) = Ok (Some r) -> exists l, r = TGen "tuple" l /\ Forall W l /\ Forall2 below a1 l.
Proof.
  intros F1 F2 E. pose proof (no_dots _ (W_not_dots _ F1)) as D1. pose proof (no_dots _ (W_not_dots _ F2)) as D2. unfold find_intersection_type in E.
  remember (depth (TGen "tuple" a1) + depth (TGen "tuple" a2) + 1) as n eqn:En. replace (depth (TGen "tuple" a1) + depth (TGen "tuple" a2) + 2) with (S n) in E by lia. clear En. cbn [inter_fuel] in E. unfold inter_step in E.
  destruct (teq (TGen "tuple" a1) (TGen "tuple" a2)) eqn:Te.
  { cbn [squash_rec String.eqb Ascii.eqb Bool.eqb] in E. destruct (each squash_rec a1) as [l|] eqn:El; [|discriminate]. cbn in E. injection E as <-. exists l. split; [auto|]. apply each_spec in El. clear - El F1 Pi Pf Pb Qt. induction El as [|x y xs ys Exy _ IH]; [split; constructor|]. inversion F1; subst. destruct (squash_rec_spec P Q False Pi Pf Pb Qt x) as (u & Eu & Wu & Su & _); [auto|]. assert (u = y) by congruence. subst u. destruct IH as [IA IB]; [auto|]. split; constructor; auto. intros v V Hv. apply (Su v V). auto. }
  cbn [is_top squash bind members] in E. change (taddall [] [TGen "tuple" a1]) with [TGen "tuple" a1] in E. change (taddall [] [TGen "tuple" a2]) with [TGen "tuple" a2] in E. cbv zeta in E.
  assert (M : tmem (TGen "tuple" a1) [TGen "tuple" a2] = false) by (unfold tmem; cbn [existsb]; rewrite Te; reflexivity).
  cbn [filter] in E. rewrite M in E. change (tmem TAny [TGen "tuple" a1]) with false in E. change (tmem TAny [TGen "tuple" a2]) with false in E. change (negb (teq TAny (TGen "tuple" a1))) with true in E. change (negb (teq TAny (TGen "tuple" a2))) with true in E. cbn iota in E.
  set (I := inter_fuel n) in *.
  assert (B : forall t u, bare I [TGen "tuple" t] [TGen "tuple" u] [] = Ok []) by reflexivity. rewrite B in E. cbn [bind] in E. rewrite B in E. cbn [bind] in E. unfold pairs in E. change (tdiff [TGen "tuple" a1] []) with [TGen "tuple" a1] in E. cbn [foldM] in E. change (tdiff [TGen "tuple" a2] []) with [TGen "tuple" a2] in E. cbn [foldM] in E.
  cbn [pair_step String.eqb Ascii.eqb Bool.eqb orb] in E. destruct (is_nil a1 || is_nil a2); [discriminate|]. unfold tuple_pair in E. rewrite D1, D2 in E. cbn [andb] in E.
  destruct (Nat.eqb_spec (List.length a1) (List.length a2)) as [L|]; [|discriminate]. destruct (each2 I a1 a2) as [rs|] eqn:Es; [|discriminate]. cbn [bind] in E. destruct (all_some rs) as [l|] eqn:El; [|discriminate]. cbn in E. injection E as <-. exists l. split; [auto|].
  assert (Z : zip3 I a1 a2 l) by (eapply each2_spec; eauto). split; [|apply (zip3_below n a1 a2); auto].
  apply (zip3_keeps P Q I (proj1 (fuel_keeps P Q Pi Pf Pb Pr Qt Ql Qu Qo n)) a1 a2 l); auto.
Qed.
Lemma below_refl ts : Forall2 below ts ts. Proof. induction ts; constructor; auto. intros v _ H. auto. Qed.
Lemma exact_set ts us u : Forall W ts -> Forall W us -> set_type (TGen "tuple" ts) (TGen "tuple" us) = Ok u -> exists l, u = TGen "tuple" l /\ Forall W l /\ Forall2 below ts l.
Proof.
  intros A B E. unfold set_type in E. destruct (teq (TGen "tuple" ts) (TGen "tuple" us)); [injection E as <-; eauto using below_refl|]. destruct (find_intersection_type _ _) as [[r|]|] eqn:Er; cbn [bind] in E; try discriminate. destruct (teq (TGen "tuple" ts) r); injection E as <-; [eauto using below_refl|]. exact (exact_inter _ _ _ A B Er).
Qed.
Lemma replace_low n k out ts : (k < n)%Z -> replace_from n k out ts = Ok ts.
Proof. revert n. induction ts as [|t ts IH]; intros n L; cbn [replace_from]; [auto|]. destruct (Z.eqb_spec n k); [lia|]. cbn [bind]. rewrite IH by lia. reflexivity. Qed.
Lemma replace_hit out ts : W out -> Forall W ts -> forall n k vs x, zip ts vs -> nth_error vs (Z.to_nat (k - n)) = Some x -> (n <= k)%Z -> valid x -> full x -> has out x ->
  exists us, replace_from n k out ts = Ok us /\ Forall W us /\ zip us vs.
Proof.
  intros Wo. induction 1 as [|t ts Wt F IH]; intros n k [|v vs] x Z N L V Fx Ho; cbn in Z; try tauto; [destruct (Z.to_nat (k - n)); discriminate|]. cbn [replace_from]. destruct Z as [Zt Z]. destruct (Z.eqb_spec n k) as [->|Nk].
  - rewrite Z.sub_diag in N. injection N as ->. destruct (find_total t out Wt Wo) as [r Er]. rewrite Er. destruct (find_complete t out r x Wt Wo Er V Fx Zt Ho) as (u & -> & Hu). cbn [bind]. rewrite replace_low by lia. cbn [bind]. eexists. split; [reflexivity|]. split; [constructor; [eapply find_keeps; [exact Wt|exact Wo|exact Er]|auto]|]. cbn. auto.
  - cbn [bind]. destruct (IH (n + 1)%Z k vs x Z) as (us & Eu & Wu & Zu); [|lia|auto|auto|auto|].
    + replace (Z.to_nat (k - n)) with (S (Z.to_nat (k - (n + 1)))) in N by lia. exact N.
    + rewrite Eu. cbn [bind]. eexists. split; [reflexivity|]. split; [constructor; auto|]. cbn. auto.
Qed.
Lemma replace_W out ts : P "None" -> W out -> Forall W ts -> forall n k us, replace_from n k out ts = Ok us -> Forall W us.
Proof.
  intros Pn Wo. induction 1 as [|t ts Wt F IH]; intros n k us E; cbn [replace_from] in E; [injection E as <-; constructor|]. destruct (Z.eqb_spec n k).
  - destruct (find_intersection_type t out) as [r|] eqn:Er; [|discriminate]. cbn [bind] in E. destruct (replace_from (n + 1) k out ts) as [us'|] eqn:Eu; [|discriminate]. cbn in E. injection E as <-. constructor; [|eauto]. destruct r as [u|]; [exact (proj1 (find_keeps _ _ _ Wt Wo Er))|constructor; auto].
  - cbn [bind] in E. destruct (replace_from (n + 1) k out ts) as [us'|] eqn:Eu; [|discriminate]. cbn in E. injection E as <-. constructor; eauto.
Qed.
(** ** Tuples of any length *)
Lemma dots_find t w : W t -> find_intersection_type (TGen "tuple" [t; TDots]) (TGen "tuple" [t; w; TDots]) = match squash_rec t with Ok u => Ok (Some (TGen "tuple" [u; TDots])) | Err e => Err e end.
Proof.
  intros Wt. unfold find_intersection_type. set (b := TGen "tuple" [t; w; TDots]). remember (depth (TGen "tuple" [t; TDots]) + depth b) as n eqn:En. replace (n + 2) with (S (S n)) by lia. clear En.
  assert (Te : teq (TGen "tuple" [t; TDots]) b = false). { subst b. cbn. rewrite teq_refl. cbn [andb]. destruct w; reflexivity. }
  cbn [inter_fuel]. unfold inter_step at 1. rewrite Te. cbn [is_top]. change (squash (TGen "tuple" [t; TDots])) with (Ok (TGen "tuple" [t; TDots])). change (squash b) with (Ok b). cbn [bind]. change (members b) with [b]. cbn [members]. change (taddall [] [TGen "tuple" [t; TDots]]) with [TGen "tuple" [t; TDots]]. change (taddall [] [b]) with [b]. cbv zeta.
  assert (M : tmem (TGen "tuple" [t; TDots]) [b] = false) by (unfold tmem; cbn [existsb]; rewrite Te; reflexivity).
  cbn [filter]. rewrite M. change (tmem TAny [TGen "tuple" [t; TDots]]) with false. change (tmem TAny [b]) with false. change (negb (teq TAny (TGen "tuple" [t; TDots]))) with true. change (negb (teq TAny b)) with true. cbn iota.
  set (I := inter_step (inter_fuel n)). change (bare I [TGen "tuple" [t; TDots]] [b] []) with (@Ok (list ty) []). cbn [bind]. change (bare I [b] [TGen "tuple" [t; TDots]] []) with (@Ok (list ty) []). cbn [bind]. unfold pairs. change (tdiff [TGen "tuple" [t; TDots]] []) with [TGen "tuple" [t; TDots]]. cbn [foldM]. change (tdiff [b] []) with [b]. cbn [foldM]. subst b. cbn [pair_step String.eqb Ascii.eqb Bool.eqb is_nil orb]. unfold tuple_pair.
  assert (D1 : has_dots [t; TDots] = true) by (unfold has_dots; cbn; apply orb_true_r). assert (D2 : has_dots [t; w; TDots] = true) by (unfold has_dots; cbn; rewrite !orb_true_r; reflexivity).
  rewrite D1, D2. cbn [andb hd_ty]. assert (It : I t t = match squash_rec t with Ok u => Ok (Some u) | Err e => Err e end) by (subst I; unfold inter_step; rewrite teq_refl; reflexivity). rewrite It. destruct (squash_rec t); reflexivity.
Qed.
Lemma dots_set t w : W t -> t <> TTBD -> exists u, set_type (TGen "tuple" [t; TDots]) (TGen "tuple" [t; w; TDots]) = Ok (TGen "tuple" [u; TDots]) /\ W u /\ u <> TTBD /\ sem_eq u t.
Proof.
  intros Wt N. destruct (squash_rec_spec P Q False Pi Pf Pb Qt t Wt) as (u & Eu & Wu & Su & Nu). unfold set_type.
  destruct (teq (TGen "tuple" [t; TDots]) (TGen "tuple" [t; w; TDots])); [exists t; split; [auto|]; split; [auto|]; split; [auto|]; intros v _; tauto|].
  rewrite dots_find, Eu by auto. cbn [bind]. destruct (teq _ _); [exists t; split; [auto|]; split; [auto|]; split; [auto|]; intros v _; tauto|]. exists u. split; [auto|]. split; [auto|]. split; [|auto]. intros ->. destruct (Nu eq_refl); auto.
Qed.
(** The ellipsis itself meets any type without an error. *)
Lemma dots_meet out : W out -> exists r, find_intersection_type TDots out = Ok r.
Proof.
  intros Wo. unfold find_intersection_type. remember (depth TDots + depth out + 1) as n eqn:En. replace (depth TDots + depth out + 2) with (S n) by lia. clear En. cbn [inter_fuel]. unfold inter_step.
  destruct (teq TDots out); [eexists; reflexivity|]. cbn [is_top]. destruct (squash_rec_spec P Q False Pi Pf Pb Qt out Wo) as (u & Eu & _). destruct (is_top out); [eexists; reflexivity|].
  destruct (squash_spec P Q False Pi Pf Pb Qt out Wo) as (o & Eo & _). change (squash TDots) with (Ok TDots). rewrite Eo. cbn [bind members]. change (taddall [] [TDots]) with [TDots]. cbv zeta. set (s2 := taddall [] (members o)). change (tmem TAny [TDots]) with false. change (filter (fun t => negb (teq TAny t)) [TDots]) with [TDots]. cbn iota.
  set (x := if tmem TAny s2 then _ else _). set (n2 := filter _ s2). set (I := inter_fuel n). change (bare I [TDots] n2 x) with (Ok x). cbn [bind].
  assert (B : bare I n2 [TDots] x = Ok x). { unfold bare. cbn [foldM bare_step bind]. destruct (tmem (TClass "list") n2), (tmem (TClass "tuple") n2), (tmem (TClass "range") n2); reflexivity. }
  rewrite B. cbn [bind].
  assert (R : pairs I [TDots] n2 x = Ok x). { unfold pairs. destruct (tdiff [TDots] x) as [|d l] eqn:Ed; [reflexivity|]. assert (X : d = TDots /\ l = []). { unfold tdiff in Ed. cbn [filter] in Ed. destruct (negb (tmem TDots x)); [injection Ed as <- <-; auto|discriminate]. } destruct X as [-> ->]. cbn [foldM]. assert (Y : forall l, foldM (fun (x : list ty) (t2 : ty) => pair_step I TDots t2 x) l x = Ok x) by (induction l as [|y l IH]; [reflexivity|]; cbn [foldM pair_step bind]; exact IH). rewrite Y. reflexivity. }
  rewrite R. cbn [bind]. destruct x as [|y ys]; eexists; reflexivity.
Qed.
(** ** The rule *)
Lemma W_out o l : W (TGen o l) -> Q o. Proof. intros X. inversion X; auto. Qed.
Lemma list_arg t : W (TGen "list" [t]) -> W t.
Proof. intros X. destruct (single_inv _ _ _ "list" [t] ltac:(cbn; auto) X) as (u & E & Wu). injection E as <-. auto. Qed.
Lemma many_arg t : W (TGen "tuple" [t; TDots]) -> W t.
Proof. intros X. destruct (tuple_inv _ _ _ _ X) as [(u & E & Wu & _)|(_ & N & _)]; [injection E as <-; auto|destruct (N t eq_refl)]. Qed.
Lemma rule_list out t i : i <> IOpen -> reduce_input out (TGen "list" [t]) i = (match i with IAt _ => let* b := meets out t in Ok (if b then Some (TGen "list" [t]) else None) | _ => Ok (Some (TGen "list" [t])) end).
Proof. destruct i; intros; reflexivity. Qed.
Lemma rule_one out inp i inp' u : (exists o l, inp = TGen o l) -> reduce_input out inp i = Ok (Some inp') -> forall inp2, set_type inp inp' = Ok inp2 -> not_union inp2 -> entry_type inp2 i = Ok u ->
  indexer_type out inp i = (let* out' := set_type out u in Ok (inp2, out', negb (is_union out'))).
Proof.
  intros (o & l & ->) R inp2 S N E. unfold indexer_type. cbn [bind]. rewrite R. cbn [bind]. rewrite S. cbn [bind]. assert (M : members inp2 = [inp2]) by (destruct inp2; auto; contradiction). rewrite M. cbn [each]. rewrite E. reflexivity.
Qed.
Lemma finish out inp i inp' inp2 u r : (exists o l, inp = TGen o l) -> reduce_input out inp i = Ok (Some inp') -> set_type inp inp' = Ok inp2 -> not_union inp2 -> entry_type inp2 i = Ok u ->
  W out -> W u -> valid r -> full r -> has out r -> has u r -> exists out' b, indexer_type out inp i = Ok (inp2, out', b) /\ has out' r.
Proof.
  intros S R E N T Wo Wu V F Ho Hu. rewrite (rule_one out inp i inp' u S R inp2 E N T). destruct (set_type_ok out u r Wo Wu V F Ho Hu) as (o & Eo & H). rewrite Eo. cbn [bind]. eauto.
Qed.
Lemma many_W t : W t -> W (TGen "tuple" [t; TDots]). Proof. intros. apply w_dots; auto. Qed.
Lemma or_many_W t : W t -> t <> TTBD -> W (or_type t (TGen "tuple" [t; TDots])).
Proof. intros A B. apply wf_or; auto; [apply many_W; auto|left; discriminate]. Qed.
Lemma valid_list l x : valid (VList l) -> In x l -> valid x. Proof. intros V I. inversion V; subst. rewrite Forall_forall in *. auto. Qed.
Lemma valid_tuple l x : valid (VTuple l) -> In x l -> valid x. Proof. intros V I. inversion V; subst. rewrite Forall_forall in *. auto. Qed.
Lemma picks_valid v i r : picks v i r -> valid v -> valid r.
Proof.
  intros K V. destruct K as [l i p x _ N|l i p x _ N|l a b c ps r _ S|l a b c ps r _ S].
  - eapply valid_list; [exact V|eapply nth_error_In; eauto].
  - eapply valid_tuple; [exact V|eapply nth_error_In; eauto].
  - apply v_list. apply Forall_forall. intros x Hx. eapply valid_list; [exact V|eapply selects_In; eauto].
  - apply v_tuple. apply Forall_forall. intros x Hx. eapply valid_tuple; [exact V|eapply selects_In; eauto].
Qed.
Lemma list_keeps out t i v r : W out -> W (TGen "list" [t]) -> i <> IOpen -> valid v -> full r -> has (TGen "list" [t]) v -> has out r -> picks v i r ->
  exists out' b, indexer_type out (TGen "list" [t]) i = Ok (TGen "list" [t], out', b) /\ has out' r.
Proof.
  intros Wo Wi Ni V F Hv Ho K. pose proof (picks_valid _ _ _ K V) as Vr. pose proof (list_arg t Wi) as Wt. apply has_list in Hv as (vs & t' & -> & X & Fa). injection X as <-. rewrite Forall_forall in Fa.
  inversion K as [l i' p x Po N| |l a b c ps r' Re S|]; subst.
  - assert (Ht : has t r) by (apply Fa; eapply nth_error_In; eauto). eapply finish with (inp' := TGen "list" [t]) (u := t); eauto; [|apply set_type_same|exact I]. rewrite rule_list by auto. rewrite (meets_ok out t r) by auto. reflexivity.
  - eapply finish with (inp' := TGen "list" [t]) (u := TGen "list" [t]); eauto; [apply set_type_same|exact I|]. apply has_list. exists r', t. split; [auto|]. split; [auto|]. apply Forall_forall. intros x Hx. apply Fa. eapply selects_In; eauto.
Qed.
Lemma exact_at out ts k l p x : W out -> W (TGen "tuple" ts) -> ~ In TDots ts -> valid (VTuple l) -> full (VTuple l) -> full x -> has (TGen "tuple" ts) (VTuple l) -> has out x -> position (List.length l) k p -> nth_error l p = Some x ->
  exists inp' out' b, indexer_type out (TGen "tuple" ts) (IAt k) = Ok (inp', out', b) /\ has inp' (VTuple l) /\ has out' x.
Proof.
  intros Wo Wi N V Fv F Hv Ho Po Np. assert (Vx : valid x) by (eapply valid_tuple; [exact V|eapply nth_error_In; eauto]). pose proof (exact_W ts N Wi) as Fw. rewrite has_tuple_zip in Hv by (apply exact_ne; auto).
  assert (R : exists us, replace_from 0 k out ts = Ok us /\ Forall W us /\ zip us l).
  { destruct Po as [Lp [->| ->]]; [|exists ts; rewrite replace_low by lia; auto]. apply replace_hit with (x := x); auto; [|lia]. rewrite Z.sub_0_r, Nat2Z.id. auto. }
  destruct R as (us & Eu & Wu & Zu). assert (Wi' : W (TGen "tuple" us)) by (apply w_tuple; auto).
  destruct (set_type_ok (TGen "tuple" ts) (TGen "tuple" us) (VTuple l) Wi Wi' V Fv) as (inp2 & E2 & H2); [apply has_tuple_zip; [apply exact_ne; auto|auto]|apply has_tuple_zip; [apply exact_ne, W_not_dots; auto|auto]|].
  destruct (exact_set ts us inp2 Fw Wu E2) as (l2 & -> & W2 & _). pose proof (W_not_dots _ W2) as N2. pose proof H2 as Z2. rewrite has_tuple_zip in Z2 by (apply exact_ne; auto).
  destruct (nth_error l2 p) as [t|] eqn:Nt; [|apply nth_error_None in Nt; rewrite (zip_length _ _ Z2) in Nt; destruct Po; lia].
  assert (Et : entry_type (TGen "tuple" l2) (IAt k) = Ok t). { cbn [entry_type String.eqb Ascii.eqb Bool.eqb]. rewrite (no_dots _ N2). apply (at_position l2 k p t); [rewrite (zip_length _ _ Z2); auto|auto]. }
  destruct (finish out (TGen "tuple" ts) (IAt k) (TGen "tuple" us) (TGen "tuple" l2) t x) as (out' & b & E & H); eauto; [|exact I| |eapply zip_nth; eauto|].
  - cbn [reduce_input String.eqb Ascii.eqb Bool.eqb]. rewrite Eu. cbn [bind]. rewrite (no_dots _ N). reflexivity.
  - rewrite Forall_forall in W2. apply W2. eapply nth_error_In; eauto.
  - exists (TGen "tuple" l2), out', b. auto.
Qed.
Lemma exact_slice out ts a b c l ps r : W out -> W (TGen "tuple" ts) -> ~ In TDots ts -> valid (VTuple l) -> full (VTuple r) -> has (TGen "tuple" ts) (VTuple l) -> has out (VTuple r) -> reads (List.length l) a b c ps -> selects l ps r ->
  exists out' s, indexer_type out (TGen "tuple" ts) (ISlice a b c) = Ok (TGen "tuple" ts, out', s) /\ has out' (VTuple r).
Proof.
  intros Wo Wi N V F Hv Ho Re S. assert (Vr : valid (VTuple r)) by (eapply picks_valid; [eapply p_tuples; eauto|auto]). pose proof (exact_W ts N Wi) as Fw. rewrite has_tuple_zip in Hv by (apply exact_ne; auto).
  rewrite <- (zip_length _ _ Hv) in Re. destruct (selects_exists ts ps) as [us Su]; [intros p; eapply reads_below; eauto|].
  assert (Wu : Forall W us) by (rewrite Forall_forall in *; intros t Ht; apply Fw; eapply selects_In; eauto).
  apply finish with (inp' := TGen "tuple" ts) (u := TGen "tuple" us); eauto; [apply set_type_same|exact I| |apply w_tuple; auto|].
  - cbn [entry_type String.eqb Ascii.eqb Bool.eqb]. rewrite (no_dots _ N), (slice_selects ts a b c ps us Re Su). reflexivity.
  - apply has_tuple_zip; [apply exact_ne, W_not_dots; auto|]. eapply zip_selects; eauto.
Qed.
Lemma many_slice out t a b c l ps r : W out -> W (TGen "tuple" [t; TDots]) -> valid (VTuple l) -> full (VTuple r) -> has (TGen "tuple" [t; TDots]) (VTuple l) -> has out (VTuple r) -> reads (List.length l) a b c ps -> selects l ps r ->
  exists out' s, indexer_type out (TGen "tuple" [t; TDots]) (ISlice a b c) = Ok (TGen "tuple" [t; TDots], out', s) /\ has out' (VTuple r).
Proof.
  intros Wo Wi V F Hv Ho Re S. assert (Vr : valid (VTuple r)) by (eapply picks_valid; [eapply p_tuples; eauto|auto]). rewrite has_tuple_dots in Hv. rewrite Forall_forall in Hv.
  assert (D : has_dots [t; TDots] = true) by (unfold has_dots; cbn; apply orb_true_r).
  apply finish with (inp' := TGen "tuple" [t; TDots]) (u := TGen "tuple" [t; TDots]); eauto; [apply set_type_same|exact I| |].
  - cbn [entry_type String.eqb Ascii.eqb Bool.eqb]. rewrite D. reflexivity.
  - apply has_tuple_dots. apply Forall_forall. intros x Hx. apply Hv. eapply selects_In; eauto.
Qed.
Lemma many_at out t k l p x : W out -> W (TGen "tuple" [t; TDots]) -> t <> TTBD -> k <> 0%Z -> valid (VTuple l) -> full x -> has (TGen "tuple" [t; TDots]) (VTuple l) -> has out x -> position (List.length l) k p -> nth_error l p = Some x ->
  exists inp' out' b, indexer_type out (TGen "tuple" [t; TDots]) (IAt k) = Ok (inp', out', b) /\ has inp' (VTuple l) /\ has out' x.
Proof.
  intros Wo Wi Nt Nk V F Hv Ho Po Np. assert (Vx : valid x) by (eapply valid_tuple; [exact V|eapply nth_error_In; eauto]). pose proof (many_arg t Wi) as Wt. rewrite has_tuple_dots in Hv.
  assert (D : has_dots [t; TDots] = true) by (unfold has_dots; cbn; apply orb_true_r).
  assert (R : exists w, replace_from 0 k out [t; TDots] = Ok [t; w]).
  { cbn [replace_from]. destruct (Z.eqb_spec 0 k); [congruence|]. cbn [bind]. destruct (Z.eqb_spec (0 + 1) k).
    - destruct (dots_meet out Wo) as [r Er]. rewrite Er. cbn [bind]. eexists. reflexivity.
    - cbn [bind]. eexists. reflexivity. }
  destruct R as [w Ew]. destruct (dots_set t w Wt Nt) as (u & Es & Wu & Nu & Su).
  assert (Hl : Forall (has u) l) by (rewrite Forall_forall in *; intros y Hy; apply Su; [eapply valid_tuple; eauto|auto]).
  assert (Du : has_dots [u; TDots] = true) by (unfold has_dots; cbn; apply orb_true_r).
  destruct (finish out (TGen "tuple" [t; TDots]) (IAt k) (TGen "tuple" [t; w; TDots]) (TGen "tuple" [u; TDots]) (or_type u (TGen "tuple" [u; TDots])) x) as (out' & b & E & H); eauto; [|exact I| | | |].
  - cbn [reduce_input String.eqb Ascii.eqb Bool.eqb]. rewrite Ew. cbn [bind]. rewrite D. reflexivity.
  - cbn [entry_type String.eqb Ascii.eqb Bool.eqb]. rewrite Du. reflexivity.
  - apply or_many_W; auto.
  - apply has_or. left. rewrite Forall_forall in Hl. apply Hl. eapply nth_error_In; eauto.
  - exists (TGen "tuple" [u; TDots]), out', b. split; [auto|]. split; [apply has_tuple_dots; auto|auto].
Qed.
(** ** Undetermined indices *)
Lemma open_tuple out ts u : W out -> W (TGen "tuple" ts) -> entry_type (TGen "tuple" ts) IOpen = Ok (or_type u (TGen "tuple" [u; TDots])) -> W u -> u <> TTBD -> forall l j r, valid (VTuple l) -> Forall (has u) l -> full r -> has out r -> picks (VTuple l) j r ->
  exists out' b, indexer_type out (TGen "tuple" ts) IOpen = Ok (TGen "tuple" ts, out', b) /\ has out' r.
Proof.
  intros Wo Wi E Wu Nu l j r V Hl F Ho K. pose proof (picks_valid _ _ _ K V) as Vr. eapply finish with (inp' := TGen "tuple" ts) (u := or_type u (TGen "tuple" [u; TDots])); eauto; [apply set_type_same|exact I|apply or_many_W; auto|].
  apply has_or. rewrite Forall_forall in Hl. inversion K as [|l' i p x Po N| |l' a b c ps r' Re S]; subst; [left; apply Hl; eapply nth_error_In; eauto|right]. apply has_tuple_dots. apply Forall_forall. intros x Hx. apply Hl. eapply selects_In; eauto.
Qed.
Lemma open_exact ts l : Forall W ts -> ts <> [] -> ~ In TTBD ts -> zip ts l -> exists u, entry_type (TGen "tuple" ts) IOpen = Ok (or_type u (TGen "tuple" [u; TDots])) /\ W u /\ u <> TTBD /\ Forall (has u) l.
Proof.
  intros Fw Ne Nt Z. destruct (wf_reduce P Q False ts Ne Fw) as (u & Eu & Wu & Tu); [right; intros X; destruct (Nt X)|]. exists u. split.
  - cbn [entry_type String.eqb Ascii.eqb Bool.eqb]. rewrite (no_dots _ (W_not_dots _ Fw)). unfold create_union_type. rewrite Eu. reflexivity.
  - split; [auto|]. split; [destruct Tu as [Tu|[Tu|Tu]]; [auto|contradiction|rewrite Tu in Nt; destruct Nt; cbn; auto]|]. clear - Eu Z. assert (G : forall us vs, zip us vs -> (forall t, In t us -> In t ts) -> Forall (has u) vs).
    { induction us as [|t us IH]; intros [|v vs] Y S; cbn in Y; try tauto; [constructor|]. constructor; [|apply IH; [tauto|intros; apply S; cbn; auto]]. apply (has_reduce ts u v Eu). exists t. split; [apply S; cbn; auto|tauto]. }
    apply (G ts l Z). auto.
Qed.
(** ** Only the described values remain *)
Lemma rule_narrows out inp i inp' out' b : W out -> W inp -> indexer_type out inp i = Ok (inp', out', b) ->
  (exists t, reduce_input out inp i = Ok (Some t) /\ set_type inp t = Ok inp') /\ (exists ts u, each (fun t => entry_type t i) (members inp') = Ok ts /\ create_union_type ts = Ok u /\ set_type out u = Ok out') /\ b = negb (is_union out').
Proof.
  intros Wo Wi E. unfold indexer_type in E. match type of E with (let* _ := ?m in _) = _ => destruct m; [|discriminate] end. cbn [bind] in E. destruct (reduce_input out inp i) as [[t|]|]; cbn [bind] in E; try discriminate. destruct (set_type inp t) as [q|] eqn:Es; [|discriminate]. cbn [bind] in E. destruct (each (fun t => entry_type t i) (members q)) as [ts|] eqn:Et; [|discriminate]. cbn [bind] in E. destruct (create_union_type ts) as [u|] eqn:Eu; [|discriminate]. cbn [bind] in E. destruct (set_type out u) as [o|] eqn:Eo; [|discriminate]. cbn [bind] in E. injection E as <- <- <-. split; [eauto|]. split; [|auto]. exists ts, u. auto.
Qed.
Lemma list_result out t i inp' out' b u : W out -> W (TGen "list" [t]) -> indexer_type out (TGen "list" [t]) i = Ok (inp', out', b) -> i <> IOpen -> type_at (TGen "list" [t]) i u -> inp' = TGen "list" [t] /\ forall w, valid w -> has out' w -> has out w /\ has u w.
Proof.
  intros Wo Wi E Ni T. pose proof (list_arg t Wi) as Wt. destruct (rule_narrows _ _ _ _ _ _ Wo Wi E) as ((q & R & S) & (ts & z & Et & Ez & So) & _).
  assert (Q' : q = TGen "list" [t]). { rewrite rule_list in R by auto. destruct i; [congruence| |injection R as <-; auto]. destruct (meets out t) as [[]|]; cbn in R; try discriminate. injection R as <-. auto. }
  subst q. rewrite set_type_same in S. injection S as <-. split; [auto|]. cbn [members each] in Et.
  assert (U : entry_type (TGen "list" [t]) i = Ok u /\ W u) by (inversion T; subst; auto). destruct U as [U Wu]. rewrite U in Et. cbn in Et. injection Et as <-. cbn in Ez. injection Ez as <-. intros w V H. apply (set_type_sound out u out'); auto.
Qed.
Lemma exact_result out ts i inp' out' b u : P "None" -> W out -> W (TGen "tuple" ts) -> ~ In TDots ts -> indexer_type out (TGen "tuple" ts) i = Ok (inp', out', b) -> type_at (TGen "tuple" ts) i u -> (forall w, valid w -> has inp' w -> has (TGen "tuple" ts) w) /\ forall w, valid w -> has out' w -> has out w /\ has u w.
Proof.
  intros Pn Wo Wi N E T. pose proof (exact_W ts N Wi) as Fw. destruct (rule_narrows _ _ _ _ _ _ Wo Wi E) as ((q & R & S) & (es & z & Et & Ez & So) & _).
  inversion T as [| |ts' k p t N' Po Np|ts' a c d ps us N' Re Se|t a c d]; subst; [| |destruct N; cbn; auto].
  - cbn [reduce_input String.eqb Ascii.eqb Bool.eqb] in R. destruct (replace_from 0 k out ts) as [us|] eqn:Eu; [|discriminate]. cbn [bind] in R. rewrite (no_dots _ N) in R. injection R as <-. pose proof (replace_W out ts Pn Wo Fw _ _ _ Eu) as Wu. assert (Wi' : W (TGen "tuple" us)) by (apply w_tuple; auto).
    split; [intros w V H; exact (proj1 (set_type_sound _ _ _ w Wi Wi' S V H))|]. destruct (exact_set ts us inp' Fw Wu S) as (l & -> & Wl & Bl). pose proof (F2_length' _ _ _ Bl) as Ll. cbn [members each entry_type String.eqb Ascii.eqb Bool.eqb] in Et. rewrite (no_dots _ (W_not_dots _ Wl)) in Et. destruct (nth_error l p) as [y|] eqn:Ny; [|apply nth_error_None in Ny; destruct Po; lia]. rewrite (at_position l k p y) in Et; [|rewrite <- Ll; auto|auto]. cbn in Et. injection Et as <-. cbn in Ez. injection Ez as <-.
    intros w V H. assert (Wy : W y) by (rewrite Forall_forall in Wl; apply Wl; eapply nth_error_In; eauto). destruct (set_type_sound out y out' w Wo Wy So V H) as [A B]. split; [auto|]. exact (F2_nth' _ _ _ Bl p u y Np Ny w V B).
  - cbn [reduce_input String.eqb Ascii.eqb Bool.eqb] in R. injection R as <-. rewrite set_type_same in S. injection S as <-. split; [auto|]. cbn [members each entry_type String.eqb Ascii.eqb Bool.eqb] in Et. rewrite (no_dots _ N), (slice_selects ts a c d ps us Re Se) in Et. cbn in Et. injection Et as <-. cbn in Ez. injection Ez as <-. intros w V H. apply (set_type_sound out (TGen "tuple" us) out'); auto. apply w_tuple; auto. rewrite Forall_forall in *. intros t Ht. apply Fw. eapply selects_In; eauto.
Qed.
Lemma many_result out t a c d inp' out' b : W out -> W (TGen "tuple" [t; TDots]) -> indexer_type out (TGen "tuple" [t; TDots]) (ISlice a c d) = Ok (inp', out', b) -> inp' = TGen "tuple" [t; TDots] /\ forall w, valid w -> has out' w -> has out w /\ has (TGen "tuple" [t; TDots]) w.
Proof.
  intros Wo Wi E. destruct (rule_narrows _ _ _ _ _ _ Wo Wi E) as ((q & R & S) & (es & z & Et & Ez & So) & _). cbn [reduce_input String.eqb Ascii.eqb Bool.eqb] in R. injection R as <-. rewrite set_type_same in S. injection S as <-. split; [auto|].
  assert (D : has_dots [t; TDots] = true) by (unfold has_dots; cbn; apply orb_true_r). cbn [members each entry_type String.eqb Ascii.eqb Bool.eqb] in Et. rewrite D in Et. cbn in Et. injection Et as <-. cbn in Ez. injection Ez as <-. intros w V H. apply (set_type_sound out (TGen "tuple" [t; TDots]) out'); auto.
Qed.
(** ** All cases *)
Lemma all_keeps out inp i v r : W out -> W inp -> covered inp i -> valid v -> full v -> full r -> has inp v -> has out r -> picks v i r ->
  exists inp' out' b, indexer_type out inp i = Ok (inp', out', b) /\ has inp' v /\ has out' r.
Proof.
  intros Wo Wi C V Fv Fr Hi Ho K. destruct C as [t i Ni|ts i N Ni|t a b c|t k Nk Nt].
  - destruct (list_keeps out t i v r Wo Wi Ni V Fr Hi Ho K) as (o & b & E & H). exists (TGen "list" [t]), o, b. auto.
  - destruct (has_tuple _ _ Hi) as [vs ->]. inversion K as [|l k p x Po Np| |l a b c ps r' Re Se]; subst.
    + exact (exact_at out ts k vs p r Wo Wi N V Fv Fr Hi Ho Po Np).
    + destruct (exact_slice out ts a b c vs ps r' Wo Wi N V Fr Hi Ho Re Se) as (o & s & E & H). exists (TGen "tuple" ts), o, s. auto.
  - destruct (has_tuple _ _ Hi) as [vs ->]. inversion K as [| | |l a' b' c' ps r' Re Se]; subst. destruct (many_slice out t a b c vs ps r' Wo Wi V Fr Hi Ho Re Se) as (o & s & E & H). exists (TGen "tuple" [t; TDots]), o, s. auto.
  - destruct (has_tuple _ _ Hi) as [vs ->]. inversion K as [|l k' p x Po Np| |]; subst. exact (many_at out t k vs p r Wo Wi Nt Nk V Fr Hi Ho Po Np).
Qed.
Lemma all_result out inp i inp' out' b u : P "None" -> W out -> W inp -> i <> IOpen -> indexer_type out inp i = Ok (inp', out', b) -> type_at inp i u ->
  (forall w, valid w -> has inp' w -> has inp w) /\ forall w, valid w -> has out' w -> has out w /\ has u w.
Proof.
  intros Pn Wo Wi Ni E T. pose proof T as T'. destruct T' as [t k|t a c d|ts k p t N Po Np|ts a c d ps us N Re Se|t a c d].
  - destruct (list_result out t (IAt k) inp' out' b t Wo Wi E Ni T) as [-> H]. auto.
  - destruct (list_result out t (ISlice a c d) inp' out' b _ Wo Wi E Ni T) as [-> H]. auto.
  - exact (exact_result out ts (IAt k) inp' out' b t Pn Wo Wi N E T).
  - exact (exact_result out ts (ISlice a c d) inp' out' b _ Pn Wo Wi N E T).
  - destruct (many_result out t a c d inp' out' b Wo Wi E) as [-> H]. auto.
Qed.
Lemma all_open out ts l j r : W out -> W (TGen "tuple" ts) -> ts <> [] -> ~ In TTBD ts -> valid (VTuple l) -> full r -> has (TGen "tuple" ts) (VTuple l) -> has out r -> picks (VTuple l) j r ->
  exists out' b, indexer_type out (TGen "tuple" ts) IOpen = Ok (TGen "tuple" ts, out', b) /\ has out' r.
Proof.
  intros Wo Wi Ne Nt V F Hv Ho K. destruct (tuple_inv _ _ _ ts Wi) as [(t & -> & Wt & D)|(Fw & Nd & D)].
  - rewrite has_tuple_dots in Hv. eapply open_tuple with (u := t); eauto; [|intros ->; apply Nt; cbn; auto]. cbn [entry_type String.eqb Ascii.eqb Bool.eqb]. rewrite D. reflexivity.
  - rewrite has_tuple_zip in Hv by auto. destruct (open_exact ts l Fw Ne Nt Hv) as (u & Eu & Wu & Nu & Hu). eapply open_tuple; eauto.
Qed.
Lemma all_open_list out t l j r : W out -> W (TGen "list" [t]) -> valid (VList l) -> full r -> has (TGen "list" [t]) (VList l) -> has out r -> picks (VList l) (IAt j) r ->
  exists out' b, indexer_type out (TGen "list" [t]) IOpen = Ok (TGen "list" [t], out', b) /\ has out' r.
Proof.
  intros Wo Wi V F Hv Ho K. pose proof (picks_valid _ _ _ K V) as Vr. pose proof (list_arg t Wi) as Wt. apply has_list in Hv as (vs & t' & X & Y & Fa). injection X as <-. injection Y as <-. rewrite Forall_forall in Fa. inversion K as [l' i' p x Po N| | |]; subst.
  eapply finish with (inp' := TGen "list" [t]) (u := t); eauto; [apply set_type_same|exact I|]. apply Fa. eapply nth_error_In; eauto.
Qed.
Lemma out_of_range out ts k : P "None" -> W out -> W (TGen "tuple" ts) -> ~ In TDots ts -> (forall p, ~ position (List.length ts) k p) -> exists e, indexer_type out (TGen "tuple" ts) (IAt k) = Err e.
Proof.
  intros Pn Wo Wi N O. destruct (indexer_type out (TGen "tuple" ts) (IAt k)) as [[[inp' out'] b]|e] eqn:E; [|eauto]. exfalso. pose proof (exact_W ts N Wi) as Fw. destruct (rule_narrows _ _ _ _ _ _ Wo Wi E) as ((q & R & S) & (es & z & Et & Ez & So) & _).
  cbn [reduce_input String.eqb Ascii.eqb Bool.eqb] in R. destruct (replace_from 0 k out ts) as [us|] eqn:Eu; [|discriminate]. cbn [bind] in R. rewrite (no_dots _ N) in R. injection R as <-. pose proof (replace_W out ts Pn Wo Fw _ _ _ Eu) as Wu.
  destruct (exact_set ts us inp' Fw Wu S) as (l & -> & Wl & Bl). pose proof (F2_length' _ _ _ Bl) as Ll. cbn [members each entry_type String.eqb Ascii.eqb Bool.eqb] in Et. rewrite (no_dots _ (W_not_dots _ Wl)) in Et. destruct (at_index l k) as [y|] eqn:Ey; [|discriminate]. apply at_index_position in Ey as (p & Po & _). rewrite <- Ll in Po. exact (O p Po).
Qed.
End Rule.
