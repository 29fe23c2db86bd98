(** * Intersections of supported types are supported types *)
From Coq Require Import List Bool String PeanoNat Lia.
From Verif Require Import PyBase Inter_Model Inter_Proofs Inter_Sound Inter_Step Inter_Main.
Import ListNotations.
Open Scope string_scope. Open Scope list_scope. Open Scope res_scope.

Section Keep.
Variables P Q : string -> Prop.
Hypotheses (Pi : P "int") (Pf : P "float") (Pb : P "bool") (Pr : P "range") (Qt : Q "Tensor") (Ql : Q "list") (Qu : Q "tuple") (Qo : forall o, Q o -> In o ("tuple" :: singles)).
Notation W := (Inter_Sound.wf P Q False).
Definition keeps (I : ty -> ty -> res (option ty)) : Prop := forall a b r, W a -> W b -> I a b = Ok (Some r) -> W r /\ (r = TTBD -> a = TTBD \/ b = TTBD).
Definition fine (t : ty) : Prop := W t /\ t <> TTBD /\ match t with TUnion _ => False | _ => True end.
Section Step.
Variable I : ty -> ty -> res (option ty).
Hypothesis KI : keeps I.
Lemma gen_fine o l : W (TGen o l) -> fine (TGen o l). Proof. intros X. split; [auto|]. split; [discriminate|exact Logic.I]. Qed.
Lemma each_keeps f (l : list ty) rs ts : (forall y r, In y l -> f y = Ok (Some r) -> W r) -> each f l = Ok rs -> all_some rs = Some ts -> Forall W ts.
Proof.
  revert rs ts. induction l as [|y l IH]; intros rs ts H E S; cbn in E; [injection E as <-; injection S as <-; constructor|].
  destruct (f y) as [r|] eqn:Ey; [|discriminate]. cbn [bind] in E. destruct (each f l) as [rs'|] eqn:El; [|discriminate]. cbn in E. injection E as <-. cbn in S. destruct r as [r|]; [|discriminate]. destruct (all_some rs') as [ts'|] eqn:Es; [|discriminate]. injection S as <-. constructor; [eapply H; cbn; eauto|]. eapply IH; eauto. intros; eapply H; cbn; eauto.
Qed.
Lemma zip3_keeps l m ts : zip3 I l m ts -> Forall W l -> Forall W m -> Forall W ts.
Proof. induction 1; intros A B; [constructor|]. inversion A as [|? ? Wa ?]; inversion B as [|? ? Wb ?]; subst. constructor; [exact (proj1 (KI _ _ _ Wa Wb H))|auto]. Qed.
Lemma tuple_keeps a1 a2 x x' : W (TGen "tuple" a1) -> W (TGen "tuple" a2) -> tuple_pair I a1 a2 x = Ok x' -> forall t, In t x' -> In t x \/ fine t.
Proof.
  intros W1 W2 E t Ht. unfold tuple_pair in E.
  assert (Fin : forall (common : res (option (list ty))), (let* c := common in match c with Some l => Ok (tadd x (TGen "tuple" l)) | None => Ok x end)%res = Ok x' -> (forall l, common = Ok (Some l) -> W (TGen "tuple" l)) -> In t x \/ fine t).
  { intros [[l|]|e] Ec Hc; cbn in Ec; try discriminate; injection Ec as <-; [|auto]. apply In_tadd in Ht as [Ht| ->]; auto. right. apply gen_fine. auto. }
  apply Fin in E; [auto|]. clear Fin. intros l El. destruct (tuple_inv _ _ _ a1 W1) as [(t1 & -> & Wt1 & D1)|(F1 & N1 & D1)], (tuple_inv _ _ _ a2 W2) as [(t2 & -> & Wt2 & D2)|(F2 & N2 & D2)]; rewrite D1, D2 in El; cbn [andb hd_ty] in El.
  - destruct (I t1 t2) as [[r|]|] eqn:Er; cbn in El; try discriminate. injection El as <-. apply w_dots; auto. exact (proj1 (KI _ _ _ Wt1 Wt2 Er)).
  - destruct (each (fun y => I t1 y) a2) as [rs|] eqn:Es; [|discriminate]. cbn in El. injection El as El. apply w_tuple; auto. apply (fun H => each_keeps _ _ _ _ H Es El). intros y r Hy Ey. rewrite Forall_forall in F2. exact (proj1 (KI _ _ _ Wt1 (F2 _ Hy) Ey)).
  - destruct (each (fun y => I y t2) a1) as [rs|] eqn:Es; [|discriminate]. cbn in El. injection El as El. apply w_tuple; auto. apply (fun H => each_keeps _ _ _ _ H Es El). intros y r Hy Ey. rewrite Forall_forall in F1. exact (proj1 (KI _ _ _ (F1 _ Hy) Wt2 Ey)).
  - destruct (Nat.eqb_spec (List.length a1) (List.length a2)) as [L|]; [|discriminate]. destruct (each2 I a1 a2) as [rs|] eqn:Es; [|discriminate]. cbn in El. injection El as El. apply w_tuple; auto. exact (zip3_keeps _ _ _ (each2_spec _ _ _ _ _ L Es El) F1 F2).
Qed.
Lemma tensor_arg t : W (TGen "Tensor" [t]) -> t <> TTBD.
Proof. intros X. inversion X as [| | | |? t' In1 Qx Wt Nt| |? Qx Wl|? ? No Qx Wl]; subst; [destruct (Nt eq_refl); [auto|contradiction]|]. destruct No. cbn. auto. Qed.
Lemma single_keeps o a1 a2 x x' : In o singles -> W (TGen o a1) -> W (TGen o a2) -> single_pair I o a1 a2 x = Ok x' -> forall t, In t x' -> In t x \/ fine t.
Proof.
  intros Io W1 W2 E t Ht. assert (Qo' : Q o) by (inversion W1; auto). destruct (single_inv _ _ _ o a1 Io W1) as (t1 & -> & W1'), (single_inv _ _ _ o a2 Io W2) as (t2 & -> & W2'). cbn [single_pair] in E. destruct (I t1 t2) as [[r|]|] eqn:Er; cbn in E; try discriminate; injection E as <-; [|auto]. apply In_tadd in Ht as [Ht| ->]; [auto|]. right. destruct (KI t1 t2 r W1' W2' Er) as [Wr Sr]. apply gen_fine. apply w_single; auto.
  intros ->. left. intros ->. destruct (Sr eq_refl) as [->| ->]; [apply (tensor_arg _ W1)|apply (tensor_arg _ W2)]; auto.
Qed.
(** Intersections of two lists or two tuples are no unions. *)
Definition flat : Prop := forall o a1 a2 r, o = "list" \/ o = "tuple" -> W (TGen o a1) -> W (TGen o a2) -> I (TGen o a1) (TGen o a2) = Ok (Some r) -> fine r.
Hypothesis FI : flat.
Lemma sequence_keeps a1 o a2 x x' : o <> "Sequence" -> W (TGen "Sequence" a1) -> W (TGen o a2) -> sequence_pair I a1 o a2 x = Ok x' -> forall t, In t x' -> In t x \/ fine t.
Proof.
  intros No W1 W2 E t Ht. unfold sequence_pair in E. destruct (String.eqb_spec o "Tensor") as [->|Nt]; [injection E as <-; auto|].
  assert (Qo' : Q o) by (inversion W2; auto). assert (Lo : o = "list" \/ o = "tuple") by (specialize (Qo o Qo'); cbn in Qo; intuition congruence).
  destruct (single_inv _ _ _ "Sequence" a1 ltac:(cbn; auto) W1) as (u & -> & Wu). rewrite reduce1 in E. cbn [bind] in E.
  destruct (I (TGen o (if (o =? "list")%string then [u] else [u; TDots])) (TGen o a2)) as [[r|]|] eqn:Er; cbn in E; try discriminate; injection E as <-; [|auto]. apply In_tadd in Ht as [Ht| ->]; [auto|]. right. eapply FI; [exact Lo| |exact W2|exact Er]. destruct Lo as [->| ->]; cbn [String.eqb Ascii.eqb Bool.eqb]; [apply w_single; cbn; auto; discriminate|apply w_dots; auto].
Qed.
Lemma pair_keeps t1 t2 x x' : W t1 -> W t2 -> pair_step I t1 t2 x = Ok x' -> forall t, In t x' -> In t x \/ fine t.
Proof.
  intros W1 W2 E t Ht. destruct t1 as [| | | |o1 a1|], t2 as [| | | |o2 a2|]; try (injection E as <-; auto; fail). cbn [pair_step] in E. destruct (String.eqb_spec o1 o2) as [<-|No].
  - destruct (is_nil a1 || is_nil a2); [injection E as <-; auto|]. destruct (String.eqb_spec o1 "tuple") as [->|Nt]; [exact (tuple_keeps a1 a2 x x' W1 W2 E t Ht)|]. destruct ((o1 =? "list")%string || (o1 =? "Tensor")%string || (o1 =? "Sequence")%string) eqn:Es; [|injection E as <-; auto]. refine (single_keeps o1 a1 a2 x x' _ W1 W2 E t Ht). rewrite !orb_true_iff, !String.eqb_eq in Es. cbn. intuition congruence.
  - destruct (String.eqb_spec o1 "Sequence") as [->|N1]; [exact (sequence_keeps a1 o2 a2 x x' ltac:(congruence) W1 W2 E t Ht)|]. destruct (String.eqb_spec o2 "Sequence") as [->|N2]; [|injection E as <-; auto]. exact (sequence_keeps a2 o1 a1 x x' N1 W2 W1 E t Ht).
Qed.
Lemma pairs_keeps s1 s2 x x' : Forall W s1 -> Forall W s2 -> pairs I s1 s2 x = Ok x' -> forall t, In t x' -> In t x \/ fine t.
Proof.
  intros F1 F2 E. rewrite Forall_forall in F1, F2. unfold pairs in E. revert x' E. apply (foldM_In fine). intros y t1 y' H1 E. apply In_tdiff in H1. revert y' E. apply (foldM_In fine). intros z t2 z' H2 E t Ht. apply In_tdiff in H2. exact (pair_keeps t1 t2 z z' (F1 _ H1) (F2 _ H2) E t Ht).
Qed.
Lemma bare_step_keeps orig typ x x' : In orig ["list"; "tuple"; "range"] -> W typ -> bare_step I orig x typ = Ok x' -> forall t, In t x' -> In t x \/ fine t.
Proof.
  intros Io Wt E t Ht. destruct typ as [| | | |o a|]; try (injection E as <-; auto; fail). cbn [bare_step] in E. destruct (String.eqb_spec o orig) as [->|No].
  - injection E as <-. apply In_tadd in Ht as [Ht| ->]; [auto|]. right. apply gen_fine. auto.
  - destruct (String.eqb_spec o "Sequence") as [->|Ns]; [|injection E as <-; auto]. destruct (single_inv _ _ _ "Sequence" a ltac:(cbn; auto) Wt) as (u & -> & Wu). destruct (String.eqb_spec orig "range") as [->|Nr].
    + cbn [hd_ty] in E. destruct (I (TClass "int") u) as [[r|]|] eqn:Er; cbn in E; try discriminate; injection E as <-; [|auto]. apply In_tadd in Ht as [Ht| ->]; [auto|]. right. split; [constructor; auto|]. split; [discriminate|exact Logic.I].
    + rewrite reduce1 in E. cbn [bind] in E. injection E as <-. apply In_tadd in Ht as [Ht| ->]; [auto|]. right. apply gen_fine. cbn in Io. destruct Io as [<-|[<-|[<-|[]]]]; [apply w_single; cbn; auto; discriminate|apply w_tuple; auto|congruence].
Qed.
Lemma bare_keeps s other x x' : Forall W other -> bare I s other x = Ok x' -> forall t, In t x' -> In t x \/ fine t.
Proof.
  intros F E. rewrite Forall_forall in F. unfold bare in E. revert x' E. apply (foldM_In fine). intros y o y' Ho E. destruct (tmem (TClass o) s) eqn:M; [|injection E as <-; auto]. revert y' E. apply (foldM_In fine). intros z u z' Hu E. exact (bare_step_keeps o u z z' Ho (F _ Hu) E).
Qed.
Lemma members_fine t : W t -> t <> TTBD -> Forall fine (members t).
Proof.
  intros Wt N. inversion Wt as [| |c Pc|l Ne Fl Nu Tb|o t' In1 Qx Wt' Nt|t' Qx Wt'|l Qx Wl|o l No Qx Wl]; subst; cbn [members]; try (constructor; [|constructor]; split; [auto|split; [auto|exact Logic.I]]).
  rewrite Forall_forall in *. intros t Ht. split; [auto|]. split; [intros ->; auto|]. specialize (Nu t Ht). destruct t; auto.
Qed.
Lemma step_keeps : keeps (inter_step I).
Proof.
  intros a b r Wa Wb E. unfold inter_step in E.
  destruct (squash_rec_spec P Q False Pi Pf Pb Qt a Wa) as (a' & Ea & Wa' & _ & Na).
  destruct (squash_rec_spec P Q False Pi Pf Pb Qt b Wb) as (b' & Eb & Wb' & _ & Nb).
  destruct (teq a b) eqn:Tab. { rewrite Ea in E. cbn in E. injection E as <-. split; [auto|]. intros X. destruct (Na X); [auto|contradiction]. }
  destruct (is_top a) eqn:Ta. { rewrite Eb in E. cbn in E. injection E as <-. split; [auto|]. intros X. destruct (Nb X); [auto|contradiction]. }
  destruct (is_top b) eqn:Tb. { rewrite Ea in E. cbn in E. injection E as <-. split; [auto|]. intros X. destruct (Na X); [auto|contradiction]. }
  clear a' Ea Wa' Na b' Eb Wb' Nb.
  destruct (squash_spec P Q False Pi Pf Pb Qt a Wa) as (a' & Ea & Wa' & Na & _).
  destruct (squash_spec P Q False Pi Pf Pb Qt b Wb) as (b' & Eb & Wb' & Nb & _).
  assert (Na' : a' <> TTBD) by (destruct Na; [intros ->; discriminate|auto|contradiction]). assert (Nb' : b' <> TTBD) by (destruct Nb; [intros ->; discriminate|auto|contradiction]).
  rewrite Ea, Eb in E. cbn [bind] in E. cbv zeta in E.
  set (s1 := taddall [] (members a')) in *. set (s2 := taddall [] (members b')) in *.
  set (x0 := filter (fun t => tmem t s2) s1) in *. set (x1 := if tmem TAny s1 then taddall x0 s2 else x0) in *. set (n1 := filter (fun t => negb (teq TAny t)) s1) in *. set (x2 := if tmem TAny s2 then taddall x1 n1 else x1) in *. set (n2 := filter (fun t => negb (teq TAny t)) s2) in *.
  assert (F1 : forall t, In t s1 -> fine t) by (intros t Ht; apply In_taddall in Ht as [[]|Ht]; pose proof (members_fine a' Wa' Na') as X; rewrite Forall_forall in X; auto).
  assert (F2 : forall t, In t s2 -> fine t) by (intros t Ht; apply In_taddall in Ht as [[]|Ht]; pose proof (members_fine b' Wb' Nb') as X; rewrite Forall_forall in X; auto).
  assert (G1 : forall t, In t n1 -> fine t) by (intros t Ht; apply filter_In in Ht; apply F1; tauto).
  assert (G2 : forall t, In t n2 -> fine t) by (intros t Ht; apply filter_In in Ht; apply F2; tauto).
  assert (H1 : Forall W n1) by (apply Forall_forall; intros t Ht; apply G1; auto). assert (H2 : Forall W n2) by (apply Forall_forall; intros t Ht; apply G2; auto).
  assert (K0 : forall t, In t x0 -> fine t) by (intros t Ht; apply filter_In in Ht as [A B]; auto).
  assert (K1 : forall t, In t x1 -> fine t) by (subst x1; destruct (tmem TAny s1); [|auto]; intros t Ht; apply In_taddall in Ht as [Ht|Ht]; auto).
  assert (K2 : forall t, In t x2 -> fine t) by (subst x2; destruct (tmem TAny s2); [|auto]; intros t Ht; apply In_taddall in Ht as [Ht|Ht]; auto).
  destruct (bare I n1 n2 x2) as [x3|] eqn:E3; [|discriminate]. cbn [bind] in E.
  assert (K3 : forall t, In t x3 -> fine t) by (intros t Ht; destruct (bare_keeps _ _ _ _ H2 E3 t Ht); auto).
  destruct (bare I n2 n1 x3) as [x4|] eqn:E4; [|discriminate]. cbn [bind] in E.
  assert (K4 : forall t, In t x4 -> fine t) by (intros t Ht; destruct (bare_keeps _ _ _ _ H1 E4 t Ht); auto).
  destruct (pairs I n1 n2 x4) as [x5|] eqn:E5; [|discriminate]. cbn [bind] in E.
  assert (K5 : forall t, In t x5 -> fine t) by (intros t Ht; destruct (pairs_keeps _ _ _ _ H1 H2 E5 t Ht); auto).
  assert (Nx : x5 <> []) by (intros ->; discriminate).
  assert (Nt : ~ In TTBD x5) by (intros X; destruct (K5 _ X) as (_ & Y & _); auto).
  destruct (wf_reduce P Q False x5 Nx) as (u & Eu & Wu & Tu); [apply Forall_forall; intros t Ht; apply K5; auto|right; intros X; destruct (Nt X)|].
  assert (Er : r = u) by (destruct x5; [congruence|]; rewrite Eu in E; cbn in E; congruence). subst r. split; [auto|]. intros ->. destruct Tu as [Tu|[Tu|Tu]]; [congruence|contradiction|]. destruct Nt. rewrite Tu. cbn. auto.
Qed.
End Step.
Lemma step_flat I : keeps I -> flat (inter_step I).
Proof.
  intros KI o a1 a2 r Lo W1 W2 E. unfold inter_step in E.
  destruct (squash_rec_spec P Q False Pi Pf Pb Qt _ W1) as (u & Eu & Wu & _).
  assert (No : (o =? "Tensor")%string = false) by (destruct Lo as [->| ->]; reflexivity).
  destruct (teq (TGen o a1) (TGen o a2)) eqn:Te. { rewrite Eu in E. cbn [bind] in E. injection E as <-. cbn [squash_rec] in Eu. rewrite No in Eu. destruct (each squash_rec a1) as [l|]; [|discriminate]. cbn in Eu. injection Eu as <-. apply gen_fine. auto. }
  cbn [is_top squash bind members] in E. change (taddall [] [TGen o a1]) with [TGen o a1] in E. change (taddall [] [TGen o a2]) with [TGen o a2] in E. cbv zeta in E.
  assert (M : tmem (TGen o a1) [TGen o a2] = false) by (unfold tmem; cbn [existsb]; rewrite Te; reflexivity).
  cbn [filter] in E. rewrite M in E. change (tmem TAny [TGen o a1]) with false in E. change (tmem TAny [TGen o a2]) with false in E. change (negb (teq TAny (TGen o a1))) with true in E. change (negb (teq TAny (TGen o a2))) with true in E. cbn iota in E.
  assert (B : forall t u, bare I [TGen o t] [TGen o u] [] = Ok []) by reflexivity. rewrite B in E. cbn [bind] in E. rewrite B in E. cbn [bind] in E. unfold pairs in E. change (tdiff [TGen o a1] []) with [TGen o a1] in E. cbn [foldM] in E. change (tdiff [TGen o a2] []) with [TGen o a2] in E. cbn [foldM] in E.
  destruct (pair_step I (TGen o a1) (TGen o a2) []) as [x|] eqn:Ex; [|discriminate]. cbn [bind] in E.
  assert (X : x = [] \/ exists t, x = [t] /\ fine t).
  { cbn [pair_step] in Ex. rewrite String.eqb_refl in Ex. destruct (is_nil a1 || is_nil a2); [injection Ex as <-; auto|]. destruct Lo as [->| ->].
    - cbn [String.eqb Ascii.eqb Bool.eqb orb] in Ex. pose proof (single_keeps I KI "list" a1 a2 [] x ltac:(cbn; auto) W1 W2 Ex) as K. unfold single_pair in Ex. destruct a1 as [|t1 [|]]; try discriminate. destruct a2 as [|t2 [|]]; try discriminate. destruct (I t1 t2) as [[t|]|]; cbn in Ex; try discriminate; injection Ex as <-; [|auto]. right. eexists. split; [reflexivity|]. destruct (K _ (or_introl eq_refl)); [contradiction|auto].
    - cbn [String.eqb Ascii.eqb Bool.eqb orb] in Ex. pose proof (tuple_keeps I KI a1 a2 [] x W1 W2 Ex) as K. unfold tuple_pair in Ex. match type of Ex with (let* c := ?m in _) = _ => destruct m as [[l|]|]; cbn in Ex; try discriminate; injection Ex as <- end; [|auto]. right. eexists. split; [reflexivity|]. destruct (K _ (or_introl eq_refl)); [contradiction|auto]. }
  destruct X as [->|(t & -> & Ft)]; [discriminate|]. cbn in E. injection E as <-. auto.
Qed.
Lemma fuel_keeps n : keeps (inter_fuel n) /\ flat (inter_fuel n).
Proof. induction n as [|n [A B]]; cbn [inter_fuel]; [split; [intros ? ? ? _ _ E|intros ? ? ? ? _ _ _ E]; discriminate|]. split; [apply step_keeps|apply step_flat]; auto. Qed.
End Keep.
