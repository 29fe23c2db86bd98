(** * The intersection contains only shared values *)
From Coq Require Import List Bool String PeanoNat Lia.
From Verif Require Import PyBase Inter_Model Inter_Proofs Inter_Sound Inter_Step.
Import ListNotations.
Open Scope string_scope. Open Scope list_scope.
Local Open Scope res_scope.
Lemma reduce1 t : reduce_or [t] = Ok t. Proof. reflexivity. Qed.
Lemma has_other o a v : ~ In o ("tuple" :: singles) -> has (TGen o a) v -> o = "dict" /\ exists k w l, a = [k; w] /\ w <> TDots /\ v = VDict l.
Proof.
  intros N H. cbn in N. destruct v as [c|vs|vs| |d|kvs]; cbn in H; [tauto| | | | |].
  - destruct a as [|t [|]]; try tauto. destruct H as [[H|H] _]; intuition congruence.
  - destruct H as [[H _]|[H _]]; intuition congruence.
  - destruct a as [|t [|]]; try tauto. intuition congruence.
  - destruct a as [|t [|]]; try tauto. intuition congruence.
  - destruct a as [|t [|w [|]]]; try tauto. destruct H as (-> & Nw & _). split; [auto|]. exists t, w, kvs. auto.
Qed.
Section Sound.
Variable I : ty -> ty -> res (option ty).
Hypotheses (SI : sound I) (NI : int_ok I).
Lemma fresh_sym a b t : fresh a b t -> fresh b a t.
Proof. intros [W H]. split; [auto|]. intros v V X. destruct (H v V X). auto. Qed.
Lemma single_sound o a1 a2 x x' : In o singles -> WF (TGen o a1) -> WF (TGen o a2) -> single_pair I o a1 a2 x = Ok x' -> forall t, In t x' -> In t x \/ fresh (TGen o a1) (TGen o a2) t.
Proof.
  intros Io W1 W2 E t Ht. destruct (single_inv _ _ _ o a1 Io W1) as (t1 & -> & W1'), (single_inv _ _ _ o a2 Io W2) as (t2 & -> & W2'). cbn [single_pair] in E. destruct (I t1 t2) as [[r|]|] eqn:Er; cbn in E; try discriminate; injection E as <-; [|auto]. apply In_tadd in Ht as [Ht| ->]; [auto|]. right. destruct (SI t1 t2 r W1' W2' Er) as [Wr Sr]. split; [apply w_single; auto|]. intros v V Hv.
  cbn in Io. destruct Io as [<-|[<-|[<-|[]]]].
  - apply has_list in Hv as (vs & u & -> & X & F). injection X as <-. inversion V; subst. split; apply has_list; eexists; eexists; (split; [reflexivity|]); (split; [reflexivity|]); rewrite Forall_forall in *; intros w Hw; apply (Sr w); auto.
  - apply has_tensor in Hv as (d & u & -> & X & F). injection X as <-. inversion V; subst. assert (D : valid (VObj d)) by (apply valid_dtype; auto). destruct (Sr _ D F). split; apply has_tensor; eauto.
  - apply has_seq in Hv as (u & X & F). injection X as <-. destruct F as [(vs & Hvs & F)|[-> F]].
    + assert (Vs : Forall valid vs) by (destruct Hvs as [->| ->]; inversion V; auto). split; apply has_seq; eexists; (split; [reflexivity|]); left; exists vs; (split; [auto|]); rewrite Forall_forall in *; intros w Hw; apply (Sr w); auto.
    + destruct (Sr _ valid_int F). split; apply has_seq; eauto.
Qed.
Lemma sequence_sound a1 o a2 x x' : o <> "Sequence" -> WF (TGen "Sequence" a1) -> WF (TGen o a2) -> sequence_pair I a1 o a2 x = Ok x' -> forall t, In t x' -> In t x \/ fresh (TGen "Sequence" a1) (TGen o a2) t.
Proof.
  intros No W1 W2 E t Ht. unfold sequence_pair in E. destruct (String.eqb_spec o "Tensor") as [->|Nt]; [injection E as <-; auto|].
  destruct (single_inv _ _ _ "Sequence" a1 ltac:(cbn; auto) W1) as (u & -> & Wu). rewrite reduce1 in E. cbn [bind] in E. set (k := TGen o (if (o =? "list")%string then [u] else [u; TDots])) in *.
  assert (Wk : WF k). { subst k. destruct (String.eqb_spec o "list") as [->|Nl]; [apply w_single; cbn; auto|]. destruct (string_dec o "tuple") as [->|Ntp]; [apply w_dots; auto|]. apply w_other; auto. cbn. intuition congruence. }
  destruct (I k (TGen o a2)) as [[r|]|] eqn:Er; cbn in E; try discriminate; injection E as <-; [|auto]. apply In_tadd in Ht as [Ht| ->]; [auto|]. right. destruct (SI _ _ r Wk W2 Er) as [Wr Sr]. split; [auto|]. intros v V Hv. destruct (Sr v V Hv) as [A B]. split; [|auto]. subst k. destruct (String.eqb_spec o "list") as [->|Nl].
  - apply has_list in A as (vs & u' & -> & X & F). injection X as <-. apply has_seq. eexists. split; [reflexivity|]. left. eauto.
  - destruct (string_dec o "tuple") as [->|Ntp].
    + destruct (has_tuple _ _ A) as [vs ->]. rewrite has_tuple_dots in A. apply has_seq. eexists. split; [reflexivity|]. left. eauto.
    + apply has_other in A as (_ & k & w & l & X & Nw & _); [|cbn; intuition congruence]. injection X as _ X. congruence.
Qed.
Lemma pair_sound t1 t2 x x' : WF t1 -> WF t2 -> pair_step I t1 t2 x = Ok x' -> forall t, In t x' -> In t x \/ fresh t1 t2 t.
Proof.
  intros W1 W2 E t Ht. destruct t1 as [| | | |o1 a1|], t2 as [| | | |o2 a2|]; try (injection E as <-; auto; fail). cbn [pair_step] in E. destruct (String.eqb_spec o1 o2) as [<-|No].
  - destruct (is_nil a1 || is_nil a2); [injection E as <-; auto|]. destruct (String.eqb_spec o1 "tuple") as [->|Nt]; [eapply tuple_sound; eauto|]. destruct ((o1 =? "list")%string || (o1 =? "Tensor")%string || (o1 =? "Sequence")%string) eqn:Es; [|injection E as <-; auto]. eapply single_sound; eauto. rewrite !orb_true_iff, !String.eqb_eq in Es. cbn. intuition congruence.
  - destruct (String.eqb_spec o1 "Sequence") as [->|N1]; [eapply sequence_sound; eauto|]. destruct (String.eqb_spec o2 "Sequence") as [->|N2]; [|injection E as <-; auto]. destruct (sequence_sound a2 o1 a1 x x' N1 W2 W1 E t Ht) as [X|X]; [auto|right; apply fresh_sym; auto].
Qed.
Lemma foldM_In {A} (K : ty -> Prop) (f : list ty -> A -> res (list ty)) l : (forall x a x', In a l -> f x a = Ok x' -> forall t, In t x' -> In t x \/ K t) -> forall x x', foldM f l x = Ok x' -> forall t, In t x' -> In t x \/ K t.
Proof.
  induction l as [|a l IH]; intros H x x' E t Ht; cbn in E; [injection E as <-; auto|]. destruct (f x a) as [y|] eqn:Ey; [|discriminate]. cbn in E. destruct (IH ltac:(intros; eapply H; cbn; eauto) y x' E t Ht) as [X|X]; [|auto]. eapply H; cbn; eauto.
Qed.
Definition freshU (s1 s2 : list ty) (t : ty) : Prop := WF t /\ forall v, valid v -> has t v -> hasU s1 v /\ hasU s2 v.
Lemma fresh_U s1 s2 t1 t2 t : In t1 s1 -> In t2 s2 -> fresh t1 t2 t -> freshU s1 s2 t.
Proof. intros A B [W H]. split; [auto|]. intros v V X. destruct (H v V X). split; [exists t1|exists t2]; auto. Qed.
Lemma freshU_sym a b t : freshU a b t -> freshU b a t.
Proof. intros [W H]. split; [auto|]. intros v V X. destruct (H v V X). auto. Qed.
Lemma In_tdiff t s x : In t (tdiff s x) -> In t s.
Proof. unfold tdiff. intros X. apply filter_In in X. tauto. Qed.
Lemma pairs_sound s1 s2 x x' : Forall WF s1 -> Forall WF s2 -> pairs I s1 s2 x = Ok x' -> forall t, In t x' -> In t x \/ freshU s1 s2 t.
Proof.
  intros F1 F2 E. rewrite Forall_forall in F1, F2. unfold pairs in E. revert x' E. apply (foldM_In (freshU s1 s2)). intros y t1 y' H1 E. apply In_tdiff in H1. revert y' E. apply (foldM_In (freshU s1 s2)). intros z t2 z' H2 E t Ht. apply In_tdiff in H2. destruct (pair_sound t1 t2 z z' (F1 _ H1) (F2 _ H2) E t Ht); [auto|]. right. eapply fresh_U; eauto.
Qed.
Lemma bare_step_sound orig typ x x' : In orig ["list"; "tuple"; "range"] -> WF typ -> bare_step I orig x typ = Ok x' -> forall t, In t x' -> In t x \/ fresh (TClass orig) typ t.
Proof.
  intros Io W E t Ht. destruct typ as [| | | |o a|]; try (injection E as <-; auto; fail). cbn [bare_step] in E. destruct (String.eqb_spec o orig) as [->|No].
  - injection E as <-. apply In_tadd in Ht as [Ht| ->]; [auto|]. right. split; [auto|]. intros v V Hv. split; [|auto]. cbn in Io. destruct Io as [<-|[<-|[<-|[]]]].
    + apply has_list in Hv as (vs & u & -> & _). reflexivity.
    + destruct (has_tuple _ _ Hv) as [vs ->]. reflexivity.
    + apply has_other in Hv as [X _]; [discriminate|cbn; intuition discriminate].
  - destruct (String.eqb_spec o "Sequence") as [->|Ns]; [|injection E as <-; auto]. destruct (single_inv _ _ _ "Sequence" a ltac:(cbn; auto) W) as (u & -> & Wu). destruct (String.eqb_spec orig "range") as [->|Nr].
    + cbn [hd_ty] in E. destruct (I (TClass "int") u) as [[r|]|] eqn:Er; cbn in E; try discriminate; injection E as <-; [|auto]. apply In_tadd in Ht as [Ht| ->]; [auto|]. right. split; [constructor; auto|]. intros v V Hv. split; [auto|]. cbn in Hv. inversion V as [c Nc| | | | |]; subst; cbn in Hv; try discriminate; [subst; destruct Nc; cbn; auto|]. apply has_seq. eexists. split; [reflexivity|]. right. split; [auto|]. eapply NI; eauto.
    + rewrite reduce1 in E. cbn [bind] in E. injection E as <-. apply In_tadd in Ht as [Ht| ->]; [auto|]. right. cbn in Io. destruct Io as [<-|[<-|[<-|[]]]]; [| |congruence].
      * split; [apply w_single; cbn; auto|]. intros v V Hv. apply has_list in Hv as (vs & u' & -> & X & F). injection X as <-. split; [reflexivity|]. apply has_seq. eexists. split; [reflexivity|]. left. eauto.
      * split; [apply w_tuple; auto|]. intros v V Hv. destruct (has_tuple _ _ Hv) as [vs ->]. split; [reflexivity|]. rewrite has_tuple_zip in Hv by discriminate. apply has_seq. eexists. split; [reflexivity|]. left. exists vs. split; [auto|]. destruct vs as [|w [|]]; cbn in Hv; try tauto. constructor; [tauto|constructor].
Qed.
Lemma bare_sound s other x x' : Forall WF other -> bare I s other x = Ok x' -> forall t, In t x' -> In t x \/ freshU s other t.
Proof.
  intros F E. rewrite Forall_forall in F. unfold bare in E. revert x' E. apply (foldM_In (freshU s other)). intros y o y' Ho E. destruct (tmem (TClass o) s) eqn:M; [|injection E as <-; auto]. revert y' E. apply (foldM_In (freshU s other)). intros z u z' Hu E t Ht. destruct (bare_step_sound o u z z' Ho (F _ Hu) E t Ht) as [X|[Wt X]]; [auto|]. right. split; [auto|]. intros v V Hv. destruct (X v V Hv) as [A B]. split; [eapply tmem_sem; eauto|exists u; auto].
Qed.
Lemma is_top_has t v : is_top t = true -> has t v.
Proof. destruct t; cbn; intros; try discriminate; exact Logic.I. Qed.
Lemma members_WF t : WF t -> Forall WF (members t).
Proof. intros W. inversion W; subst; cbn [members]; auto. Qed.
Lemma step_sound : sound (inter_step I).
Proof.
  intros a b r Wa Wb E. unfold inter_step in E.
  destruct (squash_rec_spec (fun _ => True) (fun _ => True) True Logic.I Logic.I Logic.I Logic.I a Wa) as (a' & Ea & Wa' & Sa & _).
  destruct (squash_rec_spec (fun _ => True) (fun _ => True) True Logic.I Logic.I Logic.I Logic.I b Wb) as (b' & Eb & Wb' & Sb & _).
  destruct (teq a b) eqn:Tab. { rewrite Ea in E. cbn in E. injection E as <-. split; [auto|]. intros v V Hv. apply (Sa v V) in Hv. split; [auto|]. apply (teq_sem a b Tab). auto. }
  destruct (is_top a) eqn:Ta. { rewrite Eb in E. cbn in E. injection E as <-. split; [auto|]. intros v V Hv. split; [apply is_top_has; auto|]. apply (Sb v V). auto. }
  destruct (is_top b) eqn:Tb. { rewrite Ea in E. cbn in E. injection E as <-. split; [auto|]. intros v V Hv. split; [apply (Sa v V); auto|]. apply is_top_has; auto. }
  clear a' Ea Wa' Sa b' Eb Wb' Sb.
  destruct (squash_spec (fun _ => True) (fun _ => True) True Logic.I Logic.I Logic.I Logic.I a Wa) as (a' & Ea & Wa' & _ & Sa & _).
  destruct (squash_spec (fun _ => True) (fun _ => True) True Logic.I Logic.I Logic.I Logic.I b Wb) as (b' & Eb & Wb' & _ & Sb & _).
  rewrite Ea, Eb in E. cbn [bind] in E. cbv zeta in E.
  set (s1 := taddall [] (members a')) in *. set (s2 := taddall [] (members b')) in *.
  set (x0 := filter (fun t => tmem t s2) s1) in *. set (x1 := if tmem TAny s1 then taddall x0 s2 else x0) in *. set (n1 := filter (fun t => negb (teq TAny t)) s1) in *. set (x2 := if tmem TAny s2 then taddall x1 n1 else x1) in *. set (n2 := filter (fun t => negb (teq TAny t)) s2) in *.
  assert (M1 : forall v, valid v -> hasU s1 v <-> has a v) by (intros v V; subst s1; rewrite hasU_taddall, hasU_members, (Sa v V); split; [intros [X|X]; [destruct (hasU_nil v X)|auto]|auto]).
  assert (M2 : forall v, valid v -> hasU s2 v <-> has b v) by (intros v V; subst s2; rewrite hasU_taddall, hasU_members, (Sb v V); split; [intros [X|X]; [destruct (hasU_nil v X)|auto]|auto]).
  assert (F1 : Forall WF s1) by (apply Forall_forall; intros t Ht; apply In_taddall in Ht as [[]|Ht]; pose proof (members_WF a' Wa') as X; rewrite Forall_forall in X; auto).
  assert (F2 : Forall WF s2) by (apply Forall_forall; intros t Ht; apply In_taddall in Ht as [[]|Ht]; pose proof (members_WF b' Wb') as X; rewrite Forall_forall in X; auto).
  assert (G1 : Forall WF n1) by (rewrite Forall_forall in *; intros t Ht; apply filter_In in Ht; apply F1; tauto).
  assert (G2 : Forall WF n2) by (rewrite Forall_forall in *; intros t Ht; apply filter_In in Ht; apply F2; tauto).
  assert (Sub1 : forall v, hasU n1 v -> hasU s1 v) by (intros v (t & A & B); apply filter_In in A; exists t; tauto).
  assert (Sub2 : forall v, hasU n2 v -> hasU s2 v) by (intros v (t & A & B); apply filter_In in A; exists t; tauto).
  assert (Up : forall t, freshU n1 n2 t -> freshU s1 s2 t) by (intros t [W X]; split; [auto|]; intros v V Hv; destruct (X v V Hv); auto).
  assert (K0 : forall t, In t x0 -> freshU s1 s2 t). { intros t Ht. apply filter_In in Ht as [A B]. split; [rewrite Forall_forall in F1; auto|]. intros v V Hv. split; [exists t; auto|]. eapply tmem_sem; eauto. }
  assert (K1 : forall t, In t x1 -> freshU s1 s2 t). { subst x1. destruct (tmem TAny s1) eqn:TA; [|auto]. intros t Ht. apply In_taddall in Ht as [Ht|Ht]; [auto|]. split; [rewrite Forall_forall in F2; auto|]. intros v V Hv. split; [|exists t; auto]. eapply tmem_sem; [exact TA|]. exact Logic.I. }
  assert (K2 : forall t, In t x2 -> freshU s1 s2 t). { subst x2. destruct (tmem TAny s2) eqn:TA; [|auto]. intros t Ht. apply In_taddall in Ht as [Ht|Ht]; [auto|]. split; [rewrite Forall_forall in G1; auto|]. intros v V Hv. split; [apply Sub1; exists t; auto|]. eapply tmem_sem; [exact TA|]. exact Logic.I. }
  destruct (bare I n1 n2 x2) as [x3|] eqn:E3; [|discriminate]. cbn [bind] in E.
  assert (K3 : forall t, In t x3 -> freshU s1 s2 t) by (intros t Ht; destruct (bare_sound _ _ _ _ G2 E3 t Ht); auto).
  destruct (bare I n2 n1 x3) as [x4|] eqn:E4; [|discriminate]. cbn [bind] in E.
  assert (K4 : forall t, In t x4 -> freshU s1 s2 t) by (intros t Ht; destruct (bare_sound _ _ _ _ G1 E4 t Ht); auto; apply Up; apply freshU_sym; auto).
  destruct (pairs I n1 n2 x4) as [x5|] eqn:E5; [|discriminate]. cbn [bind] in E.
  assert (K5 : forall t, In t x5 -> freshU s1 s2 t) by (intros t Ht; destruct (pairs_sound _ _ _ _ G1 G2 E5 t Ht); auto).
  assert (Nx : x5 <> []) by (intros ->; discriminate). destruct (WF_reduce x5 Nx) as (u & Eu & Wu); [apply Forall_forall; intros t Ht; apply K5; auto|]. assert (Er : r = u) by (destruct x5; [congruence|]; rewrite Eu in E; cbn in E; congruence). subst r. split; [auto|]. intros v V Hv. apply (has_reduce x5 u v Eu) in Hv as (t & Ht & Hv). destruct (proj2 (K5 t Ht) v V Hv). split; [apply M1|apply M2]; auto.
Qed.
Lemma step_int : int_ok (inter_step I).
Proof.
  intros b r Wb E. unfold inter_step in E.
  destruct (teq (TClass "int") b) eqn:Tab. { apply (teq_sem _ _ Tab). reflexivity. }
  cbn [is_top] in E. destruct (is_top b) eqn:Tb. { apply is_top_has; auto. }
  destruct (squash_spec (fun _ => True) (fun _ => True) True Logic.I Logic.I Logic.I Logic.I b Wb) as (b' & Eb & Wb' & _ & Sb & _).
  rewrite Eb in E. change (squash (TClass "int")) with (Ok (TClass "int")) in E. cbn [bind members] in E. cbv zeta in E. set (s2 := taddall [] (members b')) in *.
  assert (M2 : hasU s2 (VObj "int") -> has b (VObj "int")). { intros X. subst s2. rewrite hasU_taddall, hasU_members in X. apply (Sb _ valid_int). destruct X as [X|X]; [destruct (hasU_nil _ X)|auto]. }
  apply M2. change (taddall [] [TClass "int"]) with [TClass "int"] in E. cbn [filter] in E. destruct (tmem (TClass "int") s2) eqn:T1; [eapply tmem_sem; [exact T1|]; reflexivity|]. destruct (tmem TAny s2) eqn:T2; [eapply tmem_sem; [exact T2|]; exact Logic.I|]. exfalso.
  change (tmem TAny [TClass "int"]) with false in E. cbn iota in E. change (negb (teq TAny (TClass "int"))) with true in E. cbn iota in E. set (n2 := filter _ s2) in E. clearbody n2. clear - E.
  assert (B1 : bare I [TClass "int"] n2 [] = Ok []) by reflexivity. rewrite B1 in E. cbn [bind] in E.
  assert (B2 : bare I n2 [TClass "int"] [] = Ok []). { unfold bare. cbn [foldM bare_step]. destruct (tmem (TClass "list") n2), (tmem (TClass "tuple") n2), (tmem (TClass "range") n2); reflexivity. }
  rewrite B2 in E. cbn [bind] in E.
  assert (B3 : pairs I [TClass "int"] n2 [] = Ok []). { unfold pairs. change (tdiff [TClass "int"] []) with [TClass "int"]. cbn [foldM pair_step bind]. generalize (tdiff n2 []). intros l. assert (X : foldM (fun (x : list ty) (_ : ty) => Ok x) l [] = Ok []) by (induction l as [|t l IH]; auto). rewrite X. reflexivity. }
  rewrite B3 in E. discriminate.
Qed.
End Sound.
Lemma fuel_sound n : sound (inter_fuel n) /\ int_ok (inter_fuel n).
Proof. induction n as [|n [IH1 IH2]]; cbn [inter_fuel]; [split; [intros a b r _ _ E; discriminate|intros t r _ E; discriminate]|]. split; [apply step_sound; auto|apply step_int; auto]. Qed.
