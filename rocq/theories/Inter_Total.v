(** * The recursion of the intersection ends *)
From Coq Require Import List Bool String PeanoNat Lia.
From Verif Require Import PyBase Inter_Model Inter_Proofs Inter_Sound Inter_Step Inter_Main Inter_Full.
Import ListNotations.
Open Scope string_scope. Open Scope list_scope.
Local Open Scope res_scope.
Definition shallow (n : nat) (l : list ty) : Prop := Forall (fun t => depth t <= n) l.
Lemma depth_list n l : fold_right (fun t n => Nat.max (depth t) n) 0 l <= n <-> shallow n l.
Proof. unfold shallow. induction l as [|t l IH]; cbn; [split; [constructor|lia]|]. rewrite Forall_cons_iff, <- IH. lia. Qed.
Lemma depth_union n l : depth (TUnion l) <= n <-> shallow n l. Proof. apply depth_list. Qed.
Lemma depth_gen n o l : depth (TGen o l) <= S n <-> shallow n l.
Proof. cbn [depth]. rewrite <- depth_list. lia. Qed.
Lemma depth_gen_pos o l : 1 <= depth (TGen o l). Proof. cbn. lia. Qed.
Lemma shallow_members n t : depth t <= n -> shallow n (members t).
Proof. destruct t; cbn [members]; try (intros H; constructor; [exact H|constructor]). apply depth_union. Qed.
Lemma shallow_In n l : (forall t, In t l -> depth t <= n) -> shallow n l. Proof. intros H. apply Forall_forall. auto. Qed.
Lemma shallow_taddall n s l : shallow n s -> shallow n l -> shallow n (taddall s l).
Proof. intros A B. unfold shallow in *. rewrite Forall_forall in *. intros t Ht. apply In_taddall in Ht as [|]; auto. Qed.
Lemma depth_mk_union n l : shallow n l -> depth (mk_union l) <= n.
Proof. intros H. destruct l as [|t [|u l]]; cbn [mk_union]; try (apply depth_union; auto). inversion H; auto. Qed.
Lemma depth_or n x y : depth x <= n -> depth y <= n -> depth (or_type x y) <= n.
Proof. intros A B. apply depth_mk_union, shallow_taddall; [apply shallow_taddall; [constructor|]|]; apply shallow_members; auto. Qed.
Lemma depth_reduce n l t : shallow n l -> reduce_or l = Ok t -> depth t <= n.
Proof. destruct l as [|u l]; [discriminate|]. cbn [reduce_or]. intros H E. injection E as <-. inversion H as [|? ? A B]; subst. clear H. revert u A. induction B as [|w l Hw _ IH]; intros u A; cbn; [auto|]. apply IH. apply depth_or; auto. Qed.
Lemma depth_args n t : is_tensor t = true -> depth t <= n -> exists m, n = S m /\ shallow m (args_of (expand t)).
Proof.
  intros T D. destruct t as [| |c| |o l|]; try discriminate.
  - assert (c = "Tensor") as ->. { cbn in T. repeat (destruct c as [|[[] [] [] [] [] [] [] []] c]; try discriminate). auto. } cbn in D. destruct n as [|m]; [lia|]. exists m. split; [auto|]. cbn. constructor; [cbn; lia|constructor].
  - pose proof (depth_gen_pos o l). destruct n as [|m]; [lia|]. exists m. split; [auto|]. apply depth_gen in D. cbn [expand args_of]. auto.
Qed.
Lemma depth_tensors n ts u : ts <> [] -> Forall (fun t => exists t', is_tensor t' = true /\ t = expand t' /\ depth t' <= n) ts -> squash_tensors ts = Ok u -> depth u <= n.
Proof.
  intros N F E. assert (De : forall t, depth t <= n -> is_tensor t = true -> depth (expand t) <= n).
  { intros t D T. destruct (depth_args n t T D) as (m & -> & S). destruct t as [| |c| |o l|]; try discriminate; [|exact D]. assert (c = "Tensor") as ->. { cbn in T. repeat (destruct c as [|[[] [] [] [] [] [] [] []] c]; try discriminate). auto. } cbn. lia. }
  assert (X : exists m, n = S m /\ shallow m (taddall [] (flat_map args_of ts))).
  { destruct ts as [|t0 ts]; [congruence|]. pose proof F as F'. inversion F' as [|? ? (t' & T & _ & D) _]; subst. destruct (depth_args n t' T D) as (m & -> & _). exists m. split; [auto|]. apply shallow_taddall; [constructor|]. apply shallow_In. intros a Ha. apply in_flat_map in Ha as (t & Ht & Ha). rewrite Forall_forall in F. destruct (F t Ht) as (w & Tw & -> & Dw). destruct (depth_args _ w Tw Dw) as (m' & X & S). injection X as <-. unfold shallow in S. rewrite Forall_forall in S. auto. }
  destruct X as (m & -> & S). destruct ts as [|t [|t2 ts]]; [congruence| |].
  - cbn in E. injection E as <-. inversion F as [|? ? (t' & T & -> & D) _]; subst. apply De; auto.
  - unfold squash_tensors in E. destruct (reduce_or _) as [inner|] eqn:Ei; [|discriminate]. cbn [bind] in E. injection E as <-. apply depth_gen. constructor; [|constructor]. eapply depth_reduce; eauto.
Qed.
Lemma depth_squash t u : squash t = Ok u -> depth u <= depth t.
Proof.
  intros E. destruct t as [| |c|l|o l|]; try (injection E as <-; lia).
  - destruct (string_dec c "Tensor") as [->|N]; [injection E as <-; cbn; lia|]. assert (X : squash (TClass c) = Ok (TClass c)) by (cbn; repeat (destruct c as [|[[] [] [] [] [] [] [] []] c]; try reflexivity); congruence). rewrite X in E. injection E as <-. lia.
  - cbn [squash] in E. set (n := depth (TUnion l)). assert (Sl : shallow n l) by (apply depth_union; lia). unfold shallow in Sl. rewrite Forall_forall in Sl.
    set (ts := taddall [] (map expand (filter is_tensor l))) in *. set (rs := filter (fun t => negb (is_tensor t)) l) in *.
    assert (Ft : Forall (fun t => exists t', is_tensor t' = true /\ t = expand t' /\ depth t' <= n) ts). { apply Forall_forall. intros t Ht. apply In_taddall in Ht as [[]|Ht]. apply in_map_iff in Ht as (t' & <- & Ht). apply filter_In in Ht as [A B]. eauto. }
    assert (Fr : shallow n rs) by (apply shallow_In; intros t Ht; apply filter_In in Ht as [A _]; auto).
    unfold squash_join in E. destruct ts as [|t0 ts]; [eapply depth_reduce; eauto|]. destruct rs as [|r0 rs]; [eapply depth_tensors; eauto; discriminate|]. destruct (squash_tensors _) as [x|] eqn:Ex; [|discriminate]. cbn [bind] in E. destruct (reduce_or _) as [y|] eqn:Ey; [|discriminate]. cbn in E. injection E as <-. apply depth_or; [eapply depth_tensors; eauto; discriminate|eapply depth_reduce; eauto].
Qed.
(** ** One step *)
Lemma each_total {A B} (f : A -> res B) l : (forall a, In a l -> exists r, f a = Ok r) -> exists rs, each f l = Ok rs.
Proof. induction l as [|a l IH]; intros H; [exists []; auto|]. destruct (H a ltac:(cbn; auto)) as [r E]. destruct IH as [rs Es]; [intros; apply H; cbn; auto|]. exists (r :: rs). cbn. rewrite E. cbn. rewrite Es. auto. Qed.
Lemma each2_total f l : forall m, (forall a b, In a l -> In b m -> exists r, f a b = Ok r) -> exists rs, each2 f l m = Ok rs.
Proof. induction l as [|a l IH]; intros [|b m] H; try (exists []; reflexivity). destruct (H a b) as [r E]; [cbn; auto|cbn; auto|]. destruct (IH m) as [rs Es]; [intros; apply H; cbn; auto|]. exists (r :: rs). cbn. rewrite E. cbn. rewrite Es. auto. Qed.
Lemma foldM_total {A} (f : list ty -> A -> res (list ty)) l : (forall x a, In a l -> exists r, f x a = Ok r) -> forall x, exists r, foldM f l x = Ok r.
Proof. induction l as [|a l IH]; intros H x; cbn; [eauto|]. destruct (H x a ltac:(cbn; auto)) as [r E]. rewrite E. cbn. apply IH. intros. apply H. cbn. auto. Qed.
Section Total.
Variable I : ty -> ty -> res (option ty).
(** k bounds the nesting of both arguments together *)
Variable k : nat.
Hypothesis Hlow : forall a b, WF a -> WF b -> depth a + depth b + 2 <= k -> exists r, I a b = Ok r.
Lemma same_total o a1 a2 x : WF (TGen o a1) -> WF (TGen o a2) -> depth (TGen o a1) + depth (TGen o a2) <= k -> exists r, pair_step I (TGen o a1) (TGen o a2) x = Ok r.
Proof.
  intros W1 W2 D. cbn [pair_step]. rewrite String.eqb_refl.
  assert (Low : forall t u, WF t -> WF u -> In t a1 -> In u a2 -> exists r, I t u = Ok r). { intros t u Wt Wu It Iu. apply Hlow; auto. cbn [depth] in D. assert (A : shallow (fold_right (fun t n => Nat.max (depth t) n) 0 a1) a1) by (apply depth_list; lia). assert (B : shallow (fold_right (fun t n => Nat.max (depth t) n) 0 a2) a2) by (apply depth_list; lia). unfold shallow in A, B. rewrite Forall_forall in A, B. specialize (A _ It). specialize (B _ Iu). cbn beta in A, B. destruct t, u; lia. }
  destruct (is_nil a1 || is_nil a2); [eauto|]. destruct (String.eqb_spec o "tuple") as [->|Nt].
  - unfold tuple_pair. assert (Fin : forall common : res (option (list ty)), (exists c, common = Ok c) -> exists r, (let* c := common in match c with Some l => Ok (tadd x (TGen "tuple" l)) | None => Ok x end) = Ok r) by (intros ? [[l|] ->]; cbn; eauto). apply Fin. clear Fin.
    destruct (tuple_inv _ _ _ a1 W1) as [(t1 & -> & Wt1 & D1)|(F1 & N1 & D1)], (tuple_inv _ _ _ a2 W2) as [(t2 & -> & Wt2 & D2)|(F2 & N2 & D2)]; rewrite D1, D2; cbn [andb hd_ty].
    + destruct (Low t1 t2) as [r E]; cbn; auto. rewrite E. cbn. eauto.
    + rewrite Forall_forall in F2. destruct (each_total (fun y => I t1 y) a2) as [rs E]; [intros a Ha; apply Low; cbn; auto|]. rewrite E. cbn. eauto.
    + rewrite Forall_forall in F1. destruct (each_total (fun y => I y t2) a1) as [rs E]; [intros a Ha; apply Low; cbn; auto|]. rewrite E. cbn. eauto.
    + destruct (Nat.eqb _ _); [|eauto]. rewrite Forall_forall in F1, F2. destruct (each2_total I a1 a2) as [rs E]; [intros a b Ha Hb; apply Low; auto|]. rewrite E. cbn. eauto.
  - destruct ((o =? "list")%string || (o =? "Tensor")%string || (o =? "Sequence")%string) eqn:Es; [|eauto]. assert (Io : In o singles) by (rewrite !orb_true_iff, !String.eqb_eq in Es; cbn; intuition congruence). destruct (single_inv _ _ _ o a1 Io W1) as (t1 & -> & W1'), (single_inv _ _ _ o a2 Io W2) as (t2 & -> & W2'). cbn [single_pair]. destruct (Low t1 t2) as [[r|] E]; cbn; auto; rewrite E; cbn; eauto.
Qed.
Lemma step_same_total o a b : WF (TGen o a) -> WF (TGen o b) -> depth (TGen o a) + depth (TGen o b) <= k -> exists r, inter_step I (TGen o a) (TGen o b) = Ok r.
Proof.
  intros Wa Wb D. unfold inter_step. destruct (squash_rec_spec (fun _ => True) (fun _ => True) True Logic.I Logic.I Logic.I Logic.I _ Wa) as (a' & Ea & _).
  destruct (teq _ _); [rewrite Ea; cbn; eauto|]. cbn [is_top]. cbn [squash bind members]. change (taddall [] [TGen o a]) with [TGen o a]. change (taddall [] [TGen o b]) with [TGen o b]. cbv zeta. change (tmem TAny [TGen o a]) with false. change (tmem TAny [TGen o b]) with false. cbn iota. change (filter (fun t => negb (teq TAny t)) [TGen o a]) with [TGen o a]. change (filter (fun t => negb (teq TAny t)) [TGen o b]) with [TGen o b].
  generalize (filter (fun t => tmem t [TGen o b]) [TGen o a]). intros x.
  assert (B1 : bare I [TGen o a] [TGen o b] x = Ok x) by reflexivity. assert (B2 : bare I [TGen o b] [TGen o a] x = Ok x) by reflexivity. rewrite B1. cbn [bind]. rewrite B2. cbn [bind].
  assert (E5 : exists r, pairs I [TGen o a] [TGen o b] x = Ok r). { unfold pairs. apply foldM_total. intros y t1 H1. apply In_tdiff in H1 as [<-|[]]. apply foldM_total. intros z t2 H2. apply In_tdiff in H2 as [<-|[]]. apply same_total; auto. }
  destruct E5 as [x5 E5]. rewrite E5. cbn [bind]. destruct x5 as [|t x5]; [eauto|]. cbn [reduce_or bind]. eauto.
Qed.
Hypothesis Hsame : forall o a b, WF (TGen o a) -> WF (TGen o b) -> depth (TGen o a) + depth (TGen o b) <= k -> exists r, I (TGen o a) (TGen o b) = Ok r.
Hypothesis Hint : forall t, WF t -> depth t + 1 <= k -> exists r, I (TClass "int") t = Ok r.
Lemma sequence_total a1 o a2 x : o <> "Sequence" -> WF (TGen "Sequence" a1) -> WF (TGen o a2) -> depth (TGen "Sequence" a1) + depth (TGen o a2) <= k -> exists r, sequence_pair I a1 o a2 x = Ok r.
Proof.
  intros No W1 W2 D. unfold sequence_pair. destruct (String.eqb_spec o "Tensor") as [->|Nt]; [eauto|]. destruct (single_inv _ _ _ "Sequence" a1 ltac:(cbn; auto) W1) as (u & -> & Wu). rewrite reduce1. cbn [bind].
  assert (Wk : WF (TGen o (if (o =? "list")%string then [u] else [u; TDots]))). { destruct (String.eqb_spec o "list") as [->|Nl]; [apply w_single; cbn; auto|]. destruct (string_dec o "tuple") as [->|Ntp]; [apply w_dots; auto|]. apply w_other; auto. cbn. intuition congruence. }
  assert (Dk : depth (TGen o (if (o =? "list")%string then [u] else [u; TDots])) <= depth (TGen "Sequence" [u])) by (destruct (o =? "list")%string; cbn; lia).
  destruct (Hsame o _ a2 Wk W2 ltac:(lia)) as [[r|] E]; rewrite E; cbn; eauto.
Qed.
Lemma pair_total t1 t2 x : WF t1 -> WF t2 -> depth t1 + depth t2 <= k -> exists r, pair_step I t1 t2 x = Ok r.
Proof.
  intros W1 W2 D. destruct t1 as [| | | |o1 a1|], t2 as [| | | |o2 a2|]; try (cbn; eauto; fail). destruct (string_dec o1 o2) as [<-|No]; [apply same_total; auto|]. cbn [pair_step]. destruct (String.eqb_spec o1 o2) as [X|_]; [congruence|].
  destruct (String.eqb_spec o1 "Sequence") as [->|N1]; [apply sequence_total; auto|]. destruct (String.eqb_spec o2 "Sequence") as [->|N2]; [apply sequence_total; auto; lia|eauto].
Qed.
Lemma bare_step_total o t x : WF t -> depth t <= k -> exists r, bare_step I o x t = Ok r.
Proof.
  intros W D. destruct t as [| | | |o1 a1|]; try (cbn; eauto; fail). cbn [bare_step]. destruct (o1 =? o)%string; [eauto|]. destruct (String.eqb_spec o1 "Sequence") as [->|]; [|eauto]. destruct (single_inv _ _ _ "Sequence" a1 ltac:(cbn; auto) W) as (u & -> & Wu). destruct (o =? "range")%string; [|rewrite reduce1; cbn; eauto]. cbn [hd_ty]. destruct (Hint u Wu) as [[r|] E]; [cbn [depth fold_right] in D; lia| |]; rewrite E; cbn; eauto.
Qed.
Lemma step_total a b : WF a -> WF b -> depth a + depth b <= k -> exists r, inter_step I a b = Ok r.
Proof.
  intros Wa Wb D. unfold inter_step.
  destruct (squash_rec_spec (fun _ => True) (fun _ => True) True Logic.I Logic.I Logic.I Logic.I a Wa) as (a' & Ea & _).
  destruct (squash_rec_spec (fun _ => True) (fun _ => True) True Logic.I Logic.I Logic.I Logic.I b Wb) as (b' & Eb & _).
  destruct (teq a b); [rewrite Ea; cbn; eauto|]. destruct (is_top a); [rewrite Eb; cbn; eauto|]. destruct (is_top b); [rewrite Ea; cbn; eauto|]. clear a' Ea b' Eb.
  destruct (squash_spec (fun _ => True) (fun _ => True) True Logic.I Logic.I Logic.I Logic.I a Wa) as (a' & Ea & Wa' & _).
  destruct (squash_spec (fun _ => True) (fun _ => True) True Logic.I Logic.I Logic.I Logic.I b Wb) as (b' & Eb & Wb' & _).
  rewrite Ea, Eb. cbn [bind]. cbv zeta. apply depth_squash in Ea, Eb.
  set (s1 := taddall [] (members a')). set (s2 := taddall [] (members b')).
  assert (S1 : forall t, In t s1 -> WF t /\ depth t <= depth a). { intros t Ht. apply In_taddall in Ht as [[]|Ht]. pose proof (members_WF a' Wa') as X. pose proof (shallow_members (depth a) a' Ea) as Y. unfold shallow in Y. rewrite Forall_forall in X, Y. auto. }
  assert (S2 : forall t, In t s2 -> WF t /\ depth t <= depth b). { intros t Ht. apply In_taddall in Ht as [[]|Ht]. pose proof (members_WF b' Wb') as X. pose proof (shallow_members (depth b) b' Eb) as Y. unfold shallow in Y. rewrite Forall_forall in X, Y. auto. }
  set (n1 := filter (fun t => negb (teq TAny t)) s1). set (n2 := filter (fun t => negb (teq TAny t)) s2). match goal with |- context [bare I n1 n2 ?x] => set (x2 := x) end.
  assert (T1 : forall t, In t n1 -> WF t /\ depth t <= depth a) by (intros t Ht; apply filter_In in Ht; apply S1; tauto). assert (T2 : forall t, In t n2 -> WF t /\ depth t <= depth b) by (intros t Ht; apply filter_In in Ht; apply S2; tauto). clearbody x2 n1 n2.
  assert (Bare : forall s other y, (forall t, In t other -> WF t /\ depth t <= k) -> exists r, bare I s other y = Ok r). { intros s other y H. unfold bare. apply foldM_total. intros z o _. destruct (tmem _ _); [|eauto]. apply foldM_total. intros w t Ht. destruct (H t Ht). apply bare_step_total; auto. }
  destruct (Bare n1 n2 x2) as [x3 E3]; [intros t Ht; destruct (T2 t Ht); split; [auto|lia]|]. rewrite E3. cbn [bind]. destruct (Bare n2 n1 x3) as [x4 E4]; [intros t Ht; destruct (T1 t Ht); split; [auto|lia]|]. rewrite E4. cbn [bind].
  assert (E5 : exists r, pairs I n1 n2 x4 = Ok r). { unfold pairs. apply foldM_total. intros y t1 H1. apply In_tdiff in H1. destruct (T1 _ H1). apply foldM_total. intros z t2 H2. apply In_tdiff in H2. destruct (T2 _ H2). apply pair_total; auto. lia. }
  destruct E5 as [x5 E5]. rewrite E5. cbn [bind]. destruct x5 as [|t x5]; [eauto|]. cbn [reduce_or bind]. eauto.
Qed.
End Total.
Lemma fuel_total n : (forall a b, WF a -> WF b -> depth a + depth b + 2 <= n -> exists r, inter_fuel n a b = Ok r) /\ (forall o a b, WF (TGen o a) -> WF (TGen o b) -> depth (TGen o a) + depth (TGen o b) + 1 <= n -> exists r, inter_fuel n (TGen o a) (TGen o b) = Ok r).
Proof.
  induction n as [|n [IH1 IH2]]; [split; intros; lia|]. cbn [inter_fuel]. split.
  - intros a b Wa Wb D. destruct n as [|n]; [lia|]. refine (step_total (inter_fuel (S n)) n _ _ _ a b Wa Wb _); [| | |lia].
    + intros. apply IH1; auto; lia.
    + intros. apply IH2; auto; lia.
    + intros. apply IH1; try lia; auto; try (constructor; auto; fail). cbn [depth]. lia.
  - intros o a b Wa Wb D. apply (step_same_total (inter_fuel n) n); auto. lia.
Qed.
