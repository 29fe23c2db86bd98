(** * Lemmas about broadcasting: the whole rule *)
From Coq Require Import List Arith Lia Bool ZArith.
From Verif Require Import PyBase Uniadic_Model Uniadic_Proofs Uniadic_Props Bcast_Model Bcast_Proofs Bcast_Props Shape_Model Shape_Proofs Shape_Proofs2 Shape_Proofs3 Shape_Props Reduce_Model Reduce_Proofs Reduce_Proofs2
  Rule_Proofs Arange_Proofs Window_Proofs Reshape_Proofs Flat_Model Flat_Proofs2 Align_Model Align_Spec Align_Proofs Align_Proofs2 Align_Proofs3.
Import ListNotations.
Open Scope list_scope. Open Scope nat_scope. Open Scope shm_scope.

(** ** More fuel changes nothing *)
Lemma loop_more pick n : forall m all work ups s, n <= m -> snd (bcast_loop pick n all work ups s) <> Err OutOfFuel -> bcast_loop pick m all work ups s = bcast_loop pick n all work ups s.
Proof.
  induction n as [|n IH]; intros m all work ups s L H; destruct work as [|w0 work]; [destruct m; auto|exfalso; apply H; auto|destruct m; auto|]. destruct m as [|m]; [lia|]. cbn [bcast_loop] in *. set (wk := kremove (pick (w0 :: work)) (w0 :: work)) in *. unfold sbind in *.
  destruct (bcast_group (pick (w0 :: work)) s) as [s1 [a|e]]; [|auto]. destruct (requeue all (unis a) wk s1) as [s2 [wk'|e]]; [|auto]. apply IH; [lia|auto].
Qed.
Lemma uniadics_more pick n m out left right index s : n <= m -> snd (bcast_uniadics pick n out left right index s) <> Err OutOfFuel -> bcast_uniadics pick m out left right index s = bcast_uniadics pick n out left right index s.
Proof.
  intros L H. unfold bcast_uniadics in *. destruct (_ && _)%bool; [auto|]. unfold sbind in *. destruct (bcast_positions _ _ _ s) as [s1 [[ups keys]|e]]; [|auto]. apply loop_more; auto.
Qed.

(** ** The dimensions *)
Lemma srep_ok s q : sinv s -> q < nrep s -> repr_ok (us s) (srep (rp s q)).
Proof.
  intros I Hq. destruct (s_repr _ I q Hq) as (W1 & W2 & _). split; [|exact W1]. cbn [srep rooted suffix]. intros H. apply negb_false_iff in H. apply no_root_true in H. auto.
Qed.
Lemma axis_rev r i : axis (srep r) i = nth_error (reversed r) i.
Proof. unfold axis, srep, reversed, no_root. cbn [rooted suffix prefix]. destruct (root r); auto. Qed.
Lemma nth_some {A} (l : list A) i x d : nth_error l i = Some x -> i < length l /\ nth i l d = x.
Proof. intros H. split; [apply nth_error_Some; congruence|]. apply nth_error_nth. auto. Qed.
Lemma known_roots s qo ql qr : ranks_known (srep (rp s qo)) (srep (rp s ql)) (srep (rp s qr)) = true -> root (rp s qo) = None /\ root (rp s ql) = None /\ root (rp s qr) = None.
Proof. unfold ranks_known, srep. cbn [rooted]. intros H. unfold no_root in H. destruct (root (rp s ql)), (root (rp s qr)), (root (rp s qo)); cbn in H; try discriminate. auto. Qed.
Lemma plain_len s q rho sh : sinv s -> q < nrep s -> root (rp s q) = None -> allows s rho sh -> length (sh q) = length (reversed (rp s q)) /\ length (sh q) = shlen (rp s q).
Proof. intros I Hq R A. rewrite (plain_sh s q rho sh I Hq R A), map_length. unfold reversed, shlen. destruct (s_repr _ I q Hq) as (_ & W & _). rewrite R, rev_length, (W R). cbn. lia. Qed.
Lemma bcasts_ok s qo ql qr rho sh : sinv s -> qo < nrep s -> ql < nrep s -> qr < nrep s -> allows s rho sh -> bc_rel qo ql qr sh -> bcast_ok (srep (rp s qo)) (srep (rp s ql)) (srep (rp s qr)) 0 rho.
Proof.
  intros I Ho Hl Hr A B. split.
  - intros Kn. destruct (known_roots s qo ql qr Kn) as (R1 & R2 & R3). destruct (plain_len s qo rho sh I Ho R1 A) as [_ L1]. destruct (plain_len s ql rho sh I Hl R2 A) as [_ L2]. destruct (plain_len s qr rho sh I Hr R3 A) as [_ L3]. assert (X := proj1 B). unfold rlen, srep. cbn [prefix suffix]. unfold shlen in *. lia.
  - intros i _. rewrite !axis_rev. destruct (nth_error (reversed (rp s qo)) i) as [u|] eqn:Eo; [|exact Logic.I]. cbn [option_map axis_rel]. exists (size_at (sh ql) i), (size_at (sh qr) i).
    assert (F : forall q, q < nrep s -> (ranks_known (srep (rp s qo)) (srep (rp s ql)) (srep (rp s qr)) = true -> root (rp s q) = None) -> Bcast_Proofs.fits (ranks_known (srep (rp s qo)) (srep (rp s ql)) (srep (rp s qr))) (option_map rho (nth_error (reversed (rp s q)) i)) (size_at (sh q) i)).
    { intros q Hq Rq. destruct (nth_error (reversed (rp s q)) i) as [x|] eqn:E; cbn [option_map Bcast_Proofs.fits].
      - apply (nth_some _ _ _ 0) in E as [E1 E2]. destruct (shown_back s q rho sh i I Hq A E1) as [_ X]. congruence.
      - intros Kn. apply nth_error_None in E. apply size_beyond. destruct (plain_len s q rho sh I Hq (Rq Kn) A) as [X _]. lia. }
    split; [apply F; auto; intros Kn; apply (known_roots s qo ql qr Kn)|]. split; [apply F; auto; intros Kn; apply (known_roots s qo ql qr Kn)|]. apply (nth_some _ _ _ 0) in Eo as [E1 E2]. destruct (shown_back s qo rho sh i I Ho A E1) as [_ X]. rewrite <- E2, <- X. apply (bcasts_rel _ _ _ B).
Qed.
Lemma dims_step_ok pick s qo ql qr : chooses pick -> sinv s -> qo < nrep s -> ql < nrep s -> qr < nrep s ->
  exists N, (forall fuel, N <= fuel -> dims_step pick fuel qo ql qr s = dims_step pick N qo ql qr s) /\
    match dims_step pick N qo ql qr s with
    | (s', Ok _) => sound_for (bc_rel qo ql qr) s s' /\ rp s' = rp s
    | (_, Err e) => e = ValueError /\ excludes (bc_rel qo ql qr) s
    end.
Proof.
  intros Hp I Ho Hl Hr. destruct (bcast_all pick (srep (rp s qo)) (srep (rp s ql)) (srep (rp s qr)) 0 (us s) Hp (s_inv _ I) (srep_ok s qo I Ho) (srep_ok s ql I Hl) (srep_ok s qr I Hr)) as (N & HN). exists N. destruct (HN N (le_n N)) as [Sd _]. split.
  - intros fuel Hf. unfold dims_step, lift. rewrite (uniadics_more pick N fuel); [auto|auto|]. destruct Sd as [_ Sd]. intros E. rewrite E in Sd. destruct Sd as [Sd _]. discriminate.
  - unfold dims_step. apply (lift_sound (bc_rel qo ql qr) _ (bcast_ok (srep (rp s qo)) (srep (rp s ql)) (srep (rp s qr)) 0) s I Sd). intros rho sh A B. apply (bcasts_ok s qo ql qr rho sh); auto.
Qed.

(** ** The rule *)
(** In the first state of [m] and after it *)
Definition step_ok {A} (P : srel) (s : shst) (r : shst * res A) (Q : shst -> Prop) : Prop :=
  match r with (s', Ok _) => sound_for P s s' /\ Q s' | (_, Err e) => e = ValueError /\ excludes P s end.
Lemma bind_ok {A B} (P : srel) (m : shm A) (f : A -> shm B) s (Q Q' : shst -> Prop) : step_ok P s (m s) Q -> (forall a s', m s = (s', Ok a) -> sound_for P s s' -> Q s' -> step_ok P s' (f a s') Q') -> step_ok P s ((do a <- m; f a) s) Q'.
Proof.
  unfold step_ok, hbind. intros H1 H2. destruct (m s) as [s1 [a|e]]; [|auto]. destruct H1 as [H1 Hq]. specialize (H2 a s1 eq_refl H1 Hq). destruct (f a s1) as [s2 [b|e]]; [destruct H2 as [H2 Hq']; split; [eapply sound_for_trans; eauto|auto]|]. destruct H2 as [-> H2]. split; [auto|]. eapply excludes_back; eauto.
Qed.
Definition balanced (qo ql qr : nat) (s : shst) : Prop := open_at s qo <-> open_at s ql \/ open_at s qr.
Lemma sym_excludes qo ql qr s : excludes (bc_rel qo qr ql) s -> excludes (bc_rel qo ql qr) s.
Proof. intros H. eapply excludes_weaken; [exact H|]. intros sh B. apply bcasts_sym. exact B. Qed.
(** Up to the dimensions *)
Definition aligned (qo ql qr : nat) : shm unit := do _ <- align_output qo ql qr; do _ <- align_input qo ql qr; align_input qo qr ql.
Lemma aligned_ok s qo ql qr : sinv s -> qo < nrep s -> ql < nrep s -> qr < nrep s ->
  (open_at s qo \/ (~ open_at s ql /\ ~ open_at s qr)) -> shown_ok s ql qr -> shown_ok s qr ql ->
  (root (rp s ql) = root (rp s qr) -> root (rp s ql) <> None -> length (suf (rp s ql)) = length (suf (rp s qr))) ->
  step_ok (bc_rel qo ql qr) s (aligned qo ql qr s) (balanced qo ql qr).
Proof.
  intros I Ho Hl Hr H1 H2 H2' H3. unfold aligned. eapply bind_ok; [exact (align_output_ok s qo ql qr I Ho Hl Hr H1 H2 H2' H3)|]. intros _ s1 _ S1 B1. cbv beta in B1. assert (N1 : nrep s1 = nrep s) by apply S1. assert (I1 : sinv s1) by apply S1.
  eapply bind_ok; [exact (align_input_ok s1 qo ql qr I1 ltac:(lia) ltac:(lia) ltac:(lia) B1)|]. intros _ s2 _ S2 B2. cbv beta in B2. assert (N2 : nrep s2 = nrep s1) by apply S2. assert (I2 : sinv s2) by apply S2.
  assert (O := align_input_ok s2 qo qr ql I2 ltac:(lia) ltac:(lia) ltac:(lia) ltac:(tauto)). unfold step_ok. destruct (align_input qo qr ql s2) as [s3 [[]|e]].
  - destruct O as [O1 O2]. split; [eapply sound_for_weaken; [exact O1|]; intros sh B; apply bcasts_sym; exact B|]. unfold balanced. tauto.
  - destruct O as [-> O]. split; [auto|]. apply sym_excludes. auto.
Qed.
Lemma rule_eq pick fuel qo ql qr s : bcast_rule pick fuel qo ql qr s = (do _ <- aligned qo ql qr; do _ <- dims_step pick fuel qo ql qr; do _ <- dims_step pick fuel qo ql qr; fun s => (s, Ok (bcast_exit (us s) (srep (rp s qo)) (srep (rp s ql)) (srep (rp s qr))))) s.
Proof. unfold bcast_rule, aligned, hbind. destruct (align_output qo ql qr s) as [s1 [x|e]]; [|auto]. destruct (align_input qo ql qr s1) as [s2 [y|e]]; auto. Qed.
Lemma bcast_rule_ok pick s qo ql qr : chooses pick -> sinv s -> qo < nrep s -> ql < nrep s -> qr < nrep s ->
  (open_at s qo \/ (~ open_at s ql /\ ~ open_at s qr)) -> shown_ok s ql qr -> shown_ok s qr ql ->
  (root (rp s ql) = root (rp s qr) -> root (rp s ql) <> None -> length (suf (rp s ql)) = length (suf (rp s qr))) ->
  exists N, forall fuel, N <= fuel -> step_ok (bc_rel qo ql qr) s (bcast_rule pick fuel qo ql qr s) (balanced qo ql qr).
Proof.
  intros Hp I Ho Hl Hr H1 H2 H2' H3. assert (O := aligned_ok s qo ql qr I Ho Hl Hr H1 H2 H2' H3). destruct (aligned qo ql qr s) as [s1 [[]|e]] eqn:E1.
  2: { exists 0. intros fuel _. rewrite rule_eq. unfold hbind. rewrite E1. exact O. }
  destruct O as [S1 B1]. assert (N1 : nrep s1 = nrep s) by apply S1. assert (I1 : sinv s1) by apply S1. destruct (dims_step_ok pick s1 qo ql qr Hp I1 ltac:(lia) ltac:(lia) ltac:(lia)) as (n1 & F1 & O1). destruct (dims_step pick n1 qo ql qr s1) as [s2 [up|e]] eqn:E2.
  2: { exists n1. intros fuel Hf. rewrite rule_eq. unfold hbind. rewrite E1, (F1 fuel Hf). destruct O1 as [-> O1]. split; [auto|]. eapply excludes_back; eauto. }
  destruct O1 as [S2 R2]. assert (N2 : nrep s2 = nrep s1) by apply S2. assert (I2 : sinv s2) by apply S2. destruct (dims_step_ok pick s2 qo ql qr Hp I2 ltac:(lia) ltac:(lia) ltac:(lia)) as (n2 & F2 & O2). exists (Nat.max n1 n2). intros fuel Hf. rewrite rule_eq. unfold hbind. rewrite E1, (F1 fuel ltac:(lia)), (F2 fuel ltac:(lia)).
  destruct (dims_step pick n2 qo ql qr s2) as [s3 [up'|e]].
  - destruct O2 as [S3 R3]. split; [eapply sound_for_trans; [exact S1|]; eapply sound_for_trans; eauto|]. unfold balanced, open_at in *. rewrite R3, R2. exact B1.
  - destruct O2 as [-> O2]. split; [auto|]. eapply excludes_back; [exact S1|]. eapply excludes_back; eauto.
Qed.
