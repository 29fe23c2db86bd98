(** * Lemmas about broadcasting: shared variadics, the inputs, the dimensions *)
From Coq Require Import List Arith Lia Bool ZArith.
From Verif Require Import PyBase Uniadic_Model Uniadic_Proofs Uniadic_Props Bcast_Model Bcast_Proofs Bcast_Props Shape_Model Shape_Proofs Shape_Proofs2 Shape_Proofs3 Shape_Props Reduce_Model Reduce_Proofs Reduce_Proofs2
  Rule_Proofs Arange_Proofs Window_Proofs Reshape_Proofs Flat_Model Flat_Proofs2 Align_Model Align_Spec Align_Proofs Align_Proofs2.
Import ListNotations.
Open Scope list_scope. Open Scope nat_scope. Open Scope shm_scope.

(** ** Sizes of shown dimensions *)
Lemma shown_front s q rho sh k : sinv s -> q < nrep s -> allows s rho sh -> k < length (pre (rp s q)) -> k < length (sh q) /\ size_at (sh q) (length (sh q) - 1 - k) = rho (nth k (pre (rp s q)) 0).
Proof.
  intros I Hq A Hk. apply allows_den in A as (_ & tau & D). rewrite <- (D q Hq). unfold den, dshape. set (p := pre (rp s q)) in *. set (t := rval tau (root (rp s q)) ++ map rho (suf (rp s q))).
  assert (L : k < length (map rho p ++ t)) by (rewrite app_length, map_length; lia). split; [auto|]. rewrite (size_front _ k (rho 0)) by auto. rewrite app_nth1 by (rewrite map_length; auto). apply map_nth.
Qed.
Lemma shown_back s q rho sh k : sinv s -> q < nrep s -> allows s rho sh -> k < length (reversed (rp s q)) -> k < length (sh q) /\ size_at (sh q) k = rho (nth k (reversed (rp s q)) 0).
Proof.
  intros I Hq A Hk. apply allows_den in A as (_ & tau & D). rewrite <- (D q Hq). unfold den, dshape. destruct (s_repr _ I q Hq) as (_ & W & _). unfold reversed in *. destruct (root (rp s q)) as [v|] eqn:R.
  - rewrite rev_length in Hk. rewrite app_assoc. split; [rewrite app_length, (map_length rho (suf _)); lia|]. rewrite size_last by (rewrite map_length; auto). unfold size_at. rewrite <- map_rev. rewrite (nth_indep _ 1%Z (rho 0)) by (rewrite map_length, rev_length; auto). apply map_nth.
  - rewrite rev_length in Hk. rewrite (W eq_refl). cbn [rval app map]. rewrite app_nil_r. split; [rewrite map_length; auto|]. unfold size_at. rewrite <- map_rev. rewrite (nth_indep _ 1%Z (rho 0)) by (rewrite map_length, rev_length; auto). apply map_nth.
Qed.
Lemma reversed_live s q x : sinv s -> q < nrep s -> In x (reversed (rp s q)) -> live (us s) x.
Proof. intros I Hq H. apply (s_repr _ I q Hq). unfold reversed in H. destruct (root (rp s q)); apply in_rev in H; apply in_app_iff; auto. Qed.
Lemma paired_length s a b rho sh : a < nrep s -> b < nrep s -> paired s a b -> allows s rho sh -> length (sh a) = length (sh b).
Proof. intros Ha Hb (R & P & Q & _) A. apply allows_den in A as (_ & tau & D). rewrite <- (D a Ha), <- (D b Hb). unfold den, dshape. rewrite R, !app_length, !map_length. lia. Qed.

(** ** Inputs with the same variadic *)
Lemma align_shared_ok s qo ql qr : sinv s -> qo < nrep s -> ql < nrep s -> qr < nrep s ->
  (root (rp s ql) = root (rp s qr) -> root (rp s ql) <> None -> length (suf (rp s ql)) = length (suf (rp s qr))) ->
  match align_shared qo ql qr s with
  | (s', Ok _) => sound_for (bc_rel qo ql qr) s s' /\ keeps s s' /\ (s' = s \/ (paired s ql qr /\ root (rp s qo) <> None /\ root (rp s ql) <> None))
  | (_, Err e) => e = ValueError /\ excludes (bc_rel qo ql qr) s
  end.
Proof.
  intros I Ho Hl Hr C3. unfold align_shared. destruct (_ && _ && _ && _)%bool eqn:E; [|split; [apply sound_for_refl; auto|split; [apply keeps_refl|auto]]].
  apply andb_prop in E as [E En]. apply andb_prop in E as [E Eo]. apply andb_prop in E as [Er El]. apply (proj1 (eqb_eq _ _)) in Er. apply Nat.eqb_eq in En. apply negb_true_iff in El, Eo. apply no_root_false in El, Eo.
  assert (Pa : paired s ql qr). { split; [auto|]. split; [auto|]. split; [auto|]. intros v. rewrite !(s_back _ I), Er. tauto. }
  set (n := length (pre (rp s ql))). rewrite assoc2. set (m := do l <- new_dims None n; do w <- new_variadic; inner_match qo (mkshape l (Some w) [])).
  assert (M := at_least (bc_rel qo ql qr) s qo n false I Ho). lapply M; [clear M; intros M|].
  2: { intros rho sh A [Hb _]. apply allows_den in A as (_ & tau & D). rewrite <- (D ql Hl) in Hb. unfold den, dshape in Hb. rewrite app_length, map_length in Hb. unfold n. lia. }
  change (match m s with (s', Ok _) => sound_for (bc_rel qo ql qr) s s' | (_, Err e) => e = ValueError /\ excludes (bc_rel qo ql qr) s end) in M.
  assert (K : keeps s (fst (m s))). { unfold m. destruct (new_dims_ok None n s (s_inv _ I)) as (u & l & El' & _). apply keeps_bind; [rewrite El'; apply keeps_us|]. intros l' s1 E1. rewrite El' in E1. injection E1 as <- <-. apply keeps_bind; [apply keeps_var|]. intros w s2 E2. eapply keeps_inner; [|reflexivity]. injection E2 as <- <-. exact Eo. }
  unfold hbind at 1. destruct (m s) as [s1 [[]|e]]; [|exact M]. cbn [fst] in K. assert (I1 : sinv s1) by apply M. assert (N1 : nrep s1 = nrep s) by apply M. assert (Pa1 := proj2 K _ _ Pa).
  assert (M2 := group_each_ok (bc_rel qo ql qr) (pre (rp s1 ql)) (pre (rp s1 qr)) (pre (rp s1 qo)) s1 I1). lapply M2; [clear M2; intros M2|]. 2: { intros x Hx. apply in_app_iff in Hx as [Hx|Hx]; [|apply in_app_iff in Hx as [Hx|Hx]]; [apply (pre_live s1 ql)|apply (pre_live s1 qr)|apply (pre_live s1 qo)]; auto; lia. }
  lapply M2; [clear M2; intros M2|].
  2: { intros rho sh A B k K1 K2 K3. assert (B' := bcasts_sym _ _ _ B). destruct (shown_front s1 ql rho sh k I1 ltac:(lia) A K1) as [L1 S1]. destruct (shown_front s1 qr rho sh k I1 ltac:(lia) A K2) as [L2 S2]. destruct (shown_front s1 qo rho sh k I1 ltac:(lia) A K3) as [L3 S3].
    rewrite <- S1, <- S2, <- S3. assert (Le := paired_length s1 ql qr rho sh ltac:(lia) ltac:(lia) Pa1 A). assert (Lo : length (sh qo) = length (sh ql)) by (assert (X := proj1 B); lia). rewrite Lo, <- Le. apply (bcasts_rel _ _ _ B'). }
  assert (K2 := keeps_group (pre (rp s1 ql)) (pre (rp s1 qr)) (pre (rp s1 qo)) s1). destruct (group_each (pre (rp s1 ql)) (pre (rp s1 qr)) (pre (rp s1 qo)) s1) as [s2 [[]|e]]; cbn [fst] in K2.
  - split; [eapply sound_for_trans; [exact M|apply M2]|]. split; [eapply keeps_trans; eauto|]. auto.
  - destruct M2 as [-> M2]. split; [auto|]. eapply excludes_back; eauto.
Qed.

(** ** The output *)
Definition open_at (s : shst) (q : nat) : Prop := root (rp s q) <> None.
Lemma not_open s q : ~ open_at s q -> root (rp s q) = None.
Proof. unfold open_at. destruct (root (rp s q)); [intros H; exfalso; apply H; discriminate|auto]. Qed.
Definition shown_ok (s : shst) (a b : nat) : Prop := root (rp s a) = None -> root (rp s b) <> None -> shlen (rp s b) < shlen (rp s a) -> pre (rp s b) = [].
Lemma longer_either s ql qr : let qL := longer s ql qr in let qS := if ql =? qL then qr else ql in
  ((qL = ql /\ qS = qr) \/ (qL = qr /\ qS = ql)) /\ shlen (rp s qS) <= shlen (rp s qL) /\ (shlen (rp s qS) = shlen (rp s qL) -> root (rp s qS) <> None -> root (rp s qL) <> None).
Proof.
  cbv zeta. unfold longer. destruct (shlen (rp s ql) =? shlen (rp s qr)) eqn:E.
  - apply Nat.eqb_eq in E. destruct (no_root (rp s qr)) eqn:N.
    + rewrite Nat.eqb_refl. split; [auto|]. split; [lia|]. intros _ H. apply no_root_true in N. contradiction.
    + apply no_root_false in N. destruct (ql =? qr) eqn:Eq; [apply Nat.eqb_eq in Eq; subst; auto|]. split; [auto|]. split; [lia|auto].
  - apply Nat.eqb_neq in E. destruct (shlen (rp s ql) <? shlen (rp s qr)) eqn:L.
    + apply Nat.ltb_lt in L. destruct (ql =? qr) eqn:Eq; [apply Nat.eqb_eq in Eq; subst; lia|]. split; [auto|]. split; [lia|]. lia.
    + apply Nat.ltb_ge in L. rewrite Nat.eqb_refl. split; [auto|]. split; [lia|]. lia.
Qed.
Lemma align_output_ok s qo ql qr : sinv s -> qo < nrep s -> ql < nrep s -> qr < nrep s ->
  (open_at s qo \/ (~ open_at s ql /\ ~ open_at s qr)) -> shown_ok s ql qr -> shown_ok s qr ql ->
  (root (rp s ql) = root (rp s qr) -> root (rp s ql) <> None -> length (suf (rp s ql)) = length (suf (rp s qr))) ->
  match align_output qo ql qr s with
  | (s', Ok _) => sound_for (bc_rel qo ql qr) s s' /\ (open_at s' qo <-> open_at s' ql \/ open_at s' qr)
  | (_, Err e) => e = ValueError /\ excludes (bc_rel qo ql qr) s
  end.
Proof.
  intros I Ho Hl Hr H1 H2 H2' H3. unfold align_output. destruct (longer_either s ql qr) as (Ei & Le & Eq). cbv zeta. set (qL := longer s ql qr) in *. set (qS := if ql =? qL then qr else ql) in *. clearbody qL qS.
  assert (HL : qL < nrep s) by (destruct Ei as [[-> _]|[-> _]]; auto). assert (HS : qS < nrep s) by (destruct Ei as [[_ ->]|[_ ->]]; auto).
  assert (HP : forall sh, bc_rel qo ql qr sh -> bcasts (sh qL) (sh qS) (sh qo)) by (intros sh B; destruct Ei as [[-> ->]|[-> ->]]; [exact B|apply bcasts_sym; exact B]).
  assert (M := align_shared_ok s qo ql qr I Ho Hl Hr H3). unfold hbind. destruct (align_shared qo ql qr s) as [s1 [[]|e]]; [|exact M]. destruct M as (M1 & K1 & M2). assert (I1 : sinv s1) by apply M1. assert (N1 : nrep s1 = nrep s) by apply M1.
  assert (O := align_longer_ok (bc_rel qo ql qr) s1 qo qL qS I1 ltac:(lia) ltac:(lia) ltac:(lia) HP).
  assert (Cs : shlen (rp s1 qS) <= shlen (rp s1 qL) /\ (root (rp s1 qo) <> None \/ (root (rp s1 qL) = None /\ root (rp s1 qS) = None)) /\ (root (rp s1 qL) = None -> root (rp s1 qS) <> None -> pre (rp s1 qS) = []) /\
    (root (rp s1 qL) = root (rp s1 qS) -> root (rp s1 qL) <> None -> length (suf (rp s1 qL)) = length (suf (rp s1 qS)))).
  { destruct M2 as [->|(Pa & Ro & Rl)].
    - split; [auto|]. split; [|split].
      + destruct H1 as [H1|[A B]]; [auto|right]. apply not_open in A, B. destruct Ei as [[-> ->]|[-> ->]]; auto.
      + intros A B. assert (shlen (rp s qS) < shlen (rp s qL)). { destruct (Nat.eq_dec (shlen (rp s qS)) (shlen (rp s qL))) as [E|N]; [exfalso; apply (Eq E B); auto|lia]. } destruct Ei as [[-> ->]|[-> ->]]; [apply H2|apply H2']; auto.
      + destruct Ei as [[-> ->]|[-> ->]]; [exact H3|]. intros A B. symmetry. apply H3; congruence.
    - destruct (proj2 K1 _ _ Pa) as (P1 & P2 & P3 & _). assert (Rl' := proj1 K1 ql Rl). assert (Ro' := proj1 K1 qo Ro). destruct Ei as [[-> ->]|[-> ->]]; (split; [unfold shlen; lia|]; split; [auto|]; split; [intros A; congruence|auto]). }
  destruct Cs as (C0 & C1 & C2 & C3). specialize (O C0 C1 C2 C3). destruct (align_longer qo qL qS s1) as [s2 [[]|e]].
  - destruct O as (O1 & O2 & O3). split; [eapply sound_for_trans; eauto|].
    assert (Sw : forall t, (open_at t ql \/ open_at t qr <-> open_at t qL \/ open_at t qS)) by (intros t; destruct Ei as [[-> ->]|[-> ->]]; tauto). rewrite Sw. unfold open_at.
    assert (Pl : forall q, q < nrep s1 -> root (rp s1 q) = None -> root (rp s2 q) = None) by (intros q Hq R; eapply sound_for_plain; eauto).
    destruct (root (rp s1 qL)) as [v|] eqn:RL; [|destruct (root (rp s1 qS)) as [v|] eqn:RS].
    + destruct C1 as [C1|[C1 _]]; [|discriminate]. assert (K : keeps s1 s2) by (apply O3; [exact C1|left; discriminate]). assert (X := proj1 K qo C1). assert (Y := proj1 K qL ltac:(congruence)). tauto.
    + destruct C1 as [C1|[_ C1]]; [|discriminate]. assert (K : keeps s1 s2) by (apply O3; [exact C1|right; discriminate]). assert (X := proj1 K qo C1). assert (Y := proj1 K qS ltac:(congruence)). tauto.
    + rewrite (O2 eq_refl eq_refl), (Pl qL ltac:(lia) RL), (Pl qS ltac:(lia) RS). tauto.
  - destruct O as [-> O]. split; [auto|]. eapply excludes_back; eauto.
Qed.

(** ** The inputs *)
Lemma collect_ok s ls rs : forall os, let l := collect s ls rs os in l = [] \/ (ls = [] /\ length l <= length rs /\ length l <= length os /\ l = firstn (length l) os /\ forall k, k < length l -> is_one (value s (nth k rs 0)) = true /\ big (value s (nth k os 0)) = true).
Proof.
  cbv zeta. intros os. destruct ls as [|x ls]; [|left; destruct rs, os; reflexivity]. revert os. induction rs as [|r rs IH]; intros [|o os]; cbn [collect]; auto.
  destruct (is_one (value s r) && big (value s o))%bool eqn:E; [|auto]. apply andb_prop in E as [E1 E2]. right. split; [auto|]. destruct (IH os) as [X|(_ & X1 & X2 & X3 & X4)].
  - rewrite X. cbn. split; [lia|]. split; [lia|]. split; [auto|]. intros [|k] Hk; [auto|lia].
  - cbn [length firstn]. split; [lia|]. split; [lia|]. split; [congruence|]. intros [|k] Hk; [auto|]. apply X4. lia.
Qed.
Lemma is_one_value o : is_one o = true -> o = Some 1%Z.
Proof. unfold is_one, oz_eqb. intros H. apply (proj1 (eqb_eq _ _)) in H. auto. Qed.
Lemma big_value o : big o = true -> exists z, o = Some z /\ z <> 1%Z.
Proof. unfold big. destruct o as [z|]; [|discriminate]. intros H. exists z. split; [auto|]. intros ->. discriminate. Qed.
Lemma align_input_ok s qo ql qr : sinv s -> qo < nrep s -> ql < nrep s -> qr < nrep s -> (open_at s qo <-> open_at s ql \/ open_at s qr) ->
  match align_input qo ql qr s with
  | (s', Ok _) => sound_for (bc_rel qo ql qr) s s' /\ (open_at s' qo <-> open_at s' ql \/ open_at s' qr)
  | (_, Err e) => e = ValueError /\ excludes (bc_rel qo ql qr) s
  end.
Proof.
  intros I Ho Hl Hr Op. unfold align_input. destruct (collect_ok (us s) (reversed (rp s ql)) (reversed (rp s qr)) (reversed (rp s qo))) as [->|(El & L1 & L2 & El' & Hk)]; [split; [apply sound_for_refl; auto|auto]|].
  set (l := collect (us s) (reversed (rp s ql)) (reversed (rp s qr)) (reversed (rp s qo))) in *. clearbody l.
  (* the left input ends with these dimensions *)
  assert (Main : forall rho sh, allows s rho sh -> bc_rel qo ql qr sh -> length l <= length (sh ql) /\ skipn (length (sh ql) - length l) (sh ql) = map rho (rev l)).
  { intros rho sh A B. assert (Sz : forall k, k < length l -> k < length (sh ql) /\ size_at (sh ql) k = rho (nth k l 0)).
    { intros k Lk. destruct (Hk k Lk) as [V1 V2]. apply is_one_value in V1. apply big_value in V2 as (z & V2 & Nz). destruct (shown_back s qr rho sh k I Hr A ltac:(lia)) as [_ S1]. destruct (shown_back s qo rho sh k I Ho A ltac:(lia)) as [_ S2].
      assert (E1 : rho (nth k (reversed (rp s qr)) 0) = 1%Z) by (apply (value_sat (us s)); [apply I|apply (reversed_live s qr); auto; apply nth_In; lia|auto|apply A]).
      assert (E2 : rho (nth k (reversed (rp s qo)) 0) = z) by (apply (value_sat (us s)); [apply I|apply (reversed_live s qo); auto; apply nth_In; lia|auto|apply A]).
      assert (E3 : nth k l 0 = nth k (reversed (rp s qo)) 0) by (rewrite El'; apply nth_first; auto). rewrite E3, E2. assert (R := bcasts_rel _ _ _ B k). rewrite S1, E1, S2, E2 in R.
      assert (X : size_at (sh ql) k = z). { destruct R as [[X1 X2]|[[X1 X2]|[X1 X2]]]; congruence. } split; [|auto]. destruct (Nat.lt_ge_cases k (length (sh ql))) as [Lt|Ge]; [auto|]. rewrite size_beyond in X by auto. congruence. }
    assert (Ll : length l <= length (sh ql)). { destruct (length l) as [|n] eqn:En; [lia|]. destruct (Sz n ltac:(lia)). lia. } split; [auto|]. apply size_ext; [rewrite skipn_length, map_length, rev_length; lia|]. intros i Hi. rewrite skipn_length in Hi.
    destruct (Sz i ltac:(lia)) as [_ X]. assert (Y : size_at (sh ql) i = size_at (skipn (length (sh ql) - length l) (sh ql)) i). { rewrite <- (firstn_skipn (length (sh ql) - length l) (sh ql)) at 1. apply size_last. rewrite skipn_length. auto. }
    rewrite <- Y, X. unfold size_at. rewrite <- map_rev, rev_involutive. rewrite (nth_indep _ 1%Z (rho 0)) by (rewrite map_length; lia). symmetry. apply map_nth. }
  assert (Lv : forall x, In x l -> live (us s) x) by (intros x Hx; apply (reversed_live s qo); auto; rewrite El' in Hx; eapply in_firstn; eauto).
  destruct l as [|x0 l0]; [split; [apply sound_for_refl; auto|auto]|]. set (l := x0 :: l0) in *. destruct (no_root (rp s qo) && (shlen (rp s qo) =? length l) && negb (length l =? shlen (rp s qr)))%bool eqn:C.
  - apply andb_prop in C as [C _]. apply andb_prop in C as [Cr Cl]. apply no_root_true in Cr. apply Nat.eqb_eq in Cl.
    assert (M := rule_step (bc_rel qo ql qr) s s ql (mkshape (rev l) None []) I). lapply M; [clear M; intros M|]. 2: { split; [auto|]. split; [auto|]. split; [auto|]. split; [lia|]. apply grows_refl. apply I. }
    specialize (M Hl). lapply M; [clear M; intros M|]. 2: { split; [intros y Hy; cbn [pre suf] in Hy; rewrite app_nil_r in Hy; apply Lv; apply in_rev; exact Hy|]. split; [auto|discriminate]. }
    lapply M; [clear M; intros M|auto]. lapply M; [clear M; intros M|].
    2: { intros rho tau sh Hs D B. exists rho, tau. split; [intros x _; auto|]. split; [auto|]. split; [auto|]. assert (A : allows s rho sh) by (apply allows_den; split; [auto|]; exists tau; auto). destruct (Main rho sh A B) as [Ll Es].
      assert (Lo : length (sh qo) = length l). { rewrite (plain_sh s qo rho sh I Ho Cr A), map_length. unfold shlen in Cl. destruct (s_repr _ I qo Ho) as (_ & W & _). rewrite (W Cr) in Cl. change (length (@nil nat)) with 0 in Cl. lia. }
      assert (Le : length (sh ql) = length l) by (assert (X := proj1 B); lia). rewrite Le, Nat.sub_diag in Es. cbn [skipn] in Es. rewrite Es. unfold dshape. cbn. rewrite app_nil_r. auto. }
    destruct (inner_match ql (mkshape (rev l) None []) s) as [s' [[]|e]]; [|exact M]. split; [apply M|].
    assert (Pl : forall q, q < nrep s -> ~ open_at s q -> ~ open_at s' q). { intros q Hq R. unfold open_at in *. intros X. apply X. eapply sound_for_plain; [exact I|exact Hq| |apply M]. destruct (root (rp s q)); [exfalso; apply R; discriminate|auto]. }
    assert (~ open_at s qo) by (unfold open_at; intros X; congruence). assert (X1 := Pl qo Ho ltac:(tauto)). assert (X2 := Pl ql Hl ltac:(tauto)). assert (X3 := Pl qr Hr ltac:(tauto)). tauto.
  - destruct (fresh_var s I) as (s1 & E1 & F1 & V1). rewrite (with_var _ _ _ _ E1).
    assert (M := one_ok (bc_rel qo ql qr) s s1 [] ql (mkshape [] (Some (nvar s)) (rev l)) I F1 Hl). lapply M; [clear M; intros M|]. 2: { split; [intros y Hy; cbn [pre suf app] in Hy; apply (proj1 F1); apply Lv; apply in_rev; exact Hy|]. split; [discriminate|]. intros v [= <-]. lia. }
    lapply M; [clear M; intros M|].
    2: { intros rho tau sh Hs D B. assert (A : allows s rho sh) by (apply allows_den; split; [auto|]; exists tau; auto). destruct (Main rho sh A B) as [Ll Es]. exists [], (upd tau (nvar s) (firstn (length (sh ql) - length l) (sh ql))). split; [auto|]. split; [intros y Hy; apply upd_other; lia|].
      intros rho' Ag _. unfold dshape. cbn [pre root suf rval map app]. rewrite upd_same. rewrite <- (firstn_skipn (length (sh ql) - length l) (sh ql)) at 1. f_equal. rewrite Es. apply map_ext_in. intros y Hy. symmetry. apply Ag. apply Lv. apply in_rev. auto. }
    assert (K : open_at s ql -> keeps s (fst (inner_match ql (mkshape [] (Some (nvar s)) (rev l)) s1))).
    { intros R. eapply keeps_trans; [apply keeps_var|]. rewrite E1. cbn [fst]. eapply keeps_inner; [|reflexivity]. assert (Er : rp s1 = rp s) by apply F1. rewrite Er. exact R. }
    assert (Bad : ~ open_at s ql -> snd (inner_match ql (mkshape [] (Some (nvar s)) (rev l)) s1) = Err ValueError).
    { intros R. assert (Er : rp s1 = rp s) by apply F1. unfold inner_match. rewrite Er. unfold open_at in R. unfold reversed in El. destruct (root (rp s ql)) as [v|] eqn:Rl; [exfalso; apply R; discriminate|]. assert (Ep : pre (rp s ql) = []). { rewrite <- (rev_involutive (pre (rp s ql))), El. auto. }
      cbn [root pre suf]. unfold hbind. unfold reversed. rewrite Rl, Ep. change (update_uniadics [] []) with (@hret unit tt). change (update_uniadics (rev []) (rev (rev l))) with (@hret unit tt). unfold hret. replace (length (@nil nat) <? shlen (mkshape [] (Some (nvar s)) (rev l))) with true; [auto|]. symmetry. apply Nat.ltb_lt. unfold shlen. cbn [pre suf]. rewrite rev_length. cbn. lia. }
    destruct (inner_match ql (mkshape [] (Some (nvar s)) (rev l)) s1) as [s' [[]|e]]; [|exact M]. split; [apply M|]. cbn [fst snd] in *.
    destruct (root (rp s ql)) as [v|] eqn:Rl; [|specialize (Bad ltac:(unfold open_at; rewrite Rl; intros X; apply X; auto)); discriminate].
    assert (Ol : open_at s ql) by (unfold open_at; rewrite Rl; discriminate). specialize (K Ol). assert (X1 := proj1 K ql Ol). assert (X2 := proj1 K qo (proj2 Op (or_introl Ol))). unfold open_at. tauto.
Qed.
