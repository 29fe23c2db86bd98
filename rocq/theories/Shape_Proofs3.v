(** * Symbolic shapes: creation, setting of values, nodes *)
From Coq Require Import List Arith Lia Bool ZArith.
From Verif Require Import PyBase Uniadic_Model Uniadic_Proofs Uniadic_Props Bcast_Proofs Shape_Model Shape_Proofs Shape_Proofs2.
Import ListNotations.
Open Scope list_scope. Open Scope nat_scope. Open Scope shm_scope.

(** ** Clearing *)
Lemma same_reprs s r l : inv s -> let R := mkrec (pv (recs s r)) (refs (recs s r)) l in same_us s (set_rec s r R).
Proof.
  intros I R.
  assert (Hr : forall x, refs (upd (recs s) r R x) = refs (recs s x)). { intros x. unfold upd. destruct (Nat.eqb_spec x r) as [->|]; auto. }
  assert (Hp : forall x, pv (upd (recs s) r R x) = pv (recs s x)). { intros x. unfold upd. destruct (Nat.eqb_spec x r) as [->|]; auto. }
  assert (HL : forall x, live (set_rec s r R) x <-> live s x). { intros x. unfold live, set_rec. cbn [nu meta recs]. rewrite Hr. tauto. }
  assert (HS : forall rho, sat (set_rec s r R) rho <-> sat s rho).
  { intros rho. unfold sat, possible_values. change (meta (set_rec s r R)) with (meta s). change (recs (set_rec s r R)) with (upd (recs s) r R). split; intros [H1 H2]; split.
    - intros x Lx. rewrite <- Hp. apply H1. apply HL; auto.
    - intros x y Lx Ly. apply H2; apply HL; auto.
    - intros x Lx. rewrite Hp. apply H1. apply HL; auto.
    - intros x y Lx Ly. apply H2; apply HL; auto. }
  split; [|intros rho; apply HS]. split.
  - split; unfold set_rec; cbn [nu meta recs].
    + apply (i_meta _ I).
    + intros x y. rewrite Hr. apply (i_refs _ I).
    + intros x. rewrite Hp. apply (i_pv _ I).
  - split; [reflexivity|]. split; [auto|]. split; [auto|]. intros rho. apply HS.
Qed.
Lemma detach_all_ok q l : forall s, inv (us s) -> exists u', detach_all q l s = (with_us s u', Ok tt) /\ same_us (us s) u'.
Proof.
  induction l as [|u l IH]; intros s I; cbn [detach_all].
  - exists (us s). split; [destruct s; reflexivity|apply same_refl; auto].
  - unfold hbind, lift, detach. set (u1 := set_rec _ _ _). assert (A : same_us (us s) u1) by (apply same_reprs; auto).
    destruct (IH (with_us s u1)) as (u2 & E2 & S2); [apply A|]. exists u2. rewrite E2. split; [reflexivity|]. eapply same_trans; eauto.
Qed.
Lemma clear_ok q s : sinv s -> exists s', clear_repr q s = (s', Ok tt) /\ sinv s' /\ same_us (us s) (us s') /\ nrep s' = nrep s /\ nvar s' = nvar s /\
  forall x, x <> q -> rp s' x = rp s x.
Proof.
  intros I. unfold clear_repr. destruct (detach_all_ok q (pre (rp s q) ++ suf (rp s q)) s (s_inv _ I)) as (u' & E & S). unfold hbind. rewrite E.
  assert (I1 := with_us_sinv s u' I (proj1 S)). set (s1 := with_us s u') in *.
  eexists. split; [reflexivity|]. assert (F : forall v y, In y (filter (fun y => negb (y =? q)) (vreprs s1 v)) <-> In y (vreprs s1 v) /\ y <> q).
  { intros v y. rewrite filter_In, negb_true_iff, Nat.eqb_neq. tauto. }
  split; [|destruct (root (rp s q)); cbn; (split; [apply S|]); (split; [auto|]); (split; [auto|]); intros x N; unfold upd; destruct (Nat.eqb_spec x q); [contradiction|auto|contradiction|auto]].
  split.
  - destruct (root (rp s q)); cbn; apply S.
  - intros x Hx. assert (Hx' : x < nrep s1) by (destruct (root (rp s q)); exact Hx). cbn. unfold upd. destruct (Nat.eqb_spec x q) as [->|N].
    + split; [intros u []|]. split; [auto|]. discriminate.
    + destruct (s_repr _ I1 x Hx') as (W1 & W2 & W3). split; [destruct (root (rp s q)); exact W1|]. split; [destruct (root (rp s q)); exact W2|destruct (root (rp s q)); exact W3].
  - intros v y. destruct (root (rp s q)) as [v0|] eqn:R; cbn.
    + unfold upd at 1. assert (B := s_back _ I1 v y). cbn in B. unfold upd. destruct (Nat.eqb_spec v v0) as [->|N].
      * change (vreprs s) with (vreprs s1). rewrite F. destruct (Nat.eqb_spec y q) as [->|N']; cbn [root]; [|tauto]. split; [tauto|intros [_ X]; discriminate].
      * destruct (Nat.eqb_spec y q) as [->|N']; cbn [root]; [|tauto]. rewrite B, R. split; [intros [_ X]; congruence|intros [_ X]; discriminate].
    + assert (B := s_back _ I1 v y). cbn in B. unfold upd. destruct (Nat.eqb_spec y q) as [->|N']; cbn [root]; [|tauto]. rewrite B, R. tauto.
Qed.
Lemma clear_all_ok qs : forall s, sinv s -> exists s', clear_all qs s = (s', Ok tt) /\ sinv s' /\ same_us (us s) (us s') /\ nrep s' = nrep s /\ nvar s' = nvar s /\
  forall x, ~ In x qs -> rp s' x = rp s x.
Proof.
  induction qs as [|q qs IH]; intros s I; cbn [clear_all].
  - exists s. split; [reflexivity|]. split; [auto|]. split; [apply same_refl; apply I|auto].
  - destruct (clear_ok q s I) as (s1 & E1 & I1 & S1 & N1 & V1 & R1). destruct (IH s1 I1) as (s2 & E2 & I2 & S2 & N2 & V2 & R2).
    unfold hbind. rewrite E1, E2. exists s2. split; [reflexivity|]. split; [auto|]. split; [eapply same_trans; eauto|]. split; [congruence|]. split; [congruence|].
    intros x Hx. rewrite R2 by (intros H; apply Hx; right; auto). apply R1. intros ->. apply Hx. left; auto.
Qed.

(** ** Creation of representations *)
Lemma new_repr_ok r s : sinv s -> wf_repr s r -> exists s', new_repr r s = (s', Ok (nrep s)) /\ sinv s' /\ same_us (us s) (us s') /\ nrep s' = S (nrep s) /\ nvar s' = nvar s /\
  rp s' (nrep s) = r /\ forall x, x < nrep s -> rp s' x = rp s x.
Proof.
  intros I (W1 & W2 & W3). unfold new_repr. set (q := nrep s). set (s0 := mkshst (us s) (nvar s) (vreprs s) (S q) (upd (rp s) q r)).
  destruct (attach_all_ok q (pre r) s0) as (u1 & E1 & S1); [apply I|intros u Hu; apply W1; apply in_app_iff; auto|].
  destruct (attach_all_ok q (suf r) (with_us s0 u1)) as (u2 & E2 & S2); [apply S1|intros u Hu; eapply evolves_live; [apply S1|]; apply W1; apply in_app_iff; auto|].
  unfold hbind at 1. rewrite E1. unfold hbind at 1. rewrite E2. unfold hbind, hret.
  assert (SS : same_us (us s) u2) by (eapply same_trans; eauto).
  assert (Rq : forall x, upd (rp s) q r x = if x =? q then r else rp s x) by reflexivity.
  eexists. split; [reflexivity|].
  assert (Nq : ~ In q (flat_map (fun v => vreprs s v) [match root r with Some v => v | None => 0 end])).
  { cbn. rewrite app_nil_r. intros H. apply (s_back _ I) in H. fold q in H. lia. }
  split; [|destruct (root r); cbn; (split; [auto|]); (split; [auto|]); (split; [auto|]); (split; [rewrite upd_same; auto|]); intros x Hx; rewrite upd_other by lia; auto].
  split.
  - destruct (root r); cbn; apply SS.
  - intros x Hx. assert (Hx' : x < S q) by (destruct (root r); exact Hx).
    assert (W : wf_repr (with_us (with_us s0 u1) u2) (upd (rp s) q r x)).
    { rewrite Rq. destruct (Nat.eqb_spec x q) as [->|N].
      - split; [|auto]. intros u Hu. cbn. eapply evolves_live; [apply SS|auto].
      - destruct (s_repr _ I x) as (A1 & A2 & A3); [fold q; lia|]. split; [|auto]. intros u Hu. cbn. eapply evolves_live; [apply SS|auto]. }
    destruct (root r); exact W.
  - intros v y. assert (B := s_back _ I v y). destruct (root r) as [w|] eqn:Rr; unfold add_to; cbn [vreprs rp nrep with_us s0].
    + unfold upd at 1. destruct (Nat.eqb_spec v w) as [->|N].
      * cbn in Nq. rewrite app_nil_r in Nq. destruct (mem q (vreprs s w)) eqn:Em; [apply mem_In in Em; contradiction|]. rewrite in_app_iff, B, Rq. cbn [In].
        destruct (Nat.eqb_spec y q) as [->|Ny]; [rewrite Rr; split; [split; [lia|auto]|auto]|]. fold q. split; [intros [[A A']|[A|[]]]; [split; [lia|auto]|congruence]|intros [A A']; left; split; [lia|auto]].
      * rewrite B, Rq. destruct (Nat.eqb_spec y q) as [->|Ny]; [rewrite Rr; fold q; split; [lia|intros [_ X]; congruence]|]. fold q. split; intros [A A']; split; auto; lia.
    + rewrite B, Rq. destruct (Nat.eqb_spec y q) as [->|Ny]; [rewrite Rr; fold q; split; [lia|intros [_ X]; congruence]|]. fold q. split; intros [A A']; split; auto; lia.
Qed.

(** ** Creation of dimensions *)
Definition fitsv (v : option Z) (x : Z) : Prop := match v with Some n => x = n | None => True end.
Definition grows (a b : ustate) : Prop := inv b /\ forall x, live a x -> live b x.
Lemma with_us_grow s u : sinv s -> grows (us s) u -> sinv (with_us s u).
Proof.
  intros I [Iu L]. split; cbn; auto; [|apply (s_back _ I)].
  intros q Hq. destruct (s_repr _ I q Hq) as (W1 & W2 & W3). split; [|auto]. intros x Hx. cbn. auto.
Qed.
Lemma new_uniadic_ok s v : inv s -> exists s', new_uniadic (option_map (fun n => [n]) v) s = (s', Ok (nu s)) /\ grows s s' /\ live s' (nu s) /\ ~ live s (nu s) /\
  forall rho, sat s' rho <-> sat s rho /\ fitsv v (rho (nu s)).
Proof.
  intros I. assert (Sv : is_set (option_map (fun n : Z => [n]) v)). { destruct v; cbn; auto. constructor; [intros []|constructor]. }
  assert (E : exists s', new_uniadic (option_map (fun n => [n]) v) s = (s', Ok (nu s))). { destruct v; eexists; reflexivity. }
  destruct E as (s' & E). exists s'. split; [auto|]. destruct (new_ok s _ s' _ I Sv E) as (_ & I' & L & _ & _ & N & _ & S).
  split; [split; [auto|intros x Hx; apply L; auto]|]. split; [apply L; auto|]. split; [auto|]. intros rho. rewrite S. destruct v as [n|]; cbn; [|tauto]. intuition congruence.
Qed.
Lemma fitsv_map_ext (rho rho' : nat -> Z) l vals : (forall u, In u l -> rho u = rho' u) -> Forall2 fitsv vals (map rho l) -> Forall2 fitsv vals (map rho' l).
Proof. intros H. replace (map rho' l) with (map rho l); [auto|]. apply map_ext_in. auto. Qed.
Lemma new_uniadics_ok vals : forall s, inv (us s) -> exists u' l, new_uniadics vals s = (with_us s u', Ok l) /\ grows (us s) u' /\ (forall x, In x l -> live u' x /\ ~ live (us s) x) /\ NoDup l /\ length l = length vals /\
  forall rho, sat u' rho <-> sat (us s) rho /\ Forall2 fitsv vals (map rho l).
Proof.
  induction vals as [|v vals IH]; intros s I; cbn [new_uniadics].
  - exists (us s), []. split; [destruct s; reflexivity|]. split; [split; auto|]. split; [intros x []|]. split; [constructor|]. split; [auto|]. intros rho. cbn. split; [intros H; split; [auto|constructor]|tauto].
  - destruct (new_uniadic_ok (us s) v I) as (u1 & E1 & G1 & L1 & N1 & S1). unfold hbind at 1, lift. rewrite E1.
    destruct (IH (with_us s u1)) as (u2 & l & E2 & G2 & L2 & D2 & Len & S2); [apply G1|]. unfold hbind. rewrite E2. exists u2, (nu (us s) :: l).
    split; [reflexivity|]. split; [split; [apply G2|intros x Hx; apply G2, G1; auto]|].
    split; [intros x [<-|Hx]; [split; [apply G2; auto|auto]|]; split; [apply L2; auto|]; intros Hx'; apply (proj2 (L2 x Hx)); apply G1; auto|].
    split; [constructor; [intros Hx; apply (proj2 (L2 _ Hx)); auto|auto]|]. split; [cbn; auto|].
    intros rho. rewrite S2. cbn [us with_us]. rewrite S1. cbn [map]. split; [intros [[A B] C]; split; [auto|constructor; auto]|]. intros [A B]. inversion B; subst. tauto.
Qed.

(** ** Setting values *)
Lemma set_each_ok l : forall vals s, inv (us s) -> (forall u, In u l -> live (us s) u) -> length vals = length l ->
  exists u' r, set_each l vals s = (with_us s u', r) /\ evolves (us s) u' /\
  match r with Ok _ => forall rho, sat u' rho <-> sat (us s) rho /\ Forall2 fitsv vals (map rho l) | Err e => e = ValueError /\ forall rho, sat (us s) rho -> ~ Forall2 fitsv vals (map rho l) end.
Proof.
  induction l as [|u l IH]; intros [|v vals] s I HL Len; try discriminate; cbn [set_each].
  - exists (us s), (Ok tt). split; [destruct s; reflexivity|]. split; [apply evolves_refl; auto|]. intros rho. cbn. split; [split; [auto|constructor]|tauto].
  - assert (Sv : is_set (option_map (fun n : Z => [n]) v)). { destruct v; cbn; auto. constructor; [intros []|constructor]. }
    assert (P := update_imposes (us s) u _ I (HL u (or_introl eq_refl)) Sv). assert (V := imposes_evolves _ _ _ I P).
    unfold hbind, lift. destruct P as (I1 & _ & _ & _ & M). destruct (update_possible_values u (option_map (fun n : Z => [n]) v) (us s)) as [u1 [up|e]]; cbn [fst snd] in *.
    + destruct (IH vals (with_us s u1)) as (u2 & r & E2 & V2 & S2); [auto|intros x Hx; eapply evolves_live; eauto; apply HL; right; auto|cbn in Len; lia|].
      rewrite E2. exists u2, r. split; [reflexivity|]. split; [eapply evolves_trans; eauto|]. cbn [us with_us] in S2.
      assert (Q : forall rho, in_pv (rho u) (option_map (fun n : Z => [n]) v) <-> fitsv v (rho u)). { intros rho. destruct v; cbn; intuition congruence. }
      destruct r as [x|e].
      * intros rho. rewrite S2, M, Q. cbn [map]. split; [intros [[A B] C]; split; [auto|constructor; auto]|]. intros [A B]. inversion B; subst. tauto.
      * destruct S2 as [-> S2]. split; [auto|]. intros rho S F. inversion F; subst. apply (S2 rho); auto. apply M. split; [auto|]. apply Q. auto.
    + destruct M as (-> & -> & M). exists (us s), (Err ValueError). split; [reflexivity|]. split; [apply evolves_refl; auto|]. split; [auto|]. intros rho S F. inversion F; subst.
      apply (M rho). split; [auto|]. destruct v; cbn in *; auto.
Qed.
Lemma set_values_rooted q vals s v : root (rp s q) = Some v ->
  set_values q vals s = (do l <- new_uniadics vals; inner_match q (mkshape l None [])) s.
Proof.
  intros R. unfold set_values. rewrite R. unfold hbind at 1 4.
  destruct (new_uniadics vals s) as [s1 [l|e]] eqn:E; [|auto]. 
  assert (Er : rp s1 = rp s). { clear - E. revert s s1 l E. induction vals as [|x vals IH]; intros s s1 l E; cbn [new_uniadics] in E; [unfold hret in E; congruence|].
    unfold hbind at 1, lift in E. destruct (new_uniadic _ (us s)) as [u1 [y|e]]; [|discriminate]. unfold hbind in E.
    destruct (new_uniadics vals (with_us s u1)) as [s2 [l2|e2]] eqn:E2; [|discriminate]. apply IH in E2. unfold hret in E. injection E as <- <-. rewrite E2. reflexivity. }
  unfold inner_match. rewrite Er, R. cbn [root pre suf]. unfold hbind. reflexivity.
Qed.

(** ** Composition *)
(** Conditions on the shapes of the representations *)
Definition ceq (L : list (nat * nat)) (s : shst) (rho : nat -> Z) (tau : nat -> list Z) : Prop := forall a b, In (a, b) L -> den s rho tau a = den s rho tau b.
Lemma keeps_trans s s1 s2 (C : shst -> (nat -> Z) -> (nat -> list Z) -> Prop) : nrep s1 = nrep s -> nvar s <= nvar s1 ->
  keeps s s1 (C s) -> keeps s1 s2 (C s1) ->
  (forall rho tau tau', (forall q, q < nrep s -> den s1 rho tau' q = den s rho tau q) -> C s rho tau -> C s1 rho tau') -> keeps s s2 (C s).
Proof.
  intros N V K1 K2 H rho tau S X. destruct (K1 rho tau S X) as (t1 & S1 & T1 & D1). destruct (K2 rho t1 S1) as (t2 & S2 & T2 & D2); [eapply H; eauto|].
  exists t2. split; [auto|]. split; [intros x Hx; rewrite T2 by lia; auto|]. intros q Hq. rewrite D2 by lia. auto.
Qed.
Lemma yields_trans s s1 s2 (E1 E2 E : (nat -> Z) -> (nat -> list Z) -> Prop) : nrep s1 = nrep s -> yields s s1 E1 -> yields s1 s2 E2 ->
  (forall rho tau tau', (forall q, q < nrep s -> den s rho tau q = den s1 rho tau' q) -> E1 rho tau -> E2 rho tau' -> E rho tau) -> yields s s2 E.
Proof.
  intros N Y1 Y2 H rho t2 S2. destruct (Y2 rho t2 S2) as (t1 & S1 & D1 & X1). destruct (Y1 rho t1 S1) as (t0 & S0 & D0 & X0). exists t0. split; [auto|].
  split; [|eapply H; eauto]. intros q Hq. rewrite D0 by auto. apply D1. lia.
Qed.
Lemma match_ok s q q' : sinv s -> q < nrep s -> q' < nrep s ->
  match repr_match q q' s with
  | (s', Ok _) => extends s s' /\ keeps s s' (fun rho tau => den s rho tau q = den s rho tau q') /\ yields s s' (fun _ _ => True) /\
      (resolved s' q q' = true \/ ~ crossing (rp s q) (rp s q') -> yields s s' (fun rho tau => den s rho tau q = den s rho tau q'))
  | (_, Err e) => e = ValueError /\ forall rho tau, sat (us s) rho -> den s rho tau q <> den s rho tau q'
  end.
Proof.
  intros I Hq Hq'. unfold repr_match. assert (O := inner_match_ok s q (rp s q') I Hq (s_repr _ I q' Hq')). unfold outcome, Ceq in O.
  destruct (inner_match q (rp s q') s) as [s' [[]|e]]; cbn [fst snd] in O; [|exact O]. destruct O as (X & K & Y). split; [auto|]. split; [exact K|].
  destruct Y as [Y|(Hc & Y & R & _)].
  - split; [eapply yields_weaken; [exact Y|auto]|]. intros _. exact Y.
  - split; [auto|]. rewrite (R q' Hq' eq_refl). intros [?|?]; [discriminate|contradiction].
Qed.

(** ** Nodes: merge *)
Definition alleq (L : list nat) (s : shst) (rho : nat -> Z) (tau : nat -> list Z) : Prop := forall a b, In a L -> In b L -> den s rho tau a = den s rho tau b.
Lemma alleq_ext L s s1 rho tau tau' : (forall q, In q L -> q < nrep s) -> (forall q, q < nrep s -> den s1 rho tau' q = den s rho tau q) -> alleq L s rho tau -> alleq L s1 rho tau'.
Proof. intros HL D H a b Ha Hb. rewrite !D by auto. auto. Qed.

Lemma merge_one_ok L q2 selfs : forall s, sinv s -> (forall q, In q L -> q < nrep s) -> In q2 L -> incl selfs L ->
  match merge_one q2 selfs s with
  | (s', Ok b) => extends s s' /\ keeps s s' (alleq L s) /\ yields s s' (fun rho tau => b = true -> exists q1, In q1 selfs /\ den s rho tau q1 = den s rho tau q2)
  | (_, Err e) => e = ValueError /\ forall rho tau, sat (us s) rho -> ~ alleq L s rho tau
  end.
Proof.
  induction selfs as [|q1 selfs IH]; intros s I HL H2 Hs; cbn [merge_one].
  - unfold hret. split; [apply extends_refl; auto|]. split; [apply keeps_refl|]. eapply yields_weaken; [apply yields_refl|]. discriminate.
  - assert (H1 : In q1 L) by (apply Hs; left; auto). assert (M := match_ok s q1 q2 I (HL _ H1) (HL _ H2)). unfold hbind at 1.
    destruct (repr_match q1 q2 s) as [s1 [[]|e]]; [|destruct M as [-> M]; split; [auto|]; intros rho tau S A; apply (M rho tau S); apply A; auto].
    destruct M as (X1 & K1 & Y1 & R1). assert (I1 : sinv s1) by apply X1. assert (N1 : nrep s1 = nrep s) by apply X1. assert (V1 : nvar s <= nvar s1) by apply X1.
    assert (KL : keeps s s1 (alleq L s)). { intros rho tau S A. apply K1; auto. }
    unfold hbind at 1, hgets. destruct (resolved s1 q1 q2) eqn:Er.
    + unfold hret. split; [auto|]. split; [auto|]. eapply yields_weaken; [apply R1; auto|]. cbn. intros rho tau S E _. exists q1. split; [left; auto|auto].
    + assert (G := IH s1 I1). destruct (merge_one q2 selfs s1) as [s2 [b|e]].
      * destruct G as (X2 & K2 & Y2); [intros q Hq; rewrite N1; auto|auto|intros x Hx; apply Hs; right; auto|].
        split; [eapply extends_trans; eauto|]. split.
        -- eapply keeps_trans with (C := alleq L); eauto. intros rho tau tau' D A. eapply alleq_ext; eauto.
        -- eapply yields_trans; [exact N1|exact Y1|exact Y2|]. cbn. intros rho tau tau' D _ E Eb. destruct (E Eb) as (q & Hq & Ed). exists q. split; [auto|].
           rewrite !D; auto. apply HL, Hs. right; auto.
      * destruct G as [-> G]; [intros q Hq; rewrite N1; auto|auto|intros x Hx; apply Hs; right; auto|]. split; [auto|]. intros rho tau S A.
        destruct (KL rho tau S A) as (t1 & S1 & _ & D1). apply (G rho t1 S1). eapply alleq_ext; eauto.
Qed.
Lemma merge_loop_ok L selfs others : forall s, sinv s -> (forall q, In q L -> q < nrep s) -> incl others L -> incl selfs L ->
  match merge_loop selfs others s with
  | (s', Ok (res, rem)) => extends s s' /\ keeps s s' (alleq L s) /\ (forall q, In q others <-> In q res \/ In q rem) /\ (NoDup others -> forall q, In q res -> ~ In q rem) /\
      yields s s' (fun rho tau => forall q2, In q2 res -> exists q1, In q1 selfs /\ den s rho tau q1 = den s rho tau q2)
  | (_, Err e) => e = ValueError /\ forall rho tau, sat (us s) rho -> ~ alleq L s rho tau
  end.
Proof.
  induction others as [|q2 others IH]; intros s I HL Ho Hs; cbn [merge_loop].
  - unfold hret. split; [apply extends_refl; auto|]. split; [apply keeps_refl|]. split; [cbn; tauto|]. split; [intros _ q []|]. eapply yields_weaken; [apply yields_refl|]. intros rho tau _ _ q [].
  - assert (H2 : In q2 L) by (apply Ho; left; auto). assert (M := merge_one_ok L q2 selfs s I HL H2 Hs). unfold hbind at 1. destruct (merge_one q2 selfs s) as [s1 [b|e]]; [|exact M].
    destruct M as (X1 & K1 & Y1). assert (I1 : sinv s1) by apply X1. assert (N1 : nrep s1 = nrep s) by apply X1. assert (V1 : nvar s <= nvar s1) by apply X1.
    assert (G := IH s1 I1). unfold hbind. destruct (merge_loop selfs others s1) as [s2 [[res rem]|e]].
    + destruct G as (X2 & K2 & P2 & D2 & Y2); [intros q Hq; rewrite N1; auto|intros x Hx; apply Ho; right; auto|auto|]. unfold hret.
      assert (KK : keeps s s2 (alleq L s)). { eapply keeps_trans with (C := alleq L); eauto. intros rho tau tau' D A. eapply alleq_ext; eauto. }
      assert (YY : yields s s2 (fun rho tau => (b = true -> exists q1, In q1 selfs /\ den s rho tau q1 = den s rho tau q2) /\ forall q3, In q3 res -> exists q1, In q1 selfs /\ den s rho tau q1 = den s rho tau q3)).
      { eapply yields_trans; [exact N1|exact Y1|exact Y2|]. cbn. intros rho tau tau' D E1 E2. split; [auto|]. intros q3 H3. destruct (E2 q3 H3) as (q1 & H1 & E). exists q1. split; [auto|].
        rewrite !D; auto. apply HL, Ho. right. apply P2. auto. }
      destruct b.
      * split; [eapply extends_trans; eauto|]. split; [auto|]. split; [intros q; cbn; rewrite P2; tauto|]. split.
        { intros ND q [<-|Hq]; inversion ND as [|? ? A1 A2]; subst; [intros H; apply A1, P2; auto|]. apply D2; auto. }
        eapply yields_weaken; [exact YY|]. cbn. intros rho tau _ [E1 E2] q3 [<-|H3]; auto.
      * split; [eapply extends_trans; eauto|]. split; [auto|]. split; [intros q; cbn; rewrite P2; tauto|]. split.
        { intros ND q Hq [<-|Hq']; inversion ND as [|? ? A1 A2]; subst; [apply A1, P2; auto|]. apply (D2 A2 q); auto. }
        eapply yields_weaken; [exact YY|]. cbn. intros rho tau _ [E1 E2] q3 H3; auto.
    + destruct G as [-> G]; [intros q Hq; rewrite N1; auto|intros x Hx; apply Ho; right; auto|auto|]. split; [auto|]. intros rho tau S A.
      destruct (K1 rho tau S A) as (t1 & S1 & _ & D1). apply (G rho t1 S1). eapply alleq_ext; eauto.
Qed.

(** The state of the representations that are left, relative to before. *)
Lemma node_merge_ok A B s : sinv s -> (forall q, In q (A ++ B) -> q < nrep s) -> NoDup (A ++ B) ->
  match node_merge A B s with
  | (s', Ok R) => exists res, sinv s' /\ nrep s' = nrep s /\ incl res B /\ (forall q, In q R <-> In q (A ++ B) /\ ~ In q res) /\ nvar s <= nvar s' /\ evolves (us s) (us s') /\
      (forall rho tau, sat (us s) rho -> alleq (A ++ B) s rho tau -> exists tau', sat (us s') rho /\ forall q, q < nrep s -> ~ In q res -> den s' rho tau' q = den s rho tau q) /\
      (forall rho tau', sat (us s') rho -> exists tau, sat (us s) rho /\ (forall q, q < nrep s -> ~ In q res -> den s rho tau q = den s' rho tau' q) /\
         forall q2, In q2 res -> exists q1, In q1 R /\ den s rho tau q1 = den s rho tau q2)
  | (_, Err e) => e = ValueError /\ forall rho tau, sat (us s) rho -> ~ alleq (A ++ B) s rho tau
  end.
Proof.
  intros I HL ND. unfold node_merge, hbind at 1. assert (M := merge_loop_ok (A ++ B) A B s I HL).
  destruct (merge_loop A B s) as [s1 [[res rem]|e]]; [|apply M; intros x Hx; apply in_app_iff; auto].
  destruct M as (X1 & K1 & P1 & D1 & Y1); [intros x Hx; apply in_app_iff; auto|intros x Hx; apply in_app_iff; auto|].
  assert (I1 : sinv s1) by apply X1. assert (N1 : nrep s1 = nrep s) by apply X1.
  destruct (clear_all_ok res s1 I1) as (s2 & E2 & I2 & S2 & N2 & V2 & R2). unfold hbind, hret. rewrite E2. exists res.
  assert (NB : NoDup B). { clear - ND. induction A as [|a A IH]; cbn in ND; [auto|]. inversion ND; auto. }
  assert (AB : forall q, In q A -> ~ In q B). { clear - ND. induction A as [|a A IH]; intros q Hq; [destruct Hq|]. cbn in ND. inversion ND as [|? ? A1 A2]; subst. destruct Hq as [<-|Hq]; [intros H; apply A1; apply in_app_iff; auto|auto]. }
  assert (DD := fun rho tau q (H : ~ In q res) => f_equal (dshape rho tau) (R2 q H)).
  split; [auto|]. split; [congruence|]. split; [intros q Hq; apply P1; auto|]. split.
  { intros q. rewrite !in_app_iff. assert (Pq := P1 q). split.
    - intros [H|H]; [split; [auto|]; intros H'; apply (AB q H); tauto|]. split; [tauto|]. intros H'. apply (D1 NB q H' H).
    - intros [[H|H] H']; [auto|]. right. tauto. }
  split; [rewrite V2; apply X1|]. split; [eapply evolves_trans; [apply X1|apply S2]|]. split.
  - intros rho tau S H. destruct (K1 rho tau S H) as (tau' & S' & _ & D). exists tau'. split; [apply S2; auto|]. intros q Hq Hn. unfold den. rewrite DD by auto. apply D; auto.
  - intros rho tau' S. destruct (Y1 rho tau') as (tau & S' & D & E); [apply S2; auto|]. exists tau. split; [auto|]. split.
    + intros q Hq Hn. rewrite D by auto. unfold den. rewrite DD by auto. auto.
    + intros q2 H2. destruct (E q2 H2) as (q1 & H1 & Eq). exists q1. split; [apply in_app_iff; auto|auto].
Qed.

(** ** Nodes: combine *)
Lemma combine_loop_ok L ps : forall same s, sinv s -> (forall q, In q L -> q < nrep s) -> (forall a b, In (a, b) ps -> In a L /\ In b L /\ a <> b) ->
  match combine_loop ps same s with
  | (s', Ok same') => sinv s' /\ nrep s' = nrep s /\ nvar s <= nvar s' /\ evolves (us s) (us s') /\ incl same same' /\ (forall q, In q same' -> In q same \/ In q L) /\
      (forall rho tau x, sat (us s) rho -> (forall q, In q L -> ~ In q same -> den s rho tau q = x) ->
         exists tau', sat (us s') rho /\ forall q, q < nrep s -> ~ In q same' -> den s' rho tau' q = den s rho tau q) /\
      (forall rho tau' x, sat (us s') rho -> (forall q, In q L -> ~ In q same' -> den s' rho tau' q = x) ->
         exists tau, sat (us s) rho /\ (forall q, q < nrep s -> ~ In q same' -> den s rho tau q = den s' rho tau' q) /\ forall q, In q L -> ~ In q same -> den s rho tau q = x)
  | (_, Err e) => e = ValueError /\ forall rho tau x, sat (us s) rho -> ~ (forall q, In q L -> ~ In q same -> den s rho tau q = x)
  end.
Proof.
  induction ps as [|[q q'] ps IH]; intros same s I HL Hp; cbn [combine_loop].
  - unfold hret. split; [auto|]. split; [auto|]. split; [auto|]. split; [apply evolves_refl; apply I|]. split; [intros x Hx; auto|]. split; [auto|]. split.
    + intros rho tau x S H. exists tau. auto.
    + intros rho tau x S H. exists tau. auto.
  - assert (Hp' : forall a b, In (a, b) ps -> In a L /\ In b L /\ a <> b) by (intros; apply Hp; right; auto).
    destruct (Hp q q' (or_introl eq_refl)) as (H1 & H2 & Hne).
    destruct (mem q same) eqn:M1; cbn [orb]; [apply IH; auto|]. destruct (mem q' same) eqn:M2; cbn [orb]; [apply IH; auto|].
    assert (M1' : ~ In q same) by (intros H; apply mem_In in H; congruence). assert (M2' : ~ In q' same) by (intros H; apply mem_In in H; congruence).
    assert (M := match_ok s q q' I (HL _ H1) (HL _ H2)). unfold hbind at 1.
    destruct (repr_match q q' s) as [s1 [[]|e]].
    2:{ destruct M as [-> M]; split; [auto|]; intros rho tau x S A; apply (M rho tau S). rewrite !A; auto. }
    destruct M as (X1 & K1 & Y1 & R1). assert (I1 : sinv s1) by apply X1. assert (N1 : nrep s1 = nrep s) by apply X1. assert (V1 : nvar s <= nvar s1) by apply X1. assert (E1 : evolves (us s) (us s1)) by apply X1.
    unfold hbind at 1, hgets. destruct (resolved s1 q q') eqn:Er.
    + destruct (clear_ok q' s1 I1) as (s2 & E2 & I2 & S2 & N2 & V2 & R2). unfold hbind. rewrite E2.
      assert (DD := fun rho tau x (H : x <> q') => f_equal (dshape rho tau) (R2 x H)).
      assert (G := IH (same ++ [q']) s2 I2). assert (SA : forall x, ~ In x (same ++ [q']) <-> ~ In x same /\ x <> q').
      { intros x. rewrite in_app_iff. cbn. intuition congruence. }
      destruct (combine_loop ps (same ++ [q']) s2) as [s3 [same'|e]].
      * destruct G as (I3 & N3 & V3 & E3 & In1 & In2 & F & Bk); [intros x Hx; rewrite N2, N1; auto|auto|].
        split; [auto|]. split; [congruence|]. split; [lia|]. split; [eapply evolves_trans; [exact E1|]; eapply evolves_trans; [apply S2|auto]|].
        split; [intros x Hx; apply In1, in_app_iff; auto|]. split; [intros x Hx; apply In2 in Hx as [Hx|Hx]; [apply in_app_iff in Hx as [Hx|[<-|[]]]; auto|auto]|].
        assert (Nq' : In q' same') by (apply In1, in_app_iff; right; left; auto). split.
        -- intros rho tau x S A. destruct (K1 rho tau S) as (t1 & S1 & _ & D1); [rewrite !A; auto|].
           destruct (F rho t1 x) as (t3 & S3 & D3); [apply S2; auto| |].
           { intros y Hy Hn. apply SA in Hn as [Hn Hn']. unfold den. rewrite DD by auto. change (den s1 rho t1 y = x). rewrite D1 by auto. auto. }
           exists t3. split; [auto|]. intros y Hy Hn. rewrite D3 by (auto || lia). unfold den at 1. rewrite DD by (intros ->; contradiction). apply D1; auto.
        -- intros rho t3 x S3 A. destruct (Bk rho t3 x S3 A) as (t2 & S2' & D2 & A2). destruct (R1 (or_introl eq_refl) rho t2) as (t0 & S0 & D0 & Q0); [apply S2; auto|].
           assert (D02 : forall y, y < nrep s -> y <> q' -> den s rho t0 y = den s2 rho t2 y). { intros y Hy Hn. rewrite D0 by auto. unfold den. rewrite DD by auto. auto. }
           exists t0. split; [auto|]. split.
           { intros y Hy Hn. rewrite D02; [|auto|intros ->; contradiction]. apply D2; [lia|auto]. }
           intros y Hy Hn. destruct (Nat.eq_dec y q') as [->|Nyq'].
           ++ rewrite <- Q0. rewrite D02 by auto. apply A2; auto. apply SA. auto.
           ++ rewrite D02 by auto. apply A2; auto. apply SA. auto.
      * destruct G as [-> G]; [intros x Hx; rewrite N2, N1; auto|auto|]. split; [auto|]. intros rho tau x S A.
        destruct (K1 rho tau S) as (t1 & S1 & _ & D1); [rewrite !A; auto|]. apply (G rho t1 x); [apply S2; auto|]. intros y Hy Hn. apply SA in Hn as [Hn Hn'].
        unfold den. rewrite DD by auto. change (den s1 rho t1 y = x). rewrite D1 by auto. auto.
    + assert (G := IH same s1 I1). destruct (combine_loop ps same s1) as [s3 [same'|e]].
      * destruct G as (I3 & N3 & V3 & E3 & In1 & In2 & F & Bk); [intros x Hx; rewrite N1; auto|auto|].
        split; [auto|]. split; [congruence|]. split; [lia|]. split; [eapply evolves_trans; eauto|]. split; [auto|]. split; [auto|]. split.
        -- intros rho tau x S A. destruct (K1 rho tau S) as (t1 & S1 & _ & D1); [rewrite !A; auto|].
           destruct (F rho t1 x) as (t3 & S3 & D3); [auto|intros y Hy Hn; rewrite D1 by auto; auto|]. exists t3. split; [auto|]. intros y Hy Hn. rewrite D3 by (auto || lia). apply D1; auto.
        -- intros rho t3 x S3 A. destruct (Bk rho t3 x S3 A) as (t1 & S1 & D1 & A1). destruct (Y1 rho t1 S1) as (t0 & S0 & D0 & _). exists t0. split; [auto|]. split.
           ++ intros y Hy Hn. rewrite D0 by auto. apply D1; [lia|auto].
           ++ intros y Hy Hn. rewrite D0 by auto. auto.
      * destruct G as [-> G]; [intros x Hx; rewrite N1; auto|auto|]. split; [auto|]. intros rho tau x S A.
        destruct (K1 rho tau S) as (t1 & S1 & _ & D1); [rewrite !A; auto|]. apply (G rho t1 x S1). intros y Hy Hn. rewrite D1 by auto. auto.
Qed.
Lemma in_pairs a b l : In (a, b) (pairs l) -> In a l /\ In b l /\ (NoDup l -> a <> b).
Proof.
  induction l as [|x l IH]; cbn [pairs]; [intros []|]. rewrite in_app_iff, in_map_iff. intros [(y & E & H)|H].
  - injection E as -> ->. split; [left; auto|]. split; [right; auto|]. intros ND ->. inversion ND; auto.
  - destruct (IH H) as (H1 & H2 & H3). split; [right; auto|]. split; [right; auto|]. intros ND. inversion ND; auto.
Qed.
