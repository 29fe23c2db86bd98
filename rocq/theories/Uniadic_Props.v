(** * C21, C22, C48: what is known about a symbolic dimension *)
From Coq Require Import List Arith Lia Bool ZArith Relations Permutation.
From Verif Require Import PyBase Uniadic_Model Uniadic_Proofs.
Import ListNotations.
Open Scope list_scope. Open Scope nat_scope. Open Scope sm_scope.

(** ** C21: recording sets of possible sizes for one dimension *)
(** A program that records several facts about dimension [u]; an exception ends it. *)
Fixpoint record_all (u : nat) (vs : list (option zset)) : sm unit :=
  match vs with
  | [] => ret tt
  | v :: vs => do _ <- update_possible_values u v; record_all u vs
  end.

Lemma record_all_ok u vs : forall s, inv s -> live s u -> (forall v, In v vs -> is_set v) ->
  match record_all u vs s with
  | (s', Ok _) => inv s' /\ live s' u /\ forall n, in_pv n (possible_values s' u) <-> in_pv n (possible_values s u) /\ forall v, In v vs -> in_pv n v
  | (_, Err e) => e = ValueError /\ forall n, ~ (in_pv n (possible_values s u) /\ forall v, In v vs -> in_pv n v)
  end.
Proof.
  induction vs as [|v vs IH]; intros s I L S; cbn [record_all].
  - cbn. split; auto. split; auto. intros n. split; [|tauto]. intros H; split; auto. intros v [].
  - unfold sbind. assert (U := update_imposes s u v I L (S v (or_introl eq_refl))).
    assert (D := update_details s u v I L (S v (or_introl eq_refl))).
    destruct (update_possible_values u v s) as [s1 [a|e]] eqn:E.
    + destruct (imposes_ok _ _ _ _ _ U E) as (I1 & _ & L1 & _ & _). destruct D as (D1 & _).
      destruct (updated_ok _ _ _ D1 (i_pv _ I _) (S v (or_introl eq_refl))) as [_ H1].
      assert (L1' : live s1 u) by (apply L1; auto).
      specialize (IH s1 I1 L1' (fun w Hw => S w (or_intror Hw))).
      destruct (record_all u vs s1) as [s2 [[]|e]].
      * destruct IH as (I2 & L2 & H2). split; auto. split; auto. intros n. rewrite H2, H1. split.
        -- intros [[Ha Hb] Hc]. split; auto. intros w [<-|Hw]; auto.
        -- intros [Ha Hb]. split; [split; [auto | apply Hb; left; auto] | intros w Hw; apply Hb; right; auto].
      * destruct IH as [-> H2]. split; auto. intros n [Ha Hb]. apply (H2 n). split.
        -- apply H1. split; [auto | apply Hb; left; auto].
        -- intros w Hw. apply Hb. right; auto.
    + destruct D as [_ D]. destruct (updated_err _ _ _ D) as [-> He]. split; auto. intros n [Ha Hb]. apply (He n). split; [auto|].
      apply Hb. left; auto.
Qed.

(** A new dimension about which nothing is known. *)
Definition fresh_state : ustate := fst (new_uniadic None no_uniadics).
Lemma inv_nil : inv no_uniadics.
Proof. split; cbn; [lia | intros r u [] | auto]. Qed.
Lemma fresh_inv : inv fresh_state /\ live fresh_state 0.
Proof.
  split; [split|]; cbn.
  - intros u Hu. unfold upd. destruct (u =? 0); lia.
  - intros r u. unfold upd. destruct (Nat.eqb_spec r 0) as [->|]; cbn; [|tauto]. intros [<-|[]]. auto.
  - intros r. unfold upd. destruct (r =? 0); cbn; auto.
  - split; cbn; [lia|auto].
Qed.

(** The recorded sets, in any order: the allowed sizes are exactly the common ones; an exception is raised exactly when there
    is no common size; the size is reported as known exactly when one candidate remains. *)
Theorem C21_intersection : forall vs, (forall v, In v vs -> is_set v) ->
  ((exists e, snd (record_all 0 vs fresh_state) = Err e) <-> ~ exists n, forall v, In v vs -> in_pv n v) /\
  (forall e, snd (record_all 0 vs fresh_state) = Err e -> e = ValueError) /\
  (snd (record_all 0 vs fresh_state) = Ok tt ->
     (forall n, in_pv n (possible_values (fst (record_all 0 vs fresh_state)) 0) <-> forall v, In v vs -> in_pv n v) /\
     (forall n, value (fst (record_all 0 vs fresh_state)) 0 = Some n <-> forall m, (forall v, In v vs -> in_pv m v) <-> m = n)).
Proof.
  intros vs S. destruct fresh_inv as [I L]. assert (H := record_all_ok 0 vs fresh_state I L S).
  change (possible_values fresh_state 0) with (@None zset) in H. cbn [in_pv] in H.
  destruct (record_all 0 vs fresh_state) as [s' [[]|e]]; cbn [fst snd].
  - destruct H as (I' & L' & H). assert (H' : forall n, in_pv n (possible_values s' 0) <-> forall v, In v vs -> in_pv n v) by (intros n; rewrite H; tauto).
    split; [|split; [discriminate|]].
    + split; [intros [e X]; discriminate|]. intros N. exfalso. destruct (wf_inhabited _ (i_pv _ I' (meta s' 0))) as [n Hn].
      apply N. exists n. apply H'. exact Hn.
    + intros _. split; auto. intros n. unfold value. rewrite (value_of_spec _ n (i_pv _ I' (meta s' 0))).
      change (pv (recs s' (meta s' 0))) with (possible_values s' 0). split.
      * intros [_ G] m. rewrite <- H'. auto.
      * intros G. split; [|intros m; rewrite H'; auto].
        intros E. assert (A : (n + 1)%Z = n). { apply G. apply H'. rewrite E. exact Logic.I. } lia.
  - destruct H as [-> H]. split; [|split; [intros e [= <-]; auto | discriminate]].
    split; [|intros _; eauto]. intros _ [n Hn]. apply (H n). auto.
Qed.

(** The result does not depend on the order. *)
Theorem C21_order_independent : forall vs ws, (forall v, In v vs -> is_set v) -> Permutation vs ws ->
  snd (record_all 0 vs fresh_state) = snd (record_all 0 ws fresh_state) /\
  (snd (record_all 0 vs fresh_state) = Ok tt ->
     value (fst (record_all 0 vs fresh_state)) 0 = value (fst (record_all 0 ws fresh_state)) 0 /\
     forall n, in_pv n (possible_values (fst (record_all 0 vs fresh_state)) 0) <-> in_pv n (possible_values (fst (record_all 0 ws fresh_state)) 0)).
Proof.
  intros vs ws Sv P.
  assert (Hin : forall v, In v vs <-> In v ws) by (intros v; split; apply Permutation_in; auto using Permutation_sym).
  assert (Sw : forall v, In v ws -> is_set v) by (intros v Hv; apply Sv, Hin; auto).
  destruct (C21_intersection vs Sv) as (A1 & A2 & A3). destruct (C21_intersection ws Sw) as (B1 & B2 & B3).
  assert (Q : (exists n, forall v, In v vs -> in_pv n v) <-> (exists n, forall v, In v ws -> in_pv n v)).
  { split; intros [n Hn]; exists n; intros v Hv; apply Hn, Hin; auto. }
  destruct (snd (record_all 0 vs fresh_state)) as [[]|e] eqn:E; destruct (snd (record_all 0 ws fresh_state)) as [[]|e'] eqn:E'.
  - split; auto. intros _. destruct (A3 eq_refl) as [PA VA]. destruct (B3 eq_refl) as [PB VB]. split.
    + assert (V : forall n, value (fst (record_all 0 vs fresh_state)) 0 = Some n <-> value (fst (record_all 0 ws fresh_state)) 0 = Some n).
      { intros n. rewrite VA, VB. split; intros H m; rewrite <- H; split; intros G v Hv; apply G, Hin; auto. }
      destruct (value (fst (record_all 0 vs fresh_state)) 0) as [n|].
      * symmetry. apply V. auto.
      * destruct (value (fst (record_all 0 ws fresh_state)) 0) as [n|]; auto. apply V. auto.
    + intros n. rewrite PA, PB. split; intros G v Hv; apply G, Hin; auto.
  - exfalso. assert (X : ~ exists n, forall v, In v ws -> in_pv n v) by (apply B1; eauto).
    rewrite <- Q in X. apply A1 in X as [e X]. discriminate.
  - exfalso. assert (X : ~ exists n, forall v, In v vs -> in_pv n v) by (apply A1; eauto).
    rewrite Q in X. apply B1 in X as [e' X]. discriminate.
  - rewrite (A2 e eq_refl), (B2 e' eq_refl). split; [auto|discriminate].
Qed.

(** Knowledge never grows back: a size excluded once stays excluded. *)
Theorem C21_monotone : forall vs ws n, (forall v, In v (vs ++ ws) -> is_set v) ->
  snd (record_all 0 (vs ++ ws) fresh_state) = Ok tt ->
  in_pv n (possible_values (fst (record_all 0 (vs ++ ws) fresh_state)) 0) ->
  snd (record_all 0 vs fresh_state) = Ok tt /\ in_pv n (possible_values (fst (record_all 0 vs fresh_state)) 0).
Proof.
  intros vs ws n S E H.
  assert (S1 : forall v, In v vs -> is_set v) by (intros; apply S; apply in_or_app; auto).
  destruct (C21_intersection _ S) as (_ & _ & A3). destruct (A3 E) as [A _].
  assert (Hn := proj1 (A n) H).
  destruct (C21_intersection _ S1) as (B1 & _ & B3).
  destruct (snd (record_all 0 vs fresh_state)) as [[]|e] eqn:E1.
  - split; auto. apply (B3 eq_refl). intros v Hv. apply Hn. apply in_or_app; auto.
  - exfalso. assert (X : ~ exists n, forall v, In v vs -> in_pv n v) by (apply B1; eauto). apply X. exists n.
    intros v Hv. apply Hn. apply in_or_app; auto.
Qed.

Example C21_example :
  value (fst (record_all 0 [Some [2;3;4]%Z; None; Some [5;3]%Z] fresh_state)) 0 = Some 3%Z /\
  snd (record_all 0 [Some [2;3]%Z; Some [4]%Z] fresh_state) = Err ValueError /\
  (forall v, In v [Some [2;3;4]%Z; None; Some [5;3]%Z] -> is_set v).
Proof.
  split; [reflexivity|]. split; [reflexivity|].
  intros v [<-|[<-|[<-|[]]]]; cbn; auto; repeat constructor; cbn; intuition discriminate.
Qed.

(** ** C22: unified dimensions *)
(** What was said so far about the dimensions. *)
Inductive fact := FIn (u : nat) (vals : option zset) | FEq (u v : nat).
Definition holds (rho : nat -> Z) (f : fact) : Prop :=
  match f with FIn u vals => in_pv (rho u) vals | FEq u v => rho u = rho v end.
Definition all_hold (h : list fact) (rho : nat -> Z) : Prop := forall f, In f h -> holds rho f.

(** Histories of calls; a call that raises adds no fact.  [live] dimensions are those still referred to by their record;
    all are, until the solver reduces the referees of a record. *)
Inductive run : list fact -> ustate -> Prop :=
| run_nil : run [] no_uniadics
| run_new h s vals s' u : run h s -> is_set vals -> new_uniadic vals s = (s', Ok u) -> run (h ++ [FIn u vals]) s'
| run_new_err h s vals s' e : run h s -> is_set vals -> new_uniadic vals s = (s', Err e) -> run h s'
| run_update h s u vals s' up : run h s -> live s u -> is_set vals -> update_possible_values u vals s = (s', Ok up) -> run (h ++ [FIn u vals]) s'
| run_update_err h s u vals s' e : run h s -> live s u -> is_set vals -> update_possible_values u vals s = (s', Err e) -> run h s'
| run_match h s u v s' up : run h s -> live s u -> live s v -> uni_match u v s = (s', Ok up) -> run (h ++ [FEq u v]) s'
| run_match_err h s u v s' e : run h s -> live s u -> live s v -> uni_match u v s = (s', Err e) -> run h s'
| run_attach h s u q s' : run h s -> live s u -> attach u q s = (s', Ok tt) -> run h s'
| run_reduce h s u s' : run h s -> live s u -> reduce_referees u s = (s', Ok tt) -> run h s'.

Lemma sat_ext s rho rho' : (forall u, live s u -> rho u = rho' u) -> sat s rho -> sat s rho'.
Proof.
  intros H [H1 H2]. split.
  - intros u L. rewrite <- H; auto.
  - intros u v Lu Lv E. rewrite <- (H u Lu), <- (H v Lv). auto.
Qed.

Lemma new_ok s vals s' u : inv s -> is_set vals -> new_uniadic vals s = (s', Ok u) ->
  u = nu s /\ inv s' /\ (forall x, live s' x <-> live s x \/ x = u) /\ (forall x, live s x -> meta s' x = meta s x) /\ meta s' u = u /\
  ~ live s u /\ (forall x, live s x -> meta s x <> u) /\
  forall rho, sat s' rho <-> sat s rho /\ in_pv (rho u) vals.
Proof.
  intros I S E. unfold new_uniadic in E. destruct (updated None vals) as [p|e] eqn:Eu; [|discriminate].
  injection E as <- <-. destruct (updated_ok _ _ _ Eu Logic.I S) as [Wp Hp]. cbn [in_pv] in Hp.
  set (u := nu s).
  assert (Hf : forall x, x < u -> meta s x < u) by apply (i_meta _ I).
  assert (L : forall x, live (mkst (Datatypes.S u) (upd (meta s) u u) (upd (recs s) u (mkrec p [u] []))) x <-> live s x \/ x = u).
  { intros x. unfold live, upd. cbn [nu meta recs]. destruct (Nat.eqb_spec x u) as [->|N].
    - rewrite Nat.eqb_refl. cbn. split; [auto|]. intros _. split; [lia|auto].
    - destruct (Nat.eqb_spec (meta s x) u) as [Em|Em].
      + cbn. split.
        * intros [Hx [?|[]]]. congruence.
        * intros [[Hx Hin]|?]; [|congruence]. apply Hf in Hx. lia.
      + fold u. split; [|intros [?|?]; [intuition lia|congruence]]. intros [Hx Hin]. left. split; auto. lia. }
  split; auto. split; [|split; [exact L|]].
  { split; cbn [nu meta recs].
    - intros x Hx. unfold upd. destruct (Nat.eqb_spec x u) as [->|]; [lia|]. assert (meta s x < u) by (apply Hf; lia). lia.
    - intros r x. unfold upd. destruct (Nat.eqb_spec r u) as [->|N]; cbn.
      + intros [<-|[]]. rewrite Nat.eqb_refl. split; [lia|auto].
      + intros Hin. destruct (i_refs _ I _ _ Hin) as [Hx Em]. fold u in Hx. destruct (Nat.eqb_spec x u); [lia|]. split; [lia|auto].
    - intros r. unfold upd. destruct (r =? u); cbn; auto. apply (i_pv _ I). }
  assert (Hm : forall x, live s x -> upd (meta s) u u x = meta s x).
  { intros x [Hx _]. apply upd_other. fold u in Hx. lia. }
  assert (Hn : forall x, live s x -> meta s x <> u). { intros x [Hx _]. apply Hf in Hx. lia. }
  split; [exact Hm|]. split; [apply upd_same|]. split; [intros [Hx _]; fold u in Hx; lia|]. split; [exact Hn|].
  intros rho. unfold sat, possible_values. cbn [meta recs]. split.
  - intros [H1 H2]. split; [split|].
    + intros x Lx. specialize (H1 x (proj2 (L x) (or_introl Lx))). cbn [meta recs] in H1. rewrite (Hm x Lx) in H1. rewrite upd_other in H1; auto.
    + intros x y Lx Ly Em. apply H2; [apply L; auto | apply L; auto|]. rewrite (Hm x Lx), (Hm y Ly). auto.
    + specialize (H1 u (proj2 (L u) (or_intror eq_refl))). cbn [meta recs] in H1. rewrite !upd_same in H1. cbn in H1. apply Hp in H1. tauto.
  - intros [[H1 H2] Hu]. split.
    + intros x Lx. apply L in Lx as [Lx|Lx]; [|subst x].
      * rewrite (Hm x Lx), upd_other by auto. auto.
      * rewrite !upd_same. cbn. apply Hp. auto.
    + intros x y Lx Ly Em. apply L in Lx as [Lx|Lx], Ly as [Ly|Ly]; subst; auto.
      * rewrite (Hm x Lx), (Hm y Ly) in Em. auto.
      * rewrite (Hm x Lx), upd_same in Em. exfalso. apply (Hn x Lx); auto.
      * rewrite (Hm y Ly), upd_same in Em. exfalso. apply (Hn y Ly); auto.
Qed.

Lemma attach_ok s u q : inv s -> live s u ->
  inv (fst (attach u q s)) /\ (forall x, live (fst (attach u q s)) x <-> live s x) /\
  (forall rho, sat (fst (attach u q s)) rho <-> sat s rho) /\ meta (fst (attach u q s)) = meta s.
Proof.
  intros I L. unfold attach. cbn [fst].
  set (R := mkrec _ _ _).
  assert (Hr : forall x, refs (upd (recs s) (meta s u) R x) = refs (recs s x)).
  { intros x. unfold upd. destruct (Nat.eqb_spec x (meta s u)) as [->|]; auto. }
  assert (Hp : forall x, pv (upd (recs s) (meta s u) R x) = pv (recs s x)).
  { intros x. unfold upd. destruct (Nat.eqb_spec x (meta s u)) as [->|]; auto. }
  assert (HL : forall x, live (set_rec s (meta s u) R) x <-> live s x).
  { intros x. unfold live, set_rec. cbn [nu meta recs]. rewrite Hr. tauto. }
  split; [|split; [exact HL|split; [|auto]]].
  - split; unfold set_rec; cbn [nu meta recs].
    + apply (i_meta _ I).
    + intros r x. rewrite Hr. apply (i_refs _ I).
    + intros r. rewrite Hp. apply (i_pv _ I).
  - intros rho. unfold sat, possible_values. unfold set_rec at 2 4 5 6. cbn [meta recs]. 
    split; intros [H1 H2]; split.
    + intros x Lx. rewrite <- Hp. apply H1. apply HL; auto.
    + intros x y Lx Ly. apply H2; apply HL; auto.
    + intros x Lx. rewrite Hp. apply H1. apply HL; auto.
    + intros x y Lx Ly. apply H2; apply HL; auto.
Qed.

Lemma reduce_ok s u : inv s -> live s u -> let s' := fst (reduce_referees u s) in
  inv s' /\ meta s' = meta s /\ (forall x, live s' x <-> live s x /\ (meta s x = meta s u -> x = u)) /\ (forall x, possible_values s' x = possible_values s x).
Proof.
  intros I L s'. unfold s', reduce_referees. cbn [fst].
  set (R := mkrec _ _ _).
  assert (Hp : forall x, pv (upd (recs s) (meta s u) R x) = pv (recs s x)).
  { intros x. unfold upd. destruct (Nat.eqb_spec x (meta s u)) as [->|]; auto. }
  split; [|split; [auto|split]].
  - split; unfold set_rec; cbn [nu meta recs].
    + apply (i_meta _ I).
    + intros r x. unfold upd. destruct (Nat.eqb_spec r (meta s u)) as [->|N]; [|apply (i_refs _ I)].
      cbn. intros [<-|[]]. split; [apply L|auto].
    + intros r. rewrite Hp. apply (i_pv _ I).
  - intros x. unfold live, set_rec, upd. cbn [nu meta recs]. destruct (Nat.eqb_spec (meta s x) (meta s u)) as [E|E]; cbn.
    + split.
      * intros [Hx [Hu|[]]]. subst x. split; [exact L|auto].
      * intros [[Hx Hin] Hu]. split; [exact Hx|]. left. symmetry. auto.
    + split; [intros H; split; [auto|contradiction] | tauto].
  - intros x. unfold possible_values, set_rec. cbn [meta recs]. apply Hp.
Qed.

Lemma run_inv h s : run h s -> inv s.
Proof.
  induction 1 as [|h s vals s' u R IH Sv E|h s vals s' e R IH Sv E|h s u vals s' up R IH L Sv E|h s u vals s' e R IH L Sv E
    |h s u v s' up R IH Lu Lv E|h s u v s' e R IH Lu Lv E|h s u q s' R IH L E|h s u s' R IH L E].
  - apply inv_nil.
  - eapply new_ok in E; eauto. tauto.
  - unfold new_uniadic in E. destruct (updated None vals); [discriminate|]. injection E as <- _. auto.
  - assert (H := update_imposes s u vals IH L Sv). unfold imposes in H. rewrite E in H. apply H.
  - assert (H := update_imposes s u vals IH L Sv). unfold imposes in H. rewrite E in H. apply H.
  - destruct (uni_match_imposes s u v IH Lu Lv) as [H _]. unfold imposes in H. rewrite E in H. apply H.
  - destruct (uni_match_imposes s u v IH Lu Lv) as [H _]. unfold imposes in H. rewrite E in H. apply H.
  - assert (H := attach_ok s u q IH L). rewrite E in H. apply H.
  - assert (H := reduce_ok s u IH L). rewrite E in H. apply H.
Qed.

Lemma all_hold_app h f rho : all_hold (h ++ [f]) rho <-> all_hold h rho /\ holds rho f.
Proof.
  unfold all_hold. split.
  - intros H. split; [intros g Hg; apply H; apply in_or_app; auto | apply H; apply in_or_app; right; left; auto].
  - intros [H1 H2] g Hg. apply in_app_iff in Hg as [Hg|[<-|[]]]; auto.
Qed.

(** The uniadics mentioned in a history have been created. *)
Definition bounded (h : list fact) (n : nat) : Prop := forall f, In f h -> match f with FIn u _ => u < n | FEq u v => u < n /\ v < n end.
Lemma run_bounded h s : run h s -> bounded h (nu s).
Proof.
  assert (Ext : forall h f n, bounded h n -> match f with FIn u _ => u < n | FEq u v => u < n /\ v < n end -> bounded (h ++ [f]) n).
  { intros h0 f n B F g Hg. apply in_app_iff in Hg as [Hg|[<-|[]]]; [exact (B g Hg)|exact F]. }
  induction 1 as [|h s vals s' u R IH Sv E|h s vals s' e R IH Sv E|h s u vals s' up R IH L Sv E|h s u vals s' e R IH L Sv E
    |h s u v s' up R IH Lu Lv E|h s u v s' e R IH Lu Lv E|h s u q s' R IH L E|h s u s' R IH L E]; try assert (I := run_inv _ _ R).
  - intros f [].
  - unfold new_uniadic in E. destruct (updated None vals); [|discriminate]. injection E as <- <-. apply Ext; [|cbn; lia].
    intros f Hf. specialize (IH f Hf). cbn. destruct f; lia.
  - unfold new_uniadic in E. destruct (updated None vals); [discriminate|]. injection E as <- _. auto.
  - assert (H := update_imposes s u vals I L Sv). unfold imposes in H. rewrite E in H. destruct H as (_ & N & _). cbn [fst] in N. rewrite N. apply Ext; auto. apply L.
  - assert (H := update_imposes s u vals I L Sv). unfold imposes in H. rewrite E in H. destruct H as (_ & N & _). cbn [fst] in N. rewrite N. auto.
  - destruct (uni_match_imposes s u v I Lu Lv) as [H _]. unfold imposes in H. rewrite E in H. destruct H as (_ & N & _). cbn [fst] in N. rewrite N. apply Ext; auto.
    split; [apply Lu | apply Lv].
  - destruct (uni_match_imposes s u v I Lu Lv) as [H _]. unfold imposes in H. rewrite E in H. destruct H as (_ & N & _). cbn [fst] in N. rewrite N. auto.
  - unfold attach in E. injection E as <-. auto.
  - unfold reduce_referees in E. injection E as <-. auto.
Qed.
Lemma all_hold_ext h n rho rho' : bounded h n -> (forall u, u < n -> rho u = rho' u) -> all_hold h rho -> all_hold h rho'.
Proof.
  intros B E H f Hf. specialize (B f Hf). specialize (H f Hf). destruct f as [u p|u v]; cbn in *.
  - rewrite <- E; auto.
  - destruct B. rewrite <- (E u), <- (E v); auto.
Qed.

(** The state describes exactly the sizes that are consistent with everything said so far. *)
Theorem C22_denotation : forall h s rho, run h s ->
  sat s rho <-> exists rho', (forall u, live s u -> rho' u = rho u) /\ all_hold h rho'.
Proof.
  intros h s rho R. revert rho.
  induction R as [|h s vals s' u R IH Sv E|h s vals s' e R IH Sv E|h s u vals s' up R IH L Sv E|h s u vals s' e R IH L Sv E
    |h s u v s' up R IH Lu Lv E|h s u v s' e R IH Lu Lv E|h s u q s' R IH L E|h s u s' R IH L E]; intros rho; try assert (I := run_inv _ _ R).
  - split; [|intros _; split; [intros u [H _]; cbn in H; lia | intros u v [H _]; cbn in H; lia]].
    intros _. exists rho. split; auto. intros f [].
  - destruct (new_ok _ _ _ _ I Sv E) as (Hu & _ & L' & _ & _ & Nu & _ & S'). rewrite S', IH. split.
    + intros [(rho' & Ha & Hh) Hv]. exists (fun x => if x =? u then rho u else rho' x). split.
      * intros x Hx. destruct (Nat.eqb_spec x u) as [->|]; auto. apply L' in Hx as [Hx|?]; [auto|congruence].
      * apply all_hold_app. split; [|cbn; rewrite Nat.eqb_refl; auto].
        eapply all_hold_ext; [apply (run_bounded _ _ R)| |exact Hh]. intros x Hx. cbn. destruct (Nat.eqb_spec x u); auto. lia.
    + intros (rho' & Ha & Hh). apply all_hold_app in Hh as [Hh Hv]. split.
      * exists rho'. split; auto. intros x Hx. apply Ha. apply L'; auto.
      * cbn in Hv. rewrite <- Ha; auto. apply L'; auto.
  - unfold new_uniadic in E. destruct (updated None vals); [discriminate|]. injection E as <- _. apply IH.
  - destruct (imposes_ok _ _ _ _ _ (update_imposes s u vals I L Sv) E) as (_ & _ & L' & _ & S'). rewrite S', IH. split.
    + intros [(rho' & Ha & Hh) Hv]. exists rho'. split; [intros x Hx; apply Ha, L'; auto|]. apply all_hold_app. split; auto. cbn. rewrite Ha; auto.
    + intros (rho' & Ha & Hh). apply all_hold_app in Hh as [Hh Hv]. split; [exists rho'; split; auto; intros x Hx; apply Ha, L'; auto|].
      cbn in Hv. rewrite Ha in Hv; auto. apply L'; auto.
  - assert (H := update_imposes s u vals I L Sv). unfold imposes in H. rewrite E in H. destruct H as (_ & _ & _ & _ & _ & F & _). cbn in F. subst s'. apply IH.
  - destruct (imposes_ok _ _ _ _ _ (proj1 (uni_match_imposes s u v I Lu Lv)) E) as (_ & _ & L' & _ & S'). rewrite S', IH. split.
    + intros [(rho' & Ha & Hh) Hv]. exists rho'. split; [intros x Hx; apply Ha, L'; auto|]. apply all_hold_app. split; auto. cbn. rewrite !Ha; auto.
    + intros (rho' & Ha & Hh). apply all_hold_app in Hh as [Hh Hv]. split; [exists rho'; split; auto; intros x Hx; apply Ha, L'; auto|].
      cbn in Hv. rewrite !Ha in Hv; auto; apply L'; auto.
  - destruct (uni_match_imposes s u v I Lu Lv) as [H _]. unfold imposes in H. rewrite E in H. destruct H as (_ & _ & _ & _ & _ & F & _). cbn in F. subst s'. apply IH.
  - assert (H := attach_ok s u q I L). rewrite E in H. cbn [fst] in H. destruct H as (_ & L' & S' & _). rewrite S', IH.
    split; intros (rho' & Ha & Hh); exists rho'; (split; [intros x Hx; apply Ha, L'; auto | auto]).
  - assert (H := reduce_ok s u I L). rewrite E in H. cbn [fst] in H. destruct H as (_ & Hm & L' & P').
    assert (Lu : live s' u) by (apply L'; auto).
    split.
    + intros [H1 H2]. set (rho1 := fun x => if meta s x =? meta s u then rho u else rho x).
      assert (S1 : sat s rho1).
      { split.
        - intros x Hx. unfold rho1. destruct (Nat.eqb_spec (meta s x) (meta s u)) as [Ex|Ex].
          + specialize (H1 u Lu). rewrite P' in H1. unfold possible_values in *. rewrite Ex. auto.
          + rewrite <- P'. apply H1. apply L'. split; auto. congruence.
        - intros x y Hx Hy Em. unfold rho1. rewrite Em. destruct (Nat.eqb_spec (meta s y) (meta s u)) as [Ey|Ey]; auto.
          apply H2; [apply L'; split; [auto|congruence] | apply L'; split; [auto|congruence] | rewrite Hm; auto]. }
      apply IH in S1 as (rho' & Ha & Hh). exists rho'. split; auto. intros x Hx. apply L' in Hx as [Hx Hu]. rewrite (Ha x Hx).
      unfold rho1. destruct (Nat.eqb_spec (meta s x) (meta s u)) as [Ex|Ex]; auto. rewrite (Hu Ex). auto.
    + intros (rho' & Ha & Hh). assert (S1 : sat s rho') by (apply IH; exists rho'; auto).
      apply (sat_ext s' rho'); auto. destruct S1 as [H1 H2]. split.
      * intros x Hx. rewrite P'. apply H1. apply L'; auto.
      * intros x y Hx Hy Em. rewrite Hm in Em. apply H2; auto; apply L'; auto.
Qed.

(** What a dimension reports: exactly the sizes possible under all that was said; known iff they force one size. *)
Theorem C22_possible_values : forall h s u n, run h s -> live s u ->
  in_pv n (possible_values s u) <-> exists rho, all_hold h rho /\ rho u = n.
Proof.
  intros h s u n R L. assert (I := run_inv _ _ R). split.
  - intros H. destruct (sat_with s u n I L H) as (rho & Hs & E). apply (C22_denotation _ _ _ R) in Hs as (rho' & Ha & Hh).
    exists rho'. split; auto. rewrite Ha; auto.
  - intros (rho & Hh & <-). assert (S : sat s rho) by (apply (C22_denotation _ _ _ R); exists rho; auto). apply S; auto.
Qed.
Theorem C22_value : forall h s u n, run h s -> live s u ->
  value s u = Some n <-> forall rho, all_hold h rho -> rho u = n.
Proof.
  intros h s u n R L. assert (I := run_inv _ _ R). unfold value. rewrite (value_of_spec (possible_values s u) n (i_pv _ I _)). split.
  - intros [_ H] rho Hh. apply H. eapply C22_possible_values; eauto.
  - intros H.
    assert (G : forall m, in_pv m (possible_values s u) -> m = n).
    { intros m Hm. apply (C22_possible_values _ _ _ _ R L) in Hm as (rho & Hh & <-). auto. }
    split.
    + intros E. rewrite E in G. assert (n + 1 = n)%Z by (apply G; exact Logic.I). lia.
    + intros m. split; auto. intros ->. destruct (wf_inhabited _ (i_pv _ I (meta s u))) as [k Hk].
      change (pv (recs s (meta s u))) with (possible_values s u) in Hk. rewrite <- (G k Hk). auto.
Qed.
(** A call raises exactly when it contradicts what was said, and then changes nothing. *)
Theorem C22_error : forall h s u v vals, run h s -> live s u -> live s v -> is_set vals ->
  ((exists e, snd (update_possible_values u vals s) = Err e) <-> ~ exists rho, all_hold h rho /\ in_pv (rho u) vals) /\
  (forall e, snd (update_possible_values u vals s) = Err e -> e = ValueError /\ fst (update_possible_values u vals s) = s) /\
  ((exists e, snd (uni_match u v s) = Err e) <-> ~ exists rho, all_hold h rho /\ rho u = rho v) /\
  (forall e, snd (uni_match u v s) = Err e -> e = ValueError /\ fst (uni_match u v s) = s).
Proof.
  intros h s u v vals R Lu Lv Sv. assert (I := run_inv _ _ R).
  assert (G : forall A (m : sm A) C, imposes m C s -> (forall rho rho', (forall x, live s x -> rho' x = rho x) -> C rho -> C rho') ->
     ((exists e, snd (m s) = Err e) <-> ~ exists rho, all_hold h rho /\ C rho) /\ (forall e, snd (m s) = Err e -> e = ValueError /\ fst (m s) = s)).
  { intros A m C H X. unfold imposes in H. destruct (m s) as [s' [a|e]]; cbn [fst snd] in *.
    - split; [|discriminate]. split; [intros [e E]; discriminate|]. intros N. exfalso. destruct H as (I' & _ & _ & _ & S').
      destruct (sat_exists s' I') as [rho Hr]. apply S' in Hr as [Hr HC]. apply (C22_denotation _ _ _ R) in Hr as (rho' & Ha & Hh).
      apply N. exists rho'. split; auto. eapply X; [|exact HC]. auto.
    - destruct H as (_ & _ & _ & _ & -> & -> & H). split; [|intros e [= <-]; auto]. split; [|eauto].
      intros _ (rho & Hh & HC). apply (H rho). split; auto. apply (C22_denotation _ _ _ R). exists rho. auto. }
  destruct (G _ _ _ (update_imposes s u vals I Lu Sv)) as [A1 A2].
  { intros rho rho' E H. rewrite E; auto. }
  destruct (G _ _ _ (proj1 (uni_match_imposes s u v I Lu Lv))) as [B1 B2].
  { intros rho rho' E H. rewrite !E; auto. }
  auto.
Qed.

(** Two dimensions are the same object for the library iff a chain of unifications links them; then they report the same. *)
Definition linked (h : list fact) : nat -> nat -> Prop := clos_refl_sym_trans nat (fun a b => In (FEq a b) h).
Lemma linked_ext h f : (forall u v, f <> FEq u v) -> forall a b, linked (h ++ [f]) a b <-> linked h a b.
Proof.
  intros N a b. split; intros H; induction H as [x y H| |x y _ IH|x y z _ IH1 _ IH2].
  - apply rst_step. apply in_app_iff in H as [H|[H|[]]]; auto. destruct (N _ _ H).
  - apply rst_refl.
  - apply rst_sym; auto.
  - eapply rst_trans; eauto.
  - apply rst_step. apply in_app_iff; auto.
  - apply rst_refl.
  - apply rst_sym; auto.
  - eapply rst_trans; eauto.
Qed.
Lemma linked_match h u v a b : linked (h ++ [FEq u v]) a b <-> linked h a b \/ (linked h a u /\ linked h v b) \/ (linked h a v /\ linked h u b).
Proof.
  split.
  - induction 1 as [x y H|x|x y _ IH|x y z _ IH1 _ IH2].
    + apply in_app_iff in H as [H|[H|[]]]; [left; apply rst_step; auto|]. injection H as <- <-. right; left. split; apply rst_refl.
    + left. apply rst_refl.
    + destruct IH as [H|[[H1 H2]|[H1 H2]]]; [left; apply rst_sym; auto | right; right | right; left]; split; apply rst_sym; auto.
    + destruct IH1 as [H|[[H1 H2]|[H1 H2]]], IH2 as [G|[[G1 G2]|[G1 G2]]].
      * left. eapply rst_trans; eauto.
      * right; left. split; auto. eapply rst_trans; eauto.
      * right; right. split; auto. eapply rst_trans; eauto.
      * right; left. split; auto. eapply rst_trans; eauto.
      * right; left. split; auto.
      * left. eapply rst_trans; eauto.
      * right; right. split; auto. eapply rst_trans; eauto.
      * left. eapply rst_trans; eauto.
      * right; right. split; auto.
  - assert (W : forall x y, linked h x y -> linked (h ++ [FEq u v]) x y).
    { induction 1 as [x y H|x|x y _ IH|x y z _ IH1 _ IH2]; [apply rst_step; apply in_app_iff; auto|apply rst_refl|apply rst_sym; auto|eapply rst_trans; eauto]. }
    assert (E : linked (h ++ [FEq u v]) u v) by (apply rst_step; apply in_app_iff; right; left; auto).
    intros [H|[[H1 H2]|[H1 H2]]]; auto.
    + eapply rst_trans; [apply W; exact H1|]. eapply rst_trans; [exact E|]. apply W; auto.
    + eapply rst_trans; [apply W; exact H1|]. eapply rst_trans; [apply rst_sym; exact E|]. apply W; auto.
Qed.
Lemma linked_bounded h n : bounded h n -> forall a b, linked h a b -> a = b \/ (a < n /\ b < n).
Proof.
  intros B a b H. induction H as [x y H| |x y _ IH|x y z _ IH1 _ IH2]; auto.
  - right. exact (B _ H).
  - destruct IH as [->|[? ?]]; auto.
  - destruct IH1 as [->|[? ?]]; auto. destruct IH2 as [<-|[? ?]]; auto.
Qed.

(** After a successful [uni_match] the records are those of before, with the record of [v] replaced by the one of [u]. *)
Lemma uni_match_classes s u v s' up : inv s -> live s u -> live s v -> uni_match u v s = (s', Ok up) ->
  forall x y, live s x -> live s y ->
  (meta s' x = meta s' y <-> meta s x = meta s y \/ (meta s x = meta s u /\ meta s v = meta s y) \/ (meta s x = meta s v /\ meta s u = meta s y)).
Proof.
  intros I Lu Lv E.
  assert (RM : forall t w, inv t -> (forall x, live t x <-> live s x) -> meta t = meta s -> meta s u <> meta s v ->
     rec_match (meta t u) (meta t v) t = (w, Ok tt) -> forall x, live s x -> meta w x = if meta s x =? meta s v then meta s u else meta s x).
  { intros t w It Lt Mt Hne Em x Lx. unfold rec_match, sbind, gets, rec_update in Em. destruct (updated _ _) as [p|]; [|discriminate].
    injection Em as <-. unfold set_rec. cbn [meta recs nu refs]. rewrite (upd_other _ _ _ (meta t v)) by (rewrite Mt; auto). rewrite fold_upd, Mt.
    destruct (mem_spec x (refs (recs t (meta s v)))) as [H|H].
    - destruct (i_refs _ It _ _ H) as [_ Ex]. rewrite Mt in Ex. rewrite Ex, Nat.eqb_refl. auto.
    - destruct (Nat.eqb_spec (meta s x) (meta s v)) as [Ex|Ex]; auto. exfalso. apply H.
      apply Lt in Lx as [_ Lx]. rewrite Mt, Ex in Lx. exact Lx. }
  unfold uni_match in E. destruct (Nat.eqb_spec (meta s u) (meta s v)) as [Em|Hne].
  { injection E as <- <-. intros x y _ _. split; [tauto|]. intros [H|[[H1 H2]|[H1 H2]]]; congruence. }
  assert (G : (forall x, live s x -> meta s' x = if meta s x =? meta s v then meta s u else meta s x)).
  { cbv zeta in E. revert E. match goal with |- context [oz_eqb _ _ && ?b] => generalize b; intros both end.
    destruct (oz_eqb (value s u) (value s v) && both).
    - unfold sbind, ret. destruct (rec_match (meta s u) (meta s v) s) as [w [[]|e]] eqn:Er; [|discriminate]. intros [= <- _].
      apply (RM s w I (fun x => iff_refl _) eq_refl Hne Er).
    - unfold sbind, gets, ret.
      set (p1 := possible_values s u). set (p2 := possible_values s v).
      assert (W1 : wf_pv p1) by apply (i_pv _ I). assert (W2 : wf_pv p2) by apply (i_pv _ I).
      assert (S1 : is_set p1) by (destruct p1; cbn in *; tauto). assert (S2 : is_set p2) by (destruct p2; cbn in *; tauto).
      assert (U1 := update_imposes s u p2 I Lu S2). assert (D1 := update_details s u p2 I Lu S2).
      destruct (update_possible_values u p2 s) as [s1 [a|e]] eqn:E1; [|discriminate].
      destruct (imposes_ok _ _ _ _ _ U1 E1) as (I1 & _ & L1 & _). destruct D1 as (_ & D12 & _).
      assert (Lv1 : live s1 v) by (apply L1; auto).
      assert (U2 := update_imposes s1 v p1 I1 Lv1 S1). assert (D2 := update_details s1 v p1 I1 Lv1 S1).
      destruct (update_possible_values v p1 s1) as [s2 [b|e]] eqn:E2; [|discriminate].
      destruct (imposes_ok _ _ _ _ _ U2 E2) as (I2 & _ & L2 & _). destruct D2 as (_ & D22 & _).
      destruct (rec_match (meta s2 u) (meta s2 v) s2) as [w [[]|e]] eqn:Er; [|discriminate]. intros [= <- _].
      apply (RM s2 w I2); auto; [intros x; rewrite L2, L1; tauto | congruence]. }
  intros x y Lx Ly. rewrite (G x Lx), (G y Ly).
  destruct (Nat.eqb_spec (meta s x) (meta s v)), (Nat.eqb_spec (meta s y) (meta s v)); split; intros H; try (intuition congruence).
Qed.

Theorem C22_same_dimension : forall h s u v, run h s -> live s u -> live s v ->
  (meta s u = meta s v <-> linked h u v) /\
  (linked h u v -> value s u = value s v /\ possible_values s u = possible_values s v).
Proof.
  intros h s u v R Lu Lv.
  assert (G : forall x y, live s x -> live s y -> (meta s x = meta s y <-> linked h x y)).
  { clear u v Lu Lv.
    induction R as [|h s vals s' u R IH Sv E|h s vals s' e R IH Sv E|h s u vals s' up R IH L Sv E|h s u vals s' e R IH L Sv E
      |h s u v s' up R IH Lu Lv E|h s u v s' e R IH Lu Lv E|h s u q s' R IH L E|h s u s' R IH L E]; intros x y Lx Ly; try assert (I := run_inv _ _ R).
    - destruct Lx as [H _]. cbn in H. lia.
    - destruct (new_ok _ _ _ _ I Sv E) as (Hu & _ & L' & M' & Mu & Nu & Nm & _). rewrite linked_ext by discriminate.
      assert (Bd := linked_bounded _ _ (run_bounded _ _ R)).
      apply L' in Lx as [Lx|Lx], Ly as [Ly|Ly]; subst x || idtac; subst y || idtac.
      + rewrite !M' by auto. apply IH; auto.
      + rewrite M', Mu by auto. split; [intros H; destruct (Nm x Lx H)|]. intros H. destruct (Bd _ _ H) as [->|[_ H2]]; [contradiction|lia].
      + rewrite (M' y), Mu by auto. split; [intros H; destruct (Nm y Ly (eq_sym H))|]. intros H. destruct (Bd _ _ H) as [<-|[H2 _]]; [contradiction|lia].
      + split; auto. intros _. apply rst_refl.
    - unfold new_uniadic in E. destruct (updated None vals); [discriminate|]. injection E as <- _. auto.
    - destruct (imposes_ok _ _ _ _ _ (update_imposes s u vals I L Sv) E) as (_ & _ & L' & _ & _).
      assert (D := update_details s u vals I L Sv). rewrite E in D. destruct D as (_ & -> & _).
      rewrite linked_ext by discriminate. apply IH; apply L'; auto.
    - assert (H := update_imposes s u vals I L Sv). unfold imposes in H. rewrite E in H. destruct H as (_ & _ & _ & _ & _ & F & _). cbn in F. subst s'. auto.
    - destruct (imposes_ok _ _ _ _ _ (proj1 (uni_match_imposes s u v I Lu Lv)) E) as (_ & _ & L' & _ & _). apply L' in Lx, Ly.
      rewrite (uni_match_classes _ _ _ _ _ I Lu Lv E x y Lx Ly), linked_match. rewrite !IH by auto. tauto.
    - destruct (uni_match_imposes s u v I Lu Lv) as [H _]. unfold imposes in H. rewrite E in H. destruct H as (_ & _ & _ & _ & _ & F & _). cbn in F. subst s'. auto.
    - assert (H := attach_ok s u q I L). rewrite E in H. cbn [fst] in H. destruct H as (_ & L' & _ & ->). apply IH; apply L'; auto.
    - assert (H := reduce_ok s u I L). rewrite E in H. cbn [fst] in H. destruct H as (_ & -> & L' & _). apply IH; apply L'; auto. }
  split; [apply G; auto|]. intros H. apply G in H; auto. unfold value, possible_values. rewrite H. auto.
Qed.

(** Histories by computation. *)
Definition live_b (s : ustate) (u : nat) : bool := (u <? nu s) && mem u (refs (recs s (meta s u))).
Fixpoint nodup_z (l : list Z) : bool := match l with [] => true | x :: l => negb (mem x l) && nodup_z l end.
Inductive ucall := CNew (vals : option zset) | CUpd (u : nat) (vals : option zset) | CMatch (u v : nat) | CAttach (u q : nat) | CReduce (u : nat).
Definition set_b (p : option zset) := match p with None => true | Some l => nodup_z l end.
Definition call1 (hs : list fact * ustate) (c : ucall) : option (list fact * ustate) :=
  let (h, s) := hs in
  match c with
  | CNew vals => if set_b vals then match new_uniadic vals s with (s', Ok u) => Some (h ++ [FIn u vals], s') | _ => None end else None
  | CUpd u vals => if live_b s u && set_b vals then match update_possible_values u vals s with (s', Ok _) => Some (h ++ [FIn u vals], s') | _ => None end else None
  | CMatch u v => if live_b s u && live_b s v then match uni_match u v s with (s', Ok _) => Some (h ++ [FEq u v], s') | _ => None end else None
  | CAttach u q => if live_b s u then match attach u q s with (s', Ok tt) => Some (h, s') | _ => None end else None
  | CReduce u => if live_b s u then match reduce_referees u s with (s', Ok tt) => Some (h, s') | _ => None end else None
  end.
Fixpoint calls (cs : list ucall) (hs : list fact * ustate) : option (list fact * ustate) :=
  match cs with [] => Some hs | c :: cs => match call1 hs c with Some hs' => calls cs hs' | None => None end end.
Lemma live_b_spec s u : live_b s u = true -> live s u.
Proof. unfold live_b, live. intros H. apply andb_prop in H as [H1 H2]. apply Nat.ltb_lt in H1. apply mem_In in H2. auto. Qed.
Lemma set_b_spec p : set_b p = true -> is_set p.
Proof.
  destruct p as [l|]; cbn; auto. induction l as [|x l IH]; [constructor|]. cbn. intros H. apply andb_prop in H as [H1 H2]. constructor; auto.
  intros H. apply mem_In in H. rewrite H in H1. discriminate.
Qed.
Lemma calls_run cs : forall h s h' s', run h s -> calls cs (h, s) = Some (h', s') -> run h' s'.
Proof.
  induction cs as [|c cs IH]; intros h s h' s' R; [cbn; intros [= <- <-]; auto|]. cbn [calls].
  destruct (call1 (h, s) c) as [[h1 s1]|] eqn:E; [|discriminate]. apply IH. clear IH.
  unfold call1 in E. destruct c as [vals|u vals|u v|u q|u].
  - destruct (set_b vals) eqn:B; [|discriminate]. destruct (new_uniadic vals s) as [s2 [u|]] eqn:F; [|discriminate]. injection E as <- <-.
    eapply run_new; eauto. apply set_b_spec; auto.
  - destruct (live_b s u && set_b vals)%bool eqn:B; [|discriminate]. apply andb_prop in B as [B1 B2].
    destruct (update_possible_values u vals s) as [s2 [up|]] eqn:F; [|discriminate]. injection E as <- <-.
    eapply run_update; eauto; [apply live_b_spec | apply set_b_spec]; auto.
  - destruct (live_b s u && live_b s v)%bool eqn:B; [|discriminate]. apply andb_prop in B as [B1 B2].
    destruct (uni_match u v s) as [s2 [up|]] eqn:F; [|discriminate]. injection E as <- <-.
    eapply run_match; eauto; apply live_b_spec; auto.
  - destruct (live_b s u) eqn:B; [|discriminate].
    destruct (attach u q s) as [s2 [[]|]] eqn:F; [|discriminate]. injection E as <- <-.
    eapply run_attach; eauto; apply live_b_spec; auto.
  - destruct (live_b s u) eqn:B; [|discriminate].
    destruct (reduce_referees u s) as [s2 [[]|]] eqn:F; [|discriminate]. injection E as <- <-.
    eapply run_reduce; eauto; apply live_b_spec; auto.
Qed.
Definition after (cs : list ucall) : list fact * ustate := match calls cs ([], no_uniadics) with Some x => x | None => ([], no_uniadics) end.
Lemma after_run cs : run (fst (after cs)) (snd (after cs)).
Proof.
  unfold after. destruct (calls cs ([], no_uniadics)) as [[h s]|] eqn:E; [|constructor]. eapply calls_run; [constructor|exact E].
Qed.

(** Three dimensions of which two are unified and one later gets a size. *)
Definition c22_run := after [CNew None; CNew (Some [2;3;4]%Z); CNew None; CMatch 0 1; CMatch 2 0; CUpd 2 (Some [4;7]%Z)].
Example C22_example : run (fst c22_run) (snd c22_run) /\
  fst c22_run = [FIn 0 None; FIn 1 (Some [2;3;4]%Z); FIn 2 None; FEq 0 1; FEq 2 0; FIn 2 (Some [4;7]%Z)] /\
  live (snd c22_run) 1 /\ value (snd c22_run) 1 = Some 4%Z.
Proof.
  split; [apply after_run|]. split; [vm_compute; reflexivity|]. split; [apply live_b_spec|]; vm_compute; reflexivity.
Qed.

(** Finding: after the solver has reduced the referees of a record, a dimension unified earlier no longer follows.  (In the
    library such dimensions are replaced inside shape representations, but not inside the possible values of variadics.) *)
Definition stale_run := after [CNew None; CNew None; CNew None; CMatch 0 1; CReduce 0; CMatch 2 0; CUpd 2 (Some [5]%Z)].
Theorem C22_stale_after_reduction_refuted : exists h s,
  run h s /\ linked h 1 2 /\ (forall rho, all_hold h rho -> rho 1 = 5%Z) /\ value s 2 = Some 5%Z /\ value s 1 = None.
Proof.
  exists (fst stale_run), (snd stale_run). split; [apply after_run|].
  assert (E : fst stale_run = [FIn 0 None; FIn 1 None; FIn 2 None; FEq 0 1; FEq 2 0; FIn 2 (Some [5]%Z)]) by (vm_compute; reflexivity).
  rewrite E. split; [|split; [|split; vm_compute; reflexivity]].
  - apply rst_trans with 0; [apply rst_sym; apply rst_step; cbn; auto 8 | apply rst_sym; apply rst_step; cbn; auto 8].
  - intros rho H. assert (A := H (FEq 0 1) ltac:(cbn; auto 8)). assert (B := H (FEq 2 0) ltac:(cbn; auto 8)). assert (C := H (FIn 2 (Some [5]%Z)) ltac:(cbn; auto 8)).
    cbn in A, B, C. destruct C as [C|[]]. congruence.
Qed.

(** ** C48: who is notified of a change *)
(** Dimension [x] was narrowed between [s] and [s']. *)
Definition narrowed (s s' : ustate) (x : nat) : Prop := exists n, in_pv n (possible_values s x) /\ ~ in_pv n (possible_values s' x).

Theorem C48_update_notifies : forall h s u vals s' up x q, run h s -> live s u -> is_set vals ->
  update_possible_values u vals s = (s', Ok up) -> live s x -> narrowed s s' x -> In q (reprs (recs s (meta s x))) -> In q (shapes up).
Proof.
  intros h s u vals s' up x q R L Sv E Lx (n & Hn & Hn') Hq. assert (I := run_inv _ _ R).
  assert (D := update_details s u vals I L Sv). rewrite E in D. destruct D as (D1 & D2 & D3 & D4 & D5 & ->).
  destruct (Nat.eq_dec (meta s x) (meta s u)) as [Em|Em].
  - destruct (set_eqb (possible_values s u) (possible_values s' u)) eqn:Eq.
    + exfalso. apply set_eqb_spec in Eq. unfold possible_values in *. rewrite D2, Em in *.
      destruct Eq as [[_ E2]|(_ & _ & E2)]; [rewrite E2 in Hn'; apply Hn'; exact Logic.I | apply Hn', E2; auto].
    + cbn [add_uni no_updates shapes app]. rewrite D2, D4, <- Em. auto.
  - exfalso. apply Hn'. unfold possible_values in *. rewrite D2, D5; auto.
Qed.

Lemma sat_with2 s u v n : inv s -> live s u -> live s v -> in_pv n (possible_values s u) -> in_pv n (possible_values s v) ->
  exists rho, sat s rho /\ rho u = n /\ rho v = n.
Proof.
  intros I Lu Lv Hu Hv. destruct (sat_exists s I) as [r [H1 H2]].
  exists (fun x => if (meta s x =? meta s u) || (meta s x =? meta s v) then n else r x).
  rewrite !Nat.eqb_refl, orb_true_r. split; auto. split.
  - intros x Lx. unfold possible_values in *. destruct (Nat.eqb_spec (meta s x) (meta s u)) as [E|E]; cbn [orb]; [rewrite E; auto|].
    destruct (Nat.eqb_spec (meta s x) (meta s v)) as [E'|E']; [rewrite E'; auto | apply H1; auto].
  - intros x y Lx Ly E. rewrite E. destruct (_ || _)%bool; auto.
Qed.

(** Unification notifies every shape with a narrowed dimension, unless both dimensions occur in shapes and neither (or
    both, with equal sizes) is known. *)
Theorem C48_match_notifies : forall h s u v s' up x q, run h s -> live s u -> live s v ->
  uni_match u v s = (s', Ok up) ->
  (value s u <> value s v \/ reprs (recs s (meta s u)) = [] \/ reprs (recs s (meta s v)) = []) ->
  live s x -> narrowed s s' x -> In q (reprs (recs s (meta s x))) -> In q (shapes up).
Proof.
  intros h s u v s' up x q R Lu Lv E Hc Lx (n & Hn & Hn') Hq. assert (I := run_inv _ _ R).
  destruct (imposes_ok _ _ _ _ _ (proj1 (uni_match_imposes s u v I Lu Lv)) E) as (I' & _ & L' & _ & T').
  unfold uni_match in E. destruct (Nat.eqb_spec (meta s u) (meta s v)) as [Em|Hne].
  { injection E as <- <-. contradiction. }
  assert (B : (oz_eqb (value s u) (value s v) && (negb (eqb (reprs (recs s (meta s u))) []) && negb (eqb (reprs (recs s (meta s v))) [])))%bool = false).
  { destruct Hc as [H|[H|H]].
    - unfold oz_eqb. assert (X : eqb (value s u) (value s v) = false) by (apply eqb_neq; auto). rewrite X. auto.
    - rewrite H, eqb_refl. cbn. apply andb_false_r.
    - rewrite H, eqb_refl. cbn. rewrite !andb_false_r. auto. }
  rewrite B in E. unfold sbind, gets, ret in E.
  set (p1 := possible_values s u) in *. set (p2 := possible_values s v) in *.
  assert (W1 : wf_pv p1) by apply (i_pv _ I). assert (W2 : wf_pv p2) by apply (i_pv _ I).
  assert (S1 : is_set p1) by (destruct p1; cbn in *; tauto). assert (S2 : is_set p2) by (destruct p2; cbn in *; tauto).
  assert (U1 := update_imposes s u p2 I Lu S2). assert (D1 := update_details s u p2 I Lu S2).
  destruct (update_possible_values u p2 s) as [s1 [a|e]] eqn:E1; [|discriminate].
  destruct (imposes_ok _ _ _ _ _ U1 E1) as (I1 & _ & L1 & _). destruct D1 as (D11 & D12 & D13 & D14 & D15 & D16).
  assert (Lv1 : live s1 v) by (apply L1; auto).
  assert (D2 := update_details s1 v p1 I1 Lv1 S1).
  destruct (update_possible_values v p1 s1) as [s2 [b|e]] eqn:E2; [|discriminate].
  destruct D2 as (D21 & D22 & D23 & D24 & D25 & D26).
  destruct (rec_match (meta s2 u) (meta s2 v) s2) as [w [[]|e]] eqn:Er; [|discriminate].
  injection E as <- <-. fold p1 in D11, D16.
  assert (P2 : possible_values s1 v = p2). { unfold possible_values, p2. rewrite D12. rewrite D15; auto. }
  rewrite P2 in D21, D26.
  destruct (updated_ok _ _ _ D11 W1 S2) as [_ Hq1]. destruct (updated_ok _ _ _ D21 W2 S1) as [_ Hq2].
  (* a size common to both survives *)
  assert (Keep : forall m, in_pv m p1 -> in_pv m p2 -> in_pv m (possible_values s x) -> (meta s x = meta s u \/ meta s x = meta s v) -> in_pv m (possible_values w x)).
  { intros m H1 H2 Hm Hx. destruct (sat_with2 s u v m I Lu Lv H1 H2) as (rho & Hs & Eu & Ev).
    assert (Sw : sat w rho) by (apply T'; split; [auto|congruence]).
    assert (Ex : rho x = m). { destruct Hx as [Hx|Hx]; [rewrite <- Eu | rewrite <- Ev]; apply Hs; auto. }
    rewrite <- Ex. apply Sw. apply L'; auto. }
  assert (Cx : meta s x = meta s u \/ meta s x = meta s v).
  { destruct (Nat.eq_dec (meta s x) (meta s u)) as [|N1]; auto. destruct (Nat.eq_dec (meta s x) (meta s v)) as [|N2]; auto. exfalso. apply Hn'.
    destruct (wf_inhabited _ (i_pv _ I' (meta w u))) as [k Hk].
    destruct (sat_with w u k I' (proj2 (L' u) Lu) Hk) as (rho & Hw & _). apply T' in Hw as [Hs Hu].
    set (rho1 := fun y => if meta s y =? meta s x then n else rho y).
    assert (Hs1 : sat s rho1).
    { split.
      - intros y Ly. unfold rho1. destruct (Nat.eqb_spec (meta s y) (meta s x)) as [Ey|Ey]; [|apply Hs; auto]. unfold possible_values in *. rewrite Ey. auto.
      - intros y z Ly Lz Ey. unfold rho1. rewrite Ey. destruct (_ =? _); auto. apply Hs; auto. }
    assert (Hw1 : sat w rho1).
    { apply T'. split; auto. unfold rho1. destruct (Nat.eqb_spec (meta s u) (meta s x)); [congruence|]. destruct (Nat.eqb_spec (meta s v) (meta s x)); [congruence|auto]. }
    assert (Q := proj1 Hw1 x (proj2 (L' x) Lx)). unfold rho1 in Q. rewrite Nat.eqb_refl in Q. exact Q. }
  cbn [join shapes]. apply in_or_app. destruct Cx as [Ex|Ex].
  - left. assert (H1 : in_pv n p1) by (unfold p1, possible_values in *; rewrite <- Ex; auto).
    rewrite D16. destruct (set_eqb p1 (possible_values s1 u)) eqn:Q.
    + exfalso. apply Hn'. apply Keep; auto.
      apply set_eqb_spec in Q as [[Q1 Q2]|(_ & _ & Q2)].
      * destruct (updated_not_none _ _ _ D11 Q2) as [_ ->]. exact Logic.I.
      * apply Q2 in H1. apply Hq1 in H1. tauto.
    + cbn. rewrite D12, D14, <- Ex. auto.
  - right. assert (H1 : in_pv n p2) by (unfold p2, possible_values in *; rewrite <- Ex; auto).
    rewrite D26. destruct (set_eqb p2 (possible_values s2 v)) eqn:Q.
    + exfalso. apply Hn'. apply Keep; auto.
      apply set_eqb_spec in Q as [[Q1 Q2]|(_ & _ & Q2)].
      * destruct (updated_not_none _ _ _ D21 Q2) as [_ ->]. exact Logic.I.
      * apply Q2 in H1. apply Hq2 in H1. tauto.
    + cbn. rewrite D22, D12, D24, D14, <- Ex. auto.
Qed.

(** Finding: in the excluded case the shapes of the second dimension are not notified, although its sizes were narrowed. *)
Definition silent_run := after [CNew (Some [2;3]%Z); CNew None; CAttach 0 100; CAttach 1 200].
Theorem C48_match_silent_refuted :
  ~ (forall h s u v s' up x q, run h s -> live s u -> live s v -> uni_match u v s = (s', Ok up) ->
     live s x -> narrowed s s' x -> In q (reprs (recs s (meta s x))) -> In q (shapes up)).
Proof.
  intros H.
  assert (L0 : live (snd silent_run) 0) by (apply live_b_spec; vm_compute; reflexivity).
  assert (L1 : live (snd silent_run) 1) by (apply live_b_spec; vm_compute; reflexivity).
  destruct (uni_match 0 1 (snd silent_run)) as [s' r] eqn:E.
  assert (Er : r = Ok (mkupd [0] [100])). { change r with (snd (s', r)). rewrite <- E. vm_compute. reflexivity. }
  subst r.
  assert (P : possible_values s' 1 = Some [2;3]%Z). { change s' with (fst (s', @Ok updates (mkupd [0] [100]))). rewrite <- E. vm_compute. reflexivity. }
  assert (X := H _ _ 0 1 s' (mkupd [0] [100]) 1 200 (after_run _) L0 L1 E L1).
  assert (Q : In 200 [100]); [|cbn in Q; destruct Q as [Q|[]]; discriminate].
  apply X.
  - exists 7%Z. split; [vm_compute; exact Logic.I|]. rewrite P. cbn. intuition discriminate.
  - vm_compute. auto.
Qed.
(** A known size reaches an unknown dimension: the shape that contains it is notified. *)
Example C48_example : let s := snd (after [CNew (Some [4]%Z); CNew None; CAttach 0 100; CAttach 1 200]) in
  snd (uni_match 0 1 s) = Ok (mkupd [1] [200]) /\ value s 0 <> value s 1 /\ narrowed s (fst (uni_match 0 1 s)) 1.
Proof.
  split; [vm_compute; reflexivity|]. split; [vm_compute; discriminate|]. exists 7%Z. split; vm_compute; auto. intuition discriminate.
Qed.

Print Assumptions C21_intersection.
Print Assumptions C21_order_independent.
Print Assumptions C21_monotone.
Print Assumptions C22_denotation.
Print Assumptions C22_possible_values.
Print Assumptions C22_value.
Print Assumptions C22_error.
Print Assumptions C22_same_dimension.
Print Assumptions C22_stale_after_reduction_refuted.
Print Assumptions C48_update_notifies.
Print Assumptions C48_match_notifies.
Print Assumptions C48_match_silent_refuted.
