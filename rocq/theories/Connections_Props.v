(** * C16: a connection has exactly one role *)
From Coq Require Import String Ascii List Arith Lia Bool.
From Verif Require Import PyBase PyStrings Names_Model Connections_Model Connections_Proofs.
Import ListNotations.
Open Scope string_scope. Open Scope list_scope. Open Scope nat_scope.

(** ** Specification: what the user sees of a model is the list of (key, role, connection); every operation has a
    plain effect on that list. *)
Definition view := nat -> string -> role -> Prop.
Definition same (v w : view) : Prop := forall c k r, v c k r <-> w c k r.
Definition put (v : view) (c : nat) (k : string) (r : role) : view := fun c' k' r' => (c' = c /\ k' = k /\ r' = r) \/ (c' <> c /\ v c' k' r').
Definition drop (v : view) (c : nat) : view := fun c' k' r' => c' <> c /\ v c' k' r'.
Definition known (v : view) (c : nat) : Prop := exists k r, v c k r.
Definition taken (v : view) (k : string) : Prop := exists c r, v c k r.

(** What callers guarantee: operations are applied to connections of the model, new connections and edges are new,
    names given by the user do not start with "$", the name of a merged connection is not used by a third one. *)
Definition allowed (s : conns) (v : view) (o : op) : Prop :=
  match o with
  | ONew c e key _ => dget c (name_of s) = None /\ dget e (meta s) = None /\ forall k, key = Some k -> auto_key k = false
  | ORole c _ | ORemove c | OCin c | OCout c => known v c
  | ORename c key => known v c /\ auto_key key = false
  | OMerge c1 c2 name => known v c1 /\ known v c2 /\ c1 <> c2 /\
      forall n, name = Some n -> auto_key n = false /\ forall c r, v c n r -> c = c1 \/ c = c2
  end.

(** The effect of an operation on the view and whether it raises. *)
Inductive effect (v : view) : op -> view -> option exn -> Prop :=
| e_new c e k r w : ~ taken v k -> (r = OUTPUT -> auto_key k = false) -> same w (put v c k r) -> effect v (ONew c e (Some k) r) w None
| e_new_auto c e k r w : ~ taken v k -> auto_key k = true -> r <> OUTPUT -> same w (put v c k r) -> effect v (ONew c e None r) w None
| e_new_taken c e k r w : taken v k -> same w v -> effect v (ONew c e (Some k) r) w (Some KeyError)
| e_new_unnamed c e w : same w v -> effect v (ONew c e None OUTPUT) w (Some KeyError)
| e_role c k r0 r w : v c k r0 -> (r = OUTPUT -> auto_key k = false) -> same w (put v c k r) -> effect v (ORole c r) w None
| e_role_unnamed c k r0 w : v c k r0 -> auto_key k = true -> same w v -> effect v (ORole c OUTPUT) w (Some KeyError)
| e_rename c k r key w : v c k r -> ~ taken v key -> same w (put v c key r) -> effect v (ORename c key) w None
| e_rename_taken c key w : taken v key -> same w v -> effect v (ORename c key) w (Some KeyError)
| e_remove c w : same w (drop v c) -> effect v (ORemove c) w None
| e_cin c w : same w v -> effect v (OCin c) w None
| e_cout c w : same w v -> effect v (OCout c) w None
| e_merge c1 c2 k1 k2 r1 r2 name n w : v c1 k1 r1 -> v c2 k2 r2 -> merged_name k1 k2 name = Some n ->
    (r2 = OUTPUT -> r1 <> OUTPUT -> auto_key k1 = false) ->
    same w (put (drop v c2) c1 n (merged_role r1 r2)) -> effect v (OMerge c1 c2 name) w None
| e_merge_names c1 c2 k1 k2 r1 r2 name w : v c1 k1 r1 -> v c2 k2 r2 -> merged_name k1 k2 name = None ->
    same w (put (drop v c2) c1 k1 (merged_role r1 r2)) -> effect v (OMerge c1 c2 name) w (Some KeyError)
| e_merge_unnamed c1 c2 k1 k2 r1 name w : v c1 k1 r1 -> v c2 k2 OUTPUT -> r1 <> OUTPUT -> auto_key k1 = true ->
    same w v -> effect v (OMerge c1 c2 name) w (Some KeyError).

Inductive run : list op -> conns -> Prop :=
| run_nil : run [] no_conns
| run_step os s o : run os s -> allowed s (listed s) o -> run (os ++ [o]) (fst (step s o)).

(** ** Every operation keeps the invariant and has the specified effect *)
Lemma same_refl v : same v v. Proof. intros ? ? ?; tauto. Qed.
Lemma put_relabel s s' c k0 r0 t : inv s -> listed s c k0 r0 -> relabel s s' c k0 t -> same (listed s') (put (listed s) c k0 t).
Proof.
  intros I H R c' k' r'. unfold put. rewrite (R c' k' r'). split.
  - intros [(-> & -> & ->)|[Hk Hl]]; auto. right. split; auto. intros ->. destruct (listed_role _ _ _ _ _ _ I H Hl). congruence.
  - intros [(-> & -> & ->)|[Hc Hl]]; auto. right. split; auto. intros ->. destruct (i_one _ I _ _ _ _ _ H Hl). congruence.
Qed.

Lemma step_ok s o : inv s -> allowed s (listed s) o ->
  inv (fst (step s o)) /\ effect (listed s) o (listed (fst (step s o))) (snd (step s o)).
Proof.
  intros I A. destruct o as [c e key r|c r|c key|c|c|c|c1 c2 name]; cbn [allowed] in A.
  - destruct A as (Hn & He & Hk). cbn [step].
    destruct (attach_ok s c e key I Hn He Hk) as [(s1 & k & E & I1 & L & N1 & Hfree & E1 & M1 & Hauto & Hkey)|(E & k & c' & r' & Hkk & Hl)]; rewrite E; cbn [fst snd].
    2:{ subst key. split; auto. apply e_new_taken; [exists c', r'; auto|apply same_refl]. }
    assert (Hfree1 : forall c' r', listed s1 c' k r' -> c' = c). { intros c' r' Hl. apply L in Hl. destruct (Hfree _ _ Hl). }
    assert (Hnc : forall k' r', ~ listed s c k' r'). { intros k' r' Hl. apply (i_name _ I) in Hl. congruence. }
    destruct (set_connection_type s1 c r true) as [s2|x] eqn:Es; cbn [fst snd].
    + assert (I2 : inv s2) by (eapply set_type_inv; eauto).
      split; auto. assert (R := set_type_listed s1 c k r true s2 (i_wf _ I1) N1 Es).
      assert (SS : same (listed s2) (put (listed s) c k r)).
      { intros c' k' r'. unfold put. rewrite (R c' k' r'), (L c' k' r'). split.
        - intros [(-> & -> & ->)|[Hk' Hl]]; auto. right. split; auto. intros ->. destruct (Hnc _ _ Hl).
        - intros [(-> & -> & ->)|[Hc Hl]]; auto. right. split; auto. intros ->. destruct (Hfree _ _ Hl). }
      assert (Ht : ~ taken (listed s) k) by (intros (c' & r' & Hl); destruct (Hfree _ _ Hl)).
      assert (Ho : r = OUTPUT -> auto_key k = false).
      { intros ->. unfold set_connection_type, key_of_conn in Es. rewrite N1 in Es. cbn [bind] in Es.
        destruct (auto_key k); auto. discriminate. }
      destruct key as [k0|]; subst k.
      * apply e_new; auto.
      * assert (Ha : auto_key ("$" ++ nat_to_string (S (key_count s))) = true) by reflexivity.
        eapply e_new_auto; eauto. intros ->. specialize (Ho eq_refl). congruence.
    + split; auto.
      unfold set_connection_type, key_of_conn in Es. rewrite N1 in Es. cbn [bind] in Es.
      destruct (_ && _)%bool eqn:B; [|discriminate]. injection Es as <-.
      apply andb_prop in B as [B Ba]. apply andb_prop in B as [_ B]. apply (proj1 (eqb_eq _ _)) in B. subst r.
      destruct key as [k0|]; [subst k; rewrite (Hk _ eq_refl) in Ba; discriminate|].
      apply e_new_unnamed. exact L.
  - destruct A as (k & r0 & H). cbn [step].
    destruct (set_type_error s c k r0 r true I H) as [[s' E]|(E & _ & Hr & Ha)]; rewrite E; cbn [as_outcome fst snd].
    + destruct (set_type_member _ _ _ _ _ _ _ I H E) as [I' R]. split; auto.
      eapply e_role; [exact H| |eapply put_relabel; eauto].
      intros ->. unfold set_connection_type, key_of_conn in E. rewrite (i_name _ I _ _ _ H) in E. cbn [bind] in E.
      destruct (auto_key k); auto. discriminate.
    + subst r. split; auto. eapply e_role_unnamed; eauto. apply same_refl.
  - destruct A as ((k & r & H) & Ha). cbn [step].
    destruct (dmem key (all_conns s)) eqn:Em.
    + assert (Er : rename_key s c key true = Err KeyError) by (unfold rename_key; rewrite Em; reflexivity).
      rewrite Er. cbn [as_outcome fst snd]. split; auto. apply e_rename_taken; [|apply same_refl].
      apply dmem_In in Em. destruct (dget key (all_conns s)) as [c'|] eqn:Eg.
      * apply all_conns_spec in Eg as [r' Hl]; auto. exists c', r'. auto.
      * apply dget_None in Eg. contradiction.
    + assert (Hf := proj1 (all_conns_none s key I) Em).
      assert (Hc : true = false -> forall c' r', listed s c' key r' -> c' = c) by discriminate.
      destruct (rename_member s c k r key true I H (or_introl Ha) Hc) as [(s' & E & I' & _ & R)|(_ & _ & c' & r' & Hl)].
      * rewrite E. cbn [as_outcome fst snd]. split; auto. eapply e_rename; [exact H| |exact R].
        intros (c' & r' & Hl). exact (Hf _ _ Hl).
      * destruct (Hf _ _ Hl).
  - destruct A as (k & r & H). cbn [step]. destruct (remove_member s c k r I H) as (s' & E & I' & R & _).
    rewrite E. cbn [as_outcome fst snd]. split; auto. apply e_remove. exact R.
  - destruct A as (k & r & H). cbn [step]. destruct (mem c (dvals (roles s INPUT))) eqn:Em; cbn [fst snd].
    + apply (mem_dvals s c k r INPUT I H) in Em. subst r. split.
      * destruct I. split; auto. intros c' [<-|Hc]; eauto.
      * apply e_cin. apply same_refl.
    + split; auto. apply e_cin. apply same_refl.
  - destruct A as (k & r & H). cbn [step]. destruct (mem c (dvals (roles s INTERNAL))) eqn:Em; cbn [fst snd].
    + split; auto. apply e_cout. apply same_refl.
    + assert (r <> INTERNAL). { intros ->. assert (X : mem c (dvals (roles s INTERNAL)) = true) by (eapply mem_dvals; eauto). congruence. }
      split.
      * destruct I. split; auto. intros c' [<-|Hc]; eauto.
      * apply e_cout. apply same_refl.
  - destruct A as ((k1 & r1 & H1) & (k2 & r2 & H2) & Hne & Hname). cbn [step].
    assert (Hn' : forall n, name = Some n -> (auto_key n = false \/ n = k1) /\ forall c' r', listed s c' n r' -> c' = c1 \/ c' = c2).
    { intros n En. destruct (Hname n En). auto. }
    destruct (merge_pair_spec s c1 c2 k1 k2 r1 r2 name I H1 H2 Hne Hn') as [(E & Es & Hr2 & Hr1 & Ha)|(I' & HH)].
    + rewrite E, Es. split; auto. subst r2. eapply e_merge_unnamed; eauto. apply same_refl.
    + split; auto. 
      assert (Sm : forall n, (forall c' k' r', listed (fst (merge_pair s c1 c2 name)) c' k' r' <->
           (c' = c1 /\ k' = n /\ r' = merged_role r1 r2) \/ (c' <> c1 /\ c' <> c2 /\ listed s c' k' r')) ->
           same (listed (fst (merge_pair s c1 c2 name))) (put (drop (listed s) c2) c1 n (merged_role r1 r2))).
      { intros n R c' k' r'. unfold put, drop. rewrite R. tauto. }
      destruct (merged_name k1 k2 name) as [n|] eqn:Em; destruct HH as [E R]; rewrite E.
      * eapply e_merge; eauto. intros -> Hr1. destruct (auto_key k1) eqn:Ea; auto. exfalso.
        assert (X : snd (merge_pair s c1 c2 name) = Some KeyError).
        { destruct (i_edge _ I _ _ _ H1) as (e1 & l1 & E1 & M1). destruct (i_edge _ I _ _ _ H2) as (e2 & l2 & E2 & M2).
          unfold merge_pair. rewrite E1, E2. unfold get_con_by_metadata. rewrite M1, M2.
          assert (N12 : eqb c1 c2 = false) by (apply eqb_neq; auto). rewrite N12.
          rewrite (i_name _ I _ _ _ H1), (i_name _ I _ _ _ H2). cbv zeta.
          assert (X1 : mem c2 (dvals (roles s OUTPUT)) = true) by (apply (mem_dvals s c2 k2 OUTPUT OUTPUT I H2); reflexivity). rewrite X1.
          assert (X2 : dmem k1 (roles s OUTPUT) = false).
          { destruct (dmem k1 (roles s OUTPUT)) eqn:X2; auto. exfalso. apply Hr1. symmetry. apply (dmem_role s c1 k1 r1 OUTPUT I H1). exact X2. }
          rewrite X2. cbn [negb].
          assert (X3 : set_connection_type s c1 OUTPUT true = Err KeyError).
          { unfold set_connection_type, key_of_conn. rewrite (i_name _ I _ _ _ H1). cbn [bind]. rewrite Ea. reflexivity. }
          rewrite X3. reflexivity. }
        congruence.
      * eapply e_merge_names; eauto.
Qed.

Lemma run_inv os s : run os s -> inv s.
Proof. induction 1 as [|os s o H IH A]; [apply inv_nil | apply step_ok; auto]. Qed.

(** ** C16. After every history of additions, role changes, renamings, removals and merges (also those that raised),
    a connection of the model is listed under exactly one key and one role, a key denotes one connection, and all
    look-ups agree with that role. *)
Theorem C16_one_role : forall os s, run os s ->
  (forall c k r k' r', listed s c k r -> listed s c k' r' -> k = k' /\ r = r') /\
  (forall c k r c' r', listed s c k r -> listed s c' k r' -> c = c' /\ r = r') /\
  (forall c k, get_connection s k = Some c <-> exists r, listed s c k r) /\
  (forall c k r, listed s c k r -> key_of_conn s c = Ok k /\ get_type s c = Ok r /\ get_extracted_connection s c = Ok c) /\
  (forall c k, dget k (all_conns s) = Some c <-> exists r, listed s c k r) /\
  (forall c, In c (cins s) -> exists k, listed s c k INPUT) /\
  (forall c, In c (couts s) -> exists k r, listed s c k r /\ r <> INTERNAL).
Proof.
  intros os s R. assert (I := run_inv _ _ R).
  split; [intros; eapply listed_role; eauto|]. split; [intros; eapply (i_one _ I); eauto|].
  split; [intros; apply get_connection_spec; auto|].
  split; [|split; [intros; apply all_conns_spec; auto | split; [apply (i_cins _ I) | apply (i_couts _ I)]]].
  intros c k r H. split; [unfold key_of_conn; rewrite (i_name _ I _ _ _ H); reflexivity|].
  split; [eapply get_type_spec; eauto | eapply extracted_member; eauto].
Qed.

(** Each operation of a history changes the listing exactly as specified and raises exactly when specified. *)
Theorem C16_effects : forall os s o, run os s -> allowed s (listed s) o ->
  effect (listed s) o (listed (fst (step s o))) (snd (step s o)).
Proof. intros os s o R A. apply step_ok; auto. eapply run_inv; eauto. Qed.

(** The effect relation never allows both a success and an error. *)
Lemma C16_effect_deterministic : forall os s o w w' x x', run os s -> allowed s (listed s) o ->
  effect (listed s) o w x -> effect (listed s) o w' x' -> x = None -> x' = None.
Proof.
  intros os s o w w' x x' R A E E' ->. assert (I := run_inv _ _ R).
  assert (U : forall c k r k' r', listed s c k r -> listed s c k' r' -> k = k' /\ r = r') by (intros; eapply listed_role; eauto).
  inversion E; subst; inversion E'; subst; auto; try contradiction; try congruence;
  repeat match goal with
  | H : listed s ?c ?k ?r, H' : listed s ?c ?k' ?r' |- _ =>
      lazymatch k with k' => lazymatch r with r' => clear H' end | _ => destruct (U _ _ _ _ _ H H'); subst; clear H' end
  end; try congruence.
  all: try match goal with H : OUTPUT = OUTPUT -> _ |- _ => specialize (H eq_refl) end; try congruence; auto.
  all: try match goal with H : ?r <> OUTPUT -> auto_key _ = false, H' : ?r <> OUTPUT |- _ => specialize (H H') end; congruence.
Qed.

(** A history that meets the hypotheses: an input "a", an unnamed internal connection, a named output "out", the unnamed
    one merged into the input, and a failed renaming. *)
Definition c16_ops : list op :=
  [ONew 0 10 (Some "a") INPUT; OCin 0; ONew 1 11 None INTERNAL; ONew 2 12 (Some "out") OUTPUT; OMerge 0 1 None; ORename 2 "a"; ORename 2 "y"].
Fixpoint exec (s : conns) (os : list op) : conns := match os with [] => s | o :: os => exec (fst (step s o)) os end.
Lemma run_exec os : forall pre s, run pre s ->
  (forall p o q, os = p ++ o :: q -> allowed (exec s p) (listed (exec s p)) o) -> run (pre ++ os) (exec s os).
Proof.
  induction os as [|o os IH]; intros pre s R A; cbn [exec].
  - rewrite app_nil_r. exact R.
  - change (o :: os) with ([o] ++ os). rewrite app_assoc. apply IH.
    + apply run_step; auto. apply (A [] o os eq_refl).
    + intros p o' q ->. apply (A (o :: p) o' q eq_refl).
Qed.
Example C16_run : run c16_ops (exec no_conns c16_ops).
Proof.
  change c16_ops with ([] ++ c16_ops) at 1. apply run_exec; [constructor|].
  intros p o q E.
  unfold c16_ops in E.
  destruct p as [|? p]; [injection E as <- _|injection E as <- E].
  2: destruct p as [|? p]; [injection E as <- _|injection E as <- E].
  3: destruct p as [|? p]; [injection E as <- _|injection E as <- E].
  4: destruct p as [|? p]; [injection E as <- _|injection E as <- E].
  5: destruct p as [|? p]; [injection E as <- _|injection E as <- E].
  6: destruct p as [|? p]; [injection E as <- _|injection E as <- E].
  7: destruct p as [|? p]; [injection E as <- _|injection E as <- E].
  8: destruct p; discriminate E.
  - cbn. repeat split; intros k [= <-]; reflexivity.
  - cbn. exists "a", INPUT. reflexivity.
  - cbn. repeat split; intros k [=].
  - cbn. repeat split; intros k [= <-]; reflexivity.
  - cbn. split; [exists "a", INPUT; reflexivity|]. split; [exists "$1", INTERNAL; reflexivity|]. split; [discriminate|intros n [=]].
  - cbn. split; [exists "out", OUTPUT; reflexivity|reflexivity].
  - cbn. split; [exists "out", OUTPUT; reflexivity|reflexivity].
Qed.
Example C16_run_result : listed (exec no_conns c16_ops) 0 "a" INTERNAL /\ listed (exec no_conns c16_ops) 2 "y" OUTPUT /\ cins (exec no_conns c16_ops) = [].
Proof. vm_compute. auto. Qed.

(** ** Findings *)
(** Three inputs c1, c2, c3, the call [merge_connections(c1, c2, c3, name="c3")]: naming the result after one of the
    merged connections is accepted, but the call fails and the model is left without any of them. *)
Definition three : conns := exec no_conns [ONew 0 10 (Some "c1") INPUT; ONew 1 11 (Some "c2") INPUT; ONew 2 12 (Some "c3") INPUT].
Theorem C16_merge_three_refuted :
  snd (merge_connections (fun _ => false) three [0; 1; 2] (Some "c3")) = Some ValueError /\
  all_conns (fst (merge_connections (fun _ => false) three [0; 1; 2] (Some "c3"))) = [].
Proof. vm_compute. auto. Qed.
(** The same call with the name of the first connection merges the three. *)
Example C16_merge_three_ok :
  snd (merge_connections (fun _ => false) three [0; 1; 2] (Some "c1")) = None /\
  all_conns (fst (merge_connections (fun _ => false) three [0; 1; 2] (Some "c1"))) = [("c1", 0)].
Proof. vm_compute. auto. Qed.
(** A merge that is rejected (two given names) has removed the second connection from the model. *)
Theorem C16_merge_not_atomic_refuted : exists s', merge_pair three 0 1 None = (s', Some KeyError) /\
  get_connection three "c2" = Some 1 /\ get_connection s' "c2" = None.
Proof. eexists. vm_compute. auto. Qed.
(** A name starting with "$" chosen by the user is later given to another connection: the first one disappears. *)
Definition dollar : conns := exec no_conns [ONew 0 10 (Some "$1") INPUT; ONew 1 11 None INPUT].
Theorem C16_dollar_name_refuted : get_connection dollar "$1" = Some 1 /\ (forall k, get_connection dollar k <> Some 0).
Proof.
  split; [reflexivity|]. intros k H. unfold get_connection in H. destruct (first_role key_types dollar k) as [[r c]|] eqn:E; [|discriminate].
  injection H as ->. apply first_role_some in E. unfold listed in E. apply dget_In in E.
  destruct r; cbn in E; try contradiction; destruct E as [E|[]]; discriminate E.
Qed.

Print Assumptions C16_one_role.
Print Assumptions C16_effects.
Print Assumptions C16_effect_deterministic.
Print Assumptions C16_merge_three_refuted.
Print Assumptions C16_merge_not_atomic_refuted.
Print Assumptions C16_dollar_name_refuted.
