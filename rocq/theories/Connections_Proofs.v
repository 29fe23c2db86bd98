(** * Proofs about the roles of connections *)
From Coq Require Import String Ascii List Arith Lia Bool.
From Verif Require Import PyBase PyStrings Names_Model Connections_Model.
Import ListNotations.
Open Scope string_scope. Open Scope list_scope. Open Scope nat_scope.

(** Specification vocabulary: connection [c] is listed under key [k] in role [r]. *)
Definition listed (s : conns) (c : nat) (k : string) (r : role) : Prop := dget k (roles s r) = Some c.
Definition member (s : conns) (c : nat) : Prop := exists k r, listed s c k r.

Record inv (s : conns) : Prop := {
  i_wf : forall r, dwf (roles s r);
  i_name : forall c k r, listed s c k r -> dget c (name_of s) = Some k;
  i_one : forall c c' k r r', listed s c k r -> listed s c' k r' -> c = c' /\ r = r';
  i_edge : forall c k r, listed s c k r -> exists e l, dget c (edge_of s) = Some e /\ dget e (meta s) = Some (c :: l);
  i_meta : forall e l c, dget e (meta s) = Some l -> In c l -> dget c (edge_of s) = Some e;
  i_metawf : dwf (meta s);
  i_auto : forall c k r, listed s c k r -> auto_key k = true -> exists n, k = ("$" ++ nat_to_string n)%string /\ n <= key_count s;
  i_cins : forall c, In c (cins s) -> exists k, listed s c k INPUT;
  i_couts : forall c, In c (couts s) -> exists k r, listed s c k r /\ r <> INTERNAL;
  i_edgename : forall c, dget c (edge_of s) <> None -> dget c (name_of s) <> None;
}.

Lemma inv_nil : inv no_conns.
Proof. split; cbn; unfold listed; cbn; try discriminate; try constructor; try tauto. Qed.

Lemma listed_role s c k k' r r' : inv s -> listed s c k r -> listed s c k' r' -> k = k' /\ r = r'.
Proof.
  intros I H H'. assert (E := i_name _ I _ _ _ H). rewrite (i_name _ I _ _ _ H') in E. injection E as ->.
  split; auto. eapply i_one; eauto.
Qed.

(** ** Lookups *)
Lemma all_roles r : In r key_types.
Proof. destruct r; cbn; tauto. Qed.
Lemma first_role_some rs s k r c : first_role rs s k = Some (r, c) -> listed s c k r.
Proof.
  induction rs as [|r' rs IH]; cbn; [discriminate|]. destruct (dget k (roles s r')) eqn:E; auto.
  intros H. injection H as <- <-. exact E.
Qed.
Lemma first_role_none rs s k : first_role rs s k = None <-> forall r, In r rs -> dget k (roles s r) = None.
Proof.
  induction rs as [|r' rs IH]; cbn; [split; [intros _ r []|auto]|].
  destruct (dget k (roles s r')) eqn:E.
  - split; [discriminate|]. intros H. specialize (H r' (or_introl eq_refl)). congruence.
  - rewrite IH. split; [intros H r [<-|Hr]; auto | intros H r Hr; auto].
Qed.
Lemma first_role_listed s c k r : inv s -> listed s c k r -> first_role key_types s k = Some (r, c).
Proof.
  intros I H. destruct (first_role key_types s k) as [[r' c']|] eqn:E.
  - apply first_role_some in E. destruct (i_one _ I _ _ _ _ _ H E). congruence.
  - rewrite first_role_none in E. specialize (E r (all_roles r)). unfold listed in H. congruence.
Qed.
Lemma get_connection_spec s k c : inv s -> get_connection s k = Some c <-> exists r, listed s c k r.
Proof.
  intros I. unfold get_connection. split.
  - destruct (first_role key_types s k) as [[r c']|] eqn:E; [|discriminate]. intros H. injection H as <-.
    exists r. eapply first_role_some; eauto.
  - intros [r H]. rewrite (first_role_listed _ _ _ _ I H). auto.
Qed.
Lemma get_connection_none s k : get_connection s k = None <-> forall c r, ~ listed s c k r.
Proof.
  unfold get_connection. split.
  - destruct (first_role key_types s k) as [[r c']|] eqn:E; [discriminate|]. intros _ c r H.
    rewrite first_role_none in E. specialize (E r (all_roles r)). unfold listed in H. congruence.
  - intros H. destruct (first_role key_types s k) as [[r c']|] eqn:E; auto. apply first_role_some in E. destruct (H _ _ E).
Qed.
Lemma extracted_member s c k r : inv s -> listed s c k r -> get_extracted_connection s c = Ok c.
Proof.
  intros I H. destruct (i_edge _ I _ _ _ H) as (e & l & E & M). unfold get_extracted_connection, get_con_by_metadata.
  rewrite E, M. auto.
Qed.
Lemma get_type_spec s c k r : inv s -> listed s c k r -> get_type s c = Ok r.
Proof.
  intros I H. unfold get_type. rewrite (extracted_member _ _ _ _ I H). cbn [bind]. unfold key_of_conn.
  rewrite (i_name _ I _ _ _ H). cbn [bind]. rewrite (first_role_listed _ _ _ _ I H). auto.
Qed.

Lemma fold_dset_get (l : dict string nat) : forall d k, dwf l ->
  dget k (fold_left (fun d kc => dset (fst kc) (snd kc) d) l d) = match dget k l with Some c => Some c | None => dget k d end.
Proof.
  induction l as [|[k0 c0] l IH]; intros d k Hwf; cbn [fold_left]; auto.
  inversion Hwf as [|? ? Hn Hwf']; subst. rewrite IH by exact Hwf'. cbn [dget fst snd]. rewrite dget_dset.
  destruct (eq_dec k k0) as [->|Hne]; auto.
  destruct (dget k0 l) eqn:E; auto. exfalso. apply Hn. apply dget_In in E. apply in_map_iff. exists (k0, n). auto.
Qed.
Lemma all_conns_spec s k c : inv s -> dget k (all_conns s) = Some c <-> exists r, listed s c k r.
Proof.
  intros I. unfold all_conns, all_order. cbn [fold_left].
  rewrite !fold_dset_get by (apply (i_wf _ I)). cbn [dget].
  assert (U : forall r c', dget k (roles s r) = Some c' -> (exists r', listed s c k r') -> c' = c).
  { intros r c' E [r' H]. destruct (i_one _ I c' c k r r' E H); auto. }
  assert (U' : forall r, dget k (roles s r) = Some c -> exists r', listed s c k r') by (intros r H; exists r; exact H).
  repeat match goal with |- context [match dget k (roles s ?r) with _ => _ end] => destruct (dget k (roles s r)) eqn:?E end;
  try (split; [intros H; injection H as <-; eauto | intros H; f_equal; eauto]).
  split; [discriminate|]. intros [r H]. unfold listed in H. destruct r; congruence.
Qed.
Lemma all_conns_none s k : inv s -> dmem k (all_conns s) = false <-> forall c r, ~ listed s c k r.
Proof.
  intros I. rewrite dmem_false. split.
  - intros E c r H. assert (dget k (all_conns s) = Some c) by (apply all_conns_spec; eauto). congruence.
  - intros H. destruct (dget k (all_conns s)) eqn:E; auto. apply all_conns_spec in E as [r E]; auto. destruct (H _ _ E).
Qed.

(** ** Operations *)
Lemma In_discard x y l : In x (discard y l) <-> In x l /\ x <> y.
Proof.
  unfold discard. rewrite filter_In. split; intros [A B]; split; auto.
  - intros ->. rewrite eqb_refl in B. discriminate.
  - destruct (eqb x y) eqn:E; auto. apply (proj1 (eqb_eq _ _)) in E. congruence.
Qed.

(** Listing [c] under its key [k], when [k] is not used by another connection. *)
Definition relabel (s s' : conns) (c : nat) (k : string) (t : role) : Prop :=
  forall c' k' r', listed s' c' k' r' <-> (k' = k /\ c' = c /\ r' = t) \/ (k' <> k /\ listed s c' k' r').

Lemma set_type_listed s c k t safe s' : (forall r, dwf (roles s r)) -> dget c (name_of s) = Some k ->
  set_connection_type s c t safe = Ok s' -> relabel s s' c k t.
Proof.
  intros Hwf Hn. unfold set_connection_type, key_of_conn. rewrite Hn. cbn [bind].
  destruct (safe && eqb t OUTPUT && auto_key k); [discriminate|]. intros H. injection H as <-.
  intros c' k' r'. unfold listed. cbn [roles]. destruct (eqb r' t) eqn:E.
  - apply (proj1 (eqb_eq _ _)) in E. subst r'. rewrite dget_dset. destruct (eq_dec k' k) as [->|Hne].
    + split; [intros H; injection H as <-; auto | intros [(_ & -> & _)|[? _]]; [auto|congruence]].
    + split; [auto | intros [(? & _)|[_ ?]]; [congruence|auto]].
  - apply (proj1 (eqb_neq _ _)) in E. rewrite dget_ddel by apply Hwf. destruct (eq_dec k' k) as [->|Hne].
    + split; [discriminate | intros [(_ & _ & ?)|[? _]]; congruence].
    + split; [auto | intros [(? & _)|[_ ?]]; [congruence|auto]].
Qed.

Lemma set_type_inv s c k t safe s' : inv s -> dget c (name_of s) = Some k ->
  (exists e l, dget c (edge_of s) = Some e /\ dget e (meta s) = Some (c :: l)) ->
  (forall c' r', listed s c' k r' -> c' = c) ->
  (auto_key k = true -> exists n, k = ("$" ++ nat_to_string n)%string /\ n <= key_count s) ->
  set_connection_type s c t safe = Ok s' -> inv s'.
Proof.
  intros I Hn He Hk Ha E. assert (R := set_type_listed s c k t safe s' (i_wf _ I) Hn E).
  unfold set_connection_type, key_of_conn in E. rewrite Hn in E. cbn [bind] in E.
  destruct (safe && eqb t OUTPUT && auto_key k); [discriminate|]. injection E as <-.
  split; cbn [name_of edge_of roles meta cins couts key_count].
  - intros r. destruct (eqb r t); [apply dwf_dset | apply dwf_ddel]; apply (i_wf _ I).
  - intros c' k' r' H. apply R in H as [(-> & -> & ->)|[_ H]]; auto. eapply i_name; eauto.
  - intros c1 c2 k' r1 r2 H1 H2. apply R in H1. apply R in H2.
    destruct H1 as [(-> & -> & ->)|[Hne H1]], H2 as [(E2 & -> & ->)|[Hne2 H2]]; auto; try congruence. eapply i_one; eauto.
  - intros c' k' r' H. apply R in H as [(-> & -> & ->)|[_ H]]; auto. eapply i_edge; eauto.
  - apply (i_meta _ I).
  - apply (i_metawf _ I).
  - intros c' k' r' H. apply R in H as [(-> & -> & ->)|[_ H]]; auto. eapply i_auto; eauto.
  - intros c' H. destruct (eqb t INPUT) eqn:Et; cbn [negb] in H.
    + apply (proj1 (eqb_eq _ _)) in Et. subst t. destruct (Nat.eq_dec c' c) as [->|Hne]; [exists k; apply R; auto|].
      destruct (i_cins _ I _ H) as [k' Hl]. exists k'. apply R. right. split; auto. intros ->. apply Hne. eapply Hk; eauto.
    + apply In_discard in H as [H Hne]. destruct (i_cins _ I _ H) as [k' Hl]. exists k'. apply R. right. split; auto.
      intros ->. apply Hne. eapply Hk; eauto.
  - intros c' H. destruct (Nat.eq_dec c' c) as [->|Hne].
    + exists k, t. split; [apply R; auto|]. intros ->. cbn in H. apply In_discard in H as [_ H]. congruence.
    + assert (H' : In c' (couts s)) by (destruct (eqb t INTERNAL); [apply In_discard in H; tauto | auto]).
      destruct (i_couts _ I _ H') as (k' & r' & Hl & Hr). exists k', r'. split; auto. apply R. right. split; auto.
      intros ->. apply Hne. eapply Hk; eauto.
  - apply (i_edgename _ I).
Qed.

Lemma set_type_member s c k0 r0 t safe s' : inv s -> listed s c k0 r0 ->
  set_connection_type s c t safe = Ok s' -> inv s' /\ relabel s s' c k0 t.
Proof.
  intros I H E. assert (Hn := i_name _ I _ _ _ H). split.
  - eapply set_type_inv; eauto.
    + eapply i_edge; eauto.
    + intros c' r' H'. destruct (i_one _ I _ _ _ _ _ H H'); auto.
    + eapply i_auto; eauto.
  - eapply set_type_listed; eauto. apply (i_wf _ I).
Qed.
Lemma set_type_error s c k r t safe : inv s -> listed s c k r ->
  (exists s', set_connection_type s c t safe = Ok s') \/
  (set_connection_type s c t safe = Err KeyError /\ safe = true /\ t = OUTPUT /\ auto_key k = true).
Proof.
  intros I H. unfold set_connection_type, key_of_conn. rewrite (i_name _ I _ _ _ H). cbn [bind].
  destruct (safe && eqb t OUTPUT && auto_key k) eqn:E; [right|left; eauto].
  apply andb_true_iff in E as [E E3]. apply andb_true_iff in E as [E1 E2]. apply (proj1 (eqb_eq _ _)) in E2. auto.
Qed.

Lemma remove_member s c k r : inv s -> listed s c k r ->
  exists s', remove_connection s c = Ok s' /\ inv s' /\
    (forall c' k' r', listed s' c' k' r' <-> c' <> c /\ listed s c' k' r') /\
    name_of s' = name_of s /\ edge_of s' = edge_of s /\ meta s' = meta s /\ key_count s' = key_count s.
Proof.
  intros I H. unfold remove_connection, key_of_conn. rewrite (i_name _ I _ _ _ H). cbn [bind].
  eexists. split; [reflexivity|].
  assert (R : forall c' k' r', dget k' (ddel k (roles s r')) = Some c' <-> c' <> c /\ listed s c' k' r').
  { intros c' k' r'. rewrite dget_ddel by apply (i_wf _ I). destruct (eq_dec k' k) as [->|Hne].
    - split; [discriminate|]. intros [Hc Hl]. destruct (i_one _ I _ _ _ _ _ H Hl). congruence.
    - split; [|tauto]. intros Hl. split; auto. intros ->. apply Hne. eapply listed_role; eauto. }
  split; [|split; [exact R|repeat split; reflexivity]].
  split; unfold listed; cbn [name_of edge_of roles meta cins couts key_count].
  - intros r'. apply dwf_ddel. apply (i_wf _ I).
  - intros c' k' r' Hl. apply R in Hl as [_ Hl]. eapply i_name; eauto.
  - intros c1 c2 k' r1 r2 H1 H2. apply R in H1 as [_ H1]. apply R in H2 as [_ H2]. eapply i_one; eauto.
  - intros c' k' r' Hl. apply R in Hl as [_ Hl]. eapply i_edge; eauto.
  - apply (i_meta _ I).
  - apply (i_metawf _ I).
  - intros c' k' r' Hl. apply R in Hl as [_ Hl]. eapply i_auto; eauto.
  - intros c' Hc. apply In_discard in Hc as [Hc Hne]. destruct (i_cins _ I _ Hc) as [k' Hl]. exists k'. apply R. auto.
  - intros c' Hc. apply In_discard in Hc as [Hc Hne]. destruct (i_couts _ I _ Hc) as (k' & r' & Hl & Hr). exists k', r'. split; auto. apply R. auto.
  - apply (i_edgename _ I).
Qed.

Lemma rename_member s c k r key check : inv s -> listed s c k r -> auto_key key = false \/ key = k ->
  (check = false -> forall c' r', listed s c' key r' -> c' = c) ->
  (exists s', rename_key s c key check = Ok s' /\ inv s' /\ key_count s' = key_count s /\
     (forall c' k' r', listed s' c' k' r' <-> (c' = c /\ k' = key /\ r' = r) \/ (c' <> c /\ listed s c' k' r'))) \/
  (rename_key s c key check = Err KeyError /\ check = true /\ exists c' r', listed s c' key r').
Proof.
  intros I H Hauto Hfree. unfold rename_key.
  destruct (check && dmem key (all_conns s)) eqn:E.
  - right. apply andb_true_iff in E as [-> E]. split; auto. split; auto.
    unfold dmem in E. destruct (dget key (all_conns s)) eqn:G; [|discriminate]. apply all_conns_spec in G as [r' G]; eauto.
  - left. assert (Hf : forall c' r', listed s c' key r' -> c' = c).
    { destruct check; cbn [andb] in E; [|exact (Hfree eq_refl)]. intros c' r' Hl. exfalso. exact (proj1 (all_conns_none s key I) E _ _ Hl). }
    rewrite (extracted_member _ _ _ _ I H). cbn [bind]. rewrite (get_type_spec _ _ _ _ I H). cbn [bind].
    unfold key_of_conn. rewrite (i_name _ I _ _ _ H). cbn [bind]. unfold listed in H. rewrite H. fold (listed s c k r) in H.
    eexists. split; [reflexivity|].
    assert (R : forall c' k' r', dget k' (if eqb r' r then dset key c (ddel k (roles s r')) else roles s r') = Some c' <->
                (c' = c /\ k' = key /\ r' = r) \/ (c' <> c /\ listed s c' k' r')).
    { intros c' k' r'. destruct (eqb r' r) eqn:Er.
      - apply (proj1 (eqb_eq _ _)) in Er. subst r'. rewrite dget_dset. destruct (eq_dec k' key) as [->|Hne].
        + split; [intros X; injection X as <-; auto|]. intros [(-> & _)|[Hc Hl]]; auto. destruct (Hc (Hf _ _ Hl)).
        + rewrite dget_ddel by apply (i_wf _ I). destruct (eq_dec k' k) as [->|Hne'].
          * split; [discriminate|]. intros [(_ & -> & _)|[Hc Hl]]; [congruence|]. destruct (i_one _ I _ _ _ _ _ H Hl). congruence.
          * split; [|intros [(_ & -> & _)|[_ Hl]]; [congruence|exact Hl]]. intros Hl. right. split; auto. intros ->. apply Hne'. eapply listed_role; eauto.
      - apply (proj1 (eqb_neq _ _)) in Er. split.
        + intros Hl. right. split; auto. intros ->. apply Er. eapply listed_role; eauto.
        + intros [(_ & _ & ->)|[_ Hl]]; [congruence|exact Hl]. }
    split; [|split; [reflexivity|exact R]].
    split; unfold listed; cbn [name_of edge_of roles meta cins couts key_count].
    + intros r'. destruct (eqb r' r); [apply dwf_dset; apply dwf_ddel|]; apply (i_wf _ I).
    + intros c' k' r' Hl. rewrite dget_dset. apply R in Hl as [(-> & -> & ->)|[Hc Hl]].
      * destruct (eq_dec c c); [auto|congruence].
      * destruct (eq_dec c' c); [congruence|]. eapply i_name; eauto.
    + intros c1 c2 k' r1 r2 H1 H2. apply R in H1. apply R in H2.
      destruct H1 as [(-> & -> & ->)|[Hc1 H1]], H2 as [(-> & E2 & ->)|[Hc2 H2]]; auto.
      * destruct (Hc2 (Hf _ _ H2)).
      * subst. destruct (Hc1 (Hf _ _ H1)).
      * eapply i_one; eauto.
    + intros c' k' r' Hl. apply R in Hl as [(-> & -> & ->)|[Hc Hl]]; eapply i_edge; eauto.
    + apply (i_meta _ I).
    + apply (i_metawf _ I).
    + intros c' k' r' Hl Ha. apply R in Hl as [(-> & -> & ->)|[Hc Hl]]; [|eapply i_auto; eauto].
      destruct Hauto as [Hauto| ->]; [congruence|]. eapply i_auto; eauto.
    + intros c' Hc. destruct (i_cins _ I _ Hc) as [k' Hl]. destruct (Nat.eq_dec c' c) as [->|Hne].
      * exists key. apply R. left. destruct (listed_role _ _ _ _ _ _ I H Hl). auto.
      * exists k'. apply R. auto.
    + intros c' Hc. destruct (i_couts _ I _ Hc) as (k' & r' & Hl & Hr). destruct (Nat.eq_dec c' c) as [->|Hne].
      * exists key, r. split; [apply R; auto|]. destruct (listed_role _ _ _ _ _ _ I H Hl). congruence.
      * exists k', r'. split; auto. apply R. auto.
    + intros c' Hc. rewrite dget_dset. destruct (eq_dec c' c); [discriminate | apply (i_edgename _ I); auto].
Qed.

(** A new connection on a new hyper-edge. *)
Lemma attach_ok s c e key : inv s -> dget c (name_of s) = None -> dget e (meta s) = None ->
  (forall k, key = Some k -> auto_key k = false) ->
  (exists s' k, attach_connection s c e key = Ok s' /\ inv s' /\ (forall c' k' r', listed s' c' k' r' <-> listed s c' k' r') /\
     dget c (name_of s') = Some k /\ (forall c' r', ~ listed s c' k r') /\ dget c (edge_of s') = Some e /\ dget e (meta s') = Some [c] /\
     (auto_key k = true -> exists n, k = ("$" ++ nat_to_string n)%string /\ n <= key_count s') /\
     match key with Some k0 => k = k0 | None => k = ("$" ++ nat_to_string (S (key_count s)))%string end) \/
  (attach_connection s c e key = Err KeyError /\ exists k c' r', key = Some k /\ listed s c' k r').
Proof.
  intros I Hc He Hk.
  assert (Aux : forall k n, key_count s <= n -> (auto_key k = true -> exists n', k = ("$" ++ nat_to_string n')%string /\ n' <= n) ->
     (forall c' r', ~ listed s c' k r') ->
     inv (mkc (dset c k (name_of s)) (dset c e (edge_of s)) (roles s) (dset e [c] (meta s)) (cins s) (couts s) n)).
  { intros k n Hn Ha Hfree. split; unfold listed; cbn [name_of edge_of roles meta cins couts key_count].
    - apply (i_wf _ I).
    - intros c' k' r' H. assert (X := i_name _ I _ _ _ H). rewrite dget_dset_other; auto. intros ->. congruence.
    - apply (i_one _ I).
    - intros c' k' r' H. destruct (i_edge _ I _ _ _ H) as (e' & l & E1 & E2). exists e', l.
      assert (X := i_name _ I _ _ _ H). split.
      + rewrite dget_dset_other; auto. intros ->. congruence.
      + rewrite dget_dset_other; auto. intros ->. congruence.
    - intros e' l c' H Hin. rewrite dget_dset in H. destruct (eq_dec e' e) as [->|Hne].
      + injection H as <-. destruct Hin as [<-|[]]. apply dget_dset_same.
      + assert (X := i_meta _ I _ _ _ H Hin). rewrite dget_dset_other; auto. intros ->.
        apply (i_edgename _ I c); congruence.
    - apply dwf_dset. apply (i_metawf _ I).
    - intros c' k' r' H Ha'. destruct (i_auto _ I _ _ _ H Ha') as (n' & E & L). exists n'. split; auto. lia.
    - apply (i_cins _ I).
    - apply (i_couts _ I).
    - intros c'. rewrite !dget_dset. destruct (eq_dec c' c); [discriminate | apply (i_edgename _ I)]. }
  unfold attach_connection. rewrite He. cbn [app]. destruct key as [k|].
  - destruct (get_connection s k) as [c'|] eqn:G.
    + right. split; auto. apply get_connection_spec in G as [r' G]; auto. exists k, c', r'. auto.
    + left. rewrite get_connection_none in G. eexists _, k. split; [reflexivity|].
      assert (A : auto_key k = true -> exists n, k = ("$" ++ nat_to_string n)%string /\ n <= key_count s).
      { rewrite (Hk k eq_refl). discriminate. }
      split; [apply Aux; auto|]. split; [tauto|]. cbn [name_of edge_of meta key_count].
      split; [apply dget_dset_same|]. split; auto. split; [apply dget_dset_same|]. split; [apply dget_dset_same|]. auto.
  - left. eexists _, _. split; [reflexivity|].
    assert (Hfree : forall c' r', ~ listed s c' ("$" ++ nat_to_string (S (key_count s)))%string r').
    { intros c' r' H. destruct (i_auto _ I _ _ _ H eq_refl) as (n & E & L).
      apply sapp_inj_l in E. apply nat_to_string_inj in E. lia. }
    split; [apply Aux; eauto|]. split; [tauto|]. cbn [name_of edge_of meta key_count].
    split; [apply dget_dset_same|]. split; [exact Hfree|]. split; [apply dget_dset_same|]. split; [apply dget_dset_same|].
    split; auto. intros _. eexists. split; [reflexivity|lia].
Qed.

(** ** Merging *)
Lemma fold_edge_get (e1 : nat) (moved : list nat) : forall (d : dict nat nat) (c : nat), dget c (fold_left (fun d c => dset c e1 d) moved d) =
  if mem c moved then Some e1 else dget c d.
Proof.
  induction moved as [|x moved IH]; intros d c; cbn [fold_left]; auto. rewrite IH.
  change (mem c (x :: moved)) with (eqb c x || mem c moved)%bool. destruct (mem c moved) eqn:M; [rewrite orb_true_r; auto|].
  rewrite orb_false_r, dget_dset. unfold eqb. destruct (eq_dec c x); auto.
Qed.

Lemma Some_eq {A} (x y : A) : Some x = Some y -> x = y.
Proof. congruence. Qed.
Lemma match_edges_inv s e1 e2 c1 c2 l1 l2 : inv s -> e1 <> e2 -> ~ member s c2 ->
  dget e1 (meta s) = Some (c1 :: l1) -> dget e2 (meta s) = Some (c2 :: l2) ->
  inv (match_edges s e1 e2).
Proof.
  intros I Hne Hc2 M1 M2.
  assert (Hmoved : forall c k r, listed s c k r -> mem c (c2 :: l2) = false).
  { intros c k r H. apply mem_not_In. intros Hin. destruct (i_edge _ I _ _ _ H) as (e & l & E & M).
    assert (X := i_meta _ I _ _ _ M2 Hin). rewrite E in X. injection X as ->. rewrite M2 in M. injection M as -> _.
    apply Hc2. exists k, r. auto. }
  unfold match_edges. rewrite M1, M2.
  split; unfold listed; cbn [name_of edge_of roles meta cins couts key_count]; try apply I.
  - intros c k r H. destruct (i_edge _ I _ _ _ H) as (e & l & E & M). rewrite fold_edge_get, (Hmoved _ _ _ H).
    exists e. assert (e <> e2). { intros ->. assert (X : In c (c2 :: l2)) by (rewrite M2 in M; injection M as -> _; left; auto).
      apply mem_In in X. rewrite (Hmoved _ _ _ H) in X. discriminate. }
    rewrite dget_dset. destruct (eq_dec e e1) as [->|Hee].
    + rewrite M1 in M. injection M as <- <-. eexists. split; [exact E|]. cbn [app]. reflexivity.
    + rewrite dget_ddel_other by auto. eauto.
  - intros e l c M Hin. rewrite dget_dset in M. rewrite fold_edge_get. destruct (eq_dec e e1) as [->|Hee].
    + apply Some_eq in M. subst l. destruct (mem c (c2 :: l2)) eqn:Em; auto. apply (in_app_or (c1 :: l1)) in Hin as [Hin|Hin].
      * eapply (i_meta _ I); eauto.
      * apply filter_In in Hin as [Hin _]. apply mem_In in Hin. congruence.
    + rewrite dget_ddel in M by apply (i_metawf _ I). destruct (eq_dec e e2) as [->|Hee2]; [discriminate|].
      assert (X := i_meta _ I _ _ _ M Hin). destruct (mem c (c2 :: l2)) eqn:Em; auto.
      apply mem_In in Em. assert (Y := i_meta _ I _ _ _ M2 Em). congruence.
  - apply dwf_dset. apply dwf_ddel. apply (i_metawf _ I).
  - intros c H. rewrite fold_edge_get in H. destruct (mem c (c2 :: l2)) eqn:Em; [|apply (i_edgename _ I); auto].
    apply mem_In in Em. apply (i_edgename _ I). rewrite (i_meta _ I _ _ _ M2 Em). discriminate.
Qed.

Lemma mem_dvals s c k r r' : inv s -> listed s c k r -> mem c (dvals (roles s r')) = true <-> r' = r.
Proof.
  intros I H. rewrite mem_In. unfold dvals. rewrite in_map_iff. split.
  - intros ((k' & c') & E & Hin). cbn in E. subst c'. apply In_dget in Hin; [|apply (i_wf _ I)].
    destruct (listed_role _ _ _ _ _ _ I H Hin). auto.
  - intros ->. exists (k, c). split; auto. now apply dget_In.
Qed.
Lemma dmem_role s c k r r' : inv s -> listed s c k r -> dmem k (roles s r') = true <-> r' = r.
Proof.
  intros I H. unfold dmem. split.
  - destruct (dget k (roles s r')) eqn:E; [|discriminate]. intros _. destruct (i_one _ I _ _ _ _ _ H E). auto.
  - intros ->. unfold listed in H. rewrite H. auto.
Qed.

(** The role of the merged connection. *)
Definition merged_role (r1 r2 : role) : role :=
  match r2, r1 with OUTPUT, _ => OUTPUT | INTERNAL, INPUT => INTERNAL | _, _ => r1 end.
(** Its name, or the rejection of two different given names. *)
Definition merged_name (k1 k2 : string) (name : option string) : option string :=
  match name with
  | Some n => Some n
  | None => if auto_key k1 then if auto_key k2 then Some k1 else Some k2
            else if auto_key k2 then Some k1 else None
  end.

Definition role_phase (s : conns) (connection1 connection2 c1 c2 : nat) (k1 : string) : res conns :=
  if mem connection2 (dvals (roles s OUTPUT)) then
    bind (if negb (dmem k1 (roles s OUTPUT)) then set_connection_type s connection1 OUTPUT true else Ok s)
         (fun s => if dmem k1 (roles s INPUT) then set_connection_type s c1 INTERNAL true else Ok s)
  else if mem c2 (dvals (roles s INTERNAL)) && dmem k1 (roles s INPUT)
       then set_connection_type s c1 INTERNAL true else Ok s.
Lemma role_phase_ok s c1 c2 k1 k2 r1 r2 : inv s -> listed s c1 k1 r1 -> listed s c2 k2 r2 -> c1 <> c2 ->
  (exists s', role_phase s c1 c2 c1 c2 k1 = Ok s' /\ inv s' /\ relabel s s' c1 k1 (merged_role r1 r2) /\
     name_of s' = name_of s /\ edge_of s' = edge_of s /\ meta s' = meta s) \/
  (role_phase s c1 c2 c1 c2 k1 = Err KeyError /\ r2 = OUTPUT /\ r1 <> OUTPUT /\ auto_key k1 = true).
Proof.
  intros I H1 H2 Hne. unfold role_phase.
  assert (Hmo := mem_dvals s c2 k2 r2 OUTPUT I H2). assert (Hmi := mem_dvals s c2 k2 r2 INTERNAL I H2).
  assert (Hdo := dmem_role s c1 k1 r1 OUTPUT I H1). assert (Hdi := dmem_role s c1 k1 r1 INPUT I H1).
  assert (Same : forall t, t = r1 -> relabel s s c1 k1 t).
  { intros t -> c' k' r'. split.
    - intros H. destruct (string_dec k' k1) as [->|]; auto. left. destruct (i_one _ I _ _ _ _ _ H1 H). auto.
    - intros [(-> & -> & ->)|[_ H]]; auto. }
  assert (Attrs : forall s' c t b, set_connection_type s c t b = Ok s' -> name_of s' = name_of s /\ edge_of s' = edge_of s /\ meta s' = meta s).
  { intros s' c t b E. unfold set_connection_type in E. destruct (key_of_conn s c); [cbn [bind] in E|discriminate].
    destruct (_ && _)%bool; [discriminate|]. injection E as <-. auto. }
  destruct (mem c2 (dvals (roles s OUTPUT))) eqn:E2.
  - assert (r2 = OUTPUT) by (symmetry; apply Hmo; auto). subst r2. cbn [merged_role].
    destruct (dmem k1 (roles s OUTPUT)) eqn:E1; cbn [negb].
    + assert (r1 = OUTPUT) by (symmetry; apply Hdo; auto). subst r1. cbn [bind].
      destruct (dmem k1 (roles s INPUT)) eqn:E3; [exfalso; assert (INPUT = OUTPUT) by (apply Hdi; auto); discriminate|].
      left. exists s. split; [reflexivity|]. split; [exact I|]. split; [apply Same; reflexivity|auto].
    + assert (r1 <> OUTPUT). { intros ->. assert (X : false = true) by (apply Hdo; auto). discriminate. }
      destruct (set_type_error s c1 k1 r1 OUTPUT true I H1) as [[s' E]|(E & _ & _ & Ea)]; rewrite E; cbn [bind]; auto.
      destruct (set_type_member _ _ _ _ _ _ _ I H1 E) as [I' R].
      assert (X : dmem k1 (roles s' INPUT) = false).
      { destruct (dmem k1 (roles s' INPUT)) eqn:X; auto. exfalso.
        assert (L : listed s' c1 k1 OUTPUT) by (apply R; auto).
        assert (INPUT = OUTPUT) by (eapply dmem_role; eauto). discriminate. }
      rewrite X. left. exists s'. split; auto. split; auto. split; auto. eapply Attrs; eauto.
  - assert (r2 <> OUTPUT). { intros ->. assert (X : false = true) by (apply Hmo; auto). discriminate. }
    destruct (mem c2 (dvals (roles s INTERNAL))) eqn:E3; cbn [andb].
    + assert (r2 = INTERNAL) by (symmetry; apply Hmi; auto). subst r2.
      destruct (dmem k1 (roles s INPUT)) eqn:E4.
      * assert (r1 = INPUT) by (symmetry; apply Hdi; auto). subst r1. cbn [merged_role].
        destruct (set_type_error s c1 k1 INPUT INTERNAL true I H1) as [[s' E]|(_ & _ & ? & _)]; [|discriminate].
        rewrite E. left. destruct (set_type_member _ _ _ _ _ _ _ I H1 E). exists s'. split; auto. split; auto. split; auto. eapply Attrs; eauto.
      * left. exists s. split; [reflexivity|]. split; [exact I|]. split; [|auto]. apply Same.
        assert (r1 <> INPUT). { intros ->. assert (X : false = true) by (apply Hdi; auto). discriminate. }
        destruct r1; auto; congruence.
    + left. exists s. split; [reflexivity|]. split; [exact I|]. split; [|auto]. apply Same.
      assert (r2 <> INTERNAL). { intros ->. assert (X : false = true) by (apply Hmi; auto). discriminate. }
      destruct r2, r1; auto; congruence.
Qed.

Theorem merge_pair_spec s c1 c2 k1 k2 r1 r2 name : inv s -> listed s c1 k1 r1 -> listed s c2 k2 r2 -> c1 <> c2 ->
  (forall n, name = Some n -> (auto_key n = false \/ n = k1) /\ forall c' r', listed s c' n r' -> c' = c1 \/ c' = c2) ->
  (snd (merge_pair s c1 c2 name) = Some KeyError /\ fst (merge_pair s c1 c2 name) = s /\ r2 = OUTPUT /\ r1 <> OUTPUT /\ auto_key k1 = true) \/
  (inv (fst (merge_pair s c1 c2 name)) /\
   match merged_name k1 k2 name with
   | None => snd (merge_pair s c1 c2 name) = Some KeyError /\
       forall c' k' r', listed (fst (merge_pair s c1 c2 name)) c' k' r' <->
         (c' = c1 /\ k' = k1 /\ r' = merged_role r1 r2) \/ (c' <> c1 /\ c' <> c2 /\ listed s c' k' r')
   | Some n => snd (merge_pair s c1 c2 name) = None /\
       forall c' k' r', listed (fst (merge_pair s c1 c2 name)) c' k' r' <->
         (c' = c1 /\ k' = n /\ r' = merged_role r1 r2) \/ (c' <> c1 /\ c' <> c2 /\ listed s c' k' r')
   end).
Proof.
  intros I H1 H2 Hne Hname.
  destruct (i_edge _ I _ _ _ H1) as (e1 & l1 & E1 & M1). destruct (i_edge _ I _ _ _ H2) as (e2 & l2 & E2 & M2).
  unfold merge_pair. rewrite E1, E2. unfold get_con_by_metadata. rewrite M1, M2.
  assert (N12 : eqb c1 c2 = false) by (apply eqb_neq; auto). rewrite N12.
  rewrite (i_name _ I _ _ _ H1), (i_name _ I _ _ _ H2). cbv zeta.
  fold (role_phase s c1 c2 c1 c2 k1).
  destruct (role_phase_ok s c1 c2 k1 k2 r1 r2 I H1 H2 Hne) as [(s1 & Er & I1 & R1 & An & Ae & Am)|(Er & Hr2 & Hr1 & Ha)];
    rewrite Er; cbn [lift fst snd]; [right|left; auto].
  assert (Hee : e1 <> e2) by (intros ->; congruence).
  assert (L1 : listed s1 c1 k1 (merged_role r1 r2)) by (apply R1; auto).
  assert (K12 : k1 <> k2). { intros ->. destruct (i_one _ I _ _ _ _ _ H1 H2). congruence. }
  assert (L2 : listed s1 c2 k2 r2) by (apply R1; right; auto).
  destruct (remove_member s1 c2 k2 r2 I1 L2) as (s2 & Erm & I2 & R2 & Bn & Be & Bm & Bk).
  assert (Erm' : remove_connection (match_edges s1 e1 e2) c2 = Ok (match_edges s2 e1 e2)).
  { unfold remove_connection in *. unfold key_of_conn in *.
    change (name_of (match_edges s1 e1 e2)) with (name_of s1). destruct (dget c2 (name_of s1)); cbn [bind] in *; [|discriminate].
    injection Erm as <-. reflexivity. }
  rewrite Erm'. cbn [lift].
  assert (Hc2 : ~ member s2 c2). { intros (k & r & H). apply R2 in H as [H _]. congruence. }
  assert (I3 : inv (match_edges s2 e1 e2)).
  { apply (match_edges_inv s2 e1 e2 c1 c2 l1 l2 I2 Hee Hc2); rewrite Bm, Am; auto. }
  assert (R3 : forall c' k' r', listed (match_edges s2 e1 e2) c' k' r' <->
             (c' = c1 /\ k' = k1 /\ r' = merged_role r1 r2) \/ (c' <> c1 /\ c' <> c2 /\ listed s c' k' r')).
  { intros c' k' r'. change (listed (match_edges s2 e1 e2) c' k' r') with (listed s2 c' k' r'). rewrite R2, (R1 c' k' r'). split.
    - intros [Hc [(-> & -> & ->)|[Hk Hl]]]; [auto|]. right. split; [|auto]. intros ->. exact (Hk (proj1 (listed_role _ _ _ _ _ _ I Hl H1))).
    - intros [(-> & -> & ->)|(Ha & Hb & Hl)]; [split; auto|]. split; auto. right. split; auto. intros ->.
      destruct (i_one _ I _ _ _ _ _ H1 Hl). congruence. }
  assert (L3 : listed (match_edges s2 e1 e2) c1 k1 (merged_role r1 r2)) by (apply R3; auto).
  (* renaming to [n] *)
  assert (Ren : forall n, (auto_key n = false \/ n = k1) -> (forall c' r', listed s c' n r' -> c' = c1 \/ c' = c2) ->
     exists s', rename_key (match_edges s2 e1 e2) c1 n false = Ok s' /\ inv s' /\
       forall c' k' r', listed s' c' k' r' <-> (c' = c1 /\ k' = n /\ r' = merged_role r1 r2) \/ (c' <> c1 /\ c' <> c2 /\ listed s c' k' r')).
  { intros n Hn Hfree.
    assert (Hf : false = false -> forall c' r', listed (match_edges s2 e1 e2) c' n r' -> c' = c1).
    { intros _ c' r' Hl. apply R3 in Hl as [(-> & _)|(Ha & Hb & Hl)]; auto. destruct (Hfree _ _ Hl); congruence. }
    destruct (rename_member _ c1 k1 _ n false I3 L3 Hn Hf) as [(s' & E & I' & _ & R')|(_ & ? & _)]; [|discriminate].
    exists s'. split; auto. split; auto. intros c' k' r'. rewrite R', R3. split.
    - intros [H|[Hc [(? & _)|H]]]; [auto | congruence | auto].
    - intros [H|(Ha & Hb & Hl)]; [auto|]. right. split; [exact Ha|]. right. auto. }
  destruct name as [n|].
  - destruct (Hname n eq_refl) as [Hn Hf]. destruct (Ren n Hn Hf) as (s' & E & I' & R'). rewrite E. cbn [lift fst snd merged_name]. auto.
  - unfold merged_name. destruct (auto_key k1) eqn:A1, (auto_key k2) eqn:A2; cbn [negb andb fst snd lift].
    + split; auto.
    + destruct (Ren k2) as (s' & E & I' & R'); [auto | intros c' r' Hl; right; destruct (i_one _ I _ _ _ _ _ H2 Hl); auto|].
      rewrite E. cbn [lift fst snd]. auto.
    + destruct (Ren k1) as (s' & E & I' & R'); [auto | intros c' r' Hl; left; destruct (i_one _ I _ _ _ _ _ H1 Hl); auto|].
      rewrite E. cbn [lift fst snd]. auto.
    + split; auto.
Qed.
