(** * Lemmas on the naming pass of a flattened model. *)
From Coq Require Import String Ascii List Arith Lia Bool ZArith.
From Verif Require Import PyBase PyStrings Names_Model Names_Proofs.
Import ListNotations.
Open Scope string_scope.
Open Scope list_scope.
Open Scope nat_scope.

Section Flat.
  Variable reserved : list string.

  (** ** Numbered names *)
  Definition keeps (s s' : fstate) : Prop :=
    store s' = store s /\ next s' = next s /\ assigned s' = assigned s /\ edges s' = edges s /\ external s' = external s.
  Definition idx (s : fstate) (o : string) : nat := match dget o (origins s) with Some i => S i | None => 0 end.

  Lemma next_unique_step o : forall fuel s,
    (exists i s', next_unique reserved fuel s o = Ok (suffixed o i, s') /\ keeps s s' /\ idx s o <= i /\
       ~ In (suffixed o i) (dkeys (assigned s)) /\ ~ In (suffixed o i) reserved /\
       (forall o', dget o' (origins s') = if eq_dec o' o then Some i else dget o' (origins s)) /\
       (dwf (origins s) -> dwf (origins s'))) \/
    (forall k, k < fuel -> In (suffixed o (idx s o + k)) (dkeys (assigned s) ++ reserved)).
  Proof.
    induction fuel as [|f IH]; intros s; [right; intros; lia|]. cbn [next_unique]. fold (idx s o).
    set (s1 := mkf (store s) (next s) (assigned s) (edges s) (dset o (idx s o) (origins s)) (external s)).
    destruct (dmem (suffixed o (idx s o)) (assigned s1) || mem (suffixed o (idx s o)) reserved) eqn:M.
    - assert (I1 : idx s1 o = S (idx s o)) by (unfold idx at 1, s1; simpl; rewrite dget_dset_same; auto).
      assert (T : In (suffixed o (idx s o)) (dkeys (assigned s) ++ reserved)).
      { apply in_app_iff. apply orb_true_iff in M. destruct M as [M|M]; [left; apply dmem_In; auto|right; apply mem_In; auto]. }
      destruct (IH s1) as [(i & s' & E & (A & B & C & D & F) & Li & N1 & N2 & G & W)|H].
      + left. exists i, s'. unfold s1 in *. simpl in *. split; auto. split; [repeat split; auto|]. split; [lia|]. split; auto. split; auto. split.
        * intros o'. rewrite G. destruct (eq_dec o' o); auto. apply dget_dset_other; auto.
        * intros X. apply W, dwf_dset, X.
      + right. intros [|k] Hk; [rewrite Nat.add_0_r; auto|]. replace (idx s o + S k) with (idx s1 o + k) by lia. apply H. lia.
    - apply orb_false_iff in M. destruct M as (M1 & M2). left. exists (idx s o), s1. split; auto. split; [repeat split; auto|]. split; auto.
      split; [intros I; apply dmem_In in I; unfold s1 in M1; simpl in M1; congruence|]. split; [apply mem_not_In; auto|]. split.
      + intros o'. unfold s1. simpl. rewrite dget_dset. auto.
      + intros W. apply dwf_dset, W.
  Qed.
  Lemma next_unique_ok s o :
    exists i s', get_next_unique_name reserved s o = Ok (suffixed o i, s') /\ keeps s s' /\ idx s o <= i /\
       ~ In (suffixed o i) (dkeys (assigned s)) /\ ~ In (suffixed o i) reserved /\
       (forall o', dget o' (origins s') = if eq_dec o' o then Some i else dget o' (origins s)) /\
       (dwf (origins s) -> dwf (origins s')).
  Proof.
    unfold get_next_unique_name. destruct (next_unique_step o (S (length (assigned s) + length reserved)) s) as [H|H]; auto.
    exfalso. assert (Nd : NoDup (map (fun k => suffixed o (idx s o + k)) (seq 0 (S (length (assigned s) + length reserved))))).
    { apply FinFun.Injective_map_NoDup; [|apply seq_NoDup]. intros a b E. apply suffixed_inj in E. lia. }
    apply NoDup_incl_length with (l' := dkeys (assigned s) ++ reserved) in Nd.
    - unfold dkeys in Nd. rewrite map_length, seq_length, app_length, map_length in Nd. lia.
    - intros x I. apply in_map_iff in I. destruct I as (k & <- & I). apply in_seq in I. apply H. lia.
  Qed.

  (** ** Underscores in front of a reserved name *)
  Fixpoint underscored (n : nat) (b : string) : string := match n with 0 => b | S n => underscored n ("_" ++ b)%string end.
  Lemma underscored_length n : forall b, String.length (underscored n b) = n + String.length b.
  Proof. induction n; intros b; simpl; auto. rewrite IHn. simpl. lia. Qed.
  Lemma unreserve_step : forall fuel b,
    (exists n, unreserve reserved fuel b = Ok (underscored n b) /\ ~ In (underscored n b) reserved /\ (n = 0 <-> ~ In b reserved)) \/
    (forall k, k <= fuel -> In (underscored k b) reserved).
  Proof.
    induction fuel as [|f IH]; intros b; simpl; destruct (mem b reserved) eqn:M.
    - right. intros k Hk. replace k with 0 by lia. apply mem_In; auto.
    - left. exists 0. apply mem_not_In in M. split; auto. split; auto. split; auto.
    - destruct (IH ("_" ++ b)%string) as [(n & E & N & Z)|H].
      + left. exists (S n). split; auto. split; auto. split; [lia|]. intros X. apply mem_In in M. contradiction.
      + right. intros [|k] Hk; [apply mem_In; auto|]. apply (H k). lia.
    - left. exists 0. apply mem_not_In in M. split; auto. split; auto. split; auto.
  Qed.
  Lemma unreserve_ok b : exists n, unreserve reserved (length reserved) b = Ok (underscored n b) /\
    ~ In (underscored n b) reserved /\ (n = 0 <-> ~ In b reserved).
  Proof.
    destruct (unreserve_step (length reserved) b) as [H|H]; auto. exfalso.
    assert (Nd : NoDup (map (fun k => underscored k b) (seq 0 (S (length reserved))))).
    { apply FinFun.Injective_map_NoDup; [|apply seq_NoDup]. intros x y E. apply (f_equal String.length) in E. rewrite !underscored_length in E. lia. }
    apply NoDup_incl_length with (l' := reserved) in Nd.
    - rewrite map_length, seq_length in Nd. lia.
    - intros x I. apply in_map_iff in I. destruct I as (k & <- & I). apply in_seq in I. apply H. lia.
  Qed.

  (** ** Specification of the inputs *)
  Variable xs : list extconn.
  Variable cs : list (nat * string).
  Definition key_origins : list string := map x_origin xs ++ map snd cs.
  Definition named_keys (l : list extconn) : list string := map x_key (filter (fun x => negb (autogenerated (x_key x))) l).
  Definition alone (o : string) : Prop := count_occ string_dec (map x_origin xs) o <= 1.
  Record proviso : Prop := {
    p_keys : NoDup (map x_key xs);
    p_alone : forall x, In x xs -> autogenerated (x_key x) = true -> alone (x_origin x) -> ~ In (x_origin x) (named_keys xs);
    p_number : forall t o i, In t (named_keys xs ++ key_origins) -> In o key_origins -> t <> suffixed o i;
    p_under : forall b n, In b key_origins -> In b reserved ->
       ~ In (underscored (S n) b) (named_keys xs ++ key_origins) /\ (forall o i, In o key_origins -> underscored (S n) b <> suffixed o i);
    p_under_inj : forall b b' n n', In b key_origins -> In b' key_origins -> In b reserved -> In b' reserved ->
       underscored (S n) b = underscored (S n') b' -> b = b'
  }.
  Hypothesis P : proviso.

  (** ** Invariant *)
  Record core (s : fstate) : Prop := {
    c_bij : forall t n, dget t (assigned s) = Some n <-> dget n (store s) = Some t;
    c_lt : forall n t, dget n (store s) = Some t -> n < next s;
    c_edge : forall e n, dget e (edges s) = Some n -> exists t, dget n (store s) = Some t;
    c_inj : forall e e' n, dget e (edges s) = Some n -> dget e' (edges s) = Some n -> e = e';
    c_int : forall e n t, dget e (edges s) = Some n -> ~ In e (map x_edge xs) -> dget n (store s) = Some t -> ~ In t reserved;
    c_extr : forall k n, dget k (external s) = Some n -> n < next s;
    c_wf : dwf (assigned s)
  }.
  Lemma core_create s t e og ex : core s -> ~ In t (dkeys (assigned s)) -> (In e (map x_edge xs) \/ ~ In t reserved) ->
    (forall k n, dget k ex = Some n -> n <= next s) ->
    core (mkf (dset (next s) t (store s)) (S (next s)) (dset t (next s) (assigned s)) (dset e (next s) (edges s)) og ex).
  Proof.
    intros C F Ei Hx. destruct C as [bij lt ed inj int er wf]. apply dget_None in F. constructor; simpl; auto.
    - intros t' n'. rewrite !dget_dset. destruct (eq_dec t' t) as [->|N], (eq_dec n' (next s)) as [->|M]; try tauto.
      + split; [congruence|]. intros X. apply bij in X. congruence.
      + split; [|congruence]. intros X. apply bij, lt in X. lia.
      + apply bij.
    - intros n' t'. rewrite dget_dset. destruct (eq_dec n' (next s)) as [->|]; [lia|]. intros X. apply lt in X. lia.
    - intros e' n'. rewrite !dget_dset. destruct (eq_dec e' e) as [->|].
      + intros X. injection X as <-. destruct (eq_dec (next s) (next s)); [eauto|congruence].
      + intros X. apply ed in X. destruct X as (t' & X). destruct (eq_dec n' (next s)) as [->|]; eauto.
    - intros a b n'. rewrite !dget_dset. destruct (eq_dec a e) as [->|], (eq_dec b e) as [->|]; auto; intros X Y.
      + injection X as <-. apply ed in Y. destruct Y as (t' & Y). apply lt in Y. lia.
      + injection Y as <-. apply ed in X. destruct X as (t' & X). apply lt in X. lia.
      + eapply inj; eauto.
    - intros e' n' t'. rewrite !dget_dset. destruct (eq_dec e' e) as [->|].
      + intros X Ne. injection X as <-. destruct (eq_dec (next s) (next s)); [|congruence]. intros X. injection X as <-. tauto.
      + intros X Ne. destruct (eq_dec n' (next s)) as [->|]; [|eauto].
        apply ed in X. destruct X as (t2 & X). apply lt in X. lia.
    - intros k n' X. apply Hx in X. lia.
    - apply dwf_dset; auto.
  Qed.

  Definition ext_has (s : fstate) (k t : string) : Prop := exists n, dget k (external s) = Some n /\ dget n (store s) = Some t.
  Record inv (done : list extconn) (s : fstate) : Prop := {
    i_core : core s;
    i_text : forall t, In t (dkeys (assigned s)) ->
      In t (named_keys done) \/ (exists x, In x done /\ autogenerated (x_key x) = true /\ alone (x_origin x) /\ t = x_origin x) \/
      (exists o i, In o key_origins /\ t = suffixed o i);
    i_orig : forall o i, dget o (origins s) = Some i -> In o key_origins /\ In (suffixed o i) (dkeys (assigned s));
    i_wf : dwf (origins s);
    i_named : forall x, In x done -> autogenerated (x_key x) = false -> ext_has s (x_key x) (x_key x);
    i_alone : forall x, In x done -> autogenerated (x_key x) = true -> alone (x_origin x) -> ext_has s (x_key x) (x_origin x);
    i_edges : forall x, In x done -> In (x_edge x) (dkeys (edges s))
  }.
  Lemma In_named x done : In x done -> autogenerated (x_key x) = false -> In (x_key x) (named_keys done).
  Proof. intros I A. unfold named_keys. apply in_map, filter_In. rewrite A. auto. Qed.
  Lemma named_In t done : In t (named_keys done) -> exists x, In x done /\ autogenerated (x_key x) = false /\ t = x_key x.
  Proof.
    unfold named_keys. rewrite in_map_iff. intros (x & <- & I). apply filter_In in I. destruct I as (I & A). exists x.
    rewrite negb_true_iff in A. auto.
  Qed.
  Lemma named_app a b : named_keys (a ++ b) = named_keys a ++ named_keys b.
  Proof. unfold named_keys. rewrite filter_app, map_app. auto. Qed.
  Lemma dkeys_dset_In {V} (k k' : string) (v : V) d : In k (dkeys (dset k' v d)) <-> k = k' \/ In k (dkeys d).
  Proof.
    rewrite dkeys_dset. destruct (dmem k' d) eqn:M.
    - apply dmem_In in M. split; [auto|]. intros [->|]; auto.
    - rewrite in_app_iff. simpl. split; [intros [|[->|[]]]; auto|intros [->|]; auto].
  Qed.
  Lemma dkeys_dset_In_nat {V} (k k' : nat) (v : V) d : In k (dkeys (dset k' v d)) <-> k = k' \/ In k (dkeys d).
  Proof.
    rewrite dkeys_dset. destruct (dmem k' d) eqn:M.
    - apply dmem_In in M. split; [auto|]. intros [->|]; auto.
    - rewrite in_app_iff. simpl. split; [intros [|[->|[]]]; auto|intros [->|]; auto].
  Qed.
  Lemma count_spec o : match dget o (count_key_origins xs) with Some n => n | None => 0 end = count_occ string_dec (map x_origin xs) o.
  Proof.
    clear P. unfold count_key_origins. induction xs as [|x l IH] using rev_ind; auto.
    rewrite fold_left_app, map_app, count_occ_app. cbn [fold_left map count_occ]. rewrite dget_dset.
    destruct (eq_dec o (x_origin x)) as [->|N].
    - destruct (string_dec (x_origin x) (x_origin x)); [|congruence]. rewrite IH. lia.
    - destruct (string_dec (x_origin x) o); [congruence|]. rewrite IH. lia.
  Qed.

  (** Adding an external under a fresh text keeps everything known about the earlier ones. *)
  Lemma ext_keep s k t e og key : core s -> ~ In t (dkeys (assigned s)) -> k <> key -> forall t0, ext_has s k t0 ->
    ext_has (mkf (dset (next s) t (store s)) (S (next s)) (dset t (next s) (assigned s)) (dset e (next s) (edges s)) og
                 (dset key (next s) (external s))) k t0.
  Proof.
    intros C F Nk t0 (n & A & B). exists n. simpl. rewrite dget_dset_other by auto. split; auto.
    rewrite dget_dset_other; auto. apply (c_lt _ C) in B. lia.
  Qed.
  Lemma ext_new s t e og key :
    ext_has (mkf (dset (next s) t (store s)) (S (next s)) (dset t (next s) (assigned s)) (dset e (next s) (edges s)) og
                 (dset key (next s) (external s))) key t.
  Proof. exists (next s). simpl. rewrite !dget_dset_same. auto. Qed.

  Lemma alone_dec o : alone o \/ 1 < count_occ string_dec (map x_origin xs) o.
  Proof. unfold alone. lia. Qed.

  Lemma name_external_inv done x rest s : xs = done ++ x :: rest -> inv done s ->
    exists s', name_external reserved (count_key_origins xs) s x = Ok s' /\ inv (done ++ [x]) s'.
  Proof.
    intros Ex I. destruct I as [C T Or W Nm Al Ed].
    assert (Ixs : forall y, In y done -> In y xs) by (intros; rewrite Ex; apply in_app_iff; auto).
    assert (Ix : In x xs) by (rewrite Ex; apply in_app_iff; simpl; auto).
    assert (Nk : forall y, In y done -> x_key y <> x_key x).
    { intros y Iy E. pose proof (p_keys P) as Nd. rewrite Ex, map_app in Nd. simpl in Nd. apply NoDup_remove_2 in Nd. apply Nd.
      apply in_app_iff. left. rewrite <- E. apply in_map; auto. }
    assert (Ixe : In (x_edge x) (map x_edge xs)) by (apply in_map; auto).
    assert (Ox : In (x_origin x) key_origins) by (apply in_app_iff; left; apply in_map; auto).
    assert (Hex : forall key k n, dget k (dset key (next s) (external s)) = Some n -> n <= next s).
    { intros key k n. rewrite dget_dset. destruct (eq_dec k key); [intros E; injection E as <-; auto|]. intros E. apply (c_extr _ C) in E. lia. }
    unfold name_external. destruct (autogenerated (x_key x)) eqn:A; cbn [negb].
    - rewrite count_spec. destruct (alone_dec (x_origin x)) as [Al1|Many].
      + (* the key origin itself *)
        assert (L : (1 <? count_occ string_dec (map x_origin xs) (x_origin x)) = false) by (apply Nat.ltb_ge; exact Al1).
        rewrite L. cbn [bind fst snd create_name]. eexists. split; [reflexivity|]. unfold set_external. simpl.
        assert (F : ~ In (x_origin x) (dkeys (assigned s))).
        { intros F. apply T in F. destruct F as [F|[(y & Iy & Ay & Aly & Ey)|(o & i & Io & Ei)]].
          - apply (p_alone P x Ix A Al1). rewrite Ex, named_app. apply in_app_iff. auto.
          - unfold alone in Aly. rewrite <- Ey, Ex, map_app, count_occ_app in Aly. cbn [map count_occ] in Aly.
            destruct (string_dec (x_origin x) (x_origin x)); [|congruence].
            assert (J : In (x_origin x) (map x_origin done)) by (rewrite Ey; apply in_map; auto).
            apply (count_occ_In string_dec) in J. lia.
          - apply (p_number P (x_origin x) o i); auto. apply in_app_iff. auto. }
        constructor; simpl.
        * apply core_create; auto; apply Hex.
        * intros t J. apply dkeys_dset_In in J. destruct J as [->|J].
          -- right. left. exists x. split; [apply in_app_iff; simpl; auto|]. auto.
          -- apply T in J. rewrite named_app. destruct J as [J|[(y & Iy & R)|J]]; auto.
             ++ left. apply in_app_iff. auto.
             ++ right. left. exists y. split; [apply in_app_iff; auto|auto].
        * intros o i J. apply Or in J. destruct J as (J1 & J2). split; auto. apply dkeys_dset_In. auto.
        * auto.
        * intros y Iy Ay. apply in_app_iff in Iy. destruct Iy as [Iy|[<-|[]]]; [|congruence]. apply ext_keep; auto.
        * intros y Iy Ay Aly. apply in_app_iff in Iy. destruct Iy as [Iy|[<-|[]]]; [apply ext_keep; auto|apply ext_new].
        * intros y Iy. apply dkeys_dset_In_nat. apply in_app_iff in Iy. destruct Iy as [Iy|[<-|[]]]; auto.
      + (* a numbered name *)
        apply Nat.ltb_lt in Many. rewrite Many.
        destruct (next_unique_ok s (x_origin x)) as (i & s1 & E & (K1 & K2 & K3 & K4 & K5) & Li & N1 & N2 & G & Wf). rewrite E. cbn [bind fst snd create_name].
        eexists. split; [reflexivity|]. unfold set_external. simpl. rewrite K1, K2, K3, K4, K5.
        constructor; simpl.
        * apply core_create; auto; apply Hex.
        * intros t J. apply dkeys_dset_In in J. destruct J as [->|J]; [right; right; eauto|].
          apply T in J. rewrite named_app. destruct J as [J|[(y & Iy & R)|J]]; auto.
          -- left. apply in_app_iff. auto.
          -- right. left. exists y. split; [apply in_app_iff; auto|auto].
        * intros o j J. rewrite G in J. destruct (eq_dec o (x_origin x)) as [->|].
          -- injection J as <-. split; auto. apply dkeys_dset_In. auto.
          -- apply Or in J. destruct J as (J1 & J2). split; auto. apply dkeys_dset_In. auto.
        * auto.
        * intros y Iy Ay. apply in_app_iff in Iy. destruct Iy as [Iy|[<-|[]]]; [|congruence]. apply ext_keep; auto.
        * intros y Iy Ay Aly. apply in_app_iff in Iy. destruct Iy as [Iy|[<-|[]]]; [apply ext_keep; auto|].
          apply Nat.ltb_lt in Many. unfold alone in Aly. lia.
        * intros y Iy. apply dkeys_dset_In_nat. apply in_app_iff in Iy. destruct Iy as [Iy|[<-|[]]]; auto.
    - (* a named key *)
      cbn [create_name]. eexists. split; [reflexivity|]. unfold set_external. simpl.
      assert (Nx : In (x_key x) (named_keys xs)) by (apply In_named; auto).
      assert (F : ~ In (x_key x) (dkeys (assigned s))).
      { intros F. apply T in F. destruct F as [F|[(y & Iy & Ay & Aly & Ey)|(o & i & Io & Ei)]].
        - apply named_In in F. destruct F as (y & Iy & _ & Ey). apply (Nk y Iy). auto.
        - apply (p_alone P y (Ixs y Iy) Ay Aly). rewrite <- Ey. auto.
        - apply (p_number P (x_key x) o i); auto. apply in_app_iff. auto. }
      constructor; simpl.
      * apply core_create; auto; apply Hex.
      * intros t J. apply dkeys_dset_In in J. rewrite named_app. destruct J as [->|J].
        -- left. apply in_app_iff. right. apply In_named; simpl; auto.
        -- apply T in J. destruct J as [J|[(y & Iy & R)|J]]; auto.
           ++ left. apply in_app_iff. auto.
           ++ right. left. exists y. split; [apply in_app_iff; auto|auto].
      * intros o i J. apply Or in J. destruct J as (J1 & J2). split; auto. apply dkeys_dset_In. auto.
      * auto.
      * intros y Iy Ay. apply in_app_iff in Iy. destruct Iy as [Iy|[<-|[]]]; [apply ext_keep; auto|apply ext_new].
      * intros y Iy Ay Aly. apply in_app_iff in Iy. destruct Iy as [Iy|[<-|[]]]; [|congruence]. apply ext_keep; auto.
      * intros y Iy. apply dkeys_dset_In_nat. apply in_app_iff in Iy. destruct Iy as [Iy|[<-|[]]]; auto.
  Qed.

  Lemma name_externals_inv : exists s, name_externals reserved xs empty_state = Ok s /\ inv xs s.
  Proof.
    unfold name_externals.
    assert (G : forall rest done s, xs = done ++ rest -> inv done s ->
       exists s', foldM (name_external reserved (count_key_origins xs)) rest s = Ok s' /\ inv xs s').
    { induction rest as [|x r IH]; intros done s Ex I.
      - exists s. rewrite app_nil_r in Ex. subst done. auto.
      - destruct (name_external_inv done x r s Ex I) as (s1 & E & I1). cbn [foldM]. rewrite E. cbn [bind].
        apply (IH (done ++ [x]) s1); auto. rewrite <- app_assoc. auto. }
    apply (G xs []); auto. constructor; simpl; try tauto; try discriminate; [|constructor].
    constructor; simpl; try discriminate; try tauto; [split; discriminate|constructor].
  Qed.

  (** ** Connections of the primitives *)
  Lemma name_conn_inv s eo : In eo cs -> inv xs s -> exists s', name_conn reserved s eo = Ok s' /\ inv xs s' /\ In (fst eo) (dkeys (edges s')) /\
    (forall e, In e (dkeys (edges s)) -> In e (dkeys (edges s'))).
  Proof.
    intros Ic I. destruct eo as (e & o). unfold name_conn. destruct (dget e (edges s)) as [n|] eqn:D.
    - exists s. split; auto. split; auto. split; auto. simpl. apply dget_In in D. unfold dkeys. apply in_map_iff. exists (e, n). auto.
    - destruct I as [C T Or W Nm Al Ed].
      assert (Oo : In o key_origins) by (apply in_app_iff; right; apply in_map_iff; exists (e, o); auto).
      destruct (next_unique_ok s o) as (i & s1 & E & (K1 & K2 & K3 & K4 & K5) & Li & N1 & N2 & G & Wf). rewrite E. cbn [bind fst snd create_name].
      eexists. split; [reflexivity|]. simpl. rewrite K1, K2, K3, K4, K5.
      assert (Kp : forall k t og, ext_has s k t -> ext_has (mkf (dset (next s) (suffixed o i) (store s)) (S (next s))
                 (dset (suffixed o i) (next s) (assigned s)) (dset e (next s) (edges s)) og (external s)) k t).
      { intros k t og (n & A & B). exists n. simpl. split; auto. rewrite dget_dset_other; auto. apply (c_lt _ C) in B. lia. }
      split; [|split; [apply dkeys_dset_In_nat; auto|intros e' J; apply dkeys_dset_In_nat; auto]]. constructor; simpl.
      + apply core_create; auto. intros k n X. apply (c_extr _ C) in X. lia.
      + intros t J. apply dkeys_dset_In in J. destruct J as [->|J]; [right; right; eauto|]. apply T in J. auto.
      + intros o' j J. rewrite G in J. destruct (eq_dec o' o) as [->|].
        * injection J as <-. split; auto. apply dkeys_dset_In. auto.
        * apply Or in J. destruct J as (J1 & J2). split; auto. apply dkeys_dset_In. auto.
      + auto.
      + intros x Ix Ax. apply Kp; auto.
      + intros x Ix Ax Alx. apply Kp; auto.
      + intros x Ix. apply dkeys_dset_In_nat. auto.
  Qed.
  Lemma name_conns_inv : forall l s, incl l cs -> inv xs s -> exists s', foldM (name_conn reserved) l s = Ok s' /\ inv xs s' /\
    (forall e, In e (dkeys (edges s)) \/ In e (map fst l) -> In e (dkeys (edges s'))).
  Proof.
    induction l as [|eo l IH]; intros s Hl I.
    - exists s. split; auto. split; auto. simpl. intros e [|[]]; auto.
    - destruct (name_conn_inv s eo (Hl _ (or_introl eq_refl)) I) as (s1 & E & I1 & A & B). cbn [foldM]. rewrite E. cbn [bind].
      destruct (IH s1) as (s2 & E2 & I2 & H2); auto. { intros x Hx. apply Hl. simpl; auto. }
      exists s2. split; auto. split; auto. simpl. intros e [J|[<-|J]]; apply H2; auto.
  Qed.

  (** ** Rebasing *)
  Record rinv (todo : list (string * nat)) (s : fstate) : Prop := {
    r_core : core s;
    r_text : forall t, In t (dkeys (assigned s)) ->
      In t (named_keys xs) \/ (exists x, In x xs /\ autogenerated (x_key x) = true /\ alone (x_origin x) /\ t = x_origin x) \/
      (exists o i, In o key_origins /\ t = suffixed o i) \/
      (exists o n, In o key_origins /\ ~ In o (map fst todo) /\ (n = 0 <-> ~ In o reserved) /\ t = underscored n o);
    r_todo : forall o, In (o, 0) todo -> In (suffixed o 0) (dkeys (assigned s));
    r_in : forall o i, In (o, i) todo -> In o key_origins;
    r_named : forall x, In x xs -> autogenerated (x_key x) = false -> ext_has s (x_key x) (x_key x);
    r_alone : forall x, In x xs -> autogenerated (x_key x) = true -> alone (x_origin x) -> ext_has s (x_key x) (x_origin x)
  }.
  Lemma ext_has_keys s k t : ext_has s k t -> In t (external_keys s).
  Proof.
    intros (n & A & B). unfold external_keys. apply in_flat_map. exists n. rewrite B. simpl. split; auto.
    apply dget_In in A. unfold dvals. apply in_map_iff. exists (k, n). auto.
  Qed.
  Lemma rebase_one_inv s b i todo : NoDup (b :: map fst todo) -> rinv ((b, i) :: todo) s ->
    exists s', rebase_one reserved s (b, i) = Ok s' /\ rinv todo s' /\ dkeys (edges s') = dkeys (edges s).
  Proof.
    intros Nd R. destruct R as [C T Td Ti Nm Al]. inversion Nd as [|? ? Nb Nd']; subst.
    unfold rebase_one. destruct (Nat.eqb i 0 && negb (mem b (external_keys s))) eqn:G.
    - apply andb_true_iff in G. destruct G as (G1 & G2). apply Nat.eqb_eq in G1. subst i. rewrite negb_true_iff in G2. apply mem_not_In in G2.
      assert (Ob : In b key_origins) by (apply (Ti b 0); simpl; auto).
      destruct (unreserve_ok b) as (n & Eu & Nr & Zn). rewrite Eu. cbn [bind].
      assert (Ih : In (suffixed b 0) (dkeys (assigned s))) by (apply Td; simpl; auto).
      destruct (dget (suffixed b 0) (assigned s)) as [nid|] eqn:D; [|apply dget_None in D; contradiction].
      eexists. split; [reflexivity|]. split; [|auto].
      pose proof (proj1 (c_bij _ C _ _) D) as Sn.
      set (b' := underscored n b) in *.
      (* the new text is not in use *)
      assert (Fb : ~ In b' (dkeys (assigned s))).
      { intros J. apply T in J.
        assert (Cases : (n = 0 /\ b' = b) \/ (exists m, n = S m /\ In b reserved)).
        { destruct n as [|m]; [left; auto|right]. exists m. split; auto. destruct (in_dec string_dec b reserved) as [|N]; auto.
          apply Zn in N. discriminate. }
        destruct J as [J|[(x & Ix & Ax & Alx & Ex)|[(o & i & Io & Ei)|(o & k & Io & No & Zk & Ek)]]].
        - destruct Cases as [(_ & Eb)|(m & En & Rb)].
          + rewrite Eb in J. apply named_In in J. destruct J as (x & Ix & Ax & Ex). apply G2. rewrite Ex. eapply ext_has_keys. apply Nm; auto.
          + unfold b' in J. rewrite En in J. apply (proj1 (p_under P b m Ob Rb)). apply in_app_iff. auto.
        - destruct Cases as [(_ & Eb)|(m & En & Rb)].
          + apply G2. rewrite <- Eb, Ex. eapply ext_has_keys. apply Al; auto.
          + unfold b' in Ex. rewrite En in Ex. apply (proj1 (p_under P b m Ob Rb)). apply in_app_iff. right. rewrite Ex.
            apply in_app_iff. left. apply in_map; auto.
        - destruct Cases as [(_ & Eb)|(m & En & Rb)].
          + rewrite Eb in Ei. apply (p_number P b o i); auto. apply in_app_iff. auto.
          + unfold b' in Ei. rewrite En in Ei. apply (proj2 (p_under P b m Ob Rb) o i); auto.
        - assert (Nob : o <> b). { intros ->. apply No. simpl. auto. }
          destruct Cases as [(_ & Eb)|(m & En & Rb)]; destruct k as [|k].
          + simpl in Ek. congruence.
          + assert (Ro : In o reserved). { destruct (in_dec string_dec o reserved) as [|N]; auto. apply Zk in N. discriminate. }
            apply (proj1 (p_under P o k Io Ro)). rewrite <- Ek, Eb. apply in_app_iff. auto.
          + unfold b' in Ek. rewrite En in Ek. cbn [underscored] in Ek. apply (proj1 (p_under P b m Ob Rb)). cbn [underscored]. rewrite Ek. apply in_app_iff. auto.
          + assert (Ro : In o reserved). { destruct (in_dec string_dec o reserved) as [|N]; auto. apply Zk in N. discriminate. }
            unfold b' in Ek. rewrite En in Ek. apply Nob. symmetry. eapply (p_under_inj P b o m k); auto. }
      assert (Nbb : b' <> suffixed b 0). { intros E. apply Fb. rewrite E. auto. }
      assert (Get : forall t, dget t (dset b' nid (ddel (suffixed b 0) (assigned s))) =
                     if eq_dec t b' then Some nid else if eq_dec t (suffixed b 0) then dget t (ddel (suffixed b 0) (assigned s)) else dget t (assigned s)).
      { intros t. rewrite dget_dset. destruct (eq_dec t b'); auto. destruct (eq_dec t (suffixed b 0)) as [->|]; auto. rewrite dget_ddel_other; auto. }
      assert (Gone : dget (suffixed b 0) (ddel (suffixed b 0) (assigned s)) = None).
      { apply dget_ddel_same. apply (c_wf _ C). }
      set (asg := dset b' nid (ddel (suffixed b 0) (assigned s))) in *.
      assert (Kin : forall t, In t (dkeys asg) <-> t = b' \/ (t <> suffixed b 0 /\ In t (dkeys (assigned s)))).
      { intros t. rewrite <- dmem_In. unfold dmem. rewrite Get. destruct (eq_dec t b') as [->|Nt]; [tauto|].
        destruct (eq_dec t (suffixed b 0)) as [->|Nt2].
        - rewrite Gone. split; [discriminate|]. intros [|(X & _)]; congruence.
        - rewrite <- dmem_In. unfold dmem. destruct (dget t (assigned s)); split; auto; try discriminate; try tauto. }
      assert (Keep : forall k t, (forall i, t <> suffixed b i) -> ext_has s k t ->
                ext_has (mkf (dset nid b' (store s)) (next s) asg (edges s) (origins s) (external s)) k t).
      { intros k t Nt (m & A & B). exists m. simpl. split; auto. rewrite dget_dset. destruct (eq_dec m nid) as [->|]; auto.
        rewrite Sn in B. injection B as <-. exfalso. apply (Nt 0). auto. }
      constructor; simpl.
      + destruct C as [bij lt ed inj int er wf]. constructor; simpl; auto.
        * intros t m. rewrite Get, dget_dset. destruct (eq_dec t b') as [->|Nt], (eq_dec m nid) as [->|Nm'].
          -- tauto.
          -- split; [congruence|]. intros X. apply bij in X. apply dget_In in X. exfalso. apply Fb. unfold dkeys. apply in_map_iff. exists (b', m). auto.
          -- split; [|congruence]. destruct (eq_dec t (suffixed b 0)) as [->|Nt2]; [congruence|]. intros X. apply bij in X. congruence.
          -- destruct (eq_dec t (suffixed b 0)) as [->|Nt2]; [|apply bij]. split; [congruence|]. intros X. apply bij in X. congruence.
        * intros m t. rewrite dget_dset. destruct (eq_dec m nid) as [->|]; [|apply lt]. intros _. eapply lt; eauto.
        * intros e m X. apply ed in X. destruct X as (t & X). rewrite dget_dset. destruct (eq_dec m nid); eauto.
        * intros e m t X Ne. rewrite dget_dset. destruct (eq_dec m nid) as [->|]; [|eauto]. intros Y. injection Y as <-. auto.
        * apply dwf_dset, dwf_ddel; auto.
      + intros t J. apply Kin in J. destruct J as [->|(_ & J)].
        * right. right. right. exists b, n. auto.
        * apply T in J. destruct J as [J|[J|[J|(o & k & J1 & J2 & J3)]]]; auto.
          right. right. right. exists o, k. split; auto. split; auto. intros X. apply J2. simpl. auto.
      + intros o J. apply Kin. right. split; [|apply Td; simpl; auto]. intros E. apply suffixed_inj in E. destruct E as (-> & _).
        apply Nb. apply in_map_iff. exists (b, 0). auto.
      + intros o j J. apply (Ti o j). simpl; auto.
      + intros x Ix Ax. apply Keep; auto. intros j. apply (p_number P); auto. apply in_app_iff. left. apply In_named; auto.
      + intros x Ix Ax Alx. apply Keep; auto. intros j. apply (p_number P); auto. apply in_app_iff. right. apply in_app_iff. left. apply in_map; auto.
    - exists s. split; auto. split; [|auto]. constructor; auto.
      + intros t J. apply T in J. destruct J as [J|[J|[J|(o & n & J1 & J2 & J3)]]]; auto.
        right. right. right. exists o, n. split; auto. split; auto. intros X. apply J2. simpl. auto.
      + intros o J. apply Td. simpl. auto.
      + intros o j J. apply (Ti o j). simpl; auto.
  Qed.
  Lemma rebase_all : forall todo s, NoDup (map fst todo) -> rinv todo s ->
    exists s', foldM (rebase_one reserved) todo s = Ok s' /\ rinv [] s' /\ dkeys (edges s') = dkeys (edges s).
  Proof.
    induction todo as [|(b & i) r IH]; intros s Nd R.
    - exists s. auto.
    - destruct (rebase_one_inv s b i r Nd R) as (s1 & E & R1 & K1). cbn [foldM]. rewrite E. cbn [bind].
      inversion Nd; subst. destruct (IH s1) as (s2 & E2 & R2 & K2); auto. exists s2. split; auto. split; auto. congruence.
  Qed.

  Lemma flat_names_inv : exists s, flat_names reserved xs cs = Ok s /\ rinv [] s /\
    (forall e, In e (map x_edge xs) \/ In e (map fst cs) -> In e (dkeys (edges s))).
  Proof.
    unfold flat_names. destruct name_externals_inv as (s1 & E1 & I1). rewrite E1. cbn [bind].
    destruct (name_conns_inv cs s1 (incl_refl _) I1) as (s2 & E2 & I2 & H2). rewrite E2. cbn [bind].
    unfold rebase_names. destruct (rebase_all (origins s2) s2) as (s3 & E3 & R3 & K3).
    - apply (i_wf _ _ I2).
    - destruct I2 as [C T Or W Nm Al Ed]. constructor; auto.
      + intros t J. apply T in J. destruct J as [J|[J|J]]; auto.
      + intros o J. apply In_dget in J; auto. apply Or in J. apply J.
      + intros o i J. apply In_dget in J; auto. apply Or in J. apply J.
    - exists s3. split; auto. split; auto. intros e J. rewrite K3. apply H2. destruct J as [J|J]; auto. left.
      apply in_map_iff in J. destruct J as (x & <- & J). apply (i_edges _ _ I1); auto.
  Qed.
End Flat.
