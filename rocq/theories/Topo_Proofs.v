(** * Invariants of the topological ordering loop (flat_graph.py:176-206). *)
From Coq Require Import String Ascii List Arith Lia Bool Permutation.
From Verif Require Import PyBase PyStrings FlatGraph_Model.
Import ListNotations.
Open Scope string_scope.
Open Scope list_scope.
Open Scope nat_scope.

(** ** Sorting *)
Lemma str_insert_perm x l : Permutation (x :: l) (str_insert x l).
Proof.
  induction l as [|y l IH]; simpl; auto.
  destruct (str_leb x y); auto.
  eapply perm_trans; [apply perm_swap|]. constructor; auto.
Qed.
Lemma str_sort_perm l : Permutation l (str_sort l).
Proof.
  induction l as [|x l IH]; simpl; auto.
  eapply perm_trans; [apply perm_skip, IH | apply str_insert_perm].
Qed.
Lemma In_str_sort x l : In x (str_sort l) <-> In x l.
Proof.
  split; intros I; [apply (Permutation_in _ (Permutation_sym (str_sort_perm l))) |
                    apply (Permutation_in _ (str_sort_perm l))]; auto.
Qed.
Lemma length_str_sort l : length (str_sort l) = length l.
Proof. symmetry; apply Permutation_length, str_sort_perm. Qed.

Lemma str_leb_total a b : str_leb a b = true \/ str_leb b a = true.
Proof.
  revert b; induction a as [|x a IH]; intros [|y b]; simpl; auto.
  destruct (nat_of_ascii x <? nat_of_ascii y) eqn:E1; auto.
  destruct (nat_of_ascii y <? nat_of_ascii x) eqn:E2; auto.
Qed.
Lemma str_leb_antisym a b : str_leb a b = true -> str_leb b a = true -> a = b.
Proof.
  revert b; induction a as [|x a IH]; intros [|y b]; simpl; try congruence.
  destruct (nat_of_ascii x <? nat_of_ascii y) eqn:E1.
  - destruct (nat_of_ascii y <? nat_of_ascii x) eqn:E2.
    + apply Nat.ltb_lt in E1, E2; lia.
    + congruence.
  - destruct (nat_of_ascii y <? nat_of_ascii x) eqn:E2; [congruence|].
    intros H1 H2. apply Nat.ltb_ge in E1, E2.
    assert (x = y).
    { rewrite <- (ascii_nat_embedding x), <- (ascii_nat_embedding y). f_equal; lia. }
    subst; f_equal; auto.
Qed.
Lemma str_leb_cons x y a b :
  str_leb (String x a) (String y b) = true <->
  nat_of_ascii x < nat_of_ascii y \/ (nat_of_ascii x = nat_of_ascii y /\ str_leb a b = true).
Proof.
  simpl. destruct (Nat.ltb_spec (nat_of_ascii x) (nat_of_ascii y)); [intuition lia|].
  destruct (Nat.ltb_spec (nat_of_ascii y) (nat_of_ascii x)); intuition (lia || congruence).
Qed.
Lemma str_leb_trans a b c : str_leb a b = true -> str_leb b c = true -> str_leb a c = true.
Proof.
  revert b c; induction a as [|x a IH]; intros [|y b] [|z c]; try (simpl; congruence).
  rewrite !str_leb_cons. intros [H|[H H1]] [K|[K K1]]; try lia.
  right; split; [lia|eauto].
Qed.
Lemma str_insert_swap x y l : str_insert x (str_insert y l) = str_insert y (str_insert x l).
Proof.
  induction l as [|z l IH]; simpl.
  - destruct (str_leb x y) eqn:E1, (str_leb y x) eqn:E2; auto.
    + assert (x = y) by (apply str_leb_antisym; auto). subst; auto.
    + destruct (str_leb_total x y); congruence.
  - destruct (str_leb y z) eqn:Ey, (str_leb x z) eqn:Ex; simpl; rewrite ?Ey, ?Ex.
    + destruct (str_leb x y) eqn:E1, (str_leb y x) eqn:E2; auto.
      * assert (x = y) by (apply str_leb_antisym; auto). subst; auto.
      * destruct (str_leb_total x y); congruence.
    + destruct (str_leb x y) eqn:E1; auto.
      rewrite (str_leb_trans _ _ _ E1 Ey) in Ex; congruence.
    + destruct (str_leb y x) eqn:E1; auto.
      rewrite (str_leb_trans _ _ _ E1 Ex) in Ey; congruence.
    + f_equal; auto.
Qed.
Lemma str_sort_permut l l' : Permutation l l' -> str_sort l = str_sort l'.
Proof.
  induction 1; simpl; auto; try congruence. apply str_insert_swap.
Qed.

Section T.
  Context {V : Type}.
  Notation graph := (graph V).

  Definition src (g : graph) (k : string) : list string := get_source_keys k false g.
  Definition tgt (g : graph) (k : string) : list string := get_target_keys k false g.
  Definition opof (g : graph) (k : string) : option operator :=
    match dget k (conns g) with Some c => g_op c | None => None end.
  Definition roots (g : graph) : list string := rev (str_sort (sdiff (srcs g) (tgts g))).

  Lemma In_roots g k : In k (roots g) <-> In k (srcs g) /\ ~ In k (tgts g).
  Proof. unfold roots. rewrite <- in_rev, In_str_sort, In_sdiff. tauto. Qed.

  (** [visited] elements come from roots or from the emitted order. *)
  Section Run.
    Variables (manual : bool) (g : graph).

    Lemma topo_targets_spec visited ts : forall stack order st od,
      topo_targets manual g visited ts stack order = Ok (st, od) ->
      (exists new, st = new ++ stack /\ length new <= length ts /\
         forall t, In t new <-> In t ts /\ ~ In t visited /\
                               (forall s, In s (strip_cache manual (src g t)) -> In s visited)) /\
      (NoDup order -> NoDup od) /\
      (exists ext, od = order ++ ext /\
         forall t, In t ext -> In t ts /\ ~ In t visited /\
                               (forall s, In s (strip_cache manual (src g t)) -> In s visited)) /\
      (forall t, In t ts -> ~ In t visited ->
          (forall s, In s (strip_cache manual (src g t)) -> In s visited) -> In t od) .
    Proof.
      induction ts as [|t ts IH]; simpl; intros stack order st od E.
      - inversion E; subst. split; [exists []; simpl; intuition|]. split; auto. split; [|intuition].
        exists []; rewrite app_nil_r; simpl; intuition.
      - destruct (mem_spec t visited) as [Iv|Nv].
        + destruct (IH _ _ _ _ E) as ((new & E1 & L & N) & ND & (ext & E2 & X) & C).
          split. { exists new; split; auto. split; [lia|]. intros u; rewrite N. intuition (subst; tauto). }
          split; auto. split.
          { exists ext; split; auto. intros u I; destruct (X _ I) as (?&?&?); auto. }
          intros u [->|I] ? ?; [tauto|]. apply C; auto.
        + destruct (manual && match get_source_keys t false g with [] => true | _ :: _ => false end);
            [discriminate|].
          destruct (ssubset (strip_cache manual (get_source_keys t false g)) visited) eqn:Es.
          * pose proof (proj1 (ssubset_spec _ _) Es) as Sub.
            destruct (IH _ _ _ _ E) as ((new & E1 & L & N) & ND & (ext & E2 & X) & C).
            split.
            { exists (new ++ [t]). rewrite <- app_assoc; simpl. split; auto.
              rewrite app_length; simpl. split; [lia|].
              intros u; rewrite in_app_iff, N; simpl. intuition (subst; auto). }
            split. { intros H; apply ND, NoDup_sadd; auto. }
            split.
            { unfold sadd in E2. destruct (mem_spec t order).
              - exists ext; split; auto. intros u I; destruct (X _ I) as (?&?&?); auto.
              - exists (t :: ext). rewrite <- app_assoc in E2; simpl in E2. split; auto.
                intros u [<-|I]; auto. destruct (X _ I) as (?&?&?); auto. }
            intros u [<-|I] ? ?; [|apply C; auto].
            subst od. apply in_app_iff; left. apply In_sadd; auto.
          * destruct (IH _ _ _ _ E) as ((new & E1 & L & N) & ND & (ext & E2 & X) & C).
            assert (NS : ~ (forall s, In s (strip_cache manual (src g t)) -> In s visited)).
            { intros H. apply ssubset_spec in H. unfold src in H; congruence. }
            split. { exists new; split; auto. split; [lia|]. intros u; rewrite N. intuition (subst; tauto). }
            split; auto. split.
            { exists ext; split; auto. intros u I; destruct (X _ I) as (?&?&?); auto. }
            intros u [->|I] ? ?; [tauto|]. apply C; auto.
    Qed.

    (** Every source link has its target link. *)
    Definition mirror : Prop := forall s t, In s (src g t) -> In t (tgt g s).
    Lemma strip_cache_incl l s : In s (strip_cache manual l) -> In s l.
    Proof.
      unfold strip_cache. destruct (manual && ends_with "_cache" (last l "")); auto.
      clear; induction l as [|x l IH]; simpl; auto. destruct l; simpl in *; intuition.
    Qed.

    (** Loop invariant. *)
    Record inv (R stack visited order : list string) : Prop := {
      i_nodup : NoDup order;
      i_stack : forall k, In k stack -> In k R \/ In k order;
      i_visit : forall k, In k visited -> In k R \/ In k order;
      i_order : forall k, In k order -> In k visited \/ In k stack;
      i_roots : forall k, In k R -> In k visited \/ In k stack;
      i_edge : forall k, In k order -> exists s, In s visited /\ In k (tgt g s);
      i_sound : forall a t b, order = a ++ t :: b ->
          forall s, In s (strip_cache manual (src g t)) -> In s R \/ In s a;
      i_compl : mirror -> forall s t, In s visited -> In t (tgt g s) -> ~ In t visited ->
          (forall s', In s' (strip_cache manual (src g t)) -> In s' visited) -> In t order;
    }.

    Lemma app_cons_split {A} (o e a b : list A) t :
      o ++ e = a ++ t :: b ->
      (exists b', o = a ++ t :: b') \/ (exists e1, a = o ++ e1 /\ e = e1 ++ t :: b).
    Proof.
      revert a; induction o as [|x o IH]; simpl; intros a E.
      - right; exists a; auto.
      - destruct a as [|y a]; simpl in E; inversion E; subst.
        + left; exists o; auto.
        + destruct (IH _ H1) as [(b' & ->)|(e1 & -> & ->)].
          * left; exists b'; auto.
          * right; exists e1; auto.
    Qed.

    Lemma topo_loop_inv fuel : forall R stack visited order od,
      inv R stack visited order -> topo_loop fuel manual g stack visited order = Ok od ->
      exists visited', inv R [] visited' od.
    Proof.
      induction fuel as [|fuel IH]; intros R stack visited order od I E; simpl in E.
      - destruct stack; inversion E; subst; eauto.
      - destruct stack as [|k stack]; [inversion E; subst; eauto|].
        destruct (mem_spec k visited) as [Kv|Kn].
        + eapply (IH R); [|exact E]. destruct I; constructor; auto.
          * intros; apply i_stack0; simpl; auto.
          * intros x X; destruct (i_order0 x X) as [|[->|]]; auto.
          * intros x X; destruct (i_roots0 x X) as [|[->|]]; auto.
        + destruct (topo_targets manual g (k :: visited) (get_target_keys k false g) stack order)
            as [[st od']|] eqn:ET; simpl in E; [|discriminate].
          eapply (IH R); [|exact E]. clear E IH.
          apply topo_targets_spec in ET.
          destruct ET as ((new & E1 & L & N) & ND & (ext & E2 & X) & C). subst st.
          destruct I.
          assert (KR : In k R \/ In k order) by (apply i_stack0; simpl; auto).
          assert (Up : forall x, In x order -> In x od').
          { intros x; subst od'; rewrite in_app_iff; auto. }
          constructor.
          * auto.
          * intros x Hx. apply in_app_iff in Hx. destruct Hx as [Hx|Hx].
            -- apply N in Hx. destruct Hx as (?&?&?). right. apply C; auto.
            -- destruct (i_stack0 x); simpl; auto.
          * intros x [<-|Hx]; [destruct KR; auto|]. destruct (i_visit0 x Hx); auto.
          * intros x Hx. subst od'. apply in_app_iff in Hx. destruct Hx as [Hx|Hx].
            -- destruct (i_order0 x Hx) as [|[->|]]; simpl; auto. right; apply in_app_iff; auto.
            -- right; apply in_app_iff; left. apply N. apply X; auto.
          * intros x Hx. destruct (i_roots0 x Hx) as [|[->|]]; simpl; auto.
            right; apply in_app_iff; auto.
          * intros x Hx. subst od'. apply in_app_iff in Hx. destruct Hx as [Hx|Hx].
            -- destruct (i_edge0 x Hx) as (s & ? & ?). exists s; simpl; auto.
            -- destruct (X _ Hx) as (?&?&?). exists k; simpl; auto.
          * intros a t b Eq s Hs. subst od'.
            apply app_cons_split in Eq. destruct Eq as [(b' & Eq)|(e1 & -> & Eq)].
            -- eapply i_sound0; eauto.
            -- assert (Ht : In t ext) by (rewrite Eq, in_app_iff; simpl; auto).
               destruct (X _ Ht) as (_ & _ & Hv). rewrite in_app_iff.
               specialize (Hv _ Hs). destruct Hv as [<-|Hv]; [tauto|].
               destruct (i_visit0 _ Hv); auto.
          * intros Mi s t Hs Ht Nt Hall. subst od'.
            destruct (in_dec string_dec t (tgt g k)) as [Hk|Hk].
            -- apply C; auto.
            -- destruct Hs as [<-|Hs]; [tauto|].
               (* t was not completed by visiting k: k is not among its stripped sources unless
                  t is a target of k *)
               destruct (in_dec string_dec k (strip_cache manual (src g t))) as [Hks|Hks].
               ++ exfalso. apply Hk, Mi, strip_cache_incl; auto.
               ++ apply in_app_iff; left. apply (i_compl0 Mi s); auto.
                  { intros H; apply Nt; simpl; auto. }
                  intros s' Hs'. destruct (Hall s' Hs') as [<-|]; auto; tauto.
    Qed.

    Lemma inv_init R : inv R R [] [].
    Proof.
      constructor; simpl; auto; try tauto.
      - constructor.
      - intros a t b E. destruct a; discriminate.
    Qed.

    (** Work left: pending stack entries plus the out-degree of the unvisited keys. *)
    Definition work (visited : list string) : nat :=
      fold_right (fun p n => (if mem (fst p) visited then 0 else length (g_tgt (snd p))) + n)
                 0 (conns g).
    Lemma work_nil : work [] = edge_count g.
    Proof. reflexivity. Qed.

    Lemma work_visit k visited :
      dwf (conns g) -> ~ In k visited -> work visited = length (tgt g k) + work (k :: visited).
    Proof.
      unfold work, tgt, get_target_keys, dwf, dkeys. rewrite app_nil_r.
      intros W Nk. induction (conns g) as [|[k' c] l IH]; simpl; auto.
      simpl in W; inversion W as [|? ? NI ND]; subst.
      destruct (eq_dec k k').
      - subst k'. unfold eqb at 1. destruct (eq_dec k k); [|congruence]. simpl.
        destruct (mem_spec k visited); [tauto|]. f_equal.
        (* the tail does not contain k *)
        clear IH W Nk. induction l as [|[k2 c2] l IHl]; simpl; auto.
        inversion ND; subst. rewrite IHl; auto.
        + f_equal. destruct (mem_spec k2 visited); simpl;
            rewrite ?orb_true_r; auto.
          unfold eqb. destruct (eq_dec k2 k); auto. subst. simpl in NI; tauto.
        + simpl in NI; tauto.
      - rewrite IH; auto.
        assert (Hm : (eqb k' k || mem k' visited) = mem k' visited).
        { unfold eqb. destruct (eq_dec k' k); auto; congruence. }
        unfold mem in *; simpl. fold (mem k' visited). unfold mem. rewrite Hm. lia.
    Qed.

    Lemma topo_targets_ok visited ts : forall stack order,
      (forall t, In t ts -> src g t <> []) ->
      exists st od, topo_targets manual g visited ts stack order = Ok (st, od).
    Proof.
      induction ts as [|t ts IH]; simpl; intros stack order Hs; eauto.
      destruct (mem t visited); auto.
      destruct (get_source_keys t false g) eqn:E; [exfalso; apply (Hs t); auto|].
      rewrite andb_false_r.
      destruct (ssubset _ visited); apply IH; auto.
    Qed.

    Lemma topo_loop_ok fuel : forall stack visited order,
      dwf (conns g) -> (forall k t, In t (tgt g k) -> src g t <> []) ->
      length stack + work visited <= fuel ->
      exists od, topo_loop fuel manual g stack visited order = Ok od.
    Proof.
      induction fuel as [|fuel IH]; intros stack visited order W NE L.
      - destruct stack; simpl in *; [eauto|lia].
      - destruct stack as [|k stack]; simpl in *; eauto.
        destruct (mem_spec k visited) as [Kv|Kn].
        + apply IH; auto; lia.
        + destruct (topo_targets_ok (k :: visited) (get_target_keys k false g) stack order)
            as (st & od & E). { intros t I; eapply NE; exact I. }
          rewrite E; simpl. apply IH; auto.
          apply topo_targets_spec in E. destruct E as ((new & -> & Ln & _) & _).
          rewrite app_length. pose proof (work_visit k visited W Kn).
          unfold tgt in *. lia.
    Qed.
  End Run.
End T.
