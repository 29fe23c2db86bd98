(** * Constant folding (flat_graph.py:671-770): soundness, termination and completeness for every
    choice made by [set.pop]. *)
From Coq Require Import String Ascii List Arith Lia Bool.
From Verif Require Import PyBase PyStrings FlatGraph_Model Topo_Proofs Graph_Proofs Build_Proofs
  Prune_Proofs Pipeline_Proofs.
Import ListNotations.
Open Scope string_scope.
Open Scope list_scope.
Open Scope nat_scope.

Lemma dget_dupdate {V} (e : list (string * V)) : forall (d : dict string V) k w,
  dget k (dupdate d e) = Some w -> dget k d = Some w \/ In (k, w) e.
Proof.
  induction e as [|[k' v'] e IH]; simpl; intros d k w H; auto.
  apply IH in H. destruct H as [H|H]; auto. simpl in H. rewrite dget_dset in H.
  destruct (eq_dec k k') as [->|]; auto. injection H as ->. auto.
Qed.
Lemma dget_dupdate_keep {V} (e : list (string * V)) : forall (d : dict string V) k,
  ~ In k (map fst e) -> dget k (dupdate d e) = dget k d.
Proof.
  induction e as [|[k' v'] e IH]; simpl; intros d k H; auto.
  rewrite IH by tauto. simpl. rewrite dget_dset_other; auto.
Qed.
Lemma dmem_dupdate {V} (e : list (string * V)) : forall (d : dict string V) k,
  dmem k (dupdate d e) = true <-> dmem k d = true \/ In k (map fst e).
Proof.
  induction e as [|[k' v'] e IH]; simpl; intros d k; [intuition|].
  rewrite IH. simpl. unfold dmem at 1. rewrite dget_dset.
  destruct (eq_dec k k') as [->|N]; [intuition|]. unfold dmem. intuition congruence.
Qed.

Lemma sunion_length (q new : list string) : length (sunion q new) <= length q + length new.
Proof.
  unfold sunion. revert q. induction new as [|x new IH]; simpl; intros q; [lia|].
  eapply Nat.le_trans; [apply IH|]. unfold sadd. destruct (mem x q); rewrite ?app_length; simpl; lia.
Qed.
Lemma sadd_length_in x (q : list string) : length (sadd x q) <= S (length q).
Proof. unfold sadd. destruct (mem x q); rewrite ?app_length; simpl; lia. Qed.
Lemma filter_len {A} (f : A -> bool) l : length (filter f l) <= length l.
Proof. induction l as [|x l IH]; simpl; auto. destruct (f x); simpl; lia. Qed.
Lemma sremove_length k (q : list string) : In k q -> length (sremove k q) < length q.
Proof.
  unfold sremove. induction q as [|x q IH]; simpl; intros H; [tauto|].
  pose proof (filter_len (fun y => negb (eqb k y)) q) as L.
  destruct (eqb k x) eqn:E; simpl; [lia|]. apply (proj1 (eqb_neq _ _)) in E.
  destruct H as [H|H]; [congruence|]. apply IH in H. lia.
Qed.

Section S.
  Context {V : Type}.
  Notation graph := (graph V).
  Variable fsem : string -> list V -> V.
  Variable manual : bool.
  Variable veq : V -> V -> bool.
  Variable edge_value : string -> option V.
  Variable pick : list string -> string.
  Variable solver : dict string V -> list (string * V).
  Variables state_ins state_outs : list string.
  Variable env : string -> V.
  Variable rk : string -> nat.
  Variable g0 : graph.
  Variable KS : list string.

  (** The call [fn( *args)]: the numpy backend passes the cache object last. *)
  Definition apply_fn (o : operator) (vals : list V) : V :=
    fsem (op_formula o) (if manual then removelast vals else vals).

  Hypothesis Hpick : forall l, l <> [] -> In (pick l) l.
  Hypothesis Hsolver : forall st, (forall k v, dget k st = Some v -> env k = v) ->
    forall k v, In (k, v) (solver st) -> env k = v /\ In k KS /\ ~ In k state_ins.
  Hypothesis Hst : forall k, In k state_ins -> opof g0 k = None.

  Record sinv (g : graph) : Prop := {
    q_wf : wf g;
    q_ac : acyclic_by rk g;
    q_solves : solves fsem manual env g;
    q_st : forall k v, dget k (statics g) = Some v -> env k = v;
    q_mtab : forall t o, opof g t = Some o -> dget (op_id o) (mtab g) = Some t;
    q_keys : forall k, In k (dkeys (conns g)) <-> In k (dkeys (conns g0));
    q_unused : unused g = unused g0;
    q_outd : outd g = outd g0;
    q_nobuf : forall t o, opof g t = Some o -> op_buffer o = false;
    q_ops : forall t o, opof g t = Some o -> opof g0 t = Some o;
    q_src : forall t, opof g t <> None -> src g t = src g0 t;
    q_done : forall t, opof g t = None -> opof g0 t = None \/ dmem t (statics g) = true;
    q_left : forall t, opof g t <> None -> dmem t (statics g) = true ->
       dmem t (statics g0) = true \/ exists st, In t (map fst (solver st));
    q_keep : forall t o, opof g0 t = Some o ->
       In t state_outs \/ (forall s, In s (src g0 t) -> In s state_ins) -> opof g t = Some o;
    q_grow : forall k v, dget k (statics g0) = Some v -> dget k (statics g) = Some v;
    q_dom : forall k, dmem k (statics g) = true -> dmem k (statics g0) = true \/ In k KS
  }.
  Hypothesis HU : forall k, In k (dkeys (conns g0)) -> In k KS.
  Hypothesis Hnd : NoDup KS.
  Hypothesis Hunused : forall k, In k (unused g0) -> ~ In k (dkeys (conns g0)).

  Lemma Hop0 v : opof g0 v <> None -> In v (dkeys (conns g0)).
  Proof. intros H. apply In_keys_get. unfold opof in H. destruct (dget v (conns g0)); [eauto|congruence]. Qed.

  Lemma static_args_spec (st : dict string V) ks vals :
    (forall k v, dget k st = Some v -> env k = v) ->
    static_args st ks = Some vals -> vals = map env ks /\ forall k, In k ks -> dmem k st = true.
  Proof.
    intros H. revert vals. induction ks as [|k ks IH]; simpl; intros vals E.
    - injection E as <-. split; [auto|intros k []].
    - destruct (dget k st) as [v|] eqn:Dk; [|discriminate].
      destruct (static_args st ks) as [vs|]; [|discriminate]. injection E as <-.
      destruct (IH vs eq_refl) as (-> & I). split.
      + rewrite (H _ _ Dk). reflexivity.
      + intros x [<-|Hx]; auto. unfold dmem. rewrite Dk; auto.
  Qed.
  Lemma static_args_none (st : dict string V) ks : static_args st ks = None ->
    exists k, In k ks /\ dmem k st = false.
  Proof.
    induction ks as [|k ks IH]; simpl; intros E; [discriminate|].
    destruct (dget k st) as [v|] eqn:Dk.
    - destruct (static_args st ks) as [vs|]; [discriminate|]. destruct IH as (x & Ix & Hx); eauto.
    - exists k. split; auto. unfold dmem. rewrite Dk; auto.
  Qed.

  Lemma add_static_spec v val (st st' : dict string V) new :
    dmem v st = false -> (forall k w, dget k st = Some w -> env k = w) -> env v = val ->
    In v KS -> opof g0 v <> None ->
    add_static_data solver v val st = (st', new) ->
    (forall k w, dget k st' = Some w -> env k = w) /\
    (forall k, dmem k st' = true <-> dmem k st = true \/ In k new) /\
    (forall k w, dget k st = Some w -> dget k st' = Some w) /\
    (forall k, In k new -> dmem k st = false /\ In k KS /\ ~ In k state_ins) /\
    dmem v st' = true /\ In v new /\
    (forall k, In k new -> k = v \/ exists s, In k (map fst (solver s))).
  Proof.
    intros Nv Hs Ev Uv Ov E. unfold add_static_data in E.
    set (extra := filter (fun p => negb (dmem (fst p) (dset v val st))) (solver (dset v val st))) in *.
    injection E as <- <-.
    assert (Hs1 : forall k w, dget k (dset v val st) = Some w -> env k = w).
    { intros k w. rewrite dget_dset. destruct (eq_dec k v) as [->|]; auto. intros F; injection F as <-; auto. }
    assert (Hx : forall k w, In (k, w) extra -> env k = w /\ In k KS /\ ~ In k state_ins /\
                   dmem k (dset v val st) = false).
    { intros k w I. apply filter_In in I. destruct I as (I & N). apply negb_true_iff in N.
      destruct (Hsolver _ Hs1 k w I) as (A & B & C). auto. }
    assert (Hx' : forall k, In k (map fst extra) -> In k KS /\ ~ In k state_ins /\
                   dmem k (dset v val st) = false).
    { intros k I. apply in_map_iff in I. destruct I as ((k' & w) & <- & I). apply Hx in I. tauto. }
    assert (Dm : forall k, dmem k (dset v val st) = true <-> k = v \/ dmem k st = true).
    { intros k. unfold dmem. rewrite dget_dset. destruct (eq_dec k v); intuition. }
    repeat split.
    - intros k w H. apply dget_dupdate in H. destruct H as [H|H]; auto. apply Hx in H. tauto.
    - intros H. apply dmem_dupdate in H. rewrite In_sadd, In_sunion. rewrite Dm in H. tauto.
    - intros H. apply dmem_dupdate. rewrite In_sadd, In_sunion in H. rewrite Dm. simpl in H. tauto.
    - intros k w H. rewrite dget_dupdate_keep.
      + rewrite dget_dset_other; auto. intros ->. unfold dmem in Nv. rewrite H in Nv. discriminate.
      + intros I. apply Hx' in I. destruct I as (_ & _ & I).
        assert (X : dmem k (dset v val st) = true) by (apply Dm; right; unfold dmem; rewrite H; auto).
        congruence.
    - rewrite In_sadd, In_sunion in H; simpl in H. destruct H as [->|[F|H]]; [|tauto|]; auto. apply Hx' in H. destruct H as (_ & _ & H).
      destruct (dmem k st) eqn:Dk; auto. assert (X : dmem k (dset v val st) = true) by (apply Dm; auto). congruence.
    - rewrite In_sadd, In_sunion in H; simpl in H. destruct H as [->|[F|H]]; [|tauto|]; auto. apply Hx' in H. tauto.
    - intros I. rewrite In_sadd, In_sunion in H; simpl in H. destruct H as [->|[F|H]]; [|tauto|apply Hx' in H; tauto].
      apply Hst in I. congruence.
    - apply dmem_dupdate. left. apply Dm; auto.
    - apply In_sadd; auto.
    - intros k H. rewrite In_sadd, In_sunion in H; simpl in H. destruct H as [->|[F|H]]; [auto|tauto|].
      right. exists (dset v val st). apply in_map_iff in H. destruct H as (p & <- & H). apply filter_In in H.
      apply in_map. tauto.
  Qed.

  (** *** One target *)
  Definition pending (g : graph) (queue : list string) (extra : string -> Prop) : Prop :=
    forall t, opof g t <> None -> dmem t (statics g) = false -> ~ In t state_outs ->
      (forall s, In s (src g t) -> dmem s (statics g) = true) ->
      (exists s, In s (src g t) /\ ~ In s state_ins) ->
      (exists s, In s (src g t) /\ In s queue /\ ~ In s state_ins) \/ extra t.

  Notation measure g queue := (length queue + length (filter (fun k => negb (dmem k (statics g))) KS)).


  Lemma filter_count (st st' : dict string V) (new : list string) (l : list string) :
    NoDup new -> NoDup l ->
    (forall k, dmem k st' = true <-> dmem k st = true \/ In k new) ->
    (forall k, In k new -> dmem k st = false /\ In k l) ->
    length new + length (filter (fun k => negb (dmem k st')) l) = length (filter (fun k => negb (dmem k st)) l).
  Proof.
    intros Nn Nl Hd Hn.
    assert (P : Permutation.Permutation (new ++ filter (fun k => negb (dmem k st')) l) (filter (fun k => negb (dmem k st)) l)).
    { apply Permutation.NoDup_Permutation.
      - clear -Nn Nl Hd Hn.
        assert (D : forall x, In x new -> In x (filter (fun k => negb (dmem k st')) l) -> False).
        { intros x I J. apply filter_In in J. destruct J as (_ & J). apply negb_true_iff in J.
          assert (dmem x st' = true) by (apply Hd; auto). congruence. }
        assert (N2 : NoDup (filter (fun k => negb (dmem k st')) l)) by (apply NoDup_filter; auto).
        revert D. generalize N2. generalize (filter (fun k => negb (dmem k st')) l). intros l2 N2' D.
        clear -Nn N2' D. induction new as [|x new IH]; simpl; auto. inversion Nn; subst. constructor.
        + rewrite in_app_iff. intros [|F]; [tauto|]. apply (D x); simpl; auto.
        + apply IH; auto. intros y Hy. apply D; simpl; auto.
      - apply NoDup_filter; auto.
      - intros x. rewrite in_app_iff, !filter_In, !negb_true_iff. split.
        + intros [I|(I & N)].
          * destruct (Hn x I); auto.
          * split; auto. destruct (dmem x st) eqn:E; auto.
            assert (dmem x st' = true) by (apply Hd; auto). congruence.
        + intros (I & N). destruct (in_dec string_dec x new); auto. right. split; auto.
          destruct (dmem x st') eqn:E; auto. apply Hd in E. destruct E; [congruence|tauto]. }
    apply Permutation.Permutation_length in P. rewrite app_length in P. exact P.
  Qed.

  Lemma static_target_step v (extra : string -> Prop) g queue : sinv g ->
    In v KS -> opof g0 v <> None -> ~ (forall s, In s (src g0 v) -> In s state_ins) ->
    pending g queue (fun t => t = v \/ extra t) ->
    exists g' queue', static_target veq edge_value apply_fn solver state_outs (g, queue) v = Ok (g', queue') /\
      sinv g' /\ measure g' queue' <= measure g queue /\
      pending g' queue' extra /\ (forall x, In x queue -> In x queue').
  Proof.
    intros I Iv Ov Nst P. unfold static_target.
    destruct (dmem v (statics g)) eqn:Dv.
    { exists g, queue. simpl. split; auto. split; auto. split; auto. split; auto.
      intros t T1 T2 T3 T4 T5. destruct (P t T1 T2 T3 T4 T5) as [|[->|]]; auto. congruence. }
    destruct (mem_spec v (unused g)) as [Uv|Uv].
    { exfalso. rewrite (q_unused _ I) in Uv. apply (Hunused v Uv). apply Hop0; auto. }
    destruct (mem_spec v state_outs) as [So|So].
    { exists g, queue. simpl. split; auto. split; auto. split; auto. split; auto.
      intros t T1 T2 T3 T4 T5. destruct (P t T1 T2 T3 T4 T5) as [|[->|]]; auto. tauto. }
    cbn [orb]. change (get_source_keys v false g) with (src g v).
    destruct (static_args (statics g) (src g v)) as [vals|] eqn:Sa.
    2: { exists g, queue. split; auto. split; auto. split; auto. split; auto.
         intros t T1 T2 T3 T4 T5. destruct (P t T1 T2 T3 T4 T5) as [|[->|]]; auto.
         apply static_args_none in Sa. destruct Sa as (s & Is & Ds). rewrite (T4 s Is) in Ds. discriminate. }
    destruct (static_args_spec _ _ _ (q_st _ I) Sa) as (-> & Src).
    destruct (opof g v) as [o|] eqn:Og.
    2: { destruct (q_done _ I v Og) as [F|F]; congruence. }
    assert (Hc : exists c, dget v (conns g) = Some c /\ g_op c = Some o).
    { unfold opof in Og. destruct (dget v (conns g)) as [c|]; [eauto|discriminate]. }
    destruct Hc as (c & Hc & Hop). unfold getc at 1. rewrite Hc. cbn [bind]. rewrite Hop.
    destruct (add_static_data solver v (apply_fn o (map env (src g v))) (statics g)) as (st & new) eqn:Ea.
    assert (Ev : env v = apply_fn o (map env (src g v))).
    { rewrite (q_solves _ I v o Og). unfold op_value, apply_fn. rewrite (q_nobuf _ I v o Og).
      f_equal. unfold data_args. destruct manual; auto. apply map_removelast. }
    destruct (add_static_spec v _ _ _ _ Dv (q_st _ I) Ev Iv Ov Ea) as (A1 & A2 & A3 & A4 & A5 & A6 & A7).
    set (g1 := set_statics st g).
    assert (W1 : wf g1) by (destruct (q_wf _ I); constructor; auto).
    assert (Ns : ~ In v (src g1 v)) by (eapply acyclic_noself; apply (q_ac _ I)).
    unfold prune_operation. change (mtab g1) with (mtab g). rewrite (q_mtab _ I v o Og).
    unfold getc. change (conns g1) with (conns g). rewrite Hc. cbn [bind].
    change (statics g1) with st. rewrite A5.
    destruct (unlink_static_spec v o c g1 W1 Hc Ns) as (g' & E' & U). rewrite E'. cbn [bind].
    exists g', (sunion queue new). split; auto.
    assert (Src' : forall t, t <> v -> src g' t = src g t).
    { intros t N. rewrite (unlinked_src _ _ _ _ _ U). destruct (eq_dec t v); [congruence|]. reflexivity. }
    assert (Op' : forall t, opof g' t = if eq_dec t v then None else opof g t).
    { intros t. rewrite (unlinked_opof _ _ _ _ _ U). reflexivity. }
    assert (St' : statics g' = st) by apply (n_statics _ _ _ _ U).
    split; [|split; [|split]].
    - constructor.
      + eapply wf_unlinked; eauto.
      + eapply acyclic_unlinked; eauto. apply (q_ac _ I).
      + eapply solves_unlinked; eauto. apply (q_solves _ I).
      + rewrite St'. auto.
      + intros t o'. rewrite Op'. destruct (eq_dec t v) as [|N]; [discriminate|]. intros Ot.
        rewrite (n_mtab _ _ _ _ U). simpl. pose proof (q_mtab _ I t o' Ot) as M. rewrite dget_ddel_other; auto.
        intros F. rewrite F, (q_mtab _ I v o Og) in M. congruence.
      + intros k. rewrite (unlinked_keys _ _ _ _ _ U). apply (q_keys _ I).
      + rewrite (n_unused _ _ _ _ U). apply (q_unused _ I).
      + rewrite (n_outd _ _ _ _ U). apply (q_outd _ I).
      + intros t o'. rewrite Op'. destruct (eq_dec t v); [discriminate|]. apply (q_nobuf _ I).
      + intros t o'. rewrite Op'. destruct (eq_dec t v); [discriminate|]. apply (q_ops _ I).
      + intros t. rewrite Op'. destruct (eq_dec t v) as [|N]; [congruence|]. intros Ht.
        rewrite (Src' t N). apply (q_src _ I); auto.
      + intros t. rewrite Op', St'. destruct (eq_dec t v) as [->|]; auto.
        intros F. destruct (q_done _ I t F) as [|D]; auto. right. apply A2; auto.
      + intros t. rewrite Op', St', A2. destruct (eq_dec t v) as [|N]; [congruence|]. intros Ho [D|D].
        * apply (q_left _ I); auto.
        * destruct (A7 t D) as [F|F]; [congruence|auto].
      + intros t o' Ht K. rewrite Op'. destruct (eq_dec t v) as [->|N]; [tauto|]. apply (q_keep _ I); auto.
      + intros k w H. rewrite St'. apply A3. apply (q_grow _ I); auto.
      + intros k. rewrite St', A2. intros [D|D]; [apply (q_dom _ I); auto|]. right. apply A4; auto.
    - rewrite St'. assert (Nn : NoDup new).
      { unfold add_static_data in Ea. injection Ea as _ <-. apply NoDup_sadd, NoDup_sunion. constructor. }
      rewrite <- (filter_count (statics g) st new KS Nn Hnd A2).
      + pose proof (sunion_length queue new). lia.
      + intros k Hk. destruct (A4 k Hk) as (? & ? & _). auto.
    - intros t T1 T2 T3 T4 T5. rewrite Op' in T1. destruct (eq_dec t v) as [|N]; [congruence|].
      rewrite (Src' t N) in *. rewrite St' in T2, T4.
      assert (Hnew : (exists s, In s (src g t) /\ In s new) \/ forall s, In s (src g t) -> ~ In s new).
      { clear. induction (src g t) as [|s l IH]; [right; intros s []|].
        destruct (in_dec string_dec s new) as [i|n]; [left; exists s; simpl; auto|].
        destruct IH as [(x & Ix & Jx)|IH]; [left; exists x; simpl; auto|].
        right. intros x [<-|Hx]; auto. }
      destruct Hnew as [(s & Is & Js)|Hnew].
      + left. exists s. split; auto. split; [apply In_sunion; auto|]. apply A4; auto.
      + destruct (P t T1) as [(s & H1 & H2 & H3)|[|]]; auto.
        * destruct (dmem t (statics g)) eqn:D; auto. exfalso.
          assert (X : dmem t st = true) by (apply A2; auto). congruence.
        * intros s Is. specialize (T4 s Is). apply A2 in T4. destruct T4 as [|T4]; auto.
          exfalso. eapply Hnew; eauto.
        * left. exists s. split; auto. split; auto. apply In_sunion; auto.
        * congruence.
    - intros x Hx. apply In_sunion; auto.
  Qed.

  Lemma static_fold targets : forall g queue, sinv g ->
    (forall t, In t targets -> In t KS /\ opof g0 t <> None /\ ~ (forall s, In s (src g0 t) -> In s state_ins)) ->
    pending g queue (fun t => In t targets) ->
    exists g' queue', foldM (static_target veq edge_value apply_fn solver state_outs) targets (g, queue) = Ok (g', queue') /\
      sinv g' /\ measure g' queue' <= measure g queue /\
      pending g' queue' (fun _ => False) /\ (forall x, In x queue -> In x queue').
  Proof.
    induction targets as [|v l IH]; intros g queue I H P.
    - exists g, queue. simpl. split; auto.
    - destruct (H v) as (Iv & Ov & Nst); [left; auto|].
      destruct (static_target_step v (fun t => In t l) g queue I Iv Ov Nst) as (g1 & q1 & E1 & I1 & M1 & P1 & Q1).
      { intros t T1 T2 T3 T4 T5. destruct (P t T1 T2 T3 T4 T5) as [|[|]]; auto. }
      destruct (IH g1 q1 I1) as (g2 & q2 & E2 & I2 & M2 & P2 & Q2); auto.
      { intros t Ht. apply H. right; auto. }
      exists g2, q2. cbn [foldM]. rewrite E1. cbn [bind]. split; auto. split; auto. split; [lia|]. split; auto.
  Qed.


  Lemma static_loop_ok fuel : forall queue g, sinv g -> pending g queue (fun _ => False) ->
    measure g queue <= fuel ->
    exists g', static_loop veq edge_value pick apply_fn solver fuel state_ins state_outs queue g = Ok g' /\
      sinv g' /\ pending g' [] (fun _ => False).
  Proof.
    induction fuel as [|f IH]; intros queue g I P M.
    - destruct queue; [|simpl in M; lia]. exists g. split; auto.
    - simpl. destruct queue as [|q0 qs]; [exists g; split; auto|].
      set (queue := q0 :: qs) in *. set (k := pick queue).
      assert (Ik : In k queue) by (apply Hpick; discriminate).
      pose proof (sremove_length k queue Ik) as L.
      assert (Rem : forall x, In x queue -> x = k \/ In x (sremove k queue)).
      { intros x Hx. destruct (eq_dec x k); auto. right. apply In_sremove. auto. }
      destruct (negb (mem k (srcs g)) || mem k (unused g) || mem k state_ins) eqn:Sk.
      + apply IH; auto; [|lia]. intros t T1 T2 T3 T4 T5.
        destruct (P t T1 T2 T3 T4 T5) as [(s & H1 & H2 & H3)|[]]. left.
        destruct (Rem s H2) as [->|Hr]; eauto. exfalso.
        rewrite !orb_true_iff, negb_true_iff in Sk. destruct Sk as [[Sk|Sk]|Sk].
        * destruct (mem_spec k (srcs g)) as [|N]; [discriminate|]. apply N. apply (w_srcs g (q_wf _ I)).
          apply (wf_mirror_In g k t (q_wf _ I)) in H1. intros F. rewrite F in H1. destruct H1.
        * destruct (mem_spec k (unused g)) as [N|]; [|discriminate]. rewrite (q_unused _ I) in N.
          apply (Hunused k N). apply (q_keys _ I). apply In_keys_get. eapply wf_src_present; eauto. apply (q_wf _ I).
        * destruct (mem_spec k state_ins) as [N|]; [|discriminate]. tauto.
      + change (get_target_keys k false g) with (tgt g k).
        destruct (static_fold (tgt g k) g (sremove k queue) I) as (g1 & q1 & E1 & I1 & M1 & P1 & _).
        * intros t Ht. assert (Ot : opof g t <> None).
          { intros F. apply (w_op g (q_wf _ I)) in F. apply (wf_mirror_In g k t (q_wf _ I)) in Ht.
            rewrite F in Ht. destruct Ht. }
          assert (Eqs : src g t = src g0 t) by (apply (q_src _ I); auto).
          destruct (opof g t) as [o|] eqn:Og; [|congruence]. split; [|split].
          -- apply HU, (q_keys _ I). apply In_keys_get. unfold opof in Og.
             destruct (dget t (conns g)); [eauto|discriminate].
          -- rewrite (q_ops _ I t o Og). discriminate.
          -- intros F. rewrite <- Eqs in F. apply (wf_mirror_In g k t (q_wf _ I)) in Ht. apply F in Ht.
             rewrite !orb_false_iff in Sk. destruct Sk as (_ & Sk). apply (mem_not_In k state_ins) in Sk. tauto.
        * intros t T1 T2 T3 T4 T5. destruct (P t T1 T2 T3 T4 T5) as [(s & H1 & H2 & H3)|[]].
          destruct (Rem s H2) as [->|Hr]; eauto. right. apply (wf_mirror_In g k t (q_wf _ I)); auto.
        * rewrite E1. cbn [bind]. apply IH; auto. lia.
  Qed.

  Lemma infer_static_ok fuel : sinv g0 -> length (dkeys (statics g0)) + length KS <= fuel ->
    exists g', infer_static_keys veq edge_value pick apply_fn solver fuel state_ins state_outs g0 = Ok g' /\
      sinv g' /\ pending g' [] (fun _ => False).
  Proof.
    intros I L. unfold infer_static_keys. apply static_loop_ok; auto.
    - intros t T1 T2 T3 T4 (s & Is & Ns). left. exists s. split; auto. split; auto.
      apply dmem_In. apply T4; auto.
    - pose proof (filter_len (fun k => negb (dmem k (statics g0))) KS). lia.
  Qed.
End S.

(** Running a graph in emission order from values that agree with a solution of its equations on
    the keys without an operator gives that solution everywhere. *)
Lemma run_in_order {V} (fsem : string -> list V -> V) manual (g : graph V) rk env start order :
  wf g -> acyclic_by rk g -> solves fsem manual env g ->
  (manual = true -> forall t, opof g t <> None -> opof g (last (src g t) "") = None) ->
  (forall k, In k (dkeys (conns g)) -> opof g k = None -> start k = env k) ->
  topological_order manual g = Ok order ->
  forall r, In r (dkeys (conns g)) -> run_graph fsem manual g order start r = env r.
Proof.
  intros W A Sv Hc Hs Eo r Ir.
  destruct (topo_order_spec manual g _ order W A Eo) as (ND & All & Snd).
  apply (run_graph_solution fsem manual g env start order [] order); auto.
  - intros a t b Eq s Js. destruct (opof g s) eqn:Os; auto. right. apply (Snd a t b Eq); [|congruence].
    assert (Jt : In t order) by (rewrite Eq; apply in_app_iff; right; left; auto).
    apply All in Jt.
    unfold strip_cache. destruct manual eqn:Em; simpl; auto.
    destruct (ends_with "_cache" (last (src g t) "")); auto.
    assert (Nl : s <> last (src g t) "").
    { intros F. rewrite F, (Hc eq_refl t Jt) in Os. discriminate. }
    destruct (src g t) as [|x l] eqn:El; [destruct Js|].
    rewrite (app_removelast_last "" (l := x :: l)) in Js by discriminate.
    apply in_app_iff in Js. destruct Js as [|[J|[]]]; auto. congruence.
  - intros k Ik [Ok|[]]. auto.
  - intros k Jk. apply All; auto.
  - destruct (opof g r) eqn:Or; auto. right. apply All. congruence.
Qed.
