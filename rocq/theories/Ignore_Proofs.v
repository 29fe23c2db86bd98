(** * Discarding keys (flat_graph.py:646-669, 873-937): what is removed, for every choice made by
    [set.pop]. *)
From Coq Require Import String Ascii List Arith Lia Bool.
From Verif Require Import PyBase PyStrings FlatGraph_Model Topo_Proofs Graph_Proofs Build_Proofs
  Prune_Proofs Pipeline_Proofs Static_Proofs.
Import ListNotations.
Open Scope string_scope.
Open Scope list_scope.
Open Scope nat_scope.

(** [t] uses [k]: an operator that reads [k], or an output key that stands for [k]. *)
Definition consumer {V} (g : graph V) (k t : string) : Prop :=
  In t (tgt g k) \/ (dget t (outd g) = Some k /\ t <> k).
(** Keys that nobody needs once the keys in [D0] are given up: the given ones, and every key that is
    not an output and is used only by such keys (and by at least one). *)
Inductive useless {V} (g : graph V) (D0 : list string) : string -> Prop :=
| u_given k : In k D0 -> useless g D0 k
| u_step k t : consumer g k t -> ~ In k (dkeys (outd g)) ->
    (forall t, consumer g k t -> useless g D0 t) -> useless g D0 k.

Lemma without_sdiff k l P : without k (sdiff l P) = sdiff l (k :: P).
Proof.
  unfold without, sdiff.
  assert (F : forall (f h : string -> bool) l, filter f (filter h l) = filter (fun x => h x && f x) l).
  { clear. intros f h l. induction l as [|x l IH]; simpl; auto.
    destruct (h x); simpl; [destruct (f x)|]; rewrite IH; auto. }
  rewrite F. apply filter_ext. intros x. change (mem x (k :: P)) with (eqb x k || mem x P).
  rewrite negb_orb, andb_comm. f_equal. f_equal. unfold eqb.
  destruct (eq_dec k x), (eq_dec x k); congruence.
Qed.

Section I.
  Context {V : Type}.
  Notation graph := (graph V).
  Variable pick : list string -> string.
  Variable rk : string -> nat.
  Variable g0 : graph.
  Variables D0 outs0 : list string.
  Hypothesis Hpick : forall l, l <> [] -> In (pick l) l.
  Hypothesis Hwf : wf g0.
  Hypothesis Hac : acyclic_by rk g0.
  Hypothesis Hout : dwf (outd g0).
  Hypothesis Hleaf : forall k, In k D0 -> forall t, consumer g0 k t -> In t D0.

  Record iinv (P D queue outs : list string) (g : graph) : Prop := {
    i_split : forall x, In x D <-> In x P \/ In x queue;
    i_disj : forall x, In x P -> ~ In x queue;
    i_D0 : forall x, In x D0 -> In x D;
    i_useless : forall x, In x D -> useless g0 D0 x;
    i_closed : forall x t, In x D -> consumer g0 x t -> In t D;
    i_max : forall v, ~ In v D -> ~ In v (dkeys (outd g0)) -> (exists t, consumer g0 v t) ->
      (forall t, consumer g0 v t -> In t D) -> exists t, consumer g0 v t /\ In t queue;
    i_get : forall x, dget x (conns g) = if mem x P then None else
      option_map (fun c => mkconn (g_op c) (sdiff (g_src c) P) (sdiff (g_tgt c) P)) (dget x (conns g0));
    i_dict : dwf (conns g);
    i_srcs : forall x, ~ In x P -> tgt g x <> [] -> In x (srcs g);
    i_tgts : forall x, ~ In x P -> src g x <> [] -> In x (tgts g);
    i_tgts_sub : forall x, In x (tgts g) -> In x (tgts g0);
    i_outd : forall o, dget o (outd g) = if mem o P then None else dget o (outd g0);
    i_outd_wf : dwf (outd g);
    i_st : forall x, ~ In x P -> dget x (statics g) = dget x (statics g0);
    i_outs : forall x, In x outs <-> In x outs0 /\ ~ In x P;
    i_ink : forall x, In x (inkeys g) <-> In x (inkeys g0) /\ ~ In x P;
    i_un : forall x, In x (unused g) -> In x (unused g0) \/ In x P
  }.

  Lemma In_tgt_sdiff P D q o g : iinv P D q o g -> forall x t,
    In t (tgt g x) <-> In t (tgt g0 x) /\ ~ In t P /\ ~ In x P.
  Proof.
    intros I x t. rewrite !tgt_get, (i_get _ _ _ _ _ I). destruct (mem_spec x P) as [J|J].
    - simpl. tauto.
    - destruct (dget x (conns g0)) as [c|]; simpl; [rewrite In_sdiff; tauto|tauto].
  Qed.
  Lemma In_src_sdiff P D q o g : iinv P D q o g -> forall x t,
    In t (src g x) <-> In t (src g0 x) /\ ~ In t P /\ ~ In x P.
  Proof.
    intros I x t. rewrite !src_get, (i_get _ _ _ _ _ I). destruct (mem_spec x P) as [J|J].
    - simpl. tauto.
    - destruct (dget x (conns g0)) as [c|]; simpl; [rewrite In_sdiff; tauto|tauto].
  Qed.
  Lemma alias_In (g : graph) k o : dwf (outd g) ->
    In o (map fst (filter (fun p => eqb (snd p) k && negb (eqb (fst p) k)) (outd g))) <->
    dget o (outd g) = Some k /\ o <> k.
  Proof.
    intros W. rewrite in_map_iff. split.
    - intros ((o' & r) & E & J). simpl in E. subst o'. apply filter_In in J. destruct J as (J & B).
      simpl in B. apply andb_true_iff in B. destruct B as (B1 & B2). apply negb_true_iff in B2.
      apply (proj1 (eqb_eq _ _)) in B1. apply (proj1 (eqb_neq _ _)) in B2. subst r. split; auto.
      apply In_dget; auto.
    - intros (E & N). exists (o, k). split; auto. apply filter_In. split; [apply dget_In; auto|].
      simpl. apply andb_true_iff. split; [apply eqb_eq; auto|]. apply negb_true_iff, eqb_neq; auto.
  Qed.
  Lemma get_targets_true P D q o g : iinv P D q o g -> forall x t, ~ In x P ->
    (In t (get_target_keys x true g) <-> consumer g0 x t /\ ~ In t P).
  Proof.
    intros I x t N. unfold get_target_keys. rewrite in_app_iff, alias_In by apply (i_outd_wf _ _ _ _ _ I).
    rewrite (i_outd _ _ _ _ _ I). unfold consumer.
    pose proof (In_tgt_sdiff _ _ _ _ _ I x t) as T. rewrite tgt_get in T. rewrite T.
    destruct (mem_spec t P) as [J|J]; [|tauto]. split; [|tauto]. intros [?|(F & _)]; [tauto|discriminate].
  Qed.
  Lemma get_sources_true P D q o g : iinv P D q o g -> forall k v, ~ In k P ->
    In v (get_source_keys k true g) -> consumer g0 v k.
  Proof.
    intros I k v N H. unfold get_source_keys in H. apply in_app_iff in H. destruct H as [H|H].
    - assert (J : In v (src g k)) by (rewrite src_get; auto). apply (In_src_sdiff _ _ _ _ _ I) in J.
      left. apply (wf_mirror_In g0 v k Hwf). tauto.
    - rewrite (i_outd _ _ _ _ _ I) in H. destruct (mem k P); [destruct H|].
      destruct (dget k (outd g0)) as [r|] eqn:E; [|destruct H].
      destruct (eq_dec r k); [destruct H|]. destruct H as [->|[]]. right; auto.
  Qed.
  Lemma get_sources_back P D q o g : iinv P D q o g -> forall k v, ~ In k P -> ~ In v P ->
    consumer g0 v k -> In v (get_source_keys k true g).
  Proof.
    intros I k v N Nv H. unfold get_source_keys. apply in_app_iff. destruct H as [H|(H & Ne)].
    - left. assert (J : In v (src g k)).
      { apply (In_src_sdiff _ _ _ _ _ I). split; auto. apply (wf_mirror_In g0 v k Hwf); auto. }
      rewrite src_get in J. auto.
    - right. rewrite (i_outd _ _ _ _ _ I), H. destruct (mem_spec k P); [tauto|].
      destruct (eq_dec v k); [congruence|]. left; auto.
  Qed.

  (** Forward inference finds nothing new. *)
  Lemma forward_nothing back (g : graph) L : forall keys queue, (forall v, In v L -> In v keys) ->
    fold_left (ignore_visit g back) L (keys, queue) = (keys, queue).
  Proof.
    induction L as [|v L IH]; simpl; intros keys queue H; auto.
    destruct (mem_spec v keys) as [J|J]; [apply IH; auto|]. exfalso. apply J. auto.
  Qed.

  Section F.
    Variables P Dg qg og : list string.
    Variable g : graph.
    Hypothesis I : iinv P Dg qg og g.
    Variable k : string.
    Hypothesis Nk : ~ In k P.
    Notation back := (fun v => get_target_keys v true g).

    Lemma backward_fold L : forall keys queue,
      (forall v, In v L -> consumer g0 v k) ->
      (forall x, In x P -> In x keys) -> In k keys ->
      (forall x, In x keys -> useless g0 D0 x) ->
      (forall x t, In x keys -> consumer g0 x t -> In t keys) ->
      exists keys' queue',
        fold_left (ignore_visit g back) L (keys, queue) = (keys', queue') /\
        (forall x, In x keys -> In x keys') /\
        (forall x, In x queue' <-> In x queue \/ (In x keys' /\ ~ In x keys)) /\
        (forall x, In x keys' -> useless g0 D0 x) /\
        (forall x t, In x keys' -> consumer g0 x t -> In t keys') /\
        (forall v, In v L -> ~ In v keys' -> ~ In v (dkeys (outd g0)) ->
           exists t, consumer g0 v t /\ ~ In t keys) /\
        (forall KS, NoDup KS -> (forall v, In v L -> In v KS) ->
           length queue' + length (sdiff KS keys') <= length queue + length (sdiff KS keys)).
    Proof.
      induction L as [|v L IH]; intros keys queue Hc HP Hk Hu Hcl.
      { exists keys, queue. simpl. split; auto. split; auto. split; [tauto|]. split; auto. split; auto. split; [tauto|auto]. }
      assert (Cv : consumer g0 v k) by (apply Hc; left; auto).
      assert (Skip : forall (Hv : In v keys \/ In v (dkeys (outd g0)) \/ exists t, consumer g0 v t /\ ~ In t keys),
        exists keys' queue',
        fold_left (ignore_visit g back) L (keys, queue) = (keys', queue') /\
        (forall x, In x keys -> In x keys') /\
        (forall x, In x queue' <-> In x queue \/ (In x keys' /\ ~ In x keys)) /\
        (forall x, In x keys' -> useless g0 D0 x) /\
        (forall x t, In x keys' -> consumer g0 x t -> In t keys') /\
        (forall v0, In v0 (v :: L) -> ~ In v0 keys' -> ~ In v0 (dkeys (outd g0)) ->
           exists t, consumer g0 v0 t /\ ~ In t keys) /\
        (forall KS, NoDup KS -> (forall v0, In v0 (v :: L) -> In v0 KS) ->
           length queue' + length (sdiff KS keys') <= length queue + length (sdiff KS keys))).
      { intros Hv. destruct (IH keys queue) as (keys' & queue' & E & S1 & S2 & S3 & S4 & S5 & S6); auto.
        { intros x Hx. apply Hc; right; auto. }
        exists keys', queue'. split; auto. split; auto. split; auto. split; auto. split; auto. split.
        - intros v0 [<-|J] N1 N2; [|eapply S5; eauto]. destruct Hv as [F|[F|F]]; auto; exfalso; auto.
        - intros KS Nd J. apply S6; auto. intros x Hx. apply J. right; auto. }
      assert (Unf : fold_left (ignore_visit g back) (v :: L) (keys, queue) =
                    fold_left (ignore_visit g back) L (ignore_visit g back (keys, queue) v)) by reflexivity.
      rewrite Unf. unfold ignore_visit at 2. destruct (mem_spec v keys) as [Jv|Jv]; [auto|].
      destruct (ssubset (back v) keys && negb (mem v (dkeys (outd g)))) eqn:B.
      - apply andb_true_iff in B. destruct B as (B1 & B2). rewrite ssubset_spec in B1.
        apply negb_true_iff in B2. apply (mem_not_In v) in B2.
        assert (NvP : ~ In v P) by auto.
        assert (AllC : forall t, consumer g0 v t -> In t keys).
        { intros t Ct. destruct (in_dec string_dec t P); auto. apply B1. apply (get_targets_true _ _ _ _ _ I); auto. }
        assert (No : ~ In v (dkeys (outd g0))).
        { intros F. apply B2. apply dmem_In. apply dmem_In in F. unfold dmem in *.
          rewrite (i_outd _ _ _ _ _ I). destruct (mem_spec v P); [tauto|]. auto. }
        destruct (IH (sadd v keys) (sadd v queue)) as (keys' & queue' & E & S1 & S2 & S3 & S4 & S5 & S6).
        + intros x Hx. apply Hc; right; auto.
        + intros x Hx. apply In_sadd; auto.
        + apply In_sadd; auto.
        + intros x Hx. apply In_sadd in Hx. destruct Hx as [->|Hx]; auto. eapply u_step; eauto.
        + intros x t Hx Ct. apply In_sadd. apply In_sadd in Hx. destruct Hx as [->|Hx]; eauto.
        + exists keys', queue'. split; auto.
          assert (Iv' : In v keys') by (apply S1; apply In_sadd; auto).
          split; [intros x Hx; apply S1; apply In_sadd; auto|]. split.
          { intros x. rewrite S2, !In_sadd. destruct (eq_dec x v) as [->|Nx]; tauto. }
          split; auto. split; auto. split.
          * intros v0 [<-|J] N1 N2; [tauto|]. destruct (S5 v0 J N1 N2) as (t & Ct & Nt). exists t. split; auto.
            intros F. apply Nt. apply In_sadd; auto.
          * intros KS Nd J. eapply Nat.le_trans; [apply S6; auto; intros x Hx; apply J; right; auto|].
            assert (Jv2 : In v KS) by (apply J; left; auto).
            assert (L1 : S (length (sdiff KS (sadd v keys))) <= length (sdiff KS keys)).
            { assert (X : length (v :: sdiff KS (sadd v keys)) <= length (sdiff KS keys)).
              { apply NoDup_incl_length.
                - constructor; [|apply NoDup_filter; auto]. rewrite In_sdiff, In_sadd. tauto.
                - intros x [<-|Hx]; apply In_sdiff; auto. apply In_sdiff in Hx. rewrite In_sadd in Hx. tauto. }
              exact X. }
            pose proof (sadd_length_in v queue). lia.
      - apply Skip. apply andb_false_iff in B. destruct B as [B|B].
        + right; right. unfold ssubset in B. assert (X : exists t, In t (back v) /\ ~ In t keys).
          { clear -B. induction (back v) as [|t l IH]; simpl in B; [discriminate|].
            destruct (mem_spec t keys) as [J|J]; simpl in B.
            - destruct (IH B) as (x & Hx & Nx). exists x. simpl; auto.
            - exists t. simpl; auto. }
          destruct X as (t & Jt & Nt). exists t. split; auto.
          apply (get_targets_true _ _ _ _ _ I) in Jt; [tauto|]. auto.
        + right; left. apply negb_false_iff in B. apply mem_In in B. apply dmem_In in B. apply dmem_In.
          unfold dmem in *. rewrite (i_outd _ _ _ _ _ I) in B. destruct (mem v P); [discriminate|auto].
    Qed.
  End F.

  Lemma sdiff_skip (l P : list string) k : ~ In k l -> sdiff l (k :: P) = sdiff l P.
  Proof.
    intros N. rewrite <- without_sdiff. apply without_notin. rewrite In_sdiff. tauto.
  Qed.
  Lemma cnt_sdiff k (l P : list string) : ~ In k P -> cnt k (sdiff l P) = cnt k l.
  Proof.
    intros N. unfold sdiff. induction l as [|x l IH]; simpl; auto.
    destruct (mem_spec x P) as [J|J]; simpl; rewrite ?cnt_cons, IH; auto.
    destruct (eq_dec x k); [congruence|auto].
  Qed.

  (** Removing a popped key. *)
  Lemma remove_key_step P D queue outs g k : iinv P D queue outs g -> ~ In k P -> In k queue ->
    forall D' queue',
    (forall x, In x D -> In x D') ->
    (forall x, In x queue' <-> In x (sremove k queue) \/ (In x D' /\ ~ In x D)) ->
    (forall x, In x D' -> useless g0 D0 x) ->
    (forall x t, In x D' -> consumer g0 x t -> In t D') ->
    (forall v, consumer g0 v k -> ~ In v D' -> ~ In v (dkeys (outd g0)) ->
       exists t, consumer g0 v t /\ ~ In t D) ->
    exists g', remove_key k g = Ok g' /\
      iinv (k :: P) D' queue' (sremove k outs) (set_inkeys (sremove k (inkeys g')) g').
  Proof.
    intros I Nk Iq D' queue' HD Hq Hu Hcl Hmx.
    assert (KD : In k D) by (apply (i_split _ _ _ _ _ I); auto).
    (* the removal itself *)
    set (g1 := if dmem k (outd g) then set_outd (ddel k (outd g)) g else g).
    assert (C1 : conns g1 = conns g) by (unfold g1; destruct (dmem k (outd g)); auto).
    assert (S1 : srcs g1 = srcs g) by (unfold g1; destruct (dmem k (outd g)); auto).
    assert (T1 : tgts g1 = tgts g) by (unfold g1; destruct (dmem k (outd g)); auto).
    assert (St1 : statics g1 = statics g) by (unfold g1; destruct (dmem k (outd g)); auto).
    assert (Ik1 : inkeys g1 = inkeys g) by (unfold g1; destruct (dmem k (outd g)); auto).
    assert (Un1 : unused g1 = unused g) by (unfold g1; destruct (dmem k (outd g)); auto).
    assert (O1 : forall o, dget o (outd g1) = if mem o (k :: P) then None else dget o (outd g0)).
    { intros o. change (mem o (k :: P)) with (eqb o k || mem o P). unfold eqb.
      assert (X : dget o (outd g1) = if eq_dec o k then None else dget o (outd g)).
      { unfold g1. destruct (dmem k (outd g)) eqn:Dk; simpl.
        - rewrite dget_ddel by apply (i_outd_wf _ _ _ _ _ I). destruct (eq_dec o k), (eq_dec k o); congruence.
        - destruct (eq_dec o k) as [->|]; auto. apply dmem_false; auto. }
      rewrite X. destruct (eq_dec o k); simpl; auto. apply (i_outd _ _ _ _ _ I). }
    assert (Ow1 : dwf (outd g1)).
    { unfold g1. destruct (dmem k (outd g)); simpl; [apply dwf_ddel|]; apply (i_outd_wf _ _ _ _ _ I). }
    assert (Core : exists g', remove_key k g = Ok g' /\
       (forall x, dget x (conns g') = if mem x (k :: P) then None else
          option_map (fun c => mkconn (g_op c) (sdiff (g_src c) (k :: P)) (sdiff (g_tgt c) (k :: P)))
                     (dget x (conns g0))) /\
       dwf (conns g') /\ outd g' = outd g1 /\ inkeys g' = inkeys g /\
       (forall x, x <> k -> tgt g' x <> [] -> In x (srcs g) -> In x (srcs g')) /\
       (forall x, x <> k -> src g' x <> [] -> In x (tgts g) -> In x (tgts g')) /\
       (forall x, In x (tgts g') -> In x (tgts g)) /\
       (forall x, x <> k -> dget x (statics g') = dget x (statics g)) /\
       (forall x, In x (unused g') -> x = k \/ In x (unused g))).
    { unfold remove_key. fold g1. rewrite C1.
      destruct (dget k (conns g)) as [c|] eqn:Dk.
      - pose proof (i_get _ _ _ _ _ I k) as Gk. rewrite Dk in Gk.
        destruct (mem_spec k P) as [F|_]; [tauto|].
        destruct (dget k (conns g0)) as [c0|] eqn:Dk0; simpl in Gk; [|discriminate]. injection Gk as ->.
        assert (Pres : forall x, ~ In x P -> (exists y, dget x (conns g0) = Some y) -> exists y, dget x (conns g1) = Some y).
        { intros x Nx (y & Hy). rewrite C1, (i_get _ _ _ _ _ I), Hy. destruct (mem_spec x P); [tauto|]. simpl. eauto. }
        assert (Sk : src g0 k = g_src c0) by (rewrite src_get, Dk0; auto).
        assert (Tk : tgt g0 k = g_tgt c0) by (rewrite tgt_get, Dk0; auto).
        destruct (remove_conn_spec k (mkconn (g_op c0) (sdiff (g_src c0) P) (sdiff (g_tgt c0) P)) g1)
          as (g' & E' & R).
        + rewrite C1. apply (i_dict _ _ _ _ _ I).
        + rewrite C1. auto.
        + simpl. intros x Hx. apply In_sdiff in Hx. destruct Hx as (Hx & Nx). rewrite <- Sk in Hx. split.
          * intros ->. apply (acyclic_noself rk g0 k Hac Hx).
          * apply Pres; auto. eapply wf_src_present; eauto.
        + simpl. intros x Hx. apply In_sdiff in Hx. destruct Hx as (Hx & Nx). rewrite <- Tk in Hx. split.
          * intros ->. apply (wf_mirror_In g0 k k Hwf) in Hx. apply (acyclic_noself rk g0 k Hac Hx).
          * apply Pres; auto. eapply wf_tgt_present; eauto.
        + exists g'. split; auto. repeat split.
          * intros x. rewrite (r_get _ _ _ _ R), C1. simpl.
            change (mem x (k :: P)) with (eqb x k || mem x P). unfold eqb.
            destruct (eq_dec x k) as [->|Nx]; simpl; auto.
            rewrite (i_get _ _ _ _ _ I). destruct (mem_spec x P) as [J|J]; simpl; auto.
            destruct (dget x (conns g0)) as [cx|] eqn:Dx; simpl; auto. f_equal.
            rewrite !cnt_sdiff by auto. f_equal.
            -- rewrite discard_iter, without_sdiff; auto. rewrite cnt_sdiff by auto.
               rewrite <- Tk, (w_mirror g0 Hwf). rewrite src_get, Dx. auto.
            -- rewrite discard_iter, without_sdiff; auto. rewrite cnt_sdiff by auto.
               rewrite <- Sk, <- (w_mirror g0 Hwf). rewrite tgt_get, Dx. auto.
          * apply (r_dict _ _ _ _ R).
          * apply (r_outd _ _ _ _ R).
          * rewrite (r_inkeys _ _ _ _ R); auto.
          * intros x Nx Tx Sx. apply (r_srcs_keep _ _ _ _ R); auto. rewrite S1; auto.
          * intros x Nx Sx Tx. destruct (in_dec string_dec x (tgts g')) as [|N]; auto. exfalso.
            destruct (r_tgts_keep _ _ _ _ R x Nx) as (_ & F); auto. rewrite T1; auto.
          * intros x Hx. apply (r_tgts_sub _ _ _ _ R) in Hx. rewrite T1 in Hx. tauto.
          * intros x Nx. rewrite (r_statics _ _ _ _ R), St1. destruct (mem k (dvals (outd g1))); auto.
            rewrite dget_ddel_other; auto.
          * intros x Hx. rewrite (r_unused _ _ _ _ R), Un1 in Hx. destruct (mem k (dvals (outd g1))); auto.
            apply In_sadd in Hx. auto.
      - exists g1. split; auto. rewrite C1, Ik1, S1, T1, St1, Un1. 
        assert (Dk0 : dget k (conns g0) = None).
        { pose proof (i_get _ _ _ _ _ I k) as Gk. rewrite Dk in Gk.
          destruct (mem_spec k P) as [F|_]; [tauto|]. destruct (dget k (conns g0)); [discriminate|auto]. }
        repeat split; auto.
        + intros x. rewrite (i_get _ _ _ _ _ I). change (mem x (k :: P)) with (eqb x k || mem x P). unfold eqb.
          destruct (eq_dec x k) as [->|Nx]; simpl.
          * rewrite Dk0. destruct (mem k P); auto.
          * destruct (mem x P); auto. destruct (dget x (conns g0)) as [cx|] eqn:Dx; simpl; auto.
            f_equal. f_equal; symmetry; apply sdiff_skip; intros F.
            -- assert (J : In k (src g0 x)) by (rewrite src_get, Dx; auto).
               apply (wf_src_present g0 k x Hwf) in J. destruct J. congruence.
            -- assert (J : In k (tgt g0 x)) by (rewrite tgt_get, Dx; auto).
               apply (wf_tgt_present g0 x k Hwf) in J. destruct J. congruence.
        + apply (i_dict _ _ _ _ _ I). }
    destruct Core as (g' & E' & G' & Dw & Od & Ink & Sr & Tg & Tgs & Stt & Unu).
    exists g'. split; auto.
    assert (Mono : forall x, In x (tgt g' x) -> True) by auto.
    assert (TgtIn : forall x t, In t (tgt g' x) -> In t (tgt g x)).
    { intros x t. rewrite !tgt_get, G', (i_get _ _ _ _ _ I).
      change (mem x (k :: P)) with (eqb x k || mem x P). destruct (eqb x k); simpl; [tauto|].
      destruct (mem x P); simpl; [tauto|]. destruct (dget x (conns g0)); simpl; [|tauto].
      rewrite !In_sdiff. simpl. tauto. }
    assert (SrcIn : forall x t, In t (src g' x) -> In t (src g x)).
    { intros x t. rewrite !src_get, G', (i_get _ _ _ _ _ I).
      change (mem x (k :: P)) with (eqb x k || mem x P). destruct (eqb x k); simpl; [tauto|].
      destruct (mem x P); simpl; [tauto|]. destruct (dget x (conns g0)); simpl; [|tauto].
      rewrite !In_sdiff. simpl. tauto. }
    assert (ne_incl : forall l l' : list string, (forall t, In t l -> In t l') -> l <> [] -> l' <> []).
    { intros l l' Hl N F. destruct l as [|a l]; [congruence|]. subst. apply (Hl a). left; auto. }
    constructor; simpl; auto.
    - intros x. rewrite Hq, In_sremove. split.
      + intros Hx. destruct (in_dec string_dec x D) as [J|J]; [|tauto].
        apply (i_split _ _ _ _ _ I) in J. destruct (eq_dec x k); [auto|tauto].
      + intros [[<-|J]|[(N & J)|(J & _)]]; auto.
        * apply HD, (i_split _ _ _ _ _ I); auto.
        * apply HD, (i_split _ _ _ _ _ I); auto.
    - intros x [<-|J] F; apply Hq in F; rewrite In_sremove in F.
      + destruct F as [F|F]; [tauto|]. tauto.
      + destruct F as [(_ & F)|(_ & F)].
        * apply (i_disj _ _ _ _ _ I x); auto.
        * apply F, (i_split _ _ _ _ _ I); auto.
    - intros x Hx. apply HD, (i_D0 _ _ _ _ _ I); auto.
    - intros v N1 N2 N3 N4.
      assert (New : (exists t, consumer g0 v t /\ ~ In t D) -> exists t, consumer g0 v t /\ In t queue').
      { intros (t & Ct & Nt). exists t. split; auto. apply Hq. right. split; auto. }
      destruct (in_dec string_dec v D) as [J|J]; [exfalso; auto|].
      assert (Dc : (exists t, consumer g0 v t /\ ~ In t D) \/ (forall t, consumer g0 v t -> In t D)).
      { assert (X : forall l : list string, (exists t, In t l /\ ~ In t D) \/ (forall t, In t l -> In t D)).
        { clear. induction l as [|t l IH]; [right; intros ? []|]. destruct (in_dec string_dec t D).
          - destruct IH as [(x & A & B)|IH]; [left; exists x; simpl; auto|]. right. intros x [<-|]; auto.
          - left. exists t. simpl; auto. }
        destruct (X (tgt g0 v)) as [(t & A & B)|X1]; [left; exists t; split; [left; auto|auto]|].
        destruct (X (map fst (filter (fun p => eqb (snd p) v && negb (eqb (fst p) v)) (outd g0))))
          as [(t & A & B)|X2].
        - left. exists t. split; auto. right. apply alias_In in A; auto.
        - right. intros t [Ct|Ct]; auto. apply X2. apply alias_In; auto. }
      destruct Dc as [Dc|Dc]; auto.
      destruct (i_max _ _ _ _ _ I v J N2 N3 Dc) as (t & Ct & Qt).
      destruct (eq_dec t k) as [->|Nt].
      + apply New. apply Hmx; auto.
      + exists t. split; auto. apply Hq. left. apply In_sremove; auto.
    - intros x Nx Tx. apply Sr; [intros ->; tauto|auto|]. apply (i_srcs _ _ _ _ _ I); [tauto|].
      eapply ne_incl; [|apply Tx]. apply TgtIn.
    - intros x Nx Tx. apply Tg; [intros ->; tauto|auto|]. apply (i_tgts _ _ _ _ _ I); [tauto|].
      eapply ne_incl; [|apply Tx]. apply SrcIn.
    - intros x Hx. apply (i_tgts_sub _ _ _ _ _ I); auto.
    - intros o. rewrite Od. apply O1.
    - rewrite Od. auto.
    - intros x Nx. rewrite Stt by (intros ->; tauto). apply (i_st _ _ _ _ _ I). tauto.
    - intros x. rewrite In_sremove, (i_outs _ _ _ _ _ I). split; [intros (N & A & B); split; auto; intros [F|F]; congruence|].
      intros (A & B). split; [intros ->; tauto|tauto].
    - intros x. rewrite In_sremove, Ink, (i_ink _ _ _ _ _ I). split; [intros (N & A & B); split; auto; intros [F|F]; congruence|].
      intros (A & B). split; [intros ->; tauto|tauto].
    - intros x Hx. destruct (Unu x Hx) as [->|Hx']; auto. destruct (i_un _ _ _ _ _ I x Hx'); auto.
  Qed.

  Variable KS : list string.
  Hypothesis HKS : NoDup KS.
  Hypothesis HK1 : forall k, In k (dkeys (conns g0)) -> In k KS.
  Hypothesis HK2 : forall k, In k (dvals (outd g0)) -> In k KS.

  Lemma ignore_loop_ok fuel : forall P D queue outs g, iinv P D queue outs g ->
    length queue + length (sdiff KS D) <= fuel ->
    exists P' D' outs' g', ignore_loop pick fuel D queue outs g = Ok (D', outs', g') /\
      iinv P' D' [] outs' g'.
  Proof.
    induction fuel as [|f IH]; intros P D queue outs g I L.
    - destruct queue; [|simpl in L; lia]. exists P, D, outs, g. split; auto.
    - destruct queue as [|q0 qs]; [exists P, D, outs, g; split; auto|]. cbn [ignore_loop].
      set (queue := q0 :: qs) in *. set (k := pick queue).
      assert (Ik : In k queue) by (apply Hpick; discriminate).
      pose proof (sremove_length k queue Ik) as Lr.
      assert (Nk : ~ In k P) by (intros F; apply (i_disj _ _ _ _ _ I k); auto).
      assert (KD : In k D) by (apply (i_split _ _ _ _ _ I); auto).
      assert (Fw : infer_ignore_step g k true (D, sremove k queue) = (D, sremove k queue)).
      { unfold infer_ignore_step. destruct (mem k (srcs g)); auto. apply forward_nothing.
        intros v Hv. apply (get_targets_true _ _ _ _ _ I) in Hv; auto. apply (i_closed _ _ _ _ _ I k); tauto. }
      cbv zeta. rewrite Fw.
      assert (Bw : infer_ignore_step g k false (D, sremove k queue) =
        fold_left (ignore_visit g (fun v => get_target_keys v true g)) (get_source_keys k true g) (D, sremove k queue)).
      { unfold infer_ignore_step. destruct (mem k (tgts g) || dmem k (outd g)) eqn:C; auto.
        apply orb_false_iff in C. destruct C as (C1 & C2).
        assert (E : get_source_keys k true g = []).
        { unfold get_source_keys. apply dmem_false in C2. rewrite C2, app_nil_r. rewrite <- src_get.
          destruct (src g k) eqn:Es; auto. exfalso. apply (mem_not_In k) in C1. apply C1.
          apply (i_tgts _ _ _ _ _ I); auto. rewrite Es. discriminate. }
        rewrite E. reflexivity. }
      rewrite Bw.
      destruct (backward_fold _ _ _ _ _ I k (get_source_keys k true g) D (sremove k queue))
        as (D' & q' & E & S1 & S2 & S3 & S4 & S5 & S6).
      + intros v Hv. eapply get_sources_true; eauto.
      + intros x Hx. apply (i_split _ _ _ _ _ I); auto.
      + auto.
      + apply (i_useless _ _ _ _ _ I).
      + apply (i_closed _ _ _ _ _ I).
      + rewrite E. destruct (remove_key_step P D queue outs g k I Nk Ik D' q' S1 S2 S3 S4) as (g' & E' & I').
        * intros v Cv N1 N2. apply S5; auto. apply (get_sources_back _ _ _ _ _ I); auto.
          intros F. apply N1, S1, (i_split _ _ _ _ _ I); auto.
        * rewrite E'. cbn [bind]. apply (IH _ _ _ _ _ I').
          assert (M : length q' + length (sdiff KS D') <= length (sremove k queue) + length (sdiff KS D)).
          { apply S6; auto. intros v Hv. apply (get_sources_true _ _ _ _ _ I) in Hv; auto.
            destruct Hv as [Hv|(Hv & _)].
            - apply HK1. apply (wf_mirror_In g0 v k Hwf) in Hv. apply In_keys_get. eapply wf_src_present; eauto.
            - apply HK2. apply dget_In in Hv. unfold dvals. apply in_map_iff. exists (k, v). auto. }
          lia.
  Qed.

  Record ignored (D outs : list string) (g' : graph) : Prop := {
    d_exact : forall k, In k D <-> useless g0 D0 k;
    d_wf : wf g';
    d_ac : acyclic_by rk g';
    d_keys : forall k, In k (dkeys (conns g')) <-> In k (dkeys (conns g0)) /\ ~ In k D;
    d_keepop : forall k, ~ In k D -> opof g' k = opof g0 k;
    d_src : forall k, ~ In k D -> src g' k = src g0 k;
    d_outd : forall o, dget o (outd g') = if mem o D then None else dget o (outd g0);
    d_alias : forall o r, dget o (outd g') = Some r -> ~ In r D;
    d_st : forall k, ~ In k D -> dget k (statics g') = dget k (statics g0);
    d_outs : forall o, In o outs <-> In o outs0 /\ ~ In o D;
    d_ink : forall k, In k (inkeys g') <-> In k (inkeys g0) /\ ~ In k D;
    d_un : forall x, In x (unused g') -> In x (unused g0) \/ In x D;
    d_ow : dwf (outd g')
  }.
  Lemma iinv_final P D outs g' : iinv P D [] outs g' -> ignored D outs g'.
  Proof.
    intros I.
    assert (PD : forall x, In x P <-> In x D).
    { intros x. rewrite (i_split _ _ _ _ _ I). simpl. tauto. }
    assert (MP : forall x, mem x P = mem x D).
    { intros x. destruct (mem_spec x P) as [J|J], (mem_spec x D) as [K|K]; auto; apply PD in J || apply PD in K; tauto. }
    assert (Kept : forall x s, ~ In x D -> In s (src g0 x) -> ~ In s D).
    { intros x s Nx Hs F. apply Nx. apply (i_closed _ _ _ _ _ I s x F). left.
      apply (wf_mirror_In g0 s x Hwf); auto. }
    assert (Sr : forall x, src g' x = if mem x D then [] else src g0 x).
    { intros x. rewrite src_get, (i_get _ _ _ _ _ I), MP. destruct (mem_spec x D) as [J|J]; auto.
      rewrite src_get. destruct (dget x (conns g0)) as [c|] eqn:Dx; simpl; auto.
      assert (F : forall l, (forall s, In s l -> ~ In s D) -> sdiff l P = l).
      { clear -MP. induction l as [|s l IH]; simpl; intros H; auto.
        rewrite MP. destruct (mem_spec s D) as [J|J]; simpl; [exfalso; eapply H; eauto|].
        f_equal. apply IH. intros; apply H; auto. }
      apply F. intros s Hs. apply (Kept x); auto. rewrite src_get, Dx; auto. }
    assert (Op : forall x, opof g' x = if mem x D then None else opof g0 x).
    { intros x. unfold opof. rewrite (i_get _ _ _ _ _ I), MP. destruct (mem x D); auto.
      destruct (dget x (conns g0)); auto. }
    assert (Tg : forall x, tgt g' x = if mem x D then [] else sdiff (tgt g0 x) D).
    { intros x. rewrite tgt_get, (i_get _ _ _ _ _ I), MP. destruct (mem x D); auto.
      rewrite tgt_get. destruct (dget x (conns g0)); simpl; auto.
      unfold sdiff. apply filter_ext. intros y. rewrite MP; auto. }
    assert (Ks : forall k, In k (dkeys (conns g')) <-> In k (dkeys (conns g0)) /\ ~ In k D).
    { intros k. rewrite !In_keys_get, (i_get _ _ _ _ _ I), MP. destruct (mem_spec k D) as [J|J].
      - split; [intros (c & F); discriminate|tauto].
      - destruct (dget k (conns g0)) as [c|]; simpl; split; intros H.
        + split; eauto.
        + eauto.
        + destruct H; discriminate.
        + destruct H as ((c & F) & _); discriminate. }
    assert (OD : forall o, dget o (outd g') = if mem o D then None else dget o (outd g0)).
    { intros o. rewrite (i_outd _ _ _ _ _ I), MP; auto. }
    constructor; auto.
    - intros k. split; [apply (i_useless _ _ _ _ _ I)|].
      induction 1 as [k Hk|k t Ct No Hall IH]; [apply (i_D0 _ _ _ _ _ I); auto|].
      destruct (in_dec string_dec k D) as [|N]; auto. exfalso.
      destruct (i_max _ _ _ _ _ I k N No) as (t' & _ & []); eauto.
    - constructor.
      + apply (i_dict _ _ _ _ _ I).
      + intros s t. rewrite Tg, Sr. destruct (mem_spec s D) as [J|J], (mem_spec t D) as [K|K]; auto.
        * destruct (cnt s (src g0 t)) eqn:C; auto. exfalso.
          assert (F : In s (src g0 t)) by (apply cnt_In; lia). apply (Kept t s K F J).
        * apply cnt_not_In. rewrite In_sdiff. tauto.
        * rewrite cnt_sdiff by auto. apply (w_mirror g0 Hwf).
      + intros k. rewrite Op, Sr. destruct (mem k D); [tauto|]. apply (w_op g0 Hwf).
      + intros k Hk. apply (i_srcs _ _ _ _ _ I); auto. intros F. rewrite Tg in Hk. apply PD in F.
        apply mem_In in F. rewrite F in Hk. congruence.
      + intros k Hk. apply Ks in Hk. destruct Hk as (Hk & Nk). rewrite Op.
        destruct (mem_spec k D) as [|_]; [tauto|]. split.
        * intros F. apply (w_tgts g0 Hwf); auto. apply (i_tgts_sub _ _ _ _ _ I); auto.
        * intros F. apply (i_tgts _ _ _ _ _ I); [rewrite PD; auto|]. rewrite Sr.
          destruct (mem_spec k D) as [|_]; [tauto|]. intros E. apply (w_op g0 Hwf) in E. congruence.
    - intros s t. rewrite Sr. destruct (mem t D); [intros []|]. apply Hac.
    - intros k Nk. rewrite Op. destruct (mem_spec k D); [tauto|auto].
    - intros k Nk. rewrite Sr. destruct (mem_spec k D); [tauto|auto].
    - intros o r H F. rewrite OD in H. destruct (mem_spec o D) as [|No]; [discriminate|].
      apply No. destruct (eq_dec o r) as [->|N]; auto. apply (i_closed _ _ _ _ _ I r o F). right; auto.
    - intros k Nk. apply (i_st _ _ _ _ _ I). rewrite PD; auto.
    - intros o. rewrite (i_outs _ _ _ _ _ I), PD. tauto.
    - intros o. rewrite (i_ink _ _ _ _ _ I), PD. tauto.
    - intros x Hx. destruct (i_un _ _ _ _ _ I x Hx); auto. right. apply PD; auto.
    - apply (i_outd_wf _ _ _ _ _ I).
  Qed.
End I.

(** *** The whole function *)
Definition non_leaf {V} (g : graph V) (weak outs : list string) : list string :=
  filter (fun k => mem k (srcs g) && mem k outs) weak.
Definition given_up {V} (g : graph V) (weak outs : list string) : list string :=
  sdiff weak (non_leaf g weak outs).

Lemma infer_ignore_ok {V} pick rk (g : graph V) weak outs fuel :
  (forall l, l <> [] -> In (pick l) l) -> wf g -> acyclic_by rk g -> dwf (outd g) ->
  (forall k, In k (given_up g weak outs) -> forall t, consumer g k t -> In t (given_up g weak outs)) ->
  length weak + length (conns g) + length (outd g) <= fuel ->
  exists D outs' g', infer_ignore pick fuel weak outs g = Ok (D, outs', g') /\
    ignored rk g (given_up g weak outs) (sdiff outs (non_leaf g weak outs)) D outs' g'.
Proof.
  intros Pk W A Ow Leaf L. unfold infer_ignore. fold (non_leaf g weak outs). fold (given_up g weak outs).
  set (D0 := given_up g weak outs) in *.
  set (KS := nodup string_dec (dkeys (conns g) ++ dvals (outd g))).
  destruct (ignore_loop_ok pick rk g D0 (sdiff outs (non_leaf g weak outs)) Pk W A Ow KS) with
    (fuel := fuel) (P := @nil string) (D := D0) (queue := D0) (outs := sdiff outs (non_leaf g weak outs)) (g := g)
    as (P' & D' & outs' & g' & E & I).
  - apply NoDup_nodup.
  - intros k Hk. apply nodup_In, in_app_iff; auto.
  - intros k Hk. apply nodup_In, in_app_iff; auto.
  - constructor; simpl; auto.
    + tauto.
    + intros x Hx. apply u_given; auto.
    + intros x t Hx Ct. apply (Leaf x); auto.
    + intros v _ _ (t & Ct) H. exists t. auto.
    + intros x. destruct (dget x (conns g)) as [c|]; simpl; auto. f_equal. destruct c as [o s t]; simpl.
      assert (F : forall l : list string, sdiff l [] = l).
      { induction l as [|y l IH]; simpl; auto. f_equal; auto. }
      rewrite !F. auto.
    + apply (w_dict g W).
    + intros x _. apply (w_srcs g W).
    + intros x _ Hx. apply (w_tgts g W).
      * apply In_keys_get. rewrite src_get in Hx. destruct (dget x (conns g)); [eauto|congruence].
      * intros F. apply (w_op g W) in F. congruence.
    + intros x. tauto.
    + intros x. tauto.
  - pose proof (filter_len (fun x => negb (mem x D0)) KS) as F1. fold (sdiff KS D0) in F1.
    assert (F2 : length KS <= length (dkeys (conns g) ++ dvals (outd g))).
    { apply NoDup_incl_length; [apply NoDup_nodup|]. intros x Hx. apply nodup_In in Hx; auto. }
    rewrite app_length in F2. unfold dkeys, dvals in F2. rewrite !map_length in F2.
    assert (F3 : length D0 <= length weak) by apply filter_len.
    lia.
  - exists D', outs', g'. split; auto. eapply iinv_final; eauto.
Qed.

(** Running a well-formed graph in emission order produces a solution of its equations. *)
Lemma run_graph_solves {V} (fsem : string -> list V -> V) manual (g : graph V) rk e0 order :
  wf g -> acyclic_by rk g ->
  (manual = true -> forall t, opof g t <> None -> opof g (last (src g t) "") = None) ->
  topological_order manual g = Ok order ->
  solves fsem manual (run_graph fsem manual g order e0) g.
Proof.
  intros W A Hc Eo k o Ho.
  destruct (topo_order_spec manual g _ order W A Eo) as (ND & All & Snd).
  assert (Ik : In k order) by (apply All; congruence).
  apply in_split in Ik. destruct Ik as (a & b & Eab).
  assert (Other : forall l e x, ~ In x l -> run_graph fsem manual g l e x = e x).
  { clear. unfold run_graph. induction l as [|t l IH]; simpl; intros e x N; auto.
    rewrite IH by tauto. destruct (opof g t); auto. unfold upd. destruct (eq_dec x t); auto. subst; tauto. }
  assert (E1 : run_graph fsem manual g order e0 =
     run_graph fsem manual g b (upd (run_graph fsem manual g a e0) k
        (op_value fsem manual (run_graph fsem manual g a e0) o (src g k)))).
  { rewrite Eab. unfold run_graph at 1. rewrite fold_left_app. simpl. rewrite Ho. reflexivity. }
  rewrite E1.
  assert (Nb : ~ In k (a ++ b)) by (rewrite Eab in ND; apply NoDup_remove_2 in ND; auto).
  rewrite Other by (intros F; apply Nb, in_app_iff; auto).
  unfold upd at 1. destruct (eq_dec k k); [|congruence].
  apply opv_ext.
  - intros s Js. assert (Ns : s <> k) by (intros ->; apply (acyclic_noself rk g k A); auto).
    rewrite (Other b).
    + unfold upd. destruct (eq_dec s k); [congruence|auto].
    + intros F. assert (Os : opof g s <> None) by (apply All; rewrite Eab; apply in_app_iff; right; right; auto).
      assert (Ia : In s a).
      { apply (Snd a k b Eab); auto. unfold strip_cache. destruct manual eqn:Em; simpl; auto.
        destruct (ends_with "_cache" (last (src g k) "")); auto.
        assert (Nl : s <> last (src g k) "").
        { intros ->. apply Os. apply (Hc eq_refl). congruence. }
        destruct (src g k) as [|x l] eqn:El; [destruct Js|].
        rewrite (app_removelast_last "" (l := x :: l)) in Js by discriminate.
        apply in_app_iff in Js. destruct Js as [|[J|[]]]; auto. congruence. }
      rewrite Eab in ND. apply NoDup_remove_1 in ND.
      clear -ND Ia F. induction a as [|y a IH]; simpl in *; [tauto|]. inversion ND; subst.
      destruct Ia as [->|Ia]; [|auto]. apply H1, in_app_iff. auto.
  - intros F. apply (w_op g W) in F. congruence.
Qed.
