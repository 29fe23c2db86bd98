(** * Correctness of the generated evaluate function. *)
From Coq Require Import String Ascii List Arith Lia Bool.
From Verif Require Import PyBase PyStrings FlatGraph_Model Topo_Proofs Graph_Proofs Build_Proofs
  Prune_Proofs Pipeline_Proofs Codegen_Model.
Import ListNotations.
Open Scope string_scope.
Open Scope list_scope.
Open Scope nat_scope.

Lemma mapM_ok {A B} (f : A -> res B) (g : A -> B) l :
  (forall x, In x l -> f x = Ok (g x)) -> mapM f l = Ok (map g l).
Proof.
  induction l as [|x l IH]; simpl; intros H; auto.
  rewrite (H x) by auto. simpl. rewrite IH by auto. reflexivity.
Qed.
Lemma foldM_app {A B} (f : A -> B -> res A) l1 l2 a :
  foldM f (l1 ++ l2) a = bind (foldM f l1 a) (foldM f l2).
Proof.
  revert a. induction l1 as [|x l IH]; simpl; intros a; auto.
  destruct (f a x); simpl; auto.
Qed.
Lemma NoDup_app_intro {A} (l l' : list A) : NoDup l -> NoDup l' ->
  (forall x, In x l -> In x l' -> False) -> NoDup (l ++ l').
Proof.
  induction l as [|x l IH]; simpl; intros N N' D; auto. inversion N; subst. constructor.
  - rewrite in_app_iff. intros [|F]; [tauto|]. apply (D x); auto.
  - apply IH; auto. intros y Hy. apply D; auto.
Qed.

Section C.
  Context {V : Type}.
  Variable fn_sem : string -> list V -> V.
  Variable reserved : string -> bool.
  Notation mangle := (mangle reserved).
  Notation pmodel := (@pmodel V).
  Notation store := (@store V).

  Definition dict_names : list string := ["params"; "data"; "cache"].
  (** Keys the generated function deals with. *)
  Definition used_key (pm : pmodel) (k : string) : Prop :=
    In k (p_order pm) \/ (exists t, In t (p_order pm) /\ In k (p_args pm t)) \/ In k (dvals (outd (pg pm))).
  (** Keys whose value comes from outside the function. *)
  Definition external (pm : pmodel) (k : string) : Prop :=
    dmem k (statics (pg pm)) = true \/ In k (p_rt pm) \/ ~ In k (tgts (pg pm)).

  (** Naming conditions. *)
  Record names_ok (pm : pmodel) : Prop := {
    n_order : forall k, In k (p_order pm) -> reserved k = false;
    n_out : forall r, In r (dvals (outd (pg pm))) -> reserved r = false;
    n_inj : forall k, used_key pm k -> reserved k = true ->
              reserved ("_" ++ k) = false /\ ~ used_key pm ("_" ++ k)%string;
    n_dicts : forall k, used_key pm k -> ~ In (mangle k) dict_names;
    n_fn : forall t, In t (p_order pm) -> ~ In (p_fn pm t) dict_names /\
              forall k, used_key pm k -> p_fn pm t <> mangle k }.
  (** Structural conditions. *)
  Record shape_ok (pm : pmodel) : Prop := {
    s_nodup : NoDup (p_order pm);
    s_fresh : forall t, In t (p_order pm) ->
       dmem t (statics (pg pm)) = false /\ ~ In t (p_rt pm) /\ ~ In t (unused (pg pm)) /\
       ~ In t (p_disc pm) /\ In t (tgts (pg pm));
    s_args : forall t k, In t (p_order pm) -> In k (p_args pm t) -> In k (src (pg pm) t);
    s_skip : forall t k, In t (p_order pm) -> In k (src (pg pm) t) -> ~ In k (p_args pm t) ->
       is_key_static pm k = true;
    s_mirror : forall t k, In t (p_order pm) -> In k (src (pg pm) t) -> In t (tgt (pg pm) k);
    s_topo : forall a t b, p_order pm = a ++ t :: b -> forall k, In k (p_args pm t) ->
       In k a \/ external pm k;
    s_out : forall r, In r (dvals (outd (pg pm))) -> In r (p_order pm) \/ external pm r;
    s_ret : forall o, In o (p_outputs pm) -> exists r, dget o (outd (pg pm)) = Some r /\
       (is_static_scalar pm o = true \/ is_static_scalar pm r = true -> o = r) }.

  (** Value of an external key: static scalars are part of the model, other static values come
      from [cache], run-time data from [data], the rest from [params]. *)
  Definition input_of (pm : pmodel) (params data cache : dict string V) (k : string) : option V :=
    if dmem k (statics (pg pm)) then if p_scalar pm k then dget k (statics (pg pm)) else dget k cache
    else if mem k (p_rt pm) then dget k data else dget k params.

  (** Reference meaning: apply the operators in order. *)
  Definition meaning (pm : pmodel) (e0 : string -> V) (l : list string) : string -> V :=
    fold_left (fun e t => upd e t (fn_sem (p_fn pm t) (map e (p_args pm t)))) l e0.

  Lemma meaning_other pm l : forall e0 k, ~ In k l -> meaning pm e0 l k = e0 k.
  Proof.
    induction l as [|t l IH]; simpl; intros e0 k N; auto. unfold meaning in *. simpl.
    rewrite IH by tauto. unfold upd. destruct (eq_dec k t); auto. subst; tauto.
  Qed.

  Section Fix.
    Variable pm : pmodel.
    Variables params data cache : dict string V.
    Variable e0 : string -> V.
    Hypothesis NM : names_ok pm.
    Hypothesis SH : shape_ok pm.
    Hypothesis Sup : forall k, used_key pm k -> external pm k -> input_of pm params data cache k = Some (e0 k).
    Let env := meaning pm e0 (p_order pm).

    Lemma external_not_order k : In k (p_order pm) -> external pm k -> False.
    Proof.
      clear - SH.
      intros I [E|[E|E]]; destruct (s_fresh pm SH k I) as (A & B & _ & _ & D); try tauto. congruence.
    Qed.
    Lemma env_external k : external pm k -> env k = e0 k.
    Proof.
      intros E. unfold env. apply meaning_other. intros I. eapply external_not_order; eauto.
    Qed.
    Lemma env_op t : In t (p_order pm) -> env t = fn_sem (p_fn pm t) (map env (p_args pm t)).
    Proof.
      intros I. apply in_split in I. destruct I as (a & b & E).
      pose proof (s_nodup pm SH) as ND. rewrite E in ND.
      assert (Nt : ~ In t a /\ ~ In t b).
      { apply NoDup_remove_2 in ND. rewrite in_app_iff in ND. tauto. }
      assert (E1 : forall x, env x = meaning pm (upd (meaning pm e0 a) t
                 (fn_sem (p_fn pm t) (map (meaning pm e0 a) (p_args pm t)))) b x).
      { intros x. unfold env. rewrite E. unfold meaning. rewrite fold_left_app. reflexivity. }
      rewrite (E1 t). rewrite meaning_other by tauto.
      unfold upd at 1. destruct (eq_dec t t) as [_|n]; [|congruence].
      f_equal. apply map_ext_in. intros k Ik. rewrite (E1 k).
      assert (Nb : ~ In k b /\ k <> t).
      { destruct (s_topo pm SH a t b E k Ik) as [Ia|X].
        - split.
          + intros Ib. clear -ND Ia Ib. induction a as [|x a IH]; [destruct Ia|].
            inversion ND; subst. destruct Ia as [->|Ia]; auto.
            apply H1. apply in_app_iff. right; right; auto.
          + intros ->. tauto.
        - split; intros F; apply (external_not_order k); auto; rewrite E; apply in_app_iff; right; simpl; auto. }
      rewrite (meaning_other pm b) by tauto. unfold upd. destruct (eq_dec k t); auto. tauto.
    Qed.

    (** *** Names *)
    Lemma mangle_fix k : used_key pm k -> mangle (mangle k) = mangle k.
    Proof.
      intros U. unfold Codegen_Model.mangle at 2 3. destruct (reserved k) eqn:R.
      - destruct (n_inj pm NM k U R) as (R2 & _). unfold Codegen_Model.mangle. rewrite R2; auto.
      - unfold Codegen_Model.mangle. rewrite R; auto.
    Qed.
    Lemma mangle_inj k k' : used_key pm k -> used_key pm k' -> mangle k = mangle k' -> k = k'.
    Proof.
      intros U U'. unfold Codegen_Model.mangle.
      destruct (reserved k) eqn:R, (reserved k') eqn:R'; auto; intros E.
      - injection E; auto.
      - exfalso. destruct (n_inj pm NM k U R) as (_ & N). apply N. rewrite E; auto.
      - exfalso. destruct (n_inj pm NM k' U' R') as (_ & N). apply N. rewrite <- E; auto.
    Qed.
    Lemma mangle_plain k : reserved k = false -> mangle k = k.
    Proof. unfold Codegen_Model.mangle. intros ->; auto. Qed.

    (** *** Store invariant *)
    (** Keys bound by the load section. *)
    Definition loaded (k : string) : Prop := external pm k /\ is_static_scalar pm k = false.
    Definition bound (st : store) (k : string) : Prop := dget (mangle k) st = Some (SVal (env k)).

    Record inv (st : store) (done deleted : list string) : Prop := {
      v_wf : dwf st;
      v_bound : forall k, used_key pm k -> In k done \/ loaded k -> ~ In k deleted -> bound st k;
      v_del : forall k, In k deleted -> ~ In k (dvals (outd (pg pm))) /\ is_key_static pm k = false /\
                forall t, In t (p_order pm) -> In k (src (pg pm) t) -> In t done }.

    Let determined := sunion (sunion (dkeys (statics (pg pm))) (unused (pg pm))) (p_disc pm).

    Lemma order_not_determined t : In t (p_order pm) -> ~ In t determined.
    Proof.
      intros I. destruct (s_fresh pm SH t I) as (A & _ & B & C & _). unfold determined.
      rewrite !In_sunion. intros [[H|H]|H]; auto. apply dmem_In in H. congruence.
    Qed.

    Lemma call_arg_ok st k : used_key pm k ->
      (external pm k -> is_static_scalar pm k = true \/ bound st k) -> (~ external pm k -> bound st k) ->
      eval_expr st (call_arg reserved pm k) = Ok (env k).
    Proof.
      intros U B1 B2. unfold call_arg.
      assert (D : external pm k \/ ~ external pm k).
      { unfold external. destruct (dmem k (statics (pg pm))); auto.
        destruct (in_dec string_dec k (p_rt pm)); auto.
        destruct (in_dec string_dec k (tgts (pg pm))); auto. right. intuition congruence. }
      destruct (dget k (statics (pg pm))) as [v|] eqn:E.
      - assert (X : external pm k) by (left; unfold dmem; rewrite E; auto).
        destruct (p_scalar pm k) eqn:Sc.
        + simpl. f_equal. rewrite (env_external k X).
          pose proof (Sup k U X) as Es. unfold input_of, dmem in Es. rewrite E, Sc in Es. congruence.
        + destruct (B1 X) as [F|B]; [|unfold eval_expr; rewrite B; auto].
          unfold is_static_scalar in F. rewrite Sc, andb_false_r in F. discriminate.
      - destruct D as [X|X].
        + destruct (B1 X) as [F|B]; [|unfold eval_expr; rewrite B; auto].
          unfold is_static_scalar, dmem in F. rewrite E in F. discriminate.
        + specialize (B2 X). unfold eval_expr. rewrite B2; auto.
    Qed.

    Variable locals : list string.

    Lemma gen_dels_ok t done : In t (p_order pm) -> In t done ->
      forall ks deleted st, (forall k, In k ks -> In k (src (pg pm) t)) ->
      (forall k, In k (p_args pm t) -> In k done \/ external pm k) ->
      inv st done deleted ->
      let (l, d) := gen_dels reserved pm determined done ks deleted in
      exists st', foldM (exec_stmt fn_sem locals) l st = Ok st' /\ inv st' done d.
    Proof.
      intros It Id. induction ks as [|k ks IH]; intros deleted st Hs Ha I; simpl.
      - exists st; auto.
      - destruct (check_deletable pm k deleted determined done) eqn:C.
        + specialize (IH (sadd k deleted)).
          unfold check_deletable in C.
          destruct (mem_spec k (dvals (outd (pg pm)))) as [|No]; [simpl in C; discriminate|].
          destruct (mem_spec k deleted) as [|Nd]; [simpl in C; discriminate|].
          destruct (mem k (p_inputs pm)); [simpl in C; discriminate|].
          destruct (is_key_static pm k) eqn:Ns; [simpl in C; discriminate|]. simpl in C.
          assert (Ik : In k (src (pg pm) t)) by (apply Hs; left; auto).
          assert (Ak : In k (p_args pm t)).
          { destruct (in_dec string_dec k (p_args pm t)); auto.
            rewrite (s_skip pm SH t k It Ik n) in Ns. discriminate. }
          assert (Uk : used_key pm k) by (right; left; eauto).
          assert (Bk : bound st k).
          { apply (v_bound _ _ _ I); auto. destruct (Ha k Ak) as [|X]; auto. right. split; auto.
            unfold is_static_scalar. unfold is_key_static in Ns. apply orb_false_iff in Ns.
            destruct Ns as (_ & ->). auto. }
          pose proof (proj1 (ssubset_spec _ _) C) as Sub.
          assert (I' : inv (ddel (mangle k) st) done (sadd k deleted)).
          { constructor.
            - apply dwf_ddel, (v_wf _ _ _ I).
            - intros k' U' Av Nk'. rewrite In_sadd in Nk'. unfold bound.
              rewrite dget_ddel_other.
              + apply (v_bound _ _ _ I); auto.
              + intros E. apply mangle_inj in E; auto.
            - intros k' Ik'. rewrite In_sadd in Ik'. destruct Ik' as [->|Ik'].
              + split; auto. split; auto. intros t' It' Is'. apply Sub. apply In_sdiff. split.
                * apply (s_mirror pm SH) in Is'; auto.
                * apply order_not_determined; auto.
              + apply (v_del _ _ _ I); auto. }
          specialize (IH (ddel (mangle k) st) (fun x Hx => Hs x (or_intror Hx)) Ha I').
          destruct (gen_dels reserved pm determined done ks (sadd k deleted)) as (l & d).
          destruct IH as (st' & E' & I2). exists st'. split; auto. simpl.
          unfold bound in Bk. unfold dmem. rewrite Bk. simpl. auto.
        + apply IH; auto. intros x Hx; apply Hs; right; auto.
    Qed.

    Hypothesis Loc : forall t, In t (p_order pm) -> ~ In (p_fn pm t) locals.

    Lemma gen_body_ok : forall rest done deleted used st,
      p_order pm = done ++ rest -> inv st done deleted ->
      let (l, u) := gen_body reserved pm determined rest done deleted used in
      exists st' d, foldM (exec_stmt fn_sem locals) l st = Ok st' /\ inv st' (p_order pm) d.
    Proof.
      induction rest as [|t rest IH]; intros done deleted used st E I; simpl.
      - rewrite app_nil_r in E. rewrite E. eauto.
      - assert (It : In t (p_order pm)) by (rewrite E; apply in_app_iff; right; left; auto).
        assert (Nd : ~ In t done).
        { pose proof (s_nodup pm SH) as ND. rewrite E in ND. apply NoDup_remove_2 in ND.
          rewrite in_app_iff in ND. tauto. }
        assert (Ed : sadd t done = done ++ [t]).
        { unfold sadd. apply mem_not_In in Nd. rewrite Nd; auto. }
        pose proof (n_order pm NM t It) as Rt.
        assert (Ut : used_key pm t) by (left; auto).
        set (st1 := dset t (SVal (env t)) st).
        assert (Tp : forall k, In k (p_args pm t) -> In k done \/ external pm k)
          by (apply (s_topo pm SH done t rest E)).
        assert (Step : exec_stmt fn_sem locals st (SCall (mangle (mangle t)) (p_fn pm t)
                         (map (call_arg reserved pm) (p_args pm t))) = Ok st1).
        { simpl. rewrite (proj2 (mem_not_In _ _) (Loc t It)).
          assert (M : mapM (eval_expr st) (map (call_arg reserved pm) (p_args pm t)) =
                      Ok (map env (p_args pm t))).
          { assert (P : forall k, In k (p_args pm t) -> eval_expr st (call_arg reserved pm k) = Ok (env k)).
            { intros k Ik. assert (Uk : used_key pm k) by (right; left; eauto).
              assert (Nk : ~ In k deleted).
              { intros Ik'. destruct (v_del _ _ _ I k Ik') as (_ & _ & X). apply Nd. apply X; auto.
                apply (s_args pm SH); auto. }
              apply call_arg_ok; auto.
              - intros X. destruct (is_static_scalar pm k) eqn:Sc; auto. right.
                apply (v_bound _ _ _ I); auto. right. split; auto.
              - intros X. apply (v_bound _ _ _ I); auto. left. destruct (Tp k Ik); tauto. }
            induction (p_args pm t) as [|k l IHl]; simpl; auto.
            rewrite P by (left; auto). simpl. rewrite IHl; auto.
            - intros x Hx. apply Tp; right; auto.
            - intros x Hx. apply P; right; auto. }
          rewrite M. simpl. rewrite (mangle_plain t Rt), (mangle_plain t Rt). rewrite <- env_op; auto. }
        assert (I1 : inv st1 (sadd t done) deleted).
        { rewrite Ed. constructor.
          - apply dwf_dset, (v_wf _ _ _ I).
          - intros k U Av Nk. unfold bound, st1. rewrite dget_dset.
            destruct (eq_dec (mangle k) t) as [Em|Nm].
            + rewrite <- (mangle_plain t Rt) in Em. apply mangle_inj in Em; auto. subst; auto.
            + apply (v_bound _ _ _ I); auto. destruct Av as [Av|]; auto.
              apply in_app_iff in Av. destruct Av as [|[<-|[]]]; auto.
              exfalso. apply Nm. apply mangle_plain; auto.
          - intros k Ik. destruct (v_del _ _ _ I k Ik) as (A & B & C). split; auto. split; auto.
            intros t' J J'. apply in_app_iff; left; auto. }
        pose proof (gen_dels_ok t (sadd t done) It) as G.
        assert (Id : In t (sadd t done)) by (apply In_sadd; auto).
        specialize (G Id (get_source_keys t false (pg pm)) deleted st1 (fun k H => H)).
        assert (Tp' : forall k, In k (p_args pm t) -> In k (sadd t done) \/ external pm k).
        { intros k Ik. destruct (Tp k Ik); auto. left. apply In_sadd; auto. }
        specialize (G Tp' I1).
        destruct (gen_dels reserved pm determined (sadd t done) (get_source_keys t false (pg pm)) deleted)
          as (dels & deleted').
        destruct G as (st2 & E2 & I2).
        specialize (IH (sadd t done) deleted' (sadd t (sunion used (sadd (mangle t) (p_args pm t)))) st2).
        rewrite Ed in IH at 1. rewrite <- app_assoc in IH. specialize (IH E I2).
        destruct (gen_body reserved pm determined rest (sadd t done) deleted'
                    (sadd t (sunion used (sadd (mangle t) (p_args pm t))))) as (body & u).
        destruct IH as (st3 & d & E3 & I3). exists st3, d. split; auto.
        cbn [foldM]. rewrite Step. cbn [bind]. rewrite foldM_app, E2. cbn [bind]. exact E3.
    Qed.

    Lemma gen_body_used : forall rest done deleted used,
      (forall t, In t rest -> In t (p_order pm)) -> (forall k, In k used -> used_key pm k) ->
      let (l, u) := gen_body reserved pm determined rest done deleted used in
      (forall k, In k u -> used_key pm k) /\ (forall k, In k used -> In k u) /\
      (forall t k, In t rest -> In k (p_args pm t) -> In k u) /\
      forall s x, In s l -> In x (assigned s) -> exists k, used_key pm k /\ x = mangle k.
    Proof.
      clear - NM SH determined.
      induction rest as [|t rest IH]; intros done deleted used H1 H2; simpl.
      - repeat split; auto; intros; tauto.
      - assert (It : In t (p_order pm)) by (apply H1; left; auto).
        pose proof (n_order pm NM t It) as Rt.
        assert (H3 : forall k, In k (sadd t (sunion used (sadd (mangle t) (p_args pm t)))) -> used_key pm k).
        { intros k. rewrite In_sadd, In_sunion, In_sadd, (mangle_plain t Rt).
          intros [->|[|[->|]]]; auto.
          - left; auto.
          - left; auto.
          - right; left; eauto. }
        assert (Hd : forall ks del, (forall k, In k ks -> In k (src (pg pm) t)) ->
                  forall s x, In s (fst (gen_dels reserved pm determined (sadd t done) ks del)) ->
                  In x (assigned s) -> exists k, used_key pm k /\ x = mangle k).
        { induction ks as [|k ks IHk]; simpl; intros del Hs s x; [tauto|].
          destruct (check_deletable pm k del determined (sadd t done)) eqn:C.
          - specialize (IHk (sadd k del) (fun y Hy => Hs y (or_intror Hy))).
            destruct (gen_dels reserved pm determined (sadd t done) ks (sadd k del)) as (l & d). simpl.
            intros [<-|Hi] Hx; [|eapply IHk; eauto]. simpl in Hx. destruct Hx as [<-|[]].
            exists k; split; auto. right; left. exists t; split; auto.
            destruct (in_dec string_dec k (p_args pm t)); auto.
            unfold check_deletable in C. rewrite (s_skip pm SH t k It (Hs k (or_introl eq_refl)) n) in C.
            rewrite !orb_true_r in C. discriminate.
          - apply IHk. intros y Hy; apply Hs; right; auto. }
        specialize (Hd (get_source_keys t false (pg pm)) deleted (fun k H => H)).
        destruct (gen_dels reserved pm determined (sadd t done) (get_source_keys t false (pg pm)) deleted)
          as (dels & deleted'). simpl in Hd.
        specialize (IH (sadd t done) deleted' _ (fun x Hx => H1 x (or_intror Hx)) H3).
        destruct (gen_body reserved pm determined rest (sadd t done) deleted'
                    (sadd t (sunion used (sadd (mangle t) (p_args pm t))))) as (body & u).
        destruct IH as (A & B & C & D). split; auto. split; [|split].
        + intros k Ik. apply B. apply In_sadd. right. apply In_sunion; auto.
        + intros t' k [<-|It'] Ik; [|eauto]. apply B. apply In_sadd. right. apply In_sunion. right.
          apply In_sadd; auto.
        + intros s x [<-|Is] Ix.
          * simpl in Ix. destruct Ix as [<-|[]]. exists t. split; [left; auto|].
            apply mangle_fix; left; auto.
          * apply in_app_iff in Is. destruct Is; eauto.
    Qed.

    (** *** Loads *)
    Definition store0 : store :=
      [("params", SDict params); ("data", SDict data); ("cache", SDict cache)].
    Lemma loads_ok : forall ks st (pre : list string),
      (forall k, In k ks -> used_key pm k) ->
      dwf st -> (forall n, In n dict_names -> dget n st = dget n store0) ->
      (forall k, In k pre -> used_key pm k -> loaded k -> bound st k) ->
      exists st', foldM (exec_stmt fn_sem locals) (flat_map (gen_load reserved pm) ks) st = Ok st' /\
        dwf st' /\ (forall k, In k pre \/ In k ks -> used_key pm k -> loaded k -> bound st' k).
    Proof.
      induction ks as [|k ks IH]; intros st pre Hu W D B.
      - simpl. exists st. split; auto. split; auto. intros k [|[]]; auto.
      - cbn [flat_map]. rewrite foldM_app.
        assert (Uk : used_key pm k) by (apply Hu; left; auto).
        assert (S1 : exists st1, foldM (exec_stmt fn_sem locals) (gen_load reserved pm k) st = Ok st1 /\
                  dwf st1 /\ (forall n, In n dict_names -> dget n st1 = dget n store0) /\
                  (forall k', In k' pre \/ k' = k -> used_key pm k' -> loaded k' -> bound st1 k')).
        { assert (Nl : gen_load reserved pm k = [] -> ~ loaded k ->
            exists st1, foldM (exec_stmt fn_sem locals) (gen_load reserved pm k) st = Ok st1 /\
                  dwf st1 /\ (forall n, In n dict_names -> dget n st1 = dget n store0) /\
                  (forall k', In k' pre \/ k' = k -> used_key pm k' -> loaded k' -> bound st1 k')).
          { intros -> N. exists st. simpl. split; auto. split; auto. split; auto.
            intros k' [? | ->] ? ?; auto; tauto. }
          unfold gen_load in *.
          set (dn := if dmem k (statics (pg pm)) then Some "cache"
             else if mem k (p_rt pm) then Some "data"
             else if negb (mem k (tgts (pg pm))) then Some "params" else None) in *.
          assert (Dn : (external pm k /\ exists n m, dn = Some n /\ In n dict_names /\
                          dget n store0 = Some (SDict m) /\
                          (is_static_scalar pm k = false -> dget k m = input_of pm params data cache k)) \/
                       (~ external pm k /\ dn = None)).
          { unfold dn, external, input_of, is_static_scalar.
            destruct (dmem k (statics (pg pm))) eqn:E1; simpl.
            - left. split; auto. exists "cache", cache. split; auto. split; [simpl; auto|]. split; auto.
              intros ->; auto.
            - destruct (mem_spec k (p_rt pm)) as [E2|E2].
              + left. split; auto. exists "data", data. simpl; auto 10.
              + destruct (mem_spec k (tgts (pg pm))) as [E3|E3]; simpl.
                * right. split; auto. intuition congruence.
                * left. split; auto. exists "params", params. simpl; auto 10. }
          destruct Dn as [(X & n & m & -> & In_ & Gn & Gm)|(X & ->)].
          2: { apply Nl; auto. intros [? ?]; tauto. }
          destruct (is_static_scalar pm k) eqn:Sc.
          { apply Nl; auto. intros [_ F]; congruence. }
          exists (dset (mangle k) (SVal (env k)) st). split; [|split; [|split]].
          - cbn [foldM exec_stmt]. rewrite (D n In_), Gn, Gm, (Sup k Uk X) by auto.
            simpl. rewrite mangle_fix by auto. rewrite env_external by auto. auto.
          - apply dwf_dset; auto.
          - intros n' Hn'. rewrite dget_dset_other; auto. intros F. apply (n_dicts pm NM k Uk).
            rewrite <- F; auto.
          - intros k' Hk' U' L'. unfold bound. rewrite dget_dset.
            destruct (eq_dec (mangle k') (mangle k)) as [E|N].
            + apply mangle_inj in E; auto. subst; auto.
            + apply B; auto. destruct Hk' as [? | ->]; auto. congruence. }
        destruct S1 as (st1 & E1 & W1 & D1 & B1). rewrite E1. cbn [bind].
        destruct (IH st1 (pre ++ [k]) (fun x Hx => Hu x (or_intror Hx)) W1 D1) as (st' & E' & W' & B').
        { intros k' Hk'. apply B1. apply in_app_iff in Hk'. destruct Hk' as [|[|[]]]; auto. }
        exists st'. split; auto. split; auto. intros k' [Hk'|[<-|Hk']]; apply B'; auto.
        + left; apply in_app_iff; auto.
        + left; apply in_app_iff; simpl; auto.
    Qed.
  End Fix.

  Theorem generated_code_correct : forall (pm : pmodel) params data cache e0,
    names_ok pm -> shape_ok pm ->
    (forall k, used_key pm k -> external pm k -> input_of pm params data cache k = Some (e0 k)) ->
    exists prog, generate_evaluate reserved pm = Ok prog /\
      run_program fn_sem prog params data cache =
      Ok (map (fun o => (o, meaning pm e0 (p_order pm) (match dget o (outd (pg pm)) with Some r => r | None => o end)))
              (p_outputs pm)).
  Proof.
    intros pm params data cache e0 NM SH Sup.
    set (determined := sunion (sunion (dkeys (statics (pg pm))) (unused (pg pm))) (p_disc pm)).
    unfold generate_evaluate. fold determined.
    set (used0 := sunion [] (dvals (outd (pg pm)))).
    assert (U0 : forall k, In k used0 <-> In k (dvals (outd (pg pm)))).
    { intros k. unfold used0. rewrite In_sunion. simpl; tauto. }
    pose proof (gen_body_used pm NM SH (p_order pm) [] [] used0 (fun t H => H)) as GU.
    assert (Hu0 : forall k, In k used0 -> used_key pm k) by (intros k Hk; right; right; apply U0; auto).
    specialize (GU Hu0). fold determined in GU.
    assert (GB : forall locals, (forall t, In t (p_order pm) -> ~ In (p_fn pm t) locals) ->
              forall st, inv pm e0 st [] [] ->
              exists st' d, foldM (exec_stmt fn_sem locals)
                 (fst (gen_body reserved pm determined (p_order pm) [] [] used0)) st = Ok st' /\
                 inv pm e0 st' (p_order pm) d).
    { intros locals HL st I.
      pose proof (gen_body_ok pm params data cache e0 NM SH Sup locals HL (p_order pm) [] [] used0 st eq_refl I) as G.
      fold determined in G.
      destruct (gen_body reserved pm determined (p_order pm) [] [] used0) as (l & u). exact G. }
    destruct (gen_body reserved pm determined (p_order pm) [] [] used0) as (body & used) eqn:Eb.
    destruct GU as (GU1 & GU2 & GU3 & GU4). cbn [fst] in GB.
    assert (Er : mapM (gen_return pm) (p_outputs pm) =
       Ok (map (fun o => (o, match dget o (statics (pg pm)) with
                             | Some v => if p_scalar pm o then EConst v
                                         else EVar (match dget o (outd (pg pm)) with Some r => r | None => o end)
                             | None => EVar (match dget o (outd (pg pm)) with Some r => r | None => o end) end))
               (p_outputs pm))).
    { apply mapM_ok. intros o Ho. unfold gen_return. destruct (s_ret pm SH o Ho) as (r & Er & _).
      rewrite Er. destruct (dget o (statics (pg pm))); auto. destruct (p_scalar pm o); auto. }
    rewrite Er. cbn [bind]. eexists. split; [reflexivity|].
    unfold run_program. cbn [fst snd].
    set (loads := flat_map (gen_load reserved pm) (str_sort used)).
    set (locals := ["params"; "data"; "cache"] ++ flat_map assigned (loads ++ body)).
    assert (HL : forall t, In t (p_order pm) -> ~ In (p_fn pm t) locals).
    { intros t It F. destruct (n_fn pm NM t It) as (F1 & F2). unfold locals in F.
      apply in_app_iff in F. destruct F as [F|F]; [tauto|].
      apply in_flat_map in F. destruct F as (s & Is & Ix). apply in_app_iff in Is.
      destruct Is as [Is|Is].
      - unfold loads in Is. apply in_flat_map in Is. destruct Is as (k & Ik & Is).
        apply (proj1 (In_str_sort _ _)) in Ik. apply GU1 in Ik. unfold gen_load in Is.
        destruct (if dmem k (statics (pg pm)) then Some "cache"
             else if mem k (p_rt pm) then Some "data"
             else if negb (mem k (tgts (pg pm))) then Some "params" else None) as [n|]; [|destruct Is].
        destruct (is_static_scalar pm k); [destruct Is|]. destruct Is as [<-|[]].
        simpl in Ix. destruct Ix as [Ix|[]]. apply (F2 k Ik). rewrite <- Ix.
        apply mangle_fix with (pm := pm); auto.
      - destruct (GU4 s _ Is Ix) as (k & Uk & E). apply (F2 k Uk E). }
    rewrite foldM_app.
    destruct (loads_ok pm params data cache e0 NM SH Sup locals (str_sort used)
                (store0 params data cache) []) as (st1 & E1 & W1 & B1).
    { intros k Hk. apply (proj1 (In_str_sort _ _)) in Hk. auto. }
    { unfold dwf. simpl. repeat constructor; simpl; intuition discriminate. }
    { auto. }
    { intros k []. }
    change [("params", SDict params); ("data", SDict data); ("cache", SDict cache)]
      with (store0 params data cache). fold loads in E1. rewrite E1. cbn [bind].
    destruct (GB locals HL st1) as (st2 & d & E2 & I2).
    { constructor; auto.
      - intros k U [F|L] _; [destruct F|]. apply B1; auto. right. apply In_str_sort.
        destruct U as [U|[(t & It & Ik)|U]].
        + exfalso. apply (external_not_order pm SH k U). apply L.
        + eauto.
        + apply GU2. apply U0; auto.
      - intros k []. }
    rewrite E2. cbn [bind].
    assert (Fin : forall o, In o (p_outputs pm) ->
       eval_expr st2 (match dget o (statics (pg pm)) with
                             | Some v => if p_scalar pm o then EConst v
                                         else EVar (match dget o (outd (pg pm)) with Some r => r | None => o end)
                             | None => EVar (match dget o (outd (pg pm)) with Some r => r | None => o end) end)
       = Ok (meaning pm e0 (p_order pm) (match dget o (outd (pg pm)) with Some r => r | None => o end))).
    { intros o Ho. destruct (s_ret pm SH o Ho) as (r & Er' & Al). rewrite Er'.
      assert (Ir : In r (dvals (outd (pg pm)))).
      { apply dget_In in Er'. apply in_map_iff. exists (o, r); auto. }
      assert (Ur : used_key pm r) by (right; right; auto).
      assert (Var : is_static_scalar pm r = false ->
                eval_expr st2 (EVar r) = Ok (meaning pm e0 (p_order pm) r)).
      { intros Ns. assert (Br : bound pm e0 st2 r).
        { apply (v_bound _ _ _ _ _ I2); auto.
          - destruct (s_out pm SH r Ir); auto. right. split; auto.
          - intros F. destruct (v_del _ _ _ _ _ I2 r F) as (F1 & _). tauto. }
        unfold bound in Br. rewrite (mangle_plain r) in Br by (apply (n_out pm NM); auto).
        simpl. rewrite Br. auto. }
      destruct (dget o (statics (pg pm))) as [v|] eqn:Es.
      - destruct (p_scalar pm o) eqn:Sc.
        + assert (So : is_static_scalar pm o = true) by (unfold is_static_scalar, dmem; rewrite Es, Sc; auto).
          specialize (Al (or_introl So)). subst r. simpl. f_equal.
          assert (X : external pm o) by (left; unfold dmem; rewrite Es; auto).
          pose proof (Sup o Ur X) as Es'. unfold input_of, dmem in Es'. rewrite Es, Sc in Es'.
          injection Es' as ->. symmetry. apply (env_external pm e0 SH o X).
        + apply Var. destruct (is_static_scalar pm r) eqn:Sr; auto.
          rewrite <- (Al (or_intror eq_refl)) in Sr.
          unfold is_static_scalar in Sr. rewrite Sc, andb_false_r in Sr. discriminate.
      - apply Var. destruct (is_static_scalar pm r) eqn:Sr; auto.
        rewrite <- (Al (or_intror eq_refl)) in Sr.
        unfold is_static_scalar, dmem in Sr. rewrite Es in Sr. discriminate. }
    clear -Fin. induction (p_outputs pm) as [|o l IH]; auto.
    cbn [map mapM fst snd]. rewrite (Fin o) by (left; auto). cbn [bind]. rewrite IH; auto.
    intros o' Ho'. apply Fin; right; auto.
  Qed.
End C.
