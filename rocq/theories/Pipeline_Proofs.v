(** * Emission order of well-formed graphs and evaluation of graphs in emission order. *)
From Coq Require Import String Ascii List Arith Lia Bool Permutation.
From Verif Require Import PyBase PyStrings FlatGraph_Model Topo_Proofs Graph_Proofs Build_Proofs Prune_Proofs.
Import ListNotations.
Open Scope string_scope.
Open Scope list_scope.
Open Scope nat_scope.

Section O.
  Context {V : Type}.
  Notation graph := (graph V).

  Lemma removelast_incl {A} (l : list A) x : In x (removelast l) -> In x l.
  Proof. induction l as [|y l IH]; simpl; auto. destruct l; simpl in *; intuition. Qed.
  Lemma data_args_strip manual l s : In s (data_args manual l) -> In s (strip_cache manual l).
  Proof.
    unfold data_args, strip_cache. destruct manual; simpl; auto.
    destruct (ends_with "_cache" (last l "")); auto. apply removelast_incl.
  Qed.

  Lemma topo_order_total manual (g : graph) : wf g ->
    exists order, topological_order manual g = Ok order.
  Proof.
    intros W. unfold topological_order. apply topo_loop_ok.
    - apply (w_dict g W).
    - intros k t I E. apply (wf_mirror_In g k t W) in I. rewrite E in I. destruct I.
    - rewrite work_nil. fold (roots g). lia.
  Qed.

  Lemma topo_order_spec manual (g : graph) rk order : wf g -> acyclic_by rk g ->
    topological_order manual g = Ok order ->
    NoDup order /\ (forall k, In k order <-> opof g k <> None) /\
    (forall a t b, order = a ++ t :: b -> forall s, In s (strip_cache manual (src g t)) ->
       opof g s <> None -> In s a).
  Proof.
    intros W A E. unfold topological_order in E.
    destruct (topo_loop_inv manual g _ _ _ _ _ _ (inv_init manual g (roots g)) E) as (vis & I).
    assert (Mi : mirror g) by (intros s t J; apply (wf_mirror_In g s t W); auto).
    assert (Rt : forall k, In k (roots g) -> opof g k = None).
    { intros k J. apply In_roots in J. destruct (opof g k) eqn:O; auto. exfalso. apply (proj2 J).
      apply (w_tgts g W); [|congruence]. apply In_keys_get. unfold opof in O.
      destruct (dget k (conns g)); [eauto|discriminate]. }
    assert (Comp : forall n t, rk t <= n -> opof g t <> None -> In t order).
    { induction n as [n IH] using lt_wf_ind. intros t L Ho.
      assert (All : forall s, In s (src g t) -> In s vis).
      { intros s J. pose proof (A _ _ J) as Lt. destruct (opof g s) eqn:Os.
        - destruct (i_order _ _ _ _ _ _ I s) as [|[]]; auto. apply (IH (rk s)); try lia. congruence.
        - destruct (i_roots _ _ _ _ _ _ I s) as [|[]]; auto. apply In_roots. split.
          + apply (w_srcs g W). intros F. apply (wf_mirror_In g s t W) in J. rewrite F in J. destruct J.
          + intros T. apply (w_tgts g W) in T; [congruence|]. apply In_keys_get.
            eapply wf_src_present; eauto. }
      destruct (src g t) as [|s0 l] eqn:Es.
      { apply (w_op g W) in Es. congruence. }
      destruct (in_dec string_dec t vis) as [Iv|Nv].
      - destruct (i_visit _ _ _ _ _ _ I t Iv) as [R|]; auto. apply Rt in R. congruence.
      - apply (i_compl _ _ _ _ _ _ I Mi s0 t); auto.
        + apply All; left; auto.
        + apply (wf_mirror_In g s0 t W). rewrite Es; left; auto.
        + intros s' J. apply All. apply strip_cache_incl in J. rewrite Es in J; auto. }
    split; [apply (i_nodup _ _ _ _ _ _ I)|]. split.
    - intros k. split.
      + intros J. destruct (i_edge _ _ _ _ _ _ I k J) as (s & _ & T).
        apply (wf_mirror_In g s k W) in T. intros F. apply (w_op g W) in F. rewrite F in T. destruct T.
      + intros Ho. apply (Comp (rk k)); auto.
    - intros a t b Eo s J Ho. destruct (i_sound _ _ _ _ _ _ I a t b Eo s J) as [R|]; auto.
      apply Rt in R. congruence.
  Qed.

  (** ** Evaluation *)
  Variable fsem : string -> list V -> V.
  Variable manual : bool.
  Definition upd (e : string -> V) (k : string) (v : V) : string -> V :=
    fun x => if eq_dec x k then v else e x.
  Notation opv := (op_value fsem manual).
  (** Reference meaning of the operator list: run the operators in order. *)
  Definition run_ops (ops : list op_decl) (e0 : string -> V) : string -> V :=
    fold_left (fun e d => upd e (d_out d) (opv e (d_op d) (d_ins d))) ops e0.
  (** Meaning of a compiled graph: run the operators in emission order. *)
  Definition run_graph (g : graph) (order : list string) (e0 : string -> V) : string -> V :=
    fold_left (fun e k => match opof g k with
                          | Some o => upd e k (opv e o (src g k))
                          | None => e end) order e0.

  Lemma opv_ext e e' o l : (forall x, In x l -> e x = e' x) -> l <> [] -> opv e o l = opv e' o l.
  Proof.
    intros H N. unfold op_value. destruct (op_buffer o).
    - apply H. destruct l; [congruence|]. left; auto.
    - f_equal. apply map_ext_in. intros x I. apply H. unfold data_args in I.
      destruct manual; auto. apply removelast_incl; auto.
  Qed.

  Lemma run_ops_other ops : forall e0 k, ~ In k (map d_out ops) -> run_ops ops e0 k = e0 k.
  Proof.
    induction ops as [|d l IH]; simpl; intros e0 k N; auto. unfold run_ops in *. simpl.
    rewrite IH by tauto. unfold upd. destruct (eq_dec k (d_out d)); auto. subst; tauto.
  Qed.
  Lemma run_ops_solves ops : decls_from [] ops -> forall e0 d, In d ops ->
    run_ops ops e0 (d_out d) = opv (run_ops ops e0) (d_op d) (d_ins d).
  Proof.
    intros H e0 d I. apply in_split in I. destruct I as (a & b & E).
    destruct (decls_outs_fresh ops H a d b E) as (F1 & F2).
    assert (Dd : d_ins d <> [] /\ ~ In (d_out d) (d_ins d)).
    { destruct F2 as (F2 & F3). split; auto. intros J. apply (F3 _ J). left; auto. }
    assert (Later : forall k, k = d_out d \/ In k (d_ins d) -> ~ In k (map d_out b)).
    { intros k Hk J. apply in_map_iff in J. destruct J as (d' & E' & J).
      apply in_split in J. destruct J as (b1 & b2 & ->).
      assert (E2 : ops = (a ++ d :: b1) ++ d' :: b2) by (rewrite E, <- app_assoc; auto).
      destruct (decls_outs_fresh ops H _ d' b2 E2) as (F & _). apply F. rewrite E'.
      unfold seen_keys. apply in_flat_map. exists d. split; [apply in_app_iff; right; left; auto|].
      simpl. intuition. }
    assert (E1 : run_ops ops e0 = run_ops b (upd (run_ops a e0) (d_out d)
                   (opv (run_ops a e0) (d_op d) (d_ins d)))).
    { rewrite E. unfold run_ops at 1. rewrite fold_left_app. simpl. reflexivity. }
    rewrite E1. rewrite run_ops_other by (apply Later; auto).
    unfold upd at 1. destruct (eq_dec (d_out d) (d_out d)); [|congruence].
    apply opv_ext; [|tauto]. intros x Ix. rewrite (run_ops_other b) by (apply Later; auto).
    unfold upd. destruct (eq_dec x (d_out d)); auto. subst; tauto.
  Qed.

  (** A graph run in emission order reproduces any solution of its equations. *)
  Lemma run_graph_solution (g : graph) env e0 : forall rest done order,
    order = done ++ rest ->
    wf g -> solves fsem manual env g -> NoDup order ->
    (forall a t b, order = a ++ t :: b -> forall s, In s (src g t) -> opof g s = None \/ In s a) ->
    (forall k, In k (dkeys (conns g)) -> opof g k = None \/ In k done -> e0 k = env k) ->
    (forall k, In k order -> opof g k <> None) ->
    forall k, In k (dkeys (conns g)) -> opof g k = None \/ In k order -> run_graph g rest e0 k = env k.
  Proof.
    intros rest. revert e0. induction rest as [|t r IH]; intros e0 done order E W S ND Snd Init Ops k Ik Hk.
    - rewrite app_nil_r in E. subst. apply Init; auto.
    - unfold run_graph. simpl. fold (run_graph g r).
      assert (Ht : In t order) by (rewrite E; apply in_app_iff; right; left; auto).
      destruct (opof g t) as [o|] eqn:Ho; [|exfalso; apply (Ops t Ht); auto].
      apply (IH _ (done ++ [t]) order); auto.
      + rewrite E, <- app_assoc; auto.
      + intros x Ix Hx. unfold upd. destruct (eq_dec x t) as [->|N].
        * rewrite (S t o Ho). apply opv_ext.
          -- intros s Js. apply Init.
             ++ apply In_keys_get. eapply wf_src_present; eauto.
             ++ apply (Snd done t r); auto.
          -- intros F. apply (w_op g W) in F. congruence.
        * apply Init; auto. destruct Hx as [|Hx]; auto. apply in_app_iff in Hx.
          destruct Hx as [|[|[]]]; auto. congruence.
  Qed.
End O.
