(** * Final statements for constant folding (C06). *)
From Coq Require Import String Ascii List Arith Lia Bool.
From Verif Require Import PyBase PyStrings FlatGraph_Model Topo_Proofs Graph_Proofs Build_Proofs
  Prune_Proofs Pipeline_Proofs Signature_Proofs FlatGraph_Props Static_Proofs
  Codegen_Model Codegen_Proofs Codegen_Props.
Import ListNotations.
Open Scope string_scope.
Open Scope list_scope.
Open Scope nat_scope.

(** ** C06 Constant folding

    [meaning] is the value of every key when the declared operators run one after the other.
    [solver] gives the values that the constraint solver finds after a static value was stored,
    [pick] the element that [set.pop] removes from the queue; [state_ins]/[state_outs] are the
    input and output keys of the model's state.  For every such choice, folding terminates
    without error and
    - keeps every given static value and stores only values that the operators really compute,
    - leaves a graph that, run in emission order on the stored values, returns the outputs of
      the declared operators,
    - leaves no operator to be evaluated that could be folded: each remaining operator is a
      state output, or has an argument without stored value, or has only state inputs as
      arguments, or its own value was found by the solver,
    - never removes the operator of a state output or an operator all of whose arguments are state
      inputs (their values change from step to step). *)
Definition solver_sound {V} (solver : dict string V -> list (string * V)) (meaning : string -> V)
           (keys state_ins : list string) : Prop :=
  forall st, (forall k v, dget k st = Some v -> meaning k = v) ->
  forall k v, In (k, v) (solver st) -> meaning k = v /\ In k keys /\ ~ In k state_ins.

Lemma forallb_false {A} (f : A -> bool) l : forallb f l = false -> exists x, In x l /\ f x = false.
Proof.
  induction l as [|y l IH]; simpl; [discriminate|]. destruct (f y) eqn:E; simpl; eauto.
  intros F. destruct (IH F) as (x & ? & ?); eauto.
Qed.
Lemma dmem_get {V} k (d : dict string V) : dmem k d = true -> exists v, dget k d = Some v.
Proof. unfold dmem. destruct (dget k d); [eauto|discriminate]. Qed.

Lemma folding_spec (V : Type) (fsem : string -> list V -> V) (veq : V -> V -> bool) (known : string -> option V)
         (pick : list string -> string) (solver : dict string V -> list (string * V))
         (manual : bool) (inputs outputs state_ins state_outs : list string) (data : dict string V) ops
         (e0 : string -> V) fuel :
  decls_ok outputs ops -> clean_names manual ops ->
  (forall a b, veq a b = true -> a = b) ->
  (forall l, l <> [] -> In (pick l) l) ->
  let meaning := run_ops fsem manual ops e0 in
  (forall k v, known k = Some v -> meaning k = v) ->
  (forall k v, dget k data = Some v -> meaning k = v) ->
  solver_sound solver meaning (seen_keys ops) state_ins ->
  (forall k, In k state_ins -> ~ In k (map d_out ops)) ->
  length data + length (seen_keys ops) <= fuel ->
  exists g g1,
    traverse_graph veq known (map d_op ops) (build inputs outputs data ops) = Ok g /\
    infer_static_keys veq known pick (apply_fn fsem manual) solver fuel state_ins state_outs g = Ok g1 /\
    pinv fsem manual meaning ops outputs data (length ops) g /\
    sinv fsem manual solver state_ins state_outs meaning (rank ops) g (nodup string_dec (seen_keys ops)) g1 /\
    pending state_ins state_outs g1 [] (fun _ => False) /\
    (forall k o, opof g k = Some o -> In k (map d_out ops)).
Proof.
  intros H CN Vs Pk meaning Hk Hd Hsol Hst Hf.
  pose proof CN as CN'. destruct CN' as [C1 C2 C3 C4 C5 C6].
  assert (Sol : forall d, In d ops -> meaning (d_out d) = op_value fsem manual meaning (d_op d) (d_ins d)).
  { intros d I. apply run_ops_solves; auto. apply H. }
  destruct (traverse_preserves fsem veq known manual meaning Vs Hk ops outputs data H C1 C2 C3 C4 C5 C6 Sol
              Hd inputs) as (g & E & P).
  pose proof (p_wf _ _ _ _ _ _ _ _ P) as W. pose proof (p_ac _ _ _ _ _ _ _ _ P) as A.
  assert (Outs : forall k o, opof g k = Some o -> In k (map d_out ops)).
  { intros k o Ho. destruct (in_dec string_dec k (map d_out ops)) as [|N]; auto. exfalso.
    destruct (src g k) as [|z l] eqn:Ez.
    - apply (w_op g W) in Ez. congruence.
    - assert (Iz : In z (src g k)) by (rewrite Ez; left; auto). apply A in Iz.
      assert (R : rank ops k = 0) by (unfold rank; apply rank_from_zero; auto). lia. }
  pose proof (p_statics _ _ _ _ _ _ _ _ P) as Eqst.
  set (KS := nodup string_dec (seen_keys ops)).
  assert (L0 : length KS <= length (seen_keys ops)).
  { apply NoDup_incl_length; [apply NoDup_nodup|]. intros x Hx. apply nodup_In in Hx; auto. }
  destruct (infer_static_ok fsem manual veq known pick solver state_ins state_outs meaning (rank ops) g KS)
    with (fuel := fuel) as (g1 & E1 & I1 & Pe).
  - auto.
  - intros st Hs k v J. destruct (Hsol st Hs k v J) as (? & ? & ?). split; auto. split; auto. apply nodup_In; auto.
  - intros k J. destruct (opof g k) as [o|] eqn:Ok; auto. exfalso. apply (Hst k J). eauto.
  - intros k J. apply nodup_In. apply (p_keys _ _ _ _ _ _ _ _ P); auto.
  - apply NoDup_nodup.
  - intros k J. apply (p_unused _ _ _ _ _ _ _ _ P); auto.
  - constructor; auto.
    + apply (p_solves _ _ _ _ _ _ _ _ P).
    + intros k v. rewrite Eqst. auto.
    + apply (p_mtab_op _ _ _ _ _ _ _ _ P).
    + tauto.
    + intros t o Ho. destruct (p_done _ _ _ _ _ _ _ _ P t o Ho) as [J|(_ & J)]; auto.
      rewrite skipn_all in J. destruct J.
  - rewrite Eqst. unfold dkeys. rewrite map_length. lia.
  - exists g, g1. auto 10.
Qed.

Theorem C06_folding_agrees_with_evaluation :
  forall (V : Type) (fsem : string -> list V -> V) (veq : V -> V -> bool) (known : string -> option V)
         (pick : list string -> string) (solver : dict string V -> list (string * V))
         (manual : bool) (inputs outputs state_ins state_outs : list string) (data : dict string V) ops
         (e0 : string -> V) fuel,
  decls_ok outputs ops -> clean_names manual ops ->
  (forall a b, veq a b = true -> a = b) ->
  (forall l, l <> [] -> In (pick l) l) ->
  let meaning := run_ops fsem manual ops e0 in
  (forall k v, known k = Some v -> meaning k = v) ->
  (forall k v, dget k data = Some v -> meaning k = v) ->
  solver_sound solver meaning (seen_keys ops) state_ins ->
  (forall k, In k state_ins -> ~ In k (map d_out ops)) ->
  length data + length (seen_keys ops) <= fuel ->
  exists g g1 order,
    traverse_graph veq known (map d_op ops) (build inputs outputs data ops) = Ok g /\
    infer_static_keys veq known pick (apply_fn fsem manual) solver fuel state_ins state_outs g = Ok g1 /\
    topological_order manual g1 = Ok order /\
    (forall k v, dget k data = Some v -> dget k (statics g1) = Some v) /\
    (forall k v, dget k (statics g1) = Some v -> meaning k = v) /\
    (let start := fun k => match dget k (statics g1) with Some v => v | None => e0 k end in
     forall o, In o outputs ->
      exists r, dget o (outd g1) = Some r /\ run_graph fsem manual g1 order start r = meaning o) /\
    (forall t, In t order -> ~ In t state_outs ->
       (forall s, In s (src g1 t) -> In s state_ins) \/
       (exists s, In s (src g1 t) /\ dget s (statics g1) = None) \/
       (exists st, In t (map fst (solver st)))) /\
    (forall t o, opof g t = Some o ->
       In t state_outs \/ (forall s, In s (src g t) -> In s state_ins) -> opof g1 t = Some o).
Proof.
  intros V fsem veq known pick solver manual inputs outputs state_ins state_outs data ops e0 fuel
    H CN Vs Pk meaning Hk Hd Hsol Hst Hf.
  destruct (folding_spec V fsem veq known pick solver manual inputs outputs state_ins state_outs data ops e0
              fuel H CN Vs Pk Hk Hd Hsol Hst Hf) as (g & g1 & E & E1 & P & I1 & Pe & Outs).
  fold meaning in P, I1.
  pose proof (p_statics _ _ _ _ _ _ _ _ P) as Eqst.
  pose proof (q_wf _ _ _ _ _ _ _ _ _ _ I1) as W1. pose proof (q_ac _ _ _ _ _ _ _ _ _ _ I1) as A1.
    destruct (topo_order_total manual g1 W1) as (order & Eo).
    exists g, g1, order. do 3 (split; [auto|]).
    split; [|split; [|split; [|split]]].
    + intros k v Dk. apply (q_grow _ _ _ _ _ _ _ _ _ _ I1). rewrite Eqst; auto.
    + apply (q_st _ _ _ _ _ _ _ _ _ _ I1).
    + intros start o Io. rewrite (q_outd _ _ _ _ _ _ _ _ _ _ I1).
      destruct (dget o (outd g)) as [r|] eqn:Er.
      2: { exfalso. apply dget_None in Er. apply Er. rewrite (p_out_keys _ _ _ _ _ _ _ _ P).
           apply In_str_sort; auto. }
      exists r. split; auto. apply dget_In in Er.
      pose proof (p_out_env _ _ _ _ _ _ _ _ P _ Er) as Eq0. cbn [fst snd] in Eq0. rewrite <- Eq0.
      apply (run_in_order fsem manual g1 (rank ops) meaning start order); auto.
      * apply (q_solves _ _ _ _ _ _ _ _ _ _ I1).
      * intros M t Ht. destruct (opof g1 t) as [ot|] eqn:Ot; [|congruence].
        pose proof (q_ops _ _ _ _ _ _ _ _ _ _ I1 t ot Ot) as Og.
        destruct (opof g1 (last (src g1 t) "")) as [ol|] eqn:Ol; auto. exfalso.
        apply (p_cache _ _ _ _ _ _ _ _ P M t ot Og).
        rewrite <- (q_src _ _ _ _ _ _ _ _ _ _ I1 t) by congruence.
        apply (Outs _ ol). apply (q_ops _ _ _ _ _ _ _ _ _ _ I1); auto.
      * intros k Ik Ok. unfold start. destruct (dget k (statics g1)) as [v|] eqn:Dk.
        -- symmetry. apply (q_st _ _ _ _ _ _ _ _ _ _ I1); auto.
        -- destruct (q_done _ _ _ _ _ _ _ _ _ _ I1 k Ok) as [Ok0|D].
           2: { apply dmem_false in Dk. congruence. }
           destruct (p_roots _ _ _ _ _ _ _ _ P k) as [N|D]; auto.
           ++ apply (q_keys _ _ _ _ _ _ _ _ _ _ I1); auto.
           ++ unfold meaning. rewrite run_ops_other; auto.
           ++ apply dmem_get in D. destruct D as (v & D). exfalso.
              assert (X : dget k (statics g1) = Some v) by (apply (q_grow _ _ _ _ _ _ _ _ _ _ I1); rewrite Eqst; auto).
              congruence.
      * apply (q_keys _ _ _ _ _ _ _ _ _ _ I1). apply In_keys_get. apply (p_out_in _ _ _ _ _ _ _ _ P _ Er).
    + intros t It No. destruct (topo_order_spec manual g1 _ order W1 A1 Eo) as (_ & All & _).
      apply All in It.
      destruct (forallb (fun s => mem s state_ins) (src g1 t)) eqn:F1.
      { left. rewrite forallb_forall in F1. intros s Js. apply mem_In. auto. }
      destruct (forallb (fun s => dmem s (statics g1)) (src g1 t)) eqn:F2.
      * right; right. destruct (dmem t (statics g1)) eqn:Dt.
        { destruct (q_left _ _ _ _ _ _ _ _ _ _ I1 t It Dt) as [D0|X]; auto. exfalso.
          rewrite Eqst in D0. destruct (opof g1 t) as [o|] eqn:Ho; [|congruence].
          apply (q_ops _ _ _ _ _ _ _ _ _ _ I1) in Ho.
          destruct (p_done _ _ _ _ _ _ _ _ P t o Ho) as [F|[F _]]; [|congruence].
          rewrite skipn_all in F. destruct F. }
        exfalso. destruct (Pe t It) as [(s & _ & [] & _)|[]]; auto.
        -- apply forallb_forall; auto.
        -- apply forallb_false in F1. destruct F1 as (s & Is & Fs). exists s. split; auto.
           apply mem_not_In; auto.
      * right; left. apply forallb_false in F2. destruct F2 as (s & Is & Fs). exists s. split; auto.
        apply dmem_false; auto.
    + apply (q_keep _ _ _ _ _ _ _ _ _ _ I1).
Qed.
Print Assumptions C06_folding_agrees_with_evaluation.

(** The whole path with constant folding: declared operators, duplicate pruning, constant folding,
    emission order, code generation, execution.  The condition [no leftover] says that no operator
    is left whose value is stored (true whenever the constraint solver finds no value on its
    own, see the corollary). *)
Theorem C06_pipeline :
  forall (V : Type) (fsem : string -> list V -> V) (veq : V -> V -> bool) (known : string -> option V)
         (pick : list string -> string) (solver : dict string V -> list (string * V))
         (reserved scalar : string -> bool) (inputs outputs rt state_ins state_outs : list string)
         (st0 : dict string V) ops (e0 : string -> V) fuel (params data cache : dict string V),
  decls_ok outputs ops -> clean_names false ops -> good_keys reserved ops ->
  (forall a b, veq a b = true -> a = b) ->
  (forall l, l <> [] -> In (pick l) l) ->
  let value := run_ops fsem false ops e0 in
  (forall k v, known k = Some v -> value k = v) ->
  (forall k v, dget k st0 = Some v -> value k = v) ->
  solver_sound solver value (seen_keys ops) state_ins ->
  (forall k, In k state_ins -> ~ In k (map d_out ops)) ->
  length st0 + length (seen_keys ops) <= fuel ->
  (forall k, In k rt -> ~ In k (map d_out ops)) ->
  (forall k, In k (seen_keys ops) -> ~ In k (map d_out ops) ->
     dget k (if mem k rt then data else params) = Some (e0 k)) ->
  exists g0 g order,
    traverse_graph veq known (map d_op ops) (build inputs outputs st0 ops) = Ok g0 /\
    infer_static_keys veq known pick (apply_fn fsem false) solver fuel state_ins state_outs g0 = Ok g /\
    topological_order false g = Ok order /\
    let pm := compiled g order rt inputs outputs scalar in
    ((forall t, In t order -> dget t (statics g) = None) ->
     (* [cache] is what compilation stored *)
     (forall k v, dget k (statics g) = Some v -> dget k cache = Some v) ->
     (forall o r, dget o (outd g) = Some r -> reserved r = false /\
        (is_static_scalar pm o = true \/ is_static_scalar pm r = true -> o = r)) ->
     exists prog, generate_evaluate reserved pm = Ok prog /\
       run_program fsem prog params data cache = Ok (map (fun o => (o, value o)) outputs)).
Proof.
  intros V fsem veq known pick solver reserved scalar inputs outputs rt state_ins state_outs st0 ops e0 fuel
    params data cache H CN GK Vs Pk value Hk Hd Hsol Hst Hf Hrt Hin.
  destruct (folding_spec V fsem veq known pick solver false inputs outputs state_ins state_outs st0 ops e0
              fuel H CN Vs Pk Hk Hd Hsol Hst Hf) as (g0 & g & E & E1 & P & I1 & Pe & Outs0).
  fold value in P, I1.
  pose proof (q_wf _ _ _ _ _ _ _ _ _ _ I1) as W. pose proof (q_ac _ _ _ _ _ _ _ _ _ _ I1) as A.
  destruct (topo_order_total false g W) as (order & Eo). exists g0, g, order. do 3 (split; [auto|]).
  destruct (topo_order_spec false g _ order W A Eo) as (ND & All & Snd).
  destruct (C06_folding_agrees_with_evaluation V fsem veq known pick solver false inputs outputs state_ins
              state_outs st0 ops e0 fuel H CN Vs Pk Hk Hd Hsol Hst Hf)
    as (g0' & g' & order' & E' & E1' & Eo' & Gr & _ & C06 & _).
  rewrite E in E'. injection E' as <-. rewrite E1 in E1'. injection E1' as <-.
  rewrite Eo in Eo'. injection Eo' as <-.
  intros pm Left Hcache Alias.
  pose proof (p_out_in _ _ _ _ _ _ _ _ P) as Oin. rewrite <- (q_outd _ _ _ _ _ _ _ _ _ _ I1) in Oin.
  assert (Seen : forall k, In k (dkeys (conns g)) -> In k (seen_keys ops))
    by (intros k Ik; apply (p_keys _ _ _ _ _ _ _ _ P), (q_keys _ _ _ _ _ _ _ _ _ _ I1); auto).
  assert (Ord : forall t, In t order -> exists o, opof g t = Some o /\ dmem t (statics g) = false /\ op_buffer o = false /\
                  In t (dkeys (conns g))).
  { intros t It. apply All in It. destruct (opof g t) as [o|] eqn:Ho; [|congruence]. exists o. split; auto.
    split; [apply dmem_false, Left, All; congruence|].
    split; [apply (q_nobuf _ _ _ _ _ _ _ _ _ _ I1 t o Ho)|]. apply In_keys_get. unfold opof in Ho.
    destruct (dget t (conns g)); [eauto|discriminate]. }
  assert (OpDecl : forall t o, opof g t = Some o -> In t (map d_out ops) /\ In o (map d_op ops)).
  { intros t o Ho. apply (q_ops _ _ _ _ _ _ _ _ _ _ I1) in Ho. split; [eauto|].
    apply (p_ops _ _ _ _ _ _ _ _ P t o Ho). }
  assert (Used : forall k, used_key pm k -> In k (dkeys (conns g))).
  { intros k [I|[(t & It & Ik)|I]].
    - destruct (Ord k I) as (o & _ & _ & _ & Ic); auto.
    - simpl in Ik. apply In_keys_get. eapply wf_src_present; eauto.
    - simpl in I. apply in_map_iff in I. destruct I as (p & <- & Ip).
      apply (q_keys _ _ _ _ _ _ _ _ _ _ I1), In_keys_get. apply (Oin p Ip). }
  assert (NM : names_ok reserved pm).
  { constructor.
    - simpl. intros k Ik. destruct (Ord k Ik) as (o & Ho & _). apply OpDecl in Ho. destruct Ho as (Ho & _).
      apply in_map_iff in Ho. destruct Ho as (d & <- & Id). apply (gk_outs _ _ GK); auto.
    - simpl. intros r Ir. apply in_map_iff in Ir. destruct Ir as ((o & r') & <- & Ip). simpl.
      destruct (Alias o r'); auto. apply In_dget; auto. rewrite (q_outd _ _ _ _ _ _ _ _ _ _ I1). eapply outd_wf; eauto.
    - intros k U R. apply Used, Seen in U. destruct (gk_under _ _ GK k U R) as (R1 & R2). split; auto.
    - intros k U. apply (gk_dicts _ _ GK). auto.
    - simpl. intros t It. destruct (Ord t It) as (o & Ho & _). rewrite Ho.
      destruct (OpDecl t o Ho) as (_ & Io). apply in_map_iff in Io. destruct Io as (d & <- & Id).
      destruct (gk_fns _ _ GK d Id) as (F1 & F2). split; auto.
      intros k U F. rewrite F in F1. unfold mangle in F1. destruct (reserved k) eqn:R; [|congruence].
      apply Used, Seen in U. destruct (gk_under _ _ GK k U R). congruence. }
  assert (SH : shape_ok pm).
  { constructor; simpl.
    - auto.
    - intros t It. destruct (Ord t It) as (o & Ho & Hs & _ & Ic). split; auto.
      destruct (OpDecl t o Ho) as (It' & _).
      split. { intros F. apply (Hrt t F It'). }
      split. { intros F. rewrite (q_unused _ _ _ _ _ _ _ _ _ _ I1) in F. destruct (p_unused _ _ _ _ _ _ _ _ P t F) as (_ & F2).
               apply F2, (q_keys _ _ _ _ _ _ _ _ _ _ I1); auto. }
      split; auto. apply (w_tgts g W); auto. congruence.
    - auto.
    - tauto.
    - intros t k _ I. apply (wf_mirror_In g k t W); auto.
    - intros a t b Eq k Ik. destruct (opof g k) as [o|] eqn:Ok.
      + left. apply (Snd a t b Eq); [|congruence]. exact Ik.
      + right. right; right. simpl. intros F. apply (w_tgts g W) in F; [congruence|].
        apply In_keys_get. eapply wf_src_present; eauto.
    - intros r Ir. destruct (opof g r) as [o|] eqn:Or.
      + left. apply All. congruence.
      + right. right; right. simpl. intros F. apply (w_tgts g W) in F; [congruence|].
        apply Used. right; right; auto.
    - intros o Io. destruct (C06 o Io) as (r & Er & _). exists r. split; auto.
      intros X. apply (Alias o r); auto. }
  set (start := fun k => match dget k (statics g) with Some v => v | None => e0 k end).
  assert (Sup : forall k, used_key pm k -> external pm k -> input_of pm params data cache k = Some (start k)).
  { intros k U X. pose proof (Seen k (Used k U)) as Sk. unfold input_of, start. simpl.
    unfold dmem. destruct (dget k (statics g)) as [v|] eqn:Dk.
    - rewrite (Hcache k v); auto. destruct (scalar k); auto.
    - assert (No : ~ In k (map d_out ops)).
      { destruct (opof g k) as [o|] eqn:Ok.
        - destruct X as [X|[X|X]].
          + simpl in X. unfold dmem in X. rewrite Dk in X. discriminate.
          + apply Hrt; auto.
          + exfalso. apply X. simpl. apply (w_tgts g W); [apply Used; auto|congruence].
        - destruct (q_done _ _ _ _ _ _ _ _ _ _ I1 k Ok) as [Ok0|D].
          2: { unfold dmem in D. rewrite Dk in D. discriminate. }
          destruct (p_roots _ _ _ _ _ _ _ _ P k) as [|D]; auto.
          + apply (q_keys _ _ _ _ _ _ _ _ _ _ I1); auto.
          + apply dmem_get in D. destruct D as (v & D). rewrite (Gr k v D) in Dk. discriminate. }
      specialize (Hin k Sk No). destruct (mem k rt); auto. }
  destruct (C02_generated_code_computes_the_model V fsem reserved pm params data cache start NM SH Sup)
    as (prog & Ep & Er).
  exists prog. split; auto. rewrite Er. f_equal. simpl. apply map_ext_in. intros o Io. f_equal.
  destruct (C06 o Io) as (r & Eor & Ev). rewrite Eor. unfold value. rewrite <- Ev.
  fold start. unfold meaning, run_graph. simpl.
  assert (F : forall l e, (forall t, In t l -> In t order) ->
     fold_left (fun e t => upd e t (fsem (match opof g t with Some o => op_formula o | None => "" end)
                                       (map e (src g t)))) l e =
     fold_left (fun e k => match opof g k with
                           | Some o => upd e k (op_value fsem false e o (src g k))
                           | None => e end) l e).
  { induction l as [|t l IH]; simpl; intros e Hl; auto.
    destruct (Ord t (Hl t (or_introl eq_refl))) as (ot & Ho & _ & Hb & _). rewrite Ho.
    unfold op_value at 2. rewrite Hb. simpl. apply IH. intros x Hx; apply Hl; right; auto. }
  rewrite F; auto.
Qed.
Print Assumptions C06_pipeline.

(** Without a constraint solver no operator is left whose value is stored, so the generated code
    returns the declared outputs. *)
Corollary C06_pipeline_plain :
  forall (V : Type) (fsem : string -> list V -> V) (veq : V -> V -> bool) (known : string -> option V)
         (pick : list string -> string)
         (reserved : string -> bool) (inputs outputs rt state_ins state_outs : list string)
         (st0 : dict string V) ops (e0 : string -> V) fuel (params data : dict string V),
  decls_ok outputs ops -> clean_names false ops -> good_keys reserved ops ->
  (forall a b, veq a b = true -> a = b) ->
  (forall l, l <> [] -> In (pick l) l) ->
  let value := run_ops fsem false ops e0 in
  (forall k v, known k = Some v -> value k = v) ->
  (forall k v, dget k st0 = Some v -> value k = v) ->
  (forall k, In k state_ins -> ~ In k (map d_out ops)) ->
  length st0 + length (seen_keys ops) <= fuel ->
  (forall k, In k rt -> ~ In k (map d_out ops)) ->
  (forall k, In k (seen_keys ops) -> ~ In k (map d_out ops) ->
     reserved k = false /\ dget k (if mem k rt then data else params) = Some (e0 k)) ->
  exists g0 g order prog,
    traverse_graph veq known (map d_op ops) (build inputs outputs st0 ops) = Ok g0 /\
    infer_static_keys veq known pick (apply_fn fsem false) (fun _ => []) fuel state_ins state_outs g0 = Ok g /\
    topological_order false g = Ok order /\
    generate_evaluate reserved (compiled g order rt inputs outputs (fun _ => false)) = Ok prog /\
    run_program fsem prog params data (statics g) = Ok (map (fun o => (o, value o)) outputs).
Proof.
  intros V fsem veq known pick reserved inputs outputs rt state_ins state_outs st0 ops e0 fuel
    params data H CN GK Vs Pk value Hk Hd Hst Hf Hrt Hin.
  assert (Ss : solver_sound (fun _ : dict string V => []) value (seen_keys ops) state_ins) by (intros st Hs k v []).
  destruct (folding_spec V fsem veq known pick _ false inputs outputs state_ins state_outs st0 ops e0
              fuel H CN Vs Pk Hk Hd Ss Hst Hf) as (g0 & g & E & E1 & P & I1 & Pe & Outs0).
  fold value in P, I1.
  destruct (C06_pipeline V fsem veq known pick _ reserved (fun _ => false) inputs outputs rt state_ins state_outs
    st0 ops e0 fuel params data (statics g) H CN GK Vs Pk Hk Hd Ss Hst Hf Hrt) as (g0' & g' & order & E' & E1' & Eo & Fin).
  { intros k K1 K2. apply Hin; auto. }
  rewrite E in E'. injection E' as <-. rewrite E1 in E1'. injection E1' as <-.
  pose proof (q_wf _ _ _ _ _ _ _ _ _ _ I1) as W.
  destruct (topo_order_spec false g _ order W (q_ac _ _ _ _ _ _ _ _ _ _ I1) Eo) as (_ & All & _).
  destruct Fin as (prog & Ep & Er).
  - intros t It. apply All in It. apply dmem_false. destruct (dmem t (statics g)) eqn:D; auto. exfalso.
    destruct (q_left _ _ _ _ _ _ _ _ _ _ I1 t It D) as [D0|(s & [])].
    rewrite (p_statics _ _ _ _ _ _ _ _ P) in D0.
    destruct (opof g t) as [o|] eqn:Ho; [|congruence]. apply (q_ops _ _ _ _ _ _ _ _ _ _ I1) in Ho.
    destruct (p_done _ _ _ _ _ _ _ _ P t o Ho) as [F|[F1 F2]]; [|congruence].
    rewrite skipn_all in F. destruct F.
  - auto.
  - intros o r Er. split.
    + assert (Sr : In r (seen_keys ops)).
      { apply (p_keys _ _ _ _ _ _ _ _ P). apply In_keys_get. rewrite (q_outd _ _ _ _ _ _ _ _ _ _ I1) in Er.
        apply dget_In in Er. apply (p_out_in _ _ _ _ _ _ _ _ P _ Er). }
      destruct (in_dec string_dec r (map d_out ops)) as [J|J]; [|apply Hin; auto].
      apply in_map_iff in J. destruct J as (d & <- & Jd). apply (gk_outs _ _ GK); auto.
    + unfold is_static_scalar, compiled. simpl. rewrite !andb_false_r. intuition discriminate.
  - exists g0, g, order, prog. auto.
Qed.
Print Assumptions C06_pipeline_plain.

(** *** Example: two folded operators, one of them feeding the other; one state input ["m"] whose
    consumer is not folded although ["m"] is static. *)
Definition fold_ops : list op_decl :=
  [(op_ 0 "add", "s", ["k1"; "k2"]); (op_ 1 "mul", "t", ["s"; "k1"]); (op_ 2 "add", "a", ["x"; "t"]);
   (op_ 3 "mul", "u", ["m"]); (op_ 4 "mul", "output", ["a"; "s"; "u"])].
Definition fold_data : dict string nat := [("k1", 2); ("k2", 3); ("m", 7)].
Definition fold_e0 (k : string) : nat :=
  if eqb k "x" then 4 else if eqb k "m" then 7 else if eqb k "k1" then 2 else if eqb k "k2" then 3 else 0.
Definition pick_last (l : list string) : string := last l "".
Lemma pick_last_in l : l <> [] -> In (pick_last l) l.
Proof.
  intros N. unfold pick_last. rewrite (app_removelast_last "" N) at 2. apply in_app_iff. right; left; auto.
Qed.
Example C06_example_hypotheses :
  decls_ok ["t"; "output"] fold_ops /\ clean_names false fold_ops /\
  (forall k v, dget k fold_data = Some v -> run_ops nat_sem false fold_ops fold_e0 k = v) /\
  (forall k, In k ["m"] -> ~ In k (map d_out fold_ops)) /\
  solver_sound (fun st => if dmem "t" st then [("a", 14)] else []) (run_ops nat_sem false fold_ops fold_e0)
               (seen_keys fold_ops) ["m"].
Proof.
  split; [|split; [|split; [|split]]].
  - unfold decls_ok, fold_ops. cbn. split; [|split; [|split]].
    + repeat (split; [intuition discriminate|]). auto.
    + repeat constructor; simpl; intuition lia.
    + repeat constructor; simpl; intuition discriminate.
    + intros k [<-|[<-|[]]]; auto 10.
  - constructor; try (intros; discriminate).
    + intros k Hk _. assert (F : forallb (fun k => negb (eqb k "") && negb (has_char "-"%char k)
                        && negb (all_digits k)) (seen_keys fold_ops) = true) by reflexivity.
      rewrite forallb_forall in F. specialize (F k Hk). repeat rewrite andb_true_iff in F.
      destruct F as ((F1 & F2) & F3). apply negb_true_iff in F1, F2, F3.
      split; [|split]; auto. intros ->. discriminate.
    + intros d Hd. assert (F : forallb (fun d => negb (eqb (op_formula (d_op d)) "") &&
                        negb (has_char "-"%char (op_formula (d_op d)))) fold_ops = true) by reflexivity.
      rewrite forallb_forall in F. specialize (F d Hd). rewrite andb_true_iff in F.
      destruct F as (F1 & F2). apply negb_true_iff in F1, F2. split; auto. intros Z. rewrite Z in F1. discriminate.
    + intros d Hd _. simpl in Hd. intuition (subst; reflexivity).
    + intros d Hd Hb. simpl in Hd. intuition (subst; try reflexivity; discriminate).
    + intros a d b E S d' I. unfold fold_ops in E.
      assert (Id : In d fold_ops) by (unfold fold_ops; rewrite E; apply in_app_iff; right; left; auto).
      simpl in Id. destruct Id as [<-|[<-|[<-|[<-|[<-|[]]]]]]; try discriminate.
      repeat (destruct a as [|? a]; [injection E; intros; subst; try discriminate; destruct I|]; injection E as _ E);
        destruct a; discriminate.
  - intros k v E. apply dget_In in E. simpl in E.
    destruct E as [E|[E|[E|[]]]]; inversion E; subst; reflexivity.
  - intros k [<-|[]] F. simpl in F. intuition discriminate.
  - intros st _ k v Hk. destruct (dmem "t" st); [|destruct Hk]. destruct Hk as [F|[]]. injection F as <- <-.
    split; [reflexivity|]. split; [simpl; auto 20|]. intros [F|[]]; discriminate.
Qed.

Example C06_example :
  match traverse_graph Nat.eqb (fun _ => None) (map d_op fold_ops)
          (build ["x"; "m"] ["t"; "output"] fold_data fold_ops) with
  | Ok g =>
     match infer_static_keys Nat.eqb (fun _ => None) pick_last (apply_fn nat_sem false) (fun _ => []) 30
                             ["m"] [] g with
     | Ok g1 => statics g1 = fold_data ++ [("s", 5); ("t", 10)] /\ topological_order false g1 = Ok ["a"; "u"; "output"]
     | Err _ => False
     end
  | Err _ => False
  end.
Proof. vm_compute. repeat split. Qed.

(** Finding.  A value found by the constraint solver during folding is stored, but its operator
    stays in the graph.  The generated code then deletes a variable that this operator still
    reads: the determined key is not counted as a consumer. *)
Definition left_ops : list op_decl :=
  [(op_ 0 "add", "b", ["k1"; "k2"]); (op_ 1 "add", "h", ["x"; "y"]); (op_ 2 "mul", "d", ["h"; "x"]);
   (op_ 3 "sub", "c", ["h"; "h"]); (op_ 4 "add", "output", ["d"; "c"; "b"])].
Definition left_solver (st : dict string nat) : list (string * nat) :=
  if dmem "b" st then [("c", 0)] else [].
Theorem C06_solver_value_keeps_operator_refuted :
  decls_ok ["output"] left_ops /\
  (* the solver is right *)
  (forall e0, solver_sound left_solver (run_ops nat_sem false left_ops e0) (seen_keys left_ops) []) /\
  match traverse_graph Nat.eqb (fun _ => None) (map d_op left_ops)
          (build ["x"; "y"] ["output"] [("k1", 2); ("k2", 3)] left_ops) with
  | Ok g =>
     match infer_static_keys Nat.eqb (fun _ => None) pick_last (apply_fn nat_sem false) left_solver 30 [] [] g with
     | Ok g1 =>
        match topological_order false g1 with
        | Ok order =>
          match generate_evaluate (fun _ => false)
                  (compiled g1 order [] ["x"; "y"] ["output"] (fun _ => false)) with
          | Ok prog => run_program nat_sem prog [("x", 1); ("y", 2)] [] (statics g1) = Err NameError
          | Err _ => False
          end
        | Err _ => False
        end
     | Err _ => False
     end
  | Err _ => False
  end.
Proof.
  split; [|split].
  - unfold decls_ok, left_ops. cbn. split; [|split; [|split]].
    + repeat (split; [intuition discriminate|]). auto.
    + repeat constructor; simpl; intuition lia.
    + repeat constructor; simpl; intuition discriminate.
    + intros k [<-|[]]; auto 10.
  - intros e0 st _ k v Hk. unfold left_solver in Hk. destruct (dmem "b" st); [|destruct Hk].
    destruct Hk as [F|[]]. injection F as <- <-. split; [|split; [simpl; auto 20|intros []]].
    cbn. unfold upd. simpl. lia.
  - vm_compute. reflexivity.
Qed.
