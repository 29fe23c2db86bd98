(** * Final statements for discarding keys (C07) and for the whole compilation (C46). *)
From Coq Require Import String Ascii List Arith Lia Bool.
From Verif Require Import PyBase PyStrings FlatGraph_Model Topo_Proofs Graph_Proofs Build_Proofs
  Prune_Proofs Pipeline_Proofs Signature_Proofs FlatGraph_Props Static_Proofs
  Codegen_Model Codegen_Proofs Codegen_Props Static_Props Ignore_Proofs Compile_Model.
Import ListNotations.
Open Scope string_scope.
Open Scope list_scope.
Open Scope nat_scope.

(** ** C07 Discarding keys

    [consumer g k t]: [t] is an operator that reads [k], or an output key that stands for [k].
    [useless g D0]: least set that contains [D0] and every non-output key whose consumers (at least
    one) are all useless.  [given_up g weak outs]: the discarded keys without those output keys that
    other operators still read (these merely stop being outputs).

    For every well-formed graph (all graphs produced by compilation are, see the next theorem),
    every pop order and every choice of discarded keys without kept consumers: discarding ends,
    removes exactly the useless keys, leaves every other operator with its arguments, and every
    kept output evaluates to the same value as before, for all operator meanings and inputs. *)
Theorem C07_discard_removes_exactly_the_useless :
  forall (V : Type) pick rk (g : graph V) weak outs fuel,
  (forall l, l <> [] -> In (pick l) l) -> wf g -> acyclic_by rk g -> dwf (outd g) ->
  (forall k, In k (given_up g weak outs) -> forall t, consumer g k t -> In t (given_up g weak outs)) ->
  length weak + length (conns g) + length (outd g) <= fuel ->
  exists D outs' g', infer_ignore pick fuel weak outs g = Ok (D, outs', g') /\
    (forall k, In k D <-> useless g (given_up g weak outs) k) /\
    (forall k, In k (dkeys (conns g')) <-> In k (dkeys (conns g)) /\ ~ In k D) /\
    (forall k, ~ In k D -> opof g' k = opof g k /\ src g' k = src g k) /\
    (forall o, In o outs' <-> In o outs /\ ~ In o (non_leaf g weak outs) /\ ~ In o D) /\
    (forall k, In k (inkeys g') <-> In k (inkeys g) /\ ~ In k D) /\
    forall fsem manual e0 order,
      (manual = true -> forall t, opof g t <> None -> opof g (last (src g t) "") = None) ->
      topological_order manual g = Ok order ->
      exists order', topological_order manual g' = Ok order' /\
        forall o r, In o outs' -> dget o (outd g) = Some r -> In r (dkeys (conns g)) ->
          dget o (outd g') = Some r /\
          run_graph fsem manual g' order' e0 r = run_graph fsem manual g order e0 r.
Proof.
  intros V pick rk g weak outs fuel Pk W A Ow Leaf L.
  destruct (infer_ignore_ok pick rk g weak outs fuel Pk W A Ow Leaf L) as (D & outs' & g' & E & I).
  exists D, outs', g'. split; auto. split; [apply (d_exact _ _ _ _ _ _ _ I)|].
  split; [apply (d_keys _ _ _ _ _ _ _ I)|].
  split; [intros k Nk; split; [apply (d_keepop _ _ _ _ _ _ _ I)|apply (d_src _ _ _ _ _ _ _ I)]; auto|].
  split; [intros o; rewrite (d_outs _ _ _ _ _ _ _ I), In_sdiff; tauto|].
  split; [apply (d_ink _ _ _ _ _ _ _ I)|].
  intros fsem manual e0 order Hc Eo. pose proof (d_wf _ _ _ _ _ _ _ I) as W'.
  pose proof (d_ac _ _ _ _ _ _ _ I) as A'.
  destruct (topo_order_total manual g' W') as (order' & Eo'). exists order'. split; auto.
  intros o r Io Er Ir.
  assert (No : ~ In o D) by (apply (d_outs _ _ _ _ _ _ _ I); auto).
  assert (Er' : dget o (outd g') = Some r).
  { rewrite (d_outd _ _ _ _ _ _ _ I). destruct (mem_spec o D); [tauto|auto]. }
  split; auto.
  destruct (topo_order_spec manual g _ order W A Eo) as (_ & All & _).
  assert (Sv := run_graph_solves fsem manual g rk e0 order W A Hc Eo).
  apply (run_in_order fsem manual g' rk (run_graph fsem manual g order e0)); auto.
  - intros k o' Ho. assert (Nk : ~ In k D).
    { intros F. unfold opof in Ho. destruct (dget k (conns g')) eqn:Dk; [|discriminate].
      assert (X : In k (dkeys (conns g'))) by (apply In_keys_get; eauto).
      apply (d_keys _ _ _ _ _ _ _ I) in X. tauto. }
    rewrite (d_src _ _ _ _ _ _ _ I) by auto. apply Sv. rewrite <- (d_keepop _ _ _ _ _ _ _ I); auto.
  - intros M t Ht. assert (Nt : ~ In t D).
    { intros F. unfold opof in Ht. destruct (dget t (conns g')) eqn:Dk; [|congruence].
      assert (X : In t (dkeys (conns g'))) by (apply In_keys_get; eauto).
      apply (d_keys _ _ _ _ _ _ _ I) in X. tauto. }
    rewrite (d_keepop _ _ _ _ _ _ _ I) in Ht by auto. pose proof (Hc M t Ht) as Hl.
    rewrite (d_src _ _ _ _ _ _ _ I) by auto.
    destruct (opof g' (last (src g t) "")) as [ol|] eqn:Ol; auto. exfalso.
    assert (Nl : ~ In (last (src g t) "") D).
    { intros F. unfold opof in Ol. destruct (dget (last (src g t) "") (conns g')) eqn:Dk; [|congruence].
      assert (X : In (last (src g t) "") (dkeys (conns g'))) by (apply In_keys_get; eauto).
      apply (d_keys _ _ _ _ _ _ _ I) in X. tauto. }
    rewrite (d_keepop _ _ _ _ _ _ _ I) in Ol by auto. congruence.
  - intros k Ik Ok. apply (d_keys _ _ _ _ _ _ _ I) in Ik. destruct Ik as (Ik & Nk).
    rewrite (d_keepop _ _ _ _ _ _ _ I) in Ok by auto. symmetry.
    assert (Nord : ~ In k order) by (intros F; apply All in F; congruence).
    clear - Nord. revert e0. unfold run_graph. induction order as [|t l IH]; simpl; intros e0; auto.
    rewrite IH by (simpl in Nord; tauto). destruct (opof g t); auto.
    unfold upd. destruct (eq_dec k t); auto. subst. simpl in Nord; tauto.
  - apply (d_keys _ _ _ _ _ _ _ I). split; auto. apply (d_alias _ _ _ _ _ _ _ I o r Er').
Qed.
Print Assumptions C07_discard_removes_exactly_the_useless.

(** ** The whole compilation

    What a caller may discard, in terms of the pruned and folded graph: outputs that other
    operators read (they merely stop being outputs), and keys all of whose consumers are given
    up as well. *)
Definition may_discard {V} (g : graph V) (discard outputs : list string) : Prop :=
  forall k, In k discard ->
    (In k outputs /\ In k (srcs g)) \/
    (forall t, consumer g k t -> In t discard /\ ~ (In t outputs /\ In t (srcs g))).

Lemma hanging_leaf {V} (g : graph V) k t : wf g -> In k (hanging_keys g) -> ~ consumer g k t.
Proof.
  intros W Hk. unfold hanging_keys in Hk. apply In_sdiff in Hk. destruct Hk as (Hk & Nv).
  assert (Ns : ~ In k (srcs g)).
  { apply In_sunion in Hk. destruct Hk as [Hk|Hk]; apply In_sdiff in Hk; tauto. }
  intros [C|(C & _)].
  - apply Ns. apply (w_srcs g W). intros E. rewrite E in C. destruct C.
  - apply Nv. apply dget_In in C. unfold dvals. apply in_map_iff. exists (t, k). auto.
Qed.

Lemma discard_spec {V} pick rk (g : graph V) discard outputs fuel :
  (forall l, l <> [] -> In (pick l) l) -> wf g -> acyclic_by rk g -> dwf (outd g) ->
  (forall o, In o (dkeys (outd g)) <-> In o outputs) ->
  may_discard g discard outputs ->
  let weak := sunion discard (sdiff (hanging_keys g) outputs) in
  length weak + length (conns g) + length (outd g) <= fuel ->
  exists D outs' g', infer_ignore pick fuel weak outputs g = Ok (D, outs', g') /\
    ignored rk g (given_up g weak outputs) (sdiff outputs (non_leaf g weak outputs)) D outs' g' /\
    (forall o, In o outs' <-> In o outputs /\ ~ In o discard).
Proof.
  intros Pk W A Ow Ok May weak L.
  assert (InW : forall k, In k weak <-> In k discard \/ (In k (hanging_keys g) /\ ~ In k outputs)).
  { intros k. unfold weak. rewrite In_sunion, In_sdiff. tauto. }
  assert (InN : forall k, In k (non_leaf g weak outputs) <-> In k weak /\ In k (srcs g) /\ In k outputs).
  { intros k. unfold non_leaf. rewrite filter_In, andb_true_iff, !mem_In. tauto. }
  assert (InG : forall k, In k (given_up g weak outputs) <-> In k weak /\ ~ (In k (srcs g) /\ In k outputs)).
  { intros k. unfold given_up. rewrite In_sdiff, InN. tauto. }
  destruct (infer_ignore_ok pick rk g weak outputs fuel Pk W A Ow) as (D & outs' & g' & E & I); auto.
  { intros k Hk t Ct. apply InG in Hk. destruct Hk as (Hw & Hn). apply InW in Hw.
    destruct Hw as [Hd|(Hh & _)]; [|exfalso; eapply hanging_leaf; eauto].
    destruct (May k Hd) as [F|F]; [tauto|]. destruct (F t Ct) as (F1 & F2). apply InG. rewrite InW. tauto. }
  exists D, outs', g'. split; auto. split; auto.
  intros o. rewrite (d_outs _ _ _ _ _ _ _ I), In_sdiff, InN. split.
  - intros ((Io & No) & ND). split; auto. intros F. apply ND. apply (d_exact _ _ _ _ _ _ _ I). apply u_given.
    apply InG. rewrite InW in *. tauto.
  - intros (Io & Nd). split; [split; auto|].
    + intros (F & _). apply InW in F. tauto.
    + intros F. apply (d_exact _ _ _ _ _ _ _ I) in F. inversion F as [x Hx|x t Ct No Hall]; subst.
      * apply InG in Hx. rewrite InW in Hx. tauto.
      * apply No. apply Ok; auto.
Qed.

Lemma rank_bound ops k : rank ops k <= length ops.
Proof.
  unfold rank. enough (H : forall n, rank_from n ops k <= n + length ops) by (specialize (H 0); auto).
  induction ops as [|d l IH]; simpl; intros n; [lia|]. destruct (eq_dec (d_out d) k); [lia|].
  specialize (IH (S n)). lia.
Qed.

(** [needs g r t]: computing [r] requires [t]. *)
Inductive needs {V} (g : graph V) (r : string) : string -> Prop :=
| needs_self : needs g r r
| needs_arg : forall t s, needs g r t -> In s (src g t) -> needs g r s.
Lemma needs_left {V} (g : graph V) r t s : In s (src g t) -> needs g r t -> needs g r s.
Proof. intros H N. eapply needs_arg; eauto. Qed.

(** What stays after removing hanging keys is needed by an output entry, or by a key without consumer
    that is (wrongly) still registered as a source. *)
Lemma kept_needed {V} rk bound (g : graph V) discard outputs D outs' g' :
  wf g -> acyclic_by rk g -> (forall k, rk k <= bound) -> dwf (outd g) ->
  (forall o, In o (dkeys (outd g)) <-> In o outputs) ->
  (forall o r, dget o (outd g) = Some r -> o <> r -> ~ In o (dkeys (conns g))) ->
  let weak := sunion discard (sdiff (hanging_keys g) outputs) in
  ignored rk g (given_up g weak outputs) (sdiff outputs (non_leaf g weak outputs)) D outs' g' ->
  forall t, In t (dkeys (conns g')) ->
    exists r, needs g' r t /\ (In r (dvals (outd g')) \/ (In r (srcs g) /\ forall c, ~ consumer g r c)).
Proof.
  intros W A B Ow Ok Gone weak I.
  assert (Main : forall n t, bound < rk t + n -> In t (dkeys (conns g')) ->
    exists r, needs g' r t /\ (In r (dvals (outd g')) \/ (In r (srcs g) /\ forall c, ~ consumer g r c))).
  2: { intros t It. apply (Main (S bound)); auto. lia. }
  induction n as [|n IH]; intros t Hn It; [pose proof (B t); lia|].
  pose proof It as It'. apply (d_keys _ _ _ _ _ _ _ I) in It'. destruct It' as (Ig & ND).
  destruct (in_dec string_dec t (dvals (outd g'))) as [Iv|Nv]; [exists t; split; [constructor|auto]|].
  assert (Al : forall o, dget o (outd g) = Some t -> In o D).
  { intros o Eo. destruct (in_dec string_dec o D) as [|No]; auto. exfalso. apply Nv.
    assert (X : dget o (outd g') = Some t).
    { rewrite (d_outd _ _ _ _ _ _ _ I). destruct (mem_spec o D); [tauto|auto]. }
    apply dget_In in X. unfold dvals. apply in_map_iff. exists (o, t). auto. }
  assert (Nk : ~ In t (dkeys (outd g))).
  { intros F. destruct (dget t (outd g)) as [r|] eqn:Et; [|apply dget_None in Et; tauto].
    destruct (eq_dec t r) as [<-|N]; [apply ND, Al; auto|]. apply (Gone t r Et N Ig). }
  destruct (forallb (fun c => mem c D) (tgt g t)) eqn:F1.
  2: { apply forallb_false in F1. destruct F1 as (c & Ic & Fc). apply mem_not_In in Fc.
       assert (Is : In t (src g c)) by (apply (wf_mirror_In g t c W); auto).
       pose proof (A _ _ Is) as Lt.
       destruct (IH c) as (r & Nr & Hr).
       - lia.
       - apply (d_keys _ _ _ _ _ _ _ I). split; auto. apply In_keys_get. eapply wf_tgt_present; eauto.
       - exists r. split; auto. apply (needs_left g' r c); auto. rewrite (d_src _ _ _ _ _ _ _ I); auto. }
  rewrite forallb_forall in F1.
  assert (AllD : forall c, consumer g t c -> In c D).
  { intros c [C|(C & _)]; [apply mem_In; auto|apply Al; auto]. }
  assert (NoC : forall c, ~ consumer g t c).
  { intros c C. apply ND, (d_exact _ _ _ _ _ _ _ I), (u_step _ _ t c C Nk).
    intros c' C'. apply (d_exact _ _ _ _ _ _ _ I). auto. }
  destruct (in_dec string_dec t (srcs g)) as [Is|Ns]; [exists t; split; [constructor|auto]|].
  exfalso. apply ND, (d_exact _ _ _ _ _ _ _ I), u_given.
  assert (Hw : In t weak).
  { unfold weak. apply In_sunion. right. apply In_sdiff. split; [|rewrite <- Ok; auto].
    unfold hanging_keys. apply In_sdiff. split.
    - apply In_sunion. rewrite !In_sdiff. destruct (in_dec string_dec t (tgts g)); tauto.
    - intros F. unfold dvals in F. apply in_map_iff in F. destruct F as ((o & r) & Er & Ip). simpl in Er. subst r.
      apply In_dget in Ip; auto. destruct (eq_dec o t) as [->|N].
      + apply Nk. destruct (in_dec string_dec t (dkeys (outd g))) as [|X]; auto. apply dget_None in X. congruence.
      + apply (NoC o). right; auto. }
  unfold given_up. apply In_sdiff. split; auto. unfold non_leaf. rewrite filter_In, andb_true_iff, !mem_In. tauto.
Qed.

Definition compiled_model {V} (g : graph V) (order rt disc outputs : list string) (scalar : string -> bool) : pmodel :=
  mkpm g order rt disc (inkeys g) outputs scalar (src g)
       (fun k => match opof g k with Some o => op_formula o | None => "" end).

(** ** C46 From declared operators to the result of the generated function

    Duplicate pruning, constant folding, removal of hanging and discarded keys, emission order, code
    generation and execution, on a backend with automatic differentiation.  For every model,
    every order in which sets are popped, every sound constraint solver and every admissible
    choice of discarded keys: compilation succeeds, the outputs are those that were not discarded,
    and the generated function returns for each the value computed by the declared operators. *)
Theorem C46_compiled_function_returns_the_outputs :
  forall (V : Type) (fsem : string -> list V -> V) (veq : V -> V -> bool) (known : string -> option V)
         (pick : list string -> string) (solver : dict string V -> list (string * V))
         (reserved scalar : string -> bool) (inputs outputs rt state_ins state_outs discard : list string)
         (st0 : dict string V) ops (e0 : string -> V) fuel,
  decls_ok outputs ops -> clean_names false ops -> good_keys reserved ops ->
  (forall a b, veq a b = true -> a = b) ->
  (forall l, l <> [] -> In (pick l) l) ->
  let value := run_ops fsem false ops e0 in
  (forall k v, known k = Some v -> value k = v) ->
  (forall k v, dget k st0 = Some v -> value k = v) ->
  solver_sound solver value (seen_keys ops) state_ins ->
  (forall k, In k state_ins -> ~ In k (map d_out ops)) ->
  length st0 + length (seen_keys ops) <= fuel ->
  (forall k, In k rt -> ~ In k (map d_out ops)) ->
  exists g1, prune_and_fold veq known pick (apply_fn fsem false) solver fuel state_ins state_outs (map d_op ops)
               (build inputs outputs st0 ops) = Ok g1 /\
  (may_discard g1 discard outputs ->
   exists enough, forall fuel', enough <= fuel' ->
   exists D outs' g order,
    pre_compile veq known pick (apply_fn fsem false) solver fuel fuel' state_ins state_outs discard outputs
      (map d_op ops) (build inputs outputs st0 ops) = Ok (D, outs', g) /\
    (forall o, In o outs' <-> In o outputs /\ ~ In o discard) /\
    topological_order false g = Ok order /\
    (* only operators are executed that an output entry needs, apart from the finding below *)
    (forall t, In t order -> exists r, needs g r t /\
       (In r (dvals (outd g)) \/ (In r (srcs g1) /\ forall c, ~ consumer g1 r c))) /\
    let pm := compiled_model g order rt D outs' scalar in
    (forall params data cache : dict string V,
     (forall t, In t order -> dget t (statics g) = None) ->
     (forall k v, dget k (statics g) = Some v -> dget k cache = Some v) ->
     (* the caller supplies the inputs that are left *)
     (forall k, In k (dkeys (conns g)) -> ~ In k (map d_out ops) -> dget k (statics g) = None ->
        dget k (if mem k rt then data else params) = Some (e0 k)) ->
     (forall o r, dget o (outd g) = Some r -> reserved r = false /\
        (is_static_scalar pm o = true \/ is_static_scalar pm r = true -> o = r)) ->
     exists prog, generate_evaluate reserved pm = Ok prog /\
       run_program fsem prog params data cache = Ok (map (fun o => (o, value o)) outs'))).
Proof.
  intros V fsem veq known pick solver reserved scalar inputs outputs rt state_ins state_outs discard st0 ops e0 fuel
    H CN GK Vs Pk value Hk Hd Hsol Hst Hf Hrt.
  destruct (folding_spec V fsem veq known pick solver false inputs outputs state_ins state_outs st0 ops e0
              fuel H CN Vs Pk Hk Hd Hsol Hst Hf) as (g0 & g1 & E & E1 & P & I1 & Pe & Outs0).
  fold value in P, I1.
  assert (Epf : prune_and_fold veq known pick (apply_fn fsem false) solver fuel state_ins state_outs (map d_op ops)
               (build inputs outputs st0 ops) = Ok g1) by (unfold prune_and_fold; rewrite E; cbn [bind]; auto).
  exists g1. split; auto. intros May.
  exists (length (sunion discard (sdiff (hanging_keys g1) outputs)) + length (conns g1) + length (outd g1)).
  intros fuel' L.
  pose proof (q_wf _ _ _ _ _ _ _ _ _ _ I1) as W1. pose proof (q_ac _ _ _ _ _ _ _ _ _ _ I1) as A1.
  assert (Ow : dwf (outd g1)) by (rewrite (q_outd _ _ _ _ _ _ _ _ _ _ I1); eapply outd_wf; eauto).
  assert (Ko : forall o, In o (dkeys (outd g1)) <-> In o outputs).
  { intros o. rewrite (q_outd _ _ _ _ _ _ _ _ _ _ I1), (p_out_keys _ _ _ _ _ _ _ _ P). apply In_str_sort. }
  destruct (discard_spec pick (rank ops) g1 discard outputs fuel' Pk W1 A1 Ow Ko May L)
    as (D & outs' & g & Ei & I & Io').
  pose proof (d_wf _ _ _ _ _ _ _ I) as W. pose proof (d_ac _ _ _ _ _ _ _ I) as A.
  destruct (topo_order_total false g W) as (order & Eo). exists D, outs', g, order.
  split. { unfold pre_compile. rewrite Epf. cbn [bind]. auto. }
  do 2 (split; [auto|]).
  destruct (topo_order_spec false g _ order W A Eo) as (ND & All & Snd).
  split.
  { intros t It. apply (kept_needed (rank ops) (length ops) g1 discard outputs D outs' g); auto.
    - intros k. apply rank_bound.
    - intros o r Er N F. rewrite (q_outd _ _ _ _ _ _ _ _ _ _ I1) in Er. apply dget_In in Er.
      apply (p_out_gone _ _ _ _ _ _ _ _ P _ Er N). apply (q_keys _ _ _ _ _ _ _ _ _ _ I1); auto.
    - apply All in It. apply In_keys_get. unfold opof in It. destruct (dget t (conns g)); [eauto|congruence]. }
  intros pm params data cache Left Hcache Hin Alias.
  assert (KeyD : forall k, In k (dkeys (conns g)) -> In k (dkeys (conns g1)) /\ ~ In k D)
    by (intros k; apply (d_keys _ _ _ _ _ _ _ I)).
  assert (OpIn : forall t, opof g t <> None -> In t (dkeys (conns g))).
  { intros t Ho. apply In_keys_get. unfold opof in Ho. destruct (dget t (conns g)); [eauto|congruence]. }
  assert (Op1 : forall t, In t (dkeys (conns g)) -> opof g t = opof g1 t /\ src g t = src g1 t).
  { intros t It. apply KeyD in It. split; [apply (d_keepop _ _ _ _ _ _ _ I)|apply (d_src _ _ _ _ _ _ _ I)]; tauto. }
  pose proof (p_out_in _ _ _ _ _ _ _ _ P) as Oin. rewrite <- (q_outd _ _ _ _ _ _ _ _ _ _ I1) in Oin.
  assert (Od : forall o r, dget o (outd g) = Some r -> dget o (outd g1) = Some r /\ In r (dkeys (conns g))).
  { intros o r Er. assert (Er1 : dget o (outd g1) = Some r).
    { rewrite (d_outd _ _ _ _ _ _ _ I) in Er. destruct (mem o D); [discriminate|auto]. }
    split; auto. apply (d_keys _ _ _ _ _ _ _ I). split; [|apply (d_alias _ _ _ _ _ _ _ I o r Er)].
    apply (q_keys _ _ _ _ _ _ _ _ _ _ I1), In_keys_get. apply dget_In in Er1. apply (Oin _ Er1). }
  assert (Seen : forall k, In k (dkeys (conns g)) -> In k (seen_keys ops))
    by (intros k Ik; apply (p_keys _ _ _ _ _ _ _ _ P), (q_keys _ _ _ _ _ _ _ _ _ _ I1); apply KeyD; auto).
  assert (Ord : forall t, In t order -> exists o, opof g t = Some o /\ dmem t (statics g) = false /\ op_buffer o = false /\
                  In t (dkeys (conns g))).
  { intros t It. pose proof It as It'. apply All in It. destruct (opof g t) as [o|] eqn:Ho; [|congruence]. exists o. split; auto.
    assert (Ic : In t (dkeys (conns g))) by (apply OpIn; congruence).
    split; [apply dmem_false, Left; auto|]. split; auto.
    apply (q_nobuf _ _ _ _ _ _ _ _ _ _ I1 t o). destruct (Op1 t Ic) as (<- & _). auto. }
  assert (OpDecl : forall t o, opof g t = Some o -> In t (map d_out ops) /\ In o (map d_op ops)).
  { intros t o Ho. assert (Ic : In t (dkeys (conns g))) by (apply OpIn; congruence).
    destruct (Op1 t Ic) as (E2 & _). rewrite E2 in Ho.
    apply (q_ops _ _ _ _ _ _ _ _ _ _ I1) in Ho. split; [eauto|].
    apply (p_ops _ _ _ _ _ _ _ _ P t o Ho). }
  assert (Used : forall k, used_key pm k -> In k (dkeys (conns g))).
  { intros k [J|[(t & It & Ik)|J]].
    - destruct (Ord k J) as (o & _ & _ & _ & Ic); auto.
    - simpl in Ik. apply In_keys_get. eapply wf_src_present; eauto.
    - simpl in J. apply in_map_iff in J. destruct J as ((o & r) & <- & Ip). simpl.
      apply (Od o r). apply In_dget; auto. apply (d_ow _ _ _ _ _ _ _ I). }
  assert (NM : names_ok reserved pm).
  { constructor.
    - simpl. intros k Ik. destruct (Ord k Ik) as (o & Ho & _). apply OpDecl in Ho. destruct Ho as (Ho & _).
      apply in_map_iff in Ho. destruct Ho as (d & <- & Id). apply (gk_outs _ _ GK); auto.
    - simpl. intros r Ir. apply in_map_iff in Ir. destruct Ir as ((o & r') & <- & Ip). simpl.
      destruct (Alias o r'); auto. apply In_dget; auto. apply (d_ow _ _ _ _ _ _ _ I).
    - intros k U R. apply Used, Seen in U. destruct (gk_under _ _ GK k U R) as (R1 & R2). split; auto.
    - intros k U. apply (gk_dicts _ _ GK). auto.
    - simpl. intros t It. destruct (Ord t It) as (o & Ho & _). rewrite Ho.
      destruct (OpDecl t o Ho) as (_ & Io). apply in_map_iff in Io. destruct Io as (d & <- & Id).
      destruct (gk_fns _ _ GK d Id) as (F1 & F2). split; auto.
      intros k U F. rewrite F in F1. unfold mangle in F1. destruct (reserved k) eqn:R; [|congruence].
      apply Used, Seen in U. destruct (gk_under _ _ GK k U R). congruence. }
  assert (Dout : forall o, In o outs' -> ~ In o D) by (intros o J; apply (d_outs _ _ _ _ _ _ _ I) in J; tauto).
  assert (Get : forall o, In o outs' -> exists r, dget o (outd g) = Some r).
  { intros o J. rewrite (d_outd _ _ _ _ _ _ _ I). pose proof (Dout o J). destruct (mem_spec o D); [tauto|].
    apply Io' in J. destruct J as (J & _). apply Ko in J. destruct (dget o (outd g1)) eqn:Er; eauto.
    apply dget_None in Er. tauto. }
  assert (SH : shape_ok pm).
  { constructor; simpl.
    - auto.
    - intros t It. destruct (Ord t It) as (o & Ho & Hs & _ & Ic). split; auto.
      destruct (OpDecl t o Ho) as (It' & _). pose proof (KeyD t Ic) as (Ic1 & Nd).
      split. { intros F. apply (Hrt t F It'). }
      split. { intros F. destruct (d_un _ _ _ _ _ _ _ I t F) as [F'|F']; [|tauto].
               rewrite (q_unused _ _ _ _ _ _ _ _ _ _ I1) in F'. destruct (p_unused _ _ _ _ _ _ _ _ P t F') as (_ & F2).
               apply F2, (q_keys _ _ _ _ _ _ _ _ _ _ I1); auto. }
      split; auto. apply (w_tgts g W); auto. congruence.
    - auto.
    - tauto.
    - intros t k _ J. apply (wf_mirror_In g k t W); auto.
    - intros a t b Eq k Ik. destruct (opof g k) as [o|] eqn:Ok.
      + left. apply (Snd a t b Eq); [|congruence]. exact Ik.
      + right. right; right. simpl. intros F. apply (w_tgts g W) in F; [congruence|].
        apply In_keys_get. eapply wf_src_present; eauto.
    - intros r Ir. destruct (opof g r) as [o|] eqn:Or.
      + left. apply All. congruence.
      + right. right; right. simpl. intros F. apply (w_tgts g W) in F; [congruence|].
        apply Used. right; right; auto.
    - intros o Io. destruct (Get o Io) as (r & Er). exists r. split; auto.
      intros X. apply (Alias o r); auto. }
  set (start := fun k => match dget k (statics g) with Some v => v | None => e0 k end).
  assert (St1 : forall k, In k (dkeys (conns g)) -> dget k (statics g) = dget k (statics g1))
    by (intros k Ik; apply (d_st _ _ _ _ _ _ _ I); apply KeyD; auto).
  assert (Root : forall k, In k (dkeys (conns g)) -> opof g k = None -> dget k (statics g) = None -> ~ In k (map d_out ops)).
  { intros k Ik Ok Dk. destruct (Op1 k Ik) as (Eo1 & _). rewrite Eo1 in Ok. rewrite (St1 k Ik) in Dk.
    destruct (q_done _ _ _ _ _ _ _ _ _ _ I1 k Ok) as [Ok0|Dd].
    2: { unfold dmem in Dd. rewrite Dk in Dd. discriminate. }
    destruct (p_roots _ _ _ _ _ _ _ _ P k) as [|Dd]; auto.
    - apply (q_keys _ _ _ _ _ _ _ _ _ _ I1); auto. apply KeyD; auto.
    - apply dmem_get in Dd. destruct Dd as (v & Dd). exfalso.
      rewrite <- (p_statics _ _ _ _ _ _ _ _ P) in Dd. apply (q_grow _ _ _ _ _ _ _ _ _ _ I1) in Dd. congruence. }
  assert (Sup : forall k, used_key pm k -> external pm k -> input_of pm params data cache k = Some (start k)).
  { intros k U X. apply Used in U. unfold input_of, start. simpl.
    unfold dmem. destruct (dget k (statics g)) as [v|] eqn:Dk.
    - rewrite (Hcache k v); auto. destruct (scalar k); auto.
    - assert (No : ~ In k (map d_out ops)).
      { destruct (opof g k) as [o|] eqn:Ok; [|apply Root; auto].
        destruct X as [X|[X|X]].
        + simpl in X. unfold dmem in X. rewrite Dk in X. discriminate.
        + apply Hrt; auto.
        + exfalso. apply X. simpl. apply (w_tgts g W); [auto|congruence]. }
      specialize (Hin k U No Dk). destruct (mem k rt); auto. }
  destruct (C02_generated_code_computes_the_model V fsem reserved pm params data cache start NM SH Sup)
    as (prog & Ep & Er).
  exists prog. split; auto. rewrite Er. f_equal. simpl. apply map_ext_in. intros o Io. f_equal.
  destruct (Get o Io) as (r & Eor). rewrite Eor. destruct (Od o r Eor) as (Eor1 & Ir).
  assert (F : forall l e, (forall t, In t l -> In t order) ->
     fold_left (fun e t => upd e t (fsem (match opof g t with Some o => op_formula o | None => "" end)
                                       (map e (src g t)))) l e =
     fold_left (fun e k => match opof g k with
                           | Some o => upd e k (op_value fsem false e o (src g k))
                           | None => e end) l e).
  { induction l as [|t l IH]; simpl; intros e Hl; auto.
    destruct (Ord t (Hl t (or_introl eq_refl))) as (ot & Ho & _ & Hb & _). rewrite Ho.
    unfold op_value at 2. rewrite Hb. simpl. apply IH. intros x Hx; apply Hl; right; auto. }
  unfold meaning. simpl. rewrite F; auto.
  assert (Ev : value r = value o).
  { rewrite (q_outd _ _ _ _ _ _ _ _ _ _ I1) in Eor1. apply dget_In in Eor1. apply (p_out_env _ _ _ _ _ _ _ _ P _ Eor1). }
  rewrite <- Ev. change (run_graph fsem false g order start r = value r).
  apply (run_in_order fsem false g (rank ops) value start order); auto.
  - intros k ok Hok. assert (Ic : In k (dkeys (conns g))) by (apply OpIn; congruence).
    destruct (Op1 k Ic) as (E2 & ->). apply (q_solves _ _ _ _ _ _ _ _ _ _ I1). congruence.
  - discriminate.
  - intros k Ik Ok. unfold start. destruct (dget k (statics g)) as [v|] eqn:Dk.
    + symmetry. apply (q_st _ _ _ _ _ _ _ _ _ _ I1). rewrite <- St1; auto.
    + unfold value. rewrite run_ops_other; auto.
Qed.
Print Assumptions C46_compiled_function_returns_the_outputs.

(** Without constraint solver, discarded keys and inlined scalars nothing is left to assume about
    the compiled graph: hanging operators vanish and every output is returned. *)
Corollary C46_plain :
  forall (V : Type) (fsem : string -> list V -> V) (veq : V -> V -> bool) (known : string -> option V)
         (pick : list string -> string)
         (reserved : string -> bool) (inputs outputs rt state_ins state_outs : list string)
         (st0 : dict string V) ops (e0 : string -> V) fuel (params data : dict string V),
  decls_ok outputs ops -> clean_names false ops -> good_keys reserved ops ->
  (forall a b, veq a b = true -> a = b) ->
  (forall l, l <> [] -> In (pick l) l) ->
  let value := run_ops fsem false ops e0 in
  (forall k v, known k = Some v -> value k = v) ->
  (forall k v, dget k st0 = Some v -> value k = v) ->
  (forall k, In k state_ins -> ~ In k (map d_out ops)) ->
  length st0 + length (seen_keys ops) <= fuel ->
  (forall k, In k rt -> ~ In k (map d_out ops)) ->
  (forall k, In k (seen_keys ops) -> ~ In k (map d_out ops) ->
     reserved k = false /\ dget k (if mem k rt then data else params) = Some (e0 k)) ->
  exists enough, forall fuel', enough <= fuel' ->
  exists D outs' g order prog,
    pre_compile veq known pick (apply_fn fsem false) (fun _ => []) fuel fuel' state_ins state_outs [] outputs
      (map d_op ops) (build inputs outputs st0 ops) = Ok (D, outs', g) /\
    (forall o, In o outs' <-> In o outputs) /\
    topological_order false g = Ok order /\
    generate_evaluate reserved (compiled_model g order rt D outs' (fun _ => false)) = Ok prog /\
    run_program fsem prog params data (statics g) = Ok (map (fun o => (o, value o)) outs').
Proof.
  intros V fsem veq known pick reserved inputs outputs rt state_ins state_outs st0 ops e0 fuel
    params data H CN GK Vs Pk value Hk Hd Hst Hf Hrt Hin.
  assert (Ss : solver_sound (fun _ : dict string V => []) value (seen_keys ops) state_ins) by (intros st Hs k v []).
  destruct (folding_spec V fsem veq known pick _ false inputs outputs state_ins state_outs st0 ops e0
              fuel H CN Vs Pk Hk Hd Ss Hst Hf) as (g0 & g1 & E & E1 & P & I1 & Pe & Outs0).
  fold value in P, I1.
  pose proof (q_wf _ _ _ _ _ _ _ _ _ _ I1) as W1. pose proof (q_ac _ _ _ _ _ _ _ _ _ _ I1) as A1.
  assert (Ow : dwf (outd g1)) by (rewrite (q_outd _ _ _ _ _ _ _ _ _ _ I1); eapply outd_wf; eauto).
  assert (Ko : forall o, In o (dkeys (outd g1)) <-> In o outputs).
  { intros o. rewrite (q_outd _ _ _ _ _ _ _ _ _ _ I1), (p_out_keys _ _ _ _ _ _ _ _ P). apply In_str_sort. }
  destruct (C46_compiled_function_returns_the_outputs V fsem veq known pick _ reserved (fun _ => false) inputs outputs
    rt state_ins state_outs [] st0 ops e0 fuel H CN GK Vs Pk Hk Hd Ss Hst Hf Hrt) as (g1' & Epf & C).
  assert (g1' = g1).
  { unfold prune_and_fold in Epf. rewrite E in Epf. cbn [bind] in Epf. rewrite E1 in Epf. congruence. }
  subst g1'.
  assert (May : may_discard g1 [] outputs) by (intros k []).
  destruct (C May) as (enough & C'). 
  exists (enough + (length (sunion [] (sdiff (hanging_keys g1) outputs)) + length (conns g1) + length (outd g1))).
  intros fuel' L. destruct (C' fuel') as (D & outs' & g & order & Ep & Io & Eo & _ & Fin); [lia|].
  destruct (discard_spec pick (rank ops) g1 [] outputs fuel' Pk W1 A1 Ow Ko May) as (D1 & o1 & g' & Ei & I & _); [lia|].
  assert (Eq : (D1, o1, g') = (D, outs', g)).
  { unfold pre_compile in Ep. rewrite Epf in Ep. cbn [bind] in Ep. cbv zeta in Ep. rewrite Ei in Ep. congruence. }
  injection Eq as -> -> ->.
  pose proof (d_wf _ _ _ _ _ _ _ I) as W.
  destruct (topo_order_spec false g _ order W (d_ac _ _ _ _ _ _ _ I) Eo) as (_ & All & _).
  assert (Key : forall t, opof g t <> None -> In t (dkeys (conns g))).
  { intros t Ht. apply In_keys_get. unfold opof in Ht. destruct (dget t (conns g)); [eauto|congruence]. }
  destruct (Fin params data (statics g)) as (prog & Eg & Er).
  - intros t It. apply All in It. pose proof (Key t It) as It1. apply (d_keys _ _ _ _ _ _ _ I) in It1.
    destruct It1 as (It1 & Nt). rewrite (d_keepop _ _ _ _ _ _ _ I) in It by auto.
    rewrite (d_st _ _ _ _ _ _ _ I) by auto.
    apply dmem_false. destruct (dmem t (statics g1)) eqn:Dm; auto. exfalso.
    destruct (q_left _ _ _ _ _ _ _ _ _ _ I1 t It Dm) as [D0|(s & [])].
    rewrite (p_statics _ _ _ _ _ _ _ _ P) in D0.
    destruct (opof g1 t) as [o|] eqn:Ho; [|congruence]. apply (q_ops _ _ _ _ _ _ _ _ _ _ I1) in Ho.
    destruct (p_done _ _ _ _ _ _ _ _ P t o Ho) as [F|[F1 F2]]; [|congruence].
    rewrite skipn_all in F. destruct F.
  - auto.
  - intros k K1 K2 _. apply Hin; auto. apply (d_keys _ _ _ _ _ _ _ I) in K1.
    apply (p_keys _ _ _ _ _ _ _ _ P), (q_keys _ _ _ _ _ _ _ _ _ _ I1); tauto.
  - intros o r Er. split.
    + assert (Sr : In r (seen_keys ops)).
      { apply (p_keys _ _ _ _ _ _ _ _ P). apply In_keys_get.
        rewrite (d_outd _ _ _ _ _ _ _ I) in Er. destruct (mem o D); [discriminate|].
        rewrite (q_outd _ _ _ _ _ _ _ _ _ _ I1) in Er.
        apply dget_In in Er. apply (p_out_in _ _ _ _ _ _ _ _ P _ Er). }
      destruct (in_dec string_dec r (map d_out ops)) as [J|J]; [|apply Hin; auto].
      apply in_map_iff in J. destruct J as (d & <- & Jd). apply (gk_outs _ _ GK); auto.
    + unfold is_static_scalar, compiled_model. simpl. rewrite !andb_false_r. intuition discriminate.
  - exists D, outs', g, order, prog. split; [auto|]. split; [|auto].
    intros x. rewrite Io. simpl. tauto.
Qed.
Print Assumptions C46_plain.

(** *** Examples.  ["dead2"] = f(["dead1"]) hangs; ["o2"] is an output that the caller discards and
    whose helper ["h"] is then useless; ["o3"] is discarded but still read by ["output"]. *)
Definition drop_ops : list op_decl :=
  [(op_ 0 "add", "h", ["x"; "y"]); (op_ 1 "mul", "o2", ["h"; "y"]); (op_ 2 "mul", "o3", ["x"; "x"]);
   (op_ 3 "add", "dead1", ["o3"; "y"]); (op_ 4 "mul", "dead2", ["dead1"; "z"]);
   (op_ 5 "add", "output", ["o3"; "x"])].
Definition drop_outs := ["o2"; "o3"; "output"].
Definition drop_compile (discard : list string) :=
  pre_compile Nat.eqb (fun _ => None) pick_last (apply_fn nat_sem false) (fun _ => []) 40 60 [] [] discard drop_outs
    (map d_op drop_ops) (build ["x"; "y"; "z"] drop_outs [] drop_ops).
Definition run_compiled {A} (c : res (A * list string * graph nat)) (params : dict string nat) :=
  bind c (fun '(_, outs, g) => bind (topological_order false g) (fun order =>
  bind (generate_evaluate ex_reserved (compiled_model g order [] [] outs (fun _ => false)))
       (fun p => run_program nat_sem p params [] []))).
Example C46_example_drop :
  (exists g, drop_compile ["o2"; "o3"] =
     Ok (["o2"; "dead2"; "dead1"; "z"; "h"; "y"], ["output"], g) /\ inkeys g = ["x"] /\
     dkeys (conns g) = ["x"; "o3"; "output"]) /\
  run_compiled (drop_compile ["o2"; "o3"]) [("x", 3)] = Ok [("output", 12)] /\
  run_compiled (drop_compile []) [("x", 3); ("y", 2)] = Ok [("o2", 10); ("o3", 9); ("output", 12)].
Proof. split; [eexists; split; [vm_compute; reflexivity|split; reflexivity]|split; vm_compute; reflexivity]. Qed.

Example C46_example_hypotheses :
  decls_ok drop_outs drop_ops /\ good_keys ex_reserved drop_ops /\
  exists g1, prune_and_fold Nat.eqb (fun _ => None) pick_last (apply_fn nat_sem false) (fun _ => []) 40 [] []
    (map d_op drop_ops) (build ["x"; "y"; "z"] drop_outs [] drop_ops) = Ok g1 /\
  may_discard g1 ["o2"; "o3"] drop_outs.
Proof.
  split; [|split].
  - unfold decls_ok, drop_ops. cbn. split; [|split; [|split]].
    + repeat (split; [intuition discriminate|]). auto.
    + repeat constructor; simpl; intuition lia.
    + repeat constructor; simpl; intuition discriminate.
    + intros k [<-|[<-|[<-|[]]]]; auto 20.
  - constructor.
    + intros d Hd. simpl in Hd. intuition (subst; reflexivity).
    + intros k Hk R. assert (F : forallb (fun k => negb (ex_reserved k)) (seen_keys drop_ops) = true) by reflexivity.
      rewrite forallb_forall in F. specialize (F k Hk). rewrite R in F. discriminate.
    + intros k Hk. assert (F : forallb (fun k => negb (mem (mangle ex_reserved k) dict_names)) (seen_keys drop_ops) = true)
        by reflexivity. rewrite forallb_forall in F. specialize (F k Hk). apply mem_not_In. apply negb_true_iff; auto.
    + intros d Hd. assert (F : forallb (fun d => ex_reserved (op_formula (d_op d)) && negb (mem (op_formula (d_op d)) dict_names))
        drop_ops = true) by reflexivity. rewrite forallb_forall in F. specialize (F d Hd).
      apply andb_true_iff in F. destruct F as (F1 & F2). split; auto. apply mem_not_In. apply negb_true_iff; auto.
  - eexists. split; [vm_compute; reflexivity|].
    intros k [<-|[<-|[]]].
    + right. intros t [C|(C & N)].
      * vm_compute in C. destruct C.
      * apply dget_In in C. simpl in C. destruct C as [C|[C|[C|[]]]]; inversion C; subst; congruence.
    + left. split; simpl; auto.
Qed.

(** Finding.  An input may be discarded.  The operator ["v"] = f(["x"]) then goes too, although the
    kept output ["w"] = ["v"] + ["y"] needs it: ["w"] keeps its operator with one argument fewer. *)
Theorem C07_discarded_input_with_consumer_refuted :
  let ops := [(op_ 0 "mul", "v", ["x"]); (op_ 1 "add", "w", ["v"; "y"])] in
  let c := pre_compile Nat.eqb (fun _ => None) pick_last (apply_fn nat_sem false) (fun _ => []) 40 40 [] [] ["x"] ["w"]
    (map d_op ops) (build ["x"; "y"] ["w"] [] ops) in
  (exists D g, c = Ok (D, ["w"], g) /\ opof g "w" = Some (op_ 1 "add") /\ src g "w" = ["y"]).
Proof. do 2 eexists. split; [vm_compute; reflexivity|split; reflexivity]. Qed.

(** Finding.  Two outputs with the same value, ["o1"] and its copy ["b"]; the caller discards ["o1"]
    only.  The operator of ["o1"] is removed although ["b"] stands for it: the generated code looks
    ["o1"] up among the parameters. *)
Theorem C07_discarded_output_with_alias_refuted :
  let ops := [(op_ 0 "add", "o1", ["x"; "y"]); (mkop 1 "buffer" true, "b", ["o1"])] in
  let c := pre_compile Nat.eqb (fun _ => None) pick_last (apply_fn nat_sem false) (fun _ => []) 40 40 [] []
    ["o1"] ["o1"; "b"] (map d_op ops) (build ["x"; "y"] ["o1"; "b"] [] ops) in
  run_ops nat_sem false ops (fun k => if eqb k "x" then 1 else 2) "b" = 3 /\
  run_compiled c [("x", 1); ("y", 2)] = Err KeyError.
Proof. split; vm_compute; reflexivity. Qed.

(** Finding.  Two equal operators without reader: the second is merged into the first, which is
    thereby registered as a source although nothing reads it, so it is not seen as hanging
    and is executed although no output needs it. *)
Theorem C46_dead_duplicate_executed_refuted :
  let ops := [(op_ 0 "add", "a", ["x"; "y"]); (op_ 1 "add", "b", ["x"; "y"]); (op_ 2 "mul", "output", ["x"; "x"])] in
  let c := pre_compile Nat.eqb (fun _ => None) pick_last (apply_fn nat_sem false) (fun _ => []) 40 40 [] []
    [] ["output"] (map d_op ops) (build ["x"; "y"] ["output"] [] ops) in
  (exists D g, c = Ok (D, ["output"], g) /\ topological_order false g = Ok ["a"; "output"] /\ ~ needs g "output" "a") /\
  (* the same model without the copy needs no "y" *)
  let ops1 := [(op_ 0 "add", "a", ["x"; "y"]); (op_ 2 "mul", "output", ["x"; "x"])] in
  let c1 := pre_compile Nat.eqb (fun _ => None) pick_last (apply_fn nat_sem false) (fun _ => []) 40 40 [] []
    [] ["output"] (map d_op ops1) (build ["x"; "y"] ["output"] [] ops1) in
  run_compiled c [("x", 3)] = Err KeyError /\ run_compiled c1 [("x", 3)] = Ok [("output", 9)].
Proof.
  split; [do 2 eexists; split; [vm_compute; reflexivity|split; [vm_compute; reflexivity|]]|split; vm_compute; reflexivity].
  match goal with |- ~ needs ?g _ _ => set (G0 := g) end. intros F.
  assert (G : forall k, needs G0 "output" k -> k = "output" \/ k = "x").
  { clear F. induction 1 as [|t s N IH Hs]; auto. destruct IH as [->| ->]; vm_compute in Hs; intuition congruence. }
  apply G in F. destruct F; discriminate.
Qed.
