(** * Final statements for the compiled graph: order (C01), pruning (C04), signatures (C05),
    fresh keys (C11). *)
From Coq Require Import String Ascii List Arith Lia Bool Permutation ZArith.
From Verif Require Import PyBase PyStrings FlatGraph_Model Topo_Proofs Graph_Proofs Build_Proofs
     Prune_Proofs Pipeline_Proofs ValueEq_Model Signature_Proofs.
Import ListNotations.
Open Scope string_scope.
Open Scope list_scope.
Open Scope nat_scope.

(** ** C01 Emission order *)

(** Keys whose values operator [d] reads: all its arguments, minus the trailing cache slot that
    the numpy backend gives every operator. *)
Definition reads (manual : bool) (d : op_decl) (s : string) : Prop :=
  if manual then In s (removelast (d_ins d)) else In s (d_ins d).

(** For every list of flattened operators in which each operator has an argument and each result
    key is new, compilation produces an order, the order lists every operator exactly once, and
    every operator result read by an operator is listed before it. *)
Theorem C01_order_sound_and_complete :
  forall (V : Type) (manual : bool) (inputs outputs : list string) (data : dict string V) ops,
  decls_ok outputs ops ->
  exists order,
    topological_order manual (build inputs outputs data ops) = Ok order /\
    Permutation order (map d_out ops) /\
    forall before t after, order = before ++ t :: after ->
      forall d s, In d ops -> d_out d = t -> reads manual d s -> In s (map d_out ops) -> In s before.
Proof.
  intros V manual inputs outputs data ops H.
  pose proof (build_spec inputs outputs data ops (proj1 H)) as B.
  pose proof (built_wf _ _ _ _ _ H B) as W. pose proof (built_acyclic _ _ _ _ _ H B) as A.
  destruct (topo_order_total manual _ W) as (order & E). exists order. split; auto.
  destruct (topo_order_spec manual _ _ order W A E) as (ND & All & Snd).
  pose proof (decls_outs_nodup _ _ (proj1 H)) as NDo.
  assert (Op : forall k, opof (build inputs outputs data ops) k <> None <-> In k (map d_out ops)).
  { intros k. unfold opof. rewrite (b_get _ _ _ _ _ B).
    destruct (find_decl k ops) as [d|] eqn:F.
    - apply find_decl_Some in F. destruct F as (I & <-). split; [intros _; apply in_map; auto|discriminate].
    - apply find_decl_None in F. destruct (mem k (seen_keys ops)); simpl; tauto. }
  split.
  - apply NoDup_Permutation; auto. intros k. rewrite All, Op. tauto.
  - intros a t b Eo d s Id Et Rs Is. apply (Snd a t b Eo); [|apply Op; auto].
    assert (Es : src (build inputs outputs data ops) t = d_ins d).
    { rewrite src_get, (b_get _ _ _ _ _ B). destruct (find_decl t ops) as [d'|] eqn:F.
      - apply find_decl_Some in F. destruct F as (I' & E'). simpl. f_equal. subst t.
        clear -NDo Id I' E'. induction ops as [|x l IH]; simpl in *; [tauto|].
        inversion NDo; subst. destruct Id as [<-|I], I' as [<-|I']; auto.
        + exfalso. apply H1. rewrite <- E'. apply in_map; auto.
        + exfalso. apply H1. rewrite E'. apply in_map; auto.
      - apply find_decl_None in F. exfalso; apply F. subst t. apply in_map; auto. }
    rewrite Es. apply data_args_strip. unfold reads in Rs. unfold data_args. destruct manual; auto.
Qed.
Print Assumptions C01_order_sound_and_complete.

(** The order does not depend on the iteration order of Python's sets: it is a function of the
    connections and of the *sets* of source and target keys. *)
Theorem C01_order_deterministic :
  forall (V : Type) (manual : bool) (g : graph V) srcs' tgts',
  Permutation (srcs g) srcs' -> (forall k, In k (tgts g) <-> In k tgts') ->
  topological_order manual (set_tgts tgts' (set_srcs srcs' g)) = topological_order manual g.
Proof.
  intros V manual g s t Ps Pt. unfold topological_order.
  assert (E : str_sort (sdiff s t) = str_sort (sdiff (srcs g) (tgts g))).
  { apply str_sort_permut. unfold sdiff.
    rewrite (filter_ext_in _ (fun x => negb (mem x (tgts g)))).
    - apply Permutation_sym. clear -Ps. induction Ps; simpl; auto.
      + destruct (negb (mem x (tgts g))); auto.
      + destruct (negb (mem x (tgts g))), (negb (mem y (tgts g))); auto. apply perm_swap.
      + eapply perm_trans; eauto.
    - intros x _. f_equal. destruct (mem_spec x t), (mem_spec x (tgts g)); auto; exfalso; firstorder. }
  change (sdiff (srcs (set_tgts t (set_srcs s g))) (tgts (set_tgts t (set_srcs s g)))) with (sdiff s t).
  rewrite E. change (edge_count (set_tgts t (set_srcs s g))) with (edge_count g).
  generalize (S (length (rev (str_sort (sdiff (srcs g) (tgts g)))) + edge_count g)).
  generalize (rev (str_sort (sdiff (srcs g) (tgts g)))). generalize (@nil string) at 1 3.
  generalize (@nil string). intros o v st n. revert o v st.
  assert (T : forall v ts st o, topo_targets manual (set_tgts t (set_srcs s g)) v ts st o =
                            topo_targets manual g v ts st o).
  { intros v. induction ts as [|x ts IH]; intros st o; simpl; auto.
    destruct (mem x v); auto. change (get_source_keys x false (set_tgts t (set_srcs s g)))
      with (get_source_keys x false g). destruct (manual && _); auto. destruct (ssubset _ v); auto. }
  induction n as [|n IH]; intros o v st; simpl; auto. destruct st as [|k st]; auto.
  destruct (mem k v); auto. rewrite T.
  change (get_target_keys k false (set_tgts t (set_srcs s g))) with (get_target_keys k false g).
  destruct (topo_targets manual g (k :: v) (get_target_keys k false g) st o) as [[? ?]|]; simpl; auto.
Qed.
Print Assumptions C01_order_deterministic.

Definition op_ (i : nat) (f : string) : operator := mkop i f false.
Definition buf_ (i : nat) : operator := mkop i "buffer" true.
(** Diamond with a repeated argument and a branch that is declared late. *)
Definition diamond : list op_decl :=
  [(op_ 0 "relu", "a", ["x"]); (op_ 1 "mul", "b", ["a"; "a"]); (op_ 2 "add", "c", ["b"; "y"]);
   (op_ 3 "relu", "d", ["y"]); (op_ 4 "add", "e", ["c"; "d"])].
Example C01_example_hypotheses : decls_ok ["e"] diamond.
Proof.
  unfold decls_ok, diamond. cbn. split; [|split; [|split]].
  - repeat (split; [intuition discriminate|]). auto.
  - repeat constructor; simpl; intuition lia.
  - repeat constructor; simpl; tauto.
  - intros k [<-|[]]; auto 10.
Qed.
Example C01_example :
  topological_order false (build (V := nat) ["x"; "y"] ["e"] [] diamond) = Ok ["d"; "a"; "b"; "c"; "e"].
Proof. vm_compute. reflexivity. Qed.

(** Finding.  The completeness part needs the freshness condition: [add_value] replaces an existing
    connection and with it the list of its readers.  When a reader is added before the producer of
    its argument, which physical/model.py:1436-1450 allows for an argument that already has a
    value, the link to the reader is lost.  Here "v" is read by "r" before it is produced: the
    operator computing the output "r" is never emitted. *)
Theorem C01_producer_after_reader_refuted :
  let ops := [(op_ 0 "relu", "r", ["v"]); (op_ 1 "exp", "v", ["x"])] in
  topological_order false (build (V := nat) ["x"] ["r"; "v"] [] ops) = Ok ["v"] /\
  In "r" (map d_out ops).
Proof. vm_compute. split; auto. Qed.

(** ** C04 Pruning *)

(** Naming discipline under which duplicate signatures are unambiguous. *)
Record clean_names (manual : bool) (ops : list op_decl) : Prop := {
  (* argument keys are non-empty, contain no "-" and are not plain numerals (unless they are
     skipped by the signature altogether) *)
  cn_keys : forall k, In k (seen_keys ops) -> skipped k = false -> key_ok k;
  cn_formula : forall d, In d ops -> part_ok (op_formula (d_op d));
  (* the signature skips exactly the trailing cache slot, i.e. no data argument is called
     "output" or contains "cache" *)
  cn_args : forall d, In d ops -> op_buffer (d_op d) = false ->
      filter visible (d_ins d) = data_args manual (d_ins d);
  cn_cache : manual = true -> forall d, In d ops -> ~ In (last (d_ins d) "") (map d_out ops);
  cn_buffer : forall d, In d ops -> op_buffer (d_op d) = true -> skipped (hd "" (d_ins d)) = false;
  (* a result called "output" (or containing "cache") is the last one with its formula *)
  cn_output : forall a d b, ops = a ++ d :: b -> skipped (d_out d) = true ->
      forall d', In d' b -> op_formula (d_op d') <> op_formula (d_op d)
}.

(** The reference semantics [run_ops] runs the declared operators one after the other; [run_graph]
    runs the surviving operators of the pruned graph in emission order.  [fsem] gives the meaning
    of a formula, [known] the values that compile-time analysis attached to edges, [data] the
    static values.  Both must be values the model really computes. *)
Theorem C04_pruning_preserves_outputs :
  forall (V : Type) (fsem : string -> list V -> V) (veq : V -> V -> bool) (known : string -> option V)
         (manual : bool) (inputs outputs : list string) (data : dict string V) ops (e0 : string -> V),
  decls_ok outputs ops -> clean_names manual ops ->
  (forall a b, veq a b = true -> a = b) ->
  let meaning := run_ops fsem manual ops e0 in
  (forall k v, known k = Some v -> meaning k = v) ->
  (forall k v, dget k data = Some v -> meaning k = v) ->
  exists g order,
    traverse_graph veq known (map d_op ops) (build inputs outputs data ops) = Ok g /\
    topological_order manual g = Ok order /\
    let start := fun k => match dget k data with Some v => v | None => e0 k end in
    forall o, In o outputs ->
      exists r, dget o (outd g) = Some r /\ run_graph fsem manual g order start r = meaning o.
Proof.
  intros V fsem veq known manual inputs outputs data ops e0 H CN Vs meaning Hk Hd.
  destruct CN as [C1 C2 C3 C4 C5 C6].
  assert (Sol : forall d, In d ops -> meaning (d_out d) = op_value fsem manual meaning (d_op d) (d_ins d)).
  { intros d I. apply run_ops_solves; auto. apply H. }
  destruct (traverse_preserves fsem veq known manual meaning Vs Hk ops outputs data H C1 C2 C3 C4 C5 C6 Sol
              Hd inputs) as (g & E & P).
  pose proof (p_wf _ _ _ _ _ _ _ _ P) as W. pose proof (p_ac _ _ _ _ _ _ _ _ P) as A.
  destruct (topo_order_total manual g W) as (order & Eo). exists g, order. split; auto. split; auto.
  destruct (topo_order_spec manual g _ order W A Eo) as (ND & All & Snd).
  intros start o Io.
  destruct (dget o (outd g)) as [r|] eqn:Er.
  2: { exfalso. apply dget_None in Er. apply Er. rewrite (p_out_keys _ _ _ _ _ _ _ _ P).
       apply In_str_sort; auto. }
  exists r. split; auto. apply dget_In in Er.
  pose proof (p_out_env _ _ _ _ _ _ _ _ P _ Er) as Eq0. cbn [fst snd] in Eq0. rewrite <- Eq0.
  assert (Ir : In r (dkeys (conns g))).
  { apply In_keys_get. apply (p_out_in _ _ _ _ _ _ _ _ P _ Er). }
  apply (run_graph_solution fsem manual g meaning start order [] order); auto.
  - apply (p_solves _ _ _ _ _ _ _ _ P).
  - intros a t b Eq s Js. destruct (opof g s) eqn:Os; auto. right. apply (Snd a t b Eq); [|congruence].
    assert (Jt : In t order) by (rewrite Eq; apply in_app_iff; right; left; auto).
    apply All in Jt. destruct (opof g t) as [ot|] eqn:Ot; [|congruence].
    unfold strip_cache. destruct manual eqn:Em; simpl; auto.
    destruct (ends_with "_cache" (last (src g t) "")); auto.
    assert (Nl : s <> last (src g t) "").
    { intros F. apply (p_cache _ _ _ _ _ _ _ _ P eq_refl t ot Ot). rewrite <- F.
      destruct (in_dec string_dec s (map d_out ops)) as [|N]; auto. exfalso.
      assert (Z : forall k o, opof g k = Some o -> rank ops k > 0).
      { intros k ok Hok. destruct (src g k) as [|z l] eqn:Ez.
        - apply (w_op g W) in Ez. congruence.
        - assert (Iz : In z (src g k)) by (rewrite Ez; left; auto). apply A in Iz. lia. }
      apply Z in Os. unfold rank in Os. rewrite rank_from_zero in Os by auto. lia. }
    destruct (src g t) as [|x l] eqn:El; [destruct Js|].
    rewrite (app_removelast_last "" (l := x :: l)) in Js by discriminate.
    apply in_app_iff in Js. destruct Js as [|[J|[]]]; auto. congruence.
  - intros k Ik [Ok|[]]. unfold start. destruct (dget k data) as [v|] eqn:Dk.
    + symmetry; auto.
    + destruct (p_roots _ _ _ _ _ _ _ _ P k Ik Ok) as [N|Dm].
      * unfold meaning. rewrite run_ops_other; auto.
      * apply dmem_false in Dk. congruence.
  - intros k Jk. apply All; auto.
  - destruct (opof g r) eqn:Or; auto. right. apply All. congruence.
Qed.
Print Assumptions C04_pruning_preserves_outputs.

(** Two equal additions, a buffer, a static operator and a consumer of each. *)
Definition dup_ops : list op_decl :=
  [(op_ 0 "add", "a", ["x"; "y"]); (op_ 1 "add", "b", ["x"; "y"]); (buf_ 2, "c", ["b"]);
   (op_ 3 "add", "s", ["k1"; "k2"]); (op_ 4 "mul", "d", ["a"; "c"]); (op_ 5 "mul", "output", ["d"; "s"])].
Definition nat_sem (f : string) (l : list nat) : nat :=
  if eqb f "add" then fold_right Nat.add 0 l
  else if eqb f "mul" then fold_right Nat.mul 1 l
  else if eqb f "sub" then match l with [a; b] => a - b | _ => 0 end else 0.
Definition dup_data : dict string nat := [("k1", 2); ("k2", 3); ("s", 5)].
Definition dup_e0 (k : string) : nat :=
  if eqb k "x" then 4 else if eqb k "y" then 6 else if eqb k "k1" then 2 else if eqb k "k2" then 3 else 0.
Example C04_example_hypotheses :
  decls_ok ["c"; "output"] dup_ops /\ clean_names false dup_ops /\
  (forall k v, dget k dup_data = Some v -> run_ops nat_sem false dup_ops dup_e0 k = v).
Proof.
  split; [|split].
  - unfold decls_ok, dup_ops. cbn. split; [|split; [|split]].
    + repeat (split; [intuition discriminate|]). auto.
    + repeat constructor; simpl; intuition lia.
    + repeat constructor; simpl; intuition discriminate.
    + intros k [<-|[<-|[]]]; auto 10.
  - constructor; try (intros; discriminate).
    + intros k Hk _. assert (F : forallb (fun k => negb (eqb k "") && negb (has_char "-"%char k)
                        && negb (all_digits k)) (seen_keys dup_ops) = true) by reflexivity.
      rewrite forallb_forall in F. specialize (F k Hk). repeat rewrite andb_true_iff in F.
      destruct F as ((F1 & F2) & F3). apply negb_true_iff in F1, F2, F3.
      split; [|split]; auto. intros ->. discriminate.
    + intros d Hd. assert (F : forallb (fun d => negb (eqb (op_formula (d_op d)) "") &&
                        negb (has_char "-"%char (op_formula (d_op d)))) dup_ops = true) by reflexivity.
      rewrite forallb_forall in F. specialize (F d Hd). rewrite andb_true_iff in F.
      destruct F as (F1 & F2). apply negb_true_iff in F1, F2. split; auto. intros Z. rewrite Z in F1. discriminate.
    + intros d Hd _. simpl in Hd. intuition (subst; reflexivity).
    + intros d Hd Hb. simpl in Hd. intuition (subst; try reflexivity; discriminate).
    + intros a d b E S d' I. unfold dup_ops in E.
      do 5 (destruct a as [|? a]; [inversion E; subst; discriminate|]; injection E as _ E).
      destruct a as [|? a]; [|destruct a; discriminate]. inversion E; subst. destruct I.
  - intros k v E. apply dget_In in E. simpl in E.
    destruct E as [E|[E|[E|[]]]]; inversion E; subst; reflexivity.
Qed.
Example C04_example :
  match traverse_graph Nat.eqb (fun _ => None) (map d_op dup_ops)
          (build ["x"; "y"] ["c"; "output"] dup_data dup_ops) with
  | Ok g => topological_order false g = Ok ["a"; "d"; "output"] /\ outd g = [("c", "a"); ("output", "output")] /\
            run_graph nat_sem false g ["a"; "d"; "output"]
              (fun k => match dget k dup_data with Some v => v | None => dup_e0 k end) "output" = 500
  | Err _ => False
  end.
Proof. vm_compute. repeat split. Qed.

(** Finding.  Without the naming condition the compiler changes results: the signature skips the
    user key "output", so [sub(output, x)] and [sub(x, output)] are merged and both model outputs
    return the same value. *)
Definition swap_ops : list op_decl :=
  [(op_ 0 "add", "output", ["x"; "y"]); (op_ 1 "sub", "p", ["output"; "x"]); (op_ 2 "sub", "q", ["x"; "output"])].
Theorem C04_key_named_output_refuted :
  decls_ok ["p"; "q"] swap_ops /\
  match traverse_graph Nat.eqb (fun _ => None) (map d_op swap_ops) (build ["x"; "y"] ["p"; "q"] [] swap_ops) with
  | Ok g => outd g = [("p", "p"); ("q", "p")] /\
            run_ops nat_sem false swap_ops dup_e0 "p" = 6 /\ run_ops nat_sem false swap_ops dup_e0 "q" = 0
  | Err _ => False
  end.
Proof.
  split.
  - unfold decls_ok, swap_ops. cbn. split; [|split; [|split]].
    + repeat (split; [intuition discriminate|]). auto.
    + repeat constructor; simpl; intuition lia.
    + repeat constructor; simpl; intuition discriminate.
    + intros k [<-|[<-|[]]]; auto 10.
  - vm_compute. repeat split.
Qed.
(** Same with user keys that contain "cache". *)
Definition cache_ops : list op_decl :=
  [(op_ 0 "add", "p", ["x"; "kv_cache1"]); (op_ 1 "add", "q", ["x"; "kv_cache2"])].
Theorem C04_key_containing_cache_refuted :
  match traverse_graph Nat.eqb (fun _ => None) (map d_op cache_ops)
          (build ["x"; "kv_cache1"; "kv_cache2"] ["p"; "q"] [] cache_ops) with
  | Ok g => outd g = [("p", "p"); ("q", "p")]
  | Err _ => False
  end.
Proof. vm_compute. reflexivity. Qed.
(** Same with "-" in a key: [add(a-b, c)] and [add(a, b-c)]. *)
Definition dash_ops : list op_decl :=
  [(op_ 0 "add", "p", ["a-b"; "c"]); (op_ 1 "add", "q", ["a"; "b-c"])].
Theorem C04_key_with_dash_refuted :
  match traverse_graph Nat.eqb (fun _ => None) (map d_op dash_ops)
          (build ["a-b"; "c"; "a"; "b-c"] ["p"; "q"] [] dash_ops) with
  | Ok g => outd g = [("p", "p"); ("q", "p")]
  | Err _ => False
  end.
Proof. vm_compute. reflexivity. Qed.

(** ** C05 Signatures *)

(** An argument as the signature sees it: its value if it has one, otherwise its key. *)
Definition argument {V} (known : string -> option V) (g : graph V) (k : string) : V + string :=
  match known k with
  | Some v => inl v
  | None => match dget k (statics g) with Some v => inl v | None => inr k end
  end.

(** Whatever signatures were computed before and in between (histories [h1], [h2], with the graph
    changing in between), two applications get the same signature if and only if they have the
    same formula and the same arguments, in order, up to skipped keys. *)
Theorem C05_signature_exact :
  forall (V : Type) (veq : V -> V -> bool) (known : string -> option V),
  (forall a b, veq a b = true <-> a = b) ->
  forall h1 h2 (g1 g2 : graph V) ks1 ks2 f1 f2,
  Forall (fun p => args_ok (snd p)) h1 -> Forall (fun p => args_ok (snd p)) h2 ->
  args_ok ks1 -> args_ok ks2 -> part_ok f1 -> part_ok f2 ->
  (fst (signature veq known g1 (table_after veq known h1) ks1 f1) =
   fst (signature veq known g2 (table_after veq known (h1 ++ (g1, ks1) :: h2)) ks2 f2)
   <-> f1 = f2 /\ map (argument known g1) (filter visible ks1) = map (argument known g2) (filter visible ks2)).
Proof.
  intros V veq known Hv h1 h2 g1 g2 ks1 ks2 f1 f2 F1 F2 A1 A2 P1 P2.
  assert (E : forall (g : graph V) k, argument known g k = arg_of known g k).
  { intros g k. unfold argument, arg_of, key_value. destruct (known k); auto. }
  rewrite (map_ext _ _ (E g1)), (map_ext _ _ (E g2)). apply signature_exact; auto.
Qed.
Print Assumptions C05_signature_exact.
Example C05_example :
  let g := build (V := nat) ["x"; "y"] ["a"] [("k", 7); ("m", 7); ("n", 8)] [] in
  let sg h ks := fst (signature Nat.eqb (fun _ => None) g (table_after Nat.eqb (fun _ => None) h) ks "add") in
  sg [] ["x"; "k"] = "x-0-add" /\ sg [(g, ["x"; "k"]); (g, ["n"; "y"])] ["x"; "m"] = "x-0-add" /\
  sg [(g, ["x"; "k"])] ["x"; "n"] = "x-1-add".
Proof. vm_compute. repeat split. Qed.

(** The value comparison really used is sound on values of the same kind at every position ... *)
Theorem C05_value_comparison_sound :
  forall a b, same_kind a b -> sig_eq a b = true -> a = b.
Proof. exact sig_eq_sound. Qed.
Print Assumptions C05_value_comparison_sound.
(** ... but not in general. Finding: elements of tuples are compared by value only, and tensors
    without their dtype, so constants of different types are identified. *)
Theorem C05_value_comparison_refuted :
  sig_eq (VTuple [VInt 1; VInt 2]) (VTuple [VFloat scale; VFloat (2 * scale)]) = true /\
  sig_eq (VTuple [VInt 1]) (VTuple [VBool true]) = true /\
  sig_eq (VTensor "int32" [1] [scale]) (VTensor "float32" [1] [scale]) = true.
Proof. vm_compute. repeat split. Qed.
Example C05_value_comparison_example :
  sig_eq (VTuple [VInt 1; VStr "a"]) (VTuple [VInt 1; VStr "a"]) = true /\
  sig_eq (VInt 1) (VFloat scale) = false /\ sig_eq (VList [VInt 1]) (VTuple [VInt 1]) = false.
Proof. vm_compute. repeat split. Qed.

(** ** C11 Fresh keys *)
Lemma next_key_loop_some fuel : forall i prefix keys j,
  next_key_loop fuel i prefix keys = Some j ->
  i <= j /\ ~ In (suffixed prefix j) keys /\ (forall m, i <= m < j -> In (suffixed prefix m) keys).
Proof.
  induction fuel as [|f IH]; simpl; intros i prefix keys j E; [discriminate|].
  destruct (mem_spec (suffixed prefix i) keys) as [I|N].
  - apply IH in E. destruct E as (L & N & A). repeat split; auto; try lia.
    intros m Hm. destruct (Nat.eq_dec m i); [subst; auto|apply A; lia].
  - inversion E; subst. repeat split; auto. intros; lia.
Qed.
Lemma next_key_loop_none fuel : forall i prefix keys,
  next_key_loop fuel i prefix keys = None -> forall m, i <= m < i + fuel -> In (suffixed prefix m) keys.
Proof.
  induction fuel as [|f IH]; simpl; intros i prefix keys E m Hm; [lia|].
  destruct (mem_spec (suffixed prefix i) keys) as [I|N]; [|discriminate].
  destruct (Nat.eq_dec m i); [subst; auto|]. apply (IH (S i)); auto. lia.
Qed.

(** For every prefix and every graph the generated key is [prefix_i] for the least [i] that is not
    used, it is not a key of the graph, and it is recorded so that the next call differs. *)
Theorem C11_fresh_key :
  forall (V : Type) prefix (g : graph V),
  exists i g', get_next_unique_key prefix g = Ok ((prefix ++ "_" ++ nat_to_string i)%string, g') /\
    ~ In (prefix ++ "_" ++ nat_to_string i)%string (allk g) /\
    (forall j, j < i -> In (prefix ++ "_" ++ nat_to_string j)%string (allk g)) /\
    (forall k, In k (allk g') <-> In k (allk g) \/ k = (prefix ++ "_" ++ nat_to_string i)%string).
Proof.
  intros V prefix g. unfold get_next_unique_key.
  destruct (next_key_loop (S (length (allk g))) 0 prefix (allk g)) as [i|] eqn:E.
  - apply next_key_loop_some in E. destruct E as (_ & N & A). exists i. eexists. split; [reflexivity|].
    split; [exact N|]. split; [intros j Hj; apply A; lia|].
    intros k. simpl. rewrite In_sadd. unfold suffixed. tauto.
  - exfalso. pose proof (next_key_loop_none _ _ _ _ E) as H.
    assert (L : length (map (suffixed prefix) (seq 0 (S (length (allk g))))) <= length (allk g)).
    { apply NoDup_incl_length.
      - apply FinFun.Injective_map_NoDup; [|apply seq_NoDup]. intros a b Hab.
        apply suffixed_inj in Hab. tauto.
      - intros k Ik. apply in_map_iff in Ik. destruct Ik as (m & <- & Im). apply in_seq in Im. apply H. lia. }
    rewrite map_length, seq_length in L. lia.
Qed.
Print Assumptions C11_fresh_key.
Example C11_example :
  let g := set_allk ["cast_0"; "cast_2"; "cast_1"; "cast"] (init_graph (V := nat) [] [] []) in
  match get_next_unique_key "cast" g with Ok (k, g') => k = "cast_3" /\ In "cast_3" (allk g') | Err _ => False end.
Proof. vm_compute. split; auto 10. Qed.
