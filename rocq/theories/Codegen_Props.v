(** * Properties C02 and C03: the generated evaluate function. *)
From Coq Require Import String Ascii List Arith Lia Bool.
From Verif Require Import PyBase PyStrings FlatGraph_Model Topo_Proofs Graph_Proofs Build_Proofs
  Prune_Proofs Pipeline_Proofs FlatGraph_Props Codegen_Model Codegen_Proofs.
Import ListNotations.
Open Scope string_scope.
Open Scope list_scope.
Open Scope nat_scope.

(** ** C02 *)

(** For every compiled model that satisfies the structural conditions [shape_ok] (operators listed
    once, after the producers of their arguments, ...) and naming conditions [names_ok], the
    generator succeeds and running the generated statements under Python's scoping rules returns,
    for every output key, the value obtained by applying the operators one after the other.  In
    particular no statement reads a variable that was never assigned or was already deleted. *)
Theorem C02_generated_code_computes_the_model :
  forall (V : Type) (fn_sem : string -> list V -> V) (reserved : string -> bool) (pm : @pmodel V)
         (params data cache : dict string V) (e0 : string -> V),
  names_ok reserved pm -> shape_ok pm ->
  (forall k, used_key pm k -> external pm k -> input_of pm params data cache k = Some (e0 k)) ->
  exists prog, generate_evaluate reserved pm = Ok prog /\
    run_program fn_sem prog params data cache =
    Ok (map (fun o => (o, meaning fn_sem pm e0 (p_order pm)
                            (match dget o (outd (pg pm)) with Some r => r | None => o end)))
            (p_outputs pm)).
Proof. intros. apply generated_code_correct; auto. Qed.
Print Assumptions C02_generated_code_computes_the_model.

(** The whole path: declared operators, duplicate pruning, emission order, code generation,
    execution.  [outer] says which dictionary holds an input. *)
Record good_keys (reserved : string -> bool) (ops : list op_decl) : Prop := {
  gk_outs : forall d, In d ops -> reserved (d_out d) = false;
  gk_under : forall k, In k (seen_keys ops) -> reserved k = true ->
     reserved ("_" ++ k)%string = false /\ ~ In ("_" ++ k)%string (seen_keys ops);
  gk_dicts : forall k, In k (seen_keys ops) -> ~ In (mangle reserved k) dict_names;
  gk_fns : forall d, In d ops -> reserved (op_formula (d_op d)) = true /\
     ~ In (op_formula (d_op d)) dict_names }.

Definition compiled {V} (g : graph V) (order rt inputs outputs : list string) (scalar : string -> bool) : pmodel :=
  mkpm g order rt [] inputs outputs scalar (src g)
       (fun k => match opof g k with Some o => op_formula o | None => "" end).

Theorem C02_pipeline :
  forall (V : Type) (fsem : string -> list V -> V) (veq : V -> V -> bool) (known : string -> option V)
         (reserved scalar : string -> bool) (inputs outputs rt : list string) (statics : dict string V)
         ops (e0 : string -> V) (params data cache : dict string V),
  decls_ok outputs ops -> clean_names false ops -> good_keys reserved ops ->
  (forall a b, veq a b = true -> a = b) ->
  let value := run_ops fsem false ops e0 in
  (forall k v, known k = Some v -> value k = v) ->
  (forall k v, dget k statics = Some v -> value k = v) ->
  (* run-time data are not computed by operators *)
  (forall k, In k rt -> ~ In k (map d_out ops)) ->
  (* the caller supplies every input in the dictionary it belongs to *)
  (forall k v, In k (seen_keys ops) -> dget k statics = Some v -> dget k cache = Some v) ->
  (forall k, In k (seen_keys ops) -> ~ In k (map d_out ops) -> dget k statics = None ->
     dget k (if mem k rt then data else params) = Some (e0 k)) ->
  exists g order,
    traverse_graph veq known (map d_op ops) (build inputs outputs statics ops) = Ok g /\
    topological_order false g = Ok order /\
    let pm := compiled g order rt inputs outputs scalar in
    (* no input that is an aliased output is reserved, none is an inlined scalar *)
    ((forall o r, dget o (outd g) = Some r -> reserved r = false /\
        (is_static_scalar pm o = true \/ is_static_scalar pm r = true -> o = r)) ->
     exists prog, generate_evaluate reserved pm = Ok prog /\
       run_program fsem prog params data cache = Ok (map (fun o => (o, value o)) outputs)).
Proof.
  intros V fsem veq known reserved scalar inputs outputs rt st ops e0 params data cache
    H CN GK Vs value Hk Hd Hrt Hcache Hin.
  pose proof CN as CN'. destruct CN' as [C1 C2 C3 C4 C5 C6].
  assert (Sol : forall d, In d ops -> value (d_out d) = op_value fsem false value (d_op d) (d_ins d)).
  { intros d I. apply run_ops_solves; auto. apply H. }
  destruct (traverse_preserves fsem veq known false value Vs Hk ops outputs st H C1 C2 C3 C4 C5 C6 Sol
              Hd inputs) as (g & E & P).
  pose proof (p_wf _ _ _ _ _ _ _ _ P) as W. pose proof (p_ac _ _ _ _ _ _ _ _ P) as A.
  destruct (topo_order_total false g W) as (order & Eo). exists g, order. split; auto. split; auto.
  destruct (topo_order_spec false g _ order W A Eo) as (ND & All & Snd).
  destruct (C04_pruning_preserves_outputs V fsem veq known false inputs outputs st ops e0 H CN Vs Hk Hd)
    as (g' & order' & E' & Eo' & C04).
  rewrite E in E'. injection E' as <-. rewrite Eo in Eo'. injection Eo' as <-.
  intros pm Alias.
  assert (Seen : forall k, In k (dkeys (conns g)) -> In k (seen_keys ops))
    by apply (p_keys _ _ _ _ _ _ _ _ P).
  assert (Ord : forall t, In t order -> exists o, opof g t = Some o /\ dmem t st = false /\ op_buffer o = false /\
                  In t (dkeys (conns g))).
  { intros t It. apply All in It. destruct (opof g t) as [o|] eqn:Ho; [|congruence]. exists o. split; auto.
    destruct (p_done _ _ _ _ _ _ _ _ P t o Ho) as [F|[F1 F2]].
    - rewrite skipn_all in F. destruct F.
    - split; auto. split; auto. apply In_keys_get. unfold opof in Ho.
      destruct (dget t (conns g)); [eauto|discriminate]. }
  assert (OpDecl : forall t o, opof g t = Some o -> In t (map d_out ops) /\ In o (map d_op ops)).
  { intros t o Ho. split.
    - destruct (in_dec string_dec t (map d_out ops)); auto. exfalso.
      destruct (src g t) as [|s l] eqn:Es.
      + apply (w_op g W) in Es. congruence.
      + assert (Is : In s (src g t)) by (rewrite Es; left; auto). apply A in Is.
        unfold rank in Is. rewrite (rank_from_zero _ ops t) in Is by auto. lia.
    - apply (p_ops _ _ _ _ _ _ _ _ P t o Ho). }
  assert (Used : forall k, used_key pm k -> In k (dkeys (conns g))).
  { intros k [I|[(t & It & Ik)|I]].
    - destruct (Ord k I) as (o & _ & _ & _ & Ic); auto.
    - simpl in Ik. apply In_keys_get. eapply wf_src_present; eauto.
    - simpl in I. apply in_map_iff in I. destruct I as (p & <- & Ip).
      apply In_keys_get. apply (p_out_in _ _ _ _ _ _ _ _ P p Ip). }
  assert (St : statics g = st) by apply (p_statics _ _ _ _ _ _ _ _ P).
  assert (NM : names_ok reserved pm).
  { constructor.
    - simpl. intros k Ik. destruct (Ord k Ik) as (o & Ho & _). apply OpDecl in Ho. destruct Ho as (Ho & _).
      apply in_map_iff in Ho. destruct Ho as (d & <- & Id). apply (gk_outs _ _ GK); auto.
    - simpl. intros r Ir. apply in_map_iff in Ir. destruct Ir as ((o & r') & <- & Ip). simpl.
      destruct (Alias o r'); auto. apply In_dget; auto. eapply outd_wf; eauto.
    - intros k U R. apply Used, Seen in U. destruct (gk_under _ _ GK k U R) as (R1 & R2). split; auto.
    - intros k U. apply (gk_dicts _ _ GK). auto.
    - simpl. intros t It. destruct (Ord t It) as (o & Ho & _). rewrite Ho.
      destruct (OpDecl t o Ho) as (_ & Io). apply in_map_iff in Io. destruct Io as (d & <- & Id).
      destruct (gk_fns _ _ GK d Id) as (F1 & F2). split; auto.
      intros k U F. rewrite F in F1. unfold mangle in F1. destruct (reserved k) eqn:R; [|congruence].
      apply Used, Seen in U. destruct (gk_under _ _ GK k U R). congruence. }
  assert (SH : shape_ok pm).
  { constructor; simpl.
    - auto.
    - intros t It. destruct (Ord t It) as (o & Ho & Hs & _ & Ic). rewrite St. split; auto.
      destruct (OpDecl t o Ho) as (It' & _).
      split. { intros F. apply (Hrt t F It'). }
      split. { intros F. destruct (p_unused _ _ _ _ _ _ _ _ P t F). tauto. }
      split; auto. apply (w_tgts g W); auto. congruence.
    - auto.
    - tauto.
    - intros t k _ I. apply (wf_mirror_In g k t W); auto.
    - intros a t b Eq k Ik. destruct (opof g k) as [o|] eqn:Ok.
      + left. apply (Snd a t b Eq); [|congruence]. exact Ik.
      + right. right; right. simpl. intros F. apply (w_tgts g W) in F; [congruence|].
        apply In_keys_get. eapply wf_src_present; eauto.
    - intros r Ir. destruct (opof g r) as [o|] eqn:Or.
      + left. apply All. congruence.
      + right. right; right. simpl. intros F. apply (w_tgts g W) in F; [congruence|].
        apply Used. right; right; auto.
    - intros o Io. destruct (C04 o Io) as (r & Er & _). exists r. split; auto.
      intros X. apply (Alias o r); auto. }
  set (start := fun k => match dget k st with Some v => v | None => e0 k end).
  assert (Sup : forall k, used_key pm k -> external pm k -> input_of pm params data cache k = Some (start k)).
  { intros k U X. pose proof (Seen k (Used k U)) as Sk. unfold input_of, start. simpl. rewrite St.
    unfold dmem. destruct (dget k st) as [v|] eqn:Dk.
    - rewrite (Hcache k v); auto. destruct (scalar k); auto.
    - assert (No : ~ In k (map d_out ops)).
      { destruct (opof g k) as [o|] eqn:Ok.
        - destruct X as [X|[X|X]].
          + simpl in X. rewrite St in X. unfold dmem in X. rewrite Dk in X. discriminate.
          + apply Hrt; auto.
          + exfalso. apply X. simpl. apply (w_tgts g W); [apply Used; auto|congruence].
        - destruct (p_roots _ _ _ _ _ _ _ _ P k (Used k U) Ok) as [|D]; auto.
          unfold dmem in D. rewrite Dk in D. discriminate. }
      specialize (Hin k Sk No Dk). destruct (mem k rt); auto. }
  destruct (C02_generated_code_computes_the_model V fsem reserved pm params data cache start NM SH Sup)
    as (prog & Ep & Er).
  exists prog. split; auto. rewrite Er. f_equal. simpl. apply map_ext_in. intros o Io. f_equal.
  destruct (C04 o Io) as (r & Eor & Ev). rewrite Eor. unfold value. rewrite <- Ev.
  fold start. unfold meaning, run_graph. simpl.
  assert (F : forall l e, (forall t, In t l -> In t order) ->
     fold_left (fun e t => upd e t (fsem (match opof g t with Some o => op_formula o | None => "" end)
                                       (map e (src g t)))) l e =
     fold_left (fun e k => match opof g k with
                           | Some o => upd e k (op_value fsem false e o (src g k))
                           | None => e end) l e).
  { induction l as [|t l IH]; simpl; intros e Hl; auto.
    destruct (Ord t (Hl t (or_introl eq_refl))) as (ot & Ho & _ & Hb & _). rewrite Ho.
    unfold op_value at 2. rewrite Hb. simpl. apply IH. intros x Hx; apply Hl; right; auto. }
  rewrite F; auto.
Qed.
Print Assumptions C02_pipeline.

(** Non-trivial instance: duplicates, a buffer, a static operator (values in [cache]), an input
    called "mul" (mangled), run-time data "y". *)
Definition ex_ops : list op_decl :=
  [(op_ 0 "add", "a", ["mul"; "y"]); (op_ 1 "add", "b", ["mul"; "y"]); (buf_ 2, "c", ["b"]);
   (op_ 3 "add", "s", ["k1"; "k2"]); (op_ 4 "mul", "d", ["a"; "c"]); (op_ 5 "mul", "output", ["d"; "s"])].
Definition ex_reserved (k : string) : bool := mem k ["add"; "mul"; "sub"; "if"; "buffer"].
Definition ex_e0 (k : string) : nat :=
  if eqb k "mul" then 4 else if eqb k "y" then 6 else if eqb k "k1" then 2 else if eqb k "k2" then 3 else 0.
Example C02_example_hypotheses :
  decls_ok ["c"; "output"] ex_ops /\ good_keys ex_reserved ex_ops /\
  (forall k v, dget k dup_data = Some v -> run_ops nat_sem false ex_ops ex_e0 k = v) /\
  (forall k, In k ["y"] -> ~ In k (map d_out ex_ops)).
Proof.
  split; [|split; [|split]].
  - unfold decls_ok, ex_ops. cbn. split; [|split; [|split]].
    + repeat (split; [intuition discriminate|]). auto.
    + repeat constructor; simpl; intuition lia.
    + repeat constructor; simpl; intuition discriminate.
    + intros k [<-|[<-|[]]]; auto 10.
  - constructor.
    + intros d Hd. simpl in Hd. intuition (subst; reflexivity).
    + assert (F : forallb (fun k => negb (ex_reserved k) || (negb (ex_reserved ("_" ++ k)%string) &&
                   negb (mem ("_" ++ k)%string (seen_keys ex_ops)))) (seen_keys ex_ops) = true) by reflexivity.
      intros k Hk R. rewrite forallb_forall in F. specialize (F k Hk). rewrite R in F.
      apply andb_true_iff in F. destruct F as (F1 & F2).
      apply negb_true_iff in F1. apply negb_true_iff, mem_not_In in F2. auto.
    + assert (F : forallb (fun k => negb (mem (mangle ex_reserved k) dict_names)) (seen_keys ex_ops) = true)
        by reflexivity.
      intros k Hk. rewrite forallb_forall in F. specialize (F k Hk). apply negb_true_iff, mem_not_In in F. auto.
    + assert (F : forallb (fun d => ex_reserved (op_formula (d_op d)) &&
                   negb (mem (op_formula (d_op d)) dict_names)) ex_ops = true) by reflexivity.
      intros d Hd. rewrite forallb_forall in F. specialize (F d Hd). apply andb_true_iff in F.
      destruct F as (F1 & F2). apply negb_true_iff, mem_not_In in F2. auto.
  - intros k v E. apply dget_In in E. simpl in E.
    destruct E as [E|[E|[E|[]]]]; inversion E; subst; reflexivity.
  - intros k [<-|[]]. simpl. intuition discriminate.
Qed.
Definition ex_compiled : res (@pmodel nat) :=
  bind (traverse_graph Nat.eqb (fun _ => None) (map d_op ex_ops)
          (build ["mul"; "y"] ["c"; "output"] dup_data ex_ops)) (fun g =>
  bind (topological_order false g) (fun order =>
  Ok (compiled g order ["y"] ["mul"; "y"] ["c"; "output"] (fun _ => false)))).
Example C02_example :
  bind ex_compiled (fun pm => generate_evaluate ex_reserved pm) =
  Ok ([SLoad "_mul" "params" "mul"; SLoad "s" "cache" "s"; SLoad "y" "data" "y";
       SCall "a" "add" [EVar "_mul"; EVar "y"]; SCall "d" "mul" [EVar "a"; EVar "a"];
       SCall "output" "mul" [EVar "d"; EVar "s"]; SDel "d"],
      [("c", EVar "a"); ("output", EVar "output")]) /\
  bind (bind ex_compiled (fun pm => generate_evaluate ex_reserved pm))
       (fun p => run_program nat_sem p [("mul", 4)] [("y", 6)] [("k1", 2); ("k2", 3); ("s", 5)])
  = Ok [("c", 10); ("output", 500)] /\
  run_ops nat_sem false ex_ops ex_e0 "output" = 500.
Proof. vm_compute. repeat split. Qed.

(** Finding.  An output that is an alias (a buffer) of a static scalar input: the scalar is inlined
    in calls and therefore not loaded, yet the return statement names its variable. *)
Definition alias_scalar_ops : list op_decl :=
  [(op_ 0 "add", "a", ["x"; "k"]); (buf_ 1, "o", ["k"])].
Theorem C02_output_alias_of_static_scalar_refuted :
  let pm := bind (traverse_graph Nat.eqb (fun _ => None) (map d_op alias_scalar_ops)
              (build ["x"; "k"] ["a"; "o"] [("k", 3)] alias_scalar_ops)) (fun g =>
            bind (topological_order false g) (fun order =>
            Ok (compiled g order [] ["x"; "k"] ["a"; "o"] (eqb "k")))) in
  decls_ok ["a"; "o"] alias_scalar_ops /\
  bind (bind pm (fun pm => generate_evaluate ex_reserved pm))
       (fun p => run_program nat_sem p [("x", 1)] [] [("k", 3)]) = Err NameError.
Proof.
  split; [|vm_compute; reflexivity].
  unfold decls_ok, alias_scalar_ops. cbn. split; [|split; [|split]].
  - repeat (split; [intuition discriminate|]). auto.
  - repeat constructor; simpl; intuition lia.
  - repeat constructor; simpl; intuition discriminate.
  - intros k [<-|[<-|[]]]; auto 10.
Qed.

Definition run_ops_compiled (ops : list op_decl) (inputs outputs : list string) (params : dict string nat) :=
  bind (bind (traverse_graph Nat.eqb (fun _ => None) (map d_op ops) (build inputs outputs [] ops)) (fun g =>
        bind (topological_order false g) (fun order =>
        Ok (compiled g order [] inputs outputs (fun _ => false))))) (fun pm =>
  bind (generate_evaluate ex_reserved pm) (fun p => run_program nat_sem p params [] [])).

(** Finding.  A result key that is a primitive name ("add" names its own output): its mangled name
    "_add" counts as used, is not a target and is looked up among the parameters. *)
Theorem C02_reserved_output_key_refuted :
  run_ops_compiled [(op_ 0 "add", "add", ["x"; "y"]); (op_ 1 "mul", "z", ["add"; "x"])]
    ["x"; "y"] ["z"] [("x", 1); ("y", 2)] = Err KeyError.
Proof. vm_compute. reflexivity. Qed.

(** Finding.  A key called "params" (or "data", "cache") shadows the argument dictionary. *)
Theorem C02_key_named_params_refuted :
  run_ops_compiled [(op_ 0 "add", "z", ["params"; "x"])] ["params"; "x"] ["z"] [("params", 1); ("x", 2)]
  = Err TypeError.
Proof. vm_compute. reflexivity. Qed.

(** Finding.  A registered primitive (not in the backend's function dictionary, hence not reserved)
    whose name is also a key: the key makes the name local and the call fails. *)
Theorem C02_registered_primitive_shadowed_refuted :
  run_ops_compiled [(op_ 0 "my_adder", "z", ["my_adder"; "x"])] ["my_adder"; "x"] ["z"]
    [("my_adder", 1); ("x", 2)] = Err NameError.
Proof. vm_compute. reflexivity. Qed.

(** ** C03 *)

(** The variable that holds the value of a key: reads use [mangle k], writes [mangle (mangle k)].
    Distinct keys get distinct variables and reads and writes of a key agree, as soon as no key is
    the underscored form of a reserved key and no underscored reserved key is reserved itself. *)
Theorem C03_no_collision :
  forall (reserved : string -> bool) (keys : list string),
  (forall k, In k keys -> reserved k = true -> ~ In ("_" ++ k)%string keys /\ reserved ("_" ++ k)%string = false) ->
  forall k k', In k keys -> In k' keys ->
    (mangle reserved k = mangle reserved k' -> k = k') /\
    (mangle reserved (mangle reserved k) = mangle reserved k' -> k = k') /\
    mangle reserved (mangle reserved k) = mangle reserved k /\ reserved (mangle reserved k) = false.
Proof.
  intros reserved keys H k k' Ik Ik'.
  assert (Fix_ : mangle reserved (mangle reserved k) = mangle reserved k /\ reserved (mangle reserved k) = false).
  { unfold mangle. destruct (reserved k) eqn:R; rewrite ?R; auto. destruct (H k Ik R) as (_ & ->). auto. }
  assert (Inj : mangle reserved k = mangle reserved k' -> k = k').
  { unfold mangle. destruct (reserved k) eqn:R, (reserved k') eqn:R'; auto; intros E.
    - injection E; auto.
    - exfalso. apply (proj1 (H k Ik R)). rewrite E; auto.
    - exfalso. apply (proj1 (H k' Ik' R')). rewrite <- E; auto. }
  destruct Fix_ as (F1 & F2). rewrite F1. auto.
Qed.
Print Assumptions C03_no_collision.
Example C03_example_hypotheses :
  (forall k, In k ["add"; "if"; "x"; "_x"] -> ex_reserved k = true ->
     ~ In ("_" ++ k)%string ["add"; "if"; "x"; "_x"] /\ ex_reserved ("_" ++ k)%string = false) /\
  map (mangle ex_reserved) ["add"; "if"; "x"; "_x"] = ["_add"; "_if"; "x"; "_x"].
Proof.
  split; [|reflexivity]. intros k Hk R. simpl in Hk.
  intuition (subst; try discriminate R); try reflexivity;
    match goal with H : In _ _ |- _ => cbn in H; intuition discriminate end.
Qed.

(** At program level: in the generated function no variable is written twice, i.e. no value is
    overwritten by that of another key. *)
Definition writes {V} (s : @stmt V) : list string :=
  match s with SLoad x _ _ => [x] | SCall x _ _ => [x] | SDel _ => [] end.

Theorem C03_each_variable_written_once :
  forall (V : Type) (reserved : string -> bool) (pm : @pmodel V) body ret,
  names_ok reserved pm -> shape_ok pm ->
  generate_evaluate reserved pm = Ok (body, ret) -> NoDup (flat_map writes body).
Proof.
  intros V reserved pm body ret NM SH E. unfold generate_evaluate in E.
  set (det := sunion (sunion (dkeys (statics (pg pm))) (unused (pg pm))) (p_disc pm)) in *.
  set (used0 := sunion [] (dvals (outd (pg pm)))) in *.
  assert (G : let (l, u) := gen_body reserved pm det (p_order pm) [] [] used0 in
                (forall k, In k u -> used_key pm k)).
  { pose proof (gen_body_used reserved pm NM SH (p_order pm) [] [] used0 (fun t H => H)) as GU.
    fold det in GU.
    destruct (gen_body reserved pm det (p_order pm) [] [] used0). apply GU.
    intros k Hk. right; right. unfold used0 in Hk. apply In_sunion in Hk. simpl in Hk; tauto. }
  assert (Wr : forall rest done del used, NoDup used ->
     let (l, u) := gen_body reserved pm det rest done del used in
     flat_map writes l = map (fun t => mangle reserved (mangle reserved t)) rest /\ NoDup u).
  { induction rest as [|t rest IH]; intros done del used Nu; simpl; auto.
    assert (Dl : forall ks d, flat_map writes (fst (gen_dels reserved pm det (sadd t done) ks d)) = []).
    { induction ks as [|k ks IHk]; simpl; intros d; auto.
      destruct (check_deletable pm k d det (sadd t done)); auto.
      specialize (IHk (sadd k d)). destruct (gen_dels reserved pm det (sadd t done) ks (sadd k d)); auto. }
    specialize (Dl (get_source_keys t false (pg pm)) del).
    destruct (gen_dels reserved pm det (sadd t done) (get_source_keys t false (pg pm)) del) as (dels & del').
    simpl in Dl.
    specialize (IH (sadd t done) del' (sadd t (sunion used (sadd (mangle reserved t) (p_args pm t))))).
    destruct (gen_body reserved pm det rest (sadd t done) del'
                (sadd t (sunion used (sadd (mangle reserved t) (p_args pm t))))) as (l & u).
    destruct IH as (E1 & E2). { apply NoDup_sadd, NoDup_sunion; auto. }
    split; auto. simpl. rewrite flat_map_app, Dl, E1. reflexivity. }
  specialize (Wr (p_order pm) [] [] used0 (NoDup_sunion _ _ (NoDup_nil _))).
  destruct (gen_body reserved pm det (p_order pm) [] [] used0) as (b & u).
  destruct (mapM (gen_return pm) (p_outputs pm)) as [r|]; [|discriminate]. injection E as <- <-.
  destruct Wr as (E1 & Nu). rewrite flat_map_app, E1.
  clear E1. pose proof (Permutation.Permutation_NoDup (str_sort_perm u) Nu) as Ns.
  assert (Hs : forall k, In k (str_sort u) -> used_key pm k).
  { intros k Hk. apply G. apply (proj1 (In_str_sort _ _)) in Hk. auto. }
  assert (Lw : forall k, In k (str_sort u) -> flat_map writes (gen_load reserved pm k) = [] \/
     (flat_map writes (gen_load reserved pm k) = [mangle reserved k] /\ external pm k)).
  { intros k Hk. unfold gen_load, external.
    destruct (dmem k (statics (pg pm))) eqn:D1; [|destruct (mem_spec k (p_rt pm)); [|
      destruct (mem_spec k (tgts (pg pm))); simpl; auto]];
    (destruct (is_static_scalar pm k); simpl; auto; right; split; auto; f_equal;
     apply (mangle_fix reserved pm NM); auto). }
  assert (Nl : forall l, NoDup l -> (forall k, In k l -> In k (str_sort u)) ->
     NoDup (flat_map writes (flat_map (gen_load reserved pm) l)) /\
     forall x, In x (flat_map writes (flat_map (gen_load reserved pm) l)) ->
       exists k, In k l /\ external pm k /\ x = mangle reserved k).
  { induction l as [|k l IH]; simpl; intros N I.
    - split; [constructor|intros x []].
    - inversion N; subst. destruct IH as (N' & I'); auto.
      rewrite flat_map_app. destruct (Lw k) as [->|(-> & X)]; auto; simpl.
      + split; auto. intros x Hx. destruct (I' x Hx) as (k' & ? & ?). eauto.
      + split.
        * constructor; auto. intros F. destruct (I' _ F) as (k' & Ik' & _ & E').
          apply (mangle_inj reserved pm NM) in E'; auto. subst; tauto.
        * intros x [<-|Hx]; [eauto|]. destruct (I' x Hx) as (k' & ? & ?). eauto. }
  destruct (Nl (str_sort u) Ns (fun k H => H)) as (N1 & N2).
  assert (No : NoDup (map (fun t => mangle reserved (mangle reserved t)) (p_order pm))).
  { rewrite (map_ext_in _ (fun t => t)), map_id; [apply (s_nodup pm SH)|].
    intros t It. pose proof (n_order _ _ NM t It) as R. unfold mangle. rewrite R, R. auto. }
  apply NoDup_app_intro; auto.
  intros x Hx Hx'. destruct (N2 x Hx) as (k & Ik & X & ->). apply in_map_iff in Hx'.
  destruct Hx' as (t & Et & It). rewrite (mangle_fix reserved pm NM) in Et by (left; auto).
  apply (mangle_inj reserved pm NM) in Et; auto; [|left; auto]. subst.
  eapply (external_not_order pm SH); eauto.
Qed.
Print Assumptions C03_each_variable_written_once.

(** Finding.  With an input "add" (a primitive name) and an input "_add" one variable holds both:
    [sub(add, _add)] is computed as [sub(add, add)]. *)
Theorem C03_collision_refuted :
  run_ops_compiled [(op_ 0 "sub", "z", ["add"; "_add"])] ["add"; "_add"] ["z"] [("add", 5); ("_add", 2)]
  = Ok [("z", 0)] /\
  run_ops nat_sem false [(op_ 0 "sub", "z", ["add"; "_add"])]
    (fun k => if eqb k "add" then 5 else 2) "z" = 3.
Proof. vm_compute. split; reflexivity. Qed.
