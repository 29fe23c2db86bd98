(** * C08: gradients of a compiled model on the manual-gradient backend. *)
From Coq Require Import String Ascii List Arith Lia Bool Permutation.
From Verif Require Import PyBase PyStrings Grad_Model Grad_Proofs.
Import ListNotations.
Open Scope string_scope.
Open Scope list_scope.
Open Scope nat_scope.

(** ** Specification
    The model is a graph of nodes.  A node is an operator, or a container (list, tuple, dict of
    tensors) made of the keys of its members.  A node computes one key from argument keys; its pullbacks
    turn the gradient of its output into the gradient of each argument.  The chain rule says that
    the gradient of a key is what the caller supplied for the outputs that show it plus
    what each node reading it pulls back, one summand per argument position. *)
Section Spec.
  Context {G : Type}.
  Variable gzero gone : G.
  Variable gadd : G -> G -> G.
  Variable vjp : string -> list string -> G -> nat -> G.
  Variable reduce_sem : string -> nat -> G -> G.
  Variable flat : G -> G.
  Variable item : G -> nat -> G.
  Variable reserved : string -> bool.
  Variable gm : gmodel.
  Variable keys outputs params : list string.
  Variable scalar_out : bool.
  Variable seeds : option (dict string nat).
  Variable h : nat -> G.
  Variable n : nat.

  Definition total (l : list G) : G := fold_right gadd gzero l.
  Definition positions {A} (l : list A) : list (nat * A) := combine (seq 0 (length l)) l.

  Record node := mknode { n_out : string; n_args : list string; n_pull : nat -> G -> G }.
  Definition op_node (t : string) : node :=
    mknode t (g_call gm t) (fun i a =>
      let v := vjp (g_fn gm t) (g_call gm t ++ [(t ++ "_cache")%string]) a i in
      let arg := nth i (g_call gm t) "" in
      if g_bcast gm arg t then reduce_sem arg i v else v).
  Definition container_node (ms : string * list string) : node :=
    let (m, subs) := ms in
    mknode m subs (fun j a =>
      if g_tensor gm m then match subs with [_] => a | _ => item a j end else item (flat a) j).
  Definition nodes : list node :=
    map op_node (filter (fun t => g_has gm t && negb (dmem t (g_multi gm))) (g_order gm)) ++
    map container_node (filter (fun ms => g_has gm (fst ms)) (g_multi gm)).

  (** The gradient the caller supplies for output [k]: the given one; by default one for the final
      cost, and one for a single scalar output if none is given. *)
  Definition supplied (k : string) : option G :=
    match seeds with
    | None =>
        if mem FinalCost outputs then if eqb k FinalCost then Some gone else None
        else match outputs with
             | [o] => if scalar_out && eqb k o then Some gone else None
             | _ => None
             end
    | Some s =>
        match dget k s with
        | Some l => Some (h l)
        | None => if mem FinalCost outputs && eqb k FinalCost then Some gone else None
        end
    end.
  Definition user (k : string) : G := match supplied k with Some v => v | None => gzero end.
  (** The key whose value output [o] shows; [r] is the entry of [output_dict]. *)
  Definition shown (o r : string) : string := if dmem o (g_multi gm) then o else r.
  Definition seeded (k : string) : G :=
    total (flat_map (fun or => if mem (fst or) (g_cot gm) && eqb (shown (fst or) (snd or)) k
                               then [user (fst or)] else []) (g_outd gm)).
  Definition incoming (adj : string -> G) (k : string) : G :=
    total (flat_map (fun nd => flat_map (fun ia => if eqb (snd ia) k then [n_pull nd (fst ia) (adj (n_out nd))] else [])
                                        (positions (n_args nd))) nodes).
  Definition chain_rule (adj : string -> G) (k : string) : Prop := adj k = gadd (seeded k) (incoming adj k).

  (** An output shown under another key; that key is only a name. *)
  Definition renamed (k : string) : Prop :=
    exists r, In (k, r) (g_outd gm) /\ In k (g_cot gm) /\ k <> r /\ dmem k (g_multi gm) = false.

  Record setting : Prop := {
    s_outd : dwf (g_outd gm);
    s_multi : dwf (g_multi gm);
    (* no key is a Python keyword or the name of a primitive *)
    s_names : forall t, In t (g_order gm) -> reserved t = false;
    s_out_names : forall o r, In (o, r) (g_outd gm) -> In o (g_cot gm) -> reserved o = false /\ reserved r = false;
    (* no key contains "cache" *)
    s_cache : forall t, In t (g_order gm) -> g_has gm (t ++ "_cache")%string = false /\
                forall k, In k (g_call gm t) -> contains "cache" k = false;
    s_fn : forall t, In t (g_order gm) -> g_has gm t = true -> dmem t (g_multi gm) = false ->
             g_known gm (g_fn gm t) = true /\ g_disposable gm t = false;
    s_keys : forall t, In t (g_order gm) -> g_has gm t = true -> dmem t (g_multi gm) = false -> In t keys;
    s_args : forall t k, In t (g_order gm) -> In k (g_call gm t) -> g_has gm k = true ->
             dmem k (g_multi gm) = false -> In k keys /\ g_tensor gm k = true;
    s_subs : forall m subs s, In (m, subs) (g_multi gm) -> In s subs -> g_has gm s = true ->
             In s keys /\ dmem s (g_multi gm) = false;
    (* operators come after what they read *)
    s_topo : forall a t b, g_order gm = a ++ t :: b -> forall k, In k (g_call gm t) ->
             ~ In k (t :: b) /\ forall subs s, In (k, subs) (g_multi gm) -> In s subs -> ~ In s (t :: b);
    s_cot : forall o, In o (g_cot gm) -> In o (dkeys (g_outd gm)) /\ g_has gm o = true /\ (supplied o <> None \/ In o keys);
    s_alias : forall o r, In (o, r) (g_outd gm) -> In o (g_cot gm) -> dmem o (g_multi gm) = false -> o <> r ->
             In r keys /\ g_has gm r = true /\ dmem r (g_multi gm) = false;
    (* no output is shown under the name of another output shown elsewhere; containers do not contain it *)
    s_move : forall o r, In (o, r) (g_outd gm) -> In o (g_cot gm) -> dmem o (g_multi gm) = true \/ o <> r ->
             (forall o' r', In (o', r') (g_outd gm) -> In o' (g_cot gm) -> o' <> r' ->
                 dmem o' (g_multi gm) = false -> r' <> o) /\
             (forall m subs, In (m, subs) (g_multi gm) -> ~ In o subs);
    (* the caller supplies gradients for differentiable outputs only, each in an array of its own *)
    s_given : forall k, supplied k <> None -> In k (g_cot gm);
    s_seeds : forall s, seeds = Some s -> dwf s /\ NoDup (map snd s) /\ forall k l, In (k, l) s -> l < n;
    s_default : seeds = None -> In FinalCost outputs \/ exists o, outputs = [o];
    s_params : forall k, In k params -> In k keys /\ g_has gm k = true /\ dmem k (g_multi gm) = false /\ ~ renamed k
  }.

  (** ** Proofs *)
  Hypothesis Gassoc : forall a b c, gadd a (gadd b c) = gadd (gadd a b) c.
  Hypothesis Gcomm : forall a b, gadd a b = gadd b a.
  Hypothesis Gid : forall a, gadd gzero a = a.
  Notation "a +g b" := (gadd a b) (at level 50, left associativity).
  Hypothesis flat_add : forall a b, flat (a +g b) = flat a +g flat b.
  Hypothesis flat_zero : flat gzero = gzero.
  Hypothesis item_add : forall a b i, item (a +g b) i = item a i +g item b i.
  Hypothesis item_zero : forall i, item gzero i = gzero.

  Let gsum := gsum gzero gadd.
  Let ksum := ksum gzero gadd.

  Lemma Gidr a : a +g gzero = a.
  Proof. rewrite Gcomm. apply Gid. Qed.
  Lemma total_gsum l : total l = gsum l.
  Proof. induction l; simpl; auto. Qed.
  Lemma total_flat {A} (f : A -> list G) l : total (flat_map f l) = gsum (map (fun x => total (f x)) l).
  Proof.
    rewrite total_gsum. induction l; simpl; auto. unfold gsum in *. rewrite gsum_app, IHl by auto.
    f_equal; auto.
  Qed.
  Lemma dget_multi m subs : setting -> In (m, subs) (g_multi gm) <-> dget m (g_multi gm) = Some subs.
  Proof. intros S. split; [apply In_dget, (s_multi S)|apply dget_In]. Qed.

  Definition has_array (k : string) : Prop := (In k keys /\ g_has gm k = true) \/ supplied k <> None.

  Lemma grad_inputs_plain t : setting -> In t (g_order gm) -> grad_inputs gm t = g_call gm t ++ [(t ++ "_cache")%string].
  Proof.
    intros S I. unfold grad_inputs. f_equal. destruct (s_cache S t I) as (_ & C). clear -C.
    induction (g_call gm t) as [|k l IH]; simpl; auto. rewrite C; simpl; auto. f_equal. apply IH.
    intros; apply C; right; auto.
  Qed.

  Lemma setting_ok : setting -> grad_ok reserved gm has_array.
  Proof.
    intros S.
    assert (InArgs : forall t k, In t (g_order gm) -> In k (grad_inputs gm t) -> g_has gm k = true -> In k (g_call gm t)).
    { intros t k It Ik Hk. rewrite grad_inputs_plain in Ik; auto. apply in_app_iff in Ik. destruct Ik as [Ik|[<-|[]]]; auto.
      destruct (s_cache S t It) as (C & _). congruence. }
    split.
    - apply (s_names S).
    - apply (s_out_names S).
    - apply (s_fn S).
    - intros t I H M. left. split; auto. apply (s_keys S); auto.
    - intros t k It Ik Hk M. destruct (s_args S t k) as (A & B); auto. split; auto. left; auto.
    - intros m subs s D I Hs. apply (dget_multi m subs S) in D. destruct (s_subs S m subs s) as (A & B); auto.
      split; auto. left; auto.
    - intros a t b E k Ik Hk. assert (It : In t (g_order gm)) by (rewrite E; apply in_app_iff; right; left; auto).
      destruct (s_topo S a t b E k) as (N1 & N2); auto. split; auto. intros subs s D. apply N2. apply dget_In; auto.
    - intros o r I C. split.
      + destruct (s_cot S o C) as (_ & Ho & [D|D]); [right|left]; auto.
      + intros M N. destruct (s_alias S o r I C M N) as (A & B & D). split; auto. left; auto.
    - intros o r I C M. destruct (s_move S o r I C M) as (N1 & N2). split; auto.
      intros m subs D. apply (N2 m). apply dget_In; auto.
  Qed.

  Notation raw := (raw vjp reduce_sem gm).
  Notation parts := (parts flat item gm).

  Lemma ksum_if k (c : G) x : ksum k (if eqb x k then [(x, c)] else []) = total (if eqb x k then [c] else []).
  Proof. unfold eqb, ksum. destruct (eq_dec x k) as [->|]; simpl; auto. destruct (eq_dec k k); congruence. Qed.

  Lemma enum_app {A} (l : list A) x : enum (l ++ [x]) = enum l ++ [(length l, x)].
  Proof.
    unfold enum. rewrite app_length, seq_app. simpl.
    assert (X : forall (a : list nat) (b : list A) u v, length a = length b -> combine (a ++ [u]) (b ++ [v]) = combine a b ++ [(u, v)]).
    { induction a as [|y a IH]; intros [|z b] u v L; simpl in *; try discriminate; auto. f_equal. apply IH. lia. }
    apply X. apply seq_length.
  Qed.
  Lemma enum_lt {A} (l : list A) i x : In (i, x) (enum l) -> i < length l.
  Proof. intros I. apply in_combine_l, in_seq in I. lia. Qed.

  Lemma ksum_raw t a k : setting -> In t (g_order gm) -> g_has gm t && negb (dmem t (g_multi gm)) = true ->
    g_has gm k = true ->
    ksum k (raw t a) = total (flat_map (fun ia => if eqb (snd ia) k then [n_pull (op_node t) (fst ia) a] else [])
                                        (positions (n_args (op_node t)))).
  Proof.
    intros S It Act Hk. apply andb_true_iff in Act. destruct Act as (Ht & Mt). apply negb_true_iff in Mt.
    unfold Grad_Proofs.raw. rewrite Ht, Mt. simpl. unfold pull. rewrite grad_inputs_plain; auto.
    destruct (s_cache S t It) as (Hc & _).
    rewrite enum_app, flat_map_app. unfold ksum. rewrite ksum_app; auto. simpl. rewrite Hc. simpl.
    rewrite Gidr; auto. rewrite total_flat, ksum_flat_map; auto. unfold gsum. f_equal.
    apply map_ext_in. intros (i & x) I. simpl. apply enum_lt in I.
    rewrite app_nth1; auto. unfold eqb. destruct (g_has gm x) eqn:Hx; simpl.
    - destruct (eq_dec x k); simpl; auto.
    - destruct (eq_dec x k); auto. congruence.
  Qed.

  Lemma ksum_parts m subs a k : dget m (g_multi gm) = Some subs -> g_has gm k = true ->
    ksum k (parts m a) = total (flat_map (fun ia => if eqb (snd ia) k then [n_pull (container_node (m, subs)) (fst ia) a] else [])
                                          (positions (n_args (container_node (m, subs))))).
  Proof.
    intros D Hk. unfold Grad_Proofs.parts. rewrite D. simpl. unfold ksum. rewrite total_flat, ksum_flat_map; auto.
    unfold gsum. f_equal. apply map_ext. intros (i & x). simpl. unfold part. rewrite D. unfold eqb.
    destruct (g_has gm x) eqn:Hx; simpl.
    - destruct (eq_dec x k); simpl; auto. f_equal. destruct subs as [|s [|s2 r]]; destruct (g_tensor gm m); auto.
    - destruct (eq_dec x k); auto. congruence.
  Qed.

  Lemma gsum_rev {A} (f : A -> G) l : gsum (map f (rev l)) = gsum (map f l).
  Proof.
    unfold gsum. induction l as [|x l IH]; simpl; auto. rewrite map_app, gsum_app; auto. simpl. rewrite Gidr; auto.
    rewrite IH. apply Gcomm.
  Qed.
  Lemma gsum_filter {A} (f : A -> G) p l : (forall x, In x l -> p x = false -> f x = gzero) ->
    gsum (map f l) = gsum (map f (filter p l)).
  Proof.
    intros Z. unfold gsum. induction l as [|x l IH]; simpl; auto. destruct (p x) eqn:E; simpl.
    - f_equal. apply IH. intros; apply Z; simpl; auto.
    - rewrite Z, Gid; simpl; auto. apply IH. intros; apply Z; simpl; auto.
  Qed.

  (** The gradients returned by [evaluate_gradients] obey the chain rule. *)
  Theorem C08_chain_rule : setting ->
    exists grads h' adj,
      evaluate_gradients gzero gone gadd vjp reduce_sem flat item reserved gm keys outputs params scalar_out seeds h n
        = Ok (grads, h') /\
      grads = map (fun k => (k, adj k)) params /\
      forall k, g_has gm k = true -> dmem k (g_multi gm) = true \/ In k keys -> ~ renamed k -> chain_rule adj k.
  Proof.
    intros S.
    destruct (start gzero gone vjp reduce_sem reserved gm keys outputs scalar_out seeds h n (s_seeds S) (s_default S)) as (st & E1 & I & Bd & V).
    change (given gone outputs scalar_out seeds h) with supplied in *.
    pose proof (setting_ok S) as K.
    destruct (program_added gzero gadd Gassoc Gcomm Gid vjp reduce_sem flat item reserved gm has_array st K I) as (prog & st' & E2 & E3 & A).
    { intros k. apply Bd. }
    set (R := flat_map (moved gzero gm st) (g_outd gm) ++ flat_map (fun t => raw t (val gzero st' t)) (rev (g_order gm))) in *.
    set (adj := fun k => if dmem k (g_multi gm) then ksum k R else val gzero st' k).
    assert (Ps : mapM (fun k => let* v := geval vjp reduce_sem flat st' (GKey k) in Ok (k, v)) params = Ok (map (fun k => (k, adj k)) params)).
    { pose proof (s_params S) as P. clear -P Bd A. induction params as [|p l IH]; auto.
      destruct (P p (or_introl eq_refl)) as (Ip & Hp & Mp & _).
      assert (Bp : bound st' p) by (unfold bound; destruct A as (-> & _); apply Bd; auto).
      cbn [mapM map]. rewrite (geval_key gzero); auto. cbn [bind]. rewrite IH; [|intros; apply P; right; auto]. cbn [bind].
      unfold adj at 2. rewrite Mp. auto. }
    eexists. exists (heap st'), adj. split.
    { unfold evaluate_gradients. rewrite E1. cbn [bind]. rewrite E2. cbn [bind]. rewrite E3. cbn [bind].
      rewrite Ps. cbn [bind]. reflexivity. }
    split; auto.
    intros k Hk Dk Nr. unfold chain_rule.
    assert (part_add : forall m j a b, dmem m (g_multi gm) = true -> part flat item gm m j (a +g b) = part flat item gm m j a +g part flat item gm m j b).
    { intros m j a b Dm. unfold part. destruct (dget m (g_multi gm)) as [[|s [|s2 r]]|]; destruct (g_tensor gm m); rewrite ?flat_add, ?item_add; auto. }
    assert (part_zero : forall m j, dmem m (g_multi gm) = true -> part flat item gm m j gzero = gzero).
    { intros m j Dm. unfold part. destruct (dget m (g_multi gm)) as [[|s [|s2 r]]|]; destruct (g_tensor gm m); rewrite ?flat_zero, ?item_zero; auto. }
    (* what the operators contribute *)
    set (ops := gsum (map (fun nd => total (flat_map (fun ia => if eqb (snd ia) k then [n_pull nd (fst ia) (adj (n_out nd))] else []) (positions (n_args nd))))
                   (map op_node (filter (fun t => g_has gm t && negb (dmem t (g_multi gm))) (g_order gm))))).
    set (cts := gsum (map (fun nd => total (flat_map (fun ia => if eqb (snd ia) k then [n_pull nd (fst ia) (adj (n_out nd))] else []) (positions (n_args nd))))
                   (map container_node (filter (fun ms => g_has gm (fst ms)) (g_multi gm))))).
    assert (Hin : incoming adj k = ops +g cts).
    { unfold incoming. rewrite total_flat. unfold nodes, ops, cts, gsum. rewrite map_app, gsum_app; auto. }
    assert (Hops : ksum k (flat_map (fun t => raw t (val gzero st' t)) (rev (g_order gm))) = ops).
    { unfold ksum. rewrite ksum_flat_map; auto. fold ksum. unfold ops. rewrite map_map.
      fold gsum. rewrite gsum_rev. rewrite (gsum_filter _ (fun t => g_has gm t && negb (dmem t (g_multi gm)))).
      - unfold gsum. f_equal. apply map_ext_in. intros t It. apply filter_In in It. destruct It as (It & Act).
        rewrite (ksum_raw t _ k S It Act Hk). simpl n_out. unfold adj.
        apply andb_true_iff in Act. destruct Act as (_ & Mt). apply negb_true_iff in Mt. rewrite Mt. auto.
      - intros t _ Act. rewrite raw_inactive; auto. apply andb_false_iff in Act. destruct Act as [Act|Act]; auto.
        apply negb_false_iff in Act. auto. }
    (* what the containers contribute *)
    assert (Hcts : gsum (map (fun m => ksum k (parts m (ksum m R))) (dkeys (g_multi gm))) = cts).
    { unfold cts. rewrite map_map. unfold dkeys. rewrite map_map.
      rewrite (gsum_filter _ (fun ms => g_has gm (fst ms))).
      - unfold gsum. f_equal. apply map_ext_in. intros (m & subs) Im. apply filter_In in Im. destruct Im as (Im & _).
        apply (dget_multi m subs S) in Im. simpl fst. rewrite (ksum_parts m subs _ k Im Hk).
        change (n_out (container_node (m, subs))) with m. unfold adj. unfold dmem. rewrite Im. auto.
      - intros (m & subs) Im Hm. simpl in Hm. simpl fst. replace (ksum m R) with gzero; [apply ksum_parts_zero; auto|].
        symmetry. apply ksum_out. unfold R. rewrite map_app, in_app_iff. intros [F|F].
        + apply in_map_iff in F. destruct F as ((x & c) & Ex & F). simpl in Ex. subst x. apply in_flat_map in F.
          destruct F as ((o & r) & Ior & F). unfold moved in F. destruct (mem o (g_cot gm)) eqn:Co; [|destruct F].
          apply mem_In in Co. destruct (dmem o (g_multi gm)) eqn:Do.
          * destruct F as [F|[]]. injection F as -> _. destruct (s_cot S m Co) as (_ & X & _). congruence.
          * unfold eqb in F. destruct (eq_dec o r); [destruct F|]. destruct F as [F|[]]. injection F as -> _.
            destruct (s_alias S o m Ior Co Do n0) as (_ & X & _). congruence.
        + apply in_map_iff in F. destruct F as ((x & c) & Ex & F). simpl in Ex. subst x. apply in_flat_map in F.
          destruct F as (t & _ & F). assert (X : In m (map fst (raw t (val gzero st' t)))) by (apply in_map_iff; exists (m, c); auto).
          apply raw_In in X. destruct X; congruence. }
    (* what the caller supplies *)
    assert (Hseed : (if dmem k (g_multi gm) then gzero else val gzero st k) +g ksum k (flat_map (moved gzero gm st) (g_outd gm)) = seeded k).
    { unfold seeded. rewrite total_flat. unfold ksum. rewrite ksum_flat_map; auto. fold ksum. fold gsum.
      assert (Vu : forall x, val gzero st x = user x) by (intros x; rewrite V; reflexivity).
      destruct (dmem k (g_multi gm)) eqn:Mk.
      - rewrite Gid. unfold gsum. f_equal. apply map_ext_in. intros (o & r) Ior. simpl fst; simpl snd. unfold moved, shown.
        destruct (mem o (g_cot gm)) eqn:Co; auto. simpl. apply mem_In in Co. destruct (dmem o (g_multi gm)) eqn:Do.
        + rewrite Vu. unfold eqb, ksum. simpl. destruct (eq_dec o k); auto.
        + unfold eqb, ksum. destruct (eq_dec o r) as [->|N]; simpl.
          * destruct (eq_dec r k); auto. congruence.
          * destruct (eq_dec r k) as [->|]; auto. destruct (s_alias S o k Ior Co Do N) as (_ & _ & X). congruence.
      - assert (Split : gsum (map (fun or => total (if mem (fst or) (g_cot gm) && eqb (shown (fst or) (snd or)) k then [user (fst or)] else [])) (g_outd gm)) =
          gsum (map (fun or => (if eqb (fst or) k && mem k (g_cot gm) then user k else gzero) +g ksum k (moved gzero gm st or)) (g_outd gm))).
        { unfold gsum. f_equal. apply map_ext_in. intros (o & r) Ior. simpl fst; simpl snd. unfold moved, shown.
          destruct (eqb o k) eqn:Ok'.
          - unfold eqb in Ok'. destruct (eq_dec o k) as [->|]; [|discriminate]. simpl.
            destruct (mem k (g_cot gm)) eqn:Co; simpl; [|rewrite Gid; auto].
            rewrite Mk. unfold eqb, ksum. destruct (eq_dec k r) as [<-|N]; simpl.
            + destruct (eq_dec k k); [|congruence]. simpl. auto.
            + destruct Nr. exists r. apply mem_In in Co. auto.
          - simpl. rewrite Gid. destruct (mem o (g_cot gm)) eqn:Co; auto. simpl. unfold eqb in *.
            destruct (eq_dec o k) as [|N]; [discriminate|]. unfold ksum. destruct (dmem o (g_multi gm)) eqn:Do; simpl.
            + destruct (eq_dec o k); [congruence|]. auto.
            + destruct (eq_dec o r) as [->|]; simpl.
              * destruct (eq_dec r k); [congruence|auto].
              * destruct (eq_dec r k); simpl; auto. rewrite Vu. auto. }
        rewrite Split. unfold gsum. rewrite gsum_add; auto. f_equal. rewrite Vu.
        destruct (mem k (g_cot gm)) eqn:Ck.
        + apply mem_In in Ck. destruct (s_cot S k Ck) as (Ik & _). apply in_map_iff in Ik. destruct Ik as ((k' & r) & Ex & Ik). simpl in Ex. subst k'.
          transitivity ((fun x => if eqb x k && true then user k else gzero) k).
          * unfold eqb. destruct (eq_dec k k); [auto|congruence].
          * rewrite <- (map_map fst (fun x => if eqb x k && true then user k else gzero)). symmetry.
            apply (gsum_single gzero gadd Gassoc Gcomm Gid k (fun x => if eqb x k && true then user k else gzero)).
            -- apply (s_outd S).
            -- apply in_map_iff. exists (k, r). auto.
            -- intros y N. unfold eqb. destruct (eq_dec y k); [congruence|auto].
        + rewrite gsum_zero; auto.
          * unfold user. destruct (supplied k) eqn:Sk; auto. apply mem_not_In in Ck. destruct Ck. apply (s_given S). congruence.
          * intros x _. rewrite andb_false_r. auto. }
    unfold adj at 1. destruct (dmem k (g_multi gm)) eqn:Mk.
    - unfold R, ksum. rewrite ksum_app; auto. fold ksum. rewrite Hops, Hin, <- Hseed, Gid. rewrite Gassoc.
      (* containers are not members of containers *)
      replace cts with gzero; [rewrite Gidr; auto|]. symmetry. rewrite <- Hcts. unfold gsum. apply gsum_zero; auto.
      intros m Im. apply ksum_out. intros F. apply (parts_In flat item gm m) in F. apply dmem_In in Im.
      destruct F as [(F & ->)|(subs & F & J & _)]; [unfold dmem in Im; rewrite F in Im; discriminate|].
      apply (dget_multi m subs S) in F. destruct (s_subs S m subs k F J Hk) as (_ & X). congruence.
    - destruct A as (_ & A). destruct Dk as [Dk|Dk]; [congruence|]. rewrite A by (apply Bd; auto).
      rewrite (regroup gzero gadd Gassoc Gcomm Gid flat item gm part_add part_zero k R (s_multi S)).
      rewrite Mk. change (Grad_Proofs.gsum gzero gadd) with gsum. change (Grad_Proofs.ksum gzero gadd) with ksum. rewrite Hcts.
      unfold R at 1, ksum at 1. rewrite ksum_app; auto. fold ksum. rewrite Hops, Hin, <- Hseed. rewrite !Gassoc. auto.
  Qed.

  (** ** The gradients are the vector-Jacobian product
      Let [d] be tangents that flow forward through the graph: the tangent of a node is, paired with any
      gradient [a], the sum over its arguments of the argument's tangent paired with the pullback of
      [a].  (That is: the pullbacks are the transposed Jacobians, and [d] obeys the Jacobians.)
      Then the supplied output gradients paired with the tangents of the outputs equal the returned
      gradients paired with the tangents of the parameters. *)
  Context {D Rr : Type}.
  Variable rzero : Rr.
  Variable radd : Rr -> Rr -> Rr.
  Hypothesis Rassoc : forall a b c, radd a (radd b c) = radd (radd a b) c.
  Hypothesis Rcomm : forall a b, radd a b = radd b a.
  Hypothesis Rid : forall a, radd rzero a = a.
  Hypothesis Rcancel : forall a b c, radd a c = radd b c -> a = b.
  Variable ip : G -> D -> Rr.
  Hypothesis ip_add : forall a b v, ip (a +g b) v = radd (ip a v) (ip b v).
  Hypothesis ip_zero : forall v, ip gzero v = rzero.

  Definition rtotal (l : list Rr) : Rr := fold_right radd rzero l.
  Definition tangent (d : string -> D) : Prop :=
    forall nd, In nd nodes -> forall a,
      ip a (d (n_out nd)) =
      rtotal (map (fun ia => ip (n_pull nd (fst ia) a) (d (snd ia)))
                  (filter (fun ia => g_has gm (snd ia)) (positions (n_args nd)))).
  (** Every differentiable key is a parameter or computed by exactly one node. *)
  Record closed : Prop := {
    c_nodup : NoDup (params ++ map n_out nodes);
    c_args : forall nd k, In nd nodes -> In k (n_args nd) -> g_has gm k = true -> In k (params ++ map n_out nodes);
    c_outs : forall o r, In (o, r) (g_outd gm) -> In o (g_cot gm) -> In (shown o r) (params ++ map n_out nodes);
    c_nodes : forall nd, In nd nodes -> ~ renamed (n_out nd) }.

  Notation rsum := (Grad_Proofs.gsum rzero radd).
  Lemma rtotal_rsum l : rtotal l = rsum l.
  Proof. induction l; simpl; auto. Qed.
  Lemma Rid_r a : radd a rzero = a.
  Proof. rewrite Rcomm. apply Rid. Qed.
  Lemma pair_keys (d : string -> D) K : NoDup K -> forall C, (forall x c, In (x, c) C -> In x K) ->
    rsum (map (fun k => ip (ksum k C) (d k)) K) = rsum (map (fun xc => ip (snd xc) (d (fst xc))) C).
  Proof.
    intros N. induction C as [|[x c] C IH]; intros H.
    - simpl. apply gsum_zero; auto.
    - simpl. rewrite <- IH by (intros; apply (H x0 c0); right; auto).
      transitivity (rsum (map (fun k => radd (if eq_dec x k then ip c (d k) else rzero) (ip (ksum k C) (d k))) K)).
      + f_equal. apply map_ext. intros k. unfold ksum. simpl. destruct (eq_dec x k); auto.
      + rewrite gsum_add; auto. f_equal.
        rewrite (gsum_single rzero radd Rassoc Rcomm Rid x (fun k => if eq_dec x k then ip c (d k) else rzero)); auto.
        * destruct (eq_dec x x); congruence.
        * apply (H x c); left; auto.
        * intros y Ne. destruct (eq_dec x y); congruence.
  Qed.
  Lemma total_ksum {A} (key : A -> string) (c : A -> G) (p : A -> bool) k l : (forall x, In x l -> key x = k -> p x = true) ->
    total (flat_map (fun x => if eqb (key x) k then [c x] else []) l) =
    ksum k (map (fun x => (key x, c x)) (filter p l)).
  Proof.
    intros H. induction l as [|x l IH]; simpl; auto. unfold ksum, eqb in *. destruct (eq_dec (key x) k) as [E|Ne]; simpl.
    - rewrite H; simpl; auto. destruct (eq_dec (key x) k); [|congruence]. rewrite IH; auto. intros; apply H; simpl; auto.
    - rewrite IH by (intros; apply H; simpl; auto). destruct (p x); simpl; auto. destruct (eq_dec (key x) k); congruence.
  Qed.
  Lemma rsum_flat {A B} (f : B -> Rr) (g : A -> list B) l : rsum (map f (flat_map g l)) = rsum (map (fun x => rsum (map f (g x))) l).
  Proof. induction l; simpl; auto. rewrite map_app, gsum_app, IHl; auto. Qed.

  Theorem C08_gradients_are_vjp (d : string -> D) : setting -> closed -> tangent d ->
    exists grads h',
      evaluate_gradients gzero gone gadd vjp reduce_sem flat item reserved gm keys outputs params scalar_out seeds h n
        = Ok (grads, h') /\
      map fst grads = params /\
      rtotal (map (fun or => ip (user (fst or)) (d (shown (fst or) (snd or))))
                  (filter (fun or => mem (fst or) (g_cot gm)) (g_outd gm))) =
      rtotal (map (fun kv => ip (snd kv) (d (fst kv))) grads).
  Proof.
    intros S C T. destruct (C08_chain_rule S) as (grads & h' & adj & E & Eg & Ch).
    exists grads, h'. split; auto. split; [rewrite Eg, map_map, map_id; auto|].
    set (K := params ++ map n_out nodes).
    assert (HK : forall k, In k K -> g_has gm k = true /\ (dmem k (g_multi gm) = true \/ In k keys) /\ ~ renamed k).
    { intros k Ik. apply in_app_iff in Ik. destruct Ik as [Ik|Ik].
      - destruct (s_params S k Ik) as (a & b & c & e). auto.
      - apply in_map_iff in Ik. destruct Ik as (nd & <- & Ind). pose proof (c_nodes C nd Ind) as Nr.
        unfold nodes in Ind. apply in_app_iff in Ind.
        destruct Ind as [Ind|Ind]; apply in_map_iff in Ind; destruct Ind as (y & <- & Iy); apply filter_In in Iy; destruct Iy as (Iy & Py).
        + apply andb_true_iff in Py. destruct Py as (Hy & My). apply negb_true_iff in My. simpl in *.
          split; auto. split; auto. right. apply (s_keys S); auto.
        + destruct y as (m & subs). simpl in *. split; auto. split; auto. left. apply (dget_multi m subs S) in Iy. unfold dmem. rewrite Iy. auto. }
    set (Cs := map (fun or => (shown (fst or) (snd or), user (fst or))) (filter (fun or => mem (fst or) (g_cot gm)) (g_outd gm))).
    set (Ci := flat_map (fun nd => map (fun ia => (snd ia, n_pull nd (fst ia) (adj (n_out nd))))
                     (filter (fun ia => g_has gm (snd ia)) (positions (n_args nd)))) nodes).
    assert (Ks : forall k, seeded k = ksum k Cs).
    { intros k. unfold seeded, Cs. clear. induction (g_outd gm) as [|[o r] l IH]; simpl; auto.
      destruct (mem o (g_cot gm)); simpl; auto. unfold eqb, ksum in *. simpl. destruct (eq_dec (shown o r) k); simpl; auto. rewrite IH; auto. }
    assert (Ki : forall k, g_has gm k = true -> incoming adj k = ksum k Ci).
    { intros k Hk. unfold incoming, Ci. rewrite total_flat. unfold ksum. rewrite ksum_flat_map; auto. fold ksum.
      unfold gsum. f_equal. apply map_ext. intros nd.
      rewrite (total_ksum (fun ia : nat * string => snd ia) (fun ia => n_pull nd (fst ia) (adj (n_out nd))) (fun ia => g_has gm (snd ia)) k); auto.
      intros x _ <-. auto. }
    assert (Main : rsum (map (fun k => ip (adj k) (d k)) K) =
      radd (rsum (map (fun xc => ip (snd xc) (d (fst xc))) Cs)) (rsum (map (fun xc => ip (snd xc) (d (fst xc))) Ci))).
    { rewrite <- (pair_keys d K (c_nodup C) Cs), <- (pair_keys d K (c_nodup C) Ci).
      - rewrite <- gsum_add; auto. f_equal. apply map_ext_in. intros k Ik. destruct (HK k Ik) as (a & b & c).
        rewrite <- ip_add, <- Ks, <- Ki; auto. f_equal. apply (Ch k a b c).
      - intros x c Ix. unfold Ci in Ix. apply in_flat_map in Ix. destruct Ix as (nd & Ind & Ix).
        apply in_map_iff in Ix. destruct Ix as ((i & y) & Ey & Iy). injection Ey as -> _. apply filter_In in Iy.
        destruct Iy as (Iy & Hy). apply (c_args C nd x); auto. eapply enum_In. exact Iy.
      - intros x c Ix. unfold Cs in Ix. apply in_map_iff in Ix. destruct Ix as ((o & r) & Eo & Io). apply filter_In in Io.
        destruct Io as (Io & Mo). injection Eo as <- _. apply mem_In in Mo. apply (c_outs C); auto. }
    assert (Nd : rsum (map (fun xc => ip (snd xc) (d (fst xc))) Ci) = rsum (map (fun k => ip (adj k) (d k)) (map n_out nodes))).
    { unfold Ci. rewrite rsum_flat, map_map. f_equal. apply map_ext_in. intros nd Ind. rewrite (T nd Ind (adj (n_out nd))).
      rewrite (map_map _ (fun xc : string * G => ip (snd xc) (d (fst xc)))). symmetry. apply rtotal_rsum. }
    rewrite Nd in Main. unfold K in Main. rewrite map_app, gsum_app in Main; auto.
    apply Rcancel in Main. rewrite Eg, map_map. cbn [fst snd].
    rewrite (rtotal_rsum (map (fun x => ip (adj x) (d x)) params)), Main. unfold Cs. rewrite map_map. apply rtotal_rsum.
  Qed.

  (** Without a final cost and with several outputs the caller must give output gradients. *)
  Theorem C08_output_gradients_required : seeds = None -> ~ In FinalCost outputs -> length outputs <> 1 ->
    evaluate_gradients gzero gone gadd vjp reduce_sem flat item reserved gm keys outputs params scalar_out seeds h n
    = Err ValueError.
  Proof.
    intros -> N L. unfold evaluate_gradients, seed. apply mem_not_In in N. rewrite N.
    destruct outputs as [|o [|o2 r]]; auto. simpl in L. lia.
  Qed.
End Spec.

(** ** Example: [y = x * w], [z = x + y], [l = \[x, y\]], [s = x + 7 y] computed from [l];
    outputs [out] (the key [z]) and [s], at [x = 3], [w = 5].
    Gradients are pairs of integers, a single number being [(v, 0)]. *)
From Coq Require Import ZArith.
Module Ex.
  Open Scope Z_scope.
  Definition G := (Z * Z)%type.
  Definition g0 : G := (0, 0).
  Definition g1 : G := (1, 0).
  Definition ga (a b : G) : G := (fst a + fst b, snd a + snd b).
  Definition scale (c : Z) (a : G) : G := (c * fst a, c * snd a).
  Definition xvjp (fn : string) (args : list string) (g : G) (i : nat) : G :=
    if eqb fn "mul_grad" then match i with O => scale 5 g | _ => scale 3 g end
    else if eqb fn "pick_grad" then (fst g, 7 * fst g)
    else g.
  Definition xitem (g : G) (i : nat) : G := match i with O => (fst g, 0) | S O => (snd g, 0) | _ => (0, 0) end.
  Definition xreduce (_ : string) (_ : nat) (g : G) : G := g.
  Definition xflat (g : G) : G := g.
  Definition xreserved (k : string) : bool := mem k ["lambda"; "relu"].

  Definition call (t : string) : list string :=
    if eqb t "y" then ["x"; "w"] else if eqb t "z" then ["x"; "y"] else
    if eqb t "l" then ["x"; "y"] else if eqb t "s" then ["l"] else [].
  Definition fn (t : string) : string :=
    if eqb t "y" then "mul_grad" else if eqb t "s" then "pick_grad" else "add_grad".
  Definition has (k : string) : bool := mem k ["x"; "w"; "y"; "z"; "l"; "s"; "out"].
  Definition gm : gmodel :=
    mkgm ["y"; "z"; "l"; "s"] [("out", "z"); ("s", "s")] ["out"; "s"] [("l", ["x"; "y"])]
         has (fun k => negb (eqb k "l")) call fn (fun _ => true) (fun _ => false) (fun _ _ => false).
  Definition keys := ["x"; "w"; "y"; "z"; "l"; "s"].
  Definition params := ["x"; "w"].
  Definition seeds : option (dict string nat) := Some [("out", 0%nat); ("s", 1%nat)].
  Definition h (l : nat) : G := match l with O => (1, 0) | _ => (2, 0) end.
  Definition run m ks os ps sc sd hh n := evaluate_gradients g0 g1 ga xvjp xreduce xflat xitem xreserved m ks os ps sc sd hh n.
  Definition grads_of (r : res (dict string G * (nat -> G))) : res (dict string G) := let* x := r in Ok (fst x).

  Example result : grads_of (run gm keys ["out"; "s"] params false seeds h 2) = Ok [("x", (78, 0)); ("w", (45, 0))].
  Proof. vm_compute. reflexivity. Qed.

  Ltac cases := repeat match goal with
    | H : In _ (_ :: _) |- _ => simpl in H
    | H : _ \/ _ |- _ => destruct H
    | H : False |- _ => destruct H
    | H : (_, _) = (_, _) |- _ => injection H as; subst
    | H : ?a = _ |- _ => is_var a; subst
    | H : _ = ?a |- _ => is_var a; subst
    end.
  Lemma split_cases {A} (l a b : list A) t : l = a ++ t :: b ->
    forall P : list A -> A -> list A -> Prop,
    (fix go (pre rest : list A) : Prop := match rest with [] => True | x :: r => P (rev pre) x r /\ go (x :: pre) r end) [] l ->
    P a t b.
  Proof.
    intros E P.
    assert (X : forall a pre l, l = a ++ t :: b ->
      (fix go (pre rest : list A) : Prop := match rest with [] => True | x :: r => P (rev pre) x r /\ go (x :: pre) r end) pre l ->
      P (rev pre ++ a) t b).
    { clear. induction a as [|y a IH]; intros pre l E H; subst; simpl in H; destruct H as (H & H').
      - rewrite app_nil_r. auto.
      - apply (IH (y :: pre)) in H'; auto. simpl in H'. rewrite <- app_assoc in H'. auto. }
    intros H. apply (X a [] l E H).
  Qed.

  Example meets_setting : setting g1 xreserved gm keys ["out"; "s"] params false seeds h 2.
  Proof.
    split.
    - repeat constructor; simpl; intuition discriminate.
    - repeat constructor; simpl; intuition discriminate.
    - intros t I. simpl in I. cases; reflexivity.
    - intros o r I J. simpl in I. cases; split; reflexivity.
    - intros t I. split; [simpl in I; cases; reflexivity|]. intros k J. simpl in I. cases; vm_compute in J; cases; reflexivity.
    - intros t I. simpl in I. cases; split; reflexivity.
    - intros t I. simpl in I. cases; simpl; auto 10; discriminate.
    - intros t k I J. simpl in I. cases; vm_compute in J; cases; intros _; vm_compute; intros; try discriminate; split; auto 10.
    - intros m subs s I J. simpl in I. cases; simpl; auto 10.
    - intros a t b E. apply (split_cases _ _ _ _ E (fun a t b => forall k, In k (g_call gm t) ->
             ~ In k (t :: b) /\ forall subs s, In (k, subs) (g_multi gm) -> In s subs -> ~ In s (t :: b))).
      simpl. repeat split; vm_compute in H; cases; simpl; try (intuition discriminate);
        intros; cases; simpl; intuition discriminate.
    - intros o I. simpl in I. cases; simpl; (split; [auto 10|split; [reflexivity|left; discriminate]]).
    - intros o r I J. simpl in I. cases; simpl; intros _ N; [|congruence]. split; [auto 10|split; reflexivity].
    - intros o r I J. simpl in I. cases; (split; [intros o' r' I'; simpl in I'; cases; intros _ N _ E; congruence|
        intros m subs I'; simpl in I'; cases; simpl; intuition discriminate]).
    - intros k. unfold supplied. simpl. destruct (eq_dec k "out") as [->|]; [auto|]. destruct (eq_dec k "s") as [->|]; auto.
    - intros s E. injection E as <-. split; [|split]; [repeat constructor; simpl; intuition discriminate..|].
      intros k l I. simpl in I. cases; lia.
    - discriminate.
    - intros k I. simpl in I. cases; (split; [simpl; auto 10|split; [reflexivity|split; [reflexivity|]]]);
        intros (r & J & _); simpl in J; cases; discriminate.
  Qed.

  (** Tangents for a step of 1 in [x] and 2 in [w]; both sides of the theorem are 168. *)
  Definition d (k : string) : G :=
    if eqb k "x" then (1, 0) else if eqb k "w" then (2, 0) else if eqb k "y" then (11, 0) else
    if eqb k "z" then (12, 0) else if eqb k "l" then (1, 11) else if eqb k "s" then (78, 0) else (0, 0).
  Definition dot (a v : G) : Z := fst a * fst v + snd a * snd v.
  Example meets_closed : closed xvjp xreduce xflat xitem gm params.
  Proof.
    split.
    - vm_compute. repeat constructor; simpl; intuition discriminate.
    - intros nd k I J _. vm_compute in I. cases; vm_compute in J; cases; vm_compute; auto 10.
    - intros o r I J. simpl in I. cases; vm_compute; auto 10.
    - intros nd I (r & J & _ & N & M). vm_compute in I. cases; simpl in J; cases; simpl in *; try discriminate; try congruence.
  Qed.
  Example meets_tangent : tangent xvjp xreduce xflat xitem gm 0 Z.add dot d.
  Proof.
    intros nd I a.
    change (nodes xvjp xreduce xflat xitem gm) with
      [op_node xvjp xreduce gm "y"; op_node xvjp xreduce gm "z"; op_node xvjp xreduce gm "s";
       container_node xflat xitem gm ("l", ["x"; "y"])] in I.
    destruct a as (a1 & a2). destruct I as [<-|[<-|[<-|[<-|[]]]]].
    - cbn -[Z.mul Z.add]. unfold dot. cbn -[Z.mul Z.add]. ring.
    - cbn -[Z.mul Z.add]. unfold dot. cbn -[Z.mul Z.add]. ring.
    - cbn -[Z.mul Z.add]. unfold dot. cbn -[Z.mul Z.add]. ring.
    - cbn -[Z.mul Z.add]. unfold dot. cbn -[Z.mul Z.add]. ring.
  Qed.
  Example both_sides : exists grads h', run gm keys ["out"; "s"] params false seeds h 2 = Ok (grads, h') /\
    168 = rtotal 0 Z.add (map (fun kv => dot (snd kv) (d (fst kv))) grads).
  Proof.
    destruct (C08_gradients_are_vjp g0 g1 ga xvjp xreduce xflat xitem xreserved gm keys ["out"; "s"] params false seeds h 2)
      with (rzero := 0) (radd := Z.add) (ip := dot) (d := d) as (grads & h' & E & _ & V).
    - intros (a & a') (b & b') (c & c'). unfold ga. simpl. f_equal; lia.
    - intros (a & a') (b & b'). unfold ga. simpl. f_equal; lia.
    - intros (a & a'). reflexivity.
    - reflexivity.
    - reflexivity.
    - intros (a & a') (b & b') [|[|i]]; reflexivity.
    - intros [|[|i]]; reflexivity.
    - intros; lia.
    - intros; lia.
    - intros; lia.
    - intros; lia.
    - intros (a & a') (b & b') (v & v'). unfold dot, ga. simpl. lia.
    - reflexivity.
    - apply meets_setting.
    - apply meets_closed.
    - apply meets_tangent.
    - exists grads, h'. split; auto.
  Qed.

  (** ** Findings *)
  (** An argument whose name contains "cache" is dropped from the call of the gradient function: its
      gradient is zero (the chain rule says 3), and the gradient function is called with one argument
      less. *)
  Definition gm_cache : gmodel :=
    mkgm ["y"] [("y", "y")] ["y"] [] (fun k => mem k ["x"; "kv_cache"; "y"]) (fun _ => true)
         (fun _ => ["x"; "kv_cache"]) (fun _ => "mul_grad") (fun _ => true) (fun _ => false) (fun _ _ => false).
  Theorem C08_key_named_cache_refuted :
    generate_gradients xreserved gm_cache = Ok [GAug "x" (GVjp "mul_grad" ["x"; "y_cache"] "y" 0 false)] /\
    grads_of (run gm_cache ["x"; "kv_cache"; "y"] ["y"] ["x"; "kv_cache"] false (Some [("y", 0%nat)]) h 1)
      = Ok [("x", (5, 0)); ("kv_cache", (0, 0))].
  Proof. split; vm_compute; reflexivity. Qed.

  (** The caller passes the same array as gradient of two outputs [p] and [q] ([s = p + p'] reads [p]):
      accumulating into [p] changes the gradient of [q].  The gradients should be 2 and 1. *)
  Definition gm_shared : gmodel :=
    mkgm ["p"; "q"; "s"] [("p", "p"); ("q", "q"); ("s", "s")] ["p"; "q"; "s"] []
         (fun k => mem k ["a"; "b"; "p"; "q"; "s"]) (fun _ => true)
         (fun t => if eqb t "p" then ["a"] else if eqb t "q" then ["b"] else ["p"])
         (fun _ => "copy_grad") (fun _ => true) (fun _ => false) (fun _ _ => false).
  Theorem C08_shared_output_gradient_refuted :
    let ks := ["a"; "b"; "p"; "q"; "s"] in
    let hs := fun _ : nat => (1, 0) in
    grads_of (run gm_shared ks ["p"; "q"; "s"] ["a"; "b"] false (Some [("p", 0%nat); ("q", 1%nat); ("s", 2%nat)]) hs 3)
      = Ok [("a", (2, 0)); ("b", (1, 0))] /\
    grads_of (run gm_shared ks ["p"; "q"; "s"] ["a"; "b"] false (Some [("p", 0%nat); ("q", 0%nat); ("s", 1%nat)]) hs 2)
      = Ok [("a", (2, 0)); ("b", (2, 0))].
  Proof. split; vm_compute; reflexivity. Qed.
  (** Even with arrays of their own, the caller's arrays are changed. *)
  Theorem C08_caller_arrays_unchanged_refuted :
    exists grads h', run gm_shared ["a"; "b"; "p"; "q"; "s"] ["p"; "q"; "s"] ["a"; "b"] false
       (Some [("p", 0%nat); ("q", 1%nat); ("s", 2%nat)]) (fun _ => (1, 0)) 3 = Ok (grads, h') /\ h' 0%nat = (2, 0).
  Proof. eexists. eexists. split; reflexivity. Qed.

  (** A single output that is no scalar, without output gradients: zeros are returned silently. *)
  Theorem C08_missing_output_gradient_refuted :
    grads_of (run gm_cache ["x"; "kv_cache"; "y"] ["y"] ["x"] false None h 0) = Ok [("x", (0, 0))].
  Proof. vm_compute. reflexivity. Qed.

  (** An output named like a primitive: KeyError. *)
  Definition gm_reserved : gmodel :=
    mkgm ["y"] [("relu", "y")] ["relu"] [] (fun k => mem k ["x"; "y"; "relu"]) (fun _ => true)
         (fun _ => ["x"]) (fun _ => "copy_grad") (fun _ => true) (fun _ => false) (fun _ _ => false).
  Theorem C08_output_named_like_primitive_refuted :
    grads_of (run gm_reserved ["x"; "y"] ["relu"] ["x"] false (Some [("relu", 0%nat)]) h 1) = Err KeyError.
  Proof. vm_compute. reflexivity. Qed.

  (** A differentiable key that is no tensor and is read by two operators: the gradient of the last one
      replaces the other one's.  Should be [5 + 1 = 6]. *)
  Definition gm_scalar : gmodel :=
    mkgm ["y"; "z"] [("y", "y"); ("z", "z")] ["y"; "z"] [] (fun k => mem k ["x"; "w"; "y"; "z"]) (fun k => negb (eqb k "x"))
         (fun t => if eqb t "y" then ["x"; "w"] else ["x"]) (fun t => if eqb t "y" then "mul_grad" else "copy_grad")
         (fun _ => true) (fun _ => false) (fun _ _ => false).
  Theorem C08_scalar_read_twice_refuted :
    grads_of (run gm_scalar ["x"; "w"; "y"; "z"] ["y"; "z"] ["x"] false (Some [("y", 0%nat); ("z", 1%nat)]) (fun _ => (1, 0)) 2)
      = Ok [("x", (5, 0))].
  Proof. vm_compute. reflexivity. Qed.

  (** With a final cost, a gradient supplied for another output counts if that output is shown under its
      own key ([y]) and is ignored if not ([out], shown under [y]). *)
  Definition gm_cost (name : string) : gmodel :=
    mkgm ["y"; "final_cost"] [(name, "y"); ("final_cost", "final_cost")] ["final_cost"] []
         (fun k => mem k ["x"; "y"; "final_cost"; "out"]) (fun _ => true)
         (fun t => if eqb t "y" then ["x"] else ["y"]) (fun _ => "copy_grad") (fun _ => true) (fun _ => false) (fun _ _ => false).
  Theorem C08_extra_output_gradient_refuted :
    let r name := grads_of (run (gm_cost name) ["x"; "y"; "final_cost"] [name; "final_cost"] ["x"] true
                              (Some [(name, 0%nat)]) (fun _ => (10, 0)) 1) in
    r "y" = Ok [("x", (11, 0))] /\ r "out" = Ok [("x", (1, 0))].
  Proof. split; vm_compute; reflexivity. Qed.
End Ex.

Print Assumptions C08_chain_rule.
Print Assumptions C08_gradients_are_vjp.
Print Assumptions C08_output_gradients_required.
