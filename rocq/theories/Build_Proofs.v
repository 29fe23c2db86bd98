(** * The graph built from a list of flattened operators is well formed. *)
From Coq Require Import String Ascii List Arith Lia Bool Permutation.
From Verif Require Import PyBase PyStrings FlatGraph_Model Topo_Proofs Graph_Proofs.
Import ListNotations.
Open Scope string_scope.
Open Scope list_scope.
Open Scope nat_scope.

Definition d_op (d : op_decl) : operator := fst (fst d).
Definition d_out (d : op_decl) : string := snd (fst d).
Definition d_ins (d : op_decl) : list string := snd d.

(** What the flattened operator list must satisfy: every operator has an input, its result key is
    new (neither read nor produced before, nor read by the operator itself). *)
Fixpoint decls_from (seen : list string) (ops : list op_decl) : Prop :=
  match ops with
  | [] => True
  | d :: r => d_ins d <> [] /\ ~ In (d_out d) (d_ins d) /\ ~ In (d_out d) seen /\
              decls_from (d_out d :: d_ins d ++ seen) r
  end.
Definition decls_ok (outputs : list string) (ops : list op_decl) : Prop :=
  decls_from [] ops /\ NoDup (map (fun d => op_id (d_op d)) ops) /\
  NoDup outputs /\ (forall k, In k outputs -> In k (map d_out ops)).

Section B.
  Context {V : Type}.
  Notation graph := (graph V).

  Definition find_decl (k : string) (ops : list op_decl) : option op_decl :=
    List.find (fun d => eqb (d_out d) k) ops.
  Definition seen_keys (ops : list op_decl) : list string :=
    flat_map (fun d => d_out d :: d_ins d) ops.

  Lemma find_decl_app k a b :
    find_decl k (a ++ b) = match find_decl k a with Some d => Some d | None => find_decl k b end.
  Proof.
    unfold find_decl. induction a as [|d a IH]; simpl; auto. destruct (eqb (d_out d) k); auto.
  Qed.
  Lemma find_decl_one k d : find_decl k [d] = if eq_dec (d_out d) k then Some d else None.
  Proof. unfold find_decl, eqb; simpl. destruct (eq_dec (d_out d) k); auto. Qed.
  Lemma find_decl_None k a : find_decl k a = None <-> ~ In k (map d_out a).
  Proof.
    unfold find_decl. induction a as [|d a IH]; simpl; [tauto|].
    unfold eqb. destruct (eq_dec (d_out d) k).
    - split; [discriminate|]. intros H; exfalso; apply H; auto.
    - rewrite IH. tauto.
  Qed.
  Lemma find_decl_Some k a d : find_decl k a = Some d -> In d a /\ d_out d = k.
  Proof.
    unfold find_decl. intros E. apply find_some in E. destruct E as (I & E).
    apply (proj1 (eqb_eq _ _)) in E. auto.
  Qed.

  (** Result keys of the operators that read [s], with multiplicity. *)
  Definition readers (s : string) (ops : list op_decl) : list string :=
    flat_map (fun d => repeat (d_out d) (cnt s (d_ins d))) ops.

  Record built (ops : list op_decl) (ins0 outs0 : list string) (data : dict string V) (g : graph) : Prop := {
    b_dict : dwf (conns g);
    b_get : forall k, dget k (conns g) =
      match find_decl k ops with
      | Some d => Some (mkconn (Some (d_op d)) (d_ins d) (readers k ops))
      | None => if mem k (seen_keys ops) then Some (mkconn None [] (readers k ops)) else None
      end;
    b_srcs : forall k, In k (srcs g) <-> In k (flat_map d_ins ops);
    b_tgts : forall k, In k (tgts g) <-> In k outs0 \/ In k (map d_out ops);
    b_allk : forall k, In k (allk g) <-> In k (seen_keys ops);
    b_outd : outd g = map (fun k => (k, k)) (str_sort outs0);
    b_mtab : NoDup (map (fun d => op_id (d_op d)) ops) ->
             mtab g = map (fun d => (op_id (d_op d), d_out d)) ops;
    b_utab : utab g = []; b_vtab : vtab g = []; b_statics : statics g = data;
    b_unused : unused g = []; b_inkeys : inkeys g = ins0
  }.

  Lemma add_input_conns out (g : graph) k c x :
    k <> out -> dget out (conns g) = Some c ->
    dget x (conns (add_input out g k)) =
      if eq_dec x out then Some (mkconn (g_op c) (g_src c ++ [k]) (g_tgt c))
      else if eq_dec x k then
        Some (match dget k (conns g) with
              | Some y => mkconn (g_op y) (g_src y) (g_tgt y ++ [out])
              | None => mkconn None [] [out] end)
      else dget x (conns g).
  Proof.
    intros N Hc. unfold add_input, dmem. simpl conns.
    destruct (dget k (conns g)) as [y|] eqn:Hk; simpl conns; rewrite ?dget_dset.
    - rewrite Hc; simpl conns. rewrite !dget_dset. destruct (eq_dec k out); [congruence|].
      rewrite Hk. simpl conns. rewrite !dget_dset.
      destruct (eq_dec x k), (eq_dec x out); subst; try congruence; auto.
    - destruct (eq_dec out k); [congruence|]. rewrite Hc; simpl conns. rewrite !dget_dset.
      destruct (eq_dec k out); [congruence|]. destruct (eq_dec k k); [|congruence].
      simpl conns. rewrite !dget_dset.
      destruct (eq_dec x k), (eq_dec x out); subst; try congruence; auto.
  Qed.
  Lemma add_input_dwf out (g : graph) k : dwf (conns g) -> dwf (conns (add_input out g k)).
  Proof.
    intros D. unfold add_input. simpl conns.
    repeat first [ apply D | apply dwf_dset
      | match goal with |- context [match ?x with _ => _ end] => destruct x; simpl conns end
      | progress simpl conns ].
  Qed.
  Lemma add_input_rest out (g : graph) k :
    srcs (add_input out g k) = sadd k (srcs g) /\ tgts (add_input out g k) = tgts g /\
    allk (add_input out g k) = sadd k (allk g) /\ outd (add_input out g k) = outd g /\
    mtab (add_input out g k) = mtab g /\ utab (add_input out g k) = utab g /\
    vtab (add_input out g k) = vtab g /\ statics (add_input out g k) = statics g /\
    unused (add_input out g k) = unused g /\ inkeys (add_input out g k) = inkeys g.
  Proof.
    unfold add_input.
    repeat match goal with |- context [match ?x with _ => _ end] => destruct x; simpl end;
    repeat split.
  Qed.

  Lemma add_inputs_fold out ins : forall (g : graph) c,
    ~ In out ins -> dget out (conns g) = Some c -> dwf (conns g) ->
    let g' := fold_left (add_input out) ins g in
    dwf (conns g') /\
    (forall x, dget x (conns g') =
      if eq_dec x out then Some (mkconn (g_op c) (g_src c ++ ins) (g_tgt c))
      else match dget x (conns g) with
           | Some y => Some (mkconn (g_op y) (g_src y) (g_tgt y ++ repeat out (cnt x ins)))
           | None => if mem x ins then Some (mkconn None [] (repeat out (cnt x ins))) else None
           end) /\
    (forall x, In x (srcs g') <-> In x ins \/ In x (srcs g)) /\ tgts g' = tgts g /\
    (forall x, In x (allk g') <-> In x ins \/ In x (allk g)) /\ outd g' = outd g /\ mtab g' = mtab g /\
    utab g' = utab g /\ vtab g' = vtab g /\ statics g' = statics g /\ unused g' = unused g /\
    inkeys g' = inkeys g.
  Proof.
    induction ins as [|k ins IH]; intros g c N Hc D; simpl.
    - repeat split; auto; try tauto. intros x. destruct (eq_dec x out).
      + subst. rewrite Hc, app_nil_r. destruct c; auto.
      + destruct (dget x (conns g)) as [y|]; auto. simpl. rewrite app_nil_r. destruct y; auto.
    - assert (Nk : k <> out) by (intros ->; apply N; simpl; auto).
      destruct (IH (add_input out g k) (mkconn (g_op c) (g_src c ++ [k]) (g_tgt c)))
        as (D' & G & S & T & A & O & M & U & Vt & St & Un & Ik).
      { intros I; apply N; simpl; auto. }
      { rewrite (add_input_conns out g k c); auto. destruct (eq_dec out out); [auto|congruence]. }
      { apply add_input_dwf; auto. }
      destruct (add_input_rest out g k) as (S0 & T0 & A0 & O0 & M0 & U0 & V0 & St0 & Un0 & Ik0).
      repeat split; try congruence; auto.
      + intros x. rewrite G. destruct (eq_dec x out).
        * simpl. rewrite <- app_assoc. auto.
        * rewrite (add_input_conns out g k c); auto. destruct (eq_dec x out); [congruence|].
          rewrite cnt_cons. unfold mem; simpl. fold (mem x ins). unfold eqb.
          destruct (eq_dec x k).
          -- subst x. destruct (eq_dec k k); [|congruence]. simpl.
             destruct (dget k (conns g)) as [y|]; simpl; auto. rewrite <- app_assoc. auto.
          -- destruct (eq_dec k x); [congruence|]. simpl. auto.
      + intros I. apply S in I. rewrite S0, In_sadd in I. intuition.
      + intros I. apply S. rewrite S0, In_sadd. intuition.
      + intros I. apply A in I. rewrite A0, In_sadd in I. intuition.
      + intros I. apply A. rewrite A0, In_sadd. intuition.
  Qed.

  Lemma readers_app s a b : readers s (a ++ b) = readers s a ++ readers s b.
  Proof. unfold readers. apply flat_map_app. Qed.
  Lemma readers_one s d : readers s [d] = repeat (d_out d) (cnt s (d_ins d)).
  Proof. unfold readers; simpl. apply app_nil_r. Qed.
  Lemma readers_unseen s a : ~ In s (seen_keys a) -> readers s a = [].
  Proof.
    unfold readers, seen_keys. induction a as [|d a IH]; simpl; auto. intros N.
    rewrite IH. 2:{ intros I; apply N; right; apply in_app_iff; auto. }
    replace (cnt s (d_ins d)) with 0; auto. symmetry. apply cnt_not_In. intros I; apply N.
    right; apply in_app_iff; auto.
  Qed.
  Lemma outs_seen k a : In k (map d_out a) -> In k (seen_keys a).
  Proof.
    unfold seen_keys. rewrite in_map_iff, in_flat_map. intros (d & E & I). exists d; simpl; auto.
  Qed.
  Lemma ins_seen k a : In k (flat_map d_ins a) -> In k (seen_keys a).
  Proof.
    unfold seen_keys. rewrite !in_flat_map. intros (d & I & E). exists d; simpl; auto.
  Qed.

  Lemma decls_from_app a : forall seen b, decls_from seen (a ++ b) ->
    decls_from seen a /\ exists seen', decls_from seen' b /\
      (forall k, In k seen' <-> In k seen \/ In k (seen_keys a)).
  Proof.
    induction a as [|d a IH]; simpl; intros seen b H.
    - split; auto. exists seen. split; auto. unfold seen_keys; simpl; tauto.
    - destruct H as (H1 & H2 & H3 & H4). destruct (IH _ _ H4) as (Ha & s' & Hb & Hk).
      split; auto. exists s'. split; auto. intros k. rewrite Hk. unfold seen_keys. simpl.
      rewrite !in_app_iff. tauto.
  Qed.

  Lemma dset_fresh {K W} `{EqDec K} (k : K) (v : W) d : dget k d = None -> dset k v d = d ++ [(k, v)].
  Proof.
    induction d as [|[k' v'] d IH]; simpl; auto. destruct (eq_dec k k'); [discriminate|].
    intros E. f_equal; auto.
  Qed.

  Lemma build_snoc ins0 outs0 (data : dict string V) a d :
    build ins0 outs0 data (a ++ [d]) = add_value (d_op d) (d_out d) (d_ins d) (build ins0 outs0 data a).
  Proof. unfold build. rewrite fold_left_app. reflexivity. Qed.

  Lemma build_spec ins0 outs0 data ops :
    decls_from [] ops -> built ops ins0 outs0 data (build ins0 outs0 data ops).
  Proof.
    induction ops as [|d a IH] using rev_ind; intros H.
    - unfold build; simpl. constructor; simpl; auto; try tauto; try constructor.
    - destruct (decls_from_app _ _ _ H) as (Ha & seen & Hd & Hseen).
      specialize (IH Ha). simpl in Hd. destruct Hd as (NEi & Nself & Nseen & _).
      assert (Nd : ~ In (d_out d) (seen_keys a)) by (rewrite Hseen in Nseen; tauto).
      rewrite build_snoc. set (g := build ins0 outs0 data a) in *. clearbody g. destruct IH.
      unfold add_value.
      set (g1 := set_allk _ _).
      assert (C1 : conns g1 = dset (d_out d) (mkconn (Some (d_op d)) [] []) (conns g)) by reflexivity.
      destruct (add_inputs_fold (d_out d) (d_ins d) g1 (mkconn (Some (d_op d)) [] []) Nself)
        as (D' & G & S & T & A & O & M & U & Vt & St & Un & Ik).
      { rewrite C1, dget_dset_same. auto. }
      { rewrite C1. apply dwf_dset; auto. }
      assert (Nout : ~ In (d_out d) (map d_out a)) by (intros I; apply Nd, outs_seen; auto).
      assert (Sk : forall k, mem k (seen_keys (a ++ [d])) =
                   (mem k (seen_keys a) || (eqb k (d_out d) || mem k (d_ins d)))).
      { intros k. apply Bool.eq_iff_eq_true. rewrite !orb_true_iff, !mem_In, eqb_eq.
        unfold seen_keys. rewrite flat_map_app, in_app_iff. simpl. rewrite app_nil_r.
        intuition. }
      assert (F1 : outd g1 = outd g /\ utab g1 = utab g /\ vtab g1 = vtab g /\ statics g1 = statics g
                   /\ unused g1 = unused g /\ inkeys g1 = inkeys g) by repeat split.
      destruct F1 as (f1 & f2 & f3 & f4 & f5 & f6).
      constructor; auto; try congruence.
      + intros k. rewrite G, C1, dget_dset, find_decl_app, find_decl_one, readers_app, readers_one, Sk, b_get0. simpl.
        unfold eqb. destruct (eq_dec k (d_out d)).
        * subst k. destruct (find_decl (d_out d) a) eqn:F.
          { exfalso. apply Nout. rewrite <- (proj2 (find_decl_Some _ _ _ F)).
            apply in_map, (find_decl_Some _ _ _ F). }
          destruct (eq_dec (d_out d) (d_out d)); [|congruence].
          rewrite readers_unseen; auto. apply cnt_not_In in Nself. rewrite Nself. auto.
        * destruct (eq_dec (d_out d) k); [congruence|].
          destruct (find_decl k a) as [d'|] eqn:F; simpl; auto.
          destruct (mem k (seen_keys a)) eqn:Mk; simpl; auto.
                    apply mem_not_In in Mk. rewrite readers_unseen; auto.
      + intros k. rewrite S. simpl. rewrite b_srcs0, flat_map_app, in_app_iff. simpl.
        rewrite app_nil_r. tauto.
      + intros k. rewrite T. simpl. rewrite In_sadd, b_tgts0, map_app, in_app_iff. simpl. intuition.
      + intros k. rewrite A. simpl. rewrite In_sadd, b_allk0. unfold seen_keys.
        rewrite flat_map_app, in_app_iff. simpl. rewrite app_nil_r. intuition.
      + intros ND. rewrite M. simpl. rewrite map_app in ND |- *. simpl in ND |- *.
        rewrite b_mtab0.
        * rewrite dset_fresh; auto. apply dget_None. unfold dkeys. rewrite map_map. simpl.
          apply NoDup_remove_2 in ND. rewrite app_nil_r in ND. auto.
        * apply NoDup_remove_1 in ND. rewrite app_nil_r in ND. auto.
  Qed.

  (** Position-based rank: 0 for keys that no operator produces. *)
  Fixpoint rank_from (n : nat) (ops : list op_decl) (k : string) : nat :=
    match ops with
    | [] => 0
    | d :: r => if eq_dec (d_out d) k then S n else rank_from (S n) r k
    end.
  Definition rank (ops : list op_decl) (k : string) : nat := rank_from 0 ops k.

  Lemma rank_from_zero n ops k : ~ In k (map d_out ops) -> rank_from n ops k = 0.
  Proof.
    revert n; induction ops as [|d r IH]; simpl; auto. intros n N.
    destruct (eq_dec (d_out d) k); [exfalso; apply N; auto|]. apply IH; tauto.
  Qed.
  Lemma rank_from_le n ops k : rank_from n ops k = 0 \/ n < rank_from n ops k.
  Proof.
    revert n; induction ops as [|d r IH]; simpl; auto. intros n.
    destruct (eq_dec (d_out d) k); [lia|]. destruct (IH (S n)); lia.
  Qed.
  Lemma rank_from_app n a b k : ~ In k (map d_out a) ->
    rank_from n (a ++ b) k = rank_from (n + length a) b k.
  Proof.
    revert n; induction a as [|d a IH]; simpl; intros n N; [f_equal; lia|].
    destruct (eq_dec (d_out d) k); [exfalso; apply N; auto|].
    rewrite IH; [f_equal; lia | tauto].
  Qed.
  Lemma rank_from_app_l n a b k : In k (map d_out a) ->
    rank_from n (a ++ b) k = rank_from n a k /\ rank_from n a k <= n + length a /\ n < rank_from n a k.
  Proof.
    revert n; induction a as [|d a IH]; simpl; intros n I; [tauto|].
    destruct (eq_dec (d_out d) k); [lia|].
    destruct I as [|I]; [congruence|]. destruct (IH (S n) I) as (-> & ? & ?). lia.
  Qed.

  Lemma decls_outs_fresh ops : decls_from [] ops ->
    forall a d b, ops = a ++ d :: b ->
      ~ In (d_out d) (seen_keys a) /\ d_ins d <> [] /\
      (forall s, In s (d_ins d) -> ~ In s (d_out d :: map d_out b)).
  Proof.
    intros H a d b ->. destruct (decls_from_app _ _ _ H) as (_ & seen & Hd & Hs).
    simpl in Hd. destruct Hd as (NE & Ns & Nseen & Hb).
    split; [rewrite Hs in Nseen; tauto|]. split; auto.
    intros s I [E|J]; [congruence|].
    assert (forall seen b, decls_from seen b -> forall k, In k (map d_out b) -> ~ In k seen) as K.
    { clear. intros seen b; revert seen. induction b as [|d b IH]; simpl; [tauto|].
      intros seen (A & B & C & D) k [<-|I]; auto. intros Ik. apply (IH _ D k I).
      simpl. rewrite in_app_iff; auto. }
    apply (K _ _ Hb s J). simpl. rewrite in_app_iff; auto.
  Qed.
  Lemma decls_outs_nodup ops : forall seen, decls_from seen ops -> NoDup (map d_out ops).
  Proof.
    induction ops as [|d r IH]; simpl; [constructor|]. intros seen (A & B & C & D).
    constructor; [|eauto].
    assert (forall seen b, decls_from seen b -> forall k, In k (map d_out b) -> ~ In k seen) as K.
    { clear. intros seen b; revert seen. induction b as [|d b IH]; simpl; [tauto|].
      intros seen (A & B & C & D) k [<-|I]; auto. intros Ik. apply (IH _ D k I).
      simpl. rewrite in_app_iff; auto. }
    intros I. apply (K _ _ D _ I). simpl; auto.
  Qed.

  Lemma rank_spec ops d s : decls_from [] ops -> In d ops -> In s (d_ins d) ->
    rank ops s < rank ops (d_out d).
  Proof.
    intros H I Is. apply in_split in I. destruct I as (a & b & E).
    destruct (decls_outs_fresh ops H a d b E) as (F & _ & Nb). specialize (Nb s Is). subst ops.
    unfold rank.
    assert (R : rank_from 0 (a ++ d :: b) (d_out d) = S (length a)).
    { rewrite rank_from_app; [|intros J; apply F, outs_seen; auto]. simpl.
      destruct (eq_dec (d_out d) (d_out d)); congruence. }
    rewrite R. destruct (in_dec string_dec s (map d_out a)) as [Ia|Na].
    - destruct (rank_from_app_l 0 a (d :: b) s Ia) as (-> & ? & ?). lia.
    - rewrite rank_from_zero; [lia|]. rewrite map_app, in_app_iff. simpl in *. tauto.
  Qed.

  Lemma cnt_readers t s ops : NoDup (map d_out ops) ->
    cnt t (readers s ops) = match find_decl t ops with Some d => cnt s (d_ins d) | None => 0 end.
  Proof.
    intros ND. induction ops as [|d r IH]; [reflexivity|].
    simpl in ND. inversion ND as [|? ? NI ND']; subst.
    change (readers s (d :: r)) with (readers s ([d] ++ r)).
    rewrite readers_app, readers_one, cnt_app, IH by auto.
    change (d :: r) with ([d] ++ r). rewrite find_decl_app, find_decl_one.
    assert (Cr : forall n, cnt t (repeat (d_out d) n) = if eq_dec (d_out d) t then n else 0).
    { induction n; simpl; [destruct (eq_dec _ _); auto|]. rewrite cnt_cons, IHn.
      destruct (eq_dec (d_out d) t); lia. }
    rewrite Cr. destruct (eq_dec (d_out d) t); auto.
    assert (F : find_decl t r = None) by (apply find_decl_None; congruence).
    rewrite F; lia.
  Qed.

  Lemma built_wf ins0 outs0 data ops g : decls_ok outs0 ops -> built ops ins0 outs0 data g -> wf g.
  Proof.
    intros (H & _ & _ & HO) B. pose proof (decls_outs_nodup _ _ H) as ND. destruct B.
    assert (Sr : forall k, src g k = match find_decl k ops with Some d => d_ins d | None => [] end).
    { intros k. rewrite src_get, b_get0. destruct (find_decl k ops); auto.
      destruct (mem k (seen_keys ops)); auto. }
    assert (Tr : forall k, tgt g k = readers k ops).
    { intros k. rewrite tgt_get, b_get0. destruct (find_decl k ops); auto.
      destruct (mem_spec k (seen_keys ops)); auto. rewrite readers_unseen; auto. }
    assert (Or : forall k, opof g k = option_map d_op (find_decl k ops)).
    { intros k. unfold opof. rewrite b_get0. destruct (find_decl k ops); auto.
      destruct (mem k (seen_keys ops)); auto. }
    constructor; auto.
    - intros s t. rewrite Sr, Tr, cnt_readers; auto. destruct (find_decl t ops); auto.
    - intros k. rewrite Or, Sr. destruct (find_decl k ops) as [d|] eqn:F; simpl; [|tauto].
      split; [discriminate|]. intros E. apply find_decl_Some in F. destruct F as (I & _).
      apply in_split in I. destruct I as (a & b & E').
      destruct (decls_outs_fresh ops H a d b E') as (_ & NE & _). tauto.
    - intros k NE. rewrite Tr in NE. apply b_srcs0. apply in_flat_map.
      destruct (readers k ops) as [|x l] eqn:E; [tauto|].
      assert (I : In x (flat_map (fun d => repeat (d_out d) (cnt k (d_ins d))) ops)) by (fold (readers k ops); rewrite E; simpl; auto).
      apply in_flat_map in I. destruct I as (d & Id & Ir). exists d; split; auto.
      apply cnt_In. destruct (cnt k (d_ins d)); simpl in Ir; [tauto|lia].
    - intros k _. rewrite b_tgts0, Or. destruct (find_decl k ops) as [d|] eqn:F; simpl.
      + split; [congruence|]. intros _. right. apply find_decl_Some in F. destruct F as (I & <-).
        apply in_map; auto.
      + apply find_decl_None in F. split; [intros [I|I]; [apply HO in I|]; tauto | congruence].
  Qed.

  (** Acyclicity: some rank strictly decreases along source links. *)
  Definition acyclic_by (rk : string -> nat) (g : graph) : Prop :=
    forall s t, In s (src g t) -> rk s < rk t.
  Lemma built_acyclic ins0 outs0 data ops g :
    decls_ok outs0 ops -> built ops ins0 outs0 data g -> acyclic_by (rank ops) g.
  Proof.
    intros (H & _) B s t I. rewrite src_get, (b_get _ _ _ _ _ B) in I.
    destruct (find_decl t ops) as [d|] eqn:F.
    - apply find_decl_Some in F. destruct F as (Id & <-). apply rank_spec; auto.
    - destruct (mem t (seen_keys ops)); destruct I.
  Qed.
  Lemma acyclic_noself rk (g : graph) k : acyclic_by rk g -> ~ In k (src g k).
  Proof. intros A I. apply A in I. lia. Qed.
  Lemma acyclic_merged rk k s (g g' : graph) : acyclic_by rk g -> merged k s g g' -> rk s < rk k ->
    acyclic_by rk g'.
  Proof.
    intros A M L a t I. destruct (eq_dec t k).
    - subst. rewrite (merged_src_self _ _ _ _ M) in I. destruct I.
    - rewrite (merged_src _ _ _ _ _ M) in I; auto. apply in_map_iff in I.
      destruct I as (b & E & Ib). apply A in Ib. unfold subst_key in E.
      destruct (eq_dec b k); subst; lia.
  Qed.
  Lemma acyclic_unlinked rk k o (g g' : graph) : acyclic_by rk g -> unlinked k o g g' -> acyclic_by rk g'.
  Proof.
    intros A U a t I. rewrite (unlinked_src _ _ _ _ _ U) in I. destruct (eq_dec t k); [destruct I|].
    apply A; auto.
  Qed.
End B.
