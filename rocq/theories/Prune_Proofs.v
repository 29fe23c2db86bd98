(** * Semantic preservation of duplicate elimination and buffer forwarding. *)
From Coq Require Import String Ascii List Arith Lia Bool Permutation.
From Verif Require Import PyBase PyStrings FlatGraph_Model Topo_Proofs Graph_Proofs Build_Proofs.
Import ListNotations.
Open Scope string_scope.
Open Scope list_scope.
Open Scope nat_scope.

(** ** Injectivity of the signature *)
Definition all_digits (s : string) : bool := forallb is_digit (chars s).
Definition key_ok (k : string) : Prop :=
  k <> "" /\ has_char "-"%char k = false /\ all_digits k = false.
Definition part_ok (p : string) : Prop := p <> "" /\ has_char "-"%char p = false.

Lemma has_char_cons c x s : has_char c (String x s) = Ascii.eqb c x || has_char c s.
Proof. reflexivity. Qed.

Lemma dash_split a b x y : has_char "-"%char a = false -> has_char "-"%char b = false ->
  (a ++ String "-" x = b ++ String "-" y)%string -> a = b /\ x = y.
Proof.
  revert b; induction a as [|c a IH]; intros [|d b]; simpl; rewrite ?has_char_cons; intros Ha Hb E.
  - inversion E; auto.
  - inversion E; subst. rewrite Ascii.eqb_refl in Hb; discriminate.
  - inversion E; subst. rewrite Ascii.eqb_refl in Ha; discriminate.
  - inversion E; subst. apply orb_false_iff in Ha, Hb.
    destruct (IH b (proj2 Ha) (proj2 Hb) H1) as (-> & ->); auto.
Qed.
Lemma dash_absent a x : has_char "-"%char (a ++ String "-" x)%string = true.
Proof. rewrite has_char_app, has_char_cons. rewrite Ascii.eqb_refl. apply orb_true_r. Qed.

Lemma concat_cons p q l : String.concat "-" (p :: q :: l) = (p ++ "-" ++ String.concat "-" (q :: l))%string.
Proof. reflexivity. Qed.

(** A rendering that is easier to reason about: every part followed by a dash. *)
Fixpoint rendered (parts : list string) (f : string) : string :=
  match parts with
  | [] => f
  | p :: r => (p ++ String "-" (rendered r f))%string
  end.
Lemma final_rendered parts f : parts <> [] -> final_model_id parts f = rendered parts f.
Proof.
  unfold final_model_id. induction parts as [|p r IH]; [congruence|]. intros _.
  destruct r as [|q r]; [reflexivity|].
  rewrite concat_cons. change (rendered (p :: q :: r) f) with (p ++ String "-" (rendered (q :: r) f))%string.
  rewrite <- IH by discriminate. rewrite !sapp_assoc. reflexivity.
Qed.
Lemma rendered_inj ps : forall qs f h,
  Forall part_ok ps -> Forall part_ok qs -> part_ok f -> part_ok h ->
  rendered ps f = rendered qs h -> ps = qs /\ f = h.
Proof.
  induction ps as [|p ps IH]; intros [|q qs] f h Hp Hq Hf Hh; simpl; intros E.
  - auto.
  - destruct Hf as (_ & Hf). rewrite E, dash_absent in Hf. discriminate.
  - destruct Hh as (_ & Hh). rewrite <- E, dash_absent in Hh. discriminate.
  - inversion Hp; inversion Hq; subst.
    apply dash_split in E; [|apply H1|apply H5]. destruct E as (-> & E).
    destruct (IH qs f h) as (-> & ->); auto.
Qed.
Lemma final_id_inj ps qs f h :
  Forall part_ok ps -> Forall part_ok qs -> part_ok f -> part_ok h ->
  final_model_id ps f = final_model_id qs h -> ps = qs /\ f = h.
Proof.
  intros Hp Hq Hf Hh.
  assert (Z : forall qs h, Forall part_ok qs -> qs <> [] -> part_ok f ->
              final_model_id [] f = rendered qs h -> False).
  { clear. intros [|q qs] h Hq N Hf E; [congruence|]. simpl in E. unfold final_model_id in E. simpl in E.
    inversion Hq; subst. destruct q as [|c q]; [destruct H1; congruence|].
    simpl in E. inversion E; subst. destruct H1 as (_ & H1). rewrite has_char_cons in H1.
    rewrite Ascii.eqb_refl in H1. discriminate. }
  assert (Z' : forall qs h, Forall part_ok qs -> qs <> [] -> part_ok h ->
              rendered qs f = final_model_id [] h -> False).
  { clear. intros [|q qs] h Hq N Hf E; [congruence|]. simpl in E. unfold final_model_id in E. simpl in E.
    inversion Hq; subst. destruct q as [|c q]; [destruct H1; congruence|].
    simpl in E. inversion E; subst. destruct H1 as (_ & H1). rewrite has_char_cons in H1.
    rewrite Ascii.eqb_refl in H1. discriminate. }
  destruct ps as [|p ps], qs as [|q qs]; intros E.
  - unfold final_model_id in E. simpl in E. inversion E; auto.
  - rewrite (final_rendered (q :: qs)) in E by discriminate. exfalso. apply (Z (q :: qs) h); auto; discriminate.
  - rewrite (final_rendered (p :: ps)) in E by discriminate. exfalso. apply (Z' (p :: ps) h); auto; discriminate.
  - rewrite !final_rendered in E by discriminate. apply rendered_inj in E; auto.
Qed.

Lemma digits_part_ok s : s <> "" -> all_digits s = true -> part_ok s.
Proof.
  intros N D. split; auto. destruct (has_char "-"%char s) eqn:E; auto.
  apply has_char_In in E. unfold all_digits in D. rewrite forallb_forall in D. apply D in E.
  discriminate.
Qed.

Section P.
  Context {V : Type}.
  Notation graph := (graph V).
  Variable fsem : string -> list V -> V.
  Variable veq : V -> V -> bool.
  Variable edge_value : string -> option V.
  Variable manual : bool.
  Variable env : string -> V.

  (** Data arguments of an operator: its sources without the trailing cache key of the numpy
      backend. *)
  Definition data_args (l : list string) : list string := if manual then removelast l else l.
  Definition op_value (e : string -> V) (o : operator) (l : list string) : V :=
    if op_buffer o then e (hd "" l) else fsem (op_formula o) (map e (data_args l)).
  (** [e] satisfies the equation of every operator of the graph. *)
  Definition solves (e : string -> V) (g : graph) : Prop :=
    forall k o, opof g k = Some o -> e k = op_value e o (src g k).

  Lemma map_removelast {A B} (f : A -> B) l : map f (removelast l) = removelast (map f l).
  Proof. induction l as [|x [|y l] IH]; auto. simpl in *. f_equal; auto. Qed.
  Lemma op_value_subst o k s l : env s = env k ->
    op_value env o (map (subst_key k s) l) = op_value env o l \/ l = [].
  Proof.
    intros E. destruct l as [|x l]; auto. left. unfold op_value.
    assert (S : forall y, env (subst_key k s y) = env y).
    { intros y; unfold subst_key. destruct (eq_dec y k); congruence. }
    destruct (op_buffer o); [apply S|]. f_equal.
    assert (D : data_args (map (subst_key k s) (x :: l)) = map (subst_key k s) (data_args (x :: l))).
    { unfold data_args. destruct manual; auto. rewrite map_removelast; auto. }
    rewrite D, map_map. apply map_ext; auto.
  Qed.
  Lemma solves_merged k s g g' : wf g -> solves env g -> merged k s g g' -> env s = env k -> solves env g'.
  Proof.
    intros W S M E x o Ho. rewrite (merged_opof _ _ _ _ _ M) in Ho.
    destruct (eq_dec x k); [discriminate|]. rewrite (merged_src _ _ _ _ _ M); auto.
    destruct (op_value_subst o k s (src g x) E) as [->|Z]; [apply S; auto|].
    apply (w_op g W) in Z. congruence.
  Qed.
  Lemma solves_unlinked k o g g' : solves env g -> unlinked k o g g' -> solves env g'.
  Proof.
    intros S U x o' Ho. rewrite (unlinked_opof _ _ _ _ _ U) in Ho.
    rewrite (unlinked_src _ _ _ _ _ U). destruct (eq_dec x k); [discriminate|]. apply S; auto.
  Qed.

  (** *** The signature *)
  Definition part_val (tab : dict string V) (p : string) : option V :=
    if all_digits p then dget p tab else Some (env p).
  Definition tab_ok (tab : dict string V) : Prop :=
    dkeys tab = map nat_to_string (seq 0 (length tab)).

  Lemma tab_ok_fresh tab : tab_ok tab -> dget (nat_to_string (length tab)) tab = None.
  Proof.
    intros T. apply dget_None. rewrite T. rewrite in_map_iff. intros (i & E & I).
    apply nat_to_string_inj in E. apply in_seq in I. lia.
  Qed.
  Lemma tab_ok_grow tab v : tab_ok tab -> tab_ok (dset (nat_to_string (length tab)) v tab).
  Proof.
    intros T. unfold tab_ok. rewrite dset_fresh by (apply tab_ok_fresh; auto).
    unfold dkeys in *. rewrite map_app, app_length. simpl. unfold tab_ok, dkeys in T. rewrite T.
    rewrite Nat.add_1_r, seq_S, map_app. reflexivity.
  Qed.
  Definition tab_le (a b : dict string V) : Prop := forall p v, dget p a = Some v -> dget p b = Some v.
  Lemma part_val_mono a b p v : tab_le a b -> part_val a p = Some v -> part_val b p = Some v.
  Proof. unfold part_val. destruct (all_digits p); auto. Qed.

  Hypothesis veq_sound : forall a b, veq a b = true -> a = b.
  Hypothesis edge_sound : forall k v, edge_value k = Some v -> env k = v.

  Definition visible (k : string) : bool := negb (skipped k).
  Lemma model_id_spec g ks : forall tab parts tab',
    (forall k v, dget k (statics g) = Some v -> env k = v) ->
    (forall k, In k ks -> skipped k = false -> key_ok k) ->
    tab_ok tab -> model_id veq edge_value g tab ks = (parts, tab') ->
    tab_ok tab' /\ tab_le tab tab' /\ Forall part_ok parts /\
    map (part_val tab') parts = map (fun k => Some (env k)) (filter visible ks).
  Proof.
    induction ks as [|k ks IH]; simpl; intros tab parts tab' St Hk T E.
    - inversion E; subst. repeat split; auto. intros p v; auto.
    - unfold visible. destruct (skipped k) eqn:Sk; simpl.
      + apply (IH tab); auto.
      + destruct (key_value edge_value g k) as [v|] eqn:Kv.
        * assert (Ev : env k = v).
          { unfold key_value in Kv. destruct (edge_value k) eqn:Ek; [|apply St; auto].
            inversion Kv; subst; apply edge_sound; auto. }
          destruct (find_value veq v tab) as [vk|] eqn:F.
          -- destruct (model_id veq edge_value g tab ks) as [r t'] eqn:R. inversion E; subst.
             destruct (IH tab r tab') as (T' & L & P & M); auto.
             unfold find_value in F. destruct (find _ tab) as [[vk' w]|] eqn:Ff; [|discriminate].
             simpl in F. inversion F; subst vk'. apply find_some in Ff. destruct Ff as (If & Ef).
             apply veq_sound in Ef. simpl in Ef. subst w.
             assert (Iv : In vk (dkeys tab)).
             { unfold dkeys. apply in_map_iff. exists (vk, env k); auto. }
             rewrite T in Iv. apply in_map_iff in Iv. destruct Iv as (i & <- & _).
             assert (Dg : dget (nat_to_string i) tab = Some (env k)).
             { apply In_dget; auto. unfold dwf. rewrite T. apply FinFun.Injective_map_NoDup.
               - intros a b. apply nat_to_string_inj.
               - apply seq_NoDup. }
             repeat split; auto.
             ++ constructor; auto. apply digits_part_ok; [apply nat_to_string_nonempty|].
                apply nat_to_string_digits.
             ++ simpl. rewrite M. f_equal. unfold part_val, all_digits.
                rewrite nat_to_string_digits. apply L; auto.
          -- destruct (model_id veq edge_value g (dset (nat_to_string (length tab)) v tab) ks)
               as [r t'] eqn:R. inversion E; subst.
             destruct (IH (dset (nat_to_string (length tab)) (env k) tab) r tab') as (T' & L & P & M); auto.
             { apply tab_ok_grow; auto. }
             repeat split; auto.
             ++ intros p w Hp. apply L. rewrite dget_dset. destruct (eq_dec p (nat_to_string (length tab))); auto.
                subst p. rewrite tab_ok_fresh in Hp; auto. discriminate.
             ++ constructor; auto. apply digits_part_ok; [apply nat_to_string_nonempty|].
                apply nat_to_string_digits.
             ++ simpl. rewrite M. f_equal. unfold part_val, all_digits.
                rewrite nat_to_string_digits. apply L. apply dget_dset_same.
        * destruct (model_id veq edge_value g tab ks) as [r t'] eqn:R. inversion E; subst.
          destruct (IH tab r tab') as (T' & L & P & M); auto.
          destruct (Hk k (or_introl eq_refl) Sk) as (K1 & K2 & K3).
          repeat split; auto.
          -- constructor; auto. split; auto.
          -- simpl. rewrite M. f_equal. unfold part_val. rewrite K3. auto.
  Qed.

  (** *** Invariant of the traversal *)
  Variable ops : list op_decl.
  Variable outs0 : list string.
  Variable data : dict string V.
  Hypothesis Hdecl : decls_ok outs0 ops.
  (** Naming conditions under which the signature is unambiguous. *)
  Hypothesis Hkeys : forall k, In k (seen_keys ops) -> skipped k = false -> key_ok k.
  Hypothesis Hformula : forall d, In d ops -> part_ok (op_formula (d_op d)).
  Hypothesis Hargs : forall d, In d ops -> op_buffer (d_op d) = false ->
    filter visible (d_ins d) = data_args (d_ins d).
  Hypothesis Hcache : manual = true -> forall d, In d ops -> ~ In (last (d_ins d) "") (map d_out ops).
  Hypothesis Hbuf : forall d, In d ops -> op_buffer (d_op d) = true ->
    skipped (hd "" (d_ins d)) = false.
  Hypothesis Hskip : forall a d b, ops = a ++ d :: b -> skipped (d_out d) = true ->
    forall d', In d' b -> op_formula (d_op d') <> op_formula (d_op d).
  (** The environment is a solution of the declared operators. *)
  Hypothesis Henv : forall d, In d ops -> env (d_out d) = op_value env (d_op d) (d_ins d).
  Hypothesis Hdata : forall k v, dget k data = Some v -> env k = v.

  Notation rk := (rank ops).

  Definition table_entry (n : nat) (g : graph) (id ck : string) : Prop :=
    rk ck <= n /\ (exists c, dget ck (conns g) = Some c) /\
    exists parts f vals,
      id = final_model_id parts f /\ Forall part_ok parts /\ part_ok f /\
      map (part_val (vtab g)) parts = map Some vals /\ env ck = fsem f vals /\
      (skipped ck = true -> forall d', In d' (skipn n ops) -> op_formula (d_op d') <> f).

  Record pinv (n : nat) (g : graph) : Prop := {
    p_wf : wf g;
    p_ac : acyclic_by rk g;
    p_solves : solves env g;
    p_keys : forall k, In k (dkeys (conns g)) -> In k (seen_keys ops);
    p_args : forall t o, opof g t = Some o -> op_buffer o = false ->
               filter visible (src g t) = data_args (src g t);
    p_cache : manual = true -> forall t o, opof g t = Some o -> ~ In (last (src g t) "") (map d_out ops);
    p_formula : forall t o, opof g t = Some o -> part_ok (op_formula o);
    p_buf : forall t o, opof g t = Some o -> op_buffer o = true ->
              skipped (hd "" (src g t)) = false;
    p_tab : tab_ok (vtab g);
    p_utab : forall id ck, dget id (utab g) = Some ck -> table_entry n g id ck;
    p_out_env : forall p, In p (outd g) -> env (snd p) = env (fst p);
    p_out_rk : forall p, In p (outd g) -> fst p <> snd p -> rk (snd p) <= n;
    p_out_in : forall p, In p (outd g) -> exists c, dget (snd p) (conns g) = Some c;
    p_out_self : forall p d, In p (outd g) -> In d (skipn n ops) -> fst p = d_out d -> snd p = fst p;
    p_out_keys : dkeys (outd g) = str_sort outs0;
    p_statics : statics g = data;
    p_rest : forall d, In d (skipn n ops) ->
               dget (op_id (d_op d)) (mtab g) = Some (d_out d) /\ opof g (d_out d) = Some (d_op d);
    p_roots : forall k, In k (dkeys (conns g)) -> opof g k = None ->
               ~ In k (map d_out ops) \/ dmem k data = true;
    p_mtab : dwf (mtab g);
    p_mtab_in : forall i k, dget i (mtab g) = Some k -> exists o, opof g k = Some o /\ op_id o = i;
    p_done : forall k o, opof g k = Some o -> In k (map d_out (skipn n ops)) \/
               (dmem k data = false /\ op_buffer o = false);
    p_unused : forall k, In k (unused g) -> In k (map d_out ops) /\ ~ In k (dkeys (conns g));
    p_ops : forall t o, opof g t = Some o -> In o (map d_op ops);
    p_mtab_op : forall t o, opof g t = Some o -> dget (op_id o) (mtab g) = Some t;
    p_out_gone : forall p, In p (outd g) -> fst p <> snd p -> ~ In (fst p) (dkeys (conns g))
  }.

  Lemma rank_nth a d b : ops = a ++ d :: b -> rk (d_out d) = S (length a).
  Proof.
    intros E. destruct (decls_outs_fresh ops (proj1 Hdecl) a d b E) as (F & _).
    unfold rank. rewrite E, rank_from_app; [|intros J; apply F, outs_seen; auto]. simpl.
    destruct (eq_dec (d_out d) (d_out d)); congruence.
  Qed.

  Lemma pinv_init ins0 : pinv 0 (build ins0 outs0 data ops).
  Proof.
    pose proof (build_spec ins0 outs0 data ops (proj1 Hdecl)) as B.
    pose proof (built_wf _ _ _ _ _ Hdecl B) as W.
    pose proof (built_acyclic _ _ _ _ _ Hdecl B) as A.
    destruct Hdecl as (Hd & Hid & Hnd & Ho).
    pose proof (decls_outs_nodup _ _ Hd) as ND. destruct B as [b_dict0 b_get0 b_srcs0 b_tgts0 b_allk0 b_outd0 b_mtab0 b_utab0 b_vtab0 b_statics0 b_unused0 b_inkeys0].
    set (g := build ins0 outs0 data ops) in *. clearbody g.
    assert (Find : forall t o, opof g t = Some o -> exists d, In d ops /\ d_out d = t /\ d_op d = o /\
                     src g t = d_ins d).
    { intros t o. unfold opof. rewrite src_get, b_get0. destruct (find_decl t ops) as [d|] eqn:F.
      - simpl. intros E; inversion E; subst. apply find_decl_Some in F. exists d; tauto.
      - destruct (mem t (seen_keys ops)); discriminate. }
    constructor; auto.
    - intros k o E. destruct (Find k o E) as (d & I & <- & <- & ->). apply Henv; auto.
    - intros k I. apply In_keys_get in I. destruct I as (c & Hc). rewrite b_get0 in Hc.
      destruct (find_decl k ops) as [d|] eqn:F.
      + apply find_decl_Some in F. destruct F as (I & <-). apply outs_seen, in_map; auto.
      + destruct (mem_spec k (seen_keys ops)); auto. discriminate.
    - intros t o E Eb. destruct (Find t o E) as (d & I & <- & <- & ->). apply Hargs; auto.
    - intros Em t o E. destruct (Find t o E) as (d & I & <- & <- & ->). apply Hcache; auto.
    - intros t o E. destruct (Find t o E) as (d & I & <- & <- & _). apply Hformula; auto.
    - intros t o E Eb. destruct (Find t o E) as (d & I & <- & <- & ->). apply Hbuf; auto.
    - rewrite b_vtab0. reflexivity.
    - rewrite b_utab0. discriminate.
    - rewrite b_outd0. intros p I. apply in_map_iff in I. destruct I as (k & <- & _). auto.
    - rewrite b_outd0. intros p I. apply in_map_iff in I. destruct I as (k & <- & _). simpl; congruence.
    - rewrite b_outd0. intros p I. apply in_map_iff in I. destruct I as (k & <- & Ik). simpl.
      apply In_str_sort, Ho in Ik. apply in_map_iff in Ik. destruct Ik as (d & E & Id).
      rewrite b_get0. destruct (find_decl k ops) eqn:F; [eauto|].
      apply find_decl_None in F. exfalso; apply F. rewrite <- E. apply in_map; auto.
    - rewrite b_outd0. intros p d I _ _. apply in_map_iff in I. destruct I as (k & <- & _). auto.
    - rewrite b_outd0. unfold dkeys. rewrite map_map. simpl. apply map_id.
    - simpl. intros d I. rewrite b_mtab0 by auto. split.
      + apply In_dget.
        * unfold dwf, dkeys. rewrite map_map. simpl. auto.
        * apply in_map_iff. exists d; auto.
      + unfold opof. rewrite b_get0. destruct (find_decl (d_out d) ops) as [d'|] eqn:F.
        * apply find_decl_Some in F. destruct F as (I' & E'). simpl. f_equal. f_equal.
          clear -ND I I' E'. induction ops as [|x l IH]; simpl in *; [tauto|].
          inversion ND; subst. destruct I as [<-|I], I' as [<-|I']; auto.
          -- exfalso. apply H1. rewrite <- E'. apply in_map; auto.
          -- exfalso. apply H1. rewrite E'. apply in_map; auto.
        * apply find_decl_None in F. exfalso; apply F, in_map; auto.
    - intros k I E. left. unfold opof in E. rewrite b_get0 in E.
      destruct (find_decl k ops) as [d|] eqn:F; [discriminate|]. apply find_decl_None; auto.
    - rewrite b_mtab0 by auto. unfold dwf, dkeys. rewrite map_map. auto.
    - rewrite b_mtab0 by auto. intros i k E. apply dget_In in E. apply in_map_iff in E.
      destruct E as (d & E & I). inversion E; subst. exists (d_op d). split; auto.
      unfold opof. rewrite b_get0. destruct (find_decl (d_out d) ops) as [d'|] eqn:F.
      + apply find_decl_Some in F. destruct F as (I' & E'). simpl. f_equal. f_equal.
        clear -ND I I' E'. induction ops as [|x l IH]; simpl in *; [tauto|].
        inversion ND; subst. destruct I as [<-|I], I' as [<-|I']; auto.
        * exfalso. apply H1. rewrite <- E'. apply in_map; auto.
        * exfalso. apply H1. rewrite E'. apply in_map; auto.
      + apply find_decl_None in F. exfalso; apply F, in_map; auto.
    - intros k o E. destruct (Find k o E) as (d & I & <- & _). left. apply in_map; auto.
    - rewrite b_unused0. intros k [].
    - intros t o E. destruct (Find t o E) as (d & I & _ & <- & _). apply in_map; auto.
    - intros t o E. destruct (Find t o E) as (d & I & <- & <- & _). rewrite b_mtab0 by auto.
      apply In_dget.
      + unfold dwf, dkeys. rewrite map_map. simpl. auto.
      + apply in_map_iff. exists d; auto.
    - rewrite b_outd0. intros p I. apply in_map_iff in I. destruct I as (k & <- & _). simpl; congruence.
  Qed.

  Lemma skipn_split a d b : ops = a ++ d :: b -> skipn (length a) ops = d :: b /\ skipn (S (length a)) ops = b.
  Proof.
    intros ->. split.
    - rewrite skipn_app, skipn_all, Nat.sub_diag. reflexivity.
    - rewrite skipn_app, skipn_all2 by lia. rewrite Nat.sub_succ_l, Nat.sub_diag by lia. reflexivity.
  Qed.
  Lemma skipn_mono n : forall d, In d (skipn (S n) ops) -> In d (skipn n ops).
  Proof.
    clear. revert n. induction ops as [|x l IH]; intros [|n] d I; simpl in *; auto.
  Qed.
  Lemma entry_le n g id ck : table_entry n g id ck -> table_entry (S n) g id ck.
  Proof.
    intros (R & P & parts & f & vals & H1 & H2 & H3 & H4 & H5 & H6). split; [lia|]. split; auto.
    exists parts, f, vals. do 5 (split; [auto|]). intros S d' I. apply H6; auto. apply skipn_mono; auto.
  Qed.
  Lemma NoDup_app_r {A} (l l' : list A) : NoDup (l ++ l') -> NoDup l'.
  Proof. induction l; simpl; auto. intros H; inversion H; auto. Qed.
  Lemma later_out a d b d' : ops = a ++ d :: b -> In d' b -> d_out d' <> d_out d /\
    op_id (d_op d') <> op_id (d_op d).
  Proof.
    intros E I. destruct Hdecl as (Hd & Hid & _). pose proof (decls_outs_nodup _ _ Hd) as ND.
    rewrite E, map_app in ND, Hid. simpl in ND, Hid.
    apply NoDup_app_r in ND. apply NoDup_app_r in Hid.
    inversion ND; inversion Hid; subst. split; intros F.
    - apply H1. rewrite <- F. apply in_map; auto.
    - apply H5. rewrite <- F. apply (in_map (fun d => op_id (d_op d))); auto.
  Qed.

  Lemma filter_visible_subst k s l : filter visible l = data_args l ->
    (In k l -> skipped s = false) -> (manual = true -> last l "" <> k) ->
    filter visible (map (subst_key k s) l) = data_args (map (subst_key k s) l).
  Proof.
    intros F Hs Hl.
    destruct (in_dec string_dec k l) as [I|N].
    2: { rewrite map_subst_id; auto. }
    assert (Vk : visible k = true).
    { assert (J : In k (data_args l)).
      { unfold data_args. destruct manual eqn:Em; auto.
        destruct l as [|x l0]; [destruct I|].
        rewrite (app_removelast_last "" (l := x :: l0)) in I by discriminate.
        apply in_app_iff in I. destruct I as [I|[I|[]]]; auto. exfalso; apply (Hl eq_refl); auto. }
      rewrite <- F in J. apply filter_In in J. tauto. }
    assert (E : forall y, visible (subst_key k s y) = visible y).
    { intros y; unfold subst_key. destruct (eq_dec y k) as [->|]; auto.
      unfold visible at 1. rewrite Hs; auto. }
    assert (M : forall l0, filter visible (map (subst_key k s) l0) = map (subst_key k s) (filter visible l0)).
    { induction l0 as [|y l0 IH]; simpl; auto. rewrite E. destruct (visible y); simpl; congruence. }
    rewrite M, F. unfold data_args. destruct manual; auto. apply map_removelast.
  Qed.
  Lemma last_subst k s l : l <> [] -> last l "" <> k -> last (map (subst_key k s) l) "" = last l "".
  Proof.
    intros N L. pose proof (app_removelast_last "" N) as E. set (z := last l "") in *.
    rewrite E, map_app. cbn [map]. rewrite last_last. unfold subst_key.
    destruct (eq_dec z k); congruence.
  Qed.

  Lemma outd_wf n g : pinv n g -> dwf (outd g).
  Proof.
    intros P. unfold dwf. rewrite (p_out_keys _ _ P).
    apply (Permutation_NoDup (l := outs0)); [|apply Hdecl].
    apply str_sort_perm.
  Qed.

  Lemma pinv_merge a d b s g g' : ops = a ++ d :: b -> pinv (length a) g ->
    merged (d_out d) s g g' -> env s = env (d_out d) -> skipped s = false -> rk s <= length a ->
    (exists c, dget s (conns g) = Some c) ->
    dkeys (outd g') = dkeys (outd g) ->
    (forall p, In p (outd g') -> exists q, In q (outd g) /\ fst p = fst q /\
       snd p = if eq_dec (snd q) (d_out d) then s else snd q) ->
    pinv (S (length a)) g'.
  Proof.
    intros E P M Es Sk Rs Ps Ok Op. pose proof (rank_nth a d b E) as Rk.
    destruct (skipn_split a d b E) as (Sk0 & Sk1).
    assert (Ns : s <> d_out d) by (intros ->; lia).
    pose proof (p_wf _ _ P) as W. pose proof (p_ac _ _ P) as A.
    pose proof (acyclic_noself _ _ (d_out d) A) as Nself.
    destruct (p_rest _ _ P d) as (Md & Od); [rewrite Sk0; left; auto|].
    assert (Hlast : manual = true -> forall t o, opof g t = Some o -> last (src g t) "" <> d_out d).
    { intros Em t o Ht F. apply (p_cache _ _ P Em t o Ht). rewrite F. rewrite E, map_app.
      apply in_app_iff; right; left; auto. }
    assert (Nn : forall t o, opof g t = Some o -> src g t <> []).
    { intros t o Ht F. apply (w_op g W) in F. congruence. }
    assert (Old : forall t o, opof g' t = Some o -> t <> d_out d /\ opof g t = Some o /\
              src g' t = map (subst_key (d_out d) s) (src g t)).
    { intros t o Ht. rewrite (merged_opof _ _ _ _ _ M) in Ht. destruct (eq_dec t (d_out d)); [discriminate|].
      repeat split; auto. apply (merged_src _ _ _ _ _ M); auto. }
    assert (Pres : forall x, x <> d_out d -> (exists c, dget x (conns g) = Some c) ->
                     exists c, dget x (conns g') = Some c).
    { intros x Nx (c & Hc). rewrite (m_get _ _ _ _ M). destruct (eq_dec x (d_out d)); [congruence|].
      rewrite Hc. simpl. eauto. }
    constructor.
    - eapply wf_merged; eauto.
    - eapply acyclic_merged; eauto. lia.
    - eapply solves_merged; eauto. apply (p_solves _ _ P).
    - intros k I. apply (merged_keys _ _ _ _ _ M) in I. apply (p_keys _ _ P); tauto.
    - intros t o Ht Hb. destruct (Old t o Ht) as (N & Ho & ->). apply filter_visible_subst; auto.
      + apply (p_args _ _ P t o); auto.
      + intros Em. eapply Hlast; eauto.
    - intros Em t o Ht. destruct (Old t o Ht) as (N & Ho & ->). rewrite last_subst; eauto.
      apply (p_cache _ _ P Em t o Ho).
    - intros t o Ht. destruct (Old t o Ht) as (N & Ho & _). apply (p_formula _ _ P t o Ho).
    - intros t o Ht Hb. destruct (Old t o Ht) as (N & Ho & ->). pose proof (p_buf _ _ P t o Ho Hb) as H.
      destruct (src g t) as [|x l]; simpl in *; auto. unfold subst_key.
      destruct (eq_dec x (d_out d)); auto.
    - rewrite (m_vtab _ _ _ _ M). apply (p_tab _ _ P).
    - intros id ck Hc. rewrite (m_utab _ _ _ _ M) in Hc. apply (p_utab _ _ P) in Hc.
      apply entry_le. destruct Hc as (R & Pr & parts & f & vals & H1 & H2 & H3 & H4 & H5 & H6).
      split; auto. split; [apply Pres; auto; intros ->; lia|].
      exists parts, f, vals. rewrite (m_vtab _ _ _ _ M). do 5 (split; [auto|]). auto.
    - intros p I. destruct (Op p I) as (q & Iq & -> & ->). rewrite <- (p_out_env _ _ P q Iq).
      destruct (eq_dec (snd q) (d_out d)) as [Eq|]; auto. rewrite Eq; auto.
    - intros p I. destruct (Op p I) as (q & Iq & -> & ->). intros N.
      destruct (eq_dec (snd q) (d_out d)); [lia|]. pose proof (p_out_rk _ _ P q Iq). intuition lia.
    - intros p I. destruct (Op p I) as (q & Iq & _ & ->). destruct (eq_dec (snd q) (d_out d)).
      + apply Pres; auto.
      + apply Pres; auto. apply (p_out_in _ _ P q Iq).
    - intros p d' I Id Ef. destruct (Op p I) as (q & Iq & Efq & Esq). rewrite Efq in *.
      rewrite Sk1 in Id. destruct (later_out a d b d' E Id) as (N & _).
      pose proof (p_out_self _ _ P q d' Iq (ltac:(rewrite Sk0; right; auto)) Ef) as Hq.
      rewrite Esq. destruct (eq_dec (snd q) (d_out d)); auto. congruence.
    - rewrite Ok. apply (p_out_keys _ _ P).
    - rewrite (m_statics _ _ _ _ M). apply (p_statics _ _ P).
    - intros d' Id. rewrite Sk1 in Id. destruct (later_out a d b d' E Id) as (N & Ni).
      destruct (p_rest _ _ P d') as (H1 & H2); [rewrite Sk0; right; auto|].
      rewrite (m_mtab _ _ _ _ M _ Od), (merged_opof _ _ _ _ _ M), dget_ddel_other by auto.
      destruct (eq_dec (d_out d') (d_out d)); [congruence|]. auto.
    - intros k I Ho. apply (merged_keys _ _ _ _ _ M) in I. destruct I as (N & I).
      rewrite (merged_opof _ _ _ _ _ M) in Ho. destruct (eq_dec k (d_out d)); [congruence|].
      apply (p_roots _ _ P); auto.
    - rewrite (m_mtab _ _ _ _ M _ Od). apply dwf_ddel, (p_mtab _ _ P).
    - intros i k Hi. rewrite (m_mtab _ _ _ _ M _ Od), dget_ddel in Hi by apply (p_mtab _ _ P).
      destruct (eq_dec i (op_id (d_op d))); [discriminate|].
      destruct (p_mtab_in _ _ P i k Hi) as (o & Ho & Hid). exists o. split; auto.
      rewrite (merged_opof _ _ _ _ _ M). destruct (eq_dec k (d_out d)); auto. congruence.
    - intros k o Hk. destruct (Old k o Hk) as (N & Ho & _). destruct (p_done _ _ P k o Ho) as [I|]; auto.
      left. rewrite Sk0 in I. rewrite Sk1. destruct I as [I|I]; auto. congruence.
    - intros k Ik. apply (m_unused _ _ _ _ M) in Ik. destruct Ik as [->|Ik].
      + split.
        * rewrite E, map_app. apply in_app_iff; right; left; auto.
        * intros F. apply (merged_keys _ _ _ _ _ M) in F. tauto.
      + destruct (p_unused _ _ P k Ik) as (U1 & U2). split; auto. intros F.
        apply (merged_keys _ _ _ _ _ M) in F. tauto.
    - intros t o Ht. destruct (Old t o Ht) as (N & Ho & _). apply (p_ops _ _ P t o Ho).
    - intros t o Ht. destruct (Old t o Ht) as (N & Ho & _). pose proof (p_mtab_op _ _ P t o Ho) as Hm.
      rewrite (m_mtab _ _ _ _ M _ Od), dget_ddel_other; auto. intros F. rewrite F in Hm. congruence.
    - intros p I N F. apply (merged_keys _ _ _ _ _ M) in F. destruct F as (F1 & F2).
      destruct (Op p I) as (q & Iq & Eq1 & Eq2). rewrite Eq1 in *. rewrite Eq2 in N.
      destruct (eq_dec (fst q) (snd q)) as [Eq|Nq].
      + destruct (eq_dec (snd q) (d_out d)); congruence.
      + apply (p_out_gone _ _ P q Iq Nq F2).
  Qed.

  Lemma pinv_unlink a d b g g' : ops = a ++ d :: b -> pinv (length a) g ->
    unlinked (d_out d) (d_op d) g g' -> dmem (d_out d) data = true -> pinv (S (length a)) g'.
  Proof.
    intros E P U Hd. pose proof (rank_nth a d b E) as Rk.
    destruct (skipn_split a d b E) as (Sk0 & Sk1).
    pose proof (p_wf _ _ P) as W. pose proof (p_ac _ _ P) as A.
    pose proof (acyclic_noself _ _ (d_out d) A) as Nself.
    destruct (p_rest _ _ P d) as (Md & Od); [rewrite Sk0; left; auto|].
    assert (Old : forall t o, opof g' t = Some o -> t <> d_out d /\ opof g t = Some o /\
              src g' t = src g t).
    { intros t o Ht. rewrite (unlinked_opof _ _ _ _ _ U) in Ht. rewrite (unlinked_src _ _ _ _ _ U).
      destruct (eq_dec t (d_out d)); [discriminate|]. auto. }
    assert (Pres : forall x, (exists c, dget x (conns g) = Some c) ->
                     exists c, dget x (conns g') = Some c).
    { intros x (c & Hc). rewrite (n_get _ _ _ _ U), Hc. simpl. eauto. }
    constructor.
    - eapply wf_unlinked; eauto.
    - eapply acyclic_unlinked; eauto.
    - eapply solves_unlinked; eauto. apply (p_solves _ _ P).
    - intros k I. apply (unlinked_keys _ _ _ _ _ U) in I. apply (p_keys _ _ P); auto.
    - intros t o Ht Hb. destruct (Old t o Ht) as (N & Ho & ->). apply (p_args _ _ P t o); auto.
    - intros Em t o Ht. destruct (Old t o Ht) as (N & Ho & ->). apply (p_cache _ _ P Em t o Ho).
    - intros t o Ht. destruct (Old t o Ht) as (N & Ho & _). apply (p_formula _ _ P t o Ho).
    - intros t o Ht Hb. destruct (Old t o Ht) as (N & Ho & ->). apply (p_buf _ _ P t o Ho Hb).
    - rewrite (n_vtab _ _ _ _ U). apply (p_tab _ _ P).
    - intros id ck Hc. rewrite (n_utab _ _ _ _ U) in Hc. apply (p_utab _ _ P) in Hc.
      apply entry_le. destruct Hc as (R & Pr & parts & f & vals & H1 & H2 & H3 & H4 & H5 & H6).
      split; auto. split; [apply Pres; auto|].
      exists parts, f, vals. rewrite (n_vtab _ _ _ _ U). do 5 (split; [auto|]). auto.
    - rewrite (n_outd _ _ _ _ U). apply (p_out_env _ _ P).
    - rewrite (n_outd _ _ _ _ U). intros p I N. pose proof (p_out_rk _ _ P p I N). lia.
    - rewrite (n_outd _ _ _ _ U). intros p I. apply Pres, (p_out_in _ _ P p I).
    - rewrite (n_outd _ _ _ _ U). intros p d' I Id. apply (p_out_self _ _ P p d' I).
      apply skipn_mono; auto.
    - rewrite (n_outd _ _ _ _ U). apply (p_out_keys _ _ P).
    - rewrite (n_statics _ _ _ _ U). apply (p_statics _ _ P).
    - intros d' Id. rewrite Sk1 in Id. destruct (later_out a d b d' E Id) as (N & Ni).
      destruct (p_rest _ _ P d') as (H1 & H2); [rewrite Sk0; right; auto|].
      rewrite (n_mtab _ _ _ _ U), (unlinked_opof _ _ _ _ _ U), dget_ddel_other by auto.
      destruct (eq_dec (d_out d') (d_out d)); [congruence|]. auto.
    - intros k I Ho. apply (unlinked_keys _ _ _ _ _ U) in I.
      rewrite (unlinked_opof _ _ _ _ _ U) in Ho. destruct (eq_dec k (d_out d)) as [->|]; [auto|].
      apply (p_roots _ _ P); auto.
    - rewrite (n_mtab _ _ _ _ U). apply dwf_ddel, (p_mtab _ _ P).
    - intros i k Hi. rewrite (n_mtab _ _ _ _ U), dget_ddel in Hi by apply (p_mtab _ _ P).
      destruct (eq_dec i (op_id (d_op d))); [discriminate|].
      destruct (p_mtab_in _ _ P i k Hi) as (o & Ho & Hid). exists o. split; auto.
      rewrite (unlinked_opof _ _ _ _ _ U). destruct (eq_dec k (d_out d)); auto. congruence.
    - intros k o Hk. destruct (Old k o Hk) as (N & Ho & _). destruct (p_done _ _ P k o Ho) as [I|]; auto.
      left. rewrite Sk0 in I. rewrite Sk1. destruct I as [I|I]; auto. congruence.
    - rewrite (n_unused _ _ _ _ U). intros k Ik. destruct (p_unused _ _ P k Ik) as (U1 & U2).
      split; auto. intros F. apply (unlinked_keys _ _ _ _ _ U) in F. tauto.
    - intros t o Ht. destruct (Old t o Ht) as (N & Ho & _). apply (p_ops _ _ P t o Ho).
    - intros t o Ht. destruct (Old t o Ht) as (N & Ho & _). pose proof (p_mtab_op _ _ P t o Ho) as Hm.
      rewrite (n_mtab _ _ _ _ U), dget_ddel_other; auto. intros F. rewrite F in Hm. congruence.
    - rewrite (n_outd _ _ _ _ U). intros p I N F. apply (unlinked_keys _ _ _ _ _ U) in F.
      apply (p_out_gone _ _ P p I N F).
  Qed.

  Lemma wf_set_vtab t (g : graph) : wf g -> wf (set_vtab t g).
  Proof. intros []; constructor; auto. Qed.
  Lemma wf_set_utab t (g : graph) : wf g -> wf (set_utab t g).
  Proof. intros []; constructor; auto. Qed.

  Lemma pinv_vtab n g tab : pinv n g -> tab_ok tab -> tab_le (vtab g) tab -> pinv n (set_vtab tab g).
  Proof.
    intros [] T L. constructor; auto.
    - apply wf_set_vtab; auto.
    - intros id ck H. apply p_utab0 in H.
      destruct H as (R & Pr & parts & f & vals & H1 & H2 & H3 & H4 & H5 & H6).
      split; auto. split; auto. exists parts, f, vals. do 3 (split; [auto|]). split; [|auto]. simpl.
      clear -L H4. revert vals H4. induction parts as [|p r IH]; intros [|v vals] H4; simpl in *; try discriminate; auto.
      inversion H4; subst. rewrite (part_val_mono _ _ _ _ L H0), (IH vals); auto.
  Qed.
  Lemma pinv_le n g : (forall d b, skipn n ops = d :: b -> dmem (d_out d) data = false /\
      op_buffer (d_op d) = false) -> pinv n g -> pinv (S n) g.
  Proof.
    intros Hn []. constructor; auto.
    - intros id ck H. apply entry_le; auto.
    - intros p d I Id. apply p_out_self0; auto. apply skipn_mono; auto.
    - intros d I. apply p_rest0, skipn_mono; auto.
    - intros k o Hk. destruct (p_done0 k o Hk) as [I|]; auto.
      destruct (skipn n ops) as [|d b] eqn:Es; [destruct I|]. destruct (Hn d b eq_refl) as (H1 & H2).
      destruct I as [<-|I].
      + right. split; auto. destruct (p_rest0 d (or_introl eq_refl)) as (_ & Ho). congruence.
      + left. assert (Et : skipn (S n) ops = b).
        { clear -Es. revert n Es. induction ops as [|x l IH]; intros [|n] Es; simpl in *; try discriminate.
          - inversion Es; auto.
          - apply IH; auto. }
        rewrite Et. auto.
  Qed.

  Lemma Some_inj_map (A : Type) (l l' : list A) : map Some l = map Some l' -> l = l'.
  Proof. revert l'; induction l as [|x l IH]; intros [|y l'] H; inversion H; f_equal; auto. Qed.

  Lemma prune_step a d b g : ops = a ++ d :: b -> pinv (length a) g ->
    exists g', prune_operation veq edge_value (d_op d) g = Ok g' /\ pinv (S (length a)) g'.
  Proof.
    intros E P. pose proof (rank_nth a d b E) as Rk.
    destruct (skipn_split a d b E) as (Sk0 & Sk1).
    pose proof (p_wf _ _ P) as W. pose proof (p_ac _ _ P) as A.
    pose proof (acyclic_noself _ _ (d_out d) A) as Nself.
    destruct (p_rest _ _ P d) as (Md & Od); [rewrite Sk0; left; auto|].
    unfold prune_operation. rewrite Md.
    assert (Hc : exists c, dget (d_out d) (conns g) = Some c /\ g_op c = Some (d_op d)).
    { unfold opof in Od. destruct (dget (d_out d) (conns g)) as [c|]; [eauto|discriminate]. }
    destruct Hc as (c & Hc & Hop). unfold getc. rewrite Hc. cbn [bind].
    assert (Esrc : src g (d_out d) = g_src c) by (rewrite src_get, Hc; auto).
    assert (Nn : g_src c <> []).
    { rewrite <- Esrc. intros F. apply (w_op g W) in F. congruence. }
    destruct (dmem (d_out d) (statics g)) eqn:Ds.
    { destruct (unlink_static_spec (d_out d) (d_op d) c g W Hc Nself) as (g' & -> & U).
      exists g'. split; auto. eapply pinv_unlink; eauto. rewrite <- (p_statics _ _ P); auto. }
    apply dmem_false in Ds.
    destruct (op_buffer (d_op d)) eqn:Hbf.
    { destruct (g_src c) as [|i r] eqn:Es; [congruence|].
      destruct (nuke_buffer_spec (d_out d) i r c g W Hc Es Nself Ds) as (g' & -> & M & Eo).
      exists g'. split; auto.
      assert (Ii : In i (src g (d_out d))) by (rewrite Esrc; left; auto).
      assert (Ho : forall q, In q (outd g) -> snd q = d_out d -> fst q = d_out d).
      { intros q Iq Sq. destruct (eq_dec (fst q) (snd q)); [congruence|].
        pose proof (p_out_rk _ _ P q Iq n). rewrite Sq in *. lia. }
      apply (pinv_merge a d b i g g'); auto.
      - rewrite (p_solves _ _ P _ _ Od). unfold op_value. rewrite Hbf, Esrc. reflexivity.
      - pose proof (p_buf _ _ P _ _ Od Hbf) as Hb. rewrite Esrc in Hb. exact Hb.
      - pose proof (A _ _ Ii). lia.
      - eapply wf_src_present; eauto.
      - rewrite Eo. destruct (dmem (d_out d) (outd g)) eqn:Dm; auto.
        rewrite dkeys_dset, Dm. auto.
      - intros p. rewrite Eo. destruct (dmem (d_out d) (outd g)) eqn:Dm.
        + intros Ip. assert (Wf' : dwf (dset (d_out d) i (outd g))) by (apply dwf_dset; eapply outd_wf; eauto).
          destruct p as [x y]. apply In_dget in Ip; auto. rewrite dget_dset in Ip. simpl.
          destruct (eq_dec x (d_out d)) as [->|Nx].
          * inversion Ip; subst y. apply dmem_In in Dm. unfold dkeys in Dm. apply in_map_iff in Dm.
            destruct Dm as (q & Fq & Iq). exists q. repeat split; auto.
            rewrite (p_out_self _ _ P q d Iq); [|rewrite Sk0; left; auto|auto].
            rewrite Fq. destruct (eq_dec (d_out d) (d_out d)); congruence.
          * apply dget_In in Ip. exists (x, y). repeat split; auto. simpl.
            destruct (eq_dec y (d_out d)) as [->|]; auto. exfalso; apply Nx.
            apply (Ho (x, d_out d)); auto.
        + intros Ip. exists p. repeat split; auto. destruct (eq_dec (snd p) (d_out d)) as [Eq|]; auto.
          exfalso. apply dmem_false in Dm. apply dget_None in Dm. apply Dm. unfold dkeys.
          apply in_map_iff. exists p. split; auto. }
    unfold is_duplicate. destruct (model_id veq edge_value g (vtab g) (g_src c)) as [parts tab] eqn:Em.
    destruct (model_id_spec g (g_src c) (vtab g) parts tab) as (T & L & Fp & Mp); auto.
    { rewrite (p_statics _ _ P). auto. }
    { intros k Ik Sk. apply Hkeys; auto. apply (p_keys _ _ P). apply In_keys_get.
      eapply wf_src_present; eauto. rewrite Esrc; eauto. }
    { apply (p_tab _ _ P). }
    rewrite Hop. cbn [bind].
    rewrite <- Esrc, (p_args _ _ P _ _ Od Hbf) in Mp.
    assert (Ek : env (d_out d) = fsem (op_formula (d_op d)) (map env (data_args (src g (d_out d))))).
    { rewrite (p_solves _ _ P _ _ Od) at 1. unfold op_value. rewrite Hbf. auto. }
    set (vals := map env (data_args (src g (d_out d)))) in *.
    assert (Mp' : map (part_val tab) parts = map Some vals).
    { rewrite Mp. unfold vals. rewrite map_map. auto. }
    pose proof (pinv_vtab _ _ tab P T L) as P1.
    destruct (dget (final_model_id parts (op_formula (d_op d))) (utab (set_vtab tab g))) as [s|] eqn:Du.
    - pose proof (p_utab _ _ P1 _ _ Du) as (R & Pr & parts' & f' & vals' & H1 & H2 & H3 & H4 & H5 & H6).
      assert (Pf : part_ok (op_formula (d_op d))) by apply (p_formula _ _ P _ _ Od).
      destruct (final_id_inj _ _ _ _ Fp H2 Pf H3 H1) as (-> & Ef). subst f'.
      simpl in H4. rewrite Mp' in H4. apply Some_inj_map in H4. subst vals'.
      assert (Ns : s <> d_out d) by (intros ->; lia).
      cbn [bind].
      destruct (prune_connection_spec (d_out d) s c (set_vtab tab g)) as (g' & -> & M & Eo); auto.
      { apply wf_set_vtab; auto. }
      exists g'. split; auto.
      apply (pinv_merge a d b s (set_vtab tab g) g'); auto.
      + congruence.
      + destruct (skipped s) eqn:Ss; auto. exfalso. apply (H6 eq_refl d); auto. rewrite Sk0; left; auto.
      + rewrite Eo. unfold dkeys. rewrite map_map. auto.
      + rewrite Eo. intros p Ip. apply in_map_iff in Ip. destruct Ip as (q & <- & Iq). exists q. auto.
    - cbn [bind]. eexists. split; eauto.
      assert (Hn : forall d0 b0, skipn (length a) ops = d0 :: b0 -> dmem (d_out d0) data = false /\
                op_buffer (d_op d0) = false).
      { intros d0 b0 E0. rewrite Sk0 in E0. inversion E0; subst. split; auto.
        apply dmem_false. rewrite <- (p_statics _ _ P). auto. }
      pose proof (pinv_le _ _ Hn P1) as P2. destruct P2. constructor; auto.
      + apply wf_set_utab; auto.
      + intros id ck. simpl. rewrite dget_dset.
        destruct (eq_dec id (final_model_id parts (op_formula (d_op d)))) as [->|Ni].
        * intros F; inversion F; subst ck. split; [lia|]. split; [simpl; eauto|].
          exists parts, (op_formula (d_op d)), vals.
          split; [auto|]. split; [auto|]. split; [apply (p_formula _ _ P _ _ Od)|].
          split; [auto|]. split; [auto|]. intros Ss d' I. rewrite Sk1 in I. eapply Hskip; eauto.
        * intros F. apply p_utab0 in F. exact F.
  Qed.

  Lemma traverse_inv : forall b a g, ops = a ++ b -> pinv (length a) g ->
    exists g', traverse_graph veq edge_value (map d_op b) g = Ok g' /\ pinv (length ops) g'.
  Proof.
    induction b as [|d b IH]; intros a g E P.
    - exists g. split; auto. rewrite E, app_nil_r. auto.
    - destruct (prune_step a d b g E P) as (g1 & H1 & P1).
      unfold traverse_graph in *. simpl. rewrite H1. cbn [bind].
      apply (IH (a ++ [d])).
      + rewrite E, <- app_assoc. auto.
      + rewrite app_length. simpl. rewrite Nat.add_1_r. auto.
  Qed.

  Theorem traverse_preserves ins0 :
    exists g', traverse_graph veq edge_value (map d_op ops) (build ins0 outs0 data ops) = Ok g' /\
               pinv (length ops) g'.
  Proof. apply (traverse_inv ops []); auto. apply pinv_init. Qed.
End P.
