(** * Structural lemmas about the graph passes: what each mutation does to the connections. *)
From Coq Require Import String Ascii List Arith Lia Bool Permutation.
From Verif Require Import PyBase PyStrings FlatGraph_Model Topo_Proofs.
Import ListNotations.
Open Scope string_scope.
Open Scope list_scope.
Open Scope nat_scope.

Definition cnt (x : string) (l : list string) : nat := count_occ string_dec l x.
Arguments cnt : simpl never.
Definition without (x : string) (l : list string) : list string :=
  filter (fun y => negb (eqb x y)) l.

Lemma cnt_In x l : In x l <-> cnt x l > 0.
Proof. apply count_occ_In. Qed.
Lemma cnt_not_In x l : ~ In x l <-> cnt x l = 0.
Proof. apply count_occ_not_In. Qed.
Lemma cnt_app x l1 l2 : cnt x (l1 ++ l2) = cnt x l1 + cnt x l2.
Proof. apply count_occ_app. Qed.
Lemma cnt_cons x y l : cnt x (y :: l) = (if eq_dec y x then 1 else 0) + cnt x l.
Proof.
  unfold cnt; simpl. unfold eq_dec, EqDec_string. destruct (string_dec y x); auto.
Qed.
Lemma cnt_without_same x l : cnt x (without x l) = 0.
Proof.
  apply cnt_not_In. unfold without. rewrite filter_In, negb_true_iff, eqb_neq. tauto.
Qed.
Lemma cnt_without_other x y l : x <> y -> cnt x (without y l) = cnt x l.
Proof.
  intros N; induction l as [|z l IH]; simpl; auto.
  unfold eqb. destruct (eq_dec y z); simpl.
  - rewrite cnt_cons. destruct (eq_dec z x); [congruence|]. auto.
  - rewrite !cnt_cons, IH; auto.
Qed.
Lemma without_notin x l : ~ In x l -> without x l = l.
Proof.
  intros N; induction l as [|y l IH]; simpl; auto.
  unfold eqb. destruct (eq_dec x y); simpl.
  - subst; exfalso; apply N; simpl; auto.
  - f_equal; apply IH. intros I; apply N; simpl; auto.
Qed.
Lemma In_without x y l : In x (without y l) <-> x <> y /\ In x l.
Proof. unfold without; rewrite filter_In, negb_true_iff, eqb_neq. intuition. Qed.
Lemma without_app x l1 l2 : without x (l1 ++ l2) = without x l1 ++ without x l2.
Proof. apply filter_app. Qed.

(** [list.remove] repeated. *)
Lemma list_remove_some x l : In x l -> exists l', list_remove x l = Ok l'.
Proof.
  induction l as [|y l IH]; simpl; [tauto|]. intros I.
  destruct (eq_dec x y); eauto. destruct I as [|I]; [congruence|].
  destruct (IH I) as (l' & ->); simpl; eauto.
Qed.
Lemma list_remove_cnt x l l' : list_remove x l = Ok l' ->
  (cnt x l = S (cnt x l')) /\ without x l' = without x l.
Proof.
  revert l'; induction l as [|y l IH]; simpl; intros l' E; [discriminate|].
  destruct (eq_dec x y).
  - inversion E; subst. rewrite cnt_cons. destruct (eq_dec y y); [|congruence].
    split; auto. unfold eqb. destruct (eq_dec y y); simpl; congruence.
  - destruct (list_remove x l) as [r|] eqn:R; simpl in E; inversion E; subst.
    destruct (IH _ eq_refl) as (C & W). rewrite !cnt_cons. split; [lia|].
    simpl. rewrite W; auto.
Qed.
Lemma list_remove_err x l e : list_remove x l = Err e -> ~ In x l.
Proof.
  intros E I. destruct (list_remove_some x l I) as (l' & E'); congruence.
Qed.
Lemma discard1_cnt x l : cnt x (list_discard1 x l) = pred (cnt x l) /\
  without x (list_discard1 x l) = without x l.
Proof.
  unfold list_discard1. destruct (list_remove x l) as [l'|e] eqn:E.
  - apply list_remove_cnt in E. destruct E as (C & W). rewrite C; auto.
  - apply list_remove_err in E. split; auto. apply cnt_not_In in E. rewrite E; auto.
Qed.
Lemma cnt0_without x l : cnt x l = 0 -> without x l = l.
Proof. intros E; apply without_notin, cnt_not_In; auto. Qed.
Lemma discard_iter x n : forall l, cnt x l <= n ->
  Nat.iter n (list_discard1 x) l = without x l.
Proof.
  intros l. enough (H : cnt x (Nat.iter n (list_discard1 x) l) = cnt x l - n /\
                    without x (Nat.iter n (list_discard1 x) l) = without x l).
  { intros L. destruct H as (C & W). rewrite <- W. symmetry; apply cnt0_without. lia. }
  induction n as [|n (C & W)]; simpl; [split; auto; lia|].
  destruct (discard1_cnt x (Nat.iter n (list_discard1 x) l)) as (C' & W').
  rewrite C', W'. split; auto; lia.
Qed.

(** [l[l.index(x)] = y] repeated. *)
Definition replace1 (x y : string) (l : list string) : list string :=
  match list_replace1 x y l with Ok l' => l' | Err _ => l end.
Lemma list_replace1_some x y l : In x l -> exists l', list_replace1 x y l = Ok l'.
Proof.
  induction l as [|z l IH]; simpl; [tauto|]. intros I.
  destruct (eq_dec x z); eauto. destruct I as [|I]; [congruence|].
  destruct (IH I) as (l' & ->); simpl; eauto.
Qed.
Lemma list_replace1_cnt x y l l' : x <> y -> list_replace1 x y l = Ok l' ->
  cnt x l = S (cnt x l') /\ map (subst_key x y) l' = map (subst_key x y) l.
Proof.
  intros N. revert l'; induction l as [|z l IH]; simpl; intros l' E; [discriminate|].
  destruct (eq_dec x z).
  - inversion E; subst. rewrite !cnt_cons. destruct (eq_dec z z); [|congruence].
    destruct (eq_dec y z); [congruence|]. split; auto.
    simpl. unfold subst_key at 1 3. destruct (eq_dec y z); [congruence|].
    destruct (eq_dec z z); congruence.
  - destruct (list_replace1 x y l) as [r|] eqn:R; simpl in E; inversion E; subst.
    destruct (IH _ eq_refl) as (C & W). rewrite !cnt_cons. split; [lia|].
    simpl. rewrite W; auto.
Qed.
Lemma map_subst_id x y l : ~ In x l -> map (subst_key x y) l = l.
Proof.
  induction l as [|z l IH]; simpl; auto. intros N. rewrite IH; [|tauto].
  unfold subst_key. destruct (eq_dec z x); auto. subst; exfalso; apply N; auto.
Qed.
Lemma cnt_map_subst_other x y z l : z <> x -> z <> y -> cnt z (map (subst_key x y) l) = cnt z l.
Proof.
  intros N1 N2; induction l as [|w l IH]; simpl; auto. rewrite !cnt_cons, IH. f_equal.
  unfold subst_key. destruct (eq_dec w x); auto. subst.
  destruct (eq_dec y z), (eq_dec x z); congruence.
Qed.
Lemma cnt_map_subst_new x y l : x <> y -> cnt y (map (subst_key x y) l) = cnt y l + cnt x l.
Proof.
  intros N; induction l as [|w l IH]; simpl; auto. rewrite !cnt_cons, IH.
  unfold subst_key. destruct (eq_dec w x).
  - subst. destruct (eq_dec y y), (eq_dec x y); try congruence; lia.
  - destruct (eq_dec w y); lia.
Qed.
Lemma cnt_map_subst_old x y l : x <> y -> cnt x (map (subst_key x y) l) = 0.
Proof.
  intros N. apply cnt_not_In. rewrite in_map_iff. intros (w & E & _). revert E.
  unfold subst_key. destruct (eq_dec w x); congruence.
Qed.

Section G.
  Context {V : Type}.
  Notation graph := (graph V).

  Lemma src_get (g : graph) k :
    src g k = match dget k (conns g) with Some c => g_src c | None => [] end.
  Proof. unfold src, get_source_keys; rewrite app_nil_r; auto. Qed.
  Lemma tgt_get (g : graph) k :
    tgt g k = match dget k (conns g) with Some c => g_tgt c | None => [] end.
  Proof. unfold tgt, get_target_keys; rewrite app_nil_r; auto. Qed.

  (** ** Well-formed graphs *)
  Record wf (g : graph) : Prop := {
    w_dict : dwf (conns g);
    w_mirror : forall s t, cnt t (tgt g s) = cnt s (src g t);
    w_op : forall k, opof g k = None <-> src g k = [];
    w_srcs : forall k, tgt g k <> [] -> In k (srcs g);
    w_tgts : forall k, In k (dkeys (conns g)) -> (In k (tgts g) <-> opof g k <> None)
  }.

  Lemma wf_mirror_In g s t : wf g -> (In s (src g t) <-> In t (tgt g s)).
  Proof. intros W. rewrite !cnt_In, (w_mirror g W). tauto. Qed.
  Lemma In_keys_get (g : graph) k : In k (dkeys (conns g)) <-> exists c, dget k (conns g) = Some c.
  Proof.
    rewrite <- dmem_In. unfold dmem. destruct (dget k (conns g)); split; intros; eauto.
    - congruence.
    - destruct H; congruence.
  Qed.
  Lemma wf_src_present g s t : wf g -> In s (src g t) -> exists c, dget s (conns g) = Some c.
  Proof.
    intros W I. apply (wf_mirror_In g s t W) in I. rewrite tgt_get in I.
    destruct (dget s (conns g)); eauto. destruct I.
  Qed.
  Lemma wf_tgt_present g s t : wf g -> In t (tgt g s) -> exists c, dget t (conns g) = Some c.
  Proof.
    intros W I. apply (wf_mirror_In g s t W) in I. rewrite src_get in I.
    destruct (dget t (conns g)); eauto. destruct I.
  Qed.

  (** ** Frames *)
  Definition rest (g : graph) :=
    (allk g, inkeys g, outd g, mtab g, utab g, vtab g, statics g, unused g).

  Lemma rest_fields (g g' : graph) : rest g' = rest g ->
    allk g' = allk g /\ inkeys g' = inkeys g /\ outd g' = outd g /\ mtab g' = mtab g /\
    utab g' = utab g /\ vtab g' = vtab g /\ statics g' = statics g /\ unused g' = unused g.
  Proof. unfold rest; intros E; injection E; intros; subst; tauto. Qed.

  (** Effect of a loop [for x in L: connections[x] := f(connections[x]); _update_conn_info] *)
  Record upd_rel (f : gconn -> gconn) (L : list string) (g g' : graph) : Prop := {
    u_get : forall x, dget x (conns g') = option_map (Nat.iter (cnt x L) f) (dget x (conns g));
    u_dict : dwf (conns g) -> dwf (conns g');
    u_rest : rest g' = rest g;
    u_srcs_sub : forall x, In x (srcs g') -> In x (srcs g);
    u_srcs_keep : forall x, In x (srcs g) -> ~ In x (srcs g') -> In x L /\ tgt g' x = [];
    u_tgts_sub : forall x, In x (tgts g') -> In x (tgts g);
    u_tgts_keep : forall x, In x (tgts g) -> ~ In x (tgts g') -> In x L /\ src g' x = [];
  }.

  Lemma update_conn_info_conns k c (g : graph) : conns (update_conn_info k c g) = conns g.
  Proof. unfold update_conn_info. destruct (g_tgt c), (g_src c); reflexivity. Qed.
  Lemma update_conn_info_rest k c (g : graph) : rest (update_conn_info k c g) = rest g.
  Proof. unfold update_conn_info. destruct (g_tgt c), (g_src c); reflexivity. Qed.
  Lemma update_conn_info_srcs k c (g : graph) :
    srcs (update_conn_info k c g) = match g_tgt c with [] => sremove k (srcs g) | _ => srcs g end.
  Proof. unfold update_conn_info. destruct (g_tgt c), (g_src c); reflexivity. Qed.
  Lemma update_conn_info_tgts k c (g : graph) :
    tgts (update_conn_info k c g) = match g_src c with [] => sremove k (tgts g) | _ => tgts g end.
  Proof. unfold update_conn_info. destruct (g_tgt c), (g_src c); reflexivity. Qed.

  Lemma iter_S {A} (f : A -> A) n x : Nat.iter n f (f x) = Nat.iter (S n) f x.
  Proof. simpl. induction n; simpl; auto. rewrite IHn; auto. Qed.

  Definition shrink (f : gconn -> gconn) : Prop :=
    (forall c, g_tgt c = [] -> g_tgt (f c) = []) /\ (forall c, g_src c = [] -> g_src (f c) = []).
  Lemma shrink_iter f n c : shrink f ->
    (g_tgt c = [] -> g_tgt (Nat.iter n f c) = []) /\ (g_src c = [] -> g_src (Nat.iter n f c) = []).
  Proof. intros (A & B). induction n; simpl; intuition. Qed.

  Lemma foldM_upd (f : gconn -> gconn) (step : graph -> string -> res graph) (info : bool) L :
    shrink f ->
    (forall g x c, dget x (conns g) = Some c ->
       step g x = Ok (if info then update_conn_info x (f c) (setc x (f c) g) else setc x (f c) g)) ->
    forall g, (forall x, In x L -> exists c, dget x (conns g) = Some c) ->
    exists g', foldM step L g = Ok g' /\ upd_rel f L g g' /\
               (info = false -> srcs g' = srcs g /\ tgts g' = tgts g).
  Proof.
    intros Sh Hstep. induction L as [|x L IH]; intros g Hp; simpl.
    - exists g. split; auto. split; [|auto]. constructor; simpl; auto; try tauto.
      intros x. destruct (dget x (conns g)); auto.
    - destruct (Hp x (or_introl eq_refl)) as (c & Hc).
      rewrite (Hstep g x c Hc); simpl.
      set (g1 := if info then _ else _).
      assert (C1 : conns g1 = dset x (f c) (conns g)).
      { subst g1; destruct info; rewrite ?update_conn_info_conns; reflexivity. }
      assert (R1 : rest g1 = rest g).
      { subst g1; destruct info; rewrite ?update_conn_info_rest; reflexivity. }
      destruct (IH g1) as (g' & E & U & NI).
      { intros y Hy. rewrite C1, dget_dset. destruct (eq_dec y x); eauto.
        apply Hp; simpl; auto. }
      exists g'. split; auto. destruct U as [Ug Ud Ur Us1 Us2 Ut1 Ut2]. split.
      + assert (G : forall y, dget y (conns g') =
                  option_map (Nat.iter (cnt y (x :: L)) f) (dget y (conns g))).
        { intros y. rewrite Ug, C1, dget_dset, cnt_cons. destruct (eq_dec y x).
          - subst y. rewrite Hc. destruct (eq_dec x x); [|congruence]. simpl option_map.
            f_equal. rewrite iter_S. reflexivity.
          - destruct (eq_dec x y); [congruence|]. reflexivity. }
        constructor; auto.
        * intros D. apply Ud. rewrite C1. apply dwf_dset; auto.
        * congruence.
        * intros y Hy. apply Us1 in Hy. subst g1. destruct info; auto.
          rewrite update_conn_info_srcs in Hy. destruct (g_tgt (f c)); auto.
          apply In_sremove in Hy; tauto.
        * intros y Hy Hn. destruct (in_dec string_dec y (srcs g1)) as [I1|I1].
          -- destruct (Us2 y I1 Hn); simpl; auto.
          -- subst g1. destruct info; [|simpl in I1; tauto].
             rewrite update_conn_info_srcs in I1. simpl in I1.
             destruct (g_tgt (f c)) eqn:Et; [|tauto].
             rewrite In_sremove in I1. destruct (eq_dec y x); [|tauto]. subst y.
             split; simpl; auto. rewrite tgt_get, Ug, C1, dget_dset.
             destruct (eq_dec x x); [|congruence]. simpl.
             apply (shrink_iter f (cnt x L) (f c) Sh); auto.
        * intros y Hy. apply Ut1 in Hy. subst g1. destruct info; auto.
          rewrite update_conn_info_tgts in Hy. destruct (g_src (f c)); auto.
          apply In_sremove in Hy; tauto.
        * intros y Hy Hn. destruct (in_dec string_dec y (tgts g1)) as [I1|I1].
          -- destruct (Ut2 y I1 Hn); simpl; auto.
          -- subst g1. destruct info; [|simpl in I1; tauto].
             rewrite update_conn_info_tgts in I1. simpl in I1.
             destruct (g_src (f c)) eqn:Et; [|tauto].
             rewrite In_sremove in I1. destruct (eq_dec y x); [|tauto]. subst y.
             split; simpl; auto. rewrite src_get, Ug, C1, dget_dset.
             destruct (eq_dec x x); [|congruence]. simpl.
             apply (shrink_iter f (cnt x L) (f c) Sh); auto.
      + intros ->. destruct (NI eq_refl) as (-> & ->). subst g1; auto.
  Qed.

  (** ** [remove_conn] *)
  Lemma iter_tgt n k c :
    Nat.iter n (fun c => mkconn (g_op c) (g_src c) (list_discard1 k (g_tgt c))) c =
    mkconn (g_op c) (g_src c) (Nat.iter n (list_discard1 k) (g_tgt c)).
  Proof. induction n; simpl; [destruct c; auto|]. rewrite IHn; auto. Qed.
  Lemma iter_src n k c :
    Nat.iter n (fun c => mkconn (g_op c) (list_discard1 k (g_src c)) (g_tgt c)) c =
    mkconn (g_op c) (Nat.iter n (list_discard1 k) (g_src c)) (g_tgt c).
  Proof. induction n; simpl; [destruct c; auto|]. rewrite IHn; auto. Qed.
  Lemma shrink_tgt k : shrink (fun c => mkconn (g_op c) (g_src c) (list_discard1 k (g_tgt c))).
  Proof. split; simpl; auto. intros c ->; reflexivity. Qed.
  Lemma shrink_src k : shrink (fun c => mkconn (g_op c) (list_discard1 k (g_src c)) (g_tgt c)).
  Proof. split; simpl; auto. intros c ->; reflexivity. Qed.

  Record removed (k : string) (c : gconn) (g g' : graph) : Prop := {
    r_get : forall x, dget x (conns g') =
      if eq_dec x k then None else
      option_map (fun y => mkconn (g_op y) (Nat.iter (cnt x (g_tgt c)) (list_discard1 k) (g_src y))
                                  (Nat.iter (cnt x (g_src c)) (list_discard1 k) (g_tgt y)))
                 (dget x (conns g));
    r_dict : dwf (conns g');
    r_srcs_sub : forall x, In x (srcs g') -> x <> k /\ In x (srcs g);
    r_srcs_keep : forall x, x <> k -> In x (srcs g) -> tgt g' x <> [] -> In x (srcs g');
    r_tgts_sub : forall x, In x (tgts g') -> x <> k /\ In x (tgts g);
    r_tgts_keep : forall x, x <> k -> In x (tgts g) -> ~ In x (tgts g') ->
                            In x (g_src c ++ g_tgt c) /\ src g' x = [];
    r_outd : outd g' = outd g; r_utab : utab g' = utab g; r_vtab : vtab g' = vtab g;
    r_inkeys : inkeys g' = inkeys g; r_allk : allk g' = allk g;
    r_mtab : mtab g' = match g_op c with Some o => ddel (op_id o) (mtab g) | None => mtab g end;
    r_statics : statics g' = if mem k (dvals (outd g)) then statics g else ddel k (statics g);
    r_unused : unused g' = if mem k (dvals (outd g)) then unused g else sadd k (unused g)
  }.

  Lemma remove_conn_spec k c (g : graph) :
    dwf (conns g) -> dget k (conns g) = Some c ->
    (forall x, In x (g_src c) -> x <> k /\ exists y, dget x (conns g) = Some y) ->
    (forall x, In x (g_tgt c) -> x <> k /\ exists y, dget x (conns g) = Some y) ->
    exists g', remove_conn k c g = Ok g' /\ removed k c g g'.
  Proof.
    intros D Hk Hs Ht. unfold remove_conn.
    assert (Mk : dmem k (conns g) = true) by (unfold dmem; rewrite Hk; auto).
    rewrite Mk; simpl.
    set (g0 := if negb (mem k (dvals (outd g))) then _ else g).
    set (g1 := set_conns (ddel k (conns g0)) g0).
    assert (C0 : conns g0 = conns g) by (subst g0; destruct (mem k (dvals (outd g))); reflexivity).
    assert (S0 : srcs g0 = srcs g) by (subst g0; destruct (mem k (dvals (outd g))); reflexivity).
    assert (T0 : tgts g0 = tgts g) by (subst g0; destruct (mem k (dvals (outd g))); reflexivity).
    assert (C1 : conns g1 = ddel k (conns g)) by (subst g1; simpl; rewrite C0; auto).
    destruct (foldM_upd (fun c => mkconn (g_op c) (g_src c) (list_discard1 k (g_tgt c)))
                (remove_src_step k) true (g_src c) (shrink_tgt k)) with (g := g1)
      as (g2 & E2 & U2 & _).
    { intros h x y Hy. unfold remove_src_step, getc. rewrite Hy; reflexivity. }
    { intros x I. destruct (Hs x I) as (N & y & Hy). exists y.
      rewrite C1, dget_ddel_other; auto. }
    rewrite E2; simpl.
    assert (G2 : forall x, dget x (conns g2) = if eq_dec x k then None else
        option_map (fun y => mkconn (g_op y) (g_src y)
              (Nat.iter (cnt x (g_src c)) (list_discard1 k) (g_tgt y))) (dget x (conns g))).
    { intros x. rewrite (u_get _ _ _ _ U2), C1, dget_ddel by auto.
      destruct (eq_dec x k); auto. destruct (dget x (conns g)); simpl; auto.
      rewrite iter_tgt; auto. }
    destruct (foldM_upd (fun c => mkconn (g_op c) (list_discard1 k (g_src c)) (g_tgt c))
                (remove_tgt_step k) true (g_tgt c) (shrink_src k)) with (g := g2)
      as (g3 & E3 & U3 & _).
    { intros h x y Hy. unfold remove_tgt_step, getc. rewrite Hy; reflexivity. }
    { intros x I. destruct (Ht x I) as (N & y & Hy). rewrite G2.
      destruct (eq_dec x k); [congruence|]. rewrite Hy; simpl; eauto. }
    rewrite E3; simpl.
    assert (G3 : forall x, dget x (conns g3) = if eq_dec x k then None else
        option_map (fun y => mkconn (g_op y) (Nat.iter (cnt x (g_tgt c)) (list_discard1 k) (g_src y))
              (Nat.iter (cnt x (g_src c)) (list_discard1 k) (g_tgt y))) (dget x (conns g))).
    { intros x. rewrite (u_get _ _ _ _ U3), G2.
      destruct (eq_dec x k); auto. destruct (dget x (conns g)); simpl; auto.
      rewrite iter_src; auto. }
    set (g4 := set_tgts _ _).
    set (g5 := match g_op c with Some _ => _ | None => _ end).
    assert (C5 : conns g5 = conns g3) by (subst g5 g4; destruct (g_op c); reflexivity).
    assert (S5 : srcs g5 = sremove k (srcs g3)) by (subst g5 g4; destruct (g_op c); reflexivity).
    assert (T5 : tgts g5 = sremove k (tgts g3)) by (subst g5 g4; destruct (g_op c); reflexivity).
    destruct (rest_fields _ _ (u_rest _ _ _ _ U2)) as (a2 & b2 & c2 & d2 & e2 & f2 & h2 & i2).
    destruct (rest_fields _ _ (u_rest _ _ _ _ U3)) as (a3 & b3 & c3 & d3 & e3 & f3 & h3 & i3).
    exists g5; split; auto. constructor.
    - intros x. rewrite C5. apply G3.
    - rewrite C5. apply (u_dict _ _ _ _ U3), (u_dict _ _ _ _ U2). rewrite C1. apply dwf_ddel; auto.
    - intros x. rewrite S5, In_sremove. intros (N & I). split; auto.
      apply (u_srcs_sub _ _ _ _ U3), (u_srcs_sub _ _ _ _ U2) in I. subst g1; simpl in I. congruence.
    - intros x N I NE. rewrite S5, In_sremove. split; auto.
      destruct (in_dec string_dec x (srcs g3)) as [|N3]; auto. exfalso.
      assert (T3 : tgt g3 x = tgt g5 x) by (rewrite !tgt_get, C5; auto).
      destruct (in_dec string_dec x (srcs g2)) as [I2|N2].
      + destruct (u_srcs_keep _ _ _ _ U3 x I2 N3). congruence.
      + destruct (u_srcs_keep _ _ _ _ U2 x) as (_ & Z); auto.
        { subst g1; simpl. congruence. }
        assert (tgt g3 x = tgt g2 x); [|congruence].
        rewrite !tgt_get, G2, G3. destruct (eq_dec x k); auto.
        destruct (dget x (conns g)); simpl; auto.
    - intros x. rewrite T5, In_sremove. intros (N & I). split; auto.
      apply (u_tgts_sub _ _ _ _ U3), (u_tgts_sub _ _ _ _ U2) in I. subst g1; simpl in I. congruence.
    - intros x N I NI. rewrite T5, In_sremove in NI.
      assert (N3 : ~ In x (tgts g3)) by tauto.
      assert (T3 : src g5 x = src g3 x) by (rewrite !src_get, C5; auto). rewrite in_app_iff.
      destruct (in_dec string_dec x (tgts g2)) as [I2|N2].
      + destruct (u_tgts_keep _ _ _ _ U3 x I2 N3). rewrite T3. auto.
      + destruct (u_tgts_keep _ _ _ _ U2 x) as (I' & Z); auto.
        { subst g1; simpl. congruence. }
        split; auto. rewrite T3.
        rewrite src_get, G2 in Z. rewrite src_get, G3.
        destruct (eq_dec x k); auto. destruct (dget x (conns g)) as [y|]; simpl in *; auto.
        rewrite Z. clear; induction (cnt x (g_tgt c)); simpl; auto. rewrite IHn; auto.
    - transitivity (outd g3); [subst g5 g4; destruct (g_op c); reflexivity|].
      rewrite c3, c2. subst g1 g0; destruct (mem k (dvals (outd g))); reflexivity.
    - transitivity (utab g3); [subst g5 g4; destruct (g_op c); reflexivity|].
      rewrite e3, e2. subst g1 g0; destruct (mem k (dvals (outd g))); reflexivity.
    - transitivity (vtab g3); [subst g5 g4; destruct (g_op c); reflexivity|].
      rewrite f3, f2. subst g1 g0; destruct (mem k (dvals (outd g))); reflexivity.
    - transitivity (inkeys g3); [subst g5 g4; destruct (g_op c); reflexivity|].
      rewrite b3, b2. subst g1 g0; destruct (mem k (dvals (outd g))); reflexivity.
    - transitivity (allk g3); [subst g5 g4; destruct (g_op c); reflexivity|].
      rewrite a3, a2. subst g1 g0; destruct (mem k (dvals (outd g))); reflexivity.
    - assert (M : mtab g3 = mtab g).
      { rewrite d3, d2. subst g1 g0; destruct (mem k (dvals (outd g))); reflexivity. }
      subst g5 g4; destruct (g_op c); simpl; congruence.
    - transitivity (statics g3); [subst g5 g4; destruct (g_op c); reflexivity|].
      rewrite h3, h2. subst g1 g0; destruct (mem k (dvals (outd g))); reflexivity.
    - transitivity (unused g3); [subst g5 g4; destruct (g_op c); reflexivity|].
      rewrite i3, i2. subst g1 g0; destruct (mem k (dvals (outd g))); reflexivity.
  Qed.

  (** ** Merging a key into another one *)
  Record merged (c s : string) (g g' : graph) : Prop := {
    m_get : forall x, dget x (conns g') =
      if eq_dec x c then None else
      option_map (fun y => mkconn (g_op y) (map (subst_key c s) (g_src y))
                    (without c (g_tgt y ++ if eq_dec x s then tgt g c else [])))
                 (dget x (conns g));
    m_dict : dwf (conns g');
    m_srcs_keep : forall x, x <> c -> tgt g' x <> [] -> In x (srcs g');
    m_srcs_sub : forall x, In x (srcs g') -> x <> c /\ (x = s \/ In x (srcs g));
    m_tgts : forall x, In x (tgts g') <-> x <> c /\ In x (tgts g);
    m_utab : utab g' = utab g; m_vtab : vtab g' = vtab g;
    m_inkeys : inkeys g' = inkeys g; m_allk : allk g' = allk g;
    m_mtab : forall o, opof g c = Some o -> mtab g' = ddel (op_id o) (mtab g);
    m_statics : statics g' = statics g;
    m_unused : forall x, In x (unused g') -> x = c \/ In x (unused g)
  }.

  Lemma ddel_absent {K W} `{EqDec K} (k : K) (d : dict K W) : dget k d = None -> ddel k d = d.
  Proof.
    induction d as [|[k' v] d IH]; simpl; auto. destruct (eq_dec k k'); [discriminate|].
    intros E; f_equal; auto.
  Qed.
  Lemma map_subst_idem x y l : x <> y ->
    map (subst_key x y) (map (subst_key x y) l) = map (subst_key x y) l.
  Proof.
    intros N. apply map_subst_id. intros I. apply cnt_In in I.
    rewrite cnt_map_subst_old in I; auto; lia.
  Qed.
  Lemma iter_redirect n x y c :
    x <> y ->
    Nat.iter (S n) (fun c => mkconn (g_op c) (map (subst_key x y) (g_src c)) (g_tgt c)) c =
    mkconn (g_op c) (map (subst_key x y) (g_src c)) (g_tgt c).
  Proof.
    intros N. set (f := fun c => _). induction n; [reflexivity|].
    change (f (Nat.iter (S n) f c) = f c). rewrite IHn. unfold f; simpl.
    rewrite map_subst_idem; auto.
  Qed.

  Lemma wf_cnt_src g k c x : wf g -> dget k (conns g) = Some c ->
    cnt x (g_src c) = cnt k (tgt g x).
  Proof. intros W E. rewrite (w_mirror g W), src_get, E. auto. Qed.
  Lemma wf_cnt_tgt g k c x : wf g -> dget k (conns g) = Some c ->
    cnt x (g_tgt c) = cnt k (src g x).
  Proof. intros W E. rewrite <- (w_mirror g W), tgt_get, E. auto. Qed.

  (** Common end of the two merging branches: the graph [g2] already has its source lists
      redirected and the target list of [s] extended. *)
  Lemma merge_finish k s c (g g2 : graph) :
    wf g -> dget k (conns g) = Some c -> s <> k -> ~ In k (src g k) ->
    (exists sc, dget s (conns g) = Some sc) ->
    dget k (statics g) = None ->
    (forall x, dget x (conns g2) =
       option_map (fun y => mkconn (g_op y) (if eq_dec x k then g_src y else map (subst_key k s) (g_src y))
                      (g_tgt y ++ if eq_dec x s then g_tgt c else [])) (dget x (conns g))) ->
    dwf (conns g2) -> srcs g2 = srcs g -> tgts g2 = tgts g ->
    utab g2 = utab g -> vtab g2 = vtab g -> inkeys g2 = inkeys g -> allk g2 = allk g ->
    mtab g2 = mtab g -> statics g2 = statics g -> unused g2 = unused g ->
    exists g', remove_conn k c g2 = Ok g' /\ outd g' = outd g2 /\
      (forall x, x <> k -> In x (srcs g) -> tgt g' x <> [] -> In x (srcs g')) /\
      (forall gs, srcs gs = sadd s (srcs g') -> conns gs = conns g' ->
         tgts gs = tgts g' -> utab gs = utab g' -> vtab gs = vtab g' -> inkeys gs = inkeys g' ->
         allk gs = allk g' -> mtab gs = mtab g' -> statics gs = statics g' -> unused gs = unused g' ->
         merged k s g gs) /\
      (In s (srcs g) -> merged k s g g').
  Proof.
    intros W Hk Nsk Nself Hs Hst G2 D2 ES ET EU EV EI EA EM ESt EUn.
    assert (Ktgt : ~ In k (g_tgt c)).
    { intros I. apply Nself. apply (wf_mirror_In g k k W). rewrite tgt_get, Hk; auto. }
    assert (Ksrc : ~ In k (g_src c)).
    { intros I. apply Nself. rewrite src_get, Hk; auto. }
    assert (Hk2 : dget k (conns g2) = Some c).
    { rewrite G2, Hk; simpl. destruct (eq_dec k k); [|congruence].
      destruct (eq_dec k s); [congruence|]. rewrite app_nil_r. destruct c; reflexivity. }
    destruct (remove_conn_spec k c g2 D2 Hk2) as (g' & E & R).
    { intros x I. split; [intros ->; tauto|].
      destruct (wf_src_present g x k W) as (y & Hy). { rewrite src_get, Hk; auto. }
      rewrite G2, Hy; simpl; eauto. }
    { intros x I. split; [intros ->; tauto|].
      destruct (wf_tgt_present g k x W) as (y & Hy). { rewrite tgt_get, Hk; auto. }
      rewrite G2, Hy; simpl; eauto. }
    assert (G' : forall x, dget x (conns g') =
      if eq_dec x k then None else
      option_map (fun y => mkconn (g_op y) (map (subst_key k s) (g_src y))
                    (without k (g_tgt y ++ if eq_dec x s then tgt g k else [])))
                 (dget x (conns g))).
    { intros x. rewrite (r_get _ _ _ _ R), G2. destruct (eq_dec x k); auto.
      destruct (dget x (conns g)) as [y|] eqn:Hx; simpl; auto. f_equal. f_equal.
      - rewrite discard_iter.
        + apply without_notin. intros I. apply cnt_In in I. rewrite cnt_map_subst_old in I; auto; lia.
        + rewrite cnt_map_subst_old; auto; lia.
      - rewrite tgt_get, Hk. apply discard_iter. rewrite cnt_app.
        rewrite (wf_cnt_src g k c x W Hk). rewrite tgt_get, Hx.
        destruct (eq_dec x s).
        + assert (cnt k (g_tgt c) = 0) by (apply cnt_not_In; auto). lia.
        + unfold cnt at 2; simpl; lia. }
    assert (Kp : forall x, x <> k -> In x (srcs g) -> tgt g' x <> [] -> In x (srcs g')).
    { intros x N I NE. apply (r_srcs_keep _ _ _ _ R); auto; congruence. }
    assert (Tg : forall x, In x (tgts g') <-> x <> k /\ In x (tgts g)).
    { intros x; split.
      - intros I. apply (r_tgts_sub _ _ _ _ R) in I. rewrite ET in I; auto.
      - intros (N & I). destruct (in_dec string_dec x (tgts g')) as [|NI]; auto. exfalso.
        rewrite <- ET in I.
        destruct (r_tgts_keep _ _ _ _ R x N I NI) as (Ia & Z).
        rewrite src_get, G' in Z. destruct (eq_dec x k); [congruence|].
        assert (P : exists y, dget x (conns g) = Some y).
        { apply in_app_iff in Ia. destruct Ia as [Ia|Ia].
          - apply (wf_src_present g x k W). rewrite src_get, Hk; auto.
          - apply (wf_tgt_present g k x W). rewrite tgt_get, Hk; auto. }
        destruct P as (y & Hy). rewrite Hy in Z; simpl in Z.
        assert (Z' : src g x = []).
        { rewrite src_get, Hy. destruct (g_src y); auto; discriminate. }
        apply (w_op g W) in Z'.
        assert (In x (dkeys (conns g))) by (apply In_keys_get; eauto).
        rewrite ET in I. apply (w_tgts g W x) in I; auto. }
    assert (Un : forall x, In x (unused g') -> x = k \/ In x (unused g)).
    { intros x. rewrite (r_unused _ _ _ _ R), EUn. destruct (mem k (dvals (outd g2))); auto.
      rewrite In_sadd; auto. }
    assert (St : statics g' = statics g).
    { rewrite (r_statics _ _ _ _ R), ESt. destruct (mem k (dvals (outd g2))); auto.
      apply ddel_absent; auto. }
    assert (Mt : forall o, opof g k = Some o -> mtab g' = ddel (op_id o) (mtab g)).
    { intros o Ho. rewrite (r_mtab _ _ _ _ R), EM. unfold opof in Ho. rewrite Hk in Ho.
      rewrite Ho; auto. }
    assert (Tsub : forall x, x <> k -> x <> s -> tgt g' x <> [] -> tgt g x <> []).
    { intros x N N2 NE Z. apply NE. rewrite tgt_get, G'. destruct (eq_dec x k); auto.
      rewrite tgt_get in Z. destruct (dget x (conns g)); simpl; auto. rewrite Z.
      destruct (eq_dec x s); [congruence|]. reflexivity. }
    exists g'. split; [exact E|]. split; [apply (r_outd _ _ _ _ R)|]. split; [exact Kp|]. split.
    - intros gs Hsrcs Hc Ht Hu Hv Hi Ha Hm Hss Hun. constructor.
      + intros x; rewrite Hc; apply G'.
      + rewrite Hc; apply (r_dict _ _ _ _ R).
      + intros x N NE. rewrite Hsrcs, In_sadd. destruct (eq_dec x s); auto. right.
        assert (NE' : tgt g' x <> []) by (rewrite tgt_get in NE |- *; rewrite Hc in NE; auto).
        apply Kp; auto. apply (w_srcs g W), Tsub; auto.
      + intros x. rewrite Hsrcs, In_sadd. intros [->|I]; auto.
        apply (r_srcs_sub _ _ _ _ R) in I. rewrite ES in I. tauto.
      + intros x; rewrite Ht; apply Tg.
      + rewrite Hu, (r_utab _ _ _ _ R); auto.
      + rewrite Hv, (r_vtab _ _ _ _ R); auto.
      + rewrite Hi, (r_inkeys _ _ _ _ R); auto.
      + rewrite Ha, (r_allk _ _ _ _ R); auto.
      + intros o Ho; rewrite Hm; auto.
      + congruence.
      + intros x; rewrite Hun; auto.
    - intros Is. constructor; auto.
      + apply (r_dict _ _ _ _ R).
      + intros x N NE. apply Kp; auto. destruct (eq_dec x s); [subst; auto|].
        apply (w_srcs g W), Tsub; auto.
      + intros x I. apply (r_srcs_sub _ _ _ _ R) in I. rewrite ES in I. tauto.
      + rewrite (r_utab _ _ _ _ R); auto.
      + rewrite (r_vtab _ _ _ _ R); auto.
      + rewrite (r_inkeys _ _ _ _ R); auto.
      + rewrite (r_allk _ _ _ _ R); auto.
  Qed.

  Lemma prune_connection_spec k s c (g : graph) :
    wf g -> dget k (conns g) = Some c -> s <> k -> ~ In k (src g k) ->
    (exists sc, dget s (conns g) = Some sc) -> dget k (statics g) = None ->
    exists g', prune_connection k s g = Ok g' /\ merged k s g g' /\
      outd g' = map (fun p => (fst p, if eq_dec (snd p) k then s else snd p)) (outd g).
  Proof.
    intros W Hk Nsk Nself (sc & Hs) Hst. unfold prune_connection.
    unfold getc at 1 2. simpl conns at 1 2. rewrite Hk, Hs. simpl bind.
    set (g0 := collapse_outputs k s g).
    set (g1 := setc s _ g0).
    assert (Ktgt : ~ In k (g_tgt c)).
    { intros I. apply Nself. apply (wf_mirror_In g k k W). rewrite tgt_get, Hk; auto. }
    destruct (foldM_upd (fun c => mkconn (g_op c) (map (subst_key k s) (g_src c)) (g_tgt c))
                (redirect_target k s) false (g_tgt c)) with (g := g1)
      as (g2 & E2 & U2 & NI).
    { split; simpl; auto. intros y ->; reflexivity. }
    { intros h x y Hy. unfold redirect_target, getc. rewrite Hy; reflexivity. }
    { intros x I. destruct (wf_tgt_present g k x W) as (y & Hy). { rewrite tgt_get, Hk; auto. }
      subst g1; simpl. rewrite dget_dset. destruct (eq_dec x s); eauto. }
    rewrite E2; simpl.
    destruct (NI eq_refl) as (S2 & T2).
    destruct (rest_fields _ _ (u_rest _ _ _ _ U2)) as (a2 & b2 & c2 & d2 & e2 & f2 & h2 & i2).
    assert (G2 : forall x, dget x (conns g2) =
       option_map (fun y => mkconn (g_op y) (if eq_dec x k then g_src y else map (subst_key k s) (g_src y))
                      (g_tgt y ++ if eq_dec x s then g_tgt c else [])) (dget x (conns g))).
    { intros x. rewrite (u_get _ _ _ _ U2). subst g1. simpl conns. rewrite dget_dset.
      assert (Cx : cnt x (g_tgt c) = cnt k (src g x)) by (apply wf_cnt_tgt; auto).
      destruct (eq_dec x s).
      - subst x. rewrite Hs; cbn [option_map]. destruct (eq_dec s k); [congruence|].
        destruct (cnt s (g_tgt c)) eqn:En.
        + simpl. rewrite map_subst_id; auto. rewrite src_get, Hs in Cx. apply cnt_not_In; auto.
        + rewrite iter_redirect by auto. reflexivity.
      - destruct (dget x (conns g)) as [y|] eqn:Hx; simpl; auto. rewrite app_nil_r. f_equal.
        destruct (eq_dec x k).
        + subst x. apply cnt_not_In in Ktgt. rewrite Ktgt. destruct y; auto.
        + destruct (cnt x (g_tgt c)) eqn:En.
          * simpl. rewrite map_subst_id; [destruct y; auto|]. rewrite src_get, Hx in Cx.
            apply cnt_not_In; auto.
          * apply iter_redirect; auto. }
    destruct (merge_finish k s c g g2) as (g' & E & EO & Kp & M & _); auto.
    { eauto. }
    { apply (u_dict _ _ _ _ U2). subst g1; simpl. apply dwf_dset, (w_dict g W). }
    assert (Hk2 : dget k (conns g2) = Some c).
    { rewrite G2, Hk; simpl. destruct (eq_dec k k); [|congruence].
      destruct (eq_dec k s); [congruence|]. rewrite app_nil_r. destruct c; reflexivity. }
    unfold getc. rewrite Hk2; simpl. rewrite E; simpl.
    eexists; split; [reflexivity|]. split.
    - apply M; auto.
    - simpl. rewrite EO, c2. reflexivity.
  Qed.

  (** Buffer branch. *)
  Lemma replace1_iter x y n : forall l, x <> y -> cnt x l <= n ->
    Nat.iter n (replace1 x y) l = map (subst_key x y) l.
  Proof.
    intros l N.
    enough (H : cnt x (Nat.iter n (replace1 x y) l) = cnt x l - n /\
                map (subst_key x y) (Nat.iter n (replace1 x y) l) = map (subst_key x y) l).
    { intros L. destruct H as (C & W). rewrite <- W. symmetry; apply map_subst_id, cnt_not_In. lia. }
    induction n as [|n (C & W)]; simpl; [split; auto; lia|].
    unfold replace1 at 1 3. destruct (list_replace1 x y (Nat.iter n (replace1 x y) l)) eqn:E.
    - apply list_replace1_cnt in E; auto. destruct E as (C' & W'). rewrite W'. split; auto; lia.
    - split; auto. assert (~ In x (Nat.iter n (replace1 x y) l)).
      { intros I. apply (list_replace1_some x y) in I. destruct I; congruence. }
      apply cnt_not_In in H. lia.
  Qed.
  Definition redirect_total (old new : string) (g : graph) (t : string) : res graph :=
    bind (getc t g) (fun c => Ok (setc t (mkconn (g_op c) (replace1 old new (g_src c)) (g_tgt c)) g)).
  Lemma redirect1_total old new L : old <> new -> forall (g : graph),
    (forall x, In x L -> exists c, dget x (conns g) = Some c) ->
    (forall x, cnt x L <= cnt old (src g x)) ->
    foldM (redirect_target1 old new) L g = foldM (redirect_total old new) L g.
  Proof.
    intros N. induction L as [|t L IH]; intros g P C; simpl; auto.
    destruct (P t (or_introl eq_refl)) as (c & Hc).
    unfold redirect_target1, redirect_total, getc. rewrite Hc; simpl.
    pose proof (C t) as Ct. rewrite cnt_cons, src_get, Hc in Ct.
    destruct (eq_dec t t); [|congruence].
    destruct (list_replace1_some old new (g_src c)) as (l' & E). { apply cnt_In; lia. }
    unfold replace1. rewrite E; simpl. apply IH.
    - intros x I. simpl. rewrite dget_dset. destruct (eq_dec x t); eauto. apply P; simpl; auto.
    - intros x. rewrite src_get; simpl. rewrite dget_dset. destruct (eq_dec x t).
      + subst; simpl. apply list_replace1_cnt in E; auto. lia.
      + specialize (C x). rewrite cnt_cons, src_get in C. destruct (eq_dec t x); [congruence|]. auto.
  Qed.

  Lemma nuke_buffer_spec k i r c (g : graph) :
    wf g -> dget k (conns g) = Some c -> g_src c = i :: r -> ~ In k (src g k) ->
    dget k (statics g) = None ->
    exists g', nuke_buffer k c g = Ok g' /\ merged k i g g' /\
      outd g' = if dmem k (outd g) then dset k i (outd g) else outd g.
  Proof.
    intros W Hk Hi Nself Hst. unfold nuke_buffer. rewrite Hi.
    assert (Ii : In i (src g k)) by (rewrite src_get, Hk, Hi; simpl; auto).
    assert (Nik : i <> k) by (intros ->; tauto).
    destruct (wf_src_present g i k W Ii) as (ic & Hic).
    unfold getc at 1. rewrite Hic; simpl bind.
    set (g0 := if dmem k (outd g) then _ else g).
    assert (C0 : conns g0 = conns g) by (subst g0; destruct (dmem k (outd g)); reflexivity).
    assert (Ktgt : ~ In k (g_tgt c)).
    { intros I. apply Nself. apply (wf_mirror_In g k k W). rewrite tgt_get, Hk; auto. }
    rewrite (redirect1_total k i (g_tgt c)); auto.
    2:{ intros x I. rewrite C0. apply (wf_tgt_present g k x W). rewrite tgt_get, Hk; auto. }
    2:{ intros x. rewrite (wf_cnt_tgt g k c x W Hk), !src_get, C0. auto. }
    destruct (foldM_upd (fun c => mkconn (g_op c) (replace1 k i (g_src c)) (g_tgt c))
                (redirect_total k i) false (g_tgt c)) with (g := g0)
      as (g2 & E2 & U2 & NI).
    { split; simpl; auto. intros y ->; reflexivity. }
    { intros h x y Hy. unfold redirect_total, getc. rewrite Hy; reflexivity. }
    { intros x I. rewrite C0. apply (wf_tgt_present g k x W). rewrite tgt_get, Hk; auto. }
    rewrite E2; simpl.
    destruct (NI eq_refl) as (S2 & T2).
    destruct (rest_fields _ _ (u_rest _ _ _ _ U2)) as (a2 & b2 & c2 & d2 & e2 & f2 & h2 & i2).
    assert (It : forall n y, Nat.iter n (fun c => mkconn (g_op c) (replace1 k i (g_src c)) (g_tgt c)) y
                 = mkconn (g_op y) (Nat.iter n (replace1 k i) (g_src y)) (g_tgt y)).
    { induction n; intros y; simpl; [destruct y; auto|]. rewrite IHn; auto. }
    assert (G2 : forall x, dget x (conns g2) =
       option_map (fun y => mkconn (g_op y) (if eq_dec x k then g_src y else map (subst_key k i) (g_src y))
                      (g_tgt y)) (dget x (conns g))).
    { intros x. rewrite (u_get _ _ _ _ U2), C0.
      destruct (dget x (conns g)) as [y|] eqn:Hx; simpl; auto. f_equal. rewrite It. f_equal.
      assert (Cx : cnt x (g_tgt c) = cnt k (src g x)) by (apply wf_cnt_tgt; auto).
      rewrite src_get, Hx in Cx.
      destruct (eq_dec x k).
      - subst x. apply cnt_not_In in Ktgt. rewrite Ktgt. auto.
      - rewrite Cx. apply replace1_iter; auto. }
    unfold getc at 1. rewrite (G2 i), Hic; simpl bind.
    set (g3 := setc i _ g2).
    assert (F0 : srcs g0 = srcs g /\ tgts g0 = tgts g /\ utab g0 = utab g /\ vtab g0 = vtab g /\
                 inkeys g0 = inkeys g /\ allk g0 = allk g /\ mtab g0 = mtab g /\
                 statics g0 = statics g /\ unused g0 = unused g).
    { subst g0; destruct (dmem k (outd g)); repeat split. }
    destruct F0 as (F1 & F2 & F3 & F4 & F5 & F6 & F7 & F8 & F9).
    destruct (merge_finish k i c g g3) as (g' & E & EO & Kp & _ & M); auto; subst g3; simpl; try congruence.
    { eauto. }
    { intros x. rewrite dget_dset. destruct (eq_dec x i).
      - subst x. rewrite Hic; simpl. destruct (eq_dec i k); [congruence|]. reflexivity.
      - rewrite G2. destruct (dget x (conns g)); simpl; auto. rewrite app_nil_r; auto. }
    { apply dwf_dset, (u_dict _ _ _ _ U2). rewrite C0; apply (w_dict g W). }
    unfold getc. simpl. rewrite dget_dset. destruct (eq_dec k i); [congruence|].
    rewrite (G2 k), Hk; simpl. destruct (eq_dec k k); [|congruence].
    replace (mkconn (g_op c) (g_src c) (g_tgt c)) with c by (destruct c; auto).
    simpl in E. rewrite E. exists g'. split; auto. split.
    - apply M. apply (w_srcs g W). intros Z. apply (wf_mirror_In g i k W) in Ii. rewrite Z in Ii. destruct Ii.
    - rewrite EO. simpl. rewrite c2. subst g0. destruct (dmem k (outd g)); auto.
  Qed.

  (** ** Unlinking a statically known operator *)
  Definition strip_all (L l : list string) : list string := fold_left (fun l s => without s l) L l.
  Lemma strip_all_In L : forall l x, In x (strip_all L l) <-> In x l /\ ~ In x L.
  Proof.
    induction L as [|s L IH]; intros l x; simpl; [tauto|].
    unfold strip_all in *. rewrite IH, In_without. intuition.
  Qed.
  Lemma strip_all_self l : strip_all l l = [].
  Proof.
    destruct (strip_all l l) as [|x r] eqn:E; auto.
    assert (I : In x (strip_all l l)) by (rewrite E; simpl; auto).
    apply strip_all_In in I. tauto.
  Qed.

  Lemma unlink_fold k L : forall (g : graph),
    ~ In k L -> dwf (conns g) ->
    (exists c, dget k (conns g) = Some c) ->
    (forall x, cnt x L <= cnt k (tgt g x)) ->
    exists g', foldM (unlink_step k) L g = Ok g' /\ rest g' = rest g /\ dwf (conns g') /\
      (forall x, dget x (conns g') =
         option_map (fun y => if eq_dec x k then mkconn (g_op y) (strip_all L (g_src y)) (g_tgt y)
                              else mkconn (g_op y) (g_src y)
                                     (Nat.iter (cnt x L) (list_discard1 k) (g_tgt y)))
                    (dget x (conns g))) /\
      (forall x, In x (srcs g') -> In x (srcs g)) /\
      (forall x, In x (srcs g) -> tgt g' x <> [] -> In x (srcs g')) /\
      (forall x, In x (tgts g') -> In x (tgts g)) /\
      (forall x, x <> k -> In x (tgts g) -> ~ In x (tgts g') -> In x L /\ src g x = []) /\
      (forall x, In x (tgts g) -> ~ In x L -> In x (tgts g')).
  Proof.
    induction L as [|s L IH]; intros g Nk D (c & Hk) C; simpl.
    - exists g. repeat split; auto; try tauto. intros x.
      destruct (dget x (conns g)) as [y|]; simpl; auto. destruct (eq_dec x k), y; auto.
    - assert (Nsk : s <> k) by (intros ->; apply Nk; simpl; auto).
      pose proof (C s) as Cs. rewrite cnt_cons in Cs. destruct (eq_dec s s); [|congruence].
      rewrite tgt_get in Cs.
      destruct (dget s (conns g)) as [sc|] eqn:Hs; [|unfold cnt at 2 in Cs; simpl in Cs; lia].
      destruct (list_remove_some k (g_tgt sc)) as (l & El). { apply cnt_In; lia. }
      unfold unlink_step at 1. unfold getc at 1. rewrite Hs; simpl bind. rewrite El; simpl bind.
      set (sc' := mkconn (g_op sc) (g_src sc) l).
      unfold getc at 1. rewrite update_conn_info_conns. simpl conns. rewrite dget_dset.
      destruct (eq_dec k s); [congruence|]. rewrite Hk; simpl bind.
      set (g1 := setc k _ _).
      assert (C1 : forall x, dget x (conns g1) =
         option_map (fun y => if eq_dec x k then mkconn (g_op y) (without s (g_src y)) (g_tgt y)
                              else mkconn (g_op y) (g_src y)
                                     (if eq_dec x s then list_discard1 k (g_tgt y) else g_tgt y))
                    (dget x (conns g))).
      { intros x. subst g1. simpl conns. rewrite update_conn_info_conns. simpl conns.
        rewrite dget_dset. destruct (eq_dec x k).
        - subst x. rewrite Hk. reflexivity.
        - rewrite dget_dset. destruct (eq_dec x s).
          + subst x. rewrite Hs. simpl. unfold list_discard1. rewrite El. reflexivity.
          + destruct (dget x (conns g)) as [y|]; simpl; auto. destruct y; auto. }
      destruct (IH g1) as (g' & E & Er & D' & G' & S1 & S2 & T1 & T2 & T3).
      { intros I; apply Nk; simpl; auto. }
      { subst g1; simpl. rewrite update_conn_info_conns. simpl. apply dwf_dset, dwf_dset; auto. }
      { rewrite C1, Hk; simpl; eauto. }
      { intros x. specialize (C x). rewrite cnt_cons in C. rewrite tgt_get, C1.
        rewrite tgt_get in C. destruct (dget x (conns g)) as [y|]; simpl; auto; try lia.
        destruct (eq_dec x k); simpl; [destruct (eq_dec s x); lia|].
        destruct (eq_dec x s), (eq_dec s x); try congruence; try lia.
        destruct (discard1_cnt k (g_tgt y)) as (-> & _). lia. }
      assert (Ss : srcs g1 = match l with [] => sremove s (srcs g) | _ => srcs g end).
      { subst g1. simpl. rewrite update_conn_info_srcs. reflexivity. }
      assert (Ts : tgts g1 = match g_src sc with [] => sremove s (tgts g) | _ => tgts g end).
      { subst g1. simpl. rewrite update_conn_info_tgts. reflexivity. }
      exists g'. split; auto. split; [|split; [|split; [|split; [|split; [|split; [|split]]]]]]; auto.
      + rewrite Er. subst g1. unfold setc. change (rest (update_conn_info s sc' (setc s sc' g)) = rest g).
        rewrite update_conn_info_rest. reflexivity.
      + intros x. rewrite G', C1. destruct (dget x (conns g)) as [y|]; simpl; auto.
        f_equal. destruct (eq_dec x k); simpl; auto. rewrite cnt_cons. f_equal.
        destruct (eq_dec x s), (eq_dec s x); try congruence; auto. rewrite iter_S; auto.
      + intros x I. apply S1 in I. rewrite Ss in I. destruct l; auto. apply In_sremove in I; tauto.
      + intros x I NE. apply S2; auto. rewrite Ss. destruct l as [|z l]; auto.
        apply In_sremove. split; auto. intros ->. apply NE. rewrite tgt_get, G', C1, Hs.
        simpl. destruct (eq_dec s k); [congruence|]. simpl.
        destruct (eq_dec s s); [|congruence]. unfold list_discard1 at 2. rewrite El.
        clear. induction (cnt s L); simpl; auto. rewrite IHn; auto.
      + intros x I. apply T1 in I. rewrite Ts in I. destruct (g_src sc); auto.
        apply In_sremove in I; tauto.
      + intros x N I NI. destruct (in_dec string_dec x (tgts g1)) as [I1|I1].
        * destruct (T2 x N I1 NI) as (? & Z). split; simpl; auto.
          rewrite src_get, C1 in Z. rewrite src_get. destruct (dget x (conns g)); auto.
          simpl in Z. destruct (eq_dec x k); [congruence|]. auto.
        * rewrite Ts in I1. destruct (g_src sc) eqn:Z; [|tauto]. rewrite In_sremove in I1.
          destruct (eq_dec x s); [|tauto]. subst x. split; simpl; auto. rewrite src_get, Hs; auto.
      + intros x I NI. apply T3; [|simpl in NI; tauto]. rewrite Ts. destruct (g_src sc); auto.
        apply In_sremove. split; auto.
  Qed.

  Record unlinked (k : string) (o : operator) (g g' : graph) : Prop := {
    n_get : forall x, dget x (conns g') =
      option_map (fun y => if eq_dec x k then mkconn None [] (g_tgt y)
                           else mkconn (g_op y) (g_src y) (without k (g_tgt y))) (dget x (conns g));
    n_dict : dwf (conns g');
    n_srcs_sub : forall x, In x (srcs g') -> In x (srcs g);
    n_srcs_keep : forall x, In x (srcs g) -> tgt g' x <> [] -> In x (srcs g');
    n_tgts : forall x, In x (tgts g') <-> x <> k /\ In x (tgts g);
    n_allk : allk g' = allk g; n_inkeys : inkeys g' = inkeys g; n_outd : outd g' = outd g;
    n_mtab : mtab g' = ddel (op_id o) (mtab g);
    n_utab : utab g' = utab g; n_vtab : vtab g' = vtab g; n_statics : statics g' = statics g;
    n_unused : unused g' = unused g
  }.

  Lemma unlink_static_spec k o c (g : graph) :
    wf g -> dget k (conns g) = Some c -> ~ In k (src g k) ->
    exists g', unlink_static o k c g = Ok g' /\ unlinked k o g g'.
  Proof.
    intros W Hk Nself. unfold unlink_static.
    destruct (unlink_fold k (g_src c) g) as (g1 & E & Er & D & G & S1 & S2 & T1 & T2 & T3); eauto.
    { intros I; apply Nself; rewrite src_get, Hk; auto. }
    { apply (w_dict g W). }
    { intros x. rewrite (wf_cnt_src g k c x W Hk). auto. }
    rewrite E; simpl. unfold getc. rewrite G, Hk; simpl.
    destruct (eq_dec k k); [|congruence]. simpl. rewrite strip_all_self.
    eexists; split; [reflexivity|].
    destruct (rest_fields _ _ Er) as (a2 & b2 & c2 & d2 & e2 & f2 & h2 & i2).
    assert (Gn : forall x, dget x (dset k (mkconn None [] (g_tgt c)) (conns g1)) =
      option_map (fun y => if eq_dec x k then mkconn None [] (g_tgt y)
                           else mkconn (g_op y) (g_src y) (without k (g_tgt y))) (dget x (conns g))).
    { intros x. rewrite dget_dset. destruct (eq_dec x k).
      - subst; rewrite Hk; auto.
      - rewrite G. destruct (dget x (conns g)) as [y|] eqn:Hx; simpl; auto.
        destruct (eq_dec x k); [congruence|]. f_equal. f_equal. apply discard_iter.
        rewrite (wf_cnt_src g k c x W Hk), tgt_get, Hx. auto. }
    constructor; simpl; auto.
    - apply dwf_dset; auto.
    - intros x I NE. apply S2; auto. intros Z. apply NE.
      rewrite tgt_get in *. simpl. rewrite Gn. rewrite G in Z.
      destruct (dget x (conns g)) as [y|] eqn:Hx; simpl in *; auto.
      destruct (eq_dec x k); auto. simpl in *.
      rewrite discard_iter in Z; auto. rewrite (wf_cnt_src g k c x W Hk), tgt_get, Hx. auto.
    - intros x. rewrite In_sremove. split; intros (N & I); split; auto.
      destruct (in_dec string_dec x (tgts g1)) as [|NI]; auto. exfalso.
      destruct (T2 x N I NI) as (Ix & Z). apply (w_op g W) in Z.
      destruct (wf_src_present g x k W) as (y & Hy). { rewrite src_get, Hk; auto. }
      apply (w_tgts g W x) in I; auto. apply In_keys_get; eauto.
    - rewrite d2; auto.
  Qed.

  (** ** Well-formedness is preserved *)
  Lemma merged_src k s g g' x : merged k s g g' -> x <> k ->
    src g' x = map (subst_key k s) (src g x).
  Proof.
    intros M N. rewrite !src_get, (m_get _ _ _ _ M). destruct (eq_dec x k); [congruence|].
    destruct (dget x (conns g)); auto.
  Qed.
  Lemma merged_src_self k s g g' : merged k s g g' -> src g' k = [].
  Proof.
    intros M. rewrite !src_get, (m_get _ _ _ _ M). destruct (eq_dec k k); [auto|congruence].
  Qed.
  Lemma merged_tgt k s g g' x : merged k s g g' -> x <> k -> (exists c, dget s (conns g) = Some c) ->
    tgt g' x = without k (tgt g x ++ if eq_dec x s then tgt g k else []).
  Proof.
    intros M N (c & Hs). rewrite (tgt_get g'), (tgt_get g x), (m_get _ _ _ _ M).
    destruct (eq_dec x k); [congruence|].
    destruct (eq_dec x s); [subst; rewrite Hs; auto|].
    destruct (dget x (conns g)); auto.
  Qed.
  Lemma merged_opof k s g g' x : merged k s g g' ->
    opof g' x = if eq_dec x k then None else opof g x.
  Proof.
    intros M. unfold opof. rewrite (m_get _ _ _ _ M). destruct (eq_dec x k); auto.
    destruct (dget x (conns g)); auto.
  Qed.
  Lemma merged_keys k s g g' x : merged k s g g' ->
    (In x (dkeys (conns g')) <-> x <> k /\ In x (dkeys (conns g))).
  Proof.
    intros M. rewrite !In_keys_get, (m_get _ _ _ _ M). destruct (eq_dec x k).
    - split; [intros (?&?); discriminate | tauto].
    - destruct (dget x (conns g)) as [y|] eqn:Hx; simpl; (split; [intros (z & Hz)|intros (_ & z & Hz)]);
        try discriminate; eauto.
  Qed.
  Lemma wf_merged k s g g' : wf g -> merged k s g g' -> s <> k ->
    (exists c, dget s (conns g) = Some c) -> ~ In k (src g k) -> wf g'.
  Proof.
    intros W M N Hs Nself. constructor.
    - apply (m_dict _ _ _ _ M).
    - intros a t. destruct (eq_dec a k).
      + subst a. rewrite tgt_get, (m_get _ _ _ _ M). destruct (eq_dec k k); [|congruence].
        unfold cnt at 1; simpl. symmetry. destruct (eq_dec t k).
        * subst t. rewrite (merged_src_self _ _ _ _ M). auto.
        * rewrite (merged_src _ _ _ _ _ M); auto. apply cnt_map_subst_old; auto.
      + rewrite (merged_tgt _ _ _ _ _ M); auto. destruct (eq_dec t k).
        * subst t. rewrite cnt_without_same, (merged_src_self _ _ _ _ M). auto.
        * rewrite cnt_without_other, cnt_app, (merged_src _ _ _ _ _ M); auto.
          destruct (eq_dec a s).
          -- subst a. rewrite cnt_map_subst_new, !(w_mirror g W); auto.
          -- rewrite cnt_map_subst_other, (w_mirror g W); auto.
    - intros x. rewrite (merged_opof _ _ _ _ _ M). destruct (eq_dec x k).
      + subst x. rewrite (merged_src_self _ _ _ _ M); tauto.
      + rewrite (merged_src _ _ _ _ _ M), (w_op g W); auto. destruct (src g x); simpl; split; congruence.
    - intros x NE. apply (m_srcs_keep _ _ _ _ M); auto. intros ->. apply NE.
      rewrite tgt_get, (m_get _ _ _ _ M). destruct (eq_dec k k); congruence.
    - intros x I. apply (merged_keys _ _ _ _ _ M) in I. destruct I as (Nx & I).
      rewrite (m_tgts _ _ _ _ M), (merged_opof _ _ _ _ _ M).
      destruct (eq_dec x k); [congruence|]. rewrite (w_tgts g W); tauto.
  Qed.

  Lemma unlinked_src k o g g' x : unlinked k o g g' ->
    src g' x = if eq_dec x k then [] else src g x.
  Proof.
    intros U. rewrite !src_get, (n_get _ _ _ _ U). destruct (eq_dec x k), (dget x (conns g)); auto.
  Qed.
  Lemma unlinked_tgt k o g g' x : unlinked k o g g' ->
    tgt g' x = if eq_dec x k then tgt g x else without k (tgt g x).
  Proof.
    intros U. rewrite !tgt_get, (n_get _ _ _ _ U). destruct (eq_dec x k), (dget x (conns g)); auto.
  Qed.
  Lemma unlinked_opof k o g g' x : unlinked k o g g' ->
    opof g' x = if eq_dec x k then None else opof g x.
  Proof.
    intros U. unfold opof. rewrite (n_get _ _ _ _ U). destruct (eq_dec x k), (dget x (conns g)); auto.
  Qed.
  Lemma unlinked_keys k o g g' x : unlinked k o g g' ->
    (In x (dkeys (conns g')) <-> In x (dkeys (conns g))).
  Proof.
    intros U. rewrite !In_keys_get, (n_get _ _ _ _ U).
    destruct (dget x (conns g)); simpl; split; intros; eauto; destruct H; discriminate.
  Qed.
  Lemma wf_unlinked k o g g' : wf g -> unlinked k o g g' -> ~ In k (src g k) -> wf g'.
  Proof.
    intros W U Nself. constructor.
    - apply (n_dict _ _ _ _ U).
    - intros a t. rewrite (unlinked_src _ _ _ _ _ U), (unlinked_tgt _ _ _ _ _ U).
      destruct (eq_dec a k), (eq_dec t k); subst.
      + rewrite (w_mirror g W). apply cnt_not_In in Nself. rewrite Nself; auto.
      + apply (w_mirror g W).
      + rewrite cnt_without_same; auto.
      + rewrite cnt_without_other; auto. apply (w_mirror g W).
    - intros x. rewrite (unlinked_src _ _ _ _ _ U), (unlinked_opof _ _ _ _ _ U).
      destruct (eq_dec x k); [tauto|]. apply (w_op g W).
    - intros x NE. apply (n_srcs_keep _ _ _ _ U); auto. apply (w_srcs g W).
      intros Z. apply NE. rewrite (unlinked_tgt _ _ _ _ _ U), Z. destruct (eq_dec x k); auto.
    - intros x I. apply (unlinked_keys _ _ _ _ _ U) in I.
      rewrite (n_tgts _ _ _ _ U), (unlinked_opof _ _ _ _ _ U), (w_tgts g W); auto.
      destruct (eq_dec x k); intuition.
  Qed.
End G.
