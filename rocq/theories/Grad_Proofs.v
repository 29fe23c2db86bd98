(** * Proofs about the generated gradient function. *)
From Coq Require Import String Ascii List Arith Lia Bool.
From Verif Require Import PyBase PyStrings Grad_Model.
Import ListNotations.
Open Scope string_scope.
Open Scope list_scope.
Open Scope nat_scope.

Section P.
  Context {G : Type}.
  Variable gzero gone : G.
  Variable gadd : G -> G -> G.
  Hypothesis Gassoc : forall a b c, gadd a (gadd b c) = gadd (gadd a b) c.
  Hypothesis Gcomm : forall a b, gadd a b = gadd b a.
  Hypothesis Gid : forall a, gadd gzero a = a.
  Notation "a +g b" := (gadd a b) (at level 50, left associativity).

  Lemma Gid_r a : a +g gzero = a.
  Proof. rewrite Gcomm. apply Gid. Qed.
  Lemma Gswap a b c : a +g b +g c = a +g c +g b.
  Proof. rewrite <- !Gassoc. f_equal. apply Gcomm. Qed.
  Lemma Gmid a b c d : a +g b +g (c +g d) = a +g c +g (b +g d).
  Proof. rewrite !Gassoc. f_equal. apply Gswap. Qed.

  Fixpoint gsum (l : list G) : G := match l with [] => gzero | x :: r => x +g gsum r end.
  Lemma gsum_app a b : gsum (a ++ b) = gsum a +g gsum b.
  Proof. induction a; simpl; [rewrite Gid; auto|]. rewrite IHa, Gassoc; auto. Qed.
  Lemma gsum_add {A} (f g : A -> G) l : gsum (map (fun x => f x +g g x) l) = gsum (map f l) +g gsum (map g l).
  Proof. induction l; simpl; [rewrite Gid; auto|]. rewrite IHl. apply Gmid. Qed.
  Lemma gsum_zero {A} (f : A -> G) l : (forall x, In x l -> f x = gzero) -> gsum (map f l) = gzero.
  Proof. induction l; simpl; intros H; auto. rewrite H, IHl, Gid; auto. Qed.

  (** Sum of the contributions to one key. *)
  Fixpoint ksum (k : string) (l : list (string * G)) : G :=
    match l with
    | [] => gzero
    | (x, c) :: r => if eq_dec x k then c +g ksum k r else ksum k r
    end.
  Lemma ksum_app k a b : ksum k (a ++ b) = ksum k a +g ksum k b.
  Proof.
    induction a as [|[x c] a IH]; simpl; [rewrite Gid; auto|]. destruct (eq_dec x k); rewrite IH; auto.
  Qed.
  Lemma ksum_out k l : ~ In k (map fst l) -> ksum k l = gzero.
  Proof.
    induction l as [|[x c] l IH]; simpl; intros N; auto. destruct (eq_dec x k); [tauto|]. apply IH; tauto.
  Qed.
  Lemma ksum_flat_map {A} k (f : A -> list (string * G)) l :
    ksum k (flat_map f l) = gsum (map (fun x => ksum k (f x)) l).
  Proof. induction l; simpl; auto. rewrite ksum_app, IHl. auto. Qed.

  Variable vjp : string -> list string -> G -> nat -> G.
  Variable reduce_sem : string -> nat -> G -> G.
  Variable flat : G -> G.
  Variable item : G -> nat -> G.
  Variable reserved : string -> bool.
  Variable gm : gmodel.
  Notation gexec := (gexec gadd vjp reduce_sem flat item).
  Notation geval := (geval vjp reduce_sem flat).
  Notation gstate := (@gstate G).

  (** One entry of a container gradient. *)
  Definition part (m : string) (j : nat) (v : G) : G :=
    match dget m (g_multi gm) with
    | Some [_] => if g_tensor gm m then v else item (flat v) j
    | _ => item (if g_tensor gm m then v else flat v) j
    end.
  Definition enum {A} (l : list A) : list (nat * A) := combine (seq 0 (length l)) l.
  Definition parts (m : string) (v : G) : list (string * G) :=
    match dget m (g_multi gm) with
    | Some subs => flat_map (fun js => if g_has gm (snd js) then [(snd js, part m (fst js) v)] else []) (enum subs)
    | None => [(m, v)]
    end.
  Definition spread (l : list (string * G)) : list (string * G) := flat_map (fun xc => parts (fst xc) (snd xc)) l.

  Definition pull (t : string) (args : list string) (i : nat) (a : G) : G :=
    let v := vjp (g_fn gm t) args a i in
    if g_bcast gm (nth i args "") t then reduce_sem (nth i args "") i v else v.
  Definition raw (t : string) (a : G) : list (string * G) :=
    if negb (g_has gm t) || dmem t (g_multi gm) then [] else
    flat_map (fun ik => if g_has gm (snd ik) then [(snd ik, pull t (grad_inputs gm t) (fst ik) a)] else [])
             (enum (grad_inputs gm t)).

  (** ** States in which every key has its own array *)
  Definition inj (st : gstate) : Prop :=
    forall k k' l, dget k (binds st) = Some l -> dget k' (binds st) = Some l -> k = k'.
  Definition val (st : gstate) (k : string) : G :=
    match dget k (binds st) with Some l => heap st l | None => gzero end.
  Definition bound (st : gstate) (k : string) : Prop := exists l, dget k (binds st) = Some l.

  (** [st'] is [st] after adding the contributions [l]. *)
  Definition added (st : gstate) (l : list (string * G)) (st' : gstate) : Prop :=
    binds st' = binds st /\ forall k, bound st k -> val st' k = val st k +g ksum k l.

  Lemma added_nil st : added st [] st.
  Proof. split; auto. intros k _. simpl. rewrite Gid_r; auto. Qed.
  Lemma added_trans st a st1 b st2 : added st a st1 -> added st1 b st2 -> added st (a ++ b) st2.
  Proof.
    intros (B1 & V1) (B2 & V2). split; [congruence|]. intros k Bk.
    rewrite V2, V1, ksum_app, Gassoc; auto. unfold bound in *. rewrite B1; auto.
  Qed.
  Lemma added_inj st l st' : added st l st' -> inj st -> inj st'.
  Proof. intros (B & _) I. unfold inj. rewrite B. auto. Qed.
  Lemma added_bound st l st' k : added st l st' -> bound st k -> bound st' k.
  Proof. intros (B & _). unfold bound. rewrite B. auto. Qed.

  Lemma aug_added st k v : inj st -> bound st k -> exists st', aug gadd k v st = Ok st' /\ added st [(k, v)] st' /\
    temps st' = temps st.
  Proof.
    intros I (l & Hl). unfold aug. rewrite Hl. eexists. split; [reflexivity|]. split; [|auto]. split; [auto|].
    intros x (lx & Hx). unfold val. simpl. rewrite Hx. unfold hset. destruct (Nat.eqb lx l) eqn:E.
    - apply Nat.eqb_eq in E. subst lx. rewrite (I _ _ _ Hl Hx). destruct (eq_dec x x); [|congruence].
      rewrite Gid_r; auto.
    - apply Nat.eqb_neq in E. destruct (eq_dec k x); [congruence|]. rewrite Gid_r; auto.
  Qed.

  Lemma foldM_app {A B} (f : A -> B -> res A) l1 l2 a :
    foldM f (l1 ++ l2) a = bind (foldM f l1 a) (foldM f l2).
  Proof. revert a. induction l1; simpl; intros a0; auto. destruct (f a0 a); simpl; auto. Qed.

  (** *** Distribution to the parts of a container *)
  Definition value_of (st : gstate) (e : gexpr) (v : G) : Prop := geval st e = Ok v.

  Lemma items_added x (v : G) : forall l st, inj st ->
    (forall j s, In (j, s) l -> g_has gm s = true -> bound st s) ->
    dget x (temps st) = Some v ->
    exists st', foldM gexec (flat_map (fun si => if g_has gm (fst si) then [GAugItem (fst si) x (snd si)] else [])
                                 (map (fun js => (snd js, fst js)) l)) st = Ok st' /\
      added st (flat_map (fun js => if g_has gm (snd js) then [(snd js, item v (fst js))] else []) l) st'.
  Proof.
    induction l as [|[j s] l IH]; simpl; intros st I B T.
    - exists st. split; auto. apply added_nil.
    - destruct (g_has gm s) eqn:Hs.
      + destruct (aug_added st s (item v j) I) as (st1 & E1 & A1 & T1); [eauto|].
        destruct (IH st1) as (st' & E & A).
        * eapply added_inj; eauto.
        * intros j' s' J H'. eapply added_bound; eauto.
        * congruence.
        * exists st'. split.
          -- simpl. rewrite T, E1. auto.
          -- apply (added_trans st [(s, item v j)] st1 _ st' A1 A).
      + destruct (IH st) as (st' & E & A); eauto.
  Qed.

  Lemma combine_swap {A B} (l : list A) (r : list B) : combine l r = map (fun p => (snd p, fst p)) (combine r l).
  Proof. revert r; induction l; intros [|y r]; simpl; auto. f_equal; auto. Qed.
  Lemma enum_In {A} (l : list A) i x : In (i, x) (enum l) -> In x l.
  Proof. apply in_combine_r. Qed.

  Lemma distribute_added m e v subs st : inj st -> dget m (g_multi gm) = Some subs ->
    (forall s, In s subs -> g_has gm s = true -> bound st s) ->
    geval st e = Ok v ->
    exists st', foldM gexec (distribute gm m e subs) st = Ok st' /\ added st (parts m v) st'.
  Proof.
    intros I Hm B Ev. unfold distribute, parts. rewrite Hm.
    assert (Gen : forall e' w, geval st e' = Ok w ->
      exists st', foldM gexec (GTemp (m ++ "_gradient") e' ::
          flat_map (fun si => if g_has gm (fst si) then [GAugItem (fst si) (m ++ "_gradient") (snd si)] else [])
                   (combine subs (seq 0 (length subs)))) st = Ok st' /\
        added st (flat_map (fun js => if g_has gm (snd js) then [(snd js, item w (fst js))] else []) (enum subs)) st').
    { intros e' w Ew. cbn [foldM gexec]. unfold Grad_Model.gexec at 1. rewrite Ew. cbn [bind].
      rewrite combine_swap.
      destruct (items_added (m ++ "_gradient") w (enum subs)
                  (mkst (binds st) (heap st) (next st) (dset (m ++ "_gradient")%string w (temps st)))) as (st' & E & A).
      - exact I.
      - intros j s J Hs. apply B; auto. eapply enum_In; eauto.
      - simpl. apply dget_dset_same.
      - exists st'. split; auto. }
    destruct (g_tensor gm m) eqn:Ht.
    - destruct subs as [|s [|s2 r]].
      + simpl. destruct (Gen e v Ev) as (st' & E & A). exists st'. split; [exact E|]. exact A.
      + simpl. destruct (g_has gm s) eqn:Hs.
        * destruct (aug_added st s v I) as (st1 & E1 & A1 & _); [apply B; simpl; auto|].
          exists st1. simpl. rewrite Ev. simpl. rewrite E1. split; auto.
          unfold part. rewrite Hm, Ht. exact A1.
        * exists st. split; auto. apply added_nil.
      + cbn [length Nat.eqb andb]. destruct (Gen e v Ev) as (st' & E & A). exists st'. split; [exact E|].
        assert (X : flat_map (fun js => if g_has gm (snd js) then [(snd js, part m (fst js) v)] else []) (enum (s :: s2 :: r)) =
                    flat_map (fun js => if g_has gm (snd js) then [(snd js, item v (fst js))] else []) (enum (s :: s2 :: r))).
        { apply flat_map_ext. intros (j & s'). simpl. unfold part. rewrite Hm, Ht. auto. }
        rewrite X. exact A.
    - rewrite andb_false_r. destruct (Gen (GFlat e) (flat v)) as (st' & E & A).
      { simpl. rewrite Ev. auto. }
      exists st'. split; [exact E|].
      assert (X : flat_map (fun js => if g_has gm (snd js) then [(snd js, part m (fst js) v)] else []) (enum subs) =
                  flat_map (fun js => if g_has gm (snd js) then [(snd js, item (flat v) (fst js))] else []) (enum subs)).
      { apply flat_map_ext. intros (j & s'). simpl. unfold part. rewrite Hm, Ht. destruct subs as [|? [|]]; auto. }
      rewrite X. exact A.
  Qed.

  (** ** One operator *)
  (** What must hold of the model; [B] are the keys with an array. *)
  Record grad_ok (B : string -> Prop) : Prop := {
    k_names : forall t, In t (g_order gm) -> reserved t = false;
    k_out_names : forall o r, In (o, r) (g_outd gm) -> In o (g_cot gm) -> reserved o = false /\ reserved r = false;
    k_fn : forall t, In t (g_order gm) -> g_has gm t = true -> dmem t (g_multi gm) = false ->
             g_known gm (g_fn gm t) = true /\ g_disposable gm t = false;
    k_bound : forall t, In t (g_order gm) -> g_has gm t = true -> dmem t (g_multi gm) = false -> B t;
    k_args : forall t k, In t (g_order gm) -> In k (grad_inputs gm t) -> g_has gm k = true ->
             dmem k (g_multi gm) = false -> B k /\ g_tensor gm k = true;
    k_subs : forall m subs s, dget m (g_multi gm) = Some subs -> In s subs -> g_has gm s = true ->
             B s /\ dmem s (g_multi gm) = false;
    k_topo : forall a t b, g_order gm = a ++ t :: b -> forall k, In k (grad_inputs gm t) -> g_has gm k = true ->
             ~ In k (t :: b) /\ forall subs s, dget k (g_multi gm) = Some subs -> In s subs -> ~ In s (t :: b);
    k_alias : forall o r, In (o, r) (g_outd gm) -> In o (g_cot gm) ->
             B o /\ (dmem o (g_multi gm) = false -> o <> r ->
               B r /\ dmem r (g_multi gm) = false);
    (* a key that moves its gradient receives none *)
    k_move : forall o r, In (o, r) (g_outd gm) -> In o (g_cot gm) -> dmem o (g_multi gm) = true \/ o <> r ->
             (forall o' r', In (o', r') (g_outd gm) -> In o' (g_cot gm) -> o' <> r' ->
                 dmem o' (g_multi gm) = false -> r' <> o) /\
             (forall m subs, dget m (g_multi gm) = Some subs -> ~ In o subs)
  }.

  Definition targets (t : string) : list string := map fst (spread (raw t gzero)).
  Lemma parts_fst m v v' : map fst (parts m v) = map fst (parts m v').
  Proof.
    unfold parts. destruct (dget m (g_multi gm)) as [subs|]; auto.
    induction (enum subs) as [|[j s] l IH]; simpl; auto. rewrite !map_app, IH. f_equal.
    destruct (g_has gm s); auto.
  Qed.
  Lemma raw_shape t : forall a a', map fst (raw t a) = map fst (raw t a').
  Proof.
    intros a a'. unfold raw. destruct (negb (g_has gm t) || dmem t (g_multi gm)); auto.
    induction (enum (grad_inputs gm t)) as [|[j s] l IH]; simpl; auto. rewrite !map_app, IH. f_equal.
    destruct (g_has gm s); auto.
  Qed.
  Lemma spread_fst : forall l l', map fst l = map fst l' -> map fst (spread l) = map fst (spread l').
  Proof.
    induction l as [|[x c] l IH]; intros [|[x' c'] l'] E; simpl in E; try discriminate; auto.
    injection E as -> E. unfold spread in *. simpl. rewrite !map_app. f_equal; auto. apply parts_fst.
  Qed.
  Lemma targets_any t a : map fst (spread (raw t a)) = targets t.
  Proof. apply spread_fst, raw_shape. Qed.

  Lemma parts_In m v k : In k (map fst (parts m v)) ->
    (dget m (g_multi gm) = None /\ k = m) \/
    (exists subs, dget m (g_multi gm) = Some subs /\ In k subs /\ g_has gm k = true).
  Proof.
    unfold parts. destruct (dget m (g_multi gm)) as [subs|] eqn:E.
    - intros I. right. exists subs. split; auto. apply in_map_iff in I. destruct I as ((x & c) & <- & I).
      apply in_flat_map in I. destruct I as ((j & s) & J & I). simpl in *.
      destruct (g_has gm s) eqn:Hs; [|destruct I]. destruct I as [I|[]]. injection I as <- <-.
      split; auto. eapply enum_In; eauto.
    - simpl. intros [<-|[]]. auto.
  Qed.
  Lemma raw_In t a k : In k (map fst (raw t a)) -> In k (grad_inputs gm t) /\ g_has gm k = true.
  Proof.
    unfold raw. destruct (negb (g_has gm t) || dmem t (g_multi gm)); [intros []|]. intros I.
    apply in_map_iff in I. destruct I as ((x & c) & <- & I).
    apply in_flat_map in I. destruct I as ((j & s) & J & I). simpl in *.
    destruct (g_has gm s) eqn:Hs; [|destruct I]. destruct I as [I|[]]. injection I as <- <-.
    split; auto. eapply enum_In; eauto.
  Qed.
  Lemma targets_In t k : In k (targets t) -> exists x, In x (grad_inputs gm t) /\ g_has gm x = true /\
    ((dget x (g_multi gm) = None /\ k = x) \/ exists subs, dget x (g_multi gm) = Some subs /\ In k subs /\ g_has gm k = true).
  Proof.
    unfold targets, spread. intros I. apply in_map_iff in I. destruct I as ((x & c) & <- & I).
    apply in_flat_map in I. destruct I as ((y & d) & J & I). simpl in *.
    exists y. destruct (raw_In t gzero y) as (H1 & H2).
    { apply in_map_iff. exists (y, d). auto. }
    split; auto. split; auto. apply (parts_In y d). apply in_map_iff. exists (x, c). auto.
  Qed.

  Lemma dmem_none {V} k (d : dict string V) : dmem k d = false <-> dget k d = None.
  Proof. unfold dmem. destruct (dget k d); split; intros; congruence. Qed.

  Lemma val_keep st l st' k : added st l st' -> bound st k -> ~ In k (map fst l) -> val st' k = val st k.
  Proof. intros (_ & V) B N. rewrite V, ksum_out, Gid_r; auto. Qed.

  Lemma op_added (B : string -> Prop) t st : grad_ok B -> In t (g_order gm) -> inj st ->
    (forall k, B k -> bound st k) ->
    exists prog st', op_stmts reserved gm t = Ok prog /\ foldM gexec prog st = Ok st' /\
      added st (spread (raw t (val st t))) st'.
  Proof.
    intros K It I Bd. unfold op_stmts. pose proof (targets_any t (val st t)) as Tg. unfold raw in Tg |- *.
    destruct (negb (g_has gm t) || dmem t (g_multi gm)) eqn:Act.
    { exists [], st. split; auto. split; auto. apply added_nil. }
    apply orb_false_iff in Act. destruct Act as (Hh & Hm). apply negb_false_iff in Hh.
    destruct (k_fn B K t It Hh Hm) as (Kn & Kd). rewrite Kd.
    assert (Gk : gkey reserved t = t) by (unfold gkey; rewrite (k_names B K t It); auto).
    assert (Bt : bound st t) by (apply Bd, (k_bound B K); auto).
    apply in_split in It. destruct It as (a & b & Eord).
    assert (Nt : ~ In t (targets t)).
    { intros F. apply targets_In in F. destruct F as (x & Ix & Hx & [(_ & ->)|(subs & Ds & Js & _)]).
      - apply (k_topo B K a x b Eord x Ix Hx). left; auto.
      - destruct (k_topo B K a t b Eord x Ix Hx) as (_ & F). apply (F subs t Ds Js). left; auto. }
    assert (It : In t (g_order gm)) by (rewrite Eord; apply in_app_iff; right; left; auto).
    set (args := grad_inputs gm t) in *. fold (enum args).
    assert (Main : forall l st0, (forall ik, In ik l -> In (snd ik) args /\ nth (fst ik) args "" = snd ik) ->
       inj st0 -> binds st0 = binds st -> val st0 t = val st t ->
       (forall k, In k (map fst (spread (flat_map (fun ik => if g_has gm (snd ik) then [(snd ik, pull t args (fst ik) (val st t))] else []) l))) -> k <> t) ->
       exists ls st', mapM (arg_stmts reserved gm t args) l = Ok ls /\ foldM gexec (concat ls) st0 = Ok st' /\
         added st0 (spread (flat_map (fun ik => if g_has gm (snd ik) then [(snd ik, pull t args (fst ik) (val st t))] else []) l)) st').
    { induction l as [|[i k] l IH]; intros st0 Hl I0 B0 V0 Ne.
      - exists [], st0. split; auto. split; auto. apply added_nil.
      - destruct (Hl (i, k) (or_introl eq_refl)) as (Ik & Nk). simpl in Ik, Nk.
        assert (Hl' : forall ik, In ik l -> In (snd ik) args /\ nth (fst ik) args "" = snd ik) by (intros; apply Hl; right; auto).
        simpl in Ne |- *. destruct (g_has gm k) eqn:Hk; simpl.
        2: { simpl in Ne. destruct (IH st0 Hl' I0 B0 V0 Ne) as (ls & st' & E1 & E2 & A). exists ([] :: ls), st'. rewrite E1. auto. }
        rewrite Kn. simpl.
        set (e := GVjp (g_fn gm t) args (gkey reserved t) i (g_bcast gm k t)).
        assert (Ev : geval st0 e = Ok (pull t args i (val st t))).
        { unfold e. simpl. rewrite Gk. destruct Bt as (lt & Elt). rewrite B0, Elt. unfold pull. rewrite Nk.
          unfold val in V0. rewrite B0, Elt in V0. rewrite V0. unfold val. rewrite Elt. auto. }
        assert (Step : exists sl st1, (match dget k (g_multi gm) with
             | Some subs => Ok (distribute gm k e subs)
             | None => Ok [if g_tensor gm k then GAug k e else GAssign k e] end) = Ok sl /\ foldM gexec sl st0 = Ok st1 /\
             added st0 (parts k (pull t args i (val st t))) st1).
        { destruct (dget k (g_multi gm)) as [subs|] eqn:Dk.
          - destruct (distribute_added k e (pull t args i (val st t)) subs st0 I0 Dk) as (st1 & E1 & A1); auto.
            + intros s Is Hs. destruct (k_subs B K k subs s Dk Is Hs) as (Bs & _). apply Bd in Bs.
              unfold bound in *. rewrite B0; auto.
            + exists (distribute gm k e subs), st1. auto.
          - destruct (k_args B K t k It Ik Hk) as (Bk & Tk); [apply dmem_none; auto|]. rewrite Tk.
            destruct (aug_added st0 k (pull t args i (val st t)) I0) as (st1 & E1 & A1 & _).
            { apply Bd in Bk. unfold bound in *. rewrite B0; auto. }
            exists [GAug k e], st1. split; auto. split.
            + cbn [foldM]. unfold Grad_Model.gexec. rewrite Ev. cbn [bind]. rewrite E1. auto.
            + unfold parts. rewrite Dk. auto. }
        destruct Step as (sl & st1 & -> & E1 & A1). cbn [bind].
        assert (Ne1 : forall x, In x (map fst (parts k (pull t args i (val st t)))) -> x <> t).
        { intros x Hx. apply Ne. unfold spread. simpl. rewrite map_app. apply in_app_iff. auto. }
        destruct (IH st1 Hl') as (ls & st' & E2 & E3 & A2).
        + eapply added_inj; eauto.
        + destruct A1 as (-> & _). auto.
        + rewrite <- V0. apply (val_keep _ _ _ _ A1).
          * unfold bound in *. rewrite B0. auto.
          * intros F. apply (Ne1 t F eq_refl).
        + intros x Hx. apply Ne. unfold spread in *. simpl. rewrite map_app. apply in_app_iff. auto.
        + exists (sl :: ls), st'. rewrite E2. split; auto. split.
          * simpl. rewrite foldM_app, E1. cbn [bind]. auto.
          * unfold spread. simpl. eapply added_trans; eauto. }
    destruct (Main (enum args) st) as (ls & st' & E1 & E2 & A); auto.
    - intros (i & k) Hik. simpl. split; [eapply enum_In; eauto|].
      unfold enum in Hik. clear -Hik. assert (X : forall (l : list string) n i k, In (i, k) (combine (seq n (length l)) l) -> nth (i - n) l "" = k).
      { induction l as [|y l IH]; simpl; intros n i0 k0 H; [destruct H|]. destruct H as [H|H].
        - injection H as <- <-. rewrite Nat.sub_diag. auto.
        - assert (Le : S n <= i0) by (apply in_combine_l, in_seq in H; lia). apply IH in H.
          destruct (i0 - n) eqn:E; [lia|]. replace n0 with (i0 - S n) by lia. auto. }
      apply X in Hik. rewrite Nat.sub_0_r in Hik. auto.
    - rewrite Tg. intros k Hk ->. auto.
    - exists (concat ls), st'. rewrite E1. auto.
  Qed.

  (** ** All operators, in reverse order *)
  Lemma targets_topo B a t b x : grad_ok B -> g_order gm = a ++ t :: b -> In x (t :: b) -> ~ In x (targets t).
  Proof.
    intros K E I F. apply targets_In in F. destruct F as (y & Iy & Hy & [(_ & ->)|(subs & Ds & Js & _)]);
      destruct (k_topo B K a t b E y Iy Hy) as (N1 & N2); eauto. eapply N2; eauto.
  Qed.
  Lemma raw_inactive t a : g_has gm t = false \/ dmem t (g_multi gm) = true -> raw t a = [].
  Proof. unfold raw. intros [-> | ->]; auto. rewrite orb_true_r; auto. Qed.

  Lemma ops_added (B : string -> Prop) : grad_ok B -> forall l fin st, g_order gm = rev l ++ fin -> inj st ->
    (forall k, B k -> bound st k) ->
    exists progs st', mapM (op_stmts reserved gm) l = Ok progs /\ foldM gexec (concat progs) st = Ok st' /\
      added st (spread (flat_map (fun t => raw t (val st' t)) l)) st'.
  Proof.
    intros K. induction l as [|t l IH]; intros fin st Eo I Bd.
    - exists [], st. split; auto. split; auto. apply added_nil.
    - simpl in Eo. rewrite <- app_assoc in Eo. simpl in Eo.
      assert (It : In t (g_order gm)) by (rewrite Eo; apply in_app_iff; right; left; auto).
      destruct (op_added B t st K It I Bd) as (p & st1 & E1 & E2 & A1).
      destruct (IH (t :: fin) st1 Eo) as (ps & st' & E3 & E4 & A2).
      { eapply added_inj; eauto. }
      { intros k Bk. eapply added_bound; eauto. }
      exists (p :: ps), st'. cbn [mapM]. rewrite E1, E3. split; auto. split.
      { simpl. rewrite foldM_app, E2. auto. }
      assert (Same : raw t (val st' t) = raw t (val st t)).
      { destruct (g_has gm t) eqn:Hh; [|rewrite !raw_inactive; auto].
        destruct (dmem t (g_multi gm)) eqn:Hm; [rewrite !raw_inactive; auto|].
        assert (Bt : bound st t) by (apply Bd, (k_bound B K); auto).
        f_equal. transitivity (val st1 t).
        - apply (val_keep _ _ _ _ A2); [eapply added_bound; eauto|].
          unfold spread. rewrite flat_map_concat_map, concat_map, map_map. intros F.
          apply in_concat in F. destruct F as (y & F & It'). apply in_map_iff in F. destruct F as ((x & c) & <- & F).
          apply in_flat_map in F. destruct F as (t2 & I2 & F).
          assert (T2 : In t (targets t2)).
          { rewrite <- (targets_any t2 (val st' t2)). unfold spread. rewrite flat_map_concat_map, concat_map, map_map.
            apply in_concat. eexists. split; [|exact It']. apply in_map_iff. exists (x, c). auto. }
          apply in_split in I2. destruct I2 as (u & w & ->).
          rewrite rev_app_distr in Eo. simpl in Eo. rewrite <- !app_assoc in Eo. simpl in Eo.
          apply (targets_topo B _ _ _ t K Eo); auto. right. apply in_app_iff. right. left. auto.
        - apply (val_keep _ _ _ _ A1); auto. rewrite targets_any. apply (targets_topo B _ _ _ t K Eo). left; auto. }
      simpl. rewrite Same. unfold spread in *. rewrite flat_map_app. eapply added_trans; eauto.
  Qed.

  (** ** Gradients of output keys *)
  Definition moved (st : gstate) (tr : string * string) : list (string * G) :=
    let (o, r) := tr in
    if mem o (g_cot gm) then
      if dmem o (g_multi gm) then [(o, val st o)] else if eqb o r then [] else [(r, val st o)]
    else [].

  Lemma geval_key st k : bound st k -> geval st (GKey k) = Ok (val st k).
  Proof. intros (l & E). simpl. unfold val. rewrite E. auto. Qed.

  Lemma alias_added (B : string -> Prop) : grad_ok B -> forall l st, incl l (g_outd gm) -> inj st ->
    (forall k, B k -> bound st k) ->
    exists st', foldM gexec (flat_map (alias_stmts reserved gm) l) st = Ok st' /\
      added st (spread (flat_map (moved st) l)) st'.
  Proof.
    intros K. induction l as [|[o r] l IH]; intros st Inc I Bd.
    - exists st. split; auto. apply added_nil.
    - assert (Io : In (o, r) (g_outd gm)) by (apply Inc; left; auto).
      assert (Inc' : incl l (g_outd gm)) by (intros x Hx; apply Inc; right; auto).
      assert (Step : exists st1, foldM gexec (alias_stmts reserved gm (o, r)) st = Ok st1 /\
         added st (spread (moved st (o, r))) st1).
      { unfold alias_stmts, moved. destruct (mem o (g_cot gm)) eqn:Mo; [|exists st; split; auto; apply added_nil].
        apply mem_In in Mo. destruct (k_alias B K o r Io Mo) as (Bo & Br).
        destruct (k_out_names B K o r Io Mo) as (Ro & Rr).
        assert (Go : gkey reserved o = o) by (unfold gkey; rewrite Ro; auto).
        assert (Gr : gkey reserved r = r) by (unfold gkey; rewrite Rr; auto).
        rewrite Go, Gr. unfold dmem. destruct (dget o (g_multi gm)) as [subs|] eqn:Do.
        - destruct (distribute_added o (GKey o) (val st o) subs st I Do) as (st1 & E1 & A1).
          + intros s Is Hs. apply Bd. apply (k_subs B K o subs s); auto.
          + apply geval_key; auto.
          + exists st1. split; auto. unfold spread. simpl. rewrite app_nil_r. auto.
        - unfold eqb. destruct (eq_dec o r) as [->|Ne]; [exists st; split; auto; apply added_nil|].
          destruct Br as (Br & Mr); [apply dmem_none; auto|auto|].
          destruct (aug_added st r (val st o) I) as (st1 & E1 & A1 & _); auto.
          exists st1. split.
          + cbn [foldM]. unfold Grad_Model.gexec. rewrite geval_key; auto. cbn [bind]. rewrite E1. auto.
          + unfold spread. simpl. unfold parts. apply dmem_none in Mr. rewrite Mr. auto. }
      destruct Step as (st1 & E1 & A1).
      destruct (IH st1 Inc') as (st' & E2 & A2).
      { eapply added_inj; eauto. }
      { intros k Bk. eapply added_bound; eauto. }
      exists st'. cbn [flat_map]. rewrite foldM_app, E1. cbn [bind]. split; auto.
      assert (Same : flat_map (moved st1) l = flat_map (moved st) l).
      { rewrite !flat_map_concat_map. f_equal. apply map_ext_in. intros (o' & r') I'. unfold moved.
        destruct (mem o' (g_cot gm)) eqn:Mo'; auto. apply mem_In in Mo'.
        assert (Sv : dmem o' (g_multi gm) = true \/ o' <> r' -> val st1 o' = val st o').
        { intros C. destruct (k_move B K o' r' (Inc' _ I') Mo' C) as (N1 & N2).
          apply (val_keep _ _ _ _ A1); [apply Bd, (k_alias B K o' r'); auto|].
          unfold moved. destruct (mem o (g_cot gm)) eqn:Mo; [|intros []]. apply mem_In in Mo.
          destruct (dmem o (g_multi gm)) eqn:Dm.
          - unfold spread. simpl. rewrite app_nil_r. intros F. apply parts_In in F.
            destruct F as [(F & _)|(subs & F & J & _)].
            + apply dmem_none in F. congruence.
            + apply (N2 _ _ F J).
          - unfold eqb. destruct (eq_dec o r) as [->|Ne]; [intros []|].
            destruct (k_alias B K o r Io Mo) as (_ & Br). destruct (Br Dm Ne) as (_ & Mr).
            unfold spread. simpl. rewrite app_nil_r. unfold parts. apply dmem_none in Mr. rewrite Mr.
            simpl. intros [F|[]]. apply (N1 _ _ Io Mo Ne Dm F). }
        destruct (dmem o' (g_multi gm)); [rewrite Sv; auto|]. unfold eqb.
        destruct (eq_dec o' r'); auto. rewrite Sv; auto. }
      rewrite Same in A2. unfold spread in *. cbn [flat_map]. rewrite flat_map_app. eapply added_trans; eauto.
  Qed.

  (** ** The whole program *)
  Lemma program_added (B : string -> Prop) st : grad_ok B -> inj st -> (forall k, B k -> bound st k) ->
    exists prog st', generate_gradients reserved gm = Ok prog /\ foldM gexec prog st = Ok st' /\
      added st (spread (flat_map (moved st) (g_outd gm) ++ flat_map (fun t => raw t (val st' t)) (rev (g_order gm)))) st'.
  Proof.
    intros K I Bd. unfold generate_gradients.
    destruct (alias_added B K (g_outd gm) st (fun x h => h) I Bd) as (st1 & E1 & A1).
    destruct (ops_added B K (rev (g_order gm)) [] st1) as (ps & st' & E2 & E3 & A2).
    - rewrite rev_involutive, app_nil_r. auto.
    - eapply added_inj; eauto.
    - intros k Bk. eapply added_bound; eauto.
    - rewrite E2. cbn [bind]. eexists. exists st'. split; [reflexivity|]. rewrite foldM_app, E1. cbn [bind].
      split; auto. unfold spread in *. rewrite flat_map_app. eapply added_trans; eauto.
  Qed.

  (** ** Containers as operators *)
  Hypothesis part_add : forall m j a b, dmem m (g_multi gm) = true -> part m j (a +g b) = part m j a +g part m j b.
  Hypothesis part_zero : forall m j, dmem m (g_multi gm) = true -> part m j gzero = gzero.

  Lemma ksum_parts_add m k a b : ksum k (parts m (a +g b)) = ksum k (parts m a) +g ksum k (parts m b).
  Proof.
    unfold parts. destruct (dget m (g_multi gm)) as [subs|] eqn:D.
    - assert (Dm : dmem m (g_multi gm) = true) by (unfold dmem; rewrite D; auto).
      induction (enum subs) as [|[j s] l IH]; simpl; [rewrite Gid; auto|].
      destruct (g_has gm s); simpl; auto. destruct (eq_dec s k); auto. rewrite part_add, IH; auto. apply Gmid.
    - simpl. destruct (eq_dec m k); [|rewrite Gid; auto]. rewrite !Gid_r. auto.
  Qed.
  Lemma ksum_parts_zero m k : ksum k (parts m gzero) = gzero.
  Proof.
    unfold parts. destruct (dget m (g_multi gm)) as [subs|] eqn:D.
    - assert (Dm : dmem m (g_multi gm) = true) by (unfold dmem; rewrite D; auto).
      induction (enum subs) as [|[j s] l IH]; simpl; auto.
      destruct (g_has gm s); simpl; auto. destruct (eq_dec s k); auto. rewrite part_zero, IH, Gid; auto.
    - simpl. destruct (eq_dec m k); auto.
  Qed.

  Lemma gsum_single {A} `{EqDec A} (x : A) (f : A -> G) l : NoDup l -> In x l -> (forall y, y <> x -> f y = gzero) ->
    gsum (map f l) = f x.
  Proof.
    intros N I Z. apply in_split in I. destruct I as (u & w & ->). apply NoDup_remove_2 in N.
    rewrite map_app, gsum_app. simpl. rewrite (gsum_zero f u), (gsum_zero f w), Gid, Gid_r; auto;
      intros y Iy; apply Z; intros ->; apply N, in_app_iff; auto.
  Qed.

  Lemma regroup k (L : list (string * G)) : dwf (g_multi gm) ->
    ksum k (spread L) = (if dmem k (g_multi gm) then gzero else ksum k L) +g
      gsum (map (fun m => ksum k (parts m (ksum m L))) (dkeys (g_multi gm))).
  Proof.
    intros W. induction L as [|[x c] L IH].
    - simpl. rewrite gsum_zero; [destruct (dmem k (g_multi gm)); rewrite Gid; auto|]. intros; apply ksum_parts_zero.
    - change (spread ((x, c) :: L)) with (parts x c ++ spread L). rewrite ksum_app, IH. simpl.
      destruct (dmem x (g_multi gm)) eqn:Dx.
      + assert (Eq : gsum (map (fun m => ksum k (parts m (if eq_dec x m then c +g ksum m L else ksum m L))) (dkeys (g_multi gm))) =
                ksum k (parts x c) +g gsum (map (fun m => ksum k (parts m (ksum m L))) (dkeys (g_multi gm)))).
        { transitivity (gsum (map (fun m => (if eq_dec x m then ksum k (parts m c) else gzero) +g ksum k (parts m (ksum m L))) (dkeys (g_multi gm)))).
          - f_equal. apply map_ext. intros m. destruct (eq_dec x m); [apply ksum_parts_add|rewrite Gid; auto].
          - rewrite gsum_add. f_equal.
            rewrite (gsum_single x (fun m => if eq_dec x m then ksum k (parts m c) else gzero)).
            + destruct (eq_dec x x); congruence.
            + exact W.
            + apply dmem_In; auto.
            + intros y Ne. destruct (eq_dec x y); congruence. }
        rewrite Eq. destruct (eq_dec x k) as [->|Ne].
        * rewrite Dx. rewrite !Gid. auto.
        * rewrite !Gassoc. f_equal. apply Gcomm.
      + assert (Eq : gsum (map (fun m => ksum k (parts m (if eq_dec x m then c +g ksum m L else ksum m L))) (dkeys (g_multi gm))) =
                gsum (map (fun m => ksum k (parts m (ksum m L))) (dkeys (g_multi gm)))).
        { f_equal. apply map_ext_in. intros m Im. destruct (eq_dec x m) as [->|]; auto.
          apply dmem_In in Im. congruence. }
        rewrite Eq. unfold parts at 1. apply dmem_none in Dx. rewrite Dx. simpl.
        destruct (eq_dec x k) as [->|Ne].
        * apply dmem_none in Dx. rewrite Dx. rewrite Gid_r, Gassoc. auto.
        * rewrite Gid. auto.
  Qed.

  (** ** The wrapper *)
  Definition given (outputs : list string) (scalar_out : bool) (seeds : option (dict string nat))
             (h : nat -> G) (k : string) : option G :=
    match seeds with
    | None =>
        if mem FinalCost outputs then if eqb k FinalCost then Some gone else None
        else match outputs with
             | [o] => if scalar_out && eqb k o then Some gone else None
             | _ => None
             end
    | Some s =>
        match dget k s with
        | Some l => Some (h l)
        | None => if mem FinalCost outputs && eqb k FinalCost then Some gone else None
        end
    end.

  Record fresh_inv (keys : list string) (h : nat -> G) (n : nat) (st : gstate) : Prop := {
    f_le : n <= next st;
    f_loc : forall k l, dget k (binds st) = Some l -> n <= l < next st /\ heap st l = gzero /\ In k keys /\ g_has gm k = true;
    f_inj : inj st;
    f_old : forall l, l < n -> heap st l = h l;
    f_wf : dwf (binds st) }.

  Lemma alloc_inj v k st : inj st -> (forall k l, dget k (binds st) = Some l -> l < next st) -> inj (alloc v k st).
  Proof.
    intros I L x y l. simpl. destruct (eq_dec x k) as [->|Nx], (eq_dec y k) as [->|Ny]; auto.
    - rewrite dget_dset_same, dget_dset_other; auto. intros E1 E2. injection E1 as <-. apply L in E2. lia.
    - rewrite dget_dset_same, dget_dset_other; auto. intros E2 E1. injection E1 as <-. apply L in E2. lia.
    - rewrite !dget_dset_other; auto. apply I.
  Qed.
  Lemma alloc_val v k st x : (forall k l, dget k (binds st) = Some l -> l < next st) ->
    val (alloc v k st) x = if eq_dec x k then v else val st x.
  Proof.
    intros L. unfold val. simpl. destruct (eq_dec x k) as [->|N].
    - rewrite dget_dset_same. unfold hset. rewrite Nat.eqb_refl. auto.
    - rewrite dget_dset_other; auto. destruct (dget x (binds st)) as [l|] eqn:E; auto.
      apply L in E. unfold hset. destruct (Nat.eqb l (next st)) eqn:F; auto. apply Nat.eqb_eq in F. lia.
  Qed.
  Lemma alloc_bound v k st x : bound (alloc v k st) x <-> x = k \/ bound st x.
  Proof.
    unfold bound. simpl. destruct (eq_dec x k) as [->|N].
    - rewrite dget_dset_same. split; eauto.
    - rewrite dget_dset_other; auto. split; [auto|]. intros [->|H]; [congruence|auto].
  Qed.

  Lemma init_zero_inv (h : nat -> G) n keys : let st := init_zero gzero gm keys h n in
    fresh_inv keys h n st /\ forall k, In k keys -> g_has gm k = true -> bound st k.
  Proof.
    cbv zeta. unfold init_zero.
    assert (Gen : forall l pre st, fresh_inv (pre ++ l) h n st -> (forall k, In k pre -> g_has gm k = true -> bound st k) ->
       let st' := fold_left (fun st k => if g_has gm k then alloc gzero k st else st) l st in
       fresh_inv (pre ++ l) h n st' /\ forall k, In k (pre ++ l) -> g_has gm k = true -> bound st' k).
    { induction l as [|k l IH]; intros pre st F Hb; cbv zeta; simpl.
      - split; auto. rewrite app_nil_r. auto.
      - replace (pre ++ k :: l) with ((pre ++ [k]) ++ l) in * by (rewrite <- app_assoc; auto).
        apply IH.
        + destruct (g_has gm k) eqn:Hk; auto. destruct F as [Fl Fc Fi Fo Fw]. split.
          * simpl. lia.
          * intros x l0. simpl. destruct (eq_dec x k) as [->|N].
            -- rewrite dget_dset_same. intros E. injection E as <-. split; [lia|]. unfold hset.
               rewrite Nat.eqb_refl. split; auto. split; auto. rewrite !in_app_iff. simpl. auto.
            -- rewrite dget_dset_other; auto. intros E. apply Fc in E. destruct E as (A & B & C & D).
               split; [lia|]. split; auto. unfold hset. destruct (Nat.eqb l0 (next st)); auto.
          * apply alloc_inj; auto. intros k0 l0 E. apply Fc in E. lia.
          * intros l0 L. simpl. unfold hset. destruct (Nat.eqb l0 (next st)) eqn:E; auto. apply Nat.eqb_eq in E. lia.
          * simpl. apply dwf_dset. auto.
        + intros x Ix Hx. apply in_app_iff in Ix. destruct Ix as [Ix|[->|[]]].
          * destruct (g_has gm k); auto. apply alloc_bound. auto.
          * rewrite Hx. apply alloc_bound. auto. }
    apply (Gen keys [] (mkst [] h n [])).
    - split; simpl; auto; try (intros; discriminate); try lia. constructor.
    - intros k [].
  Qed.

  Lemma dget_over {V} (e : dict string V) : forall (d : dict string V) k, dwf e ->
    dget k (dupdate d e) = match dget k e with Some v => Some v | None => dget k d end.
  Proof.
    unfold dupdate. induction e as [|[x v] e IH]; intros d k W; simpl; auto.
    inversion W as [|? ? Nx W']; subst. rewrite IH; auto. destruct (eq_dec k x) as [->|N].
    - destruct (dget x e) as [w|] eqn:E.
      + destruct Nx. apply in_map_iff. exists (x, w). split; auto. apply dget_In; auto.
      + simpl. unfold eqb. destruct (eq_dec x x); [|congruence]. rewrite dget_dset_same. auto.
    - unfold eqb. destruct (eq_dec k x); [congruence|]. destruct (dget k e); auto. rewrite dget_dset_other; auto.
  Qed.
  Lemma NoDup_snd_inj {K V} (l : list (K * V)) k k' v : NoDup (map snd l) -> In (k, v) l -> In (k', v) l -> k = k'.
  Proof.
    intros N I I'. apply in_split in I. destruct I as (u & w & ->). rewrite map_app in N. apply NoDup_remove_2 in N.
    rewrite <- map_app in N. apply in_app_iff in I'. destruct I' as [I'|[I'|I']].
    - destruct N. apply in_map_iff. exists (k', v). split; auto. apply in_app_iff; auto.
    - congruence.
    - destruct N. apply in_map_iff. exists (k', v). split; auto. apply in_app_iff; auto.
  Qed.

  (** The state in which the generated function starts. *)
  Lemma start keys outputs scalar_out seeds (h : nat -> G) n :
    (forall s, seeds = Some s -> dwf s /\ NoDup (map snd s) /\ forall k l, In (k, l) s -> l < n) ->
    (seeds = None -> In FinalCost outputs \/ exists o, outputs = [o]) ->
    exists st, seed gone outputs scalar_out seeds (init_zero gzero gm keys h n) = Ok st /\ inj st /\
      (forall k, bound st k <-> (In k keys /\ g_has gm k = true) \/ given outputs scalar_out seeds h k <> None) /\
      (forall k, val st k = match given outputs scalar_out seeds h k with Some v => v | None => gzero end).
  Proof.
    intros Hs Hn. destruct (init_zero_inv h n keys) as (F & Bd). cbv zeta in *.
    set (st0 := init_zero gzero gm keys h n) in *.
    assert (B0 : forall k, bound st0 k <-> In k keys /\ g_has gm k = true).
    { intros k. split; [|intros (a & b); auto]. intros (l & E). apply (f_loc _ _ _ _ F) in E. tauto. }
    assert (V0 : forall k, val st0 k = gzero).
    { intros k. unfold val. destruct (dget k (binds st0)) as [l|] eqn:E; auto. apply (f_loc _ _ _ _ F) in E. tauto. }
    assert (L0 : forall k l, dget k (binds st0) = Some l -> l < next st0).
    { intros k l E. apply (f_loc _ _ _ _ F) in E. lia. }
    pose proof (f_inj _ _ _ _ F) as I0.
    destruct seeds as [s|].
    - destruct (Hs s eq_refl) as (W & Nd & Lt). unfold seed. simpl.
      set (st1 := mkst (dupdate (binds st0) s) (heap st0) (next st0) (temps st0)).
      assert (G1 : forall k, dget k (binds st1) = match dget k s with Some l => Some l | None => dget k (binds st0) end).
      { intros k. simpl. apply dget_over. auto. }
      assert (L1 : forall k l, dget k (binds st1) = Some l -> l < next st1).
      { intros k l. rewrite G1. destruct (dget k s) as [l'|] eqn:E; [|apply L0].
        intros E'. injection E' as <-. apply dget_In in E. apply Lt in E. simpl. pose proof (f_le _ _ _ _ F). lia. }
      assert (I1 : inj st1).
      { intros x y l. rewrite !G1. destruct (dget x s) as [lx|] eqn:Ex, (dget y s) as [ly|] eqn:Ey.
        - intros E E'. injection E as ->. injection E' as ->. apply dget_In in Ex, Ey. eapply NoDup_snd_inj; eauto.
        - intros E E'. injection E as ->. apply (f_loc _ _ _ _ F) in E'. apply dget_In, Lt in Ex. lia.
        - intros E E'. injection E' as ->. apply (f_loc _ _ _ _ F) in E. apply dget_In, Lt in Ey. lia.
        - apply I0. }
      assert (V1 : forall k, val st1 k = match dget k s with Some l => h l | None => gzero end).
      { intros k. unfold val. rewrite G1. destruct (dget k s) as [l|] eqn:E.
        - simpl. apply (f_old _ _ _ _ F). apply dget_In in E. eauto.
        - apply V0. }
      assert (B1 : forall k, bound st1 k <-> dget k s <> None \/ (In k keys /\ g_has gm k = true)).
      { intros k. rewrite <- B0. unfold bound. rewrite G1. destruct (dget k s); split; intros H; eauto.
        - left; congruence.
        - destruct H; [congruence|auto]. }
      unfold dmem. destruct (mem FinalCost outputs) eqn:MF; simpl.
      + destruct (dget FinalCost s) as [lf|] eqn:EF; simpl.
        * eexists. split; [reflexivity|]. split; auto.
          assert (EQ : forall k, match dget k s with Some l => Some (h l) | None => if eqb k FinalCost then Some gone else None end
                  = match dget k s with Some l => Some (h l) | None => None end).
          { intros k. destruct (dget k s) eqn:E; auto. unfold eqb. destruct (eq_dec k FinalCost) as [->|]; congruence. }
          split; intros k; rewrite EQ.
          -- rewrite B1. destruct (dget k s); split; intros [H|H]; auto; try (right; congruence); left; congruence.
          -- rewrite V1. destruct (dget k s); auto.
        * eexists. split; [reflexivity|]. split; [apply alloc_inj; auto|]. split; intros k.
          -- rewrite alloc_bound, B1. unfold eqb. destruct (eq_dec k FinalCost) as [->|N].
             ++ rewrite EF. split; auto. intros _. right. discriminate.
             ++ destruct (dget k s); split.
                ** intros _. right. congruence.
                ** intros _. right. left. congruence.
                ** intros [H|[H|H]]; auto; congruence.
                ** intros [H|H]; auto.
          -- rewrite alloc_val; auto. rewrite V1. unfold eqb. destruct (eq_dec k FinalCost) as [->|N].
             ++ rewrite EF. auto.
             ++ destruct (dget k s); auto.
      + eexists. split; [reflexivity|]. split; auto. split; intros k.
        * rewrite B1. destruct (dget k s); split; intros [H|H]; auto; try (right; congruence); left; congruence.
        * rewrite V1. destruct (dget k s); auto.
    - unfold seed, given. destruct (mem FinalCost outputs) eqn:MF.
      + eexists. split; [reflexivity|]. split; [apply alloc_inj; auto|]. unfold eqb. split; intros k.
        * rewrite alloc_bound, B0. destruct (eq_dec k FinalCost); split; intros H; try tauto. right; congruence.
        * rewrite alloc_val; auto. destruct (eq_dec k FinalCost); auto.
      + destruct (Hn eq_refl) as [H|(o & ->)]; [apply mem_not_In in MF; tauto|].
        destruct scalar_out; simpl; eexists; (split; [reflexivity|]).
        * split; [apply alloc_inj; auto|]. unfold eqb. split; intros k.
          -- rewrite alloc_bound, B0. destruct (eq_dec k o); split; intros H; try tauto. right; congruence.
          -- rewrite alloc_val; auto. destruct (eq_dec k o); auto.
        * split; auto. split; intros k; auto. rewrite B0. tauto.
  Qed.
End P.
