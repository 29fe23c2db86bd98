(** * Proofs about the container classes. *)
From Coq Require Import List Arith Lia Bool Permutation Relations.
From Verif Require Import PyBase Containers_Model.
Import ListNotations.

(** ** BiMap *)
Section BiMapP.
  Context {K V : Type} `{EqDec K} `{EqDec V}.
  Notation bm := (bimap K V).

  Definition bm_inv (m : bm) : Prop :=
    dwf (bm_table m) /\ dwf (bm_inverse m) /\
    (forall k v, dget k (bm_table m) = Some v <-> dget v (bm_inverse m) = Some k).

  Lemma bm_fill_spec items (inv inv' : dict V K) :
    dwf inv -> bm_fill items inv = Ok inv' ->
    dwf inv' /\
    (forall v k, dget v inv' = Some k <-> (dget v inv = Some k \/ In (k, v) items)) /\
    (forall v, In v (map snd items) -> dget v inv = None).
  Proof.
    revert inv. induction items as [|[k v] items IH]; simpl; intros inv W E.
    - inversion E; subst. split; auto. split; [intros; tauto | tauto].
    - destruct (dmem v inv) eqn:M; try discriminate.
      apply dmem_false in M.
      apply IH in E as (W' & S & F); auto using dwf_dset. clear IH.
      split; auto. split.
      + intros v0 k0. rewrite S, dget_dset. destruct (eq_dec v0 v).
        * subst. split.
          -- intros [E|I]; [inversion E; subst; auto | auto].
          -- intros [E|[E|I]]; [congruence | inversion E; auto | auto].
        * split; intros [E|I]; auto. destruct I as [E|I]; auto. inversion E; congruence.
      + intros v0 [E|I]; subst; auto. specialize (F _ I). rewrite dget_dset in F.
        destruct (eq_dec v0 v); congruence.
  Qed.

  Lemma dupdate_wf {K' V'} `{EqDec K'} (l : list (K' * V')) d : dwf d -> dwf (dupdate d l).
  Proof.
    unfold dupdate; revert d; induction l; simpl; auto using dwf_dset.
  Qed.

  Lemma bm_init_inv (args : list (K * V)) m : bm_init args = Ok m -> bm_inv m.
  Proof.
    unfold bm_init. destruct (bm_fill (dupdate [] args) []) eqn:E; simpl; try discriminate.
    intros X; inversion X; subst; clear X.
    assert (W : dwf (dupdate ([] : dict K V) args)) by (apply dupdate_wf; constructor).
    apply bm_fill_spec in E as (W' & S & _); [|constructor].
    split; auto. split; auto. simpl. intros k v. rewrite S. simpl. split.
    - intros G; right; apply dget_In; auto.
    - intros [G|I]; [discriminate|]. apply In_dget; auto.
  Qed.

  Lemma bm_set_inv k v m m' e : bm_inv m -> bm_set k v m = (m', e) -> bm_inv m'.
  Proof.
    intros (Wt & Wi & B). unfold bm_set.
    destruct (dget v (bm_inverse m)) as [ex|] eqn:Gv.
    { destruct (eq_dec k ex); intros E; inversion E; subst; repeat split; auto; apply B. }
    destruct (dget k (bm_table m)) as [old|] eqn:Gk.
    - destruct (dmem old (bm_inverse m)) eqn:M; intros E; inversion E; subst; clear E;
        [|repeat split; auto; apply B].
      split; [apply dwf_dset; auto|]. split; [apply dwf_dset, dwf_ddel; auto|]. cbn [bm_table bm_inverse].
      intros k0 v0. rewrite !dget_dset, dget_ddel by auto.
      destruct (eq_dec k0 k), (eq_dec v0 v); subst.
      + tauto.
      + destruct (eq_dec v0 old); subst.
        * split; congruence.
        * split; [congruence|]. intros G. apply B in G. congruence.
      + split.
        * intros G. apply B in G. congruence.
        * congruence.
      + rewrite B. destruct (eq_dec v0 old); subst; [|tauto].
        apply B in Gk. split; congruence.
    - intros E; inversion E; subst; clear E.
      split; [apply dwf_dset; auto|]. split; [apply dwf_dset; auto|]. cbn [bm_table bm_inverse].
      intros k0 v0. rewrite !dget_dset.
      destruct (eq_dec k0 k), (eq_dec v0 v); subst.
      + tauto.
      + split; [congruence|]. intros G. apply B in G. congruence.
      + split; [|congruence]. intros G; apply B in G; congruence.
      + apply B.
  Qed.

  Lemma bm_del_inv k m m' e : bm_inv m -> bm_del k m = (m', e) -> bm_inv m'.
  Proof.
    intros (Wt & Wi & B). unfold bm_del.
    destruct (dget k (bm_table m)) as [v|] eqn:Gk.
    - destruct (dmem v (bm_inverse m)) eqn:M; intros E; inversion E; subst; clear E;
        [|repeat split; auto; apply B].
      split; [apply dwf_ddel; auto|]. split; [apply dwf_ddel; auto|]. cbn [bm_table bm_inverse].
      intros k0 v0. rewrite !dget_ddel by auto.
      pose proof (proj1 (B _ _) Gk) as Gv.
      destruct (eq_dec k0 k), (eq_dec v0 v); subst.
      + split; congruence.
      + split; [congruence|]. intros G; apply B in G; congruence.
      + split; [|congruence]. intros G; apply B in G; congruence.
      + apply B.
    - intros E; inversion E; subst. repeat split; auto; apply B.
  Qed.

  Lemma bm_update_inv l m m' e : bm_inv m -> bm_update l m = (m', e) -> bm_inv m'.
  Proof.
    revert m; induction l as [|[k v] l IH]; simpl; intros m I E.
    - inversion E; subst; auto.
    - destruct (bm_set k v m) as [m1 [e1|]] eqn:S.
      + inversion E; subst. eapply bm_set_inv; eauto.
      + apply IH in E; auto. eapply bm_set_inv; eauto.
  Qed.

  Lemma bm_step_inv o m : bm_inv m -> bm_inv (fst (bm_step m o)).
  Proof.
    intros I. destruct o as [k v|k| |l]; simpl.
    - destruct (bm_set k v m) eqn:E; simpl; eapply bm_set_inv; eauto.
    - destruct (bm_del k m) eqn:E; simpl; eapply bm_del_inv; eauto.
    - unfold bm_popitem. destruct (bm_table m) as [|[k v] t]; auto.
      destruct (bm_del k m) eqn:E; simpl; eapply bm_del_inv; eauto.
    - destruct (bm_update l m) eqn:E; simpl; eapply bm_update_inv; eauto.
  Qed.

  Lemma bm_run_inv ops m : bm_inv m -> bm_inv (bm_run ops m).
  Proof.
    unfold bm_run; revert m; induction ops; simpl; auto using bm_step_inv.
  Qed.

  (** Effect of a single assignment, in terms of lookups only. *)
  Lemma bm_set_effect k v m : bm_inv m ->
    ((exists k', k' <> k /\ dget k' (bm_table m) = Some v) ->
       bm_set k v m = (m, Some ValueError)) /\
    (~ (exists k', k' <> k /\ dget k' (bm_table m) = Some v) ->
       exists m', bm_set k v m = (m', None) /\
         forall k0, dget k0 (bm_table m') = if eq_dec k0 k then Some v else dget k0 (bm_table m)).
  Proof.
    intros (Wt & Wi & B). unfold bm_set. split.
    - intros (k' & N & G). apply B in G. rewrite G. destruct (eq_dec k k'); congruence.
    - intros NE. destruct (dget v (bm_inverse m)) as [ex|] eqn:Gv.
      + apply B in Gv. destruct (eq_dec k ex).
        * subst. exists m; split; auto. intros k0. destruct (eq_dec k0 ex); congruence.
        * exfalso. apply NE. exists ex; split; auto.
      + destruct (dget k (bm_table m)) as [old|] eqn:Gk.
        * assert (M : dmem old (bm_inverse m) = true).
          { unfold dmem. apply B in Gk. rewrite Gk. auto. }
          rewrite M. eexists; split; eauto. intros k0. cbn [bm_table]. apply dget_dset.
        * eexists; split; eauto. intros k0. cbn [bm_table]. apply dget_dset.
  Qed.
  Lemma bm_del_effect k m : bm_inv m ->
    (dget k (bm_table m) = None -> bm_del k m = (m, Some KeyError)) /\
    (forall v, dget k (bm_table m) = Some v ->
       exists m', bm_del k m = (m', None) /\
         forall k0, dget k0 (bm_table m') = if eq_dec k0 k then None else dget k0 (bm_table m)).
  Proof.
    intros (Wt & Wi & B). unfold bm_del. split.
    - intros ->. auto.
    - intros v G. rewrite G.
      assert (M : dmem v (bm_inverse m) = true).
      { unfold dmem. apply B in G. rewrite G. auto. }
      rewrite M. eexists; split; eauto. intros k0; cbn [bm_table]. apply dget_ddel; auto.
  Qed.
End BiMapP.

(** ** BiMultiMap *)
Section BiMultiMapP.
  Context {K V : Type} `{EqDec K} `{EqDec V}.

  Fixpoint cnt {A} `{EqDec A} (x : A) (l : list A) : nat :=
    match l with [] => 0 | y :: l' => (if eq_dec x y then 1 else 0) + cnt x l' end.
  Lemma cnt_app {A} `{EqDec A} (x : A) l1 l2 : cnt x (l1 ++ l2) = cnt x l1 + cnt x l2.
  Proof. induction l1; simpl; auto. rewrite IHl1. lia. Qed.
  Lemma cnt_pos {A} `{EqDec A} (x : A) l : 0 < cnt x l <-> In x l.
  Proof.
    induction l as [|y l IH]; simpl; [lia|].
    destruct (eq_dec x y); subst; split; intros; auto; try lia.
    - right. apply IH. lia.
    - destruct H2; try congruence. apply IH in H2. lia.
  Qed.

  Definition inv_at (v : V) (inv : dict V (list K)) : list K :=
    match dget v inv with Some l => l | None => [] end.
  Definition no_empty (inv : dict V (list K)) : Prop := forall v, dget v inv <> Some [].

  Lemma mm_add_inv_spec k vs inv :
    dwf inv -> no_empty inv ->
    dwf (mm_add_inv k vs inv) /\ no_empty (mm_add_inv k vs inv) /\
    (forall v k', cnt k' (inv_at v (mm_add_inv k vs inv)) =
       cnt k' (inv_at v inv) + (if eq_dec k' k then cnt v vs else 0)).
  Proof.
    revert inv; induction vs as [|v0 vs IH]; simpl; intros inv W NE.
    - split; auto. split; auto. intros. destruct (eq_dec k' k); lia.
    - destruct (IH (dset v0 (match dget v0 inv with Some l => l | None => [] end ++ [k]) inv))
        as (W' & NE' & C).
      + apply dwf_dset; auto.
      + intros v. rewrite dget_dset. destruct (eq_dec v v0); auto.
        intros E; inversion E. destruct (dget v0 inv) as [[|]|]; discriminate.
      + split; auto. split; auto. intros v k'. rewrite C. unfold inv_at at 1. rewrite dget_dset.
        destruct (eq_dec v v0).
        * subst. rewrite cnt_app. simpl. fold (inv_at v0 inv).
          destruct (eq_dec k' k); lia.
        * fold (inv_at v inv). destruct (eq_dec k' k); lia.
  Qed.

  Lemma remove_first_spec (k : K) l :
    (In k l -> exists l', remove_first k l = Some l' /\
        forall k', cnt k' l' + (if eq_dec k' k then 1 else 0) = cnt k' l).
  Proof.
    induction l as [|x l IH]; simpl; [tauto|].
    destruct (eq_dec k x).
    - subst. intros _. exists l. split; auto. intros k'. destruct (eq_dec k' x); lia.
    - intros [E|I]; [congruence|]. destruct (IH I) as (l' & R & C). rewrite R.
      exists (x :: l'). split; auto. intros k'. simpl. rewrite <- (C k'). lia.
  Qed.

  Lemma mm_rem_inv_spec k vs inv :
    dwf inv -> no_empty inv ->
    (forall v, cnt v vs <= cnt k (inv_at v inv)) ->
    exists inv', mm_rem_inv k vs inv = (inv', None) /\ dwf inv' /\ no_empty inv' /\
    (forall v k', cnt k' (inv_at v inv') + (if eq_dec k' k then cnt v vs else 0)
                  = cnt k' (inv_at v inv)).
  Proof.
    revert inv; induction vs as [|v0 vs IH]; simpl; intros inv W NE LE.
    - exists inv. repeat split; auto. intros. destruct (eq_dec k' k); lia.
    - assert (P : In k (inv_at v0 inv)).
      { apply cnt_pos. specialize (LE v0). destruct (eq_dec v0 v0); try congruence. lia. }
      unfold inv_at in P. destruct (dget v0 inv) as [l|] eqn:G; [|destruct P].
      destruct (remove_first_spec k l P) as (l' & R & C). rewrite R.
      set (inv1 := match l' with [] => ddel v0 inv | _ => dset v0 l' inv end).
      assert (AT : forall v, inv_at v inv1 = if eq_dec v v0 then l' else inv_at v inv).
      { intros v. unfold inv1, inv_at. destruct l'.
        - rewrite dget_ddel by auto. destruct (eq_dec v v0); auto.
        - rewrite dget_dset. destruct (eq_dec v v0); auto. }
      assert (W1 : dwf inv1) by (unfold inv1; destruct l'; auto using dwf_ddel, dwf_dset).
      assert (NE1 : no_empty inv1).
      { intros v. unfold inv1. destruct l'.
        - rewrite dget_ddel by auto. destruct (eq_dec v v0); auto; congruence.
        - rewrite dget_dset. destruct (eq_dec v v0); auto; congruence. }
      destruct (IH inv1) as (inv' & E & W' & NE' & C'); auto.
      { intros v. rewrite AT. specialize (LE v). destruct (eq_dec v v0).
        - subst v. unfold inv_at in LE. rewrite G in LE. specialize (C k).
          destruct (eq_dec k k); try congruence. lia.
        - lia. }
      exists inv'. split.
      { unfold inv1 in E. destruct l'; exact E. }
      repeat split; auto. intros v k'. specialize (C' v k'). rewrite AT in C'.
      destruct (eq_dec v v0).
      + subst v. specialize (C k'). unfold inv_at at 2. rewrite G.
        destruct (eq_dec k' k); lia.
      + destruct (eq_dec k' k); lia.
  Qed.

  Definition vals_at (k : K) (m : mmap K V) : list V :=
    match dget k (mm_table m) with Some (MList l) => l | _ => [] end.
  Definition mm_inv (m : mmap K V) : Prop :=
    dwf (mm_table m) /\ dwf (mm_inverse m) /\ no_empty (mm_inverse m) /\
    (forall k, dget k (mm_table m) <> Some MOther) /\
    (forall k v, cnt k (inv_at v (mm_inverse m)) = cnt v (vals_at k m)).

  Lemma mm_empty_inv : mm_inv mm_empty.
  Proof. repeat split; try constructor; simpl; intros; discriminate. Qed.

  Lemma mm_set_ok k vs m : mm_inv m ->
    exists m', mm_set k (MList vs) m = (m', None) /\ mm_inv m' /\
      forall k0, dget k0 (mm_table m') =
        if eq_dec k0 k then Some (MList vs) else dget k0 (mm_table m).
  Proof.
    intros (Wt & Wi & NE & NO & C). unfold mm_set.
    assert (R : exists inv1, dwf inv1 /\ no_empty inv1 /\
      (forall v k', cnt k' (inv_at v inv1) =
          if eq_dec k' k then 0 else cnt k' (inv_at v (mm_inverse m))) /\
      (match dget k (mm_table m) with
       | None => inv1 = mm_inverse m
       | Some MOther => False
       | Some (MList old) => mm_rem_inv k old (mm_inverse m) = (inv1, None) end)).
    { destruct (dget k (mm_table m)) as [[old|]|] eqn:G.
      - destruct (mm_rem_inv_spec k old (mm_inverse m)) as (inv1 & E & W1 & NE1 & C1); auto.
        { intros v. rewrite C. unfold vals_at. rewrite G. auto. }
        exists inv1. repeat split; auto. intros v k'. specialize (C1 v k').
        destruct (eq_dec k' k); [|lia]. subst.
        rewrite (C k v) in C1. unfold vals_at in C1. rewrite G in C1. lia.
      - exfalso; eapply NO; eauto.
      - exists (mm_inverse m). repeat split; auto. intros v k'. destruct (eq_dec k' k); auto.
        subst. rewrite C. unfold vals_at. rewrite G. auto. }
    destruct R as (inv1 & W1 & NE1 & C1 & R).
    destruct (mm_add_inv_spec k vs inv1 W1 NE1) as (W2 & NE2 & C2).
    exists (MkMM (dset k (MList vs) (mm_table m)) (mm_add_inv k vs inv1)).
    split; [|split].
    - destruct (dget k (mm_table m)) as [[old|]|].
      + rewrite R. auto.
      + tauto.
      + subst; auto.
    - split; [apply dwf_dset; auto|]. split; auto. split; auto. split.
      + intros k0. cbn [mm_table]. rewrite dget_dset. destruct (eq_dec k0 k); auto; congruence.
      + intros k0 v. cbn [mm_inverse]. rewrite C2, C1. unfold vals_at. cbn [mm_table].
        rewrite dget_dset. destruct (eq_dec k0 k); auto. rewrite C. unfold vals_at. lia.
    - intros k0. cbn [mm_table]. apply dget_dset.
  Qed.

  Lemma mm_del_ok k m : mm_inv m ->
    (dget k (mm_table m) = None -> mm_del k m = (m, Some KeyError)) /\
    (dget k (mm_table m) <> None -> exists m', mm_del k m = (m', None) /\ mm_inv m' /\
      forall k0, dget k0 (mm_table m') = if eq_dec k0 k then None else dget k0 (mm_table m)).
  Proof.
    intros (Wt & Wi & NE & NO & C). unfold mm_del. split; [intros ->; auto|].
    destruct (dget k (mm_table m)) as [[old|]|] eqn:G; [|exfalso; eapply NO; eauto|congruence].
    intros _.
    destruct (mm_rem_inv_spec k old (mm_inverse m)) as (inv1 & E & W1 & NE1 & C1); auto.
    { intros v. rewrite C. unfold vals_at. rewrite G. auto. }
    rewrite E. eexists; split; eauto. split.
    - split; [apply dwf_ddel; auto|]. split; auto. split; auto. split.
      + intros k0. cbn [mm_table]. rewrite dget_ddel by auto. destruct (eq_dec k0 k); auto; congruence.
      + intros k0 v. cbn [mm_inverse]. specialize (C1 v k0). unfold vals_at. cbn [mm_table].
        rewrite dget_ddel by auto. rewrite C in C1. unfold vals_at in C1.
        destruct (eq_dec k0 k); [|lia]. subst. rewrite G in C1. simpl. lia.
    - intros k0. cbn [mm_table]. apply dget_ddel; auto.
  Qed.

  Definition list_op (o : mm_op K V) : Prop :=
    match o with MSet _ MOther => False | _ => True end.

  Lemma mm_step_inv m o : mm_inv m -> list_op o -> mm_inv (fst (mm_step m o)).
  Proof.
    intros I L. destruct o as [k [vs|]|k]; simpl in *; try tauto.
    - destruct (mm_set_ok k vs m I) as (m' & E & I' & _). rewrite E. auto.
    - destruct (mm_del_ok k m I) as [N S].
      destruct (dget k (mm_table m)) eqn:G.
      + destruct S as (m' & E & I' & _); [congruence|]. rewrite E; auto.
      + rewrite N; auto.
  Qed.

  Lemma mm_run_inv ops m : mm_inv m -> Forall list_op ops -> mm_inv (mm_run ops m).
  Proof.
    unfold mm_run. revert m; induction ops; simpl; auto. intros m I F.
    inversion F; subst. apply IHops; auto. apply mm_step_inv; auto.
  Qed.
End BiMultiMapP.

(** ** OrderedSet *)
Section OrderedSetP.
  Context {A : Type} `{EqDec A}.

  Lemma os_init_In x l : In x (os_init l) <-> In x l.
  Proof. unfold os_init. pose proof (In_sunion x [] l) as E. unfold sunion in E. rewrite E. simpl; tauto. Qed.
  Lemma os_init_NoDup (l : list A) : NoDup (os_init l).
  Proof. unfold os_init. apply (NoDup_sunion [] l). constructor. Qed.
  Lemma sadd_snoc x (s : list A) : ~ In x s -> sadd x s = s ++ [x].
  Proof. unfold sadd. destruct (mem_spec x s); tauto. Qed.
  Lemma os_init_id (l : list A) : NoDup l -> os_init l = l.
  Proof.
    unfold os_init. intros ND.
    enough (E : forall s, NoDup (s ++ l) -> fold_left (fun s x => sadd x s) l s = s ++ l)
      by (apply (E []); auto).
    clear ND. induction l; simpl; intros s ND.
    - rewrite app_nil_r; auto.
    - rewrite sadd_snoc.
      + rewrite IHl; rewrite <- app_assoc; auto.
      + intros I. apply NoDup_remove_2 in ND. apply ND. rewrite in_app_iff; auto.
  Qed.

  Lemma fold_add_In x it (s : list A) :
    In x (fold_left (fun s x => os_add x s) it s) <-> In x s \/ In x it.
  Proof. apply In_sunion. Qed.
  Lemma fold_discard_In x it (s : list A) :
    In x (fold_left (fun s x => os_discard x s) it s) <-> In x s /\ ~ In x it.
  Proof.
    revert s; induction it; simpl; intros s; [tauto|].
    rewrite IHit. unfold os_discard. rewrite In_sremove. intuition.
  Qed.
  Lemma os_update_In x its (s : list A) :
    In x (os_update its s) <-> In x s \/ exists it, In it its /\ In x it.
  Proof.
    unfold os_update. revert s; induction its; simpl; intros s.
    - firstorder.
    - rewrite IHits, fold_add_In. firstorder; subst; auto.
  Qed.
  Lemma os_diff_In x its (s : list A) :
    In x (os_difference_update its s) <-> In x s /\ forall it, In it its -> ~ In x it.
  Proof.
    unfold os_difference_update. revert s; induction its; simpl; intros s.
    - firstorder.
    - rewrite IHits, fold_discard_In. split.
      + intros [[I N] F]. split; auto. intros it [->|J]; auto.
      + intros [I F]. split; [split|]; auto.
  Qed.
  Lemma sremove_NoDup x (s : list A) : NoDup s -> NoDup (sremove x s).
  Proof. apply NoDup_filter. Qed.
  Lemma fold_add_NoDup it (s : list A) : NoDup s -> NoDup (fold_left (fun s x => os_add x s) it s).
  Proof. apply NoDup_sunion. Qed.
  Lemma fold_discard_NoDup it (s : list A) :
    NoDup s -> NoDup (fold_left (fun s x => os_discard x s) it s).
  Proof. revert s; induction it; simpl; auto using sremove_NoDup. Qed.

  Lemma symdiff_In x it (s : list A) : NoDup it ->
    (In x (os_symmetric_difference_update it s) <->
       (In x s /\ ~ In x it) \/ (~ In x s /\ In x it)).
  Proof.
    unfold os_symmetric_difference_update. revert s; induction it as [|a it IH]; simpl; intros s ND.
    - tauto.
    - inversion ND; subst. rewrite IH by auto.
      assert (E : In x (if mem a s then os_discard a s else os_add a s) <->
                  (x = a /\ ~ In a s) \/ (x <> a /\ In x s)).
      { unfold os_discard, os_add. destruct (mem_spec a s).
        - rewrite In_sremove. split; [tauto|]. intros [[-> ?]|?]; tauto.
        - rewrite In_sadd. destruct (eq_dec x a); subst; tauto. }
      rewrite E. destruct (eq_dec x a); subst.
      + destruct (in_dec eq_dec a s); tauto.
      + assert (a <> x) by congruence. destruct (in_dec eq_dec x s), (in_dec eq_dec x it); tauto.
  Qed.
  Lemma symdiff_NoDup it (s : list A) :
    NoDup s -> NoDup (os_symmetric_difference_update it s).
  Proof.
    unfold os_symmetric_difference_update. revert s; induction it; simpl; auto.
    intros s ND. apply IHit. destruct (mem a s); [apply sremove_NoDup | apply NoDup_sadd]; auto.
  Qed.

  Section WithOrder.
    Variable hash_order : list A -> list A.
    Hypothesis hash_order_perm : forall l, Permutation l (hash_order l).

    Lemma inter_In x its (s : list A) :
      In x (os_intersection_update hash_order its s) <->
      In x s /\ forall it, In it its -> In x it.
    Proof.
      unfold os_intersection_update. rewrite os_init_In.
      rewrite <- (Permutation_in' (eq_refl x) (hash_order_perm _)).
      rewrite filter_In, forallb_forall. split; intros [I F]; split; auto; intros it J;
      apply mem_In; auto.
    Qed.

    Lemma os_pop_spec (s : list A) :
      (s = [] -> os_pop s = (s, Err KeyError)) /\
      (forall x r, s = r ++ [x] -> os_pop s = (r, Ok x)).
    Proof.
      unfold os_pop. split.
      - intros ->; auto.
      - intros x r ->. rewrite rev_app_distr. simpl. rewrite rev_involutive. auto.
    Qed.

    Lemma os_step_NoDup s o : NoDup s -> NoDup (os_step hash_order s o).
    Proof.
      intros ND. destruct o; simpl.
      - apply NoDup_sadd; auto.
      - apply sremove_NoDup; auto.
      - unfold os_remove. destruct (mem x s); simpl; auto using sremove_NoDup.
      - destruct s as [|y s] using rev_ind; [constructor|]. clear IHs.
        destruct (os_pop_spec (s ++ [y])) as [_ P]. rewrite (P y s eq_refl). simpl.
        apply NoDup_remove_1 in ND. rewrite app_nil_r in ND. auto.
      - constructor.
      - unfold os_update. revert s ND; induction its; simpl; auto. intros; apply IHits.
        apply fold_add_NoDup; auto.
      - unfold os_difference_update. revert s ND; induction its; simpl; auto. intros; apply IHits.
        apply fold_discard_NoDup; auto.
      - apply os_init_NoDup.
      - apply symdiff_NoDup; auto.
      - apply (NoDup_sunion s o). auto.
    Qed.
    Lemma os_run_NoDup ops s : NoDup s -> NoDup (os_run hash_order ops s).
    Proof. unfold os_run. revert s; induction ops; simpl; auto using os_step_NoDup. Qed.
  End WithOrder.

  (** Insertion order: [stamp] is the abstract history.  *)
  Lemma sremove_app x (a b : list A) : sremove x (a ++ b) = sremove x a ++ sremove x b.
  Proof. apply filter_app. Qed.
  Lemma sremove_notin x (s : list A) : ~ In x s -> sremove x s = s.
  Proof.
    unfold sremove. induction s; simpl; auto. intros N.
    destruct (eqb x a) eqn:E.
    - apply (proj1 (eqb_eq _ _)) in E. subst. tauto.
    - simpl. f_equal. apply IHs. tauto.
  Qed.
End OrderedSetP.

(** ** Equivalence table *)
Section EquivP.
  Context {A : Type} `{EqDec A}.

  Definition rel_of (ps : list (A * A)) (x y : A) : Prop := In (x, y) ps.
  (** Equivalence closure of the recorded pairs. *)
  Definition equiv_of (ps : list (A * A)) : A -> A -> Prop := clos_refl_sym_trans A (rel_of ps).

  Definition touched (ps : list (A * A)) (x : A) : Prop := exists p, In p ps /\ (x = fst p \/ x = snd p).

  Record et_inv (ps : list (A * A)) (t : etable A) : Prop := {
    ei_dom : forall x, dget x (et_table t) <> None <-> touched ps x;
    ei_lt : forall x id, dget x (et_table t) = Some id -> id < et_next t;
    ei_mem : forall x id y, dget x (et_table t) = Some id ->
              (In y (et_members id t) <-> dget y (et_table t) = Some id);
    ei_eq : forall x y id, dget x (et_table t) = Some id ->
              (dget y (et_table t) = Some id <-> equiv_of ps x y)
  }.

  Lemma equiv_mono ps qs x y : (forall p, In p ps -> In p qs) -> equiv_of ps x y -> equiv_of qs x y.
  Proof.
    intros M E. induction E.
    - apply rst_step. unfold rel_of in *. auto.
    - apply rst_refl.
    - apply rst_sym; auto.
    - eapply rst_trans; eauto.
  Qed.

  (** Closure after one more pair, expressed by the previous closure. *)
  Lemma equiv_snoc ps a b x y :
    equiv_of (ps ++ [(a, b)]) x y <->
    equiv_of ps x y \/ (equiv_of ps x a /\ equiv_of ps y b) \/ (equiv_of ps x b /\ equiv_of ps y a).
  Proof.
    assert (T : forall u v w, equiv_of ps u v -> equiv_of ps v w -> equiv_of ps u w)
      by (intros; eapply rst_trans; eauto).
    assert (S : forall u v, equiv_of ps u v -> equiv_of ps v u)
      by (intros; apply rst_sym; auto).
    assert (R : forall u, equiv_of ps u u) by (intros; apply rst_refl).
    split.
    - intros E. induction E.
      + unfold rel_of in H0. apply in_app_iff in H0. destruct H0 as [I|[E|[]]].
        * left. apply rst_step; auto.
        * inversion E; subst. right; left; auto.
      + left; auto.
      + destruct IHE as [I|[[I J]|[I J]]]; auto.
      + destruct IHE1 as [I|[[I J]|[I J]]], IHE2 as [I'|[[I' J']|[I' J']]]; eauto 6.
    - assert (M : forall u v, equiv_of ps u v -> equiv_of (ps ++ [(a, b)]) u v).
      { intros u v. apply equiv_mono. intros; apply in_app_iff; auto. }
      assert (P : equiv_of (ps ++ [(a, b)]) a b).
      { apply rst_step. unfold rel_of. apply in_app_iff; simpl; auto. }
      intros [E|[[E F]|[E F]]].
      + auto.
      + eapply rst_trans; [apply M, E|]. eapply rst_trans; [apply P|]. apply rst_sym, M, F.
      + eapply rst_trans; [apply M, E|]. eapply rst_trans; [apply rst_sym, P|].
        apply rst_sym, M, F.
  Qed.

  Lemma equiv_untouched ps x y : equiv_of ps x y -> x = y \/ (touched ps x /\ touched ps y).
  Proof.
    intros E; induction E.
    - right. unfold rel_of in H0. split; exists (x, y); simpl; auto.
    - auto.
    - destruct IHE as [->|[? ?]]; auto.
    - destruct IHE1 as [->|[? ?]], IHE2 as [<-|[? ?]]; auto.
  Qed.

  Lemma touched_snoc ps a b x : touched (ps ++ [(a, b)]) x <-> touched ps x \/ x = a \/ x = b.
  Proof.
    unfold touched. split.
    - intros (p & I & E). apply in_app_iff in I. destruct I as [I|[<-|[]]].
      + left; exists p; auto.
      + auto.
    - intros [(p & I & E)|E].
      + exists p. rewrite in_app_iff; auto.
      + exists (a, b). rewrite in_app_iff; simpl; auto.
  Qed.

  Lemma dget_fold_dset (l : list A) (id : nat) (tb : dict A nat) x :
    dget x (fold_left (fun tb y => dset y id tb) l tb) =
    if mem x l then Some id else dget x tb.
  Proof.
    revert tb; induction l as [|a l IH]; simpl; intros tb; auto.
    rewrite IH. unfold mem; simpl. fold (mem x l). destruct (mem x l); [rewrite orb_true_r; auto|].
    rewrite orb_false_r, dget_dset. unfold eqb. destruct (eq_dec x a); auto.
  Qed.

  Lemma et_update_inv ps t a b : et_inv ps t -> et_inv (ps ++ [(a, b)]) (et_update a b t).
  Proof.
    intros [Dom Lt Mem Eq].
    assert (NT : forall x, dget x (et_table t) = None -> forall y, equiv_of ps x y \/ equiv_of ps y x -> x = y).
    { intros x N y E. assert (U : ~ touched ps x) by (rewrite <- Dom; congruence).
      destruct E as [E|E]; apply equiv_untouched in E; intuition. }
    assert (Rf : forall u, equiv_of ps u u) by (intros; apply rst_refl).
    assert (Sy : forall u v, equiv_of ps u v -> equiv_of ps v u) by (intros; apply rst_sym; auto).
    assert (Tr : forall u v w, equiv_of ps u v -> equiv_of ps v w -> equiv_of ps u w)
      by (intros; eapply rst_trans; eauto).
    unfold et_update.
    destruct (dget a (et_table t)) as [s1|] eqn:Ga; destruct (dget b (et_table t)) as [s2|] eqn:Gb.
    - (* both present *)
      set (m1 := et_members s1 t). set (m2 := et_members s2 t).
      set (heap := dset s1 (sunion m1 m2) (et_heap t)).
      assert (HM2 : forall y, In y (et_members s2 (MkET (et_table t) heap (et_next t))) <->
                      In y m2 \/ (s1 = s2 /\ In y m1)).
      { intros y. unfold et_members at 1. cbn [et_heap]. unfold heap. rewrite dget_dset.
        destruct (eq_dec s2 s1).
        - subst. rewrite In_sunion. unfold m1, m2. tauto.
        - unfold m2, et_members. intuition congruence. }
      assert (GET : forall x, dget x (fold_left (fun tb x => dset x s1 tb)
                     (et_members s2 (MkET (et_table t) heap (et_next t))) (et_table t)) =
                     match dget x (et_table t) with
                     | Some i => if Nat.eq_dec i s2 then Some s1 else Some i | None => None end).
      { intros x. rewrite dget_fold_dset.
        destruct (mem_spec x (et_members s2 (MkET (et_table t) heap (et_next t)))) as [I|I];
          rewrite HM2 in I.
        - assert (In x m2) as J.
          { destruct I as [J|[E J]]; auto. unfold m1 in J. unfold m2. rewrite <- E. auto. }
          apply (Mem b s2 x Gb) in J. rewrite J. destruct (Nat.eq_dec s2 s2); congruence.
        - destruct (dget x (et_table t)) as [i|] eqn:Gx; auto.
          destruct (Nat.eq_dec i s2); auto. subst.
          exfalso; apply I. left. apply (Mem b s2 x Gb); auto. }
      assert (MEMS : forall i, et_members i (MkET (fold_left (fun tb x => dset x s1 tb)
                     (et_members s2 (MkET (et_table t) heap (et_next t))) (et_table t)) heap (et_next t))
                     = if Nat.eq_dec i s1 then sunion m1 m2 else et_members i t).
      { intros i. unfold et_members at 1. cbn [et_heap]. unfold heap. rewrite dget_dset.
        unfold eq_dec, EqDec_nat. destruct (Nat.eq_dec i s1); auto. }
      constructor; cbn [et_table et_next].
      + intros x. rewrite GET, touched_snoc, <- Dom.
        destruct (dget x (et_table t)) as [i|] eqn:Gx.
        * destruct (Nat.eq_dec i s2); intuition congruence.
        * split; [tauto|]. intros [N|[->| ->]]; congruence.
      + intros x id. rewrite GET. destruct (dget x (et_table t)) as [i|] eqn:Gx; [|discriminate].
        destruct (Nat.eq_dec i s2); intros E; inversion E; subst; eauto.
      + intros x id y G. rewrite GET in G. rewrite MEMS, GET.
        destruct (dget x (et_table t)) as [i|] eqn:Gx; [|discriminate].
        destruct (Nat.eq_dec id s1).
        * subst id. rewrite In_sunion. unfold m1, m2.
          rewrite (Mem a s1 y Ga), (Mem b s2 y Gb).
          destruct (dget y (et_table t)) as [j|]; [|intuition congruence].
          destruct (Nat.eq_dec j s2); intuition congruence.
        * destruct (Nat.eq_dec i s2); [congruence|]. inversion G; subst i.
          rewrite (Mem x id y Gx). destruct (dget y (et_table t)) as [j|]; [|intuition congruence].
          destruct (Nat.eq_dec j s2); intuition congruence.
      + intros x y id G. rewrite GET in G. rewrite GET, equiv_snoc.
        destruct (dget x (et_table t)) as [i|] eqn:Gx; [|discriminate].
        pose proof (fun z => Eq x z i Gx) as Ex.
        pose proof (fun z => Eq a z s1 Ga) as Ea. pose proof (fun z => Eq b z s2 Gb) as Eb.
        assert (XA : equiv_of ps x a <-> i = s1).
        { rewrite <- Ex, Ga. split; congruence. }
        assert (XB : equiv_of ps x b <-> i = s2).
        { rewrite <- Ex, Gb. split; congruence. }
        assert (YA : equiv_of ps y a <-> dget y (et_table t) = Some s1).
        { rewrite Ea. split; auto. }
        assert (YB : equiv_of ps y b <-> dget y (et_table t) = Some s2).
        { rewrite Eb. split; auto. }
        rewrite XA, XB, YA, YB, <- Ex.
        destruct (dget y (et_table t)) as [j|].
        * destruct (Nat.eq_dec i s2), (Nat.eq_dec j s2); inversion G; subst;
            intuition congruence.
        * destruct (Nat.eq_dec i s2); intuition congruence.
    - (* only a present *)
      constructor; cbn [et_table et_next].
      + intros x. rewrite dget_dset, touched_snoc, <- Dom. destruct (eq_dec x b).
        * subst. split; auto; congruence.
        * intuition congruence.
      + intros x id. rewrite dget_dset. destruct (eq_dec x b); intros E; [inversion E; subst|]; eauto.
      + intros x id y G. rewrite dget_dset in *. unfold et_members. cbn [et_heap]. rewrite dget_dset.
        destruct (eq_dec id s1).
        * subst. rewrite In_sadd, (Mem a s1 y Ga). destruct (eq_dec y b); intuition congruence.
        * assert (Gx : dget x (et_table t) = Some id) by (destruct (eq_dec x b); congruence).
          fold (et_members id t). rewrite (Mem x id y Gx). destruct (eq_dec y b); [|tauto].
          subst. intuition congruence.
      + intros x y id G. rewrite dget_dset in *. rewrite equiv_snoc.
        pose proof (fun z => Eq a z s1 Ga) as Ea.
        destruct (eq_dec x b) as [->|nxb].
        * inversion G; subst id. destruct (eq_dec y b) as [->|nyb].
          { split; auto. }
          rewrite Ea. split.
          { intros E; right; right; split; auto. }
          { intros [E|[[E F]|[E F]]]; auto.
            - apply (fun h => NT b Gb y (or_introl h)) in E. congruence.
            - apply (fun h => NT b Gb a (or_introl h)) in E. congruence. }
        * pose proof (fun z => Eq x z id G) as Ex. destruct (eq_dec y b) as [->|nyb].
          { split.
            - intros E. assert (equiv_of ps x a) by (apply Ex; congruence). auto.
            - intros [E|[[E F]|[E F]]].
              + apply (fun h => NT b Gb x (or_intror h)) in E. congruence.
              + apply Ex in E. congruence.
              + apply (fun h => NT b Gb x (or_intror h)) in E. congruence. }
          { rewrite Ex. split; auto. intros [E|[[E F]|[E F]]]; auto.
            - apply (fun h => NT b Gb y (or_intror h)) in F. congruence.
            - apply (fun h => NT b Gb x (or_intror h)) in E. congruence. }
    - (* only b present *)
      constructor; cbn [et_table et_next].
      + intros x. rewrite dget_dset, touched_snoc, <- Dom. destruct (eq_dec x a).
        * subst. split; auto; congruence.
        * intuition congruence.
      + intros x id. rewrite dget_dset. destruct (eq_dec x a); intros E; [inversion E; subst|]; eauto.
      + intros x id y G. rewrite dget_dset in *. unfold et_members. cbn [et_heap]. rewrite dget_dset.
        destruct (eq_dec id s2).
        * subst. rewrite In_sadd, (Mem b s2 y Gb). destruct (eq_dec y a); intuition congruence.
        * assert (Gx : dget x (et_table t) = Some id) by (destruct (eq_dec x a); congruence).
          fold (et_members id t). rewrite (Mem x id y Gx). destruct (eq_dec y a); [|tauto].
          subst. intuition congruence.
      + intros x y id G. rewrite dget_dset in *. rewrite equiv_snoc.
        pose proof (fun z => Eq b z s2 Gb) as Eb.
        destruct (eq_dec x a) as [->|nxa].
        * inversion G; subst id. destruct (eq_dec y a) as [->|nya].
          { split; auto. }
          rewrite Eb. split.
          { intros E; right; left; split; auto. }
          { intros [E|[[E F]|[E F]]]; auto.
            - apply (fun h => NT a Ga y (or_introl h)) in E. congruence.
            - apply (fun h => NT a Ga b (or_introl h)) in E. congruence. }
        * pose proof (fun z => Eq x z id G) as Ex. destruct (eq_dec y a) as [->|nya].
          { split.
            - intros E. assert (equiv_of ps x b) by (apply Ex; congruence). auto.
            - intros [E|[[E F]|[E F]]].
              + apply (fun h => NT a Ga x (or_intror h)) in E. congruence.
              + apply (fun h => NT a Ga x (or_intror h)) in E. congruence.
              + apply Ex in E. congruence. }
          { rewrite Ex. split; auto. intros [E|[[E F]|[E F]]]; auto.
            - apply (fun h => NT a Ga x (or_intror h)) in E. congruence.
            - apply (fun h => NT a Ga y (or_intror h)) in F. congruence. }
    - (* none present *)
      constructor; cbn [et_table et_next].
      + intros x. rewrite !dget_dset, touched_snoc, <- Dom.
        destruct (eq_dec x a), (eq_dec x b); subst; intuition congruence.
      + intros x id. rewrite !dget_dset.
        destruct (eq_dec x a), (eq_dec x b); intros E; try (inversion E; subst; lia).
        apply Lt in E. lia.
      + intros x id y G. rewrite !dget_dset in *. unfold et_members. cbn [et_heap]. rewrite dget_dset.
        destruct (eq_dec id (et_next t)).
        * subst. rewrite In_sadd. simpl.
          destruct (eq_dec y a), (eq_dec y b); try intuition congruence.
          split; [intuition congruence|]. intros E; apply Lt in E; lia.
        * assert (Gx : dget x (et_table t) = Some id)
            by (destruct (eq_dec x a), (eq_dec x b); congruence).
          fold (et_members id t). rewrite (Mem x id y Gx).
          destruct (eq_dec y a), (eq_dec y b); subst; intuition congruence.
      + intros x y id G. rewrite !dget_dset in *. rewrite equiv_snoc.
        assert (Na : forall z, equiv_of ps z a <-> z = a).
        { intros z. split; [|intros ->; auto]. intros E.
          symmetry. apply (NT a Ga z); auto. }
        assert (Nb : forall z, equiv_of ps z b <-> z = b).
        { intros z. split; [|intros ->; auto]. intros E.
          symmetry. apply (NT b Gb z); auto. }
        rewrite !Na, !Nb.
        assert (XY : forall u v, dget u (et_table t) = None -> (equiv_of ps u v <-> u = v)).
        { intros u v N. split; [intros; apply NT; auto | intros ->; auto]. }
        destruct (eq_dec x a) as [->|nxa]; [|destruct (eq_dec x b) as [->|nxb]].
        * inversion G; subst id. rewrite (XY a y Ga).
          destruct (eq_dec y a), (eq_dec y b); subst; try intuition congruence.
          split; [|intuition congruence]. intros E; apply Lt in E; lia.
        * inversion G; subst id. rewrite (XY b y Gb).
          destruct (eq_dec y a), (eq_dec y b); subst; try intuition congruence.
          split; [|intuition congruence]. intros E; apply Lt in E; lia.
        * rewrite <- (Eq x y id G). pose proof (Lt x id G).
          destruct (eq_dec y a), (eq_dec y b); subst; rewrite ?Ga, ?Gb;
            split; intros E; try tauto; try (inversion E; lia);
            destruct E as [E|[[? ?]|[? ?]]]; congruence.
  Qed.

  Lemma et_run_inv ps : et_inv ps (et_run ps et_empty).
  Proof.
    unfold et_run.
    enough (G : forall qs done t, et_inv done t ->
       et_inv (done ++ qs) (fold_left (fun t p => et_update (fst p) (snd p) t) qs t)).
    { apply (G ps [] et_empty). constructor; simpl.
      - intros x. split; [congruence|]. intros (p & [] & _).
      - discriminate.
      - discriminate.
      - discriminate. }
    induction qs as [|[a b] qs IH]; simpl; intros done t I.
    - rewrite app_nil_r; auto.
    - change (done ++ (a, b) :: qs) with (done ++ [(a, b)] ++ qs). rewrite app_assoc.
      apply IH. apply et_update_inv; auto.
  Qed.
End EquivP.

(** ** Additional facts used by the final statements *)
Section Extra.
  Context {K V : Type} `{EqDec K} `{EqDec V}.

  Lemma bm_fill_ok (items : list (K*V)) (inv : dict V K) :
    (exists inv', bm_fill items inv = Ok inv') <->
    (NoDup (map snd items) /\ forall v, In v (map snd items) -> dget v inv = None).
  Proof.
    revert inv; induction items as [|[k v] items IH]; simpl; intros inv.
    - split; [split; [constructor | tauto] | eauto].
    - destruct (dmem v inv) eqn:M.
      + split; [intros [? E]; discriminate|]. intros [_ F].
        apply dmem_In in M. specialize (F v (or_introl eq_refl)). apply dget_None in F. tauto.
      + apply dmem_false in M. rewrite IH. split.
        * intros [ND F]. split.
          -- constructor; auto. intros I. specialize (F _ I). rewrite dget_dset in F.
             destruct (eq_dec v v); congruence.
          -- intros v0 [E|I]; subst; auto. specialize (F _ I). rewrite dget_dset in F.
             destruct (eq_dec v0 v); congruence.
        * intros [ND F]. inversion ND; subst. split; auto. intros v0 I.
          rewrite dget_dset. destruct (eq_dec v0 v); subst; auto; tauto.
  Qed.

  Lemma bm_fill_err (items : list (K*V)) (inv : dict V K) e : bm_fill items inv = Err e -> e = ValueError.
  Proof.
    revert inv; induction items as [|[k v] items IH]; simpl; intros inv; try discriminate.
    destruct (dmem v inv); eauto. congruence.
  Qed.

  Lemma NoDup_vals_injective (d : dict K V) : dwf d ->
    (NoDup (map snd d) <->
     forall k1 k2 v, dget k1 d = Some v -> dget k2 d = Some v -> k1 = k2).
  Proof.
    induction d as [|[k v] d IH]; intros W.
    - split; [discriminate | constructor].
    - inversion W as [|? ? NI W']; subst. simpl. split.
      + intros ND. inversion ND as [|? ? NV ND']; subst. intros k1 k2 v0 G1 G2.
        destruct (eq_dec k1 k), (eq_dec k2 k); subst; auto.
        * inversion G1; subst. apply dget_In in G2. exfalso; apply NV.
          apply in_map_iff; exists (k2, v0); auto.
        * inversion G2; subst. apply dget_In in G1. exfalso; apply NV.
          apply in_map_iff; exists (k1, v0); auto.
        * eapply (proj1 (IH W')); eauto.
      + intros INJ. constructor.
        * intros I. apply in_map_iff in I as ([k' v'] & E & I). simpl in E; subst v'.
          assert (k' = k).
          { apply (INJ k' k v).
            - destruct (eq_dec k' k); auto. apply In_dget; auto.
            - destruct (eq_dec k k); congruence. }
          subst. apply NI. apply in_map_iff; exists (k, v); auto.
        * apply IH; auto. intros k1 k2 v0 G1 G2. apply (INJ k1 k2 v0).
          -- destruct (eq_dec k1 k); auto. subst. apply dget_In in G1. exfalso; apply NI.
             apply in_map_iff; exists (k, v0); auto.
          -- destruct (eq_dec k2 k); auto. subst. apply dget_In in G2. exfalso; apply NI.
             apply in_map_iff; exists (k, v0); auto.
  Qed.

  Lemma bm_init_err (args : list (K * V)) e :
    bm_init args = Err e ->
    e = ValueError /\ exists k1 k2 v, k1 <> k2 /\
       dget k1 (dupdate ([] : dict K V) args) = Some v /\ dget k2 (dupdate [] args) = Some v.
  Proof.
    unfold bm_init. set (t := dupdate [] args).
    assert (W : dwf t) by (apply dupdate_wf; constructor).
    destruct (bm_fill t []) as [inv|e'] eqn:E; simpl; try discriminate.
    intros X; inversion X; subst e'; clear X. split; [eapply bm_fill_err; eauto|].
    destruct (Exists_dec (fun p1 => Exists (fun p2 => fst p1 <> fst p2 /\ snd p1 = snd p2) t) t) as [EX|NX].
    { intros p1. apply Exists_dec. intros p2.
      destruct (eq_dec (fst p1) (fst p2)), (eq_dec (snd p1) (snd p2)); intuition. }
    - apply Exists_exists in EX as ([k1 v1] & I1 & EX).
      apply Exists_exists in EX as ([k2 v2] & I2 & N & EV). simpl in *; subst.
      exists k1, k2, v2. split; auto. split; apply In_dget; auto.
    - exfalso. assert (exists inv', bm_fill t [] = Ok inv') as [? Z]; [|congruence].
      apply bm_fill_ok. split; [|intros; reflexivity].
      apply (proj2 (NoDup_vals_injective t W)). intros k1 k2 v G1 G2.
      destruct (eq_dec k1 k2) as [|N]; auto. exfalso. apply NX.
      apply Exists_exists. exists (k1, v). split; [apply dget_In; auto|].
      apply Exists_exists. exists (k2, v). split; [apply dget_In; auto|]. auto.
  Qed.

  Lemma bm_init_ok_table (args : list (K * V)) m : bm_init args = Ok m -> bm_table m = dupdate [] args.
  Proof.
    unfold bm_init. destruct (bm_fill (dupdate [] args) []); simpl; try discriminate.
    intros E; inversion E; auto.
  Qed.
End Extra.

Section FirstOcc.
  Context {A : Type} `{EqDec A}.
  (** First occurrences of each element, in order. *)
  Fixpoint firsts (l : list A) : list A :=
    match l with [] => [] | x :: l' => x :: filter (fun y => negb (eqb x y)) (firsts l') end.

  Lemma filter_comm (f g : A -> bool) l : filter f (filter g l) = filter g (filter f l).
  Proof.
    induction l; simpl; auto. destruct (g a) eqn:G, (f a) eqn:F; simpl; rewrite ?F, ?G; congruence.
  Qed.
  Lemma filter_idem_sub (f g : A -> bool) l :
    (forall x, In x l -> f x = true -> g x = true) -> filter g (filter f l) = filter f l.
  Proof.
    induction l; simpl; auto. intros I. destruct (f a) eqn:F; simpl; auto.
    rewrite (I a) by auto. f_equal; auto.
  Qed.
  Lemma firsts_filter f l : firsts (filter f l) = filter f (firsts l).
  Proof.
    induction l; simpl; auto. destruct (f a) eqn:F; simpl.
    - rewrite IHl. f_equal. apply filter_comm.
    - rewrite IHl, (filter_comm f). symmetry. apply filter_idem_sub.
      intros x _ Fx. apply negb_true_iff, eqb_neq. congruence.
  Qed.
  Lemma fold_sadd_firsts l (s : list A) :
    fold_left (fun s x => sadd x s) l s = s ++ firsts (filter (fun x => negb (mem x s)) l).
  Proof.
    revert s; induction l as [|a l IH]; simpl; intros s.
    - rewrite app_nil_r; auto.
    - rewrite IH. unfold sadd. destruct (mem a s) eqn:M; simpl; auto.
      rewrite <- app_assoc. simpl. f_equal. f_equal.
      rewrite <- firsts_filter. f_equal.
      clear. induction l; simpl; auto.
      assert (E : mem a0 (s ++ [a]) = mem a0 s || eqb a a0).
      { unfold mem. rewrite existsb_app. simpl. rewrite orb_false_r. f_equal.
        unfold eqb. destruct (eq_dec a0 a), (eq_dec a a0); congruence. }
      rewrite E. destruct (mem a0 s) eqn:Ma; simpl; auto.
      destruct (eqb a a0) eqn:Ea; simpl; auto. f_equal; auto.
  Qed.
  Lemma os_update_concat its (s : list A) :
    os_update its s = fold_left (fun s x => sadd x s) (concat its) s.
  Proof.
    unfold os_update. revert s; induction its; simpl; auto. intros s.
    rewrite fold_left_app. apply IHits.
  Qed.
End FirstOcc.
