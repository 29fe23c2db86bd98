(** * Final statements for the container classes (C17, C18, C19, C20). *)
From Coq Require Import List Arith Lia Bool Permutation Relations.
From Verif Require Import PyBase Containers_Model Containers_Proofs.
Import ListNotations.

(** ** C17 BiMap.  Specification: a partial injective function [f : K -> option V]. *)
Section C17.
  Context {K V : Type} `{EqDec K} `{EqDec V}.

  (** What the user sees: forward lookup and inverse lookup. *)
  Definition fwd (m : bimap K V) (k : K) : option V := dget k (bm_table m).
  Definition bwd (m : bimap K V) (v : V) : option K := dget v (bm_inverse m).

  Theorem C17_bimap_bijection : forall (args : list (K * V)) m ops,
    bm_init args = Ok m ->
    forall k v, fwd (bm_run ops m) k = Some v <-> bwd (bm_run ops m) v = Some k.
  Proof.
    intros args m ops I k v. pose proof (bm_run_inv ops m (bm_init_inv _ _ I)) as (_ & _ & B).
    apply B.
  Qed.

  (** Assignment: rejected with ValueError and no change exactly when another key already
      holds the value; otherwise exactly one entry changes. *)
  Theorem C17_bimap_assignment : forall (args : list (K * V)) m ops k v,
    bm_init args = Ok m ->
    let m1 := bm_run ops m in
    ((exists k', k' <> k /\ fwd m1 k' = Some v) -> bm_set k v m1 = (m1, Some ValueError)) /\
    (~ (exists k', k' <> k /\ fwd m1 k' = Some v) ->
       exists m2, bm_set k v m1 = (m2, None) /\
         forall k0, fwd m2 k0 = if eq_dec k0 k then Some v else fwd m1 k0).
  Proof.
    intros args m ops k v I m1. apply bm_set_effect. apply bm_run_inv.
    eapply bm_init_inv; eauto.
  Qed.

  Theorem C17_bimap_deletion : forall (args : list (K * V)) m ops k,
    bm_init args = Ok m ->
    let m1 := bm_run ops m in
    (fwd m1 k = None -> bm_del k m1 = (m1, Some KeyError)) /\
    (forall v, fwd m1 k = Some v ->
       exists m2, bm_del k m1 = (m2, None) /\
         forall k0, fwd m2 k0 = if eq_dec k0 k then None else fwd m1 k0).
  Proof.
    intros args m ops k I m1. apply bm_del_effect. apply bm_run_inv.
    eapply bm_init_inv; eauto.
  Qed.

  (** Construction: rejected exactly when two keys carry the same value. *)
  Theorem C17_bimap_construction : forall (args : list (K * V)),
    (exists m, bm_init args = Ok m /\ forall k, fwd m k = dget k (dupdate [] args)) \/
    (bm_init args = Err ValueError /\
     exists k1 k2 v, k1 <> k2 /\ dget k1 (dupdate [] args) = Some v
                              /\ dget k2 (dupdate [] args) = Some v).
  Proof.
    intros args. destruct (bm_init args) as [m|e] eqn:E.
    - left. exists m. split; auto. intros k. unfold fwd.
      rewrite (bm_init_ok_table _ _ E). auto.
    - right. destruct (bm_init_err _ _ E) as [-> X]. auto.
  Qed.
End C17.
Print Assumptions C17_bimap_bijection.
Print Assumptions C17_bimap_assignment.
Print Assumptions C17_bimap_deletion.
Print Assumptions C17_bimap_construction.

(** A history with an overwrite, a rejected assignment, a deletion and a partial update. *)
Example C17_example :
  exists m, bm_init [(1, 10); (2, 20)] = Ok m /\
    let m1 := bm_run [BSet 1 30; BSet 3 20; BDel 2; BUpdate [(4, 20); (5, 30); (6, 60)]] m in
    bm_table m1 = [(1, 30); (4, 20)] /\ bm_inverse m1 = [(30, 1); (20, 4)] /\
    bm_set 9 30 m1 = (m1, Some ValueError).
Proof. eexists; split; [reflexivity|]. repeat split. Qed.
Example C17_example_rejected : bm_init [(1, 10); (2, 10)] = Err ValueError.
Proof. reflexivity. Qed.

(** ** C18 BiMultiMap *)
Section C18.
  Context {K V : Type} `{EqDec K} `{EqDec V}.
  Definition stored (m : mmap K V) (k : K) : option (list V) :=
    match dget k (mm_table m) with Some (MList l) => Some l | _ => None end.
  Definition posted (m : mmap K V) (v : V) : list K :=
    match dget v (mm_inverse m) with Some l => l | None => [] end.

  Theorem C18_inverse_exact : forall ops,
    Forall list_op ops ->
    forall k v, In k (posted (mm_run ops (mm_empty (K:=K) (V:=V))) v) <->
      exists l, stored (mm_run ops mm_empty) k = Some l /\ In v l.
  Proof.
    intros ops F k v. destruct (mm_run_inv ops mm_empty mm_empty_inv F) as (_ & _ & _ & NO & C).
    set (m := mm_run ops mm_empty) in *.
    specialize (C k v). unfold inv_at in C. fold (posted m v) in C.
    rewrite <- cnt_pos, C, cnt_pos. unfold vals_at, stored.
    destruct (dget k (mm_table m)) as [[l|]|] eqn:G; simpl.
    - split; [eauto|]. intros (l' & E & I). inversion E; subst; auto.
    - exfalso; eapply NO; eauto.
    - split; [tauto|]. intros (l' & E & _). discriminate.
  Qed.

  (** No value is listed in the inverse without a holder. *)
  Theorem C18_no_empty_postings : forall ops,
    Forall list_op ops ->
    forall v, dget v (mm_inverse (mm_run ops (mm_empty (K:=K) (V:=V)))) <> Some [].
  Proof.
    intros ops F. destruct (mm_run_inv ops mm_empty mm_empty_inv F) as (_ & _ & NE & _). exact NE.
  Qed.

  (** Assigning a list always succeeds and changes one entry only. *)
  Theorem C18_assignment : forall ops k vs,
    Forall list_op ops ->
    let m := mm_run ops (mm_empty (K:=K) (V:=V)) in
    exists m', mm_set k (MList vs) m = (m', None) /\
      (forall k0, stored m' k0 = if eq_dec k0 k then Some vs else stored m k0).
  Proof.
    intros ops k vs F m. destruct (mm_set_ok k vs m) as (m' & E & _ & T).
    { apply mm_run_inv; auto. apply mm_empty_inv. }
    exists m'; split; auto. intros k0. unfold stored. rewrite T. destruct (eq_dec k0 k); auto.
  Qed.
  Theorem C18_deletion : forall ops k,
    Forall list_op ops ->
    let m := mm_run ops (mm_empty (K:=K) (V:=V)) in
    (stored m k = None -> mm_del k m = (m, Some KeyError)) /\
    (forall l, stored m k = Some l -> exists m', mm_del k m = (m', None) /\
      (forall k0, stored m' k0 = if eq_dec k0 k then None else stored m k0)).
  Proof.
    intros ops k F m.
    assert (I : mm_inv m) by (apply mm_run_inv; auto; apply mm_empty_inv).
    destruct (mm_del_ok k m I) as [N S]. destruct I as (_ & _ & _ & NO & _).
    unfold stored. split.
    - intros G. apply N. destruct (dget k (mm_table m)) as [[l|]|] eqn:E; try congruence.
    - intros l G. destruct S as (m' & E & _ & T).
      { destruct (dget k (mm_table m)); congruence. }
      exists m'; split; auto. intros k0. rewrite T. destruct (eq_dec k0 k); auto.
  Qed.
End C18.
Print Assumptions C18_inverse_exact.
Print Assumptions C18_no_empty_postings.
Print Assumptions C18_assignment.
Print Assumptions C18_deletion.

Example C18_example :
  let ops := [MSet 1 (MList [10; 20; 10]); MSet 2 (MList [20]); MSet 1 (MList [30; 20]); MDel 2] in
  Forall (list_op (K:=nat) (V:=nat)) ops /\
  posted (mm_run ops mm_empty) 20 = [1] /\ posted (mm_run ops mm_empty) 10 = [] /\
  mm_inverse (mm_run ops mm_empty) = [(20, [1]); (30, [1])].
Proof. split; [repeat constructor|]. repeat split. Qed.

(** Finding: a rejected non-list assignment still changes the table, after which the key can
    neither be deleted nor reassigned (the invariant needs [list_op]). *)
Theorem C18_nonlist_assignment_corrupts_refuted :
  exists (m : mmap nat nat) k,
    (exists m1, m = fst (mm_set k MOther m1) /\ snd (mm_set k MOther m1) = Some TypeError
                /\ stored m1 k = Some [7]) /\
    stored m k = None /\ dmem k (mm_table m) = true /\
    mm_del k m = (m, Some TypeError) /\ forall l, mm_set k (MList l) m = (m, Some TypeError).
Proof.
  exists (fst (mm_set 1 MOther (mm_run [MSet 1 (MList [7])] mm_empty))), 1.
  split; [exists (mm_run [MSet 1 (MList [7])] mm_empty); repeat split|].
  repeat split.
Qed.
Print Assumptions C18_nonlist_assignment_corrupts_refuted.

(** ** C19 OrderedSet *)
Section C19.
  Context {A : Type} `{EqDec A}.
  Variable hash_order : list A -> list A.
  Hypothesis hash_order_perm : forall l, Permutation l (hash_order l).

  (** Mathematical meaning of each operation as a predicate transformer. [OPop] removes the
      given last element [lst]; symmetric difference is specified for duplicate free
      arguments only (see the refutation below). *)
  Definition set_meaning (o : os_op) (P : A -> Prop) (lst : option A) (x : A) : Prop :=
    match o with
    | OAdd y => P x \/ x = y
    | ODiscard y => P x /\ x <> y
    | ORemove y => P x /\ x <> y
    | OPop => P x /\ lst <> Some x
    | OClear => False
    | OUpdate its => P x \/ exists it, In it its /\ In x it
    | ODiffUpdate its => P x /\ forall it, In it its -> ~ In x it
    | OInterUpdate its => P x /\ forall it, In it its -> In x it
    | OSymDiffUpdate it => (P x /\ ~ In x it) \/ (~ P x /\ In x it)
    | OIor o => P x \/ In x o
    end.
  Definition dup_free (o : os_op (A:=A)) : Prop :=
    match o with OSymDiffUpdate it => NoDup it | _ => True end.
  Definition last_opt (s : list A) : option A :=
    match rev s with [] => None | x :: _ => Some x end.

  Theorem C19_no_duplicates : forall init ops, NoDup (os_run hash_order ops (os_init init)).
  Proof. intros. apply os_run_NoDup. apply os_init_NoDup. Qed.

  Theorem C19_membership : forall init ops o x,
    dup_free o ->
    let s := os_run hash_order ops (os_init init) in
    In x (os_step hash_order s o) <-> set_meaning o (fun y => In y s) (last_opt s) x.
  Proof.
    intros init ops o x D s.
    assert (ND : NoDup s) by (apply C19_no_duplicates).
    destruct o; simpl.
    - unfold os_add. rewrite In_sadd. tauto.
    - unfold os_discard. rewrite In_sremove. tauto.
    - unfold os_remove. destruct (mem_spec x0 s) as [I|I]; simpl.
      + rewrite In_sremove. tauto.
      + split; [|tauto]. intros J. split; auto. intros ->; auto.
    - unfold last_opt. destruct (os_pop_spec s) as [E P].
      destruct s as [|y r] using rev_ind.
      + simpl. split; [tauto|]. intros [[] _].
      + clear IHr. rewrite (P y r eq_refl). simpl. rewrite rev_app_distr, in_app_iff. simpl.
        apply NoDup_remove in ND as [_ NI]. rewrite app_nil_r in NI. split.
        * intros I. split; auto. intros E'. inversion E'; subst; auto.
        * intros [[I|[I|[]]] N]; auto. subst; congruence.
    - tauto.
    - apply os_update_In.
    - apply os_diff_In.
    - apply inter_In; auto.
    - apply symdiff_In; auto.
    - apply (In_sunion x s o).
  Qed.

  (** Insertion order: updates append the new elements in order of first occurrence;
      removals keep the order of the survivors. *)
  Theorem C19_update_order : forall its (s : list A),
    os_update its s = s ++ firsts (filter (fun x => negb (mem x s)) (concat its)).
  Proof. intros. rewrite os_update_concat. apply fold_sadd_firsts. Qed.
  Theorem C19_discard_order : forall a x (b : list A),
    NoDup (a ++ x :: b) -> os_discard x (a ++ x :: b) = a ++ b.
  Proof.
    intros a x b ND. apply NoDup_remove_2 in ND. rewrite in_app_iff in ND.
    unfold os_discard. rewrite sremove_app. simpl. unfold sremove at 2. simpl.
    rewrite eqb_refl. simpl. fold (sremove x b). rewrite !sremove_notin; auto.
  Qed.
  Theorem C19_pop_is_latest : forall (s : list A) x,
    ~ In x s -> os_pop (os_add x s) = (s, Ok x).
  Proof.
    intros s x N. unfold os_add. rewrite sadd_snoc by auto.
    apply (proj2 (os_pop_spec (s ++ [x]))). auto.
  Qed.
  Theorem C19_remove_missing : forall init ops x,
    let s := os_run hash_order ops (os_init init) in
    ~ In x s -> os_remove x s = (s, Some KeyError).
  Proof.
    intros init ops x s N. unfold os_remove. destruct (mem_spec x s); tauto.
  Qed.
  (** Copying operations agree with the in-place ones on a set object. *)
  Theorem C19_copy_ops : forall init ops its,
    let s := os_run hash_order ops (os_init init) in
    os_union its s = os_step hash_order s (OUpdate its) /\
    os_difference its s = os_step hash_order s (ODiffUpdate its) /\
    os_intersection hash_order its s = os_step hash_order s (OInterUpdate its) /\
    (forall it, os_symmetric_difference it s = os_step hash_order s (OSymDiffUpdate it)).
  Proof.
    intros init ops its s. assert (E : os_init s = s) by (apply os_init_id, C19_no_duplicates).
    unfold os_union, os_difference, os_symmetric_difference. rewrite E. repeat split.
  Qed.
  Theorem C19_relations : forall (s o : list A),
    (os_issubset o s = true <-> forall x, In x s -> In x o) /\
    (os_issuperset o s = true <-> forall x, In x o -> In x s) /\
    (os_isdisjoint o s = true <-> forall x, ~ (In x s /\ In x o)).
  Proof.
    intros s o. split; [|split].
    - apply ssubset_spec.
    - apply ssubset_spec.
    - unfold os_isdisjoint. rewrite forallb_forall. split.
      + intros F x [I J]. specialize (F x I). apply negb_true_iff, mem_not_In in F. tauto.
      + intros F x I. apply negb_true_iff, mem_not_In. intros J. apply (F x); auto.
  Qed.
End C19.
Print Assumptions C19_no_duplicates.
Print Assumptions C19_membership.
Print Assumptions C19_update_order.
Print Assumptions C19_discard_order.
Print Assumptions C19_pop_is_latest.
Print Assumptions C19_remove_missing.
Print Assumptions C19_copy_ops.
Print Assumptions C19_relations.

Example C19_example :
  (forall l : list nat, Permutation l (rev l)) /\
  os_run (rev (A:=nat)) [OAdd 5; OUpdate [[1; 5]; [7; 1]]; ODiscard 5; OSymDiffUpdate [7; 9]; OPop]
         (os_init [3; 5; 3]) = [3; 1] /\
  os_run (rev (A:=nat)) [OInterUpdate [[1; 3]; [3; 1; 4]]] (os_init [3; 1; 2]) = [1; 3].
Proof. split; [apply Permutation_rev|]. split; reflexivity. Qed.

(** Finding: symmetric difference with a repeated element toggles it twice, unlike a set. *)
Theorem C19_symmetric_difference_duplicates_refuted :
  exists (s it : list nat) x,
    NoDup s /\ In x it /\ ~ In x s /\ ~ In x (os_symmetric_difference it s).
Proof. exists [], [1; 1], 1. simpl. repeat split; auto; constructor. Qed.
(** Finding: intersection does not keep insertion order. *)
Theorem C19_intersection_order_refuted :
  exists (h : list nat -> list nat) s its,
    (forall l, Permutation l (h l)) /\ NoDup s /\
    os_intersection h its s <> filter (fun x => forallb (mem x) its) s.
Proof.
  exists (@rev nat), [1; 2], [[1; 2]]. split; [apply Permutation_rev|]. split.
  - repeat constructor; simpl; intuition congruence.
  - vm_compute. congruence.
Qed.
Print Assumptions C19_symmetric_difference_duplicates_refuted.
Print Assumptions C19_intersection_order_refuted.

(** ** C20 equivalence table *)
Section C20.
  Context {A : Type} `{EqDec A}.
  (** The set object an item is listed under. *)
  Definition class_of (t : etable A) (x : A) : option (list A) :=
    match dget x (et_table t) with Some id => Some (et_members id t) | None => None end.
  Definition shares (t : etable A) (x y : A) : Prop :=
    exists l, class_of t x = Some l /\ In y l.

  Theorem C20_members_exact : forall (pairs : list (A * A)) x l,
    class_of (et_run pairs et_empty) x = Some l ->
    forall y, In y l <-> equiv_of pairs x y.
  Proof.
    intros pairs x l C y. destruct (et_run_inv pairs) as [Dom Lt Mem Eq].
    unfold class_of in C. destruct (dget x _) as [id|] eqn:G; [|discriminate].
    inversion C; subst. rewrite (Mem x id y G). apply Eq; auto.
  Qed.
  (** Every recorded item has a class, no other item has; equivalent items share one object. *)
  Theorem C20_domain : forall (pairs : list (A * A)) x,
    class_of (et_run pairs et_empty) x <> None <-> touched pairs x.
  Proof.
    intros pairs x. destruct (et_run_inv pairs) as [Dom _ _ _].
    rewrite <- Dom. unfold class_of. destruct (dget x _); split; congruence.
  Qed.
  Theorem C20_same_object : forall (pairs : list (A * A)) x y,
    touched pairs x ->
    (dget x (et_table (et_run pairs et_empty)) = dget y (et_table (et_run pairs et_empty))
       <-> equiv_of pairs x y).
  Proof.
    intros pairs x y T. destruct (et_run_inv pairs) as [Dom Lt Mem Eq].
    apply Dom in T. destruct (dget x _) as [id|] eqn:G; [|congruence].
    rewrite <- (Eq x y id G). split; congruence.
  Qed.
End C20.
Print Assumptions C20_members_exact.
Print Assumptions C20_domain.
Print Assumptions C20_same_object.

Example C20_example :
  class_of (et_run [(1, 2); (3, 4); (5, 5); (2, 4)] et_empty) 3 = Some [1; 2; 3; 4] /\
  touched [(1, 2); (3, 4); (5, 5); (2, 4)] 3.
Proof. split; [reflexivity|]. exists (3, 4); simpl; auto. Qed.
