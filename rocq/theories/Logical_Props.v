(** * C14, C15, C47: dependency bookkeeping of logical models *)
From Coq Require Import String Ascii List Arith Lia Bool Relations.
From Verif Require Import PyBase PyStrings Logical_Model Logical_Proofs Cycle_Proofs.
Import ListNotations.
Open Scope string_scope. Open Scope list_scope. Open Scope nat_scope.
Implicit Types (dm : depmap) (ins outs : list (conn * list conn)).

(** ** C14.  [dep dm a b]: [a] is produced from [b] (Logical_Proofs); [ext_dep dm outs] adds the dependencies of the new
    submodel; [fits]: its outputs are not produced yet and its inputs and outputs describe the same relation. *)

(** The maps met while a model is extended, starting from the empty model. *)
Inductive reachable (limit : nat) : depmap -> Prop :=
| reach_nil : reachable limit []
| reach_add dm m ins outs dm' : reachable limit dm -> fits dm ins outs -> length dm + length outs <= limit ->
    add_model_dag limit m (dag_of ins outs) dm = Ok dm' -> reachable limit dm'.

Lemma reachable_inv limit dm : reachable limit dm -> dwf dm /\ acyclic (fp dm).
Proof.
  induction 1 as [|dm m ins outs dm' H [Hwf Hac] Hfit Hl E].
  - split; [constructor|]. intros a Ha. apply t_rt_first in Ha as (x & (m & l & Hd & _) & _). discriminate.
  - destruct (add_general limit m dm ins outs Hfit Hwf Hac Hl) as [[E' _]|(d & E' & A & B & _)]; rewrite E in E'; [discriminate|].
    injection E' as <-. auto.
Qed.

(** A reported cycle is a real one; otherwise exactly the submodel's dependencies are recorded; and the check ends
    (within a recursion depth of the number of produced connections) even on maps in which an earlier cycle was
    missed. *)
Theorem C14_sound limit m dm ins outs :
  reachable limit dm -> fits dm ins outs -> length dm + length outs <= limit ->
  (add_model_dag limit m (dag_of ins outs) dm = Err KeyError /\ exists a, clos_trans _ (ext_dep dm outs) a a) \/
  (exists dm', add_model_dag limit m (dag_of ins outs) dm = Ok dm' /\ reachable limit dm' /\
     forall a b, dep dm' a b <-> ext_dep dm outs a b).
Proof.
  intros Hr Hfit Hl. destruct (reachable_inv _ _ Hr) as [Hwf Hac].
  destruct (add_general limit m dm ins outs Hfit Hwf Hac Hl) as [H|(d & E & A & B & C & D)]; [left; auto|right].
  exists d. split; auto. split; auto. eapply reach_add; eauto.
Qed.

(** If every produced or new connection depends on at most one produced connection, the check is exact. *)
Theorem C14_exact_on_chains limit m dm ins outs :
  reachable limit dm -> fits dm ins outs -> length dm + length outs <= limit -> acyclic (dep dm) ->
  (forall c l, ((exists m, dget c dm = Some (m, l)) \/ In (c, l) outs) ->
     forall a b, In a l -> In b l -> (dmem a dm = true \/ In a (map fst outs)) -> (dmem b dm = true \/ In b (map fst outs)) -> a = b) ->
  (add_model_dag limit m (dag_of ins outs) dm = Err KeyError <-> exists a, clos_trans _ (ext_dep dm outs) a a) /\
  (forall dm', add_model_dag limit m (dag_of ins outs) dm = Ok dm' -> acyclic (dep dm')).
Proof.
  intros Hr Hfit Hl Hac Hone. destruct (reachable_inv _ _ Hr) as [Hwf Hfp].
  assert (K : forall dm', add_model_dag limit m (dag_of ins outs) dm = Ok dm' -> acyclic (dep dm')).
  { intros dm'. unfold add_model_dag, dag_of. rewrite foldM_app_local.
    destruct (look_inputs' limit m dm ins outs Hfit) as [E|[E _]]; rewrite E; cbn [bind]; [|discriminate].
    destruct Hfit as (Hn & Hf & _). apply outputs_chain; auto. }
  split; auto. destruct (C14_sound limit m dm ins outs Hr Hfit Hl) as [[E H]|(d & E & _ & D)].
  - rewrite E. split; auto.
  - rewrite E. split; [discriminate|]. intros (a & Ha). exfalso. apply (K d E a).
    eapply t_mono; [|exact Ha]. intros x y H. apply D; auto.
Qed.

(** Appending a submodel whose outputs nobody reads yet is always accepted and keeps the map acyclic. *)
Theorem C14_forward limit m dm ins outs :
  reachable limit dm -> fits dm ins outs -> length dm + length outs <= limit -> acyclic (dep dm) ->
  (forall a o l, In (o, l) outs -> ~ ext_dep dm outs a o) ->
  exists dm', add_model_dag limit m (dag_of ins outs) dm = Ok dm' /\ acyclic (dep dm').
Proof.
  intros Hr Hfit Hl Hac Hfw.
  assert (A : acyclic (ext_dep dm outs)).
  { intros a Ha.
    assert (G : forall x y, clos_trans _ (ext_dep dm outs) x y -> (exists l, In (x, l) outs) \/ clos_trans _ (dep dm) x y).
    { induction 1 as [x y [H|(l & H & _)]|x y z H1 IH1 H2 IH2]; [right; apply t_step; auto | left; eauto |].
      destruct IH1 as [IH1|IH1]; auto. destruct IH2 as [[l Hy]|IH2]; [|right; eapply t_trans; eauto].
      exfalso. apply clos_trans_tn1 in H1. inversion H1 as [? Hxy|y' ? Hxy _]; subst; exact (Hfw _ y l Hy Hxy). }
    destruct (G a a Ha) as [[l Hl']|H]; [|exact (Hac a H)].
    apply clos_trans_tn1 in Ha. inversion Ha as [? Hxy|y' ? Hxy _]; subst; exact (Hfw _ a l Hl' Hxy). }
  destruct (C14_sound limit m dm ins outs Hr Hfit Hl) as [[_ (a & Ha)]|(d & E & _ & D)]; [destruct (A a Ha)|].
  exists d. split; auto. intros a Ha. apply (A a). eapply t_mono; [|exact Ha]. intros x y. apply D.
Qed.

(** The submodels of the example: a <- x, d <- b, c <- a, d, then b <- c. *)
Definition ex_x := 0. Definition ex_a := 1. Definition ex_b := 2. Definition ex_d := 3. Definition ex_c := 4.
Definition ex_dm : depmap := [(ex_a, (10, [ex_x])); (ex_d, (11, [ex_b])); (ex_c, (12, [ex_a; ex_d]))].
Lemma ex_reachable : reachable 100 ex_dm.
Proof.
  eapply reach_add with (dm := [(ex_a, (10, [ex_x])); (ex_d, (11, [ex_b]))]) (m := 12)
    (ins := [(ex_a, [ex_c]); (ex_d, [ex_c])]) (outs := [(ex_c, [ex_a; ex_d])]).
  - eapply reach_add with (dm := [(ex_a, (10, [ex_x]))]) (m := 11) (ins := [(ex_b, [ex_d])]) (outs := [(ex_d, [ex_b])]).
    + eapply reach_add with (dm := []) (m := 10) (ins := [(ex_x, [ex_a])]) (outs := [(ex_a, [ex_x])]).
      * constructor.
      * split; [repeat constructor; cbn; tauto|]. split; [intros; reflexivity|].
        intros i os o [E|[]] Ho. injection E as <- <-. destruct Ho as [<-|[]]. exists [ex_x]. cbn; auto.
      * cbn; lia.
      * vm_compute; reflexivity.
    + split; [repeat constructor; cbn; tauto|]. split; [intros o l [E|[]]; injection E as <- <-; reflexivity|].
      intros i os o [E|[]] Ho. injection E as <- <-. destruct Ho as [<-|[]]. exists [ex_b]. cbn; auto.
    + cbn; lia.
    + vm_compute; reflexivity.
  - split; [repeat constructor; cbn; tauto|]. split; [intros o l [E|[]]; injection E as <- <-; reflexivity|].
    intros i os o [E|[E|[]]] Ho; injection E as <- <-; destruct Ho as [<-|[]]; exists [ex_a; ex_d]; cbn; auto.
  - cbn; lia.
  - vm_compute; reflexivity.
Qed.
Lemma ranked_acyclic dm (rank : conn -> nat) : (forall a m l b, dget a dm = Some (m, l) -> In b l -> rank b < rank a) -> acyclic (dep dm).
Proof.
  intros H a Ha. assert (G : forall x y, clos_trans _ (dep dm) x y -> rank y < rank x).
  { induction 1 as [x y (m & l & Hd & Hin)|x y z _ IH1 _ IH2]; [eapply H; eauto | lia]. }
  specialize (G a a Ha). lia.
Qed.
Lemma ex_acyclic : acyclic (dep ex_dm).
Proof.
  apply ranked_acyclic with (rank := fun c => match c with 0 => 0 | 1 => 1 | 2 => 0 | 3 => 1 | _ => 2 end).
  intros a m l b Hd Hin. apply dget_In in Hd. cbn in Hd.
  destruct Hd as [E|[E|[E|[]]]]; injection E as <- <- <-; cbn in Hin;
    repeat destruct Hin as [<-|Hin]; try (cbn; lia); destruct Hin.
Qed.
Definition ex_bad : depmap := ex_dm ++ [(ex_b, (13, [ex_c]))].
Lemma ex_fits : fits ex_dm [(ex_c, [ex_b])] [(ex_b, [ex_c])].
Proof.
  split; [repeat constructor; cbn; tauto|]. split; [intros o l [E|[]]; injection E as <- <-; reflexivity|].
  intros i os o [E|[]] Ho. injection E as <- <-. destruct Ho as [<-|[]]. exists [ex_c]. cbn; auto.
Qed.

(** Finding: a cycle through the second produced input is accepted. *)
Theorem C14_second_input_refuted :
  ~ (forall limit m dm ins outs dm', reachable limit dm -> fits dm ins outs -> length dm + length outs <= limit ->
       acyclic (dep dm) -> add_model_dag limit m (dag_of ins outs) dm = Ok dm' -> acyclic (dep dm')).
Proof.
  intros H. assert (A := H 100 13 ex_dm [(ex_c, [ex_b])] [(ex_b, [ex_c])] ex_bad ex_reachable ex_fits ltac:(cbn; lia) ex_acyclic eq_refl).
  apply (A ex_b). apply t_trans with ex_c; [apply t_step; exists 13, [ex_c]; cbn; auto|].
  apply t_trans with ex_d; [apply t_step; exists 12, [ex_a; ex_d]; cbn; auto|].
  apply t_step. exists 11, [ex_b]. cbn; auto.
Qed.

(** The same cycle is found when the inputs of the sum are given in the other order. *)
Example C14_other_order_example :
  add_model_dag 100 13 (dag_of [(ex_c, [ex_b])] [(ex_b, [ex_c])])
    [(ex_a, (10, [ex_x])); (ex_d, (11, [ex_b])); (ex_c, (12, [ex_d; ex_a]))] = Err KeyError.
Proof. vm_compute. reflexivity. Qed.
Example C14_forward_example : exists dm',
  add_model_dag 100 13 (dag_of [(ex_c, [5])] [(5, [ex_c])]) ex_dm = Ok dm' /\ acyclic (dep dm').
Proof.
  apply C14_forward; [exact ex_reachable | | cbn; lia | exact ex_acyclic |].
  - split; [repeat constructor; cbn; tauto|]. split; [intros o l [E|[]]; injection E as <- <-; reflexivity|].
    intros i os o [E|[]] Ho. injection E as <- <-. destruct Ho as [<-|[]]. exists [ex_c]. cbn; auto.
  - intros a o l [E|[]] [(m & l' & Hd & Hin)|(l' & [E'|[]] & Hin)]; injection E as <- <-.
    + apply dget_In in Hd. cbn in Hd. destruct Hd as [E|[E|[E|[]]]]; injection E as <- <- <-; cbn in Hin;
        repeat destruct Hin as [Hin|Hin]; try discriminate; destruct Hin.
    + injection E' as <- <-. destruct Hin as [Hin|[]]; discriminate.
Qed.
Example C14_chain_example :
  let dm : depmap := [(1, (10, [0])); (2, (11, [1]))] in
  reachable 50 dm /\ fits dm [(2, [0])] [(0, [2])] /\
  add_model_dag 50 12 (dag_of [(2, [0])] [(0, [2])]) dm = Err KeyError /\
  (forall c l, ((exists m, dget c dm = Some (m, l)) \/ In (c, l) [(0, [2])]) -> length l = 1).
Proof.
  split; [|split; [|split]].
  - eapply reach_add with (dm := [(1, (10, [0]))]) (m := 11) (ins := [(1, [2])]) (outs := [(2, [1])]).
    + eapply reach_add with (dm := []) (m := 10) (ins := [(0, [1])]) (outs := [(1, [0])]).
      * constructor.
      * split; [repeat constructor; cbn; tauto|]. split; [intros; reflexivity|].
        intros i os o [E|[]] Ho. injection E as <- <-. destruct Ho as [<-|[]]. exists [0]. cbn; auto.
      * cbn; lia.
      * vm_compute; reflexivity.
    + split; [repeat constructor; cbn; tauto|]. split; [intros o l [E|[]]; injection E as <- <-; reflexivity|].
      intros i os o [E|[]] Ho. injection E as <- <-. destruct Ho as [<-|[]]. exists [1]. cbn; auto.
    + cbn; lia.
    + vm_compute; reflexivity.
  - split; [repeat constructor; cbn; tauto|]. split; [intros o l [E|[]]; injection E as <- <-; reflexivity|].
    intros i os o [E|[]] Ho. injection E as <- <-. destruct Ho as [<-|[]]. exists [2]. cbn; auto.
  - vm_compute. reflexivity.
  - intros c l [(m & Hd)|[E|[]]]; [|injection E as <- <-; auto].
    apply dget_In in Hd. cbn in Hd. destruct Hd as [E|[E|[]]]; injection E as <- <- <-; auto.
Qed.

(** Finding: merging two connections makes no check at all. *)
Theorem C14_merge_refuted :
  ~ (forall dm c1 c2, acyclic (dep dm) -> c1 <> c2 -> dget c2 dm = None -> acyclic (dep (merge_dep c1 c2 dm))).
Proof.
  intros H. assert (A := H ex_dm ex_c ex_b ex_acyclic ltac:(discriminate) eq_refl).
  apply (A ex_c). apply t_trans with ex_d; apply t_step; [exists 12, [ex_a; ex_d] | exists 11, [ex_c]]; cbn; auto.
Qed.

(** Finding: the recursion is as deep as the chain of submodels, so for every recursion limit a long enough chain of
    submodels cannot be extended although there is no cycle. *)
Definition chain (n : nat) : depmap := map (fun k => (S k, (k, [k]))) (seq 0 n).
Lemma chain_get n k : k < n -> dget (S k) (chain n) = Some (k, [k]).
Proof.
  intros H. apply In_dget.
  - unfold dwf, dkeys, chain. rewrite map_map. cbn. apply FinFun.Injective_map_NoDup; [intros x y; lia | apply seq_NoDup].
  - unfold chain. apply in_map_iff. exists k. split; auto. apply in_seq. lia.
Qed.
Lemma chain_get_none n k : dget 0 (chain n) = None /\ (n < k -> dget k (chain n) = None).
Proof.
  assert (A : forall k v, dget k (chain n) = Some v -> 1 <= k <= n).
  { intros k0 v Hd. apply dget_In in Hd. unfold chain in Hd. apply in_map_iff in Hd as (j & E & Hj). injection E as <- _.
    apply in_seq in Hj. lia. }
  split; [destruct (dget 0 (chain n)) eqn:E | intros Hk; destruct (dget k (chain n)) eqn:E]; auto; apply A in E; lia.
Qed.
Ltac nomem := match goal with |- context [@mem ?A ?i ?x ?l] =>
  let H := fresh in assert (H : @mem A i x l = false) by (apply mem_not_In; intros [?|[]]; lia); rewrite H; clear H end.
Lemma chain_look n : forall fuel k, k <= n -> fuel < k ->
  look_for_cyclic_connection fuel (dset (S n) (n, [n]) (chain n)) (S n) [k] = Err OutOfFuel.
Proof.
  induction fuel as [|f IH]; intros k Hk Hf; cbn [look_for_cyclic_connection].
  - nomem.
    cbn [find]. destruct k as [|k]; [lia|].
    assert (D : dmem (S k) (dset (S n) (n, [n]) (chain n)) = true).
    { unfold dmem. rewrite dget_dset. destruct (eq_dec (S k) (S n)); auto. rewrite chain_get by lia. auto. }
    rewrite D. auto.
  - nomem.
    cbn [find]. destruct k as [|k]; [lia|].
    assert (G : dget (S k) (dset (S n) (n, [n]) (chain n)) = Some (k, [k])).
    { rewrite dget_dset. destruct (eq_dec (S k) (S n)); [lia|]. apply chain_get; lia. }
    assert (D : dmem (S k) (dset (S n) (n, [n]) (chain n)) = true) by (unfold dmem; rewrite G; auto).
    rewrite D. rewrite G. cbn [snd]. apply IH; lia.
Qed.
Theorem C14_recursion_limit_refuted : forall limit,
  exists dm m ins outs, acyclic (dep dm) /\ acyclic (ext_dep dm outs) /\ fits dm ins outs /\
    add_model_dag limit m (dag_of ins outs) dm = Err OutOfFuel.
Proof.
  intros limit. set (n := S limit). exists (chain n), n, [(n, [S n])], [(S n, [n])].
  assert (A : forall a m l b, dget a (chain n) = Some (m, l) -> In b l -> b < a).
  { intros a m l b Hd Hin. apply dget_In in Hd. unfold chain in Hd. apply in_map_iff in Hd as (k & E & _).
    injection E as <- <- <-. destruct Hin as [<-|[]]. lia. }
  split; [apply ranked_acyclic with (rank := fun c => c); exact A|].
  split.
  { intros a Ha. assert (G : forall x y, clos_trans _ (ext_dep (chain n) [(S n, [n])]) x y -> y < x).
    { induction 1 as [x y [(m & l & Hd & Hin)|(l & [E|[]] & Hin)]|x y z _ IH1 _ IH2]; [eapply A; eauto | | lia].
      injection E as <- <-. destruct Hin as [<-|[]]. lia. }
    specialize (G a a Ha). lia. }
  split.
  { split; [repeat constructor; cbn; tauto|]. split.
    - intros o l [E|[]]. injection E as <- <-. apply (chain_get_none n (S n)). lia.
    - intros i os o [E|[]] Ho. injection E as <- <-. destruct Ho as [<-|[]]. exists [n]. cbn; auto. }
  unfold add_model_dag, dag_of. cbn [map app foldM fst snd add_item].
  assert (L1 : look_for_cyclic_connection limit (chain n) n [S n] = Ok false).
  { assert (M : mem n [S n] = false) by (apply mem_not_In; intros [H|[]]; lia).
    assert (F : find (fun c => dmem c (chain n)) [S n] = None).
    { cbn [find]. unfold dmem. rewrite (proj2 (chain_get_none n (S n))) by lia. auto. }
    destruct limit; cbn [look_for_cyclic_connection]; rewrite M, F; auto. }
  rewrite L1. cbn [bind]. rewrite chain_look; [auto | lia | unfold n; lia].
Qed.

(** ** C15 *)
Lemma split_unique (l : list model) x l1 l2 l3 l4 : NoDup l -> l = l1 ++ x :: l2 -> l = l3 ++ x :: l4 -> l1 = l3.
Proof.
  revert l1 l3. induction l as [|y l IH]; intros l1 l3 Hn E1 E2; [destruct l1; discriminate|].
  inversion Hn as [|? ? Hy Hn']; subst.
  destruct l1 as [|a l1], l3 as [|b l3]; cbn in *; auto.
  - injection E1 as -> E1. injection E2 as <- E2. exfalso. apply Hy. rewrite E2. apply in_or_app; right; left; auto.
  - injection E1 as -> E1. injection E2 as -> E2. exfalso. apply Hy. rewrite E1. apply in_or_app; right; left; auto.
  - injection E1 as -> E1. injection E2 as -> E2. f_equal. eapply IH; eauto.
Qed.

(** Every submodel that produces something is listed exactly once; if no submodel depends on itself through others, each one comes
    after the producers of what it reads. *)
Theorem C15_topological dm : dwf dm ->
  exists order, get_models_in_topological_order dm None = Ok order /\
    NoDup order /\ (forall m, In m order <-> exists o cs, dget o dm = Some (m, cs)) /\
    (acyclic (reads_from dm) ->
     forall o m cs c x cs', dget o dm = Some (m, cs) -> In c cs -> dget c dm = Some (x, cs') ->
     exists l1 l2 l3, order = l1 ++ x :: l2 ++ m :: l3).
Proof.
  intros Hwf. destruct (build_graph_spec dm Hwf) as (Wg & Kg & Eg). set (g := build_graph dm) in *.
  assert (Hcl : forall a b, edge g a b -> In b (dkeys g)).
  { intros a b H. apply Eg in H as (o & cs & c & cs' & _ & _ & Hd). apply Kg. exists c, cs'. auto. }
  destruct (topo_all g Hcl (dkeys g) ([], [])) as (st & E & G & N & _ & I & I').
  { intros x; auto. } { apply good_nil. } { cbn; tauto. } { constructor. } { intros x c []. } { intros x []. }
  exists (fst st). unfold get_models_in_topological_order. fold g. rewrite E. cbn [bind]. split; auto. split; auto. split.
  - intros m. rewrite <- (Kg m). split; [apply I' | apply I].
  - intros Hac o m cs c x cs' Hd Hc Hx.
    assert (Hm : In m (fst st)) by (apply I; apply Kg; exists o, cs; auto).
    apply in_split in Hm as (l1 & l2 & Hs).
    assert (He : edge g m x) by (apply Eg; exists o, cs, c, cs'; auto).
    destruct (G l1 m l2 Hs x He) as [Hin|Hr].
    + apply in_split in Hin as (a & b & ->). exists a, b, l2. rewrite Hs, <- app_assoc. auto.
    + exfalso. apply (Hac m). eapply t_rt; [apply t_step; apply Eg; exact He|].
      eapply rt_mono; [|exact Hr]. intros u v. apply Eg.
Qed.

(** With a starting submodel: exactly the submodels it depends on, itself last. *)
Theorem C15_from_start dm start : dwf dm ->
  exists order, get_models_in_topological_order dm (Some start) = Ok order /\
    NoDup order /\ (forall m, In m order <-> reach (reads_from dm) start m) /\
    (acyclic (reads_from dm) -> forall m x, In m order -> reads_from dm m x -> exists l1 l2 l3, order = l1 ++ x :: l2 ++ m :: l3).
Proof.
  intros Hwf. destruct (build_graph_spec dm Hwf) as (Wg & Kg & Eg). set (g := build_graph dm) in *.
  assert (Hcl : forall a b, edge g a b -> In b (dkeys g)).
  { intros a b H. apply Eg in H as (o & cs & c & cs' & _ & _ & Hd). apply Kg. exists c, cs'. auto. }
  unfold get_models_in_topological_order. fold g.
  destruct (in_dec Nat.eq_dec start (dkeys g)) as [Hk|Hk].
  - destruct (dfs_ok g Hcl (S (length g)) ([], []) start) as (st & E & (new & F & N & V & _ & R & C & G) & I); auto.
    + cbn [snd]. assert (length (unvisited g []) <= length (dkeys g)).
      { unfold unvisited. generalize (dkeys g). intros l. induction l as [|y l IHl]; cbn [filter length]; auto. destruct (negb _); cbn [length]; lia. }
      unfold dkeys in H. rewrite map_length in H. lia.
    + split; [apply good_nil | intros v []].
    + rewrite E. cbn [bind fst snd app] in *. exists (fst st). split; auto. rewrite F. split; auto.
      assert (Hall : forall m, In m new <-> reach (reads_from dm) start m).
      { intros m. split.
        - intros Hm. destruct (R m Hm) as (r & <- & Hr). eapply rt_mono; [|exact Hr]. intros u v. apply Eg.
        - intros Hr. apply clos_rt_rtn1 in Hr. induction Hr as [|y z Hyz Hy IH].
          + apply V in I as [[]|I]; auto.
          + assert (Q : In z (snd st)) by (eapply C; [exact IH | apply Eg; exact Hyz]). apply V in Q as [[]|Q]; auto. }
      split; auto. intros Hac m x Hm Hx. apply in_split in Hm as (l1 & l2 & Hs).
      rewrite F in G. assert (He : edge g m x) by (apply Eg; auto).
      destruct (G l1 m l2 Hs x He) as [Hin|Hr].
      * apply in_split in Hin as (a & b & ->). exists a, b, l2. rewrite Hs, <- app_assoc. auto.
      * exfalso. apply (Hac m). eapply t_rt; [apply t_step; exact Hx|]. eapply rt_mono; [|exact Hr]. intros u v. apply Eg.
  - cbn [reverse_dfs]. assert (Ec : children g start = []).
    { destruct (children g start) as [|c r] eqn:Ec; auto. exfalso. apply Hk. apply (In_dkeys_children g start c).
      unfold edge. rewrite Ec. left; auto. }
    rewrite Ec. cbn [foldM bind fst snd app]. exists [start]. split; auto. split; [repeat constructor; auto|].
    assert (Hno : forall x, ~ reads_from dm start x).
    { intros x H. apply Eg in H. apply Hk. eapply In_dkeys_children; eauto. }
    split.
    + intros m. split; [intros [<-|[]]; apply rt_refl|]. intros Hr. apply clos_rt_rt1n in Hr.
      inversion Hr as [|y z Hy _]; subst; [left; auto | destruct (Hno y Hy)].
    + intros _ m x [<-|[]] Hx. destruct (Hno x Hx).
Qed.

Example C15_example :
  get_models_in_topological_order [(4, (12, [1; 3])); (1, (10, [0])); (3, (11, [2; 1]))] None = Ok [10; 11; 12] /\
  get_models_in_topological_order [(4, (12, [1; 3])); (1, (10, [0])); (3, (11, [2; 1]))] (Some 11) = Ok [10; 11] /\
  acyclic (reads_from [(4, (12, [1; 3])); (1, (10, [0])); (3, (11, [2; 1]))]).
Proof.
  split; [vm_compute; reflexivity|]. split; [vm_compute; reflexivity|].
  intros a Ha. assert (G : forall x y, clos_trans _ (reads_from [(4, (12, [1; 3])); (1, (10, [0])); (3, (11, [2; 1]))]) x y -> y < x).
  { induction 1 as [x y (o & cs & c & cs' & Hd & Hc & Hd')|x y z _ IH1 _ IH2]; [|lia].
    apply dget_In in Hd, Hd'. cbn in Hd, Hd'.
    destruct Hd as [E|[E|[E|[]]]]; injection E as <- <- <-; cbn in Hc;
    destruct Hd' as [E|[E|[E|[]]]]; injection E as <- <- <-;
      repeat destruct Hc as [Hc|Hc]; try discriminate; try lia; destruct Hc. }
  specialize (G a a Ha). lia.
Qed.

(** Finding: a submodel with two independent outputs may legitimately feed itself through another submodel (no connection depends
    on itself); the listing then puts a consumer before its producer. *)
Theorem C15_two_outputs_refuted :
  ~ (forall dm order, dwf dm -> acyclic (dep dm) -> get_models_in_topological_order dm None = Ok order ->
     forall o m cs c x cs', dget o dm = Some (m, cs) -> In c cs -> dget c dm = Some (x, cs') ->
     exists l1 l2 l3, order = l1 ++ x :: l2 ++ m :: l3).
Proof.
  intros H.
  set (dm := [(1, (10, [0])); (3, (10, [2])); (2, (11, [1]))] : depmap).
  assert (Hwf : dwf dm). { unfold dwf. cbn. repeat constructor; cbn; intuition discriminate. }
  assert (Hac : acyclic (dep dm)).
  { apply ranked_acyclic with (rank := fun c => c). intros a m l b Hd Hin. apply dget_In in Hd. cbn in Hd.
    destruct Hd as [E|[E|[E|[]]]]; injection E as <- <- <-; destruct Hin as [<-|[]]; lia. }
  destruct (H dm [11; 10] Hwf Hac ltac:(vm_compute; reflexivity) 2 11 [1] 1 10 [0] eq_refl (or_introl eq_refl) eq_refl)
    as (l1 & l2 & l3 & E).
  destruct l1 as [|a l1]; [discriminate|]. destruct l1 as [|b l1]; cbn in E; [|destruct l1; discriminate].
  injection E as _ E. destruct l2; discriminate.
Qed.

(** ** C47: the inputs an output depends on *)
Theorem C47_dependency dm (is_input : conn -> bool) c : dwf dm -> acyclic (dep dm) -> dmem c dm = true ->
  exists limit r, (forall fuel, limit <= fuel -> get_output_key_dependency fuel dm is_input c = Ok r) /\
    NoDup r /\ forall x, In x r <-> is_input x = true /\ clos_trans _ (dep dm) c x.
Proof.
  intros Hwf Hac Hc. unfold dmem in Hc. destruct (dget c dm) as [[m l]|] eqn:Hd; [|discriminate].
  set (st := fold_left (fun s x => sadd_nat x s) l []).
  assert (Hall : exists ws, wts dm st ws).
  { generalize st. induction st0 as [|x s [ws Hws]]; [exists []; constructor|].
    destruct (wt_exists dm x) as [w Hw].
    { apply (acyclic_acc dm Hwf Hac (length dm) []); [constructor | intros y [] | cbn; lia | intros y []]. }
    exists (w :: ws). constructor; auto. }
  destruct Hall as [ws Hws].
  assert (Hst : forall x, In x st <-> In x l) by (intros x; unfold st; rewrite In_union; cbn; tauto).
  assert (Cor : forall fuel r, traverse_inputs fuel dm is_input st [] = Ok r ->
     NoDup r /\ forall x, In x r <-> is_input x = true /\ exists s, In s l /\ reach (dep dm) s x).
  { intros fuel r Hr. apply (traverse_correct dm is_input (fun s => In s l) fuel st [] r); auto.
    - constructor.
    - intros x Hx. exists x. split; [now apply Hst | apply rt_refl].
    - intros x [].
    - intros s x Hs Hsr _. right. exists s. split; auto. now apply Hst. }
  destruct (traverse_terminates dm is_input (list_sum ws) st [] ws Hws (le_n _)) as [r Hr].
  exists (list_sum ws), r. split.
  - intros fuel Hf. unfold get_output_key_dependency. rewrite Hd. cbn [snd]. fold st.
    clear -Hr Hf. revert Hr Hf. generalize (list_sum ws) as f0. intros f0. generalize (@nil conn) as specs. generalize st.
    revert fuel. induction f0 as [|f0 IH]; intros fuel stack specs Hr Hf; destruct stack as [|c0 s0].
    + destruct fuel; exact Hr.
    + discriminate.
    + destruct fuel; exact Hr.
    + destruct fuel as [|fuel]; [lia|]. cbn [traverse_inputs] in *. apply IH; auto. lia.
  - destruct (Cor _ _ Hr) as [N I]. split; auto. intros x. rewrite I. split; intros [Hi Hx]; split; auto.
    + destruct Hx as (s & Hs & Hsr). eapply t_rt; [apply t_step; exists m, l; eauto | exact Hsr].
    + apply t_rt_first in Hx as (s & (m' & l' & Hd' & Hin) & Hsr). rewrite Hd in Hd'. injection Hd' as <- <-. eauto.
Qed.
Example C47_example :
  get_output_key_dependency 100 [(1, (10, [0])); (3, (11, [2; 1])); (4, (12, [1; 3]))] (fun c => c <=? 0 + (if c =? 2 then 2 else 0)) 4 = Ok [2; 0].
Proof. vm_compute. reflexivity. Qed.

(** Finding: on the cyclic map accepted above the traversal never ends. *)
Theorem C47_cycle_diverges_refuted : forall fuel, get_output_key_dependency fuel ex_bad (fun c => c =? ex_x) ex_b = Err OutOfFuel.
Proof.
  intros fuel. unfold get_output_key_dependency.
  assert (G : forall f stack specs, (In ex_b stack \/ In ex_c stack \/ In ex_d stack) -> incl stack [ex_a; ex_b; ex_c; ex_d; ex_x] ->
     traverse_inputs f ex_bad (fun c => c =? ex_x) stack specs = Err OutOfFuel).
  { induction f as [|f IH]; intros stack specs Hin Hincl; destruct stack as [|c0 s0]; try (cbn in Hin; tauto); cbn [traverse_inputs]; auto.
    assert (Hne : c0 :: s0 <> []) by discriminate. revert Hne Hin Hincl. generalize (c0 :: s0). intros stack Hne Hin Hincl.
    assert (E := app_removelast_last 0 Hne). revert E. generalize (last stack 0) as c. generalize (removelast stack) as rest. intros rest c E.
    fold (sources ex_bad c). apply IH.
    - assert (Hc : In c [ex_a; ex_b; ex_c; ex_d; ex_x]) by (apply Hincl; rewrite E; apply in_or_app; right; left; auto).
      rewrite !In_union. rewrite E in Hin. rewrite !in_app_iff in Hin. cbn [In] in Hin, Hc.
      assert (K : c = ex_b \/ c = ex_c \/ c = ex_d \/ (c <> ex_b /\ c <> ex_c /\ c <> ex_d)).
      { destruct Hc as [Hc|[Hc|[Hc|[Hc|[Hc|[]]]]]]; rewrite <- Hc; auto; right; right; right; split; [|split| |split]; try split; discriminate. }
      destruct K as [K|[K|[K|(K1 & K2 & K3)]]].
      + right; left; right. rewrite K. left; reflexivity.
      + right; right; right. rewrite K. right; left; reflexivity.
      + left; right. rewrite K. left; reflexivity.
      + destruct Hin as [[H|[H|[]]]|[[H|[H|[]]]|[H|[H|[]]]]]; try congruence; auto.
    - intros x Hx. apply In_union in Hx as [Hx|Hx]; [apply Hincl; rewrite E; apply in_or_app; auto|].
      assert (Hc : In c [ex_a; ex_b; ex_c; ex_d; ex_x]) by (apply Hincl; rewrite E; apply in_or_app; right; left; auto).
      apply mem_In. apply mem_In in Hx.
      cbn [In] in Hc. destruct Hc as [Hc|[Hc|[Hc|[Hc|[Hc|[]]]]]]; rewrite <- Hc in Hx; apply mem_In in Hx; cbn in Hx;
        repeat (destruct Hx as [Hx|Hx]; [rewrite <- Hx; reflexivity|]); destruct Hx. }
  cbn [dget ex_bad ex_dm app ex_a ex_b ex_c ex_d eq_dec EqDec_nat Nat.eq_dec]. cbn. apply G; [right; left; left; reflexivity|].
  intros x [<-|[]]. cbn. auto.
Qed.

Print Assumptions C14_sound.
Print Assumptions C14_exact_on_chains.
Print Assumptions C14_forward.
Print Assumptions C14_second_input_refuted.
Print Assumptions C14_merge_refuted.
Print Assumptions C14_recursion_limit_refuted.
Print Assumptions C15_topological.
Print Assumptions C15_from_start.
Print Assumptions C15_two_outputs_refuted.
Print Assumptions C47_dependency.
Print Assumptions C47_cycle_diverges_refuted.
