(** * C49: indexing a tensor *)
From Coq Require Import List Arith Lia Bool ZArith.
From Verif Require Import PyBase Uniadic_Model Uniadic_Proofs Bcast_Proofs Shape_Model Shape_Proofs Shape_Proofs2 Shape_Proofs3 Shape_Props Reduce_Model
  Rule_Proofs Window_Model Window_Proofs Window_Props Arange_Model Arange_Proofs Arange_Props Reshape_Model Reshape_Proofs Reshape_Props Concat_Model Concat_Proofs Concat_Props
  Index_Model Index_Spec Index_Pure Index_Arrange Index_Loop Index_Proofs Index_Rule.
Import ListNotations.
Open Scope list_scope. Open Scope nat_scope. Open Scope shm_scope.

(** ** Sessions with the rules of C25 to C28, C45 and C49 *)
Inductive irule (s : shst) : shst -> Prop :=
| i_concat s' : crule s s' -> irule s s'
| i_item qi qo index s' r : qi < nrep s -> qo < nrep s -> tensor_item qi qo index s = (s', Ok r) -> irule s s'.
Lemma irule_inv s s' : sinv s -> irule s s' -> sinv s'.
Proof.
  intros I. destruct 1 as [s' W|qi qo [es|] s' r Hi Ho E]; [eapply crule_inv; eauto| |].
  - assert (M := tensor_item_ok s qi qo es I Hi Ho). rewrite E in M. apply M.
  - cbn in E. unfold hret in E. injection E as <- _. auto.
Qed.
Definition isess : shst -> Prop := runs irule.
Lemma isess_inv s : isess s -> sinv s.
Proof. apply runs_inv, irule_inv. Qed.

(** All sizes of the input are at least 0. *)
Definition sizes (x : list Z) : Prop := forall d, In d x -> (0 <= d)%Z.
Lemma sizes_nonneg x : sizes x <-> nonneg x.
Proof. unfold nonneg. rewrite Forall_forall. reflexivity. Qed.
Definition valid_item (es : list entry) (qi qo : nat) (sh : nat -> list Z) : Prop := sizes (sh qi) /\ indexed in_range es (sh qi) (sh qo).
Lemma valid_rel es qi qo sh : valid_item es qi qo sh -> rel es qi qo sh.
Proof. intros [H1 H2]. split; [apply sizes_nonneg; auto|eapply indexed_any; eauto]. Qed.

(** No valid combination of shapes is lost, nothing is added, and the only error is a ValueError where no valid combination is left. *)
Theorem C49_sound : forall s qi qo es, isess s -> qi < nrep s -> qo < nrep s ->
  match tensor_item qi qo (Some es) s with
  | (s', Ok _) => isess s' /\ narrows (valid_item es qi qo) s s'
  | (_, Err e) => e = ValueError /\ forall rho sh, allows s rho sh -> ~ valid_item es qi qo sh
  end.
Proof.
  intros s qi qo es S Hi Ho. assert (I := isess_inv s S). assert (M := tensor_item_ok s qi qo es I Hi Ho). destruct (tensor_item qi qo (Some es) s) as [s' [r|e]] eqn:E.
  - split; [eapply runs_rule; [exact S|exact (i_item s qi qo _ s' r Hi Ho E)]|]. apply sound_narrows. eapply sound_for_weaken; [apply M|]. apply valid_rel.
  - destruct M as [-> M]. split; [auto|]. intros rho sh A H. apply (M rho sh A). apply valid_rel. auto.
Qed.
(** Number of dimensions of the input known, at most one ellipsis and status True: every combination still allowed is right, but for the range of the integers. *)
Theorem C49_exact : forall s qi qo es n s', isess s -> qi < nrep s -> qo < nrep s -> (forall rho sh, allows s rho sh -> length (sh qi) = n) -> ellipses es <= 1 -> tensor_item qi qo (Some es) s = (s', Ok true) ->
  forall rho sh, allows s' rho sh -> sizes (sh qi) -> indexed any es (sh qi) (sh qo).
Proof.
  intros s qi qo es n s' S Hi Ho Rk He E rho sh A Hs. assert (I := isess_inv s S). assert (M := tensor_item_ok s qi qo es I Hi Ho). rewrite E in M. destruct M as (_ & M & _). apply (M ltac:(exists n; exact Rk) eq_refl He rho sh A). apply sizes_nonneg. auto.
Qed.
(** Input shape and index known: the output is the shape that the index gives, or there is an error and the shapes do not fit. *)
Theorem C49_forward : forall s qi qo es x y, isess s -> qi < nrep s -> qo < nrep s -> determined s qi x -> sizes x -> ~ In (ETensor None) es -> indexed any es x y ->
  match tensor_item qi qo (Some es) s with
  | (s', Ok r) => r = true /\ determined s' qo y
  | (_, Err e) => e = ValueError /\ forall rho sh, allows s rho sh -> sh qo <> y
  end.
Proof.
  intros s qi qo es x y S Hi Ho D Hs Hn Hx. assert (I := isess_inv s S). assert (M := tensor_item_ok s qi qo es I Hi Ho). destruct (tensor_item qi qo (Some es) s) as [s' [r|e]].
  - destruct M as (M1 & M2 & M3). assert (Er := M3 x D Hn). split; [auto|]. intros rho sh A. assert (Ex : sh qi = x) by (apply (D rho); apply M1; auto). apply (indexed_det any es x); [|auto]. rewrite <- Ex. apply M2 with (rho := rho); auto.
    + exists (length x). intros rho' sh' A'. rewrite (D rho' sh' A'). auto.
    + apply Hx.
    + rewrite Ex. apply sizes_nonneg. auto.
  - destruct M as [-> M]. split; [auto|]. intros rho sh A E. apply (M rho sh A). split; [rewrite (D rho sh A); apply sizes_nonneg; auto|rewrite (D rho sh A), E; auto].
Qed.
(** Input shape and index known, at most one ellipsis: an index that does not fit is refused. *)
Theorem C49_refuses : forall s qi qo es x, isess s -> qi < nrep s -> qo < nrep s -> determined s qi x -> sizes x -> ~ In (ETensor None) es -> ellipses es <= 1 -> (forall y, ~ indexed any es x y) ->
  snd (tensor_item qi qo (Some es) s) = Err ValueError.
Proof.
  intros s qi qo es x S Hi Ho D Hs Hn He Hx. assert (I := isess_inv s S). assert (M := tensor_item_ok s qi qo es I Hi Ho). destruct (tensor_item qi qo (Some es) s) as [s' [r|e]]; [|destruct M as [-> _]; auto]. exfalso.
  destruct M as (M1 & M2 & M3). assert (Er := M3 x D Hn). assert (I' : sinv s') by apply M1. destruct (sat_exists (us s') (s_inv _ I')) as (rho & Hr). assert (A := allows_self s' rho (fun _ => []) Hr). assert (Ex : den s' rho (fun _ => []) qi = x) by (apply (D rho); apply M1; auto).
  apply (Hx (den s' rho (fun _ => []) qo)). rewrite <- Ex. apply (M2 ltac:(exists (length x); intros rho' sh' A'; rewrite (D rho' sh' A'); auto) Er He rho _ A). rewrite Ex. apply sizes_nonneg. auto.
Qed.
(** ** Cases *)
Definition c49_state := state [ODim (Some 2%Z); ODim (Some 3%Z); ODim (Some 5%Z); ODim None; OVar; OVar; OVar; OVar;
  ORepr (mkshape [0; 1; 2] None []); ORepr (mkshape [] (Some 0) []); ORepr (mkshape [3; 1] None []); ORepr (mkshape [] (Some 1) []); ORepr (mkshape [0] (Some 2) []); ORepr (mkshape [1] None []); ORepr (mkshape [] (Some 3) [1])].
Lemma c49_sess : isess c49_state.
Proof. apply reach_runs, state_reach. Qed.
Lemma c49_det q x : q < 7 -> root (rp c49_state q) = None -> values c49_state (pre (rp c49_state q)) = map Some x -> determined c49_state q x.
Proof. intros L R V. apply determined_values; [apply isess_inv, c49_sess|vm_compute in L |- *; lia|auto]. Qed.
Lemma c49_live u : u < 4 -> live (us c49_state) u.
Proof. intros L. do 4 (destruct u as [|u]; [vm_compute; auto 15|]). lia. Qed.
(** Shape (2, 3, 5), [x[None, 0, ..., ::-2]] *)
Definition c49_index := [ENew; EInt 0; EEllipsis; ESlice None None (Some (-2)%Z)].
Lemma c49_item : indexed in_range c49_index [2; 3; 5]%Z [1; 3; 3]%Z.
Proof.
  split; [vm_compute; lia|]. exists [], [Dim 1; Adv; Cut; Dim 3; Dim 3]. split; [split; [reflexivity|cbn; intros; lia]|]. split; [|reflexivity]. change (complete c49_index) with c49_index. unfold c49_index. constructor. constructor; [unfold in_range; lia|].
  apply (reads_rest _ _ [3%Z] [5%Z] [Dim 3]). change (Dim 3) with (Dim (slice_size None None (Some (-2)%Z) 5)). constructor; [discriminate|constructor].
Qed.
Lemma c49_det0 : determined c49_state 0 [2; 3; 5]%Z.
Proof. apply c49_det; [lia|vm_compute; auto|vm_compute; auto]. Qed.
(** The output of the input (..., 3) is (1, ...) with one more dimension at its end. *)
Example C49_sound_example : isess c49_state /\ nrep c49_state = 7 /\ snd (tensor_item 6 3 (Some c49_index) c49_state) = Ok true /\
  shape_now (fst (tensor_item 6 3 (Some c49_index) c49_state)) 3 = ([Some 1%Z], Some 4, [Some 2%Z]) /\
  snd (tensor_item 5 3 (Some [EInt 0; EInt 0]) c49_state) = Err ValueError /\ snd (tensor_item 0 3 (Some [ETensor (Some [2; 3]); ETensor (Some [2])])%Z c49_state) = Err ValueError /\
  snd (tensor_item 0 3 (Some [ETensor None])%Z c49_state) = Ok false.
Proof. split; [apply c49_sess|]. vm_compute. auto 10. Qed.
(** Indices with tensors next to each other and apart *)
Example C49_forward_example : determined c49_state 0 [2; 3; 5]%Z /\ sizes [2; 3; 5]%Z /\ indexed any c49_index [2; 3; 5]%Z [1; 3; 3]%Z /\ snd (tensor_item 0 1 (Some c49_index) c49_state) = Ok true /\
  shape_now (fst (tensor_item 0 1 (Some c49_index) c49_state)) 1 = ([Some 1; Some 3; Some 3]%Z, None, []) /\
  shape_now (fst (tensor_item 0 1 (Some [ESlice None None None; ETensor (Some [7; 1]%Z); ETensor (Some [4]%Z)]) c49_state)) 1 = ([Some 2; Some 7; Some 4]%Z, None, []) /\
  shape_now (fst (tensor_item 0 1 (Some [EInt 1; ESlice (Some 1%Z) None None; ETensor (Some [7; 4]%Z)]) c49_state)) 1 = ([Some 7; Some 4; Some 2]%Z, None, []).
Proof. split; [apply c49_det0|]. split; [intros d [<-|[<-|[<-|[]]]]; lia|]. split; [eapply indexed_any, c49_item|]. vm_compute. auto 10. Qed.
(** Shape (?, 3), [x[:, 0]] *)
Example C49_exact_example : (forall rho sh, allows c49_state rho sh -> length (sh 2) = 2) /\ ellipses [ESlice None None None; EInt 0] <= 1 /\ snd (tensor_item 2 1 (Some [ESlice None None None; EInt 0]) c49_state) = Ok true /\
  shape_now (fst (tensor_item 2 1 (Some [ESlice None None None; EInt 0]) c49_state)) 1 = ([None], None, []).
Proof.
  split; [|vm_compute; auto]. intros rho sh A. rewrite (plain_sh c49_state 2 rho sh (isess_inv _ c49_sess) ltac:(vm_compute; lia) ltac:(vm_compute; auto) A). rewrite map_length. reflexivity.
Qed.
Example C49_refuses_example : determined c49_state 5 [3]%Z /\ sizes [3]%Z /\ ellipses [EInt 0; EInt 0] <= 1 /\ forall y, ~ indexed any [EInt 0; EInt 0] [3]%Z y.
Proof.
  split; [apply c49_det; [lia|vm_compute; auto|vm_compute; auto]|]. split; [intros d [<-|[]]; lia|]. split; [vm_compute; lia|]. intros y (_ & b & t & _ & R & _). change (complete [EInt 0; EInt 0]) with [EInt 0; EInt 0; EEllipsis] in R. inversion R as [|i es d x t' O R'| | | |]; subst. inversion R'.
Qed.

(** ** Findings *)
(** An integer out of range is accepted: shape (3), [x[5]]. *)
Theorem C49_range_refuted : exists s s', isess s /\ determined s 5 [3]%Z /\ tensor_item 5 3 (Some [EInt 5]) s = (s', Ok true) /\ shape_now s' 3 = ([], None, []) /\ forall y, ~ indexed in_range [EInt 5] [3]%Z y.
Proof.
  exists c49_state. eexists. split; [apply c49_sess|]. split; [apply c49_det; [lia|vm_compute; auto|vm_compute; auto]|]. split; [vm_compute; reflexivity|]. split; [vm_compute; reflexivity|].
  intros y (_ & b & t & _ & R & _). change (complete [EInt 5]) with [EInt 5; EEllipsis] in R. inversion R as [|i es d x t' O R'| | | |]; subst. unfold in_range in O. lia.
Qed.
(** Two ellipses are accepted: shape (2, 3, 5), [x[..., 0, ...]]. *)
Theorem C49_ellipses_refuted : exists s s', isess s /\ determined s 0 [2; 3; 5]%Z /\ tensor_item 0 3 (Some [EEllipsis; EInt 0; EEllipsis]) s = (s', Ok true) /\ shape_now s' 3 = ([Some 2; Some 3]%Z, None, []) /\ forall y, ~ indexed any [EEllipsis; EInt 0; EEllipsis] [2; 3; 5]%Z y.
Proof.
  exists c49_state. eexists. split; [apply c49_sess|]. split; [apply c49_det0|]. split; [vm_compute; reflexivity|]. split; [vm_compute; reflexivity|]. intros y (H & _). vm_compute in H. lia.
Qed.
(** Input of unknown shape, output (2, ...), [x[..., :]]: the status is True, so the rule does not run again, but the output is not tied to the input: (5, 3) gives (2, 7, 7). *)
Definition c49_last := [EEllipsis; ESlice None None None].
Definition c49_after := fst (tensor_item 1 4 (Some c49_last) c49_state).
Lemma c49_last_item : indexed any c49_last [5; 3]%Z [5; 3]%Z.
Proof.
  split; [vm_compute; lia|]. exists [], [Cut; Dim 5; Dim 3]. split; [split; [reflexivity|cbn; intros; lia]|]. split; [|reflexivity]. change (complete c49_last) with c49_last. unfold c49_last. apply (reads_rest _ _ [5%Z] [3%Z] [Dim 3]). change (Dim 3) with (Dim (slice_size None None None 3)). constructor; [discriminate|constructor].
Qed.
Theorem C49_untied_refuted : exists s s' rho sh, isess s /\ tensor_item 1 4 (Some c49_last) s = (s', Ok true) /\ allows s' rho sh /\ sh 1 = [5; 3]%Z /\ sh 4 = [2; 7; 7]%Z /\ ~ indexed any c49_last [5; 3]%Z [2; 7; 7]%Z.
Proof.
  assert (E : tensor_item 1 4 (Some c49_last) c49_state = (c49_after, Ok true)). { unfold c49_after. assert (H : snd (tensor_item 1 4 (Some c49_last) c49_state) = Ok true) by (vm_compute; auto). destruct (tensor_item 1 4 (Some c49_last) c49_state) as [s' r]. cbn in *. subst. auto. }
  assert (S' : isess c49_after). { eapply runs_rule; [exact c49_sess|]. eapply (i_item c49_state 1 4); [vm_compute; lia|vm_compute; lia|exact E]. } assert (I := isess_inv _ S').
  assert (L5 : live (us c49_after) 5) by (vm_compute; auto 15). assert (L0 : live (us c49_after) 0) by (vm_compute; auto 15).
  destruct (sat_with (us c49_after) 5 3%Z (s_inv _ I) L5) as (rho & Hs & E5); [vm_compute; auto|]. assert (E0 : rho 0 = 2%Z) by (eapply value_sat; [apply I|exact L0|vm_compute; reflexivity|auto]).
  set (tau := fun w => if w =? 4 then [5%Z] else if w =? 2 then [7; 7]%Z else []). exists c49_state, c49_after, rho, (den c49_after rho tau). split; [apply c49_sess|]. split; [exact E|]. split; [apply allows_self; auto|].
  split; [|split].
  - assert (R : rp c49_after 1 = mkshape [] (Some 4) [5]) by (vm_compute; reflexivity). unfold den. rewrite R. cbn. rewrite E5. auto.
  - assert (R : rp c49_after 4 = mkshape [0] (Some 2) []) by (vm_compute; reflexivity). unfold den. rewrite R. cbn. rewrite E0. auto.
  - intros H. assert (X := indexed_det _ _ _ _ _ H c49_last_item). discriminate.
Qed.
Print Assumptions C49_sound.
Print Assumptions C49_exact.
Print Assumptions C49_forward.
Print Assumptions C49_refuses.
Print Assumptions C49_range_refuted.
Print Assumptions C49_ellipses_refuted.
Print Assumptions C49_untied_refuted.
