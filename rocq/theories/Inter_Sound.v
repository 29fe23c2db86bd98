(** * Soundness, completeness and termination of the intersection *)
From Coq Require Import List Bool String PeanoNat Lia.
From Verif Require Import PyBase Inter_Model Inter_Proofs.
Import ListNotations.
Open Scope string_scope. Open Scope list_scope.

Definition singles := ["list"; "Tensor"; "Sequence"].
Definition not_union (t : ty) : Prop := match t with TUnion _ => False | _ => True end.
(** Well-formed types with classes in P and origins in Q; R: whether ToBeDetermined may be a member of a union *)
Section Wf.
Variables (P Q : string -> Prop) (R : Prop).
Inductive wf : ty -> Prop :=
| w_any : wf TAny
| w_tbd : wf TTBD
| w_class c : P c -> wf (TClass c)
| w_union l : l <> [] -> Forall wf l -> Forall not_union l -> (In TTBD l -> R) -> wf (TUnion l)
| w_single o t : In o singles -> Q o -> wf t -> (o = "Tensor" -> t <> TTBD \/ R) -> wf (TGen o [t])
| w_dots t : Q "tuple" -> wf t -> wf (TGen "tuple" [t; TDots])
| w_tuple l : Q "tuple" -> Forall wf l -> wf (TGen "tuple" l)
| w_other o l : ~ In o ("tuple" :: singles) -> Q o -> Forall (fun t => t = TDots \/ wf t) l -> wf (TGen o l).
Hypotheses (Pi : P "int") (Pf : P "float") (Pb : P "bool") (Qt : Q "Tensor").
Lemma wf_all_tensor : wf all_tensor.
Proof. apply w_single; [cbn; auto|auto| |left; discriminate]. apply w_union; [discriminate|repeat constructor; auto|repeat constructor|]. cbn. intuition discriminate. Qed.
(** Sets of members *)
Definition good (l : list ty) : Prop := Forall wf l /\ Forall not_union l.
Lemma good_members t : wf t -> good (members t).
Proof. intros W. destruct t; cbn [members]; try (split; (constructor; [auto; exact Logic.I|constructor])). inversion W; subst. split; auto. Qed.
Lemma Forall_tadd (K : ty -> Prop) s t : Forall K s -> K t -> Forall K (tadd s t).
Proof. intros A B. apply Forall_forall. intros u Hu. apply In_tadd in Hu as [Hu| ->]; [rewrite Forall_forall in A; auto|auto]. Qed.
Lemma Forall_taddall (K : ty -> Prop) l : forall s, Forall K s -> Forall K l -> Forall K (taddall s l).
Proof. intros s A B. apply Forall_forall. intros u Hu. rewrite Forall_forall in A, B. apply In_taddall in Hu as [Hu|Hu]; auto. Qed.
Definition no_tbd (l : list ty) : Prop := In TTBD l -> R.
Lemma wf_members_tbd t : wf t -> t <> TTBD -> no_tbd (members t).
Proof. intros W N. destruct t; cbn [members]; try (intros [X|[]]; congruence). inversion W; subst. auto. Qed.
Lemma wf_mk_union l : l <> [] -> good l -> no_tbd l -> wf (mk_union l).
Proof. intros N [A B] C. destruct l as [|a [|b l]]; [congruence|inversion A; auto|]. apply w_union; auto. Qed.
Lemma wf_or x y : wf x -> wf y -> (x <> TTBD \/ R) -> (y <> TTBD \/ R) -> wf (or_type x y) /\ (or_type x y <> TTBD \/ R).
Proof.
  intros X Y Nx Ny. assert (T : no_tbd (taddall (taddall [] (members x)) (members y))).
  { intros H. apply In_taddall in H as [H|H]; [apply In_taddall in H as [[]|H]; destruct Nx; auto; eapply (wf_members_tbd x); eauto|]. destruct Ny; auto. eapply (wf_members_tbd y); eauto. }
  assert (E : taddall (taddall [] (members x)) (members y) <> []). { apply taddall_nil. destruct (members x) as [|m l] eqn:Em; [destruct x; try discriminate; inversion X; subst; cbn in Em; congruence|]. cbn. apply taddall_nil. cbn. discriminate. }
  split.
  - apply wf_mk_union; auto. destruct (good_members x X), (good_members y Y). split; repeat apply Forall_taddall; auto.
  - unfold or_type in *. destruct (taddall (taddall [] (members x)) (members y)) as [|a [|b l]]; [congruence| |left; discriminate]. cbn. destruct a; auto; try (left; discriminate). right. apply T. left. auto.
Qed.
Lemma wf_fold_or l : forall t, wf t -> Forall wf l -> (t <> TTBD \/ R) -> no_tbd l -> wf (fold_left or_type l t) /\ (fold_left or_type l t <> TTBD \/ R).
Proof. induction l as [|u l IH]; intros t W F N T; cbn; [auto|]. inversion F; subst. assert (Nu : u <> TTBD \/ R) by (destruct u; try (left; discriminate); right; apply T; left; auto). destruct (wf_or t u); auto. apply IH; auto. intros X. apply T. right. auto. Qed.
Lemma wf_reduce l : l <> [] -> Forall wf l -> (l = [TTBD] \/ no_tbd l) -> exists t, reduce_or l = Ok t /\ wf t /\ (t <> TTBD \/ R \/ l = [TTBD]).
Proof. intros N F T. destruct l as [|t l]; [congruence|]. cbn. eexists. split; [reflexivity|]. inversion F; subst. destruct T as [T|T]; [injection T as -> ->; auto|]. cut (wf (fold_left or_type l t) /\ (fold_left or_type l t <> TTBD \/ R)); [tauto|]. apply wf_fold_or; auto; [destruct t; try (left; discriminate); right; apply T; left; auto|intros X; apply T; right; auto]. Qed.
(** Tensor types *)
Definition tensor1 (t : ty) : Prop := exists u, t = TGen "Tensor" [u] /\ wf u /\ (u <> TTBD \/ R).
Lemma expand_spec t : is_tensor t = true -> wf t -> tensor1 (expand t) /\ forall v, valid v -> (has (expand t) v <-> has t v).
Proof.
  intros T W. unfold is_tensor in T. destruct t as [| |c| |o a|]; try discriminate.
  - destruct (String.eqb_spec c "Tensor") as [->|N]; [|exfalso; clear - T N; repeat (match type of T with (match ?x with _ => _ end) = true => destruct x; try discriminate end); congruence].
    split; [exists (TUnion [TClass "int"; TClass "float"; TClass "bool"]); split; [reflexivity|]; pose proof wf_all_tensor as X; inversion X; subst; auto; exfalso; match goal with H : ~ In "Tensor" _ |- _ => apply H; cbn; auto end|].
    intros v V. change (expand (TClass "Tensor")) with all_tensor. unfold all_tensor. split; intros H.
    + apply has_tensor in H as (d & t & -> & _). reflexivity.
    + destruct v as [c| | | |d|]; cbn in H; try discriminate; [subst c; inversion V as [? N| | | | |]; subst; destruct N; cbn; auto|]. inversion V as [| | | |? D|]; subst. cbn. split; [auto|]. cbn in D. intuition auto.
  - assert (o = "Tensor"). { destruct (String.eqb_spec o "Tensor") as [->|N]; [auto|]. exfalso; clear - T N; repeat (match type of T with (match ?x with _ => _ end) = true => destruct x; try discriminate end); congruence. } subst o.
    split; [|intros; cbn; tauto]. inversion W; subst; [exists t; auto|]. exfalso. match goal with H : ~ In "Tensor" _ |- _ => apply H; cbn; auto end.
Qed.
Lemma is_tensor_false t : is_tensor t = false -> t <> TClass "Tensor" /\ forall a, t <> TGen "Tensor" a.
Proof. intros E. split; [intros ->; discriminate|intros a ->; discriminate]. Qed.
Lemma tensors_spec ts : ts <> [] -> Forall tensor1 ts -> exists t, squash_tensors ts = Ok t /\ tensor1 t /\ forall v, has t v <-> hasU ts v.
Proof.
  intros N F. assert (Hd : (exists t, ts = [t]) \/ (forall t, ts <> [t])) by (destruct ts as [|a [|b ts]]; [right; discriminate|left; eauto|right; discriminate]). destruct Hd as [(t & ->)|Hn].
  - inversion F as [|? ? X _]; subst. exists t. split; [auto|]. split; [auto|]. intros v. rewrite hasU_cons. split; [auto|intros [Y|Y]; [auto|destruct (hasU_nil v Y)]].
  - assert (E : squash_tensors ts = bind (reduce_or (taddall [] (flat_map args_of ts))) (fun inner => Ok (TGen "Tensor" [inner]))) by (destruct ts as [|a [|b ts]]; [reflexivity|destruct (Hn a); auto|reflexivity]).
    assert (A : Forall wf (flat_map args_of ts) /\ flat_map args_of ts <> [] /\ forall d, hasU (flat_map args_of ts) (VObj d) <-> hasU ts (VTensor d)).
    { clear E Hn. induction F as [|t ts (u & -> & Wu & Nu) F IH]; [congruence|]. cbn [flat_map args_of app]. destruct ts as [|t' ts]; [cbn; split; [repeat constructor; auto|]; split; [discriminate|]; intros d; rewrite !hasU_cons; cbn; assert (~ hasU [] (VObj d)) by apply hasU_nil; assert (~ hasU [] (VTensor d)) by apply hasU_nil; tauto|].
      destruct IH as (I1 & I2 & I3); [discriminate|]. split; [constructor; auto|]. split; [discriminate|]. intros d. rewrite !hasU_cons. rewrite I3. rewrite hasU_cons. cbn. tauto. }
    destruct A as (A1 & A2 & A3). assert (T' : no_tbd (flat_map args_of ts)) by (intros X; apply in_flat_map in X as (t & Ht & X); rewrite Forall_forall in F; destruct (F t Ht) as (u & -> & _ & [Nu|Ru]); [destruct X as [X|[]]; congruence|auto]).
    destruct (wf_reduce (taddall [] (flat_map args_of ts))) as (u & Eu & Wu & Nu).
    + destruct (flat_map args_of ts) as [|x l]; [congruence|]. cbn. apply taddall_nil. cbn. discriminate.
    + apply Forall_taddall; auto.
    + right. intros X. apply In_taddall in X as [[]|X]. auto.
    + rewrite E, Eu. cbn [bind]. eexists. split; [reflexivity|]. split; [exists u; split; [auto|]; split; [auto|]; destruct Nu as [Nu|[Nu|Nu]]; auto; right; apply T'; assert (Y : In TTBD (taddall [] (flat_map args_of ts))) by (rewrite Nu; left; auto); apply In_taddall in Y as [[]|Y]; auto|]. intros v. split.
      * intros H. apply has_tensor in H as (d & t & -> & Et & H). injection Et as <-. rewrite (has_reduce _ _ _ Eu) in H. apply hasU_taddall in H as [H|H]; [destruct (hasU_nil _ H)|]. apply A3. auto.
      * intros H. assert (Hv : exists d, v = VTensor d). { destruct H as (t & Ht & Hv). rewrite Forall_forall in F. destruct (F t Ht) as (x & -> & _). apply has_tensor in Hv as (d & ? & -> & _). eauto. }
        destruct Hv as (d & ->). cbn. split; [auto|]. rewrite (has_reduce _ _ _ Eu). rewrite hasU_taddall. right. apply A3. auto.
Qed.

Lemma join_spec ts rs : Forall tensor1 ts -> Forall wf rs -> no_tbd rs -> ts <> [] \/ rs <> [] -> exists t, squash_join ts rs = Ok t /\ wf t /\ (t <> TTBD \/ R) /\ (forall v, has t v <-> hasU ts v \/ hasU rs v) /\
  (forall m, In m (members t) -> tensor1 m \/ exists r, In r rs /\ In m (members r)).
Proof.
  intros Ft Fr Nr Ne.
  assert (Wt : forall t, tensor1 t -> wf t) by (intros t (u & -> & Wu & Nu); apply w_single; cbn; auto).
  assert (Mor : forall x y m, wf x -> wf y -> In m (members (or_type x y)) -> In m (members x) \/ In m (members y)).
  { intros x y m Wx Wy Hm. assert (G : good (taddall (taddall [] (members x)) (members y))) by (destruct (good_members x Wx), (good_members y Wy); split; repeat apply Forall_taddall; auto). unfold or_type, mk_union in Hm. assert (In m (taddall (taddall [] (members x)) (members y))).
    { destruct (taddall (taddall [] (members x)) (members y)) as [|a [|b l]]; [destruct Hm| |exact Hm]. destruct G as [_ G]. inversion G as [|? ? Ga _]; subst. destruct a; try exact Hm. destruct Ga. }
    apply In_taddall in H as [H|H]; [apply In_taddall in H as [[]|H]|]; auto. }
  assert (Mred : forall l t, Forall wf l -> no_tbd l -> reduce_or l = Ok t -> forall m, In m (members t) -> exists r, In r l /\ In m (members r)).
  { intros l t Fl Nl E. destruct l as [|r l]; [discriminate|]. cbn in E. injection E as <-. inversion Fl as [|? ? Wr Wl]; subst. assert (Gen : forall l acc (S : list ty), wf acc -> (acc <> TTBD \/ R) -> Forall wf l -> no_tbd l -> (forall m, In m (members acc) -> exists r, In r S /\ In m (members r)) -> forall m, In m (members (fold_left or_type l acc)) -> exists r, In r (S ++ l) /\ In m (members r)).
    { clear - Mor. induction l as [|u l IH]; intros acc S Wa Na Fl Nl H m Hm; cbn in Hm; [rewrite app_nil_r; auto|]. inversion Fl as [|? ? Wu Wl]; subst. assert (Nu : u <> TTBD \/ R) by (destruct u; try (left; discriminate); right; apply Nl; left; auto). destruct (wf_or acc u) as [W1 N1]; auto.
      replace (S ++ u :: l) with ((S ++ [u]) ++ l) by (rewrite <- app_assoc; auto). apply (IH (or_type acc u)); auto; [intros X; apply Nl; right; auto|]. intros m' Hm'. apply Mor in Hm' as [Hm'|Hm']; auto; [destruct (H m' Hm') as (r & A & B); exists r; split; [apply in_or_app|]; auto|exists u; split; [apply in_or_app; right; left; auto|auto]]. }
    intros m Hm. apply (Gen l r [r]); auto; [destruct r; try (left; discriminate); right; apply Nl; left; auto|intros X; apply Nl; right; auto|]. intros m' Hm'. exists r. split; [left; auto|auto]. }
  assert (Emp : forall v, hasU [] v <-> False) by (intros v; split; [apply hasU_nil|tauto]).
  destruct ts as [|t0 ts].
  - destruct Ne as [Ne|Ne]; [congruence|]. destruct (wf_reduce rs) as (r & Er & Wr & Nr'); auto. exists r. split; [destruct rs; [congruence|exact Er]|]. split; [auto|]. split; [destruct Nr' as [X|[X| ->]]; auto; right; apply Nr; left; auto|]. split; [intros v; rewrite (has_reduce _ _ v Er), Emp; tauto|]. intros m Hm. right. eapply Mred; eauto.
  - destruct (tensors_spec (t0 :: ts)) as (t & Et & Tt & Ht); [discriminate|auto|]. destruct rs as [|r0 rs].
    + exists t. cbn [squash_join]. split; [auto|]. split; [auto|]. split; [destruct Tt as (u & -> & _); left; discriminate|]. split; [intros v; rewrite Ht, Emp; tauto|]. intros m Hm. left. destruct Tt as (u & -> & X). destruct Hm as [<-|[]]. exists u. auto.
    + destruct (wf_reduce (r0 :: rs)) as (r & Er & Wr & Nr'); [discriminate|auto|auto|]. cbn [squash_join]. rewrite Et. cbn [bind]. rewrite Er. cbn [bind]. assert (N2 : r <> TTBD \/ R) by (destruct Nr' as [X|[X|X]]; auto; right; apply Nr; rewrite X; left; auto). assert (N1 : t <> TTBD \/ R) by (destruct Tt as (u & -> & _); left; discriminate). destruct (wf_or t r) as [W1 N3]; auto.
      eexists. split; [reflexivity|]. split; [auto|]. split; [auto|]. split; [intros v; rewrite has_or, Ht, (has_reduce _ _ v Er); tauto|]. intros m Hm. apply Mor in Hm as [Hm|Hm]; auto; [left; destruct Tt as (u & -> & X); destruct Hm as [<-|[]]; exists u; auto|right; eapply Mred; eauto].
Qed.
Lemma tensors_of l : Forall wf l -> Forall tensor1 (taddall [] (map expand (filter is_tensor l))) /\ forall v, valid v -> (hasU (taddall [] (map expand (filter is_tensor l))) v <-> hasU (filter is_tensor l) v).
Proof.
  intros F. rewrite Forall_forall in F. split.
  - apply Forall_taddall; [constructor|]. apply Forall_forall. intros t Ht. apply in_map_iff in Ht as (u & <- & Hu). apply filter_In in Hu as [Hu T]. apply expand_spec; auto.
  - intros v V. rewrite hasU_taddall. split; [intros [X|X]; [destruct (hasU_nil v X)|]|intros X; right].
    + destruct X as (t & Ht & Hv). apply in_map_iff in Ht as (u & <- & Hu). exists u. split; [auto|]. apply filter_In in Hu as [Hu T]. apply expand_spec; auto.
    + destruct X as (t & Ht & Hv). exists (expand t). split; [apply in_map; auto|]. apply filter_In in Ht as [Hu T]. apply expand_spec; auto.
Qed.
Lemma hasU_split (f : ty -> bool) l v : hasU l v <-> hasU (filter f l) v \/ hasU (filter (fun t => negb (f t)) l) v.
Proof.
  split.
  - intros (t & Ht & Hv). destruct (f t) eqn:E; [left|right]; exists t; (split; [|auto]); apply filter_In; rewrite ?E; auto.
  - intros [(t & Ht & Hv)|(t & Ht & Hv)]; apply filter_In in Ht as [Ht _]; exists t; auto.
Qed.
(** squash keeps the meaning; no member of the result is the bare class Tensor. *)
Lemma squash_spec t : wf t -> exists u, squash t = Ok u /\ wf u /\ (t <> TTBD -> u <> TTBD \/ R) /\ (forall v, valid v -> (has u v <-> has t v)) /\ ~ In (TClass "Tensor") (members u).
Proof.
  intros W. destruct t as [| |c|l|o a|]; try (cbn [squash]; eexists; split; [reflexivity|]; split; [auto|]; split; [auto|]; split; [tauto|]; intros [X|[]]; discriminate); try (inversion W; fail).
  - destruct (String.eqb_spec c "Tensor") as [->|N].
    + exists all_tensor. split; [reflexivity|]. split; [apply wf_all_tensor|]. split; [left; discriminate|]. split; [|intros [X|[]]; discriminate]. intros v V. apply (expand_spec (TClass "Tensor")); auto.
    + exists (TClass c). split; [|split; [auto|]; split; [left; discriminate|]; split; [tauto|]; intros [X|[]]; congruence]. unfold squash. repeat (match goal with |- (match ?x with _ => _ end) = _ => destruct x; try reflexivity end). congruence.
  - inversion W as [| | |? Ne Fl Nu Tb| | | |]; subst. destruct (tensors_of l Fl) as [T1 T2].
    destruct (join_spec (taddall [] (map expand (filter is_tensor l))) (filter (fun t => negb (is_tensor t)) l)) as (u & Eu & Wu & Nt & Hu & Mu); auto.
    + apply Forall_forall. intros x Hx. apply filter_In in Hx as [Hx _]. rewrite Forall_forall in Fl. auto.
    + intros X. apply filter_In in X as [X _]. auto.
    + destruct l as [|x l]; [congruence|]. cbn [filter]. destruct (is_tensor x); cbn [negb]; [left|right; discriminate]. cbn. apply taddall_nil. cbn. discriminate.
    + exists u. split; [exact Eu|]. split; [auto|]. split; [auto|]. split.
      * intros v V. rewrite Hu, has_union, (T2 v V), <- hasU_split. tauto.
      * intros X. apply Mu in X as [(x & X & _)|(r & Hr & X)]; [discriminate|]. apply filter_In in Hr as [Hr Nt']. rewrite Forall_forall in Nu. specialize (Nu r Hr). destruct r; cbn in X, Nu, Nt'; try tauto; try (destruct X as [X|[]]; try discriminate). injection X as ->. discriminate.
Qed.
End Wf.
