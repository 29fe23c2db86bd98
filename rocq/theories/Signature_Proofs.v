(** * Duplicate signatures: exactness for a sound comparison, soundness of the comparison. *)
From Coq Require Import String Ascii List Arith Lia Bool ZArith.
From Verif Require Import PyBase PyStrings FlatGraph_Model Prune_Proofs ValueEq_Model.
Import ListNotations.
Open Scope string_scope.
Open Scope list_scope.
Open Scope nat_scope.

Section S.
  Context {V : Type}.
  Notation graph := (graph V).
  Variable veq : V -> V -> bool.
  Variable edge_value : string -> option V.

  Definition decode (tab : dict string V) (p : string) : option (V + string) :=
    if all_digits p then option_map inl (dget p tab) else Some (inr p).
  Definition arg_of (g : graph) (k : string) : V + string :=
    match key_value edge_value g k with Some v => inl v | None => inr k end.
  Definition vals_distinct (tab : dict string V) : Prop := NoDup (dvals tab).
  Notation mid := (model_id veq edge_value).

  Hypothesis veq_ok : forall a b, veq a b = true <-> a = b.

  Lemma find_value_spec v (tab : dict string V) : tab_ok tab ->
    match find_value veq v tab with
    | Some vk => exists i, vk = nat_to_string i /\ dget vk tab = Some v
    | None => ~ In v (dvals tab)
    end.
  Proof.
    intros T. unfold find_value. destruct (find _ tab) as [[vk w]|] eqn:F; simpl.
    - apply find_some in F. destruct F as (I & E). apply veq_ok in E. simpl in E. subst w.
      assert (Iv : In vk (dkeys tab)) by (unfold dkeys; apply in_map_iff; exists (vk, v); auto).
      rewrite T in Iv. apply in_map_iff in Iv. destruct Iv as (i & <- & _). exists i. split; auto.
      apply In_dget; auto. unfold dwf. rewrite T. apply FinFun.Injective_map_NoDup.
      + intros a b. apply nat_to_string_inj.
      + apply seq_NoDup.
    - intros I. unfold dvals in I. apply in_map_iff in I. destruct I as ([vk w] & E & I). simpl in E. subst.
      apply (find_none _ _ F) in I. simpl in I. assert (veq v v = true) by (apply veq_ok; auto). congruence.
  Qed.

  Lemma model_id_decode g ks : forall tab parts tab',
    (forall k, In k ks -> skipped k = false -> key_ok k) ->
    tab_ok tab -> vals_distinct tab -> mid g tab ks = (parts, tab') ->
    tab_ok tab' /\ vals_distinct tab' /\ tab_le tab tab' /\ Forall part_ok parts /\
    map (decode tab') parts = map (fun k => Some (arg_of g k)) (filter visible ks).
  Proof.
    induction ks as [|k ks IH]; cbn [model_id filter]; intros tab parts tab' Hk T D E.
    - inversion E; subst. repeat split; auto. intros p v; auto.
    - unfold visible at 1. destruct (skipped k) eqn:Sk; cbn [negb].
      + apply (IH tab); auto. intros; apply Hk; simpl; auto.
      + assert (Hk' : forall k, In k ks -> skipped k = false -> key_ok k) by (intros; apply Hk; simpl; auto).
        destruct (key_value edge_value g k) as [v|] eqn:Kv.
        * pose proof (find_value_spec v tab T) as F. destruct (find_value veq v tab) as [vk|].
          -- destruct (mid g tab ks) as [r t'] eqn:R. inversion E; subst.
             destruct (IH tab r tab') as (T' & D' & L & P & M); auto.
             destruct F as (i & -> & Dg).
             split; auto. split; auto. split; auto. split.
             ++ constructor; auto. apply digits_part_ok; [apply nat_to_string_nonempty|].
                apply nat_to_string_digits.
             ++ cbn [map]. rewrite M. f_equal. unfold decode, all_digits.
                rewrite nat_to_string_digits. rewrite (L _ _ Dg). unfold arg_of. rewrite Kv. auto.
          -- destruct (mid g (dset (nat_to_string (length tab)) v tab) ks) as [r t'] eqn:R.
             inversion E; subst.
             destruct (IH (dset (nat_to_string (length tab)) v tab) r tab') as (T' & D' & L & P & M); auto.
             { apply tab_ok_grow; auto. }
             { unfold vals_distinct. rewrite Build_Proofs.dset_fresh by (apply tab_ok_fresh; auto).
               unfold dvals. rewrite map_app. simpl. apply NoDup_snoc; auto. }
             split; auto. split; auto. split; [|split].
             ++ intros p w Hp. apply L. rewrite dget_dset. destruct (eq_dec p (nat_to_string (length tab))); auto.
                subst p. rewrite tab_ok_fresh in Hp; auto. discriminate.
             ++ constructor; auto. apply digits_part_ok; [apply nat_to_string_nonempty|].
                apply nat_to_string_digits.
             ++ cbn [map]. rewrite M. f_equal. unfold decode, all_digits.
                rewrite nat_to_string_digits. rewrite (L _ v) by apply dget_dset_same.
                unfold arg_of. rewrite Kv. auto.
        * destruct (mid g tab ks) as [r t'] eqn:R. inversion E; subst.
          destruct (IH tab r tab') as (T' & D' & L & P & M); auto.
          destruct (Hk k (or_introl eq_refl) Sk) as (K1 & K2 & K3).
          split; auto. split; auto. split; auto. split.
          -- constructor; auto. split; auto.
          -- cbn [map]. rewrite M. f_equal. unfold decode, arg_of. rewrite K3, Kv. auto.
  Qed.

  Lemma decode_le a b p x : tab_le a b -> decode a p = Some x -> decode b p = Some x.
  Proof.
    intros L. unfold decode. destruct (all_digits p); auto.
    destruct (dget p a) as [v|] eqn:E; simpl; [|discriminate]. rewrite (L _ _ E). auto.
  Qed.
  Lemma decode_inj tab p q x : vals_distinct tab -> decode tab p = Some x -> decode tab q = Some x -> p = q.
  Proof.
    intros D. unfold decode. destruct (all_digits p) eqn:Dp, (all_digits q) eqn:Dq.
    - destruct (dget p tab) as [v|] eqn:Ep; simpl; [|discriminate].
      destruct (dget q tab) as [w|] eqn:Eq; simpl; [|discriminate]. intros E1 E2.
      assert (v = w) by congruence. subst w. clear E1 E2. unfold vals_distinct, dvals in D.
      apply dget_In in Ep, Eq. clear -D Ep Eq. induction tab as [|[a b] l IH]; simpl in *; [tauto|].
      inversion D; subst. destruct Ep as [Ep|Ep], Eq as [Eq|Eq].
      + congruence.
      + exfalso. inversion Ep; subst. apply H1. apply in_map_iff. exists (q, v); auto.
      + exfalso. inversion Eq; subst. apply H1. apply in_map_iff. exists (p, v); auto.
      + auto.
    - destruct (dget p tab); simpl; congruence.
    - destruct (dget q tab); simpl; congruence.
    - congruence.
  Qed.

  (** Signature of one application, in a table state. *)
  Definition signature (g : graph) (tab : dict string V) (ks : list string) (f : string)
    : string * dict string V :=
    let (parts, tab') := mid g tab ks in (final_model_id parts f, tab').
  (** The value table after any sequence of signature computations (the graph may change in
      between). *)
  Definition table_after (h : list (graph * list string)) : dict string V :=
    fold_left (fun t p => snd (mid (fst p) t (snd p))) h [].
  Definition args_ok (ks : list string) : Prop := forall k, In k ks -> skipped k = false -> key_ok k.

  Lemma table_fold_ok h : forall tab, Forall (fun p => args_ok (snd p)) h -> tab_ok tab -> vals_distinct tab ->
    let t := fold_left (fun t p => snd (mid (fst p) t (snd p))) h tab in
    tab_ok t /\ vals_distinct t /\ tab_le tab t.
  Proof.
    induction h as [|[g ks] h IH]; simpl; intros tab F T D.
    - repeat split; auto. intros p v; auto.
    - inversion F; subst. destruct (mid g tab ks) as [parts tab'] eqn:E. simpl in *.
      destruct (model_id_decode g ks tab parts tab') as (T' & D' & L & _ & _); auto.
      destruct (IH tab' H2 T' D') as (T2 & D2 & L2). repeat split; auto.
      intros p v Hp. apply L2, L; auto.
  Qed.

  Lemma signature_exact h1 h2 g1 g2 ks1 ks2 f1 f2 :
    Forall (fun p => args_ok (snd p)) h1 -> Forall (fun p => args_ok (snd p)) h2 ->
    args_ok ks1 -> args_ok ks2 -> part_ok f1 -> part_ok f2 ->
    fst (signature g1 (table_after h1) ks1 f1) =
    fst (signature g2 (table_after (h1 ++ (g1, ks1) :: h2)) ks2 f2) <->
    f1 = f2 /\ map (arg_of g1) (filter visible ks1) = map (arg_of g2) (filter visible ks2).
  Proof.
    intros F1 F2 A1 A2 P1 P2. unfold signature, table_after. rewrite fold_left_app. cbn [fold_left fst snd].
    destruct (table_fold_ok h1 [] F1 eq_refl (NoDup_nil _)) as (T0 & D0 & _).
    match type of T0 with tab_ok ?t => set (t0 := t) in * end.
    destruct (mid g1 t0 ks1) as [p1 t1] eqn:E1. cbn [snd fst].
    destruct (model_id_decode g1 ks1 t0 p1 t1) as (T1 & D1 & L1 & Q1 & M1); auto.
    destruct (table_fold_ok h2 t1) as (T2 & D2 & L2); auto.
    match type of T2 with tab_ok ?t => set (t2 := t) in * end.
    destruct (mid g2 t2 ks2) as [p2 t3] eqn:E2. cbn [fst].
    destruct (model_id_decode g2 ks2 t2 p2 t3) as (T3 & D3 & L3 & Q3 & M3); auto.
    assert (M1' : map (decode t3) p1 = map (fun k => Some (arg_of g1 k)) (filter visible ks1)).
    { revert M1. generalize (filter visible ks1). clear -L2 L3. revert p1.
      induction p1 as [|p r IH]; intros [|k l] H; simpl in *; try discriminate; auto.
      injection H as H1 H2.
      assert (L : tab_le t1 t3) by (intros a b Hab; apply L3, L2; auto).
      f_equal; [apply (decode_le t1 t3); auto|apply IH; auto]. }
    assert (Sm : forall (g : graph) l, map (fun k => Some (arg_of g k)) l = map Some (map (arg_of g) l)).
    { intros; rewrite map_map; auto. }
    split.
    - intros E. apply final_id_inj in E; auto. destruct E as (-> & ->). split; auto.
      rewrite M1' in M3. rewrite !Sm in M3. apply Some_inj_map in M3. auto.
    - intros (-> & E). f_equal. rewrite Sm in M1', M3. rewrite E in M1'. rewrite <- M3 in M1'.
      clear -D3 M1' M3. revert p2 M1' M3. generalize (map (arg_of g2) (filter visible ks2)).
      induction p1 as [|p r IH]; intros l [|q s] H M3; simpl in *; try discriminate; auto.
      destruct l as [|x l]; [discriminate|]. inversion M3. inversion H.
      rewrite (decode_inj t3 p q x); auto; [|congruence]. f_equal. apply (IH l); auto.
  Qed.
End S.

(** ** The comparison of values *)
(** Same kind at every position: no mixing of bool, int and float, equal tensor dtypes. *)
Fixpoint same_kind (a b : pval) {struct a} : Prop :=
  match a, b with
  | VNone, VNone | VBool _, VBool _ | VInt _, VInt _ | VFloat _, VFloat _ | VStr _, VStr _ => True
  | VTuple l, VTuple r | VList l, VList r =>
      (fix go (l r : list pval) := match l, r with
                                   | [], [] => True
                                   | x :: l', y :: r' => same_kind x y /\ go l' r'
                                   | _, _ => False end) l r
  | VTensor d _ _, VTensor d' _ _ => d = d'
  | _, _ => False
  end.
Lemma pval_ind' (P : pval -> Prop) :
  P VNone -> (forall b, P (VBool b)) -> (forall z, P (VInt z)) -> (forall n, P (VFloat n)) ->
  (forall s, P (VStr s)) -> (forall l, Forall P l -> P (VTuple l)) -> (forall l, Forall P l -> P (VList l)) ->
  (forall d s e, P (VTensor d s e)) -> forall v, P v.
Proof.
  intros H1 H2 H3 H4 H5 H6 H7 H8. fix IH 1. intros [|b|z|n|s|l|l|d s e].
  - exact H1.
  - apply H2.
  - apply H3.
  - apply H4.
  - apply H5.
  - apply H6. induction l; constructor; auto.
  - apply H7. induction l; constructor; auto.
  - apply H8.
Qed.
Lemma scale_nz : scale <> 0%Z.
Proof. unfold scale. apply Z.pow_nonzero; lia. Qed.
Lemma py_eq_sound a : forall b, same_kind a b -> py_eq a b = true -> a = b.
Proof.
  pose proof scale_nz as NZ.
  induction a as [|x|z|n|s|l IH|l IH|d s e] using pval_ind'; intros [| | | | | | |] K E; simpl in K; try tauto.
  - simpl in E. apply Z.eqb_eq in E. destruct x, b; auto; exfalso; apply NZ; lia.
  - simpl in E. apply Z.eqb_eq in E. apply Z.mul_reg_r in E; auto. congruence.
  - simpl in E. apply Z.eqb_eq in E. congruence.
  - simpl in E. apply (proj1 (eqb_eq _ _)) in E. congruence.
  - f_equal. cbn in E. revert l0 K E. induction IH as [|x l Hx _ IHl]; intros [|y r] K E; try tauto.
    apply andb_prop in E. destruct E, K. f_equal; auto.
  - f_equal. cbn in E. revert l0 K E. induction IH as [|x l Hx _ IHl]; intros [|y r] K E; try tauto.
    apply andb_prop in E. destruct E, K. f_equal; auto.
  - discriminate.
Qed.
Lemma natlist_eqb_eq a b : natlist_eqb a b = true -> a = b.
Proof. unfold natlist_eqb. destruct (list_eq_dec Nat.eq_dec a b); auto; discriminate. Qed.
Lemma zlist_eqb_eq a b : zlist_eqb a b = true -> a = b.
Proof. unfold zlist_eqb. destruct (list_eq_dec Z.eq_dec a b); auto; discriminate. Qed.
Lemma elem_eq_sound a b : same_kind a b -> elem_eq a b = true -> a = b.
Proof.
  intros K E. destruct a; try (apply py_eq_sound; auto; fail).
  destruct b; simpl in *; try tauto. apply andb_prop in E. destruct E as (E1 & E2).
  apply natlist_eqb_eq in E1. apply zlist_eqb_eq in E2. congruence.
Qed.
Lemma all2_sound l : forall r,
  (fix go (l r : list pval) := match l, r with
                               | [], [] => True
                               | x :: l', y :: r' => same_kind x y /\ go l' r'
                               | _, _ => False end) l r ->
  all2 elem_eq l r = true -> l = r.
Proof.
  induction l as [|x l IH]; intros [|y r] K E; simpl in *; try tauto; try discriminate.
  apply andb_prop in E. destruct E, K. f_equal; auto. apply elem_eq_sound; auto.
Qed.
Lemma sig_eq_sound a b : same_kind a b -> sig_eq a b = true -> a = b.
Proof.
  intros K E. unfold sig_eq in E. destruct (same_type a b) eqn:ST; [|discriminate]. simpl in E.
  destruct a, b; simpl in ST; try discriminate; try (apply py_eq_sound; auto; fail).
  - f_equal. apply all2_sound; auto.
  - f_equal. apply all2_sound; auto.
  - apply andb_prop in E. destruct E as (E1 & E2). simpl in K.
    apply natlist_eqb_eq in E1. apply zlist_eqb_eq in E2. congruence.
Qed.
Lemma zlist_eqb_refl a : zlist_eqb a a = true.
Proof. unfold zlist_eqb. destruct (list_eq_dec Z.eq_dec a a); congruence. Qed.
Lemma natlist_eqb_refl a : natlist_eqb a a = true.
Proof. unfold natlist_eqb. destruct (list_eq_dec Nat.eq_dec a a); congruence. Qed.
