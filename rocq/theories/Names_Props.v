(** * C12, C13: names of submodels and of summary entries. *)
From Coq Require Import String Ascii List Arith Lia Bool ZArith Permutation.
From Verif Require Import PyBase PyStrings Names_Model Names_Proofs.
Import ListNotations.
Open Scope string_scope.
Open Scope list_scope.
Open Scope nat_scope.

(** ** C12 *)
(** Every submodel gets exactly one name, explicit names are kept, a generated name is the type name or
    the type name with a number, and it differs from every other name, generated or explicit. *)
Theorem C12_every_submodel_named dag : NoDup (map sm_id dag) ->
  exists names, get_unique_submodel_names dag = Ok names /\
    Permutation (map fst names) (map sm_id dag) /\
    (forall m n, In m dag -> given_name m = Some n -> dget (sm_id m) names = Some n) /\
    (forall m, In m dag -> given_name m = None -> exists n, dget (sm_id m) names = Some n /\
       (n = sm_default m \/ exists k, n = suffixed (sm_default m) k) /\
       forall i n', In (i, n') names -> i <> sm_id m -> n' <> n).
Proof.
  intros Nd. destruct (unique_names dag Nd) as (new & E & Pm & Nv & Dv & O).
  exists (named dag ++ new). split; auto. split; auto.
  assert (W : dwf (named dag ++ new)). { unfold dwf. eapply Permutation_NoDup; [symmetry; exact Pm|auto]. }
  assert (Nin : forall m n, In m dag -> given_name m = Some n -> In (sm_id m, n) (named dag)).
  { intros m n I G. unfold named. apply in_flat_map. exists m. rewrite G. simpl. auto. }
  split.
  - intros m n I G. apply In_dget; auto. apply in_app_iff. auto.
  - intros m I G.
    assert (Ik : In (sm_id m) (dkeys (named dag ++ new))) by (eapply Permutation_in; [symmetry; exact Pm|apply in_map; auto]).
    unfold dkeys in Ik. apply in_map_iff in Ik. destruct Ik as ((i & n) & Ei & J). simpl in Ei. subst i.
    exists n. split; [apply In_dget; auto|].
    assert (Jn : In (sm_id m, n) new).
    { apply in_app_iff in J. destruct J as [J|J]; auto. exfalso. unfold named in J. apply in_flat_map in J.
      destruct J as (m' & I' & J). destruct (given_name m') as [x|] eqn:G'; simpl in J; [|tauto]. destruct J as [J|[]]. injection J as Ei En.
      assert (m' = m) by (eapply NoDup_map_In; eauto). congruence. }
    split.
    + destruct (O _ _ Jn) as (m' & I' & Ei & _ & D). assert (m' = m) by (eapply NoDup_map_In; eauto). subst. exact D.
    + intros i n' J' Ni ->. apply in_app_iff in J'.
      assert (Vn : In n (dvals new)) by (apply in_map_iff; exists (sm_id m, n); auto).
      destruct J' as [J'|J'].
      * apply (Dv n Vn). apply in_map_iff. exists (i, n). auto.
      * apply Ni. clear -Nv J' Jn. unfold dvals in Nv.
        assert (X : (i, n) = (sm_id m, n)) by (eapply (NoDup_map_In snd); eauto). congruence.
Qed.

(** Hence all names are distinct when the explicit ones are (which [extend] enforces, base.py:939-943). *)
Theorem C12_names_distinct dag : NoDup (map sm_id dag) ->
  (forall m m' n, In m dag -> In m' dag -> given_name m = Some n -> given_name m' = Some n -> m = m') ->
  exists names, get_unique_submodel_names dag = Ok names /\ NoDup (map snd names).
Proof.
  intros Nd H. destruct (unique_names dag Nd) as (new & E & Pm & Nv & Dv & O).
  exists (named dag ++ new). split; auto. rewrite map_app. apply NoDup_app_intro; auto.
  - clear -Nd H. unfold named. induction dag as [|m r IH]; simpl; [constructor|]. rewrite map_app. simpl in Nd. inversion Nd; subst.
    assert (IHr := IH H3). clear IH. destruct (given_name m) as [n|] eqn:G; simpl.
    + constructor.
      * intros I. apply in_map_iff in I. destruct I as ((i & n') & En & I). simpl in En. subst n'. apply in_flat_map in I.
        destruct I as (m' & I' & J). destruct (given_name m') as [x|] eqn:G'; simpl in J; [|tauto]. destruct J as [J|[]]. injection J as Ei En. subst x.
        assert (m = m') by (apply (H m m' n); simpl; auto). subst m'. apply H2. apply in_map; auto.
      * apply IHr. intros a b x Ia Ib. apply H; simpl; auto.
    + apply IHr. intros a b x Ia Ib. apply H; simpl; auto.
  - intros n I J. apply (Dv n J I).
Qed.
Example C12_example :
  let dag := [mksub 0 None "Relu"; mksub 1 (Some "Relu_0") "Relu"; mksub 2 None "Relu"; mksub 3 None "Add"; mksub 4 (Some "Add") "Linear"] in
  get_unique_submodel_names dag = Ok [(1, "Relu_0"); (4, "Add"); (0, "Relu_1"); (2, "Relu_2"); (3, "Add_0")].
Proof. reflexivity. Qed.

(** ** C13 *)
(** A model whose base name occurs once keeps it; otherwise it gets the number of earlier occurrences. *)
Theorem C13_names ms : NoDup (map sm_id ms) ->
  map fst (define_unique_names ms) = map sm_id ms /\
  forall k m, nth_error ms k = Some m ->
    let bases := map summary_base ms in
    nth_error (map snd (define_unique_names ms)) k =
    Some (if Nat.eqb (count_occ string_dec bases (summary_base m)) 1 then summary_base m
          else suffixed (summary_base m) (count_occ string_dec (firstn k bases) (summary_base m))).
Proof.
  intros Nd. rewrite summary_names by auto. split; [apply final_keys|].
  intros k m E. apply (final_vals (map summary_base ms) ms [] k m E).
Qed.

(** The names are pairwise distinct exactly if no base name used once is the numbered name of another. *)
Theorem C13_distinct_iff ms : NoDup (map sm_id ms) ->
  let bases := map summary_base ms in
  NoDup (map snd (define_unique_names ms)) <->
  ~ exists b o i, count_occ string_dec bases b = 1 /\ 2 <= count_occ string_dec bases o /\
      i < count_occ string_dec bases o /\ b = suffixed o i.
Proof.
  intros Nd bases. rewrite summary_names by auto. fold bases.
  assert (Nth : forall k b, nth_error bases k = Some b ->
     nth_error (map snd (final_names bases [] ms)) k = Some (final_name bases (firstn k bases) b)).
  { intros k b E. unfold bases in E. rewrite nth_error_map in E. destruct (nth_error ms k) as [m|] eqn:Em; [|discriminate].
    injection E as <-. apply (final_vals bases ms [] k m Em). }
  assert (Ln : length (map snd (final_names bases [] ms)) = length bases).
  { etransitivity; [exact (final_vals_length bases ms [])|]. unfold bases. rewrite map_length. auto. }
  split.
  - intros D (b & o & i & O1 & O2 & Li & ->).
    assert (Ib : In (suffixed o i) bases). { apply (count_occ_In string_dec). lia. }
    apply In_nth_error in Ib. destruct Ib as (k & Ek).
    destruct (occ_reached bases o i Li) as (j & Ej & Oj).
    assert (X : nth_error (map snd (final_names bases [] ms)) k = nth_error (map snd (final_names bases [] ms)) j).
    { rewrite (Nth k _ Ek), (Nth j _ Ej). unfold final_name. rewrite Oj. unfold occ in *. rewrite O1. simpl.
      destruct (count_occ string_dec bases o =? 1) eqn:E1; auto. apply Nat.eqb_eq in E1. lia. }
    assert (Lk : k < length bases) by (apply nth_error_Some; congruence).
    assert (k = j). { apply (proj1 (NoDup_nth_error _) D); auto. lia. }
    subst j. rewrite Ek in Ej. injection Ej as Eo. rewrite Eo in O1. lia.
  - intros N. apply NoDup_nth_error. intros k j Lk E. rewrite Ln in Lk.
    destruct (nth_error bases k) as [b|] eqn:Ek; [|apply nth_error_None in Ek; lia].
    rewrite (Nth k b Ek) in E. destruct (nth_error bases j) as [b'|] eqn:Ej.
    2: { apply nth_error_None in Ej. symmetry in E. assert (X : nth_error (map snd (final_names bases [] ms)) j <> None) by congruence.
         apply nth_error_Some in X. lia. }
    rewrite (Nth j b' Ej) in E. injection E as E. unfold final_name in E.
    assert (Pos : forall i x, nth_error bases i = Some x -> occ x (firstn i bases) < occ x bases) by (intros; apply occ_firstn_lt; auto).
    pose proof (Pos k b Ek) as Pk. pose proof (Pos j b' Ej) as Pj. unfold occ in *.
    destruct (count_occ string_dec bases b =? 1) eqn:Cb, (count_occ string_dec bases b' =? 1) eqn:Cb'.
    + apply Nat.eqb_eq in Cb. subst b'. destruct (Nat.lt_trichotomy k j) as [L|[|L]]; auto; exfalso.
      * pose proof (occ_firstn_mono bases k j b Ek L). unfold occ in *. lia.
      * pose proof (occ_firstn_mono bases j k b Ej L). unfold occ in *. lia.
    + exfalso. apply N. apply Nat.eqb_eq in Cb. apply Nat.eqb_neq in Cb'. exists b, b', (count_occ string_dec (firstn j bases) b'). repeat split; auto; lia.
    + exfalso. apply N. apply Nat.eqb_eq in Cb'. apply Nat.eqb_neq in Cb. exists b', b, (count_occ string_dec (firstn k bases) b). repeat split; auto; lia.
    + apply suffixed_inj in E. destruct E as (-> & E). destruct (Nat.lt_trichotomy k j) as [L|[|L]]; auto; exfalso.
      * pose proof (occ_firstn_mono bases k j b' Ek L). unfold occ in *. lia.
      * pose proof (occ_firstn_mono bases j k b' Ej L). unfold occ in *. lia.
Qed.
Example C13_example : define_unique_names [mksub 0 None "Relu"; mksub 1 None "Relu"; mksub 2 (Some "out") "Linear"] = [(0, "Relu_0"); (1, "Relu_1"); (2, "out")].
Proof. reflexivity. Qed.
(** Two models with one name. *)
Theorem C13_distinct_refuted :
  define_unique_names [mksub 0 None "Relu"; mksub 1 None "Relu"; mksub 2 (Some "Relu_0") "Linear"] = [(0, "Relu_0"); (1, "Relu_1"); (2, "Relu_0")].
Proof. reflexivity. Qed.

Print Assumptions C12_every_submodel_named.
Print Assumptions C12_names_distinct.
Print Assumptions C13_names.
Print Assumptions C13_distinct_iff.
Print Assumptions C13_distinct_refuted.
