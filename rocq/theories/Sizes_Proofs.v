(** * Proofs for sizes of shapes *)
From Coq Require Import List Arith Lia Bool ZArith.
From Verif Require Import PyBase Uniadic_Model Uniadic_Proofs Uniadic_Props Bcast_Proofs Shape_Model Shape_Proofs Shape_Proofs2 Shape_Proofs3 Shape_Props Reduce_Model
  Rule_Proofs Window_Model Window_Proofs Window_Props Arange_Model Arange_Proofs Arange_Props Reshape_Model Reshape_Proofs Reshape_Props Concat_Model Concat_Proofs Concat_Props
  Flat_Model Flat_Spec Flat_Proofs Flat_Proofs2 Flat_Proofs3 Flat_Props Sizes_Model Sizes_Spec.
Import ListNotations.
Open Scope list_scope. Open Scope nat_scope. Open Scope shm_scope.

Lemma merge_ok a : forall b, length a = length b -> match merge_entries a b with
  | Ok c => forall x, Forall2 known_to_be c x <-> Forall2 known_to_be a x /\ Forall2 known_to_be b x
  | Err e => e = ValueError /\ forall x, Forall2 known_to_be a x -> Forall2 known_to_be b x -> False
  end.
Proof.
  induction a as [|o a IH]; intros [|v b] L; try discriminate L; cbn [merge_entries].
  { intros x. split; [auto|intros [H _]; auto]. }
  specialize (IH b ltac:(injection L; auto)). destruct (merge_entries a b) as [c|e].
  - assert (G : forall w, (forall n, known_to_be w n <-> known_to_be o n /\ known_to_be v n) -> forall x, Forall2 known_to_be (w :: c) x <-> Forall2 known_to_be (o :: a) x /\ Forall2 known_to_be (v :: b) x).
    { intros w Hw x. split.
      - intros H. inversion H as [|? n ? y H1 H2]; subst. apply Hw in H1 as [H1 H3]. apply IH in H2 as [H2 H4]. split; constructor; auto.
      - intros [H H']. inversion H as [|? n ? y H1 H2]; subst. inversion H' as [|? n' ? y' H3 H4]; subst. constructor; [apply Hw; auto|apply IH; auto]. }
    destruct o as [m|], v as [n|]; [destruct (Z.eqb_spec m n) as [->|N]|..]; try (apply G; cbn; tauto).
    split; [auto|]. intros x H H'. inversion H as [|? k ? y H1 H2]; subst. inversion H'; subst. cbn in *. congruence.
  - destruct IH as [-> IH]. assert (K : forall x, Forall2 known_to_be (o :: a) x -> Forall2 known_to_be (v :: b) x -> False).
    { intros x H H'. inversion H; subst. inversion H'; subst. eapply IH; eauto. }
    destruct o as [m|], v as [n|]; (split; [auto|exact K]).
Qed.
Lemma set_tuple_ok out b : match set_tuple out b with
  | Ok c => forall x, Forall2 known_to_be c x <-> tuple_is out x /\ Forall2 known_to_be b x
  | Err e => (e = ValueError \/ e = TypeError) /\ forall x, tuple_is out x -> Forall2 known_to_be b x -> False
  end.
Proof.
  unfold set_tuple. destruct out as [a|]; [|cbn; tauto]. destruct (Nat.eqb_spec (length a) (length b)) as [L|L].
  - assert (X := merge_ok a b L). destruct (merge_entries a b); [exact X|]. destruct X as [-> X]. split; [auto|exact X].
  - split; [auto|]. intros x H1 H2. cbn in H1. apply Forall2_length in H1, H2. congruence.
Qed.
Lemma values_known s l rho : sinv s -> (forall u, In u l -> live (us s) u) -> sat (us s) rho -> Forall2 known_to_be (values s l) (map rho l).
Proof.
  intros I. induction l as [|u l IH]; intros HL Hs; cbn; constructor.
  - destruct (value (us s) u) as [n|] eqn:E; cbn; [|auto]. eapply value_sat; [apply I|apply HL; left; auto|exact E|auto].
  - apply IH; [intros; apply HL; right; auto|auto].
Qed.
Lemma plain_known s q rho sh : sinv s -> q < nrep s -> root (rp s q) = None -> allows s rho sh -> Forall2 known_to_be (values s (pre (rp s q))) (sh q).
Proof. intros I Hq R A. rewrite (plain_sh s q rho sh I Hq R A). apply values_known; [auto|intros; eapply pre_live; eauto|apply A]. Qed.

(** ** Matching with the entries of a tuple *)
Lemma entries_ok (P : srel) s q l : sinv s -> q < nrep s -> (forall rho sh, allows s rho sh -> P sh -> tuple_is (Some l) (sh q)) ->
  match match_entries q l s with
  | (s', Ok _) => sound_for P s s' /\ ensures (fun sh => tuple_is (Some l) (sh q)) s'
  | (_, Err e) => e = ValueError /\ excludes P s
  end.
Proof.
  intros I Hq H. assert (M := match_list P (fun _ ys => Forall2 fitsv l ys) (new_uniadics l) s q I Hq (makes_new l s (s_inv _ I))). lapply M; [clear M; intros M|].
  - unfold match_entries. destruct ((do us <- new_uniadics l; inner_match q (mkshape us None [])) s) as [s' [[]|e]]; exact M.
  - intros rho tau sh Hs D Hp. apply (H rho sh); [|auto]. apply allows_den. split; [auto|]. exists tau. auto.
Qed.
Lemma entries_all l x : Forall2 known_to_be (map Some l) x <-> x = l.
Proof. split; [revert x; induction l as [|z l IH]; intros x F; inversion F; subst; [auto|]; f_equal; auto|intros ->; induction l; constructor; cbn; auto]. Qed.
Lemma finished_iff s q l : sinv s -> q < nrep s -> ensures (fun sh => tuple_is (Some l) (sh q)) s -> match all_some l with Some _ => repr_known s q | None => false end = true <-> exists x, l = map Some x.
Proof.
  intros I Hq E. destruct (all_some l) as [x|] eqn:A.
  - apply all_some_spec in A. subst l. split; [eauto|]. intros _. apply repr_known_iff; [auto|auto|]. exists x. intros rho sh H. apply entries_all. apply (E rho sh H).
  - split; [discriminate|]. intros (x & ->). assert (all_some (map Some x) = Some x) by (apply all_some_spec; auto). congruence.
Qed.
Lemma shape_ok s q out : sinv s -> q < nrep s ->
  match shape_rule q out s with
  | (s', Ok (b, o)) => sound_for (fun sh => tuple_is out (sh q)) s s' /\ ensures (fun sh => tuple_is o (sh q)) s' /\ (forall x, tuple_is o x -> tuple_is out x) /\ (b = true <-> exists x, o = Some (map Some x))
  | (_, Err e) => (e = ValueError \/ e = TypeError) /\ excludes (fun sh => tuple_is out (sh q)) s
  end.
Proof.
  intros I Hq. unfold shape_rule. set (P := fun sh : nat -> list Z => tuple_is out (sh q)). destruct (no_root (rp s q)) eqn:R.
  - apply no_root_iff in R. assert (X := set_tuple_ok out (values s (pre (rp s q)))). destruct (set_tuple _ _) as [l|e].
    + assert (M := entries_ok P s q l I Hq). lapply M; [clear M; intros M|intros rho sh A Hp; apply X; split; [exact Hp|eapply plain_known; eauto]].
      unfold hbind. destruct (match_entries q l s) as [s' [[]|e]]; [|destruct M as [-> M]; auto]. destruct M as [M1 M2]. split; [auto|]. split; [exact M2|]. split; [intros x H; apply X; exact H|].
      assert (Hq' : q < nrep s') by (destruct M1 as (_ & -> & _); auto). rewrite (finished_iff s' q l (proj1 M1) Hq' M2). split; intros (x & E); exists x; congruence.
    + destruct X as [E X]. split; [exact E|]. intros rho sh A Hp. apply (X (sh q)); [exact Hp|eapply plain_known; eauto].
  - destruct out as [l|].
    + assert (M := entries_ok P s q l I Hq (fun rho sh A Hp => Hp)). unfold hbind. destruct (match_entries q l s) as [s' [[]|e]]; [|destruct M as [-> M]; auto]. destruct M as [M1 M2].
      assert (Hq' : q < nrep s') by (destruct M1 as (_ & -> & _); auto). assert (I' := proj1 M1).
      assert (R' : root (rp s' q) = None). { apply (rank_iff s' q I' Hq'). exists (length l). intros rho sh A. symmetry. eapply Forall2_length. apply (M2 rho sh A). }
      assert (X := set_tuple_ok (Some l) (values s' (pre (rp s' q)))). destruct (set_tuple _ _) as [l'|e].
      * assert (M3 : ensures (fun sh => tuple_is (Some l') (sh q)) s') by (intros rho sh A; apply X; split; [apply (M2 rho sh A)|eapply plain_known; eauto]).
        split; [auto|]. split; [exact M3|]. split; [intros x H; apply X; exact H|]. rewrite (finished_iff s' q l' I' Hq' M3). split; intros (x & E); exists x; congruence.
      * destruct X as [E X]. split; [exact E|]. eapply excludes_back; [exact M1|]. intros rho sh A Hp. apply (X (sh q)); [exact Hp|eapply plain_known; eauto].
    + split; [apply sound_for_refl; auto|]. split; [intros rho sh A; exact Logic.I|]. split; [auto|]. split; [discriminate|intros (x & E); discriminate].
Qed.
Lemma randn_ok s q out : sinv s -> q < nrep s ->
  match randn_rule q out s with
  | (s', Ok b) => sound_for (fun sh => tuple_is out (sh q)) s s' /\ ensures (fun sh => tuple_is out (sh q)) s' /\ (b = true <-> exists x, out = Some (map Some x))
  | (_, Err e) => e = ValueError /\ excludes (fun sh => tuple_is out (sh q)) s
  end.
Proof.
  intros I Hq. unfold randn_rule. destruct out as [l|].
  2: { split; [apply sound_for_refl; auto|]. split; [intros rho sh A; exact Logic.I|]. split; [discriminate|intros (x & E); discriminate]. }
  destruct (Nat.ltb_spec (length l) (shlen (rp s q))) as [C|C].
  { split; [auto|]. intros rho sh A Hg. apply allows_den in A as (Hs & tau & D). cbn in Hg. apply Forall2_length in Hg. assert (L := shlen_den s rho tau q). rewrite D in L by auto. lia. }
  assert (M := entries_ok (fun sh => tuple_is (Some l) (sh q)) s q l I Hq (fun rho sh A Hp => Hp)). unfold hbind. destruct (match_entries q l s) as [s' [[]|e]]; [|auto]. destruct M as [M1 M2]. split; [auto|]. split; [exact M2|].
  destruct (all_some l) as [x|] eqn:A.
  - apply all_some_spec in A. subst l. split; eauto.
  - split; [discriminate|]. intros (x & E). injection E as ->. assert (all_some (map Some x) = Some x) by (apply all_some_spec; auto). congruence.
Qed.
