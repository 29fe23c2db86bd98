From Coq Require Import String ZArith QArith List Bool Lia Permutation.
From Verif Require Import PyBase Known_Model Known_Spec.
Import ListNotations.

Section Ind.
  Variable P : value -> Prop.
  Hypothesis HT : P TBD.
  Hypothesis HA : forall a, P (Atom a).
  Hypothesis HS : forall t l, Forall P l -> P (Seq t l).
  Fixpoint value_ind' (v : value) : P v :=
    match v with
    | TBD => HT
    | Atom a => HA a
    | Seq t l => HS t l ((fix go (l : list value) : Forall P l :=
        match l with
        | [] => Forall_nil P
        | x :: r => Forall_cons x (value_ind' x) (go r)
        end) l)
    end.
End Ind.

Lemma below_seq : forall t u l m, below (Seq t l) (Seq u m) <-> t = u /\ Forall2 below l m.
Proof.
  intros t u l m. cbn [below]. split; intros [H1 H2]; split; try exact H1.
  - clear H1. revert m H2. induction l as [|x r IH]; intros [|y m] H; try contradiction; constructor.
    + apply H.
    + apply IH, H.
  - clear H1. induction H2; [exact I|]. split; assumption.
Qed.

Lemma same_refl : forall x, same x x.
Proof. intros x. left. reflexivity. Qed.

Lemma same_sym : forall x y, same x y -> same y x.
Proof.
  intros x y [->|[p [q [Hp [Hq E]]]]]; [left; reflexivity|].
  right. exists q, p. split; [exact Hq|]. split; [exact Hp|]. symmetry. exact E.
Qed.

Lemma amount_fun : forall x p q, amount x p -> amount x q -> p = q.
Proof. intros x p q H1 H2. destruct H1; inversion H2; reflexivity. Qed.

Lemma same_trans : forall x y z, same x y -> same y z -> same x z.
Proof.
  intros x y z [->|[p [q [Hp [Hq E]]]]] H; [exact H|].
  destruct H as [->|[q' [r [Hq' [Hr E']]]]].
  - right. exists p, q. auto.
  - rewrite (amount_fun _ _ _ Hq' Hq) in E'. right. exists p, r.
    split; [exact Hp|]. split; [exact Hr|]. rewrite E. exact E'.
Qed.

Lemma amount_number : forall x p, amount x p <-> as_number x = Some p.
Proof.
  intros x p. split.
  - intros H. destruct H; reflexivity.
  - destruct x; cbn; intros H; try discriminate; injection H as <-; try constructor.
    destruct b; constructor.
Qed.

Lemma opt_eq_iff : forall x y, opt_eq x y = true <-> x = y.
Proof.
  intros [x|] [y|]; cbn; split; intros H; try discriminate; try reflexivity.
  - apply Z.eqb_eq in H. congruence.
  - injection H as ->. apply Z.eqb_refl.
Qed.

Lemma number_same : forall x y p q, as_number x = Some p -> as_number y = Some q ->
  (Qeq_bool p q = true <-> same x y).
Proof.
  intros x y p q Hp Hq. rewrite Qeq_bool_iff. split.
  - intros E. right. exists p, q. rewrite !amount_number. auto.
  - intros [->|[p' [q' [Hp' [Hq' E]]]]].
    + rewrite Hp in Hq. injection Hq as ->. reflexivity.
    + rewrite amount_number in Hp', Hq'. rewrite Hp in Hp'. rewrite Hq in Hq'.
      injection Hp' as ->. injection Hq' as ->. exact E.
Qed.

Lemma not_number_same : forall x y, as_number x = None \/ as_number y = None -> same x y -> x = y.
Proof.
  intros x y H [E|[p [q [Hp [Hq _]]]]]; [exact E|].
  rewrite amount_number in Hp, Hq. destruct H; congruence.
Qed.

Lemma atom_eq_iff : forall x y, atom_eq x y = true <-> same x y.
Proof.
  intros x y.
  assert (N : forall p q, as_number x = Some p -> as_number y = Some q -> atom_eq x y = Qeq_bool p q).
  { intros p q Hp Hq. destruct x, y; cbn in *; try discriminate; congruence. }
  destruct (as_number x) as [p|] eqn:Ep; [destruct (as_number y) as [q|] eqn:Eq|].
  - rewrite (N p q eq_refl eq_refl). apply number_same; assumption.
  - split.
    + destruct x, y; cbn in *; discriminate.
    + intros H. apply not_number_same in H; [|right; exact Eq]. congruence.
  - split.
    + destruct x, y; cbn in *; try discriminate; intros H; left; try reflexivity.
      * apply String.eqb_eq in H. congruence.
      * apply andb_prop in H. destruct H as [H H3]. apply andb_prop in H. destruct H as [H1 H2].
        apply opt_eq_iff in H1, H2, H3. congruence.
    + intros H. apply not_number_same in H; [|left; exact Ep]. subst y.
      destruct x; cbn in *; try discriminate; try reflexivity.
      * apply String.eqb_refl.
      * rewrite !(proj2 (opt_eq_iff _ _) eq_refl). reflexivity.
Qed.

Lemma below_refl : forall v, below v v.
Proof.
  apply value_ind'.
  - exact I.
  - intros a. apply same_refl.
  - intros t l H. apply below_seq. split; [reflexivity|].
    induction H; constructor; assumption.
Qed.

Lemma below_trans : forall a b c, below a b -> below b c -> below a c.
Proof.
  apply (value_ind' (fun a => forall b c, below a b -> below b c -> below a c)).
  - intros b c _ _. exact I.
  - intros a b c H1 H2. destruct b as [|y|]; try contradiction. destruct c as [|z|]; try contradiction.
    cbn in *. apply (same_trans a y z H1 H2).
  - intros t l IH b c H1 H2. destruct b as [|y|u m]; try contradiction. destruct c as [|z|w n]; try contradiction.
    apply below_seq in H1. apply below_seq in H2. apply below_seq.
    destruct H1 as [-> H1]. destruct H2 as [-> H2]. split; [reflexivity|].
    revert n H2. clear - IH H1. induction H1 as [|x y l m Hxy H1 IH1]; intros n H2.
    + inversion H2. constructor.
    + inversion H2 as [|y' z m' n' Hyz H2']; subst. inversion IH as [|x' l' Px IHl]; subst.
      constructor; [apply (Px y z Hxy Hyz) | apply IH1; assumption].
Qed.

Lemma veq_seq : forall t u l m, veq (Seq t l) (Seq u m) = true <->
  t = u /\ Forall2 (fun x y => veq x y = true) l m.
Proof.
  intros t u l m. cbn [veq]. rewrite andb_true_iff, eqb_true_iff. split; intros [H1 H2]; split; try exact H1.
  - clear H1. revert m H2. induction l as [|x r IH]; intros [|y m] H; try discriminate; constructor;
      apply andb_prop in H; [apply H | apply IH, H].
  - clear H1. induction H2 as [|x y l m H H2 IH]; [reflexivity|]. rewrite H, IH. reflexivity.
Qed.

Lemma veq_below : forall a b, veq a b = true <-> below a b /\ below b a.
Proof.
  apply (value_ind' (fun a => forall b, veq a b = true <-> below a b /\ below b a)).
  - intros [|a|t l]; cbn; split; try discriminate; try tauto.
  - intros a [|x|t l]; cbn [veq below]; split; try discriminate; try tauto.
    + intros H. apply atom_eq_iff in H. split; [exact H | apply same_sym, H].
    + intros [H _]. apply atom_eq_iff, H.
  - intros t l IH [|x|u m]; try (cbn; split; [discriminate | tauto]).
    rewrite veq_seq, !below_seq. split.
    + intros [-> H]. assert (G : Forall2 below l m /\ Forall2 below m l).
      { induction H as [|x y l m Hxy H IHH]; [split; constructor|].
        inversion IH; subst. apply H2 in Hxy. destruct (IHH H3) as [G1 G2]. destruct Hxy. split; constructor; assumption. }
      tauto.
    + intros [[-> H1] [_ H2]]. split; [reflexivity|].
      induction H1 as [|x y l m Hxy H1 IHH]; [constructor|].
      inversion IH as [|x' l' Px IHl]; subst. inversion H2 as [|y' x' m' l' Hyx H2']; subst.
      constructor; [apply Px; split; assumption | apply IHH; assumption].
Qed.

Lemma veq_sym : forall a b, veq a b = veq b a.
Proof.
  intros a b. destruct (veq a b) eqn:E, (veq b a) eqn:F; try reflexivity.
  - apply veq_below in E. assert (G : veq b a = true) by (apply veq_below; tauto). congruence.
  - apply veq_below in F. assert (G : veq a b = true) by (apply veq_below; tauto). congruence.
Qed.

Fixpoint match_all (l m : list value) : res (list value * bool) :=
  match l, m with
  | [], [] => Ok ([], false)
  | x :: l', y :: m' =>
      match match_values x y with
      | Err e => Err e
      | Ok (z, f) =>
          match match_all l' m' with
          | Err e => Err e
          | Ok (zs, g) => Ok (z :: zs, orb f g)
          end
      end
  | _, _ => Err ValueError
  end.

Lemma match_seq : forall t u l m, match_values (Seq t l) (Seq u m) =
  if veq (Seq t l) (Seq u m) then Ok (Seq t l, false)
  else if Bool.eqb t u then
    match match_all l m with Err e => Err e | Ok (r, f) => Ok (Seq t r, f) end
  else Err ValueError.
Proof. reflexivity. Qed.

Definition merged (a b : value) : Prop :=
  match match_values a b with
  | Ok (c, f) =>
      below a c /\ below b c /\ (forall d, below a d -> below b d -> below c d) /\
      (f = false <-> below c b)
  | Err e => e = ValueError /\ forall d, below a d -> ~ below b d
  end.

Lemma merged_eq : forall a b, veq a b = true -> match_values a b = Ok (a, false).
Proof. intros a b H. destruct a; cbn [match_values]; rewrite H; reflexivity. Qed.

Lemma merged_all : forall l, Forall (fun a => forall b, merged a b) l -> forall m,
  match match_all l m with
  | Ok (r, f) =>
      Forall2 below l r /\ Forall2 below m r /\
      (forall d, Forall2 below l d -> Forall2 below m d -> Forall2 below r d) /\
      (f = false <-> Forall2 below r m)
  | Err e => e = ValueError /\ forall d, Forall2 below l d -> ~ Forall2 below m d
  end.
Proof.
  intros l H. induction H as [|x l Hx H IH]; intros [|y m]; cbn [match_all].
  - repeat split; try constructor. intros d H1 _. inversion H1. constructor.
  - split; [reflexivity|]. intros d H1 H2. inversion H1; subst. inversion H2.
  - split; [reflexivity|]. intros d H1 H2. inversion H2; subst. inversion H1.
  - specialize (Hx y). unfold merged in Hx. destruct (match_values x y) as [[z f]|e].
    + destruct Hx as [A1 [A2 [A3 A4]]]. specialize (IH m). destruct (match_all l m) as [[zs g]|e].
      * destruct IH as [B1 [B2 [B3 B4]]]. repeat split; try (constructor; assumption).
        -- intros d H1 H2. inversion H1; subst. inversion H2; subst. constructor; auto.
        -- intros E. apply orb_false_elim in E. constructor; [apply A4, E | apply B4, E].
        -- intros E. inversion E; subst. apply orb_false_intro; [apply A4; assumption | apply B4; assumption].
      * destruct IH as [-> B]. split; [reflexivity|]. intros d H1 H2. inversion H1; subst. inversion H2; subst.
        apply (B l'); assumption.
    + destruct Hx as [-> A]. split; [reflexivity|]. intros d H1 H2. inversion H1; subst. inversion H2; subst.
      apply (A y0); assumption.
Qed.

Lemma merge_spec : forall a b, merged a b.
Proof.
  apply (value_ind' (fun a => forall b, merged a b)).
  - intros b. unfold merged.
    assert (E : match_values TBD b = Ok (b, false)) by (destruct b; reflexivity).
    rewrite E. split; [exact I|]. split; [apply below_refl|]. split; [auto|].
    split; [intros _; apply below_refl | reflexivity].
  - intros a b. unfold merged. destruct (veq (Atom a) b) eqn:E.
    + rewrite (merged_eq _ _ E). apply veq_below in E. destruct E as [E1 E2].
      repeat split; auto. apply below_refl.
    + cbn [match_values]. rewrite E. destruct b as [|x|t l].
      * repeat split; auto. apply below_refl. discriminate. intros [].
      * split; [reflexivity|]. intros d H1 H2. destruct d; try contradiction. cbn in *.
        assert (F : atom_eq a x = true) by (apply atom_eq_iff; eapply same_trans; [exact H1 | apply same_sym, H2]).
        congruence.
      * split; [reflexivity|]. intros d H1 H2. destruct d; contradiction.
  - intros t l IH b. unfold merged. destruct (veq (Seq t l) b) eqn:E.
    + rewrite (merged_eq _ _ E). apply veq_below in E. destruct E as [E1 E2].
      split; [apply below_refl|]. split; [exact E2|]. split; [auto|]. tauto.
    + destruct b as [|x|u m].
      * cbn. split; [apply (below_refl (Seq t l))|]. split; [exact I|]. split; [auto|].
        split; [discriminate | intros []].
      * cbn. split; [reflexivity|]. intros d H1 H2. destruct d; contradiction.
      * rewrite match_seq, E. destruct (Bool.eqb t u) eqn:Et.
        -- apply eqb_prop in Et. subst u. pose proof (merged_all l IH m) as G.
           destruct (match_all l m) as [[r f]|e].
           ++ destruct G as [B1 [B2 [B3 B4]]]. rewrite !below_seq.
              split; [tauto|]. split; [tauto|]. split; [|tauto].
              intros d H1 H2. destruct d as [|y|w n]; try contradiction.
              apply below_seq in H1. apply below_seq in H2. apply below_seq.
              destruct H1 as [H0 H1]. destruct H2 as [_ H2]. split; [exact H0 | apply B3; assumption].
           ++ destruct G as [-> G]. split; [reflexivity|]. intros d H1 H2.
              destruct d as [|y|w n]; try contradiction. apply below_seq in H1. apply below_seq in H2.
              apply (G n); tauto.
        -- split; [reflexivity|]. intros d H1 H2. destruct d as [|y|w n]; try contradiction.
           apply below_seq in H1. apply below_seq in H2.
           assert (t = u) by (destruct H1, H2; congruence). subst. rewrite eqb_reflx in Et. discriminate.
Qed.

(* Types of lists. *)
Lemma has_type_iff : forall v, has_type v = true <-> nonempty_lists v.
Proof.
  apply value_ind'.
  - split; [constructor | reflexivity].
  - intros a. split; [constructor | reflexivity].
  - intros t l IH.
    assert (G : forallb has_type l = true <-> Forall nonempty_lists l).
    { clear t. induction IH as [|x r Hx H IHH]; cbn; [split; [constructor | reflexivity]|].
      rewrite andb_true_iff, Hx, IHH. split; [intros [A B]; constructor; assumption | intros A; inversion A; tauto]. }
    cbn [has_type]. split.
    + destruct t; intros H; [constructor; apply G; exact H|].
      destruct l; [discriminate|]. constructor; [discriminate | apply G; exact H].
    + intros H. inversion H; subst.
      * apply G. assumption.
      * destruct l; [contradiction | apply G; assumption].
Qed.

Lemma nonempty_all : forall t l, nonempty_lists (Seq t l) -> Forall nonempty_lists l.
Proof. intros t l H. inversion H; assumption. Qed.

Definition keeps (a b : value) : Prop :=
  nonempty_lists a -> nonempty_lists b -> forall c f, match_values a b = Ok (c, f) -> nonempty_lists c.

Lemma match_all_keeps : forall l, Forall (fun a => forall b, keeps a b) l -> forall m r f,
  Forall nonempty_lists l -> Forall nonempty_lists m -> match_all l m = Ok (r, f) ->
  Forall nonempty_lists r /\ length r = length l.
Proof.
  intros l H. induction H as [|x l Hx H IH]; intros [|y m] r f Hl Hm E; cbn [match_all] in E; try discriminate.
  - injection E as <- _. split; [constructor | reflexivity].
  - destruct (match_values x y) as [[z g]|] eqn:Ez; [|discriminate].
    destruct (match_all l m) as [[zs h]|] eqn:Es; [|discriminate]. injection E as <- _.
    inversion Hl; subst. inversion Hm; subst. destruct (IH m zs h H3 H5 Es) as [A B]. split.
    + constructor; [apply (Hx y H2 H4 z g Ez) | exact A].
    + cbn. congruence.
Qed.

Lemma keeps_all : forall a b, keeps a b.
Proof.
  apply (value_ind' (fun a => forall b, keeps a b)).
  - intros b Ha Hb c f E. destruct b; cbn in E; injection E as <- _; exact Hb.
  - intros a b Ha Hb c f E. cbn [match_values] in E. destruct (veq (Atom a) b); [injection E as <- _; exact Ha|].
    destruct b; try discriminate. injection E as <- _. exact Ha.
  - intros t l IH b Ha Hb c f E. destruct b as [|x|u m].
    + cbn in E. injection E as <- _. exact Ha.
    + cbn in E. discriminate.
    + rewrite match_seq in E. destruct (veq _ _); [injection E as <- _; exact Ha|].
      destruct (Bool.eqb t u); [|discriminate].
      destruct (match_all l m) as [[r g]|] eqn:Er; [|discriminate]. injection E as <- _.
      destruct (match_all_keeps l IH m r g (nonempty_all _ _ Ha) (nonempty_all _ _ Hb) Er) as [A B].
      destruct t; constructor; [exact A | | exact A].
      intros ->. destruct l; [inversion Ha; congruence | discriminate].
Qed.

(* Setting a value. *)
Lemma set_value_spec : forall v self, nonempty_lists v -> nonempty_lists self ->
  match set_value v self with
  | Ok (c, f) =>
      nonempty_lists c /\ below v c /\ below self c /\
      (forall d, below v d -> below self d -> below c d) /\ (f = false <-> below c self)
  | Err e => e = ValueError /\ forall d, below v d -> ~ below self d
  end.
Proof.
  intros v self Hv Hs. unfold set_value.
  destruct (match v with TBD => true | _ => false end) eqn:Et.
  - destruct v; try discriminate. cbn. split; [exact Hs|]. split; [exact I|]. split; [apply below_refl|].
    split; [auto|]. split; [intros _; apply below_refl | reflexivity].
  - cbn [orb]. destruct (veq self v) eqn:E.
    + apply veq_below in E. destruct E as [E1 E2]. split; [exact Hs|]. split; [exact E2|].
      split; [apply below_refl|]. split; [auto|]. split; [intros _; apply below_refl | reflexivity].
    + rewrite (proj2 (has_type_iff v) Hv). cbn [negb].
      pose proof (merge_spec v self) as M. unfold merged in M.
      destruct (match_values v self) as [[c f]|e] eqn:Ec; [|exact M].
      assert (Hc : nonempty_lists c) by (apply (keeps_all v self Hv Hs c f Ec)).
      rewrite (proj2 (has_type_iff c) Hc). split; [exact Hc | exact M].
Qed.

Lemma set_values_spec : forall vs self, Forall nonempty_lists vs -> nonempty_lists self ->
  match set_values vs self with
  | Ok c => least_above (self :: vs) c
  | Err e => e = ValueError /\ forall d, ~ (forall v, In v (self :: vs) -> below v d)
  end.
Proof.
  induction vs as [|v r IH]; intros self Hvs Hs; cbn [set_values].
  - split; [intros v [<-|[]]; apply below_refl|]. intros d H. apply H. left. reflexivity.
  - inversion Hvs; subst. pose proof (set_value_spec v self H1 Hs) as G.
    destruct (set_value v self) as [[w f]|e].
    + destruct G as [Hw [G1 [G2 [G3 _]]]]. specialize (IH w H2 Hw).
      destruct (set_values r w) as [c|e].
      * destruct IH as [A B]. split.
        -- intros x [<-|[<-|Hx]].
           ++ apply (below_trans _ w); [exact G2 | apply A; left; reflexivity].
           ++ apply (below_trans _ w); [exact G1 | apply A; left; reflexivity].
           ++ apply A. right. exact Hx.
        -- intros d Hd. apply B. intros x [<-|Hx].
           ++ apply G3; apply Hd; [right; left | left]; reflexivity.
           ++ apply Hd. right. right. exact Hx.
      * destruct IH as [-> B]. split; [reflexivity|]. intros d Hd. apply (B d). intros x [<-|Hx].
        -- apply G3; apply Hd; [right; left | left]; reflexivity.
        -- apply Hd. right. right. exact Hx.
    + destruct G as [-> G]. split; [reflexivity|]. intros d Hd.
      apply (G d); apply Hd; [right; left | left]; reflexivity.
Qed.

Lemma set_each_spec : forall vs args, Forall nonempty_lists vs -> Forall nonempty_lists args ->
  match set_each vs args with
  | Ok r =>
      Forall2 below vs r /\ Forall2 below args r /\
      (forall d, Forall2 below vs d -> Forall2 below args d -> Forall2 below r d)
  | Err e => e = ValueError /\ forall d, Forall2 below vs d -> ~ Forall2 below args d
  end.
Proof.
  induction vs as [|v vs IH]; intros [|a args] Hv Ha; cbn [set_each].
  - repeat split; try constructor. intros d H1 _. inversion H1. constructor.
  - split; [reflexivity|]. intros d H1 H2. inversion H1; subst. inversion H2.
  - split; [reflexivity|]. intros d H1 H2. inversion H2; subst. inversion H1.
  - inversion Hv; subst. inversion Ha; subst. pose proof (set_value_spec v a H1 H3) as G.
    destruct (set_value v a) as [[w f]|e].
    + destruct G as [_ [G1 [G2 [G3 _]]]]. specialize (IH args H2 H4). destruct (set_each vs args) as [r|e].
      * destruct IH as [B1 [B2 B3]]. repeat split; try (constructor; assumption).
        intros d D1 D2. inversion D1; subst. inversion D2; subst. constructor; auto.
      * destruct IH as [-> B]. split; [reflexivity|]. intros d D1 D2. inversion D1; subst. inversion D2; subst.
        apply (B l'); assumption.
    + destruct G as [-> G]. split; [reflexivity|]. intros d D1 D2. inversion D1; subst. inversion D2; subst.
      apply (G y); assumption.
Qed.

Lemma is_valued_iff : forall v, is_valued v = true <-> full v.
Proof.
  apply value_ind'.
  - split; [discriminate | intros H; inversion H].
  - intros a. split; [constructor | reflexivity].
  - intros t l IH.
    assert (G : forallb is_valued l = true <-> Forall full l).
    { clear t. induction IH as [|x r Hx H IHH]; cbn; [split; [constructor | reflexivity]|].
      rewrite andb_true_iff, Hx, IHH. split; [intros [A B]; constructor; assumption | intros A; inversion A; tauto]. }
    cbn [is_valued]. rewrite G. split; [intros H; constructor; exact H | intros H; inversion H; assumption].
Qed.

Lemma all_valued_iff : forall l, forallb is_valued l = true <-> Forall full l.
Proof.
  induction l as [|x r IH]; cbn; [split; [constructor | reflexivity]|].
  rewrite andb_true_iff, is_valued_iff, IH.
  split; [intros [A B]; constructor; assumption | intros A; inversion A; tauto].
Qed.
