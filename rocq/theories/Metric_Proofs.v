From Coq Require Import QArith List ZArith Bool Lia Lqa Permutation.
From Verif Require Import Metric_Model Metric_Spec.
Import ListNotations.

Lemma inject_S : forall n, inject_Z (Z.of_nat (S n)) == 1 + inject_Z (Z.of_nat n).
Proof. intros n. rewrite Nat2Z.inj_succ. unfold Z.succ. rewrite inject_Z_plus. ring. Qed.

Lemma total_number : forall f l, total f l == number (fun p t => f (p, t)) l.
Proof.
  intros f l. unfold total. induction l as [|[p t] r IH]; cbn [filter number length].
  - reflexivity.
  - destruct (f (p, t)); [cbn [length]; rewrite inject_S, IH; reflexivity | exact IH].
Qed.

Lemma number_ext : forall P R l, (forall p t, P p t = R p t) -> number P l == number R l.
Proof.
  intros P R l H. induction l as [|[p t] r IH]; cbn [number]; [reflexivity|].
  rewrite H. destruct (R p t); rewrite IH; reflexivity.
Qed.

Lemma number_split : forall P A B l,
  (forall p t, P p t = orb (A p t) (B p t) /\ andb (A p t) (B p t) = false) ->
  number P l == number A l + number B l.
Proof.
  intros P A B l H. induction l as [|[p t] r IH]; cbn [number]; [reflexivity|].
  destruct (H p t) as [H1 H2]. rewrite H1.
  destruct (A p t), (B p t); cbn in *; try discriminate; rewrite IH; ring.
Qed.

Lemma number_nonneg : forall P l, 0 <= number P l.
Proof.
  intros P l. induction l as [|[p t] r IH]; cbn [number]; [lra|].
  destruct (P p t); lra.
Qed.

Lemma number_le : forall P R l, (forall p t, P p t = true -> R p t = true) -> number P l <= number R l.
Proof.
  intros P R l H. induction l as [|[p t] r IH]; cbn [number]; [lra|].
  destruct (P p t) eqn:E; [rewrite (H _ _ E); lra | destruct (R p t); lra].
Qed.

Lemma hit_eq : forall p t, hit (p, t) = Z.eqb p t.
Proof.
  intros p t. unfold hit. cbn.
  destruct (Z.eqb_spec p t); destruct (Z.eqb_spec (p - t) 0); lia || reflexivity.
Qed.

Lemma total_hit : forall l, total hit l == correct l.
Proof. intros l. rewrite total_number. apply number_ext. apply hit_eq. Qed.

Lemma n_element_size : forall l, n_element l == size l.
Proof.
  intros l. unfold n_element, size. induction l as [|[p t] r IH]; [reflexivity|].
  cbn [length number]. rewrite inject_S, IH. reflexivity.
Qed.

Lemma hit_miss : forall l, total hit l + total (fun s => negb (hit s)) l == size l.
Proof.
  intros l. rewrite !total_number. symmetry. apply number_split.
  intros p t. destruct (hit (p, t)); split; reflexivity.
Qed.

Ltac beq := repeat match goal with |- context [Z.eqb ?a ?b] => destruct (Z.eqb_spec a b) end;
  cbn; try reflexivity; try lia; try (split; reflexivity).

Lemma tp_found : forall k l, true_positive k l == found k l.
Proof.
  intros k l. unfold true_positive. rewrite total_number. apply number_ext.
  intros p t. rewrite hit_eq. unfold in_class. cbn [snd]. beq.
Qed.

Lemma fp_predicted : forall k l, true_positive k l + false_positive k l == predicted k l.
Proof.
  intros k l. unfold true_positive, false_positive. rewrite !total_number. symmetry.
  apply number_split. intros p t. rewrite hit_eq. unfold in_class. cbn [fst snd]. beq.
Qed.

Lemma fn_actual : forall k l, true_positive k l + false_negative k l == actual k l.
Proof.
  intros k l. unfold true_positive, false_negative. rewrite !total_number. symmetry.
  apply number_split. intros p t. rewrite hit_eq. unfold in_class. cbn [fst snd]. beq.
Qed.

Lemma n_class_actual : forall k l, n_class k l == actual k l.
Proof. intros k l. unfold n_class. rewrite total_number. apply number_ext. reflexivity. Qed.

Lemma found_predicted : forall k l, found k l <= predicted k l.
Proof. intros k l. apply number_le. intros p t. beq. Qed.

Lemma found_actual : forall k l, found k l <= actual k l.
Proof. intros k l. apply number_le. intros p t. beq. Qed.

Lemma div_zero : forall a b, b == 0 -> a / b == 0.
Proof. intros a b H. rewrite H. unfold Qdiv, Qinv. cbn. ring. Qed.

Lemma guarded_div : forall a b, 0 <= a -> a <= b -> guarded a b == a / b.
Proof.
  intros a b H1 H2. unfold guarded. destruct (Qeq_bool b 0) eqn:E; [|reflexivity].
  apply Qeq_bool_iff in E. rewrite (div_zero a b E).
  assert (H : a == 0) by lra. rewrite H. reflexivity.
Qed.

Lemma guarded_comp : forall a b c d, a == b -> c == d -> guarded a c == guarded b d.
Proof.
  intros a b c d H1 H2. unfold guarded. rewrite H1.
  destruct (Qeq_bool c 0) eqn:E1, (Qeq_bool d 0) eqn:E2; try reflexivity.
  - apply Qeq_bool_iff in E1. rewrite H2 in E1. apply Qeq_bool_iff in E1. congruence.
  - apply Qeq_bool_iff in E2. rewrite <- H2 in E2. apply Qeq_bool_iff in E2. congruence.
  - rewrite H2. reflexivity.
Qed.

Definition wanted (m : metric) (l : list (Z * Z)) (k : Z) : Q :=
  match m with
  | Precision => precision k l
  | Recall => recall k l
  | F1 => f1 k l
  end.

Lemma of_class_wanted : forall m l k, of_class m l k == wanted m l k.
Proof.
  intros m l k.
  pose proof (tp_found k l) as E1. pose proof (fp_predicted k l) as E2. pose proof (fn_actual k l) as E3.
  pose proof (found_predicted k l) as L1. pose proof (found_actual k l) as L2.
  pose proof (number_nonneg (fun p t => andb (Z.eqb p k) (Z.eqb t k)) l) as L0. fold (found k l) in L0.
  destruct m; cbn [of_class wanted].
  - rewrite (guarded_comp _ _ _ _ E1 E2). apply guarded_div; assumption.
  - rewrite (guarded_comp _ _ _ _ E1 E3). apply guarded_div; assumption.
  - assert (E4 : true_positive k l + (1 # 2) * (false_positive k l + false_negative k l)
                 == (1 # 2) * (predicted k l + actual k l)) by (rewrite <- E2, <- E3; ring).
    rewrite (guarded_comp _ _ _ _ E1 E4). rewrite guarded_div by lra.
    unfold f1, precision, recall.
    destruct (Qeq_dec (found k l) 0) as [Z0|NZ].
    + rewrite Z0. unfold Qdiv. ring.
    + assert (0 < found k l) by (destruct (Qle_lt_or_eq _ _ L0) as [H|H]; [exact H | exfalso; apply NZ; symmetry; exact H]).
      field. repeat split; nra || (intro HH; nra).
Qed.

Lemma sum_ext : forall f g ks, (forall k, f k == g k) -> Metric_Spec.sum f ks == Metric_Spec.sum g ks.
Proof.
  intros f g ks H. induction ks as [|k r IH]; cbn; [reflexivity|]. rewrite (H k), IH. reflexivity.
Qed.

Lemma fold_left_sum : forall l a, fold_left Qplus l a == a + fold_right Qplus 0 l.
Proof.
  induction l as [|x r IH]; intros a; cbn; [ring|]. rewrite IH. ring.
Qed.

Lemma add_up_sum : forall f ks, add_up (map f ks) == Metric_Spec.sum f ks.
Proof.
  intros f ks. unfold add_up. destruct ks as [|k r]; [reflexivity|]. cbn [map].
  rewrite fold_left_sum. cbn [Metric_Spec.sum fold_right].
  assert (E : fold_right Qplus 0 (map f r) == Metric_Spec.sum f r).
  { induction r as [|k' r' IH]; cbn; [reflexivity|]. rewrite IH. reflexivity. }
  rewrite E. reflexivity.
Qed.

Lemma sum_perm : forall f a b, Permutation a b -> Metric_Spec.sum f a == Metric_Spec.sum f b.
Proof.
  intros f a b H. induction H; cbn.
  - reflexivity.
  - rewrite IHPermutation. reflexivity.
  - ring.
  - rewrite IHPermutation1. exact IHPermutation2.
Qed.

Lemma sum_filter : forall f g ks, (forall k, In k ks -> g k = false -> f k == 0) ->
  Metric_Spec.sum f ks == Metric_Spec.sum f (filter g ks).
Proof.
  intros f g ks H. induction ks as [|k r IH]; cbn [filter]; [reflexivity|].
  destruct (g k) eqn:E; cbn [Metric_Spec.sum fold_right].
  - rewrite IH by (intros k' Hk; apply H; right; exact Hk). reflexivity.
  - rewrite (H k (or_introl eq_refl) E), Qplus_0_l.
    apply IH. intros k' Hk; apply H; right; exact Hk.
Qed.

Lemma in_classes : forall n k, In k (classes n) <-> (0 <= k < Z.of_nat n)%Z.
Proof.
  intros n k. unfold classes. rewrite in_map_iff. split.
  - intros [i [E H]]. apply in_seq in H. lia.
  - intros H. exists (Z.to_nat k). split; [lia|]. apply in_seq. lia.
Qed.

Lemma NoDup_classes : forall n, NoDup (classes n).
Proof.
  intros n. unfold classes. apply FinFun.Injective_map_NoDup; [|apply seq_NoDup].
  intros a b H. lia.
Qed.

Lemma sum_classes : forall f n cs, NoDup cs ->
  (forall k, In k cs -> (0 <= k < Z.of_nat n)%Z) ->
  (forall k, ~ In k cs -> f k == 0) ->
  Metric_Spec.sum f (classes n) == Metric_Spec.sum f cs.
Proof.
  intros f n cs ND Hin H0.
  rewrite (sum_filter f (fun k => if in_dec Z.eq_dec k cs then true else false)).
  - apply sum_perm. apply NoDup_Permutation; [apply NoDup_filter, NoDup_classes | exact ND |].
    intros k. rewrite filter_In, in_classes. destruct (in_dec Z.eq_dec k cs) as [i|n0]; split.
    + intros _. exact i.
    + intros _. split; [apply Hin; exact i | reflexivity].
    + intros [_ H]. discriminate.
    + intros H. contradiction.
  - intros k _ H. destruct (in_dec Z.eq_dec k cs); [discriminate|]. apply H0. assumption.
Qed.

Lemma distinct_spec : forall l, NoDup (distinct l) /\ forall k, In k (distinct l) <-> In k l.
Proof.
  induction l as [|x r [ND IH]]; cbn [distinct].
  - split; [constructor|]. reflexivity.
  - destruct (existsb (Z.eqb x) r) eqn:E.
    + split; [exact ND|]. intros k. rewrite IH. cbn. split; [tauto|]. intros [H|H]; [|exact H].
      subst. apply existsb_exists in E. destruct E as [y [Hy Ey]]. apply Z.eqb_eq in Ey. subst. exact Hy.
    + split.
      * constructor; [|exact ND]. rewrite IH. intros H.
        assert (existsb (Z.eqb x) r = true) by (apply existsb_exists; exists x; split; [exact H | apply Z.eqb_refl]).
        congruence.
      * intros k. cbn. rewrite IH. reflexivity.
Qed.

Lemma actual_zero : forall k l, ~ In k (map snd l) -> actual k l == 0.
Proof.
  intros k l H. unfold actual. induction l as [|[p t] r IH]; cbn [number]; [reflexivity|].
  cbn in H. destruct (Z.eqb_spec t k) as [E|E]; [exfalso; apply H; left; exact E|].
  apply IH. tauto.
Qed.

Lemma wanted_zero : forall m k l, ~ In k (map snd l) -> wanted m l k == 0.
Proof.
  intros m k l H. pose proof (actual_zero k l H) as E. pose proof (found_actual k l) as L.
  pose proof (number_nonneg (fun p t => andb (Z.eqb p k) (Z.eqb t k)) l) as L0. fold (found k l) in L0.
  assert (F : found k l == 0) by lra.
  destruct m; cbn [wanted]; unfold f1, precision, recall; rewrite F; unfold Qdiv; ring.
Qed.

Lemma macro_wanted : forall m n l cs,
  (forall t, In t (map snd l) -> (0 <= t < Z.of_nat n)%Z) ->
  NoDup cs -> (forall k, In k cs <-> In k (map snd l)) ->
  macro m n l == Metric_Spec.sum (wanted m l) cs / inject_Z (Z.of_nat (length cs)).
Proof.
  intros m n l cs Hr ND Hc. unfold macro.
  destruct (distinct_spec (map snd l)) as [ND' Hd].
  assert (P : Permutation (distinct (map snd l)) cs).
  { apply NoDup_Permutation; [exact ND' | exact ND |]. intros k. rewrite Hd, Hc. reflexivity. }
  rewrite (Permutation_length P), add_up_sum, (sum_ext _ _ _ (of_class_wanted m l)).
  rewrite (sum_classes (wanted m l) n cs); [reflexivity | exact ND | |].
  - intros k Hk. apply Hr, Hc, Hk.
  - intros k Hk. apply wanted_zero. rewrite <- Hc. exact Hk.
Qed.

Lemma weighted_wanted : forall m n l cs,
  (forall t, In t (map snd l) -> (0 <= t < Z.of_nat n)%Z) ->
  NoDup cs -> (forall k, In k cs <-> In k (map snd l)) ->
  weighted m n l == Metric_Spec.sum (fun k => actual k l / size l * wanted m l k) cs.
Proof.
  intros m n l cs Hr ND Hc. unfold weighted. rewrite add_up_sum.
  rewrite (sum_ext _ (fun k => actual k l / size l * wanted m l k)).
  - apply sum_classes; [exact ND | intros k Hk; apply Hr, Hc, Hk |].
    intros k Hk. rewrite (wanted_zero m k l) by (rewrite <- Hc; exact Hk). ring.
  - intros k. rewrite of_class_wanted, n_class_actual, n_element_size. unfold Qdiv. ring.
Qed.

(* Sums of counts. *)
Lemma sum_cons : forall f k ks, Metric_Spec.sum f (k :: ks) = f k + Metric_Spec.sum f ks.
Proof. reflexivity. Qed.

Lemma sum_plus : forall f g ks,
  Metric_Spec.sum (fun k => f k + g k) ks == Metric_Spec.sum f ks + Metric_Spec.sum g ks.
Proof. intros f g ks. induction ks as [|k r IH]; [reflexivity|]. rewrite !sum_cons, IH. ring. Qed.

Lemma sum_zero : forall f ks, (forall k, In k ks -> f k == 0) -> Metric_Spec.sum f ks == 0.
Proof.
  intros f ks H. induction ks as [|k r IH]; [reflexivity|]. rewrite sum_cons.
  rewrite (H k (or_introl eq_refl)), IH; [ring|]. intros k' Hk. apply H. right. exact Hk.
Qed.

Lemma sum_single : forall x ks, NoDup ks -> In x ks ->
  Metric_Spec.sum (fun k => if Z.eqb x k then 1 else 0) ks == 1.
Proof.
  intros x ks ND H. induction ND as [|k r Hk ND IH]; [destruct H|]. rewrite sum_cons.
  destruct (Z.eqb_spec x k) as [E|E].
  - subst. rewrite sum_zero; [ring|]. intros k' Hk'. destruct (Z.eqb_spec k k'); [subst; contradiction | reflexivity].
  - destruct H as [H|H]; [congruence|]. rewrite IH by exact H. ring.
Qed.

Lemma sum_found : forall l cs, NoDup cs -> (forall t, In t (map snd l) -> In t cs) ->
  Metric_Spec.sum (fun k => found k l) cs == correct l.
Proof.
  intros l cs ND. unfold found, correct. induction l as [|[p t] r IH]; intros H; cbn [number].
  - apply sum_zero. reflexivity.
  - rewrite (sum_ext _ (fun k => (if Z.eqb p t then (if Z.eqb t k then 1 else 0) else 0)
                               + number (fun p0 t0 => andb (Z.eqb p0 k) (Z.eqb t0 k)) r)).
    + rewrite sum_plus, IH by (intros t' Ht; apply H; right; exact Ht).
      destruct (Z.eqb p t).
      * rewrite sum_single; [ring | exact ND | apply H; left; reflexivity].
      * rewrite sum_zero by reflexivity. ring.
    + intros k. destruct (Z.eqb_spec p k), (Z.eqb_spec t k), (Z.eqb_spec p t); cbn [andb]; try lia; ring.
Qed.

Lemma sum_actual : forall l cs, NoDup cs -> (forall t, In t (map snd l) -> In t cs) ->
  Metric_Spec.sum (fun k => actual k l) cs == size l.
Proof.
  intros l cs ND. unfold actual, size. induction l as [|[p t] r IH]; intros H; cbn [number].
  - apply sum_zero. reflexivity.
  - rewrite (sum_ext _ (fun k => (if Z.eqb t k then 1 else 0) + number (fun _ t0 => Z.eqb t0 k) r)).
    + rewrite sum_plus, IH by (intros t' Ht; apply H; right; exact Ht).
      rewrite sum_single; [ring | exact ND | apply H; left; reflexivity].
    + intros k. destruct (Z.eqb_spec t k); ring.
Qed.

Lemma sum_predicted : forall l cs, NoDup cs -> (forall t, In t (map fst l) -> In t cs) ->
  Metric_Spec.sum (fun k => predicted k l) cs == size l.
Proof.
  intros l cs ND. unfold predicted, size. induction l as [|[p t] r IH]; intros H; cbn [number].
  - apply sum_zero. reflexivity.
  - rewrite (sum_ext _ (fun k => (if Z.eqb p k then 1 else 0) + number (fun p0 _ => Z.eqb p0 k) r)).
    + rewrite sum_plus, IH by (intros t' Ht; apply H; right; exact Ht).
      rewrite sum_single; [ring | exact ND | apply H; left; reflexivity].
    + intros k. destruct (Z.eqb_spec p k); ring.
Qed.

Lemma actual_recall : forall k l, actual k l * recall k l == found k l.
Proof.
  intros k l. unfold recall. destruct (Qeq_dec (actual k l) 0) as [E|E].
  - pose proof (found_actual k l) as L.
    pose proof (number_nonneg (fun p t => andb (Z.eqb p k) (Z.eqb t k)) l) as L0. fold (found k l) in L0.
    assert (F : found k l == 0) by lra. rewrite F, E. unfold Qdiv. ring.
  - field. exact E.
Qed.

Lemma sum_scale : forall c f ks, Metric_Spec.sum (fun k => c * f k) ks == c * Metric_Spec.sum f ks.
Proof. intros c f ks. induction ks as [|k r IH]; [cbn; ring|]. rewrite !sum_cons, IH. ring. Qed.

Lemma weighted_recall_accuracy : forall n l,
  (forall t, In t (map snd l) -> (0 <= t < Z.of_nat n)%Z) ->
  weighted Recall n l == correct l / size l.
Proof.
  intros n l Hr. destruct (distinct_spec (map snd l)) as [ND Hd].
  rewrite (weighted_wanted Recall n l (distinct (map snd l)) Hr ND Hd). cbn [wanted].
  rewrite (sum_ext _ (fun k => / size l * found k l)).
  - rewrite sum_scale, sum_found; [unfold Qdiv; ring | exact ND | intros t Ht; apply Hd; exact Ht].
  - intros k. rewrite <- (actual_recall k l). unfold Qdiv. ring.
Qed.

(* The first position of the highest entry. *)
Lemma argmax_from_spec : forall l pre best at_,
  nth_error pre at_ = Some best ->
  (forall j x, nth_error pre j = Some x -> x <= best) ->
  (forall j x, (j < at_)%nat -> nth_error pre j = Some x -> x < best) ->
  exists v, nth_error (pre ++ l) (argmax_from best at_ (length pre) l) = Some v /\
    (forall j x, nth_error (pre ++ l) j = Some x -> x <= v) /\
    (forall j x, (j < argmax_from best at_ (length pre) l)%nat -> nth_error (pre ++ l) j = Some x -> x < v).
Proof.
  induction l as [|y r IH]; intros pre best at_ H1 H2 H3; cbn [argmax_from].
  - exists best. rewrite app_nil_r. auto.
  - assert (HL : length (pre ++ [y]) = S (length pre)) by (rewrite app_length; cbn; lia).
    assert (HA : pre ++ y :: r = (pre ++ [y]) ++ r) by (rewrite <- app_assoc; reflexivity).
    assert (Hat : (at_ < length pre)%nat) by (apply nth_error_Some; rewrite H1; discriminate).
    assert (Hcase : forall j x, nth_error (pre ++ [y]) j = Some x ->
              nth_error pre j = Some x \/ (j = length pre /\ x = y)).
    { intros j x Hj. destruct (Nat.lt_ge_cases j (length pre)) as [Lt|Ge].
      - rewrite nth_error_app1 in Hj by exact Lt. left. exact Hj.
      - rewrite nth_error_app2 in Hj by exact Ge. right.
        destruct (j - length pre)%nat as [|d] eqn:Ed; cbn in Hj;
          [injection Hj as <-; split; [lia | reflexivity] | destruct d; discriminate]. }
    destruct (Qle_bool y best) eqn:E; rewrite HA, <- HL; apply IH.
    + rewrite nth_error_app1; assumption.
    + intros j x Hj. destruct (Hcase j x Hj) as [Hj'|[_ ->]]; [apply (H2 j x Hj') | apply Qle_bool_iff, E].
    + intros j x Lt Hj. destruct (Hcase j x Hj) as [Hj'|[-> _]]; [apply (H3 j x Lt Hj') | lia].
    + rewrite nth_error_app2 by lia. rewrite Nat.sub_diag. reflexivity.
    + assert (Hlt : best < y) by (apply Qnot_le_lt; intro HH; apply Qle_bool_iff in HH; congruence).
      intros j x Hj. destruct (Hcase j x Hj) as [Hj'|[_ ->]]; [specialize (H2 j x Hj'); lra | lra].
    + assert (Hlt : best < y) by (apply Qnot_le_lt; intro HH; apply Qle_bool_iff in HH; congruence).
      intros j x Lt Hj. destruct (Hcase j x Hj) as [Hj'|[-> _]]; [specialize (H2 j x Hj'); lra | lia].
Qed.

Lemma argmax_spec : forall l, l <> [] ->
  exists i v, argmax l = Z.of_nat i /\ nth_error l i = Some v /\
    (forall j x, nth_error l j = Some x -> x <= v) /\
    (forall j x, (j < i)%nat -> nth_error l j = Some x -> x < v).
Proof.
  intros [|x r] H; [congruence|]. cbn [argmax].
  destruct (argmax_from_spec r [x] x 0) as [v Hv].
  - reflexivity.
  - intros [|[|j]] y Hj; cbn in Hj; try discriminate. injection Hj as <-. lra.
  - intros j y Lt. lia.
  - exists (argmax_from x 0 1 r), v. split; [reflexivity | exact Hv].
Qed.
