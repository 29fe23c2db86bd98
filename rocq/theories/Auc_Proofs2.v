(* Proofs about the area under the ROC curve: samples, pairs and classes. *)

From Coq Require Import QArith List ZArith Bool Lia Lqa Sorted Permutation.
From Verif Require Import Auc_Model Auc_Spec Auc_Proofs.
Import ListNotations.

Local Open Scope Z_scope.

Lemma hot_cut : forall b t x, (b = Numpy -> (t <= 1)%Q) ->
  forall l, cut b t (x :: l) = hd 0%Q (cut b t [x]) :: cut b t l
    /\ Qeq_bool (hd 0%Q (cut b t [x])) 1 = Qle_bool t x.
Proof.
  intros b t x Hb l. destruct b; cbn [cut cut_numpy cut_where map hd]; split; try reflexivity.
  - specialize (Hb eq_refl). destruct (Qle_bool t x) eqn:E.
    + apply qle_true in Hb. rewrite Hb. reflexivity.
    + rewrite E. reflexivity.
  - destruct (Qle_bool t x); reflexivity.
  - destruct (Qle_bool t x); reflexivity.
Qed.

Lemma scores_cons : forall c s b l,
  scores_of c ((s, b) :: l) = if eqb b c then s :: scores_of c l else scores_of c l.
Proof.
  intros c s b l. unfold scores_of. cbn [filter snd]. destruct (eqb b c); reflexivity.
Qed.

Lemma tp_count : forall b t l, (b = Numpy -> (t <= 1)%Q) ->
  true_positives (cut b t (map fst l)) (map snd l) = reach t (scores_of true l).
Proof.
  intros b t l Hb. unfold true_positives. induction l as [| [s c] r IH].
  - destruct b; reflexivity.
  - cbn [map fst snd]. destruct (hot_cut b t s Hb (map fst r)) as [-> H2].
    cbn [combine]. rewrite count_cons, IH, scores_cons. cbn [fst snd]. rewrite H2.
    destruct c; cbn [eqb].
    + unfold reach at 2. rewrite count_cons, andb_true_r. reflexivity.
    + rewrite andb_false_r. lia.
Qed.

Lemma fp_count : forall b t l, (b = Numpy -> (t <= 1)%Q) ->
  false_positives (cut b t (map fst l)) (map snd l) = reach t (scores_of false l).
Proof.
  intros b t l Hb. unfold false_positives. induction l as [| [s c] r IH].
  - destruct b; reflexivity.
  - cbn [map fst snd]. destruct (hot_cut b t s Hb (map fst r)) as [-> H2].
    cbn [combine]. rewrite count_cons, IH, scores_cons. cbn [fst snd]. rewrite H2.
    destruct c; cbn [eqb negb].
    + rewrite andb_false_r. lia.
    + unfold reach at 2. rewrite count_cons, andb_true_r. reflexivity.
Qed.

Lemma npos_count : forall l,
  n_positive (map snd l) = Z.of_nat (length (scores_of true l)).
Proof.
  intros l. unfold n_positive. induction l as [| [s c] r IH]; [reflexivity |].
  cbn [map snd]. rewrite count_cons, IH, scores_cons.
  destruct c; cbn [eqb length]; lia.
Qed.

Lemma nneg_count : forall l,
  n_negative (map snd l) = Z.of_nat (length (scores_of false l)).
Proof.
  intros l. unfold n_negative. rewrite npos_count.
  induction l as [| [s c] r IH]; [reflexivity |].
  cbn [map snd]. rewrite !scores_cons. destruct c; cbn [eqb length]; lia.
Qed.

(* --------------------------------------------------------------- *)
(* Pairs *)

Lemma count_app : forall (A : Type) (p : A -> bool) l l',
  count p (l ++ l') = count p l + count p l'.
Proof. intros. unfold count. rewrite filter_app, app_length. lia. Qed.

Lemma count_map : forall (A B : Type) (f : A -> B) (p : B -> bool) l,
  count p (map f l) = count (fun x => p (f x)) l.
Proof.
  intros A B f p l. induction l as [| x r IH]; [reflexivity |].
  cbn [map]. rewrite !count_cons, IH. reflexivity.
Qed.

Lemma count_ext : forall (A : Type) (p p' : A -> bool) l,
  (forall x, In x l -> p x = p' x) -> count p l = count p' l.
Proof.
  intros A p p' l H. induction l as [| x r IH]; [reflexivity |].
  rewrite !count_cons, (H x (or_introl eq_refl)), IH; [reflexivity |].
  intros y Hy. apply H. right. exact Hy.
Qed.

Lemma count_prod : forall (f : Q * Q -> bool) A B,
  count f (list_prod A B)
    = fold_right Z.add 0 (map (fun b => count (fun a => f (a, b)) A) B).
Proof.
  intros f A B. induction A as [| a r IH].
  - cbn [list_prod]. induction B as [| b B IHB]; [reflexivity |].
    cbn [map fold_right]. unfold count in *. cbn [filter length Z.of_nat] in *. lia.
  - cbn [list_prod]. rewrite count_app, count_map, IH. clear IH.
    induction B as [| b B IHB]; [reflexivity |].
    cbn [map fold_right]. rewrite !count_cons. lia.
Qed.

Lemma count_product : forall (f g : Q -> bool) A B,
  count (fun p => f (fst p) && g (snd p)) (list_prod A B) = count f A * count g B.
Proof.
  intros f g A B. induction A as [| a r IH]; [reflexivity |].
  cbn [list_prod]. rewrite count_app, count_map, IH, count_cons. cbn [fst snd].
  assert (E : count (fun x => f a && g x) B = (if f a then 1 else 0) * count g B).
  { destruct (f a); cbn [andb].
    - rewrite Z.mul_1_l. apply count_ext. reflexivity.
    - clear. induction B as [| b B IH]; [reflexivity |]. rewrite count_cons, IH. lia. }
  rewrite E. lia.
Qed.

Lemma weights : forall l,
  fold_right Z.add 0 (map (weight (scores_of true l)) (scores_of false l))
    = 2 * Z.of_nat (wins l) + Z.of_nat (draws l).
Proof.
  intros l. unfold wins, draws, pairs.
  change (Z.of_nat (length (filter (fun p : Q * Q => negb (Qle_bool (fst p) (snd p)))
            (list_prod (scores_of true l) (scores_of false l)))))
    with (count (fun p : Q * Q => negb (Qle_bool (fst p) (snd p)))
            (list_prod (scores_of true l) (scores_of false l))).
  change (Z.of_nat (length (filter (fun p : Q * Q => Qeq_bool (fst p) (snd p))
            (list_prod (scores_of true l) (scores_of false l)))))
    with (count (fun p : Q * Q => Qeq_bool (fst p) (snd p))
            (list_prod (scores_of true l) (scores_of false l))).
  rewrite !count_prod. cbn [fst snd].
  induction (scores_of false l) as [| n r IH]; [reflexivity |].
  cbn [map fold_right]. unfold weight at 1. lia.
Qed.

Lemma scores_in : forall c l s, In s (scores_of c l) <-> In (s, c) l.
Proof.
  intros c l s. unfold scores_of. rewrite in_map_iff. split.
  - intros [[s' c'] [E H]]. apply filter_In in H. destruct H as [H E'].
    cbn in E, E'. subst s'. apply eqb_prop in E'. subst c'. exact H.
  - intros H. exists (s, c). split; [reflexivity |]. apply filter_In.
    split; [exact H |]. cbn. apply eqb_reflx.
Qed.

(* The highest score. *)
Definition top (l : list (Q * bool)) (t : Q) : Prop :=
  In t (map fst l) /\ forall s, In s (map fst l) -> (s <= t)%Q.

Lemma top_count : forall l t, top l t ->
  Z.of_nat (top_pairs l) = reach t (scores_of true l) * reach t (scores_of false l).
Proof.
  intros l t [Ht H]. unfold top_pairs, pairs, reach.
  assert (E : forall x, forallb (fun s : Q * bool => Qle_bool (fst s) x) l = Qle_bool t x).
  { intros x. destruct (Qle_bool t x) eqn:E.
    - apply qle_true in E. apply forallb_forall. intros s Hs. apply qle_true.
      assert (L := H (fst s) (in_map fst _ _ Hs)). lra.
    - apply qle_false in E. apply in_map_iff in Ht. destruct Ht as [s [Es Hs]].
      destruct (forallb (fun s : Q * bool => Qle_bool (fst s) x) l) eqn:F; [| reflexivity].
      rewrite forallb_forall in F. specialize (F s Hs). apply qle_true in F.
      rewrite Es in F. lra. }
  rewrite <- (count_product (Qle_bool t) (Qle_bool t)). unfold count. f_equal. f_equal.
  apply filter_ext. intros [x y]. cbn [fst snd]. rewrite !E. reflexivity.
Qed.

Lemma pairs_length : forall l,
  Z.of_nat (length (pairs l))
    = Z.of_nat (length (scores_of true l)) * Z.of_nat (length (scores_of false l)).
Proof. intros l. unfold pairs. rewrite prod_length. lia. Qed.

Lemma both_lengths : forall l, both l ->
  Z.of_nat (length (scores_of true l)) <> 0 /\ Z.of_nat (length (scores_of false l)) <> 0.
Proof.
  intros l [[s H] [s' H']]. apply scores_in in H. apply scores_in in H'.
  destruct (scores_of true l); [destruct H |].
  destruct (scores_of false l); [destruct H' |]. cbn [length]. lia.
Qed.

Lemma both_pairs : forall l, both l -> ~ (q (length (pairs l)) == 0)%Q.
Proof.
  intros l H. apply both_lengths in H. unfold q. rewrite pairs_length.
  unfold Qeq. cbn. nia.
Qed.

(* The head of the thresholds is the highest score. *)
Lemma thresholds_top : forall b (l : list (Q * bool)), l <> [] ->
  exists t ts, thresholds b (map fst l) = t :: ts /\ top l t.
Proof.
  intros b l Hl.
  assert (S := thresholds_sorted b (map fst l)).
  assert (I := thresholds_in b (map fst l)).
  assert (C := thresholds_cover b (map fst l)).
  destruct (thresholds b (map fst l)) as [| t ts].
  - destruct l as [| s r]; [congruence |].
    destruct (C (fst s) (or_introl eq_refl)) as [u [[] _]].
  - exists t, ts. split; [reflexivity |]. split; [apply I; left; reflexivity |].
    intros s Hs. destruct (C s Hs) as [u [[<- | Hu] Eu]]; [lra |].
    apply StronglySorted_inv in S. destruct S as [_ F]. rewrite Forall_forall in F.
    specialize (F u Hu). cbv beta in F. lra.
Qed.

Lemma core_counts : forall b l,
  (b = Numpy -> forall s, In s (map fst l) -> (s <= 1)%Q) ->
  auc_of b (map fst l) (map snd l)
    = trapezoid
        (map (fun u => rate (reach u (scores_of true l)) (Z.of_nat (length (scores_of true l))))
             (thresholds b (map fst l)))
        (map (fun u => rate (reach u (scores_of false l)) (Z.of_nat (length (scores_of false l))))
             (thresholds b (map fst l))).
Proof.
  intros b l Hb. unfold auc_of, auc_core. cbn [fst snd].
  rewrite npos_count, nneg_count. f_equal; apply map_ext_in; intros t Ht; f_equal.
  - apply tp_count. intros E. apply (Hb E). apply (thresholds_in b). exact Ht.
  - apply fp_count. intros E. apply (Hb E). apply (thresholds_in b). exact Ht.
Qed.

Lemma area_ok : forall b l, both l ->
  (b = Numpy -> forall s, In s (map fst l) -> (s <= 1)%Q) ->
  is_number (auc_of b (map fst l) (map snd l))
    (statistic l - q (top_pairs l) / (2 * q (length (pairs l))))%Q.
Proof.
  intros b l HB Hb. rewrite (core_counts b l Hb).
  destruct (both_lengths l HB) as [HP HN].
  destruct (trapezoid_counts (fun u => reach u (scores_of true l))
              (fun u => reach u (scores_of false l)) _ _ (thresholds b (map fst l)) HP HN)
    as [x [E V]].
  exists x. split; [exact E |].
  assert (Hl : l <> []) by (destruct HB as [[s H] _]; intros ->; exact H).
  destruct (thresholds_top b l Hl) as [t [ts [ET HT]]].
  assert (S := thresholds_sorted b (map fst l)). rewrite ET in S, V.
  assert (HI : forall s, In s (scores_of true l) \/ In s (scores_of false l) -> In s (map fst l)).
  { intros s [H | H]; apply scores_in in H; apply (in_map fst) in H; exact H. }
  rewrite zarea_upto in V; [| exact S |].
  2:{ intros s Hs. apply HI in Hs.
      destruct (thresholds_cover b _ _ Hs) as [u [Hu Eu]]. rewrite ET in Hu.
      destruct Hu as [<- | Hu]; [left; lra | right; exists u; split; [exact Hu | exact Eu]]. }
  rewrite upto_all in V.
  2:{ intros s Hs. assert (Hs' := HI s (or_intror Hs)).
      destruct (thresholds_cover b _ _ Hs') as [u [Hu Eu]]. rewrite ET in Hu.
      assert (L := sorted_last ts t u S Hu). lra. }
  rewrite upto_top in V by (intros s Hs; apply (proj2 HT); apply HI; exact Hs).
  rewrite <- (top_count l t HT), weights in V.
  unfold Zminus in V. rewrite !inject_Z_plus, inject_Z_mult, inject_Z_opp in V.
  unfold statistic.
  assert (EP : (q (length (pairs l))
            == inject_Z (Z.of_nat (length (scores_of true l)))
               * inject_Z (Z.of_nat (length (scores_of false l))))%Q).
  { unfold q. rewrite pairs_length, inject_Z_mult. reflexivity. }
  assert (HPq : ~ (inject_Z (Z.of_nat (length (scores_of true l))) == 0)%Q)
    by (unfold Qeq; cbn; lia).
  assert (HNq : ~ (inject_Z (Z.of_nat (length (scores_of false l))) == 0)%Q)
    by (unfold Qeq; cbn; lia).
  rewrite EP. unfold q.
  set (Pq := inject_Z (Z.of_nat (length (scores_of true l)))) in *.
  set (Nq := inject_Z (Z.of_nat (length (scores_of false l)))) in *.
  set (w := inject_Z (Z.of_nat (wins l))) in *.
  set (d := inject_Z (Z.of_nat (draws l))) in *.
  set (m := inject_Z (Z.of_nat (top_pairs l))) in *.
  assert (Hx : (x == (2 * w + d + - m) / (2 * Pq * Nq))%Q).
  { change (inject_Z 2) with 2%Q in V. rewrite <- V. field. split; assumption. }
  rewrite Hx. field. split; assumption.
Qed.

(* --------------------------------------------------------------- *)
(* When the area is the statistic *)

Lemma top_pairs_none : forall l,
  top_pairs l = 0%nat <->
  ~ exists s s', In (s, true) l /\ In (s', false) l
                 /\ forall p, In p l -> (fst p <= s)%Q /\ (fst p <= s')%Q.
Proof.
  intros l. unfold top_pairs, pairs. split.
  - intros E [s [s' [H [H' A]]]]. apply length_zero_iff_nil in E.
    assert (I : In (s, s') (@nil (Q * Q))); [| exact I].
    rewrite <- E. apply filter_In. split.
    + apply in_prod; apply scores_in; assumption.
    + cbn [fst snd]. apply andb_true_iff. split; apply forallb_forall; intros p Hp;
        apply qle_true; apply (A p Hp).
  - intros H. apply length_zero_iff_nil.
    destruct (filter _ _) as [| [s s'] r] eqn:E; [reflexivity | exfalso; apply H].
    assert (I : In (s, s') ((s, s') :: r)) by (left; reflexivity).
    rewrite <- E in I. apply filter_In in I. destruct I as [I F].
    apply in_prod_iff in I. destruct I as [I1 I2].
    apply scores_in in I1. apply scores_in in I2.
    cbn [fst snd] in F. apply andb_true_iff in F. destruct F as [F1 F2].
    rewrite forallb_forall in F1, F2.
    exists s, s'. repeat split; try assumption; apply qle_true; auto.
Qed.

Lemma q_zero : forall n, (q n == 0)%Q <-> n = 0%nat.
Proof. intros n. unfold q, Qeq. cbn. lia. Qed.

Lemma is_number_unique : forall a v w, is_number a v -> is_number a w -> (v == w)%Q.
Proof.
  intros a v w [x [E V]] [y [F W]]. rewrite E in F. injection F as <-. lra.
Qed.

Lemma is_number_eq : forall a v w, (v == w)%Q -> is_number a v -> is_number a w.
Proof. intros a v w E [x [F V]]. exists x. split; [exact F | lra]. Qed.

Lemma exact_ok : forall b l, both l ->
  (b = Numpy -> forall s, In s (map fst l) -> (s <= 1)%Q) ->
  (is_number (auc_of b (map fst l) (map snd l)) (statistic l)
   <-> ~ exists s s', In (s, true) l /\ In (s', false) l
                 /\ forall p, In p l -> (fst p <= s)%Q /\ (fst p <= s')%Q).
Proof.
  intros b l HB Hb. rewrite <- top_pairs_none.
  assert (A := area_ok b l HB Hb). assert (HP := both_pairs l HB).
  split.
  - intros N. assert (E := is_number_unique _ _ _ A N).
    apply q_zero.
    assert (D : (q (top_pairs l) / (2 * q (length (pairs l))) == 0)%Q) by lra.
    assert (Z : (q (top_pairs l) == (q (top_pairs l) / (2 * q (length (pairs l))))
                 * (2 * q (length (pairs l))))%Q) by (field; exact HP).
    rewrite Z, D. ring.
  - intros E. eapply is_number_eq; [| exact A]. rewrite E.
    change (q 0) with 0%Q. field. exact HP.
Qed.

(* --------------------------------------------------------------- *)
(* Only the order of the scores counts *)

Definition rescale (f : Q -> Q) (l : list (Q * bool)) : list (Q * bool) :=
  map (fun s => (f (fst s), snd s)) l.

Definition increasing (f : Q -> Q) : Prop :=
  (forall x y, (x == y)%Q -> (f x == f y)%Q) /\ (forall x y, (x < y)%Q -> (f x < f y)%Q).

Lemma inc_le : forall f x y, increasing f -> Qle_bool (f x) (f y) = Qle_bool x y.
Proof.
  intros f x y [HE HL]. destruct (Qle_bool x y) eqn:E.
  - apply qle_true in E. apply qle_true. destruct (Qlt_le_dec x y) as [L | L].
    + specialize (HL x y L). lra.
    + assert (EE : (x == y)%Q) by lra. specialize (HE x y EE). lra.
  - apply qle_false in E. apply qle_false. exact (HL y x E).
Qed.

Lemma inc_eq : forall f x y, increasing f -> Qeq_bool (f x) (f y) = Qeq_bool x y.
Proof.
  intros f x y H. assert (A := inc_le f x y H). assert (B := inc_le f y x H).
  destruct (Qeq_bool x y) eqn:E.
  - apply qeq_true in E. apply qeq_true. destruct H as [HE _]. exact (HE x y E).
  - apply qeq_false in E. apply qeq_false. intros F. apply E.
    assert (L1 : Qle_bool (f x) (f y) = true) by (apply qle_true; lra).
    assert (L2 : Qle_bool (f y) (f x) = true) by (apply qle_true; lra).
    rewrite A in L1. rewrite B in L2. apply qle_true in L1. apply qle_true in L2. lra.
Qed.

Lemma rescale_scores : forall f c l, scores_of c (rescale f l) = map f (scores_of c l).
Proof.
  intros f c l. induction l as [| [s d] r IH]; [reflexivity |].
  cbn [rescale map fst snd]. rewrite !scores_cons. fold (rescale f r). rewrite IH.
  destruct (eqb d c); reflexivity.
Qed.

Lemma map_prod : forall (f : Q -> Q) A B,
  list_prod (map f A) (map f B) = map (fun p => (f (fst p), f (snd p))) (list_prod A B).
Proof.
  intros f A B. induction A as [| a r IH]; [reflexivity |].
  cbn [map list_prod]. rewrite map_app, IH, !map_map. reflexivity.
Qed.

Lemma filter_map_length : forall (A B : Type) (g : A -> B) (p : B -> bool) (p' : A -> bool) l,
  (forall x, p (g x) = p' x) -> length (filter p (map g l)) = length (filter p' l).
Proof.
  intros A B g p p' l H. induction l as [| x r IH]; [reflexivity |].
  cbn [map filter]. rewrite H. destruct (p' x); cbn [length]; rewrite IH; reflexivity.
Qed.

Lemma rescale_pairs : forall f l,
  pairs (rescale f l) = map (fun p => (f (fst p), f (snd p))) (pairs l).
Proof. intros f l. unfold pairs. rewrite !rescale_scores. apply map_prod. Qed.

Lemma forallb_rescale : forall f x l, increasing f ->
  forallb (fun s : Q * bool => Qle_bool (fst s) (f x)) (rescale f l)
    = forallb (fun s : Q * bool => Qle_bool (fst s) x) l.
Proof.
  intros f x l H. induction l as [| s r IH]; [reflexivity |].
  cbn [rescale map forallb fst]. fold (rescale f r). rewrite IH, (inc_le f _ _ H). reflexivity.
Qed.

Lemma rank_ok : forall f b l v, increasing f -> b <> Numpy -> both l ->
  is_number (auc_of b (map fst l) (map snd l)) v ->
  is_number (auc_of b (map f (map fst l)) (map snd l)) v.
Proof.
  intros f b l v Hf Hb HB N.
  assert (A := area_ok b l HB (fun E => False_ind _ (Hb E))).
  assert (HB' : both (rescale f l)).
  { destruct HB as [[s H] [s' H']]. split.
    - exists (f s). apply (in_map (fun s => (f (fst s), snd s))) in H. exact H.
    - exists (f s'). apply (in_map (fun s => (f (fst s), snd s))) in H'. exact H'. }
  assert (A' := area_ok b (rescale f l) HB' (fun E => False_ind _ (Hb E))).
  assert (E1 : map fst (rescale f l) = map f (map fst l)).
  { unfold rescale. rewrite !map_map. reflexivity. }
  assert (E2 : map snd (rescale f l) = map snd l).
  { unfold rescale. rewrite !map_map. reflexivity. }
  rewrite E1, E2 in A'. eapply is_number_eq; [| exact A'].
  rewrite <- (is_number_unique _ _ _ A N).
  assert (EP : length (pairs (rescale f l)) = length (pairs l)).
  { rewrite rescale_pairs, map_length. reflexivity. }
  assert (EW : wins (rescale f l) = wins l).
  { unfold wins. rewrite rescale_pairs. apply filter_map_length.
    intros p. cbn [fst snd]. rewrite (inc_le f _ _ Hf). reflexivity. }
  assert (ED : draws (rescale f l) = draws l).
  { unfold draws. rewrite rescale_pairs. apply filter_map_length.
    intros p. cbn [fst snd]. apply inc_eq. exact Hf. }
  assert (ET : top_pairs (rescale f l) = top_pairs l).
  { unfold top_pairs. rewrite rescale_pairs. apply filter_map_length.
    intros p. cbn [fst snd]. rewrite !(forallb_rescale f _ _ Hf). reflexivity. }
  unfold statistic. rewrite EP, EW, ED, ET. reflexivity.
Qed.

(* --------------------------------------------------------------- *)
(* The order of the samples does not count *)

Lemma filter_perm : forall (A : Type) (p : A -> bool) l l',
  Permutation l l' -> Permutation (filter p l) (filter p l').
Proof.
  intros A p l l' H. induction H; cbn [filter].
  - constructor.
  - destruct (p x); [constructor |]; assumption.
  - destruct (p x), (p y); try constructor; apply Permutation_refl.
  - eapply Permutation_trans; eassumption.
Qed.

Lemma scores_perm : forall c l l',
  Permutation l l' -> Permutation (scores_of c l) (scores_of c l').
Proof. intros c l l' H. unfold scores_of. apply Permutation_map, filter_perm, H. Qed.

Lemma prod_perm : forall (A A' B B' : list Q),
  Permutation A A' -> Permutation B B' -> Permutation (list_prod A B) (list_prod A' B').
Proof.
  intros A A' B B' HA HB. apply (Permutation_trans (l' := list_prod A' B)).
  - induction HA; cbn [list_prod].
    + constructor.
    + apply Permutation_app_head. exact IHHA.
    + rewrite !app_assoc. apply Permutation_app_tail, Permutation_app_comm.
    + eapply Permutation_trans; eassumption.
  - clear HA. induction A' as [| a r IH]; [constructor |].
    cbn [list_prod]. apply Permutation_app; [apply Permutation_map; exact HB | exact IH].
Qed.

Lemma pairs_perm : forall l l', Permutation l l' -> Permutation (pairs l) (pairs l').
Proof. intros l l' H. unfold pairs. apply prod_perm; apply scores_perm; exact H. Qed.

Lemma forallb_perm : forall (p : Q * bool -> bool) l l',
  Permutation l l' -> forallb p l = forallb p l'.
Proof.
  intros p l l' H. induction H; cbn [forallb]; try congruence.
  rewrite !andb_assoc, (andb_comm (p y)). reflexivity.
Qed.

Lemma order_ok : forall b l l' v, Permutation l l' -> both l ->
  (b = Numpy -> forall s, In s (map fst l) -> (s <= 1)%Q) ->
  is_number (auc_of b (map fst l) (map snd l)) v ->
  is_number (auc_of b (map fst l') (map snd l')) v.
Proof.
  intros b l l' v P HB Hb N.
  assert (A := area_ok b l HB Hb).
  assert (HB' : both l').
  { destruct HB as [[s H] [s' H']]. split.
    - exists s. exact (Permutation_in _ P H).
    - exists s'. exact (Permutation_in _ P H'). }
  assert (Hb' : b = Numpy -> forall s, In s (map fst l') -> (s <= 1)%Q).
  { intros E s Hs. apply (Hb E).
    exact (Permutation_in _ (Permutation_map fst (Permutation_sym P)) Hs). }
  assert (A' := area_ok b l' HB' Hb'). eapply is_number_eq; [| exact A'].
  rewrite <- (is_number_unique _ _ _ A N).
  assert (PP := pairs_perm l l' P).
  assert (EP : length (pairs l') = length (pairs l)) by (symmetry; apply Permutation_length, PP).
  assert (EW : wins l' = wins l)
    by (symmetry; apply Permutation_length, filter_perm, PP).
  assert (ED : draws l' = draws l)
    by (symmetry; apply Permutation_length, filter_perm, PP).
  assert (ET : top_pairs l' = top_pairs l).
  { symmetry. unfold top_pairs.
    erewrite (filter_ext (fun p : Q * Q =>
      forallb (fun s => Qle_bool (fst s) (fst p)) l && _)).
    - apply Permutation_length, filter_perm, PP.
    - intros p. cbv beta. f_equal; apply forallb_perm; exact P. }
  unfold statistic. rewrite EP, EW, ED, ET. reflexivity.
Qed.

(* --------------------------------------------------------------- *)
(* Several classes *)

Lemma fold_none : forall (part : nat -> option Q) ks,
  fold_left (fun score k => lift2 Qplus score (part k)) ks None = None.
Proof. intros part ks. induction ks as [| k r IH]; [reflexivity |]. exact IH. Qed.

Lemma fold_numbers : forall (part : nat -> option Q) (v : nat -> Q) ks a x,
  (forall k, In k ks -> is_number (part k) (v k)) ->
  is_number a x ->
  is_number (fold_left (fun score k => lift2 Qplus score (part k)) ks a)
    (x + fold_right Qplus 0 (map v ks))%Q.
Proof.
  intros part v ks. induction ks as [| k r IH]; intros a x H N; cbn [fold_left map fold_right].
  - eapply is_number_eq; [| exact N]. ring.
  - eapply is_number_eq; [| apply (IH _ (x + v k)%Q)].
    + ring.
    + intros i Hi. apply H. right. exact Hi.
    + destruct (H k (or_introl eq_refl)) as [y [E V]]. destruct N as [z [F W]].
      exists (z + y)%Q. rewrite E, F. split; [reflexivity | lra].
Qed.

Lemma sum_div : forall (v : nat -> Q) n ks, ~ (n == 0)%Q ->
  (fold_right Qplus 0 (map (fun k => v k / n) ks) == fold_right Qplus 0 (map v ks) / n)%Q.
Proof.
  intros v n ks Hn. induction ks as [| k r IH]; cbn [map fold_right]; [field; exact Hn |].
  rewrite IH. field. exact Hn.
Qed.

Lemma model_numbers : forall b n pred label (v : nat -> Q),
  (0 < n)%nat ->
  (forall k, (k < n)%nat -> is_number (auc_of b (pred_class k pred) (class_label k label)) (v k)) ->
  is_number (auc_model b n pred label) (fold_right Qplus 0 (map v (seq 0 n)) / q n)%Q.
Proof.
  intros b n pred label v Hn H. unfold auc_model. cbv zeta.
  assert (Hq : ~ (q n == 0)%Q) by (rewrite q_zero; lia).
  fold (q n).
  set (part := fun k : nat => lift2 Qdiv (auc_of b (pred_class k pred) (class_label k label)) (Some (q n))).
  assert (HP : forall k, In k (seq 0 n) -> is_number (part k) (v k / q n)%Q).
  { intros k Hk. apply in_seq in Hk. destruct (H k) as [x [E V]]; [lia |].
    exists (x / q n)%Q. unfold part. rewrite E. split; [reflexivity |]. rewrite V. reflexivity. }
  destruct n as [| n]; [lia |]. cbn [seq] in HP |- *.
  eapply is_number_eq; [| apply (fold_numbers part (fun k => (v k / q (S n))%Q))].
  - rewrite (sum_div v (q (S n)) (seq 1 n) Hq). cbn [map fold_right].
    instantiate (1 := (v 0%nat / q (S n))%Q). field. exact Hq.
  - intros k Hk. apply HP. right. exact Hk.
  - apply HP. left. reflexivity.
Qed.

Lemma model_none : forall b n pred label k,
  (k < n)%nat -> auc_of b (pred_class k pred) (class_label k label) = None ->
  auc_model b n pred label = None.
Proof.
  intros b n pred label k Hk H. unfold auc_model. cbv zeta.
  set (part := fun i : nat => lift2 Qdiv (auc_of b (pred_class i pred) (class_label i label))
                (Some (inject_Z (Z.of_nat n)))).
  assert (HP : part k = None) by (unfold part; rewrite H; reflexivity).
  assert (I : In k (seq 0 n)) by (apply in_seq; lia).
  destruct (seq 0 n) as [| k0 ks]; [destruct I |].
  destruct I as [E | I]; [subst k0; fold (part k); rewrite HP; apply fold_none |].
  fold (part k0). change (fun score k1 => _) with (fun score k1 => lift2 Qplus score (part k1)).
  generalize (part k0). induction ks as [| j r IH]; [destruct I |]. intros a.
  cbn [fold_left]. destruct I as [E | I].
  - subst j. rewrite HP. destruct a; apply fold_none.
  - apply IH. exact I.
Qed.

(* A class without samples: nan as soon as two thresholds exist. *)
Lemma trapezoid_none : forall y0 y1 yr x0 x1 xr,
  y0 = None -> trapezoid (y0 :: y1 :: yr) (x0 :: x1 :: xr) = None.
Proof.
  intros y0 y1 yr x0 x1 xr ->. cbn [trapezoid].
  destruct y1; cbn [lift2]; destruct (lift2 Qminus x1 x0); cbn [lift2]; reflexivity.
Qed.

Lemma missing_ok : forall b input label,
  (forall l, In l label -> l = false) ->
  (exists s s', In s input /\ In s' input /\ ~ (s == s')%Q) ->
  auc_of b input label = None.
Proof.
  intros b input label H [s [s' [Hs [Hs' Hne]]]].
  assert (E : n_positive label = 0).
  { unfold n_positive. induction label as [| l r IH]; [reflexivity |].
    rewrite count_cons, (H l (or_introl eq_refl)), IH; [reflexivity |].
    intros x Hx. apply H. right. exact Hx. }
  unfold auc_of, auc_core. cbn [fst snd]. rewrite E.
  destruct (thresholds_cover b _ _ Hs) as [u [Hu Eu]].
  destruct (thresholds_cover b _ _ Hs') as [u' [Hu' Eu']].
  destruct (thresholds b input) as [| t [| t' r]].
  - destruct Hu.
  - destruct Hu as [<- | []]. destruct Hu' as [<- | []]. exfalso. apply Hne. lra.
  - cbn [map]. apply trapezoid_none. reflexivity.
Qed.

Lemma missing_class_ok : forall b n pred label k,
  (k < n)%nat -> ~ In k label ->
  (exists s s', In s (pred_class k pred) /\ In s' (pred_class k pred) /\ ~ (s == s')%Q) ->
  auc_model b n pred label = None.
Proof.
  intros b n pred label k Hk HI HS. apply (model_none b n pred label k Hk).
  apply missing_ok; [| exact HS]. intros l Hl. unfold class_label in Hl.
  apply in_map_iff in Hl. destruct Hl as [j [<- Hj]].
  apply Nat.eqb_neq. intros ->. exact (HI Hj).
Qed.

(* --------------------------------------------------------------- *)
(* All scores equal; positives below negatives; scores beyond one *)

Lemma all_pairs : forall (p : Q * Q -> bool) l,
  (forall x, In x l -> p x = true) -> filter p l = l.
Proof.
  intros p l H. induction l as [| x r IH]; [reflexivity |].
  cbn [filter]. rewrite (H x (or_introl eq_refl)). f_equal.
  apply IH. intros y Hy. apply H. right. exact Hy.
Qed.

Lemma no_pairs : forall (p : Q * Q -> bool) l,
  (forall x, In x l -> p x = false) -> filter p l = [].
Proof.
  intros p l H. induction l as [| x r IH]; [reflexivity |].
  cbn [filter]. rewrite (H x (or_introl eq_refl)).
  apply IH. intros y Hy. apply H. right. exact Hy.
Qed.

Lemma pairs_in : forall l s s', In (s, s') (pairs l) <-> In (s, true) l /\ In (s', false) l.
Proof. intros l s s'. unfold pairs. rewrite in_prod_iff, !scores_in. tauto. Qed.

Lemma constant_ok : forall b l v, both l ->
  (b = Numpy -> (v <= 1)%Q) ->
  (forall p, In p l -> (fst p == v)%Q) ->
  is_number (auc_of b (map fst l) (map snd l)) 0 /\ (statistic l == 1 # 2)%Q.
Proof.
  intros b l v HB Hb H.
  assert (HP := both_pairs l HB).
  assert (EW : wins l = 0%nat).
  { unfold wins. rewrite no_pairs; [reflexivity |]. intros [s s'] Hp.
    apply pairs_in in Hp. destruct Hp as [I I']. apply H in I. apply H in I'.
    cbn [fst snd] in *. destruct (Qle_bool s s') eqn:E; [reflexivity |].
    apply qle_false in E. lra. }
  assert (ED : draws l = length (pairs l)).
  { unfold draws. rewrite all_pairs; [reflexivity |]. intros [s s'] Hp.
    apply pairs_in in Hp. destruct Hp as [I I']. apply H in I. apply H in I'.
    cbn [fst snd] in *. apply qeq_true. lra. }
  assert (ET : top_pairs l = length (pairs l)).
  { unfold top_pairs. rewrite all_pairs; [reflexivity |]. intros [s s'] Hp.
    apply pairs_in in Hp. destruct Hp as [I I']. apply H in I. apply H in I'.
    cbn [fst snd] in *. apply andb_true_iff. split; apply forallb_forall; intros p Hp;
      apply qle_true; apply H in Hp; lra. }
  assert (ES : (statistic l == 1 # 2)%Q).
  { unfold statistic. rewrite EW, ED. change (q 0) with 0%Q. field. exact HP. }
  split; [| exact ES].
  assert (Hb' : b = Numpy -> forall s, In s (map fst l) -> (s <= 1)%Q).
  { intros E s Hs. apply in_map_iff in Hs. destruct Hs as [p [<- Hp]].
    assert (L := H p Hp). assert (M := Hb E). lra. }
  eapply is_number_eq; [| exact (area_ok b l HB Hb')].
  rewrite ES, ET. field. exact HP.
Qed.

Lemma reversed_ok : forall b l, both l ->
  (b = Numpy -> forall s, In s (map fst l) -> (s <= 1)%Q) ->
  (forall s s', In (s, true) l -> In (s', false) l -> (s < s')%Q) ->
  is_number (auc_of b (map fst l) (map snd l)) 0.
Proof.
  intros b l HB Hb H. assert (HP := both_pairs l HB).
  eapply is_number_eq; [| exact (area_ok b l HB Hb)].
  assert (EW : wins l = 0%nat).
  { unfold wins. rewrite no_pairs; [reflexivity |]. intros [s s'] Hp.
    apply pairs_in in Hp. destruct Hp as [I I']. assert (L := H s s' I I').
    cbn [fst snd]. destruct (Qle_bool s s') eqn:E; [reflexivity |].
    apply qle_false in E. lra. }
  assert (ED : draws l = 0%nat).
  { unfold draws. rewrite no_pairs; [reflexivity |]. intros [s s'] Hp.
    apply pairs_in in Hp. destruct Hp as [I I']. assert (L := H s s' I I').
    cbn [fst snd]. apply qeq_false. lra. }
  assert (ET : top_pairs l = 0%nat).
  { apply top_pairs_none. intros [s [s' [I [I' A]]]].
    assert (L := H s s' I I'). destruct (A (s', false) I') as [M _]. cbn in M. lra. }
  unfold statistic. rewrite EW, ED, ET. change (q 0) with 0%Q. field. exact HP.
Qed.

(* In the NumPy backend a threshold above one is reached by nothing. *)
Lemma cut_beyond : forall t input label, (1 < t)%Q ->
  true_positives (cut Numpy t input) label = 0 /\ false_positives (cut Numpy t input) label = 0.
Proof.
  intros t input. unfold true_positives, false_positives.
  induction input as [| x r IH]; intros label Ht; [split; reflexivity |].
  destruct label as [| c label]; [split; reflexivity |].
  destruct (IH label Ht) as [E F].
  cbn [cut] in *. unfold cut_numpy in *. cbn [map combine].
  rewrite !count_cons, E, F. cbn [fst snd].
  assert (H : Qeq_bool (if Qle_bool t (if Qle_bool t x then 1%Q else x)
                       then (if Qle_bool t x then 1%Q else x) else 0%Q) 1 = false).
  { destruct (Qle_bool t x) eqn:E1.
    - destruct (Qle_bool t 1) eqn:E2; [apply qle_true in E2; lra | reflexivity].
    - rewrite E1. reflexivity. }
  rewrite H. split; reflexivity.
Qed.

Lemma zarea_zero : forall (tp fp : Q -> Z) ts,
  (forall t, In t ts -> tp t = 0 /\ fp t = 0) -> zarea tp fp ts = 0.
Proof.
  intros tp fp ts. induction ts as [| t r IH]; intros H; [reflexivity |].
  destruct r as [| t' r']; [reflexivity |].
  change (zarea tp fp (t :: t' :: r'))
    with ((fp t' - fp t) * (tp t' + tp t) + zarea tp fp (t' :: r')).
  rewrite IH by (intros u Hu; apply H; right; exact Hu).
  destruct (H t (or_introl eq_refl)) as [E1 E2].
  destruct (H t' (or_intror (or_introl eq_refl))) as [E3 E4].
  rewrite E2, E4. reflexivity.
Qed.

Lemma beyond_ok : forall l, both l ->
  (forall p, In p l -> (1 < fst p)%Q) ->
  is_number (auc_of Numpy (map fst l) (map snd l)) 0.
Proof.
  intros l HB H. destruct (both_lengths l HB) as [HP HN].
  unfold auc_of, auc_core. cbn [fst snd]. rewrite npos_count, nneg_count.
  destruct (trapezoid_counts (fun u => true_positives (cut Numpy u (map fst l)) (map snd l))
              (fun u => false_positives (cut Numpy u (map fst l)) (map snd l)) _ _
              (thresholds Numpy (map fst l)) HP HN) as [x [E V]].
  exists x. split; [exact E |].
  rewrite zarea_zero in V.
  2:{ intros t Ht. apply thresholds_in in Ht. apply in_map_iff in Ht.
      destruct Ht as [p [<- Hp]]. apply cut_beyond. exact (H p Hp). }
  change (inject_Z 0) with 0%Q in V.
  assert (HPq : ~ (2 * inject_Z (Z.of_nat (length (scores_of true l)))
                   * inject_Z (Z.of_nat (length (scores_of false l))) == 0)%Q).
  { intros Z. destruct (Qmult_integral _ _ Z) as [Z1 | Z1];
      [destruct (Qmult_integral _ _ Z1) as [Z2 | Z2] |].
    - discriminate Z2.
    - unfold Qeq in Z2. cbn in Z2. lia.
    - unfold Qeq in Z1. cbn in Z1. lia. }
  destruct (Qmult_integral _ _ V) as [Z | Z]; [exact Z | contradiction].
Qed.
