(* Proofs about the area under the ROC curve: the sum over thresholds. *)

From Coq Require Import QArith List ZArith Bool Lia Lqa Sorted Permutation.
From Verif Require Import Auc_Model Auc_Spec.
Import ListNotations.

Local Open Scope Z_scope.

Lemma qle_true : forall a b, Qle_bool a b = true <-> (a <= b)%Q.
Proof. intros a b. apply Qle_bool_iff. Qed.

Lemma qle_false : forall a b, Qle_bool a b = false <-> (b < a)%Q.
Proof.
  intros a b. split; intros H.
  - destruct (Qlt_le_dec b a) as [L | L]; [exact L |].
    apply Qle_bool_iff in L. congruence.
  - destruct (Qle_bool a b) eqn:E; [| reflexivity].
    apply Qle_bool_iff in E. lra.
Qed.

Lemma qeq_true : forall a b, Qeq_bool a b = true <-> (a == b)%Q.
Proof. intros a b. apply Qeq_bool_iff. Qed.

Lemma qeq_false : forall a b, Qeq_bool a b = false <-> ~ (a == b)%Q.
Proof.
  intros a b. rewrite <- qeq_true. destruct (Qeq_bool a b); split; intros H;
    try reflexivity; try discriminate; try congruence.
Qed.

(* Number of scores that reach a threshold. *)
Definition reach (t : Q) (l : list Q) : Z := count (Qle_bool t) l.

Lemma count_cons : forall (A : Type) (p : A -> bool) x l,
  count p (x :: l) = (if p x then 1 else 0) + count p l.
Proof.
  intros A p x l. unfold count. cbn [filter]. destruct (p x); cbn [length]; lia.
Qed.

Lemma count_nil : forall (A : Type) (p : A -> bool), count p [] = 0.
Proof. reflexivity. Qed.

Lemma count_nonneg : forall (A : Type) (p : A -> bool) l, 0 <= count p l.
Proof. intros. unfold count. lia. Qed.

(* Twice what a negative sample scores against the positive ones. *)
Definition weight (pos : list Q) (n : Q) : Z :=
  2 * count (fun p => negb (Qle_bool p n)) pos + count (fun p => Qeq_bool p n) pos.

(* The same for all negative samples that reach a threshold. *)
Fixpoint upto (t : Q) (pos neg : list Q) : Z :=
  match neg with
  | [] => 0
  | n :: r => (if Qle_bool t n then weight pos n else 0) + upto t pos r
  end.

Lemma weight_between : forall pos n t t',
  (n == t')%Q -> (t' < t)%Q ->
  (forall s, In s pos -> (t <= s)%Q \/ (s <= t')%Q) ->
  weight pos n = reach t pos + reach t' pos.
Proof.
  intros pos n t t' Hn Ht H. unfold weight, reach.
  induction pos as [| p r IH]; [reflexivity |].
  rewrite !count_cons.
  assert (E := IH (fun s Hs => H s (or_intror Hs))).
  destruct (H p (or_introl eq_refl)) as [L | L].
  - destruct (Qle_bool p n) eqn:E1; [apply qle_true in E1; lra |].
    destruct (Qeq_bool p n) eqn:E2; [apply qeq_true in E2; lra |].
    destruct (Qle_bool t p) eqn:E3; [| apply qle_false in E3; lra].
    destruct (Qle_bool t' p) eqn:E4; [| apply qle_false in E4; lra].
    cbn [negb]. lia.
  - destruct (Qle_bool p n) eqn:E1; [| apply qle_false in E1; lra].
    destruct (Qle_bool t p) eqn:E3; [apply qle_true in E3; lra |].
    destruct (Qeq_bool p n) eqn:E2.
    + apply qeq_true in E2.
      destruct (Qle_bool t' p) eqn:E4; [| apply qle_false in E4; lra].
      cbn [negb]. lia.
    + apply qeq_false in E2.
      destruct (Qle_bool t' p) eqn:E4; [apply qle_true in E4; exfalso; apply E2; lra |].
      cbn [negb]. lia.
Qed.

Lemma upto_step : forall pos neg t t',
  (t' <= t)%Q ->
  (forall s, In s pos -> (t <= s)%Q \/ (s <= t')%Q) ->
  (forall s, In s neg -> (t <= s)%Q \/ (s <= t')%Q) ->
  upto t' pos neg - upto t pos neg
    = (reach t' neg - reach t neg) * (reach t' pos + reach t pos).
Proof.
  intros pos neg t t' Ht Hp Hn.
  induction neg as [| n r IH]; [reflexivity |].
  assert (E := IH (fun s Hs => Hn s (or_intror Hs))).
  unfold reach at 1 2. rewrite !count_cons. fold (reach t' r) (reach t r).
  cbn [upto].
  destruct (Qle_bool t n) eqn:E1.
  - apply qle_true in E1.
    destruct (Qle_bool t' n) eqn:E2; [| apply qle_false in E2; lra].
    lia.
  - apply qle_false in E1.
    destruct (Hn n (or_introl eq_refl)) as [L | L]; [lra |].
    destruct (Qle_bool t' n) eqn:E2.
    + apply qle_true in E2. rewrite (weight_between pos n t t'); [nia | lra | lra | exact Hp].
    + lia.
Qed.

(* Twice the area below the curve through the counts. *)
Fixpoint zarea (tp fp : Q -> Z) (ts : list Q) : Z :=
  match ts with
  | t :: r =>
      match r with
      | t' :: _ => (fp t' - fp t) * (tp t' + tp t) + zarea tp fp r
      | [] => 0
      end
  | [] => 0
  end.

Lemma zarea_upto : forall pos neg ts t,
  StronglySorted (fun a b => (b <= a)%Q) (t :: ts) ->
  (forall s, In s pos \/ In s neg -> (t <= s)%Q \/ exists t', In t' ts /\ (t' == s)%Q) ->
  zarea (fun u => reach u pos) (fun u => reach u neg) (t :: ts)
    = upto (last ts t) pos neg - upto t pos neg.
Proof.
  intros pos neg ts. induction ts as [| t' r IH]; intros t HS HC.
  - cbn [zarea last]. lia.
  - apply StronglySorted_inv in HS. destruct HS as [HS HF].
    assert (HS' := HS). apply StronglySorted_inv in HS'. destruct HS' as [_ HF'].
    assert (Ht : (t' <= t)%Q) by (inversion HF; assumption).
    assert (HB : forall s, In s pos \/ In s neg -> (t <= s)%Q \/ (s <= t')%Q).
    { intros s Hs. destruct (HC s Hs) as [L | [u [Hu Eu]]]; [left; exact L | right].
      destruct Hu as [<- | Hu]; [lra |].
      rewrite Forall_forall in HF'. specialize (HF' u Hu). cbv beta in HF'. lra. }
    assert (HC' : forall s, In s pos \/ In s neg ->
              (t' <= s)%Q \/ exists u, In u r /\ (u == s)%Q).
    { intros s Hs. destruct (HC s Hs) as [L | [u [Hu Eu]]]; [left; lra |].
      destruct Hu as [<- | Hu]; [left; lra | right; exists u; auto]. }
    change (zarea (fun u => reach u pos) (fun u => reach u neg) (t :: t' :: r))
      with ((reach t' neg - reach t neg) * (reach t' pos + reach t pos)
            + zarea (fun u => reach u pos) (fun u => reach u neg) (t' :: r)).
    rewrite (IH t' HS HC').
    rewrite <- (upto_step pos neg t t' Ht
                 (fun s Hs => HB s (or_introl Hs)) (fun s Hs => HB s (or_intror Hs))).
    assert (EL : last (t' :: r) t = last r t').
    { clear. revert t t'. induction r as [| a r IH]; intros t t'; [reflexivity |].
      change (last (t' :: a :: r) t) with (last (a :: r) t).
      rewrite (IH t a). symmetry. destruct r; [reflexivity |].
      rewrite <- (IH t' a). reflexivity. }
    rewrite EL. lia.
Qed.

(* Below the lowest threshold every negative sample is counted. *)
Lemma upto_all : forall pos neg t,
  (forall s, In s neg -> (t <= s)%Q) ->
  upto t pos neg = fold_right Z.add 0 (map (weight pos) neg).
Proof.
  intros pos neg t H. induction neg as [| n r IH]; [reflexivity |].
  cbn [upto map fold_right]. rewrite IH by (intros s Hs; apply H; right; exact Hs).
  destruct (Qle_bool t n) eqn:E; [reflexivity |].
  apply qle_false in E. assert (L := H n (or_introl eq_refl)). lra.
Qed.

(* At the highest one, only draws are. *)
Lemma upto_top : forall pos neg t,
  (forall s, In s pos \/ In s neg -> (s <= t)%Q) ->
  upto t pos neg = reach t pos * reach t neg.
Proof.
  intros pos neg t H.
  assert (W : forall n, (n == t)%Q -> weight pos n = reach t pos).
  { intros n En. unfold weight, reach. clear - H En.
    induction pos as [| p r IH]; [reflexivity |].
    rewrite !count_cons.
    assert (E := IH (fun s Hs => H s (match Hs with
                       | or_introl h => or_introl (or_intror h)
                       | or_intror h => or_intror h end))).
    assert (L := H p (or_introl (or_introl eq_refl))).
    destruct (Qle_bool p n) eqn:E1; [| apply qle_false in E1; lra].
    destruct (Qeq_bool p n) eqn:E2; destruct (Qle_bool t p) eqn:E3; cbn [negb]; try lia.
    - apply qeq_true in E2. apply qle_false in E3. lra.
    - apply qeq_false in E2. apply qle_true in E3. exfalso. apply E2. lra. }
  assert (Hn : forall s, In s neg -> (s <= t)%Q) by (intros s Hs; apply H; right; exact Hs).
  clear H. induction neg as [| n r IH]; [unfold reach at 2; rewrite count_nil; cbn; lia |].
  cbn [upto]. rewrite IH by (intros s Hs; apply Hn; right; exact Hs).
  change (reach t (n :: r)) with (count (Qle_bool t) (n :: r)). rewrite count_cons.
  change (count (Qle_bool t) r) with (reach t r).
  assert (L := Hn n (or_introl eq_refl)).
  destruct (Qle_bool t n) eqn:E.
  - apply qle_true in E. rewrite (W n) by lra. lia.
  - lia.
Qed.

(* --------------------------------------------------------------- *)
(* Sorting *)

Lemma insert_in : forall x l y, In y (insert x l) <-> y = x \/ In y l.
Proof.
  intros x l y. induction l as [| z r IH]; cbn [insert].
  - cbn. intuition auto.
  - destruct (Qle_bool x z); cbn [In]; [| rewrite IH]; intuition auto.
Qed.

Lemma sort_in : forall l y, In y (sort l) <-> In y l.
Proof.
  intros l y. unfold sort. induction l as [| x r IH]; cbn [fold_right]; [tauto |].
  rewrite insert_in, IH. cbn [In]. intuition auto.
Qed.

Lemma insert_sorted : forall x l,
  StronglySorted Qle l -> StronglySorted Qle (insert x l).
Proof.
  intros x l. induction l as [| z r IH]; intros H; cbn [insert].
  - constructor; constructor.
  - destruct (Qle_bool x z) eqn:E.
    + apply qle_true in E. constructor; [exact H |].
      apply StronglySorted_inv in H. destruct H as [_ F].
      constructor; [exact E |]. rewrite Forall_forall in F |- *.
      intros u Hu. specialize (F u Hu). lra.
    + apply qle_false in E. apply StronglySorted_inv in H. destruct H as [S F].
      constructor; [apply IH; exact S |].
      rewrite Forall_forall in F |- *. intros u Hu.
      apply insert_in in Hu. destruct Hu as [-> | Hu]; [lra | apply F; exact Hu].
Qed.

Lemma sort_sorted : forall l, StronglySorted Qle (sort l).
Proof.
  intros l. unfold sort. induction l as [| x r IH]; cbn [fold_right];
    [constructor | apply insert_sorted; exact IH].
Qed.

Lemma unique_in : forall l y, In y (unique l) -> In y l.
Proof.
  intros l. induction l as [| x r IH]; intros y H; [exact H |].
  cbn [unique] in H. destruct r as [| z r']; [exact H |].
  destruct (Qeq_bool x z).
  - right. apply IH. exact H.
  - destruct H as [H | H]; [left; exact H | right; apply IH; exact H].
Qed.

Lemma unique_covers : forall l y, In y l -> exists u, In u (unique l) /\ (u == y)%Q.
Proof.
  intros l. induction l as [| x r IH]; intros y H; [destruct H |].
  cbn [unique]. destruct r as [| z r'].
  - exists y. split; [exact H | reflexivity].
  - destruct (Qeq_bool x z) eqn:E.
    + destruct H as [<- | H]; [| exact (IH y H)].
      apply qeq_true in E. destruct (IH z (or_introl eq_refl)) as [u [Hu Eu]].
      exists u. split; [exact Hu | lra].
    + destruct H as [<- | H].
      * exists x. split; [left; reflexivity | reflexivity].
      * destruct (IH y H) as [u [Hu Eu]]. exists u. split; [right; exact Hu | exact Eu].
Qed.

Lemma unique_sorted : forall l, StronglySorted Qle l -> StronglySorted Qle (unique l).
Proof.
  intros l. induction l as [| x r IH]; intros H; [constructor |].
  apply StronglySorted_inv in H. destruct H as [S F].
  cbn [unique]. destruct r as [| z r']; [constructor; constructor |].
  destruct (Qeq_bool x z); [apply IH; exact S |].
  constructor; [apply IH; exact S |].
  rewrite Forall_forall in F |- *. intros u Hu. apply F. apply unique_in. exact Hu.
Qed.

Lemma snoc_sorted : forall (R : Q -> Q -> Prop) l x,
  StronglySorted R l -> (forall u, In u l -> R u x) -> StronglySorted R (l ++ [x]).
Proof.
  intros R l x. induction l as [| y r IH]; intros S H; cbn [app].
  - constructor; constructor.
  - apply StronglySorted_inv in S. destruct S as [S F].
    constructor; [apply IH; [exact S | intros u Hu; apply H; right; exact Hu] |].
    apply Forall_app. split; [exact F |].
    constructor; [apply H; left; reflexivity | constructor].
Qed.

Lemma rev_sorted : forall l,
  StronglySorted Qle l -> StronglySorted (fun a b => (b <= a)%Q) (rev l).
Proof.
  intros l. induction l as [| x r IH]; intros H; [constructor |].
  apply StronglySorted_inv in H. destruct H as [S F].
  cbn [rev]. apply snoc_sorted; [apply IH; exact S |].
  intros u Hu. apply in_rev in Hu. rewrite Forall_forall in F. exact (F u Hu).
Qed.

Lemma thresholds_sorted : forall b l,
  StronglySorted (fun a b => (b <= a)%Q) (thresholds b l).
Proof.
  intros b l. destruct b; cbn [thresholds]; apply rev_sorted;
    try apply unique_sorted; apply sort_sorted.
Qed.

Lemma thresholds_in : forall b l t, In t (thresholds b l) -> In t l.
Proof.
  intros b l t H. destruct b; cbn [thresholds] in H; apply in_rev in H;
    try (apply unique_in in H); apply sort_in; exact H.
Qed.

Lemma thresholds_cover : forall b l s,
  In s l -> exists t, In t (thresholds b l) /\ (t == s)%Q.
Proof.
  intros b l s H. apply sort_in in H. destruct b; cbn [thresholds].
  - destruct (unique_covers _ _ H) as [u [Hu Eu]].
    exists u. split; [apply in_rev in Hu; exact Hu | exact Eu].
  - destruct (unique_covers _ _ H) as [u [Hu Eu]].
    exists u. split; [apply in_rev in Hu; exact Hu | exact Eu].
  - exists s. split; [apply in_rev in H; exact H | reflexivity].
Qed.

Lemma sorted_last : forall ts t u,
  StronglySorted (fun a b => (b <= a)%Q) (t :: ts) -> In u (t :: ts) -> (last ts t <= u)%Q.
Proof.
  intros ts. induction ts as [| a r IH]; intros t u S H.
  - cbn [last]. destruct H as [<- | []]. lra.
  - apply StronglySorted_inv in S. destruct S as [S F].
    assert (EL : last (a :: r) t = last r a).
    { clear. revert t a. induction r as [| c r IH]; intros t a; [reflexivity |].
      change (last (a :: c :: r) t) with (last (c :: r) t).
      rewrite (IH t c). symmetry. destruct r; [reflexivity |].
      rewrite <- (IH a c). reflexivity. }
    rewrite EL. destruct H as [<- | H]; [| apply IH; assumption].
    assert (L := IH a a S (or_introl eq_refl)).
    inversion F; subst. lra.
Qed.

(* --------------------------------------------------------------- *)
(* From rates to counts *)

Lemma trapezoid_counts : forall (tp fp : Q -> Z) P N ts,
  P <> 0 -> N <> 0 ->
  exists x, trapezoid (map (fun u => rate (tp u) P) ts) (map (fun u => rate (fp u) N) ts) = Some x
         /\ (x * (2 * inject_Z P * inject_Z N) == inject_Z (zarea tp fp ts))%Q.
Proof.
  intros tp fp P N ts HP HN.
  assert (RP : forall c, rate c P = Some (inject_Z c / inject_Z P)%Q).
  { intros c. unfold rate. apply Z.eqb_neq in HP. rewrite HP. reflexivity. }
  assert (RN : forall c, rate c N = Some (inject_Z c / inject_Z N)%Q).
  { intros c. unfold rate. apply Z.eqb_neq in HN. rewrite HN. reflexivity. }
  assert (HPq : ~ (inject_Z P == 0)%Q) by (unfold Qeq; cbn; lia).
  assert (HNq : ~ (inject_Z N == 0)%Q) by (unfold Qeq; cbn; lia).
  induction ts as [| t r IH].
  - exists 0%Q. split; [reflexivity |]. cbn [zarea]. ring.
  - destruct r as [| t' r'].
    + exists 0%Q. split; [reflexivity |]. cbn [zarea]. ring.
    + destruct IH as [x [E V]].
      change (trapezoid (map (fun u => rate (tp u) P) (t :: t' :: r'))
                        (map (fun u => rate (fp u) N) (t :: t' :: r')))
        with (lift2 Qplus
                (lift2 Qmult (lift2 Qminus (rate (fp t') N) (rate (fp t) N))
                   (lift2 Qmult (lift2 Qplus (rate (tp t') P) (rate (tp t) P)) (Some (1 # 2))))
                (trapezoid (map (fun u => rate (tp u) P) (t' :: r'))
                           (map (fun u => rate (fp u) N) (t' :: r')))).
      rewrite E, !RP, !RN. cbn [lift2]. eexists. split; [reflexivity |].
      change (zarea tp fp (t :: t' :: r'))
        with ((fp t' - fp t) * (tp t' + tp t) + zarea tp fp (t' :: r')).
      rewrite inject_Z_plus, inject_Z_mult, !inject_Z_plus.
      unfold Zminus. rewrite inject_Z_plus, inject_Z_opp.
      rewrite <- V. field. split; assumption.
Qed.
