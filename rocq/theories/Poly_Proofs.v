(** * Lemmas about combinations with replacement and monomials. *)
From Coq Require Import Reals List ZArith Bool Lia Lra.
From Verif Require Import PyBase Deriv_Proofs Corr_Spec Corr_Proofs Pool_Proofs Axis_Model Axis_Spec Axis_Proofs Attn_Proofs Poly_Model Poly_Spec.
Import ListNotations.
Open Scope list_scope.

(** ** Exponent vectors *)
Definition inc (p : list nat) : list nat := match p with [] => [] | k :: r => S k :: r end.
Fixpoint vecs (r : nat) : nat -> list (list nat) :=
  match r with
  | O => fun m => [repeat 0%nat m]
  | S r' => fix go (m : nat) : list (list nat) :=
      match m with O => [] | S m' => map inc (vecs r' (S m')) ++ map (cons 0%nat) (go m') end
  end.
Lemma vecs_step r m : vecs (S r) (S m) = map inc (vecs r (S m)) ++ map (cons 0%nat) (vecs (S r) m).
Proof. reflexivity. Qed.
Lemma total_cons k p : total (k :: p) = (k + total p)%nat.
Proof. reflexivity. Qed.
Lemma vecs_in r : forall m p, In p (vecs r m) <-> length p = m /\ total p = r.
Proof.
  induction r as [|r IHr]; intros m p.
  - cbn [vecs In]. split.
    + intros [<-|[] ]. rewrite repeat_length. split; [easy|]. now induction m.
    + intros [L T]. left. revert m L T. induction p as [|k p IH]; intros m L T; cbn in L; subst m; [easy|]. rewrite total_cons in T. cbn [repeat length].
      assert (k = 0%nat) by lia. subst k. now rewrite (IH _ eq_refl ltac:(lia)).
  - revert p. induction m as [|m IHm]; intros p.
    + cbn. split; [easy|]. intros [L T]. destruct p; [|easy]. now cbn in T.
    + rewrite vecs_step, in_app_iff, !in_map_iff. split.
      * intros [(u & <- & U)|(u & <- & U)].
        -- apply IHr in U as [L T]. destruct u as [|k u]; [easy|]. cbn [inc length] in *. rewrite total_cons in *. lia.
        -- apply IHm in U as [L T]. cbn [length]. rewrite total_cons. lia.
      * intros [L T]. destruct p as [|k p]; [easy|]. destruct k as [|k].
        -- right. exists p. split; [easy|]. apply IHm. rewrite total_cons in T. cbn in L. lia.
        -- left. exists (k :: p). split; [easy|]. apply IHr. rewrite total_cons in *. cbn in *. lia.
Qed.

(** In order *)
Definition ordered (R : list nat -> list nat -> Prop) (l : list (list nat)) : Prop :=
  forall i j a b, (i < j)%nat -> nth_error l i = Some a -> nth_error l j = Some b -> R a b.
Lemma ordered_app R l m : ordered R l -> ordered R m -> (forall a b, In a l -> In b m -> R a b) -> ordered R (l ++ m).
Proof.
  intros A B C i j a b H E1 E2. destruct (Nat.lt_ge_cases i (length l)) as [I|I].
  - rewrite nth_error_app1 in E1 by easy. destruct (Nat.lt_ge_cases j (length l)) as [J|J].
    + rewrite nth_error_app1 in E2 by easy. now apply (A i j).
    + rewrite nth_error_app2 in E2 by easy. apply C; eapply nth_error_In; eassumption.
  - rewrite nth_error_app2 in E1 by easy. rewrite nth_error_app2 in E2 by lia. apply (B (i - length l)%nat (j - length l)%nat); [lia|easy..].
Qed.
Lemma ordered_map (R R' : list nat -> list nat -> Prop) f l : (forall a b, In a l -> In b l -> R a b -> R' (f a) (f b)) -> ordered R l -> ordered R' (map f l).
Proof.
  intros H O i j a b L E1 E2. rewrite nth_error_map in E1, E2.
  destruct (nth_error l i) as [a'|] eqn:A; [|easy]. destruct (nth_error l j) as [b'|] eqn:B; [|easy]. injection E1 as <-. injection E2 as <-.
  apply H; [eapply nth_error_In; eassumption..|]. now apply (O i j).
Qed.
Lemma vecs_ordered r : forall m, ordered before (vecs r m).
Proof.
  induction r as [|r IHr]; intros m.
  - intros i j a b H E1 E2. cbn [vecs] in *. destruct j; [lia|]. now destruct j.
  - induction m as [|m IHm]; [intros i j a b H E1; now destruct i|]. rewrite vecs_step. apply ordered_app.
    + eapply ordered_map; [|apply IHr]. intros [|k a] [|l b] Ia Ib; cbn; try easy. intros [H|[-> H] ]; [left; lia|now right].
    + eapply ordered_map; [|apply IHm]. intros a b _ _ H. cbn. now right.
    + intros a b. rewrite !in_map_iff. intros (u & <- & U) (w & <- & _). apply vecs_in in U as [L _]. destruct u; [easy|]. cbn. left. lia.
Qed.
Lemma vecs_count r : forall m, (length (vecs r (S m)) * (fact r * fact m) = fact (m + r))%nat.
Proof.
  induction r as [|r IHr]; intros m.
  - cbn [vecs length]. rewrite Nat.add_0_r. cbn [fact]. lia.
  - induction m as [|m IHm].
    + rewrite vecs_step, app_length, !map_length. specialize (IHr 0%nat). cbn [vecs length Nat.add fact] in *. nia.
    + rewrite vecs_step, app_length, !map_length. specialize (IHr (S m)).
      replace (S m + S r)%nat with (S (S m + r)) in * by lia. replace (m + S r)%nat with (S m + r)%nat in IHm by lia.
      change (fact (S (S m + r))) with ((S (S m + r)) * fact (S m + r))%nat.
      assert (E1 : (fact (S r) = S r * fact r)%nat) by reflexivity. assert (E2 : (fact (S m) = S m * fact m)%nat) by reflexivity.
      rewrite E1, E2 in *. nia.
Qed.

(** ** The sums of unit rows *)
Lemma vadd_cons a b x y : vadd (x :: a) (y :: b) = (x + y)%nat :: vadd a b.
Proof. reflexivity. Qed.
Lemma vadd_length a b : length (vadd a b) = Nat.min (length a) (length b).
Proof. unfold vadd. now rewrite map_length, combine_length. Qed.
Lemma vadd_comm a : forall b, vadd a b = vadd b a.
Proof. induction a as [|x a IH]; intros [|y b]; try easy. rewrite !vadd_cons, IH. f_equal. lia. Qed.
Lemma vadd_assoc a : forall b c, vadd a (vadd b c) = vadd (vadd a b) c.
Proof. induction a as [|x a IH]; intros [|y b] [|z c]; try easy. rewrite !vadd_cons, IH. f_equal. lia. Qed.
Lemma fold_vadd l : forall z x, fold_left vadd l (vadd z x) = vadd x (fold_left vadd l z).
Proof. induction l as [|y l IH]; intros z x; cbn [fold_left]; [apply vadd_comm|]. rewrite <- IH. f_equal. now rewrite <- vadd_assoc, (vadd_comm x y), vadd_assoc. Qed.
Lemma vsum_cons n x l : vsum n (x :: l) = vadd x (vsum n l).
Proof. unfold vsum. cbn [fold_left]. now rewrite fold_vadd. Qed.
Lemma unit_row_split k m : unit_row (k + S m) k = repeat 0%nat k ++ 1%nat :: repeat 0%nat m.
Proof.
  unfold unit_row. rewrite seq_app, map_app. f_equal.
  - assert (H : forall s c, (s + c <= k)%nat -> map (fun j => if (k =? j)%nat then 1%nat else 0%nat) (seq s c) = repeat 0%nat c).
    { intros s c. revert s. induction c as [|c IH]; intros s L; [easy|]. cbn [seq map repeat]. rewrite IH by lia. destruct (Nat.eqb_spec k s); [lia|easy]. }
    now apply H.
  - cbn [Nat.add seq map]. rewrite Nat.eqb_refl. f_equal.
    assert (H : forall c s, (k < s)%nat -> map (fun j => if (k =? j)%nat then 1%nat else 0%nat) (seq s c) = repeat 0%nat c).
    { induction c as [|c IH]; intros s L; [easy|]. cbn [seq map repeat]. rewrite IH by lia. destruct (Nat.eqb_spec k s); [lia|easy]. }
    apply H. lia.
Qed.
Lemma vadd_zeros m : forall p, length p = m -> vadd (repeat 0%nat m) p = p.
Proof. induction m as [|m IH]; intros [|k p] L; try easy. cbn [repeat]. rewrite vadd_cons, IH; [easy|]. cbn in L. lia. Qed.
Lemma vadd_unit k m p : length p = S m -> vadd (repeat 0%nat k ++ 1%nat :: repeat 0%nat m) (repeat 0%nat k ++ p) = repeat 0%nat k ++ inc p.
Proof.
  intros L. induction k as [|k IH]; cbn [repeat app].
  - destruct p as [|a p]; [easy|]. rewrite vadd_cons, vadd_zeros; [easy|]. cbn in L. lia.
  - now rewrite vadd_cons, IH.
Qed.
Lemma cwr_step {A} r (x : A) l : cwr (S r) (x :: l) = map (cons x) (cwr r (x :: l)) ++ cwr (S r) l.
Proof. reflexivity. Qed.
Lemma cwr_vecs r : forall k m, map (vsum (k + m)) (cwr r (map (unit_row (k + m)) (seq k m))) = map (app (repeat 0%nat k)) (vecs r m).
Proof.
  induction r as [|r IHr]; intros k m.
  - cbn [cwr vecs map]. unfold vsum. cbn [fold_left]. now rewrite repeat_app.
  - revert k. induction m as [|m IHm]; intros k; [easy|]. cbn [seq map]. rewrite cwr_step, vecs_step, !map_app, !map_map. f_equal.
    + rewrite (map_ext _ (fun c => vadd (unit_row (k + S m) k) (vsum (k + S m) c))) by (intros; apply vsum_cons).
      rewrite <- (map_map (vsum (k + S m)) (vadd (unit_row (k + S m) k))).
      change (unit_row (k + S m) k :: map (unit_row (k + S m)) (seq (S k) m)) with (map (unit_row (k + S m)) (seq k (S m))).
      rewrite IHr, map_map. apply map_ext_in. intros p Hp. apply vecs_in in Hp as [L _]. rewrite unit_row_split. now apply vadd_unit.
    + replace (k + S m)%nat with (S k + m)%nat by lia. rewrite IHm. apply map_ext. intros p. change (repeat 0%nat (S k)) with (0%nat :: repeat 0%nat k). rewrite repeat_cons, <- app_assoc. reflexivity.
Qed.
(** The first one, which is dropped. *)
Lemma vecs_head r m : exists t, vecs r (S m) = (r :: repeat 0%nat m) :: t.
Proof.
  induction r as [|r [t IH] ]; [now eexists|]. rewrite vecs_step, IH. cbn [map inc app]. now eexists.
Qed.
Lemma powers_vecs dims degree : powers dims degree = tl (vecs degree (S dims)).
Proof.
  unfold powers. pose proof (cwr_vecs degree 0 (dims + 1)) as E. cbn [Nat.add] in E. rewrite E. cbn [repeat]. rewrite Nat.add_1_r.
  f_equal. rewrite (map_ext _ (fun p => p)) by easy. apply map_id.
Qed.
Lemma powers_length dims degree : ((length (powers dims degree) + 1) * (fact degree * fact dims) = fact (dims + degree))%nat.
Proof.
  rewrite powers_vecs. destruct (vecs_head degree dims) as [t E]. pose proof (vecs_count degree dims) as H. rewrite E in H |- *. cbn [tl length] in *.
  now rewrite Nat.add_1_r.
Qed.
Lemma powers_monomials dims degree : all_monomials dims degree (map (@tl nat) (powers dims degree)) /\
  forall p, In p (powers dims degree) -> exists k e, p = k :: e /\ length e = dims /\ (k + total e = degree)%nat.
Proof.
  rewrite powers_vecs. pose proof (vecs_in degree (S dims)) as IN. pose proof (vecs_ordered degree (S dims)) as O. destruct (vecs_head degree dims) as [t E].
  rewrite E in *. cbn [tl].
  assert (SH : forall p, In p t -> exists k e, p = k :: e /\ length e = dims /\ (k + total e = degree)%nat).
  { intros p Hp. assert (H : In p ((degree :: repeat 0%nat dims) :: t)) by now right. apply IN in H as [L T]. destruct p as [|k e]; [easy|].
    exists k, e. rewrite total_cons in T. cbn in L. split; [easy|]. lia. }
  assert (OT : ordered before t).
  { intros i j a b H E1 E2. apply (O (S i) (S j)); [lia|easy..]. }
  assert (FST : forall p, In p t -> before (degree :: repeat 0%nat dims) p).
  { intros p Hp. apply In_nth_error in Hp as [i Hi]. apply (O 0%nat (S i)); [lia|easy..]. }
  split; [split|exact SH].
  - intros e. rewrite in_map_iff. split.
    + intros (p & <- & Hp). destruct (SH p Hp) as (k & e & -> & L & T). cbn [tl]. split; [easy|]. specialize (FST _ Hp). cbn in FST.
      destruct FST as [F|[F1 F2] ]; [lia|]. exfalso. assert (H : total e = 0%nat) by lia. clear -F2 L H.
      revert dims L F2. induction e as [|a e IH]; intros [|m] L F2; try easy. rewrite total_cons in H. cbn in L, F2. destruct F2 as [F|[F1 F2] ]; [lia|]. apply (IH ltac:(lia) m); [lia|easy].
    + intros [L [T1 T2] ]. exists ((degree - total e)%nat :: e). split; [easy|].
      assert (H : In ((degree - total e)%nat :: e) ((degree :: repeat 0%nat dims) :: t)) by (apply IN; rewrite total_cons; cbn [length]; lia).
      destruct H as [H|H]; [|easy]. injection H as H1 H2. lia.
  - eapply ordered_map; [|exact OT]. intros a b Ia Ib H. destruct (SH a Ia) as (k & u & -> & L & T). destruct (SH b Ib) as (l & w & -> & L' & T'). cbn [tl before] in *.
    destruct H as [H|[H1 H2] ]; [left; lia|right]. split; [lia|easy].
Qed.

(** ** Products *)
Open Scope R_scope.
Lemma np_prod_ext {A} (L : list A) f h : (forall a, In a L -> f a = h a) -> np_prod (map f L) = np_prod (map h L).
Proof. intros H. f_equal. now apply map_ext_in. Qed.
Lemma monomial_all e : forall x, np_prod (map (fun m => x m ^ nth m e 0%nat) (seq 0 (length e))) = monomial x e.
Proof.
  induction e as [|k e IH]; intros x; [easy|]. cbn [length seq map np_prod monomial nth]. f_equal. rewrite <- IH, <- seq_shift, map_map. reflexivity.
Qed.
Lemma monomial_prod n (x : nat -> R) k e : length e = n -> x 0%nat = 1 ->
  np_prod (map (fun m => x m ^ nth m (k :: e) 0%nat) (seq 0 (n + 1))) = monomial (fun j => x (S j)) e.
Proof.
  intros L X. rewrite Nat.add_1_r. cbn [seq map np_prod nth]. rewrite X, pow1, Rmult_1_l, <- monomial_all, <- seq_shift, map_map, L. reflexivity.
Qed.
Lemma dl_prod_gen (L : list nat) (f : nat -> R -> R) (h : nat -> R) : NoDup L ->
  (forall m, In m L -> derivable_pt_lim (f m) 0 (h m)) ->
  derivable_pt_lim (fun t => np_prod (map (fun m => f m t) L)) 0
    (lsum L (fun j => np_prod (map (fun m => if Nat.eqb m j then h m else f m 0) L))).
Proof.
  intros N. induction N as [|a L H N IH]; intros D; [cbn; apply (derivable_pt_lim_const 1)|]. cbn [map np_prod].
  eapply dl_eq; [apply (derivable_pt_lim_mult (f a) (fun t => np_prod (map (fun m => f m t) L))); [apply D; now left|apply IH; intros; apply D; now right]|].
  rewrite (lsum_cons a L). cbn [map np_prod]. rewrite Nat.eqb_refl. f_equal.
  - f_equal. apply np_prod_ext. intros m Hm. destruct (Nat.eqb_spec m a); [congruence|easy].
  - rewrite <- lsum_scal. apply lsum_ext. intros j Hj. destruct (Nat.eqb_spec a j); [congruence|easy].
Qed.
