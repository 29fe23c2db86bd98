(* C67: the area under the ROC curve. *)

From Coq Require Import QArith List ZArith Bool Lia Lqa Permutation.
From Verif Require Import Auc_Model Auc_Spec Auc_Proofs Auc_Proofs2.
Import ListNotations.

(* For samples of both classes, whatever their number, order and scores, the
   area is the probability that a positive sample outranks a negative one,
   draws counting one half, less half the probability that both have the
   highest score.  In the NumPy backend if no score exceeds one. *)
Theorem C67_area : forall (b : backend) (samples : list (Q * bool)),
  both samples ->
  (b = Numpy -> forall s, In s (map fst samples) -> (s <= 1)%Q) ->
  is_number (auc_of b (map fst samples) (map snd samples))
    (statistic samples - q (top_pairs samples) / (2 * q (length (pairs samples))))%Q.
Proof. exact area_ok. Qed.

(* So it is the statistic exactly when the highest score is not shared by a
   positive and a negative sample. *)
Theorem C67_exact : forall (b : backend) (samples : list (Q * bool)),
  both samples ->
  (b = Numpy -> forall s, In s (map fst samples) -> (s <= 1)%Q) ->
  (is_number (auc_of b (map fst samples) (map snd samples)) (statistic samples)
   <-> ~ exists s s', In (s, true) samples /\ In (s', false) samples
        /\ forall p, In p samples -> (fst p <= s)%Q /\ (fst p <= s')%Q).
Proof. exact exact_ok. Qed.

(* Only the order of the scores matters (PyTorch and JAX). *)
Theorem C67_rank : forall (f : Q -> Q) (b : backend) (samples : list (Q * bool)) (v : Q),
  (forall x y, (x == y)%Q -> (f x == f y)%Q) ->
  (forall x y, (x < y)%Q -> (f x < f y)%Q) ->
  b <> Numpy -> both samples ->
  is_number (auc_of b (map fst samples) (map snd samples)) v ->
  is_number (auc_of b (map f (map fst samples)) (map snd samples)) v.
Proof.
  intros f b samples v HE HL. exact (rank_ok f b samples v (conj HE HL)).
Qed.

(* The order of the samples does not. *)
Theorem C67_order : forall (b : backend) (samples samples' : list (Q * bool)) (v : Q),
  Permutation samples samples' -> both samples ->
  (b = Numpy -> forall s, In s (map fst samples) -> (s <= 1)%Q) ->
  is_number (auc_of b (map fst samples) (map snd samples)) v ->
  is_number (auc_of b (map fst samples') (map snd samples')) v.
Proof. exact order_ok. Qed.

(* The samples of class k in a batch: its column of the scores, and whether
   the label is k. *)
Definition batch (k : nat) (pred : list (list Q)) (label : list nat) : list (Q * bool) :=
  combine (map (fun row => nth k row 0%Q) pred) (map (fun l => Nat.eqb l k) label).

Lemma map_fst_combine : forall (A B : Type) (l : list A) (m : list B),
  length l = length m -> map fst (combine l m) = l /\ map snd (combine l m) = m.
Proof.
  intros A B l. induction l as [| x r IH]; intros [| y m] H; try discriminate H.
  - split; reflexivity.
  - injection H as H. destruct (IH m H) as [E F]. cbn [combine map fst snd].
    rewrite E, F. split; reflexivity.
Qed.

(* The model's output is the mean over the classes, each against the rest. *)
Theorem C67_model : forall (b : backend) (n : nat) (pred : list (list Q)) (label : list nat),
  (0 < n)%nat -> length pred = length label ->
  (forall k, (k < n)%nat -> both (batch k pred label)) ->
  (b = Numpy -> forall row s, In row pred -> In s row -> (s <= 1)%Q) ->
  is_number (auc_model b n pred label)
    (fold_right Qplus 0
       (map (fun k => statistic (batch k pred label)
                      - q (top_pairs (batch k pred label))
                        / (2 * q (length (pairs (batch k pred label))))) (seq 0 n))
     / q n)%Q.
Proof.
  intros b n pred label Hn HL HB Hb. apply model_numbers; [exact Hn |].
  intros k Hk. specialize (HB k Hk).
  assert (E := map_fst_combine _ _ (map (fun row => nth k row 0%Q) pred)
                 (map (fun l => Nat.eqb l k) label)).
  rewrite !map_length in E. destruct (E HL) as [E1 E2]. clear E.
  fold (batch k pred label) in E1, E2.
  assert (A := area_ok b (batch k pred label) HB). rewrite E1, E2 in A. apply A.
  intros EB s Hs. apply in_map_iff in Hs. destruct Hs as [row [<- Hr]].
  destruct (nth_in_or_default k row 0%Q) as [I | D].
  - exact (Hb EB row _ Hr I).
  - rewrite D. lra.
Qed.

(* Examples: the hypotheses are met. *)
Definition trial : list (Q * bool) :=
  [((9 # 10)%Q, true); ((1 # 2)%Q, false); ((1 # 2)%Q, true);
   ((1 # 5)%Q, false); ((3 # 10)%Q, true); ((7 # 10)%Q, false)].

Example C67_area_example :
  both trial
  /\ (forall s, In s (map fst trial) -> (s <= 1)%Q)
  /\ (statistic trial == 11 # 18)%Q
  /\ is_number (auc_of Numpy (map fst trial) (map snd trial)) (11 # 18)
  /\ is_number (auc_of Torch (map fst trial) (map snd trial)) (11 # 18)
  /\ is_number (auc_of Jax (map fst trial) (map snd trial)) (11 # 18).
Proof.
  split; [split; eexists; cbn; eauto |].
  split; [intros s H; cbn in H; repeat destruct H as [<- | H]; try lra; destruct H |].
  split; [reflexivity |].
  split; [| split]; eexists; (split; [vm_compute; reflexivity | reflexivity]).
Qed.

Example C67_exact_example :
  ~ exists s s', In (s, true) trial /\ In (s', false) trial
        /\ forall p, In p trial -> (fst p <= s)%Q /\ (fst p <= s')%Q.
Proof.
  intros [s [s' [_ [H A]]]].
  destruct (A ((9 # 10)%Q, true) (or_introl eq_refl)) as [_ L]. cbn [fst] in L.
  cbn in H. repeat destruct H as [H | H]; try discriminate H; try contradiction;
    injection H as <-; lra.
Qed.

Example C67_rank_example :
  is_number (auc_of Torch (map (fun x => 100 * x - 7)%Q (map fst trial)) (map snd trial)) (11 # 18).
Proof.
  apply (C67_rank (fun x => 100 * x - 7)%Q Torch trial (11 # 18)).
  - intros x y E. rewrite E. reflexivity.
  - intros x y L. lra.
  - discriminate.
  - exact (proj1 C67_area_example).
  - exact (proj1 (proj2 (proj2 (proj2 (proj2 C67_area_example))))).
Qed.

Example C67_order_example :
  is_number (auc_of Numpy (map fst (rev trial)) (map snd (rev trial))) (11 # 18).
Proof.
  apply (C67_order Numpy trial (rev trial) (11 # 18) (Permutation_rev trial)).
  - exact (proj1 C67_area_example).
  - intros _. exact (proj1 (proj2 C67_area_example)).
  - exact (proj1 (proj2 (proj2 (proj2 C67_area_example)))).
Qed.

Definition three_pred : list (list Q) :=
  [[(7 # 10); (2 # 10); (1 # 10)]; [(1 # 10); (6 # 10); (3 # 10)];
   [(3 # 10); (3 # 10); (4 # 10)]; [(2 # 10); (5 # 10); (3 # 10)]]%Q.
Definition three_label : list nat := [0; 1; 2; 2]%nat.

Example C67_model_example :
  (forall k, (k < 3)%nat -> both (batch k three_pred three_label))
  /\ is_number (auc_model Jax 3 three_pred three_label) (23 # 24).
Proof.
  split.
  - intros k Hk. destruct k as [| [| [| k]]]; [| | | lia]; split; eexists; cbn; eauto 6.
  - eexists. split; [vm_compute; reflexivity | reflexivity].
Qed.

(* --------------------------------------------------------------- *)
(* Findings *)

(* The curve does not start at the origin: for constant scores the area is 0,
   not the 1/2 of a guess, whatever the samples. *)
Theorem C67_constant_refuted : forall (b : backend) (samples : list (Q * bool)) (v : Q),
  both samples ->
  (b = Numpy -> (v <= 1)%Q) ->
  (forall p, In p samples -> (fst p == v)%Q) ->
  is_number (auc_of b (map fst samples) (map snd samples)) 0
  /\ (statistic samples == 1 # 2)%Q.
Proof. exact constant_ok. Qed.

Example C67_constant_example :
  both [((1 # 2)%Q, true); ((1 # 2)%Q, false); ((1 # 2)%Q, true)].
Proof. split; eexists; cbn; eauto. Qed.

(* With the NumPy backend scores beyond one (logits) have area 0, whatever the
   ranking. *)
Theorem C67_logits_refuted : forall (samples : list (Q * bool)),
  both samples ->
  (forall p, In p samples -> (1 < fst p)%Q) ->
  is_number (auc_of Numpy (map fst samples) (map snd samples)) 0.
Proof. exact beyond_ok. Qed.

Example C67_logits_example :
  both [(3%Q, true); (2%Q, false)]
  /\ is_number (auc_of Numpy [3%Q; 2%Q] [true; false]) 0
  /\ is_number (auc_of Torch [3%Q; 2%Q] [true; false]) 1.
Proof.
  split; [split; eexists; cbn; eauto |].
  split; eexists; (split; [vm_compute; reflexivity | reflexivity]).
Qed.

(* And when only some scores exceed one, it is a number that is neither. *)
Theorem C67_mixed_refuted :
  exists samples, both samples
    /\ is_number (auc_of Numpy (map fst samples) (map snd samples)) (1 # 4)
    /\ is_number (auc_of Torch (map fst samples) (map snd samples)) (1 # 2)
    /\ (statistic samples == 1 # 2)%Q.
Proof.
  exists [(4%Q, true); (3%Q, true); (2%Q, false); ((1 # 2)%Q, true); ((1 # 2)%Q, true); ((3 # 4)%Q, false)].
  split; [split; eexists; cbn; eauto |].
  split; [| split].
  - eexists. split; [vm_compute; reflexivity | reflexivity].
  - eexists. split; [vm_compute; reflexivity | reflexivity].
  - reflexivity.
Qed.

(* A single class: label 0 counts as the positive one, so scores that separate
   the labels perfectly get 0. *)
Theorem C67_single_refuted : forall (b : backend) (samples : list (Q * nat)),
  (exists s, In (s, 0%nat) samples) -> (exists s, In (s, 1%nat) samples) ->
  (forall s l, In (s, l) samples -> l = 0%nat \/ l = 1%nat) ->
  (b = Numpy -> forall s, In s (map fst samples) -> (s <= 1)%Q) ->
  (forall s s', In (s, 0%nat) samples -> In (s', 1%nat) samples -> (s < s')%Q) ->
  is_number (auc_model_single b (map fst samples) (map snd samples)) 0.
Proof.
  intros b samples H0 H1 HL Hb H.
  set (l := map (fun s : Q * nat => (fst s, Nat.eqb (snd s) 0)) samples).
  assert (IT : forall s, In (s, true) l <-> In (s, 0%nat) samples).
  { intros s. unfold l. rewrite in_map_iff. split.
    - intros [[s' c] [E I]]. cbn in E. injection E as -> E.
      apply Nat.eqb_eq in E. subst c. exact I.
    - intros I. exists (s, 0%nat). split; [reflexivity | exact I]. }
  assert (IF : forall s, In (s, false) l <-> In (s, 1%nat) samples).
  { intros s. unfold l. rewrite in_map_iff. split.
    - intros [[s' c] [E I]]. cbn in E. injection E as -> E.
      apply Nat.eqb_neq in E. destruct (HL s c I) as [-> | ->]; [congruence | exact I].
    - intros I. exists (s, 1%nat). split; [reflexivity | exact I]. }
  assert (E1 : map fst l = map fst samples) by (unfold l; rewrite map_map; reflexivity).
  assert (E2 : map snd l = class_label 0 (map snd samples)).
  { unfold l, class_label. rewrite !map_map. reflexivity. }
  assert (A : is_number (auc_of b (map fst l) (map snd l)) 0).
  { apply reversed_ok.
    - destruct H0 as [s I]. destruct H1 as [s' I']. split.
      + exists s. apply IT. exact I.
      + exists s'. apply IF. exact I'.
    - rewrite E1. exact Hb.
    - intros s s' I I'. apply H; [apply IT; exact I | apply IF; exact I']. }
  rewrite E1, E2 in A. unfold auc_model_single. destruct A as [x [E V]].
  exists (x / 1)%Q. rewrite E. split; [reflexivity |]. rewrite V. reflexivity.
Qed.

Example C67_single_example :
  is_number (auc_model_single Torch [(1 # 10)%Q; (9 # 10)%Q] [0; 1]%nat) 0.
Proof. eexists. split; [vm_compute; reflexivity | reflexivity]. Qed.

(* A class without a sample in the batch makes the output nan, whatever the
   other classes. *)
Theorem C67_missing_refuted : forall (b : backend) (n : nat) (pred : list (list Q))
    (label : list nat) (k : nat),
  (k < n)%nat -> ~ In k label ->
  (exists row row', In row pred /\ In row' pred /\ ~ (nth k row 0 == nth k row' 0)%Q) ->
  auc_model b n pred label = None.
Proof.
  intros b n pred label k Hk HI [row [row' [H [H' HN]]]].
  apply (missing_class_ok b n pred label k Hk HI).
  exists (nth k row 0%Q), (nth k row' 0%Q). split; [| split]; [| | exact HN];
    unfold pred_class; apply (in_map (fun row => nth k row 0%Q)); assumption.
Qed.

Example C67_missing_example :
  auc_model Numpy 3 three_pred [0; 1; 1; 0]%nat = None.
Proof. reflexivity. Qed.

(* With constant scores the backends differ then: 0 with NumPy and PyTorch, nan
   with JAX. *)
Theorem C67_backends_refuted : forall (b : backend),
  auc_of b [(1 # 2)%Q; (1 # 2)%Q] [false; false]
    = match b with Jax => None | _ => Some 0%Q end.
Proof. intros []; reflexivity. Qed.

Print Assumptions C67_area.
Print Assumptions C67_exact.
Print Assumptions C67_rank.
Print Assumptions C67_order.
Print Assumptions C67_model.
Print Assumptions C67_constant_refuted.
Print Assumptions C67_logits_refuted.
Print Assumptions C67_mixed_refuted.
Print Assumptions C67_single_refuted.
Print Assumptions C67_missing_refuted.
Print Assumptions C67_backends_refuted.
