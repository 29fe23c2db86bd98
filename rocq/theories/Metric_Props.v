(* C69: classification metrics compute the textbook quantities. *)

From Coq Require Import QArith List ZArith Bool Lia Lqa.
From Verif Require Import Metric_Model Metric_Spec Metric_Proofs.
Import ListNotations.

(* Accuracy is the share of samples whose class is predicted. *)
Theorem C69_accuracy : forall l, accuracy l == correct l / size l.
Proof. intros l. unfold accuracy. rewrite total_hit, n_element_size. reflexivity. Qed.

(* average="micro": the counts pooled over any classes covering the batch give
   precision and recall, and both are the result. *)
Theorem C69_micro : forall l cs, NoDup cs ->
  (forall p t, In (p, t) l -> In p cs /\ In t cs) ->
  micro l == sum (fun k => found k l) cs / sum (fun k => predicted k l) cs /\
  micro l == sum (fun k => found k l) cs / sum (fun k => actual k l) cs /\
  micro l == correct l / size l.
Proof.
  intros l cs ND H.
  assert (E : micro l == correct l / size l) by (unfold micro; rewrite hit_miss, total_hit; reflexivity).
  assert (H1 : forall t, In t (map snd l) -> In t cs).
  { intros t Ht. apply in_map_iff in Ht. destruct Ht as [[p t'] [<- Hx]]. apply (H p t' Hx). }
  assert (H2 : forall t, In t (map fst l) -> In t cs).
  { intros t Ht. apply in_map_iff in Ht. destruct Ht as [[p t'] [<- Hx]]. apply (H p t' Hx). }
  rewrite (sum_found l cs ND H1), (sum_actual l cs ND H1), (sum_predicted l cs ND H2).
  split; [exact E | split; exact E].
Qed.

(* average="macro": the mean over the classes that occur among the labels. *)
Theorem C69_macro : forall n l cs,
  (forall t, In t (map snd l) -> (0 <= t < Z.of_nat n)%Z) ->
  NoDup cs -> (forall k, In k cs <-> In k (map snd l)) ->
  macro Precision n l == sum (fun k => precision k l) cs / inject_Z (Z.of_nat (length cs)) /\
  macro Recall n l == sum (fun k => recall k l) cs / inject_Z (Z.of_nat (length cs)) /\
  macro F1 n l == sum (fun k => f1 k l) cs / inject_Z (Z.of_nat (length cs)).
Proof.
  intros n l cs Hr ND Hc.
  split; [exact (macro_wanted Precision n l cs Hr ND Hc)|].
  split; [exact (macro_wanted Recall n l cs Hr ND Hc) | exact (macro_wanted F1 n l cs Hr ND Hc)].
Qed.

(* average="weighted": the mean weighted by the share of samples of the class. *)
Theorem C69_weighted : forall n l cs,
  (forall t, In t (map snd l) -> (0 <= t < Z.of_nat n)%Z) ->
  NoDup cs -> (forall k, In k cs <-> In k (map snd l)) ->
  weighted Precision n l == sum (fun k => actual k l / size l * precision k l) cs /\
  weighted Recall n l == sum (fun k => actual k l / size l * recall k l) cs /\
  weighted F1 n l == sum (fun k => actual k l / size l * f1 k l) cs.
Proof.
  intros n l cs Hr ND Hc.
  split; [exact (weighted_wanted Precision n l cs Hr ND Hc)|].
  split; [exact (weighted_wanted Recall n l cs Hr ND Hc) | exact (weighted_wanted F1 n l cs Hr ND Hc)].
Qed.

(* The weighted recall is the accuracy. *)
Theorem C69_weighted_recall : forall n l,
  (forall t, In t (map snd l) -> (0 <= t < Z.of_nat n)%Z) ->
  weighted Recall n l == accuracy l.
Proof.
  intros n l Hr. rewrite C69_accuracy. apply weighted_recall_accuracy. exact Hr.
Qed.

(* Formatting: a row of scores stands for the first class of highest score, and
   a score for class 1 exactly if it is above the threshold. *)
Theorem C69_format : forall t b rows scores,
  (forall r, In r rows -> r <> []) ->
  (exists ps, format_pred (Some t) b true (Rows rows) = Some ps /\
     format_label true (Rows rows) = Some ps /\
     Forall2 (fun r p => exists i v, p = Z.of_nat i /\ nth_error r i = Some v /\
       (forall j x, nth_error r j = Some x -> x <= v) /\
       (forall j x, (j < i)%nat -> nth_error r j = Some x -> x < v)) rows ps) /\
  (exists ps, format_pred (Some t) true false (Scores scores) = Some ps /\
     Forall2 (fun x p => (t < x /\ p = 1%Z) \/ (x <= t /\ p = 0%Z)) scores ps).
Proof.
  intros t b rows scores H. split.
  - exists (map argmax rows). split; [destruct b; reflexivity|]. split; [reflexivity|].
    induction rows as [|r rs IH]; cbn [map]; constructor.
    + apply argmax_spec. apply H. left. reflexivity.
    + apply IH. intros r' Hr. apply H. right. exact Hr.
  - eexists. split; [reflexivity|]. induction scores as [|x xs IH]; cbn [map]; constructor; [|exact IH].
    destruct (Qle_bool x t) eqn:E; cbn [negb].
    + right. split; [apply Qle_bool_iff, E | reflexivity].
    + left. split; [|reflexivity]. apply Qnot_le_lt. intro HH. apply Qle_bool_iff in HH. congruence.
Qed.

(* FINDING.  For a binary task the default average does not give the precision
   or recall of the positive class, but counts every correct negative as a true
   positive and every wrong sample as a false positive. *)
Theorem C69_binary_refuted :
  (forall l, micro l == accuracy l) /\
  exists t scores labels ps,
    format_pred (Some t) true false (Scores scores) = Some ps /\
    precision 1 (combine ps labels) == 1 /\ recall 1 (combine ps labels) == 1 # 3 /\
    micro (combine ps labels) == 1 # 2.
Proof.
  split.
  - intros l. rewrite C69_accuracy. unfold micro. rewrite hit_miss, total_hit. reflexivity.
  - exists (1 # 2), [(9 # 10); (1 # 10); (2 # 10); (1 # 10)], [1; 1; 1; 0]%Z.
    eexists. split; [reflexivity|]. vm_compute. repeat split.
Qed.

(* FINDING.  A binary metric demands a threshold, but with one-hot predictions,
   the default, it is ignored. *)
Theorem C69_threshold_refuted : forall t t' p,
  format_pred None true true p = None /\
  format_pred (Some t) true true p = format_pred (Some t') true true p.
Proof. intros t t' p. split; [reflexivity|]. destruct p; reflexivity. Qed.

(* FINDING.  Predictions of a class absent from the labels do not count in the
   macro average: a wrong prediction leaves the macro precision at 1, whereas
   over the classes predicted or labelled it is 1/2. *)
Theorem C69_absent_refuted :
  exists n l, (forall p t, In (p, t) l -> (0 <= p < Z.of_nat n)%Z /\ (0 <= t < Z.of_nat n)%Z) /\
    macro Precision n l == 1 /\ accuracy l == 1 # 2 /\
    (precision 0 l + precision 1 l) / 2 == 1 # 2.
Proof.
  exists 2%nat, [(0, 0); (1, 0)]%Z. split.
  - intros p t [E|[E|[]]]; injection E as <- <-; cbn; lia.
  - vm_compute. repeat split.
Qed.

(* FINDING.  A label outside range(n_classes) counts in the divisors only, so
   that even perfect predictions score below 1, silently. *)
Theorem C69_range_refuted :
  exists n l, (forall p t, In (p, t) l -> p = t) /\ accuracy l == 1 /\
    macro Precision n l == 1 # 2 /\ weighted Recall n l == 1 # 2 /\ micro l == 1.
Proof.
  exists 2%nat, [(1, 1); (2, 2)]%Z. split.
  - intros p t [E|[E|[]]]; injection E as <- <-; reflexivity.
  - vm_compute. repeat split.
Qed.

(* A batch of six samples of three classes. *)
Example C69_ex :
  let l := [(0, 0); (1, 1); (1, 0); (2, 2); (0, 2); (2, 2)]%Z in
  (forall t, In t (map snd l) -> (0 <= t < Z.of_nat 3)%Z) /\
  accuracy l == 2 # 3 /\ micro l == 2 # 3 /\
  macro Precision 3 l == 2 # 3 /\ macro Recall 3 l == 13 # 18 /\
  weighted Precision 3 l == 3 # 4 /\ weighted Recall 3 l == 2 # 3 /\
  macro F1 3 l == 59 # 90.
Proof.
  cbn zeta. split.
  - cbn. intros t H. repeat destruct H as [H|H]; try contradiction; lia.
  - vm_compute. repeat split.
Qed.

Example C69_format_ex :
  format_pred (Some (1 # 2)) true false (Scores [(1 # 2); (3 # 4); 0]) = Some [0; 1; 0]%Z /\
  format_pred None false true (Rows [[1 # 3; 2 # 3; 2 # 3]; [1; 0; 0]]) = Some [1; 0]%Z.
Proof. split; reflexivity. Qed.

Print Assumptions C69_accuracy.
Print Assumptions C69_micro.
Print Assumptions C69_macro.
Print Assumptions C69_weighted.
Print Assumptions C69_weighted_recall.
Print Assumptions C69_format.
Print Assumptions C69_binary_refuted.
Print Assumptions C69_threshold_refuted.
Print Assumptions C69_absent_refuted.
Print Assumptions C69_range_refuted.
