(* What the area under the ROC curve is: the probability that a random
   positive sample has a higher score than a random negative one, draws
   counting one half (the Mann-Whitney statistic).  Nothing here mentions
   thresholds, rates or trapezoids. *)

From Coq Require Import QArith List ZArith Bool.
Import ListNotations.

(* The scores of the samples of one class. *)
Definition scores_of (c : bool) (samples : list (Q * bool)) : list Q :=
  map fst (filter (fun s => eqb (snd s) c) samples).

(* All pairs of a positive and a negative sample. *)
Definition pairs (samples : list (Q * bool)) : list (Q * Q) :=
  list_prod (scores_of true samples) (scores_of false samples).

Definition wins (samples : list (Q * bool)) : nat :=
  length (filter (fun p => negb (Qle_bool (fst p) (snd p))) (pairs samples)).

Definition draws (samples : list (Q * bool)) : nat :=
  length (filter (fun p => Qeq_bool (fst p) (snd p)) (pairs samples)).

(* A natural number as a rational one. *)
Definition q (n : nat) : Q := inject_Z (Z.of_nat n).

Definition statistic (samples : list (Q * bool)) : Q :=
  ((q (wins samples) + q (draws samples) / 2) / q (length (pairs samples)))%Q.

(* The pairs in which both samples have the highest score of all. *)
Definition top_pairs (samples : list (Q * bool)) : nat :=
  length (filter (fun p =>
      forallb (fun s => Qle_bool (fst s) (fst p)) samples &&
      forallb (fun s => Qle_bool (fst s) (snd p)) samples) (pairs samples)).

(* Both classes occur. *)
Definition both (samples : list (Q * bool)) : Prop :=
  (exists s, In (s, true) samples) /\ (exists s, In (s, false) samples).

(* An area is a number, and which one. *)
Definition is_number (a : option Q) (v : Q) : Prop :=
  exists x, a = Some x /\ (x == v)%Q.
