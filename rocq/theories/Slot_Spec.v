(* What packing and unpacking mean, for sequences as lists of rows. *)

From Coq Require Import List Arith.
Import ListNotations.

(* Row i of every sequence that has one. *)
Definition step {V : Type} (i : nat) (seqs : list (list (list V))) : list (list V) :=
  map (fun s => nth i s []) (filter (fun s => i <? length s) seqs).

(* The longest length. *)
Definition longest {V : Type} (n : nat) (seqs : list (list (list V))) : Prop :=
  (exists s, In s seqs /\ length s = n) /\ forall s, In s seqs -> length s <= n.

(* A sequence filled up with rows of zeros. *)
Definition filled {V : Type} (zero : V) (width n : nat) (s : list (list V)) : list (list V) :=
  s ++ repeat (repeat zero width) (n - length s).
