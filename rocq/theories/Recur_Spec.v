(* What recurrent models mean for a single sequence. *)

From Coq Require Import List Arith.
Import ListNotations.

Section S.
  Variables X St : Type.
  Variable next : X -> St -> St.
  Variable out : St -> X.

  (* The state after a sequence. *)
  Definition final (s : St) (l : list X) : St := fold_left (fun s x => next x s) l s.

  (* The state after t further steps fed with the own outputs. *)
  Fixpoint free (s : St) (x : X) (t : nat) : St :=
    match t with
    | 0 => next x s
    | S t' => next (out (free s x t')) (free s x t')
    end.
End S.

(* Entry t of every sequence that has one. *)
Definition entries {X : Type} (t : nat) (seqs : list (list X)) : list X :=
  flat_map (fun s => match nth_error s t with Some x => [x] | None => [] end) seqs.

(* Longest first. *)
Fixpoint descending {X : Type} (seqs : list (list X)) : Prop :=
  match seqs with
  | [] => True
  | s :: r => (forall s', In s' r -> length s' <= length s) /\ descending r
  end.

Definition longest {X : Type} (n : nat) (seqs : list (list X)) : Prop :=
  (exists s, In s seqs /\ length s = n) /\ forall s, In s seqs -> length s <= n.
