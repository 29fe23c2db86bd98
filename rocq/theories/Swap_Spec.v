(** * Exchanging two axes: specification *)
From Coq Require Import List Arith ZArith.
Import ListNotations.
Open Scope list_scope. Open Scope nat_scope.

(** An axis, counted from the end if negative, is position [k] of [n] axes. *)
Definition axis_at (n : nat) (a : Z) (k : nat) : Prop := k < n /\ (a = Z.of_nat k \/ a = Z.of_nat k - Z.of_nat n)%Z.
(** The sizes after exchanging two axes *)
Definition swaps (a b : Z) (x y : list Z) : Prop := length y = length x /\ exists i j, axis_at (length x) a i /\ axis_at (length x) b j /\
  nth_error y i = nth_error x j /\ nth_error y j = nth_error x i /\ forall k, k <> i -> k <> j -> nth_error y k = nth_error x k.
(** ... one of which may be unknown *)
Definition swaps_given (a b : option Z) (x y : list Z) : Prop :=
  exists a' b', (match a with Some z => a' = z | None => True end) /\ (match b with Some z => b' = z | None => True end) /\ swaps a' b' x y.
