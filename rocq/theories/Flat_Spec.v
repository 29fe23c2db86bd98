(** * squeeze, broadcast_to and flatten: specification *)
From Coq Require Import List Arith Bool ZArith.
Import ListNotations.
Open Scope list_scope. Open Scope nat_scope.

(** Removing the axes of size one *)
Inductive squeezes : list Z -> list Z -> Prop :=
| sq_nil : squeezes [] []
| sq_one x y : squeezes x y -> squeezes (1%Z :: x) y
| sq_keep n x y : n <> 1%Z -> squeezes x y -> squeezes (n :: x) (n :: y).
(** An array of shape [x] can be repeated to shape [y]: the last sizes are equal, or one. *)
Definition stretches (x y : list Z) : Prop := exists front back, y = front ++ back /\ Forall2 (fun a b => a = 1%Z \/ a = b) x back.
(** A shape with the sizes that are given *)
Definition as_given (sv : list (option Z)) (y : list Z) : Prop := Forall2 (fun v n => match v with Some z => n = z | None => True end) sv y.
(** [z] stands for axis number [k] of [n] axes: counted from the end if negative; a position that is not given is arbitrary. *)
Definition stands_for (n : nat) (z : option Z) (k : nat) : Prop := match z with Some z => z = Z.of_nat k \/ z = (Z.of_nat k - Z.of_nat n)%Z | None => True end.
(** The axes [mid], from position [st] to position [en], are joined to one. *)
Definition flattens (st en : option Z) (x y : list Z) : Prop :=
  exists front mid back, x = front ++ mid ++ back /\ mid <> [] /\ y = front ++ fold_right Z.mul 1%Z mid :: back /\
    stands_for (length x) st (length front) /\ stands_for (length x) en (length front + length mid - 1).
(** ... and there is more than one of them *)
Definition joins_axes (st en : option Z) (x y : list Z) : Prop := flattens st en x y /\ length y < length x.
