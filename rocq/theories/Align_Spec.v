(** * Broadcasting of shapes: specification *)
From Coq Require Import List Arith ZArith.
Import ListNotations.
Open Scope list_scope. Open Scope nat_scope.

(** The [i]-th size from the end; missing sizes are one *)
Definition size_at (x : list Z) (i : nat) : Z := nth i (rev x) 1%Z.
(** [z] is the shape of an element-wise operation on shapes [x] and [y]: it has the larger rank, and at every place the sizes are equal
    or one of them is one and the other is that of the result. *)
Definition bcasts (x y z : list Z) : Prop :=
  length z = Nat.max (length x) (length y) /\
  forall i, i < length z -> (size_at x i = 1%Z /\ size_at z i = size_at y i) \/ (size_at y i = 1%Z /\ size_at z i = size_at x i) \/ (size_at x i = size_at y i /\ size_at z i = size_at x i).
