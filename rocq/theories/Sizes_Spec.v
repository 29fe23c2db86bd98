(** * Sizes of shapes: specification *)
From Coq Require Import List Arith ZArith.
Import ListNotations.
Open Scope list_scope. Open Scope nat_scope.

(** The size of an axis, counted from the end if negative, or of all axes *)
Definition size_is (d : option Z) (x : list Z) (n : Z) : Prop :=
  match d with
  | Some a => exists k, k < length x /\ (a = Z.of_nat k \/ a = Z.of_nat k - Z.of_nat (length x))%Z /\ nth_error x k = Some n
  | None => n = fold_right Z.mul 1%Z x
  end.
(** A value, or a tuple, that is as far as known that *)
Definition known_to_be (o : option Z) (n : Z) : Prop := match o with Some m => n = m | None => True end.
Definition tuple_is (o : option (list (option Z))) (x : list Z) : Prop := match o with Some l => Forall2 known_to_be l x | None => True end.
(** The axis and the size, as far as known, are possible for a shape. *)
Definition size_given (dim : option (option Z)) (out : option Z) (x : list Z) : Prop :=
  exists d n, (match dim with Some d' => d = d' | None => True end) /\ known_to_be out n /\ size_is d x n.
