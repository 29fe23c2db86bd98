(** * Padding, transposing and the shape of the identity matrix: specification *)
From Coq Require Import List Arith ZArith.
Import ListNotations.
Open Scope list_scope. Open Scope nat_scope.

(** Every size grows by the padding in front and behind. *)
Inductive pads_to : list (Z * Z) -> list Z -> list Z -> Prop :=
| pt_nil : pads_to [] [] []
| pt_cons l r p n x m y : m = (n + l + r)%Z -> pads_to p x y -> pads_to ((l, r) :: p) (n :: x) (m :: y).
(** A padding that is as far as given that *)
Definition given (o : option Z) (z : Z) : Prop := match o with Some y => z = y | None => True end.
Definition pads_given (ps : list (option (option Z * option Z))) (p : list (Z * Z)) : Prop :=
  Forall2 (fun g lr => match g with Some (a, b) => given a (fst lr) /\ given b (snd lr) | None => True end) ps p.
Definition pads_exactly (p : list (Z * Z)) : list (option (option Z * option Z)) := map (fun lr => Some (Some (fst lr), Some (snd lr))) p.
Definition not_negative (p : list (Z * Z)) : Prop := Forall (fun lr => 0 <= fst lr /\ 0 <= snd lr)%Z p.
(** Transposing: the [k]-th size of the result is that of axis [axes k]; counted from the end if negative *)
Definition transposes (axes : list Z) (x y : list Z) : Prop :=
  length x = length axes /\ length y = length axes /\
  (forall k a, nth_error axes k = Some a -> (0 <= a < Z.of_nat (length x))%Z /\ nth_error y k = nth_error x (Z.to_nat a)) /\ NoDup axes.
Definition counted (n : nat) (a : Z) : Z := if (a <? 0)%Z then (a + Z.of_nat n)%Z else a.
Definition axes_given (gs : list (option Z)) (axes : list Z) : Prop := Forall2 (fun g a => match g with Some z => a = counted (length gs) z | None => True end) gs axes.
(** Rows and columns of an identity matrix, as far as given; it is square if the number of columns is [None]. *)
Definition eye_sizes (N : option Z) (M : option (option Z)) (n m : Z) : Prop := given N n /\ match M with Some (Some z) => m = z | Some None => m = n | None => True end.
