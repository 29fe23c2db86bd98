(** * Entries and slices of Python lists and tuples *)
From Coq Require Import List String ZArith.
From Verif Require Import PyBase Inter_Model Item_Model.
Import ListNotations.
Open Scope string_scope. Open Scope list_scope.

(** Index [i] means position [p] of [n] entries; negative indices count from the end. *)
Definition position (n : nat) (i : Z) (p : nat) : Prop := p < n /\ (i = Z.of_nat p \/ i = Z.of_nat p - Z.of_nat n)%Z.
(** The bounds of a slice (Python, Common Sequence Operations, notes 3 to 5) *)
Definition edge (n c x : Z) : Z :=
  let x := (if x <? 0 then x + n else x)%Z in
  if (c <? 0)%Z then Z.max (-1) (Z.min (n - 1) x) else Z.max 0 (Z.min n x).
Definition first_of (n c : Z) (start : option Z) : Z := match start with Some x => edge n c x | None => if (c <? 0)%Z then (n - 1)%Z else 0%Z end.
Definition end_of (n c : Z) (stop : option Z) : Z := match stop with Some x => edge n c x | None => if (c <? 0)%Z then (-1)%Z else n end.
(** The positions are first, first + step, ... as long as the end is not reached. *)
Definition reads (n : nat) (start stop step : option Z) (ps : list nat) : Prop :=
  let c := match step with Some c => c | None => 1%Z end in
  let a := first_of (Z.of_nat n) c start in let b := end_of (Z.of_nat n) c stop in
  c <> 0%Z /\ forall k p, nth_error ps k = Some p <-> (Z.of_nat p = a + Z.of_nat k * c)%Z /\ (if (c <? 0)%Z then (b < Z.of_nat p)%Z else (Z.of_nat p < b)%Z).
Definition selects {A} (l : list A) (ps : list nat) (r : list A) : Prop := Forall2 (fun p x => nth_error l p = Some x) ps r.
(** [v[i]] is [r]. *)
Inductive picks : value -> index -> value -> Prop :=
| p_list l i p x : position (List.length l) i p -> nth_error l p = Some x -> picks (VList l) (IAt i) x
| p_tuple l i p x : position (List.length l) i p -> nth_error l p = Some x -> picks (VTuple l) (IAt i) x
| p_lists l a b c ps r : reads (List.length l) a b c ps -> selects l ps r -> picks (VList l) (ISlice a b c) (VList r)
| p_tuples l a b c ps r : reads (List.length l) a b c ps -> selects l ps r -> picks (VTuple l) (ISlice a b c) (VTuple r).
(** The type of the entry or slice *)
Inductive type_at : ty -> index -> ty -> Prop :=
| t_list t i : type_at (TGen "list" [t]) (IAt i) t
| t_lists t a b c : type_at (TGen "list" [t]) (ISlice a b c) (TGen "list" [t])
| t_tuple ts i p t : ~ In TDots ts -> position (List.length ts) i p -> nth_error ts p = Some t -> type_at (TGen "tuple" ts) (IAt i) t
| t_tuples ts a b c ps us : ~ In TDots ts -> reads (List.length ts) a b c ps -> selects ts ps us -> type_at (TGen "tuple" ts) (ISlice a b c) (TGen "tuple" us)
| t_many t a b c : type_at (TGen "tuple" [t; TDots]) (ISlice a b c) (TGen "tuple" [t; TDots]).
(** Inputs and indices for which the inference is right: one list type or one type of tuples, a known index, and for tuples of any length not index 0. *)
Inductive covered : ty -> index -> Prop :=
| c_list t i : i <> IOpen -> covered (TGen "list" [t]) i
| c_tuple ts i : ~ In TDots ts -> i <> IOpen -> covered (TGen "tuple" ts) i
| c_slice t a b c : covered (TGen "tuple" [t; TDots]) (ISlice a b c)
| c_at t k : k <> 0%Z -> t <> TTBD -> covered (TGen "tuple" [t; TDots]) (IAt k).
