(** * Specification of polynomial features: all monomials up to a degree. *)
From Coq Require Import Reals List ZArith.
Import ListNotations.
Open Scope R_scope.
Open Scope list_scope.

Definition total (e : list nat) : nat := fold_right Nat.add 0%nat e.
(** The product of the [x j] to the powers [e]. *)
Fixpoint monomial (x : nat -> R) (e : list nat) : R :=
  match e with [] => 1 | k :: r => x 0%nat ^ k * monomial (fun j => x (S j)) r end.
(** Lower degree first, then by the exponents, the larger ones first. *)
Fixpoint before (a b : list nat) : Prop :=
  match a, b with k :: r, l :: s => (l < k)%nat \/ (k = l /\ before r s) | _, _ => False end.
Definition precedes (a b : list nat) : Prop := (total a < total b)%nat \/ (total a = total b /\ before a b).
(** The columns: the exponents of all monomials of degrees [1] to [degree] in [dims] variables, in order. *)
Definition all_monomials (dims degree : nat) (cols : list (list nat)) : Prop :=
  (forall e, In e cols <-> length e = dims /\ (1 <= total e <= degree)%nat) /\
  forall i j a b, (i < j)%nat -> nth_error cols i = Some a -> nth_error cols j = Some b -> precedes a b.
