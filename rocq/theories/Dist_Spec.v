(** * Specification of distances, the norm wave and triangular systems. *)
From Coq Require Import Reals List ZArith.
From Verif Require Import Axis_Model Axis_Spec.
Import ListNotations.
Open Scope R_scope.
Open Scope list_scope.

(** The absolute value of [x] to the power [p > 0]. *)
Definition abs_power (x p : R) : R := if Req_EM_T x 0 then 0 else exp (p * ln (Rabs x)).
(** The entry [i, j] of the distances between the rows of two matrices of [d] columns. *)
Definition distance_at (l r : arr) (d : nat) (p : R) (i j : nat) : R :=
  sum_to d (fun k => abs_power (at_ l [i; k] - at_ r [j; k]) p).
(** No coordinates agree. *)
Definition apart (l r : arr) (n m d : nat) : Prop :=
  forall i j k, (i < n)%nat -> (j < m)%nat -> (k < d)%nat -> at_ l [i; k] <> at_ r [j; k].

(** Zeros above the diagonal, none on it. *)
Definition lower (L : arr) (n : nat) : Prop :=
  shape L = [n; n] /\ (forall i, (i < n)%nat -> at_ L [i; i] <> 0) /\
  forall i j, (i < j)%nat -> (j < n)%nat -> at_ L [i; j] = 0.
(** [L v = K]. *)
Definition solves (L v K : arr) (n m : nat) : Prop :=
  shape v = [n; m] /\
  forall i c, (i < n)%nat -> (c < m)%nat -> sum_to n (fun j => at_ L [i; j] * at_ v [j; c]) = at_ K [i; c].
