(** * Specification of arrays in C memory: which array a buffer stores. *)
From Coq Require Import Reals List ZArith.
From Verif Require Import PyBase Axis_Model Axis_Spec Move_Spec Carr_Model.
Import ListNotations.
Open Scope R_scope.
Open Scope list_scope.

(** The distance in memory between neighbours along each axis, in row-major order. *)
Fixpoint row_major (s : list nat) : list nat :=
  match s with [] => [] | _ :: r => volume r :: row_major r end.
(** [c] holds exactly the entries of [x] in row-major order. *)
Definition stores (c : carr) (x : arr) : Prop :=
  c_shape c = shape x /\ c_strides c = row_major (shape x) /\ c_data c = entries x.
(** [c] has room for an array of shape [s], whatever it holds now. *)
Definition buffer (c : carr) (s : list nat) : Prop :=
  c_shape c = s /\ c_strides c = row_major s /\ length (c_data c) = volume s.
(** The result is an array of shape [s] with the entries [f]. *)
Definition writes (r : res carr) (s : list nat) (f : list nat -> R) : Prop :=
  exists c, r = Ok c /\ stores c (mka s f).
(** The access is outside of the memory of an array. *)
Definition out_of_bounds {A} (r : res A) : Prop := r = Err IndexError.

(** [b] repeats along axes of [t] only in front: missing axes and axes of size 1, then the sizes of [t]. *)
Definition leading (b t : list nat) : Prop :=
  exists u k v, t = u ++ v /\ b = repeat 1%nat k ++ v /\ (k <= length u)%nat.
(** The axes are those from number [m] on. *)
Definition trailing (r : nat) (A : list nat) : Prop := exists m, forall k, (k < r)%nat -> (In k A <-> (m <= k)%nat).
Definition front_axes (axes : option (list Z)) (A : list nat) (r : nat) : Prop :=
  match axes with
  | None => A = seq 0 r
  | Some zs => NoDup A /\ zs = map Z.of_nat A /\ forall k, In k A -> (k < r)%nat
  end.
