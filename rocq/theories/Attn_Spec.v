(** * Specification of matrix multiplication and attention. *)
From Coq Require Import Reals List ZArith.
From Verif Require Import PyBase Axis_Model Axis_Spec Move_Spec Select_Model Select_Spec Attn_Model.
Import ListNotations.
Open Scope R_scope.
Open Scope list_scope.

(** Entry [i, j] of the product of the matrices that are repeated at the batch index [o]. *)
Definition product_at (x y : arr) (bx by_ : list nat) (m : nat) (o : list nat) (i j : nat) : R :=
  sum_to m (fun k => at_ x (source bx o ++ [i; k]) * at_ y (source by_ o ++ [k; j])).

(** What is added to the score of position [s] for query [l], batch index [o]; [None] excludes the position. *)
Definition bias_at (is_causal : bool) (m : mask) (o : list nat) (l s : nat) : option R :=
  match m with
  | MNone => if is_causal then (if le_dec s l then Some 0 else None) else Some 0
  | MBool c => if bool_at c (source (bshape c) (o ++ [l; s])) then Some 0 else None
  | MAdd a => eat a (source (eshape a) [l; s])
  end.
(** The masks that are accepted for batch shape [b], [nq] queries and [nk] positions. *)
Definition fitting (b : list nat) (nq nk : nat) (is_causal : bool) (m : mask) : Prop :=
  match m with
  | MNone => True
  | MBool c => is_causal = false /\ spreads (bshape c) (b ++ [nq; nk])
  | MAdd a => is_causal = false /\ spreads (eshape a) [nq; nk]
  end.
Definition factor_of (e : nat) (scale : option R) : R := match scale with Some c => c | None => 1 / sqrt (INR e) end.
Definition strength (q k : arr) (e : nat) (c : R) (o : list nat) (l s : nat) (bias : option R) : R :=
  match bias with
  | Some b => exp (c * sum_to e (fun i => at_ q (o ++ [l; i]) * at_ k (o ++ [s; i])) + b)
  | None => 0
  end.
(** The weight of position [s] for query [l]. *)
Definition weight (q k : arr) (e nk : nat) (c : R) (is_causal : bool) (m : mask) (o : list nat) (l s : nat) : R :=
  strength q k e c o l s (bias_at is_causal m o l s) /
  sum_to nk (fun r => strength q k e c o l r (bias_at is_causal m o l r)).
Definition output_of (r : res (arr * R * arr)) : res arr :=
  match r with Ok (_, _, y) => Ok y | Err e => Err e end.
