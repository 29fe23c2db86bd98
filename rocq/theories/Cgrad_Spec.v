(** * Specification of gradients in C memory. *)
From Coq Require Import Reals List ZArith.
From Verif Require Import PyBase Axis_Model Axis_Spec Move_Spec Carr_Model Carr_Spec.
Import ListNotations.
Open Scope R_scope.
Open Scope list_scope.

(** [call acc] adds to the array in [acc] the gradient, with respect to [x], of the sum of the entries of [F x]
    (over the shape [t]) weighted with [g]: along every direction the derivative is the product of that
    direction with the change of the array. *)
Definition adds_gradient (call : carr -> res carr) (F : arr -> list nat -> R) (t : list nat) (x g : arr) : Prop :=
  forall acc G0, stores acc G0 -> shape G0 = shape x ->
  exists c G, call acc = Ok c /\ stores c G /\ shape G = shape x /\
    forall dx, derivable_pt_lim (fun h => sum_over t (fun o => at_ g o * F (moved x dx h) o)) 0
                 (sum_over (shape x) (fun i => (at_ G i - at_ G0 i) * dx i)).
(** [call acc] replaces the array in [acc], whatever it was, by the gradient. *)
Definition sets_gradient (call : carr -> res carr) (F : arr -> list nat -> R) (t : list nat) (x g : arr) : Prop :=
  exists G, shape G = shape x /\
    (forall acc, buffer acc (shape x) -> exists c, call acc = Ok c /\ stores c G) /\
    forall dx, derivable_pt_lim (fun h => sum_over t (fun o => at_ g o * F (moved x dx h) o)) 0
                 (sum_over (shape x) (fun i => at_ G i * dx i)).
(** The functions. *)
Definition broadcast_op (op : R -> R -> R) (y : arr) (x : arr) (o : list nat) : R := op (at_ x (source (shape x) o)) (at_ y (source (shape y) o)).
Definition positive_part (x : arr) (i : list nat) : R := Rmax 0 (at_ x i).
Definition mean_into (A : list nat) (keep : bool) (x : arr) (o : list nat) : R :=
  sum_into A keep (shape x) o (at_ x) / count_into A keep (shape x) o.
(** The product of matrices of [m] columns and rows in batches [b]; the batches of the operands are [bx] and [by_]. *)
Definition product_at (b bx by_ : list nat) (m : nat) (x y : arr) (q : list nat) : R :=
  let o := firstn (length b) q in let i := nth (length b) q 0%nat in let j := nth (S (length b)) q 0%nat in
  sum_to m (fun k => at_ x (source bx o ++ [i; k]) * at_ y (source by_ o ++ [k; j])).
