(** * Specification of the cross entropy losses. *)
From Coq Require Import Reals List ZArith.
From Verif Require Import PyBase Corr_Spec Xent_Model.
Import ListNotations.
Open Scope R_scope.
Open Scope list_scope.

(** Label [z] means class [k] of [c]. *)
Definition class_of (c : nat) (z : Z) (k : nat) : Prop :=
  (k < c)%nat /\ (z = Z.of_nat k \/ z = Z.of_nat k - Z.of_nat c)%Z.
(** The mass the target puts on class [k] at sample [i] and place [j]. *)
Definition mass (c : nat) (t : target) (i k j : nat) : R :=
  match t with
  | Labels l => if Z.eq_dec (l i j) (Z.of_nat k) then 1
                else if Z.eq_dec (l i j) (Z.of_nat k - Z.of_nat c) then 1 else 0
  | Probs p => p i k j
  end.
Definition is_labels (t : target) : bool := match t with Labels _ => true | Probs _ => false end.
(** An input of rank 2 has one place per sample; labels name classes. *)
Definition fits (x : input3) (t : target) : Prop :=
  (flat x = true -> nd x = 1%nat) /\
  match t with
  | Labels l => forall i j, (i < nn x)%nat -> (j < nd x)%nat -> exists k, class_of (nc x) (l i j) k
  | Probs _ => True
  end.
(** The total mass on a class, and on all. *)
Definition class_mass (x : input3) (t : target) (k : nat) : R :=
  total (nn x) (fun i => total (nd x) (fun j => mass (nc x) t i k j)).
Definition all_mass (x : input3) (t : target) : R := total (nc x) (class_mass x t).
(** [W] is the weight of each class: 1, the given one, or balancing ([True]; an input of rank 3 with labels is
    excluded, classes without mass have no weight). *)
Definition weights_are (x : input3) (t : target) (w : weights_arg) (W : nat -> R) : Prop :=
  match w with
  | WBool false => forall k, (k < nc x)%nat -> W k = 1
  | WBool true =>
      (is_labels t = true -> flat x = true) /\
      (forall k, (k < nc x)%nat -> class_mass x t k <> 0 -> W k = all_mass x t / (INR (nc x) * class_mass x t k)) /\
      (is_labels t = false -> forall k, (k < nc x)%nat -> class_mass x t k <> 0)
  | WList l => length l = nc x /\ forall k, (k < nc x)%nat -> W k = nth k l 0
  | WNested => False
  end.

(** Cross entropy: minus the weighted mean of the logarithms [lg] of the predicted probabilities. *)
Definition entropy (x : input3) (t : target) (W : nat -> R) (lg : nat -> nat -> nat -> R) (i j : nat) : R :=
  - total (nc x) (fun k => mass (nc x) t i k j * W k * lg i k j).
Definition log_softmax (x : input3) (i k j : nat) : R :=
  xat x i k j - ln (total (nc x) (fun k' => exp (xat x i k' j))).
(** The logarithm continued below [thr] by its tangent. *)
Definition tangent_log (thr v : R) : R := if Rlt_dec (Rabs v) thr then ln thr + Rabs v / thr - 1 else ln (Rabs v).
Definition spec_log (robust : bool) (thr v : R) : R := if robust then tangent_log thr v else ln v.

Definition shifted (x : input3) (dx : nat -> nat -> nat -> R) (s : R) : input3 :=
  mki (nn x) (nc x) (nd x) (flat x) (fun i k j => xat x i k j + s * dx i k j).
Definition computes_loss (r : res (output2 * list R)) (x : input3) (f : nat -> nat -> R) : Prop :=
  exists o ws, r = Ok (o, ws) /\ on o = nn x /\ od o = nd x /\
    forall i j, (i < nn x)%nat -> (j < nd x)%nat -> oat o i j = f i j.
Definition weighted_sum (x : input3) (g : nat -> nat -> R) (r : res (output2 * list R)) : R :=
  match r with
  | Ok (o, _) => total (nn x) (fun i => total (nd x) (fun j => g i j * oat o i j))
  | Err _ => 0
  end.
(** [G] is the vector-Jacobian product of the loss [F] at [x] with the output gradient [g]. *)
Definition loss_gradient (F : input3 -> res (output2 * list R)) (x : input3) (g : nat -> nat -> R)
  (G : nat -> nat -> nat -> R) : Prop :=
  forall dx, derivable_pt_lim (fun s => weighted_sum x g (F (shifted x dx s))) 0
    (total (nn x) (fun i => total (nc x) (fun k => total (nd x) (fun j => G i k j * dx i k j)))).
