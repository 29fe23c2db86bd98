(** * What a gradient function has to compute (specification of C50)

    Derivatives are the standard library's [derivable_pt_lim].  The tables below say where each
    operation has a derivative, in terms of the inputs only. *)
From Coq Require Import Reals List ZArith.
From Verif Require Import PyBase Deriv_Model.
Import ListNotations.
Open Scope R_scope.

(** [l] is the derivative of [f] from the right (from the left) at [x]. *)
Definition right_derivative (f : R -> R) (x l : R) : Prop :=
  forall eps, 0 < eps -> exists delta, 0 < delta /\
    forall h, 0 < h < delta -> Rabs ((f (x + h) - f x) / h - l) < eps.
Definition left_derivative (f : R -> R) (x l : R) : Prop :=
  forall eps, 0 < eps -> exists delta, 0 < delta /\
    forall h, - delta < h < 0 -> Rabs ((f (x + h) - f x) / h - l) < eps.
(** [v] lies between the two one-sided derivatives: what a gradient may be at a kink. *)
Definition between_sides (f : R -> R) (x v : R) : Prop :=
  exists l r, left_derivative f x l /\ right_derivative f x r /\ Rmin l r <= v <= Rmax l r.

Definition is_int (t : R) : Prop := exists n : Z, t = IZR n.
Definition is_pos_int (t : R) : Prop := exists n : Z, (0 < n)%Z /\ t = IZR n.

(** Where a function of one array is to be considered: its parameter is legal and the function is
    continuous at [x]. *)
Definition udomain (op : unop) (x : R) : Prop :=
  match op with
  | USqrt | ULog => 0 < x
  | USign => x <> 0
  | URobustSqrt thr | URobustLog thr => 0 < thr
  | UReciprocal thr => 0 < thr /\ x <> 0
  | _ => True
  end.
(** Where it has a kink. *)
Definition ukink (op : unop) (x : R) : Prop :=
  match op with
  | UAbs | URelu | URobustLog _ => x = 0
  | URobustSqrt thr => x = 0 \/ Rabs x = thr
  | _ => False
  end.

(** The same for a function of two arrays and its argument at index [idx]. *)
Definition bdomain (op : binop) (idx : nat) (a b : R) : Prop :=
  (idx = 0 \/ idx = 1)%nat /\
  match op with
  | BMul | BAdd | BSub | BSquaredError | BAbsoluteError | BLeakyRelu => True
  | BDiv => b <> 0
  | BPower =>
      match idx with
      | O => 0 < a \/ (a <> 0 /\ is_int b) \/ is_pos_int b
      | _ => 0 < a
      end
  | BQuantile q => 0 <= q <= 1
  | BHinge | BQuadHinge => idx = O
  | BBce _ robust thr => idx = O /\ if robust then 0 < thr else 0 < a < 1
  | BBceLogits _ robust thr => idx = O /\ (robust = true -> 0 < thr <= 1)
  | BKl thr => idx = O /\ 0 < thr
  | BRobustPower thr =>
      0 < thr /\ a <> 0 /\
      (thr < Rabs a \/ (Rabs a < thr /\ Rabs a <> 1 /\ b <> 1 - ln thr / ln (Rabs a)))
  end.
Definition bkink (op : binop) (idx : nat) (a b : R) : Prop :=
  match op with
  | BAbsoluteError | BQuantile _ => a = b
  | BLeakyRelu => idx = O /\ a = 0
  | BHinge => b * a = 1
  | BBce _ true _ => a = 0 \/ a = 1
  | BKl _ => a = 0
  | _ => False
  end.

(** The function of the argument at index [idx], the other one fixed. *)
Definition section_at (f : R -> R -> R) (idx : nat) (a b y : R) : R :=
  match idx with O => f y b | _ => f a y end.
Definition arg_at (idx : nat) (a b : R) : R := match idx with O => a | _ => b end.

(** Inner product, and the point [x + t * d] on the line through [x]. *)
Fixpoint dot (u v : list R) : R :=
  match u, v with a :: u', b :: v' => a * b + dot u' v' | _, _ => 0 end.
Fixpoint move (xs ds : list R) (t : R) : list R :=
  match xs, ds with x :: xs', d :: ds' => x + t * d :: move xs' ds' t | _, _ => [] end.
