(** * Specification of reductions along axes, softmax and vector-Jacobian products, any rank. *)
From Coq Require Import Reals List ZArith.
From Verif Require Import PyBase Axis_Model.
Import ListNotations.
Open Scope R_scope.
Open Scope list_scope.

(** Sum over a number of terms, and over all multi-indices of a shape. *)
Definition sum_to (n : nat) (f : nat -> R) : R := fold_right Rplus 0 (map f (seq 0 n)).
Fixpoint sum_over (s : list nat) (f : list nat -> R) : R :=
  match s with
  | [] => f []
  | d :: r => sum_to d (fun k => sum_over r (fun i => f (k :: i)))
  end.
Fixpoint product_over (s : list nat) (f : list nat -> R) : R :=
  match s with
  | [] => f []
  | d :: r => fold_right Rmult 1 (map (fun k => product_over r (fun i => f (k :: i))) (seq 0 d))
  end.

(** A multi-index within a shape. *)
Definition inside (s i : list nat) : Prop := Forall2 (fun d k => (k < d)%nat) s i.
Definition positive (s : list nat) : Prop := forall d, In d s -> (0 < d)%nat.

(** The axes an axis argument names, for an array of rank [r]. *)
Definition names (r : nat) (z : Z) (k : nat) : Prop :=
  (k < r)%nat /\ (z = Z.of_nat k \/ z = Z.of_nat k - Z.of_nat r)%Z.
Definition axes_of (r : nat) (a : axis_arg) (A : list nat) : Prop :=
  match a with
  | ANone => A = seq 0 r
  | AInt z => exists k, A = [k] /\ names r z k
  | ATuple zs => NoDup A /\ Forall2 (names r) zs A
  end.

(** The place in the result of an entry of the input: the coordinates on the axes that are not reduced,
    those on the axes that are reduced being left out, or 0 if they are kept. *)
Definition numbered (l : list nat) : list (nat * nat) := combine (seq 0 (length l)) l.
Definition place (A : list nat) (keep : bool) (i : list nat) : list nat :=
  if keep then map (fun p => if in_dec Nat.eq_dec (fst p) A then 0%nat else snd p) (numbered i)
  else map snd (filter (fun p => if in_dec Nat.eq_dec (fst p) A then false else true) (numbered i)).
Definition result_shape (A : list nat) (keep : bool) (s : list nat) : list nat :=
  if keep then map (fun p => if in_dec Nat.eq_dec (fst p) A then 1%nat else snd p) (numbered s)
  else map snd (filter (fun p => if in_dec Nat.eq_dec (fst p) A then false else true) (numbered s)).

Definition same_place (i j : list nat) : bool := if list_eq_dec Nat.eq_dec i j then true else false.
(** Sum and product of the entries that are reduced into [o]. *)
Definition sum_into (A : list nat) (keep : bool) (s o : list nat) (f : list nat -> R) : R :=
  sum_over s (fun i => if same_place (place A keep i) o then f i else 0).
Definition product_into (A : list nat) (keep : bool) (s o : list nat) (f : list nat -> R) : R :=
  product_over s (fun i => if same_place (place A keep i) o then f i else 1).
Definition count_into (A : list nat) (keep : bool) (s o : list nat) : R := sum_into A keep s o (fun _ => 1).
(** [v] is the greatest (for [le] the order of the reals) of the entries reduced into [o]. *)
Definition best_into (le : R -> R -> Prop) (A : list nat) (keep : bool) (s o : list nat) (f : list nat -> R) (v : R) : Prop :=
  (exists i, inside s i /\ place A keep i = o /\ f i = v) /\
  forall i, inside s i -> place A keep i = o -> le (f i) v.

(** [F x] is an array of this shape with these entries. *)
Definition computes (r : res arr) (s : list nat) (f : list nat -> R -> Prop) : Prop :=
  exists y, r = Ok y /\ shape y = s /\ forall o, inside s o -> f o (at_ y o).

(** [G] is the gradient with respect to the input [x] of the sum of the entries of [F x] weighted with [g]:
    along every direction, the derivative is the product with [G]. *)
Definition moved (x : arr) (dx : list nat -> R) (t : R) : arr := mka (shape x) (fun i => at_ x i + t * dx i).
Definition weighted (g : arr) (r : res arr) : R :=
  match r with Ok y => sum_over (shape g) (fun o => at_ g o * at_ y o) | Err _ => 0 end.
Definition gradient_at (F : arr -> res arr) (x g G : arr) : Prop :=
  shape G = shape x /\
  forall dx, derivable_pt_lim (fun t => weighted g (F (moved x dx t))) 0
               (sum_over (shape x) (fun i => at_ G i * dx i)).
