(** * Specification of transposing, reshaping, broadcasting and padding. *)
From Coq Require Import Reals List ZArith Permutation.
From Verif Require Import PyBase Axis_Model Axis_Spec.
Import ListNotations.
Open Scope R_scope.
Open Scope list_scope.

(** The numbers of [l] in the order [p]. *)
Definition arranged (p l : list nat) : list nat := map (fun k => nth k l 0%nat) p.
(** The order of the axes that the argument of a transposition means, for rank [r]. *)
Definition order_of (r : nat) (axes : option (list Z)) (p : list nat) : Prop :=
  match axes with
  | None | Some [] => p = rev (seq 0 r)
  | Some zs => Permutation p (seq 0 r) /\ Forall2 (names r) zs p
  end.
(** All axes are counted from the front, or all from the end. *)
Definition one_sign (axes : option (list Z)) : Prop :=
  match axes with
  | None => True
  | Some zs => Forall (fun z => 0 <= z)%Z zs \/ Forall (fun z => z < 0)%Z zs
  end.
(** [l] with the numbers at [j] and [k] exchanged. *)
Definition exchanged (j k : nat) (l : list nat) : list nat :=
  map (fun n => nth (if Nat.eq_dec n j then k else if Nat.eq_dec n k then j else n) l 0%nat) (seq 0 (length l)).

(** The entries of an array in row-major order: the last coordinate runs first. *)
Fixpoint c_order (s : list nat) : list (list nat) :=
  match s with
  | [] => [[]]
  | d :: r => concat (map (fun k => map (cons k) (c_order r)) (seq 0 d))
  end.
Definition entries (x : arr) : list R := map (at_ x) (c_order (shape x)).
Fixpoint volume (s : list nat) : nat := match s with [] => 1%nat | d :: r => (d * volume r)%nat end.

(** The shape [t] that the sizes [zs], one of which may be -1, mean for [n] entries; a missing size is
    determined by the others unless they give no entries. *)
Definition sizes_for (n : nat) (zs : list Z) (t : list nat) : Prop :=
  Forall2 (fun z d => z = Z.of_nat d \/ z = -1)%Z zs t /\
  volume t = n /\
  (count_occ Z.eq_dec zs (-1)%Z <= 1)%nat /\
  (In (-1)%Z zs -> ~ In 0%Z zs).

(** [F] returns an array of shape [t] with the entries of [x] in the same order, and with the output
    gradient [g] its gradient function returns the gradient. *)
Definition reshapes (F : arr -> res arr) (B : arr -> arr -> res arr) (x : arr) (t : list nat) : Prop :=
  (exists y, F x = Ok y /\ shape y = t /\ entries y = entries x) /\
  forall g, shape g = t -> exists G, B g x = Ok G /\ gradient_at F x g G.

(** Broadcasting: axes are aligned at the end; those of size 1 and missing ones are repeated. *)
Definition spreads (s t : list nat) : Prop :=
  (length s <= length t)%nat /\
  forall k, (k < length s)%nat -> nth k (rev s) 0%nat = 1%nat \/ nth k (rev s) 0%nat = nth k (rev t) 0%nat.
(** The entry of an array of shape [s] that is repeated at [o]. *)
Definition source (s o : list nat) : list nat :=
  rev (map (fun p => if Nat.eq_dec (fst p) 1 then 0%nat else snd p) (combine (rev s) (rev o))).

(** Padding: the place of entry [i] and the new shape. *)
Definition shifted_by (ps : list (nat * nat)) (i : list nat) : list nat :=
  map (fun q => (fst (fst q) + snd q)%nat) (combine ps i).
Definition padded (ps : list (nat * nat)) (s : list nat) : list nat :=
  map (fun q => (fst (fst q) + snd q + snd (fst q))%nat) (combine ps s).
