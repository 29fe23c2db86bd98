(** * Specification of selecting entries of an array. *)
From Coq Require Import Reals List ZArith.
From Verif Require Import PyBase Axis_Model Axis_Spec Move_Spec Select_Model.
From Verif Require Index_Spec.
Import ListNotations.
Open Scope R_scope.
Open Scope list_scope.

(** ** Slices and basic indexing *)

(** The positions a slice takes from an axis of size [n], in order; whether one is taken is the rule also used for
    shapes ([Index_Spec.taken]). *)
Definition picked (start stop step : option Z) (n : nat) : list nat :=
  let l := filter (fun k => Index_Spec.taken start stop step (Z.of_nat n) (Z.of_nat k)) (seq 0 n) in
  match step with Some k => if (k <? 0)%Z then rev l else l | None => l end.

Definition rests (es : list item) : nat := length (filter (fun e => match e with IRest => true | _ => false end) es).
(** An index without [...] is followed by one. *)
Definition complete (es : list item) : list item := if Nat.eq_dec (rests es) 0 then es ++ [IRest] else es.
(** The shape of [x[es]] for [x] of shape [s]. *)
Inductive gives : list item -> list nat -> list nat -> Prop :=
| gives_nil : gives [] [] []
| gives_int z k d es s t : names d z k -> gives es s t -> gives (IInt z :: es) (d :: s) t
| gives_slice a b c d es s t : c <> Some 0%Z -> gives es s t -> gives (ISlice a b c :: es) (d :: s) (length (picked a b c d) :: t)
| gives_new es s t : gives es s t -> gives (INew :: es) s (1%nat :: t)
| gives_rest m es s t : gives es s t -> gives (IRest :: es) (m ++ s) (m ++ t).
(** Entry [o] of the result is entry [i] of [x]. *)
Inductive takes : list item -> list nat -> list nat -> list nat -> Prop :=
| takes_nil : takes [] [] [] []
| takes_int z k d es s o i : names d z k -> takes es s o i -> takes (IInt z :: es) (d :: s) o (k :: i)
| takes_slice a b c d j k es s o i : nth_error (picked a b c d) j = Some k -> takes es s o i ->
    takes (ISlice a b c :: es) (d :: s) (j :: o) (k :: i)
| takes_new es s o i : takes es s o i -> takes (INew :: es) s (0%nat :: o) i
| takes_rest m j es s o i : inside m j -> takes es s o i -> takes (IRest :: es) (m ++ s) (j ++ o) (j ++ i).

(** ** Rows *)

(** Every int of the index names a row of [n]; no two name the same. *)
Definition name_rows (n : nat) (ix : ints) : Prop := forall j, inside (ishape ix) j -> exists k, names n (iat ix j) k.
Definition no_row_twice (n : nat) (ix : ints) : Prop := forall j j' k, inside (ishape ix) j -> inside (ishape ix) j' ->
  names n (iat ix j) k -> names n (iat ix j') k -> j = j'.
(** [y] consists of the named rows of [x]. *)
Definition rows_of (x : arr) (n : nat) (s : list nat) (ix : ints) (r : res arr) : Prop :=
  exists y, r = Ok y /\ shape y = ishape ix ++ s /\
    forall j k i, inside (ishape ix) j -> names n (iat ix j) k -> inside s i -> at_ y (j ++ i) = at_ x (k :: i).

(** ** Broadcasting of several shapes, aligned at the end *)
Definition dim (k : nat) (s : list nat) : nat := nth k (rev s) 1%nat.
Definition common (ss : list (list nat)) (t : list nat) : Prop :=
  length t = fold_right Nat.max 0%nat (map (@length nat) ss) /\
  forall k, (forall s, In s ss -> dim k s = 1%nat \/ dim k s = dim k t) /\
            (dim k t = 1%nat \/ exists s, In s ss /\ dim k s = dim k t).
(** [G], of the shape of the result, becomes the gradient with respect to [x] when it is summed along the axes on
    which [x] is repeated: its product with a direction repeated in the same way is the derivative. *)
Definition spread_gradient_at (F : arr -> res arr) (x g G : arr) : Prop :=
  forall dx, derivable_pt_lim (fun t => weighted g (F (moved x dx t))) 0
               (sum_over (shape G) (fun o => at_ G o * dx (source (shape x) o))).
