(** * Indexing an array: the shape of the result (the rules of numpy) *)
From Coq Require Import List Arith Lia Bool ZArith.
From Verif Require Import PyBase Index_Model.
Import ListNotations.
Open Scope list_scope. Open Scope nat_scope.

(** ** Slices: position [i] of a sequence of length [n] is taken. *)
Definition from_end (n i : Z) : Z := if (i <? 0)%Z then (n + i)%Z else i.
Definition taken (start stop step : option Z) (n i : Z) : bool :=
  let k := match step with Some k => k | None => 1%Z end in
  if (0 <? k)%Z then
    let a := match start with Some a => Z.max 0 (from_end n a) | None => 0%Z end in
    ((a <=? i) && match stop with Some b => i <? from_end n b | None => true end && ((i - a) mod k =? 0))%Z
  else
    let a := match start with Some a => Z.min (n - 1) (from_end n a) | None => (n - 1)%Z end in
    ((i <=? a) && match stop with Some b => from_end n b <? i | None => true end && ((a - i) mod (- k) =? 0))%Z.
Definition positions (n : Z) : list Z := map Z.of_nat (seq 0 (Z.to_nat n)).
Definition slice_size (start stop step : option Z) (n : Z) : Z := Z.of_nat (length (filter (taken start stop step n) (positions n))).

(** ** Broadcasting any number of shapes *)
Definition size_at (k : nat) (x : list Z) : Z := nth k (rev x) 1%Z.
Definition broadcast (xs : list (list Z)) (b : list Z) : Prop :=
  length b = fold_right Nat.max 0 (map (@length Z) xs) /\
  forall k, k < length b ->
    (forall x, In x xs -> size_at k x = 1%Z \/ size_at k x = size_at k b) /\
    (size_at k b = 1%Z \/ exists x, In x xs /\ size_at k x = size_at k b).

(** ** What the entries of an index make of the dimensions: nothing for an integer or a tensor ([Adv]), a dimension otherwise *)
Inductive token := Adv | Dim (n : Z) | Cut.
Inductive reads (ok : Z -> Z -> Prop) : list entry -> list Z -> list token -> Prop :=
| reads_nil : reads ok [] [] []
| reads_int i es d x t : ok i d -> reads ok es x t -> reads ok (EInt i :: es) (d :: x) (Adv :: t)
| reads_tensor y es d x t : reads ok es x t -> reads ok (ETensor y :: es) (d :: x) (Adv :: t)
| reads_slice a b c es d x t : c <> Some 0%Z -> reads ok es x t -> reads ok (ESlice a b c :: es) (d :: x) (Dim (slice_size a b c d) :: t)
| reads_new es x t : reads ok es x t -> reads ok (ENew :: es) x (Dim 1 :: t)
| reads_rest es rest x t : reads ok es x t -> reads ok (EEllipsis :: es) (rest ++ x) (Cut :: map Dim rest ++ t).

(** The dimensions of the index tensors stand in place of the integers and tensors if these are all next to each other, else in front. *)
Definition is_adv (t : token) : bool := match t with Adv => true | _ => false end.
Fixpoint dims (l : list token) : list Z := match l with [] => [] | Dim n :: l => n :: dims l | _ :: l => dims l end.
Fixpoint before (l : list token) : list token := match l with [] => [] | Adv :: _ => [] | t :: l => t :: before l end.
Fixpoint from (l : list token) : list token := match l with [] => [] | Adv :: l => Adv :: l | _ :: l => from l end.
Fixpoint past (l : list token) : list token := match l with Adv :: l => past l | l => l end.
Definition arrange (b : list Z) (l : list token) : list Z :=
  if existsb is_adv (past (from l)) then b ++ dims l else dims (before l) ++ b ++ dims (past (from l)).

Definition ellipses (es : list entry) : nat := length (filter (fun e => match e with EEllipsis => true | _ => false end) es).
(** An index without an ellipsis is followed by one. *)
Definition complete (es : list entry) : list entry := if ellipses es =? 0 then es ++ [EEllipsis] else es.
Definition tensor_shapes (es : list entry) : list (list Z) := flat_map (fun e => match e with ETensor (Some x) => [x] | _ => [] end) es.
(** [x[es]] has shape [y], if the integers are [ok] for the dimensions. *)
Definition indexed (ok : Z -> Z -> Prop) (es : list entry) (x y : list Z) : Prop :=
  ellipses es <= 1 /\ exists b t, broadcast (tensor_shapes es) b /\ reads ok (complete es) x t /\ y = arrange b t.
Definition in_range (i d : Z) : Prop := (- d <= i < d)%Z.
Definition any (i d : Z) : Prop := True.
