(* What is known of a value, and when one value is more known than another. *)

From Coq Require Import ZArith QArith List.
From Verif Require Import Known_Model.
Import ListNotations.

(* The number an atom stands for. *)
Inductive amount : atom -> Q -> Prop :=
| am_true : amount (ABool true) 1
| am_false : amount (ABool false) 0
| am_int : forall z, amount (AInt z) (inject_Z z)
| am_float : forall q, amount (AFloat q) q.

(* Equal in Python: the same, or equal numbers. *)
Definition same (x y : atom) : Prop :=
  x = y \/ exists p q, amount x p /\ amount y q /\ (p == q)%Q.

(* [d] has everything known of [v]. *)
Fixpoint below (v d : value) : Prop :=
  match v, d with
  | TBD, _ => True
  | Atom x, Atom y => same x y
  | Seq t l, Seq u m =>
      t = u /\
      (fix all (l m : list value) : Prop :=
         match l, m with
         | [], [] => True
         | x :: l', y :: m' => below x y /\ all l' m'
         | _, _ => False
         end) l m
  | _, _ => False
  end.

(* Equal in Python. *)
Definition equal (a b : value) : Prop := below a b /\ below b a.

(* Nothing unknown. *)
Inductive full : value -> Prop :=
| full_atom : forall a, full (Atom a)
| full_seq : forall t l, Forall full l -> full (Seq t l).

(* No list in it is empty. *)
Inductive nonempty_lists : value -> Prop :=
| ne_tbd : nonempty_lists TBD
| ne_atom : forall a, nonempty_lists (Atom a)
| ne_tuple : forall l, Forall nonempty_lists l -> nonempty_lists (Seq true l)
| ne_list : forall l, l <> [] -> Forall nonempty_lists l -> nonempty_lists (Seq false l).

(* The least value above all of [vs]. *)
Definition least_above (vs : list value) (c : value) : Prop :=
  (forall v, In v vs -> below v c) /\
  (forall d, (forall v, In v vs -> below v d) -> below c d).
