(** * What the types of results are (independent of the model's way of finding them) *)
From Coq Require Import List Arith Lia Bool ZArith QArith.
From Verif Require Import PyBase Optype_Model.
Import ListNotations.
Open Scope list_scope. Open Scope nat_scope.

(** bool < int < float *)
Definition rank (k : kind) : nat := match k with KBool => 0 | KInt => 1 | KFloat => 2 end.
(** [k] is the largest of the kinds [ks] and [least] *)
Definition largest (least : kind) (ks : list kind) (k : kind) : Prop := (k = least \/ In k ks) /\ rank least <= rank k /\ forall j, In j ks -> rank j <= rank k.
(** The operators for which Python's type of the result follows from the types of the arguments *)
Inductive typed : opname -> list kind -> kind -> Prop :=
| ty_arith o a b k : In o [OAdd; OSub; OMul; OFloorDiv; OPow] -> largest KInt [a; b] k -> typed o [a; b] k
| ty_div a b : typed OTrueDiv [a; b] KFloat
| ty_compare f a b : typed (OCompare f) [a; b] KBool
| ty_bits fb fz a b k : largest KBool [a; b] k -> k <> KFloat -> typed (OBits fb fz) [a; b] k
| ty_shift f a b : a <> KFloat -> b <> KFloat -> typed (OShift f) [a; b] KInt
| ty_sum ks k : largest KInt ks k -> typed OSum ks k
| ty_distance a b c k : largest KInt [a; b; c] k -> typed ODistance [a; b; c] k
| ty_first a : typed OFirst [a] a.
(** The kind of a type that is not in [Other] *)
Definition of_kind (a : atom) (k : kind) : Prop := a = Scalar k \/ a = Tens k.
(** With tensors the result is a tensor; operators that are not marked as bitwise keep tensors of bools *)
Definition result (o : opname) (bits : bool) (ins : list atom) (out : atom) : Prop :=
  exists ks k, Forall2 of_kind ins ks /\
    (((exists j, In (Tens j) ins) /\ out = Tens k) \/ ((forall j, ~ In (Tens j) ins) /\ out = Scalar k)) /\
    (((exists j, In (Tens j) ins) /\ (forall j, In j ks -> j = KBool) /\ bits = false /\ k = KBool) \/
     (((forall j, ~ In (Tens j) ins) \/ (exists j, In j ks /\ j <> KBool) \/ bits = true) /\ typed o ks k)).
(** How many inputs an operator has, and which kinds *)
Definition usable (o : opname) (n : nat) : Prop :=
  match o with OFirst => n = 1 | OSum => 1 <= n | ODistance => n = 3 | OMin | OMax => False | _ => n = 2 end.
Definition accepts (o : opname) (k : kind) : Prop := match o with OBits _ _ | OShift _ => k <> KFloat | _ => True end.
(** An arrangement of the types that fits: every connection has one of its types, and the output the one of the result *)
Definition fits (o : opname) (bits : bool) (out : nat) (ins : list nat) (st : store) (tau : nat -> atom) : Prop :=
  (forall e, In e (out :: ins) -> In (tau e) (st e)) /\ result o bits (map tau ins) (tau out).
