(* The classification metrics by their definitions: shares of samples. *)

From Coq Require Import QArith List ZArith.
Import ListNotations.

(* Samples with a property, counted by membership: [c] is the number of
   positions of the batch at which the property holds. *)
Fixpoint number (P : Z -> Z -> bool) (l : list (Z * Z)) : Q :=
  match l with
  | [] => 0
  | (p, t) :: r => if P p t then 1 + number P r else number P r
  end.

Definition correct (l : list (Z * Z)) : Q := number (fun p t => Z.eqb p t) l.
Definition size (l : list (Z * Z)) : Q := number (fun _ _ => true) l.
Definition predicted (k : Z) (l : list (Z * Z)) : Q := number (fun p _ => Z.eqb p k) l.
Definition actual (k : Z) (l : list (Z * Z)) : Q := number (fun _ t => Z.eqb t k) l.
Definition found (k : Z) (l : list (Z * Z)) : Q :=
  number (fun p t => andb (Z.eqb p k) (Z.eqb t k)) l.

(* Division is total: x / 0 = 0, the convention for empty classes. *)
Definition precision (k : Z) (l : list (Z * Z)) : Q := found k l / predicted k l.
Definition recall (k : Z) (l : list (Z * Z)) : Q := found k l / actual k l.
(* The harmonic mean of the two. *)
Definition f1 (k : Z) (l : list (Z * Z)) : Q :=
  2 * precision k l * recall k l / (precision k l + recall k l).

Definition sum (f : Z -> Q) (ks : list Z) : Q := fold_right (fun k a => f k + a) 0 ks.
