(* Averages and deviations by their definitions. *)

From Coq Require Import Reals List Arith.
Import ListNotations.
Open Scope R_scope.

Fixpoint sum (l : list R) : R := match l with [] => 0 | x :: r => x + sum r end.

(* [m] is the average and [v] the average squared deviation. *)
Definition average (l : list R) (m : R) : Prop := m * INR (length l) = sum l.
Definition deviation (l : list R) (v : R) : Prop :=
  exists m, average l m /\ v * INR (length l) = sum (map (fun x => (x - m) ^ 2) l).

(* The entries of channel c of a sample, channels having hw entries. *)
Definition channel (hw c : nat) (x : list R) : list R :=
  map (fun k => nth (c * hw + k) x 0) (seq 0 hw).

(* The entries of the channels of group g of q channels. *)
Definition group (hw q g : nat) (x : list R) : list R :=
  flat_map (fun c => channel hw c x) (seq (g * q) q).

(* The average of a squared deviation without bias. *)
Definition unbiased (l : list R) (v : R) : Prop :=
  exists m, average l m /\ v * (INR (length l) - 1) = sum (map (fun x => (x - m) ^ 2) l).

(* Values with weights decaying with their age, the latest first. *)
Definition decayed (momentum start : R) (latest_first : list R) : R :=
  sum (map (fun j => momentum * (1 - momentum) ^ j * nth j latest_first 0) (seq 0 (length latest_first)))
  + (1 - momentum) ^ length latest_first * start.
