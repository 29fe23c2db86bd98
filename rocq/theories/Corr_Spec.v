(** * What a convolution and its gradients are (specification of C51) *)
From Coq Require Import Reals List ZArith.
From Verif Require Import PyBase Corr_Model.
Open Scope R_scope.

(** Sum of [f 0 .. f (n-1)], and sums over all indices of an array. *)
Definition total (n : nat) (f : nat -> R) : R := fold_right Rplus 0 (map f (seq 0 n)).
Definition sum3 (a b c : nat) (f : nat -> nat -> nat -> R) : R :=
  total a (fun i => total b (fun j => total c (fun l => f i j l))).
Definition sum4 (a b c d : nat) (f : nat -> nat -> nat -> nat -> R) : R :=
  total a (fun i => total b (fun j => total c (fun l => total d (fun m => f i j l m)))).

(** A row of [w] entries, zero to the left and to the right of it. *)
Definition signal (w : nat) (f : nat -> R) (j : Z) : R :=
  if andb (0 <=? j)%Z (j <? Z.of_nat w)%Z then f (Z.to_nat j) else 0.

(** The (cross-)correlation with step [s] and [p] zeros in front. *)
Definition correlation1 (x k : arr3) (s p n o w : nat) : R :=
  total (d31 x) (fun i => total (d32 k) (fun l =>
    signal (d32 x) (at3 x n i) (Z.of_nat w * Z.of_nat s + Z.of_nat l - Z.of_nat p)%Z * at3 k o i l)).
Definition correlation2 (x k : arr4) (s0 s1 p q n o h w : nat) : R :=
  total (d41 x) (fun i => total (d42 k) (fun a => total (d43 k) (fun b =>
    signal (d42 x) (fun y =>
      signal (d43 x) (at4 x n i y) (Z.of_nat w * Z.of_nat s1 + Z.of_nat b - Z.of_nat q)%Z)
      (Z.of_nat h * Z.of_nat s0 + Z.of_nat a - Z.of_nat p)%Z * at4 k o i a b))).

(** Number of positions of a window of size [k] in [w] padded entries. *)
Definition positions (w k p0 p1 s : nat) : nat := ((p0 + w + p1 - k) / s + 1)%nat.

(** The point [x + t * d]. *)
Definition line3 (x : arr3) (d : nat -> nat -> nat -> R) (t : R) : arr3 :=
  mk3 (d30 x) (d31 x) (d32 x) (fun a b c => at3 x a b c + t * d a b c).
Definition line4 (x : arr4) (dx : nat -> nat -> nat -> nat -> R) (t : R) : arr4 :=
  mk4 (d40 x) (d41 x) (d42 x) (d43 x) (fun a b c d => at4 x a b c d + t * dx a b c d).

(** Entry of a result. *)
Definition value3 (r : res arr3) (a b c : nat) : R :=
  match r with Ok x => at3 x a b c | Err _ => 0 end.
Definition value4 (r : res arr4) (a b c d : nat) : R :=
  match r with Ok x => at4 x a b c d | Err _ => 0 end.
