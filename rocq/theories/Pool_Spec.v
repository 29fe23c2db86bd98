(** * What pooling is (specification of C52) *)
From Coq Require Import Reals List ZArith.
From Verif Require Import PyBase Corr_Model Corr_Spec.
Open Scope R_scope.

(** Entry [l] of window [u] of a row extended by zeros, and of an image. *)
Definition entry1 (x : arr3) (s p n c u l : nat) : R :=
  signal (d32 x) (at3 x n c) (Z.of_nat u * Z.of_nat s + Z.of_nat l - Z.of_nat p)%Z.
Definition entry2 (x : arr4) (s0 s1 p q n c h w a b : nat) : R :=
  signal (d42 x) (fun y =>
    signal (d43 x) (at4 x n c y) (Z.of_nat w * Z.of_nat s1 + Z.of_nat b - Z.of_nat q)%Z)
    (Z.of_nat h * Z.of_nat s0 + Z.of_nat a - Z.of_nat p)%Z.

(** [v] is the largest of the entries [f l], [l] in [P]. *)
Definition is_max {A} (P : A -> Prop) (f : A -> R) (v : R) : Prop :=
  (exists l, P l /\ f l = v) /\ forall l, P l -> f l <= v.

(** The position lies in the input, not in the padding. *)
Definition inside (w s p u l : nat) : Prop := (p <= u * s + l < p + w)%nat.

(** Two different largest entries of a window are both padding. *)
Definition no_ties {A} (P inp : A -> Prop) (f : A -> R) : Prop :=
  forall l l', P l -> P l' -> (forall i, P i -> f i <= f l) -> (forall i, P i -> f i <= f l') ->
    l <> l' -> ~ inp l /\ ~ inp l'.

Definition average2 (x : arr4) (kh kw s0 s1 p q n c h w : nat) : R :=
  total kh (fun a => total kw (fun b => entry2 x s0 s1 p q n c h w a b)) / INR (kh * kw).
