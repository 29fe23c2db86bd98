(** * C53, continued: maxima and minima of no entries. *)
From Coq Require Import Reals List ZArith Lia Lra.
From Verif Require Import PyBase Axis_Model Axis_Spec Axis_Proofs.
Import ListNotations.
Open Scope R_scope.
Open Scope list_scope.
Open Scope res_scope.

(** When a maximum or minimum is returned, every entry of the result is taken over at least one entry of the input. *)
Theorem C53_extrema_only x a keep y : reduce_max x a keep = Ok y \/ reduce_min x a keep = Ok y ->
  exists A, axes_of (length (shape x)) a A /\ shape y = result_shape A keep (shape x) /\
    forall o, inside (shape y) o -> exists i, inside (shape x) i /\ place A keep i = o.
Proof.
  assert (H : forall f, reduce_nonempty f x a keep = Ok y -> exists A, axes_of (length (shape x)) a A /\ shape y = result_shape A keep (shape x) /\
    forall o, inside (shape y) o -> exists i, inside (shape x) i /\ place A keep i = o).
  { intros f. unfold reduce_nonempty. destruct (norm_axes (length (shape x)) a) as [A|e] eqn:E; [|easy]. cbn [bind].
    destruct (existsb _ _) eqn:X; [easy|]. intros Q. injection Q as <-. exists A. split; [now apply norm_axes_inv|]. cbn [shape]. split; [symmetry; apply result_shape_red|].
    intros o Ho. destruct (group x A keep o) as [|i l] eqn:G.
    - exfalso. assert (T : existsb (fun o => match group x A keep o with [] => true | _ => false end) (indices (red_shape A keep 0 (shape x))) = true).
      { apply existsb_exists. exists o. split; [now apply in_indices|]. now rewrite G. }
      congruence.
    - exists i. assert (I : In i (group x A keep o)) by (rewrite G; now left). apply in_group in I as [I1 I2]. split; [easy|]. now rewrite place_proj. }
  intros [E|E]; now apply H in E.
Qed.
Example C53_extrema_case : (exists y, reduce_max (mka [2; 0]%nat (fun _ => 0)) (AInt 0) false = Ok y) /\
  reduce_max (mka [2; 0]%nat (fun _ => 0)) (AInt 1) false = Err ValueError.
Proof. split; [eexists|]; reflexivity. Qed.
Print Assumptions C53_extrema_only.
