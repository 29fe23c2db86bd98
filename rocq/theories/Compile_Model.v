(** * The compilation pipeline of a flat graph (model.py:662-706 [_pre_compile]). *)
From Coq Require Import String List Bool.
From Verif Require Import PyBase PyStrings FlatGraph_Model.
Import ListNotations.
Open Scope string_scope.
Open Scope list_scope.
Open Scope res_scope.

Section C.
  Context {V : Type}.
  Variable veq : V -> V -> bool.
  Variable edge_value : string -> option V.
  Variable pick : list string -> string.
  Variable apply_op : operator -> list V -> V.
  Variable solver : dict string V -> list (string * V).

  (** model.py:670-681: setting shapes and constants has already happened in [g] (its [statics]),
      [graph_update] changes nothing on Python backends; then duplicate pruning and folding. *)
  Definition prune_and_fold (fuel : nat) (state_ins state_outs : list string) (ops : list operator)
             (g : graph V) : res (graph V) :=
    let* g := traverse_graph veq edge_value ops g in
    infer_static_keys veq edge_value pick apply_op solver fuel state_ins state_outs g.

  (** model.py:694-700: hanging keys are discarded in addition to the keys given by the user.
      Simplified: the two checks that only raise (684-692 unused data keys, 701-706 no output
      with gradient) are left out.  [fuel] and [fuel'] bound the two loops.
      [discard] and [outputs] are the sets [discarded_keys] and
      [_output_keys]. *)
  Definition pre_compile (fuel fuel' : nat) (state_ins state_outs discard outputs : list string)
             (ops : list operator) (g : graph V) : res (list string * list string * graph V) :=
    let* g := prune_and_fold fuel state_ins state_outs ops g in
    let discard := sunion discard (sdiff (hanging_keys g) outputs) in
    infer_ignore pick fuel' discard outputs g.
End C.
