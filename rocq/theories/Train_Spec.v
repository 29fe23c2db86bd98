(** * What a training model computes, without a graph *)
From Coq Require Import List Bool String Arith.
From Verif Require Import PyBase Train_Model.
Import ListNotations.
Open Scope string_scope. Open Scope list_scope.
Section Spec.
Context {B : backend}.
Variable value_of : string -> V B.
Variable accepts : list string -> @loss B -> bool.
Variable trainable : string -> bool.
(** A key: its value, the inputs it depends on, and whether it is an input *)
Record entry := { ev : V B; edeps : list string; einput : bool }.
(** A loss: its reduced and weighted value, the inputs it depends on, the sizes of its Min, Max and Mean reductions *)
Record lentry := { lv : V B; ldeps : list string; lsizes : list (F B) }.
(** A regularisation: coefficient, value and regularised key *)
Record rentry := { rq : F B; rv : V B; rk : string }.
Record spec := { env : list (string * entry); losses : list lentry; regs : list rentry; combiner : nat; cost : option (list (F B)) }.
Definition set_env (p : spec) (e : list (string * entry)) : spec := {| env := e; losses := losses p; regs := regs p; combiner := combiner p; cost := cost p |}.
(** Keys in use; unknown keys become inputs. *)
Definition get_key (e : list (string * entry)) (k : string) : list (string * entry) * entry :=
  match dget k e with Some x => (e, x) | None => let x := {| ev := value_of k; edeps := [k]; einput := true |} in (e ++ [(k, x)], x) end.
Fixpoint get_keys (e : list (string * entry)) (l : list string) : list (string * entry) * list entry :=
  match l with [] => (e, []) | k :: l => let (e, x) := get_key e k in let (e, xs) := get_keys e l in (e, x :: xs) end.
Definition compute (m : nat) (xs : list entry) : V B * list string := (run_model B m (map ev xs), flat_map edeps xs).
Fixpoint reduced (steps : list (@step B)) (v : V B) : V B := match steps with [] => v | s :: l => reduced l (run_model B (smodel s) [v]) end.
Fixpoint sizes (steps : list (@step B)) (v : V B) : list (F B) :=
  match steps with [] => [] | s :: l => (match saxis s with Some ax => [fsize B v ax] | None => [] end) ++ sizes l (run_model B (smodel s) [v]) end.
Definition weighted (c : option (F B)) (v : V B) : V B := match c with Some c => scale B c v | None => v end.
Definition in_use (e : list (string * entry)) (k : option string) : bool := match k with Some k => dmem k e | None => false end.
Definition bound (e : list (string * entry)) (k : option string) (v : V B) (d : list string) : list (string * entry) := match k with Some k => e ++ [(k, {| ev := v; edeps := d; einput := false |})] | None => e end.
Definition loss_steps (l : @loss B) : list (@step B) := match lsteps l with [] => [{| smodel := mean_model B; saxis := Some (all_axes B) |}] | l => l end.
Definition spec_loss (p : spec) (l : loss) : spec :=
  if negb (accepts (map fst (env p)) l) then p else
  let (e, xs) := get_keys (env p) (map here (largs l)) in
  let (v0, d) := compute (lmodel l) xs in
  let v := weighted (lcoef l) (reduced (loss_steps l) v0) in
  if in_use e (lname l) then set_env p e else
  {| env := bound e (lname l) v d; losses := losses p ++ [{| lv := v; ldeps := d; lsizes := sizes (loss_steps l) v0 |}]; regs := regs p; combiner := combiner p; cost := cost p |}.
Definition key_is_input (e : list (string * entry)) (k : string) : bool := match dget k e with Some x => einput x | None => false end.
(** [k]: the regularised key *)
Definition spec_reg (p : spec) (m : nat) (q : F B) (k : string) (args : list arg) (name : option string) : spec * bool :=
  if negb (existsb (fun a => key_is_input (env p) (here a) && trainable (here a)) args) then (p, false) else
  let (e, xs) := get_keys (env p) (map here args) in
  let (v, d) := compute m xs in
  if in_use e name then (set_env p e, false) else
  ({| env := bound e name v d; losses := losses p; regs := regs p ++ [{| rq := q; rv := v; rk := k |}]; combiner := combiner p; cost := cost p |}, true).
Definition spec_metric (p : spec) (m : nat) (l : list arg) (steps : list (@step B)) (name : option string) : spec :=
  let (e, xs) := get_keys (env p) (map here l) in
  let (v, d) := compute m xs in
  if in_use e name then set_env p e else set_env p (bound e name (reduced steps v) d).
(** ** The cost *)
Definition total (l : list (F B)) : F B := fold_right (fadd B) (fzero B) l.
Definition product (l : list (F B)) : F B := fold_right (fmul B) (fone B) l.
(** One loss is taken as it is, several are concatenated and combined. *)
Definition combined (p : spec) : V B := match losses p with [l] => lv l | ls => run_model B (combiner p) [concat B (map (fun l => atleast_1d B (lv l)) ls)] end.
(** The geometric mean of the reduction sizes of the losses that depend on [k] *)
Definition geo_mean (p : spec) (k : string) : option (F B) :=
  match filter (fun l => mem k (ldeps l)) (losses p) with [] => None | ls => Some (froot B (List.length ls) (product (map (fun l => product (lsizes l)) ls))) end.
Definition divided (p : spec) (r : rentry) : list (F B) := match geo_mean p (rk r) with None => flat B (rv r) | Some g => map (fun a => fdiv B a g) (flat B (rv r)) end.
Definition penalty (p : spec) : F B := total (map (fun r => fmul B (total (divided p r)) (rq r)) (regs p)).
Definition final_cost (p : spec) : list (F B) := match regs p with [] => flat B (combined p) | _ => [fadd B (total (flat B (combined p))) (penalty p)] end.
(** The two reserved keys *)
Definition blocked (p : spec) : bool := dmem "final_cost" (env p) || (negb (match regs p with [] => true | _ => false end) && dmem "loss" (env p)).
Definition spec_call (p : spec) (c : @call B) : spec :=
  match cost p with
  | Some _ => p
  | None =>
      match c with
      | AddLoss l => spec_loss p l
      | AddReg r => fst (spec_reg p (rmodel r) (rcoef r) (here (rarg r)) (rarg r :: rothers r) (rname r))
      | AddPattern m q f n => fst (fold_left (fun (pb : spec * bool) k => if snd pb then spec_reg (fst pb) m q k [ByName k] n else pb) (filter (fun k => key_is_input (env p) k && f k) (map fst (env p))) (p, true))
      | AddMetric m l st n => spec_metric p m l (match st with [] => [{| smodel := buffer_model B; saxis := None |}] | l => l end) n
      | SetCombiner m => {| env := env p; losses := losses p; regs := regs p; combiner := m; cost := cost p |}
      | Finalize => if (match losses p with [] => true | _ => false end) || blocked p then p else {| env := env p; losses := losses p; regs := regs p; combiner := combiner p; cost := Some (final_cost p) |}
      end
  end.
Definition spec_run (p : spec) (cs : list call) : spec := fold_left spec_call cs p.
(** The keys of the trained model *)
Definition spec_init (ins : list string) (outs : list (string * (nat * list string))) : spec :=
  {| env := fold_left (fun (e : list (string * entry)) o => let (e, xs) := get_keys e (snd (snd o)) in let (v, d) := compute (fst (snd o)) xs in e ++ [(fst o, {| ev := v; edeps := d; einput := false |})]) outs
              (fold_left (fun (e : list (string * entry)) k => fst (get_key e k)) ins []);
     losses := []; regs := []; combiner := sum_model B; cost := None |}.
End Spec.
