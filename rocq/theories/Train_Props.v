(** * C40: the cost of a training model *)
From Coq Require Import List Bool String Arith Lia ZArith.
From Verif Require Import PyBase Train_Model Train_Spec Train_Proofs Train_Inv Train_Final Train_Done Train_Run.
Import ListNotations.
Open Scope string_scope. Open Scope list_scope.
Section Props.
Context {B : backend}.
Variable value_of : string -> V B.
Variable accepts : list string -> @loss B -> bool.
Variable trainable : string -> bool.
Notation train := (@train B). Notation spec := (@spec B).
Notation run := (run accepts trainable). Notation spec_run := (spec_run value_of accepts trainable).
(** What the model gives under a key *)
Definition output (s : train) (k : string) : option (V B) := match dget k (names s) with Some c => nth_error (values value_of (nodes s)) c | None => None end.
(** The regularised parameter, where it is given as a connection, has the same key in its own model as here. *)
Definition by_key (c : @call B) : Prop := match c with AddReg r => (match rarg r with ByName _ => True | ByConn h o => o = h end) | _ => True end.
Lemma by_key_same : forall cs, Forall by_key cs -> Forall same_key cs.
Proof. intros cs H; eapply Forall_impl; [|exact H]. intros [l|r|m q f n|m l st n|m|]; cbn; auto. destruct (rarg r); cbn; auto. Qed.
(** For every trained model and every sequence of calls, refused ones included: the model is finalised exactly when the specification has a cost, and what it then gives as [final_cost] is that cost: the losses, each reduced and weighted,
    combined; plus every regularisation times its coefficient, divided by the geometric mean of the reduction sizes of the losses that depend on its parameter. *)
Theorem C40_cost : forall ins outs s0 cs, init ins outs = Ok s0 -> Forall by_key cs ->
  let s := run s0 cs in let p := spec_run (spec_init value_of ins outs) cs in
  match cost p with Some l => is_finalized s = true /\ (exists v, output s "final_cost" = Some v /\ flat B v = l) | None => is_finalized s = false end.
Proof.
  intros ins outs s0 cs E K. cbv zeta. pose proof (init_rel value_of ins outs s0 E) as H. assert (inv value_of s0 (spec_init value_of ins outs)) as I0 by (right; split; [reflexivity|left; exact H]). destruct (inv_run value_of accepts trainable cs s0 _ (by_key_same _ K) I0) as [(F & l & c & v & E1 & E2 & E3 & E4)|(C & [R|[D _]])].
  - rewrite E1. split; [exact F|]. exists v. split; [unfold output; change "final_cost" with FinalCost; rewrite E2; exact E3|exact E4].
  - rewrite C. apply (r_fin _ _ _ R).
  - rewrite C. apply D.
Qed.
(** The specification finalises as soon as there is a loss and the two reserved keys are free, and its cost is then the formula. *)
Lemma spec_cost_inv : forall cs (p : spec), (forall l, cost p = Some l -> l = final_cost p /\ losses p <> []) -> forall l, cost (spec_run p cs) = Some l -> l = final_cost (spec_run p cs) /\ losses (spec_run p cs) <> [].
Proof.
  intros cs; induction cs as [|c cs IH]; intros p H; [exact H|]. cbn. apply IH. clear IH. intros l E. assert (c = Finalize \/ c <> Finalize) as [->|N] by (destruct c; auto; right; discriminate).
  - unfold spec_call in *. destruct (cost p) eqn:EC; [apply H; rewrite <- EC; exact E|]. destruct ((match losses p with [] => true | _ => false end) || blocked p) eqn:EB; [congruence|]. cbn in *. injection E as <-. split; [reflexivity|]. destruct (losses p); [discriminate|discriminate].
  - destruct (cost p) eqn:EC.
    + unfold spec_call in *. rewrite EC in *. apply H; congruence.
    + destruct (spec_call_mono value_of accepts trainable p c N) as (_ & _ & M). congruence.
Qed.
Lemma spec_comb_inv : forall cs (p : spec), (forall m, ~ In (SetCombiner m) cs) -> combiner (spec_run p cs) = combiner p.
Proof.
  intros cs; induction cs as [|c cs IH]; intros p N; [reflexivity|]. change (spec_run p (c :: cs)) with (spec_run (spec_call value_of accepts trainable p c) cs). rewrite IH; [|intros m HI; apply (N m); right; exact HI]. unfold spec_call. destruct (cost p); [reflexivity|].
  assert (forall p m q k args n, combiner (fst (spec_reg value_of trainable p m q k args n)) = combiner p) as SR.
  { clear. intros p m q k args n. unfold spec_reg. destruct (negb _); [reflexivity|]. destruct (get_keys _ _ _). destruct (compute _ _). destruct (in_use _ _); reflexivity. }
  destruct c as [l|r|m q f n|m l st n|m|].
  - unfold spec_loss. destruct (negb _); [reflexivity|]. destruct (get_keys _ _ _). destruct (compute _ _). destruct (in_use _ _); reflexivity.
  - apply SR.
  - set (l := filter _ _). clearbody l. assert (forall l p b, combiner (fst (fold_left (fun (pb : spec * bool) k => if snd pb then spec_reg value_of trainable (fst pb) m q k [ByName k] n else pb) l (p, b))) = combiner p) as G; [|apply G].
    clear -SR. intros l; induction l as [|k l IH]; intros p b; [reflexivity|]. cbn [fold_left snd fst]. destruct b; [|apply IH]. specialize (SR p m q k [ByName k] n). destruct (spec_reg value_of trainable p m q k [ByName k] n) as [p1 b1]. rewrite IH; exact SR.
  - unfold spec_metric. destruct (get_keys _ _ _). destruct (compute _ _). destruct (in_use _ _); reflexivity.
  - exfalso; apply (N m); left; reflexivity.
  - destruct (_ || _); reflexivity.
Qed.
Theorem C40_finalize : forall ins outs s0 cs, init ins outs = Ok s0 -> Forall by_key cs -> let p := spec_run (spec_init value_of ins outs) cs in
  losses p <> [] -> dget "final_cost" (env p) = None -> regs p = [] \/ dget "loss" (env p) = None ->
  let s := run s0 (cs ++ [Finalize]) in is_finalized s = true /\ exists v, output s "final_cost" = Some v /\ flat B v = final_cost p.
Proof.
  intros ins outs s0 cs E K. cbv zeta. intros N F1 F2. set (p := spec_run (spec_init value_of ins outs) cs) in *. assert (Forall by_key (cs ++ [Finalize])) as K' by (apply Forall_app; split; [exact K|repeat constructor]).
  pose proof (C40_cost ins outs s0 (cs ++ [Finalize]) E K') as C. cbv zeta in C. assert (spec_run (spec_init value_of ins outs) (cs ++ [Finalize]) = spec_call value_of accepts trainable p Finalize) as R by (unfold Train_Spec.spec_run; rewrite fold_left_app; reflexivity).
  assert (cost (spec_run (spec_init value_of ins outs) (cs ++ [Finalize])) = Some (final_cost p)) as C'.
  { rewrite R. unfold spec_call. destruct (cost p) as [l|] eqn:EC.
    - rewrite EC. f_equal. apply (spec_cost_inv cs (spec_init value_of ins outs)); [discriminate|exact EC].
    - assert (blocked p = false) as ->. { unfold blocked, dmem. rewrite F1. cbn. destruct F2 as [F2|F2]; rewrite F2; [reflexivity|]. apply andb_false_r. } destruct (losses p); [congruence|]. reflexivity. }
  rewrite C' in C. exact C.
Qed.
(** Without a combiner of one's own the cost is a plain sum. *)
Theorem C40_default : forall ins outs s0 cs, init ins outs = Ok s0 -> Forall by_key cs -> (forall m, ~ In (SetCombiner m) cs) -> is_finalized (run s0 cs) = true ->
  let p := spec_run (spec_init value_of ins outs) cs in
  exists v, output (run s0 cs) "final_cost" = Some v /\ total (flat B v) = fadd B (total (map (fun l => total (flat B (lv l))) (losses p))) (penalty p).
Proof.
  intros ins outs s0 cs E K N F. cbv zeta. pose proof (C40_cost ins outs s0 cs E K) as C. cbv zeta in C. set (p := spec_run (spec_init value_of ins outs) cs) in *. destruct (cost p) as [l|] eqn:EC; [|congruence]. destruct C as (_ & v & O & V). exists v; split; [exact O|].
  destruct (spec_cost_inv cs (spec_init value_of ins outs)) with (l := l) as [El NL]; [discriminate|exact EC|]. fold p in El, NL. rewrite V, El. assert (combiner p = sum_model B) as Ec by (unfold p; rewrite spec_comb_inv by exact N; reflexivity).
  assert (total (flat B (combined p)) = total (map (fun l => total (flat B (lv l))) (losses p))) as T.
  { unfold combined. rewrite Ec. destruct (losses p) as [|l1 [|l2 ls]] eqn:EL; [congruence| |].
    - cbn [map]. rewrite total_one. reflexivity.
    - rewrite <- EL in *. rewrite run_sum, flat_sum, flat_concat, map_map. rewrite total_one. change (fold_right (fadd B) (fzero B)) with (@total B). rewrite total_concat, map_map. f_equal. apply map_ext. intros a. rewrite flat_atleast_1d. reflexivity. }
  unfold final_cost. destruct (regs p) as [|r rs] eqn:ER; [|rewrite total_one, T; reflexivity]. rewrite T. unfold penalty. rewrite ER. cbn [map total fold_right]. rewrite fadd_comm, fadd_zero. reflexivity.
Qed.
(** Once finalised, a model refuses every change, and finalising again does nothing. *)
Theorem C40_frozen : forall ins outs s0 cs ds, init ins outs = Ok s0 -> is_finalized (run s0 cs) = true ->
  run s0 (cs ++ ds) = run s0 cs /\ forall c, do accepts trainable (run s0 cs) c = (run s0 cs, match c with Finalize => None | _ => Some GenericException end).
Proof.
  intros ins outs s0 cs ds _ F. assert (forall c, do accepts trainable (run s0 cs) c = (run s0 cs, match c with Finalize => None | _ => Some GenericException end)) as H.
  { intros c; destruct c; cbn [do]; unfold add_loss, add_regularization, add_pattern, add_metric, set_loss_combiner, finalize; rewrite F; reflexivity. }
  split; [|exact H]. unfold Train_Model.run. rewrite fold_left_app. fold (run s0 cs). induction ds as [|c ds IH]; [reflexivity|]. cbn [fold_left]. rewrite H. exact IH.
Qed.
(** Finalising needs a loss. *)
Theorem C40_no_loss : forall ins outs s0 cs, init ins outs = Ok s0 -> Forall by_key cs -> losses (spec_run (spec_init value_of ins outs) cs) = [] -> is_finalized (run s0 cs) = false.
Proof.
  intros ins outs s0 cs E K N. pose proof (C40_cost ins outs s0 cs E K) as C. cbv zeta in C. destruct (cost (spec_run (spec_init value_of ins outs) cs)) as [l|] eqn:EC; [|exact C].
  destruct (spec_cost_inv cs (spec_init value_of ins outs)) with (l := l) as [_ NL]; [discriminate|exact EC|]. contradiction.
Qed.
End Props.
(** ** A case *)
Definition zsum (l : list Z) : Z := fold_right Z.add 0%Z l.
Definition zroot (n : nat) (a : Z) : Z := match n with 2 => Z.sqrt a | _ => a end.
(** Models 0: mean, 1: buffer, 2: sum, 3: squares, 4: the largest element, 5: difference, 6: product *)
Definition zmodel (m : nat) (l : list (list Z)) : list Z :=
  match m, l with
  | 0, [v] => [Z.div (zsum v) (Z.of_nat (List.length v))] | 1, [v] => v | 2, [v] => [zsum v] | 3, [v] => map (fun a => Z.mul a a) v | 4, [v] => [fold_right Z.max 0%Z v]
  | 5, [v; w] => map (fun x => Z.sub (fst x) (snd x)) (combine v w) | 6, [v; w] => map (fun x => Z.mul (fst x) (snd x)) (combine v w) | _, _ => []
  end.
Definition Zb : backend.
Proof.
  refine {| F := Z; F_eq := Z.eq_dec; fzero := 0%Z; fone := 1%Z; fadd := Z.add; fmul := Z.mul; fdiv := Z.div; froot := zroot; V := list Z; Axis := unit; all_axes := tt; flat := fun v => v; run_model := zmodel;
            concat := fun l => List.concat l; sum := fun v => [zsum v]; prod := fun v => [fold_right Z.mul 1%Z v]; root := fun n v => map (zroot n) v; div := fun v w => match w with [d] => map (fun a => Z.div a d) v | _ => v end;
            scale := fun c v => map (fun a => Z.mul a c) v; atleast_1d := fun v => v; one := [1%Z]; size := fun v _ => [Z.of_nat (List.length v)]; fsize := fun v _ => Z.of_nat (List.length v); mean_model := 0; buffer_model := 1; sum_model := 2 |};
  try (intros; reflexivity); try (intros; cbn; ring).
  - intros; rewrite map_id; reflexivity.
  - intros v w d E; subst w; reflexivity.
Defined.
Definition zval (k : string) : list Z := if String.eqb k "x" then [1; 2; 3; 4]%Z else if String.eqb k "w" then [8; 16; 24; 32]%Z else [0; 0; 0; 0]%Z.
Definition yes {A C : Type} (_ : A) (_ : C) : bool := true.
Definition zins := ["x"; "w"]. Definition zouts := [("y", (6, ["x"; "w"]))].
Definition mse (name : option string) (q : option Z) : @call Zb := AddLoss {| lmodel := 5 : nat; largs := [ByName "y"; ByName "t"]; lsteps := []; lname := name; lcoef := (q : option (F Zb)) |}.
Definition l2 (a : arg) : @call Zb := AddReg {| rmodel := 3 : nat; rcoef := 3%Z : F Zb; rarg := a; rothers := []; rname := None |}.
Definition zcalls : list (@call Zb) := [mse (Some "a") None; mse None (Some 2%Z); l2 (ByName "w"); l2 (ByName "w"); l2 (ByName "nope"); AddPattern (4 : nat) (5%Z : F Zb) (fun k => String.eqb k "x") None; Finalize].
Definition zrun (cs : list (@call Zb)) : option (bool * option (list Z)) :=
  match init (B := Zb) zins zouts with Ok s => let s := run yes (fun _ => true) s cs in Some (is_finalized s, output (B := Zb) zval s "final_cost") | Err _ => None end.
Definition zspec (cs : list (@call Zb)) : option (list Z) := cost (spec_run (B := Zb) zval yes (fun _ => true) (spec_init (B := Zb) zval zins zouts) cs).
Example C40_cost_example : Forall by_key zcalls /\ zrun zcalls = Some (true, Some [3065%Z]) /\ zspec zcalls = Some [3065%Z].
Proof. split; [repeat (apply Forall_cons; [exact Logic.I|]); constructor|]. split; vm_compute; reflexivity. Qed.
(** ** Findings *)
(** A parameter given as a connection that has another key in its own model: its penalty is not divided. *)
Theorem C40_connection_refuted : exists cs : list (@call Zb), zrun (cs ++ [Finalize]) <> Some (true, zspec (cs ++ [Finalize])) /\ exists h o, cs = [mse None None; l2 (ByConn h o)].
Proof. exists [mse None None; l2 (ByConn "w" "weight")]. split; [vm_compute; discriminate|]. exists "w", "weight"; reflexivity. Qed.
(** With one loss a combiner set by the user is not used: the largest element of a loss that is not reduced to one is asked for, and not given. *)
Definition raw : @call Zb := AddLoss {| lmodel := 5 : nat; largs := [ByName "y"; ByName "t"]; lsteps := [{| smodel := 1 : nat; saxis := None |}]; lname := None; lcoef := None |}.
Theorem C40_combiner_refuted : zrun [raw; SetCombiner (4 : nat); Finalize] = Some (true, Some [8; 32; 72; 128]%Z) /\ zmodel 4 [[8; 32; 72; 128]%Z] = [128%Z].
Proof. split; vm_compute; reflexivity. Qed.
(** A loss may be named "loss", and the model finalised; with a regularisation beside it, it never is. *)
Definition zstart : @train Zb := match init (B := Zb) zins zouts with Ok s => s | Err _ => empty_train end.
Notation zdo := (do (B := Zb) yes (fun _ => true)). Notation zgo := (run (B := Zb) yes (fun _ => true)).
Theorem C40_loss_name_refuted : is_finalized (zgo zstart [mse (Some "loss") None; Finalize]) = true /\
  snd (zdo zstart (mse (Some "loss") None)) = None /\ snd (zdo (zgo zstart [mse (Some "loss") None]) (l2 (ByName "w"))) = None /\ snd (zdo (zgo zstart [mse (Some "loss") None; l2 (ByName "w")]) Finalize) = Some KeyError /\
  forall cs, is_finalized (zgo zstart ([mse (Some "loss") None; l2 (ByName "w")] ++ cs)) = false.
Proof.
  split; [vm_compute; reflexivity|]. split; [vm_compute; reflexivity|]. split; [vm_compute; reflexivity|]. split; [vm_compute; reflexivity|]. intros cs.
  assert (forall s cs, dead s -> dead (zgo s cs)) as G by (intros s cs'; revert s; induction cs' as [|c cs' IH]; intros s Ds; [exact Ds|]; apply (IH (fst (zdo s c))), dead_do, Ds).
  assert (dead (zgo zstart [mse (Some "loss") None; l2 (ByName "w")])) as D.
  { split; [vm_compute; reflexivity|]. right. split; [vm_compute; reflexivity|]. intros E. assert ((match reg_coef_map (zgo zstart [mse (Some "loss") None; l2 (ByName "w")]) with [] => true | _ => false end) = false) as Q by (vm_compute; reflexivity). rewrite E in Q; discriminate. }
  assert (forall s a b, zgo s (a ++ b) = zgo (zgo s a) b) as R by (intros; unfold Train_Model.run; apply fold_left_app). rewrite R. exact (proj1 (G _ cs D)).
Qed.
(** A pattern that finds two parameters and a name for the result: the call raises, and the first penalty stays in the cost. *)
Theorem C40_pattern_refuted : exists pat, snd (zdo (zgo zstart [mse None None]) pat) = Some KeyError /\ zrun [mse None None; pat; Finalize] = Some (true, Some [67%Z]) /\ zrun [mse None None; Finalize] = Some (true, Some [60%Z]).
Proof. exists (AddPattern (3 : nat) (1%Z : F Zb) (fun _ => true) (Some "r")). split; [vm_compute; reflexivity|]. split; vm_compute; reflexivity. Qed.
Print Assumptions C40_cost.
Print Assumptions C40_finalize.
Print Assumptions C40_default.
Print Assumptions C40_frozen.
Print Assumptions C40_no_loss.
Print Assumptions C40_connection_refuted.
Print Assumptions C40_combiner_refuted.
Print Assumptions C40_loss_name_refuted.
Print Assumptions C40_pattern_refuted.
