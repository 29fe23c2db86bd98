(** * C65: types of the results of operators *)
From Coq Require Import List Arith Lia Bool ZArith QArith Permutation.
From Verif Require Import PyBase Poly_Model Optype_Model Optype_Spec Optype_Proofs Optype_Proofs2.
Import ListNotations.
Open Scope list_scope. Open Scope nat_scope. Open Scope res_scope.

(** [fpow] is the value of a power of floats, [order] Python's order of going through a set.  The operators [usable] with that many
    inputs are all but minimum and maximum; [inputs_fine]: bitwise operators and shifts have no float among their declared types. *)
Lemma rule_run fpow order o bits edge out ins st : reorders order -> inputs_fine o ins st ->
  exists cs, (forall t ts, In (t :: ts) cs <-> In t (key_types st out) /\ Forall2 (fun x l => In x l) ts (map (key_types st) ins) /\ result o bits ts t) /\ (forall c, In c cs -> length c = length (out :: ins)) /\
    ((forall e, NoDup (st e)) -> NoDup cs) /\
    type_rule fpow order o bits edge out ins st =
      (let cols := match cs with [] => [] | _ => columns (length (out :: ins)) cs end in
       let* st' := set_types (out :: ins) cols st in
       Ok (st', if edge then forallb (fun e => is_scalar_type (st' e) || is_tensor_type (st' e)) (out :: ins) else length (products cols) <=? length cs)).
Proof.
  intros R A. destruct (combinations_ok fpow order o bits (key_types st out) (map (key_types st) ins) R (inputs_fine_ok o ins st A)) as (cs & E & H & I & N). exists cs. split; [exact H|]. split; [|split].
  - intros c Hc. apply I, products_In, F2_len in Hc. rewrite Hc. cbn [length]. rewrite map_length. auto.
  - intros Hn. apply N. constructor; [apply NoDup_filter, Hn|]. apply Forall_forall. intros l Hl. apply in_map_iff in Hl as (e & <- & _). apply NoDup_filter, Hn.
  - unfold type_rule. rewrite E. cbn [bind]. set (cols := match cs with [] => [] | _ => _ end). destruct (set_types (out :: ins) cols st) as [st'|x]; [|auto]. cbn [bind]. rewrite fold_left_mul, Nat.mul_1_l. auto.
Qed.

(** ** Inference only removes types, and none that a possible arrangement of types uses; an error means that there is none. *)
Theorem C65_types : forall fpow order o bits edge out ins st, reorders order -> inputs_fine o ins st ->
  match type_rule fpow order o bits edge out ins st with
  | Ok (st', _) => (forall e a, In a (st' e) -> In a (st e)) /\ (forall e, ~ In e (out :: ins) -> st' e = st e) /\ (forall tau, fits o bits out ins st tau <-> fits o bits out ins st' tau)
  | Err x => x = TypeError /\ forall tau, ~ fits o bits out ins st tau
  end.
Proof.
  intros fpow order o bits edge out ins st R A. destruct (rule_run fpow order o bits edge out ins st R A) as (cs & H & L & _ & ->). assert (Fi := fun tau => fits_in o bits out ins st tau cs H). set (keys := out :: ins) in *. destruct cs as [|c0 cs0] eqn:Ecs.
  - assert (forall tau, ~ fits o bits out ins st tau) by (intros tau F; apply Fi in F as [_ []]). cbn [set_types keys bind]. split; [auto|]. split; [auto|]. tauto.
  - rewrite <- Ecs in *. clear c0 cs0 Ecs. cbv zeta. assert (S := set_types_ok keys (columns (length keys) cs) st (columns_length _ _)). destruct (set_types keys (columns (length keys) cs) st) as [st'|x]; cbn [bind].
    + destruct S as [S1 S2]. split; [intros e a Ha; apply S1 in Ha; apply Ha|]. split; [exact S2|]. intros tau. split.
      * intros F. split; [|apply F]. intros e He. apply S1. apply Fi in F as [F1 F2]. split; [apply F1; auto|]. intros j Hj E. assert (C := columns_cover (length keys) cs (map tau keys) F2 (map_length _ _)). assert (X := F2_nth _ _ _ (tau 0) [] j C ltac:(rewrite map_length; auto)). rewrite map_nth, E in X. exact X.
      * intros [F1 F2]. split; [|exact F2]. intros e He. specialize (F1 e He). apply S1 in F1. apply F1.
    + destruct S as [-> S]. split; [auto|]. intros tau F. apply Fi in F as [F1 F2]. apply (S tau F1). apply cover_map. apply columns_cover; [auto|apply map_length].
Qed.

(** ** For different connections the types left are exactly those of the possible arrangements; the rule is done exactly if they can be
    chosen independently; without a possible arrangement nothing changes and the rule is not done. *)
Theorem C65_exact : forall fpow order o bits out ins st, reorders order -> inputs_fine o ins st -> NoDup (out :: ins) -> (forall e, NoDup (st e)) ->
  exists st' b, type_rule fpow order o bits false out ins st = Ok (st', b) /\
    (((exists tau, fits o bits out ins st tau) /\ (forall e a, In e (out :: ins) -> In a (st' e) <-> exists tau, fits o bits out ins st tau /\ tau e = a) /\
      (b = true <-> forall tau, (forall e, In e (out :: ins) -> In (tau e) (st' e)) -> fits o bits out ins st' tau)) \/
     ((forall tau, ~ fits o bits out ins st tau) /\ st' = st /\ b = false)).
Proof.
  intros fpow order o bits out ins st R A Nk Ns. destruct (rule_run fpow order o bits false out ins st R A) as (cs & H & L & Nc & ->). specialize (Nc Ns). assert (Fi := fun tau => fits_in o bits out ins st tau cs H). set (keys := out :: ins) in *.
  (* every combination is an arrangement *)
  assert (Arr : forall c, In c cs -> fits o bits out ins st (assign keys c)).
  { intros c Hc. apply Fi. rewrite (assign_map keys c Nk (L c Hc)). split; [|auto]. assert (Hc' := Hc). destruct c as [|t ts]; [specialize (L [] Hc); discriminate|]. apply H in Hc' as (Ht & F & _).
    assert (F' : Forall2 (fun x l => In x l) (map (assign keys (t :: ts)) keys) (map (key_types st) keys)) by (rewrite (assign_map keys _ Nk (L _ Hc)); constructor; auto). clear - F'. intros e He. revert F'. generalize (assign keys (t :: ts)). intros f F. clear - F He. clearbody keys. induction keys as [|k keys IH]; [destruct He|]. cbn [map] in F. inversion F; subst. destruct He as [<-|He]; [|auto]. apply key_types_In in H2. apply H2. }
  destruct cs as [|c0 cs0] eqn:Ecs.
  - cbn [set_types keys bind]. exists st, false. split; [auto|]. right. split; [|auto]. intros tau F. apply Fi in F as [_ []].
  - assert (H0 : In c0 cs) by (rewrite Ecs; left; auto). rewrite <- Ecs in *. clear cs0 Ecs. cbv zeta. set (cols := columns (length keys) cs). assert (S := set_types_ok keys cols st (columns_length _ _)). destruct (set_types keys cols st) as [st'|x]; cbn [bind].
    2:{ exfalso. destruct S as [_ S]. apply (S (assign keys c0)); [apply Arr; auto|]. apply cover_map. rewrite (assign_map keys c0 Nk (L _ H0)). apply columns_cover; auto. }
    destruct S as [S1 _]. exists st', (length (products cols) <=? length cs). split; [auto|]. left. split; [exists (assign keys c0); auto|].
    assert (Ex : forall e a, In e keys -> In a (st' e) <-> exists tau, fits o bits out ins st tau /\ tau e = a).
    { intros e a He. rewrite S1. split.
      - intros [Ha Hj]. destruct (In_nth keys e 0 He) as (j & Lj & Ej). specialize (Hj j Lj Ej). apply columns_from in Hj as (c & Hc & Ec); [|exact L|auto]. exists (assign keys c). split; [auto|]. rewrite <- Ej, assign_nth; auto.
      - intros (tau & F & <-). apply Fi in F as [F1 F2]. split; [auto|]. intros j Lj Ej. assert (X := F2_nth _ _ _ (tau 0) [] j (columns_cover (length keys) cs (map tau keys) F2 (map_length _ _)) ltac:(rewrite map_length; auto)). rewrite map_nth, Ej in X. exact X. }
    split; [exact Ex|].
    assert (Sub : incl cs (products cols)) by (intros c Hc; apply products_In, columns_cover; auto).
    assert (Np : NoDup (products cols)) by apply products_NoDup, columns_NoDup. rewrite Nat.leb_le. split.
    + intros Le tau Ht. assert (F : In (map tau keys) cs).
      { apply (NoDup_length_incl Nc Le Sub). apply products_In. assert (Hn : forall j, j < length keys -> In (tau (nth j keys 0)) (nth j cols [])) by (intros j Lj; assert (X := Ht (nth j keys 0) (nth_In _ _ Lj)); apply S1 in X as [_ X]; apply (X j Lj); auto).
        apply cover_nth; [exact Hn|apply columns_length]. }
      split; [auto|]. cbn [map keys] in F. apply H in F. apply F.
    + intros All. apply NoDup_incl_length; [auto|]. intros c Hc. apply products_In in Hc. assert (Lc : length c = length keys) by (rewrite (F2_len _ _ _ Hc); apply columns_length).
      assert (F : fits o bits out ins st' (assign keys c)).
      { apply All. intros e He. destruct (In_nth keys e 0 He) as (j & Lj & Ej). apply Ex; [auto|]. assert (X := F2_nth _ _ _ (Other 0) [] j Hc ltac:(lia)). apply columns_from in X as (c' & Hc' & Ec'); [|exact L|auto]. exists (assign keys c'). split; [auto|]. rewrite <- Ej, !assign_nth; auto. }
      assert (F' : fits o bits out ins st (assign keys c)) by (split; [intros e He; destruct F as [F _]; specialize (F e He); apply S1 in F; apply F|apply F]). apply Fi in F' as [_ F']. rewrite (assign_map keys c Nk Lc) in F'. exact F'.
Qed.

(** ** The order of sets has no effect. *)
Theorem C65_order : forall fpow order order' o bits edge out ins st, reorders order -> reorders order' -> inputs_fine o ins st -> type_rule fpow order o bits edge out ins st = type_rule fpow order' o bits edge out ins st.
Proof. intros. unfold type_rule. rewrite (combinations_same fpow order order'); auto. apply inputs_fine_ok. auto. Qed.

(** ** The inferred types of scalars are those of the values computed. *)
Lemma arith_kind fz fq a b v ka kb : knd a ka -> knd b kb -> (forall x y v, fz x y = Ok v -> exists z, v = PInt z) -> (forall x y v, fq x y = Ok v -> exists q, v = PFloat q) -> arith fz fq a b = Ok v -> knd v (kmax ka (kmax kb KInt)).
Proof.
  intros Ha Hb Hz Hq. destruct a, b, ka, kb; cbn in Ha, Hb; try discriminate; cbn; intros E; try (apply Hz in E as (? & ->)); try (apply Hq in E as (? & ->)); reflexivity.
Qed.
Theorem C65_values : forall fpow o vs ks v, Forall2 (fun v k => type_of v = Scalar k) vs ks -> usable o (length vs) -> o <> OPow -> o <> ODistance -> run_op fpow o vs = Ok v -> exists k, typed o ks k /\ type_of v = Scalar k.
Proof.
  intros fpow o vs ks v F U N1 N2 E.
  assert (Pair : (forall n, usable o n -> n = 2) -> exists a b ka kb, vs = [a; b] /\ ks = [ka; kb] /\ knd a ka /\ knd b kb).
  { intros H. specialize (H _ U). inversion F as [|a ka vs1 ks1 Ha F1]; subst; [discriminate|]. inversion F1 as [|b kb vs2 ks2 Hb F2]; subst; [discriminate|]. inversion F2; subst; [|discriminate]. exists a, b, ka, kb. auto. }
  destruct o; try (destruct (Pair ltac:(cbn; auto)) as (a & b & ka & kb & -> & -> & Ha & Hb)); try (destruct U; fail); try congruence; cbn [run_op binary] in E.
  - inversion F as [|a ka vs1 ks1 Ha F1]; subst; [discriminate|]. inversion F1; subst; [|discriminate]. injection E as <-. exists ka. split; [apply ty_first|auto].
  - exists (kmax ka (kmax kb KInt)). split; [apply ty_arith; [cbn; auto 10|apply pair_largest]|]. eapply arith_kind; [exact Ha|exact Hb| | |exact E]; intros x y w [= <-]; eauto.
  - exists (kmax ka (kmax kb KInt)). split; [apply ty_arith; [cbn; auto 10|apply pair_largest]|]. eapply arith_kind; [exact Ha|exact Hb| | |exact E]; intros x y w [= <-]; eauto.
  - exists (kmax ka (kmax kb KInt)). split; [apply ty_arith; [cbn; auto 10|apply pair_largest]|]. eapply arith_kind; [exact Ha|exact Hb| | |exact E]; intros x y w [= <-]; eauto.
  - exists KFloat. split; [apply ty_div|]. unfold py_truediv, arith in E. destruct a, b, ka, kb; cbn in Ha, Hb; try discriminate; cbn in E;
      repeat match goal with H : (if ?c then _ else _) = Ok _ |- _ => destruct c end; try discriminate; injection E as <-; reflexivity.
  - exists (kmax ka (kmax kb KInt)). split; [apply ty_arith; [cbn; auto 10|apply pair_largest]|]. eapply arith_kind; [exact Ha|exact Hb| | |exact E]; intros x y w; cbv beta; [destruct (y =? 0)%Z|destruct (is_zero y)]; intros X; try discriminate X; injection X as <-; eauto.
  - exists KBool. split; [apply ty_compare|]. unfold compare in E. destruct (num_of a) as [x|]; [|discriminate]. cbn [bind] in E. destruct (num_of b) as [y|]; [|discriminate]. injection E as <-. reflexivity.
  - exists (kmax ka (kmax kb KBool)). destruct a, b, ka, kb; cbn in Ha, Hb; try discriminate; cbn in E; try discriminate; injection E as <-; (split; [apply ty_bits; [apply pair_largest|discriminate]|reflexivity]).
  - exists KInt. unfold shift in E. destruct a, b, ka, kb; cbn in Ha, Hb; try discriminate; cbn in E; try discriminate; match goal with H : (if ?c then _ else _) = Ok _ |- _ => destruct c end; try discriminate; injection E as <-; (split; [apply ty_shift; discriminate|reflexivity]).
  - assert (G : forall vs ks w k, Forall2 (fun v k => type_of v = Scalar k) vs ks -> knd w k -> k <> KBool -> foldM py_add vs w = Ok v -> exists k', knd v k' /\ largest k ks k').
    { clear. induction vs as [|a vs IH]; intros ks w k F Hw Nk E; inversion F as [|? ka ? ks' Ha F']; subst.
      - injection E as <-. exists k. split; [auto|apply largest_nil].
      - cbn [foldM] in E. destruct (py_add w a) as [w'|] eqn:Ea; [|discriminate]. cbn [bind] in E. assert (Hw' : knd w' (kmax ka k)) by (destruct w, a, k, ka; cbn in Hw, Ha; try discriminate; try congruence; cbn in Ea; injection Ea as <-; reflexivity).
        destruct (IH ks' w' (kmax ka k) F' Hw' ltac:(destruct ka, k; cbn; congruence) E) as (k' & Hk' & (M1 & M2 & M3)). exists k'. split; [auto|]. split; [|split].
        + destruct M1 as [-> |M1]; [|right; right; auto]. assert (kmax ka k = ka \/ kmax ka k = k) as [-> | ->] by (destruct ka, k; cbn; auto); [right; left; auto|auto].
        + destruct ka, k, k'; cbn in *; lia.
        + intros j [<-|Hj]; [destruct ka, k, k'; cbn in *; lia|apply M3; auto]. }
    destruct (G vs ks (PInt 0) KInt F eq_refl ltac:(discriminate) E) as (k & Hk & M). exists k. split; [apply ty_sum; auto|auto].
Qed.
(** Powers: if the exponent is an integer and not negative *)
Theorem C65_power : forall fpow a b z ka kb v, type_of a = Scalar ka -> type_of b = Scalar kb -> (b = PInt z \/ b = PBool (Z.eqb z 1)) -> (0 <= z)%Z -> run_op fpow OPow [a; b] = Ok v -> exists k, typed OPow [ka; kb] k /\ type_of v = Scalar k.
Proof.
  intros fpow a b z ka kb v Ha Hb Eb Hz E. exists (kmax ka (kmax kb KInt)). split; [apply ty_arith; [cbn; auto 10|apply pair_largest]|]. cbn [run_op binary] in E. assert (exists y, int_of b = Some y /\ num_of b = Ok (inject_Z y) /\ (0 <= y)%Z /\ kb <> KFloat) as (y & Ei & En & Hy & Nb).
  { destruct Eb as [->| ->]; cbn in Hb; injection Hb as <-; [exists z; repeat split; [auto|discriminate]|]. exists (Z.b2z (z =? 1)%Z). repeat split; [destruct (z =? 1)%Z; cbn; lia|discriminate]. }
  unfold py_pow, arith in E. rewrite Ei, En in E. destruct a as [x|x|x|]; cbn in Ha; try discriminate; injection Ha as <-; cbn [int_of num_of bind] in E.
  - apply Z.leb_le in Hy. rewrite Hy in E. injection E as <-. destruct kb; try congruence; reflexivity.
  - apply Z.leb_le in Hy. rewrite Hy in E. injection E as <-. destruct kb; try congruence; reflexivity.
  - assert (Q0 : Qle_bool 0 (inject_Z y) = true) by (apply Qle_bool_iff; unfold Qle, inject_Z; cbn; lia). rewrite Q0, Bool.andb_false_r in E. assert (Qi : is_integral (inject_Z y) = true). { unfold is_integral. apply Qeq_bool_iff. replace (Qround.Qfloor (inject_Z y)) with y; [reflexivity|]. unfold Qround.Qfloor, inject_Z. rewrite Z.div_1_r. auto. } rewrite Qi, Bool.andb_false_r in E. injection E as <-. destruct kb; try congruence; reflexivity.
Qed.

(** ** Cases *)
(** The value of a power does not matter here *)
Definition Qpower' (a b : Q) : Q := a.
Definition any : list atom := [Scalar KInt; Scalar KFloat; Scalar KBool; Tens KInt; Tens KFloat; Tens KBool].
Definition any_tensor : list atom := [Tens KInt; Tens KFloat; Tens KBool].
Lemma reorders_id : reorders (fun l => l).
Proof. intros l. apply Permutation_refl. Qed.
Lemma reorders_rev : reorders (@rev atom).
Proof. intros l. apply Permutation_sym, Permutation_rev. Qed.
(** Connections: 0 the output, 1 and 2 the inputs *)
Definition types3 (a b c : list atom) : store := fun e => match e with 0 => a | 1 => b | 2 => c | _ => [] end.
Definition now (r : res (store * bool)) : option (list atom * list atom * list atom * bool) := match r with Ok (st, b) => Some (st 0, st 1, st 2, b) | Err _ => None end.
(** int + (bool or tensor of float) with an output that is a tensor or an int: int or Tensor[float]; with an output that is a tensor the
    second input is one and the rule is done; the edge rule is not done in the first case *)
Example C65_types_example : inputs_fine OAdd [1; 2] (types3 (Scalar KInt :: any_tensor) [Scalar KInt; Other 7] [Scalar KBool; Tens KFloat]) /\
  now (type_rule Qpower' (fun l => l) OAdd false false 0 [1; 2] (types3 (Scalar KInt :: any_tensor) [Scalar KInt; Other 7] [Scalar KBool; Tens KFloat])) = Some ([Scalar KInt; Tens KFloat], [Scalar KInt], [Scalar KBool; Tens KFloat], false) /\
  now (type_rule Qpower' (@rev atom) OAdd false true 0 [1; 2] (types3 (Scalar KInt :: any_tensor) [Scalar KInt; Other 7] [Scalar KBool; Tens KFloat])) = Some ([Scalar KInt; Tens KFloat], [Scalar KInt], [Scalar KBool; Tens KFloat], false) /\
  now (type_rule Qpower' (fun l => l) OAdd false false 0 [1; 2] (types3 any_tensor [Scalar KInt; Other 7] [Scalar KBool; Tens KFloat])) = Some ([Tens KFloat], [Scalar KInt], [Tens KFloat], true).
Proof. split; [split; [reflexivity|intros; exact Logic.I]|]. vm_compute. auto. Qed.
Example C65_exact_example : NoDup [0; 1; 2] /\ (forall e, NoDup (types3 any any_tensor [Scalar KBool] e)) /\
  fits OMul false 0 [1; 2] (types3 any any_tensor [Scalar KBool]) (fun e => match e with 0 => Tens KBool | 1 => Tens KBool | _ => Scalar KBool end).
Proof.
  split; [repeat constructor; cbn; intuition lia|]. split; [intros [|[|[|e]]]; cbn; repeat constructor; cbn; intuition discriminate|]. split; [intros e [<-|[<-|[<-|[]]]]; cbn; auto 10|].
  exists [KBool; KBool], KBool. split; [constructor; [right; auto|constructor; [left; auto|constructor]]|]. split; [left; split; [exists KBool; left; auto|auto]|]. left. split; [exists KBool; left; auto|]. split; [intros j [<-|[<-|[]]]; auto|auto].
Qed.
Example C65_order_example : reorders (fun l => l) /\ reorders (@rev atom) /\ rev any <> any.
Proof. split; [apply reorders_id|]. split; [apply reorders_rev|discriminate]. Qed.
Example C65_values_example : Forall2 (fun v k => type_of v = Scalar k) [PInt 3; PBool true; PFloat (1 # 2)] [KInt; KBool; KFloat] /\ usable OSum 3 /\ run_op Qpower' OSum [PInt 3; PBool true; PFloat (1 # 2)] = Ok (PFloat (9 # 2)) /\ typed OSum [KInt; KBool; KFloat] KFloat /\
  run_op Qpower' OPow [PFloat (-3 # 2); PBool true] = Ok (PFloat (Qpower' (-3 # 2) 1)).
Proof. split; [repeat constructor|]. split; [cbn; lia|]. split; [reflexivity|]. split; [apply ty_sum; apply (largest_cons KInt KInt [KBool; KFloat] KFloat), (largest_cons KInt KBool [KFloat] KFloat), (largest_cons KInt KFloat [] KInt), largest_nil|reflexivity]. Qed.

(** ** Findings *)
(** Types that contradict each other are accepted without an error: a sum of two floats that is declared to be an int *)
Theorem C65_conflict_refuted : forall fpow order, reorders order -> exists st, (forall tau, ~ fits OAdd false 0 [1; 2] st tau) /\ st 0 = [Scalar KInt] /\ st 1 = [Scalar KFloat] /\ st 2 = [Scalar KFloat] /\
  type_rule fpow order OAdd false false 0 [1; 2] st = Ok (st, false) /\ exists b, type_rule fpow order OAdd false true 0 [1; 2] st = Ok (st, b).
Proof.
  intros fpow order R. set (st := types3 [Scalar KInt] [Scalar KFloat] [Scalar KFloat]). exists st.
  assert (N : forall tau, ~ fits OAdd false 0 [1; 2] st tau).
  { intros tau [F R1]. assert (T0 := F 0 ltac:(left; auto)). assert (T1 := F 1 ltac:(right; left; auto)). assert (T2 := F 2 ltac:(right; right; left; auto)). destruct T0 as [T0|[]], T1 as [T1|[]], T2 as [T2|[]]. cbn [map] in R1. rewrite <- T0, <- T1, <- T2 in R1.
    assert (R2 : result OAdd false [Scalar KFloat; Scalar KFloat] (Scalar KFloat)). { exists [KFloat; KFloat], KFloat. split; [repeat constructor; unfold of_kind; auto|]. assert (NT : forall j, ~ In (Tens j) [Scalar KFloat; Scalar KFloat]) by (intros j [X|[X|[]]]; discriminate). split; [auto|]. right. split; [auto|]. apply ty_arith; [cbn; auto|]. apply (pair_largest KInt). }
    assert (X := result_fun _ _ _ _ _ R1 R2). discriminate. }
  split; [exact N|]. do 3 (split; [reflexivity|]). assert (A : inputs_fine OAdd [1; 2] st) by (split; [reflexivity|intros; exact Logic.I]). rewrite !(C65_order fpow order (fun l => l) OAdd false _ 0 [1; 2] st R reorders_id A). split; [reflexivity|]. eexists. reflexivity.
Qed.
(** With an operand used twice, impossible types stay: x + x is a float, but x may still be an int *)
Theorem C65_twice_refuted : forall fpow order, reorders order -> exists st st' b, type_rule fpow order OAdd false false 0 [1; 1] st = Ok (st', b) /\ In (Scalar KInt) (st' 1) /\ (exists tau, fits OAdd false 0 [1; 1] st tau) /\ forall tau, fits OAdd false 0 [1; 1] st tau -> tau 1 <> Scalar KInt.
Proof.
  intros fpow order R. set (st := types3 [Scalar KFloat] [Scalar KInt; Scalar KFloat] []). assert (A : inputs_fine OAdd [1; 1] st) by (split; [reflexivity|intros; exact Logic.I]).
  assert (T : forall k, k <> KBool -> result OAdd false [Scalar k; Scalar k] (Scalar k)).
  { intros k Nk. exists [k; k], k. split; [repeat constructor; unfold of_kind; auto|]. assert (NT : forall j, ~ In (Tens j) [Scalar k; Scalar k]) by (intros j [X|[X|[]]]; discriminate). split; [auto|]. right. split; [auto|]. apply ty_arith; [cbn; auto|]. assert (X := pair_largest KInt k k). destruct k; try congruence; exact X. }
  destruct (type_rule fpow order OAdd false false 0 [1; 1] st) as [[st' b]|] eqn:E; rewrite (C65_order fpow order (fun l => l) OAdd false _ 0 [1; 1] st R reorders_id A) in E; [|discriminate E].
  exists st, st', b. rewrite (C65_order fpow order (fun l => l) OAdd false _ 0 [1; 1] st R reorders_id A). split; [exact E|]. split; [|split].
  - assert (X : match type_rule fpow (fun l => l) OAdd false false 0 [1; 1] st with Ok (s, _) => In (Scalar KInt) (s 1) | Err _ => False end) by (vm_compute; auto). rewrite E in X. exact X.
  - exists (fun _ => Scalar KFloat). split; [intros e [<-|[<-|[<-|[]]]]; cbn; auto|]. apply T. discriminate.
  - intros tau [F R1] E1. assert (T0 := F 0 ltac:(left; auto)). destruct T0 as [T0|[]]. cbn [map] in R1. rewrite <- T0, E1 in R1. assert (X := result_fun _ _ _ _ _ R1 (T KInt ltac:(discriminate))). discriminate.
Qed.
(** A power of integers is inferred to be an integer; 2 to the power of -1 is a float *)
Theorem C65_power_refuted : forall fpow, exists v, run_op fpow OPow [PInt 2; PInt (-1)] = Ok v /\ type_of v = Scalar KFloat /\ typed OPow [KInt; KInt] KInt /\ forall k, typed OPow [KInt; KInt] k -> k = KInt.
Proof.
  intros fpow. eexists. split; [reflexivity|]. split; [reflexivity|]. assert (T : typed OPow [KInt; KInt] KInt) by (apply ty_arith; [cbn; auto 10|apply (pair_largest KInt)]). split; [exact T|]. intros k H. eapply typed_fun; eauto.
Qed.
(** The inferred type of the minimum of integers and floats depends on the order of a set; with one order it is an integer type, which
    the minimum of 2 and 0.5 does not have *)
Theorem C65_minimum_order_refuted : forall fpow, exists st order order', reorders order /\ reorders order' /\ st 0 = any_tensor /\ st 1 = [Tens KInt] /\ st 2 = [Tens KFloat] /\
  now (type_rule fpow order OMin true false 0 [1; 2] st) = Some ([Tens KInt], [Tens KInt], [Tens KFloat], true) /\
  now (type_rule fpow order' OMin true false 0 [1; 2] st) = Some ([Tens KFloat], [Tens KInt], [Tens KFloat], true) /\
  run_op fpow OMin [PInt 2; PFloat (1 # 2)] = Ok (PFloat (1 # 2)).
Proof.
  intros fpow. exists (types3 any_tensor [Tens KInt] [Tens KFloat]), (fun l => l), (@rev atom). split; [apply reorders_id|]. split; [apply reorders_rev|]. do 3 (split; [reflexivity|]). split; [reflexivity|]. split; reflexivity.
Qed.
(** The minimum of integers and bools is inferred to be a tensor of bools with either order; the minimum of 0 and True is 0 *)
Theorem C65_minimum_bool_refuted : forall fpow order, order = (fun l => l) \/ order = @rev atom -> exists st, st 0 = any_tensor /\ st 1 = [Tens KInt] /\ st 2 = [Tens KBool] /\
  now (type_rule fpow order OMin true false 0 [1; 2] st) = Some ([Tens KBool], [Tens KInt], [Tens KBool], true) /\ run_op fpow OMin [PInt 0; PBool true] = Ok (PInt 0).
Proof. intros fpow order H. exists (types3 any_tensor [Tens KInt] [Tens KBool]). do 3 (split; [reflexivity|]). destruct H as [->| ->]; split; reflexivity. Qed.
(** primitives.py:2688-2719: the type of where is found with the operator + and so is an integer type for two tensors of bools *)
Theorem C65_where_refuted : forall fpow order, reorders order -> exists st, st 0 = any_tensor /\ st 1 = [Tens KBool] /\ st 2 = [Tens KBool] /\ now (type_rule fpow order OAdd true false 0 [1; 2] st) = Some ([Tens KInt], [Tens KBool], [Tens KBool], true).
Proof.
  intros fpow order R. exists (types3 any_tensor [Tens KBool] [Tens KBool]). do 3 (split; [reflexivity|]). rewrite (C65_order fpow order (fun l => l)); [reflexivity|exact R|apply reorders_id|]. split; [reflexivity|intros; exact Logic.I].
Qed.
Print Assumptions C65_types.
Print Assumptions C65_exact.
Print Assumptions C65_order.
Print Assumptions C65_values.
Print Assumptions C65_power.
Print Assumptions C65_conflict_refuted.
Print Assumptions C65_twice_refuted.
Print Assumptions C65_power_refuted.
Print Assumptions C65_minimum_order_refuted.
Print Assumptions C65_minimum_bool_refuted.
Print Assumptions C65_where_refuted.
