(** * C74: size, shape and randn *)
From Coq Require Import List Arith Lia Bool ZArith.
From Verif Require Import PyBase Uniadic_Model Uniadic_Proofs Uniadic_Props Bcast_Proofs Shape_Model Shape_Proofs Shape_Proofs2 Shape_Proofs3 Shape_Props Reduce_Model
  Rule_Proofs Window_Model Window_Proofs Window_Props Arange_Model Arange_Proofs Arange_Props Reshape_Model Reshape_Proofs Reshape_Props Concat_Model Concat_Proofs Concat_Props
  Flat_Model Flat_Spec Flat_Proofs Flat_Proofs2 Flat_Proofs3 Flat_Props Pad_Model Pad_Spec Pad_Proofs Pad_Props Swap_Model Swap_Spec Swap_Proofs Swap_Proofs2 Swap_Proofs3 Swap_Props
  Sizes_Model Sizes_Spec Sizes_Proofs Sizes_Proofs2.
Import ListNotations.
Open Scope list_scope. Open Scope nat_scope. Open Scope shm_scope.

(** ** Sessions with the rules so far and these *)
Inductive szrule (s : shst) : shst -> Prop :=
| sz_old s' : swrule s s' -> szrule s s'
| sz_size q dim out s' r : q < nrep s -> size_rule q dim out s = (s', Ok r) -> szrule s s'
| sz_shape q out s' r : q < nrep s -> shape_rule q out s = (s', Ok r) -> szrule s s'
| sz_randn q shape s' r : q < nrep s -> randn_rule q shape s = (s', Ok r) -> szrule s s'.
Lemma szrule_inv s s' : sinv s -> szrule s s' -> sinv s'.
Proof.
  intros I. destruct 1 as [s' W|q dim out s' [b o] Hq E|q out s' [b o] Hq E|q sv s' r Hq E]; [eapply swrule_inv; eauto|..].
  - assert (X := size_ok s q dim out I Hq). rewrite E in X. apply X.
  - assert (X := shape_ok s q out I Hq). rewrite E in X. apply X.
  - assert (X := randn_ok s q sv I Hq). rewrite E in X. apply X.
Qed.
Definition szsess : shst -> Prop := runs szrule.
Lemma szsess_inv s : szsess s -> sinv s.
Proof. apply runs_inv, szrule_inv. Qed.

(** ** size: no shape with such a size is lost and none invented; an error means that there was none.  A value of the output is never changed; a new one is the
    size of every shape that is possible, and once the shape is determined it is there.  The rule is finished exactly if the output has a value. *)
Theorem C74_size : forall s q dim out, szsess s -> q < nrep s ->
  match size_rule q dim out s with
  | (s', Ok (b, o)) => szsess s' /\ narrows (fun sh => size_given dim out (sh q)) s s' /\
      (forall d rho sh n, dim = Some d -> allows s' rho sh -> size_is d (sh q) n -> known_to_be out n -> known_to_be o n) /\
      (forall m, out = Some m -> o = Some m) /\ (dim = None -> o = out) /\ (forall d x n, dim = Some d -> determined s' q x -> size_is d x n -> o = Some n) /\ (b = true <-> exists n, o = Some n)
  | (_, Err e) => e = ValueError /\ forall rho sh, allows s rho sh -> ~ size_given dim out (sh q)
  end.
Proof.
  intros s q dim out Ss Hq. assert (X := size_ok s q dim out (szsess_inv s Ss) Hq). destruct (size_rule q dim out s) as [s' [[b o]|e]] eqn:E; [|exact X]. destruct X as (X1 & (X2 & X3 & X4 & X5) & ->).
  split; [eapply runs_rule; [exact Ss|exact (sz_size s q dim out s' _ Hq E)]|]. split; [apply sound_narrows; auto|]. do 4 (split; [assumption|]). destruct o as [n|]; cbn; split; [eauto|auto|discriminate|intros (n & H); discriminate].
Qed.
(** ** Axes out of bounds are refused: afterwards every possible shape has the axis, other than 0, if the rank is known or nothing is known of the other end. *)
Theorem C74_axis : forall s q d out s' r a w b, szsess s -> q < nrep s -> size_rule q (Some (Some d)) out s = (s', Ok r) -> d <> 0%Z ->
  shape_now s q = (a, w, b) -> w = None \/ ((0 < d)%Z /\ b = []) \/ ((d < 0)%Z /\ a = []) -> forall rho sh, allows s' rho sh -> (- Z.of_nat (length (sh q)) <= d < Z.of_nat (length (sh q)))%Z.
Proof.
  intros s q d out s' r a w b Ss Hq E D0 Sn Nc rho sh A. unfold size_rule in E. cbv zeta in E. unfold hbind at 1 in E. injection Sn as Ea Ew Eb.
  set (m := do l <- new_dims None (Z.to_nat (if (0 <? d)%Z then d + 1 else Z.abs d)); do v <- new_variadic; inner_match q (if negb (0 <? d)%Z then mkshape [] (Some v) l else mkshape l (Some v) [])) in E.
  destruct (m s) as [s1 [[]|e]] eqn:Em; [|discriminate]. assert (Es : s1 = s').
  { match type of E with context [match ?t with Some u => value (us s1) u | None => None end] => destruct (match t with Some u => value (us s1) u | None => None end) as [n|] end; [destruct (set_int out n); [|discriminate]|]; injection E as <- _; auto. }
  subst s1. assert (R := reaches s q (Z.to_nat (if (0 <? d)%Z then d + 1 else Z.abs d)) (negb (0 <? d)%Z) s' (szsess_inv s Ss) Hq). specialize (fun H => R H Em rho sh A). lapply R; [clear R; intros R|].
  - destruct (Z.ltb_spec 0 d); lia.
  - destruct Nc as [N|[[N1 N2]|[N1 N2]]]; [left; congruence|right..]; destruct (Z.ltb_spec 0 d); try lia; cbn [negb].
    + apply (map_eq_nil (value (us s))). congruence.
    + apply (map_eq_nil (value (us s))). congruence.
Qed.
(** ** shape: likewise with the entries of a tuple as sizes.  Afterwards every possible shape has the sizes in the tuple, in which all is kept that was
    there; the rule is finished exactly if all entries are known. *)
Theorem C74_shape : forall s q out, szsess s -> q < nrep s ->
  match shape_rule q out s with
  | (s', Ok (b, o)) => szsess s' /\ narrows (fun sh => tuple_is out (sh q)) s s' /\ (forall rho sh, allows s' rho sh -> tuple_is o (sh q)) /\
      (forall x, tuple_is o x -> tuple_is out x) /\ (forall x, determined s q x -> o = Some (map Some x)) /\ (b = true <-> exists x, o = Some (map Some x))
  | (_, Err e) => (e = ValueError \/ e = TypeError) /\ forall rho sh, allows s rho sh -> ~ tuple_is out (sh q)
  end.
Proof.
  intros s q out Ss Hq. assert (I := szsess_inv s Ss). assert (X := shape_ok s q out I Hq). destruct (shape_rule q out s) as [s' [[b o]|e]] eqn:E; [|exact X]. destruct X as (X1 & X2 & X3 & X4).
  split; [eapply runs_rule; [exact Ss|exact (sz_shape s q out s' _ Hq E)]|]. split; [apply sound_narrows; auto|]. split; [exact X2|]. split; [exact X3|]. split; [|exact X4].
  intros x Dx. apply determined_values in Dx as [R V]; [|auto|auto]. unfold shape_rule in E. rewrite (proj2 (no_root_iff _) R), V in E. assert (T := set_tuple_ok out (map Some x)). destruct (set_tuple out (map Some x)) as [l|e] eqn:El; [|discriminate].
  unfold hbind in E. destruct (match_entries q l s) as [s1 [[]|e]]; [|discriminate]. injection E as _ _ <-. f_equal. clear - El. unfold set_tuple in El. destruct out as [a|]; [|congruence]. destruct (Nat.eqb_spec (length a) (length (map Some x))) as [L|L]; [|discriminate].
  revert x l L El. induction a as [|o a IH]; intros [|z x] l L El; try discriminate L; cbn in El; [injection El as <-; auto|]. destruct (merge_entries a (map Some x)) as [c|e] eqn:Ec; [|destruct o; discriminate]. apply IH in Ec; [|cbn in L; auto]. subst c.
  destruct o as [m|]; [destruct (Z.eqb_spec m z) as [->|N]; [|discriminate]|]; injection El as <-; auto.
Qed.
(** ** randn: the shape of the result is the one given, as far as known. *)
Theorem C74_randn : forall s q shape, szsess s -> q < nrep s ->
  match randn_rule q shape s with
  | (s', Ok b) => szsess s' /\ narrows (fun sh => tuple_is shape (sh q)) s s' /\ (forall rho sh, allows s' rho sh -> tuple_is shape (sh q)) /\ (b = true <-> exists x, shape = Some (map Some x))
  | (_, Err e) => e = ValueError /\ forall rho sh, allows s rho sh -> ~ tuple_is shape (sh q)
  end.
Proof.
  intros s q sv Ss Hq. assert (X := randn_ok s q sv (szsess_inv s Ss) Hq). destruct (randn_rule q sv s) as [s' [b|e]] eqn:E; [|exact X]. destruct X as (X1 & X2 & X3).
  split; [eapply runs_rule; [exact Ss|exact (sz_randn s q sv s' _ Hq E)]|]. split; [apply sound_narrows; auto|]. split; [exact X2|exact X3].
Qed.

(** ** Cases *)
(** representations: 0 (3, ?, 2); 1 (5, ..., 7); 2 unknown; 3 (3, 2); 4 () *)
Definition c74_state := state [ODim (Some 3%Z); ODim None; ODim (Some 2%Z); ODim (Some 5%Z); ODim (Some 7%Z); OVar; OVar;
  ORepr (mkshape [0; 1; 2] None []); ORepr (mkshape [3] (Some 0) [4]); ORepr (mkshape [] (Some 1) []); ORepr (mkshape [0; 2] None []); ORepr (mkshape [] None [])].
Lemma c74_sess : szsess c74_state.
Proof. apply reach_runs, state_reach. Qed.
Example C74_size_example : szsess c74_state /\ snd (size_rule 0 (Some (Some 2%Z)) None c74_state) = Ok (true, Some 2%Z) /\ snd (size_rule 0 (Some (Some (-3)%Z)) None c74_state) = Ok (true, Some 3%Z) /\ snd (size_rule 0 (Some (Some 1%Z)) None c74_state) = Ok (false, None) /\
  snd (size_rule 0 (Some (Some 0%Z)) (Some 4%Z) c74_state) = Err ValueError /\ snd (size_rule 0 (Some (Some 3%Z)) None c74_state) = Err ValueError /\ snd (size_rule 1 (Some (Some (-1)%Z)) None c74_state) = Ok (true, Some 7%Z) /\
  shape_now (fst (size_rule 2 (Some (Some 1%Z)) None c74_state)) 2 = ([None; None], Some 2, []) /\ shape_now (fst (size_rule 2 (Some (Some (-2)%Z)) None c74_state)) 2 = ([], Some 2, [None; None]) /\
  snd (size_rule 3 (Some None) None c74_state) = Ok (true, Some 6%Z) /\ snd (size_rule 0 (Some None) None c74_state) = Ok (false, None) /\ size_is (Some (-3)%Z) [3; 4; 2]%Z 3.
Proof. split; [apply c74_sess|]. do 10 (split; [vm_compute; reflexivity|]). exists 0. cbn. auto. Qed.
Example C74_axis_example : shape_now c74_state 2 = ([], Some 1, []) /\ snd (size_rule 2 (Some (Some (-2)%Z)) None c74_state) = Ok (false, None) /\ snd (size_rule 2 (Some (Some 1%Z)) None c74_state) = Ok (false, None) /\
  shape_now c74_state 3 = ([Some 3; Some 2]%Z, None, []) /\ snd (size_rule 3 (Some (Some 1%Z)) None c74_state) = Ok (true, Some 2%Z) /\ snd (size_rule 3 (Some (Some 2%Z)) None c74_state) = Err ValueError /\ snd (size_rule 3 (Some (Some (-3)%Z)) None c74_state) = Err ValueError.
Proof. vm_compute. repeat split. Qed.
Example C74_shape_example : snd (shape_rule 0 None c74_state) = Ok (false, Some [Some 3%Z; None; Some 2%Z]) /\ snd (shape_rule 0 (Some [None; Some 4%Z; None]) c74_state) = Ok (true, Some [Some 3; Some 4; Some 2]%Z) /\
  shape_now (fst (shape_rule 0 (Some [None; Some 4%Z; None]) c74_state)) 0 = ([Some 3; Some 4; Some 2]%Z, None, []) /\ snd (shape_rule 1 (Some [None; None; Some 7%Z]) c74_state) = Ok (false, Some [Some 5%Z; None; Some 7%Z]) /\
  snd (shape_rule 0 (Some [Some 4%Z; None; None]) c74_state) = Err ValueError /\ snd (shape_rule 0 (Some [None]) c74_state) = Err TypeError /\ snd (shape_rule 1 (Some [None]) c74_state) = Err ValueError.
Proof. vm_compute. repeat split. Qed.
Example C74_randn_example : snd (randn_rule 1 (Some [None; Some 4%Z; None]) c74_state) = Ok false /\ shape_now (fst (randn_rule 1 (Some [None; Some 4%Z; None]) c74_state)) 1 = ([Some 5; Some 4; Some 7]%Z, None, []) /\
  snd (randn_rule 0 (Some [Some 3; Some 9; Some 2]%Z) c74_state) = Ok true /\ snd (randn_rule 1 (Some [None]) c74_state) = Err ValueError /\ snd (randn_rule 4 (Some []) c74_state) = Ok true.
Proof. vm_compute. repeat split. Qed.

(** ** Findings *)
(** Axis 0 of a shape without axes is accepted by inference, though it has no size; every other axis is refused. *)
Theorem C74_axis_zero_refuted : exists s, szsess s /\ determined s 4 [] /\ (forall n, ~ size_is (Some 0%Z) [] n) /\ snd (size_rule 4 (Some (Some 0%Z)) None s) = Ok (false, None) /\
  snd (size_rule 4 (Some (Some 1%Z)) None s) = Err ValueError /\ snd (size_rule 4 (Some (Some (-1)%Z)) None s) = Err ValueError.
Proof.
  exists c74_state. split; [apply c74_sess|]. split; [apply determined_values; [apply szsess_inv, c74_sess|vm_compute; lia|vm_compute; auto]|]. split; [intros n (k & H & _); cbn in H; lia|]. vm_compute. auto.
Qed.
(** A known size is not taken over into the shape, although the rule is then finished: axis 1 of (3, ?, 2) may be anything, whether the size is 4 or not. *)
Theorem C74_known_size_refuted : exists s s', szsess s /\ size_rule 0 (Some (Some 1%Z)) (Some 4%Z) s = (s', Ok (true, Some 4%Z)) /\ shape_now s' 0 = ([Some 3%Z; None; Some 2%Z], None, []).
Proof. exists c74_state. eexists. split; [apply c74_sess|]. split; [vm_compute; reflexivity|]. vm_compute. auto. Qed.

Print Assumptions C74_size.
Print Assumptions C74_axis.
Print Assumptions C74_shape.
Print Assumptions C74_randn.
Print Assumptions C74_axis_zero_refuted.
Print Assumptions C74_known_size_refuted.
