(** * C62: squeeze, broadcast_to and flatten *)
From Coq Require Import List Arith Lia Bool ZArith.
From Verif Require Import PyBase Uniadic_Model Uniadic_Proofs Bcast_Proofs Shape_Model Shape_Proofs Shape_Proofs2 Shape_Proofs3 Shape_Props Reduce_Model
  Rule_Proofs Window_Model Window_Proofs Window_Props Arange_Model Arange_Proofs Arange_Props Reshape_Model Reshape_Proofs Reshape_Props Concat_Model Concat_Proofs Concat_Props
  Flat_Model Flat_Spec Flat_Proofs Flat_Proofs2 Flat_Proofs3.
Import ListNotations.
Open Scope list_scope. Open Scope nat_scope. Open Scope shm_scope.

(** ** Sessions with the rules of C25 to C28, C45 and C62 *)
Inductive flrule (s : shst) : shst -> Prop :=
| fl_old s' : crule s s' -> flrule s s'
| fl_squeeze qi qo s' b : qi < nrep s -> qo < nrep s -> squeeze_rule qi qo s = (s', Ok b) -> flrule s s'
| fl_bcast qi qo shape s' b : qi < nrep s -> qo < nrep s -> bcast_to_rule qi qo shape s = (s', Ok b) -> flrule s s'
| fl_flatten qi qo st en s' b : qi < nrep s -> qo < nrep s -> flatten_rule qi qo st en s = (s', Ok b) -> flrule s s'.
Lemma flrule_inv s s' : sinv s -> flrule s s' -> sinv s'.
Proof.
  intros I. destruct 1 as [s' W|qi qo s' b Hi Ho E|qi qo shape s' b Hi Ho E|qi qo st en s' b Hi Ho E]; [eapply crule_inv; eauto|..].
  - assert (M := squeeze_ok s qi qo I Hi Ho). rewrite E in M. apply M.
  - destruct shape as [sv|]; [|cbn in E; congruence]. assert (M := bcast_to_ok s qi qo sv I Hi Ho). rewrite E in M. apply M.
  - assert (M := flatten_ok s qi qo st en I Hi Ho). rewrite E in M. apply M.
Qed.
Definition flsess : shst -> Prop := runs flrule.
Lemma flsess_inv s : flsess s -> sinv s.
Proof. apply runs_inv, flrule_inv. Qed.
Lemma rank_iff s q : sinv s -> q < nrep s -> root (rp s q) = None <-> exists n, forall rho sh, allows s rho sh -> length (sh q) = n.
Proof.
  intros I Hq. split; [|intros H; apply rank_of; auto]. intros R. exists (length (pre (rp s q))). intros rho sh A. rewrite (plain_sh s q rho sh I Hq R A). apply map_length.
Qed.

(** ** squeeze: whatever is known, no possible pair of shapes is lost and nothing invented; a known input determines the output; an error
    means that no pair was possible.  The result tells whether the rank of the output is known now. *)
Theorem C62_squeeze : forall s qi qo, flsess s -> qi < nrep s -> qo < nrep s ->
  match squeeze_rule qi qo s with
  | (s', Ok r) => flsess s' /\ narrows (fun sh => squeezes (sh qi) (sh qo)) s s' /\
      (r = true <-> exists n, forall rho sh, allows s' rho sh -> length (sh qo) = n) /\
      (forall x, determined s qi x -> exists y, squeezes x y /\ determined s' qo y)
  | (_, Err e) => e = ValueError /\ forall rho sh, allows s rho sh -> ~ squeezes (sh qi) (sh qo)
  end.
Proof.
  intros s qi qo S Hi Ho. assert (I := flsess_inv s S). assert (M := squeeze_ok s qi qo I Hi Ho). assert (K := fun s' b => fl_squeeze s qi qo s' b Hi Ho). destruct (squeeze_rule qi qo s) as [s' [r|e]]; [|exact M].
  destruct M as (M1 & M2 & M3). split; [eapply runs_rule; [exact S|eapply K; reflexivity]|]. split; [apply sound_narrows; exact M1|]. split; [rewrite M2; apply rank_iff; [apply M1|destruct M1 as (_ & -> & _); auto]|]. intros x Dx. exists (filter not1 x). split; [apply squeezes_iff; auto|auto].
Qed.
(** ** broadcast_to, likewise; the result tells whether the wanted shape and the input are known, and then they fit. *)
Theorem C62_broadcast : forall s qi qo sv, flsess s -> qi < nrep s -> qo < nrep s ->
  match bcast_to_rule qi qo (Some sv) s with
  | (s', Ok r) => flsess s' /\ narrows (fun sh => as_given sv (sh qo) /\ stretches (sh qi) (sh qo)) s s' /\ (forall rho sh, allows s' rho sh -> as_given sv (sh qo)) /\
      (r = true -> forall rho sh, allows s' rho sh -> stretches (sh qi) (sh qo)) /\
      (r = true <-> (exists y, sv = map Some y) /\ exists x, determined s' qi x)
  | (_, Err e) => e = ValueError /\ forall rho sh, allows s rho sh -> as_given sv (sh qo) -> ~ stretches (sh qi) (sh qo)
  end.
Proof.
  intros s qi qo sv S Hi Ho. assert (I := flsess_inv s S). assert (M := bcast_to_ok s qi qo sv I Hi Ho). assert (K := fun s' b => fl_bcast s qi qo (Some sv) s' b Hi Ho). destruct (bcast_to_rule qi qo (Some sv) s) as [s' [r|e]].
  - destruct M as (M1 & M2 & M3 & M4). split; [eapply runs_rule; [exact S|eapply K; reflexivity]|]. split; [apply sound_narrows; exact M1|]. split; [exact M2|]. split; [|exact M4]. intros Hr rho sh A. apply (M3 Hr rho sh A).
  - destruct M as [-> M]. split; [auto|]. intros rho sh A H1 H2. apply (M rho sh A). split; auto.
Qed.
(** ** flatten, likewise, for positions of any sign that may be unknown.  When the rule is finished, the output is the flattened input,
    except for a last position just behind the last axis.  An error means that no pair was possible with more than one axis joined. *)
Theorem C62_flatten : forall s qi qo st en, flsess s -> qi < nrep s -> qo < nrep s ->
  match flatten_rule qi qo st en s with
  | (s', Ok r) => flsess s' /\ narrows (fun sh => flattens st en (sh qi) (sh qo)) s s' /\
      (r = true -> forall rho sh, allows s' rho sh -> en <> Some (Z.of_nat (length (sh qi))) -> flattens st en (sh qi) (sh qo)) /\
      (forall x a e, determined s qi x -> st = Some a -> en = Some e -> r = true)
  | (_, Err e) => e = ValueError /\ forall rho sh, allows s rho sh -> flattens st en (sh qi) (sh qo) -> length (sh qo) = length (sh qi)
  end.
Proof.
  intros s qi qo st en S Hi Ho. assert (I := flsess_inv s S). assert (M := flatten_ok s qi qo st en I Hi Ho). assert (K := fun s' b => fl_flatten s qi qo st en s' b Hi Ho). destruct (flatten_rule qi qo st en s) as [s' [r|e]].
  - destruct M as (M1 & M2 & M3). split; [eapply runs_rule; [exact S|eapply K; reflexivity]|]. split; [apply sound_narrows; exact M1|]. split; [exact M2|exact M3].
  - destruct M as [-> M]. split; [auto|]. intros rho sh A H. assert (N := M rho sh A). assert (Le : length (sh qo) <= length (sh qi)). { destruct H as (f & m & b & -> & Nm & -> & _). rewrite !app_length. cbn [length]. destruct m; [congruence|]. cbn [length]. lia. }
    destruct (Nat.eq_dec (length (sh qo)) (length (sh qi))); [auto|]. exfalso. apply N. split; [auto|lia].
Qed.

(** ** Cases *)
Definition c62_state := state [ODim (Some 4%Z); ODim None; ODim (Some 2%Z); ODim (Some 1%Z); ODim (Some 3%Z); ODim (Some 5%Z); OVar; OVar;
  ORepr (mkshape [0; 1; 2] None []); ORepr (mkshape [0; 2] None []); ORepr (mkshape [3; 0; 3; 2] None []); ORepr (mkshape [] (Some 0) []); ORepr (mkshape [3] None []);
  ORepr (mkshape [5] None []); ORepr (mkshape [2; 4; 0] None []); ORepr (mkshape [3; 0; 1] (Some 1) [2; 3])].
Lemma c62_sess : flsess c62_state.
Proof. apply reach_runs, state_reach. Qed.
Lemma c62_det q x : q < 8 -> root (rp c62_state q) = None -> values c62_state (pre (rp c62_state q)) = map Some x -> determined c62_state q x.
Proof. intros L R V. apply determined_values; [apply flsess_inv, c62_sess|vm_compute in L |- *; lia|auto]. Qed.
Lemma c62_live u : u < 6 -> live (us c62_state) u.
Proof. intros L. do 6 (destruct u as [|u]; [vm_compute; auto 15|]). lia. Qed.
(** (1, 4, 1, 2) to an unknown shape; (1, 4, ?, ..., 2, 1) to an unknown shape *)
Example C62_squeeze_example : flsess c62_state /\ 2 < nrep c62_state /\ 3 < nrep c62_state /\ determined c62_state 2 [1; 4; 1; 2]%Z /\ squeezes [1; 4; 1; 2]%Z [4; 2]%Z /\
  snd (squeeze_rule 2 3 c62_state) = Ok true /\ shape_now (fst (squeeze_rule 2 3 c62_state)) 3 = ([Some 4%Z; Some 2%Z], None, []) /\
  snd (squeeze_rule 7 3 c62_state) = Ok false /\ fst (fst (shape_now (fst (squeeze_rule 7 3 c62_state)) 3)) = [Some 4%Z] /\ snd (squeeze_rule 2 4 c62_state) = Err ValueError /\ snd (squeeze_rule 2 6 c62_state) = Err ValueError.
Proof.
  split; [apply c62_sess|]. do 2 (split; [vm_compute; lia|]). split; [apply c62_det; [lia|vm_compute; auto|vm_compute; auto]|]. split; [repeat constructor; discriminate|]. vm_compute. auto 10.
Qed.
(** (1, 4, 1, 2) to (3, 4, 5, 2); (2, 3, 4) does not fit (3, 4, 5) *)
Example C62_broadcast_example : snd (bcast_to_rule 2 3 (Some [Some 3; Some 4; Some 5; Some 2]%Z) c62_state) = Ok true /\ stretches [1; 4; 1; 2]%Z [3; 4; 5; 2]%Z /\
  shape_now (fst (bcast_to_rule 2 3 (Some [Some 3; Some 4; Some 5; Some 2]%Z) c62_state)) 3 = ([Some 3; Some 4; Some 5; Some 2]%Z, None, []) /\
  snd (bcast_to_rule 0 3 (Some [Some 3; None]%Z) c62_state) = Ok false /\ snd (bcast_to_rule 6 3 (Some [Some 3; Some 4; Some 5]%Z) c62_state) = Err ValueError.
Proof. split; [vm_compute; auto|]. split; [exists [], [3; 4; 5; 2]%Z; split; [auto|repeat (apply Forall2_cons; [(left; reflexivity) || (right; reflexivity)|]); apply Forall2_nil]|]. vm_compute. auto 10. Qed.
(** (2, 3, 4) with the last two axes joined; with an unknown size in front; with an unknown first position *)
Example C62_flatten_example : snd (flatten_rule 6 3 (Some (-2)%Z) (Some (-1)%Z) c62_state) = Ok true /\ shape_now (fst (flatten_rule 6 3 (Some (-2)%Z) (Some (-1)%Z) c62_state)) 3 = ([Some 2; Some 12]%Z, None, []) /\
  flattens (Some (-2)%Z) (Some (-1)%Z) [2; 3; 4]%Z [2; 12]%Z /\ determined c62_state 6 [2; 3; 4]%Z /\
  snd (flatten_rule 6 3 (Some 0%Z) (Some 1%Z) c62_state) = Ok true /\ shape_now (fst (flatten_rule 6 3 (Some 0%Z) (Some 1%Z) c62_state)) 3 = ([Some 6; Some 4]%Z, None, []) /\
  snd (flatten_rule 0 3 (Some 0%Z) (Some (-1)%Z) c62_state) = Ok false /\ shape_now (fst (flatten_rule 0 3 (Some 0%Z) (Some (-1)%Z) c62_state)) 3 = ([None], None, []) /\
  snd (flatten_rule 6 3 None (Some (-2)%Z) c62_state) = Ok false /\ snd (flatten_rule 6 1 (Some 0%Z) (Some 1%Z) c62_state) = Err ValueError.
Proof.
  do 2 (split; [vm_compute; auto|]). split; [exists [2]%Z, [3; 4]%Z, []; split; [auto|split; [discriminate|split; [auto|split; right; auto]]]|]. split; [apply c62_det; [lia|vm_compute; auto|vm_compute; auto]|]. vm_compute. auto 10.
Qed.

(** ** Findings *)
(** The squeeze rule finishes once the rank of the output is known, although it has not compared the sizes: (4, ?, 2) to (4, 2) may still
    be (4, 5, 2). *)
Theorem C62_squeeze_early_refuted : exists s s' rho sh, flsess s /\ squeeze_rule 0 1 s = (s', Ok true) /\ allows s' rho sh /\ sh 0 = [4; 5; 2]%Z /\ sh 1 = [4; 2]%Z /\ ~ squeezes (sh 0) (sh 1).
Proof.
  assert (I := flsess_inv _ c62_sess). assert (Q := C62_squeeze c62_state 0 1 c62_sess ltac:(vm_compute; lia) ltac:(vm_compute; lia)). destruct (squeeze_rule 0 1 c62_state) as [s' r] eqn:E. assert (Er : r = Ok true) by (change r with (snd (s', r)); rewrite <- E; vm_compute; auto). subst r. destruct Q as (Q1 & _). assert (I' := flsess_inv _ Q1).
  assert (Es : s' = fst (squeeze_rule 0 1 c62_state)) by (rewrite E; auto). clear E. destruct (sat_with (us s') 1 5%Z (s_inv _ I')) as (rho & Hs & E5); [rewrite Es; vm_compute; auto 15|rewrite Es; vm_compute; auto|].
  assert (V : forall u n, live (us s') u -> value (us s') u = Some n -> rho u = n) by (intros u n L V; eapply value_sat; [apply I'|exact L|exact V|auto]).
  assert (R0 : rho 0 = 4%Z) by (apply V; rewrite Es; vm_compute; auto 15). assert (R2 : rho 2 = 2%Z) by (apply V; rewrite Es; vm_compute; auto 15).
  assert (S0 : den s' rho (fun _ => []) 0 = [4; 5; 2]%Z). { unfold den, dshape. replace (rp s' 0) with (mkshape [0; 1; 2] None []) by (rewrite Es; vm_compute; auto). cbn. rewrite R0, E5, R2. auto. }
  assert (S1 : den s' rho (fun _ => []) 1 = [4; 2]%Z). { unfold den, dshape. replace (rp s' 1) with (mkshape [0; 2] None []) by (rewrite Es; vm_compute; auto). cbn. rewrite R0, R2. auto. }
  exists c62_state, s', rho, (den s' rho (fun _ => [])). split; [apply c62_sess|]. split; [rewrite Es; vm_compute; auto|]. split; [apply allows_self; auto|]. split; [auto|]. split; [auto|]. rewrite S0, S1. intros H. apply squeezes_iff in H. discriminate.
Qed.
(** With the default positions (the first and the last axis) an array with one axis is refused, although flattening it changes nothing. *)
Theorem C62_flatten_single_refuted : exists s rho sh, flsess s /\ allows s rho sh /\ sh 5 = [5]%Z /\ sh 3 = [5]%Z /\ flattens (Some 0%Z) (Some (-1)%Z) (sh 5) (sh 3) /\ snd (flatten_rule 5 3 (Some 0%Z) (Some (-1)%Z) s) = Err ValueError.
Proof.
  assert (I := flsess_inv _ c62_sess). destruct (sat_exists (us c62_state) (s_inv _ I)) as (rho & Hs). assert (R5 : rho 5 = 5%Z) by (eapply value_sat; [apply I|apply c62_live; lia|vm_compute; reflexivity|auto]).
  assert (S5 : den c62_state rho (fun _ => [5]%Z) 5 = [5]%Z) by (change (den c62_state rho (fun _ => [5]%Z) 5) with [rho 5]; rewrite R5; auto). assert (S3 : den c62_state rho (fun _ => [5]%Z) 3 = [5]%Z) by reflexivity.
  exists c62_state, rho, (den c62_state rho (fun _ => [5]%Z)). split; [apply c62_sess|]. split; [apply allows_self; auto|]. split; [auto|]. split; [auto|]. rewrite S5, S3. split; [|vm_compute; auto]. exists [], [5]%Z, []. split; [auto|]. split; [discriminate|]. split; [auto|]. split; [left; auto|right; auto].
Qed.
(** A last position behind the last axis is accepted if the first position is negative. *)
Theorem C62_flatten_beyond_refuted : exists s s', flsess s /\ determined s 6 [2; 3; 4]%Z /\ flatten_rule 6 3 (Some (-2)%Z) (Some 3%Z) s = (s', Ok true) /\ shape_now s' 3 = ([Some 2; Some 12]%Z, None, []) /\ forall y, ~ flattens (Some (-2)%Z) (Some 3%Z) [2; 3; 4]%Z y.
Proof.
  exists c62_state. eexists. split; [apply c62_sess|]. split; [apply c62_det; [lia|vm_compute; auto|vm_compute; auto]|]. do 2 (split; [vm_compute; reflexivity|]). intros y H. apply flattens_abs in H. cbv zeta in H. destruct H as (_ & H & _). vm_compute in H. discriminate.
Qed.
Print Assumptions C62_squeeze.
Print Assumptions C62_broadcast.
Print Assumptions C62_flatten.
Print Assumptions C62_squeeze_early_refuted.
Print Assumptions C62_flatten_single_refuted.
Print Assumptions C62_flatten_beyond_refuted.
