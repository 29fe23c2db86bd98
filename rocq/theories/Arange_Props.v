(** * C27: arange *)
From Coq Require Import List Arith Lia Bool ZArith.
From Verif Require Import PyBase Uniadic_Model Uniadic_Proofs Bcast_Proofs Shape_Model Shape_Proofs Shape_Proofs2 Shape_Proofs3 Shape_Props Reduce_Model
  Rule_Proofs Window_Model Window_Proofs Window_Props Arange_Model Arange_Proofs.
Import ListNotations.
Open Scope list_scope. Open Scope nat_scope. Open Scope shm_scope.

(** ** The length.  The code divides with Python's true division, whose result is a double; for distances below 2^53 this does no harm. *)
Theorem C27_length : forall start stop step n, toward start stop step -> (Z.abs (start - stop) < 2 ^ 53)%Z -> (Z.abs step < 2 ^ 1000)%Z ->
  arange_len start stop step = Ok n <-> elements start stop step n.
Proof.
  intros a b c n T Ha Hc. unfold arange_len. destruct (true_div_len (a - b) c) as (v & -> & L); [destruct T; lia|auto|auto|]. rewrite L, elements_iff by auto. split; [congruence|intros ->; auto].
Qed.
(** For any quotient (in particular of floats) the length is the least integer not below its absolute value. *)
Theorem C27_quotient : forall v, (0 <= length_of v)%Z /\ forall k, (length_of v <= k <-> Z.abs (fm v) * 2 ^ Z.max (fe v) 0 <= k * 2 ^ Z.max (- fe v) 0)%Z.
Proof. apply length_of_ceil. Qed.
(** The shape declared by the constructor when everything is given *)
Theorem C27_declared : forall start stop step, toward start stop step -> (Z.abs (start - stop) < 2 ^ 53)%Z -> (Z.abs step < 2 ^ 1000)%Z ->
  exists x, declared (Some start) (Some stop) (Some step) = Ok (map Some x) /\ arange_shape start stop step x.
Proof.
  intros a b c T Ha Hc. destruct (true_div_len (a - b) c) as (v & Ev & L); [destruct T; lia|auto|auto|]. assert (E : arange_len a b c = Ok (length_of v)) by (unfold arange_len; rewrite Ev; auto). unfold declared. rewrite E. apply C27_length in E; auto.
  destruct (length_of_ceil v) as [P _]. destruct (Z.eqb_spec (length_of v) 0) as [Z0|Z0].
  - exists []. split; [auto|]. split; [auto|]. exists 0%Z. rewrite Z0 in E. auto.
  - exists [length_of v]. split; [auto|]. split; [auto|]. exists (length_of v). split; [auto|]. left. split; [lia|auto].
Qed.

(** ** The rule, in sessions with the rules of C25 and C26 *)
Inductive arule (s : shst) : shst -> Prop :=
| a_window s' : wrule s s' -> arule s s'
| a_arange qo a b c s' r : qo < nrep s -> (Z.abs (a - b) < 2 ^ 53)%Z -> (Z.abs c < 2 ^ 1000)%Z -> arange qo (Some a) (Some b) (Some c) s = (s', Ok r) -> arule s s'.
Lemma arule_inv s s' : sinv s -> arule s s' -> sinv s'.
Proof.
  intros I. destruct 1 as [s' W|qo a b c s' r Hq Ha Hc E]; [eapply wrule_inv; eauto|]. assert (M := arange_ok s qo a b c (fun _ => False) I Hq Ha Hc ltac:(intros; contradiction)). rewrite E in M. apply M.
Qed.
Definition asess : shst -> Prop := runs arule.
Lemma asess_inv s : asess s -> sinv s.
Proof. apply runs_inv, arule_inv. Qed.
Theorem C27_rule : forall s qo start stop step, asess s -> qo < nrep s -> (Z.abs (start - stop) < 2 ^ 53)%Z -> (Z.abs step < 2 ^ 1000)%Z ->
  match arange qo (Some start) (Some stop) (Some step) s with
  | (s', Ok r) => asess s' /\ r = true /\ toward start stop step /\ narrows (fun sh => arange_shape start stop step (sh qo)) s s' /\
      (root (rp s qo) = None -> forall rho sh, allows s' rho sh -> arange_shape start stop step (sh qo)) /\
      (forall n rho sh, elements start stop step n -> allows s' rho sh -> length (sh qo) = if (n =? 0)%Z then 0 else 1)
  | (_, Err e) => (e = ValueError \/ e = ZeroDivisionError /\ step = 0%Z) /\ forall rho sh, allows s rho sh -> ~ arange_shape start stop step (sh qo)
  end.
Proof.
  intros s qo a b c S Hq Ha Hc. assert (M := arange_ok s qo a b c (fun sh => arange_shape a b c (sh qo)) (asess_inv s S) Hq Ha Hc ltac:(auto)). assert (K := a_arange s qo a b c).
  destruct (arange qo (Some a) (Some b) (Some c) s) as [s' [r|e]]; [|exact M]. destruct M as (M1 & M2 & M3 & M4). split; [eapply runs_rule; [exact S|eapply K; eauto]|]. do 2 (split; [auto|]). split; [apply sound_narrows; auto|auto].
Qed.
(** Nothing happens while an argument is to be determined. *)
Theorem C27_waits : forall s qo start stop step, start = None \/ stop = None \/ step = None -> arange qo start stop step s = (s, Ok false).
Proof. intros s qo [a|] [b|] [c|] [H|[H|H]]; try discriminate; reflexivity. Qed.

(** ** Cases *)
Example C27_length_example : toward 7 (-4) (-3) /\ arange_len 7 (-4) (-3) = Ok 4%Z /\ elements 7 (-4) (-3) 4 /\ arange_len 0 9007199254740991 2 = Ok 4503599627370496%Z /\
  true_div 1 3 = Ok (mkdouble 6004799503160661 (-54)) /\ length_of (mkdouble 6004799503160661 (-54)) = 1%Z /\ (declared (Some 7) (Some (-4)) (Some (-3)))%Z = Ok [Some 4%Z].
Proof.
  assert (T : toward 7 (-4) (-3)) by (unfold toward; lia). split; [auto|]. split; [vm_compute; reflexivity|]. split; [apply C27_length; [auto|lia|apply Z.pow_gt_lin_r || vm_compute; reflexivity|vm_compute; reflexivity]|]. vm_compute. auto.
Qed.
Definition c27_state := state [ODim None; OVar; ORepr (mkshape [0] None []); ORepr (mkshape [] (Some 0) [])].
Example C27_rule_example : asess c27_state /\ nrep c27_state = 2 /\ root (rp c27_state 0) = None /\ arange_shape 0 10 3 [4%Z] /\
  snd (arange 0 (Some 0) (Some 10) (Some 3) c27_state)%Z = Ok true /\ shape_now (fst (arange 0 (Some 0) (Some 10) (Some 3) c27_state)%Z) 0 = ([Some 4%Z], None, []) /\
  snd (arange 0 (Some 10) (Some 0) (Some 3) c27_state)%Z = Err ValueError /\ snd (arange 0 (Some 0) (Some 10) (Some 0) c27_state)%Z = Err ZeroDivisionError /\
  snd (arange 1 (Some 4) (Some 4) (Some 1) c27_state)%Z = Ok true /\ shape_now (fst (arange 1 (Some 4) (Some 4) (Some 1) c27_state)%Z) 1 = ([], None, []).
Proof.
  split; [apply reach_runs, state_reach|]. split; [vm_compute; auto|]. split; [vm_compute; auto|]. split; [|vm_compute; auto 8]. split; [unfold toward; lia|]. exists 4%Z. split; [apply elements_iff; [unfold toward; lia|reflexivity]|]. left. split; [lia|auto].
Qed.

(** ** Findings *)
(** Beyond 2^53 the division rounds: one element is lost; a huge step makes the quotient vanish. *)
Theorem C27_large_refuted : arange_len 0 (2 ^ 53 + 1) 1 = Ok (2 ^ 53)%Z /\ elements 0 (2 ^ 53 + 1) 1 (2 ^ 53 + 1) /\ arange_len 0 1 (2 ^ 1100) = Ok 0%Z /\ elements 0 1 (2 ^ 1100) 1.
Proof.
  split; [vm_compute; reflexivity|]. split; [apply elements_iff; [left; split; vm_compute; congruence|vm_compute; reflexivity]|]. split; [vm_compute; reflexivity|]. apply elements_iff; [left; split; vm_compute; congruence|vm_compute; reflexivity].
Qed.
(** The constructor does not check the direction: five elements are declared for an empty range. *)
Theorem C27_declared_direction_refuted : (declared (Some 5) (Some 0) (Some 1))%Z = Ok [Some 5%Z] /\ elements 5 0 1 0 /\ snd (arange 0 (Some 5) (Some 0) (Some 1) c27_state)%Z = Err ValueError.
Proof. split; [vm_compute; reflexivity|]. split; [|vm_compute; reflexivity]. exists []. split; [constructor|]. split; [auto|]. intros k. split; [intros []|]. intros [K [[_ H]|[H _]]]; lia. Qed.
(** An empty range is given rank zero, although the array has shape (0,); an output that is declared with one dimension is rejected. *)
Theorem C27_empty_refuted : (declared (Some 4) (Some 4) (Some 1))%Z = Ok [] /\ elements 4 4 1 0 /\ snd (arange 0 (Some 4) (Some 4) (Some 1) c27_state)%Z = Err ValueError.
Proof. split; [vm_compute; reflexivity|]. split; [|vm_compute; reflexivity]. apply elements_iff; [unfold toward; lia|reflexivity]. Qed.
(** When the rank of the output is not known either, only the rank is inferred: the length is forgotten although the rule reports that it is done. *)
Theorem C27_length_forgotten_refuted : exists s s', asess s /\ (arange 1 (Some 0) (Some 10) (Some 3) s)%Z = (s', Ok true) /\ shape_now s' 1 = ([None], None, []).
Proof. exists c27_state. eexists. split; [apply reach_runs, state_reach|]. split; vm_compute; reflexivity. Qed.
Print Assumptions C27_length.
Print Assumptions C27_quotient.
Print Assumptions C27_declared.
Print Assumptions C27_rule.
Print Assumptions C27_waits.
Print Assumptions C27_large_refuted.
Print Assumptions C27_declared_direction_refuted.
Print Assumptions C27_empty_refuted.
Print Assumptions C27_length_forgotten_refuted.
