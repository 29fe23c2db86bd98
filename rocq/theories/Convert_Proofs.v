(** * Lemmas on matching values *)
From Coq Require Import List Bool ZArith Lia.
From Verif Require Import PyBase Convert_Model.
Import ListNotations.
Open Scope list_scope.

(** A value without unknown parts *)
Fixpoint known (v : value) : Prop :=
  match v with TBD => False | VTup l | VList l => (fix all (l : list value) := match l with [] => True | v :: l => known v /\ all l end) l | _ => True end.
(** A known value that agrees with all known parts of another *)
Inductive completes : value -> value -> Prop :=
| c_tbd v : known v -> completes TBD v
| c_int z : completes (VInt z) (VInt z)
| c_valid : completes VValid VValid
| c_same : completes VSame VSame
| c_none : completes VNone VNone
| c_tup l m : all_complete l m -> completes (VTup l) (VTup m)
| c_list l m : all_complete l m -> completes (VList l) (VList m)
with all_complete : list value -> list value -> Prop :=
| a_nil : all_complete [] []
| a_cons v w l m : completes v w -> all_complete l m -> all_complete (v :: l) (w :: m).

Section Ind.
Variable P : value -> Prop.
Hypotheses (H1 : P TBD) (H2 : forall z, P (VInt z)) (H3 : P VValid) (H4 : P VSame) (H5 : P VNone) (H6 : forall l, Forall P l -> P (VTup l)) (H7 : forall l, Forall P l -> P (VList l)).
Fixpoint value_ind' (v : value) : P v :=
  let all := fix all (l : list value) : Forall P l := match l with [] => Forall_nil P | v :: l => Forall_cons v (value_ind' v) (all l) end in
  match v with TBD => H1 | VInt z => H2 z | VValid => H3 | VSame => H4 | VNone => H5 | VTup l => H6 l (all l) | VList l => H7 l (all l) end.
End Ind.
Definition known_list (l : list value) : Prop := Forall known l.
Lemma known_tup l : known (VTup l) <-> Forall known l.
Proof. cbn. induction l as [|v l IH]; [split; auto|]. split; [intros [A B]; constructor; tauto|]. intros X. inversion X; subst. tauto. Qed.
Lemma known_vlist l : known (VList l) <-> Forall known l.
Proof. cbn. induction l as [|v l IH]; [split; auto|]. split; [intros [A B]; constructor; tauto|]. intros X. inversion X; subst. tauto. Qed.
Lemma valued_known v : valued v = true <-> known v.
Proof.
  induction v as [| | | | |l IH|l IH] using value_ind'; try (cbn; tauto || (split; [auto|discriminate])); [cbn; split; [discriminate|tauto]| |].
  - change (valued (VTup l)) with (forallb valued l). rewrite known_tup. induction IH as [|v l Hv _ IHl]; cbn; [split; auto|]. rewrite andb_true_iff, IHl, Hv. split; [intros []; auto|intros X; inversion X; auto].
  - change (valued (VList l)) with (forallb valued l). rewrite known_vlist. induction IH as [|v l Hv _ IHl]; cbn; [split; auto|]. rewrite andb_true_iff, IHl, Hv. split; [intros []; auto|intros X; inversion X; auto].
Qed.
Lemma completes_known p v : completes p v -> known v.
Proof.
  revert v. induction p as [| | | | |l IH|l IH] using value_ind'; intros v X; inversion X as [| | | | |? m Y|? m Y]; subst; cbn [known]; auto.
  - change (known (VTup m)). apply known_tup. clear X. revert m Y. induction IH as [|p l Hp _ IHl]; intros m Y; inversion Y; subst; auto.
  - change (known (VList m)). apply known_vlist. clear X. revert m Y. induction IH as [|p l Hp _ IHl]; intros m Y; inversion Y; subst; auto.
Qed.
Lemma known_completes p v : known p -> completes p v -> v = p.
Proof.
  revert v. induction p as [| | | | |l IH|l IH] using value_ind'; intros v K X; inversion X as [| | | | |? m Y|? m Y]; subst; auto; [contradiction| |].
  - apply known_tup in K. f_equal. clear X. revert m Y K. induction IH as [|p l Hp _ IHl]; intros m Y K; inversion Y; inversion K; subst; auto. f_equal; auto.
  - apply known_vlist in K. f_equal. clear X. revert m Y K. induction IH as [|p l Hp _ IHl]; intros m Y K; inversion Y; inversion K; subst; auto. f_equal; auto.
Qed.
Lemma completes_self v : known v -> completes v v.
Proof.
  induction v as [| | | | |l IH|l IH] using value_ind'; intros K; try constructor; [contradiction| |].
  - apply known_tup in K. induction IH; inversion K; subst; constructor; auto.
  - apply known_vlist in K. induction IH; inversion K; subst; constructor; auto.
Qed.
Definition match_all : list value -> list value -> res (list value) :=
  fix all (l m : list value) : res (list value) :=
    match l, m with
    | [], [] => Ok []
    | v :: l, w :: m => bind (match_values v w) (fun x => bind (all l m) (fun xs => Ok (x :: xs)))
    | _, _ => Err ValueError
    end.
Definition matched (v w : value) : Prop :=
  match match_values v w with
  | Ok r => (forall o, completes r o <-> completes v o /\ completes w o) /\ (v <> TBD -> r <> TBD)
  | Err e => e = ValueError /\ forall o, ~ (completes v o /\ completes w o)
  end.
Lemma match_all_spec l : Forall (fun v => forall w, matched v w) l -> forall m,
  match match_all l m with Ok r => forall o, all_complete r o <-> all_complete l o /\ all_complete m o | Err e => e = ValueError /\ forall o, ~ (all_complete l o /\ all_complete m o) end.
Proof.
  induction 1 as [|v l Hv _ IH]; intros [|w m]; cbn.
  - intros o. tauto.
  - split; [auto|]. intros o [A B]. inversion A; subst. inversion B.
  - split; [auto|]. intros o [A B]. inversion A; subst. inversion B.
  - specialize (Hv w). unfold matched in Hv. destruct (match_values v w) as [r|e]; cbn [bind].
    + specialize (IH m). destruct (match_all l m) as [rs|e]; cbn [bind].
      * intros o. split; [intros X; inversion X as [|? ? ? ? A B]; subst; apply Hv in A; apply IH in B; split; constructor; tauto|]. intros [A B]. inversion A; subst. inversion B; subst. constructor; [apply Hv|apply IH]; auto.
      * destruct IH as [-> N]. split; [auto|]. intros o [A B]. inversion A; subst. inversion B; subst. eapply N; eauto.
    + destruct Hv as [-> N]. split; [auto|]. intros o [A B]. inversion A; subst. inversion B; subst. eapply N; eauto.
Qed.
Lemma match_spec v w : matched v w.
Proof.
  revert w. induction v as [| | | | |l IH|l IH] using value_ind'; intros w.
  1: { assert (E : match_values TBD w = Ok w) by (destruct w; auto). unfold matched. rewrite E. split; [|congruence]. intros o. split; [|tauto]. intros X. split; [constructor; eapply completes_known; eauto|auto]. }
  all: assert (T : forall v, v <> TBD -> (match_values v TBD = Ok v) -> matched v TBD) by (intros v Nv E; unfold matched; rewrite E; split; [|auto]; intros o; split; [intros X; split; [auto|constructor; eapply completes_known; eauto]|tauto]).
  all: assert (NN : forall v, matched v v -> True) by auto.
  1-4: destruct w; try (apply T; [discriminate|reflexivity]); unfold matched; cbn [match_values].
  all: try (split; [auto|]; intros o [A B]; inversion A; subst; inversion B; fail).
  all: try (split; [intros o; tauto|discriminate]; fail).
  - destruct (Z.eqb_spec z z0) as [->|N]; [split; [intros o; tauto|discriminate]|]. split; [auto|]. intros o [A B]. inversion A; subst. inversion B; congruence.
  - destruct w as [| | | | |m|m]; try (apply T; [discriminate|reflexivity]); unfold matched.
    all: try (cbn [match_values]; split; [auto|]; intros o [A B]; inversion A; subst; inversion B; fail).
    change (match_values (VTup l) (VTup m)) with (bind (match_all l m) (fun r => Ok (VTup r))). pose proof (match_all_spec l IH m) as M. destruct (match_all l m) as [r|e]; cbn [bind].
    + split; [|discriminate]. intros o. split; [intros X; inversion X; subst; split; constructor; apply M; auto|]. intros [A B]. inversion A; subst. inversion B; subst. constructor. apply M. auto.
    + destruct M as [-> N]. split; [auto|]. intros o [A B]. inversion A; subst. inversion B; subst. eapply N; eauto.
  - destruct w as [| | | | |m|m]; try (apply T; [discriminate|reflexivity]); unfold matched.
    all: try (cbn [match_values]; split; [auto|]; intros o [A B]; inversion A; subst; inversion B; fail).
    change (match_values (VList l) (VList m)) with (bind (match_all l m) (fun r => Ok (VList r))). pose proof (match_all_spec l IH m) as M. destruct (match_all l m) as [r|e]; cbn [bind].
    + split; [|discriminate]. intros o. split; [intros X; inversion X; subst; split; constructor; apply M; auto|]. intros [A B]. inversion A; subst. inversion B; subst. constructor. apply M. auto.
    + destruct M as [-> N]. split; [auto|]. intros o [A B]. inversion A; subst. inversion B; subst. eapply N; eauto.
Qed.
(** Some completion always exists *)
Lemma has_completion v : exists o, completes v o.
Proof.
  induction v as [| | | | |l IH|l IH] using value_ind'; [exists VNone; constructor; exact Logic.I| | | | | |]; try (eexists; constructor; fail).
  - assert (X : exists m, all_complete l m) by (induction IH as [|v l [o Ho] _ [m Hm]]; [exists []|exists (o :: m)]; constructor; auto). destruct X as [m Hm]. exists (VTup m). constructor. auto.
  - assert (X : exists m, all_complete l m) by (induction IH as [|v l [o Ho] _ [m Hm]]; [exists []|exists (o :: m)]; constructor; auto). destruct X as [m Hm]. exists (VList m). constructor. auto.
Qed.
(** A value with exactly one completion is that one. *)
Lemma only_completion r v : known v -> (forall o, completes r o -> o = v) -> r = v.
Proof.
  revert v. induction r as [| | | | |l IH|l IH] using value_ind'; intros v K X.
  - destruct v as [|z| | | |l|l]; try contradiction.
    + specialize (X VNone ltac:(constructor; exact Logic.I)). discriminate.
    + specialize (X VNone ltac:(constructor; exact Logic.I)). discriminate.
    + specialize (X VNone ltac:(constructor; exact Logic.I)). discriminate.
    + specialize (X VValid ltac:(constructor; exact Logic.I)). discriminate.
    + specialize (X VNone ltac:(constructor; exact Logic.I)). discriminate.
    + specialize (X VNone ltac:(constructor; exact Logic.I)). discriminate.
  - apply X. constructor.
  - apply X. constructor.
  - apply X. constructor.
  - apply X. constructor.
  - destruct (has_completion (VTup l)) as [o Ho]. inversion Ho as [| | | | |? m Hm|]; subst. pose proof (X _ Ho) as E. subst v. f_equal. apply (proj1 (known_tup m)) in K. clear Ho.
    assert (Y : forall m', all_complete l m' -> m' = m) by (intros m' H'; specialize (X (VTup m') ltac:(constructor; auto)); congruence). clear X. revert m Hm K Y. induction IH as [|p l Hp _ IHl]; intros m Hm K Y; inversion Hm as [|? w ? m0 Hw Hm0]; subst; auto. inversion K; subst. f_equal.
    + apply Hp; auto. intros o Ho. specialize (Y (o :: m0) ltac:(constructor; auto)). congruence.
    + apply IHl; auto. intros m' H'. specialize (Y (w :: m') ltac:(constructor; auto)). congruence.
  - destruct (has_completion (VList l)) as [o Ho]. inversion Ho as [| | | | | |? m Hm]; subst. pose proof (X _ Ho) as E. subst v. f_equal. apply (proj1 (known_vlist m)) in K. clear Ho.
    assert (Y : forall m', all_complete l m' -> m' = m) by (intros m' H'; specialize (X (VList m') ltac:(constructor; auto)); congruence). clear X. revert m Hm K Y. induction IH as [|p l Hp _ IHl]; intros m Hm K Y; inversion Hm as [|? w ? m0 Hw Hm0]; subst; auto. inversion K; subst. f_equal.
    + apply Hp; auto. intros o Ho. specialize (Y (o :: m0) ltac:(constructor; auto)). congruence.
    + apply IHl; auto. intros m' H'. specialize (Y (w :: m') ltac:(constructor; auto)). congruence.
Qed.
Lemma set_value_spec e v :
  match set_value e v with
  | Ok e' => initial e' = false /\ (forall o, completes (val e') o <-> completes v o /\ completes (val e) o) /\ (known v -> val e' = v) /\ (val e = TBD -> val e' = v)
  | Err x => x = ValueError /\ forall o, ~ (completes v o /\ completes (val e) o)
  end.
Proof.
  assert (Tb : forall o, completes (val e) o <-> completes TBD o /\ completes (val e) o) by (intros o; split; [intros X; split; [constructor; eapply completes_known; eauto|auto]|tauto]).
  unfold set_value. pose proof (match_spec v (val e)) as M. unfold matched in M.
  assert (D : v = TBD \/ v <> TBD) by (destruct v; auto; right; discriminate). destruct D as [->|Nv]; [cbn [initial val]; split; [auto|]; split; [auto|]; split; [contradiction|auto]|].
  assert (E : match v with TBD => Ok (Edge (val e) false) | _ => bind (match_values v (val e)) (fun r => Ok (Edge r false)) end = bind (match_values v (val e)) (fun r => Ok (Edge r false))) by (destruct v; congruence). rewrite E.
  destruct (match_values v (val e)) as [r|x] eqn:Er; cbn [bind]; [|auto]. destruct M as [M _]. cbn [val initial]. split; [auto|]. split; [auto|]. split.
  - intros K. apply only_completion; [auto|]. intros o Ho. apply M in Ho. apply (known_completes v o K). tauto.
  - intros Ev. rewrite Ev in Er. destruct v; cbn in Er; congruence.
Qed.
