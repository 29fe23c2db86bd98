(** * Reading entries and slices *)
From Coq Require Import List Bool String ZArith Lia.
From Verif Require Import PyBase Inter_Model Inter_Proofs Item_Model Item_Spec.
Import ListNotations.
Open Scope string_scope. Open Scope list_scope. Open Scope res_scope.

Lemma nth_ext_opt {A} (l : list A) : forall m, (forall k, nth_error l k = nth_error m k) -> l = m.
Proof. induction l as [|x l IH]; intros [|y m] H; [auto|specialize (H 0); discriminate|specialize (H 0); discriminate|]. pose proof (H 0) as X. cbn in X. injection X as ->. f_equal. apply IH. intros k. exact (H (S k)). Qed.
Lemma at_position {A} (l : list A) i p x : position (List.length l) i p -> nth_error l p = Some x -> at_index l i = Ok x.
Proof.
  intros [L E] H. unfold at_index. assert (J : ((if i <? 0 then i + Z.of_nat (List.length l) else i) = Z.of_nat p)%Z) by (destruct (Z.ltb_spec i 0); lia). rewrite J.
  replace ((0 <=? Z.of_nat p)%Z && (Z.of_nat p <? Z.of_nat (List.length l))%Z) with true by (symmetry; apply andb_true_iff; split; lia). rewrite Nat2Z.id, H. reflexivity.
Qed.
Lemma at_index_position {A} (l : list A) i x : at_index l i = Ok x -> exists p, position (List.length l) i p /\ nth_error l p = Some x.
Proof.
  unfold at_index. set (j := (if (i <? 0)%Z then (i + Z.of_nat (List.length l))%Z else i)). destruct ((0 <=? j)%Z && (j <? Z.of_nat (List.length l))%Z) eqn:B; [|discriminate]. destruct (nth_error l (Z.to_nat j)) as [y|] eqn:N; [|discriminate]. intros E. injection E as ->. exists (Z.to_nat j). split; [|auto]. apply andb_true_iff in B as [B1 B2]. subst j. unfold position. destruct (Z.ltb_spec i 0); lia.
Qed.
Lemma div_count k x c : (0 < c -> (0 <= k) -> k < (x + c - 1) / c <-> k * c < x)%Z.
Proof.
  intros C K. split; intros H.
  - assert (X : (c * ((x + c - 1) / c) <= x + c - 1)%Z) by (apply Z.mul_div_le; lia). nia.
  - apply Z.lt_le_trans with (k + 1)%Z; [lia|]. apply Z.div_le_lower_bound; [lia|]. nia.
Qed.
Lemma positions_reads n a b c : match slice_positions a b c n with Ok ps => reads n a b c ps | Err e => e = ValueError /\ c = Some 0%Z end.
Proof.
  unfold slice_positions, reads. set (C := match c with Some c => c | None => 1%Z end). replace (match c with None => 1%Z | Some c0 => c0 end) with C by (destruct c; reflexivity).
  destruct (Z.eqb_spec C 0) as [Z0|Nz]; [split; [auto|]; subst C; destruct c; [subst; auto|discriminate]|]. split; [auto|].
  set (A := match a with None => _ | Some _ => _ end). set (B := match b with None => _ | Some _ => _ end).
  assert (EA : first_of (Z.of_nat n) C a = A). { subst A. unfold first_of, edge, clamp. destruct a as [x|]; destruct (Z.ltb_spec C 0); try reflexivity; repeat match goal with |- context [Z.ltb ?u ?v] => destruct (Z.ltb_spec u v) end; lia. }
  assert (EB : end_of (Z.of_nat n) C b = B). { subst B. unfold end_of, edge, clamp. destruct b as [x|]; destruct (Z.ltb_spec C 0); try reflexivity; repeat match goal with |- context [Z.ltb ?u ?v] => destruct (Z.ltb_spec u v) end; lia. }
  assert (RA : if (C <? 0)%Z then (-1 <= A <= Z.of_nat n - 1)%Z else (0 <= A <= Z.of_nat n)%Z) by (rewrite <- EA; unfold first_of, edge; destruct a; destruct (C <? 0)%Z; lia).
  assert (RB : if (C <? 0)%Z then (-1 <= B <= Z.of_nat n - 1)%Z else (0 <= B <= Z.of_nat n)%Z) by (rewrite <- EB; unfold end_of, edge; destruct b; destruct (C <? 0)%Z; lia).
  cbv zeta. rewrite EA, EB. clearbody A B. clear EA EB. intros k p. rewrite nth_error_map.
  assert (S : forall m, nth_error (seq 0 m) k = if (k <? m)%nat then Some k else None).
  { intros m. destruct (Nat.ltb_spec k m) as [L|L]; [|apply nth_error_None; rewrite seq_length; auto]. rewrite nth_error_nth' with (d := 0) by (rewrite seq_length; auto). rewrite seq_nth; auto. }
  rewrite S. destruct (Z.ltb_spec C 0) as [Cn|Cp].
  - pose proof (div_count (Z.of_nat k) (A - B) (- C) ltac:(lia) ltac:(lia)) as D. replace (A - B + - C - 1)%Z with (A - B - C - 1)%Z in D by lia.
    destruct (Nat.ltb_spec k (Z.to_nat ((A - B - C - 1) / - C))) as [L|L].
    + assert (L' : (Z.of_nat k < (A - B - C - 1) / - C)%Z) by lia. apply D in L'. cbn [option_map]. split; [intros E; injection E as <-; nia|intros [E _]; f_equal; lia].
    + cbn [option_map]. split; [discriminate|]. intros [E G]. exfalso. assert (X : (Z.of_nat k * - C < A - B)%Z) by nia. apply D in X. lia.
  - pose proof (div_count (Z.of_nat k) (B - A) C ltac:(lia) ltac:(lia)) as D.
    destruct (Nat.ltb_spec k (Z.to_nat ((B - A + C - 1) / C))) as [L|L].
    + assert (L' : (Z.of_nat k < (B - A + C - 1) / C)%Z) by lia. apply D in L'. cbn [option_map]. split; [intros E; injection E as <-; nia|intros [E _]; f_equal; lia].
    + cbn [option_map]. split; [discriminate|]. intros [E G]. exfalso. assert (X : (Z.of_nat k * C < B - A)%Z) by nia. apply D in X. lia.
Qed.
Lemma reads_unique n a b c ps qs : reads n a b c ps -> reads n a b c qs -> ps = qs.
Proof.
  intros [_ H] [_ G]. apply nth_ext_opt. intros k. destruct (nth_error ps k) as [p|] eqn:E; [symmetry; apply G; apply H; auto|]. destruct (nth_error qs k) as [q|] eqn:F; [|auto]. apply G in F. apply H in F. congruence.
Qed.
Lemma reads_positions n a b c ps : reads n a b c ps -> slice_positions a b c n = Ok ps.
Proof.
  intros R. pose proof (positions_reads n a b c) as X. destruct (slice_positions a b c n) as [qs|e]; [f_equal; eapply reads_unique; eauto|]. destruct X as [_ ->]. destruct R as [N _]. congruence.
Qed.
Lemma reads_below n a b c ps p : reads n a b c ps -> In p ps -> p < n.
Proof.
  intros [Nz H] I. apply In_nth_error in I as [k E]. apply H in E as [E G]. set (C := match c with Some c => c | None => 1%Z end) in *. clearbody C. unfold first_of, end_of, edge in *. destruct a as [x|], b as [y|]; destruct (Z.ltb_spec C 0); nia.
Qed.
Lemma selects_flat {A} (l : list A) ps r : selects l ps r -> flat_map (fun p => match nth_error l p with Some x => [x] | None => [] end) ps = r.
Proof. induction 1 as [|p x ps r E _ IH]; cbn; [auto|]. rewrite E, IH. reflexivity. Qed.
Lemma selects_exists {A} (l : list A) ps : (forall p, In p ps -> p < List.length l) -> exists r, selects l ps r.
Proof.
  induction ps as [|p ps IH]; intros H; [exists []; constructor|]. destruct IH as [r R]; [intros; apply H; cbn; auto|]. destruct (nth_error l p) as [x|] eqn:E; [exists (x :: r); constructor; auto|]. apply nth_error_None in E. specialize (H p (or_introl eq_refl)). lia.
Qed.
Lemma slice_selects {A} (l : list A) a b c ps r : reads (List.length l) a b c ps -> selects l ps r -> at_slice l a b c = Ok r.
Proof. intros R S. unfold at_slice. rewrite (reads_positions _ _ _ _ _ R). cbn [bind]. rewrite (selects_flat _ _ _ S). reflexivity. Qed.
Lemma slice_reads {A} (l : list A) a b c r : at_slice l a b c = Ok r -> exists ps, reads (List.length l) a b c ps /\ selects l ps r.
Proof.
  unfold at_slice. pose proof (positions_reads (List.length l) a b c) as X. destruct (slice_positions a b c (List.length l)) as [ps|]; [|discriminate]. cbn [bind]. intros E. exists ps. split; [auto|]. destruct (selects_exists l ps) as [r' S]; [intros p; eapply reads_below; eauto|]. rewrite (selects_flat _ _ _ S) in E. injection E as <-. auto.
Qed.
Lemma selects_In {A} (l : list A) ps r x : selects l ps r -> In x r -> In x l.
Proof. induction 1 as [|p y ps r E _ IH]; [intros []|]. intros [->|H]; [eapply nth_error_In; eauto|auto]. Qed.
(** ** Tuples and their types *)
Lemma zip_nth ts : forall vs p t v, zip ts vs -> nth_error ts p = Some t -> nth_error vs p = Some v -> has t v.
Proof. induction ts as [|u ts IH]; intros [|w vs] [|p] t v Z A B; cbn in *; try tauto; try discriminate; [injection A as ->; injection B as ->; tauto|]. eapply IH; [|exact A|exact B]; tauto. Qed.
Lemma zip_length ts : forall vs, zip ts vs -> List.length ts = List.length vs.
Proof. induction ts as [|u ts IH]; intros [|w vs] Z; cbn in Z; try tauto. cbn. f_equal. apply IH. tauto. Qed.
Lemma zip_selects ts vs ps us : zip ts vs -> selects ts ps us -> forall r, selects vs ps r -> zip us r.
Proof. intros Z. induction 1 as [|p t ps us E _ IH]; intros r S; inversion S; subst; [exact I|]. cbn. split; [eapply zip_nth; eauto|auto]. Qed.
