(* C72: normalisation layers. *)

From Coq Require Import Reals List Arith Lia Lra.
From Verif Require Import PyBase Norm_Model Norm_Spec Norm_Proofs.
Import ListNotations.
Open Scope R_scope.

(* A normalised row (LayerNorm without weight and bias, an output channel of
   BatchNorm2D before scale and bias) has as many entries, average 0 and
   deviation v / (v + eps), below 1, and does not change when a constant is added
   to all entries of the input. *)
Theorem C72_normalise : forall eps row v,
  0 < eps -> row <> [] -> deviation row v ->
  let out := layer_norm eps None None row in
  length out = length row /\ average out 0 /\ deviation out (v / (v + eps)) /\
  0 <= v / (v + eps) < 1 /\
  forall c, layer_norm eps None None (map (Rplus c) row) = out.
Proof.
  intros eps row v He Hr Hv out. unfold out, layer_norm, optional.
  assert (V : v = var row).
  { destruct Hv as [m [A D]]. destruct (var_deviation row Hr) as [m' [A' D']].
    rewrite (average_mean row m Hr A) in D. rewrite (average_mean row m' Hr A') in D'.
    pose proof (len_pos row Hr). apply (Rmult_eq_reg_r (INR (length row))); lra. }
  subst v. pose proof (var_nonneg row Hr) as N.
  split; [apply normalise_length|]. split; [apply normalise_average, Hr|].
  split; [apply normalise_deviation; assumption|]. split.
  - split; [apply Rmult_le_pos; [exact N|left; apply Rinv_0_lt_compat; lra]|].
    apply (Rmult_lt_reg_r (var row + eps)); [lra|]. unfold Rdiv.
    rewrite Rmult_assoc, Rinv_l by lra. lra.
  - intros c. apply normalise_shift, Hr.
Qed.

Lemma deviation_of_row : deviation [1; 2; 3; 6] (7 / 2).
Proof. exists 3. split; unfold average; cbn; lra. Qed.

Example C72_normalise_example : average (layer_norm (1 / 2) None None [1; 2; 3; 6]) 0.
Proof.
  exact (proj1 (proj2 (C72_normalise (1 / 2) [1; 2; 3; 6] (7 / 2) ltac:(lra) ltac:(discriminate) deviation_of_row))).
Qed.

(* LayerNorm with weight and bias: every entry by itself. *)
Theorem C72_layer : forall eps w b row m v i,
  row <> [] -> average row m -> deviation row v ->
  length w = length row -> length b = length row -> (i < length row)%nat ->
  length (layer_norm eps (Some w) (Some b) row) = length row /\
  nth i (layer_norm eps (Some w) (Some b) row) 0 = (nth i row 0 - m) / sqrt (v + eps) * nth i w 0 + nth i b 0.
Proof.
  intros eps w b row m v i Hr Hm Hv Hw Hb Hi.
  assert (V : v = var row).
  { destruct Hv as [m1 [A D]]. destruct (var_deviation row Hr) as [m' [A' D']].
    rewrite (average_mean row m1 Hr A) in D. rewrite (average_mean row m' Hr A') in D'.
    pose proof (len_pos row Hr). apply (Rmult_eq_reg_r (INR (length row))); lra. }
  rewrite (average_mean row m Hr Hm). subst v.
  unfold layer_norm, optional. pose proof (normalise_length eps row) as L.
  assert (L1 : length (zip_with Rmult (normalise eps row) w) = length row) by (rewrite zip_length; congruence).
  split; [rewrite zip_length; congruence|].
  rewrite zip_nth by lia. rewrite zip_nth by lia. rewrite normalise_nth by exact Hi. reflexivity.
Qed.

Example C72_layer_example :
  nth 2 (layer_norm (1 / 2) (Some [1; 1; 4; 1]) (Some [0; 0; 5; 0]) [1; 2; 3; 6]) 0
  = (3 - 3) / sqrt (7 / 2 + 1 / 2) * 4 + 5.
Proof.
  apply (C72_layer (1 / 2) [1; 1; 4; 1] [0; 0; 5; 0] [1; 2; 3; 6] 3 (7 / 2) 2); try reflexivity.
  - discriminate.
  - unfold average; cbn; lra.
  - exact deviation_of_row.
  - cbn. lia.
Qed.

(* GroupNorm of a sample of g * q channels of hw entries in g groups: entry k of
   channel c is normalised with the average and the deviation of the entries of
   all channels of its group, and scaled and shifted with the weight and the bias
   of its channel. *)
Theorem C72_group : forall g q hw eps w b x c k m v,
  (0 < g)%nat -> length x = (g * q * hw)%nat -> length w = (g * q)%nat -> length b = (g * q)%nat ->
  (c < g * q)%nat -> (k < hw)%nat ->
  average (group hw q (c / q) x) m -> deviation (group hw q (c / q) x) v ->
  exists out, group_norm g hw eps (Some w) (Some b) x = Ok out /\ length out = length x /\
    nth (c * hw + k) out 0
    = (nth (c * hw + k) x 0 - m) / sqrt (v + eps) * nth c w 0 + nth c b 0.
Proof.
  intros g q hw eps w b x c k m v Hg Hx Hw Hb Hc Hk Hm Hv.
  assert (Hr : group hw q (c / q) x <> []).
  { assert (Q : (0 < q)%nat) by nia. unfold group. rewrite channels_firstn.
    - intros E. apply (f_equal (@length R)) in E. rewrite firstn_length, skipn_length in E. cbn [length] in E.
      pose proof (Nat.div_lt_upper_bound c q g ltac:(lia) ltac:(nia)). nia.
    - pose proof (Nat.div_lt_upper_bound c q g ltac:(lia) ltac:(nia)). nia. }
  assert (V : v = var (group hw q (c / q) x)).
  { destruct Hv as [m1 [A D]]. destruct (var_deviation _ Hr) as [m' [A' D']].
    rewrite (average_mean _ m1 Hr A) in D. rewrite (average_mean _ m' Hr A') in D'.
    pose proof (len_pos _ Hr). apply (Rmult_eq_reg_r (INR (length (group hw q (c / q) x)))); lra. }
  rewrite (average_mean _ m Hr Hm), V.
  exact (group_norm_entry g q hw eps w b x c k Hg Hx Hw Hb Hc Hk).
Qed.

Example C72_group_example : exists out,
  group_norm 2 1 1 (Some [1; 1; 1; 7]) (Some [0; 0; 0; 9]) [5; 6; 2; 4] = Ok out /\ length out = 4%nat /\
  nth 3 out 0 = (4 - 3) / sqrt (1 + 1) * 7 + 9.
Proof.
  apply (C72_group 2 2 1 1 [1; 1; 1; 7] [0; 0; 0; 9] [5; 6; 2; 4] 3 0 3 1); try reflexivity; try lia.
  - unfold average, group, channel. cbn. lra.
  - exists 3. split; unfold average, group, channel; cbn; lra.
Qed.

(* The sample is refused exactly if its size is not a multiple of the number of
   groups. *)
Theorem C72_group_error : forall g hw eps w b x,
  (exists e, group_norm g hw eps w b x = Err e) <-> ~ (exists n, (0 < g)%nat /\ length x = (g * n)%nat).
Proof.
  intros g hw eps w b x. unfold group_norm. destruct (Nat.eqb_spec g 0) as [->|Hg].
  - split; [intros _ [n [H _]]; lia|intros _; eexists; reflexivity].
  - destruct (Nat.eqb_spec (length x mod g) 0) as [E|E]; cbn [negb].
    + split; [intros [e H]; discriminate|]. intros H. exfalso. apply H. exists (length x / g)%nat.
      split; [lia|]. pose proof (Nat.div_mod (length x) g Hg). lia.
    + split; [|intros _; eexists; reflexivity]. intros _ [n [H1 H2]]. apply E. rewrite H2.
      apply (parts_ok g n H1).
Qed.

Example C72_group_error_example : exists e, group_norm 3 1 1 None None [1; 2; 3; 4] = Err e.
Proof. apply C72_group_error. intros [n [_ H]]. cbn [length] in H. lia. Qed.

(* BatchNorm2D over any number of training evaluations: the running mean and
   variance are the averages and unbiased deviations of the batches with weights
   decaying with their age, starting at 0 and 1. *)
Theorem C72_running : forall eps momentum xs,
  Forall (fun x => (2 <= length x)%nat) xs ->
  exists ms vs, Forall2 average xs ms /\ Forall2 unbiased xs vs /\
    train eps momentum xs = Ok (decayed momentum 0 (rev ms), decayed momentum 1 (rev vs)).
Proof.
  intros eps momentum xs H. exists (map mean xs), (map corrected xs). split; [|split].
  - apply Forall2_map_r. eapply Forall_impl; [|exact H]. cbv beta. intros x Hx.
    apply mean_average. intros ->. cbn in Hx. lia.
  - apply Forall2_map_r. eapply Forall_impl; [|exact H]. cbv beta. intros x Hx.
    apply corrected_unbiased, Hx.
  - unfold train. rewrite batches_fold by exact H. rewrite !fold_decayed. reflexivity.
Qed.

Example C72_running_example : exists ms vs,
  Forall2 average [[1; 3]; [2; 4; 9]] ms /\ Forall2 unbiased [[1; 3]; [2; 4; 9]] vs /\
  train 1 (1 / 10) [[1; 3]; [2; 4; 9]] = Ok (decayed (1 / 10) 0 (rev ms), decayed (1 / 10) 1 (rev vs)).
Proof. apply C72_running. repeat constructor. Qed.

(* The output of a training evaluation does not depend on the running values. *)
Theorem C72_output : forall eps momentum s1 s2 x out1 out2 t1 t2,
  batch_step eps momentum s1 x = Ok (out1, t1) -> batch_step eps momentum s2 x = Ok (out2, t2) ->
  out1 = out2 /\ (x <> [] -> average out1 0).
Proof.
  intros eps momentum s1 s2 x out1 out2 t1 t2 H1 H2. unfold batch_step in *.
  destruct (length x =? 1)%nat; [discriminate|]. injection H1 as <- _. injection H2 as <- _.
  split; [reflexivity|]. apply normalise_average.
Qed.

Example C72_output_example : exists out t, batch_step 1 (1 / 10) (0, 1) [1; 3] = Ok (out, t).
Proof. do 2 eexists. reflexivity. Qed.

(* Finding: the number of channels need not be a multiple of the number of
   groups; three channels of two entries in two groups are accepted, and the
   second channel is split between the groups. *)
Theorem C72_groups_refuted : forall eps a b c d e f,
  group_norm 2 2 eps None None [a; b; c; d; e; f]
  = Ok (layer_norm eps None None [a; b; c] ++ layer_norm eps None None [d; e; f]).
Proof. intros. unfold group_norm, layer_norm. cbn [optional]. reflexivity. Qed.

(* Finding: training on a single entry per channel fails with a division by zero
   instead of an error about the batch. *)
Theorem C72_single_refuted : forall eps momentum before x after,
  Forall (fun x => (2 <= length x)%nat) before ->
  train eps momentum (before ++ [x] :: after) = Err ZeroDivisionError.
Proof.
  intros eps momentum before x after H. unfold train. generalize (0, 1).
  induction before as [|y r IH]; intros st; [reflexivity|].
  inversion H; subst. cbn [app batches]. unfold batch_step at 1. cbv zeta.
  destruct (Nat.eqb_spec (length y) 1); [lia|]. apply IH. assumption.
Qed.

Print Assumptions C72_normalise.
Print Assumptions C72_layer.
Print Assumptions C72_group.
Print Assumptions C72_group_error.
Print Assumptions C72_running.
Print Assumptions C72_output.
Print Assumptions C72_groups_refuted.
Print Assumptions C72_single_refuted.
