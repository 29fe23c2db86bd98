(** * C54, continued: findings and concrete cases. *)
From Coq Require Import Reals List ZArith Lia Lra.
From Coquelicot Require Import Coquelicot.
From Verif Require Import PyBase Deriv_Model Deriv_Proofs Deriv_Unary Deriv_Binary Corr_Spec Corr_Proofs Pool_Proofs
  Xent_Model Xent_Spec Xent_Proofs Xent_Props.
Import ListNotations.
Open Scope R_scope.
Open Scope list_scope.
Open Scope res_scope.

(** ** Concrete cases *)
(** Two samples of three classes, labels 2 and -3 (class 0). *)
Definition sample : input3 := mki 2 3 1 true (fun i k _ => INR (1 + i + k) / 10).
Definition labels : target := Labels (fun i _ => match i with O => 2 | _ => -3 end)%Z.
Lemma sample_fits : fits sample labels.
Proof.
  split; [easy|]. intros i j Hi Hj. cbn in *. destruct i as [|[|i]]; [exists 2%nat|exists 0%nat|lia]; (split; [lia|]); [now left|now right].
Qed.
Example C54_cross_entropy_nonvacuous : fits sample labels /\ weights_are sample labels (WList [1; 2; 3]) (fun k => INR (k + 1)) /\
  (forall i k j, (i < nn sample)%nat -> (k < nc sample)%nat -> (j < nd sample)%nat -> reads sample labels i k j -> 0 < xat sample i k j).
Proof.
  split; [apply sample_fits|]. split.
  - split; [reflexivity|]. intros k Hk. cbn in Hk. destruct k as [|[|[|k]]]; cbn; [lra|lra|lra|lia].
  - intros i k j _ _ _ _. cbn [sample xat]. apply Rdiv_lt_0_compat; [apply lt_0_INR; lia|lra].
Qed.
Example C54_balanced_nonvacuous : exists W, weights_are sample labels (WBool true) W /\ W 0%nat = 2 / 3.
Proof.
  exists (fun k => all_mass sample labels / (INR 3 * class_mass sample labels k)). split.
  - split; [easy|]. split; [|easy]. intros k Hk _. reflexivity.
  - unfold all_mass, class_mass, total. cbn. lra.
Qed.

(** A target array, for the losses from logits and from logarithms. *)
Example C54_logits_nonvacuous : let t := Probs (fun _ k _ => INR k) in
  fits sample t /\ weights_are sample t (WBool false) (fun _ => 1) /\ is_labels t = false.
Proof. split; [split; easy|]. split; [|reflexivity]. now intros k _. Qed.
Example C54_only_nonvacuous : (0 < nn sample)%nat /\ (0 < nd sample)%nat /\ (forall k, ~ class_of (nc sample) (-4) k) /\
  length [1; 2] <> nc sample.
Proof. split; [cbn; lia|]. split; [cbn; lia|]. split; [|easy]. intros k [Hk [E|E] ]; cbn in *; lia. Qed.

(** ** Findings *)
(** The gradient from probabilities with labels scales the caller's output gradient in place: asked twice with the
    same array, it returns another gradient. *)
Theorem C54_output_gradient_changed_refuted : exists x t w W ws g,
  fits x t /\ weights_are x t w W /\ (exists o, cross_entropy x t w 1 true false = Ok (o, ws)) /\
  let '(G, g') := cross_entropy_grad g x t ws 1 false in
  let '(G', _) := cross_entropy_grad g' x t ws 1 false in
  g' 0%nat 0%nat <> g 0%nat 0%nat /\ G' 0%nat 2%nat 0%nat <> G 0%nat 2%nat 0%nat.
Proof.
  exists sample, labels, (WList [1; 2; 3]), (fun k => INR (k + 1)), [1; 2; 3], (fun _ _ => 1).
  split; [apply sample_fits|]. split; [apply C54_cross_entropy_nonvacuous|]. split; [eexists; reflexivity|].
  cbn [cross_entropy_grad labels loss_log_grad sample nc xat].
  replace (weight_of [1; 2; 3] 2) with 3 by reflexivity.
  replace (one_hot 3 2 2) with 1 by reflexivity. replace (index_or_zero 3 2) with 2%nat by reflexivity.
  cbn [INR Nat.add]. split; lra.
Qed.

(** The gradient of the robust loss from logits with a target array differentiates a robust logarithm of the softmax;
    the loss takes the logarithm of the sum of exponentials. *)
Definition two_logits : input3 := mki 1 2 1 true (fun _ k _ => - INR k).
Definition second : target := Probs (fun _ k _ => INR k).
Theorem C54_robust_logits_refuted : exists x t w W thr o ws g,
  fits x t /\ weights_are x t w W /\ 0 < thr <= 1 /\
  cross_entropy_with_logits x t w thr false true = Ok (o, ws) /\
  ~ loss_gradient (fun y => cross_entropy_with_logits y t w thr false true) x g
      (cross_entropy_with_logits_grad g x t ws thr true).
Proof.
  exists two_logits, second, (WBool false), (fun _ => 1), (1 / 2). eexists. exists [1; 1], (fun _ _ => 1).
  split; [easy|]. split; [easy|]. split; [lra|]. split; [reflexivity|].
  intros H. specialize (H (fun _ k _ => INR k)).
  (* the derivative of the loss, which near the point takes plain logarithms *)
  set (e := exp (-1)).
  assert (e0 : 0 < e) by apply exp_pos.
  assert (e1 : e < 1). { unfold e. rewrite <- exp_0. apply exp_increasing. lra. }
  assert (D : derivable_pt_lim (fun s => - (-1 + s - ln (1 + exp (-1 + s)))) 0 (- (1 - e / (1 + e)))).
  { apply is_derive_Reals. auto_derive.
    - rewrite Rplus_0_r. fold e. lra.
    - rewrite Rplus_0_r. fold e. field. lra. }
  assert (D' : derivable_pt_lim (fun s => weighted_sum two_logits (fun _ _ => 1)
                 (cross_entropy_with_logits (shifted two_logits (fun _ k _ => INR k) s) second (WBool false) (1 / 2) false true)) 0
                 (- (1 - e / (1 + e)))).
  { eapply dl_ext; [|exact D]. intros s. cbn. unfold total. cbn.
    pose proof (exp_pos (-1 + s)).
    replace (exp (- 0 + s * 0)) with 1 by (replace (- 0 + s * 0) with 0 by ring; now rewrite exp_0).
    replace (- (1) + s * 1) with (-1 + s) by ring.
    rewrite robust_log_ge; rewrite Rabs_right by lra; [|lra]. replace (0 + 1 + exp (-1 + s)) with (1 + exp (-1 + s)) by ring. ring. }
  pose proof (uniqueness_limite _ _ _ _ H D') as E. revert E. clear H D D'.
  assert (M : forall k, class_softmax two_logits 0 k 0 = exp (- INR k) / (1 + e)).
  { intros k. destruct (softmax_quotient two_logits 0 k 0) as [->|Z]; [|easy]. cbn [two_logits xat nc]. unfold total. cbn.
    replace (- (0)) with 0 by ring. rewrite exp_0. replace (- (1)) with (-1) by ring. fold e.
    replace (1 + (e + 0)) with (1 + e) by ring. reflexivity. }
  unfold cross_entropy_with_logits_grad. cbn [second two_logits nn nc nd]. unfold total. cbn [seq map fold_right sum_n].
  fold two_logits. rewrite !M. cbn [INR]. rewrite Ropp_0, exp_0. replace (- (1)) with (-1) by ring. fold e.
  cbn [nth]. cbn [loss_log_grad].
  assert (L : e / (1 + e) < 1 / 2).
  { apply (Rmult_lt_reg_r (1 + e)); [lra|]. replace (e / (1 + e) * (1 + e)) with e by (field; lra). lra. }
  assert (P : 0 < e / (1 + e)) by (apply Rdiv_lt_0_compat; lra).
  set (q := e / (1 + e)) in *.
  assert (Q : robust_log_grad (1 * 1) (1 / 2) q = 2).
  { unfold robust_log_grad, np_abs. cbv zeta. rewrite Rabs_right by lra.
    destruct (Rlt_dec q (1 / 2)) as [_|N]; [|lra]. destruct (Rlt_dec q 0); lra. }
  rewrite Q. intros E.
  assert (- (q * (2 * 1 - q * (2 * 1))) = - (1 - q)) by lra. nra.
Qed.

(** With labels for an input of rank 3, [weights=True] does not balance the classes. *)
Definition grid3 : input3 := mki 1 2 4 false (fun _ _ _ => 1 / 2).
Definition unequal : target := Labels (fun _ j => match j with O => 1 | _ => 0 end)%Z.
Theorem C54_spatial_weights_refuted : exists x t o ws W,
  fits x t /\ cross_entropy x t (WBool true) 1 true false = Ok (o, ws) /\
  (forall k, (k < nc x)%nat -> class_mass x t k <> 0 /\ W k = all_mass x t / (INR (nc x) * class_mass x t k)) /\
  oat o 0%nat 0%nat <> entropy x t W (fun i k j => ln (xat x i k j)) 0%nat 0%nat.
Proof.
  exists grid3, unequal. eexists. eexists. exists (fun k => all_mass grid3 unequal / (INR 2 * class_mass grid3 unequal k)).
  split.
  { split; [easy|]. intros i j Hi Hj. cbn. destruct j; [exists 1%nat|exists 0%nat]; (split; [lia|now left]). }
  split; [reflexivity|]. split.
  { intros k Hk. split; [|reflexivity]. cbn in Hk. unfold class_mass, total. cbn. destruct k as [|[|k]]; cbn; [lra|lra|lia]. }
  assert (N : ln (1 / 2) < 0). { rewrite <- ln_1. apply ln_increasing; lra. }
  set (l := fun _ j : nat => match j with O => 1 | _ => 0 end%Z).
  assert (E : nth 1 (class_weight 1 4 2 (fun i j k => one_hot 2 (l i j) k)) 0 = 1).
  { rewrite nth_class_weight by lia. unfold total. cbn [seq map fold_right l].
    replace (one_hot 2 1 0) with 0 by reflexivity. replace (one_hot 2 1 1) with 1 by reflexivity.
    replace (one_hot 2 0 0) with 1 by reflexivity. replace (one_hot 2 0 1) with 0 by reflexivity. cbn [INR]. lra. }
  change (- ln (1 / 2) * nth 1 (class_weight 1 4 2 (fun i j k => one_hot 2 (l i j) k)) 0
          <> entropy grid3 unequal (fun k => all_mass grid3 unequal / (INR 2 * class_mass grid3 unequal k)) (fun i k j => ln (xat grid3 i k j)) 0 0).
  rewrite E. unfold entropy, all_mass, class_mass, total. cbn. lra.
Qed.

(** [pos_weight=False] drops the positive term of the binary cross entropy; the variant from logits counts it once. *)
Theorem C54_pos_weight_refuted : exists n x t i,
  (i < n)%nat /\ 0 < sigmoid (x i) < 1 /\
  bce n (PBool false) false 1 (fun i => sigmoid (x i)) t i <> bce n (PNum 1) false 1 (fun i => sigmoid (x i)) t i /\
  bce_logits n (PBool false) false 1 x t i = bce_logits n (PNum 1) false 1 x t i.
Proof.
  exists 1%nat, (fun _ => 0), (fun _ => 1), 0%nat. split; [lia|].
  assert (S : sigmoid 0 = 1 / 2). { unfold sigmoid. destruct (Rle_dec 0 0); [|lra]. rewrite Ropp_0, exp_0. lra. }
  rewrite S. split; [lra|]. split; [|reflexivity]. unfold bce, binary_cross_entropy. cbn [bce_weight]. cbn beta. rewrite ?S.
  assert (N : ln (1 / 2) < 0). { rewrite <- ln_1. apply ln_increasing; lra. } lra.
Qed.

Print Assumptions C54_output_gradient_changed_refuted.
Print Assumptions C54_robust_logits_refuted.
Print Assumptions C54_spatial_weights_refuted.
Print Assumptions C54_pos_weight_refuted.
