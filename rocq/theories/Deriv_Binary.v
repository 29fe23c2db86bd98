(** * The operations of two arrays *)
From Coq Require Import Reals List ZArith Lra Lia.
From Coquelicot Require Import Coquelicot.
From Verif Require Import PyBase Deriv_Model Deriv_Spec Deriv_Proofs Deriv_Unary.
Import ListNotations.
Open Scope R_scope.

(** ** Composition with an affine function *)
Lemma dl_affine k c m x l : derivable_pt_lim k (c + m * x) l ->
  derivable_pt_lim (fun y => k (c + m * y)) x (m * l).
Proof.
  intros H. rewrite Rmult_comm. apply (derivable_pt_lim_comp (fun y => c + m * y) k); [|exact H].
  by_auto; [auto|]. ring.
Qed.
Lemma side_scale (k : R -> R) (z m l h : R) : m <> 0 -> h <> 0 ->
  (k (z + m * h) - k z) / h - m * l = m * ((k (z + m * h) - k z) / (m * h) - l).
Proof. intros. now field. Qed.
Lemma eps_scale m u e : m <> 0 -> u < e / Rabs m -> Rabs m * u < e.
Proof.
  intros Hm H. assert (0 < Rabs m) by now apply Rabs_pos_lt.
  apply (Rmult_lt_compat_l (Rabs m)) in H; [|lra].
  replace (Rabs m * (e / Rabs m)) with e in H by (field; lra). exact H.
Qed.
Lemma between_affine k c m x v : between_sides k (c + m * x) v ->
  between_sides (fun y => k (c + m * y)) x (m * v).
Proof.
  intros (l & r & HL & HR & HV). destruct (Req_EM_T m 0) as [->|Hm].
  - apply dl_between. apply (dl_ext _ (fun _ => k (c + 0 * x))); [intros; f_equal; ring|].
    apply (dl_eq _ _ 0); [apply dl_const | ring].
  - assert (Ha : 0 < Rabs m) by now apply Rabs_pos_lt.
    assert (C : l <= v <= r \/ r <= v <= l)
      by (revert HV; unfold Rmin, Rmax; repeat destruct Rle_dec; intros; lra).
    assert (Hz : forall h, c + m * (x + h) = c + m * x + m * h) by (intros; ring).
    destruct (Rlt_dec 0 m) as [P|P].
    + exists (m * l), (m * r). split; [|split].
      * intros eps He. destruct (HL (eps / Rabs m)) as (d & pd & Hd); [now apply Rdiv_lt_0_compat|].
        exists (d / m). split; [now apply Rdiv_lt_0_compat|]. intros h [h1 h2].
        rewrite Hz, side_scale, Rabs_mult by lra. apply eps_scale; [auto|]. apply Hd. split.
        -- apply (Rmult_lt_compat_l m) in h1; [|lra]. replace (m * - (d / m)) with (- d) in h1 by (field; lra). lra.
        -- nra.
      * intros eps He. destruct (HR (eps / Rabs m)) as (d & pd & Hd); [now apply Rdiv_lt_0_compat|].
        exists (d / m). split; [now apply Rdiv_lt_0_compat|]. intros h [h1 h2].
        rewrite Hz, side_scale, Rabs_mult by lra. apply eps_scale; [auto|]. apply Hd. split.
        -- nra.
        -- apply (Rmult_lt_compat_l m) in h2; [|lra]. replace (m * (d / m)) with d in h2 by (field; lra). lra.
      * assert (D : m * l <= m * v <= m * r \/ m * r <= m * v <= m * l).
        { destruct C as [[C1 C2]|[C1 C2]]; [left | right]; split; apply Rmult_le_compat_l; lra. }
        unfold Rmin, Rmax. repeat destruct Rle_dec; lra.
    + assert (Q : m < 0) by lra.
      exists (m * r), (m * l). split; [|split].
      * intros eps He. destruct (HR (eps / Rabs m)) as (d & pd & Hd); [now apply Rdiv_lt_0_compat|].
        exists (d / (- m)). split; [apply Rdiv_lt_0_compat; lra|]. intros h [h1 h2].
        rewrite Hz, side_scale, Rabs_mult by lra. apply eps_scale; [auto|]. apply Hd. split.
        -- nra.
        -- apply (Rmult_lt_compat_l (- m)) in h1; [|lra].
           replace (- m * - (d / - m)) with (- d) in h1 by (field; lra). lra.
      * intros eps He. destruct (HL (eps / Rabs m)) as (d & pd & Hd); [now apply Rdiv_lt_0_compat|].
        exists (d / (- m)). split; [apply Rdiv_lt_0_compat; lra|]. intros h [h1 h2].
        rewrite Hz, side_scale, Rabs_mult by lra. apply eps_scale; [auto|]. apply Hd. split.
        -- apply (Rmult_lt_compat_l (- m)) in h2; [|lra].
           replace (- m * (d / - m)) with d in h2 by (field; lra). lra.
        -- nra.
      * assert (D : m * l <= m * v <= m * r \/ m * r <= m * v <= m * l).
        { destruct C as [[C1 C2]|[C1 C2]]; [right | left]; split; apply Rmult_le_compat_neg_l; lra. }
        unfold Rmin, Rmax. repeat destruct Rle_dec; lra.
Qed.
(** Two common cases: [k (y - b)] and [k (a - y)]. *)
Lemma dl_shift k b x l : derivable_pt_lim k (x - b) l -> derivable_pt_lim (fun y => k (y - b)) x l.
Proof.
  intros H. apply (dl_ext _ (fun y => k (- b + 1 * y))); [intros; f_equal; ring|].
  apply (dl_eq _ _ (1 * l)); [|ring]. apply dl_affine. now replace (- b + 1 * x) with (x - b) by ring.
Qed.
Lemma dl_refl k a x l : derivable_pt_lim k (a - x) l -> derivable_pt_lim (fun y => k (a - y)) x (- l).
Proof.
  intros H. apply (dl_ext _ (fun y => k (a + -1 * y))); [intros; f_equal; ring|].
  apply (dl_eq _ _ (-1 * l)); [|ring]. apply dl_affine. now replace (a + -1 * x) with (a - x) by ring.
Qed.
Lemma between_shift k b x v : between_sides k (x - b) v -> between_sides (fun y => k (y - b)) x v.
Proof.
  intros H. apply (between_ext _ (fun y => k (- b + 1 * y))); [intros; f_equal; ring|].
  replace v with (1 * v) by ring. apply between_affine. now replace (- b + 1 * x) with (x - b) by ring.
Qed.
Lemma between_refl k a x v : between_sides k (a - x) v -> between_sides (fun y => k (a - y)) x (- v).
Proof.
  intros H. apply (between_ext _ (fun y => k (a + -1 * y))); [intros; f_equal; ring|].
  replace (- v) with (-1 * v) by ring. apply between_affine. now replace (a + -1 * x) with (a - x) by ring.
Qed.

(** ** power *)
Lemma Int_part_IZR n : Int_part (IZR n) = n.
Proof.
  destruct (base_Int_part (IZR n)) as [H1 H2]. apply le_IZR in H1.
  assert (H : (n - 1 < Int_part (IZR n))%Z) by (apply lt_IZR; rewrite minus_IZR; lra). lia.
Qed.
Lemma np_power_int x n : np_power x (IZR n) = powerRZ x n.
Proof.
  unfold np_power. destruct Rlt_dec; [now rewrite <- powerRZ_Rpower|].
  rewrite Int_part_IZR. destruct Req_EM_T; [auto|congruence].
Qed.
Lemma np_power_pos x t : 0 < x -> np_power x t = Rpower x t.
Proof. intros. unfold np_power. destruct Rlt_dec; [auto|lra]. Qed.
Lemma dl_powerRZ n x : (x <> 0 \/ (0 < n)%Z) ->
  derivable_pt_lim (fun y => powerRZ y n) x (IZR n * powerRZ x (n - 1)).
Proof.
  intros H. destruct n as [|p|p].
  - cbn [powerRZ]. eapply dl_eq; [apply dl_const|]. ring.
  - cbn [powerRZ]. eapply dl_eq; [apply derivable_pt_lim_pow|].
    rewrite INR_IZR_INZ, positive_nat_Z. f_equal.
    replace (Z.pos p - 1)%Z with (Z.of_nat (pred (Pos.to_nat p))) by lia.
    now rewrite <- pow_powerRZ.
  - assert (Hx : x <> 0) by (destruct H; [auto|lia]). cbn [powerRZ].
    assert (Hp : forall k, x ^ k <> 0) by (intros; now apply pow_nonzero).
    eapply dl_eq.
    + apply (derivable_pt_lim_comp (fun y => y ^ Pos.to_nat p) Rinv); [apply derivable_pt_lim_pow|].
      apply is_derive_Reals. auto_derive; [apply Hp|]. reflexivity.
    + change (Z.neg p - 1)%Z with (Z.neg p + Z.neg 1)%Z. rewrite powerRZ_add by auto. cbn [powerRZ].
      change (Pos.to_nat 1) with 1%nat.
      replace (IZR (Z.neg p)) with (- INR (Pos.to_nat p)).
      * destruct (Pos.to_nat p) as [|k] eqn:E; [pose proof (Pos2Nat.is_pos p); lia|].
        cbn [pred]. rewrite <- tech_pow_Rmult. cbn [pow]. field. split; auto.
      * rewrite INR_IZR_INZ, positive_nat_Z, <- opp_IZR. reflexivity.
Qed.
Lemma dl_power0 a b : 0 < a \/ (a <> 0 /\ is_int b) \/ is_pos_int b ->
  derivable_pt_lim (fun y => np_power y b) a (b * np_power a (b - 1)).
Proof.
  intros H. assert (HI : (exists n, b = IZR n /\ (a <> 0 \/ (0 < n)%Z)) \/ 0 < a).
  { destruct H as [H|[[H [n ->]]|[n [H ->]]]]; eauto. }
  clear H. destruct HI as [[n [-> H]]|H].
  - apply (dl_ext _ (fun y => powerRZ y n)); [intros; apply np_power_int|].
    rewrite <- minus_IZR, np_power_int. now apply dl_powerRZ.
  - rewrite np_power_pos by auto.
    apply (dl_ext_loc _ (fun y => Rpower y b) a _ a); [auto| |now apply derivable_pt_lim_power].
    intros. apply np_power_pos. lra.
Qed.
Lemma dl_power1 a b : 0 < a -> derivable_pt_lim (fun t => np_power a t) b (np_power a b * ln a).
Proof.
  intros H. rewrite np_power_pos by auto.
  apply (dl_ext _ (fun t => exp (t * ln a))); [intros; now rewrite np_power_pos|].
  unfold Rpower. by_auto; [auto|]. ring.
Qed.

(** ** quantile loss, as a function of the error *)
Definition pinball (q e : R) : R := Rmax (q * e) ((q - 1) * e).
Lemma pinball_pos q e : 0 <= e -> pinball q e = q * e.
Proof. intros. unfold pinball. apply Rmax_left. nra. Qed.
Lemma pinball_neg q e : e <= 0 -> pinball q e = (q - 1) * e.
Proof. intros. unfold pinball. apply Rmax_right. nra. Qed.
Definition pinball_d (q e : R) : R := if Rlt_dec 0 e then q else if Rlt_dec e 0 then q - 1 else q - / 2.
Lemma dl_scale_id c x : derivable_pt_lim (fun y => c * y) x c.
Proof. by_auto; [auto|]. ring. Qed.
Lemma dl_pinball q e : e <> 0 -> derivable_pt_lim (pinball q) e (pinball_d q e).
Proof.
  intros. unfold pinball_d. destruct Rlt_dec; [|destruct Rlt_dec; [|lra]].
  - apply (dl_ext_loc _ (fun y => q * y) e _ e); [auto| |apply dl_scale_id].
    intros. apply pinball_pos. lra.
  - apply (dl_ext_loc _ (fun y => (q - 1) * y) e _ (- e)); [lra| |apply dl_scale_id].
    intros. apply pinball_neg. lra.
Qed.
Lemma between_pinball q e : between_sides (pinball q) e (pinball_d q e).
Proof.
  destruct (Req_EM_T e 0) as [->|N]; [|now apply dl_between, dl_pinball].
  exists (q - 1), q. split; [|split].
  - apply (left_ext _ (fun y => (q - 1) * y) 0 _ 1); [lra| | |apply dl_scale_id];
      intros; apply pinball_neg; lra.
  - apply (right_ext _ (fun y => q * y) 0 _ 1); [lra| | |apply dl_scale_id];
      intros; apply pinball_pos; lra.
  - rewrite Rmin_left, Rmax_right by lra. unfold pinball_d. repeat destruct Rlt_dec; lra.
Qed.
Lemma quantile_val idx g q x t : 0 <= q <= 1 ->
  quantile_loss_grad idx g q x t = g * (pick idx (-1) 1 * pinball_d q (t - x)).
Proof.
  intros Hq. unfold quantile_loss_grad, pinball_d, np_sign.
  replace 0.5 with (/ 2) by lra.
  repeat (destruct Rlt_dec || destruct Req_EM_T); try lra; ring.
Qed.

(** ** hinge *)
Definition step_half (u : R) : R := if Rlt_dec 0 u then 1 else if Req_EM_T u 0 then / 2 else 0.
Lemma dl_step u : u <> 0 -> derivable_pt_lim (Rmax 0) u (step_half u).
Proof.
  intros H. eapply dl_eq; [now apply dl_max0|]. unfold step_half.
  destruct Rlt_dec; [auto|]. destruct Req_EM_T; [lra|auto].
Qed.
Lemma between_step u : between_sides (Rmax 0) u (step_half u).
Proof.
  destruct (Req_EM_T u 0) as [->|N]; [|now apply dl_between, dl_step].
  exists 0, 1. split; [apply left_max0|]. split; [apply right_max0|].
  rewrite Rmin_left, Rmax_right by lra. unfold step_half. destruct Rlt_dec; [lra|]. destruct Req_EM_T; lra.
Qed.
Lemma hinge_val g x t : hinge_loss_grad g (hinge_loss x t) x t = g * (- t * step_half (1 + - t * x)).
Proof.
  unfold hinge_loss_grad, hinge_loss, base_hinge, np_maximum, step_half. replace 0.5 with (/ 2) by lra.
  replace (1 + - t * x) with (1 - t * x) by ring. set (u := 1 - t * x).
  unfold Rmax. destruct Rle_dec; repeat (destruct Rlt_dec || destruct Req_EM_T); try lra; ring.
Qed.
Definition sq_max (u : R) : R := Rmax 0 u ^ 2.
Lemma dl_sq_max u : derivable_pt_lim sq_max u (2 * Rmax 0 u).
Proof.
  assert (D2 : forall x, derivable_pt_lim (fun y => y ^ 2) x (2 * x)).
  { intros. by_auto; [auto|]. ring. }
  destruct (Rtotal_order u 0) as [H|[->|H]].
  - rewrite Rmax_left by lra. eapply dl_eq; [|symmetry; apply Rmult_0_r].
    apply (dl_ext_loc _ (fun _ => 0) u _ (- u)); [lra| |apply dl_const].
    intros. unfold sq_max. rewrite Rmax_left by lra. ring.
  - rewrite Rmax_left by lra. apply sides_dl.
    + eapply (left_ext _ (fun _ => 0) 0 _ 1); [lra| | |].
      * unfold sq_max. rewrite Rmax_left by lra. ring.
      * intros. unfold sq_max. rewrite Rmax_left by lra. ring.
      * eapply dl_eq; [apply dl_const|]. ring.
    + apply (right_ext _ (fun y => y ^ 2) 0 _ 1); [lra| | |apply D2].
      * unfold sq_max. rewrite Rmax_left by lra. ring.
      * intros. unfold sq_max. rewrite Rmax_right by lra. ring.
  - rewrite Rmax_right by lra.
    apply (dl_ext_loc _ (fun y => y ^ 2) u _ u); [lra| |apply D2].
    intros. unfold sq_max. rewrite Rmax_right by lra. ring.
Qed.

(** ** leaky relu *)
Definition leaky_d (s x : R) : R := if Rlt_dec 0 x then 1 else s.
Lemma leaky_val0 g x s : leaky_relu_grad 0 g x s = g * leaky_d s x.
Proof. unfold leaky_relu_grad, leaky_d. repeat (destruct Rlt_dec || destruct Rle_dec); lra. Qed.
Lemma leaky_pos s x : 0 <= x -> leaky_relu x s = x.
Proof. intros. unfold leaky_relu, np_maximum, np_minimum. rewrite Rmax_right, Rmin_left by lra. ring. Qed.
Lemma leaky_neg s x : x <= 0 -> leaky_relu x s = s * x.
Proof. intros. unfold leaky_relu, np_maximum, np_minimum. rewrite Rmax_left, Rmin_right by lra. ring. Qed.
Lemma dl_leaky s x : x <> 0 -> derivable_pt_lim (fun y => leaky_relu y s) x (leaky_d s x).
Proof.
  intros. unfold leaky_d. destruct Rlt_dec.
  - apply (dl_ext_loc _ (fun y => y) x _ x); [lra| |apply dl_id]. intros. apply leaky_pos. lra.
  - apply (dl_ext_loc _ (fun y => s * y) x _ (- x)); [lra| |apply dl_scale_id]. intros. apply leaky_neg. lra.
Qed.
Lemma between_leaky s x : between_sides (fun y => leaky_relu y s) x (leaky_d s x).
Proof.
  destruct (Req_EM_T x 0) as [->|N]; [|now apply dl_between, dl_leaky].
  exists s, 1. split; [|split].
  - apply (left_ext _ (fun y => s * y) 0 _ 1); [lra| | |apply dl_scale_id]; intros; apply leaky_neg; lra.
  - apply (right_ext _ (fun y => y) 0 _ 1); [lra| | |apply dl_id]; intros; apply leaky_pos; lra.
  - unfold leaky_d. destruct Rlt_dec; [lra|]. split; [apply Rmin_l | apply Rmax_l].
Qed.

(** ** binary cross entropy *)
Lemma rlg_lin g thr x : robust_log_grad g thr x = g * robust_log_grad 1 thr x.
Proof. unfold robust_log_grad. ring. Qed.
Definition bce_d (w : R) (r : bool) (thr x t : R) : R :=
  if r then (- w * t) * robust_log_grad 1 thr x + (- (1 - t)) * - robust_log_grad 1 thr (1 - x)
  else (- w * t) * (1 / x) + (- (1 - t)) * - (1 / (1 - x)).
Lemma bce_val g w r thr x t :
  binary_cross_entropy_grad g w r thr x t = g * bce_d w r thr x t.
Proof.
  unfold binary_cross_entropy_grad, bce_d.
  destruct r; [rewrite (rlg_lin g thr x), (rlg_lin g thr (1 - x))|]; ring.
Qed.
Definition bce_log (r : bool) (thr y : R) : R := if r then robust_log thr y else ln y.
Lemma bce_eq w r thr x t : binary_cross_entropy w r thr x t =
  (- w * t) * bce_log r thr x + (- (1 - t)) * bce_log r thr (1 - x).
Proof. unfold binary_cross_entropy, bce_log. destruct r; ring. Qed.
Lemma dl_bce w (r : bool) thr x t :
  (if r then 0 < thr /\ x <> 0 /\ x <> 1 else 0 < x < 1) ->
  derivable_pt_lim (fun y => binary_cross_entropy w r thr y t) x (bce_d w r thr x t).
Proof.
  intros H.
  apply (dl_ext _ (fun y => (- w * t) * bce_log r thr y + (- (1 - t)) * bce_log r thr (1 - y)));
    [intros; apply bce_eq|].
  unfold bce_d. destruct r; cbn [bce_log].
  - destruct H as (Ht & H0 & H1).
    apply (derivable_pt_lim_plus (fun y => (- w * t) * robust_log thr y)
             (fun y => (- (1 - t)) * robust_log thr (1 - y))).
    + apply dl_scal. now apply dl_robust_log.
    + apply (dl_scal (fun y => robust_log thr (1 - y))).
      apply dl_refl. apply dl_robust_log; [auto|lra].
  - apply (derivable_pt_lim_plus (fun y => (- w * t) * ln y) (fun y => (- (1 - t)) * ln (1 - y))).
    + apply dl_scal. apply dl_ln. lra.
    + apply (dl_scal (fun y => ln (1 - y))). apply dl_refl. apply dl_ln. lra.
Qed.
Lemma between_bce w thr x t : 0 < thr ->
  between_sides (fun y => binary_cross_entropy w true thr y t) x (bce_d w true thr x t).
Proof.
  intros Ht.
  destruct (Req_EM_T x 0) as [->|N0].
  - apply (between_ext _ (fun y => (- w * t) * robust_log thr y + (- (1 - t)) * robust_log thr (1 - y)));
      [intros; apply (bce_eq w true)|].
    unfold bce_d. apply between_plus.
    + apply (between_scal (robust_log thr)). now apply between_robust_log.
    + apply (dl_scal (fun y => robust_log thr (1 - y))).
      apply dl_refl. apply dl_robust_log; [auto|lra].
  - destruct (Req_EM_T x 1) as [->|N1]; [|apply dl_between; now apply dl_bce].
    apply (between_ext _ (fun y => (- (1 - t)) * robust_log thr (1 - y) + (- w * t) * robust_log thr y)).
    { intros. rewrite bce_eq. cbn [bce_log]. ring. }
    unfold bce_d. rewrite Rplus_comm. apply between_plus.
    + apply (between_scal (fun y => robust_log thr (1 - y))). apply between_refl.
      now apply between_robust_log.
    + apply dl_scal. apply dl_robust_log; lra.
Qed.
Lemma log_sigmoid_eq r thr x : (r = true -> 0 < thr <= 1) -> log_sigmoid r thr x = - ln (1 + exp (- x)).
Proof.
  intros H.
  assert (E : log_sigmoid r thr x = Rmin 0 x - ln (1 + exp (- Rabs x))).
  { unfold log_sigmoid, np_minimum, np_abs, np_log1p. destruct r; [|reflexivity].
    pose proof (exp_pos (- Rabs x)). specialize (H eq_refl).
    rewrite robust_log_ge; rewrite Rabs_right; lra. }
  rewrite E. destruct (Rle_dec 0 x).
  - rewrite Rmin_left, Rabs_right by lra. lra.
  - rewrite Rmin_right, Rabs_left, Ropp_involutive by lra.
    pose proof (softplus_eq (- x)) as S. unfold softplus, np_log1p, np_abs, np_maximum in S.
    rewrite Rabs_right, Ropp_involutive, Rmax_left in S by lra. lra.
Qed.
Definition bcel_d (w x t : R) : R := (1 - t) + - ((w - 1) * t + 1) * (1 - sigmoid x).
Lemma bcel_val g w x t : binary_cross_entropy_with_logits_grad g w x t = g * bcel_d w x t.
Proof.
  unfold binary_cross_entropy_with_logits_grad, bcel_d. destruct Req_EM_T as [->|]; ring.
Qed.
Lemma bcel_eq w r thr x t : (r = true -> 0 < thr <= 1) ->
  binary_cross_entropy_with_logits w r thr x t
  = (1 - t) * x + - ((w - 1) * t + 1) * - ln (1 + exp (- x)).
Proof.
  intros H. unfold binary_cross_entropy_with_logits. rewrite log_sigmoid_eq by auto.
  destruct Req_EM_T as [->|]; ring.
Qed.
Lemma dl_bcel w r thr x t : (r = true -> 0 < thr <= 1) ->
  derivable_pt_lim (fun y => binary_cross_entropy_with_logits w r thr y t) x (bcel_d w x t).
Proof.
  intros H.
  apply (dl_ext _ (fun y => (1 - t) * y + - ((w - 1) * t + 1) * - ln (1 + exp (- y))));
    [intros; now apply bcel_eq|].
  unfold bcel_d. rewrite sigmoid_eq. pose proof (exp1p (- x)).
  by_auto; [lra|]. field. lra.
Qed.

(** ** Kullback-Leibler divergence, first argument *)
Lemma dl_kl thr x t : 0 < thr -> x <> 0 ->
  derivable_pt_lim (fun y => kl_divergence thr y t) x (- t * robust_log_grad 1 thr x).
Proof.
  intros Ht Hx. apply (dl_ext _ (fun y => t * robust_log thr t + (- t) * robust_log thr y)).
  { intros. unfold kl_divergence, kl_partial. ring. }
  eapply dl_eq.
  - apply (derivable_pt_lim_plus (fun _ => t * robust_log thr t)); [apply dl_const|].
    apply dl_scal. now apply dl_robust_log.
  - ring.
Qed.
Lemma between_kl thr x t : 0 < thr ->
  between_sides (fun y => kl_divergence thr y t) x (- t * robust_log_grad 1 thr x).
Proof.
  intros Ht. apply (between_ext _ (fun y => (- t) * robust_log thr y + t * robust_log thr t)).
  { intros. unfold kl_divergence, kl_partial. ring. }
  rewrite <- Rplus_0_r. apply between_plus; [|apply dl_const].
  apply between_scal. now apply between_robust_log.
Qed.

(** ** robust power *)
Lemma dl_near_lt k a c l : derivable_pt_lim k a l -> c < k a ->
  exists d, 0 < d /\ forall y, a - d < y < a + d -> c < k y.
Proof.
  intros H Hc. pose proof (derivable_continuous_pt k a (exist _ l H)) as C.
  destruct (C (k a - c)) as (d & pd & Hd); [lra|]. exists d. split; [exact pd|]. intros y Hy.
  destruct (Req_EM_T y a) as [->|N]; [exact Hc|].
  specialize (Hd y). cbn in Hd. unfold R_dist, D_x, no_cond in Hd.
  assert (K : Rabs (k y - k a) < k a - c).
  { apply Hd. split; [split; auto|]. apply Rabs_def1; lra. }
  apply Rabs_def2 in K. lra.
Qed.
Lemma dl_near_gt k a c l : derivable_pt_lim k a l -> k a < c ->
  exists d, 0 < d /\ forall y, a - d < y < a + d -> k y < c.
Proof.
  intros H Hc. destruct (dl_near_lt (fun y => -1 * k y) a (- c) (-1 * l)) as (d & pd & Hd).
  - now apply dl_scal.
  - lra.
  - exists d. split; [auto|]. intros y Hy. specialize (Hd y Hy). lra.
Qed.
Definition rp_bound (thr a : R) : R := 1 - ln thr / ln a.
Lemma dl_bound thr a : 0 < a -> a <> 1 -> exists l, derivable_pt_lim (rp_bound thr) a l.
Proof.
  intros H N. assert (ln a <> 0).
  { intros E. apply N. apply ln_inv; [auto|lra|]. now rewrite ln_1. }
  eexists. unfold rp_bound. by_auto; [auto|]. reflexivity.
Qed.
Definition rp_abs (thr a e : R) : R :=
  if (if Rlt_dec e (rp_bound thr a) then if Rlt_dec a thr then true else false else false)
  then (1 / thr) * a else np_power a e.
Definition rp_c (thr a e : R) : bool :=
  if Rlt_dec e (rp_bound thr a) then if Rlt_dec a thr then true else false else false.
Lemma rp_near thr a e : 0 < a ->
  (thr < a \/ (a < thr /\ a <> 1 /\ e <> rp_bound thr a)) ->
  exists d, 0 < d /\ forall y, a - d < y < a + d -> rp_c thr y e = rp_c thr a e.
Proof.
  intros Ha [H|(H & N & Hb)].
  - exists (a - thr). split; [lra|]. intros y Hy. unfold rp_c.
    repeat destruct Rlt_dec; auto; lra.
  - destruct (dl_bound thr a Ha N) as [l Hl]. unfold rp_c.
    destruct (Rlt_dec e (rp_bound thr a)) as [C|C].
    + destruct (dl_near_lt _ _ _ _ Hl C) as (d & pd & Hd). exists (Rmin d (thr - a)).
      split; [apply Rmin_glb_lt; lra|]. intros y Hy.
      pose proof (Rmin_l d (thr - a)). pose proof (Rmin_r d (thr - a)).
      specialize (Hd y ltac:(lra)). destruct (Rlt_dec e (rp_bound thr y)); [|lra].
      repeat destruct Rlt_dec; auto; lra.
    + destruct (dl_near_gt _ _ e _ Hl) as (d & pd & Hd); [lra|]. exists d. split; [auto|]. intros y Hy.
      specialize (Hd y Hy). destruct Rlt_dec; [lra|auto].
Qed.
Lemma dl_rp0 thr a e : 0 < thr -> a <> 0 ->
  (thr < Rabs a \/ (Rabs a < thr /\ Rabs a <> 1 /\ e <> rp_bound thr (Rabs a))) ->
  derivable_pt_lim (fun y => robust_power thr y e) a (robust_power_grad 0 1 thr a e).
Proof.
  intros Ht Ha H. pose proof (Rabs_pos_lt a Ha) as Hp.
  apply (dl_ext _ (fun y => (fun z => rp_abs thr z e) (np_abs y))); [reflexivity|].
  eapply dl_eq.
  - apply (dl_of_abs (fun z => rp_abs thr z e)); [exact Ha|].
    instantiate (1 := if rp_c thr (Rabs a) e then 1 / thr else e * np_power (Rabs a) (e - 1)).
    destruct (rp_near thr (Rabs a) e Hp H) as (d & pd & Hd).
    destruct (rp_c thr (Rabs a) e) eqn:C.
    + apply (dl_ext_loc _ (fun z => (1 / thr) * z) _ _ d); [auto| |apply dl_scale_id].
      intros y Hy. unfold rp_abs. specialize (Hd y Hy). unfold rp_c in Hd. now rewrite Hd.
    + apply (dl_ext_loc _ (fun z => np_power z e) _ _ d); [auto| |apply dl_power0; auto].
      intros y Hy. unfold rp_abs. specialize (Hd y Hy). unfold rp_c in Hd. now rewrite Hd.
  - unfold robust_power_grad, np_abs. change (robust_cond thr a e) with (rp_c thr (Rabs a) e).
    destruct rp_c; ring.
Qed.
Lemma dl_rp1 thr a e : 0 < thr -> a <> 0 ->
  (thr < Rabs a \/ (Rabs a < thr /\ Rabs a <> 1 /\ e <> rp_bound thr (Rabs a))) ->
  derivable_pt_lim (fun y => robust_power thr a y) e (robust_power_grad 1 1 thr a e).
Proof.
  intros Ht Ha H. pose proof (Rabs_pos_lt a Ha) as Hp.
  assert (HN : exists d, 0 < d /\ forall y, e - d < y < e + d -> robust_cond thr a y = robust_cond thr a e).
  { unfold robust_cond, np_abs. fold (rp_bound thr (Rabs a)). destruct H as [H|(H & N & Hb)].
    - exists 1. split; [lra|]. intros. repeat destruct Rlt_dec; auto; lra.
    - exists (Rabs (e - rp_bound thr (Rabs a))). split; [apply Rabs_pos_lt; lra|]. intros y Hy.
      set (B := rp_bound thr (Rabs a)) in *. clearbody B.
      destruct (Rlt_dec e B); [rewrite Rabs_left in Hy by lra | rewrite Rabs_right in Hy by lra];
        destruct (Rlt_dec y B); auto; lra. }
  destruct HN as (d & pd & Hd). unfold robust_power_grad, np_abs.
  destruct Req_EM_T; [lra|]. rewrite Rmult_1_r.
  destruct (robust_cond thr a e) eqn:C.
  - apply (dl_ext_loc _ (fun _ => (1 / thr) * Rabs a) _ _ d); [auto| |apply dl_const].
    intros y Hy. unfold robust_power. now rewrite (Hd y Hy).
  - apply (dl_ext_loc _ (fun t => np_power (Rabs a) t) _ _ d); [auto| |now apply dl_power1].
    intros y Hy. unfold robust_power. now rewrite (Hd y Hy).
Qed.
Lemma rp_lin idx g thr a e : robust_power_grad idx g thr a e = g * robust_power_grad idx 1 thr a e.
Proof. unfold robust_power_grad. destruct idx, robust_cond; try destruct Req_EM_T; ring. Qed.

(** ** All of them *)
Ltac toR := match goal with |- @eq _ ?a ?b => change (@eq R a b) end.
Lemma bgrad_deriv op idx g a b : bdomain op idx a b -> ~ bkink op idx a b ->
  exists v, bgrad op idx g (bfwd op a b) a b = Ok v /\
    derivable_pt_lim (fun y => g * section_at (bfwd op) idx a b y) (arg_at idx a b) v.
Proof.
  intros [Hi D] K.
  assert (S : forall d v, g * d = v ->
    derivable_pt_lim (section_at (bfwd op) idx a b) (arg_at idx a b) d ->
    derivable_pt_lim (fun y => g * section_at (bfwd op) idx a b y) (arg_at idx a b) v).
  { intros d v <-. apply dl_scal. }
  destruct op, Hi as [-> | ->]; cbn [bdomain bkink] in D, K; try (destruct D; discriminate);
    try discriminate;
    (eexists; split; [reflexivity|]; eapply S; cbn [section_at arg_at bfwd pick]).
  - apply Rmult_comm.
  - apply (dl_ext _ (fun y => y * b)); [reflexivity|]. by_auto; [auto|]. toR. ring.
  - apply Rmult_comm.
  - apply (dl_ext _ (fun y => a * y)); [reflexivity|]. by_auto; [auto|]. toR. ring.
  - instantiate (1 := / b). reflexivity.
  - apply (dl_ext _ (fun y => y / b)); [reflexivity|]. by_auto; [auto|]. toR. ring.
  - instantiate (1 := - a / b ^ 2). now field.
  - apply (dl_ext _ (fun y => a / y)); [reflexivity|]. by_auto; [auto|]. toR. now field.
  - apply Rmult_1_r.
  - apply (dl_ext _ (fun y => y + b)); [reflexivity|]. by_auto; [auto|]. toR. ring.
  - apply Rmult_1_r.
  - apply (dl_ext _ (fun y => a + y)); [reflexivity|]. by_auto; [auto|]. toR. ring.
  - apply Rmult_comm.
  - apply (dl_ext _ (fun y => y - b)); [reflexivity|]. by_auto; [auto|]. toR. ring.
  - apply Rmult_comm.
  - apply (dl_ext _ (fun y => a - y)); [reflexivity|]. by_auto; [auto|]. toR. ring.
  - instantiate (1 := 2 * (a - b)). ring.
  - apply (dl_ext _ (fun y => (y - b) ^ 2)); [reflexivity|]. by_auto; [auto|]. toR. ring.
  - instantiate (1 := - (2 * (a - b))). ring.
  - apply (dl_ext _ (fun y => (a - y) ^ 2)); [reflexivity|]. by_auto; [auto|]. toR. ring.
  - instantiate (1 := np_sign (a - b)). ring.
  - apply dl_shift, dl_abs. lra.
  - instantiate (1 := - np_sign (a - b)). ring.
  - apply dl_refl, dl_abs. lra.
  - instantiate (1 := b * np_power a (b - 1)). cbn [power_grad]. ring.
  - now apply dl_power0.
  - instantiate (1 := np_power a b * ln a). cbn [power_grad]. destruct Req_EM_T; [lra|ring].
  - now apply dl_power1.
  - symmetry. apply leaky_val0.
  - apply dl_leaky. tauto.
  - instantiate (1 := np_minimum 0 a). reflexivity.
  - apply (dl_ext _ (fun y => np_maximum 0 a + y * np_minimum 0 a)); [reflexivity|]. by_auto; [auto|]. toR. ring.
  - symmetry. now apply quantile_val.
  - cbn [pick]. apply (dl_eq _ _ (- pinball_d q (b - a))); [|ring].
    apply (dl_refl (pinball q)). apply dl_pinball. lra.
  - symmetry. now apply quantile_val.
  - cbn [pick]. rewrite Rmult_1_l. apply (dl_shift (pinball q)). apply dl_pinball. lra.
  - symmetry. apply hinge_val.
  - apply (dl_ext _ (fun y => Rmax 0 (1 + - b * y))).
    { intros. cbn [section_at bfwd]. unfold hinge_loss, base_hinge, np_maximum. f_equal. ring. }
    apply (dl_affine (Rmax 0)). apply dl_step. lra.
  - instantiate (1 := - b * (2 * Rmax 0 (1 + - b * a))).
    unfold quad_hinge_loss_grad, hinge_loss, base_hinge, np_maximum.
    replace (1 + - b * a) with (1 - b * a) by ring. ring.
  - apply (dl_ext _ (fun y => sq_max (1 + - b * y))).
    { intros. cbn [section_at bfwd]. unfold quad_hinge_loss, hinge_loss, base_hinge, np_maximum, sq_max. do 2 f_equal. ring. }
    apply (dl_affine sq_max). apply dl_sq_max.
  - symmetry. apply bce_val.
  - apply dl_bce. destruct D as [_ D]. destruct robust; tauto.
  - symmetry. apply bcel_val.
  - apply dl_bcel. tauto.
  - instantiate (1 := - b * robust_log_grad 1 thr a). unfold kl_divergence_grad. cbn [pick].
    rewrite (rlg_lin g). ring.
  - apply dl_kl; tauto.
  - symmetry. apply rp_lin.
  - apply dl_rp0; tauto.
  - symmetry. apply rp_lin.
  - apply dl_rp1; tauto.
Qed.
Lemma bgrad_between op idx g a b : bdomain op idx a b ->
  exists v, bgrad op idx g (bfwd op a b) a b = Ok v /\
    between_sides (fun y => g * section_at (bfwd op) idx a b y) (arg_at idx a b) v.
Proof.
  intros HD.
  assert (N : ~ bkink op idx a b -> exists v, bgrad op idx g (bfwd op a b) a b = Ok v /\
    between_sides (fun y => g * section_at (bfwd op) idx a b y) (arg_at idx a b) v).
  { intros K. destruct (bgrad_deriv op idx g a b HD K) as (v & E & H). exists v. split; [exact E|].
    now apply dl_between. }
  assert (S : forall d v, g * d = v ->
    between_sides (section_at (bfwd op) idx a b) (arg_at idx a b) d ->
    between_sides (fun y => g * section_at (bfwd op) idx a b y) (arg_at idx a b) v).
  { intros d v <-. apply between_scal. }
  destruct op; try (apply N; cbn; tauto).
  - clear N. destruct HD as [[-> | ->] D]; eexists; (split; [reflexivity|]); eapply S;
      cbn [section_at arg_at bfwd pick].
    + instantiate (1 := np_sign (a - b)). ring.
    + apply between_shift, between_abs.
    + instantiate (1 := - np_sign (a - b)). ring.
    + apply between_refl, between_abs.
  - destruct HD as [[-> | ->] D]; [|apply N; cbn; intros [? ?]; discriminate].
    eexists; split; [reflexivity|]. eapply S; cbn [section_at arg_at bfwd].
    + symmetry. apply leaky_val0.
    + apply between_leaky.
  - destruct HD as [[-> | ->] D]; eexists; (split; [reflexivity|]); eapply S;
      cbn [section_at arg_at bfwd].
    + symmetry. now apply quantile_val.
    + cbn [pick]. replace (-1 * pinball_d q (b - a)) with (- pinball_d q (b - a)) by ring.
      apply (between_refl (pinball q)). apply between_pinball.
    + symmetry. now apply quantile_val.
    + cbn [pick]. rewrite Rmult_1_l. apply (between_shift (pinball q)). apply between_pinball.
  - destruct HD as [_ D]. cbn in D. subst idx.
    eexists; split; [reflexivity|]. eapply S; cbn [section_at arg_at bfwd].
    + symmetry. apply hinge_val.
    + apply (between_ext _ (fun y => Rmax 0 (1 + - b * y))).
      { intros. cbn [section_at bfwd]. unfold hinge_loss, base_hinge, np_maximum. f_equal. ring. }
      apply (between_affine (Rmax 0)). apply between_step.
  - destruct HD as [_ D]. cbn in D. destruct D as [-> D]. destruct robust; [|apply N; cbn; tauto].
    eexists; split; [reflexivity|]. eapply S; cbn [section_at arg_at bfwd].
    + symmetry. apply bce_val.
    + now apply between_bce.
  - destruct HD as [_ D]. cbn in D. destruct D as [-> D].
    eexists; split; [reflexivity|]. eapply S; cbn [section_at arg_at bfwd].
    + instantiate (1 := - b * robust_log_grad 1 thr a). unfold kl_divergence_grad. cbn [pick].
      rewrite (rlg_lin g). ring.
    + now apply between_kl.
Qed.
