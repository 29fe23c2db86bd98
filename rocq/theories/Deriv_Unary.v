(** * The operations of one array *)
From Coq Require Import Reals List ZArith Lra Lia.
From Coquelicot Require Import Coquelicot.
From Verif Require Import PyBase Deriv_Model Deriv_Spec Deriv_Proofs.
Import ListNotations.
Open Scope R_scope.

(** ** robust_log *)
Definition rl_in (thr a : R) : R := ln thr + a / thr - 1.
Definition rl_abs (thr a : R) : R := if Rlt_dec a thr then rl_in thr a else ln a.
Lemma dl_rl_in thr a : 0 < thr -> derivable_pt_lim (rl_in thr) a (1 / thr).
Proof. intros. unfold rl_in. by_auto; [auto|]. field. lra. Qed.
Lemma dl_ln a : 0 < a -> derivable_pt_lim ln a (1 / a).
Proof. intros. by_auto; [lra|]. field. lra. Qed.
Lemma rl_abs_lt thr a : a < thr -> rl_abs thr a = rl_in thr a.
Proof. unfold rl_abs. destruct Rlt_dec; lra. Qed.
Lemma rl_abs_ge thr a : thr <= a -> rl_abs thr a = ln a.
Proof. unfold rl_abs. destruct Rlt_dec; lra. Qed.
Lemma rl_abs_thr thr : 0 < thr -> rl_in thr thr = ln thr.
Proof. intros. unfold rl_in. field_simplify; [|lra]. field. Qed.
Lemma dl_rl_abs thr a : 0 < thr -> 0 < a ->
  derivable_pt_lim (rl_abs thr) a (if Rlt_dec a thr then 1 / thr else 1 / a).
Proof.
  intros Ht Ha. destruct Rlt_dec as [C|C].
  - apply (dl_ext_loc _ (rl_in thr) a _ (thr - a)); [lra| |now apply dl_rl_in].
    intros. apply rl_abs_lt. lra.
  - destruct (Req_EM_T a thr) as [->|N].
    + apply sides_dl.
      * apply (left_ext _ (rl_in thr) thr _ 1); [lra| | |now apply dl_rl_in].
        -- now rewrite rl_abs_ge, rl_abs_thr by lra.
        -- intros. apply rl_abs_lt. lra.
      * apply (right_ext _ ln thr _ 1); [lra| | |now apply dl_ln].
        -- apply rl_abs_ge. lra.
        -- intros. apply rl_abs_ge. lra.
    + apply (dl_ext_loc _ ln a _ (a - thr)); [lra| |now apply dl_ln].
      intros. apply rl_abs_ge. lra.
Qed.
Lemma dl_robust_log thr x : 0 < thr -> x <> 0 ->
  derivable_pt_lim (robust_log thr) x (robust_log_grad 1 thr x).
Proof.
  intros Ht Hx. apply (dl_ext _ (fun y => rl_abs thr (np_abs y))); [reflexivity|].
  eapply dl_eq; [apply dl_of_abs; [exact Hx|]; apply dl_rl_abs; [lra|]; now apply Rabs_pos_lt|].
  unfold robust_log_grad, np_abs. destruct (Rlt_dec x 0).
  - rewrite sign_neg by lra. destruct Rlt_dec; lra.
  - rewrite sign_pos by lra. destruct Rlt_dec; lra.
Qed.
Lemma robust_log_lt thr x : Rabs x < thr -> robust_log thr x = ln thr + Rabs x / thr - 1.
Proof. intros. unfold robust_log, np_abs. destruct Rlt_dec; lra. Qed.
Lemma robust_log_ge thr x : thr <= Rabs x -> robust_log thr x = ln (Rabs x).
Proof. intros. unfold robust_log, np_abs. destruct Rlt_dec; lra. Qed.
Lemma between_robust_log thr x : 0 < thr ->
  between_sides (robust_log thr) x (robust_log_grad 1 thr x).
Proof.
  intros Ht. destruct (Req_EM_T x 0) as [->|Hx]; [|apply dl_between, dl_robust_log; auto].
  exists (- (1 / thr)), (1 / thr). assert (0 < 1 / thr) by (apply Rdiv_lt_0_compat; lra).
  split; [|split].
  - apply (left_ext _ (fun y => ln thr + (- y) / thr - 1) 0 _ thr); [lra| | |].
    + rewrite robust_log_lt; rewrite Rabs_R0; lra.
    + intros. rewrite robust_log_lt; rewrite Rabs_left; lra.
    + by_auto; [auto|]. field. lra.
  - apply (right_ext _ (fun y => ln thr + y / thr - 1) 0 _ thr); [lra| | |].
    + rewrite robust_log_lt; rewrite Rabs_R0; lra.
    + intros. rewrite robust_log_lt; rewrite Rabs_right; lra.
    + by_auto; [auto|]. field. lra.
  - rewrite Rmin_left, Rmax_right by lra. unfold robust_log_grad, np_abs. rewrite Rabs_R0.
    repeat destruct Rlt_dec; lra.
Qed.

(** ** robust_sqrt *)
Lemma rsqrt_lt thr x : Rabs x < thr -> robust_sqrt thr x = Rabs x * (1 / sqrt thr).
Proof. intros. unfold robust_sqrt, np_abs, np_reciprocal. destruct Rlt_dec; lra. Qed.
Lemma rsqrt_ge thr x : thr <= Rabs x -> robust_sqrt thr x = sqrt (Rabs x).
Proof. intros. unfold robust_sqrt, np_abs. destruct Rlt_dec; lra. Qed.
Lemma dl_sqrt x : 0 < x -> derivable_pt_lim sqrt x (1 / 2 * (1 / sqrt x)).
Proof.
  intros. pose proof (sqrt_lt_R0 x H). by_auto; [lra|]. field. lra.
Qed.
Lemma sqrt_nz x : 0 < x -> 0 < sqrt x.
Proof. apply sqrt_lt_R0. Qed.
Lemma rsqrt_thr thr : 0 < thr -> thr * (1 / sqrt thr) = sqrt thr.
Proof.
  intros H. pose proof (sqrt_nz _ H). rewrite <- (sqrt_sqrt thr) at 1 by lra. field. lra.
Qed.
Lemma dl_robust_sqrt thr x : 0 < thr -> x <> 0 -> Rabs x <> thr ->
  derivable_pt_lim (robust_sqrt thr) x (robust_sqrt_grad 1 (robust_sqrt thr x) thr x).
Proof.
  intros Ht Hx Hk.
  apply (dl_eq _ _ (np_sign x * (if Rlt_dec (Rabs x) thr then 1 / sqrt thr
                                 else 1 / 2 * (1 / sqrt (Rabs x))))).
  - apply (dl_ext _ (fun y => (fun a => if Rlt_dec a thr then a * (1 / sqrt thr) else sqrt a) (np_abs y)));
      [reflexivity|].
    apply (dl_of_abs (fun a => if Rlt_dec a thr then a * (1 / sqrt thr) else sqrt a)); [exact Hx|].
    pose proof (Rabs_pos_lt x Hx). set (a := Rabs x) in *. clearbody a.
    destruct Rlt_dec as [C|C].
    + apply (dl_ext_loc _ (fun a => a * (1 / sqrt thr)) a _ (thr - a)); [lra| |].
      * intros. destruct Rlt_dec; lra.
      * by_auto; [auto|]. ring.
    + apply (dl_ext_loc _ sqrt a _ (a - thr)); [lra| |now apply dl_sqrt].
      intros. destruct Rlt_dec; lra.
  - unfold robust_sqrt_grad, np_abs, np_reciprocal. destruct Rlt_dec as [C|C]; [lra|].
    rewrite rsqrt_ge by lra. lra.
Qed.
Lemma between_robust_sqrt thr x : 0 < thr ->
  between_sides (robust_sqrt thr) x (robust_sqrt_grad 1 (robust_sqrt thr x) thr x).
Proof.
  intros Ht. pose proof (sqrt_nz _ Ht) as Hs.
  assert (Hi : 0 < 1 / sqrt thr) by (apply Rdiv_lt_0_compat; lra).
  destruct (Req_EM_T x 0) as [->|Hx].
  { exists (- (1 / sqrt thr)), (1 / sqrt thr). split; [|split].
    - apply (left_ext _ (fun y => (- y) * (1 / sqrt thr)) 0 _ thr); [lra| | |].
      + rewrite rsqrt_lt; rewrite Rabs_R0; lra.
      + intros. rewrite rsqrt_lt; rewrite Rabs_left; lra.
      + by_auto; [auto|]. ring.
    - apply (right_ext _ (fun y => y * (1 / sqrt thr)) 0 _ thr); [lra| | |].
      + rewrite rsqrt_lt; rewrite Rabs_R0; lra.
      + intros. rewrite rsqrt_lt; rewrite Rabs_right; lra.
      + by_auto; [auto|]. ring.
    - rewrite Rmin_left, Rmax_right by lra. unfold robust_sqrt_grad. rewrite sign_0. lra. }
  destruct (Req_EM_T (Rabs x) thr) as [E|N]; [|now apply dl_between, dl_robust_sqrt].
  assert (V : robust_sqrt_grad 1 (robust_sqrt thr x) thr x = np_sign x * (1 / 2 * (1 / sqrt thr))).
  { unfold robust_sqrt_grad, np_abs. destruct Rlt_dec; [lra|]. rewrite rsqrt_ge, E by lra. lra. }
  rewrite V. destruct (Rlt_dec 0 x) as [P|P].
  - rewrite Rabs_right in E by lra. subst thr. rewrite sign_pos by lra.
    exists (1 / sqrt x), (1 / 2 * (1 / sqrt x)). split; [|split].
    + apply (left_ext _ (fun y => y * (1 / sqrt x)) x _ x); [lra| | |].
      * rewrite rsqrt_ge; rewrite Rabs_right by lra; [|lra]. now rewrite rsqrt_thr.
      * intros. rewrite rsqrt_lt; rewrite Rabs_right; lra.
      * by_auto; [auto|]. ring.
    + apply (right_ext _ sqrt x _ x); [lra| | |now apply dl_sqrt].
      * rewrite rsqrt_ge; rewrite Rabs_right; lra.
      * intros. rewrite rsqrt_ge; rewrite Rabs_right; lra.
    + rewrite Rmin_right, Rmax_left by lra. lra.
  - assert (Q : x < 0) by lra. rewrite Rabs_left in E by lra. rewrite sign_neg by lra.
    assert (Ex : x = - thr) by lra. subst x. clear E V.
    exists (- (1 / 2 * (1 / sqrt thr))), (- (1 / sqrt thr)). split; [|split].
    + apply (left_ext _ (fun y => sqrt (- y)) (- thr) _ thr); [lra| | |].
      * rewrite rsqrt_ge; rewrite Rabs_left; lra.
      * intros. rewrite rsqrt_ge; rewrite Rabs_left; lra.
      * by_auto; [lra|]. rewrite Ropp_involutive. field. lra.
    + apply (right_ext _ (fun y => (- y) * (1 / sqrt thr)) (- thr) _ thr); [lra| | |].
      * rewrite rsqrt_ge; rewrite Rabs_left by lra; [|lra]. rewrite Ropp_involutive.
        now rewrite rsqrt_thr.
      * intros. rewrite rsqrt_lt; rewrite Rabs_left; lra.
      * by_auto; [auto|]. ring.
    + rewrite Rmin_right, Rmax_left by lra. lra.
Qed.

(** ** stable_reciprocal *)
Lemma rec_in_pos thr x : 0 < x -> x < thr ->
  stable_reciprocal thr x = 2 / thr - x / (thr * thr).
Proof.
  intros. unfold stable_reciprocal, np_abs, np_reciprocal, np_square. rewrite Rabs_right by lra.
  destruct Rlt_dec; [|lra]. rewrite sign_pos by lra. field. lra.
Qed.
Lemma rec_in_neg thr x : x < 0 -> - x < thr ->
  stable_reciprocal thr x = - (2 / thr) - x / (thr * thr).
Proof.
  intros. unfold stable_reciprocal, np_abs, np_reciprocal, np_square. rewrite Rabs_left by lra.
  destruct Rlt_dec; [|lra]. rewrite sign_neg, sign_pos by lra. field. lra.
Qed.
Lemma rec_out thr x : thr <= Rabs x -> stable_reciprocal thr x = 1 / x.
Proof. intros. unfold stable_reciprocal, np_abs. destruct Rlt_dec; [lra|reflexivity]. Qed.
Lemma dl_inv x : x <> 0 -> derivable_pt_lim (fun y => 1 / y) x (-1 / (x * x)).
Proof. intros. by_auto; [auto|]. now field. Qed.
Lemma dl_lin a b x : derivable_pt_lim (fun y => a - y / b) x (- (1 / b)).
Proof. by_auto; [auto|]. unfold Rdiv. ring. Qed.
Lemma dl_reciprocal thr x : 0 < thr -> x <> 0 ->
  derivable_pt_lim (stable_reciprocal thr) x (stable_reciprocal_grad 1 thr x).
Proof.
  intros Ht Hx. unfold stable_reciprocal_grad, np_abs, np_square. rewrite Rmult_1_r.
  assert (HP : 0 < x \/ x < 0) by lra. destruct Rlt_dec as [C|C].
  - destruct HP as [P|P].
    + rewrite Rabs_right in C by lra.
      apply (dl_ext_loc _ (fun y => 2 / thr - y / (thr * thr)) x _ (Rmin x (thr - x))).
      * apply Rmin_glb_lt; lra.
      * intros. pose proof (Rmin_l x (thr - x)). pose proof (Rmin_r x (thr - x)).
        apply rec_in_pos; lra.
      * apply dl_lin.
    + rewrite Rabs_left in C by lra.
      apply (dl_ext_loc _ (fun y => - (2 / thr) - y / (thr * thr)) x _ (Rmin (- x) (thr + x))).
      * apply Rmin_glb_lt; lra.
      * intros. pose proof (Rmin_l (- x) (thr + x)). pose proof (Rmin_r (- x) (thr + x)).
        apply rec_in_neg; lra.
      * apply dl_lin.
  - destruct (Req_EM_T (Rabs x) thr) as [E|N].
    + destruct HP as [P|P].
      * rewrite Rabs_right in E by lra. subst thr. apply sides_dl.
        -- apply (left_ext _ (fun y => 2 / x - y / (x * x)) x _ x); [lra| | |].
           ++ rewrite rec_out by (rewrite Rabs_right; lra). field. lra.
           ++ intros. apply rec_in_pos; lra.
           ++ eapply dl_eq; [apply dl_lin|]. field. lra.
        -- apply (right_ext _ (fun y => 1 / y) x _ 1); [lra| | |now apply dl_inv].
           ++ apply rec_out. rewrite Rabs_right; lra.
           ++ intros. apply rec_out. rewrite Rabs_right; lra.
      * rewrite Rabs_left in E by lra. apply sides_dl.
        -- apply (left_ext _ (fun y => 1 / y) x _ 1); [lra| | |now apply dl_inv].
           ++ apply rec_out. rewrite Rabs_left; lra.
           ++ intros. apply rec_out. rewrite Rabs_left; lra.
        -- apply (right_ext _ (fun y => - (2 / thr) - y / (thr * thr)) x _ (- x)); [lra| | |].
           ++ rewrite rec_out by (rewrite Rabs_left; lra). subst thr. field. lra.
           ++ intros. apply rec_in_neg; lra.
           ++ eapply dl_eq; [apply dl_lin|]. subst thr. field. lra.
    + destruct HP as [P|P].
      * rewrite Rabs_right in C, N by lra.
        apply (dl_ext_loc _ (fun y => 1 / y) x _ (x - thr)); [lra| |now apply dl_inv].
        intros. apply rec_out. rewrite Rabs_right; lra.
      * rewrite Rabs_left in C, N by lra.
        apply (dl_ext_loc _ (fun y => 1 / y) x _ (- x - thr)); [lra| |now apply dl_inv].
        intros. apply rec_out. rewrite Rabs_left; lra.
Qed.

(** ** relu, sign *)
Lemma relu_val x : relu_grad 1 x = if Rlt_dec 0 x then 1 else 0.
Proof. unfold relu_grad. repeat (destruct Rlt_dec || destruct Rle_dec); lra. Qed.
Lemma dl_max0 x : x <> 0 -> derivable_pt_lim (Rmax 0) x (if Rlt_dec 0 x then 1 else 0).
Proof.
  intros Hx. destruct Rlt_dec.
  - apply (dl_ext_loc _ (fun y => y) x _ x); [lra| |apply dl_id]. intros. apply Rmax_right. lra.
  - apply (dl_ext_loc _ (fun _ => 0) x _ (- x)); [lra| |apply dl_const]. intros. apply Rmax_left. lra.
Qed.
Lemma dl_min0 x : x <> 0 -> derivable_pt_lim (Rmin 0) x (if Rlt_dec 0 x then 0 else 1).
Proof.
  intros Hx. destruct Rlt_dec.
  - apply (dl_ext_loc _ (fun _ => 0) x _ x); [lra| |apply dl_const]. intros. apply Rmin_left. lra.
  - apply (dl_ext_loc _ (fun y => y) x _ (- x)); [lra| |apply dl_id]. intros. apply Rmin_right. lra.
Qed.
Lemma left_max0 : left_derivative (Rmax 0) 0 0.
Proof.
  apply (left_ext _ (fun _ => 0) 0 _ 1); [lra| | |apply dl_const]; intros; apply Rmax_left; lra.
Qed.
Lemma right_max0 : right_derivative (Rmax 0) 0 1.
Proof.
  apply (right_ext _ (fun y => y) 0 _ 1); [lra| | |apply dl_id]; intros; apply Rmax_right; lra.
Qed.
Lemma left_min0 : left_derivative (Rmin 0) 0 1.
Proof.
  apply (left_ext _ (fun y => y) 0 _ 1); [lra| | |apply dl_id]; intros; apply Rmin_right; lra.
Qed.
Lemma right_min0 : right_derivative (Rmin 0) 0 0.
Proof.
  apply (right_ext _ (fun _ => 0) 0 _ 1); [lra| | |apply dl_const]; intros; apply Rmin_left; lra.
Qed.
Lemma dl_np_sign x : x <> 0 -> derivable_pt_lim np_sign x 0.
Proof.
  intros Hx. destruct (Rlt_dec 0 x).
  - apply (dl_ext_loc _ (fun _ => 1) x _ x); [lra| |apply dl_const]. intros. apply sign_pos. lra.
  - apply (dl_ext_loc _ (fun _ => -1) x _ (- x)); [lra| |apply dl_const]. intros. apply sign_neg. lra.
Qed.

(** ** All of them *)
Lemma ugrad_lin op g out x : ugrad op g out x = g * ugrad op 1 out x.
Proof.
  destruct op; cbn [ugrad]; unfold relu_grad, gelu_grad, robust_sqrt_grad, robust_log_grad,
    stable_reciprocal_grad; try destruct approximate; ring.
Qed.
Lemma ugrad_deriv1 op x : udomain op x -> ~ ukink op x ->
  derivable_pt_lim (ufwd op) x (ugrad op 1 (ufwd op x) x).
Proof.
  destruct op; cbn [udomain ukink ufwd ugrad]; intros D K.
  - by_auto; [auto|]. ring.
  - eapply dl_eq; [now apply dl_sqrt|]. ring.
  - by_auto; [auto|]. ring.
  - by_auto; [auto|]. ring.
  - rewrite Rmult_1_r. now apply dl_abs.
  - now apply dl_np_sign.
  - eapply dl_eq; [now apply dl_ln|]. ring.
  - rewrite relu_val. now apply dl_max0.
  - eapply dl_eq; [apply dl_tanh|]. ring.
  - eapply dl_eq; [apply dl_sigmoid|]. ring.
  - eapply dl_eq; [apply dl_softplus|]. ring.
  - apply dl_gelu.
  - by_auto; [auto|]. ring.
  - apply dl_opp.
  - apply dl_id.
  - apply dl_robust_sqrt; tauto.
  - now apply dl_robust_log.
  - now apply dl_reciprocal.
Qed.
Lemma ugrad_between1 op x : udomain op x ->
  between_sides (ufwd op) x (ugrad op 1 (ufwd op x) x).
Proof.
  intros D.
  destruct op; try (apply dl_between, ugrad_deriv1; [exact D | cbn; tauto]);
    cbn [udomain ufwd ugrad] in *.
  - rewrite Rmult_1_r. apply between_abs.
  - rewrite relu_val. destruct (Req_EM_T x 0) as [->|N]; [|now apply dl_between, dl_max0].
    exists 0, 1. split; [apply left_max0|]. split; [apply right_max0|].
    rewrite Rmin_left, Rmax_right by lra. destruct Rlt_dec; lra.
  - now apply between_robust_sqrt.
  - now apply between_robust_log.
Qed.
Lemma ugrad_deriv op g x : udomain op x -> ~ ukink op x ->
  derivable_pt_lim (fun y => g * ufwd op y) x (ugrad op g (ufwd op x) x).
Proof. intros D K. rewrite ugrad_lin. apply dl_scal. now apply ugrad_deriv1. Qed.
Lemma ugrad_between op g x : udomain op x ->
  between_sides (fun y => g * ufwd op y) x (ugrad op g (ufwd op x) x).
Proof. intros D. rewrite ugrad_lin. apply between_scal. now apply ugrad_between1. Qed.
