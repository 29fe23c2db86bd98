(** * Calculus for the gradient functions *)
From Coq Require Import Reals List ZArith Lra Lia.
From Coquelicot Require Import Coquelicot.
From Verif Require Import PyBase Deriv_Model Deriv_Spec.
Import ListNotations.
Open Scope R_scope.

(** ** One-sided derivatives *)
Lemma dl_right f x l : derivable_pt_lim f x l -> right_derivative f x l.
Proof.
  intros H eps He. destruct (H eps He) as [d Hd]. exists d. split; [apply cond_pos|].
  intros h [h1 h2]. apply Hd; [lra|]. rewrite Rabs_right; lra.
Qed.
Lemma dl_left f x l : derivable_pt_lim f x l -> left_derivative f x l.
Proof.
  intros H eps He. destruct (H eps He) as [d Hd]. exists d. split; [apply cond_pos|].
  intros h [h1 h2]. apply Hd; [lra|]. rewrite Rabs_left; lra.
Qed.
Lemma sides_dl f x l : left_derivative f x l -> right_derivative f x l -> derivable_pt_lim f x l.
Proof.
  intros HL HR eps He. destruct (HL eps He) as (d1 & p1 & H1). destruct (HR eps He) as (d2 & p2 & H2).
  assert (p : 0 < Rmin d1 d2) by (apply Rmin_glb_lt; lra).
  exists (mkposreal _ p). cbn. intros h h0 hb.
  pose proof (Rmin_l d1 d2). pose proof (Rmin_r d1 d2).
  destruct (Rlt_dec 0 h).
  - rewrite Rabs_right in hb by lra. apply H2. lra.
  - assert (h < 0) by lra. rewrite Rabs_left in hb by lra. apply H1. lra.
Qed.
Lemma right_ext f k x l d : 0 < d -> f x = k x -> (forall y, x < y < x + d -> f y = k y) ->
  derivable_pt_lim k x l -> right_derivative f x l.
Proof.
  intros Hd H0 H HK eps He. destruct (dl_right _ _ _ HK eps He) as (e & pe & He').
  exists (Rmin d e). split; [apply Rmin_glb_lt; lra|]. intros h [h1 h2].
  pose proof (Rmin_l d e). pose proof (Rmin_r d e).
  rewrite H0, H by lra. apply He'. lra.
Qed.
Lemma left_ext f k x l d : 0 < d -> f x = k x -> (forall y, x - d < y < x -> f y = k y) ->
  derivable_pt_lim k x l -> left_derivative f x l.
Proof.
  intros Hd H0 H HK eps He. destruct (dl_left _ _ _ HK eps He) as (e & pe & He').
  exists (Rmin d e). split; [apply Rmin_glb_lt; lra|]. intros h [h1 h2].
  pose proof (Rmin_l d e). pose proof (Rmin_r d e).
  rewrite H0, H by lra. apply He'. lra.
Qed.
Lemma dl_ext_loc f k x l d : 0 < d -> (forall y, x - d < y < x + d -> f y = k y) ->
  derivable_pt_lim k x l -> derivable_pt_lim f x l.
Proof.
  intros Hd H HK. apply sides_dl.
  - apply (left_ext f k x l d); auto; [apply H; lra | intros; apply H; lra].
  - apply (right_ext f k x l d); auto; [apply H; lra | intros; apply H; lra].
Qed.
Lemma dl_ext f k x l : (forall y, f y = k y) -> derivable_pt_lim k x l -> derivable_pt_lim f x l.
Proof. intros H. apply (dl_ext_loc f k x l 1); auto. lra. Qed.
Lemma dl_eq f x l l' : derivable_pt_lim f x l -> l = l' -> derivable_pt_lim f x l'.
Proof. now intros H <-. Qed.
Lemma dl_scal f x l g : derivable_pt_lim f x l -> derivable_pt_lim (fun y => g * f y) x (g * l).
Proof. apply derivable_pt_lim_scal. Qed.
Lemma dl_between f x v : derivable_pt_lim f x v -> between_sides f x v.
Proof.
  intros H. exists v, v. repeat split; [now apply dl_left | now apply dl_right | |].
  - rewrite Rmin_left; lra.
  - rewrite Rmax_left; lra.
Qed.

Lemma right_scal f x l g : right_derivative f x l -> right_derivative (fun y => g * f y) x (g * l).
Proof.
  intros H eps He. destruct (H (eps / (Rabs g + 1))) as (d & pd & Hd).
  { apply Rdiv_lt_0_compat; [lra|]. pose proof (Rabs_pos g). lra. }
  exists d. split; [auto|]. intros h hb. specialize (Hd h hb).
  replace ((g * f (x + h) - g * f x) / h - g * l) with (g * ((f (x + h) - f x) / h - l)) by (field; lra).
  rewrite Rabs_mult. pose proof (Rabs_pos g).
  set (u := Rabs ((f (x + h) - f x) / h - l)) in *.
  assert (0 <= u) by apply Rabs_pos.
  apply Rle_lt_trans with ((Rabs g) * (eps / (Rabs g + 1))).
  - apply Rmult_le_compat_l; lra.
  - apply Rmult_lt_reg_r with (Rabs g + 1); [lra|].
    replace (Rabs g * (eps / (Rabs g + 1)) * (Rabs g + 1)) with (Rabs g * eps) by (field; lra). nra.
Qed.
Lemma left_scal f x l g : left_derivative f x l -> left_derivative (fun y => g * f y) x (g * l).
Proof.
  intros H eps He. destruct (H (eps / (Rabs g + 1))) as (d & pd & Hd).
  { apply Rdiv_lt_0_compat; [lra|]. pose proof (Rabs_pos g). lra. }
  exists d. split; [auto|]. intros h hb. specialize (Hd h hb).
  replace ((g * f (x + h) - g * f x) / h - g * l) with (g * ((f (x + h) - f x) / h - l)) by (field; lra).
  rewrite Rabs_mult. pose proof (Rabs_pos g).
  set (u := Rabs ((f (x + h) - f x) / h - l)) in *.
  assert (0 <= u) by apply Rabs_pos.
  apply Rle_lt_trans with ((Rabs g) * (eps / (Rabs g + 1))).
  - apply Rmult_le_compat_l; lra.
  - apply Rmult_lt_reg_r with (Rabs g + 1); [lra|].
    replace (Rabs g * (eps / (Rabs g + 1)) * (Rabs g + 1)) with (Rabs g * eps) by (field; lra). nra.
Qed.
Lemma right_plus f k x l m : right_derivative f x l -> right_derivative k x m ->
  right_derivative (fun y => f y + k y) x (l + m).
Proof.
  intros H K eps He. destruct (H (eps / 2)) as (d & pd & Hd); [lra|].
  destruct (K (eps / 2)) as (e & pe & Ke); [lra|].
  exists (Rmin d e). split; [apply Rmin_glb_lt; lra|]. intros h hb.
  pose proof (Rmin_l d e). pose proof (Rmin_r d e).
  replace ((f (x + h) + k (x + h) - (f x + k x)) / h - (l + m))
    with (((f (x + h) - f x) / h - l) + ((k (x + h) - k x) / h - m)) by (field; lra).
  eapply Rle_lt_trans; [apply Rabs_triang|].
  specialize (Hd h ltac:(lra)). specialize (Ke h ltac:(lra)). lra.
Qed.
Lemma left_plus f k x l m : left_derivative f x l -> left_derivative k x m ->
  left_derivative (fun y => f y + k y) x (l + m).
Proof.
  intros H K eps He. destruct (H (eps / 2)) as (d & pd & Hd); [lra|].
  destruct (K (eps / 2)) as (e & pe & Ke); [lra|].
  exists (Rmin d e). split; [apply Rmin_glb_lt; lra|]. intros h hb.
  pose proof (Rmin_l d e). pose proof (Rmin_r d e).
  replace ((f (x + h) + k (x + h) - (f x + k x)) / h - (l + m))
    with (((f (x + h) - f x) / h - l) + ((k (x + h) - k x) / h - m)) by (field; lra).
  eapply Rle_lt_trans; [apply Rabs_triang|].
  specialize (Hd h ltac:(lra)). specialize (Ke h ltac:(lra)). lra.
Qed.
Lemma between_scal f x v g : between_sides f x v -> between_sides (fun y => g * f y) x (g * v).
Proof.
  intros (l & r & HL & HR & H1 & H2). exists (g * l), (g * r).
  split; [now apply left_scal|]. split; [now apply right_scal|].
  assert (C : l <= v <= r \/ r <= v <= l)
    by (revert H1 H2; unfold Rmin, Rmax; repeat destruct Rle_dec; intros; lra).
  assert (D : g * l <= g * v <= g * r \/ g * r <= g * v <= g * l).
  { destruct (Rle_dec 0 g).
    - destruct C as [[C1 C2]|[C1 C2]]; [left | right]; split; apply Rmult_le_compat_l; lra.
    - destruct C as [[C1 C2]|[C1 C2]]; [right | left]; split; apply Rmult_le_compat_neg_l; lra. }
  unfold Rmin, Rmax. repeat destruct Rle_dec; lra.
Qed.
Lemma between_plus f k x v w : between_sides f x v -> derivable_pt_lim k x w ->
  between_sides (fun y => f y + k y) x (v + w).
Proof.
  intros (l & r & HL & HR & H1 & H2) HK. exists (l + w), (r + w).
  split; [apply left_plus; [auto | now apply dl_left]|].
  split; [apply right_plus; [auto | now apply dl_right]|].
  revert H1 H2. unfold Rmin, Rmax. repeat destruct Rle_dec; intros; lra.
Qed.
Lemma between_ext f k x v : (forall y, f y = k y) -> between_sides k x v -> between_sides f x v.
Proof.
  intros E (l & r & HL & HR & H). exists l, r. split; [|split; [|exact H]].
  - intros eps He. destruct (HL eps He) as (d & pd & Hd). exists d. split; [auto|]. intros h hb.
    rewrite !E. auto.
  - intros eps He. destruct (HR eps He) as (d & pd & Hd). exists d. split; [auto|]. intros h hb.
    rewrite !E. auto.
Qed.

(** Derivatives by Coquelicot's [auto_derive]. *)
Ltac by_auto := apply is_derive_Reals; auto_derive.

Lemma dl_id x : derivable_pt_lim (fun y => y) x 1.
Proof. by_auto; auto. Qed.
Lemma dl_const c x : derivable_pt_lim (fun _ => c) x 0.
Proof. by_auto; auto. Qed.
Lemma dl_opp x : derivable_pt_lim (fun y => - y) x (-1).
Proof. by_auto; auto; ring. Qed.

(** ** np.sign, np.abs *)
Lemma sign_pos x : 0 < x -> np_sign x = 1.
Proof. intros. unfold np_sign. repeat destruct Rlt_dec; lra. Qed.
Lemma sign_neg x : x < 0 -> np_sign x = -1.
Proof. intros. unfold np_sign. repeat destruct Rlt_dec; lra. Qed.
Lemma sign_0 : np_sign 0 = 0.
Proof. unfold np_sign. repeat destruct Rlt_dec; lra. Qed.

Lemma dl_abs x : x <> 0 -> derivable_pt_lim np_abs x (np_sign x).
Proof.
  intros Hx. destruct (Rlt_dec 0 x).
  - rewrite sign_pos by lra. apply (dl_ext_loc _ (fun y => y) x 1 x); [lra| |apply dl_id].
    intros. apply Rabs_right. lra.
  - rewrite sign_neg by lra. apply (dl_ext_loc _ (fun y => - y) x (-1) (- x)); [lra| |apply dl_opp].
    intros. apply Rabs_left. lra.
Qed.
Lemma left_abs0 : left_derivative np_abs 0 (-1).
Proof.
  apply (left_ext _ (fun y => - y) 0 (-1) 1); [lra| | |apply dl_opp].
  - unfold np_abs. rewrite Rabs_R0. lra.
  - intros. apply Rabs_left. lra.
Qed.
Lemma right_abs0 : right_derivative np_abs 0 1.
Proof.
  apply (right_ext _ (fun y => y) 0 1 1); [lra| | |apply dl_id].
  - apply Rabs_R0.
  - intros. apply Rabs_right. lra.
Qed.
Lemma between_abs x : between_sides np_abs x (np_sign x).
Proof.
  destruct (Req_EM_T x 0) as [->|Hx]; [|apply dl_between, dl_abs, Hx].
  exists (-1), 1. split; [apply left_abs0|]. split; [apply right_abs0|].
  rewrite sign_0, Rmin_left, Rmax_right by lra. lra.
Qed.
(** A function of [|x|] *)
Lemma dl_of_abs k x l : x <> 0 -> derivable_pt_lim k (Rabs x) l ->
  derivable_pt_lim (fun y => k (np_abs y)) x (np_sign x * l).
Proof.
  intros Hx Hk. rewrite Rmult_comm. apply (derivable_pt_lim_comp np_abs k).
  - apply dl_abs, Hx.
  - exact Hk.
Qed.

(** ** Operations of one array *)
Lemma exp1p x : 0 < 1 + exp x.
Proof. pose proof (exp_pos x). lra. Qed.

Lemma sigmoid_eq x : sigmoid x = 1 / (1 + exp (- x)).
Proof.
  unfold sigmoid. destruct Rle_dec; [auto|].
  rewrite exp_Ropp. pose proof (exp_pos x). field. lra.
Qed.
Lemma dl_sigmoid x : derivable_pt_lim sigmoid x (sigmoid x * (1 - sigmoid x)).
Proof.
  apply (dl_ext _ (fun y => 1 / (1 + exp (- y)))); [apply sigmoid_eq|].
  rewrite sigmoid_eq. pose proof (exp1p (- x)).
  by_auto; [lra|]. field. lra.
Qed.
Lemma softplus_eq x : softplus x = ln (1 + exp x).
Proof.
  unfold softplus, np_log1p, np_abs, np_maximum. destruct (Rle_dec 0 x).
  - rewrite Rabs_right, Rmax_left by lra. rewrite exp_Ropp.
    replace (1 + exp x) with ((1 + / exp x) * exp x).
    + rewrite ln_mult, ln_exp; auto; [|apply exp_pos].
      pose proof (Rinv_0_lt_compat _ (exp_pos x)). lra.
    + field. pose proof (exp_pos x). lra.
  - rewrite Rabs_left, Rmax_right, Ropp_involutive by lra. lra.
Qed.
Lemma dl_softplus x : derivable_pt_lim softplus x (sigmoid x).
Proof.
  apply (dl_ext _ (fun y => ln (1 + exp y))); [apply softplus_eq|].
  rewrite sigmoid_eq, exp_Ropp. pose proof (exp1p x). pose proof (exp_pos x).
  by_auto; [lra|]. field. lra.
Qed.
Lemma dl_tanh x : derivable_pt_lim tanh x (1 - tanh x ^ 2).
Proof.
  apply (dl_ext _ (fun y => ((exp y - exp (- y)) / 2) / ((exp y + exp (- y)) / 2))); [reflexivity|].
  unfold tanh, sinh, cosh. pose proof (exp_pos x). pose proof (exp_pos (- x)).
  by_auto; [lra|]. field. lra.
Qed.
Lemma gauss_cont z : continuous (fun t : R => exp (- (t * t))) z.
Proof. apply (ex_derive_continuous (fun t : R => exp (- (t * t)))). auto_derive. auto. Qed.
Lemma dl_erf x : derivable_pt_lim erf x (2 / sqrt PI * exp (- (x * x))).
Proof.
  unfold erf. apply is_derive_Reals. auto_derive.
  - repeat split; auto.
    + apply (@ex_RInt_continuous R_CompleteNormedModule). intros. apply gauss_cont.
    + exists (mkposreal 1 Rlt_0_1). intros. apply continuity_pt_filterlim, gauss_cont.
  - ring.
Qed.
Lemma dl_gelu a x : derivable_pt_lim (gelu a) x (gelu_grad a 1 x).
Proof.
  destruct a; unfold gelu_grad.
  - set (k := sqrt (2 / PI)). set (c := 0.044715).
    replace 0.134145 with (3 * c) by (unfold c; lra). replace 0.5 with (/ 2) by lra.
    apply (dl_ext _ (fun y => (/ 2 * y) * (1 + tanh (k * (y + c * y ^ 3))))).
    { intros y. unfold gelu. fold k c. replace 0.5 with (/ 2) by lra. reflexivity. }
    eapply dl_eq.
    + apply (derivable_pt_lim_mult (fun y => / 2 * y) (fun y => 1 + tanh (k * (y + c * y ^ 3)))).
      * by_auto; [auto|]. reflexivity.
      * apply (derivable_pt_lim_plus (fun _ => 1)); [apply dl_const|].
        apply (derivable_pt_lim_comp (fun y => k * (y + c * y ^ 3)) tanh); [|apply dl_tanh].
        by_auto; [auto|]. reflexivity.
    + cbn beta. field.
  - assert (Hs : sqrt 2 <> 0) by (apply Rgt_not_eq, sqrt_lt_R0; lra).
    assert (Hp : sqrt PI <> 0) by (apply Rgt_not_eq, sqrt_lt_R0, PI_RGT_0).
    apply (dl_ext _ (fun y => (y / 2) * (1 + erf (y / sqrt 2)))).
    { intros y. unfold gelu. field. }
    eapply dl_eq.
    + apply (derivable_pt_lim_mult (fun y => y / 2) (fun y => 1 + erf (y / sqrt 2))).
      * by_auto; [auto|]. reflexivity.
      * apply (derivable_pt_lim_plus (fun _ => 1)); [apply dl_const|].
        apply (derivable_pt_lim_comp (fun y => y / sqrt 2) erf); [|apply dl_erf].
        by_auto; [auto|]. reflexivity.
    + cbn beta. replace 0.5 with (/ 2) by lra. replace ((x / sqrt 2) ^ 2) with (x / sqrt 2 * (x / sqrt 2)) by ring. field. auto.
Qed.
