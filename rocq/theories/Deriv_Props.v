(** * C50: the gradient functions of the numpy backend compute derivatives *)
From Coq Require Import Reals List ZArith Lra Lia.
From Verif Require Import PyBase Deriv_Model Deriv_Spec Deriv_Proofs Deriv_Unary Deriv_Binary.
Import ListNotations.
Open Scope R_scope.

(** ** One entry *)

(** Operations of one array: away from kinks the gradient function returns the derivative of the
    forward function times the output gradient, and at a kink a number between the derivatives from
    the two sides. *)
Theorem C50_unary : forall op g x, udomain op x ->
  (~ ukink op x -> derivable_pt_lim (fun y => g * ufwd op y) x (ugrad op g (ufwd op x) x)) /\
  between_sides (fun y => g * ufwd op y) x (ugrad op g (ufwd op x) x).
Proof.
  intros op g x D. split; [intros K; now apply ugrad_deriv | now apply ugrad_between].
Qed.

(** Operations of two arrays, for each argument that has a gradient. *)
Theorem C50_binary : forall op idx g a b, bdomain op idx a b ->
  exists v, bgrad op idx g (bfwd op a b) a b = Ok v /\
    (~ bkink op idx a b ->
     derivable_pt_lim (fun y => g * section_at (bfwd op) idx a b y) (arg_at idx a b) v) /\
    between_sides (fun y => g * section_at (bfwd op) idx a b y) (arg_at idx a b) v.
Proof.
  intros op idx g a b D. destruct (bgrad_between op idx g a b D) as (v & E & B).
  exists v. split; [exact E|]. split; [|exact B]. intros K.
  destruct (bgrad_deriv op idx g a b D K) as (w & E' & H). rewrite E in E'. now injection E' as ->.
Qed.

(** [where]: the gradient goes to the branch that was taken. *)
Theorem C50_where : forall c g a b,
  (exists v, where_grad c 1 g = Ok v /\ derivable_pt_lim (fun y => g * where_ c y b) a v) /\
  (exists v, where_grad c 2 g = Ok v /\ derivable_pt_lim (fun y => g * where_ c a y) b v).
Proof.
  intros c g a b. split; eexists; (split; [reflexivity|]); apply dl_scal; destruct c; cbn [negb where_];
    (apply (dl_id a) || apply (dl_id b) || apply (dl_const b a) || apply (dl_const a b)).
Qed.

(** ** Whole arrays: the gradient is the vector-Jacobian product *)
Lemma dl_sum f k x l m : derivable_pt_lim f x l -> derivable_pt_lim k x m ->
  derivable_pt_lim (fun y => f y + k y) x (l + m).
Proof. apply derivable_pt_lim_plus. Qed.
Lemma dl_line f x d l : derivable_pt_lim f x l -> derivable_pt_lim (fun t => f (x + t * d)) 0 (l * d).
Proof.
  intros H. apply (dl_ext _ (fun t => f (x + d * t))); [intros; do 2 f_equal; ring|].
  rewrite Rmult_comm. apply dl_affine. now replace (x + d * 0) with x by ring.
Qed.

Theorem C50_arrays_unary : forall op gs xs ds,
  List.length gs = List.length xs -> List.length ds = List.length xs ->
  Forall (fun x => udomain op x /\ ~ ukink op x) xs ->
  List.length (uvjp op gs (uapply op xs) xs) = List.length xs /\
  derivable_pt_lim (fun t => dot gs (uapply op (move xs ds t))) 0
                   (dot (uvjp op gs (uapply op xs) xs) ds).
Proof.
  intros op gs xs. revert gs.
  induction xs as [|x xs IH]; intros [|g gs] [|d ds] L1 L2 F; try discriminate.
  - split; [reflexivity|]. cbn. apply dl_const.
  - apply Forall_cons_iff in F as [[D K] F]. injection L1 as L1. injection L2 as L2.
    destruct (IH gs ds L1 L2 F) as [IL IH']. cbn [uapply uvjp move dot map List.length].
    split; [f_equal; exact IL|].
    apply (dl_sum (fun t => g * ufwd op (x + t * d)) (fun t => dot gs (uapply op (move xs ds t)))).
    + apply (dl_line (fun y => g * ufwd op y)). now apply C50_unary.
    + exact IH'.
Qed.

Theorem C50_arrays_binary : forall op idx gs xs ys ds,
  List.length gs = List.length xs -> List.length ds = List.length xs ->
  Forall2 (fun a b => bdomain op idx a b /\ ~ bkink op idx a b) xs ys ->
  exists vs, bvjp op idx gs (bapply op xs ys) xs ys = Ok vs /\
    List.length vs = List.length xs /\
    derivable_pt_lim (fun t => dot gs match idx with
                                      | O => bapply op (move xs ds t) ys
                                      | _ => bapply op xs (move ys ds t)
                                      end) 0 (dot vs ds).
Proof.
  intros op idx gs xs ys ds L1 L2 F. revert gs ds L1 L2.
  induction F as [|x y xs ys [D K] F IH]; intros [|g gs] [|d ds] L1 L2; try discriminate.
  - exists []. split; [reflexivity|]. split; [reflexivity|]. destruct idx; cbn; apply (dl_const 0 0).
  - injection L1 as L1. injection L2 as L2.
    destruct (IH gs ds L1 L2) as (vs & E & IL & IH').
    destruct (C50_binary op idx g x y D) as (v & Ev & Hv & _). specialize (Hv K).
    exists (v :: vs). cbn [bvjp bapply move dot List.length]. rewrite Ev. cbn [bind]. rewrite E. cbn [bind].
    split; [reflexivity|]. split; [f_equal; exact IL|].
    destruct idx.
    + apply (dl_sum (fun t => g * bfwd op (x + t * d) y) (fun t => dot gs (bapply op (move xs ds t) ys)));
        [|exact IH'].
      apply (dl_line (fun z => g * bfwd op z y)). exact Hv.
    + apply (dl_sum (fun t => g * bfwd op x (y + t * d)) (fun t => dot gs (bapply op xs (move ys ds t))));
        [|exact IH'].
      apply (dl_line (fun z => g * bfwd op x z)). exact Hv.
Qed.

(** ** The forward functions are the textbook ones *)
Theorem C50_forward : forall x,
  ufwd USigmoid x = / (1 + exp (- x)) /\
  ufwd USoftplus x = ln (1 + exp x) /\
  (ufwd URelu x = if Rle_dec 0 x then x else 0) /\
  (forall s, bfwd BLeakyRelu x s = if Rle_dec 0 x then x else s * x) /\
  (forall thr, 0 < thr <= Rabs x ->
     ufwd (URobustLog thr) x = ln (Rabs x) /\ ufwd (URobustSqrt thr) x = sqrt (Rabs x) /\
     ufwd (UReciprocal thr) x = / x) /\
  (forall q t, 0 <= q <= 1 ->
     bfwd (BQuantile q) x t = if Rle_dec x t then q * (t - x) else (1 - q) * (x - t)) /\
  (forall w r thr t, (r = true -> 0 < thr <= 1) ->
     bfwd (BBceLogits w r thr) x t
     = - (w * t * ln (/ (1 + exp (- x))) + (1 - t) * ln (1 - / (1 + exp (- x))))).
Proof.
  intros x. cbn [ufwd bfwd].
  split; [rewrite sigmoid_eq; unfold Rdiv; ring|].
  split; [apply softplus_eq|].
  split; [unfold relu, np_maximum, Rmax; destruct Rle_dec; reflexivity|].
  split; [intros s; destruct Rle_dec; [now apply leaky_pos | apply leaky_neg; lra]|].
  split.
  { intros thr H. split; [apply robust_log_ge; lra|]. split; [apply rsqrt_ge; lra|].
    rewrite rec_out by lra. unfold Rdiv. ring. }
  split.
  { intros q t Hq. change (pinball q (t - x) = if Rle_dec x t then q * (t - x) else (1 - q) * (x - t)).
    destruct Rle_dec; [rewrite pinball_pos by lra; ring | rewrite pinball_neg by lra; ring]. }
  intros w r thr t H. rewrite bcel_eq by exact H. pose proof (exp1p (- x)) as P. pose proof (exp_pos (- x)) as P'.
  rewrite ln_Rinv by exact P.
  replace (1 - / (1 + exp (- x))) with (exp (- x) * / (1 + exp (- x))) by (field; lra).
  rewrite ln_mult, ln_Rinv, ln_exp; [ring | exact P | exact P' | now apply Rinv_0_lt_compat].
Qed.

(** ** Findings *)

(** The gradient of [kl_divergence] with respect to the target is not the derivative: at
    input 1, target 2, threshold 1/2 and output gradient 1 the derivative is [1 + ln 2], the code
    returns [2 + ln 2]; and with output gradient 0, where every gradient has to be 0, it returns
    [ln 2]. *)
Theorem C50_kl_target_refuted :
  (bgrad (BKl (/ 2)) 1 1 (bfwd (BKl (/ 2)) 1 2) 1 2 = Ok (2 + ln 2) /\
   derivable_pt_lim (fun t => 1 * bfwd (BKl (/ 2)) 1 t) 2 (1 + ln 2)) /\
  (bgrad (BKl (/ 2)) 1 0 (bfwd (BKl (/ 2)) 1 2) 1 2 = Ok (ln 2) /\ ln 2 <> 0 /\
   derivable_pt_lim (fun t => 0 * bfwd (BKl (/ 2)) 1 t) 2 0).
Proof.
  assert (L1 : robust_log (/ 2) 1 = 0) by (rewrite robust_log_ge; rewrite Rabs_right; lra || apply ln_1).
  assert (L2 : robust_log (/ 2) 2 = ln 2) by (rewrite robust_log_ge; rewrite Rabs_right; lra).
  assert (G : forall g, robust_log_grad g (/ 2) 1 = g).
  { intros g. unfold robust_log_grad, np_abs. rewrite Rabs_right by lra. repeat destruct Rlt_dec; lra. }
  split; split; [| | |split].
  - cbn. f_equal. unfold kl_divergence_grad. cbn [pick]. rewrite G. unfold kl_partial. rewrite L1, L2. ring.
  - apply (dl_ext_loc _ (fun t => t * ln t) 2 _ 1); [lra| |].
    + intros t Ht. cbn [bfwd]. unfold kl_divergence, kl_partial. rewrite L1.
      rewrite robust_log_ge by (rewrite Rabs_right; lra). rewrite Rabs_right by lra. ring.
    + eapply dl_eq.
      * apply (derivable_pt_lim_mult (fun t => t) ln); [apply dl_id | apply dl_ln; lra].
      * cbn beta. field.
  - cbn. f_equal. unfold kl_divergence_grad. cbn [pick]. rewrite G. unfold kl_partial. rewrite L1, L2. ring.
  - apply Rgt_not_eq. rewrite <- ln_1. apply ln_increasing; lra.
  - apply (dl_ext _ (fun _ => 0)); [intros; ring | apply dl_const].
Qed.

(** The gradient of [base ** exponent] with respect to the exponent is [nan] at a base of zero,
    whatever the output gradient: [0 * log 0] is [nan] and the mask that follows multiplies it by
    zero.  The function is constant there, so the derivative is 0. *)
Theorem C50_power_zero_refuted : forall g,
  fl_power_grad1 g 0 2 = NaN /\ derivable_pt_lim (fun t => g * fl_pow 0 t) 2 0.
Proof.
  intros g. split.
  - unfold fl_power_grad1, fl_pow, fl_log. destruct (Rlt_dec 0 0); [lra|].
    destruct (Req_EM_T 0 0); [|lra]. cbn [fl_mul]. unfold fl_of_sign. rewrite Ropp_0.
    destruct (Rlt_dec 0 0); [lra|]. reflexivity.
  - apply (dl_ext _ (fun _ => 0)); [|apply dl_const]. intros t. unfold fl_pow. destruct Rlt_dec; lra.
Qed.

(** ** The hypotheses can be met *)
Example C50_unary_case :
  udomain (URobustSqrt 1) 4 /\ ~ ukink (URobustSqrt 1) 4 /\
  ufwd (URobustSqrt 1) 4 = 2 /\ ugrad (URobustSqrt 1) 3 2 4 = 3 / 4.
Proof.
  assert (S4 : sqrt 4 = 2) by (replace 4 with (2 * 2) by ring; apply sqrt_square; lra).
  cbn. split; [lra|]. split; [rewrite Rabs_right; lra|]. split.
  - rewrite rsqrt_ge; rewrite Rabs_right; lra.
  - unfold robust_sqrt_grad, np_abs. rewrite Rabs_right by lra. rewrite sign_pos by lra.
    destruct Rlt_dec; lra.
Qed.
Example C50_kink_case : ugrad UAbs 5 (ufwd UAbs 0) 0 = 0 /\ ukink UAbs 0.
Proof. cbn. rewrite sign_0. split; lra. Qed.
Example C50_binary_case :
  bdomain BPower 0 (-2) 3 /\ ~ bkink BPower 0 (-2) 3 /\
  bfwd BPower (-2) 3 = -8 /\ bgrad BPower 0 1 (-8) (-2) 3 = Ok 12.
Proof.
  split; [split; [now left|]; right; left; split; [lra | now exists 3%Z]|].
  split; [cbn; tauto|]. split.
  - cbn [bfwd]. rewrite (np_power_int (-2) 3). change ((-2) ^ 3 = -8). ring.
  - cbn [bgrad verify_shapes binputs bnondiff Nat.leb existsb]. unfold power_grad.
    replace (3 - 1) with (IZR 2) by lra. rewrite np_power_int. f_equal.
    change (3 * (-2) ^ 2 * 1 = 12). ring.
Qed.
Example C50_arrays_unary_case :
  Forall (fun x => udomain UAbs x /\ ~ ukink UAbs x) [3; -4] /\
  uvjp UAbs [1; 2] (uapply UAbs [3; -4]) [3; -4] = [1; -2].
Proof.
  split; [repeat constructor; cbn; lra|]. cbn. rewrite sign_pos, sign_neg by lra.
  f_equal; [ring|]. f_equal. ring.
Qed.
Example C50_arrays_binary_case :
  Forall2 (fun a b => bdomain BDiv 1 a b /\ ~ bkink BDiv 1 a b) [6; 1] [2; 4] /\
  bvjp BDiv 1 [1; 16] (bapply BDiv [6; 1] [2; 4]) [6; 1] [2; 4] = Ok [-3 / 2; -1].
Proof.
  split; [repeat constructor; cbn; auto; lra|]. cbn.
  do 2 f_equal; [field|]. f_equal. field.
Qed.

Print Assumptions C50_unary.
Print Assumptions C50_binary.
Print Assumptions C50_where.
Print Assumptions C50_arrays_unary.
Print Assumptions C50_arrays_binary.
Print Assumptions C50_forward.
Print Assumptions C50_kl_target_refuted.
Print Assumptions C50_power_zero_refuted.
