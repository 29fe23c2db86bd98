(** * C57, continued: attention. *)
From Coq Require Import Reals List ZArith Lia Lra.
From Verif Require Import PyBase Deriv_Proofs Corr_Spec Corr_Proofs Pool_Proofs Axis_Model Axis_Spec Axis_Proofs Move_Model Move_Spec Move_Proofs Move_Proofs2
  Select_Model Select_Spec Select_Proofs Select_Proofs2 Attn_Model Attn_Spec Attn_Proofs Attn_Props.
Import ListNotations.
Open Scope R_scope.
Open Scope list_scope.
Open Scope res_scope.

Section Gradient.
  Variables (b : list nat) (nq nk ne nv : nat) (is_causal : bool) (m : mask) (scale : option R).
  Hypothesis FIT : fitting b nq nk is_causal m.
  Hypothesis SCALE : scale = None -> (0 < ne)%nat.
  Hypothesis ROWS : forall o l, inside b o -> (l < nq)%nat -> exists s v, (s < nk)%nat /\ bias_at is_causal m o l s = Some v.
  Let c : R := factor_of ne scale.
  Variables q k v g : arr.
  Hypothesis SQ : shape q = b ++ [nq; ne].
  Hypothesis SK : shape k = b ++ [nk; ne].
  Hypothesis SV : shape v = b ++ [nk; nv].
  Hypothesis SG : shape g = b ++ [nq; nv].
  Let W (q' k' : arr) := weight q' k' ne nk c is_causal m.
  Let F (q' k' v' : arr) : res arr := output_of (attention q' k' v' m 0 is_causal scale).
  Let dots (q' k' : arr) o l s : R := c * lsum (seq 0 ne) (fun i => at_ q' (o ++ [l; i]) * at_ k' (o ++ [s; i])).
  (** The gradient with respect to the weights, and to the scores. *)
  Let cc o l s : R := lsum (seq 0 nv) (fun j => at_ g (o ++ [l; j]) * at_ v (o ++ [s; j])).
  Let gs o l s : R := W q k o l s * (cc o l s - lsum (seq 0 nk) (fun r => W q k o l r * cc o l r)).

  Lemma weighted_form q' k' : shape q' = b ++ [nq; ne] -> shape k' = b ++ [nk; ne] ->
    weighted g (F q' k' v) = lsum (indices b) (fun o => lsum (seq 0 nq) (fun l => lsum (seq 0 nk) (fun s => cc o l s * W q' k' o l s))).
  Proof.
    intros E1 E2. destruct (attention_ok b nq nk ne nv is_causal m scale FIT SCALE ROWS q' k' v E1 E2 SV) as (soft & out & E & _ & So & _ & Ho).
    unfold F. rewrite E. cbn [output_of weighted]. rewrite SG, sum_over_lsum, lsum_matrices. apply lsum_ext. intros o Io. apply in_indices in Io.
    apply lsum_ext. intros l Hl. apply in_range in Hl.
    rewrite (lsum_ext (seq 0 nv) (fun j => at_ g (o ++ [l; j]) * at_ out (o ++ [l; j]))
      (fun j => lsum (seq 0 nk) (fun s => at_ g (o ++ [l; j]) * at_ v (o ++ [s; j]) * W q' k' o l s))).
    2:{ intros j Hj. apply in_range in Hj. rewrite Ho by easy. rewrite <- lsum_scal. apply lsum_ext. intros s _. unfold W, wt. fold c. ring. }
    rewrite lsum_swap. apply lsum_ext. intros s _. now rewrite lsum_scal_r.
  Qed.
  Lemma score_dl (qf kf : R -> arr) (D : list nat -> nat -> nat -> R) :
    (forall t, shape (qf t) = b ++ [nq; ne] /\ shape (kf t) = b ++ [nk; ne]) ->
    (forall t o l s, inside b o -> (l < nq)%nat -> (s < nk)%nat -> dots (qf t) (kf t) o l s = dots q k o l s + t * D o l s) ->
    derivable_pt_lim (fun t => weighted g (F (qf t) (kf t) v)) 0
      (lsum (indices b) (fun o => lsum (seq 0 nq) (fun l => lsum (seq 0 nk) (fun s => D o l s * gs o l s)))).
  Proof.
    intros SH H.
    apply (dl_ext _ (fun t => lsum (indices b) (fun o => lsum (seq 0 nq) (fun l => lsum (seq 0 nk) (fun s => cc o l s * W (qf t) (kf t) o l s))))).
    { intros t. now apply weighted_form; apply SH. }
    apply (dl_lsum (indices b) (fun o t => lsum (seq 0 nq) (fun l => lsum (seq 0 nk) (fun s => cc o l s * W (qf t) (kf t) o l s)))). intros o Io. apply in_indices in Io.
    apply (dl_lsum (seq 0 nq) (fun l t => lsum (seq 0 nk) (fun s => cc o l s * W (qf t) (kf t) o l s))). intros l Hl. apply in_range in Hl.
    pose proof (row_dl nk (cc o l) (dots q k o l) (D o l) (bias_at is_causal m o l)) as R. cbv zeta in R.
    assert (ST : forall t s, (s < nk)%nat -> strength (qf t) (kf t) ne c o l s (bias_at is_causal m o l s) =
       match bias_at is_causal m o l s with Some u => exp (dots q k o l s + t * D o l s + u) | None => 0 end).
    { intros t s Hs. unfold strength. destruct (bias_at is_causal m o l s); [|easy]. rewrite sum_to_lsum, <- H by easy. reflexivity. }
    assert (S0 : forall s, (s < nk)%nat -> strength q k ne c o l s (bias_at is_causal m o l s) =
       match bias_at is_causal m o l s with Some u => exp (dots q k o l s + 0 * D o l s + u) | None => 0 end).
    { intros s Hs. unfold strength. destruct (bias_at is_causal m o l s); [|easy]. rewrite sum_to_lsum. f_equal. unfold dots. ring. }
    assert (W0 : forall s, (s < nk)%nat -> W q k o l s = (match bias_at is_causal m o l s with Some u => exp (dots q k o l s + 0 * D o l s + u) | None => 0 end) /
       lsum (seq 0 nk) (fun r => match bias_at is_causal m o l r with Some u => exp (dots q k o l r + 0 * D o l r + u) | None => 0 end)).
    { intros s Hs. unfold W, weight. rewrite sum_to_lsum, S0 by easy. f_equal. apply lsum_ext. intros r Hr. apply in_range in Hr. now apply S0. }
    eapply dl_eq; [eapply dl_ext; [|apply R]|].
    - intros t. cbn beta. apply lsum_ext. intros s Hs. apply in_range in Hs. f_equal. unfold W, weight. rewrite sum_to_lsum, ST by easy. f_equal.
      apply lsum_ext. intros r Hr. apply in_range in Hr. now apply ST.
    - destruct (ROWS o l Io Hl) as (s & u & Hs & Eu). now exists s, u.
    - apply lsum_ext. intros s Hs. apply in_range in Hs. unfold gs. rewrite W0 by easy. f_equal. f_equal. f_equal. apply lsum_ext. intros r Hr. apply in_range in Hr. now rewrite W0.
  Qed.

  Lemma attention_gradients soft out : attention q k v m 0 is_causal scale = Ok (soft, c, out) ->
    exists Gq Gk Gv, attention_grad g soft c q k v 0 = Ok Gq /\ attention_grad g soft c q k v 1 = Ok Gk /\ attention_grad g soft c q k v 2 = Ok Gv /\
      gradient_at (fun q' => F q' k v) q g Gq /\ gradient_at (fun k' => F q k' v) k g Gk /\ gradient_at (fun v' => F q k v') v g Gv.
  Proof.
    intros A. destruct (attention_ok b nq nk ne nv is_causal m scale FIT SCALE ROWS q k v SQ SK SV) as (soft1 & out1 & A1 & Ss & So & Hs & Ho).
    fold c in A1. rewrite A in A1. injection A1 as <- <-.
    destruct (swap_last v b nk nv (-1) (-2) ltac:(now left) SV) as (vt & Evt & Svt & Hvt).
    destruct (matmul_same g vt b nq nv nk SG Svt) as (g1 & Eg1 & Sg1 & Hg1).
    assert (HC : forall o l s, inside b o -> (l < nq)%nat -> (s < nk)%nat -> at_ g1 (o ++ [l; s]) = cc o l s).
    { intros o l s Io Hl Hk. rewrite Hg1 by easy. apply lsum_ext. intros j Hj. apply in_range in Hj. now rewrite Hvt. }
    assert (SS : shape soft = (b ++ [nq]) ++ [nk]) by (now rewrite <- app_assoc).
    destruct (softmax_grad_last soft g1 soft (b ++ [nq]) nk SS) as (G2 & EG2 & SG2 & HG2).
    assert (HG : forall o l s, inside b o -> (l < nq)%nat -> (s < nk)%nat -> at_ G2 (o ++ [l; s]) = gs o l s).
    { intros o l s Io Hl Hk. replace (o ++ [l; s]) with ((o ++ [l]) ++ [s]) by (now rewrite <- app_assoc).
      rewrite HG2; [|apply inside_app; [easy|repeat constructor; easy]|easy]. rewrite <- !app_assoc. cbn [app]. rewrite Hs, HC by easy. unfold gs, W, wt. fold c. f_equal. f_equal.
      apply lsum_ext. intros r Hr. apply in_range in Hr. rewrite <- !app_assoc. cbn [app]. rewrite Hs, HC by easy. reflexivity. }
    rewrite Ss in SG2.
    destruct (swap_last k b nk ne (-2) (-1) ltac:(now right) SK) as (kt & Ekt & Skt & Hkt).
    destruct (swap_last (mka (shape kt) (fun i => at_ kt i * c)) b ne nk (-1) (-2) ltac:(now left) Skt) as (ks & Eks & Sks & Hks).
    destruct (matmul_same G2 ks b nq nk ne SG2 Sks) as (Gq & EGq & SGq & HGq).
    destruct (swap_last q b nq ne (-1) (-2) ltac:(now left) SQ) as (qt & Eqt & Sqt & Hqt).
    destruct (matmul_same qt G2 b ne nq nk Sqt SG2) as (kg & Ekg & Skg & Hkg).
    destruct (swap_last kg b ne nk (-2) (-1) ltac:(now right) Skg) as (kg2 & Ekg2 & Skg2 & Hkg2).
    destruct (swap_last soft b nq nk (-1) (-2) ltac:(now left) Ss) as (st & Est & Sst & Hst).
    destruct (matmul_same st g b nk nq nv Sst SG) as (Gv & EGv & SGv & HGv).
    exists Gq, (mka (shape kg2) (fun i => at_ kg2 i * c)), Gv. cbn [attention_grad matmul_grad].
    rewrite Evt. cbn [bind]. rewrite Eg1. cbn [bind]. rewrite EG2. cbn [bind]. rewrite Ekt. cbn [bind]. rewrite Eks, Eqt. cbn [bind].
    rewrite Ekg. cbn [bind]. rewrite Ekg2, Est. cbn [bind]. do 3 (split; [easy|]). split; [|split].
    - split; [congruence|]. intros dq.
      eapply dl_eq; [apply (score_dl (fun t => moved q dq t) (fun _ => k) (fun o l s => c * lsum (seq 0 ne) (fun i => dq (o ++ [l; i]) * at_ k (o ++ [s; i]))))|].
      + intros t. now split.
      + intros t o l s Io Hl Hk. unfold dots. cbn [moved at_].
        rewrite (lsum_ext (seq 0 ne) (fun i => (at_ q (o ++ [l; i]) + t * dq (o ++ [l; i])) * at_ k (o ++ [s; i]))
          (fun i => at_ q (o ++ [l; i]) * at_ k (o ++ [s; i]) + t * (dq (o ++ [l; i]) * at_ k (o ++ [s; i])))) by (intros; ring).
        rewrite lsum_plus, lsum_scal. ring.
      + rewrite SQ, sum_over_lsum, lsum_matrices. apply lsum_ext. intros o Io. apply in_indices in Io. apply lsum_ext. intros l Hl. apply in_range in Hl.
        rewrite (lsum_ext (seq 0 ne) (fun j => at_ Gq (o ++ [l; j]) * dq (o ++ [l; j]))
          (fun i => lsum (seq 0 nk) (fun s => c * (dq (o ++ [l; i]) * at_ k (o ++ [s; i])) * gs o l s))).
        2:{ intros i Hi. apply in_range in Hi. rewrite HGq by easy. rewrite <- lsum_scal_r. apply lsum_ext. intros s Hk. apply in_range in Hk.
            rewrite HG, Hks by easy. cbn [at_]. rewrite Hkt by easy. ring. }
        rewrite lsum_swap. apply lsum_ext. intros s _. rewrite <- lsum_scal, <- lsum_scal_r. reflexivity.
    - split; [cbn [shape]; congruence|]. intros dk.
      eapply dl_eq; [apply (score_dl (fun _ => q) (fun t => moved k dk t) (fun o l s => c * lsum (seq 0 ne) (fun i => at_ q (o ++ [l; i]) * dk (o ++ [s; i]))))|].
      + intros t. now split.
      + intros t o l s Io Hl Hk. unfold dots. cbn [moved at_].
        rewrite (lsum_ext (seq 0 ne) (fun i => at_ q (o ++ [l; i]) * (at_ k (o ++ [s; i]) + t * dk (o ++ [s; i])))
          (fun i => at_ q (o ++ [l; i]) * at_ k (o ++ [s; i]) + t * (at_ q (o ++ [l; i]) * dk (o ++ [s; i])))) by (intros; ring).
        rewrite lsum_plus, lsum_scal. ring.
      + rewrite SK, sum_over_lsum, lsum_matrices. apply lsum_ext. intros o Io. apply in_indices in Io.
        rewrite (lsum_ext (seq 0 nk) (fun s => lsum (seq 0 ne) (fun i => at_ (mka (shape kg2) (fun j => at_ kg2 j * c)) (o ++ [s; i]) * dk (o ++ [s; i])))
          (fun s => lsum (seq 0 nq) (fun l => c * lsum (seq 0 ne) (fun i => at_ q (o ++ [l; i]) * dk (o ++ [s; i])) * gs o l s))).
        { symmetry. apply lsum_swap. }
        intros s Hk. apply in_range in Hk.
        rewrite (lsum_ext (seq 0 ne) (fun i => at_ (mka (shape kg2) (fun j => at_ kg2 j * c)) (o ++ [s; i]) * dk (o ++ [s; i]))
          (fun i => lsum (seq 0 nq) (fun l => c * (at_ q (o ++ [l; i]) * dk (o ++ [s; i])) * gs o l s))).
        2:{ intros i Hi. apply in_range in Hi. cbn [at_]. rewrite Hkg2, Hkg by easy. rewrite <- !lsum_scal_r. apply lsum_ext. intros l Hl. apply in_range in Hl.
            rewrite Hqt, HG by easy. ring. }
        rewrite lsum_swap. apply lsum_ext. intros l _. rewrite <- lsum_scal, <- lsum_scal_r. reflexivity.
    - split; [congruence|]. intros dv. rewrite SV, sum_over_lsum, lsum_matrices.
      apply (dl_of_affine _ (lsum (indices b) (fun o => lsum (seq 0 nq) (fun l => lsum (seq 0 nv) (fun j => at_ g (o ++ [l; j]) *
        lsum (seq 0 nk) (fun s => W q k o l s * at_ v (o ++ [s; j]))))))).
      intros t. destruct (attention_ok b nq nk ne nv is_causal m scale FIT SCALE ROWS q k (moved v dv t) SQ SK SV) as (s2 & o2 & A2 & _ & So2 & _ & Ho2).
      unfold F. rewrite A2. cbn [output_of weighted]. rewrite SG, sum_over_lsum, lsum_matrices.
      rewrite <- lsum_scal, <- lsum_plus. apply lsum_ext. intros o Io. apply in_indices in Io.
      rewrite (lsum_ext (seq 0 nk) (fun s => lsum (seq 0 nv) (fun j => at_ Gv (o ++ [s; j]) * dv (o ++ [s; j])))
        (fun s => lsum (seq 0 nq) (fun l => lsum (seq 0 nv) (fun j => at_ g (o ++ [l; j]) * (W q k o l s * dv (o ++ [s; j])))))).
      2:{ intros s Hk. apply in_range in Hk. rewrite lsum_swap. apply lsum_ext. intros j Hj. apply in_range in Hj. rewrite HGv by easy. rewrite <- lsum_scal_r.
          apply lsum_ext. intros l Hl. apply in_range in Hl. rewrite Hst, Hs by easy. unfold W, wt. fold c. ring. }
      rewrite (lsum_swap (seq 0 nk)), <- lsum_scal, <- lsum_plus. apply lsum_ext. intros l Hl. apply in_range in Hl.
      rewrite (lsum_swap (seq 0 nk)), <- lsum_scal, <- lsum_plus. apply lsum_ext. intros j Hj. apply in_range in Hj. rewrite Ho2 by easy. cbn [moved at_].
      rewrite lsum_scal. unfold wt. fold c. fold (W q k).
      rewrite (lsum_ext (seq 0 nk) (fun s => W q k o l s * (at_ v (o ++ [s; j]) + t * dv (o ++ [s; j])))
        (fun s => W q k o l s * at_ v (o ++ [s; j]) + t * (W q k o l s * dv (o ++ [s; j])))) by (intros; ring).
      rewrite lsum_plus, lsum_scal. ring.
  Qed.
End Gradient.

Theorem C57_attention b nq nk ne nv is_causal m scale q k v :
  shape q = b ++ [nq; ne] -> shape k = b ++ [nk; ne] -> shape v = b ++ [nk; nv] ->
  fitting b nq nk is_causal m -> (scale = None -> (0 < ne)%nat) ->
  (forall o l, inside b o -> (l < nq)%nat -> exists s u, (s < nk)%nat /\ bias_at is_causal m o l s = Some u) ->
  exists soft c out, attention q k v m 0 is_causal scale = Ok (soft, c, out) /\ shape out = b ++ [nq; nv] /\
    (forall o l j, inside b o -> (l < nq)%nat -> (j < nv)%nat ->
       at_ out (o ++ [l; j]) = sum_to nk (fun s => weight q k ne nk (factor_of ne scale) is_causal m o l s * at_ v (o ++ [s; j]))) /\
    forall g, shape g = b ++ [nq; nv] ->
      exists Gq Gk Gv, attention_grad g soft c q k v 0 = Ok Gq /\ attention_grad g soft c q k v 1 = Ok Gk /\ attention_grad g soft c q k v 2 = Ok Gv /\
        gradient_at (fun q' => output_of (attention q' k v m 0 is_causal scale)) q g Gq /\
        gradient_at (fun k' => output_of (attention q k' v m 0 is_causal scale)) k g Gk /\
        gradient_at (fun v' => output_of (attention q k v' m 0 is_causal scale)) v g Gv.
Proof.
  intros SQ SK SV FIT SC ROWS. destruct (attention_ok b nq nk ne nv is_causal m scale FIT SC ROWS q k v SQ SK SV) as (soft & out & A & Ss & So & Hs & Ho).
  exists soft, (factor_of ne scale), out. split; [easy|]. split; [easy|]. split; [intros o l j Io Hl Hj; now apply Ho|].
  intros g SG. now apply (attention_gradients b nq nk ne nv is_causal m scale FIT SC ROWS q k v g SQ SK SV SG soft out).
Qed.
(** The weights of one query are a distribution over the positions that are not excluded. *)
Theorem C57_weights q k ne nk c is_causal m o l : (exists s u, (s < nk)%nat /\ bias_at is_causal m o l s = Some u) ->
  sum_to nk (weight q k ne nk c is_causal m o l) = 1 /\
  forall s, (s < nk)%nat -> 0 <= weight q k ne nk c is_causal m o l s /\
    (weight q k ne nk c is_causal m o l s = 0 <-> bias_at is_causal m o l s = None).
Proof.
  intros (s0 & u0 & H0 & E0).
  set (e := fun s => ex (match bias_at is_causal m o l s with Some b => Some (c * sum_to ne (fun i => at_ q (o ++ [l; i]) * at_ k (o ++ [s; i])) + b) | None => None end)).
  assert (ES : forall s, strength q k ne c o l s (bias_at is_causal m o l s) = e s) by (intros s; unfold e, strength; now destruct (bias_at is_causal m o l s)).
  assert (P : 0 < lsum (seq 0 nk) e).
  { unfold e. eapply (lsum_ex_pos _ _ s0); [now apply in_range|]. now rewrite E0. }
  assert (WE : forall s, weight q k ne nk c is_causal m o l s = e s / lsum (seq 0 nk) e).
  { intros s. unfold weight. rewrite sum_to_lsum, ES. f_equal. apply lsum_ext. intros r _. apply ES. }
  split.
  - rewrite sum_to_lsum. rewrite (lsum_ext _ _ (fun s => e s * / lsum (seq 0 nk) e)) by (intros; apply WE). rewrite lsum_scal_r. field. lra.
  - intros s Hs. rewrite WE. split; [apply Rmult_le_pos; [apply ex_nonneg|left; now apply Rinv_0_lt_compat]|]. unfold e at 1. destruct (bias_at is_causal m o l s); cbn [ex].
    + split; [|easy]. intros Q. exfalso. match type of Q with exp ?z / _ = _ => pose proof (exp_pos z) as PZ end.
      apply Rmult_integral in Q as [Q|Q]; [lra|]. pose proof (Rinv_0_lt_compat _ P). lra.
    + split; [easy|]. intros _. unfold Rdiv. ring.
Qed.
(** A mask to add is refused where the same mask as booleans is accepted: with batch axes. *)
Theorem C57_batched_mask_refuted : exists q k v s, 
  (exists r, attention q k v (MBool (mkbools s (fun _ => true))) 0 false None = Ok r) /\
  attention q k v (MAdd (mke s (fun _ => Some 0))) 0 false None = Err ValueError.
Proof.
  set (x := mka [2; 1; 1]%nat (fun _ => 0)). exists x, x, x, [2; 1; 1]%nat. split.
  - destruct (C57_attention [2]%nat 1 1 1 1 false (MBool (mkbools [2; 1; 1]%nat (fun _ => true))) None x x x eq_refl eq_refl eq_refl) as (s & c & o & E & _).
    + split; [easy|]. split; [cbn; lia|]. intros [|[|[|k] ] ] Hk; cbn in *; try lia; tauto.
    + lia.
    + intros o l _ _. exists 0%nat, 0. split; [lia|reflexivity].
    + exists (s, c, o). exact E.
  - unfold attention. destruct (Req_EM_T 0 0) as [_|N]; [reflexivity|easy].
Qed.

(** ** The hypotheses are met *)
Example C57_matmul_case : exists x y, shape x = [2; 1]%nat ++ [3; 4]%nat /\ shape y = [5]%nat ++ [4; 2]%nat /\ common [[2; 1]; [5]]%nat [2; 5]%nat.
Proof.
  exists (mka [2; 1; 3; 4]%nat (fun _ => 1)), (mka [5; 4; 2]%nat (fun _ => 1)). split; [easy|]. split; [easy|].
  apply common_two. reflexivity.
Qed.
Example C57_causal_case : exists q k v, shape q = [2]%nat ++ [3; 2]%nat /\ shape k = [2]%nat ++ [4; 2]%nat /\ shape v = [2]%nat ++ [4; 5]%nat /\
  fitting [2]%nat 3 4 true MNone /\ (@None R = None -> (0 < 2)%nat) /\
  forall o l, inside [2]%nat o -> (l < 3)%nat -> exists s u, (s < 4)%nat /\ bias_at true MNone o l s = Some u.
Proof.
  exists (mka [2; 3; 2]%nat (fun _ => 1)), (mka [2; 4; 2]%nat (fun _ => 1)), (mka [2; 4; 5]%nat (fun _ => 1)). do 3 (split; [easy|]).
  split; [exact I|]. split; [lia|]. intros o l _ _. exists 0%nat, 0. split; [lia|]. cbn. destruct (le_dec 0 l); [easy|lia].
Qed.
Example C57_mask_case : fitting [2]%nat 3 4 false (MBool (mkbools [3; 1]%nat (fun i => Nat.eqb (nth 0 i 0%nat) 1))) /\
  fitting [2]%nat 3 4 false (MAdd (mke [4]%nat (fun i => if Nat.eqb (nth 0 i 0%nat) 1 then None else Some 2))).
Proof.
  split; (split; [easy|]); (split; [cbn; lia|]); intros [|[|[|k] ] ] Hk; cbn in *; try lia; tauto.
Qed.

Print Assumptions C57_attention.
Print Assumptions C57_weights.
Print Assumptions C57_batched_mask_refuted.
