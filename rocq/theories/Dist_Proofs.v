(** * Lemmas about absolute powers and forward substitution. *)
From Coq Require Import Reals List ZArith Bool Lia Lra.
From Verif Require Import PyBase Deriv_Proofs Corr_Spec Corr_Proofs Pool_Proofs Axis_Model Axis_Spec Axis_Proofs Attn_Proofs Dist_Model Dist_Spec.
Import ListNotations.
Open Scope R_scope.
Open Scope list_scope.

(** ** Powers *)
Lemma npow_abs x p : 0 < p -> npow (Rabs x) p = abs_power x p.
Proof.
  intros P. unfold npow, abs_power. destruct (Req_EM_T (Rabs x) 0) as [E|E]; destruct (Req_EM_T x 0) as [E'|E'].
  - destruct (Req_EM_T p 0); lra.
  - apply Rabs_no_R0 in E'. contradiction.
  - subst. rewrite Rabs_R0 in E. lra.
  - reflexivity.
Qed.
Lemma npow_pos a p : 0 < a -> npow a p = Rpower a p.
Proof. intros H. unfold npow. destruct (Req_EM_T a 0); [lra|easy]. Qed.
Lemma npow_dl x p : 1 < p \/ x <> 0 -> derivable_pt_lim (fun y => npow (Rabs y) p) x (p * npow (Rabs x) (p - 1) * nsign x).
Proof.
  intros H. unfold nsign. destruct (Rlt_dec 0 x) as [X|X]; [|destruct (Rlt_dec x 0) as [Y|Y] ].
  - apply (dl_ext_loc _ (fun y => Rpower y p) x _ x X).
    + intros y Hy. rewrite Rabs_right by lra. apply npow_pos. lra.
    + rewrite Rabs_right, npow_pos by lra. rewrite Rmult_1_r. now apply derivable_pt_lim_power.
  - apply (dl_ext_loc _ (fun y => Rpower (- y) p) x _ (- x) ltac:(lra)).
    + intros y Hy. rewrite Rabs_left by lra. apply npow_pos. lra.
    + rewrite Rabs_left, npow_pos by lra.
      apply (derivable_pt_lim_comp Ropp (fun z => Rpower z p) x (-1) (p * Rpower (- x) (p - 1))); [|apply derivable_pt_lim_power; lra].
      apply (dl_of_affine _ 0 (-1)). intros; ring.
  - assert (x = 0) by lra. subst x. destruct H as [P|P]; [|lra]. rewrite Rmult_0_r. intros eps He.
    assert (D : 0 < Rpower eps (/ (p - 1))) by apply exp_pos. exists (mkposreal _ D). intros h Hh Hd. cbn [pos] in Hd.
    rewrite Rplus_0_l, Rabs_R0. unfold npow at 2. destruct (Req_EM_T 0 0); [|lra]. destruct (Req_EM_T p 0); [lra|].
    assert (AP : 0 < Rabs h) by now apply Rabs_pos_lt. rewrite npow_pos by easy. rewrite !Rminus_0_r. unfold Rdiv. rewrite Rabs_mult, Rabs_inv.
    rewrite (Rabs_right (Rpower (Rabs h) p)) by (left; apply exp_pos).
    replace p with ((p - 1) + 1) at 1 by ring. rewrite Rpower_plus, Rpower_1 by easy.
    replace (Rpower (Rabs h) (p - 1) * Rabs h * / Rabs h) with (Rpower (Rabs h) (p - 1)) by (field; lra).
    assert (E : Rpower (Rpower eps (/ (p - 1))) (p - 1) = eps).
    { rewrite Rpower_mult. replace (/ (p - 1) * (p - 1)) with 1 by (field; lra). now apply Rpower_1. }
    rewrite <- E. unfold Rpower. apply exp_increasing. apply Rmult_lt_compat_l; [lra|]. now apply ln_increasing.
Qed.
(** With respect to the exponent. *)
Lemma npow_exp_dl a p : 0 <= a -> 0 < p -> derivable_pt_lim (fun t => npow a (p + t)) 0 (npow a p * nlog a).
Proof.
  intros A P. unfold nlog. destruct (Req_EM_T a 0) as [->|N].
  - apply (dl_ext_loc _ (fun _ => 0) 0 _ p P).
    + intros y Hy. unfold npow. destruct (Req_EM_T 0 0); [|easy]. destruct (Req_EM_T (p + y) 0); [lra|easy].
    + rewrite Rmult_0_r. apply (derivable_pt_lim_const 0).
  - apply (dl_ext _ (fun t => exp (p * ln a + t * ln a))).
    + intros y. rewrite npow_pos by lra. unfold Rpower. f_equal. ring.
    + rewrite npow_pos by lra. unfold Rpower.
      eapply dl_eq; [apply (derivable_pt_lim_comp (fun t => p * ln a + t * ln a) exp 0 (ln a)); [|apply derivable_pt_lim_exp]|].
      * apply (dl_of_affine _ (p * ln a) (ln a)). intros; ring.
      * cbn beta. replace (p * ln a + 0 * ln a) with (p * ln a) by ring. reflexivity.
Qed.

(** ** Forward substitution *)
Section Forward.
  Variable L : nat -> nat -> R.
  Lemma forward_length b n : length (forward L b n) = n.
  Proof. induction n as [|n IH]; [easy|]. cbn [forward]. rewrite app_length, IH. cbn. lia. Qed.
  Lemma forward_prefix b n : forall k j, (j < n)%nat -> nth j (forward L b (n + k)) 0 = nth j (forward L b n) 0.
  Proof.
    induction k as [|k IH]; intros j Hj; [now rewrite Nat.add_0_r|]. rewrite Nat.add_succ_r. cbn [forward].
    rewrite app_nth1 by (rewrite forward_length; lia). now apply IH.
  Qed.
  Definition fw (b : nat -> R) (i : nat) : R := nth i (forward L b (S i)) 0.
  Lemma forward_fw b n i : (i < n)%nat -> nth i (forward L b n) 0 = fw b i.
  Proof. intros H. unfold fw. replace n with (S i + (n - S i))%nat by lia. apply forward_prefix. lia. Qed.
  Lemma fw_step b i : fw b i = (b i - lsum (seq 0 i) (fun j => L i j * fw b j)) / L i i.
  Proof.
    unfold fw at 1. cbn [forward]. rewrite app_nth2 by (rewrite forward_length; lia). rewrite forward_length, Nat.sub_diag. cbn [nth].
    f_equal. f_equal. rewrite np_sum_lsum. apply lsum_ext. intros j Hj. apply in_range in Hj. now rewrite forward_fw.
  Qed.
  Lemma fw_ext b b' n : (forall i, (i < n)%nat -> b i = b' i) -> forall i, (i < n)%nat -> fw b i = fw b' i.
  Proof.
    intros H. assert (ST : forall m i, (i < m)%nat -> (i < n)%nat -> fw b i = fw b' i).
    { induction m as [|m IH]; [lia|]. intros i Hi Hn. rewrite (fw_step b), (fw_step b'), H by easy. f_equal. f_equal.
      apply lsum_ext. intros j Hj. apply in_range in Hj. now rewrite IH by lia. }
    intros i Hi. apply (ST (S i)); lia.
  Qed.
  Lemma fw_linear {A} (S0 : list A) (c : A -> R) (B : A -> nat -> R) : forall i, fw (fun a => lsum S0 (fun s => c s * B s a)) i = lsum S0 (fun s => c s * fw (B s) i).
  Proof.
    assert (ST : forall m i, (i < m)%nat -> fw (fun a => lsum S0 (fun s => c s * B s a)) i = lsum S0 (fun s => c s * fw (B s) i)).
    { induction m as [|m IH]; [lia|]. intros i Hi. rewrite fw_step.
      rewrite (lsum_ext (seq 0 i) _ (fun j => lsum S0 (fun s => c s * (L i j * fw (B s) j)))).
      2:{ intros j Hj. apply in_range in Hj. rewrite IH by lia. rewrite <- lsum_scal. apply lsum_ext. intros; ring. }
      rewrite lsum_swap. rewrite (lsum_ext S0 (fun s => c s * fw (B s) i) (fun s => / L i i * (c s * B s i + - lsum (seq 0 i) (fun j => c s * (L i j * fw (B s) j))))).
      2:{ intros s _. rewrite fw_step, lsum_scal. unfold Rdiv. ring. }
      rewrite lsum_scal, lsum_plus. rewrite (lsum_ext S0 (fun s => - lsum (seq 0 i) (fun j => c s * (L i j * fw (B s) j)))
        (fun s => (-1) * lsum (seq 0 i) (fun j => c s * (L i j * fw (B s) j)))) by (intros; ring). rewrite lsum_scal. unfold Rdiv. ring. }
    intros i. apply (ST (S i)); lia.
  Qed.
  Lemma fw_solves b n : (forall i, (i < n)%nat -> L i i <> 0) -> (forall i j, (i < j)%nat -> (j < n)%nat -> L i j = 0) ->
    forall i, (i < n)%nat -> lsum (seq 0 n) (fun j => L i j * fw b j) = b i.
  Proof.
    intros D U i Hi. replace n with (i + (1 + (n - S i)))%nat by lia. rewrite seq_app, lsum_app, seq_app, lsum_app. cbn [seq Nat.add].
    rewrite lsum_one. rewrite (lsum_ext (seq (i + 1) _) _ (fun _ => 0)).
    2:{ intros j Hj. apply in_seq in Hj. rewrite U by lia. ring. }
    rewrite lsum_const, Rmult_0_r, Rplus_0_r. rewrite (fw_step b i) at 1. specialize (D i Hi). rewrite Nat.add_0_l || idtac. field. easy.
  Qed.
End Forward.
