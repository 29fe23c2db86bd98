(** * C59: distances, the norm wave and triangular systems. *)
From Coq Require Import Reals List ZArith Bool Lia Lra.
From Verif Require Import PyBase Deriv_Proofs Corr_Spec Corr_Proofs Pool_Proofs Axis_Model Axis_Spec Axis_Proofs Attn_Proofs Poly_Props Dist_Model Dist_Spec Dist_Proofs.
Import ListNotations.
Open Scope R_scope.
Open Scope list_scope.
Open Scope res_scope.

Lemma dist_ok l r norm n m d : shape l = [n; d] -> shape r = [m; d] -> shape norm = [] ->
  exists y, distance_matrix l r norm = Ok y /\ shape y = [n; m] /\
    forall i j, at_ y [i; j] = lsum (seq 0 d) (fun k => npow (Rabs (at_ l [i; k] - at_ r [j; k])) (at_ norm [])).
Proof.
  intros E1 E2 E3. unfold distance_matrix. rewrite E1, E2, E3, Nat.eqb_refl. eexists. split; [reflexivity|]. split; [easy|].
  intros i j. cbn [at_]. apply np_sum_lsum.
Qed.
(** One pair of rows, moved by [u]. *)
Lemma pair_dl (a u : nat -> R) p d : (1 < p \/ forall k, (k < d)%nat -> a k <> 0) ->
  derivable_pt_lim (fun t => lsum (seq 0 d) (fun k => npow (Rabs (a k + t * u k)) p)) 0
    (lsum (seq 0 d) (fun k => p * npow (Rabs (a k)) (p - 1) * nsign (a k) * u k)).
Proof.
  intros H. apply (dl_lsum (seq 0 d) (fun k t => npow (Rabs (a k + t * u k)) p)). intros k Hk. apply in_range in Hk.
  apply (derivable_pt_lim_comp (fun t => a k + t * u k) (fun y => npow (Rabs y) p) 0 (u k)).
  - apply (dl_of_affine _ (a k) (u k)). intros; ring.
  - replace (a k + 0 * u k) with (a k) by ring. apply npow_dl. destruct H as [H|H]; [now left|right; now apply H].
Qed.

Theorem C59_distance l r norm n m d : shape l = [n; d] -> shape r = [m; d] -> shape norm = [] -> 0 < at_ norm [] ->
  (exists y, distance_matrix l r norm = Ok y /\ shape y = [n; m] /\
     forall i j, (i < n)%nat -> (j < m)%nat -> at_ y [i; j] = distance_at l r d (at_ norm []) i j) /\
  forall g, shape g = [n; m] -> 
    exists Gl Gr Gp, distance_matrix_grad g l r norm 0 = Ok Gl /\ distance_matrix_grad g l r norm 1 = Ok Gr /\ distance_matrix_grad g l r norm 2 = Ok Gp /\
      (1 < at_ norm [] \/ apart l r n m d ->
         gradient_at (fun l' => distance_matrix l' r norm) l g Gl /\ gradient_at (fun r' => distance_matrix l r' norm) r g Gr) /\
      gradient_at (fun p => distance_matrix l r p) norm g Gp.
Proof.
  intros SL SR SN P. set (p := at_ norm []) in *. split.
  - destruct (dist_ok l r norm n m d SL SR SN) as (y & E & SY & H). exists y. split; [easy|]. split; [easy|]. intros i j _ _. rewrite H. unfold distance_at.
    rewrite sum_to_lsum. apply lsum_ext. intros k _. now apply npow_abs.
  - intros g SG. unfold distance_matrix_grad. rewrite SL, SR, SN, SG, !Nat.eqb_refl. cbn [andb]. do 3 eexists. do 3 (split; [reflexivity|]). split.
    + intros A.
      assert (AP : forall i j, (i < n)%nat -> (j < m)%nat -> 1 < p \/ forall k, (k < d)%nat -> at_ l [i; k] - at_ r [j; k] <> 0).
      { intros i j Hi Hj. destruct A as [A|A]; [now left|right]. intros k Hk Z. apply (A i j k Hi Hj Hk). lra. }
      split.
      * split; [easy|]. intros dx. rewrite SL.
        apply (dl_ext _ (fun t => lsum (seq 0 n) (fun i => lsum (seq 0 m) (fun j => at_ g [i; j] *
           lsum (seq 0 d) (fun k => npow (Rabs ((at_ l [i; k] - at_ r [j; k]) + t * dx [i; k])) p))))).
        { intros t. destruct (dist_ok (moved l dx t) r norm n m d SL SR SN) as (y & E & SY & H). rewrite E. cbn [weighted]. rewrite SG, sum_over_two.
          apply lsum_ext. intros i _. apply lsum_ext. intros j _. rewrite H. f_equal. apply lsum_ext. intros k _. cbn [moved at_]. f_equal. f_equal. ring. }
        eapply dl_eq; [apply (dl_lsum (seq 0 n) (fun i t => lsum (seq 0 m) (fun j => at_ g [i; j] *
           lsum (seq 0 d) (fun k => npow (Rabs ((at_ l [i; k] - at_ r [j; k]) + t * dx [i; k])) p)))
           (fun i => lsum (seq 0 m) (fun j => at_ g [i; j] * lsum (seq 0 d) (fun k => diff_grad l r norm i j k * dx [i; k]))))|].
        { intros i Hi. apply in_range in Hi. apply (dl_lsum (seq 0 m) (fun j t => at_ g [i; j] *
           lsum (seq 0 d) (fun k => npow (Rabs ((at_ l [i; k] - at_ r [j; k]) + t * dx [i; k])) p))). intros j Hj. apply in_range in Hj.
          apply dl_scal. apply (pair_dl (fun k => at_ l [i; k] - at_ r [j; k]) (fun k => dx [i; k])). now apply AP. }
        rewrite sum_over_two. apply lsum_ext. intros i _. cbn [at_].
        rewrite (lsum_ext (seq 0 m) _ (fun j => lsum (seq 0 d) (fun k => at_ g [i; j] * (diff_grad l r norm i j k * dx [i; k])))) by (intros; now rewrite lsum_scal).
        rewrite lsum_swap. apply lsum_ext. intros k _. rewrite np_sum_lsum, <- lsum_scal_r. apply lsum_ext. intros; ring.
      * split; [easy|]. intros dx. rewrite SR.
        apply (dl_ext _ (fun t => lsum (seq 0 n) (fun i => lsum (seq 0 m) (fun j => at_ g [i; j] *
           lsum (seq 0 d) (fun k => npow (Rabs ((at_ l [i; k] - at_ r [j; k]) + t * - dx [j; k])) p))))).
        { intros t. destruct (dist_ok l (moved r dx t) norm n m d SL SR SN) as (y & E & SY & H). rewrite E. cbn [weighted]. rewrite SG, sum_over_two.
          apply lsum_ext. intros i _. apply lsum_ext. intros j _. rewrite H. f_equal. apply lsum_ext. intros k _. cbn [moved at_]. f_equal. f_equal. ring. }
        eapply dl_eq; [apply (dl_lsum (seq 0 n) (fun i t => lsum (seq 0 m) (fun j => at_ g [i; j] *
           lsum (seq 0 d) (fun k => npow (Rabs ((at_ l [i; k] - at_ r [j; k]) + t * - dx [j; k])) p)))
           (fun i => lsum (seq 0 m) (fun j => at_ g [i; j] * lsum (seq 0 d) (fun k => diff_grad l r norm i j k * - dx [j; k]))))|].
        { intros i Hi. apply in_range in Hi. apply (dl_lsum (seq 0 m) (fun j t => at_ g [i; j] *
           lsum (seq 0 d) (fun k => npow (Rabs ((at_ l [i; k] - at_ r [j; k]) + t * - dx [j; k])) p))). intros j Hj. apply in_range in Hj.
          apply dl_scal. apply (pair_dl (fun k => at_ l [i; k] - at_ r [j; k]) (fun k => - dx [j; k])). now apply AP. }
        rewrite lsum_swap, sum_over_two. apply lsum_ext. intros j _. cbn [at_].
        rewrite (lsum_ext (seq 0 n) _ (fun i => lsum (seq 0 d) (fun k => at_ g [i; j] * (diff_grad l r norm i j k * - dx [j; k])))) by (intros; now rewrite lsum_scal).
        rewrite lsum_swap. apply lsum_ext. intros k _. rewrite np_sum_lsum, <- lsum_scal_r. apply lsum_ext. intros; ring.
    + split; [easy|]. intros dx. rewrite SN. cbn [sum_over at_]. fold p.
      apply (dl_ext _ (fun t => lsum (seq 0 n) (fun i => lsum (seq 0 m) (fun j => at_ g [i; j] *
           lsum (seq 0 d) (fun k => npow (Rabs (at_ l [i; k] - at_ r [j; k])) (p + t * dx [])))))).
      { intros t. destruct (dist_ok l r (moved norm dx t) n m d SL SR SN) as (y & E & SY & H). rewrite E. cbn [weighted]. rewrite SG, sum_over_two.
        apply lsum_ext. intros i _. apply lsum_ext. intros j _. now rewrite H. }
      eapply dl_eq; [apply (dl_lsum (seq 0 n) (fun i t => lsum (seq 0 m) (fun j => at_ g [i; j] *
           lsum (seq 0 d) (fun k => npow (Rabs (at_ l [i; k] - at_ r [j; k])) (p + t * dx []))))
           (fun i => lsum (seq 0 m) (fun j => at_ g [i; j] * lsum (seq 0 d) (fun k => npow (Rabs (diff_at l r i j k)) p * nlog (Rabs (diff_at l r i j k)) * dx []))))|].
      { intros i Hi. apply in_range in Hi. apply (dl_lsum (seq 0 m) (fun j t => at_ g [i; j] *
           lsum (seq 0 d) (fun k => npow (Rabs (at_ l [i; k] - at_ r [j; k])) (p + t * dx [])))). intros j Hj.
        apply dl_scal. apply (dl_lsum (seq 0 d) (fun k t => npow (Rabs (at_ l [i; k] - at_ r [j; k])) (p + t * dx []))). intros k _.
        apply (derivable_pt_lim_comp (fun t => t * dx []) (fun y => npow (Rabs (at_ l [i; k] - at_ r [j; k])) (p + y)) 0 (dx [])).
        - apply (dl_of_affine _ 0 (dx [])). intros; ring.
        - rewrite Rmult_0_l. apply npow_exp_dl; [apply Rabs_pos|easy]. }
      rewrite np_sum_lsum, <- lsum_scal_r. apply lsum_ext. intros i _. rewrite np_sum_lsum, <- lsum_scal_r. apply lsum_ext. intros j _.
      rewrite np_sum_lsum, lsum_scal_r. ring.
Qed.

(** ** The norm wave *)
Lemma int_part_unique a k : IZR k <= a < IZR k + 1 -> Int_part a = k.
Proof.
  intros H. destruct (base_Int_part a) as [A B]. assert (X : (Int_part a < k + 1)%Z) by (apply lt_IZR; rewrite plus_IZR; lra).
  assert (Y : (k < Int_part a + 1)%Z) by (apply lt_IZR; rewrite plus_IZR; lra). lia.
Qed.
Lemma inner_at k x : 8 * IZR k + 1 <= x < 8 * IZR k + 9 -> inner_term x = (x - 5 - 8 * IZR k) / 8.
Proof. intros H. unfold inner_term, mod8. rewrite (int_part_unique _ k) by lra. field. Qed.
Lemma wave_at k x : 8 * IZR k + 1 <= x < 8 * IZR k + 9 -> norm_modifier x = 5 - Rabs (x - 5 - 8 * IZR k).
Proof.
  intros H. unfold norm_modifier. rewrite (inner_at k) by easy. unfold Rdiv. rewrite Rabs_mult, (Rabs_right (/ 8)) by lra. field.
Qed.
Lemma period x : exists k, 8 * IZR k + 1 <= x < 8 * IZR k + 9.
Proof. exists (Int_part ((x - 1) / 8)). destruct (base_Int_part ((x - 1) / 8)). lra. Qed.
(** The wave has period 8, is the identity on [1, 5] and falls back to 1 on [5, 9]. *)
Theorem C59_wave x k :
  (8 * IZR k + 1 <= x <= 8 * IZR k + 5 -> norm_modifier x = x - 8 * IZR k) /\
  (8 * IZR k + 5 <= x <= 8 * IZR k + 9 -> norm_modifier x = 10 + 8 * IZR k - x) /\
  1 <= norm_modifier x <= 5.
Proof.
  split; [|split].
  - intros H. rewrite (wave_at k) by lra. rewrite Rabs_left1; lra.
  - intros H. destruct (Req_dec x (8 * IZR k + 9)) as [E|N].
    + rewrite (wave_at (k + 1)) by (rewrite plus_IZR; lra). rewrite plus_IZR, Rabs_left1; lra.
    + rewrite (wave_at k) by lra. rewrite Rabs_right; lra.
  - destruct (period x) as [j Hj]. rewrite (wave_at j) by easy. assert (Rabs (x - 5 - 8 * IZR j) <= 4) by (apply Rabs_le; lra).
    pose proof (Rabs_pos (x - 5 - 8 * IZR j)). lra.
Qed.
(** Its gradient, except at the turning points. *)
Theorem C59_wave_gradient g x : (forall k, x <> 4 * IZR k + 1) ->
  derivable_pt_lim (fun y => g * norm_modifier y) x (norm_modifier_grad g x).
Proof.
  intros N. destruct (period x) as [k Hk]. pose proof (N (2 * k)%Z) as N1. pose proof (N (2 * k + 1)%Z) as N2. rewrite ?plus_IZR, ?mult_IZR in *.
  assert (X1 : x <> 8 * IZR k + 1) by lra. assert (X2 : x <> 8 * IZR k + 5) by lra. clear N N1 N2.
  unfold norm_modifier_grad. rewrite (inner_at k) by easy. destruct (Req_EM_T ((x - 5 - 8 * IZR k) / 8) 0) as [E|_]; [lra|].
  destruct (Rlt_dec 0 ((x - 5 - 8 * IZR k) / 8)) as [U|U].
  - apply (dl_ext_loc _ (fun y => g * (10 + 8 * IZR k - y)) x _ (Rmin (x - (8 * IZR k + 5)) (8 * IZR k + 9 - x))).
    + apply Rmin_glb_lt; lra.
    + intros y Hy. pose proof (Rmin_l (x - (8 * IZR k + 5)) (8 * IZR k + 9 - x)). pose proof (Rmin_r (x - (8 * IZR k + 5)) (8 * IZR k + 9 - x)).
      f_equal. apply (C59_wave y k). lra.
    + apply (dl_of_affine _ (g * (10 + 8 * IZR k)) (- g)). intros; ring.
  - apply (dl_ext_loc _ (fun y => g * (y - 8 * IZR k)) x _ (Rmin (x - (8 * IZR k + 1)) (8 * IZR k + 5 - x))).
    + apply Rmin_glb_lt; lra.
    + intros y Hy. pose proof (Rmin_l (x - (8 * IZR k + 1)) (8 * IZR k + 5 - x)). pose proof (Rmin_r (x - (8 * IZR k + 1)) (8 * IZR k + 5 - x)).
      f_equal. apply (C59_wave y k). lra.
    + apply (dl_of_affine _ (- g * (8 * IZR k)) g). intros; ring.
Qed.

(** ** Triangular systems *)
Lemma solve_ok L K n m : lower L n -> shape K = [n; m] ->
  exists v, solve_lower L K = Ok v /\ shape v = [n; m] /\ forall i c, (i < n)%nat -> at_ v [i; c] = fw (fun a b => at_ L [a; b]) (fun a => at_ K [a; c]) i.
Proof.
  intros (SL & D & _) SK. unfold solve_lower. rewrite SL, SK, !Nat.eqb_refl. cbn [andb].
  assert (F : forallb (fun i => if Req_EM_T (at_ L [i; i]) 0 then false else true) (seq 0 n) = true).
  { apply forallb_forall. intros i Hi. apply in_range in Hi. specialize (D i Hi). destruct (Req_EM_T (at_ L [i; i]) 0); easy. }
  rewrite F. eexists. split; [reflexivity|]. split; [easy|]. intros i c Hi. cbn [at_]. now apply forward_fw.
Qed.
Theorem C59_solve L K n m : lower L n -> shape K = [n; m] -> exists v, solve_lower L K = Ok v /\ solves L v K n m.
Proof.
  intros HL SK. destruct (solve_ok L K n m HL SK) as (v & E & SV & H). exists v. split; [easy|]. split; [easy|]. intros i c Hi Hc. rewrite sum_to_lsum.
  rewrite (lsum_ext (seq 0 n) _ (fun j => at_ L [i; j] * fw (fun a b => at_ L [a; b]) (fun a => at_ K [a; c]) j)).
  2:{ intros j Hj. apply in_range in Hj. now rewrite H. }
  destruct HL as (_ & D & U). now apply (fw_solves (fun a b => at_ L [a; b])).
Qed.
(** Twice the same system has the same solution. *)
Lemma solves_unique L K v w n m : lower L n -> solves L v K n m -> solves L w K n m ->
  forall i c, (i < n)%nat -> (c < m)%nat -> at_ v [i; c] = at_ w [i; c].
Proof.
  intros (_ & D & U) [_ A] [_ B] i c Hi Hc.
  assert (ST : forall k i, (i < k)%nat -> (i < n)%nat -> at_ v [i; c] = at_ w [i; c]).
  { clear i Hi. induction k as [|k IH]; [lia|]. intros i Hi Hn. specialize (A i c Hn Hc). specialize (B i c Hn Hc). rewrite sum_to_lsum in *.
    revert A B. replace n with (i + (1 + (n - S i)))%nat by lia. rewrite seq_app, !lsum_app, seq_app, !lsum_app. cbn [seq Nat.add]. rewrite !lsum_one.
    rewrite (lsum_ext (seq (i + 1) (n - S i)) (fun j => at_ L [i; j] * at_ v [j; c]) (fun _ => 0)).
    2:{ intros j Hj. apply in_seq in Hj. rewrite U by lia. ring. }
    rewrite (lsum_ext (seq (i + 1) (n - S i)) (fun j => at_ L [i; j] * at_ w [j; c]) (fun _ => 0)).
    2:{ intros j Hj. apply in_seq in Hj. rewrite U by lia. ring. }
    rewrite (lsum_ext (seq 0 i) (fun j => at_ L [i; j] * at_ v [j; c]) (fun j => at_ L [i; j] * at_ w [j; c])).
    2:{ intros j Hj. apply in_range in Hj. rewrite IH; [easy|lia|lia]. }
    intros A B. specialize (D i Hn). apply (Rmult_eq_reg_l (at_ L [i; i])); [lra|easy]. }
  apply (ST (S i)); lia.
Qed.
Theorem C59_outer K L n m : lower L n -> shape K = [n; m] ->
  (exists y, gpr_v_outer K L = Ok y /\ shape y = [m; m] /\
     forall v, solves L v K n m -> forall a b, (a < m)%nat -> (b < m)%nat -> at_ y [a; b] = sum_to n (fun i => at_ v [i; a] * at_ v [i; b])) /\
  forall g, shape g = [m; m] -> exists G, gpr_v_outer_grad g K L 0 = Ok G /\ gradient_at (fun K' => gpr_v_outer K' L) K g G.
Proof.
  intros HL SK. set (LL := fun a b => at_ L [a; b]).
  assert (OUT : forall K', shape K' = [n; m] -> exists y, gpr_v_outer K' L = Ok y /\ shape y = [m; m] /\
     forall a b, at_ y [a; b] = lsum (seq 0 n) (fun i => fw LL (fun j => at_ K' [j; a]) i * fw LL (fun j => at_ K' [j; b]) i)).
  { intros K' SK'. destruct (solve_ok L K' n m HL SK') as (v & E & SV & H). unfold gpr_v_outer. rewrite E. cbn [bind]. rewrite SV.
    eexists. split; [reflexivity|]. split; [easy|]. intros a b. cbn [at_]. rewrite np_sum_lsum. apply lsum_ext. intros i Hi. apply in_range in Hi. now rewrite !H. }
  split.
  - destruct (OUT K SK) as (y & E & SY & H). exists y. split; [easy|]. split; [easy|]. intros v Hv a b Ha Hb.
    destruct (solve_ok L K n m HL SK) as (w & Ew & SW & HW). destruct (C59_solve L K n m HL SK) as (w' & Ew' & Sw). rewrite Ew in Ew'. injection Ew' as <-.
    rewrite H, sum_to_lsum. apply lsum_ext. intros i Hi. apply in_range in Hi. rewrite !(solves_unique L K v w n m HL Hv Sw) by easy. now rewrite !HW.
  - intros g SG. unfold gpr_v_outer_grad. rewrite SK, SG, !Nat.eqb_refl. cbn [andb].
    destruct (solve_ok L K n m HL SK) as (v & E & SV & H). rewrite E. cbn [bind].
    unfold inv_lower. destruct HL as (SL & HL2). pose proof (conj SL HL2 : lower L n) as HL. rewrite SL.
    set (I := mka [n; n] (fun o => match o with [i; j] => if Nat.eqb i j then 1 else 0 | _ => 0 end)).
    destruct (solve_ok L I n n HL eq_refl) as (li & Ei & Si & Hi). rewrite Ei. cbn [bind]. eexists. split; [reflexivity|]. split; [easy|]. intros dx. rewrite SK, sum_over_two. cbn [at_].
    pose (V c i := fw LL (fun j => at_ K [j; c]) i). pose (W c i := fw LL (fun j => dx [j; c]) i).
    assert (WI : forall c i, (i < n)%nat -> W c i = lsum (seq 0 n) (fun j => dx [j; c] * at_ li [i; j])).
    { intros c i Hi0. unfold W. rewrite (fw_ext LL _ (fun a => lsum (seq 0 n) (fun j => dx [j; c] * at_ I [a; j])) n) with (i := i); [|clear i Hi0|easy].
      - rewrite (fw_linear LL (seq 0 n) (fun j => dx [j; c]) (fun j a => at_ I [a; j])). apply lsum_ext. intros j _. now rewrite Hi.
      - intros a Ha. cbn [I at_].
        rewrite (lsum_ext (seq 0 n) _ (fun j => if Nat.eqb a j then dx [j; c] else 0)) by (intros j _; destruct (Nat.eqb a j); ring).
        replace n with (a + (1 + (n - S a)))%nat by lia. rewrite seq_app, lsum_app, seq_app, lsum_app. cbn [seq Nat.add]. rewrite lsum_one, Nat.eqb_refl.
        rewrite (lsum_ext (seq 0 a) _ (fun _ => 0)) by (intros j Hj; apply in_range in Hj; destruct (Nat.eqb_spec a j); [lia|easy]).
        rewrite (lsum_ext (seq (a + 1) _) _ (fun _ => 0)) by (intros j Hj; apply in_seq in Hj; destruct (Nat.eqb_spec a j); [lia|easy]).
        rewrite !lsum_const. ring. }
    assert (VT : forall t c i, fw LL (fun j => at_ (moved K dx t) [j; c]) i = V c i + t * W c i).
    { intros t c i. unfold V, W.
      transitivity (fw LL (fun a => lsum [true; false] (fun s => (if s then 1 else t) * (if s then at_ K [a; c] else dx [a; c]))) i).
      - apply (fw_ext LL _ _ (S i)); [|lia]. intros a _. rewrite lsum_cons, lsum_one. cbn [moved at_]. ring.
      - rewrite (fw_linear LL [true; false] (fun s : bool => if s then 1 else t) (fun s j => if s then at_ K [j; c] else dx [j; c]) i).
        rewrite lsum_cons, lsum_one. ring. }
    apply (dl_ext _ (fun t => lsum (seq 0 m) (fun a => lsum (seq 0 m) (fun b => at_ g [a; b] * lsum (seq 0 n) (fun i => (V a i + t * W a i) * (V b i + t * W b i)))))).
    { intros t. destruct (OUT (moved K dx t) SK) as (y & Ey & SY & HY). rewrite Ey. cbn [weighted]. rewrite SG, sum_over_two. apply lsum_ext. intros a _. apply lsum_ext. intros b _.
      rewrite HY. f_equal. apply lsum_ext. intros i _. now rewrite !VT. }
    eapply dl_eq; [apply (dl_lsum (seq 0 m) (fun a t => lsum (seq 0 m) (fun b => at_ g [a; b] * lsum (seq 0 n) (fun i => (V a i + t * W a i) * (V b i + t * W b i))))
       (fun a => lsum (seq 0 m) (fun b => at_ g [a; b] * lsum (seq 0 n) (fun i => W a i * V b i + V a i * W b i))))|].
    { intros a _. apply (dl_lsum (seq 0 m) (fun b t => at_ g [a; b] * lsum (seq 0 n) (fun i => (V a i + t * W a i) * (V b i + t * W b i)))). intros b _. apply dl_scal.
      apply (dl_lsum (seq 0 n) (fun i t => (V a i + t * W a i) * (V b i + t * W b i))). intros i _.
      eapply dl_eq; [apply (derivable_pt_lim_mult (fun t => V a i + t * W a i) (fun t => V b i + t * W b i) 0 (W a i) (W b i)); [apply (dl_of_affine _ (V a i) (W a i)); intros; ring|apply (dl_of_affine _ (V b i) (W b i)); intros; ring]|].
      cbn beta. ring. }
    (* the sum over [a, b] as a sum over [a] against the symmetric part of the gradient *)
    transitivity (lsum (seq 0 m) (fun a => lsum (seq 0 n) (fun i => W a i * (lsum (seq 0 m) (fun b => at_ g [a; b] * V b i) + lsum (seq 0 m) (fun b => V b i * at_ g [b; a]))))).
    { transitivity (lsum (seq 0 m) (fun a => lsum (seq 0 m) (fun b => lsum (seq 0 n) (fun i => at_ g [a; b] * (W a i * V b i)))) +
                    lsum (seq 0 m) (fun a => lsum (seq 0 m) (fun b => lsum (seq 0 n) (fun i => at_ g [b; a] * (V b i * W a i))))).
      - rewrite (lsum_swap (seq 0 m) (seq 0 m) (fun a b => lsum (seq 0 n) (fun i => at_ g [b; a] * (V b i * W a i)))). rewrite <- lsum_plus. apply lsum_ext. intros a _.
        rewrite <- lsum_plus. apply lsum_ext. intros b _. rewrite <- lsum_plus, <- lsum_scal. apply lsum_ext. intros i _. ring.
      - rewrite <- lsum_plus. apply lsum_ext. intros a _.
        rewrite (lsum_swap (seq 0 m) (seq 0 n) (fun b i => at_ g [a; b] * (W a i * V b i))), (lsum_swap (seq 0 m) (seq 0 n) (fun b i => at_ g [b; a] * (V b i * W a i))).
        rewrite <- lsum_plus. apply lsum_ext. intros i _. rewrite Rmult_plus_distr_l, <- !lsum_scal. f_equal; apply lsum_ext; intros b _; ring. }
    rewrite (lsum_swap (seq 0 n) (seq 0 m)). apply lsum_ext. intros a _.
    rewrite (lsum_ext (seq 0 n) _ (fun i => lsum (seq 0 n) (fun j => dx [j; a] * at_ li [i; j] * (lsum (seq 0 m) (fun b => at_ g [a; b] * V b i) + lsum (seq 0 m) (fun b => V b i * at_ g [b; a]))))).
    2:{ intros i Hi0. apply in_range in Hi0. now rewrite WI, <- lsum_scal_r. }
    rewrite lsum_swap. apply lsum_ext. intros j _. rewrite np_sum_lsum, <- lsum_scal_r. apply lsum_ext. intros i Hi0. apply in_range in Hi0. rewrite !np_sum_lsum.
    rewrite (lsum_ext (seq 0 m) (fun b => at_ g [a; b] * at_ v [i; b]) (fun b => at_ g [a; b] * V b i)) by (intros; now rewrite H).
    rewrite (lsum_ext (seq 0 m) (fun b => at_ v [i; b] * at_ g [b; a]) (fun b => V b i * at_ g [b; a])) by (intros; now rewrite H). ring.
Qed.
(** The gradient with respect to the factor is another function. *)
Theorem C59_outer_factor_refuted : exists K L g G, lower L 1 /\ shape K = [1; 1]%nat /\ shape g = [1; 1]%nat /\
  gpr_v_outer_grad g K L 2 = Ok G /\ shape G = shape L /\ ~ gradient_at (fun L' => gpr_v_outer K L') L g G.
Proof.
  set (c := fun r : R => mka [1; 1]%nat (fun _ => r)). exists (c 2), (c 1), (c 1).
  assert (HL : lower (c 1) 1) by (split; [easy|]; split; [intros; cbn; lra|lia]).
  assert (EG : exists G, gpr_v_outer_grad (c 1) (c 2) (c 1) 2 = Ok G /\ shape G = [1; 1]%nat /\ at_ G [0; 0]%nat = -2).
  { set (I := mka [1; 1]%nat (fun o => match o with [i; j] => if Nat.eqb i j then 1 else 0 | _ => 0 end)).
    destruct (solve_ok (c 1) I 1 1 HL eq_refl) as (li & Ei & Si & Hi).
    assert (LI : at_ li [0; 0]%nat = 1) by (rewrite Hi by lia; unfold fw; cbn; field).
    unfold gpr_v_outer_grad, inv_lower. change (shape (c 2)) with [1; 1]%nat. change (shape (c 1)) with [1; 1]%nat. cbn [Nat.eqb andb]. fold I. rewrite Ei. cbn [bind].
    eexists. split; [reflexivity|]. split; [easy|]. cbn [at_ Nat.leb map seq np_sum c]. rewrite LI. ring. }
  destruct EG as (G & EG & SG & GV). exists G. split; [exact HL|]. do 2 (split; [easy|]). split; [exact EG|].
  split; [exact SG|]. intros [_ H]. specialize (H (fun _ => 1)). change (shape (c 1)) with [1; 1]%nat in H. unfold sum_over, sum_to in H. cbn [map fold_right seq] in H. rewrite GV in H.
  set (f := fun t => weighted _ _) in H.
  assert (D : derivable_pt_lim f 0 (-8)).
  { apply (dl_ext_loc _ (fun t => 4 / ((1 + t) * (1 + t))) 0 _ 1 ltac:(lra)).
    - intros t Ht. change (f t) with (weighted (c 1) (gpr_v_outer (c 2) (mka [1; 1]%nat (fun _ => 1 + t * 1)))).
      assert (HT : lower (mka [1; 1]%nat (fun _ => 1 + t * 1)) 1) by (split; [easy|]; split; [intros; cbn; lra|lia]).
      destruct (C59_outer (c 2) _ 1 1 HT eq_refl) as [(y & Ey & SY & HY) _]. destruct (C59_solve _ (c 2) 1 1 HT eq_refl) as (v & _ & Hv).
      rewrite Ey. cbn [weighted]. unfold sum_over, sum_to. cbn [c map fold_right seq at_ shape].
      rewrite (HY v Hv) by lia. pose proof (proj2 Hv 0%nat 0%nat ltac:(lia) ltac:(lia)) as Q. unfold sum_to in *. cbn in Q. cbn [map fold_right seq].
      assert (V0 : at_ v [0; 0]%nat = 2 / (1 + t)) by (apply (Rmult_eq_reg_l (1 + t)); [field_simplify; lra|lra]). rewrite V0. field. lra.
    - eapply dl_eq; [apply (derivable_pt_lim_div (fun _ => 4) (fun t => (1 + t) * (1 + t)) 0 0 2)|unfold Rsqr; field].
      + apply (derivable_pt_lim_const 4).
      + eapply dl_eq; [apply (derivable_pt_lim_mult (fun t => 1 + t) (fun t => 1 + t) 0 1 1); apply (dl_of_affine _ 1 1); intros; ring|ring].
      + lra. }
  pose proof (uniqueness_limite _ _ _ _ H D). lra.
Qed.
(** The gradient of the diagonal ignores the output gradient; and the result has one axis where the model declares two. *)
Theorem C59_eigvalsh_refuted : exists L g y G, lower L 1 /\ eigvalsh L = Ok y /\ shape y = [1]%nat /\ shape g = shape y /\
  eigvalsh_grad g L = Ok G /\ shape G = shape L /\ ~ gradient_at eigvalsh L g G.
Proof.
  exists (mka [1; 1]%nat (fun _ => 1)), (mka [1]%nat (fun _ => 2)). do 2 eexists.
  split; [split; [easy|]; split; [intros; cbn; lra|lia]|]. split; [reflexivity|]. do 2 (split; [easy|]). split; [reflexivity|]. split; [easy|].
  intros [_ H]. specialize (H (fun _ => 1)). cbn in H.
  assert (D : derivable_pt_lim (fun t : R => 2 * (1 + t * 1) + 0) 0 2) by (apply (dl_of_affine _ 2 2); intros; ring).
  pose proof (uniqueness_limite _ _ _ _ H D). lra.
Qed.

(** ** The hypotheses are met *)
Example C59_distance_case : exists l r norm, shape l = [2; 3]%nat /\ shape r = [4; 3]%nat /\ shape norm = [] /\ 0 < at_ norm [] /\ 1 < at_ norm [] /\ apart l r 2 4 3.
Proof.
  exists (mka [2; 3]%nat (fun _ => 1)), (mka [4; 3]%nat (fun _ => 2)), (mka [] (fun _ => 2)). repeat split; try easy; cbn; try lra. intros i j k _ _ _. cbn. lra.
Qed.
Example C59_wave_case : 8 * IZR (-1) + 1 <= -6 <= 8 * IZR (-1) + 5 /\ forall k, 2 <> 4 * IZR k + 1.
Proof.
  split; [lra|]. intros k H. assert (E : IZR 2 = IZR (4 * k + 1)) by (rewrite plus_IZR, mult_IZR; lra). apply eq_IZR in E. lia.
Qed.
Example C59_lower_case : exists L, lower L 3 /\ at_ L [2; 0]%nat <> 0.
Proof.
  exists (mka [3; 3]%nat (fun o => match o with [i; j] => if Nat.leb j i then 2 else 0 | _ => 0 end)). split; [|cbn; lra]. split; [easy|]. cbn [at_]. split.
  - intros i _. rewrite Nat.leb_refl. lra.
  - intros i j H _. destruct (Nat.leb_spec j i); [lia|easy].
Qed.
Print Assumptions C59_distance.
Print Assumptions C59_wave.
Print Assumptions C59_wave_gradient.
Print Assumptions C59_solve.
Print Assumptions C59_outer.
Print Assumptions C59_outer_factor_refuted.
Print Assumptions C59_eigvalsh_refuted.
