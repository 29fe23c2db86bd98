(** * C51: the convolutions of the numpy backend and their gradients *)
From Coq Require Import Reals List ZArith Lia Lra Arith.
From Verif Require Import PyBase Deriv_Proofs Deriv_Binary Corr_Model Corr_Spec Corr_Proofs.
Import ListNotations.
Open Scope R_scope.
Open Scope list_scope.

(** ** One dimension *)
Lemma sub1 oob x ow k p0 p1 s : exists sub,
  get_submatrices1d oob x (Z.of_nat ow) k p0 p1 s = Ok sub
  /\ d40 sub = d30 x /\ d41 sub = d31 x /\ d42 sub = ow /\ d43 sub = k
  /\ forall n i u l, (u * s + l < p0 + d32 x + p1)%nat ->
       at4 sub n i u l = total (d32 x) (fun q => meets s p0 u l q * at3 x n i q).
Proof.
  unfold get_submatrices1d. rewrite dimension_of_nat. cbn [bind]. eexists. split; [reflexivity|].
  cbn [d40 d41 d42 d43 at4]. do 4 (split; [reflexivity|]).
  intros n i u l H. rewrite <- signal_meets.
  destruct (andb (Nat.eqb p0 0) (Nat.eqb p1 0)) eqn:E.
  - apply andb_prop in E. destruct E as [E0 E1]. apply Nat.eqb_eq in E0, E1. subst p0 p1.
    destruct (Nat.ltb_spec (u * s + l) (d32 x)) as [G|G]; [|lia].
    unfold signal.
    assert (A : (0 <=? Z.of_nat u * Z.of_nat s + Z.of_nat l - Z.of_nat 0)%Z = true) by (apply Z.leb_le; lia).
    assert (B : (Z.of_nat u * Z.of_nat s + Z.of_nat l - Z.of_nat 0 <? Z.of_nat (d32 x))%Z = true)
      by (apply Z.ltb_lt; lia).
    rewrite A, B. cbn [andb]. f_equal. lia.
  - cbn [d32 at3]. destruct (Nat.ltb_spec (u * s + l) (p0 + d32 x + p1)); [|lia].
    rewrite pad_axis_signal. f_equal. lia.
Qed.

Lemma meets_one s p u l q : (u * s + l = p + q)%nat -> meets s p u l q = 1.
Proof. unfold meets. intros ->. now rewrite Nat.eqb_refl. Qed.

(** Correlation over [meets]. *)
Lemma correlation1_meets x k s p n o w :
  correlation1 x k s p n o w
  = total (d31 x) (fun i => total (d32 k) (fun l =>
      total (d32 x) (fun q => meets s p w l q * at3 x n i q) * at3 k o i l)).
Proof.
  unfold correlation1. apply total_ext; intros i _. apply total_ext; intros l _.
  now rewrite signal_meets.
Qed.

(** C51: with a step of at least one, equal numbers of input channels and a kernel that is not wider
    than the padded input, [conv1d] gives the correlation of the zero-padded rows with the kernel,
    one entry for each position of the kernel.  It never depends on memory outside of the input. *)
Theorem C51_conv1d : forall oob x k s p0 p1,
  (0 < s)%nat -> d31 x = d31 k -> (d32 k <= p0 + d32 x + p1)%nat ->
  exists y, conv1d oob x k s p0 p1 1 = Ok y
  /\ d30 y = d30 x /\ d31 y = d30 k /\ d32 y = positions (d32 x) (d32 k) p0 p1 s
  /\ forall n o w, (w < d32 y)%nat -> at3 y n o w = correlation1 x k s p0 n o w.
Proof.
  intros oob x k s p0 p1 Hs Hc Hk. unfold conv1d. cbn [Nat.eqb negb].
  rewrite window_count_ok by assumption. cbn [bind].
  destruct (sub1 oob x (positions (d32 x) (d32 k) p0 p1 s) (d32 k) p0 p1 s)
    as (sub & -> & D0 & D1 & D2 & D3 & A). cbn [bind].
  rewrite Hc, Nat.eqb_refl. cbn [negb]. eexists. split; [reflexivity|]. cbn [d30 d31 d32 at3].
  do 3 (split; [auto|]). intros n o w Hw. rewrite correlation1_meets, rsum_total, D1.
  apply total_ext; intros i _. rewrite rsum_total, D3. apply total_ext; intros l Hl.
  rewrite A; [reflexivity|]. rewrite D2 in Hw. now apply (window_in _ (d32 k)).
Qed.
Print Assumptions C51_conv1d.

Example C51_conv1d_nonvacuous :
  let x := mk3 1 1 4 (fun _ _ j => INR j) in
  let k := mk3 1 1 3 (fun _ _ l => INR (l + 1)) in
  (0 < 2)%nat /\ d31 x = d31 k /\ (d32 k <= 1 + d32 x + 1)%nat /\ positions 4 3 1 1 2 = 2%nat
  /\ correlation1 x k 2 1 0 0 1 = 14.
Proof. cbn [d31 d32]. repeat split; try lia. cbn. change (Pos.to_nat 1) with 1%nat. change (Pos.to_nat 2) with 2%nat. change (Pos.to_nat 3) with 3%nat. cbn. lra. Qed.

(** C51: nothing else succeeds: no other dilation, no step of zero, no other number of channels; a
    kernel wider than the padded input gives no entry at all. *)
Theorem C51_conv1d_only : forall oob x k s p0 p1 dil y,
  conv1d oob x k s p0 p1 dil = Ok y ->
  dil = 1%nat /\ (0 < s)%nat /\ d31 x = d31 k
  /\ (d32 k <= p0 + d32 x + p1 \/ d32 y = 0)%nat.
Proof.
  intros oob x k s p0 p1 dil y. unfold conv1d.
  destruct (Nat.eqb_spec dil 1) as [->|]; cbn [negb]; [|discriminate].
  unfold window_count. destruct (Nat.eqb_spec s 0) as [|Hs]; cbn [bind]; [discriminate|].
  unfold get_submatrices1d, dimension.
  destruct (_ <? 0)%Z eqn:E; cbn [bind]; [discriminate|]. apply Z.ltb_ge in E.
  destruct (Nat.eqb_spec (d31 x) (d31 k)) as [Hc|]; cbn [negb]; [|discriminate].
  intros [= <-]. do 3 (split; [auto; lia|]). cbn [d32 d42].
  destruct (Nat.le_gt_cases (d32 k) (p0 + d32 x + p1)) as [H|H]; [now left|right].
  assert ((Z.of_nat (d32 x) - Z.of_nat (d32 k) + Z.of_nat (p0 + p1)) / Z.of_nat s < 0)%Z
    by (apply Z.div_lt_upper_bound; lia). lia.
Qed.
Print Assumptions C51_conv1d_only.

Example C51_conv1d_only_nonvacuous : exists y,
  conv1d (fun _ _ _ => 0) (mk3 1 1 2 (fun _ _ _ => 1)) (mk3 1 1 3 (fun _ _ _ => 1)) 2 0 0 1 = Ok y.
Proof. eexists. reflexivity. Qed.

Lemma dl_pairing3 a b c (g f0 f1 : nat -> nat -> nat -> R) (f : R -> nat -> nat -> nat -> R) x :
  (forall t i j l, (i < a)%nat -> (j < b)%nat -> (l < c)%nat -> f t i j l = f0 i j l + t * f1 i j l) ->
  derivable_pt_lim (fun t => sum3 a b c (fun i j l => g i j l * f t i j l)) x
    (sum3 a b c (fun i j l => g i j l * f1 i j l)).
Proof.
  intros H. apply (dl_of_affine _ (sum3 a b c (fun i j l => g i j l * f0 i j l))). intros t.
  unfold sum3. rewrite !total_lsum, <- lsum_scal, <- lsum_plus. apply lsum_ext; intros i Hi.
  rewrite !total_lsum, <- lsum_scal, <- lsum_plus. apply lsum_ext; intros j Hj.
  rewrite !total_lsum, <- lsum_scal, <- lsum_plus. apply lsum_ext; intros l Hl.
  apply in_seq in Hi, Hj, Hl. rewrite H by lia. ring.
Qed.

Lemma conv1d_value oob x k s p0 p1 n o w : (0 < s)%nat -> d31 x = d31 k ->
  (d32 k <= p0 + d32 x + p1)%nat -> (w < positions (d32 x) (d32 k) p0 p1 s)%nat ->
  value3 (conv1d oob x k s p0 p1 1) n o w = correlation1 x k s p0 n o w.
Proof.
  intros Hs Hc Hk Hw. destruct (C51_conv1d oob x k s p0 p1 Hs Hc Hk) as (y & -> & _ & _ & D & A).
  cbn [value3]. apply A. now rewrite D.
Qed.

(** C51: the gradient of [conv1d] with respect to the kernel. *)
Theorem C51_conv1d_weight : forall oob g x k s p0 p1,
  (0 < s)%nat -> d31 x = d31 k -> (d32 k <= p0 + d32 x + p1)%nat ->
  d30 g = d30 x -> d31 g = d30 k -> d32 g = positions (d32 x) (d32 k) p0 p1 s ->
  exists G, conv1d_grad oob g 1 x k s p0 p1 = Ok G
  /\ d30 G = d30 k /\ d31 G = d31 k /\ d32 G = d32 k
  /\ forall dk,
     derivable_pt_lim
       (fun t => sum3 (d30 g) (d31 g) (d32 g) (fun n o w =>
          at3 g n o w * value3 (conv1d oob x (line3 k dk t) s p0 p1 1) n o w)) 0
       (sum3 (d30 k) (d31 k) (d32 k) (fun o i l => at3 G o i l * dk o i l)).
Proof.
  intros oob g x k s p0 p1 Hs Hc Hk G0 G1 G2.
  unfold conv1d_grad, conv1d_grad_weight. rewrite window_count_ok by assumption. cbn [bind].
  destruct (sub1 oob x (positions (d32 x) (d32 k) p0 p1 s) (d32 k) p0 p1 s)
    as (sub & -> & D0 & D1 & D2 & D3 & A). cbn [bind].
  rewrite D0, D2, <- G0, <- G2, !Nat.eqb_refl. cbn [andb negb].
  eexists. split; [reflexivity|]. cbn [d30 d31 d32 at3].
  split; [assumption|]. split; [congruence|]. split; [assumption|]. intros dk.
  eapply dl_eq.
  - apply (dl_pairing3 _ _ _ _ (fun n o w => correlation1 x k s p0 n o w)
             (fun n o w => correlation1 x (mk3 (d30 k) (d31 k) (d32 k) dk) s p0 n o w)).
    intros t n o w Hn Ho Hw.
    rewrite conv1d_value; [|assumption|exact Hc|exact Hk|cbn [line3 d32]; congruence].
    rewrite !correlation1_meets. cbn [line3 d31 d32 at3].
    rewrite !total_lsum, <- lsum_scal, <- lsum_plus. apply lsum_ext; intros i _.
    rewrite !total_lsum, <- lsum_scal, <- lsum_plus. apply lsum_ext; intros l _. ring.
  - unfold sum3. rewrite !total_lsum.
    transitivity (lsum (seq 0 (d30 g)) (fun n => lsum (seq 0 (d31 g)) (fun o => lsum (seq 0 (d32 g)) (fun w =>
       at3 g n o w * lsum (seq 0 (d31 k)) (fun i => lsum (seq 0 (d32 k)) (fun l =>
         at4 sub n i w l * dk o i l)))))).
    { apply lsum_ext; intros n _. apply lsum_ext; intros o _. apply lsum_ext; intros w Hw.
      rewrite correlation1_meets. cbn [d31 d32 at3]. rewrite Hc, total_lsum.
      f_equal. apply lsum_ext; intros i _. rewrite total_lsum. apply lsum_ext; intros l Hl.
      apply in_seq in Hw, Hl. rewrite A; [reflexivity|]. apply (window_in _ (d32 k)); try assumption; lia. }
    rewrite adjoint_weight, G1. apply lsum_ext; intros o _. rewrite total_lsum. apply lsum_ext; intros i _.
    rewrite total_lsum. apply lsum_ext; intros l _. f_equal.
    rewrite rsum_lsum. apply lsum_ext; intros n _. now rewrite rsum_lsum.
Qed.
Print Assumptions C51_conv1d_weight.

(** C51: the gradient of [conv1d] with respect to the input, if the kernel has an odd number of
    entries or the last position of the kernel ends in the padding on the right. *)
Theorem C51_conv1d_input : forall oob g x k s p0 p1,
  (0 < s)%nat -> (0 < d32 k)%nat -> d31 x = d31 k -> (d32 k <= p0 + d32 x + p1)%nat ->
  d30 g = d30 x -> d31 g = d30 k -> d32 g = positions (d32 x) (d32 k) p0 p1 s ->
  Nat.odd (d32 k) = true \/ (p0 + d32 x < (d32 g - 1) * s + d32 k)%nat ->
  exists G, conv1d_grad oob g 0 x k s p0 p1 = Ok G
  /\ d30 G = d30 x /\ d31 G = d31 x /\ d32 G = d32 x
  /\ forall dx,
     derivable_pt_lim
       (fun t => sum3 (d30 g) (d31 g) (d32 g) (fun n o w =>
          at3 g n o w * value3 (conv1d oob (line3 x dx t) k s p0 p1 1) n o w)) 0
       (sum3 (d30 x) (d31 x) (d32 x) (fun n i q => at3 G n i q * dx n i q)).
Proof.
  intros oob g x k s p0 p1 Hs Hk0 Hc Hk G0 G1 G2 HC.
  assert (Ho : (0 < d32 g)%nat) by (rewrite G2; unfold positions; lia).
  assert (C : covered (d32 x) (d32 k) p0 (d32 g) s)
    by (destruct HC as [C|C]; [now left|right; unfold reach; lia]).
  unfold conv1d_grad, conv1d_grad_input. rewrite window_count_ok by assumption. cbn [bind].
  set (dil := mk3 (d30 g) (d31 g) _ _).
  destruct (sub1 oob dil (grad_windows (d32 k) (d32 g) s) (d32 k) 0 0 1)
    as (sub & -> & D0 & D1 & D2 & D3 & A). cbn [bind].
  rewrite <- G0, <- G1, !Nat.eqb_refl. cbn [andb negb].
  eexists. split; [reflexivity|]. cbn [d30 d31 d32 at3].
  do 3 (split; [auto|]). intros dx.
  eapply dl_eq.
  - apply (dl_pairing3 _ _ _ _ (fun n o w => correlation1 x k s p0 n o w)
             (fun n o w => correlation1 (mk3 (d30 x) (d31 x) (d32 x) dx) k s p0 n o w)).
    intros t n o w Hn Hoo Hw.
    rewrite conv1d_value; [|assumption|exact Hc|exact Hk|cbn [line3 d32]; congruence].
    rewrite !correlation1_meets. cbn [line3 d31 d32 at3].
    rewrite !total_lsum, <- lsum_scal, <- lsum_plus. apply lsum_ext; intros i _.
    rewrite !total_lsum, <- lsum_scal, <- lsum_plus. apply lsum_ext; intros l _.
    rewrite !total_lsum, <- !lsum_scal_r, <- lsum_scal, <- lsum_plus. apply lsum_ext; intros q _. ring.
  - unfold sum3. rewrite !total_lsum.
    transitivity (lsum (seq 0 (d30 g)) (fun n => lsum (seq 0 (d31 g)) (fun o => lsum (seq 0 (d32 g)) (fun w =>
       at3 g n o w * lsum (seq 0 (d31 x)) (fun i => lsum (seq 0 (d32 k)) (fun l =>
         lsum (seq 0 (d32 x)) (fun q => meets s p0 w l q * dx n i q) * at3 k o i l)))))).
    { apply lsum_ext; intros n _. apply lsum_ext; intros o _. apply lsum_ext; intros w _.
      now rewrite correlation1_meets. }
    rewrite adjoint_input. apply lsum_ext; intros n _. rewrite total_lsum. apply lsum_ext; intros i _.
    rewrite total_lsum. apply lsum_ext; intros q Hq. apply in_seq in Hq. f_equal.
    destruct (Nat.ltb_spec (p0 + q) (grad_windows (d32 k) (d32 g) s)) as [H|H].
    + rewrite rsum_lsum, D1. apply lsum_ext; intros o _.
      rewrite rsum_total, D3, <- (total_rev (d32 k)), total_lsum. apply lsum_ext; intros l Hl. apply in_seq in Hl.
      replace (d32 k - 1 - (d32 k - 1 - l))%nat with l by lia. f_equal.
      pose proof (grad_windows_bound (d32 k) (d32 g) s Hk0 Ho).
      rewrite A by (cbn [dil d32]; lia). cbn [dil d32 at3].
      rewrite (total_single _ (p0 + q + (d32 k - 1 - l))).
      * rewrite meets_one by lia. rewrite dilate_pad_meets by lia. now rewrite Rmult_1_l.
      * lia.
      * intros j _ Hj. unfold meets. destruct (Nat.eqb_spec ((p0 + q) * 1 + (d32 k - 1 - l)) (0 + j)); [lia|ring].
    + apply lsum_zero. intros o _. apply lsum_zero. intros l Hl. apply in_seq in Hl.
      rewrite lsum_zero; [ring|]. intros u Hu. apply in_seq in Hu.
      rewrite (not_met (d32 x) (d32 k) p0 (d32 g)); try assumption; try lia. ring.
Qed.
Print Assumptions C51_conv1d_input.

Example C51_conv1d_grad_nonvacuous :
  let x := mk3 2 1 4 (fun n _ j => INR (n + j)) in
  let k := mk3 2 1 3 (fun o _ l => INR (o + l + 1)) in
  let k2 := mk3 2 1 2 (fun o _ l => INR (o + l + 1)) in
  let g := mk3 2 2 2 (fun _ _ _ => 1) in
  let g2 := mk3 2 2 3 (fun _ _ _ => 1) in
  (0 < 2)%nat /\ (0 < d32 k)%nat /\ d31 x = d31 k /\ (d32 k <= 1 + d32 x + 1)%nat
  /\ d30 g = d30 x /\ d31 g = d30 k /\ d32 g = positions (d32 x) (d32 k) 1 1 2
  /\ Nat.odd (d32 k) = true
  /\ d32 g2 = positions (d32 x) (d32 k2) 1 1 2 /\ (1 + d32 x < (d32 g2 - 1) * 2 + d32 k2)%nat.
Proof. cbn. repeat split; lia. Qed.

(** C51: the bias is added to every entry of its channel; its gradient, summed over the positions by
    whoever asked, is the derivative; the other two gradients are those of [conv1d]. *)
Theorem C51_conv1d_bias : forall oob g x k b s p0 p1,
  (0 < s)%nat -> d31 x = d31 k -> (d32 k <= p0 + d32 x + p1)%nat ->
  d30 b = 1%nat -> d31 b = d30 k -> d32 b = 1%nat ->
  d30 g = d30 x -> d31 g = d30 k -> d32 g = positions (d32 x) (d32 k) p0 p1 s ->
  (exists y, conv1d_bias oob x k b s p0 p1 1 = Ok y
     /\ d30 y = d30 x /\ d31 y = d30 k /\ d32 y = positions (d32 x) (d32 k) p0 p1 s
     /\ forall n o w, (w < d32 y)%nat -> at3 y n o w = correlation1 x k s p0 n o w + at3 b 0 o 0)
  /\ (exists G, conv1d_bias_grad oob g 2 x k b s p0 p1 = Ok G
     /\ d30 G = 1%nat /\ d31 G = d31 g /\ d32 G = d32 g
     /\ forall db,
        derivable_pt_lim
          (fun t => sum3 (d30 g) (d31 g) (d32 g) (fun n o w =>
             at3 g n o w * value3 (conv1d_bias oob x k (line3 b db t) s p0 p1 1) n o w)) 0
          (sum3 1 (d31 g) (d32 g) (fun n o w => at3 G n o w * db 0%nat o 0%nat)))
  /\ (forall idx, (idx < 2)%nat ->
        conv1d_bias_grad oob g idx x k b s p0 p1 = conv1d_grad oob g idx x k s p0 p1).
Proof.
  intros oob g x k b s p0 p1 Hs Hc Hk B0 B1 B2 G0 G1 G2.
  assert (F : forall b', d30 b' = 1%nat -> d31 b' = d30 k -> d32 b' = 1%nat ->
    exists y, conv1d_bias oob x k b' s p0 p1 1 = Ok y
     /\ d30 y = d30 x /\ d31 y = d30 k /\ d32 y = positions (d32 x) (d32 k) p0 p1 s
     /\ forall n o w, (w < d32 y)%nat -> at3 y n o w = correlation1 x k s p0 n o w + at3 b' 0 o 0).
  { intros b' C0 C1 C2. unfold conv1d_bias.
    destruct (C51_conv1d oob x k s p0 p1 Hs Hc Hk) as (y & -> & E0 & E1 & E2 & A). cbn [bind].
    rewrite C0, C1, C2, E1, !Nat.eqb_refl. cbn [andb negb]. eexists. split; [reflexivity|].
    cbn [d30 d31 d32 at3]. do 3 (split; [auto|]). intros n o w Hw. now rewrite A. }
  split; [now apply F|]. split.
  - cbn [conv1d_bias_grad]. eexists. split; [reflexivity|]. cbn [sum_batch d30 d31 d32 at3].
    do 3 (split; [auto|]). intros db. eapply dl_eq.
    + apply (dl_pairing3 _ _ _ _ (fun n o w => correlation1 x k s p0 n o w + at3 b 0 o 0)
               (fun n o w => db 0%nat o 0%nat)).
      intros t n o w Hn Ho Hw.
      destruct (F (line3 b db t) B0 B1 B2) as (y & -> & _ & _ & D & A). cbn [value3].
      rewrite A by congruence. cbn [line3 at3]. ring.
    + unfold sum3. rewrite (total_lsum (d30 g)), (total_lsum 1). cbn [seq].
      transitivity (lsum (seq 0 (d30 g)) (fun n => lsum (seq 0 (d31 g)) (fun o => lsum (seq 0 (d32 g))
         (fun w => at3 g n o w * db 0%nat o 0%nat)))); [reflexivity|].
      rewrite lsum_swap. unfold lsum at 4. cbn [map fold_right]. rewrite Rplus_0_r, total_lsum.
      apply lsum_ext; intros o _. rewrite lsum_swap, total_lsum. apply lsum_ext; intros w _.
      rewrite rsum_lsum. apply lsum_scal_r.
  - intros [|[|idx]] H; [reflexivity|reflexivity|lia].
Qed.
Print Assumptions C51_conv1d_bias.

Example C51_conv1d_bias_nonvacuous :
  let x := mk3 2 1 4 (fun n _ j => INR (n + j)) in
  let k := mk3 2 1 3 (fun o _ l => INR (o + l + 1)) in
  let b := mk3 1 2 1 (fun _ o _ => INR o) in
  let g := mk3 2 2 2 (fun _ _ _ => 1) in
  (0 < 2)%nat /\ d31 x = d31 k /\ (d32 k <= 1 + d32 x + 1)%nat
  /\ d30 b = 1%nat /\ d31 b = d30 k /\ d32 b = 1%nat
  /\ d30 g = d30 x /\ d31 g = d30 k /\ d32 g = positions (d32 x) (d32 k) 1 1 2.
Proof. cbn. repeat split; lia. Qed.

(** C51 does not hold for every kernel: with an even number of entries, and no padding on the right,
    the gradient of the last input entry is missing. *)
Theorem C51_even_kernel_refuted : exists oob g x k s p0 p1 G dx,
  (0 < s)%nat /\ d31 x = d31 k /\ (0 < d32 k <= p0 + d32 x + p1)%nat
  /\ d30 g = d30 x /\ d31 g = d30 k /\ d32 g = positions (d32 x) (d32 k) p0 p1 s
  /\ conv1d_grad oob g 0 x k s p0 p1 = Ok G
  /\ ~ derivable_pt_lim
       (fun t => sum3 (d30 g) (d31 g) (d32 g) (fun n o w =>
          at3 g n o w * value3 (conv1d oob (line3 x dx t) k s p0 p1 1) n o w)) 0
       (sum3 (d30 x) (d31 x) (d32 x) (fun n i q => at3 G n i q * dx n i q)).
Proof.
  exists (fun _ _ _ => 0), (mk3 1 1 1 (fun _ _ _ => 1)), (mk3 1 1 2 (fun _ _ _ => 0)),
    (mk3 1 1 2 (fun _ _ _ => 1)), 1%nat, 0%nat, 0%nat.
  eexists. exists (fun _ _ q => if Nat.eqb q 1 then 1 else 0).
  do 6 (split; [cbn; lia|]). split; [reflexivity|]. intros H.
  apply (uniqueness_limite _ _ _ 1) in H.
  - cbn in H. lra.
  - apply (dl_of_affine _ 0). intros t. cbn. ring.
Qed.
Print Assumptions C51_even_kernel_refuted.
