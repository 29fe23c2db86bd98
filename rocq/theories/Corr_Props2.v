(** * C51 (continued): two dimensions *)
From Coq Require Import Reals List ZArith Lia Lra Arith.
From Verif Require Import PyBase Deriv_Proofs Deriv_Binary Corr_Model Corr_Spec Corr_Proofs Corr_Props.
Import ListNotations.
Open Scope R_scope.
Open Scope list_scope.

Lemma sub2 oob x oh ow kh kw ph0 ph1 pw0 pw1 s : exists sub,
  get_submatrices2d oob x (Z.of_nat oh) (Z.of_nat ow) kh kw ph0 ph1 pw0 pw1 s = Ok sub
  /\ d60 sub = d40 x /\ d61 sub = d41 x /\ d62 sub = oh /\ d63 sub = ow /\ d64 sub = kh /\ d65 sub = kw
  /\ forall n i h w a b, (h * s + a < ph0 + d42 x + ph1)%nat -> (w * s + b < pw0 + d43 x + pw1)%nat ->
       at6 sub n i h w a b
       = total (d42 x) (fun y => meets s ph0 h a y *
           total (d43 x) (fun z => meets s pw0 w b z * at4 x n i y z)).
Proof.
  unfold get_submatrices2d. rewrite !dimension_of_nat. cbn [bind]. eexists. split; [reflexivity|].
  cbn [d60 d61 d62 d63 d64 d65 at6]. do 6 (split; [reflexivity|]).
  intros n i h w a b H G.
  destruct (Nat.ltb_spec (h * s + a) (ph0 + d42 x + ph1)); [|lia].
  destruct (Nat.ltb_spec (w * s + b) (pw0 + d43 x + pw1)); [|lia]. cbn [andb].
  rewrite pad_axis_signal.
  replace (Z.of_nat (h * s + a) - Z.of_nat ph0)%Z
    with (Z.of_nat h * Z.of_nat s + Z.of_nat a - Z.of_nat ph0)%Z by lia.
  rewrite signal_meets. apply total_ext; intros y _. f_equal.
  rewrite pad_axis_signal.
  replace (Z.of_nat (w * s + b) - Z.of_nat pw0)%Z
    with (Z.of_nat w * Z.of_nat s + Z.of_nat b - Z.of_nat pw0)%Z by lia.
  now rewrite signal_meets.
Qed.

Lemma meets_ne s p u l q : (u * s + l <> p + q)%nat -> meets s p u l q = 0.
Proof. unfold meets. intros H. destruct (Nat.eqb_spec (u * s + l) (p + q)); [contradiction|reflexivity]. Qed.

(** Both axes at once. *)
Definition meets2 (s0 s1 p q : nat) (u l r : nat * nat) : R :=
  meets s0 p (fst u) (fst l) (fst r) * meets s1 q (snd u) (snd l) (snd r).
Definition grid (a b : nat) : list (nat * nat) := list_prod (seq 0 a) (seq 0 b).

Lemma total_grid a b f : total a (fun y => total b (fun z => f y z)) = lsum (grid a b) (fun r => f (fst r) (snd r)).
Proof. unfold grid. now rewrite lsum_prod. Qed.
Lemma grid_total a b F : lsum (grid a b) F = total a (fun y => total b (fun z => F (y, z))).
Proof. unfold grid. now rewrite lsum_prod. Qed.
Lemma in_grid a b r : In r (grid a b) -> (fst r < a)%nat /\ (snd r < b)%nat.
Proof.
  destruct r as [y z]. unfold grid. intros H. apply in_prod_iff in H.
  destruct H as [H G]. apply in_seq in H, G. cbn. lia.
Qed.

Lemma two_meets s0 s1 p q u l a b (f : nat -> nat -> R) :
  total a (fun y => meets s0 p (fst u) (fst l) y * total b (fun z => meets s1 q (snd u) (snd l) z * f y z))
  = lsum (grid a b) (fun r => meets2 s0 s1 p q u l r * f (fst r) (snd r)).
Proof.
  rewrite grid_total.
  apply total_ext; intros y _. rewrite !total_lsum, <- lsum_scal. apply lsum_ext; intros z _.
  unfold meets2. cbn [fst snd]. ring.
Qed.

Lemma correlation2_meets x k s0 s1 p q n o u :
  correlation2 x k s0 s1 p q n o (fst u) (snd u)
  = lsum (seq 0 (d41 x)) (fun i => lsum (grid (d42 k) (d43 k)) (fun l =>
      lsum (grid (d42 x) (d43 x)) (fun r => meets2 s0 s1 p q u l r * at4 x n i (fst r) (snd r))
      * at4 k o i (fst l) (snd l))).
Proof.
  unfold correlation2. rewrite total_lsum. apply lsum_ext; intros i _.
  rewrite (grid_total (d42 k)). cbn [fst snd].
  apply total_ext; intros a _. apply total_ext; intros b _. f_equal.
  rewrite signal_meets, <- two_meets. apply total_ext; intros y _. cbn [fst snd]. now rewrite signal_meets.
Qed.

Lemma correlation2_at x k s0 s1 p q n o h w :
  correlation2 x k s0 s1 p q n o h w
  = lsum (seq 0 (d41 x)) (fun i => lsum (grid (d42 k) (d43 k)) (fun l =>
      lsum (grid (d42 x) (d43 x)) (fun r => meets2 s0 s1 p q (h, w) l r * at4 x n i (fst r) (snd r))
      * at4 k o i (fst l) (snd l))).
Proof. apply (correlation2_meets x k s0 s1 p q n o (h, w)). Qed.

(** C51: with equal steps on both axes [conv2d] gives the correlation of the zero-padded images with
    the kernel, and never depends on memory outside of the input. *)
Theorem C51_conv2d : forall oob x k s ph0 ph1 pw0 pw1,
  (0 < s)%nat -> d41 x = d41 k ->
  (d42 k <= ph0 + d42 x + ph1)%nat -> (d43 k <= pw0 + d43 x + pw1)%nat ->
  exists y, conv2d oob x k s s ph0 ph1 pw0 pw1 1 1 = Ok y
  /\ d40 y = d40 x /\ d41 y = d40 k
  /\ d42 y = positions (d42 x) (d42 k) ph0 ph1 s /\ d43 y = positions (d43 x) (d43 k) pw0 pw1 s
  /\ forall n o h w, (h < d42 y)%nat -> (w < d43 y)%nat ->
       at4 y n o h w = correlation2 x k s s ph0 pw0 n o h w.
Proof.
  intros oob x k s ph0 ph1 pw0 pw1 Hs Hc Hh Hw. unfold conv2d. cbn [Nat.eqb andb negb].
  rewrite !window_count_ok by assumption. cbn [bind].
  destruct (sub2 oob x (positions (d42 x) (d42 k) ph0 ph1 s) (positions (d43 x) (d43 k) pw0 pw1 s)
              (d42 k) (d43 k) ph0 ph1 pw0 pw1 s)
    as (sub & -> & D0 & D1 & D2 & D3 & D4 & D5 & A). cbn [bind].
  rewrite Hc, Nat.eqb_refl. cbn [negb]. eexists. split; [reflexivity|]. cbn [d40 d41 d42 d43 at4].
  do 4 (split; [auto|]). intros n o h w Lh Lw.
  rewrite correlation2_at, rsum_lsum, D1.
  apply lsum_ext; intros i _.
  rewrite (grid_total (d42 k)). cbn [fst snd].
  rewrite rsum_total, D4. apply total_ext; intros a Ha.
  rewrite rsum_total, D5. apply total_ext; intros b Hb. rewrite D2 in Lh. rewrite D3 in Lw.
  rewrite A; [|now apply (window_in _ (d42 k))|now apply (window_in _ (d43 k))].
  f_equal. apply (two_meets s s ph0 pw0 (h, w) (a, b)).
Qed.
Print Assumptions C51_conv2d.

Example C51_conv2d_nonvacuous :
  let x := mk4 1 1 3 4 (fun _ _ y z => INR (y + z)) in
  let k := mk4 2 1 3 2 (fun _ _ a b => INR (a * b)) in
  (0 < 2)%nat /\ d41 x = d41 k /\ (d42 k <= 1 + d42 x + 0)%nat /\ (d43 k <= 0 + d43 x + 1)%nat.
Proof. cbn. repeat split; lia. Qed.

(** C51: nothing else succeeds. *)
Theorem C51_conv2d_only : forall oob x k s0 s1 ph0 ph1 pw0 pw1 dil0 dil1 y,
  conv2d oob x k s0 s1 ph0 ph1 pw0 pw1 dil0 dil1 = Ok y ->
  dil0 = 1%nat /\ dil1 = 1%nat /\ (0 < s0)%nat /\ (0 < s1)%nat /\ d41 x = d41 k
  /\ (d42 k <= ph0 + d42 x + ph1 \/ d42 y = 0)%nat /\ (d43 k <= pw0 + d43 x + pw1 \/ d43 y = 0)%nat.
Proof.
  intros oob x k s0 s1 ph0 ph1 pw0 pw1 dil0 dil1 y. unfold conv2d.
  destruct (Nat.eqb_spec dil0 1) as [->|]; cbn [andb negb]; [|discriminate].
  destruct (Nat.eqb_spec dil1 1) as [->|]; cbn [negb]; [|discriminate].
  unfold window_count. destruct (Nat.eqb_spec s0 0) as [|H0]; cbn [bind]; [discriminate|].
  destruct (Nat.eqb_spec s1 0) as [|H1]; cbn [bind]; [discriminate|].
  unfold get_submatrices2d, dimension.
  destruct (_ <? 0)%Z eqn:E; cbn [bind]; [discriminate|]. apply Z.ltb_ge in E.
  destruct ((_ + 1) <? 0)%Z eqn:F; cbn [bind]; [discriminate|]. apply Z.ltb_ge in F.
  destruct (Nat.eqb_spec (d41 x) (d41 k)) as [Hc|]; cbn [negb]; [|discriminate].
  intros [= <-]. do 5 (split; [auto; lia|]). cbn [d42 d43 d62 d63].
  split.
  - destruct (Nat.le_gt_cases (d42 k) (ph0 + d42 x + ph1)) as [H|H]; [now left|right].
    assert ((Z.of_nat (d42 x) - Z.of_nat (d42 k) + Z.of_nat (ph0 + ph1)) / Z.of_nat s0 < 0)%Z
      by (apply Z.div_lt_upper_bound; lia). lia.
  - destruct (Nat.le_gt_cases (d43 k) (pw0 + d43 x + pw1)) as [H|H]; [now left|right].
    assert ((Z.of_nat (d43 x) - Z.of_nat (d43 k) + Z.of_nat (pw0 + pw1)) / Z.of_nat s1 < 0)%Z
      by (apply Z.div_lt_upper_bound; lia). lia.
Qed.
Print Assumptions C51_conv2d_only.

Example C51_conv2d_only_nonvacuous : exists y,
  conv2d (fun _ _ _ _ => 0) (mk4 1 1 2 2 (fun _ _ _ _ => 1)) (mk4 1 1 3 1 (fun _ _ _ _ => 1)) 2 1 0 0 0 0 1 1
  = Ok y.
Proof. eexists. reflexivity. Qed.

Lemma dl_pairing4 a b c d (g f0 f1 : nat -> nat -> nat -> nat -> R) (f : R -> nat -> nat -> nat -> nat -> R) x :
  (forall t i j l m, (i < a)%nat -> (j < b)%nat -> (l < c)%nat -> (m < d)%nat ->
     f t i j l m = f0 i j l m + t * f1 i j l m) ->
  derivable_pt_lim (fun t => sum4 a b c d (fun i j l m => g i j l m * f t i j l m)) x
    (sum4 a b c d (fun i j l m => g i j l m * f1 i j l m)).
Proof.
  intros H. apply (dl_of_affine _ (sum4 a b c d (fun i j l m => g i j l m * f0 i j l m))). intros t.
  unfold sum4. rewrite !total_lsum, <- lsum_scal, <- lsum_plus. apply lsum_ext; intros i Hi.
  rewrite !total_lsum, <- lsum_scal, <- lsum_plus. apply lsum_ext; intros j Hj.
  rewrite !total_lsum, <- lsum_scal, <- lsum_plus. apply lsum_ext; intros l Hl.
  rewrite !total_lsum, <- lsum_scal, <- lsum_plus. apply lsum_ext; intros m Hm.
  apply in_seq in Hi, Hj, Hl, Hm. rewrite H by lia. ring.
Qed.
Lemma sum4_grid a b c d f :
  sum4 a b c d f = lsum (seq 0 a) (fun i => lsum (seq 0 b) (fun j => lsum (grid c d) (fun r => f i j (fst r) (snd r)))).
Proof.
  unfold sum4. rewrite total_lsum. apply lsum_ext; intros i _. rewrite total_lsum.
  apply lsum_ext; intros j _. apply (total_grid c d (fun y z => f i j y z)).
Qed.

Lemma conv2d_value oob x k s ph0 ph1 pw0 pw1 n o h w : (0 < s)%nat -> d41 x = d41 k ->
  (d42 k <= ph0 + d42 x + ph1)%nat -> (d43 k <= pw0 + d43 x + pw1)%nat ->
  (h < positions (d42 x) (d42 k) ph0 ph1 s)%nat -> (w < positions (d43 x) (d43 k) pw0 pw1 s)%nat ->
  value4 (conv2d oob x k s s ph0 ph1 pw0 pw1 1 1) n o h w = correlation2 x k s s ph0 pw0 n o h w.
Proof.
  intros Hs Hc Hh Hw Lh Lw.
  destruct (C51_conv2d oob x k s ph0 ph1 pw0 pw1 Hs Hc Hh Hw) as (y & -> & _ & _ & D2 & D3 & A).
  cbn [value4]. apply A; congruence.
Qed.

(** C51: the gradient of [conv2d] with respect to the kernel. *)
Theorem C51_conv2d_weight : forall oob g x k s ph0 ph1 pw0 pw1,
  (0 < s)%nat -> d41 x = d41 k ->
  (d42 k <= ph0 + d42 x + ph1)%nat -> (d43 k <= pw0 + d43 x + pw1)%nat ->
  d40 g = d40 x -> d41 g = d40 k ->
  d42 g = positions (d42 x) (d42 k) ph0 ph1 s -> d43 g = positions (d43 x) (d43 k) pw0 pw1 s ->
  exists G, conv2d_grad oob g 1 x k s s ph0 ph1 pw0 pw1 = Ok G
  /\ d40 G = d40 k /\ d41 G = d41 k /\ d42 G = d42 k /\ d43 G = d43 k
  /\ forall dk,
     derivable_pt_lim
       (fun t => sum4 (d40 g) (d41 g) (d42 g) (d43 g) (fun n o h w =>
          at4 g n o h w * value4 (conv2d oob x (line4 k dk t) s s ph0 ph1 pw0 pw1 1 1) n o h w)) 0
       (sum4 (d40 k) (d41 k) (d42 k) (d43 k) (fun o i a b => at4 G o i a b * dk o i a b)).
Proof.
  intros oob g x k s ph0 ph1 pw0 pw1 Hs Hc Hh Hw G0 G1 G2 G3.
  unfold conv2d_grad, conv2d_grad_weight. rewrite !window_count_ok by assumption. cbn [bind].
  destruct (sub2 oob x (positions (d42 x) (d42 k) ph0 ph1 s) (positions (d43 x) (d43 k) pw0 pw1 s)
              (d42 k) (d43 k) ph0 ph1 pw0 pw1 s)
    as (sub & -> & D0 & D1 & D2 & D3 & D4 & D5 & A). cbn [bind].
  rewrite D0, D2, D3, <- G0, <- G2, <- G3, !Nat.eqb_refl. cbn [andb negb].
  eexists. split; [reflexivity|]. cbn [d40 d41 d42 d43 at4].
  do 4 (split; [congruence|]). intros dk.
  eapply dl_eq.
  - apply (dl_pairing4 _ _ _ _ _ (fun n o h w => correlation2 x k s s ph0 pw0 n o h w)
             (fun n o h w => correlation2 x (mk4 (d40 k) (d41 k) (d42 k) (d43 k) dk) s s ph0 pw0 n o h w)).
    intros t n o h w Hn Ho Lh Lw.
    rewrite conv2d_value; [|assumption|exact Hc|exact Hh|exact Hw|cbn [line4 d42]; congruence|cbn [line4 d43]; congruence].
    rewrite !correlation2_at. cbn [line4 d41 d42 d43 at4].
    rewrite <- lsum_scal, <- lsum_plus. apply lsum_ext; intros i _.
    rewrite <- lsum_scal, <- lsum_plus. apply lsum_ext; intros l _. ring.
  - rewrite !sum4_grid.
    transitivity (lsum (seq 0 (d40 g)) (fun n => lsum (seq 0 (d41 g)) (fun o =>
       lsum (grid (d42 g) (d43 g)) (fun u =>
       at4 g n o (fst u) (snd u) * lsum (seq 0 (d41 k)) (fun i => lsum (grid (d42 k) (d43 k)) (fun l =>
         at6 sub n i (fst u) (snd u) (fst l) (snd l) * dk o i (fst l) (snd l))))))).
    { apply lsum_ext; intros n _. apply lsum_ext; intros o _. apply lsum_ext; intros u Hu.
      rewrite correlation2_meets. cbn [d41 d42 d43 at4]. rewrite Hc.
      f_equal. apply lsum_ext; intros i _. apply lsum_ext; intros l Hl.
      apply in_grid in Hu, Hl. destruct Hu, Hl.
      rewrite A; [|apply (window_in _ (d42 k)); congruence || assumption
                  |apply (window_in _ (d43 k)); congruence || assumption].
      now rewrite two_meets. }
    rewrite (adjoint_weight _ _ _ _ _ (fun n o u => at4 g n o (fst u) (snd u))
      (fun n i u l => at6 sub n i (fst u) (snd u) (fst l) (snd l)) (fun o i l => dk o i (fst l) (snd l))), G1.
    apply lsum_ext; intros o _. apply lsum_ext; intros i _. apply lsum_ext; intros l _. f_equal.
    rewrite rsum_lsum. apply lsum_ext; intros n _.
    rewrite rsum_total, grid_total. cbn [fst snd].
    apply total_ext; intros h _. now rewrite rsum_total.
Qed.
Print Assumptions C51_conv2d_weight.

(** C51: the gradient of [conv2d] with respect to the input is that of the correlation, for any steps,
    if on each axis the kernel is odd or its last position ends in the padding; it is the gradient of
    what [conv2d] computes if the steps are equal. *)
Theorem C51_conv2d_input : forall oob g x k s0 s1 ph0 ph1 pw0 pw1,
  (0 < s0)%nat -> (0 < s1)%nat -> (0 < d42 k)%nat -> (0 < d43 k)%nat -> d41 x = d41 k ->
  (d42 k <= ph0 + d42 x + ph1)%nat -> (d43 k <= pw0 + d43 x + pw1)%nat ->
  d40 g = d40 x -> d41 g = d40 k ->
  d42 g = positions (d42 x) (d42 k) ph0 ph1 s0 -> d43 g = positions (d43 x) (d43 k) pw0 pw1 s1 ->
  Nat.odd (d42 k) = true \/ (ph0 + d42 x < (d42 g - 1) * s0 + d42 k)%nat ->
  Nat.odd (d43 k) = true \/ (pw0 + d43 x < (d43 g - 1) * s1 + d43 k)%nat ->
  exists G, conv2d_grad oob g 0 x k s0 s1 ph0 ph1 pw0 pw1 = Ok G
  /\ d40 G = d40 x /\ d41 G = d41 x /\ d42 G = d42 x /\ d43 G = d43 x
  /\ forall dx,
     derivable_pt_lim
       (fun t => sum4 (d40 g) (d41 g) (d42 g) (d43 g) (fun n o h w =>
          at4 g n o h w * correlation2 (line4 x dx t) k s0 s1 ph0 pw0 n o h w)) 0
       (sum4 (d40 x) (d41 x) (d42 x) (d43 x) (fun n i y z => at4 G n i y z * dx n i y z))
     /\ (s0 = s1 -> derivable_pt_lim
       (fun t => sum4 (d40 g) (d41 g) (d42 g) (d43 g) (fun n o h w =>
          at4 g n o h w * value4 (conv2d oob (line4 x dx t) k s0 s1 ph0 ph1 pw0 pw1 1 1) n o h w)) 0
       (sum4 (d40 x) (d41 x) (d42 x) (d43 x) (fun n i y z => at4 G n i y z * dx n i y z))).
Proof.
  intros oob g x k s0 s1 ph0 ph1 pw0 pw1 Hs0 Hs1 Hkh Hkw Hc Hh Hw G0 G1 G2 G3 HC1 HC2.
  assert (Ho : (0 < d42 g)%nat) by (rewrite G2; unfold positions; lia).
  assert (Ho' : (0 < d43 g)%nat) by (rewrite G3; unfold positions; lia).
  assert (C1 : covered (d42 x) (d42 k) ph0 (d42 g) s0)
    by (destruct HC1 as [C|C]; [now left|right; unfold reach; lia]).
  assert (C2 : covered (d43 x) (d43 k) pw0 (d43 g) s1)
    by (destruct HC2 as [C|C]; [now left|right; unfold reach; lia]).
  unfold conv2d_grad, conv2d_grad_input. rewrite !window_count_ok by assumption. cbn [bind].
  set (dil := mk4 (d40 g) (d41 g) _ _ _).
  destruct (sub2 oob dil (grad_windows (d42 k) (d42 g) s0) (grad_windows (d43 k) (d43 g) s1)
              (d42 k) (d43 k) 0 0 0 0 1)
    as (sub & -> & D0 & D1 & D2 & D3 & D4 & D5 & A). cbn [bind].
  rewrite <- G0, <- G1, !Nat.eqb_refl. cbn [andb negb].
  eexists. split; [reflexivity|]. cbn [d40 d41 d42 d43 at4].
  do 4 (split; [auto|]). intros dx.
  match goal with |- ?P /\ _ => assert (M : P) end.
  { eapply dl_eq.
    - apply (dl_pairing4 _ _ _ _ _ (fun n o h w => correlation2 x k s0 s1 ph0 pw0 n o h w)
             (fun n o h w => correlation2 (mk4 (d40 x) (d41 x) (d42 x) (d43 x) dx) k s0 s1 ph0 pw0 n o h w)).
      intros t n o h w Hn Hoo Lh Lw.
      rewrite !correlation2_at. cbn [line4 d41 d42 d43 at4].
      rewrite <- lsum_scal, <- lsum_plus. apply lsum_ext; intros i _.
      rewrite <- lsum_scal, <- lsum_plus. apply lsum_ext; intros l _.
      rewrite <- !lsum_scal_r, <- lsum_scal, <- lsum_plus. apply lsum_ext; intros q _. ring.
    - rewrite !sum4_grid.
      transitivity (lsum (seq 0 (d40 g)) (fun n => lsum (seq 0 (d41 g)) (fun o =>
         lsum (grid (d42 g) (d43 g)) (fun u =>
         at4 g n o (fst u) (snd u) * lsum (seq 0 (d41 x)) (fun i => lsum (grid (d42 k) (d43 k)) (fun l =>
           lsum (grid (d42 x) (d43 x)) (fun r => meets2 s0 s1 ph0 pw0 u l r * dx n i (fst r) (snd r))
           * at4 k o i (fst l) (snd l))))))).
      { apply lsum_ext; intros n _. apply lsum_ext; intros o _. apply lsum_ext; intros u _.
        now rewrite correlation2_meets. }
      rewrite (adjoint_input _ _ _ _ _ _ (fun n o u => at4 g n o (fst u) (snd u))
        (fun o i l => at4 k o i (fst l) (snd l)) (meets2 s0 s1 ph0 pw0) (fun n i r => dx n i (fst r) (snd r))).
      apply lsum_ext; intros n _. apply lsum_ext; intros i _.
      apply lsum_ext; intros [y z] Hq. apply in_grid in Hq. destruct Hq as [Hy Hz]. cbn [fst snd] in *. f_equal.
      destruct (andb _ _) eqn:E.
      + apply andb_prop in E. destruct E as [E1 E2]. apply Nat.ltb_lt in E1, E2.
        rewrite rsum_lsum, D1. apply lsum_ext; intros o _.
        rewrite (grid_total (d42 k)). cbn [fst snd].
        symmetry. rewrite rsum_total, D4, <- (total_rev (d42 k)). apply total_ext; intros a Ha.
        rewrite rsum_total, D5, <- (total_rev (d43 k)). apply total_ext; intros b Hb. symmetry.
        replace (d42 k - 1 - (d42 k - 1 - a))%nat with a by lia.
        replace (d43 k - 1 - (d43 k - 1 - b))%nat with b by lia. f_equal.
        pose proof (grad_windows_bound (d42 k) (d42 g) s0 Hkh Ho).
        pose proof (grad_windows_bound (d43 k) (d43 g) s1 Hkw Ho').
        rewrite A by (cbn [dil d42 d43]; lia). cbn [dil d42 d43 at4].
        rewrite (total_single _ (ph0 + y + (d42 k - 1 - a))); [|lia|].
        2:{ intros j _ Hj. rewrite meets_ne by lia. ring. }
        rewrite meets_one, Rmult_1_l by lia.
        rewrite (total_single _ (pw0 + z + (d43 k - 1 - b))); [|lia|].
        2:{ intros j _ Hj. rewrite meets_ne by lia. ring. }
        rewrite meets_one, Rmult_1_l by lia.
        rewrite dilate_pad_meets by lia.
        rewrite grid_total. cbn [fst snd].
        apply total_ext; intros h _. rewrite dilate_pad_meets by lia.
        rewrite !total_lsum, <- lsum_scal. apply lsum_ext; intros w _. unfold meets2. cbn [fst snd]. ring.
      + apply lsum_zero. intros o _. apply lsum_zero. intros [a b] Hl. apply in_grid in Hl. destruct Hl as [Ha Hb].
        cbn [fst snd] in *. rewrite lsum_zero; [ring|]. intros [h w] Hu. apply in_grid in Hu. destruct Hu as [Lh Lw].
        unfold meets2. cbn [fst snd] in *. apply Bool.andb_false_iff in E. destruct E as [E|E]; apply Nat.ltb_ge in E.
        * rewrite (not_met (d42 x) (d42 k) ph0 (d42 g)); try assumption. ring.
        * rewrite (not_met (d43 x) (d43 k) pw0 (d43 g)); try assumption. ring. }
  split; [exact M|]. intros <-. eapply dl_ext; [|exact M]. intros t. cbn beta.
  rewrite !sum4_grid. apply lsum_ext; intros n _. apply lsum_ext; intros o _.
  apply lsum_ext; intros u Hu. apply in_grid in Hu. destruct Hu as [Lh Lw]. f_equal.
  apply conv2d_value; try assumption; cbn [line4 d42 d43]; congruence.
Qed.
Print Assumptions C51_conv2d_input.

Example C51_conv2d_grad_nonvacuous :
  let x := mk4 1 1 3 4 (fun _ _ y z => INR (y + z)) in
  let k := mk4 2 1 3 2 (fun _ _ a b => INR (a * b)) in
  let g := mk4 1 2 1 3 (fun _ _ _ _ => 1) in
  (0 < 2)%nat /\ d41 x = d41 k /\ (0 < d42 k <= 1 + d42 x + 0)%nat /\ (0 < d43 k <= 1 + d43 x + 1)%nat
  /\ d40 g = d40 x /\ d41 g = d40 k
  /\ d42 g = positions (d42 x) (d42 k) 1 0 2 /\ d43 g = positions (d43 x) (d43 k) 1 1 2
  /\ Nat.odd (d42 k) = true /\ (1 + d43 x < (d43 g - 1) * 2 + d43 k)%nat.
Proof. cbn. repeat split; lia. Qed.

(** C51 does not hold for different steps: the step of the first axis is used for both, so the columns
    are read at the wrong places. *)
Theorem C51_mixed_stride_refuted : exists oob x k s0 s1 y,
  (0 < s0 /\ 0 < s1)%nat /\ d41 x = d41 k /\ (d42 k <= d42 x /\ d43 k <= d43 x)%nat
  /\ conv2d oob x k s0 s1 0 0 0 0 1 1 = Ok y
  /\ d43 y = positions (d43 x) (d43 k) 0 0 s1 /\ (1 < d43 y)%nat
  /\ at4 y 0 0 0 1 <> correlation2 x k s0 s1 0 0 0 0 0 1.
Proof.
  exists (fun _ _ _ _ => 0), (mk4 1 1 1 3 (fun _ _ _ z => if Nat.eqb z 2 then 1 else 0)),
    (mk4 1 1 1 1 (fun _ _ _ _ => 1)), 1%nat, 2%nat.
  eexists. do 2 (split; [cbn; lia|]). split; [cbn; lia|]. split; [reflexivity|].
  do 2 (split; [cbn; lia|]). cbn. change (Pos.to_nat 2) with 2%nat. cbn. lra.
Qed.
Print Assumptions C51_mixed_stride_refuted.

(** With a larger step on the first axis the result holds entries that are not of the input: it is not
    determined by the arguments. *)
Theorem C51_out_of_bounds_refuted : exists x k s0 s1,
  (0 < s0 /\ 0 < s1)%nat /\ d41 x = d41 k /\ (d42 k <= d42 x /\ d43 k <= d43 x)%nat
  /\ forall v, exists oob y, conv2d oob x k s0 s1 0 0 0 0 1 1 = Ok y
     /\ (1 < d43 y)%nat /\ at4 y 0 0 0 1 = v.
Proof.
  exists (mk4 1 1 1 2 (fun _ _ _ _ => 1)), (mk4 1 1 1 1 (fun _ _ _ _ => 1)), 2%nat, 1%nat.
  do 3 (split; [cbn; lia|]). intros v. exists (fun _ _ _ _ => v). eexists. split; [reflexivity|].
  split; [cbn; lia|]. cbn. lra.
Qed.
Print Assumptions C51_out_of_bounds_refuted.
