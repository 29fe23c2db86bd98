(** * C52: pooling on the numpy backend and its gradients *)
From Coq Require Import Reals List ZArith Lia Lra Arith.
From Verif Require Import PyBase Deriv_Proofs Deriv_Binary Corr_Model Corr_Spec Corr_Proofs Corr_Props
  Corr_Props2 Pool_Model Pool_Spec Pool_Proofs.
Import ListNotations.
Open Scope R_scope.
Open Scope list_scope.

Lemma no_ties_iff {A} (P P' inp : A -> Prop) f h : (forall l, P l <-> P' l) -> (forall l, P l -> f l = h l) ->
  no_ties P inp f -> no_ties P' inp h.
Proof.
  intros E F T l l' Hl Hl' M M' N. apply (T l l'); try (now apply E); try exact N.
  - intros i Hi. rewrite !F by (assumption || now apply E). apply M. now apply E.
  - intros i Hi. rewrite !F by (assumption || now apply E). apply M'. now apply E.
Qed.
Lemma in_seq0 k l : In l (seq 0 k) <-> (l < k)%nat.
Proof. rewrite in_seq. lia. Qed.
Lemma in_grid_iff a b r : In r (grid a b) <-> (fst r < a)%nat /\ (snd r < b)%nat.
Proof.
  split; [apply in_grid|]. destruct r as [y z]. cbn. intros [H G]. unfold grid. apply in_prod_iff.
  rewrite !in_seq. lia.
Qed.
Lemma window_max_is_max {A} (L : list A) f (P : A -> Prop) : L <> [] -> (forall l, In l L <-> P l) ->
  is_max P f (window_max (map f L)).
Proof.
  intros NE E. split.
  - assert (I : In (window_max (map f L)) (map f L)) by (apply window_max_in; now destruct L).
    apply in_map_iff in I. destruct I as (l & El & Il). exists l. split; [now apply E|exact El].
  - intros l Hl. apply window_max_bound. apply in_map. now apply E.
Qed.
Lemma is_max_unique {A} (P : A -> Prop) f v v' : is_max P f v -> is_max P f v' -> v = v'.
Proof.
  intros [(l & Hl & <-) B] [(l' & Hl' & <-) B']. apply Rle_antisym; [now apply B'|now apply B].
Qed.

(** ** Maximum, one dimension *)

(** C52: each entry of [max_pool1d] is the largest of the entries of the zero-padded row in its window. *)
Theorem C52_max_pool1d : forall oob x k s p0 p1,
  (0 < s)%nat -> (0 < k)%nat -> (k <= p0 + d32 x + p1)%nat ->
  exists y, max_pool1d oob x k s p0 p1 1 = Ok y
  /\ d30 y = d30 x /\ d31 y = d31 x /\ d32 y = positions (d32 x) k p0 p1 s
  /\ forall n c w, (w < d32 y)%nat ->
       is_max (fun l => (l < k)%nat) (entry1 x s p0 n c w) (at3 y n c w).
Proof.
  intros oob x k s p0 p1 Hs Hk0 Hk. unfold max_pool1d. cbn [Nat.eqb negb].
  rewrite window_count_ok by assumption. cbn [bind].
  destruct (sub1 oob x (positions (d32 x) k p0 p1 s) k p0 p1 s)
    as (sub & -> & D0 & D1 & D2 & D3 & A). cbn [bind].
  eexists. split; [reflexivity|]. cbn [d30 d31 d32 at3]. do 3 (split; [auto|]). intros n c w Hw.
  rewrite D3, (window_max_ext (seq 0 k) _ (entry1 x s p0 n c w)).
  - apply window_max_is_max; [destruct k; [lia|easy]|]. intros l. apply in_seq0.
  - intros l Hl. apply in_seq0 in Hl. rewrite D2 in Hw. rewrite A by now apply (window_in _ k).
    now rewrite entry1_meets.
Qed.
Print Assumptions C52_max_pool1d.

Example C52_max_pool1d_nonvacuous :
  let x := mk3 1 1 4 (fun _ _ j => INR j) in
  (0 < 2)%nat /\ (0 < 3)%nat /\ (3 <= 1 + d32 x + 1)%nat /\ positions 4 3 1 1 2 = 2%nat.
Proof. cbn. repeat split; lia. Qed.

Lemma dl_pairing3' a b c (g f1 : nat -> nat -> nat -> R) (f : R -> nat -> nat -> nat -> R) x :
  (forall i j l, (i < a)%nat -> (j < b)%nat -> (l < c)%nat -> derivable_pt_lim (fun t => f t i j l) x (f1 i j l)) ->
  derivable_pt_lim (fun t => sum3 a b c (fun i j l => g i j l * f t i j l)) x
    (sum3 a b c (fun i j l => g i j l * f1 i j l)).
Proof.
  intros H. unfold sum3.
  apply (dl_lsum _ (fun i t => total b (fun j => total c (fun l => g i j l * f t i j l)))). intros i Hi.
  apply (dl_lsum _ (fun j t => total c (fun l => g i j l * f t i j l))). intros j Hj.
  apply (dl_lsum _ (fun l t => g i j l * f t i j l)). intros l Hl. apply in_seq in Hi, Hj, Hl.
  apply dl_scal. apply H; lia.
Qed.
Lemma dl_pairing4' a b c d (g f1 : nat -> nat -> nat -> nat -> R) (f : R -> nat -> nat -> nat -> nat -> R) x :
  (forall i j l m, (i < a)%nat -> (j < b)%nat -> (l < c)%nat -> (m < d)%nat ->
     derivable_pt_lim (fun t => f t i j l m) x (f1 i j l m)) ->
  derivable_pt_lim (fun t => sum4 a b c d (fun i j l m => g i j l m * f t i j l m)) x
    (sum4 a b c d (fun i j l m => g i j l m * f1 i j l m)).
Proof.
  intros H. unfold sum4.
  apply (dl_lsum _ (fun i t => total b (fun j => total c (fun l => total d (fun m => g i j l m * f t i j l m))))).
  intros i Hi.
  apply (dl_lsum _ (fun j t => total c (fun l => total d (fun m => g i j l m * f t i j l m)))). intros j Hj.
  apply (dl_lsum _ (fun l t => total d (fun m => g i j l m * f t i j l m))). intros l Hl.
  apply (dl_lsum _ (fun m t => g i j l m * f t i j l m)). intros m Hm. apply in_seq in Hi, Hj, Hl, Hm.
  apply dl_scal. apply H; lia.
Qed.

(** C52: the gradient of [max_pool1d], where no window has two largest entries (padding apart). *)
Theorem C52_max_pool1d_grad : forall oob g x k s p0 p1,
  (0 < s)%nat -> (0 < k)%nat -> (k <= p0 + d32 x + p1)%nat ->
  d30 g = d30 x -> d31 g = d31 x -> d32 g = positions (d32 x) k p0 p1 s ->
  (forall n c u, (n < d30 x)%nat -> (c < d31 x)%nat -> (u < d32 g)%nat ->
     no_ties (fun l => (l < k)%nat) (inside (d32 x) s p0 u) (entry1 x s p0 n c u)) ->
  exists G, max_pool1d_grad g x k s p0 p1 = Ok G
  /\ d30 G = d30 x /\ d31 G = d31 x /\ d32 G = d32 x
  /\ forall dx,
     derivable_pt_lim
       (fun t => sum3 (d30 g) (d31 g) (d32 g) (fun n c w =>
          at3 g n c w * value3 (max_pool1d oob (line3 x dx t) k s p0 p1 1) n c w)) 0
       (sum3 (d30 x) (d31 x) (d32 x) (fun n c q => at3 G n c q * dx n c q)).
Proof.
  intros oob g x k s p0 p1 Hs Hk0 Hk G0 G1 G2 T. unfold max_pool1d_grad.
  rewrite window_count_ok by assumption. cbn [bind]. eexists. split; [reflexivity|].
  cbn [d30 d31 d32 at3]. do 3 (split; [auto|]). intros dx.
  set (b := fun n c u l => total (d32 x) (fun q => meets s p0 u l q * dx n c q)).
  set (a := entry1 x s p0).
  set (M := fun n c u l => same (window_max (map (a n c u) (seq 0 k))) (a n c u l)).
  assert (NE : seq 0 k <> []) by (destruct k; [lia|easy]).
  eapply dl_eq.
  - apply (dl_pairing3' _ _ _ _ (fun n c u => lsum (seq 0 k) (fun l => M n c u l * b n c u l))).
    intros n c u Hn Hc Hu.
    apply (dl_ext _ (fun t => window_max (map (fun l => a n c u l + t * b n c u l) (seq 0 k)))).
    + intros t. destruct (C52_max_pool1d oob (line3 x dx t) k s p0 p1 Hs Hk0 Hk) as (y & -> & _ & _ & D & Y).
      cbn [value3]. assert (Hu' : (u < d32 y)%nat) by (rewrite D; cbn [line3 d32]; congruence).
      apply (is_max_unique _ _ _ _ (Y n c u Hu')).
      rewrite (window_max_ext _ _ (entry1 (line3 x dx t) s p0 n c u)).
      * apply window_max_is_max; [exact NE|]. intros l. apply in_seq0.
      * intros l _. unfold a, b. rewrite !entry1_meets. cbn [line3 d32 at3].
        rewrite !total_lsum, <- lsum_scal, <- lsum_plus. apply lsum_ext; intros q _. ring.
    + apply mask_all with (inp := inside (d32 x) s p0 u).
      * apply seq_NoDup.
      * exact NE.
      * intros l _ O. unfold b. now apply entry1_outside.
      * eapply no_ties_iff; [| |apply (T n c u); congruence].
        -- intros l. symmetry. apply in_seq0.
        -- reflexivity.
  - unfold sum3. rewrite <- G0, <- G1. apply lsum_ext; intros n Hn. apply lsum_ext; intros c Hc.
    pose proof (adjoint_pool [tt] (seq 0 (d32 g)) (seq 0 k) (seq 0 (d32 x)) (fun _ u => at3 g n c u)
      (fun _ u l => M n c u l) (fun u l q => meets s p0 u l q) (fun _ q => dx n c q)) as AD.
    unfold lsum at 1 in AD. unfold lsum at 4 in AD. cbn [map fold_right] in AD. rewrite !Rplus_0_r in AD.
    unfold b. rewrite total_lsum. etransitivity; [exact AD|]. rewrite total_lsum.
    apply lsum_ext; intros q Hq. apply in_seq in Hq. f_equal.
    rewrite (loop_sum _ (fun j q => andb (Nat.leb (j * s) q) (Nat.ltb q (j * s + k)))
      (fun j q => same (window_max (map (fun l => pad_axis p0 (d32 x) (fun j0 => at3 x n c j0) (j * s + l)) (seq 0 k)))
         (pad_axis p0 (d32 x) (fun j0 => at3 x n c j0) q) * at3 g n c j)).
    rewrite Rplus_0_l, Nat2Z.id, G2. apply lsum_ext; intros u _.
    rewrite (window_meets s p0 k u q (fun z => same (window_max (map (fun l =>
        pad_axis p0 (d32 x) (fun j0 => at3 x n c j0) (u * s + l)) (seq 0 k)))
        (pad_axis p0 (d32 x) (fun j0 => at3 x n c j0) z) * at3 g n c u)).
    rewrite total_lsum, <- lsum_scal_r. apply lsum_ext; intros l _. rewrite Rmult_assoc. f_equal. f_equal.
    assert (PE : forall l, pad_axis p0 (d32 x) (fun j0 => at3 x n c j0) (u * s + l) = a n c u l).
    { intros l'. rewrite pad_axis_signal. unfold a, entry1. f_equal. lia. }
    unfold M. rewrite PE. f_equal. apply window_max_ext. intros l' _. now rewrite PE.
Qed.
Print Assumptions C52_max_pool1d_grad.

Example C52_max_pool1d_grad_nonvacuous :
  let x := mk3 1 1 4 (fun _ _ j => INR j - 5) in
  let g := mk3 1 1 2 (fun _ _ _ => 1) in
  (0 < 2)%nat /\ (0 < 2)%nat /\ (2 <= 0 + d32 x + 0)%nat
  /\ d30 g = d30 x /\ d31 g = d31 x /\ d32 g = positions (d32 x) 2 0 0 2
  /\ (forall n c u, (n < d30 x)%nat -> (c < d31 x)%nat -> (u < d32 g)%nat ->
     no_ties (fun l => (l < 2)%nat) (inside (d32 x) 2 0 u) (entry1 x 2 0 n c u)).
Proof.
  cbn [d30 d31 d32]. repeat (split; [lia || reflexivity|]).
  intros n c u _ _ Hu l l' Hl Hl' M M' N. exfalso.
  assert (E : forall i, (i < 2)%nat -> entry1 (mk3 1 1 4 (fun _ _ j => INR j - 5)) 2 0 n c u i = INR (2 * u + i) - 5).
  { intros i Hi. unfold entry1, signal. cbn [d32 at3].
    replace (0 <=? _)%Z with true by (symmetry; apply Z.leb_le; lia).
    replace (_ <? _)%Z with true by (symmetry; apply Z.ltb_lt; lia). cbn [andb]. do 2 f_equal. lia. }
  specialize (M l' Hl'). specialize (M' l Hl). rewrite !E in M, M' by assumption.
  assert (INR (2 * u + l) = INR (2 * u + l')) by lra. apply INR_eq in H. lia.
Qed.

(** C52 does not hold with ties: every largest entry gets the whole gradient.  Along a direction in
    which the result has derivative 1 the gradient function says 2. *)
Theorem C52_ties_refuted : exists oob g x k s G dx,
  (0 < s)%nat /\ (0 < k <= d32 x)%nat /\ d30 g = d30 x /\ d31 g = d31 x /\ d32 g = positions (d32 x) k 0 0 s
  /\ max_pool1d_grad g x k s 0 0 = Ok G
  /\ derivable_pt_lim
       (fun t => sum3 (d30 g) (d31 g) (d32 g) (fun n c w =>
          at3 g n c w * value3 (max_pool1d oob (line3 x dx t) k s 0 0 1) n c w)) 0 1
  /\ sum3 (d30 x) (d31 x) (d32 x) (fun n c q => at3 G n c q * dx n c q) = 2.
Proof.
  exists (fun _ _ _ => 0), (mk3 1 1 1 (fun _ _ _ => 1)), (mk3 1 1 2 (fun _ _ _ => 3)), 2%nat, 1%nat.
  eexists. exists (fun _ _ _ => 1). do 5 (split; [cbn; lia|]). split; [reflexivity|]. split.
  - apply (dl_of_affine _ 3). intros t. cbn. rewrite Rmax_left by lra. ring.
  - unfold sum3, total. cbn [d30 d31 d32 at3 seq map fold_right]. repeat (replace (Z.to_nat _) with 1%nat by reflexivity). cbn. rewrite Rmax_left by lra. unfold same. destruct (Req_EM_T 3 3); lra.
Qed.
Print Assumptions C52_ties_refuted.

(** The padding takes part in the maximum: pooling negative entries with padding gives 0, larger than
    every entry of the input (the other backends pad with minus infinity). *)
Theorem C52_padding_value_refuted : exists x k s p0 p1,
  (0 < s)%nat /\ (0 < k <= p0 + d32 x + p1)%nat /\ (p0 < k /\ p1 < k)%nat
  /\ forall oob, exists y, max_pool1d oob x k s p0 p1 1 = Ok y
     /\ (0 < d32 y)%nat /\ forall q, at3 x 0 0 q < at3 y 0 0 0.
Proof.
  exists (mk3 1 1 2 (fun _ _ _ => -1)), 2%nat, 1%nat, 1%nat, 0%nat.
  do 3 (split; [cbn; lia|]). intros oob. eexists. split; [reflexivity|]. split; [cbn; lia|].
  intros q. cbn. rewrite Rmax_left by lra. lra.
Qed.
Print Assumptions C52_padding_value_refuted.

(** ** Two dimensions *)

(** C52: with equal steps each entry of [max_pool2d] is the largest entry of its window of the
    zero-padded image. *)
Theorem C52_max_pool2d : forall oob x kh kw s ph0 ph1 pw0 pw1,
  (0 < s)%nat -> (0 < kh)%nat -> (0 < kw)%nat -> (kh <= ph0 + d42 x + ph1)%nat -> (kw <= pw0 + d43 x + pw1)%nat ->
  exists y, max_pool2d oob x kh kw s s ph0 ph1 pw0 pw1 1 1 = Ok y
  /\ d40 y = d40 x /\ d41 y = d41 x
  /\ d42 y = positions (d42 x) kh ph0 ph1 s /\ d43 y = positions (d43 x) kw pw0 pw1 s
  /\ forall n c h w, (h < d42 y)%nat -> (w < d43 y)%nat ->
       is_max (fun r => (fst r < kh)%nat /\ (snd r < kw)%nat)
         (fun r => entry2 x s s ph0 pw0 n c h w (fst r) (snd r)) (at4 y n c h w).
Proof.
  intros oob x kh kw s ph0 ph1 pw0 pw1 Hs Hkh Hkw Hh Hw. unfold max_pool2d. cbn [Nat.eqb andb negb].
  rewrite !window_count_ok by assumption. cbn [bind].
  destruct (sub2 oob x (positions (d42 x) kh ph0 ph1 s) (positions (d43 x) kw pw0 pw1 s) kh kw ph0 ph1 pw0 pw1 s)
    as (sub & -> & D0 & D1 & D2 & D3 & D4 & D5 & A). cbn [bind].
  eexists. split; [reflexivity|]. cbn [d40 d41 d42 d43 at4]. do 4 (split; [auto|]). intros n c h w Lh Lw.
  rewrite D4, D5. fold (grid kh kw).
  rewrite (window_max_ext (grid kh kw) _ (fun r => entry2 x s s ph0 pw0 n c h w (fst r) (snd r))).
  - apply window_max_is_max; [destruct kh, kw; try lia; easy|]. intros l. apply in_grid_iff.
  - intros [a b] Hl. apply in_grid_iff in Hl. cbn [fst snd] in *. destruct Hl. rewrite D2 in Lh. rewrite D3 in Lw.
    rewrite A; [|now apply (window_in _ kh)|now apply (window_in _ kw)].
    unfold entry2. rewrite signal_meets. apply total_ext; intros y _. now rewrite signal_meets.
Qed.
Print Assumptions C52_max_pool2d.

(** C52: with equal steps [avg_pool2d] gives the mean of each window of the zero-padded image. *)
Theorem C52_avg_pool2d : forall oob x kh kw s ph0 ph1 pw0 pw1,
  (0 < s)%nat -> (0 < kh)%nat -> (0 < kw)%nat -> (kh <= ph0 + d42 x + ph1)%nat -> (kw <= pw0 + d43 x + pw1)%nat ->
  exists y, avg_pool2d oob x kh kw s s ph0 ph1 pw0 pw1 1 1 = Ok y
  /\ d40 y = d40 x /\ d41 y = d41 x
  /\ d42 y = positions (d42 x) kh ph0 ph1 s /\ d43 y = positions (d43 x) kw pw0 pw1 s
  /\ forall n c h w, (h < d42 y)%nat -> (w < d43 y)%nat ->
       at4 y n c h w = average2 x kh kw s s ph0 pw0 n c h w.
Proof.
  intros oob x kh kw s ph0 ph1 pw0 pw1 Hs Hkh Hkw Hh Hw. unfold avg_pool2d. cbn [Nat.eqb andb negb].
  rewrite !window_count_ok by assumption. cbn [bind].
  destruct (sub2 oob x (positions (d42 x) kh ph0 ph1 s) (positions (d43 x) kw pw0 pw1 s) kh kw ph0 ph1 pw0 pw1 s)
    as (sub & -> & D0 & D1 & D2 & D3 & D4 & D5 & A). cbn [bind].
  eexists. split; [reflexivity|]. cbn [d40 d41 d42 d43 at4]. do 4 (split; [auto|]). intros n c h w Lh Lw.
  unfold average2. rewrite D4, D5. f_equal. rewrite rsum_total. apply total_ext; intros a Ha.
  rewrite rsum_total. apply total_ext; intros b Hb. rewrite D2 in Lh. rewrite D3 in Lw.
  rewrite A; [|now apply (window_in _ kh)|now apply (window_in _ kw)].
  unfold entry2. rewrite signal_meets. apply total_ext; intros y _. now rewrite signal_meets.
Qed.
Print Assumptions C52_avg_pool2d.

Example C52_pool2d_nonvacuous :
  let x := mk4 1 1 3 4 (fun _ _ y z => INR (y + z)) in
  (0 < 2)%nat /\ (0 < 3)%nat /\ (3 <= 1 + d42 x + 0)%nat /\ (2 <= 1 + d43 x + 0)%nat.
Proof. cbn. repeat split; lia. Qed.

(** The loop of both gradients. *)
Lemma window_meets2 s0 s1 p q kh kw u y z W :
  (if andb (andb (Nat.leb (fst u * s0) (p + y)) (Nat.ltb (p + y) (fst u * s0 + kh)))
           (andb (Nat.leb (snd u * s1) (q + z)) (Nat.ltb (q + z) (snd u * s1 + kw)))
   then W (p + y)%nat (q + z)%nat else 0)
  = lsum (grid kh kw) (fun l => meets2 s0 s1 p q u l (y, z) * W (fst u * s0 + fst l)%nat (snd u * s1 + snd l)%nat).
Proof.
  rewrite grid_total. cbn [fst snd].
  pose proof (window_meets s0 p kh (fst u) y (fun y' =>
    if andb (Nat.leb (snd u * s1) (q + z)) (Nat.ltb (q + z) (snd u * s1 + kw)) then W y' (q + z)%nat else 0)) as E.
  cbn beta in E.
  etransitivity; [|etransitivity; [exact E|]].
  - destruct (andb (Nat.leb (fst u * s0) _) _); [|reflexivity]. cbn [andb]. reflexivity.
  - apply total_ext; intros a _. rewrite (window_meets s1 q kw (snd u) z (fun z' => W (fst u * s0 + a)%nat z')).
    rewrite !total_lsum, <- lsum_scal. apply lsum_ext; intros b _. unfold meets2. cbn [fst snd]. ring.
Qed.

Lemma pool2d_grad_ok weight g x kh kw s0 s1 ph0 ph1 pw0 pw1 :
  (0 < s0)%nat -> (0 < s1)%nat -> (kh <= ph0 + d42 x + ph1)%nat -> (kw <= pw0 + d43 x + pw1)%nat ->
  exists G, pool2d_grad weight g x kh kw s0 s1 ph0 ph1 pw0 pw1 = Ok G
  /\ d40 G = d40 x /\ d41 G = d41 x /\ d42 G = d42 x /\ d43 G = d43 x
  /\ forall n c r, at4 G n c (fst r) (snd r)
     = lsum (grid (positions (d42 x) kh ph0 ph1 s0) (positions (d43 x) kw pw0 pw1 s1)) (fun u =>
         lsum (grid kh kw) (fun l => meets2 s0 s1 ph0 pw0 u l r *
           weight n c (fst u * s0)%nat (snd u * s1)%nat (fst u * s0 + fst l)%nat (snd u * s1 + snd l)%nat)
         * at4 g n c (fst u) (snd u)).
Proof.
  intros Hs0 Hs1 Hh Hw. unfold pool2d_grad. rewrite !window_count_ok by assumption. cbn [bind].
  eexists. split; [reflexivity|]. cbn [d40 d41 d42 d43 at4]. do 4 (split; [reflexivity|]).
  intros n c [y z]. cbn [fst snd]. rewrite !Nat2Z.id.
  rewrite (loop_sum2 _ (fun ij y z => andb (andb (Nat.leb (fst ij * s0) y) (Nat.ltb y (fst ij * s0 + kh)))
      (andb (Nat.leb (snd ij * s1) z) (Nat.ltb z (snd ij * s1 + kw))))
      (fun ij y z => weight n c (fst ij * s0)%nat (snd ij * s1)%nat y z * at4 g n c (fst ij) (snd ij))).
  rewrite Rplus_0_l. apply lsum_ext; intros u _.
  rewrite (window_meets2 s0 s1 ph0 pw0 kh kw u y z (fun y z =>
    weight n c (fst u * s0)%nat (snd u * s1)%nat y z * at4 g n c (fst u) (snd u))).
  rewrite <- lsum_scal_r. apply lsum_ext; intros l _. ring.
Qed.

Lemma padded2_entry x p q s0 s1 n c h w a b :
  padded2 x p q n c (h * s0 + a) (w * s1 + b) = entry2 x s0 s1 p q n c h w a b.
Proof.
  unfold padded2, entry2. rewrite pad_axis_signal.
  replace (Z.of_nat (h * s0 + a) - Z.of_nat p)%Z with (Z.of_nat h * Z.of_nat s0 + Z.of_nat a - Z.of_nat p)%Z by lia.
  apply signal_ext. intros y _. rewrite pad_axis_signal. f_equal. lia.
Qed.

Lemma entry2_line x dx s0 s1 p q n c t u l :
  entry2 (line4 x dx t) s0 s1 p q n c (fst u) (snd u) (fst l) (snd l)
  = entry2 x s0 s1 p q n c (fst u) (snd u) (fst l) (snd l)
    + t * lsum (grid (d42 x) (d43 x)) (fun r => meets2 s0 s1 p q u l r * dx n c (fst r) (snd r)).
Proof.
  rewrite !entry2_meets. cbn [line4 d42 d43 at4].
  rewrite <- lsum_scal, <- lsum_plus. apply lsum_ext; intros r _. ring.
Qed.

Lemma pool_adjoint g x dx kh kw s0 s1 p q oh ow (M : nat -> nat -> nat * nat -> nat * nat -> R) (G : arr4) :
  (forall n c r, at4 G n c (fst r) (snd r) = lsum (grid oh ow) (fun u =>
     lsum (grid kh kw) (fun l => meets2 s0 s1 p q u l r * M n c u l) * at4 g n c (fst u) (snd u))) ->
  sum4 (d40 x) (d41 x) oh ow (fun n c h w => at4 g n c h w *
    lsum (grid kh kw) (fun l => M n c (h, w) l *
      lsum (grid (d42 x) (d43 x)) (fun r => meets2 s0 s1 p q (h, w) l r * dx n c (fst r) (snd r))))
  = sum4 (d40 x) (d41 x) (d42 x) (d43 x) (fun n c y z => at4 G n c y z * dx n c y z).
Proof.
  intros HG. unfold sum4. apply lsum_ext; intros n _. apply lsum_ext; intros c _.
  pose proof (adjoint_pool [tt] (grid oh ow) (grid kh kw) (grid (d42 x) (d43 x)) (fun _ u => at4 g n c (fst u) (snd u))
    (fun _ u l => M n c u l) (meets2 s0 s1 p q) (fun _ r => dx n c (fst r) (snd r))) as AD.
  unfold lsum at 1 in AD. unfold lsum at 4 in AD. cbn [map fold_right] in AD. rewrite !Rplus_0_r in AD.
  rewrite (grid_total oh ow) in AD. cbn [fst snd] in AD. etransitivity; [exact AD|].
  rewrite (total_grid (d42 x) (d43 x) (fun y z => at4 G n c y z * dx n c y z)).
  apply lsum_ext; intros r _. now rewrite HG.
Qed.

(** C52: the gradient of [max_pool2d]: for any steps it is the gradient of the window maxima, where no
    window has two largest entries (padding apart); with equal steps these are what [max_pool2d] computes. *)
Theorem C52_max_pool2d_grad : forall oob g x kh kw s0 s1 ph0 ph1 pw0 pw1,
  (0 < s0)%nat -> (0 < s1)%nat -> (0 < kh)%nat -> (0 < kw)%nat ->
  (kh <= ph0 + d42 x + ph1)%nat -> (kw <= pw0 + d43 x + pw1)%nat ->
  d40 g = d40 x -> d41 g = d41 x ->
  d42 g = positions (d42 x) kh ph0 ph1 s0 -> d43 g = positions (d43 x) kw pw0 pw1 s1 ->
  (forall n c h w, (n < d40 x)%nat -> (c < d41 x)%nat -> (h < d42 g)%nat -> (w < d43 g)%nat ->
     no_ties (fun r => (fst r < kh)%nat /\ (snd r < kw)%nat)
       (fun r => inside (d42 x) s0 ph0 h (fst r) /\ inside (d43 x) s1 pw0 w (snd r))
       (fun r => entry2 x s0 s1 ph0 pw0 n c h w (fst r) (snd r))) ->
  exists G, max_pool2d_grad g x kh kw s0 s1 ph0 ph1 pw0 pw1 = Ok G
  /\ d40 G = d40 x /\ d41 G = d41 x /\ d42 G = d42 x /\ d43 G = d43 x
  /\ forall dx,
     (forall F : R -> nat -> nat -> nat -> nat -> R,
        (forall t n c h w, (h < d42 g)%nat -> (w < d43 g)%nat ->
           is_max (fun r => (fst r < kh)%nat /\ (snd r < kw)%nat)
             (fun r => entry2 (line4 x dx t) s0 s1 ph0 pw0 n c h w (fst r) (snd r)) (F t n c h w)) ->
        derivable_pt_lim
          (fun t => sum4 (d40 g) (d41 g) (d42 g) (d43 g) (fun n c h w => at4 g n c h w * F t n c h w)) 0
          (sum4 (d40 x) (d41 x) (d42 x) (d43 x) (fun n c y z => at4 G n c y z * dx n c y z)))
     /\ (s0 = s1 -> derivable_pt_lim
          (fun t => sum4 (d40 g) (d41 g) (d42 g) (d43 g) (fun n c h w =>
             at4 g n c h w * value4 (max_pool2d oob (line4 x dx t) kh kw s0 s1 ph0 ph1 pw0 pw1 1 1) n c h w)) 0
          (sum4 (d40 x) (d41 x) (d42 x) (d43 x) (fun n c y z => at4 G n c y z * dx n c y z))).
Proof.
  intros oob g x kh kw s0 s1 ph0 ph1 pw0 pw1 Hs0 Hs1 Hkh Hkw Hh Hw G0 G1 G2 G3 T.
  unfold max_pool2d_grad.
  destruct (pool2d_grad_ok (fun n c sh sw y z =>
      same (window_max (map (fun r => padded2 x ph0 pw0 n c (sh + fst r) (sw + snd r))
                               (list_prod (seq 0 kh) (seq 0 kw)))) (padded2 x ph0 pw0 n c y z))
      g x kh kw s0 s1 ph0 ph1 pw0 pw1 Hs0 Hs1 Hh Hw) as (G & E & D0 & D1 & D2 & D3 & A).
  exists G. split; [exact E|]. do 4 (split; [assumption|]). intros dx.
  match goal with |- ?P /\ _ => assert (M : P) end.
  { intros F HF.
    assert (NE : grid kh kw <> []) by (destruct kh, kw; try lia; easy).
    set (a := fun n c (u l : nat * nat) => entry2 x s0 s1 ph0 pw0 n c (fst u) (snd u) (fst l) (snd l)).
    set (b := fun n c u l => lsum (grid (d42 x) (d43 x)) (fun r => meets2 s0 s1 ph0 pw0 u l r * dx n c (fst r) (snd r))).
    set (M := fun n c u l => same (window_max (map (a n c u) (grid kh kw))) (a n c u l)).
    eapply dl_eq.
    - apply (dl_pairing4' _ _ _ _ _ (fun n c h w => lsum (grid kh kw) (fun l => M n c (h, w) l * b n c (h, w) l))).
      intros n c h w Hn Hc Lh Lw.
      apply (dl_ext _ (fun t => window_max (map (fun l => a n c (h, w) l + t * b n c (h, w) l) (grid kh kw)))).
      + intros t. apply (is_max_unique _ _ _ _ (HF t n c h w Lh Lw)).
        rewrite (window_max_ext _ _ (fun r => entry2 (line4 x dx t) s0 s1 ph0 pw0 n c h w (fst r) (snd r))).
        * apply window_max_is_max; [exact NE|]. intros l. apply in_grid_iff.
        * intros l _. unfold a, b. symmetry. apply (entry2_line x dx s0 s1 ph0 pw0 n c t (h, w) l).
      + apply mask_all with (inp := fun r => inside (d42 x) s0 ph0 h (fst r) /\ inside (d43 x) s1 pw0 w (snd r)).
        * apply NoDup_grid.
        * exact NE.
        * intros l _ O. unfold b. apply lsum_zero. intros r Hr. apply in_grid in Hr. destruct Hr as [Hy Hz].
          unfold meets2. cbn [fst snd].
          destruct (Nat.eq_dec (h * s0 + fst l) (ph0 + fst r)) as [E1|E1]; [|rewrite meets_ne by assumption; ring].
          destruct (Nat.eq_dec (w * s1 + snd l) (pw0 + snd r)) as [E2|E2];
            [|rewrite (meets_ne s1) by assumption; ring].
          exfalso. apply O. unfold inside. lia.
        * eapply no_ties_iff; [| |apply (T n c h w); congruence].
          -- intros l. symmetry. apply in_grid_iff.
          -- reflexivity.
    - rewrite G0, G1, G2, G3.
      apply (pool_adjoint g x dx kh kw s0 s1 ph0 pw0 _ _ M G).
      intros n c r. rewrite A. apply lsum_ext; intros u _. f_equal. apply lsum_ext; intros l _. f_equal.
      unfold M. rewrite padded2_entry. f_equal. apply window_max_ext. intros l' _. apply padded2_entry. }
  split; [exact M|]. intros <-. apply M. intros t n c h w Lh Lw.
  destruct (C52_max_pool2d oob (line4 x dx t) kh kw s0 ph0 ph1 pw0 pw1 Hs0 Hkh Hkw Hh Hw)
    as (y & -> & _ & _ & Y2 & Y3 & Y). cbn [value4]. cbn [line4 d42 d43] in Y2, Y3.
  apply Y; congruence.
Qed.
Print Assumptions C52_max_pool2d_grad.

Example C52_max_pool2d_grad_nonvacuous :
  let x := mk4 1 1 1 4 (fun _ _ _ z => INR z) in
  let g := mk4 1 1 1 2 (fun _ _ _ _ => 1) in
  (0 < 2)%nat /\ (1 <= 0 + d42 x + 0)%nat /\ (2 <= 0 + d43 x + 0)%nat
  /\ d40 g = d40 x /\ d41 g = d41 x
  /\ d42 g = positions (d42 x) 1 0 0 2 /\ d43 g = positions (d43 x) 2 0 0 2
  /\ (forall n c h w, (n < d40 x)%nat -> (c < d41 x)%nat -> (h < d42 g)%nat -> (w < d43 g)%nat ->
     no_ties (fun r => (fst r < 1)%nat /\ (snd r < 2)%nat)
       (fun r => inside (d42 x) 2 0 h (fst r) /\ inside (d43 x) 2 0 w (snd r))
       (fun r => entry2 x 2 2 0 0 n c h w (fst r) (snd r))).
Proof.
  cbn [d40 d41 d42 d43]. repeat (split; [lia || reflexivity|]).
  intros n c h w _ _ Hh Hw [a b] [a' b'] [Ha Hb] [Ha' Hb'] M M' N. exfalso. cbn [fst snd] in *.
  assert (E : forall i, (i < 2)%nat ->
    entry2 (mk4 1 1 1 4 (fun _ _ _ z => INR z)) 2 2 0 0 n c h w 0 i = INR (2 * w + i)).
  { intros i Hi. unfold entry2, signal. cbn [d42 d43 at4].
    replace (0 <=? _)%Z with true by (symmetry; apply Z.leb_le; lia).
    replace (_ <? _)%Z with true by (symmetry; apply Z.ltb_lt; lia). cbn [andb].
    replace (0 <=? _)%Z with true by (symmetry; apply Z.leb_le; lia).
    replace (_ <? _)%Z with true by (symmetry; apply Z.ltb_lt; lia). cbn [andb]. f_equal. lia. }
  assert (a = 0%nat) by lia. assert (a' = 0%nat) by lia. subst a a'.
  specialize (M (0%nat, b')). specialize (M' (0%nat, b)). cbn [fst snd] in M, M'. rewrite !E in M, M' by assumption.
  assert (INR (2 * w + b) = INR (2 * w + b')) by (apply Rle_antisym; auto). apply INR_eq in H.
  apply N. f_equal. lia.
Qed.

(** C52: the gradient of [avg_pool2d]: of the window means for any steps, hence of [avg_pool2d] for equal ones. *)
Theorem C52_avg_pool2d_grad : forall oob g x kh kw s0 s1 ph0 ph1 pw0 pw1,
  (0 < s0)%nat -> (0 < s1)%nat -> (0 < kh)%nat -> (0 < kw)%nat ->
  (kh <= ph0 + d42 x + ph1)%nat -> (kw <= pw0 + d43 x + pw1)%nat ->
  d40 g = d40 x -> d41 g = d41 x ->
  d42 g = positions (d42 x) kh ph0 ph1 s0 -> d43 g = positions (d43 x) kw pw0 pw1 s1 ->
  exists G, avg_pool2d_grad g x kh kw s0 s1 ph0 ph1 pw0 pw1 = Ok G
  /\ d40 G = d40 x /\ d41 G = d41 x /\ d42 G = d42 x /\ d43 G = d43 x
  /\ forall dx,
     derivable_pt_lim
       (fun t => sum4 (d40 g) (d41 g) (d42 g) (d43 g) (fun n c h w =>
          at4 g n c h w * average2 (line4 x dx t) kh kw s0 s1 ph0 pw0 n c h w)) 0
       (sum4 (d40 x) (d41 x) (d42 x) (d43 x) (fun n c y z => at4 G n c y z * dx n c y z))
     /\ (s0 = s1 -> derivable_pt_lim
          (fun t => sum4 (d40 g) (d41 g) (d42 g) (d43 g) (fun n c h w =>
             at4 g n c h w * value4 (avg_pool2d oob (line4 x dx t) kh kw s0 s1 ph0 ph1 pw0 pw1 1 1) n c h w)) 0
          (sum4 (d40 x) (d41 x) (d42 x) (d43 x) (fun n c y z => at4 G n c y z * dx n c y z))).
Proof.
  intros oob g x kh kw s0 s1 ph0 ph1 pw0 pw1 Hs0 Hs1 Hkh Hkw Hh Hw G0 G1 G2 G3.
  unfold avg_pool2d_grad.
  destruct (pool2d_grad_ok (fun n c sh sw y z => 1 / INR (((sh + kh) - sh) * ((sw + kw) - sw)))
      g x kh kw s0 s1 ph0 ph1 pw0 pw1 Hs0 Hs1 Hh Hw) as (G & E & D0 & D1 & D2 & D3 & A).
  exists G. split; [exact E|]. do 4 (split; [assumption|]). intros dx.
  match goal with |- ?P /\ _ => assert (M : P) end.
  { set (b := fun n c u l => lsum (grid (d42 x) (d43 x)) (fun r => meets2 s0 s1 ph0 pw0 u l r * dx n c (fst r) (snd r))).
    eapply dl_eq.
    - apply (dl_pairing4 _ _ _ _ _ (fun n c h w => average2 x kh kw s0 s1 ph0 pw0 n c h w)
               (fun n c h w => lsum (grid kh kw) (fun l => 1 / INR (kh * kw) * b n c (h, w) l))).
      intros t n c h w _ _ _ _. unfold average2.
      rewrite (total_grid kh kw (fun a b => entry2 (line4 x dx t) s0 s1 ph0 pw0 n c h w a b)).
      rewrite (total_grid kh kw (fun a b => entry2 x s0 s1 ph0 pw0 n c h w a b)).
      rewrite (lsum_ext (grid kh kw) _ (fun r => entry2 x s0 s1 ph0 pw0 n c h w (fst r) (snd r) + t * b n c (h, w) r))
        by (intros r _; apply (entry2_line x dx s0 s1 ph0 pw0 n c t (h, w) r)).
      rewrite lsum_plus, !lsum_scal. unfold Rdiv. ring.
    - rewrite G0, G1, G2, G3.
      apply (pool_adjoint g x dx kh kw s0 s1 ph0 pw0 _ _ (fun _ _ _ _ => 1 / INR (kh * kw)) G).
      intros n c r. rewrite A. apply lsum_ext; intros u _. f_equal. apply lsum_ext; intros l _. f_equal.
      now rewrite !Nat.add_comm with (m := kh), !Nat.add_comm with (m := kw), !Nat.add_sub. }
  split; [exact M|]. intros <-. eapply dl_ext; [|exact M]. intros t. cbn beta.
  rewrite !sum4_grid. apply lsum_ext; intros n _. apply lsum_ext; intros c _.
  apply lsum_ext; intros u Hu. apply in_grid in Hu. destruct Hu as [Lh Lw]. f_equal.
  destruct (C52_avg_pool2d oob (line4 x dx t) kh kw s0 ph0 ph1 pw0 pw1 Hs0 Hkh Hkw Hh Hw)
    as (y & -> & _ & _ & Y2 & Y3 & Y). cbn [value4]. cbn [line4 d42 d43] in Y2, Y3. apply Y; congruence.
Qed.
Print Assumptions C52_avg_pool2d_grad.

Example C52_avg_pool2d_grad_nonvacuous :
  let x := mk4 1 1 3 4 (fun _ _ y z => INR (y + z)) in
  let g := mk4 1 1 1 4 (fun _ _ _ _ => 1) in
  (0 < 2)%nat /\ (0 < 1)%nat /\ (3 <= 1 + d42 x + 0)%nat /\ (2 <= 1 + d43 x + 0)%nat
  /\ d40 g = d40 x /\ d41 g = d41 x
  /\ d42 g = positions (d42 x) 3 1 0 2 /\ d43 g = positions (d43 x) 2 1 0 1.
Proof. cbn. repeat split; lia. Qed.

(** C52: nothing succeeds with another dilation or a step of zero. *)
Theorem C52_only : forall oob1 oob2 x3 x4 k kh kw s0 s1 p0 p1 q0 q1 dil0 dil1,
  (dil0 <> 1%nat \/ s0 = 0%nat -> exists e, max_pool1d oob1 x3 k s0 p0 p1 dil0 = Err e)
  /\ (dil0 <> 1%nat \/ dil1 <> 1%nat \/ s0 = 0%nat \/ s1 = 0%nat ->
      (exists e, max_pool2d oob2 x4 kh kw s0 s1 p0 p1 q0 q1 dil0 dil1 = Err e)
      /\ exists e, avg_pool2d oob2 x4 kh kw s0 s1 p0 p1 q0 q1 dil0 dil1 = Err e).
Proof.
  intros. unfold max_pool1d, max_pool2d, avg_pool2d, window_count. split.
  - intros H. destruct (Nat.eqb_spec dil0 1); cbn [negb]; [|eexists; reflexivity].
    destruct (Nat.eqb_spec s0 0); cbn [bind]; [eexists; reflexivity|]. lia.
  - intros H. destruct (Nat.eqb_spec dil0 1); cbn [andb negb]; [|split; eexists; reflexivity].
    destruct (Nat.eqb_spec dil1 1); cbn [negb]; [|split; eexists; reflexivity].
    destruct (Nat.eqb_spec s0 0); cbn [bind]; [split; eexists; reflexivity|].
    destruct (Nat.eqb_spec s1 0); cbn [bind]; [split; eexists; reflexivity|]. lia.
Qed.
Print Assumptions C52_only.

Example C52_only_nonvacuous : (2 <> 1)%nat \/ 3%nat = 0%nat.
Proof. left. lia. Qed.

(** C52 does not hold for different steps: the step of the first axis is used for both. *)
Theorem C52_mixed_stride_refuted : exists oob x kh kw s0 s1 y z,
  (0 < s0 /\ 0 < s1)%nat /\ (0 < kh <= d42 x)%nat /\ (0 < kw <= d43 x)%nat
  /\ max_pool2d oob x kh kw s0 s1 0 0 0 0 1 1 = Ok y
  /\ avg_pool2d oob x kh kw s0 s1 0 0 0 0 1 1 = Ok z
  /\ (1 < d43 y)%nat /\ (1 < d43 z)%nat
  /\ at4 z 0 0 0 1 <> average2 x kh kw s0 s1 0 0 0 0 0 1
  /\ ~ is_max (fun r => (fst r < kh)%nat /\ (snd r < kw)%nat)
         (fun r => entry2 x s0 s1 0 0 0 0 0 1 (fst r) (snd r)) (at4 y 0 0 0 1).
Proof.
  exists (fun _ _ _ _ => 0), (mk4 1 1 1 3 (fun _ _ _ z => if Nat.eqb z 2 then 1 else 0)),
    1%nat, 1%nat, 1%nat, 2%nat.
  eexists. eexists. do 3 (split; [cbn; lia|]). split; [reflexivity|]. split; [reflexivity|].
  do 2 (split; [cbn; lia|]). split.
  - unfold average2. cbn. change (Pos.to_nat 2) with 2%nat. cbn. lra.
  - intros [_ B]. specialize (B (0%nat, 0%nat)). cbn in B. change (Pos.to_nat 2) with 2%nat in B. cbn in B.
    specialize (B ltac:(lia)). lra.
Qed.
Print Assumptions C52_mixed_stride_refuted.
