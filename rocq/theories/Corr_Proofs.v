(** * Sums, windows and adjoints (proofs for C51) *)
From Coq Require Import Reals List ZArith Lia Lra Arith Permutation.
From Verif Require Import PyBase Deriv_Proofs Deriv_Binary Corr_Model Corr_Spec.
Import ListNotations.
Open Scope R_scope.
Open Scope list_scope.

(** ** Sums over lists *)
Definition lsum {A} (l : list A) (f : A -> R) : R := fold_right Rplus 0 (map f l).

Lemma lsum_ext {A} (l : list A) f h : (forall a, In a l -> f a = h a) -> lsum l f = lsum l h.
Proof.
  unfold lsum. induction l as [|a l IH]; intros H; [reflexivity|]; cbn.
  rewrite H by now left. f_equal. apply IH. intros b Hb. apply H. now right.
Qed.
Lemma lsum_app {A} (l m : list A) f : lsum (l ++ m) f = lsum l f + lsum m f.
Proof. unfold lsum. induction l as [|a l IH]; cbn; [ring|]. rewrite IH. ring. Qed.
Lemma lsum_plus {A} (l : list A) f h : lsum l (fun a => f a + h a) = lsum l f + lsum l h.
Proof. unfold lsum. induction l as [|a l IH]; cbn; [ring|]. rewrite IH. ring. Qed.
Lemma lsum_scal {A} (l : list A) c f : lsum l (fun a => c * f a) = c * lsum l f.
Proof. unfold lsum. induction l as [|a l IH]; cbn; [ring|]. rewrite IH. ring. Qed.
Lemma lsum_scal_r {A} (l : list A) c f : lsum l (fun a => f a * c) = lsum l f * c.
Proof. unfold lsum. induction l as [|a l IH]; cbn; [ring|]. rewrite IH. ring. Qed.
Lemma lsum_zero {A} (l : list A) f : (forall a, In a l -> f a = 0) -> lsum l f = 0.
Proof.
  unfold lsum. induction l as [|a l IH]; intros H; cbn; [reflexivity|].
  rewrite H by now left. rewrite IH; [ring|]. intros b Hb. apply H. now right.
Qed.
Lemma lsum_swap {A B} (l : list A) (m : list B) f :
  lsum l (fun a => lsum m (fun b => f a b)) = lsum m (fun b => lsum l (fun a => f a b)).
Proof.
  induction l as [|a l IH].
  - symmetry. apply lsum_zero. reflexivity.
  - change (lsum m (fun b => f a b) + lsum l (fun a => lsum m (fun b => f a b))
            = lsum m (fun b => f a b + lsum l (fun a => f a b))).
    rewrite IH, lsum_plus. reflexivity.
Qed.
Lemma lsum_map {A B} (l : list A) (h : A -> B) f : lsum (map h l) f = lsum l (fun a => f (h a)).
Proof. unfold lsum. now rewrite map_map. Qed.
Lemma lsum_prod {A B} (l : list A) (m : list B) f :
  lsum (list_prod l m) f = lsum l (fun a => lsum m (fun b => f (a, b))).
Proof.
  induction l as [|a l IH]; [reflexivity|]. cbn [list_prod].
  rewrite lsum_app, IH, lsum_map. reflexivity.
Qed.

Lemma total_lsum n f : total n f = lsum (seq 0 n) f.
Proof. reflexivity. Qed.
Lemma rsum_total n f : rsum n f = total n f.
Proof.
  induction n as [|n IH]; [reflexivity|]. cbn [rsum]. rewrite IH, !total_lsum, seq_S, lsum_app.
  cbn. ring.
Qed.
Lemma rsum_lsum n f : rsum n f = lsum (seq 0 n) f.
Proof. apply rsum_total. Qed.
Lemma total_ext n f h : (forall i, (i < n)%nat -> f i = h i) -> total n f = total n h.
Proof. intros H. apply lsum_ext. intros a Ha. apply in_seq in Ha. apply H. lia. Qed.
Lemma total_rev n f : total n (fun l => f (n - 1 - l)%nat) = total n f.
Proof.
  rewrite !total_lsum. unfold lsum.
  assert (E : forall xs ys, Permutation xs ys ->
            fold_right Rplus 0 xs = fold_right Rplus 0 ys).
  { intros xs ys P. induction P; cbn; [reflexivity|now rewrite IHP|ring|congruence]. }
  apply E.
  assert (R : map (fun l => f (n - 1 - l)%nat) (seq 0 n) = rev (map f (seq 0 n))).
  { rewrite <- map_rev. rewrite <- (map_map (fun l => (n - 1 - l)%nat) f). f_equal.
    apply nth_ext with (d := 0%nat) (d' := 0%nat).
    - now rewrite map_length, rev_length.
    - intros i Hi. rewrite map_length, seq_length in Hi.
      rewrite rev_nth by (now rewrite seq_length). rewrite seq_length.
      rewrite nth_indep with (d' := ((fun l => (n - 1 - l)%nat) 0%nat)) by (now rewrite map_length, seq_length).
      rewrite map_nth, !seq_nth by lia. lia. }
  rewrite R. symmetry. apply Permutation_rev.
Qed.

(** A sum with one term. *)
Lemma total_single n j f : (j < n)%nat -> (forall i, (i < n)%nat -> i <> j -> f i = 0) -> total n f = f j.
Proof.
  intros Hj H. rewrite total_lsum.
  replace n with (j + S (n - j - 1))%nat by lia.
  rewrite seq_app, lsum_app. cbn [seq Nat.add].
  change (lsum (j :: seq (S j) (n - j - 1)) f) with (f j + lsum (seq (S j) (n - j - 1)) f).
  rewrite !lsum_zero; [ring| |].
  - intros a Ha. apply in_seq in Ha. apply H; lia.
  - intros a Ha. apply in_seq in Ha. apply H; lia.
Qed.

(** ** The relation between windows and input positions *)
(** Entry [l] of window [u] is input entry [q]. *)
Definition meets (s p u l q : nat) : R := if Nat.eqb (u * s + l) (p + q) then 1 else 0.

Lemma signal_meets w f s p u l :
  signal w f (Z.of_nat u * Z.of_nat s + Z.of_nat l - Z.of_nat p)%Z
  = total w (fun q => meets s p u l q * f q).
Proof.
  unfold signal.
  destruct (0 <=? _)%Z eqn:E1; [apply Z.leb_le in E1|apply Z.leb_gt in E1].
  - destruct (_ <? Z.of_nat w)%Z eqn:E2; [apply Z.ltb_lt in E2|apply Z.ltb_ge in E2]; cbn [andb].
    + set (j := Z.to_nat _).
      assert (J : (u * s + l = p + j)%nat) by (unfold j; nia).
      rewrite (total_single w j).
      * unfold meets. rewrite J, Nat.eqb_refl. ring.
      * unfold j. lia.
      * intros i Hi N. unfold meets. destruct (Nat.eqb_spec (u * s + l) (p + i)); [lia|ring].
    + symmetry. apply lsum_zero. intros q Hq. apply in_seq in Hq. unfold meets.
      destruct (Nat.eqb_spec (u * s + l) (p + q)); [nia|ring].
  - cbn [andb]. symmetry. apply lsum_zero. intros q Hq. apply in_seq in Hq. unfold meets.
    destruct (Nat.eqb_spec (u * s + l) (p + q)); [nia|ring].
Qed.

Lemma pad_axis_signal p w f j : pad_axis p w f j = signal w f (Z.of_nat j - Z.of_nat p)%Z.
Proof.
  unfold pad_axis, signal.
  destruct (Nat.leb_spec p j) as [H|H].
  - assert (E : (0 <=? Z.of_nat j - Z.of_nat p)%Z = true) by (apply Z.leb_le; lia). rewrite E.
    destruct (Nat.ltb_spec j (p + w)) as [G|G]; cbn [andb].
    + assert (E2 : (Z.of_nat j - Z.of_nat p <? Z.of_nat w)%Z = true) by (apply Z.ltb_lt; lia).
      rewrite E2. f_equal. lia.
    + assert (E2 : (Z.of_nat j - Z.of_nat p <? Z.of_nat w)%Z = false) by (apply Z.ltb_ge; lia).
      now rewrite E2.
  - assert (E : (0 <=? Z.of_nat j - Z.of_nat p)%Z = false) by (apply Z.leb_gt; lia). now rewrite E.
Qed.

Lemma pad_axis_ext p w f h j : (forall q, (q < w)%nat -> f q = h q) -> pad_axis p w f j = pad_axis p w h j.
Proof.
  intros H. unfold pad_axis. destruct (Nat.leb_spec p j); [|reflexivity].
  destruct (Nat.ltb_spec j (p + w)); [|reflexivity]. apply H. lia.
Qed.
Lemma signal_ext w f h j : (forall q, (q < w)%nat -> f q = h q) -> signal w f j = signal w h j.
Proof.
  intros H. unfold signal. destruct (0 <=? j)%Z eqn:E1; [|reflexivity].
  destruct (j <? Z.of_nat w)%Z eqn:E2; [|reflexivity]. apply H. apply Z.leb_le in E1. apply Z.ltb_lt in E2. lia.
Qed.

(** Number of windows. *)
Lemma window_count_ok w k p0 p1 s : (0 < s)%nat -> (k <= p0 + w + p1)%nat ->
  window_count w k p0 p1 s = Ok (Z.of_nat (positions w k p0 p1 s)).
Proof.
  intros Hs Hk. unfold window_count, positions. destruct (Nat.eqb_spec s 0); [lia|].
  f_equal. rewrite (Nat2Z.inj_add (_ / _) 1), Nat2Z.inj_div. f_equal. f_equal. lia.
Qed.
Lemma window_in w k p0 p1 s u l : (0 < s)%nat -> (k <= p0 + w + p1)%nat ->
  (u < positions w k p0 p1 s)%nat -> (l < k)%nat -> (u * s + l < p0 + w + p1)%nat.
Proof.
  unfold positions. intros Hs Hk Hu Hl.
  pose proof (Nat.mul_div_le (p0 + w + p1 - k) s ltac:(lia)).
  assert (u * s <= (p0 + w + p1 - k) / s * s)%nat by (apply Nat.mul_le_mono_r; lia). lia.
Qed.
Lemma dimension_of_nat n : dimension (Z.of_nat n) = Ok n.
Proof.
  unfold dimension. destruct (Z.ltb_spec (Z.of_nat n) 0); [lia|]. now rewrite Nat2Z.id.
Qed.

(** The dilated output gradient. *)
Lemma dilate_pad_meets k out s f p q l : (0 < s)%nat -> (0 < out)%nat -> (l < k)%nat ->
  dilate_pad k out s f (p + q + (k - 1 - l)) = total out (fun u => meets s p u l q * f u).
Proof.
  intros Hs Ho Hl. unfold dilate_pad, pad_axis, dilated_size.
  destruct (Nat.leb_spec (k - 1) (p + q + (k - 1 - l))) as [H|H].
  - destruct (Nat.ltb_spec (p + q + (k - 1 - l)) (k - 1 + ((out - 1) * s + 1))) as [G|G]; cbn [andb].
    + replace (p + q + (k - 1 - l) - (k - 1))%nat with (p + q - l)%nat by lia.
      set (j := (p + q - l)%nat).
      assert (J : (p + q = j + l)%nat) by lia.
      pose proof (Nat.div_mod j s ltac:(lia)) as DM.
      destruct (Nat.eqb_spec (j mod s) 0) as [M|M].
      * assert (U : (j = j / s * s)%nat) by lia.
        assert (Uo : (j / s < out)%nat) by (apply Nat.div_lt_upper_bound; nia).
        rewrite (total_single out (j / s)).
        -- unfold meets. destruct (Nat.eqb_spec (j / s * s + l) (p + q)); [ring|lia].
        -- exact Uo.
        -- intros u Hu N. unfold meets. destruct (Nat.eqb_spec (u * s + l) (p + q)); [|ring].
           exfalso. apply N. apply (Nat.mul_cancel_r _ _ s); lia.
      * symmetry. apply lsum_zero. intros u Hu. unfold meets.
        destruct (Nat.eqb_spec (u * s + l) (p + q)); [|ring].
        exfalso. apply M. replace j with (u * s)%nat by lia. apply Nat.mod_mul. lia.
    + symmetry. apply lsum_zero. intros u Hu. apply in_seq in Hu. unfold meets.
      destruct (Nat.eqb_spec (u * s + l) (p + q)); [|ring].
      exfalso. assert (u * s <= (out - 1) * s)%nat by (apply Nat.mul_le_mono_r; lia). lia.
  - cbn [andb]. symmetry. apply lsum_zero. intros u Hu. unfold meets.
    destruct (Nat.eqb_spec (u * s + l) (p + q)); [lia|ring].
Qed.

(** The last padded position a window reaches. *)
Definition reach (k out s : nat) : nat := ((out - 1) * s + (k - 1))%nat.
(** The kernel size is odd, or the last window ends outside of the input. *)
Definition covered (w k p0 out s : nat) : Prop := Nat.odd k = true \/ (p0 + w <= reach k out s)%nat.

Lemma grad_windows_odd k out s : (0 < k)%nat -> (0 < out)%nat -> Nat.odd k = true ->
  grad_windows k out s = (reach k out s + 1)%nat.
Proof.
  intros Hk Ho O. apply Nat.odd_spec in O. destruct O as [m ->].
  unfold grad_windows, dilated_padded_size, dilated_size, reach.
  replace ((2 * m + 1) / 2)%nat with m; [nia|].
  rewrite Nat.mul_comm, Nat.div_add_l by lia. cbn. lia.
Qed.
Lemma grad_windows_even k out s : (0 < k)%nat -> (0 < out)%nat -> Nat.odd k = false ->
  grad_windows k out s = reach k out s.
Proof.
  intros Hk Ho O. assert (E : Nat.even k = true) by (rewrite <- Nat.negb_odd, O; reflexivity).
  apply Nat.even_spec in E. destruct E as [m ->].
  unfold grad_windows, dilated_padded_size, dilated_size, reach.
  replace (2 * m / 2)%nat with m; [nia|].
  rewrite Nat.mul_comm, Nat.div_mul by lia. lia.
Qed.
Lemma grad_windows_bound k out s : (0 < k)%nat -> (0 < out)%nat ->
  (grad_windows k out s + (k - 1) <= dilated_padded_size k out s)%nat.
Proof.
  intros Hk Ho. unfold grad_windows.
  assert (k - 1 <= k / 2 * 2)%nat.
  { pose proof (Nat.div_mod k 2 ltac:(lia)). pose proof (Nat.mod_upper_bound k 2 ltac:(lia)). lia. }
  assert (k / 2 * 2 <= dilated_padded_size k out s)%nat.
  { unfold dilated_padded_size, dilated_size.
    pose proof (Nat.mul_div_le k 2 ltac:(lia)). generalize ((out - 1) * s)%nat as z. intros z.
    destruct (Nat.eq_dec k 1) as [->|]; [cbn|]; lia. }
  lia.
Qed.
(** Nothing is lost outside of the windows that are computed. *)
Lemma not_met w k p0 out s u l q : (0 < s)%nat -> (0 < k)%nat -> (u < out)%nat -> (l < k)%nat ->
  (q < w)%nat -> covered w k p0 out s -> (grad_windows k out s <= p0 + q)%nat -> meets s p0 u l q = 0.
Proof.
  intros Hs Hk Hu Hl Hq C G. unfold meets. destruct (Nat.eqb_spec (u * s + l) (p0 + q)) as [E|]; [|reflexivity].
  exfalso. assert (u * s <= (out - 1) * s)%nat by (apply Nat.mul_le_mono_r; lia).
  destruct (Nat.odd k) eqn:O.
  - rewrite grad_windows_odd in G by (auto; lia). unfold reach in G. lia.
  - destruct C as [C|C]; [congruence|]. rewrite grad_windows_even in G by (auto; lia).
    unfold reach in *. lia.
Qed.

(** ** The adjoints, for any index sets *)
Section Adjoint.
  Context {TN TO TU TI TL TQ : Type}.
  Variables (N : list TN) (O : list TO) (U : list TU) (I : list TI) (L : list TL) (Q : list TQ).
  Variables (g : TN -> TO -> TU -> R) (K : TO -> TI -> TL -> R) (B : TU -> TL -> TQ -> R).

  Lemma adjoint_input (dx : TN -> TI -> TQ -> R) :
    lsum N (fun n => lsum O (fun o => lsum U (fun u => g n o u *
      lsum I (fun i => lsum L (fun l => lsum Q (fun q => B u l q * dx n i q) * K o i l)))))
    = lsum N (fun n => lsum I (fun i => lsum Q (fun q =>
        lsum O (fun o => lsum L (fun l => lsum U (fun u => B u l q * g n o u) * K o i l)) * dx n i q))).
  Proof.
    apply lsum_ext. intros n _.
    transitivity (lsum O (fun o => lsum U (fun u => lsum I (fun i => lsum L (fun l => lsum Q (fun q =>
       B u l q * g n o u * K o i l * dx n i q)))))).
    { apply lsum_ext; intros o _. apply lsum_ext; intros u _. rewrite <- lsum_scal.
      apply lsum_ext; intros i _. rewrite <- lsum_scal.
      apply lsum_ext; intros l _. rewrite <- lsum_scal_r, <- lsum_scal.
      apply lsum_ext; intros q _. ring. }
    transitivity (lsum I (fun i => lsum Q (fun q => lsum O (fun o => lsum L (fun l => lsum U (fun u =>
       B u l q * g n o u * K o i l * dx n i q)))))).
    2:{ apply lsum_ext; intros i _. apply lsum_ext; intros q _. rewrite <- lsum_scal_r.
        apply lsum_ext; intros o _. rewrite <- lsum_scal_r.
        apply lsum_ext; intros l _. rewrite <- !lsum_scal_r.
        apply lsum_ext; intros u _. ring. }
    transitivity (lsum O (fun o => lsum I (fun i => lsum Q (fun q => lsum L (fun l => lsum U (fun u =>
       B u l q * g n o u * K o i l * dx n i q)))))).
    { apply lsum_ext; intros o _. rewrite lsum_swap. apply lsum_ext; intros i _.
      rewrite lsum_swap. rewrite (lsum_swap Q). apply lsum_ext; intros l _. apply lsum_swap. }
    rewrite lsum_swap. apply lsum_ext; intros i _. apply lsum_swap.
  Qed.

  Lemma adjoint_weight (P : TN -> TI -> TU -> TL -> R) (dK : TO -> TI -> TL -> R) :
    lsum N (fun n => lsum O (fun o => lsum U (fun u => g n o u *
      lsum I (fun i => lsum L (fun l => P n i u l * dK o i l)))))
    = lsum O (fun o => lsum I (fun i => lsum L (fun l =>
        lsum N (fun n => lsum U (fun u => P n i u l * g n o u)) * dK o i l))).
  Proof.
    rewrite lsum_swap. apply lsum_ext; intros o _.
    transitivity (lsum N (fun n => lsum U (fun u => lsum I (fun i => lsum L (fun l =>
       P n i u l * g n o u * dK o i l))))).
    { apply lsum_ext; intros n _. apply lsum_ext; intros u _. rewrite <- lsum_scal.
      apply lsum_ext; intros i _. rewrite <- lsum_scal. apply lsum_ext; intros l _. ring. }
    transitivity (lsum I (fun i => lsum L (fun l => lsum N (fun n => lsum U (fun u =>
       P n i u l * g n o u * dK o i l))))).
    2:{ apply lsum_ext; intros i _. apply lsum_ext; intros l _. rewrite <- lsum_scal_r.
        apply lsum_ext; intros n _. rewrite <- lsum_scal_r. reflexivity. }
    transitivity (lsum N (fun n => lsum I (fun i => lsum L (fun l => lsum U (fun u =>
       P n i u l * g n o u * dK o i l))))).
    { apply lsum_ext; intros n _. rewrite lsum_swap. apply lsum_ext; intros i _. apply lsum_swap. }
    rewrite lsum_swap. apply lsum_ext; intros i _. apply lsum_swap.
  Qed.
End Adjoint.

(** ** Derivatives of affine functions *)
Lemma dl_of_affine f a b x : (forall t, f t = a + t * b) -> derivable_pt_lim f x b.
Proof.
  intros H. apply (dl_ext _ (fun t => a + b * t)); [intros t; rewrite H; ring|].
  apply (dl_eq _ _ (0 + b * 1)); [|ring].
  apply (derivable_pt_lim_plus (fun _ => a) (fun t => b * t)).
  - apply derivable_pt_lim_const.
  - apply (derivable_pt_lim_scal (fun t => t)). apply derivable_pt_lim_id.
Qed.
