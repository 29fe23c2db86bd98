(** * Lemmas on multiplying and reducing arrays in C memory. *)
From Coq Require Import Reals List ZArith Lia Lra Bool Permutation.
From Verif Require Import PyBase Corr_Proofs Axis_Model Axis_Spec Axis_Proofs Move_Model Move_Spec Move_Proofs Move_Proofs2 Attn_Proofs Select_Spec Select_Proofs2 Carr_Model Carr_Spec Carr_Proofs Carr_Proofs2.
Import ListNotations.
Open Scope R_scope.
Open Scope list_scope.
Open Scope res_scope.

(** ** Multiplying matrices *)
Lemma sum_loop n (f : nat -> res R) (v : nat -> R) : (forall k, (k < n)%nat -> f k = Ok (v k)) ->
  for_ n (fun k sum => let* x := f k in Ok (sum + x)) 0 = Ok (lsum (seq 0 n) v).
Proof.
  intros H. destruct (for_inv n (fun k sum => let* x := f k in Ok (sum + x)) (fun k s => s = lsum (seq 0 k) v) 0) as (s & E & V).
  - reflexivity.
  - intros k s Hk ->. rewrite H by assumption. cbn [bind]. eexists. split; [reflexivity|]. now rewrite seq_S, lsum_app, lsum_one.
  - rewrite E. now rewrite V.
Qed.
Lemma firstn_row b c : firstn (length b) (row_major (b ++ c)) = map (fun w => (w * volume c)%nat) (row_major b).
Proof.
  induction b as [|d b IH]; [reflexivity|]. cbn [app length row_major firstn map]. rewrite IH. f_equal.
  clear. induction b as [|e b IH]; cbn [app volume]; lia.
Qed.
Lemma dot_scaled i st c : dot i (map (fun w => (w * c)%nat) st) = (dot i st * c)%nat.
Proof. revert st. induction i as [|k i IH]; intros [|w st]; try reflexivity. cbn [map]. rewrite !dot_cons, IH. lia. Qed.
Lemma combine_firstn {A B} n : forall (l : list A) (m : list B), firstn n (combine l m) = combine (firstn n l) (firstn n m).
Proof.
  induction n as [|n IH]; intros [|a l] [|b m]; cbn [firstn combine]; try reflexivity. now rewrite IH.
Qed.
Lemma loc_batch b c m : positive b -> loc m (b ++ c) (row_major (b ++ c)) (length b) = Ok (ravel b (coords b m) * volume c)%nat.
Proof.
  intros P. unfold loc. rewrite combine_firstn, firstn_row, firstn_app, firstn_all, Nat.sub_diag. cbn [firstn]. rewrite app_nil_r.
  destruct (loc_coords b P (map (fun w => (w * volume c)%nat) (row_major b)) m) as [E _].
  - now rewrite map_length, row_major_length.
  - rewrite E, dot_scaled, dot_ravel by (now rewrite coords_length). reflexivity.
Qed.
Lemma ravel_two b n m o i k : length o = length b -> ravel (b ++ [n; m]) (o ++ [i; k]) = (ravel b o * (n * m) + i * m + k)%nat.
Proof.
  revert o. induction b as [|d b IH]; intros [|p o] L; try easy; cbn [app].
  - cbn. lia.
  - cbn [ravel]. rewrite IH by (cbn in L; lia). rewrite size_app. cbn [size fold_right]. lia.
Qed.
Lemma ravel_ones k v o c : length o = k -> (forall j, In j o -> j = 0%nat) -> ravel (repeat 1%nat k ++ v) (o ++ c) = ravel v c.
Proof.
  revert o. induction k as [|k IH]; intros [|p o] L H; try easy. cbn [repeat app ravel]. rewrite (H p) by (now left).
  rewrite IH by ((cbn in L; lia) || (intros j Hj; apply H; now right)). lia.
Qed.
Lemma coords_app a b m : positive b -> coords (a ++ b) m = coords a (m / size b) ++ coords b m.
Proof.
  intros P. induction a as [|d a IH]; [reflexivity|]. cbn [app coords]. rewrite IH. f_equal. rewrite size_app.
  destruct (Nat.eq_dec (size a) 0) as [Q|Q]; [now rewrite Q|].
  f_equal. rewrite (Nat.mul_comm (size a)), <- Nat.div_div; [reflexivity| |assumption]. pose proof (size_pos _ P). lia.
Qed.
Lemma coords_ones k m j : In j (coords (repeat 1%nat k) m) -> j = 0%nat.
Proof. induction k as [|k IH]; cbn [repeat coords]; [easy|]. intros [<-|H]; [apply Nat.mod_1_r|now apply IH]. Qed.
Lemma squash_ones k a : length a = k -> squash (repeat 1%nat k) a = repeat 0%nat k.
Proof. revert a. induction k as [|k IH]; intros [|p a] L; try easy. cbn. f_equal. apply IH. cbn in L. lia. Qed.
(** In a batch that repeats only in front, the same position of memory is found from the running number. *)
Lemma leading_position b t m q : leading b t -> (m < size t)%nat ->
  ravel (repeat 1%nat q ++ b) (coords (repeat 1%nat q ++ b) m) = ravel b (source b (unravel t m)) /\ positive (repeat 1%nat q ++ b).
Proof.
  intros (u & k & v & -> & -> & K) Hm. assert (P : positive (u ++ v)) by (apply pos_size; lia).
  assert (Pv : positive v) by (intros d Hd; apply P; apply in_or_app; now right). split.
  - rewrite app_assoc, <- repeat_app, coords_app by assumption.
    rewrite ravel_ones by ((rewrite coords_length; apply repeat_length) || apply coords_ones).
    rewrite <- coords_small by assumption. rewrite coords_app by assumption.
    rewrite source_squash by (rewrite !app_length, !coords_length, repeat_length; lia).
    rewrite !app_length, !coords_length, repeat_length.
    rewrite skipn_app, coords_length. replace (length u + length v - (k + length v) - length u)%nat with 0%nat by lia.
    cbn [skipn]. assert (LQ : length (skipn (length u + length v - (k + length v)) (coords u (m / size v))) = k) by (rewrite skipn_length, coords_length; lia).
    rewrite squash_app by (now rewrite LQ, repeat_length). rewrite squash_ones by exact LQ.
    rewrite ravel_ones by (apply repeat_length || (intros j Hj; apply (repeat_spec _ _ _ Hj))).
    f_equal. symmetry. apply squash_same. rewrite coords_unravel by assumption. apply unravel_inside. apply Nat.mod_upper_bound.
    pose proof (size_pos _ Pv). lia.
  - intros d Hd. apply in_app_or in Hd. destruct Hd as [Hd|Hd]; [apply repeat_spec in Hd; lia|].
    apply in_app_or in Hd. destruct Hd as [Hd|Hd]; [apply repeat_spec in Hd; lia|now apply Pv].
Qed.
Lemma leading_spreads b t : leading b t -> spreads b t.
Proof.
  intros (u & k & v & -> & -> & K). apply spreads_iff. unfold broadcastable. rewrite !app_length, repeat_length.
  apply andb_true_iff. split; [apply Nat.leb_le; lia|].
  rewrite skipn_app. replace (length u + length v - (k + length v) - length u)%nat with 0%nat by lia. cbn [skipn].
  assert (LQ : length (skipn (length u + length v - (k + length v)) u) = k) by (rewrite skipn_length; lia).
  revert LQ. generalize (skipn (length u + length v - (k + length v)) u). clear. induction k as [|k IH]; intros [|p a] L; try easy; cbn [repeat app fits].
  - induction v as [|d v IH]; [reflexivity|]. cbn [fits]. now rewrite Nat.eqb_refl, orb_true_r, IH.
  - cbn [Nat.eqb orb andb]. apply IH. cbn in L. lia.
Qed.
Lemma fold_size s : fold_right Nat.mul 1%nat s = size s.
Proof. reflexivity. Qed.
Lemma rd_app_two {A} (b : list A) n m k : k = length b -> rd (b ++ [n; m]) k = Ok n /\ rd (b ++ [n; m]) (S k) = Ok m.
Proof. intros ->. unfold rd. rewrite !nth_error_app2 by lia. rewrite Nat.sub_diag. replace (S (length b) - length b)%nat with 1%nat by lia. now cbn. Qed.
Lemma row_two b n m k : k = length b -> rd (row_major (b ++ [n; m])) k = Ok m /\ rd (row_major (b ++ [n; m])) (S k) = Ok 1%nat.
Proof.
  intros ->. induction b as [|d b IH]; [split; cbn; [f_equal; lia|reflexivity]|]. cbn [app length row_major]. unfold rd in *. cbn [nth_error]. exact IH.
Qed.
(** The broadcast shape of the batches, padded with ones in front, is computed with the maximum. *)
Definition padded_to (n : nat) (b : list nat) : list nat := repeat 1%nat (n - length b) ++ b.
Lemma nth_padded_rev n b k : (k < n)%nat -> (length b <= n)%nat -> nth k (rev (padded_to n b)) 1%nat = nth k (rev b) 1%nat.
Proof.
  intros Hk L. unfold padded_to. rewrite rev_app_distr. destruct (Nat.lt_ge_cases k (length b)) as [Q|Q].
  - now rewrite app_nth1 by (rewrite rev_length; lia).
  - rewrite app_nth2 by (rewrite rev_length; lia). rewrite (nth_overflow (rev b)) by (rewrite rev_length; lia).
    rewrite rev_length. destruct (nth_in_or_default (k - length b) (rev (repeat 1%nat (n - length b))) 1%nat) as [I|I]; [|exact I].
    apply in_rev in I. now apply repeat_spec in I.
Qed.
Lemma rev_nth_eq (l m : list nat) : length l = length m -> (forall k, (k < length l)%nat -> nth k (rev l) 1%nat = nth k (rev m) 1%nat) -> l = m.
Proof.
  intros L H. rewrite <- (rev_involutive l), <- (rev_involutive m). f_equal. apply (nth_ext _ _ 1%nat 1%nat); [now rewrite !rev_length|].
  intros k Hk. rewrite rev_length in Hk. now apply H.
Qed.
Lemma imax_max a b : imax a b = Nat.max a b.
Proof. unfold imax. destruct (Nat.ltb_spec b a); lia. Qed.
Lemma maxes_length a b : length a = length b -> length (maxes a b) = length a.
Proof. intros L. unfold maxes. rewrite map_length, combine_length. lia. Qed.
Lemma nth_maxes_rev a b k : length a = length b -> (k < length a)%nat -> nth k (rev (maxes a b)) 1%nat = Nat.max (nth k (rev a) 1%nat) (nth k (rev b) 1%nat).
Proof.
  intros L Hk. unfold maxes. rewrite <- map_rev.
  rewrite (nth_map_any _ _ 1%nat (1%nat, 1%nat)) by (rewrite rev_length, combine_length; lia).
  rewrite rev_nth, rev_nth, rev_nth by (rewrite ?combine_length; lia). rewrite combine_length, <- L, Nat.min_id.
  rewrite combine_nth by exact L. apply imax_max.
Qed.
Lemma batch_max bx by_ b : common [bx; by_] b -> positive b -> maxes (padded_to (length b) bx) (padded_to (length b) by_) = b.
Proof.
  intros [L H] P. cbn [map fold_right] in L. rewrite Nat.max_0_r in L.
  assert (LP : forall c, (length c <= length b)%nat -> length (padded_to (length b) c) = length b).
  { intros c Hc. unfold padded_to. rewrite app_length, repeat_length. lia. }
  assert (L1 := LP bx ltac:(lia)). assert (L2 := LP by_ ltac:(lia)).
  apply rev_nth_eq; [rewrite maxes_length; lia|]. intros k Hk. rewrite maxes_length in Hk by lia.
  rewrite nth_maxes_rev by lia. rewrite !nth_padded_rev by lia. destruct (H k) as [H1 H2].
  assert (A := H1 bx (or_introl eq_refl)). assert (B := H1 by_ (or_intror (or_introl eq_refl))).
  unfold dim in *. assert (Q : (0 < nth k (rev b) 1)%nat).
  { apply P. apply in_rev. apply nth_In. rewrite rev_length. lia. }
  destruct H2 as [H2|(c & [<-|[<-|[] ] ] & H2)]; lia.
Qed.
