From Coq Require Import Reals List Arith Lia Lra.
From Verif Require Import PyBase Norm_Model Norm_Spec.
Import ListNotations.
Open Scope R_scope.

Lemma total_sum : forall l, total l = sum l.
Proof. induction l as [|x r IH]; cbn; [reflexivity|]. unfold total in IH. rewrite IH. reflexivity. Qed.

Lemma len_pos : forall (l : list R), l <> [] -> 0 < INR (length l).
Proof. intros [|x r] H; [congruence|]. apply lt_0_INR. cbn. lia. Qed.

Lemma mean_average : forall l, l <> [] -> average l (mean l).
Proof.
  intros l H. pose proof (len_pos l H). unfold average, mean. rewrite total_sum. field. lra.
Qed.

Lemma average_mean : forall l m, l <> [] -> average l m -> m = mean l.
Proof.
  intros l m H A. pose proof (len_pos l H). unfold average in A. unfold mean. rewrite total_sum, <- A. field. lra.
Qed.

Lemma sum_map_sq : forall l m, sum (map (fun x => (x - m) * (x - m)) l) = sum (map (fun x => (x - m) ^ 2) l).
Proof. intros l m. induction l as [|x r IH]; cbn [map sum]; [reflexivity|]. rewrite IH. ring. Qed.

Lemma var_deviation : forall l, l <> [] -> deviation l (var l).
Proof.
  intros l H. pose proof (len_pos l H). exists (mean l). split; [apply mean_average, H|].
  unfold var. rewrite total_sum, sum_map_sq. field. lra.
Qed.

Lemma sum_sq_nonneg : forall l m, 0 <= sum (map (fun x => (x - m) ^ 2) l).
Proof.
  intros l m. induction l as [|x r IH]; cbn [map sum]; [lra|]. pose proof (pow2_ge_0 (x - m)). lra.
Qed.

Lemma var_nonneg : forall l, l <> [] -> 0 <= var l.
Proof.
  intros l H. pose proof (len_pos l H). unfold var. rewrite total_sum, sum_map_sq.
  apply Rmult_le_pos; [apply sum_sq_nonneg|]. left. apply Rinv_0_lt_compat. lra.
Qed.

Lemma sum_centred : forall l m s, sum (map (fun x => (x - m) / s) l) = (sum l - INR (length l) * m) / s.
Proof.
  intros l m s. unfold Rdiv. induction l as [|x r IH].
  - cbn. ring.
  - cbn [map sum]. rewrite IH. cbn [length]. rewrite S_INR. ring.
Qed.

Lemma normalise_average : forall eps l, l <> [] -> average (normalise eps l) 0.
Proof.
  intros eps l H. unfold average, normalise. rewrite map_length, sum_centred.
  pose proof (mean_average l H) as A. unfold average in A.
  rewrite <- A. unfold Rdiv. ring.
Qed.

Lemma sum_scaled_sq : forall l m s, s <> 0 ->
  sum (map (fun x => (x - 0) ^ 2) (map (fun x => (x - m) / s) l)) = sum (map (fun x => (x - m) ^ 2) l) / (s * s).
Proof.
  intros l m s Hs. induction l as [|x r IH]; cbn [map sum].
  - unfold Rdiv. ring.
  - rewrite IH. field. exact Hs.
Qed.

Lemma normalise_deviation : forall eps l, 0 < eps -> l <> [] ->
  deviation (normalise eps l) (var l / (var l + eps)).
Proof.
  intros eps l He H. exists 0. split; [apply normalise_average, H|].
  pose proof (var_nonneg l H) as V. pose proof (len_pos l H) as L.
  unfold normalise. rewrite map_length, sum_scaled_sq.
  - rewrite sqrt_sqrt by lra. destruct (var_deviation l H) as [m [A D]].
    rewrite <- (average_mean l m H A). rewrite <- D. field. lra.
  - apply Rgt_not_eq. apply sqrt_lt_R0. lra.
Qed.

Lemma sum_shift : forall c l, sum (map (Rplus c) l) = INR (length l) * c + sum l.
Proof.
  intros c l. induction l as [|x r IH]; [cbn; ring|]. cbn [map sum length]. rewrite IH, S_INR. ring.
Qed.

Lemma mean_shift : forall c l, l <> [] -> mean (map (Rplus c) l) = c + mean l.
Proof.
  intros c l H. pose proof (len_pos l H). unfold mean. rewrite map_length, (total_sum (map (Rplus c) l)), sum_shift, (total_sum l). field. lra.
Qed.

Lemma var_shift : forall c l, l <> [] -> var (map (Rplus c) l) = var l.
Proof.
  intros c l H. unfold var. rewrite (mean_shift c l H), map_length, map_map. f_equal. f_equal.
  apply map_ext. intros x. ring.
Qed.

Lemma normalise_shift : forall eps c l, l <> [] -> normalise eps (map (Rplus c) l) = normalise eps l.
Proof.
  intros eps c l H. unfold normalise. rewrite (mean_shift c l H), (var_shift c l H), map_map.
  apply map_ext. intros x. f_equal. ring.
Qed.

Lemma normalise_nth : forall eps l j, (j < length l)%nat ->
  nth j (normalise eps l) 0 = (nth j l 0 - mean l) / sqrt (var l + eps).
Proof.
  intros eps l j H. unfold normalise.
  rewrite nth_indep with (d' := (fun x => (x - mean l) / sqrt (var l + eps)) 0) by (rewrite map_length; exact H).
  exact (map_nth (fun x => (x - mean l) / sqrt (var l + eps)) l 0 j).
Qed.

Lemma zip_nth : forall f a b j, (j < length a)%nat -> (j < length b)%nat ->
  nth j (zip_with f a b) 0 = f (nth j a 0) (nth j b 0).
Proof.
  intros f a. induction a as [|x a IH]; intros [|y b] [|j] Ha Hb; cbn in *; try lia; try reflexivity.
  apply IH; lia.
Qed.

Lemma zip_length : forall f a b, length a = length b -> length (zip_with f a b) = length a.
Proof.
  intros f a. induction a as [|x a IH]; intros [|y b] H; cbn in *; try discriminate; try reflexivity.
  f_equal. apply IH. congruence.
Qed.

(* Groups. *)
Lemma parts_length : forall g s l, length (parts g s l) = g.
Proof. induction g as [|g IH]; intros s l; cbn; [reflexivity|]. rewrite IH. reflexivity. Qed.

Lemma concat_parts_nth : forall (f : list R -> list R) g s l i j,
  (forall m, length (f m) = length m) -> length l = (g * s)%nat -> (i < g)%nat -> (j < s)%nat ->
  nth (i * s + j) (concat (map f (parts g s l))) 0 = nth j (f (firstn s (skipn (i * s) l))) 0.
Proof.
  intros f g. induction g as [|g IH]; intros s l i j Hf Hl Hi Hj; [lia|].
  cbn [parts map concat].
  assert (L : length (f (firstn s l)) = s) by (rewrite Hf, firstn_length; nia).
  destruct i as [|i].
  - cbn [Nat.mul Nat.add skipn]. rewrite app_nth1 by lia. reflexivity.
  - rewrite app_nth2 by (rewrite L; nia). rewrite L.
    replace (S i * s + j - s)%nat with (i * s + j)%nat by nia.
    rewrite IH; try assumption; try lia.
    + replace (S i * s)%nat with (i * s + s)%nat by nia.
      assert (E : forall a b (m : list R), skipn a (skipn b m) = skipn (a + b) m).
      { intros a b. induction b as [|b IHb]; intros m; [rewrite Nat.add_0_r; reflexivity|].
        rewrite Nat.add_succ_r. destruct m; [cbn; apply skipn_nil|]. cbn [skipn]. apply IHb. }
      rewrite E. reflexivity.
    + rewrite skipn_length. nia.
Qed.

Lemma concat_parts_length : forall (f : list R -> list R) g s l,
  (forall m, length (f m) = length m) -> length l = (g * s)%nat ->
  length (concat (map f (parts g s l))) = length l.
Proof.
  intros f g. induction g as [|g IH]; intros s l Hf Hl; cbn [parts map concat].
  - rewrite Hl. reflexivity.
  - rewrite app_length, Hf, firstn_length, IH by (try assumption; rewrite skipn_length; nia).
    rewrite skipn_length. nia.
Qed.

Lemma channel_firstn : forall hw c x, (c * hw + hw <= length x)%nat -> channel hw c x = firstn hw (skipn (c * hw) x).
Proof.
  intros hw c x H. unfold channel. apply (nth_ext _ _ 0 0).
  - rewrite map_length, seq_length, firstn_length, skipn_length. lia.
  - intros j Hj. rewrite map_length, seq_length in Hj.
    rewrite nth_indep with (d' := (fun k => nth (c * hw + k) x 0) O) by (rewrite map_length, seq_length; exact Hj).
    rewrite (map_nth (fun k => nth (c * hw + k) x 0)), seq_nth by exact Hj. cbn [Nat.add].
    assert (E : nth (c * hw + j) x 0 = nth j (skipn (c * hw) x) 0).
    { rewrite <- (firstn_skipn (c * hw) x) at 1. rewrite app_nth2; rewrite firstn_length; [|lia]. f_equal. lia. }
    rewrite E. assert (F : forall (m : list R) h, (j < h)%nat -> nth j (firstn h m) 0 = nth j m 0).
    { clear. revert j. intros j m. revert j. induction m as [|y m IH]; intros j [|h] Hh; try lia; try reflexivity.
      destruct j; cbn; [reflexivity|]. apply IH. lia. }
    symmetry. apply F, Hj.
Qed.

Lemma skipn_skipn' : forall a b (m : list R), skipn a (skipn b m) = skipn (a + b) m.
Proof.
  intros a b. induction b as [|b IHb]; intros m; [rewrite Nat.add_0_r; reflexivity|].
  rewrite Nat.add_succ_r. destruct m; [cbn; apply skipn_nil|]. cbn [skipn]. apply IHb.
Qed.

Lemma firstn_add : forall a b (m : list R), firstn (a + b) m = firstn a m ++ firstn b (skipn a m).
Proof.
  induction a as [|a IH]; intros b m; [reflexivity|]. destruct m; cbn [Nat.add firstn skipn app].
  - rewrite firstn_nil. reflexivity.
  - rewrite IH. reflexivity.
Qed.

Lemma channels_firstn : forall hw x q a, ((a + q) * hw <= length x)%nat ->
  flat_map (fun c => channel hw c x) (seq a q) = firstn (q * hw) (skipn (a * hw) x).
Proof.
  intros hw x q. induction q as [|q IH]; intros a H; cbn [seq flat_map]; [reflexivity|].
  rewrite channel_firstn by nia. rewrite IH by nia.
  replace (S q * hw)%nat with (hw + q * hw)%nat by lia. rewrite firstn_add. f_equal. f_equal.
  rewrite skipn_skipn'. reflexivity.
Qed.

Lemma spread_nth : forall hw w c k, (k < hw)%nat -> (c < length w)%nat -> nth (c * hw + k) (spread hw w) 0 = nth c w 0.
Proof.
  intros hw w. induction w as [|x r IH]; intros c k Hk Hc; cbn in Hc; [lia|].
  unfold spread in *. cbn [flat_map]. destruct c as [|c].
  - cbn [Nat.mul Nat.add]. rewrite app_nth1 by (rewrite repeat_length; exact Hk).
    cbn [nth]. clear - Hk. revert k Hk. induction hw as [|h IH]; intros [|k] Hk; cbn; try lia; try reflexivity.
    apply IH. lia.
  - rewrite app_nth2 by (rewrite repeat_length; nia). rewrite repeat_length.
    replace (S c * hw + k - hw)%nat with (c * hw + k)%nat by nia. apply IH; lia.
Qed.

Lemma spread_length : forall hw w, length (spread hw w) = (length w * hw)%nat.
Proof.
  intros hw w. induction w as [|x r IH]; [reflexivity|]. unfold spread in *. cbn [flat_map length].
  rewrite app_length, repeat_length, IH. lia.
Qed.

(* Running averages. *)
Lemma sum_scale : forall c l, sum (map (Rmult c) l) = c * sum l.
Proof. intros c l. induction l as [|x r IH]; cbn [map sum]; [ring|]. rewrite IH. ring. Qed.

Lemma sum_seq_S : forall (F : nat -> R) n,
  sum (map F (seq 0 (S n))) = F O + sum (map (fun j => F (S j)) (seq 0 n)).
Proof. intros F n. cbn [seq map sum]. rewrite <- seq_shift, map_map. reflexivity. Qed.

Lemma decayed_cons : forall m s x l, decayed m s (x :: l) = m * x + (1 - m) * decayed m s l.
Proof.
  intros m s x l. unfold decayed.
  replace (length (x :: l)) with (S (length l)) by reflexivity. rewrite sum_seq_S.
  assert (E : map (fun j => m * (1 - m) ^ S j * nth (S j) (x :: l) 0) (seq 0 (length l))
              = map (Rmult (1 - m)) (map (fun j => m * (1 - m) ^ j * nth j l 0) (seq 0 (length l)))).
  { rewrite map_map. apply map_ext. intros j. cbn [pow nth]. ring. }
  rewrite E, sum_scale. cbn [nth pow]. ring.
Qed.

Lemma fold_decayed : forall m s l, fold_left (fun a x => (1 - m) * a + m * x) l s = decayed m s (rev l).
Proof.
  intros m s l. induction l as [|x l IH] using rev_ind.
  - unfold decayed. cbn. ring.
  - rewrite fold_left_app, rev_app_distr. cbn [fold_left rev app]. rewrite decayed_cons, IH. ring.
Qed.

Definition corrected (x : list R) : R := var x * (INR (length x) / (INR (length x) - 1)).

Lemma batches_fold : forall eps m xs a b, Forall (fun x => (2 <= length x)%nat) xs ->
  batches eps m (a, b) xs
  = Ok (fold_left (fun a x => (1 - m) * a + m * x) (map mean xs) a,
        fold_left (fun a x => (1 - m) * a + m * x) (map corrected xs) b).
Proof.
  intros eps m xs. induction xs as [|x r IH]; intros a b H; [reflexivity|].
  inversion H; subst. cbn [batches]. unfold batch_step. cbv zeta.
  destruct (Nat.eqb_spec (length x) 1); [lia|]. cbn [fst snd]. rewrite IH by assumption. reflexivity.
Qed.

Lemma corrected_unbiased : forall x, (2 <= length x)%nat -> unbiased x (corrected x).
Proof.
  intros x H. assert (N : x <> []) by (intros ->; cbn in H; lia).
  destruct (var_deviation x N) as [m [A D]]. exists m. split; [exact A|]. rewrite <- D. unfold corrected.
  assert (2 <= INR (length x)) by (replace 2 with (INR 2) by reflexivity; apply le_INR, H).
  field. lra.
Qed.

(* The results of the layers. *)
Lemma normalise_length : forall eps l, length (normalise eps l) = length l.
Proof. intros. unfold normalise. apply map_length. Qed.

Lemma parts_ok : forall g n, (0 < g)%nat -> (g * n) mod g = O /\ ((g * n) / g = n)%nat.
Proof.
  intros g n H. rewrite (Nat.mul_comm g n). split; [apply Nat.mod_mul; lia|apply Nat.div_mul; lia].
Qed.

Lemma group_norm_entry : forall g q hw eps w b x c k,
  (0 < g)%nat -> length x = (g * q * hw)%nat -> length w = (g * q)%nat -> length b = (g * q)%nat ->
  (c < g * q)%nat -> (k < hw)%nat ->
  exists out, group_norm g hw eps (Some w) (Some b) x = Ok out /\ length out = length x /\
    nth (c * hw + k) out 0
    = (nth (c * hw + k) x 0 - mean (group hw q (c / q) x))
        / sqrt (var (group hw q (c / q) x) + eps) * nth c w 0 + nth c b 0.
Proof.
  intros g q hw eps w b x c k Hg Hx Hw Hb Hc Hk.
  assert (Q : (0 < q)%nat) by nia.
  assert (X : length x = (g * (q * hw))%nat) by nia.
  destruct (parts_ok g (q * hw) Hg) as [P1 P2].
  unfold group_norm. destruct (Nat.eqb_spec g 0); [lia|].
  rewrite X, P1, P2. cbn [Nat.eqb negb]. cbv zeta.
  eexists. split; [reflexivity|]. cbn [optional option_map].
  assert (L0 : length (concat (map (normalise eps) (parts g (q * hw) x))) = length x)
    by (apply concat_parts_length; [apply normalise_length|exact X]).
  assert (Lw : length (spread hw w) = length x) by (rewrite spread_length; nia).
  assert (Lb : length (spread hw b) = length x) by (rewrite spread_length; nia).
  assert (L1 : length (zip_with Rmult (concat (map (normalise eps) (parts g (q * hw) x))) (spread hw w)) = length x)
    by (rewrite zip_length; congruence).
  split; [rewrite zip_length; congruence|].
  assert (I : (c * hw + k < length x)%nat) by nia.
  rewrite zip_nth by (rewrite ?L1, ?Lb; exact I).
  rewrite zip_nth by (rewrite ?L0, ?Lw; exact I).
  rewrite !spread_nth by lia. f_equal. f_equal.
  pose proof (Nat.div_mod c q ltac:(lia)) as D. pose proof (Nat.mod_upper_bound c q ltac:(lia)) as M.
  set (i := (c / q)%nat) in *. set (r := (c mod q)%nat) in *.
  assert (Ii : (i < g)%nat) by nia.
  assert (J : (r * hw + k < q * hw)%nat) by nia.
  replace (c * hw + k)%nat with (i * (q * hw) + (r * hw + k))%nat by nia.
  rewrite (concat_parts_nth (normalise eps) g (q * hw) x i (r * hw + k) (normalise_length eps) X Ii J).
  assert (G : group hw q i x = firstn (q * hw) (skipn (i * (q * hw)) x)).
  { unfold group. rewrite channels_firstn by nia. f_equal. f_equal. nia. }
  assert (LG : length (firstn (q * hw) (skipn (i * (q * hw)) x)) = (q * hw)%nat)
    by (rewrite firstn_length, skipn_length; nia).
  rewrite normalise_nth by (rewrite LG; exact J). rewrite <- G.
  assert (N : nth (r * hw + k) (group hw q i x) 0 = nth (i * (q * hw) + (r * hw + k)) x 0).
  { rewrite G. rewrite <- (firstn_skipn (i * (q * hw)) x) at 2.
    rewrite app_nth2; rewrite firstn_length; [|nia].
    replace (i * (q * hw) + (r * hw + k) - Nat.min (i * (q * hw)) (length x))%nat with (r * hw + k)%nat by nia.
    rewrite <- (firstn_skipn (q * hw) (skipn (i * (q * hw)) x)) at 2.
    rewrite app_nth1 by (rewrite LG; exact J). reflexivity. }
  rewrite N. reflexivity.
Qed.

Lemma Forall2_map_r : forall (A : Type) (P : A -> R -> Prop) (f : A -> R) (l : list A),
  Forall (fun x => P x (f x)) l -> Forall2 P l (map f l).
Proof. intros A P f l H. induction H; cbn; constructor; assumption. Qed.
