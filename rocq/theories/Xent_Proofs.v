(** * Lemmas about the cross entropy losses. *)
From Coq Require Import Reals List ZArith Lia Lra.
From Coquelicot Require Import Coquelicot.
From Verif Require Import PyBase Deriv_Model Deriv_Proofs Deriv_Unary Deriv_Binary Corr_Spec Corr_Proofs Pool_Proofs Xent_Model Xent_Spec.
Import ListNotations.
Open Scope R_scope.
Open Scope list_scope.
Open Scope res_scope.

Lemma sum_n_total n f : sum_n n f = total n f.
Proof.
  induction n as [|n IH]; [reflexivity|]. cbn [sum_n]. rewrite IH, !total_lsum, seq_S, lsum_app. cbn. ring.
Qed.
Lemma py_index_class c z k : class_of c z k -> py_index c z = Ok k.
Proof.
  intros [Hk [E|E] ]; subst z; unfold py_index.
  - destruct (Z.ltb_spec (Z.of_nat k) (- Z.of_nat c)); [lia|].
    destruct (Z.leb_spec (Z.of_nat c) (Z.of_nat k)); [lia|]. cbn [orb].
    destruct (Z.ltb_spec (Z.of_nat k) 0); [lia|]. f_equal. lia.
  - destruct (Z.ltb_spec (Z.of_nat k - Z.of_nat c) (- Z.of_nat c)); [lia|].
    destruct (Z.leb_spec (Z.of_nat c) (Z.of_nat k - Z.of_nat c)); [lia|]. cbn [orb].
    destruct (Z.ltb_spec (Z.of_nat k - Z.of_nat c) 0); [|lia]. f_equal. lia.
Qed.
Lemma py_index_inv c z k : py_index c z = Ok k -> class_of c z k.
Proof.
  unfold py_index, class_of.
  destruct (Z.ltb_spec z (- Z.of_nat c)); [easy|].
  destruct (Z.leb_spec (Z.of_nat c) z); [easy|]. cbn [orb]. intros E. injection E as <-.
  destruct (Z.ltb_spec z 0); lia.
Qed.
Lemma index_class c z k : class_of c z k -> index_or_zero c z = k.
Proof. intros H. unfold index_or_zero. now rewrite (py_index_class _ _ _ H). Qed.
Lemma labels_fit_iff n d c l :
  labels_fit n d c l = true <-> forall i j, (i < n)%nat -> (j < d)%nat -> exists k, class_of c (l i j) k.
Proof.
  unfold labels_fit. rewrite forallb_forall. split.
  - intros H i j Hi Hj. specialize (H i). rewrite forallb_forall in H.
    assert (In i (seq 0 n)) as Ii by (apply in_seq; lia). specialize (H Ii j). assert (In j (seq 0 d)) as Ij by (apply in_seq; lia).
    specialize (H Ij). destruct (py_index c (l i j)) as [k|] eqn:E; [|easy]. exists k. now apply py_index_inv.
  - intros H i Hi. apply in_seq in Hi. rewrite forallb_forall. intros j Hj. apply in_seq in Hj.
    destruct (H i j) as (k & Hk); [lia|lia|]. now rewrite (py_index_class _ _ _ Hk).
Qed.
(** The mass of labels. *)
Lemma mass_label c l i j k k' : class_of c (l i j) k -> (k' < c)%nat ->
  mass c (Labels l) i k' j = if Nat.eqb k k' then 1 else 0.
Proof.
  intros [Hk H] Hk'. cbn [mass].
  destruct (Z.eq_dec (l i j) (Z.of_nat k')), (Z.eq_dec (l i j) (Z.of_nat k' - Z.of_nat c)), (Nat.eqb_spec k k'); try reflexivity; exfalso; lia.
Qed.
Lemma one_hot_mass c l i j k k' : class_of c (l i j) k -> (k' < c)%nat -> one_hot c (l i j) k' = mass c (Labels l) i k' j.
Proof. intros H Hk'. rewrite (mass_label _ _ _ _ _ _ H Hk'). unfold one_hot. now rewrite (index_class _ _ _ H). Qed.
Lemma total_label c l i j k f : class_of c (l i j) k -> total c (fun k' => mass c (Labels l) i k' j * f k') = f k.
Proof.
  intros H. pose proof (proj1 H) as Hk. rewrite (total_single c k).
  - rewrite (mass_label _ _ _ _ _ _ H Hk), Nat.eqb_refl. ring.
  - easy.
  - intros k' Hk' N. rewrite (mass_label _ _ _ _ _ _ H Hk'). destruct (Nat.eqb_spec k k'); [congruence|ring].
Qed.

(** ** Weights *)
Lemma total_swap n m (f : nat -> nat -> R) : total n (fun i => total m (f i)) = total m (fun j => total n (fun i => f i j)).
Proof. apply (lsum_swap (seq 0 n) (seq 0 m) f). Qed.
Lemma total_nonneg n f : (forall i, (i < n)%nat -> 0 <= f i) -> 0 <= total n f.
Proof.
  intros H. unfold total. assert (G : forall i, In i (seq 0 n) -> 0 <= f i) by (intros i Hi; apply in_seq in Hi; apply H; lia).
  clear H. induction (seq 0 n) as [|a l IH]; cbn; [lra|]. pose proof (G a (or_introl eq_refl)).
  enough (0 <= fold_right Rplus 0 (map f l)) by lra. apply IH. intros i Hi. apply G. now right.
Qed.
Lemma total_pos n f j : (forall i, (i < n)%nat -> 0 <= f i) -> (j < n)%nat -> 0 < f j -> 0 < total n f.
Proof.
  intros H Hj P. replace n with (j + S (n - j - 1))%nat in * by lia.
  rewrite total_lsum, seq_app, lsum_app. cbn [seq Nat.add].
  change (lsum (j :: seq (S j) (n - j - 1)) f) with (f j + lsum (seq (S j) (n - j - 1)) f).
  assert (G : forall l, (forall i, In i l -> 0 <= f i) -> 0 <= lsum l f).
  { induction l as [|a l IH]; intros G; [cbn; lra|]. change (lsum (a :: l) f) with (f a + lsum l f).
    pose proof (G a (or_introl eq_refl)). enough (0 <= lsum l f) by lra. apply IH. intros i Hi. apply G. now right. }
  pose proof (G (seq 0 j)) as G1. pose proof (G (seq (S j) (n - j - 1))) as G2.
  enough (0 <= lsum (seq 0 j) f /\ 0 <= lsum (seq (S j) (n - j - 1)) f) by lra.
  split; [apply G1|apply G2]; intros i Hi; apply in_seq in Hi; apply H; lia.
Qed.
Lemma nth_class_weight n c d p k : (k < c)%nat ->
  nth k (class_weight n c d p) 0 = 1 / total n (fun i => total d (fun j => p i k j)) *
     total c (fun k => total n (fun i => total d (fun j => p i k j))) / INR c.
Proof.
  intros Hk. unfold class_weight. rewrite (nth_indep _ 0 ((fun k => 1 / sum_n n (fun i => sum_n d (fun j => p i k j))
                * sum_n n (fun i => sum_n c (fun k => sum_n d (fun j => p i k j))) / INR c) 0%nat)) by (now rewrite map_length, seq_length).
  rewrite (map_nth (fun k => 1 / sum_n n (fun i => sum_n d (fun j => p i k j))
                * sum_n n (fun i => sum_n c (fun k => sum_n d (fun j => p i k j))) / INR c)). rewrite seq_nth by easy. cbn [Nat.add].
  assert (E : forall n m (f : nat -> nat -> R), sum_n n (fun i => sum_n m (f i)) = total n (fun i => total m (f i))).
  { intros n' m f. rewrite sum_n_total. apply total_ext. intros i _. apply sum_n_total. }
  rewrite E. f_equal. f_equal. rewrite sum_n_total. rewrite total_swap. apply total_ext. intros i _. apply E.
Qed.
(** What the weights are worth where the target has mass. *)
Definition good_weights (x : input3) (t : target) (W : nat -> R) (ws : list R) : Prop :=
  length ws = nc x /\
  forall i k j, (i < nn x)%nat -> (k < nc x)%nat -> (j < nd x)%nat -> mass (nc x) t i k j <> 0 -> nth k ws 0 = W k.
Lemma labels_class_mass_pos x l i k j : (i < nn x)%nat -> (k < nc x)%nat -> (j < nd x)%nat ->
  mass (nc x) (Labels l) i k j <> 0 -> 0 < class_mass x (Labels l) k.
Proof.
  intros Hi Hk Hj M.
  assert (P : forall i k j, 0 <= mass (nc x) (Labels l) i k j) by (intros a b c; cbn; destruct Z.eq_dec; [lra|destruct Z.eq_dec; lra]).
  unfold class_mass. apply (total_pos _ _ i); [|easy|].
  - intros i' _. apply total_nonneg. intros j' _. apply P.
  - apply (total_pos _ _ j); [intros j' _; apply P|easy|]. pose proof (P i k j). lra.
Qed.
Lemma checked_ok x t w W : fits x t -> weights_are x t w W -> exists ws, checked x t (is_labels t) w = Ok ws /\ good_weights x t W ws.
Proof.
  intros [Ff Ft] HW.
  assert (C : exists ws, class_weights x t w = Ok ws /\ good_weights x t W ws).
  { unfold class_weights. destruct w as [[|]|l|]; cbn [weights_are] in HW.
    - destruct HW as (HF & HB & HP). destruct t as [l|p].
      + unfold categorical_weight. rewrite (proj2 (labels_fit_iff _ _ _ _) Ft). cbn [is_labels] in HF. specialize (HF eq_refl).
        specialize (Ff HF). rewrite HF. cbn [bind]. eexists. split; [reflexivity|].
        split; [unfold class_weight; now rewrite map_length, seq_length|]. intros i k j Hi Hk Hj M.
        pose proof (labels_class_mass_pos x l i k j Hi Hk Hj M) as P.
        rewrite nth_class_weight by easy.
        assert (E : forall k, (k < nc x)%nat -> total (nn x) (fun i => total 1 (fun _ => one_hot (nc x) (l i 0%nat) k)) = class_mass x (Labels l) k).
        { intros k' Hk'. unfold class_mass. apply total_ext. intros i' Hi'. rewrite Ff. apply total_ext. intros j' Hj'.
          assert (j' = 0%nat) as -> by lia. destruct (Ft i' 0%nat Hi') as (q & Hq); [lia|]. now apply (one_hot_mass _ _ _ _ q). }
        rewrite E by easy. rewrite (total_ext (nc x) _ (class_mass x (Labels l))) by (intros; now apply E).
        rewrite HB by (easy || lra). fold (all_mass x (Labels l)).
        assert (INR (nc x) <> 0) by (apply not_0_INR; lia). field. split; [lra|easy].
      + cbn [bind]. rewrite (proj2 (Nat.eqb_eq _ _)); [|unfold class_weight; now rewrite map_length, seq_length].
        eexists. split; [reflexivity|]. split; [unfold class_weight; now rewrite map_length, seq_length|].
        intros i k j Hi Hk Hj M. rewrite nth_class_weight by easy. specialize (HP eq_refl k Hk).
        change (total (nn x) (fun i => total (nd x) (fun j => p i k j))) with (class_mass x (Probs p) k).
        change (total (nc x) (fun k => total (nn x) (fun i => total (nd x) (fun j => p i k j)))) with (all_mass x (Probs p)).
        rewrite HB by easy. assert (INR (nc x) <> 0) by (apply not_0_INR; lia). field. split; easy.
    - cbn [bind]. exists (repeat 1 (nc x)). rewrite repeat_length, Nat.eqb_refl. split; [now destruct t|].
      split; [apply repeat_length|]. intros i k j Hi Hk Hj M. rewrite HW by easy.
      assert (G : forall n k, (k < n)%nat -> nth k (repeat 1 n) 0 = 1).
      { induction n as [|n IH]; intros [|k'] L; try lia; [reflexivity|]. cbn. apply IH. lia. }
      now apply G.
    - destruct HW as [L HW]. cbn [bind]. exists l. rewrite L, Nat.eqb_refl. split; [now destruct t|]. split; [easy|].
      intros i k j _ Hk _ _. now rewrite HW.
    - easy. }
  destruct C as (ws & E & Hws). exists ws. split; [|easy]. destruct t as [l|p]; cbn [is_labels checked]; [|easy].
  rewrite E. cbn [bind]. rewrite (proj1 Hws). rewrite (proj2 (labels_fit_iff _ _ _ _) Ft). reflexivity.
Qed.
Lemma weight_of_label x l W ws i j k : good_weights x (Labels l) W ws -> (i < nn x)%nat -> (j < nd x)%nat ->
  class_of (nc x) (l i j) k -> weight_of ws (l i j) = W k.
Proof.
  intros [L H] Hi Hj Hk. unfold weight_of. rewrite L, (index_class _ _ _ Hk). apply (H i k j); try easy; [apply Hk|].
  rewrite (mass_label _ _ _ _ _ _ Hk) by apply Hk. rewrite Nat.eqb_refl. lra.
Qed.
Lemma good_shifted x t W ws dx s : good_weights x t W ws -> good_weights (shifted x dx s) t W ws.
Proof. easy. Qed.

(** ** The gradient from the derivatives of the entries *)
Lemma gradient_from_entries F x g G (f : nat -> nat -> (nat -> R) -> R) (D : nat -> nat -> nat -> R) :
  (forall dx s, exists o ws, F (shifted x dx s) = Ok (o, ws) /\
     forall i j, (i < nn x)%nat -> (j < nd x)%nat -> oat o i j = f i j (fun k => xat x i k j + s * dx i k j)) ->
  (forall i j v, (i < nn x)%nat -> (j < nd x)%nat ->
     derivable_pt_lim (fun s => f i j (fun k => xat x i k j + s * v k)) 0 (total (nc x) (fun k => D i k j * v k))) ->
  (forall i k j, (i < nn x)%nat -> (k < nc x)%nat -> (j < nd x)%nat -> G i k j = g i j * D i k j) ->
  loss_gradient F x g G.
Proof.
  intros HF HD HG dx.
  apply (dl_ext _ (fun s => lsum (seq 0 (nn x)) (fun i => lsum (seq 0 (nd x)) (fun j => g i j * f i j (fun k => xat x i k j + s * dx i k j))))).
  { intros s. destruct (HF dx s) as (o & ws & E & Ho). rewrite E. cbn [weighted_sum].
    apply total_ext. intros i Hi. apply total_ext. intros j Hj. now rewrite Ho. }
  apply (dl_eq _ _ (lsum (seq 0 (nn x)) (fun i => lsum (seq 0 (nd x)) (fun j => g i j * total (nc x) (fun k => D i k j * dx i k j))))).
  - apply (dl_lsum _ (fun i s => lsum (seq 0 (nd x)) (fun j => g i j * f i j (fun k => xat x i k j + s * dx i k j)))).
    intros i Hi. apply in_seq in Hi.
    apply (dl_lsum _ (fun j s => g i j * f i j (fun k => xat x i k j + s * dx i k j))). intros j Hj. apply in_seq in Hj.
    apply (dl_scal (fun s => f i j (fun k => xat x i k j + s * dx i k j))). apply (HD i j (fun k => dx i k j)); lia.
  - apply (total_ext (nn x)). intros i Hi. rewrite (total_swap (nc x) (nd x)). apply (total_ext (nd x)). intros j Hj.
    rewrite total_lsum, <- lsum_scal. rewrite <- total_lsum. apply total_ext. intros k Hk. rewrite HG by easy. ring.
Qed.

Lemma dl_total n (f : nat -> R -> R) d x : (forall k, (k < n)%nat -> derivable_pt_lim (f k) x (d k)) ->
  derivable_pt_lim (fun s => total n (fun k => f k s)) x (total n d).
Proof. intros H. apply (dl_lsum (seq 0 n) f d x). intros k Hk. apply in_seq in Hk. apply H. lia. Qed.
Lemma total_scal n c f : total n (fun k => c * f k) = c * total n f.
Proof. apply (lsum_scal (seq 0 n)). Qed.
Lemma total_plus n f h : total n (fun k => f k + h k) = total n f + total n h.
Proof. apply (lsum_plus (seq 0 n)). Qed.
Lemma spec_log_model robust thr v : loss_log robust thr v = spec_log robust thr v.
Proof. unfold loss_log, spec_log, tangent_log, robust_log, np_abs. reflexivity. Qed.
Definition in_domain (robust : bool) (v : R) : Prop := if robust then v <> 0 else 0 < v.
Lemma dl_spec_log robust thr v : 0 < thr -> in_domain robust v ->
  derivable_pt_lim (spec_log robust thr) v (loss_log_grad robust 1 thr v).
Proof.
  intros T V. destruct robust; cbn [in_domain loss_log_grad] in *.
  - apply (dl_robust_log thr v T V).
  - apply (dl_eq _ _ (/ v)); [|field; lra]. now apply derivable_pt_lim_ln.
Qed.
Lemma loss_log_grad_lin robust g thr v : loss_log_grad robust g thr v = g * loss_log_grad robust 1 thr v.
Proof. destruct robust; cbn [loss_log_grad]; [apply rlg_lin|ring]. Qed.
Lemma dl_line_comp (f : R -> R) a b d : derivable_pt_lim f a d -> derivable_pt_lim (fun s => f (a + s * b)) 0 (d * b).
Proof.
  intros H. apply (derivable_pt_lim_comp (fun s => a + s * b) f 0 b d).
  - apply (dl_of_affine _ a). reflexivity.
  - rewrite Rmult_0_l, Rplus_0_r. exact H.
Qed.

(** Softmax along the classes. *)
Lemma softmax_quotient x i k j :
  class_softmax x i k j = exp (xat x i k j) / total (nc x) (fun k' => exp (xat x i k' j)) \/ nc x = 0%nat.
Proof.
  destruct (nc x) as [|c] eqn:Ec; [now right|]. left. unfold class_softmax. rewrite sum_n_total.
  set (m := class_max x i j).
  rewrite (total_ext _ (fun k' => exp (xat x i k' j - m)) (fun k' => exp (- m) * exp (xat x i k' j))).
  2:{ intros k' _. rewrite <- exp_plus. f_equal. ring. }
  rewrite total_scal. replace (xat x i k j - m) with (- m + xat x i k j) by ring. rewrite exp_plus.
  assert (0 < total (nc x) (fun k' => exp (xat x i k' j))).
  { apply (total_pos _ _ 0%nat); [intros; left; apply exp_pos|lia|apply exp_pos]. }
  rewrite Ec in *. pose proof (exp_pos (- m)). field. split; lra.
Qed.
Lemma class_max_in x i j : nc x <> 0%nat -> exists k, (k < nc x)%nat /\ class_max x i j = xat x i k j.
Proof.
  unfold class_max. destruct (nc x) as [|c]; [easy|]. intros _.
  assert (G : forall l m, (exists k, (k < S c)%nat /\ m = xat x i k j) -> (forall k, In k l -> (k < S c)%nat) ->
            exists k, (k < S c)%nat /\ fold_left (fun m k => Rmax m (xat x i k j)) l m = xat x i k j).
  { induction l as [|a l IH]; intros m Hm H; [exact Hm|]. cbn [fold_left]. apply IH; [|intros k Hk; apply H; now right].
    unfold Rmax. destruct (Rle_dec m (xat x i a j)); [|exact Hm]. exists a. split; [apply H; now left|reflexivity]. }
  apply G; [exists 0%nat; split; [lia|reflexivity]|]. intros k Hk. apply in_seq in Hk. lia.
Qed.
Lemma log_normalizer x i j robust thr : nc x <> 0%nat -> robust = false \/ 0 < thr <= 1 ->
  loss_log robust thr (sum_n (nc x) (fun k => exp (xat x i k j - class_max x i j)))
  = ln (total (nc x) (fun k => exp (xat x i k j))) - class_max x i j.
Proof.
  intros N T. rewrite sum_n_total. set (m := class_max x i j).
  assert (P : 0 < total (nc x) (fun k' => exp (xat x i k' j))).
  { apply (total_pos _ _ 0%nat); [intros; left; apply exp_pos|lia|apply exp_pos]. }
  assert (E : total (nc x) (fun k => exp (xat x i k j - m)) = exp (- m) * total (nc x) (fun k => exp (xat x i k j))).
  { rewrite <- total_scal. apply total_ext. intros k _. rewrite <- exp_plus. f_equal. ring. }
  assert (L : ln (exp (- m) * total (nc x) (fun k => exp (xat x i k j))) = ln (total (nc x) (fun k => exp (xat x i k j))) - m).
  { rewrite ln_mult by (easy || apply exp_pos). rewrite ln_exp. ring. }
  destruct robust; cbn [loss_log]; [|now rewrite E].
  destruct T as [T|T]; [easy|].
  assert (G : 1 <= total (nc x) (fun k => exp (xat x i k j - m))).
  { destruct (class_max_in x i j N) as (k & Hk & Em). fold m in Em.
    replace (nc x) with (k + S (nc x - k - 1))%nat by lia.
    rewrite total_lsum, seq_app, lsum_app. cbn [seq Nat.add].
    change (lsum (k :: seq (S k) (nc x - k - 1)) (fun k => exp (xat x i k j - m)))
      with (exp (xat x i k j - m) + lsum (seq (S k) (nc x - k - 1)) (fun k => exp (xat x i k j - m))).
    replace (xat x i k j - m) with 0 by (rewrite Em; ring). rewrite exp_0.
    assert (Q : forall l, 0 <= lsum l (fun k => exp (xat x i k j - m))).
    { induction l as [|a l IH]; [cbn; lra|]. change (lsum (a :: l) (fun k => exp (xat x i k j - m)))
        with (exp (xat x i a j - m) + lsum l (fun k => exp (xat x i k j - m))). pose proof (exp_pos (xat x i a j - m)). lra. }
    pose proof (Q (seq 0 k)). pose proof (Q (seq (S k) (nc x - k - 1))). lra. }
  rewrite robust_log_ge; rewrite Rabs_right by lra; [|lra]. now rewrite E.
Qed.
