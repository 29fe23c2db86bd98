(** * Lemmas about operations that move entries. *)
From Coq Require Import Reals List ZArith Lia Lra Permutation Sorted.
From Verif Require Import PyBase Deriv_Proofs Corr_Spec Corr_Proofs Axis_Model Axis_Spec Axis_Proofs Move_Model Move_Spec.
Import ListNotations.
Open Scope R_scope.
Open Scope list_scope.
Open Scope res_scope.

(** ** The gradient of an operation that moves entries *)
Definition opt_is (a : option (list nat)) (i : list nat) : bool :=
  match a with Some j => index_eqb j i | None => false end.
Lemma gather_gradient F x g G (t : list nat) (h : list nat -> option (list nat)) (c : list nat -> R) :
  (forall dx u, exists y, F (moved x dx u) = Ok y /\
     forall o, inside t o -> at_ y o = match h o with Some i => at_ x i + u * dx i | None => c o end) ->
  (forall o i, inside t o -> h o = Some i -> inside (shape x) i) ->
  shape g = t -> shape G = shape x ->
  (forall i, inside (shape x) i -> at_ G i = lsum (indices t) (fun o => if opt_is (h o) i then at_ g o else 0)) ->
  gradient_at F x g G.
Proof.
  intros HF HI Sg SG HG. split; [easy|]. intros dx. rewrite sum_over_lsum.
  apply (dl_of_affine _ (lsum (indices t) (fun o => at_ g o * match h o with Some i => at_ x i | None => c o end))).
  intros u. destruct (HF dx u) as (y & E & Hy). rewrite E. cbn [weighted]. rewrite sum_over_lsum, Sg.
  rewrite (lsum_ext (indices t) (fun o => at_ g o * at_ y o) (fun o => at_ g o * match h o with Some i => at_ x i | None => c o end
     + u * (at_ g o * match h o with Some i => dx i | None => 0 end))).
  2:{ intros o Ho. apply in_indices in Ho. rewrite Hy by easy. destruct (h o); ring. }
  rewrite lsum_plus, lsum_scal. f_equal. f_equal.
  rewrite (lsum_ext (indices (shape x)) (fun i => at_ G i * dx i)
     (fun i => lsum (indices t) (fun o => if opt_is (h o) i then at_ g o * dx i else 0))).
  2:{ intros i Hi. apply in_indices in Hi. rewrite HG by easy. rewrite <- lsum_scal_r. apply lsum_ext. intros o _. destruct (opt_is _ _); ring. }
  rewrite lsum_swap. apply lsum_ext. intros o Ho. apply in_indices in Ho. destruct (h o) as [i|] eqn:Eh; cbn [opt_is].
  - rewrite (lsum_single _ i).
    + now rewrite (proj2 (index_eqb_true i i) eq_refl).
    + apply nodup_indices.
    + apply in_indices. now apply (HI o).
    + intros j _ N. destruct (index_eqb i j) eqn:E2; [|easy]. apply index_eqb_true in E2. congruence.
  - rewrite lsum_zero; [ring|easy].
Qed.
(** When every entry goes to one place. *)
Lemma move_gradient F x g G (t : list nat) (h : list nat -> option (list nat)) (w : list nat -> list nat) (c : list nat -> R) :
  (forall dx u, exists y, F (moved x dx u) = Ok y /\
     forall o, inside t o -> at_ y o = match h o with Some i => at_ x i + u * dx i | None => c o end) ->
  (forall o i, inside t o -> h o = Some i -> inside (shape x) i /\ o = w i) ->
  (forall i, inside (shape x) i -> inside t (w i) /\ h (w i) = Some i) ->
  shape g = t -> shape G = shape x ->
  (forall i, inside (shape x) i -> at_ G i = at_ g (w i)) ->
  gradient_at F x g G.
Proof.
  intros HF HI HW Sg SG HG. apply (gather_gradient F x g G t h c); try easy.
  - intros o i Ho E. now apply (HI o i).
  - intros i Hi. destruct (HW i Hi) as [W1 W2]. rewrite HG by easy. rewrite (lsum_single _ (w i)).
    + rewrite W2. cbn [opt_is]. now rewrite (proj2 (index_eqb_true i i) eq_refl).
    + apply nodup_indices.
    + now apply in_indices.
    + intros o Ho N. apply in_indices in Ho. destruct (h o) as [j|] eqn:E; cbn [opt_is]; [|easy].
      destruct (index_eqb j i) eqn:E2; [|easy]. apply index_eqb_true in E2. subst j.
      exfalso. apply N. now apply (HI o i).
Qed.

(** ** Lists by position *)
Lemma nth_map_any {A B} (f : A -> B) (l : list A) d d' n : (n < length l)%nat -> nth n (map f l) d = f (nth n l d').
Proof. intros H. rewrite (nth_indep (map f l) d (f d')) by (now rewrite map_length). apply map_nth. Qed.
Lemma inside_nth s i : inside s i <-> length i = length s /\ forall k, (k < length s)%nat -> (nth k i 0 < nth k s 0)%nat.
Proof.
  split.
  - intros H. split; [now apply inside_length|]. induction H as [|d x s i Hx _ IH]; cbn; intros k Hk; [lia|].
    destruct k; [easy|]. apply IH. lia.
  - revert i. induction s as [|d s IH]; intros [|x i] [L H]; cbn in *; try lia; constructor.
    + apply (H 0%nat). lia.
    + apply IH. split; [lia|]. intros k Hk. apply (H (S k)). lia.
Qed.
Lemma list_nth_eq (l m : list nat) : length l = length m -> (forall k, (k < length l)%nat -> nth k l 0%nat = nth k m 0%nat) -> l = m.
Proof. intros L H. apply (nth_ext l m 0%nat 0%nat L). intros n Hn. now apply H. Qed.

(** ** Permutations *)
Definition spot (p o : list nat) : list nat := map (fun k => nth (index_of k p) o 0%nat) (seq 0 (length p)).
Lemma spot_length p o : length (spot p o) = length p.
Proof. unfold spot. now rewrite map_length, seq_length. Qed.
Lemma nth_spot p o k : (k < length p)%nat -> nth k (spot p o) 0%nat = nth (index_of k p) o 0%nat.
Proof. intros H. unfold spot. rewrite (nth_map_any _ _ _ 0%nat) by (now rewrite seq_length). now rewrite seq_nth. Qed.
Lemma arranged_length p l : length (arranged p l) = length p.
Proof. unfold arranged. apply map_length. Qed.
Lemma nth_arranged p l k : (k < length p)%nat -> nth k (arranged p l) 0%nat = nth (nth k p 0%nat) l 0%nat.
Proof. intros H. unfold arranged. now rewrite (nth_map_any _ _ _ 0%nat). Qed.
Lemma index_of_in k p : In k p -> (index_of k p < length p)%nat /\ nth (index_of k p) p 0%nat = k.
Proof.
  induction p as [|a p IH]; cbn; [easy|]. intros [->|H].
  - rewrite Nat.eqb_refl. split; [lia|easy].
  - destruct (Nat.eqb_spec a k) as [->|N]; [split; [lia|easy]|]. specialize (IH H). split; [lia|easy].
Qed.
Lemma index_of_nth p k : NoDup p -> (k < length p)%nat -> index_of (nth k p 0%nat) p = k.
Proof.
  intros N. revert k. induction N as [|a p Ha N IH]; cbn; intros k Hk; [lia|]. destruct k.
  - now rewrite Nat.eqb_refl.
  - destruct (Nat.eqb_spec a (nth k p 0%nat)) as [E|E].
    + exfalso. apply Ha. rewrite E. apply nth_In. lia.
    + rewrite IH by lia. easy.
Qed.
Section Perm.
  Variables (p : list nat) (r : nat).
  Hypothesis P : Permutation p (seq 0 r).
  Lemma perm_length : length p = r.
  Proof. rewrite (Permutation_length P). apply seq_length. Qed.
  Lemma perm_nodup : NoDup p.
  Proof. eapply Permutation_NoDup; [apply Permutation_sym, P|apply seq_NoDup]. Qed.
  Lemma perm_in k : In k p <-> (k < r)%nat.
  Proof.
    split; intros H.
    - apply (Permutation_in _ P), in_seq in H. lia.
    - apply (Permutation_in _ (Permutation_sym P)), in_seq. lia.
  Qed.
  Lemma perm_lt k : (k < r)%nat -> (nth k p 0 < r)%nat.
  Proof. intros H. apply perm_in, nth_In. now rewrite perm_length. Qed.
  Lemma arranged_spot o : length o = r -> arranged p (spot p o) = o.
  Proof.
    intros L. apply list_nth_eq; [rewrite arranged_length, perm_length; lia|].
    rewrite arranged_length. intros k Hk. rewrite nth_arranged by easy.
    rewrite nth_spot by (rewrite perm_length; apply perm_lt; now rewrite <- perm_length).
    now rewrite index_of_nth by (try apply perm_nodup; easy).
  Qed.
  Lemma spot_arranged i : length i = r -> spot p (arranged p i) = i.
  Proof.
    intros L. apply list_nth_eq; [rewrite spot_length, perm_length; lia|].
    rewrite spot_length. intros k Hk. rewrite nth_spot by easy.
    destruct (index_of_in k p) as [H1 H2]; [apply perm_in; now rewrite <- perm_length|].
    rewrite nth_arranged by easy. now rewrite H2.
  Qed.
  Lemma arranged_inside s i : length s = r -> inside s i -> inside (arranged p s) (arranged p i).
  Proof.
    intros L H. apply inside_nth in H. destruct H as [Li H]. apply inside_nth. rewrite !arranged_length. split; [easy|].
    intros k Hk. rewrite !nth_arranged by easy. apply H. rewrite L. apply perm_lt. now rewrite <- perm_length.
  Qed.
  Lemma spot_inside s o : length s = r -> inside (arranged p s) o -> inside s (spot p o).
  Proof.
    intros L H. apply inside_nth in H. rewrite arranged_length in H. destruct H as [Lo H].
    apply inside_nth. rewrite spot_length, perm_length. split; [easy|]. intros k Hk. rewrite L in Hk.
    rewrite nth_spot by (now rewrite perm_length).
    destruct (index_of_in k p) as [H1 H2]; [now apply perm_in|].
    specialize (H _ H1). rewrite nth_arranged in H by easy. now rewrite H2 in H.
  Qed.
  Lemma transpose_moves (x : arr) : length (shape x) = r ->
    np_transpose x p = mka (arranged p (shape x)) (fun o => at_ x (spot p o)).
  Proof. reflexivity. Qed.
  Lemma transpose_entry (x : arr) i : length (shape x) = r -> inside (shape x) i ->
    at_ (np_transpose x p) (arranged p i) = at_ x i.
  Proof. intros L H. rewrite transpose_moves by easy. cbn [at_]. rewrite spot_arranged; [easy|]. rewrite <- L. now apply inside_length. Qed.
  Lemma transpose_vjp F (x g G : arr) : length (shape x) = r ->
    (forall z, shape z = shape x -> F z = Ok (np_transpose z p)) ->
    shape g = arranged p (shape x) -> shape G = shape x ->
    (forall i, inside (shape x) i -> at_ G i = at_ g (arranged p i)) ->
    gradient_at F x g G.
  Proof.
    intros L HF Sg SG HG.
    apply (move_gradient F x g G (arranged p (shape x)) (fun o => Some (spot p o)) (arranged p) (fun _ => 0)); try easy.
    - intros dx u. eexists. split; [now apply HF|]. intros o _. rewrite transpose_moves by easy. reflexivity.
    - intros o i Ho E. injection E as <-. split; [now apply spot_inside|]. symmetry. apply arranged_spot.
      rewrite (inside_length _ _ Ho), arranged_length. apply perm_length.
    - intros i Hi. split; [now apply arranged_inside|]. rewrite spot_arranged; [easy|]. rewrite <- L. now apply inside_length.
  Qed.
End Perm.
(** The inverse permutation. *)
Lemma transpose_back p q r (x g : arr) : Permutation p (seq 0 r) -> Permutation q (seq 0 r) -> length (shape x) = r ->
  (forall k, (k < r)%nat -> nth (nth k q 0%nat) p 0%nat = k) ->
  shape g = arranged p (shape x) ->
  shape (np_transpose g q) = shape x /\
  forall i, inside (shape x) i -> at_ (np_transpose g q) i = at_ g (arranged p i).
Proof.
  intros P Q L H Sg.
  assert (Lg : length (shape g) = r) by (rewrite Sg, arranged_length; now apply perm_length).
  rewrite (transpose_moves q r g Lg). cbn [shape at_].
  assert (Lq : length q = r) by now apply perm_length. assert (Lp : length p = r) by now apply perm_length. split.
  - apply list_nth_eq; rewrite arranged_length; [lia|]. intros k Hk. rewrite nth_arranged by easy.
    rewrite Sg. rewrite nth_arranged by (rewrite Lp; apply (perm_lt q r Q); lia). rewrite H by lia. easy.
  - intros i Hi. f_equal. apply inside_length in Hi.
    apply list_nth_eq; rewrite spot_length; [rewrite arranged_length; lia|]. intros k Hk.
    rewrite nth_spot by easy. rewrite nth_arranged by lia.
    f_equal. assert (Hk2 : (nth k p 0 < r)%nat) by (apply (perm_lt p r P); lia).
    rewrite <- (index_of_nth q (nth k p 0%nat) (perm_nodup q r Q)) by lia. f_equal.
    (* k = q_(p_k) *)
    destruct (index_of_in k q) as [I1 I2]; [apply (perm_in q r Q); lia|].
    assert (E : nth k p 0%nat = index_of k q).
    { rewrite <- I2 at 1. apply H. lia. }
    rewrite E. easy.
Qed.

(** ** argsort *)
Lemma insert_key_perm a l : Permutation (insert_key a l) (a :: l).
Proof.
  induction l as [|b l IH]; cbn; [apply Permutation_refl|]. destruct (fst a <=? fst b)%Z; [apply Permutation_refl|].
  eapply perm_trans; [apply perm_skip, IH|apply perm_swap].
Qed.
Lemma sort_perm l : Permutation (fold_right insert_key [] l) l.
Proof. induction l as [|a l IH]; cbn; [constructor|]. eapply perm_trans; [apply insert_key_perm|]. now apply perm_skip. Qed.
Definition key_le (a b : Z * nat) : Prop := (fst a <= fst b)%Z.
Lemma insert_key_sorted a l : StronglySorted key_le l -> StronglySorted key_le (insert_key a l).
Proof.
  induction 1 as [|b l H IH F]; cbn; [repeat constructor|]. destruct (Z.leb_spec (fst a) (fst b)) as [L|L].
  - constructor; [now constructor|]. constructor; [easy|]. eapply Forall_impl; [|exact F]. unfold key_le. intros c. lia.
  - constructor; [easy|]. apply (Permutation_Forall (Permutation_sym (insert_key_perm a l))). constructor; [unfold key_le; lia|easy].
Qed.
Lemma sort_sorted l : StronglySorted key_le (fold_right insert_key [] l).
Proof. induction l as [|a l IH]; cbn; [constructor|now apply insert_key_sorted]. Qed.
Lemma sorted_unique (l m : list Z) : StronglySorted Z.le l -> StronglySorted Z.le m -> Permutation l m -> l = m.
Proof.
  intros Hl. revert m. induction Hl as [|a l Hl IH F]; intros m Hm P.
  - apply Permutation_nil in P. now subst.
  - destruct m as [|b m]; [apply Permutation_sym, Permutation_nil in P; easy|].
    inversion Hm as [|? ? Hm' Fm]; subst.
    assert (E : a = b).
    { assert (Ha : In a (b :: m)) by (apply (Permutation_in _ P); now left).
      assert (Hb : In b (a :: l)) by (apply (Permutation_in _ (Permutation_sym P)); now left).
      rewrite Forall_forall in F, Fm. destruct Ha as [->|Ha]; [easy|]. destruct Hb as [->|Hb]; [easy|].
      specialize (F _ Hb). specialize (Fm _ Ha). lia. }
    subst b. f_equal. apply IH; [easy|]. now apply Permutation_cons_inv in P.
Qed.
Lemma seq_sorted (c : Z) n : forall a, StronglySorted Z.le (map (fun k => (Z.of_nat k + c)%Z) (seq a n)).
Proof.
  induction n as [|n IH]; intros a; cbn; constructor; [apply IH|]. apply Forall_forall. intros z Hz.
  apply in_map_iff in Hz. destruct Hz as (k & <- & Hk). apply in_seq in Hk. lia.
Qed.
Lemma sorted_fst (l : list (Z * nat)) : StronglySorted key_le l -> StronglySorted Z.le (map fst l).
Proof.
  induction 1 as [|a l H IH F]; cbn; constructor; [easy|]. apply Forall_forall. intros z Hz. apply in_map_iff in Hz.
  destruct Hz as (b & <- & Hb). rewrite Forall_forall in F. now apply F.
Qed.
Lemma combine_fst {A B} (l : list A) (m : list B) : length l = length m -> map fst (combine l m) = l.
Proof. revert m. induction l as [|a l IH]; intros [|b m] E; cbn in *; try easy. f_equal. apply IH. lia. Qed.
Lemma combine_snd {A B} (l : list A) (m : list B) : length l = length m -> map snd (combine l m) = m.
Proof. revert m. induction l as [|a l IH]; intros [|b m] E; cbn in *; try easy. f_equal. apply IH. lia. Qed.
Lemma in_combine_seq {A} (l : list A) a k d : In (a, k) (combine l (seq 0 (length l))) -> (k < length l)%nat /\ nth k l d = a.
Proof.
  assert (G : forall l b, In (a, k) (combine l (seq b (length l))) -> (b <= k < b + length l)%nat /\ nth (k - b) l d = a).
  { clear l. induction l as [|x l IH]; intros b; cbn; [easy|]. intros [E|H].
    - injection E as -> ->. replace (k - k)%nat with 0%nat by lia. split; [lia|easy].
    - apply IH in H. destruct H as [H1 H2]. split; [lia|]. replace (k - b)%nat with (S (k - S b))%nat by lia. easy. }
  intros H. apply G in H. rewrite Nat.sub_0_r in H. split; [lia|easy].
Qed.
Lemma argsort_spec (zs : list Z) p r c : Permutation p (seq 0 r) -> zs = map (fun k => (Z.of_nat k + c)%Z) p ->
  Permutation (argsort zs) (seq 0 r) /\ forall k, (k < r)%nat -> nth (nth k (argsort zs) 0%nat) p 0%nat = k.
Proof.
  intros P E. assert (Lp : length p = r) by now apply perm_length.
  assert (Lz : length zs = r) by (now rewrite E, map_length).
  unfold argsort. set (L := fold_right insert_key [] (combine zs (seq 0 (length zs)))).
  assert (PL : Permutation L (combine zs (seq 0 (length zs)))) by apply sort_perm.
  assert (EQ : map fst L = map (fun k => (Z.of_nat k + c)%Z) (seq 0 r)).
  { apply sorted_unique.
    - apply sorted_fst, sort_sorted.
    - apply seq_sorted.
    - eapply perm_trans; [apply Permutation_map, PL|]. rewrite combine_fst by (now rewrite seq_length). rewrite E. now apply Permutation_map. }
  assert (LL : length L = r). { rewrite <- (map_length fst), EQ, map_length. apply seq_length. }
  split.
  - eapply perm_trans; [apply Permutation_map, PL|]. rewrite combine_snd by (now rewrite seq_length). now rewrite Lz.
  - intros k Hk.
    assert (I : In (nth k L (0%Z, 0%nat)) (combine zs (seq 0 (length zs)))).
    { apply (Permutation_in _ PL). apply nth_In. now rewrite LL. }
    assert (F : fst (nth k L (0%Z, 0%nat)) = (Z.of_nat k + c)%Z).
    { rewrite <- (map_nth fst). cbn [fst]. rewrite EQ. rewrite (nth_map_any _ _ _ 0%nat) by (now rewrite seq_length). now rewrite seq_nth. }
    assert (N : nth k (map snd L) 0%nat = snd (nth k L (0%Z, 0%nat))).
    { change 0%nat with (snd (0%Z, 0%nat)) at 1. apply map_nth. }
    rewrite N. destruct (nth k L (0%Z, 0%nat)) as [z j]. cbn [fst snd] in *. subst z.
    apply (in_combine_seq zs _ _ 0%Z) in I. destruct I as [I1 I2]. rewrite E in I2.
    rewrite (nth_map_any _ _ _ 0%nat) in I2 by lia. lia.
Qed.

(** ** Special permutations *)
Lemma rev_perm r : Permutation (rev (seq 0 r)) (seq 0 r).
Proof. apply Permutation_sym, Permutation_rev. Qed.
Lemma rev_twice r k : (k < r)%nat -> nth (nth k (rev (seq 0 r)) 0%nat) (rev (seq 0 r)) 0%nat = k.
Proof.
  assert (G : forall n, (n < r)%nat -> nth n (rev (seq 0 r)) 0%nat = (r - 1 - n)%nat).
  { intros n Hn. rewrite rev_nth by (rewrite seq_length; lia). rewrite seq_length, seq_nth; lia. }
  intros H. rewrite (G k) by easy. rewrite G; lia.
Qed.
Definition swap (j k n : nat) : nat := if Nat.eqb n j then k else if Nat.eqb n k then j else n.
Lemma swap_twice j k n : swap j k (swap j k n) = n.
Proof.
  unfold swap. destruct (Nat.eqb_spec n j) as [->|N1].
  - destruct (Nat.eqb_spec k j) as [->|N]; [easy|]. now rewrite Nat.eqb_refl.
  - destruct (Nat.eqb_spec n k) as [->|N2]; [now rewrite Nat.eqb_refl|].
    destruct (Nat.eqb_spec n j); [easy|]. destruct (Nat.eqb_spec n k); easy.
Qed.
Lemma swap_lt j k n r : (j < r)%nat -> (k < r)%nat -> (n < r)%nat -> (swap j k n < r)%nat.
Proof. unfold swap. intros. destruct (Nat.eqb n j); [easy|]. now destruct (Nat.eqb n k). Qed.
Lemma swap_perm j k r : (j < r)%nat -> (k < r)%nat -> Permutation (map (swap j k) (seq 0 r)) (seq 0 r).
Proof.
  intros Hj Hk. apply NoDup_Permutation; [|apply seq_NoDup|].
  - apply FinFun.Injective_map_NoDup; [|apply seq_NoDup]. intros a b E. rewrite <- (swap_twice j k a), E. apply swap_twice.
  - intros n. rewrite in_map_iff, in_seq. split.
    + intros (m & <- & Hm). apply in_seq in Hm. pose proof (swap_lt j k m r Hj Hk). lia.
    + intros Hn. exists (swap j k n). split; [apply swap_twice|]. apply in_seq. pose proof (swap_lt j k n r Hj Hk). lia.
Qed.
Lemma swap_nth j k r n : (n < r)%nat -> nth n (map (swap j k) (seq 0 r)) 0%nat = swap j k n.
Proof. intros H. rewrite (nth_map_any _ _ _ 0%nat) by (now rewrite seq_length). now rewrite seq_nth. Qed.
Lemma swap_arranged j k l : arranged (map (swap j k) (seq 0 (length l))) l = exchanged j k l.
Proof.
  unfold arranged, exchanged. rewrite map_map. apply map_ext. intros n. unfold swap.
  destruct (Nat.eqb_spec n j), (Nat.eq_dec n j); try easy. destruct (Nat.eqb_spec n k), (Nat.eq_dec n k); easy.
Qed.

(** ** Row-major order *)
Lemma ravel_lt s i : inside s i -> (ravel s i < size s)%nat.
Proof. induction 1 as [|d x s i Hx _ IH]; cbn; [lia|]. fold (size s). nia. Qed.
Lemma unravel_ravel s i : inside s i -> unravel s (ravel s i) = i.
Proof.
  induction 1 as [|d x s i Hx H IH]; cbn [unravel ravel]; [reflexivity|]. pose proof (ravel_lt _ _ H) as L.
  rewrite Nat.div_add_l by lia. rewrite Nat.div_small by easy. rewrite (Nat.add_comm (x * size s)), Nat.mod_add by lia.
  rewrite Nat.mod_small by easy. rewrite IH. f_equal. lia.
Qed.
Lemma unravel_inside s : forall m, (m < size s)%nat -> inside s (unravel s m) /\ ravel s (unravel s m) = m.
Proof.
  induction s as [|d s IH]; intros m H; cbn in H; [cbn; split; [constructor|lia]|]. fold (size s) in H.
  assert (Hs : (size s <> 0)%nat) by nia. cbn [unravel ravel].
  destruct (IH (m mod size s)%nat) as [I1 I2]; [now apply Nat.mod_upper_bound|]. split.
  - constructor; [|easy]. apply Nat.div_lt_upper_bound; [easy|]. rewrite Nat.mul_comm. lia.
  - rewrite I2. rewrite Nat.mul_comm. symmetry. now apply Nat.div_mod.
Qed.
Lemma volume_size s : volume s = size s.
Proof. induction s as [|d s IH]; cbn; [reflexivity|]. now rewrite IH. Qed.
Lemma size_app a b : size (a ++ b) = (size a * size b)%nat.
Proof.
  induction a as [|d a IH]; [cbn [app]; change (size []) with 1%nat; lia|].
  change (size ((d :: a) ++ b)) with (d * size (a ++ b))%nat. change (size (d :: a)) with (d * size a)%nat. rewrite IH. lia.
Qed.
Lemma seq_blocks n d : seq 0 (d * n) = concat (map (fun k => map (fun j => (k * n + j)%nat) (seq 0 n)) (seq 0 d)).
Proof.
  induction d as [|d IH]; [reflexivity|]. rewrite seq_S, map_app, concat_app. cbn [map concat]. rewrite app_nil_r, Nat.add_0_l, <- IH.
  replace (S d * n)%nat with (d * n + n)%nat by lia. rewrite seq_app. f_equal. rewrite Nat.add_0_l. generalize (d * n)%nat. intros a.
  clear. assert (G : forall n b, seq (a + b) n = map (fun j => (a + j)%nat) (seq b n)).
  { clear. induction n as [|n IH]; intros b; cbn; [reflexivity|]. f_equal. rewrite <- IH. f_equal. lia. }
  rewrite <- G. f_equal. lia.
Qed.
Lemma c_order_unravel s : c_order s = map (unravel s) (seq 0 (size s)).
Proof.
  induction s as [|d s IH]; [reflexivity|]. cbn [c_order]. change (size (d :: s)) with (d * size s)%nat.
  rewrite seq_blocks, concat_map, map_map. f_equal. apply map_ext. intros k. rewrite IH, !map_map. apply map_ext_in.
  intros j Hj. apply in_seq in Hj. cbn [unravel]. rewrite Nat.div_add_l by lia. rewrite Nat.div_small by lia.
  rewrite (Nat.add_comm (k * size s)), Nat.mod_add by lia. rewrite Nat.mod_small by lia. f_equal. lia.
Qed.
Lemma with_shape_entries (x y : arr) t : size t = size (shape x) -> shape y = t ->
  (forall o, inside t o -> at_ y o = at_ x (unravel (shape x) (ravel t o))) -> entries y = entries x.
Proof.
  intros E S H. unfold entries. rewrite !c_order_unravel, !map_map, S, E. apply map_ext_in. intros m Hm. apply in_seq in Hm.
  destruct (unravel_inside t m) as [I1 I2]; [lia|]. rewrite H by easy. now rewrite I2.
Qed.
Lemma resolve_same (s : list nat) : resolve (size s) (map Z.of_nat s) = Ok s.
Proof.
  assert (K : known (map Z.of_nat s) = s).
  { unfold known. induction s as [|d s IH]; cbn; [reflexivity|]. destruct (Z.leb_spec 0 (Z.of_nat d)); [|lia]. cbn. now rewrite Nat2Z.id, IH. }
  unfold resolve. rewrite K, map_length, Nat.sub_diag, Nat.eqb_refl. f_equal. rewrite map_map. rewrite <- (map_id s) at 2. apply map_ext. apply Nat2Z.id.
Qed.
Lemma reshape_like_ok (g x : arr) : size (shape g) = size (shape x) -> reshape_like g x = Ok (with_shape g (shape x)).
Proof. intros E. unfold reshape_like, ndarray_reshape. rewrite E, resolve_same. reflexivity. Qed.
Lemma reshapes_if F x t : size t = size (shape x) ->
  (forall z, shape z = shape x -> exists y, F z = Ok y /\ shape y = t /\
     forall o, inside t o -> at_ y o = at_ z (unravel (shape x) (ravel t o))) ->
  reshapes F reshape_like x t.
Proof.
  intros E H. split.
  - destruct (H x eq_refl) as (y & E1 & S & Hy). exists y. do 2 (split; [easy|]). now apply (with_shape_entries x y t).
  - intros g Sg. eexists. split; [apply reshape_like_ok; now rewrite Sg|].
    apply (move_gradient F x g _ t (fun o => Some (unravel (shape x) (ravel t o))) (fun i => unravel t (ravel (shape x) i)) (fun _ => 0)); try easy.
    + intros dx u. destruct (H (moved x dx u) eq_refl) as (y & E1 & S & Hy). exists y. split; [easy|]. intros o Ho. now rewrite Hy.
    + intros o i Ho Eo. injection Eo as <-. pose proof (ravel_lt _ _ Ho) as L. rewrite E in L.
      destruct (unravel_inside (shape x) _ L) as [I1 I2]. split; [easy|]. rewrite I2. now rewrite unravel_ravel.
    + intros i Hi. pose proof (ravel_lt _ _ Hi) as L. rewrite <- E in L. destruct (unravel_inside t _ L) as [I1 I2].
      split; [easy|]. rewrite I2. now rewrite unravel_ravel.
    + intros i Hi. cbn [with_shape at_]. now rewrite Sg.
Qed.
