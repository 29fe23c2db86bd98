(** * Lemmas on transposing, multiplying and reducing arrays in C memory. *)
From Coq Require Import Reals List ZArith Lia Lra Bool Permutation.
From Verif Require Import PyBase Corr_Proofs Axis_Model Axis_Spec Axis_Proofs Move_Model Move_Spec Move_Proofs Move_Proofs2 Attn_Proofs Carr_Model Carr_Spec Carr_Proofs.
Import ListNotations.
Open Scope R_scope.
Open Scope list_scope.
Open Scope res_scope.

(** ** Transposing *)
Lemma cstrides_row s : forall n, cstrides n s = row_major (n :: s).
Proof.
  induction s as [|m s IH]; intros n; [reflexivity|]. cbn [cstrides]. rewrite IH. cbn [row_major hd volume]. f_equal. lia.
Qed.
Lemma compute_strides_ok s : s <> [] -> compute_strides s = Ok (row_major s).
Proof. destruct s as [|n s]; [easy|]. intros _. unfold compute_strides. now rewrite cstrides_row. Qed.
Lemma wrz_nat {A} (l : list A) i v : wrz l (Z.of_nat i) v = wr l i v.
Proof. unfold wrz. destruct (Z.ltb_spec (Z.of_nat i) 0); [lia|]. now rewrite Nat2Z.id. Qed.
Lemma perm_facts p r : Permutation p (seq 0 r) -> length p = r /\ NoDup p /\ (forall k, In k p <-> (k < r)%nat).
Proof.
  intros H. split; [now rewrite (Permutation_length H), seq_length|]. split.
  - apply (Permutation_NoDup (Permutation_sym H)). apply seq_NoDup.
  - intros k. split; intros Q.
    + apply (Permutation_in _ H) in Q. apply in_seq in Q. lia.
    + apply (Permutation_in _ (Permutation_sym H)). apply in_seq. lia.
Qed.
Lemma perm_nth p r k : Permutation p (seq 0 r) -> (k < r)%nat -> (nth k p 0 < r)%nat.
Proof. intros H Hk. destruct (perm_facts _ _ H) as (L & _ & I). apply I. apply nth_In. lia. Qed.
Lemma invert_ok p r : Permutation p (seq 0 r) -> exists inv, invert_permutation (map Z.of_nat p) r = Ok inv /\ length inv = r /\
  forall k, (k < r)%nat -> rdi inv k = Ok (index_of k p).
Proof.
  intros H. destruct (perm_facts _ _ H) as (L & ND & I). unfold invert_permutation.
  destruct (scatter_loop None r (fun i inv => let* a := rd (map Z.of_nat p) i in wrz inv a (Some i))
    (fun i => nth i p 0%nat) Some (repeat None r)) as (inv & E & LI & V & _).
  - intros i Hi. rewrite repeat_length. now apply perm_nth.
  - intros i j Hi Hj Q. apply (proj1 (NoDup_nth p 0%nat) ND); lia.
  - intros i d Hi _. rewrite (rd_nth _ _ 0%Z) by (rewrite map_length; lia). cbn [bind].
    rewrite (nth_map_any Z.of_nat p 0%Z 0%nat) by lia. apply wrz_nat.
  - rewrite repeat_length in LI. exists inv. split; [exact E|]. split; [exact LI|]. intros k Hk. unfold rdi.
    rewrite (rd_nth _ _ None) by lia. cbn [bind].
    destruct (index_of_in k p) as [Q1 Q2]; [now apply I|]. rewrite <- Q2 at 1. rewrite V by lia. reflexivity.
Qed.
Lemma mapM_ok {A B} (f : A -> res B) (g : A -> B) l : (forall a, In a l -> f a = Ok (g a)) -> mapM f l = Ok (map g l).
Proof.
  induction l as [|a l IH]; intros H; [reflexivity|]. cbn [mapM map]. rewrite (H a) by (now left). cbn [bind].
  rewrite IH by (intros b Hb; apply H; now right). reflexivity.
Qed.
Lemma dot_sum i st : length i = length st -> dot i st = list_sum (map (fun k => nth k i 0 * nth k st 0)%nat (seq 0 (length i))).
Proof.
  revert st. induction i as [|k i IH]; intros [|w st] L; try easy. rewrite dot_cons, IH by (cbn in L; lia).
  cbn [length seq map list_sum fold_right nth]. f_equal. rewrite <- seq_shift, map_map. reflexivity.
Qed.
Lemma list_sum_perm l m : Permutation l m -> list_sum l = list_sum m.
Proof. induction 1; cbn; try lia. unfold list_sum in *. lia. Qed.
Lemma list_as_nth (p : list nat) : p = map (fun j => nth j p 0%nat) (seq 0 (length p)).
Proof.
  induction p as [|a p IH]; [reflexivity|]. cbn [length seq map nth]. f_equal. rewrite <- seq_shift, map_map.
  rewrite IH at 1. apply map_ext. reflexivity.
Qed.
Lemma dot_arranged p r i st : Permutation p (seq 0 r) -> length i = r -> length st = r ->
  dot i (map (fun k => nth (index_of k p) st 0%nat) (seq 0 r)) = dot (arranged p i) st.
Proof.
  intros H Li Ls. destruct (perm_facts _ _ H) as (L & ND & I).
  rewrite dot_sum by (now rewrite map_length, seq_length). rewrite dot_sum by (rewrite arranged_length; lia).
  rewrite Li, arranged_length, L.
  rewrite (list_sum_perm _ (map (fun k => nth k i 0 * nth (index_of k p) st 0)%nat p)).
  - transitivity (list_sum (map (fun k => nth k i 0 * nth (index_of k p) st 0)%nat (map (fun j => nth j p 0%nat) (seq 0 (length p))))).
    { now rewrite <- list_as_nth. }
    rewrite map_map, L. f_equal. apply map_ext_in. intros j Hj. apply in_seq in Hj.
    rewrite nth_arranged by lia. now rewrite index_of_nth by (assumption || lia).
  - rewrite (map_ext_in _ (fun k => nth k i 0 * nth (index_of k p) st 0)%nat).
    + apply Permutation_map. now apply Permutation_sym.
    + intros k Hk. f_equal. apply in_seq in Hk. rewrite (nth_map_any _ _ 0%nat 0%nat) by (rewrite seq_length; lia).
      now rewrite seq_nth by lia.
Qed.
Lemma arranged_inj p r i j : Permutation p (seq 0 r) -> length i = r -> length j = r -> arranged p i = arranged p j -> i = j.
Proof.
  intros H Li Lj E. destruct (perm_facts _ _ H) as (L & ND & I). apply list_nth_eq; [lia|]. intros k Hk.
  destruct (index_of_in k p) as [Q1 Q2]; [apply I; lia|]. rewrite <- Q2. rewrite <- !nth_arranged by assumption. now rewrite E.
Qed.
Lemma arranged_inside p r s i : Permutation p (seq 0 r) -> length s = r -> inside s i -> inside (arranged p s) (arranged p i).
Proof.
  intros H Ls HI. destruct (perm_facts _ _ H) as (L & ND & I). apply inside_nth in HI. destruct HI as [LI HI].
  apply inside_nth. rewrite !arranged_length. split; [reflexivity|]. intros k Hk. rewrite !nth_arranged by assumption.
  apply HI. rewrite Ls. apply I. apply nth_In. lia.
Qed.
Lemma size_list s : size s = fold_right Nat.mul 1%nat s.
Proof. reflexivity. Qed.
Lemma product_permuted (l m : list nat) : Permutation l m -> fold_right Nat.mul 1%nat l = fold_right Nat.mul 1%nat m.
Proof. induction 1; cbn [fold_right]; nia. Qed.
Lemma arranged_size p r s : Permutation p (seq 0 r) -> length s = r -> size (arranged p s) = size s.
Proof.
  intros H Ls. rewrite !size_list. apply product_permuted. unfold arranged.
  apply Permutation_trans with (map (fun j => nth j s 0%nat) (seq 0 (length s))); [|now rewrite <- list_as_nth]. rewrite Ls. now apply Permutation_map.
Qed.
Lemma ravel_inj s i j : inside s i -> inside s j -> ravel s i = ravel s j -> i = j.
Proof. intros A B E. rewrite <- (unravel_ravel s i A), <- (unravel_ravel s j B). now rewrite E. Qed.
Lemma unravel_inj s m n : (m < size s)%nat -> (n < size s)%nat -> unravel s m = unravel s n -> m = n.
Proof. intros A B E. destruct (unravel_inside s m A) as [_ <-]. destruct (unravel_inside s n B) as [_ <-]. now rewrite E. Qed.

Lemma transpose_ok out inp x p : let r := length (shape x) in
  stores inp x -> (0 < r)%nat -> Permutation p (seq 0 r) -> buffer out (arranged p (shape x)) ->
  writes (c_transpose out inp (Some (map Z.of_nat p))) (arranged p (shape x)) (fun o => at_ x (spot p o)).
Proof.
  intros r (XS & XW & XD) R0 H (OS & OW & OD). destruct (perm_facts _ _ H) as (L & ND & I).
  unfold c_transpose, c_ndim. rewrite XS, (c_size_of _ _ XS), OS. fold r.
  destruct (invert_ok p r H) as (inv & E & LI & V). rewrite E. cbn [bind].
  assert (NE : arranged p (shape x) <> []). { intros Q. apply (f_equal (@length nat)) in Q. rewrite arranged_length in Q. cbn in Q. lia. }
  rewrite (compute_strides_ok _ NE). cbn [bind]. set (s := shape x) in *. set (st := row_major (arranged p s)).
  assert (Ls : length s = r) by reflexivity.
  assert (Lst : length st = r) by (unfold st; rewrite row_major_length, arranged_length; lia).
  rewrite (mapM_ok _ (fun k => nth (index_of k p) st 0%nat)).
  2:{ intros k Hk. apply in_seq in Hk. rewrite V by lia. cbn [bind]. apply rd_nth.
      destruct (index_of_in k p) as [Q1 Q2]; [apply I; lia|]. lia. }
  cbn [bind]. set (ws := map (fun k => nth (index_of k p) st 0%nat) (seq 0 r)).
  assert (PP : forall i, (i < size s)%nat -> loc i s ws r = Ok (ravel (arranged p s) (arranged p (unravel s i)))).
  { intros i Hi. destruct (unravel_inside s i Hi) as [J _]. rewrite loc_ok; [|apply pos_size; lia|unfold ws; rewrite map_length, seq_length; lia|lia].
    rewrite coords_small by assumption. unfold ws. rewrite dot_arranged; [|assumption|rewrite (inside_length _ _ J); lia|lia].
    unfold st. rewrite dot_ravel; [reflexivity|]. rewrite !arranged_length. reflexivity. }
  assert (LO : length (c_data out) = size s) by (rewrite OD, volume_size; now apply (arranged_size p r)).
  destruct (scatter_loop 0 (size s) (fun i d => let* o := loc i s ws r in let* x0 := rd (c_data inp) i in wr d o x0)
    (fun i => ravel (arranged p s) (arranged p (unravel s i))) (fun i => at_ x (unravel s i)) (c_data out)) as (d & E2 & LD & W & _).
  - intros i Hi. rewrite LO, <- (arranged_size p r s H Ls). apply ravel_lt. apply (arranged_inside p r); [assumption..|]. now apply unravel_inside.
  - intros i j Hi Hj Q. destruct (unravel_inside s i Hi) as [Ji _]. destruct (unravel_inside s j Hj) as [Jj _].
    apply ravel_inj in Q; [|now apply (arranged_inside p r)..]. apply (arranged_inj p r) in Q; [|assumption|rewrite (inside_length s) by assumption; lia..].
    now apply (unravel_inj s).
  - intros i d Hi _. rewrite PP by assumption. cbn [bind]. rewrite XD, (rd_nth _ _ 0) by (rewrite entries_length; exact Hi).
    cbn [bind]. rewrite entries_nth by exact Hi. reflexivity.
  - rewrite E2. cbn [bind]. exists (mkc d (arranged p s) st). split; [reflexivity|]. split; [reflexivity|]. split; [reflexivity|].
    cbn [c_data]. apply data_entries.
    + rewrite LD, LO. symmetry. now apply (arranged_size p r).
    + intros m Hm. destruct (unravel_inside _ m Hm) as [J R]. set (o := unravel (arranged p s) m) in *.
      assert (Lo : length o = r) by (rewrite (inside_length _ _ J), arranged_length; lia).
      assert (SO : arranged p (spot p o) = o).
      { apply list_nth_eq; [rewrite arranged_length; lia|]. intros k Hk. rewrite arranged_length in Hk. rewrite nth_arranged by lia.
        rewrite nth_spot by (rewrite L; apply I, nth_In; lia). now rewrite index_of_nth. }
      assert (SI : inside s (spot p o)).
      { apply inside_nth. split; [rewrite spot_length; lia|]. intros k Hk. rewrite nth_spot by lia.
        destruct (index_of_in k p) as [Q1 Q2]; [apply I; lia|]. apply inside_nth in J. destruct J as [_ J].
        rewrite arranged_length in J. specialize (J (index_of k p) ltac:(lia)). rewrite nth_arranged in J by lia. now rewrite Q2 in J. }
      specialize (W (ravel s (spot p o)) (ravel_lt _ _ SI)). rewrite (unravel_ravel s _ SI), SO, R in W. exact W.
Qed.

(** Writing block after block. *)
Lemma block_loop n w base (body : nat -> list R -> res (list R)) (v : nat -> nat -> R) d0 : 
  (base + n * w <= length d0)%nat ->
  (forall i d, (i < n)%nat -> length d = length d0 -> exists d', body i d = Ok d' /\ length d' = length d0 /\
     (forall j, (j < w)%nat -> nth (base + i * w + j) d' 0 = v i j) /\
     (forall k, (k < base + i * w \/ base + i * w + w <= k)%nat -> nth k d' 0 = nth k d 0)) ->
  exists d', for_ n body d0 = Ok d' /\ length d' = length d0 /\
     (forall i j, (i < n)%nat -> (j < w)%nat -> nth (base + i * w + j) d' 0 = v i j) /\
     (forall k, (k < base \/ base + n * w <= k)%nat -> nth k d' 0 = nth k d0 0).
Proof.
  intros _ H.
  destruct (for_inv n body (fun i d => length d = length d0 /\ (forall k j, (k < i)%nat -> (j < w)%nat -> nth (base + k * w + j) d 0 = v k j) /\
    (forall k, (k < base \/ base + i * w <= k)%nat -> nth k d 0 = nth k d0 0)) d0) as (d & E & LD & V & W).
  - split; [reflexivity|]. split; [lia|reflexivity].
  - intros i d Hi (LD & V & W). destruct (H i d Hi LD) as (d' & E & L' & V' & W'). exists d'. split; [exact E|]. split; [exact L'|]. split.
    + intros k j Hk Hj. destruct (Nat.eq_dec k i) as [->|N]; [now apply V'|]. rewrite W' by nia. apply V; lia.
    + intros k Hk. rewrite W' by nia. apply W. nia.
  - now exists d.
Qed.
Lemma wr_block d i base v L : length d = L -> (base + i < L)%nat -> exists d', wr d (base + i) v = Ok d' /\ length d' = L /\
  (forall j, (j < 1)%nat -> nth (base + i * 1 + j) d' 0 = v) /\ (forall k, (k < base + i * 1 \/ base + i * 1 + 1 <= k)%nat -> nth k d' 0 = nth k d 0).
Proof.
  intros LD H. destruct (wr_ok d (base + i)%nat v 0) as (d' & E & L' & N); [lia|]. exists d'. split; [exact E|]. split; [lia|]. split.
  - intros j Hj. rewrite N. destruct (Nat.eqb_spec (base + i * 1 + j) (base + i)); [reflexivity|lia].
  - intros k Hk. rewrite N. destruct (Nat.eqb_spec k (base + i)); [lia|reflexivity].
Qed.

(** Transposing a matrix without axes. *)
Lemma transpose_plain_ok out inp x m n : stores inp x -> shape x = [m; n] -> buffer out [n; m] ->
  writes (c_transpose out inp None) [n; m] (fun o => at_ x (rev o)).
Proof.
  intros (XS & XW & XD) SX BO. pose proof BO as (OS & OW & OD). unfold c_transpose. rewrite XS, XW, OW, SX.
  change (rd [m; n] 0) with (@Ok nat m). change (rd [m; n] 1) with (@Ok nat n). cbn [bind row_major volume].
  rewrite Nat.mul_1_r. change (rd [n; 1%nat] 0) with (@Ok nat n). change (rd [n; 1%nat] 1) with (@Ok nat 1%nat).
  rewrite Nat.mul_1_r. change (rd [m; 1%nat] 0) with (@Ok nat m). change (rd [m; 1%nat] 1) with (@Ok nat 1%nat). cbn [bind].
  cbn [volume] in OD. rewrite Nat.mul_1_r in OD.
  assert (XI : forall i j, (i < m)%nat -> (j < n)%nat -> rd (c_data inp) (i * n + j * 1)%nat = Ok (at_ x [i; j])).
  { intros i j Hi Hj. rewrite XD. replace (i * n + j * 1)%nat with (ravel (shape x) [i; j]) by (rewrite SX; cbn; lia).
    apply rd_entries. rewrite SX. repeat constructor; assumption. }
  destruct (for_inv m (fun i d => for_ n (fun j d => let* x0 := rd (c_data inp) (i * n + j * 1)%nat in wr d (j * m + i * 1)%nat x0) d)
    (fun i d => length d = (n * m)%nat /\ forall k j, (k < i)%nat -> (j < n)%nat -> nth (j * m + k) d 0 = at_ x [k; j]) (c_data out)) as (d & E & LD & V).
  - split; [exact OD|lia].
  - intros i d Hi (LD & V).
    destruct (scatter_loop 0 n (fun j d => let* x0 := rd (c_data inp) (i * n + j * 1)%nat in wr d (j * m + i * 1)%nat x0)
      (fun j => (j * m + i)%nat) (fun j => at_ x [i; j]) d) as (d' & E & L' & W1 & W2).
    + intros j Hj. nia.
    + intros j k Hj Hk Q. nia.
    + intros j d1 Hj _. rewrite XI by assumption. cbn [bind]. now rewrite Nat.mul_1_r.
    + exists d'. split; [exact E|]. split; [lia|]. intros k j Hk Hj. destruct (Nat.eq_dec k i) as [->|N]; [now apply W1|].
      rewrite W2; [apply V; lia|]. intros j' Hj' Q. assert (j = j') by nia. nia.
  - rewrite E. cbn [bind]. apply writes_data; [exact BO|rewrite LD; cbn; lia|]. intros k Hk.
    destruct (unravel_inside [n; m] k Hk) as [J R]. 
    destruct (inside_two_inv [] n m _ J) as (bo & j & i & Eq & B0 & Hj & Hi). inversion B0; subst bo. cbn [app] in Eq. rewrite Eq in *.
    rewrite <- R. cbn [ravel size fold_right rev app].
    replace (j * (m * 1) + (i * 1 + 0))%nat with (j * m + i)%nat by lia. now apply V.
Qed.
