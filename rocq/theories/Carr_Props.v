(** * C60: what the functions of the raw C backend compute, and where they read outside of their arrays. *)
From Coq Require Import Reals List ZArith Lia Lra Bool Permutation.
From Verif Require Import PyBase Corr_Proofs Axis_Model Axis_Spec Axis_Proofs Move_Model Move_Spec Move_Proofs Move_Proofs2 Attn_Proofs Select_Spec Carr_Model Carr_Spec Carr_Proofs Carr_Proofs2 Carr_Proofs3 Carr_Proofs4 Carr_Proofs5.
Import ListNotations.
Open Scope R_scope.
Open Scope list_scope.
Open Scope res_scope.

(** ** New arrays, and arrays from and to numpy *)
Lemma strides_total_ok s : strides_total s = (row_major s, volume s).
Proof. induction s as [|n s IH]; [reflexivity|]. cbn [strides_total row_major volume]. now rewrite IH. Qed.
Lemma nth_repeat_lt (v d : R) : forall n m, (m < n)%nat -> nth m (repeat v n) d = v.
Proof. induction n as [|n IH]; intros [|m] H; cbn; try lia; [reflexivity|apply IH; lia]. Qed.
(** New arrays are laid out in row-major order. *)
Theorem C60_new_arrays s v junk : stores (create_full_struct v s) (mka s (fun _ => v)) /\ buffer (create_empty_struct junk s) s.
Proof.
  unfold create_full_struct, create_empty_struct. rewrite strides_total_ok, volume_size. split.
  - split; [reflexivity|]. split; [reflexivity|]. cbn [c_data]. apply data_entries; [apply repeat_length|]. intros m Hm. apply nth_repeat_lt. exact Hm.
  - split; [reflexivity|]. split; [reflexivity|]. cbn [c_data]. rewrite map_length, seq_length. symmetry. apply volume_size.
Qed.
Lemma pick_nth m k : forall a, (a <= k)%nat -> (k < a + length m)%nat ->
  fold_right (fun p b => if Nat.eqb (snd p) k then fst p else b) 0%nat (combine m (seq a (length m))) = nth (k - a) m 0%nat.
Proof.
  induction m as [|x m IH]; intros a L U; cbn [length] in U; [lia|]. cbn [length seq combine fold_right fst snd].
  destruct (Nat.eqb_spec a k) as [->|N]; [now rewrite Nat.sub_diag|]. rewrite IH by lia. now replace (k - a)%nat with (S (k - S a)) by lia.
Qed.
Lemma in_memory_c x : in_memory x (seq 0 (length (shape x))) = entries x.
Proof.
  unfold in_memory, entries. rewrite <- list_as_nth, indices_order. apply map_ext_in. intros m Hm. rewrite <- indices_order in Hm.
  apply in_indices in Hm. f_equal. pose proof (inside_length _ _ Hm) as L.
  transitivity (map (fun j => nth j m 0%nat) (seq 0 (length m))); [|symmetry; apply list_as_nth]. rewrite L. apply map_ext_in. intros k Hk. apply in_seq in Hk.
  rewrite <- L. rewrite pick_nth by lia. now rewrite Nat.sub_0_r.
Qed.
Lemma horner s i : length i = length s -> forall n, fold_left (fun n p => (n * snd p + fst p)%nat) (combine i s) n = (n * size s + ravel s i)%nat.
Proof.
  revert i. induction s as [|d s IH]; intros [|k i] L n; try easy; cbn [combine fold_left ravel fst snd].
  - cbn. lia.
  - rewrite IH by (cbn in L; lia). rewrite size_cons. lia.
Qed.
Lemma to_numpy_at c x i : stores c x -> inside (shape x) i -> at_ (to_numpy c) i = at_ x i.
Proof.
  intros (S & W & D) I. cbn [to_numpy at_]. rewrite S, horner by (now apply inside_length). cbn [Nat.mul Nat.add]. rewrite D. now apply entries_at.
Qed.
(** An array that lies in memory in C order is taken over entry by entry, and given back. *)
Theorem C60_numpy x : exists c, from_numpy x (seq 0 (length (shape x))) = Ok c /\ stores c x /\
  shape (to_numpy c) = shape x /\ forall i, inside (shape x) i -> at_ (to_numpy c) i = at_ x i.
Proof.
  set (c := mkc (entries x) (shape x) (row_major (shape x))). assert (ST : stores c x) by (repeat split).
  exists c. split; [|split; [exact ST|split; [reflexivity|] ] ].
  - unfold from_numpy, create_struct. rewrite strides_total_ok, in_memory_c, volume_size, entries_length.
    destruct (Nat.ltb_spec (size (shape x)) (size (shape x))); [lia|]. unfold c. f_equal. f_equal. rewrite <- entries_length. apply firstn_all.
  - intros i Hi. now apply to_numpy_at.
Qed.
(** Finding: any other order in memory is taken as if it were C order, so that the entries are exchanged: a
    transposed 2x2 array comes back with its corners swapped. *)
Theorem C60_numpy_order_refuted : exists x order c, Permutation order (seq 0 (length (shape x))) /\
  from_numpy x order = Ok c /\ inside (shape x) [0; 1]%nat /\ at_ (to_numpy c) [0; 1]%nat <> at_ x [0; 1]%nat.
Proof.
  exists (mka [2; 2]%nat (fun i => INR (nth 1 i 0%nat))), [1; 0]%nat, (mkc [0; 0; 1; 1] [2; 2]%nat [2; 1]%nat).
  split; [apply perm_swap|]. split; [reflexivity|]. split; [repeat constructor|]. cbn. lra.
Qed.

(** ** Element-wise functions *)
(** With the output of the right shape, the operands are broadcast as numpy does it. *)
Theorem C60_elementwise l r x y out t : stores l x -> stores r y -> buffer out t -> spreads (shape x) t -> spreads (shape y) t ->
  let at_x := fun o => at_ x (source (shape x) o) in let at_y := fun o => at_ y (source (shape y) o) in
  writes (c_add out l r) t (fun o => at_x o + at_y o) /\
  writes (c_subtract out l r) t (fun o => at_x o - at_y o) /\
  writes (c_multiplication out l r) t (fun o => at_x o * at_y o) /\
  writes (c_squared_error out l r) t (fun o => (at_x o - at_y o)²).
Proof.
  intros HX HY BO SX SY at_x at_y.
  split; [apply (iterator_ok l r x y out t Rplus); assumption|]. split; [apply (iterator_ok l r x y out t Rminus); assumption|].
  split; [apply (iterator_ok l r x y out t Rmult); assumption|]. apply (iterator_ok l r x y out t squared_diff); assumption.
Qed.
Theorem C60_unary inp x out c : stores inp x -> buffer out (shape x) ->
  writes (c_relu out inp) (shape x) (fun i => Rmax 0 (at_ x i)) /\
  writes (scalar_op Rplus out inp c) (shape x) (fun i => at_ x i + c) /\
  writes (scalar_op Rmult out inp c) (shape x) (fun i => at_ x i * c) /\
  writes (scalar_op Rminus out inp c) (shape x) (fun i => at_ x i - c).
Proof.
  intros (XS & XW & XD) BO. pose proof BO as (OS & OW & OD). rewrite volume_size in OD.
  assert (G : forall f, writes (let* d := for_ (size (shape x)) (fun i d => let* y := rd (c_data inp) i in wr d i (f y)) (c_data out) in
      Ok (with_data out d)) (shape x) (fun i => f (at_ x i))).
  { intros f. destruct (fill_loop (size (shape x)) (fun i d => let* y := rd (c_data inp) i in wr d i (f y))
      (fun m => f (at_ x (unravel (shape x) m))) (c_data out) OD) as (d & E & L & V).
    - intros i d Hi _ _. rewrite XD, (rd_nth _ _ 0) by (now rewrite entries_length). cbn [bind]. now rewrite entries_nth.
    - rewrite E. cbn [bind]. now apply writes_data. }
  unfold c_relu, scalar_op. rewrite (c_size_of _ _ OS), (c_size_of _ _ XS). split; [|split; [|split] ].
  - apply (writes_ext _ _ (fun i => cmax 0 (at_ x i))); [|apply G]. intros i _. unfold cmax.
    destruct (Rlt_dec (at_ x i) 0); [now rewrite Rmax_left by lra|now rewrite Rmax_right by lra].
  - apply (G (fun y => y + c)).
  - apply (G (fun y => y * c)).
  - apply (G (fun y => y - c)).
Qed.
(** The operators of arrays choose the shape of the operand with more axes; that is enough when the other one
    broadcasts to it. *)
Theorem C60_operator junk op l r x y : stores l x -> stores r y ->
  let t := if le_dec (length (shape y)) (length (shape x)) then shape x else shape y in
  spreads (shape x) t -> spreads (shape y) t ->
  writes (binary_op junk op l r) t (fun o => op (at_ x (source (shape x) o)) (at_ y (source (shape y) o))).
Proof.
  intros HX HY t SX SY. unfold binary_op, c_ndim. rewrite (stores_shape _ _ HX), (stores_shape _ _ HY).
  assert (ET : (if Nat.leb (length (shape y)) (length (shape x)) then shape x else shape y) = t).
  { unfold t. destruct (Nat.leb_spec (length (shape y)) (length (shape x))), (le_dec (length (shape y)) (length (shape x))); try reflexivity; lia. }
  rewrite ET. apply iterator_ok; [assumption..| |assumption|assumption]. apply (C60_new_arrays t 0 junk).
Qed.
(** Finding: otherwise the result has the wrong shape: (1, 2) + (2, 2) is an array of shape (1, 2), without the
    second row. *)
Theorem C60_operator_refuted : exists l r x y, stores l x /\ stores r y /\ common [shape x; shape y] [2; 2]%nat /\
  forall junk, exists c, binary_op junk Rplus l r = Ok c /\ c_shape c = [1; 2]%nat.
Proof.
  exists (mkc [1; 2] [1; 2]%nat [2; 1]%nat), (mkc [3; 4; 5; 6] [2; 2]%nat [2; 1]%nat).
  exists (mka [1; 2]%nat (fun i => 1 + INR (nth 1 i 0%nat))), (mka [2; 2]%nat (fun i => 3 + 2 * INR (nth 0 i 0%nat) + INR (nth 1 i 0%nat))).
  split; [|split; [|split] ].
  - repeat split. cbn. repeat (apply (f_equal2 (@cons R)); [lra|]); reflexivity.
  - repeat split. cbn. repeat (apply (f_equal2 (@cons R)); [lra|]); reflexivity.
  - split; [reflexivity|]. intros k. split.
    + intros s [<-|[<-|[] ] ]; destruct k as [|[|[|k] ] ]; cbn; tauto.
    + right. exists [2; 2]%nat. cbn; tauto.
  - intros junk. eexists. split; [reflexivity|reflexivity].
Qed.

(** ** Transposing *)
Theorem C60_transpose out inp x p : stores inp x -> (0 < length (shape x))%nat -> Permutation p (seq 0 (length (shape x))) ->
  buffer out (arranged p (shape x)) ->
  exists c y, c_transpose out inp (Some (map Z.of_nat p)) = Ok c /\ stores c y /\ shape y = arranged p (shape x) /\
    forall i, inside (shape x) i -> at_ y (arranged p i) = at_ x i.
Proof.
  intros HX R0 HP BO. destruct (transpose_ok out inp x p HX R0 HP BO) as (c & E & ST).
  exists c, (mka (arranged p (shape x)) (fun o => at_ x (spot p o))). split; [exact E|]. split; [exact ST|]. split; [reflexivity|].
  intros i Hi. cbn [at_]. f_equal. destruct (perm_facts _ _ HP) as (L & ND & I). pose proof (inside_length _ _ Hi) as LI.
  apply list_nth_eq; [rewrite spot_length; lia|]. intros k Hk. rewrite spot_length in Hk. rewrite nth_spot by assumption.
  destruct (index_of_in k p) as [Q1 Q2]; [apply I; lia|]. rewrite nth_arranged by assumption. now rewrite Q2.
Qed.
Theorem C60_transpose_matrix out inp x m n : stores inp x -> shape x = [m; n] -> buffer out [n; m] ->
  exists c y, c_transpose out inp None = Ok c /\ stores c y /\ shape y = [n; m] /\
    forall i j, (i < m)%nat -> (j < n)%nat -> at_ y [j; i] = at_ x [i; j].
Proof.
  intros HX SX BO. destruct (transpose_plain_ok out inp x m n HX SX BO) as (c & E & ST).
  exists c, (mka [n; m] (fun o => at_ x (rev o))). split; [exact E|]. split; [exact ST|]. split; [reflexivity|]. reflexivity.
Qed.
(** Finding: a negative axis, which numpy counts from the end, is used as an index of memory. *)
Theorem C60_transpose_negative_refuted out inp axes z : In z axes -> (z < 0)%Z -> length axes = length (c_shape inp) ->
  out_of_bounds (c_transpose out inp (Some axes)).
Proof.
  intros I Z L. unfold out_of_bounds, c_transpose, invert_permutation, c_ndim. rewrite <- L.
  assert (G : forall l k inv, (forall i, (i < length l)%nat -> nth_error axes (k + i) = nth_error l i) -> In z l ->
    each (seq k (length l)) (fun i inv => let* a := rd axes i in wrz inv a (Some i)) inv = (undefined : res (list (option nat)))).
  { induction l as [|a l IH]; intros k inv H Hl; [easy|]. destruct Hl as [->|Il]; cbn [length seq each].
    - specialize (H 0%nat ltac:(cbn; lia)). rewrite Nat.add_0_r in H. unfold rd at 1. rewrite H. cbn [nth_error bind].
      unfold wrz at 1. now rewrite (proj2 (Z.ltb_lt z 0) Z).
    - pose proof (H 0%nat ltac:(cbn; lia)) as H0. rewrite Nat.add_0_r in H0. unfold rd at 1. rewrite H0. cbn [nth_error bind].
      assert (Q : wrz inv a (Some k) = undefined \/ exists inv', wrz inv a (Some k) = Ok inv').
      { unfold wrz, wr. destruct (a <? 0)%Z; [now left|]. destruct (Nat.ltb _ _); [right; now eexists|now left]. }
      destruct Q as [->|(inv' & ->)]; [reflexivity|]. cbn [bind]. apply IH; [|exact Il]. intros i Hi.
      specialize (H (S i) ltac:(cbn; lia)). now replace (S k + i)%nat with (k + S i)%nat by lia. }
  unfold for_. rewrite (G axes 0%nat); [reflexivity| |exact I]. reflexivity.
Qed.

(** ** Multiplying matrices *)
(** When the batches are repeated in front only, the product is that of numpy. *)
Theorem C60_matmul out l r x y bx by_ b n m p : stores l x -> stores r y -> shape x = bx ++ [n; m] -> shape y = by_ ++ [m; p] ->
  common [bx; by_] b -> positive b -> leading bx b -> leading by_ b -> buffer out (b ++ [n; p]) ->
  exists c z, c_matmul out l r = Ok c /\ stores c z /\ shape z = b ++ [n; p] /\
    forall o i j, inside b o -> (i < n)%nat -> (j < p)%nat ->
      at_ z (o ++ [i; j]) = sum_to m (fun k => at_ x (source bx o ++ [i; k]) * at_ y (source by_ o ++ [k; j])).
Proof. apply matmul_c. Qed.
(** Finding: otherwise the running number of the matrix is taken apart with the sizes of the operand instead of
    those of the result: shapes (2, 1, 1, 1) and (2, 2, 1, 1) multiply the wrong matrices. *)
Theorem C60_matmul_batch_refuted : exists l r out c x y z, stores l x /\ stores r y /\ buffer out [2; 2; 1; 1]%nat /\
  shape x = [2; 1; 1; 1]%nat /\ shape y = [2; 2; 1; 1]%nat /\ common [[2; 1]; [2; 2]]%nat [2; 2]%nat /\
  c_matmul out l r = Ok c /\ stores c z /\
  at_ z [0; 1; 0; 0]%nat <> sum_to 1 (fun k => at_ x (source [2; 1] [0; 1] ++ [0; k])%nat * at_ y (source [2; 2] [0; 1] ++ [k; 0])%nat).
Proof.
  exists (mkc [1; 2] [2; 1; 1; 1]%nat [1; 1; 1; 1]%nat), (mkc [1; 1; 1; 1] [2; 2; 1; 1]%nat [2; 1; 1; 1]%nat).
  exists (mkc [0; 0; 0; 0] [2; 2; 1; 1]%nat [2; 1; 1; 1]%nat).
  exists (mkc [0 + 1 * 1; 0 + 2 * 1; 0 + 1 * 1; 0 + 2 * 1] [2; 2; 1; 1]%nat [2; 1; 1; 1]%nat).
  exists (mka [2; 1; 1; 1]%nat (fun i => 1 + INR (nth 0 i 0%nat))), (mka [2; 2; 1; 1]%nat (fun _ => 1)).
  exists (mka [2; 2; 1; 1]%nat (fun i => 1 + INR (nth 1 i 0%nat))).
  split; [repeat split; cbn; repeat (apply (f_equal2 (@cons R)); [lra|]); reflexivity|]. split; [repeat split|]. split; [repeat split|].
  split; [reflexivity|]. split; [reflexivity|]. split.
  { split; [reflexivity|]. intros k. split.
    - intros s [<-|[<-|[] ] ]; destruct k as [|[|[|k] ] ]; cbn; tauto.
    - right. exists [2; 2]%nat. cbn; tauto. }
  split; [reflexivity|]. split; [repeat split; cbn; repeat (apply (f_equal2 (@cons R)); [lra|]); reflexivity|].
  unfold sum_to. cbn. lra.
Qed.

(** ** Reducing *)
(** The mean is right when the reduced axes are kept, and when they are the last ones. *)
Theorem C60_mean inp out x axes A keep kd : stores inp x -> front_axes axes A (length (shape x)) ->
  keep = true \/ trailing (length (shape x)) A -> buffer out (result_shape A keep (shape x)) ->
  writes (c_reduce_mean out inp axes kd) (result_shape A keep (shape x))
    (fun o => sum_into A keep (shape x) o (at_ x) / count_into A keep (shape x) o) /\
  writes (c_reduce_sum inp out axes) (result_shape A keep (shape x)) (fun o => sum_into A keep (shape x) o (at_ x)).
Proof.
  intros HX F K BO. rewrite result_shape_red in *. assert (RD : readable axes A (shape x) (red_shape A keep 0 (shape x))).
  { destruct K as [->|T]; [now apply readable_keep|]. destruct keep; [now apply readable_keep|now apply readable_trailing]. }
  split; [now apply mean_c|now apply sum_c].
Qed.
(** Finding: whenever an axis that is kept has no counterpart at its own number in the shape of the output --
    that is always so if an axis before or between the kept ones is reduced and dropped -- the shape of the
    output is read outside of its memory. *)
Theorem C60_mean_dropped_refuted inp out x A kd k : stores inp x -> positive (shape x) ->
  NoDup A -> (forall j, In j A -> (j < length (shape x))%nat) -> buffer out (result_shape A false (shape x)) ->
  (k < length (shape x))%nat -> ~ In k A -> (length (result_shape A false (shape x)) <= k)%nat ->
  out_of_bounds (c_reduce_mean out inp (Some (map Z.of_nat A)) kd).
Proof.
  intros HX P ND I (OS & OW & OD) Hk NI L. unfold out_of_bounds, c_reduce_mean.
  assert (F : front_axes (Some (map Z.of_nat A)) A (length (shape x))) by (repeat split; assumption).
  rewrite (count_ok inp (shape x) _ A (stores_shape _ _ HX) F). cbn [bind].
  rewrite (sum_undefined inp out _ (shape x) k (stores_shape _ _ HX) P Hk); [reflexivity| |now rewrite OS|].
  - rewrite (reduced_front _ A (length (shape x)) k F Hk). destruct (is_in k A) eqn:Q; [|reflexivity]. apply is_in_true in Q. easy.
  - rewrite OD, volume_size. symmetry. now apply c_size_of.
Qed.
(** Finding: a negative axis is used as an index of memory. *)
Theorem C60_mean_negative_refuted inp out axes kd z : In z axes -> (z < 0)%Z -> out_of_bounds (c_reduce_mean out inp (Some axes) kd).
Proof.
  intros I Z. unfold out_of_bounds, c_reduce_mean, c_count.
  assert (G : forall l n, In z l -> each l (fun z n => let* d := rdz (c_shape inp) z in Ok (n * d)%nat) n = undefined).
  { induction l as [|a l IH]; intros n Hl; [easy|]. destruct Hl as [->|Il]; cbn [each].
    - unfold rdz at 1. now rewrite (proj2 (Z.ltb_lt z 0) Z).
    - assert (Q : rdz (c_shape inp) a = undefined \/ exists d, rdz (c_shape inp) a = Ok d).
      { unfold rdz, rd. destruct (a <? 0)%Z; [now left|]. destruct (nth_error _ _); [right; now eexists|now left]. }
      destruct Q as [->|(d & ->)]; [reflexivity|]. cbn [bind]. now apply IH. }
  now rewrite G.
Qed.

(** ** Cases *)
Example C60_elementwise_case : exists l r x y out, stores l x /\ stores r y /\ buffer out [2; 2]%nat /\
  spreads (shape x) [2; 2]%nat /\ spreads (shape y) [2; 2]%nat /\ shape x = [2; 1]%nat /\ shape y = [2]%nat.
Proof.
  exists (mkc [1; 2] [2; 1]%nat [1; 1]%nat), (mkc [3; 4] [2]%nat [1]%nat), (mka [2; 1]%nat (fun i => 1 + INR (nth 0 i 0%nat))), (mka [2]%nat (fun i => 3 + INR (nth 0 i 0%nat))).
  exists (mkc [0; 0; 0; 0] [2; 2]%nat [2; 1]%nat). split; [repeat split; cbn; repeat (apply (f_equal2 (@cons R)); [lra|]); reflexivity|]. split; [repeat split; cbn; repeat (apply (f_equal2 (@cons R)); [lra|]); reflexivity|].
  split; [repeat split|]. split; [|split; [|split; reflexivity] ].
  - split; [cbn; lia|]. intros [|[|k] ] Hk; cbn in *; lia.
  - split; [cbn; lia|]. intros [|[|k] ] Hk; cbn in *; lia.
Qed.
Example C60_transpose_case : Permutation [2; 0; 1]%nat (seq 0 3) /\ arranged [2; 0; 1]%nat [2; 3; 4]%nat = [4; 2; 3]%nat.
Proof. split; [|reflexivity]. apply Permutation_trans with [0; 2; 1]%nat; [apply perm_swap|]. apply perm_skip, perm_swap. Qed.
Example C60_transpose_negative_case : In (-1)%Z [1; -1]%Z /\ (-1 < 0)%Z /\ length [1; -1]%Z = length (c_shape (mkc [] [0; 0]%nat [])).
Proof. cbn. lia || (split; [tauto|split; [lia|reflexivity] ]). Qed.
Example C60_matmul_case : common [[1; 3]; [2; 3]]%nat [2; 3]%nat /\ leading [1; 3]%nat [2; 3]%nat /\ leading [2; 3]%nat [2; 3]%nat /\ leading [] [2; 3]%nat /\ positive [2; 3]%nat.
Proof.
  split; [|split; [|split; [|split] ] ].
  - split; [reflexivity|]. intros k. split.
    + intros s [<-|[<-|[] ] ]; destruct k as [|[|[|k] ] ]; cbn; tauto.
    + right. exists [2; 3]%nat. cbn; tauto.
  - exists [2]%nat, 1%nat, [3]%nat. repeat split. cbn; lia.
  - exists [], 0%nat, [2; 3]%nat. repeat split. cbn; lia.
  - exists [2; 3]%nat, 0%nat, []. repeat split. cbn; lia.
  - intros d [<-|[<-|[] ] ]; lia.
Qed.
Example C60_mean_case : front_axes (Some [1; 2]%Z) [1; 2]%nat 3 /\ trailing 3 [1; 2]%nat /\ result_shape [1; 2]%nat false [2; 3; 4]%nat = [2]%nat /\
  result_shape [1]%nat true [2; 3; 4]%nat = [2; 1; 4]%nat.
Proof.
  split; [|split; [|split; reflexivity] ].
  - split; [repeat constructor; cbn; lia|]. split; [reflexivity|]. intros k [<-|[<-|[] ] ]; lia.
  - exists 1%nat. intros k Hk. cbn. lia.
Qed.
Example C60_mean_dropped_case : ~ In 1%nat [0]%nat /\ (length (result_shape [0]%nat false [2; 3]%nat) <= 1)%nat /\ positive [2; 3]%nat.
Proof. split; [cbn; lia|]. split; [cbn; lia|]. intros d [<-|[<-|[] ] ]; lia. Qed.

Print Assumptions C60_new_arrays.
Print Assumptions C60_numpy.
Print Assumptions C60_numpy_order_refuted.
Print Assumptions C60_elementwise.
Print Assumptions C60_unary.
Print Assumptions C60_operator.
Print Assumptions C60_operator_refuted.
Print Assumptions C60_transpose.
Print Assumptions C60_transpose_matrix.
Print Assumptions C60_transpose_negative_refuted.
Print Assumptions C60_matmul.
Print Assumptions C60_matmul_batch_refuted.
Print Assumptions C60_mean.
Print Assumptions C60_mean_dropped_refuted.
Print Assumptions C60_mean_negative_refuted.
