(** * C61: what the gradient functions of the raw C backend compute. *)
From Coq Require Import Reals List ZArith Lia Lra Bool Permutation.
From Verif Require Import PyBase Deriv_Proofs Corr_Proofs Pool_Proofs Axis_Model Axis_Spec Axis_Proofs Move_Model Move_Spec Move_Proofs Move_Proofs2 Attn_Proofs Select_Spec Select_Proofs2 Carr_Model Carr_Spec Carr_Proofs Carr_Proofs2 Carr_Proofs3 Carr_Proofs4 Carr_Proofs5 Cgrad_Model Cgrad_Spec Cgrad_Proofs Cgrad_Proofs2 Cgrad_Proofs3.
Import ListNotations.
Open Scope R_scope.
Open Scope list_scope.
Open Scope res_scope.

(** ** Sums and products *)
(** For an operand of the shape of the result, the gradient is added to what was collected before; the other
    operand may be broadcast. *)
Theorem C61_operand gr side other g x y : stores gr g -> stores side x -> stores other y -> shape g = shape x -> spreads (shape y) (shape x) ->
  adds_gradient (c_add_grad gr side) (broadcast_op Rplus y) (shape x) x g /\
  adds_gradient (c_multiplication_grad gr side other) (broadcast_op Rmult y) (shape x) x g.
Proof. intros HG HX HY SG SY. split; [now apply add_grad_c|now apply mul_grad_c]. Qed.
(** Finding: an operand with fewer axes (at least one) has no gradient: memory outside of the shapes is read. *)
Lemma grad_undefined gr (acc : carr) s sx : c_shape gr = s -> positive s -> (0 < length sx)%nat -> (length sx < length s)%nat -> buffer acc sx ->
  c_reduce_sum gr acc (Some (map Z.of_nat (seq 0 (length s - length sx)))) = undefined.
Proof.
  intros GS P L0 L (AS & AW & AD). apply (sum_undefined gr acc _ s (length s - 1) GS P); [lia| | |].
  - cbn [reduced]. apply Bool.not_true_iff_false. intros Q. apply existsb_exists in Q. destruct Q as (z & Iz & E). apply in_map_iff in Iz.
    destruct Iz as (k & <- & Ik). apply in_seq in Ik. apply Z.eqb_eq in E. lia.
  - rewrite AS. lia.
  - rewrite AD, volume_size. symmetry. now apply c_size_of.
Qed.
Theorem C61_fewer_axes_refuted gr side other g x y acc : stores gr g -> stores side x -> stores other y -> positive (shape g) ->
  (0 < length (shape x))%nat -> (length (shape x) < length (shape g))%nat -> spreads (shape y) (shape g) -> buffer acc (shape x) ->
  out_of_bounds (c_add_grad gr side acc) /\ out_of_bounds (c_multiplication_grad gr side other acc).
Proof.
  intros HG HX HY P L0 L SY BA. unfold out_of_bounds, c_add_grad, c_multiplication_grad. rewrite (ndim_of _ _ HG), (ndim_of _ _ HX).
  destruct (Nat.ltb_spec (length (shape g)) (length (shape x))); [lia|].
  destruct (Nat.eqb_spec (length (shape g) - length (shape x)) 0); [lia|]. split.
  - apply grad_undefined; try assumption. apply (stores_shape _ _ HG).
  - destruct (iterator_ok gr other g y (create_full_struct 0 (c_shape gr)) (shape g) Rmult HG HY) as (c & E & ST).
    + rewrite (stores_shape _ _ HG). apply full_buffer.
    + apply spreads_refl.
    + exact SY.
    + rewrite E. cbn [bind]. apply grad_undefined; try assumption. apply (stores_shape _ _ ST).
Qed.
(** For an operand without axes the sum is right, but what was collected before is lost. *)
Theorem C61_scalar gr side g x y : stores gr g -> stores side x -> shape x = [] -> (0 < length (shape g))%nat -> spreads (shape y) (shape g) ->
  sets_gradient (c_add_grad gr side) (broadcast_op Rplus y) (shape g) x g.
Proof.
  intros HG HX SX L SY. apply (sets_of_entries _ _ _ _ _ (shape g) (fun _ => []) (at_ g)).
  - intros e _. rewrite SX. constructor.
  - intros acc BA. rewrite SX in *. unfold c_add_grad. rewrite (ndim_of _ _ HG), (ndim_of _ _ HX), SX. cbn [length].
    destruct (Nat.ltb_spec (length (shape g)) 0); [lia|]. rewrite Nat.sub_0_r. destruct (Nat.eqb_spec (length (shape g)) 0); [lia|].
    set (r := length (shape g)). assert (F : front_axes (Some (map Z.of_nat (seq 0 r))) (seq 0 r) r).
    { split; [apply seq_NoDup|]. split; [reflexivity|]. intros k Hk. apply in_seq in Hk. lia. }
    assert (RS : red_shape (seq 0 r) false 0 (shape g) = []).
    { unfold r. clear. assert (G : forall s n k, (k + length s <= n)%nat -> red_shape (seq 0 n) false k s = []).
      { induction s as [|d s IH]; intros n k H; [reflexivity|]. cbn [red_shape length] in *.
        replace (is_in k (seq 0 n)) with true by (symmetry; apply is_in_true, in_seq; lia). apply IH. lia. }
      now apply G. }
    pose proof (sum_c gr acc g (Some (map Z.of_nat (seq 0 r))) (seq 0 r) false HG) as W. rewrite RS in W.
    apply (writes_ext _ _ (fun o => sum_into (seq 0 r) false (shape g) o (at_ g))).
    + intros i I. inversion I; subst. unfold sum_into, gathered. rewrite sum_over_lsum. apply lsum_ext. intros e He. apply in_indices in He.
      rewrite place_proj. assert (PE : proj (seq 0 r) false 0 e = []).
      { unfold r. rewrite <- (inside_length _ _ He). clear. assert (G : forall s n k, (k + length s <= n)%nat -> proj (seq 0 n) false k s = []).
        { induction s as [|d s IH]; intros n k H; [reflexivity|]. cbn [proj length] in *.
          replace (is_in k (seq 0 n)) with true by (symmetry; apply is_in_true, in_seq; lia). apply IH. lia. }
        now apply G. }
      now rewrite PE.
    + apply W; [exact BA|]. rewrite <- RS. apply readable_trailing; [exact F|]. exists 0%nat. intros k Hk. rewrite in_seq. unfold r. lia.
  - intros dx. apply dl_sum_over. intros o _. unfold broadcast_op. cbn [moved shape at_]. rewrite SX.
    assert (E : source [] o = []) by (rewrite source_squash by (cbn; lia); reflexivity). rewrite E.
    apply (dl_of_affine _ (at_ g o * (at_ x [] + at_ y (source (shape y) o)))). intros h. ring.
Qed.
(** A function that sets a gradient does not add it: a value that is used twice loses a part of its gradient. *)
Lemma sets_not_adds call F t x g : positive (shape x) -> sets_gradient call F t x g -> ~ adds_gradient call F t x g.
Proof.
  intros P (G & SG & W & D) A. set (s := shape x) in *.
  set (acc := mkc (entries (mka s (fun _ => 1))) s (row_major s)).
  destruct (A acc (mka s (fun _ => 1))) as (c & G' & E & SC & SG' & D'); [now repeat split|reflexivity|].
  destruct (W acc) as (c' & E' & SC').
  { split; [reflexivity|]. split; [reflexivity|]. unfold acc. cbn [c_data]. rewrite entries_length. symmetry. apply volume_size. }
  rewrite E in E'. injection E' as <-. pose proof (size_pos _ P) as Z. set (i0 := unravel s 0). destruct (unravel_inside s 0 Z) as [I R].
  set (dx := fun i => if same_place i i0 then 1 else 0). pose proof (uniqueness_limite _ _ _ _ (D dx) (D' dx)) as Q. rewrite !sum_over_lsum in Q.
  rewrite !(lsum_single (indices s) i0) in Q; try (apply nodup_indices); try (now apply in_indices).
  - unfold dx in Q. rewrite same_refl in Q. cbn [at_] in Q.
    assert (EQ : at_ G i0 = at_ G' i0).
    { destruct SC as (_ & _ & DC). destruct SC' as (_ & _ & DC'). rewrite DC in DC'.
      assert (X : nth 0 (entries G') 0 = nth 0 (entries G) 0) by (now rewrite DC').
      rewrite !entries_nth in X by (rewrite ?SG, ?SG'; exact Z). rewrite SG, SG' in X. symmetry. exact X. }
    rewrite EQ in Q. lra.
  - intros b _ N. unfold dx. destruct (same_place b i0) eqn:X; [|ring]. apply same_iff in X. congruence.
  - intros b _ N. unfold dx. destruct (same_place b i0) eqn:X; [|ring]. apply same_iff in X. congruence.
Qed.
(** Finding: the gradient of an operand without axes, of a factor of a product of matrices, and of a transposed
    matrix, is not added. *)
Theorem C61_scalar_refuted gr side g x y : stores gr g -> stores side x -> shape x = [] -> (0 < length (shape g))%nat -> spreads (shape y) (shape g) ->
  ~ adds_gradient (c_add_grad gr side) (broadcast_op Rplus y) (shape g) x g.
Proof. intros HG HX SX L SY. apply sets_not_adds; [rewrite SX; easy|now apply C61_scalar]. Qed.
(** Finding: of an operand that is repeated along one of its own axes, only the first part of the gradient is
    added. *)
Lemma indices2 f : lsum (indices [2%nat]) f = f [0%nat] + f [1%nat].
Proof. unfold lsum. cbn. ring. Qed.
Theorem C61_repeated_refuted : exists gr side g x y, stores gr g /\ stores side x /\ spreads (shape x) (shape g) /\ spreads (shape y) (shape g) /\
  length (shape x) = length (shape g) /\ ~ adds_gradient (c_add_grad gr side) (broadcast_op Rplus y) (shape g) x g.
Proof.
  exists (mkc [1; 1] [2]%nat [1]%nat), (mkc [3] [1]%nat [1]%nat), (mka [2]%nat (fun _ => 1)), (mka [1]%nat (fun _ => 3)), (mka [2]%nat (fun _ => 4)).
  split; [repeat split|]. split; [repeat split|]. split; [split; [cbn; lia|]; intros [|k] Hk; cbn in *; lia|]. split; [apply spreads_refl|]. split; [reflexivity|].
  intros A. destruct (A (mkc [0] [1]%nat [1]%nat) (mka [1]%nat (fun _ => 0))) as (c & G & E & SC & SG & D); [repeat split|reflexivity|].
  assert (EC : Ok (mkc [1 + 0] [1]%nat [1]%nat) = Ok c) by (exact E). assert (EC' : c = mkc [1 + 0] [1]%nat [1]%nat) by congruence. clear EC. rename EC' into EC.
  assert (GV : at_ G [0]%nat = 1 + 0).
  { destruct SC as (_ & _ & DC). rewrite EC in DC. cbn [c_data] in DC. assert (X : nth 0 (entries G) 0 = 1 + 0) by (now rewrite <- DC).
    rewrite entries_nth in X by (rewrite SG; cbn; lia). rewrite SG in X. exact X. }
  specialize (D (fun _ => 1)).
  assert (D2 : derivable_pt_lim (fun h => sum_over [2%nat] (fun o => at_ (mka [2%nat] (fun _ => 1)) o * broadcast_op Rplus (mka [2%nat] (fun _ => 4)) (moved (mka [1%nat] (fun _ => 3)) (fun _ => 1) h) o)) 0 2).
  { apply (dl_of_affine _ 14 2). intros h. rewrite sum_over_lsum, indices2. unfold broadcast_op. cbn [moved at_]. ring. }
  pose proof (uniqueness_limite _ _ _ _ D D2) as Q. cbn [shape] in Q. rewrite sum_over_lsum in Q. unfold lsum in Q. cbn [indices map fold_right seq flat_map app at_] in Q.
  rewrite GV in Q. lra.
Qed.

(** ** relu and squared error *)
Theorem C61_relu gr inp g x : stores gr g -> stores inp x -> shape g = shape x -> (forall i, inside (shape x) i -> at_ x i <> 0) ->
  adds_gradient (c_relu_grad gr inp) positive_part (shape x) x g.
Proof. apply relu_grad_c. Qed.
Theorem C61_squared_error gr inp tar g x y : stores gr g -> stores inp x -> stores tar y -> spreads (shape x) (shape g) -> spreads (shape y) (shape g) ->
  adds_gradient (c_squared_error_grad gr true inp tar) (broadcast_op (fun a b => (a - b)²) y) (shape g) x g /\
  (shape x = shape g -> shape y = shape g ->
   adds_gradient (c_squared_error_grad gr false inp tar) (broadcast_op (fun b a => (a - b)²) x) (shape g) y g).
Proof. intros HG HX HY SX SY. split; [now apply squared_first_c|]. intros EX EY. now apply squared_second_c. Qed.
(** Finding: the gradient of a target that is broadcast is written outside of its array. *)
Theorem C61_squared_error_target_refuted gr inp tar g x y acc : stores gr g -> stores inp x -> stores tar y ->
  shape x = shape g -> spreads (shape y) (shape g) -> (size (shape y) < size (shape g))%nat -> buffer acc (shape y) ->
  out_of_bounds (c_squared_error_grad gr false inp tar acc).
Proof.
  intros (GS & GW & GD) (XS & XW & XD) (YS & YW & YD) SX SY LT (AS & AW & AD). rewrite volume_size in AD. set (t := shape g) in *.
  unfold out_of_bounds, c_squared_error_grad. unfold c_ndim. rewrite GS, (c_size_of _ _ GS). fold t.
  set (body := fun (i : nat) (d : list R) => _). set (f := 2 * (-1)).
  assert (B : forall m d, (m < size t)%nat -> body m d = upd d m (f * (at_ x (unravel t m) - at_ y (source (shape y) (unravel t m))) * at_ g (unravel t m))).
  { intros m d Hm. unfold body. destruct (unravel_inside _ m Hm) as [J R]. rewrite (loc_broadcast inp (shape x) t m XS XW ltac:(rewrite SX; apply spreads_refl) Hm), (loc_broadcast tar (shape y) t m YS YW SY Hm).
    cbn [bind]. rewrite SX, (source_self t) by exact J. rewrite XD. rewrite <- SX at 1. rewrite rd_entries by (rewrite SX; exact J). cbn [bind].
    rewrite YD, rd_entries by (now apply (source_inside _ t)). cbn [bind]. rewrite GD, (rd_nth _ _ 0) by (rewrite entries_length; exact Hm). cbn [bind].
    rewrite entries_nth by exact Hm. fold t. now rewrite R. }
  unfold for_. replace (size t) with (size (shape y) + S (size t - S (size (shape y))))%nat by lia. rewrite seq_app. cbn [Nat.add seq].
  assert (K : forall l d rest, length d = size (shape y) -> (forall i, In i l -> (i < size (shape y))%nat) ->
    each (l ++ size (shape y) :: rest) body d = undefined).
  { induction l as [|i l IH]; intros d rest Ld Hl; cbn [app each].
    - rewrite B by exact LT. unfold upd. rewrite rd_out by lia. reflexivity.
    - assert (Hi : (i < size (shape y))%nat) by (apply Hl; now left). rewrite B by lia. unfold upd. rewrite (rd_nth _ _ 0) by lia. cbn [bind].
      match goal with |- context [wr d i ?v] => destruct (wr_ok d i v 0 ltac:(lia)) as (d' & -> & L' & _) end. cbn [bind].
      apply IH; [lia|]. intros k Hk. apply Hl. now right. }
  rewrite K; [reflexivity|exact AD|]. intros i Hi. apply in_seq in Hi. lia.
Qed.

(** ** The mean *)
Lemma kept_place A s : forall k i, inside s i -> squash (red_shape A true k s) i = proj A true k i.
Proof.
  induction s as [|d s IH]; intros k i I; inversion I as [|a x l1 l2 I1 I2]; subst; [reflexivity|]. cbn [red_shape proj].
  destruct (is_in k A); cbn [squash]; rewrite IH by exact I2; [reflexivity|]. destruct (Nat.eqb_spec d 1); [|reflexivity]. f_equal. lia.
Qed.
Lemma kept_spreads A s : forall k, fits (red_shape A true k s) s = true.
Proof.
  induction s as [|d s IH]; intros k; [reflexivity|]. cbn [red_shape]. destruct (is_in k A); cbn [fits]; rewrite IH, ?Nat.eqb_refl, ?orb_true_r; reflexivity.
Qed.
Lemma leading_red n keepless : keepless = false -> forall s k, (k <= n)%nat -> red_shape (seq 0 n) keepless k s = skipn (n - k) s /\ forall i, proj (seq 0 n) keepless k i = skipn (n - k) i.
Proof.
  intros ->. intros s k. remember (n - k)%nat as q eqn:Q. revert s k Q. induction q as [|q IH]; intros s k Q K.
  - assert (G : forall l k, (n <= k)%nat -> red_shape (seq 0 n) false k l = l /\ proj (seq 0 n) false k l = l).
    { induction l as [|d l IH]; intros k' H; [now split|]. cbn [red_shape proj]. replace (is_in k' (seq 0 n)) with false.
      - destruct (IH (S k') ltac:(lia)) as [-> ->]. now split.
      - symmetry. apply Bool.not_true_iff_false. intros X. apply is_in_true, in_seq in X. lia. }
    split; [apply G; lia|]. intros i. apply G. lia.
  - assert (IN : is_in k (seq 0 n) = true) by (apply is_in_true, in_seq; lia).
    split; [destruct s as [|d s]; [reflexivity|]|intros [|d i]; [reflexivity|] ]; cbn [red_shape proj skipn]; rewrite IN; [apply (IH s (S k))|apply (IH [] (S k))]; lia.
Qed.
Theorem C61_mean gr inp g x axes A keep kd : stores gr g -> stores inp x -> front_axes axes A (length (shape x)) ->
  shape g = result_shape A keep (shape x) -> keep = true \/ (exists n, (n <= length (shape x))%nat /\ A = seq 0 n) ->
  adds_gradient (c_reduce_mean_grad gr inp axes kd) (mean_into A keep) (shape g) x g.
Proof.
  intros HG HX F SG K. assert (K' : keep = true \/ keep = false /\ exists n, (n <= length (shape x))%nat /\ A = seq 0 n) by (destruct keep, K; tauto). clear K.
  rewrite result_shape_red in SG. apply mean_grad_c with (A := A) (keep := keep); try assumption; [now rewrite result_shape_red| |];
    rewrite SG; destruct K' as [->|(-> & n & Hn & ->)].
  - apply spreads_iff. unfold broadcastable. rewrite red_keep_length, Nat.leb_refl, Nat.sub_diag. apply kept_spreads.
  - destruct (leading_red n false eq_refl (shape x) 0 ltac:(lia)) as [-> _]. rewrite Nat.sub_0_r. apply leading_spreads.
    exists (firstn n (shape x)), 0%nat, (skipn n (shape x)). split; [symmetry; apply firstn_skipn|]. split; [reflexivity|lia].
  - intros i I. rewrite place_proj. rewrite source_squash by (rewrite red_keep_length, (inside_length _ _ I); lia).
    rewrite red_keep_length, (inside_length _ _ I), Nat.sub_diag. now apply kept_place.
  - intros i I. rewrite place_proj. destruct (leading_red n false eq_refl (shape x) 0 ltac:(lia)) as [-> ->]. rewrite Nat.sub_0_r.
    pose proof (inside_length _ _ I) as LI. rewrite source_squash by (rewrite skipn_length; lia). rewrite skipn_length, LI.
    replace (length (shape x) - (length (shape x) - n))%nat with n by lia. apply squash_same. now apply inside_skipn.
Qed.
(** Finding: for the other axes the wrong entries of the gradient are read: the mean over the columns of a 2x2
    matrix. *)
Theorem C61_mean_refuted : exists gr inp g x, stores gr g /\ stores inp x /\ front_axes (Some [1]%Z) [1]%nat (length (shape x)) /\
  shape g = result_shape [1]%nat false (shape x) /\
  ~ adds_gradient (c_reduce_mean_grad gr inp (Some [1]%Z) false) (mean_into [1]%nat false) (shape g) x g.
Proof.
  exists (mkc [1; 0] [2]%nat [1]%nat), (mkc [0; 0; 0; 0] [2; 2]%nat [2; 1]%nat), (mka [2]%nat (fun i => 1 - INR (nth 0 i 0%nat))), (mka [2; 2]%nat (fun _ => 0)).
  split; [repeat split; cbn; repeat (apply (f_equal2 (@cons R)); [lra|]); reflexivity|]. split; [repeat split|]. split.
  { split; [repeat constructor; easy|]. split; [reflexivity|]. intros k [<-|[] ]; cbn; lia. }
  split; [reflexivity|]. intros A.
  destruct (A (mkc [0; 0; 0; 0] [2; 2]%nat [2; 1]%nat) (mka [2; 2]%nat (fun _ => 0))) as (c & G & E & SC & SG & D); [repeat split|reflexivity|].
  assert (EC : Ok (mkc [0 + 1 / INR 2; 0 + 0 / INR 2; 0 + 1 / INR 2; 0 + 0 / INR 2] [2; 2]%nat [2; 1]%nat) = Ok c) by (exact E). assert (EC' : c = mkc [0 + 1 / INR 2; 0 + 0 / INR 2; 0 + 1 / INR 2; 0 + 0 / INR 2] [2; 2]%nat [2; 1]%nat) by congruence. clear EC. rename EC' into EC.
  assert (GV : at_ G [0; 1]%nat = 0 + 0 / INR 2).
  { destruct SC as (_ & _ & DC). rewrite EC in DC. cbn [c_data] in DC. assert (X : nth 1 (entries G) 0 = 0 + 0 / INR 2) by (now rewrite <- DC).
    rewrite entries_nth in X by (rewrite SG; cbn; lia). rewrite SG in X. exact X. }
  set (dx := fun i => if same_place i [0; 1]%nat then 1 else 0). specialize (D dx).
  set (fwd := fun h => _) in D. assert (D2 : derivable_pt_lim fwd 0 (1 / 2)).
  { apply (dl_of_affine _ 0 (1 / 2)). intros h. unfold fwd. cbn [shape]. rewrite sum_over_lsum, indices2. cbn [at_ nth]. unfold mean_into. cbn [moved shape at_].
    unfold count_into, sum_into. rewrite !sum_over_lsum. unfold lsum. cbn -[INR]. unfold dx, same_place. cbn -[INR]. cbn. field. }
  pose proof (uniqueness_limite _ _ _ _ D D2) as Q. rewrite sum_over_lsum in Q. cbn [shape] in Q.
  rewrite (lsum_single (indices [2; 2]%nat) [0; 1]%nat) in Q.
  - unfold dx in Q. rewrite same_refl, GV in Q. cbn [at_] in Q. cbn in Q. lra.
  - apply nodup_indices.
  - apply in_indices. repeat constructor.
  - intros b _ N. unfold dx. destruct (same_place b [0; 1]%nat) eqn:X; [|ring]. apply same_iff in X. congruence.
Qed.

(** ** Products of matrices and transposing *)
Theorem C61_matmul gr l r g x y b bx by_ n m p : stores gr g -> stores l x -> stores r y ->
  shape g = b ++ [n; p] -> shape x = bx ++ [n; m] -> shape y = by_ ++ [m; p] -> leading bx b -> leading by_ b ->
  sets_gradient (c_matmul_grad gr true l r) (fun x => product_at b bx by_ m x y) (shape g) x g /\
  sets_gradient (c_matmul_grad gr false l r) (product_at b bx by_ m x) (shape g) y g.
Proof. apply matmul_grad_c. Qed.
Theorem C61_matmul_refuted gr l r g x y b bx by_ n m p : stores gr g -> stores l x -> stores r y ->
  shape g = b ++ [n; p] -> shape x = bx ++ [n; m] -> shape y = by_ ++ [m; p] -> leading bx b -> leading by_ b ->
  positive (shape x) -> positive (shape y) ->
  ~ adds_gradient (c_matmul_grad gr true l r) (fun x => product_at b bx by_ m x y) (shape g) x g /\
  ~ adds_gradient (c_matmul_grad gr false l r) (product_at b bx by_ m x) (shape g) y g.
Proof.
  intros HG HX HY SG SX SY LX LY PX PY. destruct (C61_matmul gr l r g x y b bx by_ n m p) as [A B]; try assumption.
  split; now apply sets_not_adds.
Qed.
Theorem C61_transpose gr g x m n rest : stores gr g -> shape x = [m; n] -> shape g = [n; m] ->
  sets_gradient (c_transpose_grad gr None rest) (fun x o => at_ x (rev o)) (shape g) x g /\
  (positive (shape x) -> ~ adds_gradient (c_transpose_grad gr None rest) (fun x o => at_ x (rev o)) (shape g) x g).
Proof.
  intros HG SX SG. assert (S : sets_gradient (c_transpose_grad gr None rest) (fun x o => at_ x (rev o)) (shape g) x g) by (now apply (transpose_grad_c gr g x m n)).
  split; [exact S|]. intros P. now apply sets_not_adds.
Qed.
(** Finding: with axes, whatever they are, the inverse permutation is written outside of its array. *)
Theorem C61_transpose_axes_refuted gr g axes rest acc : stores gr g -> length axes = length (shape g) -> (0 < length axes)%nat ->
  out_of_bounds (c_transpose_grad gr (Some axes) rest acc).
Proof.
  intros HG L P. unfold out_of_bounds, c_transpose_grad, invert_permutation. rewrite (ndim_of _ _ HG), <- L. unfold for_.
  destruct (length axes) as [|n] eqn:Q; [lia|]. cbn [seq each rd nth_error bind]. unfold wrz.
  destruct (Z.ltb_spec (Z.of_nat (S n)) 0); [lia|]. unfold wr. rewrite Nat2Z.id, repeat_length, Nat.ltb_irrefl. reflexivity.
Qed.

(** ** Cases *)
Example C61_fewer_axes_case : (0 < length [3]%nat)%nat /\ (length [3]%nat < length [2; 3]%nat)%nat /\ positive [2; 3]%nat /\ spreads [3]%nat [2; 3]%nat.
Proof. split; [cbn; lia|]. split; [cbn; lia|]. split; [intros d [<-|[<-|[] ] ]; lia|]. split; [cbn; lia|]. intros [|k] Hk; cbn in *; lia. Qed.
Example C61_squared_error_case : spreads [1; 3]%nat [2; 3]%nat /\ spreads [3]%nat [2; 3]%nat /\ (size [3]%nat < size [2; 3]%nat)%nat.
Proof. split; [split; [cbn; lia|]; intros [|[|k] ] Hk; cbn in *; lia|]. split; [split; [cbn; lia|]; intros [|k] Hk; cbn in *; lia|]. cbn; lia. Qed.
Example C61_mean_case : front_axes (Some [0; 1]%Z) [0; 1]%nat 3 /\ [0; 1]%nat = seq 0 2 /\ result_shape [0; 1]%nat false [2; 3; 4]%nat = [4]%nat /\
  front_axes None [0; 1; 2]%nat 3.
Proof. split; [|repeat split]. split; [repeat constructor; cbn; lia|]. split; [reflexivity|]. intros k [<-|[<-|[] ] ]; lia. Qed.
Example C61_matmul_case : leading [3]%nat [2; 3]%nat /\ leading [2; 3]%nat [2; 3]%nat.
Proof. split; [exists [2]%nat, 0%nat, [3]%nat; repeat split; cbn; lia|apply leading_self]. Qed.

Print Assumptions C61_operand.
Print Assumptions C61_fewer_axes_refuted.
Print Assumptions C61_scalar.
Print Assumptions C61_scalar_refuted.
Print Assumptions C61_repeated_refuted.
Print Assumptions C61_relu.
Print Assumptions C61_squared_error.
Print Assumptions C61_squared_error_target_refuted.
Print Assumptions C61_mean.
Print Assumptions C61_mean_refuted.
Print Assumptions C61_matmul.
Print Assumptions C61_matmul_refuted.
Print Assumptions C61_transpose.
Print Assumptions C61_transpose_axes_refuted.
