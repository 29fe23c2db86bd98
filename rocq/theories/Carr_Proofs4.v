(** * Multiplying matrices and reducing in C memory. *)
From Coq Require Import Reals List ZArith Lia Lra Bool Permutation.
From Verif Require Import PyBase Corr_Proofs Axis_Model Axis_Spec Axis_Proofs Move_Model Move_Spec Move_Proofs Move_Proofs2 Attn_Proofs Select_Spec Select_Proofs2 Carr_Model Carr_Spec Carr_Proofs Carr_Proofs2 Carr_Proofs3.
Import ListNotations.
Open Scope R_scope.
Open Scope list_scope.
Open Scope res_scope.

Lemma for_ext {B} n (f g : nat -> B -> res B) s : (forall i s, (i < n)%nat -> f i s = g i s) -> for_ n f s = for_ n g s.
Proof.
  intros H. unfold for_. assert (K : forall k m s, (k + m <= n)%nat -> each (seq k m) f s = each (seq k m) g s).
  { intros k m. revert k. induction m as [|m IH]; intros k s' Q; [reflexivity|]. cbn [seq each]. rewrite H by lia.
    destruct (g k s') as [a|e]; [|reflexivity]. cbn [bind]. apply IH. lia. }
  apply K. lia.
Qed.
Lemma matmul_value (l r : carr) x y bx by_ b n m p bi i j : stores l x -> stores r y -> shape x = bx ++ [n; m] -> shape y = by_ ++ [m; p] ->
  leading bx b -> leading by_ b -> (bi < size b)%nat -> (i < n)%nat -> (j < p)%nat ->
  let lb := padded_to (length b) bx in let rb := padded_to (length b) by_ in
  for_ m (fun k sum =>
    let* x0 := rd (c_data l) (ravel lb (coords lb bi) * volume [n; m] + i * m + k * 1)%nat in
    let* y0 := rd (c_data r) (ravel rb (coords rb bi) * volume [m; p] + k * p + j * 1)%nat in
    Ok (sum + x0 * y0)) 0
  = Ok (sum_to m (fun k => at_ x (source bx (unravel b bi) ++ [i; k]) * at_ y (source by_ (unravel b bi) ++ [k; j]))).
Proof.
  intros (XS & XW & XD) (YS & YW & YD) SX SY LX LY Hb Hi Hj lb rb.
  destruct (leading_position bx b bi (length b - length bx) LX Hb) as [EX _]. destruct (leading_position by_ b bi (length b - length by_) LY Hb) as [EY _].
  fold (padded_to (length b) bx) in EX. fold (padded_to (length b) by_) in EY. fold lb in EX. fold rb in EY. rewrite EX, EY.
  destruct (unravel_inside b bi Hb) as [J _].
  pose proof (source_inside bx b _ (leading_spreads _ _ LX) J) as JX. pose proof (source_inside by_ b _ (leading_spreads _ _ LY) J) as JY.
  rewrite sum_to_lsum.
  rewrite <- (sum_loop m (fun k => Ok (at_ x (source bx (unravel b bi) ++ [i; k]) * at_ y (source by_ (unravel b bi) ++ [k; j])))); [|reflexivity].
  apply for_ext. intros k s Hk. cbn [volume]. rewrite !Nat.mul_1_r.
  rewrite <- (ravel_two bx n m) by (now apply inside_length). rewrite <- (ravel_two by_ m p) by (now apply inside_length).
  rewrite <- SX, <- SY, XD, YD, !rd_entries; [reflexivity|rewrite SY|rewrite SX]; now apply inside_two_app.
Qed.
Lemma matmul_c out l r x y bx by_ b n m p : stores l x -> stores r y -> shape x = bx ++ [n; m] -> shape y = by_ ++ [m; p] ->
  common [bx; by_] b -> positive b -> leading bx b -> leading by_ b -> buffer out (b ++ [n; p]) ->
  exists c z, c_matmul out l r = Ok c /\ stores c z /\ shape z = b ++ [n; p] /\
    forall o i j, inside b o -> (i < n)%nat -> (j < p)%nat ->
      at_ z (o ++ [i; j]) = sum_to m (fun k => at_ x (source bx o ++ [i; k]) * at_ y (source by_ o ++ [k; j])).
Proof.
  intros HX HY SX SY CB PB LX LY (OS & OW & OD). pose proof HX as (XS & XW & XD). pose proof HY as (YS & YW & YD).
  pose proof CB as [LB _]. cbn [map fold_right] in LB. rewrite Nat.max_0_r in LB.
  unfold c_matmul, pad_shape, c_ndim. rewrite XS, YS, SX, SY, !app_length. cbn [length].
  assert (ND : imax (length bx + 2) (length by_ + 2) = (length b + 2)%nat) by (rewrite imax_max; lia). rewrite ND.
  destruct (Nat.ltb_spec (length b + 2) 2) as [Q|_]; [lia|].
  replace (length b + 2 - (length bx + 2))%nat with (length b - length bx)%nat by lia.
  replace (length b + 2 - (length by_ + 2))%nat with (length b - length by_)%nat by lia.
  replace (length b + 2 - 2)%nat with (length b) by lia. replace (length b + 2 - 1)%nat with (S (length b)) by lia.
  rewrite !app_assoc. fold (padded_to (length b) bx). fold (padded_to (length b) by_).
  set (lb := padded_to (length b) bx). set (rb := padded_to (length b) by_).
  assert (Llb : length lb = length b) by (unfold lb, padded_to; rewrite app_length, repeat_length; lia).
  assert (Lrb : length rb = length b) by (unfold rb, padded_to; rewrite app_length, repeat_length; lia).
  assert (FL : forall (a c : list nat), length a = length b -> firstn (length b) (a ++ c) = a).
  { intros a c La. rewrite <- La, firstn_app, firstn_all, Nat.sub_diag. cbn [firstn]. apply app_nil_r. }
  rewrite (FL lb), (FL rb) by assumption.
  assert (MB : maxes lb rb = b) by (exact (batch_max bx by_ b CB PB)). rewrite MB.
  destruct (rd_app_two lb n m (length b) ltac:(lia)) as [E1 E2]. destruct (rd_app_two rb m p (length b) ltac:(lia)) as [E3 E4].
  rewrite E1, E2, E3, E4. cbn [bind].
  rewrite !compute_strides_ok by (intros Q; apply (f_equal (@length nat)) in Q; rewrite app_length in Q; cbn in Q; lia). cbn [bind].
  rewrite Nat.eqb_refl. cbn [negb].
  destruct (row_two lb n m (length b) ltac:(lia)) as [W1 W2]. destruct (row_two rb m p (length b) ltac:(lia)) as [W3 W4].
  rewrite W1, W2, W3, W4. cbn [bind]. rewrite fold_size. rewrite volume_size, size_app in OD.
  assert (S2 : size [n; p] = (n * p)%nat) by (cbn; lia). rewrite S2 in OD.
  set (val := fun bi i j => sum_to m (fun k => at_ x (source bx (unravel b bi) ++ [i; k]) * at_ y (source by_ (unravel b bi) ++ [k; j]))).
  destruct (block_loop (size b) (n * p) 0 (fun bi d =>
      let* lo := loc bi (lb ++ [n; m]) (row_major (lb ++ [n; m])) (length b) in
      let* ro := loc bi (rb ++ [m; p]) (row_major (rb ++ [m; p])) (length b) in
      for_ n (fun i d => for_ p (fun j d =>
        let* sum := for_ m (fun k sum =>
          let* x0 := rd (c_data l) (lo + i * m + k * 1)%nat in
          let* y0 := rd (c_data r) (ro + k * p + j * 1)%nat in
          Ok (sum + x0 * y0)) 0 in
        wr d (bi * n * p + i * p + j)%nat sum) d) d)
    (fun bi q => val bi (q / p)%nat (q mod p)%nat) (c_data out)) as (d & E & LD & V & _).
  - lia.
  - intros bi d Hb Ld.
    destruct (leading_position bx b bi (length b - length bx) LX Hb) as [_ PX]. destruct (leading_position by_ b bi (length b - length by_) LY Hb) as [_ PY].
    pose proof (loc_batch lb [n; m] bi PX) as QX. pose proof (loc_batch rb [m; p] bi PY) as QY. rewrite Llb in QX. rewrite Lrb in QY.
    rewrite QX, QY. cbn [bind].
    destruct (block_loop n p (bi * (n * p)) (fun i d => for_ p (fun j d =>
        let* sum := for_ m (fun k sum =>
          let* x0 := rd (c_data l) (ravel lb (coords lb bi) * volume [n; m] + i * m + k * 1)%nat in
          let* y0 := rd (c_data r) (ravel rb (coords rb bi) * volume [m; p] + k * p + j * 1)%nat in
          Ok (sum + x0 * y0)) 0 in
        wr d (bi * n * p + i * p + j)%nat sum) d) (fun i j => val bi i j) d) as (d' & E & L' & V & W).
    + nia.
    + intros i d1 Hi L1.
      destruct (block_loop p 1 (bi * (n * p) + i * p) (fun j d =>
        let* sum := for_ m (fun k sum =>
          let* x0 := rd (c_data l) (ravel lb (coords lb bi) * volume [n; m] + i * m + k * 1)%nat in
          let* y0 := rd (c_data r) (ravel rb (coords rb bi) * volume [m; p] + k * p + j * 1)%nat in
          Ok (sum + x0 * y0)) 0 in
        wr d (bi * n * p + i * p + j)%nat sum) (fun j _ => val bi i j) d1) as (d2 & E & L2 & V & W).
      * nia.
      * intros j d3 Hj L3. unfold lb, rb. rewrite (matmul_value l r x y bx by_ b n m p bi i j HX HY SX SY LX LY Hb Hi Hj). cbn [bind]. fold (val bi i j).
        rewrite <- Nat.mul_assoc. apply wr_block; [exact L3|]. nia.
      * exists d2. split; [exact E|]. split; [lia|]. split.
        -- intros j Hj. specialize (V j 0%nat Hj ltac:(lia)). rewrite Nat.mul_1_r, Nat.add_0_r in V. exact V.
        -- intros k Hk. apply W. lia.
    + exists d'. split; [exact E|]. split; [lia|]. split.
      * intros q Hq. cbn [Nat.add]. assert (P0 : p <> 0%nat) by nia.
        specialize (V (q / p)%nat (q mod p)%nat). rewrite <- V; [|apply Nat.div_lt_upper_bound; lia|now apply Nat.mod_upper_bound].
        f_equal. pose proof (Nat.div_mod q p P0). lia.
      * intros k Hk. apply W. cbn [Nat.add] in Hk. exact Hk.
  - rewrite E. cbn [bind].
    set (z := mka (b ++ [n; p]) (fun q => val (ravel b (firstn (length b) q)) (nth (length b) q 0%nat) (nth (S (length b)) q 0%nat))).
    assert (AZ : forall o i j, inside b o -> at_ z (o ++ [i; j]) = val (ravel b o) i j).
    { intros o i j J. cbn [z at_]. pose proof (inside_length _ _ J) as LJ. rewrite (FL o) by exact LJ. rewrite !app_nth2 by lia. rewrite LJ, Nat.sub_diag. now replace (S (length b) - length b)%nat with 1%nat by lia. }
    exists (mkc d (c_shape out) (row_major (b ++ [n; p]))), z. split; [reflexivity|]. split; [split; [exact OS|]; split; [reflexivity|]|split; [reflexivity|] ].
    + cbn [c_data]. apply data_entries.
      * rewrite LD, OD, size_app, S2. reflexivity.
      * intros k Hk. destruct (unravel_inside _ k Hk) as [J Rk]. destruct (inside_two_inv b n p _ J) as (o & i & j & Eq & Jo & Hi & Hj).
        rewrite Eq in *. transitivity (at_ z (o ++ [i; j])); [|reflexivity]. rewrite (AZ o i j Jo). rewrite <- Rk, (ravel_two b n p o i j) by (now apply inside_length).
        assert (HB := ravel_lt b o Jo). specialize (V (ravel b o) (i * p + j)%nat HB ltac:(nia)). cbn [Nat.add] in V.
        rewrite <- Nat.add_assoc. rewrite V. f_equal.
        -- rewrite Nat.div_add_l by lia. rewrite Nat.div_small by assumption. lia.
        -- rewrite Nat.add_comm, Nat.mod_add by lia. now apply Nat.mod_small.
    + intros o i j Jo Hi Hj. rewrite (AZ o i j Jo). unfold val. now rewrite (unravel_ravel b o Jo).
Qed.
