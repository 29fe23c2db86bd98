(** * Gradients of the element-wise functions, of the mean and of transposing. *)
From Coq Require Import Reals List ZArith Lia Lra Bool Permutation.
From Verif Require Import PyBase Deriv_Proofs Corr_Proofs Pool_Proofs Axis_Model Axis_Spec Axis_Proofs Move_Model Move_Spec Move_Proofs Move_Proofs2 Attn_Proofs Select_Spec Carr_Model Carr_Spec Carr_Proofs Carr_Proofs2 Carr_Proofs3 Carr_Proofs4 Carr_Proofs5 Cgrad_Model Cgrad_Spec Cgrad_Proofs.
Import ListNotations.
Open Scope R_scope.
Open Scope list_scope.
Open Scope res_scope.

Lemma spreads_refl t : spreads t t.
Proof. split; [lia|]; intros; now right. Qed.
(** ** Operands of the full shape *)
Lemma dl_term (g : R) (f : R -> R) a b l : derivable_pt_lim f a l -> derivable_pt_lim (fun h => g * f (a + h * b)) 0 (g * l * b).
Proof.
  intros D. apply (dl_eq _ _ (g * (l * b))); [|ring]. apply dl_scal. apply (derivable_pt_lim_comp (fun h => a + h * b) f).
  - apply (dl_of_affine _ a b). reflexivity.
  - replace (a + 0 * b) with a by ring. exact D.
Qed.
Lemma full_gradient op y x g t (D : list nat -> R) : shape x = t -> (forall o, inside t o -> derivable_pt_lim (fun a => op a (at_ y (source (shape y) o))) (at_ x o) (D o)) ->
  forall dx, derivable_pt_lim (fun h => sum_over t (fun o => at_ g o * broadcast_op op y (moved x dx h) o)) 0 (lsum (indices t) (fun o => at_ g o * D o * dx o)).
Proof.
  intros SX H dx. apply dl_sum_over. intros o I. apply (dl_ext _ (fun h => at_ g o * op (at_ x o + h * dx o) (at_ y (source (shape y) o)))).
  - intros h. unfold broadcast_op. cbn [moved shape at_]. rewrite SX, source_self by exact I. reflexivity.
  - apply (dl_term (at_ g o) (fun a => op a (at_ y (source (shape y) o)))). now apply H.
Qed.
Lemma self_writes l v x : stores l v -> shape v = shape x -> forall acc G0, stores acc G0 -> shape G0 = shape x ->
  writes (binary_array_iterator l None acc Rplus) (shape x) (fun i => at_ G0 i + gathered (shape x) (fun e => e) (at_ v) i).
Proof.
  intros SL SV acc G0 SA SG. rewrite <- SG. apply (writes_ext _ _ (fun o => at_ v (source (shape v) o) + at_ G0 o)).
  - intros i I. rewrite gathered_id by exact I. rewrite SV, <- SG, source_self by exact I. ring.
  - apply iterator_self; [exact SL|exact SA|]. rewrite SV, SG. apply spreads_refl.
Qed.
Lemma ndim_of c x : stores c x -> c_ndim c = length (shape x).
Proof. intros (A & _). unfold c_ndim. now rewrite A. Qed.
Lemma add_grad_c gr side g x y : stores gr g -> stores side x -> shape g = shape x -> spreads (shape y) (shape x) ->
  adds_gradient (c_add_grad gr side) (broadcast_op Rplus y) (shape x) x g.
Proof.
  intros HG HX SG SY. apply (adds_of_entries _ _ _ _ _ (shape x) (fun e => e) (at_ g)); [easy| |].
  - intros acc G0 SA S0. unfold c_add_grad. rewrite (ndim_of _ _ HG), (ndim_of _ _ HX), SG, Nat.ltb_irrefl, Nat.sub_diag. cbn [Nat.eqb]. now apply self_writes.
  - intros dx. apply (dl_eq _ _ (lsum (indices (shape x)) (fun o => at_ g o * 1 * dx o))).
    + apply full_gradient; [reflexivity|]. intros o _. apply (dl_of_affine _ (at_ y (source (shape y) o)) 1). intros a. ring.
    + apply lsum_ext. intros o _. ring.
Qed.
Lemma full_buffer v s : buffer (create_full_struct v s) s.
Proof.
  unfold create_full_struct.
  assert (E : forall s, strides_total s = (row_major s, volume s)).
  { clear. induction s as [|n s IH]; [reflexivity|]. cbn [strides_total row_major volume]. now rewrite IH. }
  rewrite E. split; [reflexivity|]. split; [reflexivity|]. apply repeat_length.
Qed.
Lemma mul_grad_c gr side other g x y : stores gr g -> stores side x -> stores other y -> shape g = shape x -> spreads (shape y) (shape x) ->
  adds_gradient (c_multiplication_grad gr side other) (broadcast_op Rmult y) (shape x) x g.
Proof.
  intros HG HX HY SG SY. set (v := fun o => at_ g (source (shape g) o) * at_ y (source (shape y) o)).
  apply (adds_of_entries _ _ _ _ _ (shape x) (fun e => e) v); [easy| |].
  - intros acc G0 SA S0. unfold c_multiplication_grad. rewrite (ndim_of _ _ HG), (ndim_of _ _ HX), SG, Nat.ltb_irrefl, Nat.sub_diag.
    destruct (iterator_ok gr other g y (create_full_struct 0 (c_shape gr)) (shape x) Rmult HG HY) as (c & E & ST).
    + rewrite (stores_shape _ _ HG), SG. apply full_buffer.
    + rewrite SG. apply spreads_refl.
    + exact SY.
    + rewrite E. cbn [bind Nat.eqb]. apply (self_writes c _ x ST eq_refl acc G0 SA S0).
  - intros dx. apply (dl_eq _ _ (lsum (indices (shape x)) (fun o => at_ g o * at_ y (source (shape y) o) * dx o))).
    + apply full_gradient; [reflexivity|]. intros o _. apply (dl_of_affine _ 0 (at_ y (source (shape y) o))). intros a. ring.
    + apply lsum_ext. intros o Ho. apply in_indices in Ho. unfold v. rewrite SG, (source_self (shape x)) by exact Ho. reflexivity.
Qed.

(** ** Loops over the gradient *)
Lemma relu_grad_c gr inp g x : stores gr g -> stores inp x -> shape g = shape x -> (forall i, inside (shape x) i -> at_ x i <> 0) ->
  adds_gradient (c_relu_grad gr inp) positive_part (shape x) x g.
Proof.
  intros (GS & GW & GD) (XS & XW & XD) SG NZ. set (v := fun o => if Rlt_dec 0 (at_ x o) then at_ g o else 0).
  apply (adds_of_entries _ _ _ _ _ (shape x) (fun e => e) v); [easy| |].
  - intros acc G0 SA S0. unfold c_relu_grad. unfold c_ndim. rewrite GS, (c_size_of _ _ GS), SG.
    apply (adding_writes (shape x) (shape x) (fun e => e) v (for_ (size (shape x)) (fun i d =>
      let* k := loc i (shape x) (broadcast_stride inp (shape x)) (length (shape x)) in
      let* x0 := rd (c_data inp) k in
      if Rlt_dec 0 x0 then let* g0 := rd (c_data gr) i in upd d k g0 else Ok d)) acc G0); [easy|exact SA|exact S0|].
    apply (adding_change _ _ (fun j => lsum (seq 0 (size (shape x))) (fun m => if Nat.eqb (ravel (shape x) (unravel (shape x) m)) j then v (unravel (shape x) m) else 0))).
    { intros j _. apply (lsum_running (shape x) (fun e => if Nat.eqb (ravel (shape x) e) j then v e else 0)). }
    apply adding_for. intros m Hm. rewrite (loc_broadcast inp (shape x) (shape x) m XS XW (spreads_refl _) Hm).
    destruct (unravel_inside _ m Hm) as [J R]. rewrite source_self by exact J. cbn [bind]. rewrite XD, rd_entries by exact J. cbn [bind].
    unfold v. destruct (Rlt_dec 0 (at_ x (unravel (shape x) m))).
    + rewrite GD, (rd_nth _ _ 0) by (rewrite entries_length, SG; exact Hm). cbn [bind]. rewrite entries_nth, SG by (rewrite SG; exact Hm).
      apply adding_upd. now apply ravel_lt.
    + apply (adding_ext _ _ (fun d => Ok d) (fun _ => 0)); [reflexivity| |apply adding_skip]. intros j _. now destruct (Nat.eqb _ j).
  - intros dx. apply (dl_eq _ _ (lsum (indices (shape x)) (fun o => at_ g o * (if Rlt_dec 0 (at_ x o) then 1 else 0) * dx o))).
    + apply dl_sum_over. intros o I. apply (dl_ext _ (fun h => at_ g o * Rmax 0 (at_ x o + h * dx o))); [reflexivity|].
      apply (dl_term (at_ g o) (fun a => Rmax 0 a)). pose proof (NZ o I) as N. destruct (Rlt_dec 0 (at_ x o)) as [P|P].
      * apply (dl_ext_loc _ (fun a => a) _ _ (at_ x o)); [exact P| |apply dl_id]. intros a Ha. apply Rmax_right. lra.
      * apply (dl_ext_loc _ (fun _ => 0) _ _ (- at_ x o)); [lra| |apply dl_const]. intros a Ha. apply Rmax_left. lra.
    + apply lsum_ext. intros o _. unfold v. destruct (Rlt_dec 0 (at_ x o)); ring.
Qed.
Lemma dl_square_l a b : derivable_pt_lim (fun a => (a - b)²) a (2 * (a - b)).
Proof.
  apply (dl_eq _ _ (((1 - 0) * (a - b)) + (a - b) * (1 - 0))); [|ring]. unfold Rsqr.
  assert (D : derivable_pt_lim (fun a => a - b) a (1 - 0)) by (apply derivable_pt_lim_minus; [apply dl_id|apply dl_const]).
  exact (derivable_pt_lim_mult (fun a => a - b) (fun a => a - b) a _ _ D D).
Qed.
Lemma dl_square_r a b : derivable_pt_lim (fun b => (a - b)²) b (2 * (-1) * (a - b)).
Proof.
  apply (dl_ext _ (fun c => (c - a)²)); [intros c; unfold Rsqr; ring|]. apply (dl_eq _ _ _ _ (dl_square_l b a)). ring.
Qed.
(** The loop of [squared_error_grad], when the written array has the shape of the input. *)
Lemma squared_loop gr inp tar g x y first acc G0 : stores gr g -> stores inp x -> stores tar y ->
  spreads (shape x) (shape g) -> spreads (shape y) (shape g) -> stores acc G0 -> shape G0 = shape x ->
  writes (c_squared_error_grad gr first inp tar acc) (shape x) (fun i => at_ G0 i +
    gathered (shape g) (source (shape x)) (fun o => 2 * (if first then 1 else -1) * (at_ x (source (shape x) o) - at_ y (source (shape y) o)) * at_ g o) i).
Proof.
  intros (GS & GW & GD) (XS & XW & XD) (YS & YW & YD) SX SY SA S0. set (t := shape g) in *. set (f := 2 * (if first then 1 else -1)).
  set (v := fun o => f * (at_ x (source (shape x) o) - at_ y (source (shape y) o)) * at_ g o).
  unfold c_squared_error_grad. fold f. unfold c_ndim. rewrite GS, (c_size_of _ _ GS). fold t.
  apply (adding_writes (shape x) t (source (shape x)) v (for_ (size t) (fun i d =>
      let* k := loc i t (broadcast_stride inp t) (length t) in
      let* l := loc i t (broadcast_stride tar t) (length t) in
      let* x0 := rd (c_data inp) k in let* y0 := rd (c_data tar) l in
      let* g0 := rd (c_data gr) i in upd d k (f * (x0 - y0) * g0))) acc G0); [intros e; now apply source_inside|exact SA|exact S0|].
  apply (adding_change _ _ (fun j => lsum (seq 0 (size t)) (fun m => if Nat.eqb (ravel (shape x) (source (shape x) (unravel t m))) j then v (unravel t m) else 0))).
  { intros j _. apply (lsum_running t (fun e => if Nat.eqb (ravel (shape x) (source (shape x) e)) j then v e else 0)). }
  apply adding_for. intros m Hm. rewrite (loc_broadcast inp (shape x) t m XS XW SX Hm), (loc_broadcast tar (shape y) t m YS YW SY Hm).
  destruct (unravel_inside _ m Hm) as [J R]. cbn [bind].
  rewrite XD, rd_entries by (now apply (source_inside _ t)). cbn [bind]. rewrite YD, rd_entries by (now apply (source_inside _ t)). cbn [bind].
  rewrite GD, (rd_nth _ _ 0) by (rewrite entries_length; exact Hm). cbn [bind]. rewrite entries_nth by exact Hm. fold t.
  apply adding_upd. apply ravel_lt. now apply (source_inside _ t).
Qed.
Lemma squared_first_c gr inp tar g x y : stores gr g -> stores inp x -> stores tar y ->
  spreads (shape x) (shape g) -> spreads (shape y) (shape g) ->
  adds_gradient (c_squared_error_grad gr true inp tar) (broadcast_op (fun a b => (a - b)²) y) (shape g) x g.
Proof.
  intros HG HX HY SX SY.
  apply (adds_of_entries _ _ _ _ _ (shape g) (source (shape x)) (fun o => 2 * (if true then 1 else -1) * (at_ x (source (shape x) o) - at_ y (source (shape y) o)) * at_ g o)).
  - intros e. now apply source_inside.
  - intros acc G0 SA S0. now apply (squared_loop gr inp tar g x y true acc G0).
  - intros dx. set (a := fun o => at_ x (source (shape x) o)). set (b := fun o => at_ y (source (shape y) o)).
    apply (dl_eq _ _ (lsum (indices (shape g)) (fun o => at_ g o * (2 * (a o - b o)) * dx (source (shape x) o)))).
    + apply dl_sum_over. intros o I. apply (dl_ext _ (fun h => at_ g o * (a o + h * dx (source (shape x) o) - b o)²)); [reflexivity|].
      apply (dl_term (at_ g o) (fun u => (u - b o)²)). apply dl_square_l.
    + apply lsum_ext. intros o _. unfold a, b. ring.
Qed.
Lemma squared_second_c gr inp tar g x y : stores gr g -> stores inp x -> stores tar y -> shape x = shape g -> shape y = shape g ->
  adds_gradient (c_squared_error_grad gr false inp tar) (broadcast_op (fun b a => (a - b)²) x) (shape g) y g.
Proof.
  intros HG HX HY SX SY.
  apply (adds_of_entries _ _ _ _ _ (shape g) (source (shape x)) (fun o => 2 * (if false then 1 else -1) * (at_ x (source (shape x) o) - at_ y (source (shape y) o)) * at_ g o)).
  - intros e. rewrite SY, SX. apply source_inside. apply spreads_refl.
  - intros acc G0 SA S0. assert (W : writes (c_squared_error_grad gr false inp tar acc) (shape x) (fun i => at_ G0 i +
      gathered (shape g) (source (shape x)) (fun o => 2 * (if false then 1 else -1) * (at_ x (source (shape x) o) - at_ y (source (shape y) o)) * at_ g o) i)).
    { apply squared_loop; try assumption; rewrite ?SX, ?SY; try apply spreads_refl. congruence. }
    rewrite SX, SY in W |- *. exact W.
  - intros dx. rewrite SX. apply (dl_eq _ _ (lsum (indices (shape g)) (fun o => at_ g o * (2 * (-1) * (at_ x o - at_ y o)) * dx o))).
    + apply (full_gradient (fun b a => (a - b)²) x y g (shape g)); [exact SY|]. intros o I. rewrite SX, source_self by exact I. apply dl_square_r.
    + apply lsum_ext. intros o Ho. apply in_indices in Ho. rewrite SY, !source_self by exact Ho. ring.
Qed.

(** ** The mean *)
Lemma mean_size_ok s A : (forall k, In k A -> (k < length s)%nat) -> forall n,
  mean_size s (map Z.of_nat A) n = Some (n * product (map (fun k => nth k s 0%nat) A))%nat.
Proof.
  intros I. induction A as [|k A IH]; intros n; cbn [map mean_size]; [unfold product; cbn; f_equal; lia|].
  pose proof (I k (or_introl eq_refl)) as K. destruct (Z.ltb_spec (Z.of_nat k) 0); [lia|]. destruct (Z.leb_spec (Z.of_nat (length s)) (Z.of_nat k)); [lia|].
  cbn [orb]. rewrite Nat2Z.id, IH by (intros j Hj; apply I; now right). f_equal. cbn [product fold_right]. unfold product. cbn [fold_right]. lia.
Qed.
Lemma mean_count inp x axes A : c_shape inp = shape x -> front_axes axes A (length (shape x)) ->
  match axes with None => Some (c_size inp) | Some zs => mean_size (c_shape inp) zs 1 end = Some (red_size A 0 (shape x)).
Proof.
  intros E F. destruct axes as [zs|]; cbn [front_axes] in F.
  - destruct F as (ND & -> & I). rewrite E, mean_size_ok by exact I. f_equal. rewrite red_size_product.
    rewrite Nat.mul_1_l. symmetry. apply product_perm, Permutation_map, axes_perm; assumption.
  - subst A. rewrite (c_size_of _ _ E), red_size_all. reflexivity.
Qed.
Lemma mean_grad_c gr inp g x axes A keep kd : stores gr g -> stores inp x -> front_axes axes A (length (shape x)) ->
  shape g = result_shape A keep (shape x) -> spreads (shape g) (shape x) -> (forall i, inside (shape x) i -> source (shape g) i = place A keep i) ->
  adds_gradient (c_reduce_mean_grad gr inp axes kd) (mean_into A keep) (shape g) x g.
Proof.
  intros (GS & GW & GD) (XS & XW & XD) F SG SP PL. set (s := shape x) in *. set (N := red_size A 0 s).
  set (v := fun i => at_ g (source (shape g) i) / INR N).
  apply (adds_of_entries _ _ _ _ _ s (fun e => e) v); [easy| |].
  - intros acc G0 SA S0. unfold c_reduce_mean_grad. rewrite (mean_count inp x axes A XS F). fold s N. unfold c_ndim. rewrite XS, (c_size_of _ _ XS). fold s.
    apply (adding_writes s s (fun e => e) v (for_ (size s) (fun i d =>
      let* k := loc i s (broadcast_stride gr s) (length s) in
      let* g0 := rd (c_data gr) k in upd d i (g0 / INR N))) acc G0); [easy|exact SA|exact S0|].
    apply (adding_change _ _ (fun j => lsum (seq 0 (size s)) (fun m => if Nat.eqb (ravel s (unravel s m)) j then v (unravel s m) else 0))).
    { intros j _. apply (lsum_running s (fun e => if Nat.eqb (ravel s e) j then v e else 0)). }
    apply adding_for. intros m Hm. rewrite (loc_broadcast gr (shape g) s m GS GW SP Hm). destruct (unravel_inside _ m Hm) as [J R]. cbn [bind].
    rewrite GD, rd_entries by (now apply (source_inside _ s)). cbn [bind]. rewrite R. apply adding_upd. exact Hm.
  - intros dx. set (at_s := fun f o => sum_into A keep s o f).
    assert (CN : forall o, inside (shape g) o -> count_into A keep s o = INR N) by (intros o I; rewrite SG, result_shape_red in I; now apply count_into_size).
    apply (dl_of_affine _ (sum_over (shape g) (fun o => at_ g o * (sum_into A keep s o (at_ x) / INR N)))).
    intros h. rewrite !sum_over_lsum.
    assert (E : forall o, In o (indices (shape g)) -> at_ g o * mean_into A keep (moved x dx h) o =
      at_ g o * (sum_into A keep s o (at_ x) / INR N) + h * (at_ g o * (sum_into A keep s o dx / INR N))).
    { intros o Ho. apply in_indices in Ho. unfold mean_into. cbn [moved shape at_]. fold s. rewrite CN by exact Ho. unfold sum_into. rewrite !sum_over_lsum.
      rewrite (lsum_ext (indices s) _ (fun i => (if same_place (place A keep i) o then at_ x i else 0) + h * (if same_place (place A keep i) o then dx i else 0))).
      - rewrite lsum_plus, lsum_scal. unfold Rdiv. ring.
      - intros i _. destruct (same_place (place A keep i) o); ring. }
    rewrite (lsum_ext _ _ _ E), lsum_plus, lsum_scal. f_equal. f_equal.
    transitivity (lsum (indices (shape g)) (fun o => lsum (indices s) (fun i => if same_place (place A keep i) o then at_ g o * dx i / INR N else 0))).
    + apply lsum_ext. intros o _. unfold sum_into. rewrite sum_over_lsum. unfold Rdiv. rewrite <- lsum_scal_r, <- lsum_scal. apply lsum_ext. intros i _.
      destruct (same_place (place A keep i) o); ring.
    + rewrite lsum_swap. apply lsum_ext. intros i Hi. apply in_indices in Hi. rewrite (lsum_single (indices (shape g)) (place A keep i)).
      * rewrite same_refl. unfold v. rewrite PL by exact Hi. unfold Rdiv. ring.
      * apply nodup_indices.
      * apply in_indices. rewrite <- PL by exact Hi. now apply (source_inside _ s).
      * intros o _ Q. destruct (same_place (place A keep i) o) eqn:Z; [|reflexivity]. apply same_iff in Z. congruence.
Qed.
