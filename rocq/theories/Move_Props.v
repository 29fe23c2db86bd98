(** * C55: the operations of the numpy backend that rearrange an array, and their gradients. *)
From Coq Require Import Reals List ZArith Lia Lra Permutation.
From Verif Require Import PyBase Corr_Spec Corr_Proofs Axis_Model Axis_Spec Axis_Proofs Axis_Props Move_Model Move_Spec Move_Proofs Move_Proofs2.
Import ListNotations.
Open Scope R_scope.
Open Scope list_scope.
Open Scope res_scope.

(** ** Transposition *)
Lemma names_perm_seq r p : Permutation p (seq 0 r) -> norm_axes r (ATuple (map Z.of_nat p)) = Ok p.
Proof.
  intros P. apply axes_of_ok. split; [now apply (perm_nodup p r)|].
  assert (H : forall k, In k p -> (k < r)%nat) by (intros k; apply (perm_in p r P)). clear P.
  induction p as [|k p IH]; cbn; constructor; [split; [apply H; now left|now left]|]. apply IH. intros j Hj. apply H. now right.
Qed.
Lemma forall2_map (f : nat -> Z) zs p : Forall2 (fun z k => z = f k) zs p -> zs = map f p.
Proof. induction 1; cbn; congruence. Qed.
Lemma one_sign_shift r zs p : Forall2 (names r) zs p -> one_sign (Some zs) -> exists c, zs = map (fun k => (Z.of_nat k + c)%Z) p.
Proof.
  intros F [S|S].
  - exists 0%Z. apply forall2_map. revert S. induction F as [|z k zs p [Hk [E|E] ] _ IH]; intros S; constructor;
      inversion S; subst; try (now apply IH); lia.
  - exists (- Z.of_nat r)%Z. apply forall2_map. revert S. induction F as [|z k zs p [Hk [E|E] ] _ IH]; intros S; constructor;
      inversion S; subst; try (now apply IH); lia.
Qed.
Theorem C55_transpose x axes p : order_of (length (shape x)) axes p ->
  (exists y, transpose x axes = Ok y /\ shape y = arranged p (shape x) /\
     forall i, inside (shape x) i -> at_ y (arranged p i) = at_ x i) /\
  (one_sign axes -> forall g, shape g = arranged p (shape x) ->
     exists G, transpose_grad g axes = Ok G /\ gradient_at (fun z => transpose z axes) x g G).
Proof.
  intros O. set (r := length (shape x)) in *.
  assert (Q : Permutation p (seq 0 r) /\ forall z, shape z = shape x -> transpose z axes = Ok (np_transpose z p)).
  { destruct axes as [ [|z0 zs]|]; cbn [order_of] in O.
    - subst p. split; [apply rev_perm|]. intros z E. cbn. rewrite E. reflexivity.
    - destruct O as [P F]. split; [easy|]. intros z E. cbn [transpose]. unfold ndarray_transpose. rewrite E. fold r.
      rewrite (F2_length _ _ _ F), (perm_length p r P), Nat.eqb_refl.
      assert (A : axes_of r (ATuple (z0 :: zs)) p) by (split; [now apply (perm_nodup p r)|easy]).
      now rewrite (proj1 (axes_of_ok _ _ _ A)).
    - subst p. split; [apply rev_perm|]. intros z E. cbn. rewrite E. reflexivity. }
  destruct Q as [P HF]. split.
  - exists (np_transpose x p). split; [now apply HF|]. split; [reflexivity|]. intros i Hi. now apply (transpose_entry p r).
  - intros S g Sg. assert (Lg : length (shape g) = r) by (rewrite Sg, arranged_length; now apply perm_length).
    assert (W : exists q, transpose_grad g axes = Ok (np_transpose g q) /\ Permutation q (seq 0 r) /\
                 forall k, (k < r)%nat -> nth (nth k q 0%nat) p 0%nat = k).
    { destruct axes as [ [|z0 zs]|]; cbn [order_of] in O.
      - subst p. exists (rev (seq 0 r)). split; [cbn; now rewrite Lg|]. split; [apply rev_perm|apply rev_twice].
      - destruct O as [_ F]. destruct (one_sign_shift r _ p F S) as [c E].
        destruct (argsort_spec _ p r c P E) as [PA HA]. exists (argsort (z0 :: zs)). split; [|easy].
        cbn [transpose_grad]. unfold ndarray_transpose. rewrite Lg, map_length, (perm_length _ r PA), Nat.eqb_refl, names_perm_seq by easy.
        pose proof (perm_length _ r PA) as LA. destruct (argsort (z0 :: zs)) as [|a l]; [|reflexivity].
        cbn in LA. rewrite <- LA in P. apply perm_length in P. rewrite <- (F2_length _ _ _ F) in P. easy.
      - subst p. exists (rev (seq 0 r)). split; [cbn; now rewrite Lg|]. split; [apply rev_perm|apply rev_twice]. }
    destruct W as (q & E & PQ & HQ). exists (np_transpose g q). split; [easy|].
    destruct (transpose_back p q r x g P PQ eq_refl HQ Sg) as [B1 B2].
    now apply (transpose_vjp p r P).
Qed.
Theorem C55_transpose_only x axes y : transpose x axes = Ok y -> exists p, order_of (length (shape x)) axes p.
Proof.
  destruct axes as [ [|z zs]|]; cbn [transpose order_of]; try (intros _; now eexists).
  unfold ndarray_transpose. destruct (Nat.eqb_spec (length (z :: zs)) (length (shape x))) as [L|]; [|easy].
  destruct (norm_axes (length (shape x)) (ATuple (z :: zs))) as [p|] eqn:E; [|easy]. intros _. exists p.
  destruct (norm_axes_inv _ _ _ E) as [N F]. split; [|easy].
  assert (H : forall k, In k p -> (k < length (shape x))%nat) by apply (axes_of_ok _ _ _ (norm_axes_inv _ _ _ E)).
  apply NoDup_Permutation_bis; [easy|rewrite seq_length, <- L, (F2_length _ _ _ F); lia|].
  intros k Hk. apply in_seq. specialize (H k Hk). lia.
Qed.
(** Axes of both signs: the transposition is right, its gradient is not. *)
Theorem C55_transpose_signs_refuted : exists x axes p g G,
  order_of (length (shape x)) axes p /\ shape g = arranged p (shape x) /\
  transpose_grad g axes = Ok G /\ shape G = shape x /\ ~ gradient_at (fun z => transpose z axes) x g G.
Proof.
  set (x := mka [2; 2]%nat (fun _ => 0)).
  set (g := mka [2; 2]%nat (fun i => match i with [0; 1]%nat => 1 | _ => 0 end)).
  exists x, (Some [0; -1]%Z), [0; 1]%nat, g, (np_transpose g [1; 0]%nat).
  split; [split; [apply Permutation_refl|repeat constructor; lia]|]. do 3 (split; [reflexivity|]).
  intros [_ D]. specialize (D (fun i => match i with [0; 1]%nat => 1 | _ => 0 end)).
  assert (D2 : derivable_pt_lim (fun t => weighted g (transpose (moved x (fun i => match i with [0; 1]%nat => 1 | _ => 0 end) t) (Some [0; -1]%Z))) 0 1).
  { apply (dl_of_affine _ 0). intros t.
    replace (transpose (moved x (fun i => match i with [0; 1]%nat => 1 | _ => 0 end) t) (Some [0; -1]%Z))
      with (Ok (np_transpose (moved x (fun i => match i with [0; 1]%nat => 1 | _ => 0 end) t) [0; 1]%nat)) by reflexivity.
    cbn. ring. }
  pose proof (uniqueness_limite _ _ _ _ D D2) as E. cbn in E. lra.
Qed.
Theorem C55_swapaxes x a b j k : names (length (shape x)) a j -> names (length (shape x)) b k ->
  (exists y, swapaxes x a b = Ok y /\ shape y = exchanged j k (shape x) /\
     forall i, inside (shape x) i -> at_ y (exchanged j k i) = at_ x i) /\
  forall g, shape g = exchanged j k (shape x) ->
    exists G, swapaxes_grad g a b = Ok G /\ gradient_at (fun z => swapaxes z a b) x g G.
Proof.
  intros HA HB. set (r := length (shape x)) in *. set (p := map (swap j k) (seq 0 r)).
  assert (P : Permutation p (seq 0 r)) by (apply swap_perm; [apply HA|apply HB]).
  assert (HF : forall z, length (shape z) = r -> swapaxes z a b = Ok (np_transpose z p)).
  { intros z E. unfold swapaxes. rewrite E. rewrite (norm_axis_names _ _ _ HA), (norm_axis_names _ _ _ HB). reflexivity. }
  assert (EX : forall i, length i = r -> exchanged j k i = arranged p i) by (intros i <-; symmetry; apply swap_arranged).
  split.
  - exists (np_transpose x p). split; [now apply HF|]. split; [now rewrite EX|]. intros i Hi.
    rewrite EX by (now apply inside_length). now apply (transpose_entry p r).
  - intros g Sg. rewrite EX in Sg by easy.
    assert (Lg : length (shape g) = r) by (rewrite Sg, arranged_length; now apply perm_length).
    exists (np_transpose g p). split; [now apply HF|].
    destruct (transpose_back p p r x g P P eq_refl) as [B1 B2]; [|easy|].
    { intros n Hn. unfold p. rewrite !swap_nth; [apply swap_twice|easy|]. rewrite swap_nth by easy. apply swap_lt; [apply HA|apply HB|easy]. }
    apply (transpose_vjp p r P); try easy. intros z Ez. apply HF. now rewrite Ez.
Qed.
Theorem C55_swapaxes_only x a b y : swapaxes x a b = Ok y ->
  exists j k, names (length (shape x)) a j /\ names (length (shape x)) b k.
Proof.
  unfold swapaxes. destruct (norm_axis _ a) as [j|] eqn:E1; [|easy]. destruct (norm_axis _ b) as [k|] eqn:E2; [|easy]. intros _.
  exists j, k. split; now apply norm_axis_inv.
Qed.

(** ** Changing the shape *)
Theorem C55_reshape x zs t : sizes_for (volume (shape x)) zs t -> reshapes (fun z => reshape z zs) reshape_grad x t.
Proof.
  intros H. rewrite volume_size in H. assert (E : size t = size (shape x)) by (rewrite <- volume_size; apply H).
  apply reshapes_if; [easy|]. intros z Ez. unfold reshape, ndarray_reshape. rewrite Ez, (resolve_ok _ _ _ H). eexists. split; [reflexivity|]. split; [reflexivity|].
  intros o _. cbn [with_shape at_]. now rewrite Ez.
Qed.
Theorem C55_reshape_only x zs y : Forall (fun z => -1 <= z)%Z zs -> reshape x zs = Ok y -> sizes_for (volume (shape x)) zs (shape y).
Proof.
  intros F. unfold reshape, ndarray_reshape. destruct (resolve (size (shape x)) zs) as [t|] eqn:E; [|easy]. cbn [bind]. intros Q. injection Q as <-.
  rewrite volume_size. now apply resolve_inv.
Qed.
Theorem C55_flatten x a b before middle after : names (length (shape x)) a (length before) ->
  names (length (shape x)) b (length before + length middle - 1) -> middle <> [] -> shape x = before ++ middle ++ after ->
  reshapes (fun z => flatten z a b) flatten_grad x (before ++ [volume middle] ++ after).
Proof.
  intros HA HB NM SX. set (r := length (shape x)) in *.
  assert (LM : (0 < length middle)%nat) by (destruct middle; [easy|cbn; lia]).
  assert (E : size (before ++ [volume middle] ++ after) = size (shape x)).
  { rewrite SX, (size_app before ([volume middle] ++ after)), (size_app before (middle ++ after)), (size_app middle after), (volume_size middle).
    change (size ([size middle] ++ after)) with (size middle * size after)%nat. lia. }
  apply reshapes_if; [easy|]. intros z Ez.
  assert (F : flatten z a b = ndarray_reshape z (map Z.of_nat (before ++ [volume middle] ++ after))).
  { unfold flatten. rewrite Ez. fold r. pose proof (clip_after r b _ HB) as CB. cbv zeta in CB. unfold between, upto, since. fold r. rewrite CB, (clip_names r a _ HA).
    f_equal. f_equal. rewrite SX. rewrite firstn_app, firstn_all, Nat.sub_diag. cbn [firstn]. rewrite app_nil_r. f_equal. cbn [app]. f_equal.
    - rewrite (volume_size middle). f_equal. rewrite skipn_app, skipn_all, Nat.sub_diag. cbn [skipn app].
      replace (S (length before + length middle - 1) - length before)%nat with (length middle) by lia.
      rewrite firstn_app, firstn_all, Nat.sub_diag. cbn. apply app_nil_r.
    - rewrite app_assoc, skipn_app, app_length. rewrite skipn_all2 by (rewrite app_length; lia).
      replace (S (length before + length middle - 1) - (length before + length middle))%nat with 0%nat by lia. reflexivity. }
  rewrite F. unfold ndarray_reshape. rewrite Ez, <- E, resolve_same. eexists. split; [reflexivity|]. split; [reflexivity|].
  intros o _. cbn [with_shape at_]. now rewrite Ez.
Qed.
Theorem C55_squeeze x : reshapes (fun z => Ok (squeeze z)) squeeze_grad x (filter (fun d => negb (Nat.eqb d 1)) (shape x)).
Proof.
  rewrite <- squeezed_filter. apply reshapes_if; [apply squeezed_size|]. intros z Ez. eexists. split; [reflexivity|].
  cbn [squeeze shape at_]. rewrite Ez. split; [reflexivity|]. intros o Ho. destruct (unsqueeze_ok _ _ Ho) as [I1 I2].
  now rewrite <- I2, unravel_ravel.
Qed.
Theorem C55_atleast_1d x : reshapes (fun z => Ok (atleast_1d z)) atleast_1d_grad x (match shape x with [] => [1%nat] | s => s end).
Proof.
  apply reshapes_if; [now destruct (shape x)|]. intros z Ez. eexists. split; [reflexivity|]. unfold atleast_1d. rewrite Ez.
  destruct (shape x) as [|d s] eqn:E.
  - split; [reflexivity|]. reflexivity.
  - split; [easy|]. intros o Ho. now rewrite unravel_ravel.
Qed.

(** ** Broadcasting *)
Theorem C55_broadcast_to x t : spreads (shape x) t ->
  (exists y, broadcast_to x t = Ok y /\ shape y = t /\
     forall o, inside t o -> at_ y o = at_ x (source (shape x) o)) /\
  forall g, shape g = t ->
    exists G, broadcast_to_grad g x t = Ok G /\ gradient_at (fun z => broadcast_to z t) x g G.
Proof.
  intros SP. pose proof SP as [L _]. set (s := shape x) in *. set (n := (length t - length s)%nat).
  assert (HF : forall z, shape z = s -> broadcast_to z t = Ok (mka t (bat z))).
  { intros z E. unfold broadcast_to. rewrite E. now rewrite (proj2 (spreads_iff s t) SP). }
  assert (HB : forall z o, shape z = s -> inside t o -> bat z o = at_ z (squash s (skipn n o))).
  { intros z o E Ho. unfold bat. rewrite E, (inside_length _ _ Ho). reflexivity. }
  destruct (broadcast_axes s t SP) as [AX D]. set (A := front_axes (length t) (gaps 0 (rev s) (rev t))) in *. clearbody A.
  assert (SQ : forall o, inside t o -> squash (ones n ++ s) o = zeros n ++ squash s (skipn n o)).
  { intros o Ho. apply ones_squash. rewrite (inside_length _ _ Ho). unfold n. lia. }
  split.
  - exists (mka t (bat x)). split; [now apply HF|]. split; [easy|]. intros o Ho. cbn [at_].
    rewrite source_squash by (now rewrite (inside_length _ _ Ho)). now rewrite HB, (inside_length _ _ Ho).
  - intros g Sg.
    assert (EQ : forall o i, inside t o -> inside s i ->
       index_eqb (proj A false 0 o) (unravel (red_shape A false 0 t) (ravel s i)) = index_eqb (squash s (skipn n o)) i).
    { intros o i Ho Hi. pose proof (drops_same A 0 _ t D o (zeros n ++ i) Ho (ones_inside n s i Hi)) as Q.
      rewrite ones_ravel, SQ in Q by easy. unfold index_eqb. destruct (list_eq_dec _ _ _) as [E1|E1], (list_eq_dec _ _ _) as [E2|E2]; try easy.
      - exfalso. apply E2. apply Q in E1. now apply app_inv_head in E1.
      - exfalso. apply E1. apply Q. now rewrite E2. }
    assert (SZ : size (red_shape A false 0 t) = size s) by (rewrite (drops_size _ _ _ _ D); apply ones_size).
    assert (GR : forall G, shape G = s ->
      (forall i, inside s i -> at_ G i = lsum (group g A false (unravel (red_shape A false 0 t) (ravel s i))) (at_ g)) ->
      gradient_at (fun z => broadcast_to z t) x g G).
    { intros G SG HG. apply (gather_gradient _ x g G t (fun o => Some (squash s (skipn n o))) (fun _ => 0)); try easy.
      - intros dx u. eexists. split; [now apply HF|]. intros o Ho. cbn [at_]. now rewrite HB.
      - intros o i Ho E. injection E as <-. destruct (drops_squash A 0 _ t D o Ho) as [I1 _]. rewrite SQ in I1 by easy.
        now apply ones_inside_inv in I1.
      - intros i Hi. rewrite HG by easy. unfold group. rewrite lsum_filter, Sg. apply lsum_ext. intros o Ho. apply in_indices in Ho.
        cbn [opt_is]. now rewrite EQ. }
    unfold broadcast_to_grad. fold s. destruct (bcast_axes 0 (rev s) (rev t)) as [|z0 zs] eqn:EB.
    + assert (GA : A = []).
      { destruct AX as [_ F]. inversion F. reflexivity. }
      assert (ER : red_shape A false 0 t = t).
      { rewrite GA. generalize 0%nat. clear. induction t as [|d t IH]; intros k; cbn; [easy|]. now rewrite IH. }
      rewrite ER in *. cbn [bind]. rewrite reshape_like_ok by (now rewrite Sg). eexists. split; [reflexivity|]. apply GR; [easy|].
      intros i Hi. cbn [with_shape at_]. fold s. rewrite Sg. unfold group. rewrite lsum_filter, Sg.
      assert (PR : forall o, proj A false 0 o = o).
      { rewrite GA. generalize 0%nat. clear. intros k o. revert k. induction o as [|d o IH]; intros k; cbn; [easy|]. now rewrite IH. }
      pose proof (ravel_lt _ _ Hi) as RL. rewrite <- SZ in RL. destruct (unravel_inside t _ RL) as [U1 U2].
      symmetry. rewrite (lsum_single _ (unravel t (ravel s i))).
      * now rewrite PR, (proj2 (index_eqb_true _ _) eq_refl).
      * apply nodup_indices.
      * now apply in_indices.
      * intros o _ N. rewrite PR. destruct (index_eqb o (unravel t (ravel s i))) eqn:E; [|easy]. apply index_eqb_true in E. easy.
    + unfold reduce_sum. rewrite (reduce_ok np_sum g (ATuple (z0 :: zs)) A false) by (rewrite Sg; exact AX). cbn [bind].
      rewrite reshape_like_ok by (cbn [shape]; now rewrite Sg). eexists. split; [reflexivity|]. apply GR; [easy|].
      intros i Hi. cbn [with_shape at_ shape]. fold s. rewrite Sg. apply np_sum_lsum.
Qed.
Theorem C55_broadcast_only x t y : broadcast_to x t = Ok y -> spreads (shape x) t.
Proof. unfold broadcast_to. destruct (broadcastable (shape x) t) eqn:E; [|easy]. intros _. now apply spreads_iff. Qed.

(** ** Padding *)
Theorem C55_pad x ps : length ps = length (shape x) ->
  let zs := map (fun p => (Z.of_nat (fst p), Z.of_nat (snd p))) ps in
  (exists y, pad x zs = Ok y /\ shape y = padded ps (shape x) /\
     (forall i, inside (shape x) i -> at_ y (shifted_by ps i) = at_ x i) /\
     forall o, inside (shape y) o -> (forall i, inside (shape x) i -> o <> shifted_by ps i) -> at_ y o = 0) /\
  forall g, shape g = padded ps (shape x) -> gradient_at (fun z => pad z zs) x g (pad_grad g x zs).
Proof.
  intros L zs. split.
  - eexists. split; [now apply pad_ok|]. cbn [shape at_]. split; [easy|]. split.
    + intros i Hi. pose proof (proj2 (pad_index_iff ps (shape x) _ L (shifted_inside ps _ _ L Hi) i) (conj Hi eq_refl)) as E. now rewrite E.
    + intros o Ho N. destruct (pad_index (widths ps) (shape x) o) as [i|] eqn:E; [|easy].
      apply (pad_index_iff ps (shape x) o L Ho) in E. destruct E as [E1 E2]. exfalso. now apply (N i).
  - intros g Sg. apply (move_gradient _ x g _ (padded ps (shape x)) (pad_index (widths ps) (shape x)) (shifted_by ps) (fun _ => 0)); try easy.
    + intros dx u. eexists. split; [now apply (pad_ok (moved x dx u))|]. intros o _. reflexivity.
    + intros o i Ho E. now apply (pad_index_iff ps (shape x) o L Ho) in E.
    + intros i Hi. split; [now apply shifted_inside|]. apply pad_index_iff; [easy|now apply shifted_inside|easy].
    + cbn [pad_grad shape]. rewrite Sg. now apply cut_shape_ok.
    + intros i Hi. cbn [pad_grad at_]. rewrite Sg. unfold zs. fold (widths ps). rewrite cut_index_ok; [easy|easy|now apply inside_length].
Qed.
Theorem C55_pad_only x zs y : pad x zs = Ok y ->
  exists ps, length ps = length (shape x) /\ zs = map (fun p => (Z.of_nat (fst p), Z.of_nat (snd p))) ps.
Proof.
  unfold pad. destruct (Nat.eqb_spec (length zs) (length (shape x))) as [L|]; [|easy]. cbn [negb].
  destruct (existsb _ zs) eqn:E; [easy|]. intros _. rewrite <- L. clear L.
  exists (map (fun p => (Z.to_nat (fst p), Z.to_nat (snd p))) zs). split; [now rewrite map_length|]. rewrite map_map.
  induction zs as [|[a b] zs IH]; cbn in E |- *; [easy|]. apply Bool.orb_false_iff in E as [E1 E2]. apply Bool.orb_false_iff in E1 as [E0 E1].
  apply Z.ltb_ge in E0, E1. rewrite !Z2Nat.id by easy. f_equal. now apply IH.
Qed.

(** ** The hypotheses are met *)
Definition box : arr := mka [2; 3; 1]%nat (fun i => INR (ravel [2; 3; 1]%nat i)).
Example C55_transpose_case : order_of (length (shape box)) (Some [-1; -3; -2]%Z) [2; 0; 1]%nat /\ one_sign (Some [-1; -3; -2]%Z) /\
  arranged [2; 0; 1]%nat (shape box) = [1; 2; 3]%nat /\
  exists y, transpose box (Some [-1; -3; -2]%Z) = Ok y /\ at_ y [0; 1; 2]%nat = at_ box [1; 2; 0]%nat.
Proof.
  split; [split|].
  - apply (perm_trans (l' := [0; 2; 1]%nat)); [constructor|constructor; constructor].
  - repeat constructor; cbn; lia.
  - split; [right; repeat constructor|]. split; [reflexivity|]. eexists. split; reflexivity.
Qed.
Example C55_transpose_none : order_of (length (shape box)) None [2; 1; 0]%nat /\ one_sign None.
Proof. now split. Qed.
Example C55_swapaxes_case : names (length (shape box)) 0 0 /\ names (length (shape box)) (-2) 1 /\ exchanged 0 1 (shape box) = [3; 2; 1]%nat.
Proof. repeat split; cbn; lia. Qed.
Example C55_reshape_case : sizes_for (volume (shape box)) [2; -1]%Z [2; 3]%nat /\
  exists y, reshape box [2; -1]%Z = Ok y /\ shape y = [2; 3]%nat /\ at_ y [1; 2]%nat = at_ box [1; 2; 0]%nat.
Proof.
  split.
  - split; [constructor; [now left|constructor; [now right|constructor] ]|]. split; [reflexivity|]. split; [cbn; lia|].
    intros _ [E|[E|[] ] ]; discriminate.
  - eexists. repeat split; reflexivity.
Qed.
Example C55_reshape_sizes : Forall (fun z => -1 <= z)%Z [2; -1]%Z /\ exists y, reshape box [2; -1]%Z = Ok y.
Proof. split; [repeat constructor; lia|]. now eexists. Qed.
Example C55_flatten_case : names (length (shape box)) 0 (length (@nil nat)) /\ names (length (shape box)) (-2) (length (@nil nat) + length [2; 3]%nat - 1) /\
  [2; 3]%nat <> [] /\ shape box = [] ++ [2; 3]%nat ++ [1%nat].
Proof. repeat split; cbn; try lia; discriminate. Qed.
Example C55_broadcast_case : spreads (shape box) [2; 2; 3; 4]%nat /\ source (shape box) [1; 0; 2; 3]%nat = [0; 2; 0]%nat /\
  exists y, broadcast_to box [2; 2; 3; 4]%nat = Ok y.
Proof.
  split; [split; [cbn; lia|] |split; [reflexivity|now eexists] ]. intros k Hk. cbn in Hk.
  destruct k as [|[|[|k] ] ]; cbn; [now left|now right|now right|lia].
Qed.
Example C55_pad_case : length [(1, 0); (0, 2); (1, 1)]%nat = length (shape box) /\
  padded [(1, 0); (0, 2); (1, 1)]%nat (shape box) = [3; 5; 3]%nat /\
  exists y, pad box [(1, 0); (0, 2); (1, 1)]%Z = Ok y /\ at_ y [2; 1; 1]%nat = at_ box [1; 1; 0]%nat.
Proof. split; [reflexivity|]. split; [reflexivity|]. eexists. split; reflexivity. Qed.

Print Assumptions C55_transpose.
Print Assumptions C55_transpose_only.
Print Assumptions C55_transpose_signs_refuted.
Print Assumptions C55_swapaxes.
Print Assumptions C55_swapaxes_only.
Print Assumptions C55_reshape.
Print Assumptions C55_reshape_only.
Print Assumptions C55_flatten.
Print Assumptions C55_squeeze.
Print Assumptions C55_atleast_1d.
Print Assumptions C55_broadcast_to.
Print Assumptions C55_broadcast_only.
Print Assumptions C55_pad.
Print Assumptions C55_pad_only.
