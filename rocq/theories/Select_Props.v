(** * C56: the operations of the numpy backend that select entries of arrays, and their gradients. *)
From Coq Require Import Reals List ZArith Lia Lra Permutation.
From Verif Require Import PyBase Corr_Spec Corr_Proofs Axis_Model Axis_Spec Axis_Proofs Axis_Props Move_Model Move_Spec Move_Proofs Move_Proofs2 Move_Props Select_Model Select_Spec Select_Proofs Select_Proofs2.
Import ListNotations.
Open Scope R_scope.
Open Scope list_scope.
Open Scope res_scope.

(** ** Indexing with ints, slices, new axes and [...] *)
Theorem C56_indexer x es t : (rests es <= 1)%nat -> gives (complete es) (shape x) t ->
  (exists y, indexer x es = Ok y /\ shape y = t /\
     (forall o, inside t o -> exists i, inside (shape x) i /\ takes (complete es) (shape x) o i) /\
     forall o i, inside t o -> takes (complete es) (shape x) o i -> at_ y o = at_ x i) /\
  forall g, shape g = t -> exists G, indexer_grad g x es = Ok G /\ gradient_at (fun z => indexer z es) x g G.
Proof.
  intros R H. destruct (index_plan_ok _ _ _ R H) as (ps & E & S & GD & MT). split.
  - exists (mka t (fun o => at_ x (part_index ps o))). unfold indexer. rewrite E. cbn [bind]. rewrite S. split; [easy|]. split; [easy|]. subst t. split.
    + intros o Ho. exists (part_index ps o). split; [now apply good_inside|now apply MT].
    + intros o i Ho T. cbn [at_]. f_equal. apply (takes_det (complete es)) with (s := shape x) (o := o); [rewrite complete_once by easy; lia|now apply MT|easy].
  - intros g Sg. unfold indexer_grad. rewrite E. cbn [bind]. eexists. split; [reflexivity|]. subst t. apply assigned_gradient; try easy.
    + intros dx u. unfold indexer. cbn [moved shape]. rewrite E. cbn [bind]. eexists. split; [reflexivity|]. intros o _. reflexivity.
    + now apply good_inside.
    + now apply (good_inj ps (shape x)).
Qed.
Theorem C56_indexer_only x es y : indexer x es = Ok y -> (rests es <= 1)%nat /\ gives (complete es) (shape x) (shape y).
Proof.
  unfold indexer. destruct (index_plan (shape x) es) as [ps|] eqn:E; [|easy]. cbn [bind]. intros Q. injection Q as <-. now apply index_plan_inv.
Qed.

(** ** Indexing with an array of ints *)
Theorem C56_rows x n s ix : shape x = n :: s -> name_rows n ix ->
  rows_of x n s ix (indexer_rows x ix) /\
  (no_row_twice n ix -> forall g, shape g = ishape ix ++ s ->
     exists G, indexer_rows_grad g x ix = Ok G /\ gradient_at (fun z => indexer_rows z ix) x g G).
Proof.
  intros E N. split; [now apply take_rows_of|]. intros D g Sg. unfold indexer_rows_grad. rewrite E.
  rewrite (proj2 (row_ok_names n ix) N). eexists. split; [reflexivity|]. rewrite <- E. apply assigned_gradient; try easy.
  - intros dx u. eexists. split; [now apply (take_rows_ok _ n s)|]. intros o _. reflexivity.
  - intros o Ho. rewrite E. now apply row_index_inside.
  - intros o o' Ho Ho' EQ. now apply (row_index_inj n ix s).
Qed.
(** When a row is taken twice, the gradient of one of the two is lost. *)
Theorem C56_rows_repeated_refuted : exists x n s ix g G, shape x = n :: s /\ name_rows n ix /\ shape g = ishape ix ++ s /\
  indexer_rows_grad g x ix = Ok G /\ shape G = shape x /\ ~ gradient_at (fun z => indexer_rows z ix) x g G.
Proof.
  set (x := mka [2]%nat (fun _ => 0)). set (ix := mkints [2]%nat (fun _ => 0%Z)). set (g := mka [2]%nat (fun _ => 1)).
  exists x, 2%nat, [], ix, g, (assigned [2]%nat [2]%nat (row_index 2 ix) g).
  split; [easy|]. split; [intros j _; exists 0%nat; unfold names; cbn; lia|]. do 3 (split; [reflexivity|]).
  intros [_ D]. specialize (D (fun i => match i with [0]%nat => 1 | _ => 0 end)).
  assert (D2 : derivable_pt_lim (fun t => weighted g (indexer_rows (moved x (fun i => match i with [0]%nat => 1 | _ => 0 end) t) ix)) 0 2).
  { apply (dl_of_affine _ 0). intros t.
    replace (indexer_rows (moved x (fun i => match i with [0]%nat => 1 | _ => 0 end) t) ix)
      with (Ok (mka [2]%nat (fun o => at_ (moved x (fun i => match i with [0]%nat => 1 | _ => 0 end) t) (row_index 2 ix o)))) by reflexivity.
    cbn. ring. }
  pose proof (uniqueness_limite _ _ _ _ D D2) as E. cbn in E. lra.
Qed.
Theorem C56_embedding w n s ix : shape w = n :: s -> name_rows n ix ->
  rows_of w n s ix (primitive_embedding ix w) /\
  forall g, shape g = ishape ix ++ s -> exists G, primitive_embedding_grad g ix w = Ok G /\ gradient_at (fun z => primitive_embedding ix z) w g G.
Proof.
  intros E N. split; [now apply take_rows_of|]. intros g Sg. unfold primitive_embedding_grad. rewrite E.
  rewrite (proj2 (row_ok_names n ix) N). eexists. split; [reflexivity|]. rewrite <- E.
  apply (gather_gradient _ w g _ (ishape ix ++ s) (fun o => Some (row_index n ix o)) (fun _ => 0)); try easy.
  - intros dx u. eexists. split; [now apply (take_rows_ok _ n s)|]. intros o _. reflexivity.
  - intros o i Ho EQ. injection EQ as <-. rewrite E. now apply row_index_inside.
  - intros i Hi. cbn [at_ opt_is]. now rewrite np_sum_lsum, lsum_filter.
Qed.
Theorem C56_rows_only x ix y : indexer_rows x ix = Ok y -> exists n s, shape x = n :: s /\ name_rows n ix.
Proof.
  unfold indexer_rows, take_rows. destruct (shape x) as [|n s]; [easy|]. destruct (row_ok n ix) eqn:E; [|easy]. intros _.
  exists n, s. split; [easy|]. now apply row_ok_names.
Qed.

(** ** Permuting the rows *)
Lemma inside_cons_inv d s o : inside (d :: s) o -> exists k i, o = k :: i /\ (k < d)%nat /\ inside s i.
Proof. intros H. inversion H as [|d' k s' i Hk Hi]; subst. now exists k, i. Qed.
Theorem C56_permute x n s zs p : shape x = n :: s -> Permutation p (seq 0 n) -> Forall2 (names n) zs p ->
  (exists y, permute_tensor x zs = Ok y /\ shape y = shape x /\
     forall j i, (j < n)%nat -> inside s i -> at_ y (j :: i) = at_ x (nth j p 0%nat :: i)) /\
  (one_sign (Some zs) -> forall g, shape g = shape x ->
     exists G, permute_tensor_grad g zs = Ok G /\ gradient_at (fun z => permute_tensor z zs) x g G).
Proof.
  intros E P F. pose proof (perm_length p n P) as LP. assert (LZ : length zs = n) by (now rewrite (F2_length _ _ _ F)).
  set (ix := mkints [length zs] (fun j => nth (nth 0 j 0%nat) zs 0%Z)).
  assert (NM : forall j, (j < n)%nat -> names n (nth j zs 0%Z) (nth j p 0%nat)).
  { clear -F LZ. intros j. revert LZ. generalize n at 1 2. intros m L Hj. revert j m L Hj. induction F as [|z k zs p Hk _ IH]; intros j m L Hj; cbn in L; [lia|].
    destruct j; [easy|]. cbn. apply (IH j (length zs)); lia. }
  assert (N : name_rows n ix).
  { intros j Hj. apply inside_cons_inv in Hj as (k & o & -> & Hk & _). exists (nth k p 0%nat). cbn. apply NM. lia. }
  assert (TK : forall z, shape z = shape x -> permute_tensor z zs = Ok (mka (length zs :: s) (fun o => at_ z (row_index n ix o)))).
  { intros z Ez. unfold permute_tensor. fold ix. rewrite (take_rows_ok z n s ix); [easy|congruence|easy]. }
  assert (RI : forall j i, (j < n)%nat -> row_index n ix (j :: i) = nth j p 0%nat :: i).
  { intros j i Hj. unfold row_index. cbn. now rewrite (row_names _ _ _ (NM j Hj)). }
  split.
  - eexists. split; [now apply TK|]. cbn [shape at_]. split; [congruence|]. intros j i Hj Hi. now rewrite RI.
  - intros OS g Sg. destruct (one_sign_shift n zs p F OS) as [c EZ]. destruct (argsort_spec zs p n c P EZ) as [PA HA].
    set (q := argsort zs) in *. pose proof (perm_length q n PA) as LQ.
    set (jx := mkints [length zs] (fun j => Z.of_nat (nth (nth 0 j 0%nat) q 0%nat))).
    assert (QL : forall k, (k < n)%nat -> (nth k q 0 < n)%nat).
    { intros k Hk. assert (I : In (nth k q 0%nat) (seq 0 n)) by (apply (Permutation_in _ PA); apply nth_In; lia). apply in_seq in I. lia. }
    assert (NJ : name_rows n jx).
    { intros j Hj. apply inside_cons_inv in Hj as (k & o & -> & Hk & _). exists (nth k q 0%nat). cbn. split; [apply QL; lia|now left]. }
    assert (RJ : forall j i, (j < n)%nat -> row_index n jx (j :: i) = nth j q 0%nat :: i).
    { intros j i Hj. unfold row_index. cbn. rewrite (row_names n _ (nth j q 0%nat)); [easy|]. split; [now apply QL|now left]. }
    exists (mka (length zs :: s) (fun o => at_ g (row_index n jx o))).
    split; [unfold permute_tensor_grad; fold q jx; apply (take_rows_ok g n s jx); [congruence|easy]|].
    apply (move_gradient _ x g _ (shape x) (fun o => Some (row_index n ix o)) (row_index n jx) (fun _ => 0)); try easy.
    + intros dx u. eexists. split; [now apply TK|]. intros o _. reflexivity.
    + intros o i Ho EQ. injection EQ as <-. rewrite E in *. apply inside_cons_inv in Ho as (k & o' & -> & Hk & Ho'). rewrite RI by easy.
      assert (PL : (nth k p 0 < n)%nat).
      { assert (I : In (nth k p 0%nat) (seq 0 n)) by (apply (Permutation_in _ P); apply nth_In; lia). apply in_seq in I. lia. }
      split; [now constructor|]. rewrite RJ by easy. f_equal.
      assert (ND : NoDup p) by (now apply (perm_nodup p n)).
      apply (NoDup_nth p 0%nat); [easy|lia|pose proof (QL _ PL); lia|]. now rewrite HA.
    + intros i Hi. rewrite E in *. apply inside_cons_inv in Hi as (k & i' & -> & Hk & Hi'). rewrite RJ by easy. split; [constructor; [now apply QL|easy]|].
      rewrite RI by (now apply QL). now rewrite HA.
    + cbn [shape]. congruence.
Qed.
Theorem C56_permute_signs_refuted : exists x n zs p g G, shape x = [n] /\ Permutation p (seq 0 n) /\ Forall2 (names n) zs p /\ shape g = shape x /\
  permute_tensor_grad g zs = Ok G /\ shape G = shape x /\ ~ gradient_at (fun z => permute_tensor z zs) x g G.
Proof.
  set (x := mka [2]%nat (fun _ => 0)). set (g := mka [2]%nat (fun i => match i with [0]%nat => 1 | _ => 0 end)).
  exists x, 2%nat, [0; -1]%Z, [0; 1]%nat, g. eexists.
  split; [easy|]. split; [apply Permutation_refl|]. split; [repeat constructor; lia|]. do 3 (split; [reflexivity|]).
  intros [_ D]. specialize (D (fun i => match i with [0]%nat => 1 | _ => 0 end)).
  assert (D2 : derivable_pt_lim (fun t => weighted g (permute_tensor (moved x (fun i => match i with [0]%nat => 1 | _ => 0 end) t) [0; -1]%Z)) 0 1).
  { apply (dl_of_affine _ 0). intros t.
    replace (permute_tensor (moved x (fun i => match i with [0]%nat => 1 | _ => 0 end) t) [0; -1]%Z)
      with (Ok (mka [2]%nat (fun o => at_ (moved x (fun i => match i with [0]%nat => 1 | _ => 0 end) t) (row_index 2 (mkints [2%nat] (fun j => nth (nth 0 j 0%nat) [0; -1]%Z 0%Z)) o)))) by reflexivity.
    cbn. ring. }
  pose proof (uniqueness_limite _ _ _ _ D D2) as E. cbn in E. change (Pos.to_nat 1) with 1%nat in E. lra.
Qed.

(** ** Operations that are affine in the entries *)
Lemma spread_dl F (x g : arr) t (c e : list nat -> R) h : shape g = t ->
  (forall dx u, exists y, F (moved x dx u) = Ok y /\ forall o, inside t o -> at_ y o = c o + u * (e o * dx (h o))) ->
  forall dx, derivable_pt_lim (fun u => weighted g (F (moved x dx u))) 0 (lsum (indices t) (fun o => at_ g o * (e o * dx (h o)))).
Proof.
  intros Sg HF dx. apply (dl_of_affine _ (lsum (indices t) (fun o => at_ g o * c o))). intros u. destruct (HF dx u) as (y & E & Hy). rewrite E.
  cbn [weighted]. rewrite sum_over_lsum, Sg. rewrite <- lsum_scal, <- lsum_plus. apply lsum_ext. intros o Ho. apply in_indices in Ho.
  rewrite Hy by easy. ring.
Qed.
Lemma affine_gradient F (x g G : arr) t (c e : list nat -> R) h : shape g = t -> shape G = shape x ->
  (forall dx u, exists y, F (moved x dx u) = Ok y /\ forall o, inside t o -> at_ y o = c o + u * (e o * dx (h o))) ->
  (forall o, inside t o -> inside (shape x) (h o)) ->
  (forall i, inside (shape x) i -> at_ G i = lsum (indices t) (fun o => if index_eqb (h o) i then at_ g o * e o else 0)) ->
  gradient_at F x g G.
Proof.
  intros Sg SG HF HI HG. split; [easy|]. intros dx.
  replace (sum_over (shape x) (fun i => at_ G i * dx i)) with (lsum (indices t) (fun o => at_ g o * (e o * dx (h o)))); [now apply (spread_dl F x g t c)|].
  rewrite sum_over_lsum.
  rewrite (lsum_ext (indices (shape x)) (fun i => at_ G i * dx i) (fun i => lsum (indices t) (fun o => if index_eqb (h o) i then at_ g o * e o * dx i else 0))).
  2:{ intros i Hi. apply in_indices in Hi. rewrite HG by easy. rewrite <- lsum_scal_r. apply lsum_ext. intros o _. destruct (index_eqb _ _); ring. }
  rewrite lsum_swap. apply lsum_ext. intros o Ho. apply in_indices in Ho. rewrite (lsum_single _ (h o)).
  - rewrite (proj2 (index_eqb_true _ _) eq_refl). ring.
  - apply nodup_indices.
  - apply in_indices. now apply HI.
  - intros i _ N. destruct (index_eqb (h o) i) eqn:E; [|easy]. apply index_eqb_true in E. congruence.
Qed.

(** ** where *)
Theorem C56_where c x y t : common [bshape c; shape x; shape y] t ->
  (exists z, where_ c x y = Ok z /\ shape z = t /\
     forall o, inside t o -> at_ z o = if bool_at c (source (bshape c) o) then at_ x (source (shape x) o) else at_ y (source (shape y) o)) /\
  forall g, shape g = t ->
    exists Gx Gy, where_grad g c 1 = Ok Gx /\ where_grad g c 2 = Ok Gy /\ shape Gx = t /\ shape Gy = t /\
      spread_gradient_at (fun x' => where_ c x' y) x g Gx /\ spread_gradient_at (fun y' => where_ c x y') y g Gy.
Proof.
  intros C. destruct (proj1 (common_three _ _ _ _) C) as (t1 & E1 & E2).
  assert (LC : (length (bshape c) <= length t)%nat) by (apply (common_length _ _ _ C); cbn; tauto).
  assert (LX : (length (shape x) <= length t)%nat) by (apply (common_length _ _ _ C); cbn; tauto).
  assert (LY : (length (shape y) <= length t)%nat) by (apply (common_length _ _ _ C); cbn; tauto).
  assert (HW : forall x' y', shape x' = shape x -> shape y' = shape y -> where_ c x' y' = Ok (mka t (fun o => if bbat c o then bat x' o else bat y' o))).
  { intros x' y' Ex Ey. unfold where_. rewrite Ex, E1. cbn [bind]. rewrite Ey, E2. reflexivity. }
  assert (SC : spreads (bshape c) t) by (apply (common_spreads _ _ _ C); cbn; tauto).
  split.
  - eexists. split; [now apply HW|]. split; [easy|]. intros o Ho. cbn [at_]. apply inside_length in Ho.
    rewrite source_bbat, !source_bat by lia. easy.
  - intros g Sg. unfold where_grad. rewrite Sg, (broadcast_into _ _ SC). cbn [bind]. do 2 eexists. do 4 (split; [reflexivity|]). split.
    + intros dx. cbn [shape at_]. rewrite sum_over_lsum.
      rewrite (lsum_ext _ _ (fun o => at_ g o * ((if bbat c o then 1 else 0) * dx (source (shape x) o)))).
      2:{ intros o Ho. apply in_indices in Ho. rewrite <- Sg in Ho. rewrite bat_inside by easy. ring. }
      apply (spread_dl (fun x' => where_ c x' y) x g t (fun o => if bbat c o then bat x o else bat y o) (fun o => if bbat c o then 1 else 0) (source (shape x)) Sg).
      intros dx' u. eexists. split; [now apply HW|]. intros o Ho. apply inside_length in Ho. cbn [at_]. destruct (bbat c o); [|ring].
      rewrite !source_bat by (cbn [moved shape]; lia). cbn [moved at_ shape]. ring.
    + intros dx. cbn [shape at_]. rewrite sum_over_lsum.
      rewrite (lsum_ext _ _ (fun o => at_ g o * ((if negb (bbat c o) then 1 else 0) * dx (source (shape y) o)))).
      2:{ intros o Ho. apply in_indices in Ho. rewrite <- Sg in Ho. rewrite bat_inside by easy. ring. }
      apply (spread_dl (fun y' => where_ c x y') y g t (fun o => if bbat c o then bat x o else bat y o) (fun o => if negb (bbat c o) then 1 else 0) (source (shape y)) Sg).
      intros dx' u. eexists. split; [now apply HW|]. intros o Ho. apply inside_length in Ho. cbn [at_]. destruct (bbat c o); cbn [negb]; [ring|].
      rewrite !source_bat by (cbn [moved shape]; lia). cbn [moved at_ shape]. ring.
Qed.
Theorem C56_where_only c x y z : where_ c x y = Ok z -> common [bshape c; shape x; shape y] (shape z).
Proof.
  unfold where_. destruct (broadcast_shape (bshape c) (shape x)) as [t1|] eqn:E1; [|easy]. cbn [bind].
  destruct (broadcast_shape t1 (shape y)) as [t|] eqn:E2; [|easy]. cbn [bind]. intros Q. injection Q as <-. apply common_three. now exists t1.
Qed.

(** ** Diagonal and pairwise differences *)
Lemma inside_two n m o : inside [n; m] o <-> exists a b, o = [a; b] /\ (a < n)%nat /\ (b < m)%nat.
Proof.
  split.
  - intros H. inversion H as [|d a s o' Ha H']; subst. inversion H' as [|d b s o'' Hb H'']; subst. inversion H''; subst. now exists a, b.
  - intros (a & b & -> & Ha & Hb). repeat constructor; easy.
Qed.
Lemma inside_three n m p o : inside [n; m; p] o <-> exists a b c, o = [a; b; c] /\ (a < n)%nat /\ (b < m)%nat /\ (c < p)%nat.
Proof.
  split.
  - intros H. inversion H as [|d a s o' Ha H']; subst. apply inside_two in H' as (b & c & -> & Hb & Hc). now exists a, b, c.
  - intros (a & b & c & -> & Ha & Hb & Hc). repeat constructor; easy.
Qed.
Theorem C56_transposed_diag x n : shape x = [n; n] ->
  (exists y, transposed_diag x = Ok y /\ shape y = [n; 1%nat] /\ forall k, (k < n)%nat -> at_ y [k; 0%nat] = at_ x [k; k]) /\
  forall g, shape g = [n; 1%nat] -> exists G, transposed_diag_grad g x = Ok G /\ gradient_at transposed_diag x g G.
Proof.
  intros E. split.
  - unfold transposed_diag. rewrite E. eexists. split; [reflexivity|]. cbn [shape]. rewrite Nat.min_id. split; [easy|]. reflexivity.
  - intros g Sg. unfold transposed_diag_grad. rewrite E, Sg.
    replace (broadcast_shape [n; 1%nat] [n; n]) with (Ok [n; n]).
    2:{ symmetry. apply broadcast_shape_iff. split; [easy|]. intros [|[|[|k] ] ]; unfold fit1, dim; cbn; lia. }
    cbn [bind]. eexists. split; [reflexivity|].
    apply (gather_gradient _ x g _ [n; 1%nat] (fun o => Some [nth 0 o 0%nat; nth 0 o 0%nat]) (fun _ => 0)); try easy.
    + intros dx u. unfold transposed_diag. cbn [moved shape]. rewrite E. eexists. split; [reflexivity|]. intros o _. reflexivity.
    + intros o i Ho EQ. injection EQ as <-. apply inside_two in Ho as (a & b & -> & Ha & Hb). rewrite E. now apply inside_two; exists a, a.
    + rewrite E. intros i Hi. apply inside_two in Hi as (a & b & -> & Ha & Hb). cbn [at_ opt_is nth].
      destruct (Nat.eqb_spec a b) as [->|N].
      * rewrite (lsum_single _ [b; 0%nat]).
        -- cbn [nth]. rewrite (proj2 (index_eqb_true _ _) eq_refl). unfold bat. rewrite Sg. cbn.
           destruct (Nat.eqb_spec n 1); [replace b with 0%nat by lia|]; ring.
        -- apply nodup_indices.
        -- apply in_indices, inside_two. exists b, 0%nat. repeat split; lia.
        -- intros o Ho NE. apply in_indices, inside_two in Ho as (a' & b' & -> & Ha' & Hb'). cbn [nth]. destruct (index_eqb _ _) eqn:Q; [|easy].
           apply index_eqb_true in Q. injection Q as ->. exfalso. apply NE. f_equal. f_equal. lia.
      * rewrite Rmult_0_r. symmetry. apply lsum_zero. intros o Ho. destruct (index_eqb _ _) eqn:Q; [|easy]. apply index_eqb_true in Q. congruence.
Qed.
(** Of a matrix that is not square the diagonal is returned, but the gradient has another shape. *)
Theorem C56_transposed_diag_wide_refuted : exists x y g G, transposed_diag x = Ok y /\ shape g = shape y /\
  transposed_diag_grad g x = Ok G /\ shape G <> shape x.
Proof.
  exists (mka [2; 3]%nat (fun _ => 0)), (mka [2; 1]%nat (fun _ => 0)), (mka [2; 1]%nat (fun _ => 0)). eexists.
  do 3 (split; [reflexivity|]). discriminate.
Qed.
Theorem C56_cartesian_diff x y n m d : shape x = [n; d] -> shape y = [m; d] ->
  (exists z, cartesian_diff x y = Ok z /\ shape z = [n; m; d] /\
     forall a b k, (a < n)%nat -> (b < m)%nat -> (k < d)%nat -> at_ z [a; b; k] = at_ x [a; k] - at_ y [b; k]) /\
  forall g, shape g = [n; m; d] ->
    exists Gx Gy, cartesian_diff_grad g 0 = Ok Gx /\ cartesian_diff_grad g 1 = Ok Gy /\
      gradient_at (fun x' => cartesian_diff x' y) x g Gx /\ gradient_at (fun y' => cartesian_diff x y') y g Gy.
Proof.
  intros Ex Ey.
  assert (HF : forall x' y', shape x' = shape x -> shape y' = shape y ->
    cartesian_diff x' y' = Ok (mka [n; m; d] (fun o => at_ x' [nth 0 o 0%nat; nth 2 o 0%nat] - at_ y' [nth 1 o 0%nat; nth 2 o 0%nat]))).
  { intros x' y' E1 E2. unfold cartesian_diff. rewrite E1, E2, Ex, Ey. now rewrite Nat.eqb_refl. }
  split.
  - eexists. split; [now apply HF|]. split; [easy|]. reflexivity.
  - intros g Sg.
    assert (A0 : axes_of (length (shape g)) (AInt 1) [1%nat]) by (exists 1%nat; split; [easy|]; rewrite Sg; split; [cbn; lia|now left]).
    assert (A1 : axes_of (length (shape g)) (AInt 0) [0%nat]) by (exists 0%nat; split; [easy|]; rewrite Sg; split; [cbn; lia|now left]).
    unfold cartesian_diff_grad, reduce_sum. rewrite (reduce_ok np_sum g (AInt 1) [1%nat] false A0), (reduce_ok np_sum g (AInt 0) [0%nat] false A1).
    cbn [bind]. do 2 eexists. split; [reflexivity|]. split; [reflexivity|]. split.
    + apply (affine_gradient _ x g _ [n; m; d] (fun o => at_ x [nth 0 o 0%nat; nth 2 o 0%nat] - at_ y [nth 1 o 0%nat; nth 2 o 0%nat]) (fun _ => 1)
               (fun o => [nth 0 o 0%nat; nth 2 o 0%nat])); try easy.
      * cbn [shape]. rewrite Sg, Ex. reflexivity.
      * intros dx u. eexists. split; [now apply HF|]. intros o _. cbn [at_ moved]. ring.
      * intros o Ho. apply inside_three in Ho as (a & b & k & -> & Ha & Hb & Hk). rewrite Ex. apply inside_two. now exists a, k.
      * intros i Hi. cbn [at_]. rewrite np_sum_lsum. unfold group. rewrite lsum_filter, Sg, Rmult_1_l. apply lsum_ext. intros o Ho.
        apply in_indices, inside_three in Ho as (a & b & k & -> & Ha & Hb & Hk). cbn [nth]. replace (proj [1%nat] false 0 [a; b; k]) with [a; k] by reflexivity.
        destruct (index_eqb [a; k] i); ring.
    + apply (affine_gradient _ y g _ [n; m; d] (fun o => at_ x [nth 0 o 0%nat; nth 2 o 0%nat] - at_ y [nth 1 o 0%nat; nth 2 o 0%nat]) (fun _ => -1)
               (fun o => [nth 1 o 0%nat; nth 2 o 0%nat])); try easy.
      * cbn [shape]. rewrite Sg, Ey. reflexivity.
      * intros dx u. eexists. split; [now apply HF|]. intros o _. cbn [at_ moved]. ring.
      * intros o Ho. apply inside_three in Ho as (a & b & k & -> & Ha & Hb & Hk). rewrite Ey. apply inside_two. now exists b, k.
      * intros i Hi. cbn [at_]. rewrite np_sum_lsum. unfold group. rewrite lsum_filter, Sg, <- lsum_scal. apply lsum_ext. intros o Ho.
        apply in_indices, inside_three in Ho as (a & b & k & -> & Ha & Hb & Hk). cbn [nth]. replace (proj [0%nat] false 0 [a; b; k]) with [b; k] by reflexivity.
        destruct (index_eqb [b; k] i); ring.
Qed.

(** ** The hypotheses are met *)
Definition grid : arr := mka [3; 5; 2]%nat (fun i => INR (ravel [3; 5; 2]%nat i)).
(** [x[-1, None, 3::-2]] *)
Example C56_indexer_case : let es := [IInt (-1); INew; ISlice (Some 3%Z) None (Some (-2)%Z)] in
  (rests es <= 1)%nat /\ gives (complete es) (shape grid) [1; 2; 2]%nat /\
  takes (complete es) (shape grid) [0; 1; 0]%nat [2; 1; 0]%nat /\
  exists y, indexer grid es = Ok y /\ at_ y [0; 1; 0]%nat = at_ grid [2; 1; 0]%nat.
Proof.
  cbv zeta. split; [cbn; lia|].
  replace (complete [IInt (-1); INew; ISlice (Some 3%Z) None (Some (-2)%Z)]) with [IInt (-1); INew; ISlice (Some 3%Z) None (Some (-2)%Z); IRest] by reflexivity.
  split; [|split].
  - cbn [grid shape]. apply (gives_int _ 2%nat); [unfold names; lia|]. constructor.
    replace 2%nat with (length (picked (Some 3%Z) None (Some (-2)%Z) 5)) at 2 by reflexivity. constructor; [discriminate|].
    apply (gives_rest [2%nat] [] [] []). constructor.
  - cbn [grid shape]. constructor; [unfold names; lia|]. constructor. constructor; [reflexivity|].
    apply (takes_rest [2%nat] [0%nat] [] [] [] []); repeat constructor.
  - eexists. split; reflexivity.
Qed.
Example C56_rows_case : let ix := mkints [2; 1]%nat (fun j => match j with [0; 0]%nat => -1 | _ => 0 end)%Z in
  shape grid = 3%nat :: [5; 2]%nat /\ name_rows 3 ix /\ no_row_twice 3 ix.
Proof.
  cbv zeta. split; [reflexivity|]. split.
  - intros j Hj. apply inside_two in Hj as (a & b & -> & Ha & Hb). cbn [ishape iat] in *. destruct a as [|[|a] ]; [..|lia].
    + destruct b; [|lia]. exists 2%nat. unfold names. lia.
    + exists 0%nat. unfold names. lia.
  - intros j j' k Hj Hj' H H'. apply inside_two in Hj as (a & b & -> & Ha & Hb). apply inside_two in Hj' as (a' & b' & -> & Ha' & Hb'). cbn [iat] in *.
    replace b with 0%nat in * by lia. replace b' with 0%nat in * by lia. f_equal. unfold names in *.
    destruct a as [|[|a] ], a' as [|[|a'] ]; lia.
Qed.
Example C56_permute_case : shape grid = 3%nat :: [5; 2]%nat /\ Permutation [2; 0; 1]%nat (seq 0 3) /\ Forall2 (names 3) [-1; -3; -2]%Z [2; 0; 1]%nat /\
  one_sign (Some [-1; -3; -2]%Z).
Proof.
  split; [reflexivity|]. split; [apply (perm_trans (l' := [0; 2; 1]%nat)); [constructor|constructor; constructor]|].
  split; [repeat constructor; lia|]. right. repeat constructor.
Qed.
Example C56_where_case : common [[3; 1]; [4]; [2; 1; 4]]%nat [2; 3; 4]%nat.
Proof.
  split; [reflexivity|]. intros k. split.
  - intros s [<-|[<-|[<-|[] ] ] ]; destruct k as [|[|[|[|k] ] ] ]; cbn; tauto.
  - destruct k as [|[|[|k] ] ]; cbn.
    + right. exists [4]%nat. tauto.
    + right. exists [3; 1]%nat. tauto.
    + right. exists [2; 1; 4]%nat. tauto.
    + left. now destruct k.
Qed.

Example C56_diag_case : exists x y, shape x = [3; 3]%nat /\ transposed_diag x = Ok y /\ at_ y [2; 0]%nat = 8.
Proof. exists (mka [3; 3]%nat (fun i => INR (ravel [3; 3]%nat i))). eexists. split; [reflexivity|]. split; [reflexivity|]. cbn. lra. Qed.
Example C56_diff_case : exists x y z, shape x = [2; 3]%nat /\ shape y = [4; 3]%nat /\ cartesian_diff x y = Ok z /\ shape z = [2; 4; 3]%nat.
Proof. exists (mka [2; 3]%nat (fun _ => 1)), (mka [4; 3]%nat (fun _ => 2)). eexists. repeat split; reflexivity. Qed.

Print Assumptions C56_indexer.
Print Assumptions C56_indexer_only.
Print Assumptions C56_rows.
Print Assumptions C56_rows_repeated_refuted.
Print Assumptions C56_embedding.
Print Assumptions C56_rows_only.
Print Assumptions C56_permute.
Print Assumptions C56_permute_signs_refuted.
Print Assumptions C56_where.
Print Assumptions C56_where_only.
Print Assumptions C56_transposed_diag.
Print Assumptions C56_transposed_diag_wide_refuted.
Print Assumptions C56_cartesian_diff.
