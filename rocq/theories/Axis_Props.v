(** * C53: reductions along axes, variance and softmax of the numpy backend, and their gradients. *)
From Coq Require Import Reals List ZArith Lia Lra.
From Coquelicot Require Import Coquelicot.
From Verif Require Import PyBase Deriv_Proofs Corr_Spec Corr_Proofs Pool_Proofs Axis_Model Axis_Spec Axis_Proofs.
Import ListNotations.
Open Scope R_scope.
Open Scope list_scope.
Open Scope res_scope.

Lemma reduce_ok f x a A keep : axes_of (length (shape x)) a A ->
  reduce f x a keep = Ok (mka (red_shape A keep 0 (shape x)) (fun o => f (map (at_ x) (group x A keep o)))).
Proof. intros X. unfold reduce. destruct (axes_of_ok _ _ _ X) as (-> & _). reflexivity. Qed.
Lemma group_moved x dx t A keep o : group (moved x dx t) A keep o = group x A keep o.
Proof. reflexivity. Qed.
(** The gradient of a reduction from the derivative of what it does to a group. *)
Lemma reduce_gradient f x a A keep (g G : arr) (W : list nat -> list nat -> R) : axes_of (length (shape x)) a A ->
  shape g = red_shape A keep 0 (shape x) -> shape G = shape x ->
  (forall i, inside (shape x) i -> at_ G i = at_ g (proj A keep 0 i) * W (proj A keep 0 i) i) ->
  (forall o dx, inside (shape g) o ->
     derivable_pt_lim (fun t => f (map (fun i => at_ x i + t * dx i) (group x A keep o))) 0
       (lsum (group x A keep o) (fun i => W o i * dx i))) ->
  gradient_at (fun z => reduce f z a keep) x g G.
Proof.
  intros X SG S HG HW. split; [easy|]. intros dx. rewrite sum_over_lsum.
  apply (dl_ext _ (fun t => lsum (indices (shape g)) (fun o => at_ g o * f (map (fun i => at_ x i + t * dx i) (group x A keep o))))).
  { intros t. rewrite (reduce_ok f (moved x dx t) a A keep) by exact X. cbn [weighted]. rewrite sum_over_lsum. reflexivity. }
  apply (dl_eq _ _ (lsum (indices (shape g)) (fun o => at_ g o * lsum (group x A keep o) (fun i => W o i * dx i)))).
  - apply (dl_lsum _ (fun o t => at_ g o * f (map (fun i => at_ x i + t * dx i) (group x A keep o)))).
    intros o Ho. apply in_indices in Ho. apply (dl_scal (fun t => f (map (fun i => at_ x i + t * dx i) (group x A keep o)))). now apply HW.
  - rewrite SG.
    rewrite (lsum_ext _ _ (fun o => lsum (group x A keep o) (fun i => at_ g o * (W o i * dx i)))).
    2:{ intros o _. now rewrite lsum_scal. }
    rewrite (group_sum x A keep (fun o i => at_ g o * (W o i * dx i))). apply lsum_ext.
    intros i Hi. apply in_indices in Hi. rewrite HG by easy. ring.
Qed.

Lemma dl_sum_lines {A} (L : list A) a b : derivable_pt_lim (fun t => lsum L (fun i => a i + t * b i)) 0 (lsum L b).
Proof.
  apply (dl_of_affine _ (lsum L a)). intros t. rewrite lsum_plus, lsum_scal. reflexivity.
Qed.

(** ** Sums *)
Theorem C53_sum x a A keep : axes_of (length (shape x)) a A ->
  computes (reduce_sum x a keep) (result_shape A keep (shape x))
    (fun o v => v = sum_into A keep (shape x) o (at_ x)) /\
  forall g, shape g = result_shape A keep (shape x) ->
    exists G, reduce_sum_grad g x a keep = Ok G /\ gradient_at (fun z => reduce_sum z a keep) x g G.
Proof.
  intros X. rewrite result_shape_red. destruct (axes_of_ok _ _ _ X) as (E1 & E2 & N & H & F). split.
  - eexists. split; [now apply (reduce_ok np_sum x a A keep)|]. split; [reflexivity|]. intros o _. cbn [at_].
    now rewrite sum_into_group, np_sum_lsum.
  - intros g Sg.
    assert (Q : forall G, shape G = shape x -> (forall i, inside (shape x) i -> at_ G i = at_ g (proj A keep 0 i)) ->
                gradient_at (fun z => reduce_sum z a keep) x g G).
    { intros G SG HG. apply (reduce_gradient np_sum x a A keep g G (fun _ _ => 1)); try easy.
      - intros i Hi. rewrite HG by easy. ring.
      - intros o dx _.
        apply (dl_ext _ (fun t => lsum (group x A keep o) (fun i => at_ x i + t * dx i))); [intros t; apply np_sum_lsum|].
        apply (dl_eq _ _ (lsum (group x A keep o) dx)); [apply dl_sum_lines|]. apply lsum_ext. intros i _. ring. }
    destruct a as [|z|zs].
    + eexists. split; [reflexivity|]. apply Q; [easy|]. intros i Hi. cbn [at_]. cbn in X. subst A.
      rewrite (bat_none g keep (shape x)) by easy. ring.
    + destruct (expansion_spec g A keep (shape x) N H Sg) as (_ & S2 & B).
      unfold reduce_sum_grad. rewrite (expanded_ok g (AInt z) A keep (shape x)) by easy. cbn [bind].
      rewrite (broadcast_kept _ A) by easy. eexists. split; [reflexivity|]. now apply Q.
    + destruct (expansion_spec g A keep (shape x) N H Sg) as (_ & S2 & B).
      unfold reduce_sum_grad. rewrite (expanded_ok g (ATuple zs) A keep (shape x)) by easy. cbn [bind].
      rewrite (broadcast_kept _ A) by easy. eexists. split; [reflexivity|]. now apply Q.
Qed.

(** ** Means *)
Lemma count_group A keep x o : count_into A keep (shape x) o = INR (length (group x A keep o)).
Proof. unfold count_into. rewrite sum_into_group, lsum_const. ring. Qed.
Lemma np_mean_lsum {A} (L : list A) f : np_mean (map f L) = lsum L f / INR (length L).
Proof. unfold np_mean. now rewrite np_sum_lsum, map_length. Qed.
Lemma raw_dims x a A : axes_of (length (shape x)) a A ->
  match a with
  | AInt z => dim_of (shape x) z = Ok (red_size A 0 (shape x))
  | ATuple zs => dims_of (shape x) zs = Ok (red_size A 0 (shape x))
  | ANone => size (shape x) = red_size A 0 (shape x)
  end.
Proof.
  intros X. pose proof (dims_ok _ _ _ X) as D. destruct a as [|z|zs]; cbn [raw_axes] in D.
  - cbn in X. subst A. symmetry. apply red_size_all.
  - cbn [dims_of bind] in D. destruct (dim_of (shape x) z) as [d|]; [|easy]. cbn [bind] in D. now rewrite Nat.mul_1_r in D.
  - easy.
Qed.
Theorem C53_mean x a A keep : axes_of (length (shape x)) a A -> positive (shape x) ->
  computes (reduce_mean x a keep) (result_shape A keep (shape x))
    (fun o v => v = sum_into A keep (shape x) o (at_ x) / count_into A keep (shape x) o /\
                0 < count_into A keep (shape x) o) /\
  forall g, shape g = result_shape A keep (shape x) ->
    exists G, reduce_mean_grad g x a keep = Ok G /\ gradient_at (fun z => reduce_mean z a keep) x g G.
Proof.
  intros X P. rewrite result_shape_red. destruct (axes_of_ok _ _ _ X) as (E1 & E2 & N & H & F).
  assert (PS : 0 < INR (red_size A 0 (shape x))) by (apply lt_0_INR, red_size_pos; easy).
  split.
  - eexists. split; [now apply (reduce_ok np_mean x a A keep)|]. split; [reflexivity|]. intros o Ho. cbn [at_].
    rewrite count_group, sum_into_group, np_mean_lsum. split; [reflexivity|]. rewrite group_length by easy. easy.
  - intros g Sg.
    assert (Q : forall G, shape G = shape x ->
              (forall i, inside (shape x) i -> at_ G i = at_ g (proj A keep 0 i) / INR (red_size A 0 (shape x))) ->
                gradient_at (fun z => reduce_mean z a keep) x g G).
    { intros G SG HG. apply (reduce_gradient np_mean x a A keep g G (fun _ _ => / INR (red_size A 0 (shape x)))); try easy.
      intros o dx Ho. rewrite Sg in Ho.
      apply (dl_ext _ (fun t => / INR (red_size A 0 (shape x)) * lsum (group x A keep o) (fun i => at_ x i + t * dx i))).
      { intros t. rewrite np_mean_lsum, group_length by easy. unfold Rdiv. ring. }
      apply (dl_eq _ _ (/ INR (red_size A 0 (shape x)) * lsum (group x A keep o) dx)).
      - apply (dl_scal (fun t => lsum (group x A keep o) (fun i => at_ x i + t * dx i))). apply dl_sum_lines.
      - now rewrite lsum_scal. }
    pose proof (raw_dims x a A X) as D.
    destruct a as [|z|zs].
    + eexists. split; [reflexivity|]. apply Q; [easy|]. intros i Hi. cbn [at_]. rewrite D. cbn in X. subst A.
      rewrite (bat_none g keep (shape x)) by easy. unfold Rdiv. ring.
    + destruct (expansion_spec g A keep (shape x) N H Sg) as (_ & S2 & B).
      unfold reduce_mean_grad. rewrite D. cbn [bind]. rewrite (expanded_ok g (AInt z) A keep (shape x)) by easy. cbn [bind].
      rewrite (broadcast_kept _ A) by easy. cbn [bind]. eexists. split; [reflexivity|]. apply Q; [easy|].
      intros i Hi. cbn [at_]. now rewrite B.
    + destruct (expansion_spec g A keep (shape x) N H Sg) as (_ & S2 & B).
      unfold reduce_mean_grad. rewrite D. cbn [bind]. rewrite (expanded_ok g (ATuple zs) A keep (shape x)) by easy. cbn [bind].
      rewrite (broadcast_kept _ A) by easy. cbn [bind]. eexists. split; [reflexivity|]. apply Q; [easy|].
      intros i Hi. cbn [at_]. now rewrite B.
Qed.

(** ** Variance *)
Lemma centered {A} (L : list A) a : (length L <> 0)%nat -> lsum L (fun i => a i - lsum L a / INR (length L)) = 0.
Proof.
  intros N. transitivity (lsum L a - INR (length L) * (lsum L a / INR (length L))).
  - rewrite <- lsum_const. unfold Rminus. rewrite <- (Rmult_1_l (- lsum L _)), <- Ropp_mult_distr_r, Ropp_mult_distr_l.
    rewrite <- lsum_scal, <- lsum_plus. apply lsum_ext. intros i _. ring.
  - field. now apply not_0_INR.
Qed.
Lemma dl_variance {A} (L : list A) a b c : (length L <> 0)%nat -> INR (length L) - c <> 0 ->
  derivable_pt_lim (fun t => np_var c (map (fun i => a i + t * b i) L)) 0
    (lsum L (fun i => 2 / (INR (length L) - c) * (a i - lsum L a / INR (length L)) * b i)).
Proof.
  intros N NC. set (n := INR (length L)) in *. set (ma := lsum L a / n). set (mb := lsum L b / n).
  assert (Nn : n <> 0) by now apply not_0_INR.
  apply (dl_ext _ (fun t => / (n - c) * lsum L (fun i => ((a i - ma) + t * (b i - mb)) * ((a i - ma) + t * (b i - mb))))).
  { intros t. unfold np_var. rewrite np_mean_lsum, map_map, np_sum_lsum, map_length. fold n. unfold Rdiv.
    rewrite Rmult_comm. f_equal. apply lsum_ext. intros i _.
    rewrite lsum_plus, lsum_scal. unfold ma, mb, Rdiv. ring. }
  apply (dl_eq _ _ (/ (n - c) * lsum L (fun i => 2 * (a i - ma) * (b i - mb)))).
  - apply (dl_scal (fun t => lsum L (fun i => ((a i - ma) + t * (b i - mb)) * ((a i - ma) + t * (b i - mb))))).
    apply (dl_lsum L (fun i t => ((a i - ma) + t * (b i - mb)) * ((a i - ma) + t * (b i - mb)))).
    intros i _. apply is_derive_Reals. auto_derive; [easy|ring].
  - rewrite <- lsum_scal.
    rewrite (lsum_ext _ _ (fun i => 2 / (n - c) * (a i - ma) * b i + (- (2 / (n - c) * mb)) * (a i - ma))).
    2:{ intros i _. unfold Rdiv. ring. }
    rewrite lsum_plus, lsum_scal. replace (lsum L (fun i => a i - ma)) with 0 by (symmetry; apply (centered L a N)). ring.
Qed.
Lemma bat_mean x a A i keep : axes_of (length (shape x)) a A -> inside (shape x) i ->
  exists m, reduce np_mean x a true = Ok m /\ bat m i = np_mean (map (at_ x) (group x A keep (proj A keep 0 i))).
Proof.
  intros X Hi. eexists. split; [now apply (reduce_ok np_mean x a A true)|].
  rewrite (bat_kept _ A (shape x)) by easy. cbn [at_]. now rewrite (group_keeps x A true keep).
Qed.
Theorem C53_variance c x a A keep : axes_of (length (shape x)) a A -> positive (shape x) -> a <> ATuple [] ->
  (forall o, inside (result_shape A keep (shape x)) o -> count_into A keep (shape x) o <> c) ->
  computes (variance c x a keep) (result_shape A keep (shape x))
    (fun o v => let n := count_into A keep (shape x) o in
                let mean := sum_into A keep (shape x) o (at_ x) / n in
                v = sum_into A keep (shape x) o (fun i => (at_ x i - mean) ^ 2) / (n - c)) /\
  forall g, shape g = result_shape A keep (shape x) ->
    exists G, variance_grad c g x a keep = Ok G /\ gradient_at (fun z => variance c z a keep) x g G.
Proof.
  intros X P NT NC. rewrite result_shape_red in *. destruct (axes_of_ok _ _ _ X) as (E1 & E2 & N & H & F).
  assert (PS : (0 < red_size A 0 (shape x))%nat) by (apply red_size_pos; easy).
  split.
  - eexists. split; [now apply (reduce_ok (np_var c) x a A keep)|]. split; [reflexivity|]. intros o Ho. cbn [at_]. cbv zeta.
    rewrite count_group, !sum_into_group. unfold np_var. rewrite np_mean_lsum, map_map, np_sum_lsum, map_length.
    unfold Rdiv. f_equal. apply lsum_ext. intros i _. ring.
  - intros g Sg.
    assert (Q : forall G, shape G = shape x ->
              (forall i, inside (shape x) i -> at_ G i =
                 2 / (INR (red_size A 0 (shape x)) - c) * (at_ x i - np_mean (map (at_ x) (group x A keep (proj A keep 0 i)))) * at_ g (proj A keep 0 i)) ->
                gradient_at (fun z => variance c z a keep) x g G).
    { intros G SG HG. apply (reduce_gradient (np_var c) x a A keep g G
        (fun o i => 2 / (INR (red_size A 0 (shape x)) - c) * (at_ x i - np_mean (map (at_ x) (group x A keep o))))); try easy.
      - intros i Hi. rewrite HG by easy. ring.
      - intros o dx Ho. rewrite Sg in Ho. specialize (NC o Ho). rewrite count_group in NC.
        pose proof (group_length x A keep o Ho) as L.
        eapply dl_eq; [apply dl_variance|].
        + rewrite L. lia.
        + intros E. apply NC. lra.
        + rewrite L. apply lsum_ext. intros i _. now rewrite np_mean_lsum, L. }
    pose proof (raw_dims x a A X) as D.
    assert (B : forall i, inside (shape x) i -> bat (mka (red_shape A true 0 (shape x)) (fun o => np_mean (map (at_ x) (group x A true o)))) i
              = np_mean (map (at_ x) (group x A keep (proj A keep 0 i)))).
    { intros i Hi. rewrite (bat_kept _ A (shape x)) by easy. cbn [at_]. now rewrite (group_keeps x A true keep). }
    destruct a as [|z|zs].
    + unfold variance_grad. rewrite (reduce_ok np_mean x ANone A true X). cbn [bind]. eexists. split; [reflexivity|].
      apply Q; [easy|]. intros i Hi. cbn [at_]. rewrite B by easy. rewrite D. cbn in X. subst A.
      now rewrite (bat_none g keep (shape x)).
    + destruct (expansion_spec g A keep (shape x) N H Sg) as (_ & S2 & B2).
      unfold variance_grad. rewrite D. cbn [bind]. rewrite (expanded_ok g (AInt z) A keep (shape x)) by easy. cbn [bind].
      rewrite (reduce_ok np_mean x (AInt z) A true X). cbn [bind]. eexists. split; [reflexivity|].
      apply Q; [easy|]. intros i Hi. cbn [at_]. now rewrite B, B2.
    + destruct (expansion_spec g A keep (shape x) N H Sg) as (_ & S2 & B2).
      unfold variance_grad.
      assert (D' : match zs with [] => Err IndexError | _ :: _ => dims_of (shape x) zs end = Ok (red_size A 0 (shape x))).
      { destruct zs; [easy|exact D]. }
      rewrite D'. cbn [bind]. rewrite (expanded_ok g (ATuple zs) A keep (shape x)) by easy. cbn [bind].
      rewrite (reduce_ok np_mean x (ATuple zs) A true X). cbn [bind]. eexists. split; [reflexivity|].
      apply Q; [easy|]. intros i Hi. cbn [at_]. now rewrite B, B2.
Qed.
(** Over no axes the variance is computed, its gradient is not. *)
Theorem C53_variance_no_axes_refuted : exists c x g,
  (exists y, variance c x (ATuple []) false = Ok y) /\ variance_grad c g x (ATuple []) false = Err IndexError.
Proof.
  exists 0, (mka [2%nat] (fun _ => 1)), (mka [2%nat] (fun _ => 1)). split; [|reflexivity]. now eexists.
Qed.

(** ** Errors *)
(** Axes that are out of range or given twice are rejected. *)
Theorem C53_axes_only x a keep : (forall A, ~ axes_of (length (shape x)) a A) -> forall c,
  exists e, reduce_sum x a keep = Err e /\ reduce_mean x a keep = Err e /\ reduce_prod x a keep = Err e /\
    reduce_max x a keep = Err e /\ reduce_min x a keep = Err e /\ variance c x a keep = Err e /\
    (e = IndexError \/ e = ValueError).
Proof.
  intros H c.
  assert (E : exists e, norm_axes (length (shape x)) a = Err e /\ (e = IndexError \/ e = ValueError)).
  { destruct (norm_axes (length (shape x)) a) as [A|e] eqn:E; [now apply norm_axes_inv, H in E|].
    exists e. split; [easy|].
    assert (L : forall zs e, norm_list (length (shape x)) zs = Err e -> e = IndexError).
    { induction zs as [|z zs IH]; cbn; intros e' E'; [easy|].
      unfold norm_axis in E'. destruct (_ || _)%bool; [now injection E'|]. cbn [bind] in E'.
      destruct (norm_list (length (shape x)) zs) as [l|e2] eqn:E2; cbn [bind] in E'; [easy|]. injection E' as <-. now apply IH. }
    destruct a as [|z|zs]; cbn [norm_axes] in E; [easy| |].
    - left. now apply (L [z]).
    - destruct (norm_list (length (shape x)) zs) as [l|e2] eqn:E2; cbn [bind] in E.
      + destruct (distinct l); [easy|]. injection E as <-. now right.
      + injection E as <-. left. now apply (L zs). }
  destruct E as (e & E & He). exists e.
  unfold reduce_sum, reduce_mean, reduce_prod, reduce_max, reduce_min, variance, reduce, reduce_nonempty. rewrite E. cbn [bind].
  repeat (split; [reflexivity|]). exact He.
Qed.
