(** * C53, continued: softmax, maxima, minima and products, and their gradients. *)
From Coq Require Import Reals List ZArith Lia Lra.
From Coquelicot Require Import Coquelicot.
From Verif Require Import PyBase Deriv_Proofs Corr_Spec Corr_Proofs Pool_Model Pool_Spec Pool_Proofs
  Axis_Model Axis_Spec Axis_Proofs Axis_Props.
Import ListNotations.
Open Scope R_scope.
Open Scope list_scope.
Open Scope res_scope.
Local Notation arr := Axis_Model.arr.
Local Notation mka := Axis_Model.mka.
Local Notation shape := Axis_Model.shape.

Lemma group_nonempty x A keep o : positive (shape x) -> inside (red_shape A keep 0 (shape x)) o -> group x A keep o <> [].
Proof.
  intros P Ho E. pose proof (group_length x A keep o Ho) as L. rewrite E in L.
  pose proof (red_size_pos A (shape x) P 0). cbn in L. lia.
Qed.
Lemma nonempty_ok f x a A keep : axes_of (length (shape x)) a A -> positive (shape x) ->
  reduce_nonempty f x a keep = reduce f x a keep.
Proof.
  intros X P. unfold reduce_nonempty, reduce. destruct (axes_of_ok _ _ _ X) as (-> & _). cbn [bind].
  destruct (existsb _ _) eqn:E; [|reflexivity]. apply existsb_exists in E. destruct E as (o & Ho & E).
  apply in_indices in Ho. pose proof (group_nonempty x A keep o P Ho). destruct (group x A keep o); easy.
Qed.
Lemma gradient_ext F F' x g G : (forall z, shape z = shape x -> F z = F' z) -> gradient_at F x g G -> gradient_at F' x g G.
Proof.
  intros E [S H]. split; [easy|]. intros dx. eapply dl_ext; [|apply (H dx)]. intros t. cbn beta. now rewrite E.
Qed.

(** ** Softmax *)
Lemma lsum_pos {A} (L : list A) f : L <> [] -> (forall a, In a L -> 0 < f a) -> 0 < lsum L f.
Proof.
  destruct L as [|a L]; [easy|]. intros _ H. cbn.
  assert (G : 0 <= fold_right Rplus 0 (map f L)).
  { assert (H' : forall b, In b L -> 0 < f b) by (intros b Hb; apply H; now right).
    clear H. induction L as [|b L IH]; cbn; [lra|]. pose proof (H' b (or_introl eq_refl)).
    enough (0 <= fold_right Rplus 0 (map f L)) by lra. apply IH. intros c Hc. apply H'. now right. }
  pose proof (H a (or_introl eq_refl)). lra.
Qed.
(** The softmax as a quotient of exponentials, for a group with [names]. *)
Definition soft (x : arr) (k : nat) (i : list nat) : R :=
  exp (at_ x i) / lsum (group x [k] true (proj [k] true 0 i)) (fun j => exp (at_ x j)).
Lemma softmax_ok x z k : names (length (shape x)) z k -> positive (shape x) ->
  exists y, softmax x z = Ok y /\ shape y = shape x /\ forall i, inside (shape x) i -> at_ y i = soft x k i.
Proof.
  intros Nk P. assert (X : axes_of (length (shape x)) (AInt z) [k]) by (exists k; easy).
  unfold softmax. rewrite (nonempty_ok np_max x (AInt z) [k] true X P), (reduce_ok np_max x (AInt z) [k] true X). cbn [bind].
  set (m := mka _ (fun o => np_max (map (at_ x) (group x [k] true o)))).
  set (e := mka (shape x) (fun i => exp (at_ x i - bat m i))).
  rewrite (reduce_ok np_sum e (AInt z) [k] true X). cbn [bind]. eexists. split; [reflexivity|]. split; [reflexivity|].
  intros i Hi. cbn [at_]. rewrite (bat_kept _ [k] (shape x)) by easy. cbn [at_].
  change (group e [k] true (proj [k] true 0 i)) with (group x [k] true (proj [k] true 0 i)).
  rewrite np_sum_lsum. set (o := proj [k] true 0 i).
  assert (E : forall j, In j (group x [k] true o) -> at_ e j = exp (- at_ m o) * exp (at_ x j)).
  { intros j Hj. apply in_group in Hj. destruct Hj as [Hj Ej]. cbn [e at_].
    rewrite (bat_kept m [k] (shape x)) by easy. rewrite Ej, <- exp_plus. f_equal. ring. }
  rewrite (lsum_ext _ _ (fun j => exp (- at_ m o) * exp (at_ x j)) E), lsum_scal.
  rewrite (E i) by (apply in_group; easy). unfold soft. fold o.
  assert (0 < lsum (group x [k] true o) (fun j => exp (at_ x j))).
  { apply lsum_pos; [apply group_nonempty; [easy|]; now apply proj_inside|]. intros j _. apply exp_pos. }
  pose proof (exp_pos (- at_ m o)). field. split; lra.
Qed.

Theorem C53_softmax x z k : names (length (shape x)) z k -> positive (shape x) ->
  computes (softmax x z) (shape x) (fun i v =>
    v = exp (at_ x i) / sum_into [k] true (shape x) (place [k] true i) (fun j => exp (at_ x j))) /\
  (forall y, softmax x z = Ok y -> forall i, inside (shape x) i ->
    0 < at_ y i /\ sum_into [k] true (shape x) (place [k] true i) (at_ y) = 1) /\
  forall g, shape g = shape x -> exists y G, softmax x z = Ok y /\ softmax_grad y g x z = Ok G /\
    gradient_at (fun w => softmax w z) x g G.
Proof.
  intros Nk P. assert (X : axes_of (length (shape x)) (AInt z) [k]) by (exists k; easy).
  destruct (softmax_ok x z k Nk P) as (y & Ey & Sy & Hy).
  assert (Pos : forall i, inside (shape x) i -> 0 < lsum (group x [k] true (proj [k] true 0 i)) (fun j => exp (at_ x j))).
  { intros i Hi. apply lsum_pos; [apply group_nonempty; [easy|]; now apply proj_inside|]. intros j _. apply exp_pos. }
  split; [|split].
  - exists y. split; [easy|]. split; [easy|]. intros i Hi. rewrite sum_into_group, place_proj. now apply Hy.
  - intros y' E i Hi. rewrite Ey in E. injection E as <-. split.
    + rewrite Hy by easy. apply Rdiv_lt_0_compat; [apply exp_pos|now apply Pos].
    + rewrite sum_into_group, place_proj. pose proof (Pos i Hi) as Q. set (o := proj [k] true 0 i) in *.
      rewrite (lsum_ext _ _ (fun j => exp (at_ x j) * / lsum (group x [k] true o) (fun j => exp (at_ x j)))).
      * rewrite lsum_scal_r. field. lra.
      * intros j Hj. apply in_group in Hj. destruct Hj as [Hj Ej]. rewrite Hy by easy. unfold soft. now rewrite Ej.
  - intros g Sg. exists y. unfold softmax_grad.
    set (w := mka (shape y) (fun i => at_ y i * at_ g i)).
    assert (Xw : axes_of (length (shape w)) (AInt z) [k]) by (cbn [w Axis_Model.shape]; now rewrite Sy).
    rewrite (reduce_ok np_sum w (AInt z) [k] true Xw). cbn [bind].
    eexists. split; [easy|]. split; [reflexivity|]. split; [exact Sy|]. intros dx. rewrite sum_over_lsum.
    set (grp := fun i => group x [k] true (proj [k] true 0 i)).
    apply (dl_ext _ (fun t => lsum (indices (shape x)) (fun i =>
       at_ g i * (exp (at_ x i + t * dx i) / lsum (grp i) (fun j => exp (at_ x j + t * dx j)))))).
    { intros t. destruct (softmax_ok (moved x dx t) z k Nk P) as (yt & Et & _ & Ht). rewrite Et. cbn [weighted].
      rewrite sum_over_lsum, Sg. apply lsum_ext. intros i Hi. apply in_indices in Hi. rewrite Ht by exact Hi. reflexivity. }
    set (S := fun i => lsum (grp i) (fun j => exp (at_ x j))).
    apply (dl_eq _ _ (lsum (indices (shape x)) (fun i => at_ g i *
       ((exp (at_ x i) * dx i * S i - lsum (grp i) (fun j => exp (at_ x j) * dx j) * exp (at_ x i)) / Rsqr (S i))))).
    + apply (dl_lsum _ (fun i t => at_ g i * (exp (at_ x i + t * dx i) / lsum (grp i) (fun j => exp (at_ x j + t * dx j))))).
      intros i Hi. apply in_indices in Hi.
      apply (dl_scal (fun t => exp (at_ x i + t * dx i) / lsum (grp i) (fun j => exp (at_ x j + t * dx j)))).
      assert (D : forall j, derivable_pt_lim (fun t => exp (at_ x j + t * dx j)) 0 (exp (at_ x j) * dx j)).
      { intros j. apply is_derive_Reals. auto_derive; [easy|]. rewrite Rmult_0_l, Rplus_0_r. ring. }
      assert (E0 : forall j, exp (at_ x j + 0 * dx j) = exp (at_ x j)) by (intros j; f_equal; ring).
      pose proof (derivable_pt_lim_div (fun t => exp (at_ x i + t * dx i)) (fun t => lsum (grp i) (fun j => exp (at_ x j + t * dx j))) 0
        (exp (at_ x i) * dx i) (lsum (grp i) (fun j => exp (at_ x j) * dx j)) (D i)
        (dl_lsum (grp i) (fun j t => exp (at_ x j + t * dx j)) (fun j => exp (at_ x j) * dx j) 0 (fun j _ => D j))) as Q.
      cbv beta in Q. rewrite E0 in Q. rewrite (lsum_ext (grp i) (fun j => exp (at_ x j + 0 * dx j)) (fun j => exp (at_ x j)) (fun j _ => E0 j)) in Q.
      apply Q. apply Rgt_not_eq. now apply Pos.
    + cbn [at_].
      set (s := fun i => exp (at_ x i) / S i).
      assert (HS : forall i j, inside (shape x) i -> In j (grp i) -> S j = S i).
      { intros i j Hi Hj. apply in_group in Hj. destruct Hj as [_ Ej]. unfold S, grp. now rewrite Ej. }
      rewrite (lsum_ext _ _ (fun i => at_ g i * s i * dx i + (-1) * (lsum (grp i) (fun j => at_ g i * s i * (s j * dx j))))).
      2:{ intros i Hi. apply in_indices in Hi. pose proof (Pos i Hi) as Q. fold (grp i) in Q. fold (S i) in Q.
          rewrite (lsum_ext (grp i) (fun j => at_ g i * s i * (s j * dx j)) (fun j => at_ g i * s i * / S i * (exp (at_ x j) * dx j))).
          - rewrite lsum_scal. unfold s, Rsqr. field. lra.
          - intros j Hj. unfold s. rewrite (HS i j Hi Hj). field. lra. }
      transitivity (lsum (indices (shape x)) (fun i => at_ g i * s i * dx i + (-1) * (lsum (grp i) (fun j => at_ g j * s j * (s i * dx i))))).
      2:{ apply lsum_ext. intros i Hi. apply in_indices in Hi.
          rewrite (bat_kept _ [k] (shape x)); [|cbn [w Axis_Model.shape]; now rewrite Sy|easy]. cbn [at_].
          replace (group w [k] true (proj [k] true 0 i)) with (grp i) by (unfold grp, group; cbn [w Axis_Model.shape]; now rewrite Sy).
          rewrite np_sum_lsum. rewrite (lsum_ext (grp i) (at_ w) (fun j => at_ g j * s j)).
          - rewrite Hy by easy. change (soft x k i) with (s i).
            rewrite lsum_scal_r. ring.
          - intros j Hj. apply in_group in Hj. destruct Hj as [Hj _]. cbn [w at_]. rewrite Hy by easy. change (soft x k j) with (s j). ring. }
      rewrite !lsum_plus, !lsum_scal. f_equal. f_equal. unfold grp, group.
      rewrite (lsum_ext _ _ (fun i => lsum (indices (shape x)) (fun j =>
         if index_eqb (proj [k] true 0 j) (proj [k] true 0 i) then at_ g i * s i * (s j * dx j) else 0))).
      2:{ intros i _. apply lsum_filter. }
      rewrite lsum_swap. apply lsum_ext. intros j _. rewrite lsum_filter. apply lsum_ext. intros i _.
      rewrite index_eqb_sym. reflexivity.
Qed.

(** ** Maxima and minima *)
Definition tie_free (le : R -> R -> Prop) (A : list nat) (keep : bool) (x : arr) : Prop :=
  forall i j v, inside (shape x) i -> inside (shape x) j -> place A keep i = place A keep j ->
    best_into le A keep (shape x) (place A keep i) (at_ x) v -> at_ x i = v -> at_ x j = v -> i = j.

Section Best.
  Variable best : list R -> R.
  Variable le : R -> R -> Prop.
  Hypothesis best_in : forall l, l <> [] -> In (best l) l.
  Hypothesis best_bound : forall l v, In v l -> le v (best l).
  Hypothesis le_antisym : forall a b, le a b -> le b a -> a = b.
  Hypothesis dl_best : forall (L : list (list nat)) a b, NoDup L -> L <> [] ->
    (forall i j, In i L -> In j L -> a i = best (map a L) -> a j = best (map a L) -> i = j) ->
    derivable_pt_lim (fun t => best (map (fun l => a l + t * b l) L)) 0
      (lsum L (fun l => equal (best (map a L)) (a l) * b l)).

  Lemma best_is x A keep o v : positive (shape x) -> inside (red_shape A keep 0 (shape x)) o ->
    (best_into le A keep (shape x) o (at_ x) v <-> v = best (map (at_ x) (group x A keep o))).
  Proof.
    intros P Ho.
    assert (B : best_into le A keep (shape x) o (at_ x) (best (map (at_ x) (group x A keep o)))).
    { split.
      - assert (N : map (at_ x) (group x A keep o) <> []).
        { intros E. apply map_eq_nil in E. now apply (group_nonempty x A keep o P Ho). }
        apply best_in, in_map_iff in N. destruct N as (i & E & Hi). apply in_group in Hi. destruct Hi as [Hi Hp].
        exists i. split; [easy|]. rewrite place_proj. easy.
      - intros i Hi Hp. rewrite place_proj in Hp. apply best_bound, in_map, in_group. easy. }
    split; [|intros ->; exact B]. intros [(i & Hi & Hp & <-) H]. destruct B as [(j & Hj & Hpj & E) B].
    apply le_antisym; [now apply B|]. rewrite <- E. now apply H.
  Qed.
  Lemma lsum_one (L : list (list nat)) a : NoDup L -> L <> [] ->
    (forall i j, In i L -> In j L -> a i = best (map a L) -> a j = best (map a L) -> i = j) ->
    lsum L (fun l => equal (best (map a L)) (a l)) = 1.
  Proof.
    intros N NE T. assert (M : map a L <> []) by (intros E; now apply map_eq_nil in E).
    apply best_in, in_map_iff in M. destruct M as (i & E & Hi).
    rewrite (lsum_single L i); [|easy|easy|].
    - unfold equal. destruct (Req_EM_T _ _); congruence.
    - intros j Hj Nj. unfold equal. destruct (Req_EM_T _ _) as [Ej|]; [|easy]. exfalso. apply Nj. now apply T.
  Qed.
  Lemma best_theorem x a A keep : axes_of (length (shape x)) a A -> positive (shape x) ->
    computes (reduce_nonempty best x a keep) (result_shape A keep (shape x))
      (fun o v => best_into le A keep (shape x) o (at_ x) v) /\
    forall g, shape g = result_shape A keep (shape x) ->
      exists G, reduce_best_grad best g x a keep = Ok G /\ shape G = shape x /\
        (forall i v, inside (shape x) i -> best_into le A keep (shape x) (place A keep i) (at_ x) v ->
           at_ G i = if Req_EM_T (at_ x i) v
                     then at_ g (place A keep i) /
                          sum_into A keep (shape x) (place A keep i) (fun j => if Req_EM_T (at_ x j) v then 1 else 0)
                     else 0) /\
        (tie_free le A keep x -> gradient_at (fun z => reduce_nonempty best z a keep) x g G).
  Proof.
    intros X P. rewrite result_shape_red. destruct (axes_of_ok _ _ _ X) as (E1 & E2 & N & H & F). split.
    { rewrite (nonempty_ok best x a A keep X P). eexists. split; [now apply (reduce_ok best x a A keep)|].
      split; [reflexivity|]. intros o Ho. now apply best_is. }
    intros g Sg.
    set (top := fun i => best (map (at_ x) (group x A keep (proj A keep 0 i)))).
    set (cnt := fun i => lsum (group x A keep (proj A keep 0 i)) (fun j => equal (top i) (at_ x j))).
    assert (Q : forall G, shape G = shape x ->
        (forall i, inside (shape x) i -> at_ G i = equal (top i) (at_ x i) * at_ g (proj A keep 0 i) / cnt i) ->
        shape G = shape x /\
        (forall i v, inside (shape x) i -> best_into le A keep (shape x) (place A keep i) (at_ x) v ->
           at_ G i = if Req_EM_T (at_ x i) v
                     then at_ g (place A keep i) /
                          sum_into A keep (shape x) (place A keep i) (fun j => if Req_EM_T (at_ x j) v then 1 else 0)
                     else 0) /\
        (tie_free le A keep x -> gradient_at (fun z => reduce_nonempty best z a keep) x g G)).
    { intros G SG HG. split; [easy|]. split.
      - intros i v Hi Hv. rewrite place_proj in *. apply best_is in Hv; [|easy|now apply proj_inside].
        fold (top i) in Hv. subst v. rewrite HG by easy. rewrite sum_into_group. unfold cnt.
        rewrite (lsum_ext (group x A keep (proj A keep 0 i)) (fun j => if Req_EM_T (at_ x j) (top i) then 1 else 0) (fun j => equal (top i) (at_ x j))).
        + unfold equal at 1. destruct (Req_EM_T (top i) (at_ x i)), (Req_EM_T (at_ x i) (top i)); try congruence; unfold Rdiv; ring.
        + intros j _. unfold equal. destruct (Req_EM_T _ _), (Req_EM_T _ _); congruence.
      - intros T.
        assert (T' : forall o, inside (red_shape A keep 0 (shape x)) o -> forall i j, In i (group x A keep o) -> In j (group x A keep o) ->
                  at_ x i = best (map (at_ x) (group x A keep o)) -> at_ x j = best (map (at_ x) (group x A keep o)) -> i = j).
        { intros o Ho i j Hi Hj Ei Ej. apply in_group in Hi, Hj. destruct Hi as [Hi Pi], Hj as [Hj Pj].
          apply (T i j (best (map (at_ x) (group x A keep o)))); try easy.
          - rewrite !place_proj. congruence.
          - rewrite place_proj, Pi. now apply best_is. }
        apply (gradient_ext (fun z => reduce best z a keep)).
        { intros z Sz. symmetry. apply (nonempty_ok best z a A keep); now rewrite Sz. }
        apply (reduce_gradient best x a A keep g G (fun o i => equal (best (map (at_ x) (group x A keep o))) (at_ x i))); try easy.
        + intros i Hi. rewrite HG by easy. unfold cnt, top. rewrite lsum_one.
          * fold (top i). field.
          * apply nodup_group.
          * apply group_nonempty; [easy|now apply proj_inside].
          * apply T'. now apply proj_inside.
        + intros o dx Ho. rewrite Sg in Ho. apply (dl_best (group x A keep o) (at_ x) dx).
          * apply nodup_group.
          * now apply group_nonempty.
          * now apply T'. }
    unfold reduce_best_grad. rewrite (nonempty_ok best x a A true X P), (reduce_ok best x a A true X). cbn [bind].
    set (m := mka _ (fun o => best (map (at_ x) (group x A true o)))).
    assert (Bm : forall i, inside (shape x) i -> bat m i = top i).
    { intros i Hi. rewrite (bat_kept m A (shape x)) by easy. cbn [m at_]. now rewrite (group_keeps x A true keep). }
    set (mask := mka (shape x) (fun i => equal (bat m i) (at_ x i))).
    assert (Bc : forall i, inside (shape x) i ->
              bat (mka (red_shape A true 0 (shape mask)) (fun o => np_sum (map (at_ mask) (group mask A true o)))) i = cnt i).
    { intros i Hi. rewrite (bat_kept _ A (shape x)) by easy. cbn [at_]. rewrite np_sum_lsum.
      change (group mask A true (proj A true 0 i)) with (group x A true (proj A true 0 i)).
      rewrite (group_keeps x A true keep) by easy. unfold cnt. apply lsum_ext. intros j Hj.
      apply in_group in Hj. destruct Hj as [Hj Ej]. cbn [mask at_]. rewrite Bm by easy. unfold top. now rewrite Ej. }
    destruct a as [|z|zs].
    - eexists. split; [reflexivity|]. apply Q; [easy|]. intros i Hi. cbn [at_]. change (at_ mask i) with (equal (bat m i) (at_ x i)). rewrite Bm by easy.
      cbn in X. subst A. rewrite (bat_none g keep (shape x)) by easy. f_equal. f_equal.
      rewrite np_sum_lsum. unfold cnt.
      assert (EG : forall i, inside (shape x) i -> group x (seq 0 (length (shape x))) keep (proj (seq 0 (length (shape x))) keep 0 i) = indices (shape x)).
      { clear i Hi. intros i Hi. rewrite (group_keeps x _ keep false) by easy. unfold group.
        rewrite <- (filter_ext_in (fun _ => true)).
        - generalize (indices (shape x)). intros l. induction l as [|b l IH]; cbn; congruence.
        - intros j Hj. apply in_indices in Hj. symmetry. apply index_eqb_true.
          rewrite !proj_all; [easy| |]; now rewrite ?(inside_length _ _ Hi), ?(inside_length _ _ Hj). }
      rewrite (EG i Hi). apply lsum_ext. intros j Hj. apply in_indices in Hj. cbn [mask at_]. rewrite Bm by easy. f_equal.
      unfold top. now rewrite (EG i Hi), (EG j Hj).
    - destruct (expansion_spec g A keep (shape x) N H Sg) as (_ & S2 & B).
      rewrite (expanded_ok g (AInt z) A keep (shape x)) by easy. cbn [bind].
      rewrite (broadcast_kept _ A) by easy. cbn [bind]. unfold reduce_sum. rewrite (reduce_ok np_sum mask (AInt z) A true X). cbn [bind].
      eexists. split; [reflexivity|]. apply Q; [easy|]. intros i Hi. cbn [at_]. rewrite Bc, B by easy. cbn [mask at_]. now rewrite Bm.
    - destruct (expansion_spec g A keep (shape x) N H Sg) as (_ & S2 & B).
      rewrite (expanded_ok g (ATuple zs) A keep (shape x)) by easy. cbn [bind].
      rewrite (broadcast_kept _ A) by easy. cbn [bind]. unfold reduce_sum. rewrite (reduce_ok np_sum mask (ATuple zs) A true X). cbn [bind].
      eexists. split; [reflexivity|]. apply Q; [easy|]. intros i Hi. cbn [at_]. rewrite Bc, B by easy. cbn [mask at_]. now rewrite Bm.
  Qed.
End Best.

Lemma dl_np_max (L : list (list nat)) a b : NoDup L -> L <> [] ->
  (forall i j, In i L -> In j L -> a i = np_max (map a L) -> a j = np_max (map a L) -> i = j) ->
  derivable_pt_lim (fun t => np_max (map (fun l => a l + t * b l) L)) 0
    (lsum L (fun l => equal (np_max (map a L)) (a l) * b l)).
Proof.
  intros N NE T. apply (mask_all L a b (fun _ => True) N NE).
  - intros l _ Nl. now exfalso.
  - intros l l' Hl Hl' M M' D. exfalso. apply D.
    assert (E : forall l, In l L -> (forall i, In i L -> a i <= a l) -> a l = np_max (map a L)).
    { intros k Hk Mk. symmetry. apply window_max_is; [now apply in_map|]. intros v Hv. apply in_map_iff in Hv. destruct Hv as (j & <- & Hj). now apply Mk. }
    apply T; try easy; now apply E.
Qed.
Lemma min_max {A} (L : list A) f : np_min (map f L) = - np_max (map (fun i => - f i) L).
Proof.
  destruct L as [|a L]; cbn; [ring|].
  assert (G : forall u v, u = - v -> fold_left Rmin (map f L) u = - fold_left Rmax (map (fun i => - f i) L) v).
  { induction L as [|b L IH]; intros u v E; cbn; [easy|]. apply IH. rewrite E.
    unfold Rmin, Rmax. destruct (Rle_dec _ _), (Rle_dec _ _); lra. }
  apply G. ring.
Qed.
Lemma np_max_in l : l <> [] -> In (np_max l) l.
Proof. apply window_max_in. Qed.
Lemma np_max_bound l v : In v l -> v <= np_max l.
Proof. apply window_max_bound. Qed.
Lemma np_min_opp l : np_min l = - np_max (map Ropp l).
Proof. rewrite <- (map_id l) at 1. apply min_max. Qed.
Lemma np_min_in l : l <> [] -> In (np_min l) l.
Proof.
  intros N. rewrite np_min_opp. assert (M : map Ropp l <> []) by (intros E; now apply map_eq_nil in E).
  apply np_max_in, in_map_iff in M. destruct M as (v & E & Hv). rewrite <- E, Ropp_involutive. exact Hv.
Qed.
Lemma np_min_bound l v : In v l -> v >= np_min l.
Proof. intros H. rewrite np_min_opp. pose proof (np_max_bound (map Ropp l) (- v) (in_map Ropp l v H)). lra. Qed.
Lemma dl_np_min (L : list (list nat)) a b : NoDup L -> L <> [] ->
  (forall i j, In i L -> In j L -> a i = np_min (map a L) -> a j = np_min (map a L) -> i = j) ->
  derivable_pt_lim (fun t => np_min (map (fun l => a l + t * b l) L)) 0
    (lsum L (fun l => equal (np_min (map a L)) (a l) * b l)).
Proof.
  intros N NE T.
  apply (dl_ext _ (fun t => (-1) * np_max (map (fun l => - a l + t * - b l) L))).
  { intros t. rewrite min_max. rewrite (map_ext (fun i => - (a i + t * b i)) (fun l => - a l + t * - b l)); [ring|]. intros i. ring. }
  rewrite min_max in *.
  apply (dl_eq _ _ ((-1) * lsum L (fun l => equal (np_max (map (fun i => - a i) L)) (- a l) * - b l))).
  - apply (dl_scal (fun t => np_max (map (fun l => - a l + t * - b l) L))). apply (dl_np_max L (fun i => - a i) (fun i => - b i)); try easy.
    intros i j Hi Hj Ei Ej. apply T; try easy; lra.
  - rewrite <- lsum_scal. apply lsum_ext. intros l _. unfold equal. destruct (Req_EM_T _ _), (Req_EM_T _ _); lra.
Qed.

Theorem C53_max x a A keep : axes_of (length (shape x)) a A -> positive (shape x) ->
  computes (reduce_max x a keep) (result_shape A keep (shape x))
    (fun o v => best_into Rle A keep (shape x) o (at_ x) v) /\
  forall g, shape g = result_shape A keep (shape x) ->
    exists G, reduce_max_grad g x a keep = Ok G /\ shape G = shape x /\
      (forall i v, inside (shape x) i -> best_into Rle A keep (shape x) (place A keep i) (at_ x) v ->
         at_ G i = if Req_EM_T (at_ x i) v
                   then at_ g (place A keep i) /
                        sum_into A keep (shape x) (place A keep i) (fun j => if Req_EM_T (at_ x j) v then 1 else 0)
                   else 0) /\
      (tie_free Rle A keep x -> gradient_at (fun z => reduce_max z a keep) x g G).
Proof.
  apply (best_theorem np_max Rle).
  - apply np_max_in.
  - apply np_max_bound.
  - apply Rle_antisym.
  - apply dl_np_max.
Qed.
Theorem C53_min x a A keep : axes_of (length (shape x)) a A -> positive (shape x) ->
  computes (reduce_min x a keep) (result_shape A keep (shape x))
    (fun o v => best_into Rge A keep (shape x) o (at_ x) v) /\
  forall g, shape g = result_shape A keep (shape x) ->
    exists G, reduce_min_grad g x a keep = Ok G /\ shape G = shape x /\
      (forall i v, inside (shape x) i -> best_into Rge A keep (shape x) (place A keep i) (at_ x) v ->
         at_ G i = if Req_EM_T (at_ x i) v
                   then at_ g (place A keep i) /
                        sum_into A keep (shape x) (place A keep i) (fun j => if Req_EM_T (at_ x j) v then 1 else 0)
                   else 0) /\
      (tie_free Rge A keep x -> gradient_at (fun z => reduce_min z a keep) x g G).
Proof.
  apply (best_theorem np_min Rge).
  - apply np_min_in.
  - apply np_min_bound.
  - intros u v. apply Rge_antisym.
  - apply dl_np_min.
Qed.
