(** * C53, continued: products; concrete cases for all. *)
From Coq Require Import Reals List ZArith Lia Lra.
From Coquelicot Require Import Coquelicot.
From Verif Require Import PyBase Deriv_Proofs Corr_Spec Corr_Proofs Pool_Proofs
  Axis_Model Axis_Spec Axis_Proofs Axis_Props Axis_Props2.
Import ListNotations.
Open Scope R_scope.
Open Scope list_scope.
Open Scope res_scope.
Local Notation arr := Axis_Model.arr.
Local Notation mka := Axis_Model.mka.
Local Notation shape := Axis_Model.shape.

Lemma np_prod_app l m : np_prod (l ++ m) = np_prod l * np_prod m.
Proof. induction l as [|v l IH]; cbn; [ring|]. rewrite IH. ring. Qed.
Lemma product_over_indices s : forall f, product_over s f = np_prod (map f (indices s)).
Proof.
  induction s as [|d s IH]; intros f; [cbn; ring|]. cbn [product_over indices].
  generalize (seq 0 d) as l. induction l as [|k l IHl]; [reflexivity|]. cbn [map fold_right flat_map].
  rewrite map_app, np_prod_app, IHl, IH, map_map. reflexivity.
Qed.
Lemma np_prod_filter {A} (L : list A) P f : np_prod (map f (filter P L)) = np_prod (map (fun a => if P a then f a else 1) L).
Proof. induction L as [|a L IH]; cbn; [reflexivity|]. destruct (P a); cbn; rewrite IH; ring. Qed.
Lemma product_into_group A keep x o f : product_into A keep (shape x) o f = np_prod (map f (group x A keep o)).
Proof.
  unfold product_into, group. rewrite product_over_indices, np_prod_filter. f_equal. apply map_ext. intros i.
  now rewrite place_proj.
Qed.
Definition others (i : list nat) (L : list (list nat)) : list (list nat) := filter (fun j => negb (index_eqb i j)) L.
Lemma others_absent i L : ~ In i L -> others i L = L.
Proof.
  unfold others. induction L as [|j L IH]; cbn; intros N; [reflexivity|].
  destruct (index_eqb i j) eqn:E; [apply index_eqb_true in E; subst; exfalso; apply N; now left|].
  cbn [negb]. rewrite IH; [reflexivity|]. intros H. apply N. now right.
Qed.
Lemma prod_others L i f : NoDup L -> In i L -> np_prod (map f L) = f i * np_prod (map f (others i L)).
Proof.
  intros N. induction N as [|j L H N IH]; intros Hi; [easy|]. cbn [map np_prod]. unfold others. cbn [filter].
  destruct (index_eqb i j) eqn:E; cbn [negb].
  - apply index_eqb_true in E. subst j. fold (others i L). now rewrite others_absent.
  - destruct Hi as [->|Hi]; [rewrite (proj2 (index_eqb_true i i) eq_refl) in E; easy|].
    rewrite IH by easy. cbn [map np_prod]. fold (others i L). ring.
Qed.
Lemma dl_prod (L : list (list nat)) a b : NoDup L ->
  derivable_pt_lim (fun t => np_prod (map (fun j => a j + t * b j) L)) 0
    (lsum L (fun i => np_prod (map a (others i L)) * b i)).
Proof.
  intros N. induction N as [|j L H N IH]; [cbn; apply (derivable_pt_lim_const 1)|]. cbn [map np_prod].
  assert (D : derivable_pt_lim (fun t => a j + t * b j) 0 (b j)) by (apply (dl_of_affine _ (a j)); reflexivity).
  pose proof (derivable_pt_lim_mult _ _ _ _ _ D IH) as Q. cbn beta in Q.
  eapply dl_eq; [apply Q|].
  change (lsum (j :: L) (fun i => np_prod (map a (others i (j :: L))) * b i))
    with (np_prod (map a (others j (j :: L))) * b j + lsum L (fun i => np_prod (map a (others i (j :: L))) * b i)).
  assert (E : others j (j :: L) = L).
  { unfold others. cbn [filter]. rewrite (proj2 (index_eqb_true j j) eq_refl). now apply others_absent. }
  rewrite E. rewrite (map_ext (fun i => a i + 0 * b i) a) by (intros i; ring).
  rewrite (lsum_ext L (fun i => np_prod (map a (others i (j :: L))) * b i) (fun i => a j * (np_prod (map a (others i L)) * b i))).
  - rewrite lsum_scal. ring.
  - intros i Hi. unfold others. cbn [filter]. destruct (index_eqb i j) eqn:Ei; [apply index_eqb_true in Ei; subst; easy|].
    cbn [negb map np_prod]. ring.
Qed.

(** The axes as given are the axes that are reduced, if none is negative. *)
Definition counted_from_front (a : axis_arg) : Prop :=
  match a with ANone => True | AInt z => (0 <= z)%Z | ATuple zs => forall z, In z zs -> (0 <= z)%Z end.
Lemma raw_is_in r a A k : axes_of r a A -> counted_from_front a -> raw_in k (raw_axes r a) = is_in k A.
Proof.
  intros X C. destruct (axes_of_ok _ _ _ X) as (_ & _ & _ & _ & F).
  assert (P : forall z, In z (raw_axes r a) -> (0 <= z)%Z).
  { destruct a as [|z|zs]; cbn in *.
    - intros z Hz. apply in_map_iff in Hz. destruct Hz as (j & <- & _). lia.
    - intros z' [<-|[]]. easy.
    - easy. }
  unfold raw_in, is_in. clear X C. revert P. induction F as [|z j zs A' H _ IH]; intros P; [reflexivity|]. cbn [existsb].
  rewrite IH by (intros y Hy; apply P; now right). f_equal.
  assert (0 <= z)%Z by (apply P; now left). destruct H as [Hj [E|E]]; subst z; [|lia].
  destruct (Z.eqb_spec (Z.of_nat k) (Z.of_nat j)), (Nat.eqb_spec k j); lia.
Qed.
Lemma same_row_proj zs A : (forall k, raw_in k zs = is_in k A) -> forall i j k, length i = length j ->
  same_row zs k i j = index_eqb (proj A true k j) (proj A true k i).
Proof.
  intros R. induction i as [|x i IH]; intros [|y j] k E; try easy. cbn in E. injection E as E.
  cbn [same_row proj]. rewrite R, (IH j (S k) E). destruct (is_in k A); cbn [orb andb]; unfold index_eqb.
  - destruct (list_eq_dec _ _ _), (list_eq_dec _ _ _); congruence.
  - destruct (Nat.eqb_spec x y); cbn [andb].
    + subst. destruct (list_eq_dec _ _ _), (list_eq_dec _ _ _); congruence.
    + destruct (list_eq_dec _ _ _); congruence.
Qed.
Lemma filter_filter {A} (P Q : A -> bool) L : filter (fun a => andb (P a) (Q a)) L = filter Q (filter P L).
Proof. induction L as [|a L IH]; cbn; [reflexivity|]. destruct (P a); cbn; destruct (Q a); cbn; now rewrite IH. Qed.
Lemma other_product_ok masked x a A keep i : axes_of (length (shape x)) a A -> counted_from_front a -> inside (shape x) i ->
  (exists j, inside (shape x) j /\ j <> i /\ proj A keep 0 j = proj A keep 0 i) ->
  other_product masked x (raw_axes (length (shape x)) a) i
  = np_prod (map (at_ x) (others i (group x A keep (proj A keep 0 i)))).
Proof.
  intros X C Hi (j & Hj & Nj & Pj). unfold other_product.
  assert (E : filter (fun j => andb (same_row (raw_axes (length (shape x)) a) 0 i j) (negb (index_eqb i j))) (indices (shape x))
              = others i (group x A keep (proj A keep 0 i))).
  { rewrite filter_filter. unfold others. f_equal. rewrite (group_keeps x A keep true) by easy.
    apply filter_ext_in. intros l Hl. apply in_indices in Hl.
    apply same_row_proj; [|now rewrite (inside_length _ _ Hi), (inside_length _ _ Hl)].
    intros k. now apply raw_is_in. }
  rewrite E. destruct (others i (group x A keep (proj A keep 0 i))) as [|l ls] eqn:EO; [|reflexivity].
  exfalso. assert (In j (others i (group x A keep (proj A keep 0 i)))).
  { unfold others. apply filter_In. split; [apply in_group; easy|]. destruct (index_eqb i j) eqn:Ei; [|easy].
    apply index_eqb_true in Ei. congruence. }
  rewrite EO in H. easy.
Qed.

Theorem C53_prod masked x a A keep : axes_of (length (shape x)) a A ->
  computes (reduce_prod x a keep) (result_shape A keep (shape x))
    (fun o v => v = product_into A keep (shape x) o (at_ x)) /\
  forall g, shape g = result_shape A keep (shape x) ->
    (forall i, inside (shape x) i -> at_ x i <> 0) \/
    counted_from_front a /\
      (forall i, inside (shape x) i -> at_ x i = 0 ->
         exists j, inside (shape x) j /\ j <> i /\ place A keep j = place A keep i) ->
    exists y G, reduce_prod x a keep = Ok y /\ reduce_prod_grad masked y g x a keep = Ok G /\
      gradient_at (fun z => reduce_prod z a keep) x g G.
Proof.
  intros X. rewrite result_shape_red. destruct (axes_of_ok _ _ _ X) as (E1 & E2 & N & H & F). split.
  - eexists. split; [now apply (reduce_ok np_prod x a A keep)|]. split; [reflexivity|]. intros o _. cbn [at_].
    now rewrite product_into_group.
  - intros g Sg Z. set (y := mka (red_shape A keep 0 (shape x)) (fun o => np_prod (map (at_ x) (group x A keep o)))).
    exists y.
    assert (T : forall h, shape h = red_shape A keep 0 (shape x) ->
              (if keep then Ok h else expand_dims h (ATuple (raw_axes (length (shape x)) a))) = Ok (expansion h A keep)).
    { intros h Sh. destruct keep; [easy|]. now apply (expand_dims_tuple h _ A (shape x)). }
    unfold reduce_prod_grad. rewrite (T y), (T g) by easy. cbn [bind].
    eexists. split; [now apply (reduce_ok np_prod x a A keep)|]. split; [reflexivity|].
    destruct (expansion_spec g A keep (shape x) N H Sg) as (_ & _ & Bg).
    destruct (expansion_spec y A keep (shape x) N H eq_refl) as (_ & _ & By).
    apply (reduce_gradient np_prod x a A keep g _ (fun o i => np_prod (map (at_ x) (others i (group x A keep o))))); try easy.
    + intros i Hi. cbn [at_]. rewrite Bg, By by easy. set (o := proj A keep 0 i).
      assert (Gi : In i (group x A keep o)) by (apply in_group; easy).
      pose proof (prod_others (group x A keep o) i (at_ x) (nodup_group x A keep o) Gi) as PO.
      destruct (Req_EM_T (at_ x i) 0) as [E0|N0].
      * assert (ZF : existsb (fun o => if Req_EM_T (at_ y o) 0 then true else false) (indices (shape y)) = true).
        { apply existsb_exists. exists o. split; [apply in_indices; now apply proj_inside|].
          destruct (Req_EM_T (at_ y o) 0) as [|D]; [easy|]. exfalso. apply D. cbn [y at_]. rewrite PO, E0. ring. }
        rewrite ZF. destruct Z as [Z|[C Z]]; [now apply Z in Hi|].
        destruct (Z i Hi E0) as (j & Hj & Nj & Pj). rewrite !place_proj in Pj.
        rewrite (other_product_ok masked x a A keep i X C Hi) by (exists j; easy). fold o. ring.
      * cbn [y at_]. rewrite PO. field. exact N0.
    + intros o dx _. apply (dl_prod (group x A keep o) (at_ x) dx). apply nodup_group.
Qed.

(** With a negative axis the gradient at a zero entry is not the product of the other entries. *)
Definition zero_pair (m : R) : arr := mka [2%nat] (fun i => match i with [O] => 0 | _ => m + 1 end).
Definition scalar_one : arr := mka [] (fun _ => 1).
Lemma names_last : names 1 (-1) 0.
Proof. split; [lia|]. right. reflexivity. Qed.
Theorem C53_prod_negative_axis_refuted : forall masked, exists x a A g y G,
  axes_of (length (shape x)) a A /\ positive (shape x) /\ shape g = result_shape A false (shape x) /\
  (forall i, inside (shape x) i -> exists j, inside (shape x) j /\ j <> i /\ place A false j = place A false i) /\
  reduce_prod x a false = Ok y /\ reduce_prod_grad masked y g x a false = Ok G /\
  ~ gradient_at (fun z => reduce_prod z a false) x g G.
Proof.
  intros m. exists (zero_pair m), (AInt (-1)), [0%nat], scalar_one.
  eexists. eexists. split; [|split; [|split; [|split; [|split; [|split]]]]].
  - exists 0%nat. split; [easy|]. apply names_last.
  - intros d [<-|[]]. lia.
  - reflexivity.
  - intros i Hi. cbn in Hi. inversion Hi as [|? k ? l Hk Hl]; subst. inversion Hl; subst.
    exists [(1 - k)%nat]. split; [constructor; [lia|constructor]|]. split; [intros E; assert (E2 : (1 - k = k)%nat) by congruence; lia|reflexivity].
  - reflexivity.
  - reflexivity.
  - intros [_ D]. specialize (D (fun i => match i with [O] => 1 | _ => 0 end)).
    assert (D2 : derivable_pt_lim (fun t => t * (m + 1)) 0 (m + 1)) by (apply (dl_of_affine _ 0); intros t; ring).
    refine ((fun E => _) (uniqueness_limite _ _ _ _ D (dl_ext _ (fun t => t * (m + 1)) _ _ _ D2))).
    + revert E. cbn. unfold sum_to. cbn.
      destruct (Req_EM_T 0 0) as [_|N]; [|easy].
      destruct (Req_EM_T (0 * ((m + 1) * 1)) 0) as [_|N0]; [|exfalso; apply N0; ring]. cbn.
      destruct (Req_EM_T (m + 1) 0); unfold bat; cbn; intros E; lra.
    + intros t. cbn. ring.
Qed.
(** A zero that is alone in its group gets what numpy stores for a masked product; the derivative is 1. *)
Theorem C53_prod_alone_refuted : forall masked, masked <> 1 -> exists x a A g y G,
  axes_of (length (shape x)) a A /\ positive (shape x) /\ counted_from_front a /\ shape g = result_shape A false (shape x) /\
  reduce_prod x a false = Ok y /\ reduce_prod_grad masked y g x a false = Ok G /\
  ~ gradient_at (fun z => reduce_prod z a false) x g G.
Proof.
  intros m Nm. exists (mka [1%nat] (fun _ => 0)), (AInt 0), [0%nat], scalar_one.
  eexists. eexists. split; [|split; [|split; [|split; [|split; [|split]]]]].
  - exists 0%nat. split; [easy|]. split; [cbn; lia|now left].
  - intros d [<-|[]]. lia.
  - cbn. lia.
  - reflexivity.
  - reflexivity.
  - reflexivity.
  - intros [_ D]. specialize (D (fun _ => 1)).
    assert (D2 : derivable_pt_lim (fun t => t * 1) 0 1) by (apply (dl_of_affine _ 0); intros t; ring).
    refine ((fun E => _) (uniqueness_limite _ _ _ _ D (dl_ext _ (fun t => t * 1) _ _ _ D2))).
    + revert E. cbn. unfold sum_to. cbn.
      destruct (Req_EM_T 0 0) as [_|N]; [|easy].
      destruct (Req_EM_T (0 * 1) 0) as [_|N0]; [|exfalso; apply N0; ring]. cbn.
      unfold bat; cbn; intros E. apply Nm. lra.
    + intros t. cbn. ring.
Qed.

(** ** Concrete cases *)
(** A 2 by 3 array, reduced along its last axis counted from the end. *)
Definition table : arr := mka [2; 3]%nat (fun i => match i with [r; c] => INR (3 * r + c + 1) | _ => 0 end).
Lemma table_axes : axes_of (length (shape table)) (AInt (-1)) [1%nat].
Proof. exists 1%nat. split; [easy|]. split; [cbn; lia|]. right. reflexivity. Qed.
Lemma table_positive : positive (shape table).
Proof. intros d [<-|[<-|[]]]; lia. Qed.
Lemma table_row : group table [1%nat] true [1; 0]%nat = [[1; 0]; [1; 1]; [1; 2]]%nat.
Proof. vm_compute. reflexivity. Qed.
Example C53_sum_case : exists y G, reduce_sum table (AInt (-1)) true = Ok y /\ shape y = [2; 1]%nat /\
  at_ y [1; 0]%nat = 15 /\ reduce_sum_grad y table (AInt (-1)) true = Ok G /\ at_ G [1; 2]%nat = 15.
Proof.
  assert (E : np_sum (values table [1%nat] true [1; 0]%nat) = 15).
  { unfold values. rewrite table_row. cbn. lra. }
  eexists. eexists. split; [reflexivity|]. split; [reflexivity|]. split; [exact E|]. split; [reflexivity|]. exact E.
Qed.
Lemma table_all : group table [0; 1]%nat false [] = indices [2; 3]%nat.
Proof. vm_compute. reflexivity. Qed.
Example C53_mean_case : exists y, reduce_mean table (ATuple [0; -1]%Z) false = Ok y /\ shape y = [] /\ at_ y [] = 7 / 2.
Proof.
  assert (E : np_mean (values table [0; 1]%nat false []) = 7 / 2).
  { unfold values. rewrite table_all. unfold np_mean. cbn. lra. }
  eexists. split; [reflexivity|]. split; [reflexivity|]. exact E.
Qed.
Example C53_mean_hypotheses : axes_of (length (shape table)) (ATuple [0; -1]%Z) [0; 1]%nat /\ positive (shape table).
Proof.
  split; [|apply table_positive]. split; [repeat constructor; cbn; intuition congruence|].
  constructor; [split; [cbn; lia|now left]|]. constructor; [split; [cbn; lia|now right]|constructor].
Qed.
Example C53_variance_hypotheses : axes_of (length (shape table)) (AInt (-1)) [1%nat] /\ positive (shape table) /\
  AInt (-1) <> ATuple [] /\ (forall o, inside (result_shape [1%nat] true (shape table)) o -> count_into [1%nat] true (shape table) o <> 1).
Proof.
  split; [apply table_axes|]. split; [apply table_positive|]. split; [easy|]. intros o Ho. rewrite count_group, group_length.
  - cbn. lra.
  - now rewrite <- result_shape_red.
Qed.
Example C53_max_hypotheses : axes_of (length (shape table)) (AInt (-1)) [1%nat] /\ positive (shape table) /\
  tie_free Rle [1%nat] true table /\ tie_free Rge [1%nat] true table.
Proof.
  split; [apply table_axes|]. split; [apply table_positive|].
  split; intros i j v Hi Hj E _ Ei Ej; rewrite <- Ej in Ei;
    cbn in Hi, Hj; inversion Hi as [|? r ? l Hr Hl]; subst; inversion Hl as [|? c ? l' Hc Hl']; subst; inversion Hl'; subst;
    inversion Hj as [|? r' ? m Hr' Hm]; subst; inversion Hm as [|? c' ? m' Hc' Hm']; subst; inversion Hm'; subst;
    cbn [table at_] in Ei; apply INR_eq in Ei; assert (r = r' /\ c = c') as [-> ->] by lia; reflexivity.
Qed.
Example C53_axes_only_case : (forall A, ~ axes_of (length (shape table)) (ATuple [0; -2]%Z) A) /\
  (forall A, ~ axes_of (length (shape table)) (AInt 2) A).
Proof.
  split.
  - intros A [N F]. inversion F as [|? k ? l [Hk Ek] Fl]; subst. inversion Fl as [|? k' ? l' [Hk' Ek'] Fl']; subst. inversion Fl'; subst.
    cbn in *. inversion N as [|? ? M _]; subst. apply M. left. lia.
  - intros A (k & _ & [Hk Ek]). cbn in *. lia.
Qed.
Example C53_softmax_hypotheses : names (length (shape table)) (-1) 1 /\ positive (shape table).
Proof. split; [|apply table_positive]. split; [cbn; lia|]. right. reflexivity. Qed.
(** A product with a zero, along the first axis counted from the front. *)
Example C53_prod_hypotheses : axes_of (length (shape (zero_pair 4))) (AInt 0) [0%nat] /\
  counted_from_front (AInt 0) /\ at_ (zero_pair 4) [0%nat] = 0 /\
  (forall i, inside (shape (zero_pair 4)) i -> at_ (zero_pair 4) i = 0 ->
     exists j, inside (shape (zero_pair 4)) j /\ j <> i /\ place [0%nat] false j = place [0%nat] false i).
Proof.
  split; [exists 0%nat; split; [easy|split; [cbn; lia|now left]]|]. split; [cbn; lia|]. split; [reflexivity|].
  intros i Hi _. cbn in Hi. inversion Hi as [|? k ? l Hk Hl]; subst. inversion Hl; subst.
  exists [(1 - k)%nat]. split; [constructor; [lia|constructor]|]. split; [intros E; assert (E2 : (1 - k = k)%nat) by congruence; lia|reflexivity].
Qed.

Print Assumptions C53_sum.
Print Assumptions C53_mean.
Print Assumptions C53_variance.
Print Assumptions C53_variance_no_axes_refuted.
Print Assumptions C53_axes_only.
Print Assumptions C53_softmax.
Print Assumptions C53_max.
Print Assumptions C53_min.
Print Assumptions C53_prod.
Print Assumptions C53_prod_negative_axis_refuted.
Print Assumptions C53_prod_alone_refuted.
