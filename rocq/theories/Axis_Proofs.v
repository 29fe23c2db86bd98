(** * Lemmas about multi-indices, axes and sums over groups. *)
From Coq Require Import Reals List ZArith Lia Lra Permutation.
From Verif Require Import PyBase Corr_Spec Corr_Proofs Axis_Model Axis_Spec.
Import ListNotations.
Open Scope R_scope.
Open Scope list_scope.
Open Scope res_scope.

(** ** Multi-indices *)
Lemma F2_length {A B} (P : A -> B -> Prop) l m : Forall2 P l m -> length l = length m.
Proof. induction 1; cbn; congruence. Qed.
Lemma in_indices s i : In i (indices s) <-> inside s i.
Proof.
  revert i. induction s as [|d s IH]; intros i; cbn.
  - split; [intros [<-|[]]; constructor|]. intros H. inversion H. now left.
  - rewrite in_flat_map. split.
    + intros (k & Hk & H). apply in_map_iff in H. destruct H as (j & <- & Hj).
      apply in_seq in Hk. constructor; [lia|]. now apply IH.
    + intros H. inversion H as [|? k ? j Hk Hj]; subst. exists k. split; [apply in_seq; lia|].
      apply in_map. now apply IH.
Qed.
Lemma nodup_indices s : NoDup (indices s).
Proof.
  induction s as [|d s IH]; cbn; [repeat constructor; easy|].
  generalize (seq_NoDup d 0). generalize (seq 0 d) as l. intros l. induction l as [|k l IHl]; intros H; cbn; [constructor|].
  inversion H as [|? ? N Hl]; subst.
  assert (A : forall (a b : list (list nat)), NoDup a -> NoDup b -> (forall e, In e a -> ~ In e b) -> NoDup (a ++ b)).
  { induction a as [|e a IHa]; intros b Ha Hb D; cbn; [easy|]. inversion Ha; subst. constructor.
    - rewrite in_app_iff. intros [G|G]; [easy|]. apply (D e); [now left|easy].
    - apply IHa; [easy|easy|]. intros f Hf. apply D. now right. }
  apply A; [|now apply IHl|].
  - clear -IH. induction IH as [|e L N H IH']; cbn; constructor; [|easy].
    rewrite in_map_iff. intros (f & E & Hf). injection E as ->. easy.
  - intros e He Hf. apply in_map_iff in He. destruct He as (j & <- & _).
    apply in_flat_map in Hf. destruct Hf as (k' & Hk' & Hf). apply in_map_iff in Hf.
    destruct Hf as (j' & E & _). injection E as -> _. easy.
Qed.
Lemma lsum_flat_map {A B} (l : list A) (h : A -> list B) f : lsum (flat_map h l) f = lsum l (fun a => lsum (h a) f).
Proof. induction l as [|a l IH]; [reflexivity|]. cbn [flat_map]. rewrite lsum_app, IH. reflexivity. Qed.
Lemma lsum_indices d s f : lsum (indices (d :: s)) f = lsum (seq 0 d) (fun k => lsum (indices s) (fun i => f (k :: i))).
Proof. cbn [indices]. rewrite lsum_flat_map. apply lsum_ext. intros k _. apply lsum_map. Qed.
Lemma sum_over_lsum s : forall f, sum_over s f = lsum (indices s) f.
Proof.
  induction s as [|d s IH]; intros f; [cbn; ring|]. rewrite lsum_indices. cbn [sum_over].
  apply (lsum_ext (seq 0 d)). intros k _. apply IH.
Qed.
Lemma np_sum_lsum {A} (L : list A) f : np_sum (map f L) = lsum L f.
Proof. unfold lsum. induction L as [|a L IH]; cbn; [reflexivity|]. now rewrite IH. Qed.
Lemma inside_length s i : inside s i -> length i = length s.
Proof. intros H. symmetry. eapply F2_length; eauto. Qed.
Lemma lsum_filter {A} (L : list A) (P : A -> bool) f :
  lsum (filter P L) f = lsum L (fun a => if P a then f a else 0).
Proof.
  unfold lsum. induction L as [|a L IH]; cbn; [reflexivity|]. destruct (P a); cbn; rewrite IH; ring.
Qed.
Lemma index_eqb_true i j : index_eqb i j = true <-> i = j.
Proof. unfold index_eqb. destruct (list_eq_dec _ i j); split; congruence. Qed.
Lemma index_eqb_sym i j : index_eqb i j = index_eqb j i.
Proof. unfold index_eqb. destruct (list_eq_dec _ i j), (list_eq_dec _ j i); congruence. Qed.
Lemma lsum_single {A} (L : list A) a f : NoDup L -> In a L -> (forall b, In b L -> b <> a -> f b = 0) -> lsum L f = f a.
Proof.
  intros N. induction N as [|b L H N IH]; intros Ha Z; [easy|]. cbn. fold (lsum L f). destruct Ha as [->|Ha].
  - replace (fold_right Rplus 0 (map f L)) with (lsum L f) by reflexivity.
    rewrite lsum_zero; [ring|]. intros c Hc. apply Z; [now right|]. intros ->. easy.
  - replace (fold_right Rplus 0 (map f L)) with (lsum L f) by reflexivity.
    rewrite IH; [|easy|]. 2:{ intros c Hc. apply Z. now right. }
    rewrite (Z b); [ring|now left|]. intros ->. easy.
Qed.

(** ** Axes *)
Lemma is_in_true k A : is_in k A = true <-> In k A.
Proof.
  unfold is_in. rewrite existsb_exists. split.
  - intros (j & H & E). apply Nat.eqb_eq in E. now subst.
  - intros H. exists k. split; [easy|]. apply Nat.eqb_refl.
Qed.
Lemma is_in_dec k A : is_in k A = if in_dec Nat.eq_dec k A then true else false.
Proof.
  destruct (in_dec Nat.eq_dec k A) as [H|H]; [now apply is_in_true|].
  destruct (is_in k A) eqn:E; [|easy]. now apply is_in_true in E.
Qed.
Lemma distinct_nodup l : distinct l = true <-> NoDup l.
Proof.
  induction l as [|k l IH]; cbn; [split; [constructor|easy]|].
  rewrite Bool.andb_true_iff, Bool.negb_true_iff, IH. split.
  - intros [H1 H2]. constructor; [|easy]. intros H. apply is_in_true in H. congruence.
  - intros H. inversion H as [|? ? N H2]; subst. split; [|easy]. destruct (is_in k l) eqn:E; [|easy]. now apply is_in_true in E.
Qed.
Lemma norm_axis_names r z k : names r z k -> norm_axis r z = Ok k.
Proof.
  intros [Hk [E|E] ]; subst z; unfold norm_axis.
  - destruct (Z.ltb_spec (Z.of_nat k) (- Z.of_nat r)); [lia|].
    destruct (Z.leb_spec (Z.of_nat r) (Z.of_nat k)); [lia|]. cbn [orb].
    destruct (Z.ltb_spec (Z.of_nat k) 0); [lia|]. f_equal. lia.
  - destruct (Z.ltb_spec (Z.of_nat k - Z.of_nat r) (- Z.of_nat r)); [lia|].
    destruct (Z.leb_spec (Z.of_nat r) (Z.of_nat k - Z.of_nat r)); [lia|]. cbn [orb].
    destruct (Z.ltb_spec (Z.of_nat k - Z.of_nat r) 0); [|lia]. f_equal. lia.
Qed.
Lemma norm_axis_inv r z k : norm_axis r z = Ok k -> names r z k.
Proof.
  unfold norm_axis, names.
  destruct (Z.ltb_spec z (- Z.of_nat r)); [easy|].
  destruct (Z.leb_spec (Z.of_nat r) z); [easy|]. cbn [orb]. intros E. injection E as <-.
  destruct (Z.ltb_spec z 0); lia.
Qed.
Lemma norm_list_names r zs A : Forall2 (names r) zs A -> norm_list r zs = Ok A.
Proof.
  induction 1 as [|z k zs A H _ IH]; cbn; [reflexivity|]. rewrite (norm_axis_names _ _ _ H). cbn [bind]. now rewrite IH.
Qed.
Lemma norm_list_inv r zs : forall A, norm_list r zs = Ok A -> Forall2 (names r) zs A.
Proof.
  induction zs as [|z zs IH]; cbn; intros A E; [injection E as <-; constructor|].
  destruct (norm_axis r z) as [k|] eqn:Ek; [|easy]. cbn [bind] in E.
  destruct (norm_list r zs) as [ks|] eqn:Es; [|easy]. cbn [bind] in E. injection E as <-.
  constructor; [now apply norm_axis_inv|now apply IH].
Qed.
Lemma names_seq r : Forall2 (names r) (map Z.of_nat (seq 0 r)) (seq 0 r).
Proof.
  assert (H : forall l, (forall k, In k l -> (k < r)%nat) -> Forall2 (names r) (map Z.of_nat l) l).
  { induction l as [|k l IH]; cbn; intros H; constructor; [split; [apply H|]; now left|]. apply IH. intros j Hj. apply H. now right. }
  apply H. intros k Hk. apply in_seq in Hk. lia.
Qed.
(** What the axes of an accepted argument satisfy. *)
Lemma axes_of_ok r a A : axes_of r a A ->
  norm_axes r a = Ok A /\ norm_axes r (ATuple (raw_axes r a)) = Ok A /\ NoDup A /\ (forall k, In k A -> (k < r)%nat) /\
  Forall2 (names r) (raw_axes r a) A.
Proof.
  assert (T : forall zs A, NoDup A -> Forall2 (names r) zs A -> norm_axes r (ATuple zs) = Ok A).
  { intros zs A' N H. cbn. rewrite (norm_list_names _ _ _ H). cbn [bind]. now rewrite (proj2 (distinct_nodup A') N). }
  assert (R : forall zs A, Forall2 (names r) zs A -> forall k, In k A -> (k < r)%nat).
  { induction 1 as [|z j zs' A' Hj _ IH]; intros k Hk; [easy|]. destruct Hk as [<-|Hk]; [apply Hj|now apply IH]. }
  destruct a as [|z|zs]; cbn [axes_of raw_axes].
  - intros ->. split; [easy|]. split; [apply T; [apply seq_NoDup|apply names_seq]|]. split; [apply seq_NoDup|].
    split; [|apply names_seq]. intros k Hk. apply in_seq in Hk. lia.
  - intros (k & -> & H).
    assert (H2 : Forall2 (names r) [z] [k]) by (constructor; [easy|constructor]).
    split; [apply norm_list_names; easy|]. split; [apply T; [repeat constructor; easy|easy]|].
    split; [repeat constructor; easy|]. split; [|easy]. now apply (R [z]).
  - intros [N H]. do 2 (split; [now apply T|]). split; [easy|]. split; [|easy]. now apply (R zs).
Qed.
Lemma norm_axes_inv r a A : norm_axes r a = Ok A -> axes_of r a A.
Proof.
  destruct a as [|z|zs]; cbn [norm_axes axes_of].
  - intros E. now injection E.
  - intros E. apply norm_list_inv in E. inversion E as [|? k ? l Hk Hl]; subst. inversion Hl; subst. now exists k.
  - destruct (norm_list r zs) as [ks|] eqn:Es; [|easy]. cbn [bind]. destruct (distinct ks) eqn:D; [|easy].
    intros E. injection E as <-. split; [now apply distinct_nodup|now apply norm_list_inv].
Qed.

(** ** Places *)
Lemma place_proj A keep i : place A keep i = proj A keep 0 i.
Proof.
  unfold place, numbered.
  assert (G : forall k, (if keep
     then map (fun p => if in_dec Nat.eq_dec (fst p) A then 0%nat else snd p) (combine (seq k (length i)) i)
     else map snd (filter (fun p => if in_dec Nat.eq_dec (fst p) A then false else true) (combine (seq k (length i)) i)))
     = proj A keep k i); [|apply G].
  induction i as [|x i IH]; intros k; [now destruct keep|].
  cbn [length seq combine]. specialize (IH (S k)). destruct keep; cbn [map filter fst snd proj];
    rewrite is_in_dec; destruct (in_dec Nat.eq_dec k A); cbn [map snd]; now rewrite IH.
Qed.
Lemma result_shape_red A keep i : result_shape A keep i = red_shape A keep 0 i.
Proof.
  unfold result_shape, numbered.
  assert (G : forall k, (if keep
     then map (fun p => if in_dec Nat.eq_dec (fst p) A then 1%nat else snd p) (combine (seq k (length i)) i)
     else map snd (filter (fun p => if in_dec Nat.eq_dec (fst p) A then false else true) (combine (seq k (length i)) i)))
     = red_shape A keep k i); [|apply G].
  induction i as [|x i IH]; intros k; [now destruct keep|].
  cbn [length seq combine]. specialize (IH (S k)). destruct keep; cbn [map filter fst snd red_shape];
    rewrite is_in_dec; destruct (in_dec Nat.eq_dec k A); cbn [map snd]; now rewrite IH.
Qed.
Lemma proj_inside A keep s i : inside s i -> forall k, inside (red_shape A keep k s) (proj A keep k i).
Proof.
  induction 1 as [|d x s i H _ IH]; intros k; cbn; [constructor|].
  destruct (is_in k A); [destruct keep; [constructor; [lia|apply IH]|apply IH]|]. constructor; [easy|apply IH].
Qed.
(** Indices belong together with or without the reduced axes. *)
Lemma proj_keep A i : forall k j, length i = length j ->
  (proj A true k i = proj A true k j <-> proj A false k i = proj A false k j).
Proof.
  induction i as [|x i IH]; intros k [|y j] E; try easy. cbn in E. injection E as E. cbn.
  destruct (is_in k A).
  - rewrite <- IH by easy. split; [intros H; now injection H|intros H; now rewrite H].
  - specialize (IH (S k) j E). split; intros H; injection H as -> H; f_equal; tauto.
Qed.
Lemma proj_keeps A keep keep' i j : length i = length j ->
  index_eqb (proj A keep 0 i) (proj A keep 0 j) = index_eqb (proj A keep' 0 i) (proj A keep' 0 j).
Proof.
  intros E. pose proof (proj_keep A i 0 j E) as H. unfold index_eqb.
  destruct keep, keep'; try reflexivity;
  destruct (list_eq_dec _ _ _), (list_eq_dec _ _ _); tauto.
Qed.
Lemma group_keeps x A keep keep' i : inside (shape x) i ->
  group x A keep (proj A keep 0 i) = group x A keep' (proj A keep' 0 i).
Proof.
  intros H. unfold group. apply filter_ext_in. intros j Hj. apply in_indices in Hj.
  apply proj_keeps. now rewrite (inside_length _ _ H), (inside_length _ _ Hj).
Qed.
Lemma in_group x A keep o i : In i (group x A keep o) <-> inside (shape x) i /\ proj A keep 0 i = o.
Proof. unfold group. rewrite filter_In, in_indices, index_eqb_true. tauto. Qed.
Lemma nodup_group x A keep o : NoDup (group x A keep o).
Proof. apply NoDup_filter, nodup_indices. Qed.
Lemma sum_into_group A keep x o f : sum_into A keep (shape x) o f = lsum (group x A keep o) f.
Proof.
  unfold sum_into, group. rewrite sum_over_lsum, lsum_filter. apply lsum_ext. intros i _.
  rewrite place_proj. reflexivity.
Qed.
(** Summing over the groups is summing over the entries. *)
Lemma group_sum x A keep (f : list nat -> list nat -> R) :
  lsum (indices (red_shape A keep 0 (shape x))) (fun o => lsum (group x A keep o) (f o))
  = lsum (indices (shape x)) (fun i => f (proj A keep 0 i) i).
Proof.
  rewrite (lsum_ext _ _ (fun o => lsum (indices (shape x)) (fun i => if index_eqb (proj A keep 0 i) o then f o i else 0))).
  2:{ intros o _. apply lsum_filter. }
  rewrite lsum_swap. apply lsum_ext. intros i Hi. apply in_indices in Hi.
  rewrite (lsum_single _ (proj A keep 0 i)).
  - now rewrite (proj2 (index_eqb_true _ _) eq_refl).
  - apply nodup_indices.
  - apply in_indices. now apply proj_inside.
  - intros o _ N. destruct (index_eqb (proj A keep 0 i) o) eqn:E; [|easy]. apply index_eqb_true in E. congruence.
Qed.

(** ** Broadcasting back *)
Lemma red_shape_length A s : forall k, (length (red_shape A false k s) + length (filter (fun j => is_in j A) (seq k (length s))) = length s)%nat.
Proof.
  induction s as [|d s IH]; intros k; [reflexivity|]. cbn [red_shape length seq filter]. specialize (IH (S k)).
  destruct (is_in k A); cbn [length]; lia.
Qed.
Lemma axes_perm A r : NoDup A -> (forall k, In k A -> (k < r)%nat) ->
  Permutation (filter (fun j => is_in j A) (seq 0 r)) A.
Proof.
  intros N H. apply NoDup_Permutation; [apply NoDup_filter, seq_NoDup|easy|].
  intros k. rewrite filter_In, in_seq, is_in_true. split; [tauto|]. intros Hk. split; [|easy]. specialize (H k Hk). lia.
Qed.
Lemma expand_red A s : forall k, expand_shape A (length s) k (red_shape A false k s) = red_shape A true k s.
Proof.
  induction s as [|d s IH]; intros k; [reflexivity|]. cbn [length expand_shape red_shape].
  destruct (is_in k A); now rewrite IH.
Qed.
Lemma red_keep_length A s : forall k, length (red_shape A true k s) = length s.
Proof. induction s as [|d s IH]; intros k; [reflexivity|]. cbn. destruct (is_in k A); cbn; now rewrite IH. Qed.
Lemma squash_red A s i : inside s i -> forall k, squash (red_shape A true k s) i = proj A true k i.
Proof.
  induction 1 as [|d x s i H _ IH]; intros k; [reflexivity|]. cbn [red_shape proj].
  destruct (is_in k A); cbn [squash Nat.eqb]; rewrite IH; [reflexivity|].
  destruct (Nat.eqb_spec d 1); [|reflexivity]. f_equal. lia.
Qed.
Lemma proj_proj A i : forall k, proj A false k (proj A true k i) = proj A false k i.
Proof. induction i as [|x i IH]; intros k; [reflexivity|]. cbn. destruct (is_in k A) eqn:E; cbn; rewrite E, IH; reflexivity. Qed.
Lemma fits_red A s : forall k, fits (red_shape A true k s) s = true.
Proof.
  induction s as [|d s IH]; intros k; [reflexivity|]. cbn. destruct (is_in k A); cbn; rewrite IH; [reflexivity|].
  rewrite Nat.eqb_refl. now destruct (Nat.eqb d 1).
Qed.
Lemma bat_same (a : arr) i : length i = length (shape a) -> bat a i = at_ a (squash (shape a) i).
Proof. intros E. unfold bat. now rewrite E, Nat.sub_diag. Qed.
(** A result with the reduced axes kept, broadcast to the input. *)
Lemma bat_kept (m : arr) A s i : shape m = red_shape A true 0 s -> inside s i ->
  bat m i = at_ m (proj A true 0 i).
Proof.
  intros E H. rewrite bat_same.
  - now rewrite E, (squash_red _ _ _ H).
  - now rewrite E, red_keep_length, (inside_length _ _ H).
Qed.
Lemma broadcast_kept (m : arr) A s : shape m = red_shape A true 0 s -> broadcast_to m s = Ok (mka s (bat m)).
Proof.
  intros E. unfold broadcast_to, broadcastable. rewrite E, red_keep_length, Nat.leb_refl, Nat.sub_diag. cbn [skipn andb].
  now rewrite fits_red.
Qed.
Definition expansion (g : arr) (A : list nat) (keep : bool) : arr := if keep then g else expand_with A g.
Lemma expansion_spec (g : arr) A keep s : NoDup A -> (forall k, In k A -> (k < length s)%nat) ->
  shape g = red_shape A keep 0 s ->
  (length A + length (shape g) = length s \/ keep = true)%nat /\
  shape (expansion g A keep) = red_shape A true 0 s /\
  forall i, inside s i -> bat (expansion g A keep) i = at_ g (proj A keep 0 i).
Proof.
  intros N H E. destruct keep; cbn [expansion].
  - split; [now right|]. split; [easy|]. intros i Hi. now apply (bat_kept _ A s).
  - assert (EL : (length A + length (shape g) = length s)%nat).
    { rewrite E. pose proof (red_shape_length A s 0) as L. rewrite (Permutation_length (axes_perm A (length s) N H)) in L. lia. }
    assert (ES : shape (expand_with A g) = red_shape A true 0 s).
    { cbn [expand_with shape]. rewrite EL, E. apply expand_red. }
    split; [now left|]. split; [easy|]. intros i Hi. rewrite (bat_kept _ A s i ES Hi).
    cbn [expand_with at_]. now rewrite proj_proj.
Qed.
Lemma expand_dims_tuple (g : arr) zs A s : norm_axes (length s) (ATuple zs) = Ok A -> NoDup A ->
  (forall k, In k A -> (k < length s)%nat) -> shape g = red_shape A false 0 s ->
  expand_dims g (ATuple zs) = Ok (expand_with A g).
Proof.
  intros E N H S. destruct (expansion_spec g A false s N H S) as ([L|L] & _); [|easy].
  assert (EL : length zs = length A).
  { apply norm_axes_inv in E. destruct E as [_ F]. eapply F2_length; eauto. }
  unfold expand_dims. rewrite EL, L, E. reflexivity.
Qed.
Lemma expanded_ok (g : arr) a A keep s : axes_of (length s) a A -> a <> ANone -> shape g = red_shape A keep 0 s ->
  expanded g a keep = Ok (expansion g A keep).
Proof.
  intros X NA S. unfold expanded, expansion. destruct keep; [easy|].
  destruct (axes_of_ok _ _ _ X) as (E1 & E2 & N & H & F).
  destruct a as [|z|zs]; [easy| |].
  - cbn [raw_axes] in *. destruct X as (k & -> & _).
    destruct (expansion_spec g [k] false s N H S) as ([L|L] & _); [|easy].
    unfold expand_dims. cbn [length] in L. rewrite L, E1. reflexivity.
  - now apply (expand_dims_tuple g zs A s).
Qed.
(** Without axes: everything is reduced. *)
Lemma red_all s : forall k n, (length s <= n)%nat -> red_shape (seq k n) false k s = [].
Proof.
  intros k n. assert (G : forall s j, (k <= j)%nat -> (j + length s <= k + n)%nat -> red_shape (seq k n) false j s = []).
  { clear s. induction s as [|d s IH]; intros j L H; cbn; [reflexivity|]. cbn in H.
    rewrite (proj2 (is_in_true j (seq k n))); [|apply in_seq; lia]. apply IH; lia. }
  intros H. apply G; lia.
Qed.
Lemma proj_all s : forall k n, (length s <= n)%nat -> proj (seq k n) false k s = [].
Proof.
  intros k n. assert (G : forall s j, (k <= j)%nat -> (j + length s <= k + n)%nat -> proj (seq k n) false j s = []).
  { clear s. induction s as [|d s IH]; intros j L H; cbn; [reflexivity|]. cbn in H.
    rewrite (proj2 (is_in_true j (seq k n))); [|apply in_seq; lia]. apply IH; lia. }
  intros H. apply G; lia.
Qed.
Lemma bat_none (g : arr) keep s i : shape g = red_shape (seq 0 (length s)) keep 0 s -> inside s i ->
  bat g i = at_ g (proj (seq 0 (length s)) keep 0 i).
Proof.
  intros E H. destruct keep; [now apply (bat_kept _ _ s)|].
  rewrite red_all in E by lia. unfold bat. rewrite E. rewrite proj_all by (now rewrite (inside_length _ _ H)).
  now destruct (skipn _ i).
Qed.

(** ** The number of entries reduced *)
Fixpoint red_size (A : list nat) (k : nat) (s : list nat) : nat :=
  match s with [] => 1%nat | d :: r => if is_in k A then (d * red_size A (S k) r)%nat else red_size A (S k) r end.
Lemma lsum_const {A} (L : list A) c : lsum L (fun _ => c) = INR (length L) * c.
Proof. unfold lsum. induction L as [|a L IH]; [cbn; ring|]. cbn [map fold_right length]. rewrite S_INR, IH. ring. Qed.
Lemma group_size_sum A keep s : forall k o, inside (red_shape A keep k s) o ->
  lsum (indices s) (fun i => if index_eqb (proj A keep k i) o then 1 else 0) = INR (red_size A k s).
Proof.
  induction s as [|d s IH]; intros k o H.
  - inversion H; subst. cbn. ring.
  - rewrite lsum_indices. cbn [red_shape proj red_size] in *. destruct (is_in k A).
    + assert (G : exists o', inside (red_shape A keep (S k) s) o' /\ forall i,
                index_eqb (if keep then 0%nat :: proj A keep (S k) i else proj A keep (S k) i) o
                = index_eqb (proj A keep (S k) i) o').
      { destruct keep.
        - inversion H as [|? x ? o' Hx Ho]; subst. exists o'. split; [easy|]. intros i. assert (x = 0%nat) as -> by lia.
          unfold index_eqb. destruct (list_eq_dec _ _ _), (list_eq_dec _ _ _); congruence.
        - now exists o. }
      destruct G as (o' & Ho & G).
      rewrite (lsum_ext _ _ (fun _ => INR (red_size A (S k) s))).
      2:{ intros x _. rewrite <- (IH _ _ Ho). apply lsum_ext. intros i _. now rewrite G. }
      rewrite lsum_const, seq_length, mult_INR. reflexivity.
    + inversion H as [|? y ? o' Hy Ho]; subst.
      rewrite (lsum_single _ y).
      * rewrite <- (IH _ _ Ho). apply lsum_ext. intros i _. unfold index_eqb.
        destruct (list_eq_dec _ _ _), (list_eq_dec _ _ _); congruence.
      * apply seq_NoDup.
      * apply in_seq. lia.
      * intros x _ N. apply lsum_zero. intros i _. unfold index_eqb. destruct (list_eq_dec _ _ _); congruence.
Qed.
Lemma group_length x A keep o : inside (red_shape A keep 0 (shape x)) o ->
  length (group x A keep o) = red_size A 0 (shape x).
Proof.
  intros H. apply INR_eq. rewrite <- (group_size_sum _ _ _ _ _ H). unfold group.
  transitivity (lsum (filter (fun i => index_eqb (proj A keep 0 i) o) (indices (shape x))) (fun _ => 1)).
  - rewrite lsum_const. ring.
  - now rewrite lsum_filter.
Qed.
Definition product (l : list nat) : nat := fold_right Nat.mul 1%nat l.
Lemma red_size_product A (s : list nat) :
  red_size A 0 s = product (map (fun k => nth k s 0%nat) (filter (fun j => is_in j A) (seq 0 (length s)))).
Proof.
  assert (G : forall s k (f : nat -> nat), (forall j, (j < length s)%nat -> f (k + j)%nat = nth j s 0%nat) ->
              red_size A k s = product (map f (filter (fun j => is_in j A) (seq k (length s))))).
  { clear s. induction s as [|d s IH]; intros k f H; [reflexivity|]. cbn [red_size length seq filter].
    assert (E : f k = d). { specialize (H 0%nat). cbn in H. rewrite Nat.add_0_r in H. apply H. lia. }
    rewrite (IH (S k) f). 2:{ intros j Hj. specialize (H (S j)). cbn in H. rewrite <- H by lia. f_equal. lia. }
    destruct (is_in k A); cbn [map product fold_right]; [|reflexivity]. now rewrite E. }
  apply (G s 0%nat). reflexivity.
Qed.
Lemma product_perm l m : Permutation l m -> product l = product m.
Proof. unfold product. induction 1; cbn; lia. Qed.
Lemma dims_of_names s zs A : Forall2 (names (length s)) zs A -> dims_of s zs = Ok (product (map (fun k => nth k s 0%nat) A)).
Proof.
  induction 1 as [|z k zs A H _ IH]; [reflexivity|]. cbn [dims_of]. unfold dim_of. rewrite (norm_axis_names _ _ _ H). cbn [bind].
  rewrite IH. reflexivity.
Qed.
Lemma dims_ok s a A : axes_of (length s) a A -> dims_of s (raw_axes (length s) a) = Ok (red_size A 0 s).
Proof.
  intros X. destruct (axes_of_ok _ _ _ X) as (_ & _ & N & H & F). rewrite (dims_of_names _ _ _ F). f_equal.
  rewrite red_size_product. apply product_perm, Permutation_map, Permutation_sym, axes_perm; easy.
Qed.
Lemma red_size_all s : red_size (seq 0 (length s)) 0 s = size s.
Proof.
  assert (G : forall k s j, (k <= j)%nat -> forall n, (j + length s <= k + n)%nat -> red_size (seq k n) j s = size s).
  { clear s. intros k. induction s as [|d s IH]; intros j L n H; [reflexivity|]. cbn in *.
    rewrite (proj2 (is_in_true j (seq k n))); [|apply in_seq; lia]. rewrite IH by lia. reflexivity. }
  apply G; lia.
Qed.
Lemma red_size_pos A s : positive s -> forall k, (0 < red_size A k s)%nat.
Proof.
  induction s as [|d s IH]; intros P k; cbn; [lia|].
  assert (Q : positive s) by (intros e He; apply P; now right).
  specialize (IH Q (S k)). assert (0 < d)%nat by (apply P; now left). destruct (is_in k A); nia.
Qed.
