(** * Maxima of windows and their derivatives (proofs for C52) *)
From Coq Require Import Reals List ZArith Lia Lra Arith.
From Verif Require Import PyBase Deriv_Proofs Deriv_Binary Corr_Model Corr_Spec Corr_Proofs Corr_Props
  Corr_Props2 Pool_Model Pool_Spec.
Import ListNotations.
Open Scope R_scope.
Open Scope list_scope.

Lemma fold_max_ge l : forall x, x <= fold_left Rmax l x.
Proof.
  induction l as [|y l IH]; intros x; cbn; [lra|]. eapply Rle_trans; [|apply IH]. apply Rmax_l.
Qed.
Lemma fold_max_in l : forall x, In (fold_left Rmax l x) (x :: l).
Proof.
  induction l as [|y l IH]; intros x; [now left|]. cbn [fold_left].
  destruct (IH (Rmax x y)) as [E|E].
  - rewrite <- E. unfold Rmax. destruct (Rle_dec x y); [right; now left|now left].
  - right. now right.
Qed.
Lemma fold_max_bound l : forall x y, In y l -> y <= fold_left Rmax l x.
Proof.
  induction l as [|z l IH]; intros x y H; [easy|]. cbn [fold_left]. destruct H as [->|H]; [|now apply IH].
  eapply Rle_trans; [|apply fold_max_ge]. apply Rmax_r.
Qed.
Lemma window_max_in l : l <> [] -> In (window_max l) l.
Proof. destruct l as [|x l]; [easy|]. intros _. apply fold_max_in. Qed.
Lemma window_max_bound l y : In y l -> y <= window_max l.
Proof.
  destruct l as [|x l]; [easy|]. intros [->|H]; [apply fold_max_ge|now apply fold_max_bound].
Qed.
Lemma window_max_is l v : In v l -> (forall y, In y l -> y <= v) -> window_max l = v.
Proof.
  intros H G. apply Rle_antisym.
  - apply G. apply window_max_in. intros ->. easy.
  - now apply window_max_bound.
Qed.
Lemma window_max_ext {A} (L : list A) f h : (forall a, In a L -> f a = h a) ->
  window_max (map f L) = window_max (map h L).
Proof. intros H. f_equal. now apply map_ext_in. Qed.

(** The maximum of lines, if those that are maximal have the same slope. *)
Lemma below_near {A} (L : list A) (a b : A -> R) m d :
  (forall l, In l L -> a l <= m) -> (forall l, In l L -> a l = m -> b l = d) ->
  exists e, 0 < e /\ forall t, Rabs t < e -> forall l, In l L -> a l + t * b l <= m + t * d.
Proof.
  intros H G. induction L as [|x L IH].
  - exists 1. split; [lra|]. easy.
  - destruct IH as (e & He & IH).
    + intros l Hl. apply H. now right.
    + intros l Hl. apply G. now right.
    + assert (X : exists e', 0 < e' /\ forall t, Rabs t < e' -> a x + t * b x <= m + t * d).
      { destruct (Req_EM_T (a x) m) as [E|E].
        - exists 1. split; [lra|]. intros t _. rewrite E, (G x); [lra|now left|exact E].
        - assert (Hx : a x < m) by (specialize (H x (or_introl eq_refl)); lra).
          pose proof (Rabs_pos (d - b x)) as P.
          exists ((m - a x) / (Rabs (d - b x) + 1)). split.
          + apply Rdiv_lt_0_compat; lra.
          + intros t Ht.
            assert (Q : Rabs t * (Rabs (d - b x) + 1) < m - a x).
            { apply (Rmult_lt_compat_r (Rabs (d - b x) + 1)) in Ht; [|lra].
              replace ((m - a x) / (Rabs (d - b x) + 1) * (Rabs (d - b x) + 1)) with (m - a x) in Ht by (field; lra).
              exact Ht. }
            pose proof (Rabs_pos t).
            assert (T : - (t * (d - b x)) <= Rabs t * Rabs (d - b x)).
            { rewrite <- Rabs_mult. pose proof (Rle_abs (- (t * (d - b x)))). rewrite Rabs_Ropp in *. lra. }
            lra. }
      destruct X as (e' & He' & X). exists (Rmin e e'). split; [now apply Rmin_pos|].
      intros t Ht l [<-|Hl].
      * apply X. eapply Rlt_le_trans; [exact Ht|apply Rmin_r].
      * apply IH; [|exact Hl]. eapply Rlt_le_trans; [exact Ht|apply Rmin_l].
Qed.

Lemma dl_window_max {A} (L : list A) (a b : A -> R) d : L <> [] ->
  (forall l, In l L -> a l = window_max (map a L) -> b l = d) ->
  derivable_pt_lim (fun t => window_max (map (fun l => a l + t * b l) L)) 0 d.
Proof.
  intros HL G. set (m := window_max (map a L)) in *.
  assert (B : forall l, In l L -> a l <= m) by (intros l Hl; apply window_max_bound; now apply in_map).
  assert (I : In m (map a L)) by (apply window_max_in; now destruct L).
  apply in_map_iff in I. destruct I as (l0 & E0 & I0).
  destruct (below_near L a b m d B G) as (e & He & N).
  apply (dl_ext_loc _ (fun t => m + t * d) 0 d e); [exact He| |now apply (dl_of_affine _ m)].
  intros t Ht. apply window_max_is.
  - apply in_map_iff. exists l0. split; [|exact I0]. rewrite E0, (G l0 I0 E0). reflexivity.
  - intros y Hy. apply in_map_iff in Hy. destruct Hy as (l & <- & Hl). apply N; [|exact Hl].
    apply Rabs_def1; lra.
Qed.

Lemma dl_lsum {A} (L : list A) (f : A -> R -> R) d x :
  (forall a, In a L -> derivable_pt_lim (f a) x (d a)) ->
  derivable_pt_lim (fun t => lsum L (fun a => f a t)) x (lsum L d).
Proof.
  induction L as [|a L IH]; intros H.
  - apply (dl_of_affine _ 0). intros t. cbn. ring.
  - apply (dl_ext _ (fun t => f a t + lsum L (fun a => f a t))); [reflexivity|].
    change (lsum (a :: L) d) with (d a + lsum L d).
    apply (derivable_pt_lim_plus (f a)); [apply H; now left|]. apply IH. intros b Hb. apply H. now right.
Qed.

(** The slope the mask picks, when the slopes of the maximal entries can be told apart. *)
Lemma mask_slope {A} (L : list A) (a b : A -> R) (inp : A -> Prop) l0 : NoDup L ->
  (forall l, In l L -> ~ inp l -> b l = 0) ->
  no_ties (fun l => In l L) inp a ->
  In l0 L -> a l0 = window_max (map a L) ->
  lsum L (fun l => same (window_max (map a L)) (a l) * b l) = b l0.
Proof.
  intros ND Z T I0 E0. set (m := window_max (map a L)) in *.
  assert (B : forall l, In l L -> a l <= m) by (intros l Hl; apply window_max_bound; now apply in_map).
  assert (M : forall l, In l L -> a l = m -> forall i, In i L -> a i <= a l)
    by (intros l Hl -> i Hi; now apply B).
  assert (K : forall l, In l L -> l <> l0 -> same m (a l) * b l = 0).
  { intros l Hl N. unfold same. destruct (Req_EM_T m (a l)) as [E|E]; [|ring].
    destruct (T l l0) as [T1 _]; auto. rewrite Z by auto. ring. }
  apply in_split in I0. destruct I0 as (L1 & L2 & ->).
  rewrite lsum_app. change (lsum (l0 :: L2) ?f) with (f l0 + lsum L2 f). cbn beta.
  apply NoDup_remove_2 in ND.
  rewrite !lsum_zero.
  - unfold same. destruct (Req_EM_T m (a l0)); [ring|congruence].
  - intros l Hl. apply K; [apply in_or_app; right; now right|]. intros ->. apply ND. apply in_or_app. now right.
  - intros l Hl. apply K; [apply in_or_app; now left|]. intros ->. apply ND. apply in_or_app. now left.
Qed.
Lemma mask_all {A} (L : list A) (a b : A -> R) (inp : A -> Prop) : NoDup L -> L <> [] ->
  (forall l, In l L -> ~ inp l -> b l = 0) -> no_ties (fun l => In l L) inp a ->
  derivable_pt_lim (fun t => window_max (map (fun l => a l + t * b l) L)) 0
    (lsum L (fun l => same (window_max (map a L)) (a l) * b l)).
Proof.
  intros ND NE Z T. apply dl_window_max; [exact NE|].
  intros l Hl E. symmetry. now apply mask_slope with (inp := inp).
Qed.

(** The loop over the windows adds one term for each. *)
Lemma loop_sum {A B} (U : list A) (cond : A -> B -> bool) (v : A -> B -> R) : forall f0 q,
  fold_left (fun dx j => fun q => if cond j q then dx q + v j q else dx q) U f0 q
  = f0 q + lsum U (fun j => if cond j q then v j q else 0).
Proof.
  induction U as [|u U IH]; intros f0 q; cbn [fold_left]; [cbn; ring|].
  rewrite IH. change (lsum (u :: U) ?f) with (f u + lsum U f). cbn beta.
  destruct (cond u q); ring.
Qed.
Lemma loop_sum2 {A} (U : list A) (cond : A -> nat -> nat -> bool) (v : A -> nat -> nat -> R) : forall f0 y z,
  fold_left (fun dx j => fun y z => if cond j y z then dx y z + v j y z else dx y z) U f0 y z
  = f0 y z + lsum U (fun j => if cond j y z then v j y z else 0).
Proof.
  induction U as [|u U IH]; intros f0 y z; cbn [fold_left]; [cbn; ring|].
  rewrite IH. change (lsum (u :: U) ?f) with (f u + lsum U f). cbn beta.
  destruct (cond u y z); ring.
Qed.
Lemma window_meets s p k u q W :
  (if andb (Nat.leb (u * s) (p + q)) (Nat.ltb (p + q) (u * s + k)) then W (p + q)%nat else 0)
  = total k (fun l => meets s p u l q * W (u * s + l)%nat).
Proof.
  destruct (Nat.leb_spec (u * s) (p + q)) as [H|H].
  - destruct (Nat.ltb_spec (p + q) (u * s + k)) as [G|G]; cbn [andb].
    + rewrite (total_single k (p + q - u * s)); [|lia|].
      * rewrite meets_one by lia. replace (u * s + (p + q - u * s))%nat with (p + q)%nat by lia. ring.
      * intros i _ N. rewrite meets_ne by lia. ring.
    + symmetry. apply lsum_zero. intros l Hl. apply in_seq in Hl. rewrite meets_ne by lia. ring.
  - cbn [andb]. symmetry. apply lsum_zero. intros l Hl. rewrite meets_ne by lia. ring.
Qed.

Lemma adjoint_pool {TN TU TL TQ} (N : list TN) (U : list TU) (L : list TL) (Q : list TQ)
    (g : TN -> TU -> R) (M : TN -> TU -> TL -> R) (B : TU -> TL -> TQ -> R) (dx : TN -> TQ -> R) :
  lsum N (fun n => lsum U (fun u => g n u * lsum L (fun l => M n u l * lsum Q (fun q => B u l q * dx n q))))
  = lsum N (fun n => lsum Q (fun q => lsum U (fun u => lsum L (fun l => B u l q * M n u l) * g n u) * dx n q)).
Proof.
  apply lsum_ext; intros n _.
  transitivity (lsum U (fun u => lsum L (fun l => lsum Q (fun q => B u l q * M n u l * g n u * dx n q)))).
  { apply lsum_ext; intros u _. rewrite <- lsum_scal. apply lsum_ext; intros l _.
    rewrite <- lsum_scal, <- lsum_scal. apply lsum_ext; intros q _. ring. }
  transitivity (lsum Q (fun q => lsum U (fun u => lsum L (fun l => B u l q * M n u l * g n u * dx n q)))).
  { rewrite lsum_swap. transitivity (lsum U (fun u => lsum Q (fun q => lsum L (fun l => B u l q * M n u l * g n u * dx n q)))).
    - rewrite lsum_swap. apply lsum_ext; intros u _. apply lsum_swap.
    - apply lsum_swap. }
  apply lsum_ext; intros q _. rewrite <- lsum_scal_r. apply lsum_ext; intros u _.
  rewrite <- !lsum_scal_r. reflexivity.
Qed.

Lemma entry1_meets x s p n c u l :
  entry1 x s p n c u l = total (d32 x) (fun q => meets s p u l q * at3 x n c q).
Proof. apply signal_meets. Qed.
Lemma entry2_meets x s0 s1 p q n c u l :
  entry2 x s0 s1 p q n c (fst u) (snd u) (fst l) (snd l)
  = lsum (grid (d42 x) (d43 x)) (fun r => meets2 s0 s1 p q u l r * at4 x n c (fst r) (snd r)).
Proof.
  unfold entry2. rewrite signal_meets, <- two_meets. apply total_ext; intros y _. now rewrite signal_meets.
Qed.
Lemma entry1_outside w s p u l (f : nat -> R) : ~ inside w s p u l ->
  total w (fun q => meets s p u l q * f q) = 0.
Proof.
  intros H. apply lsum_zero. intros q Hq. apply in_seq in Hq. rewrite meets_ne; [ring|].
  intros E. apply H. unfold inside. lia.
Qed.
Lemma NoDup_grid a b : NoDup (grid a b).
Proof.
  unfold grid. assert (H := seq_NoDup a 0). induction (seq 0 a) as [|x l IH]; [constructor|].
  cbn [list_prod]. inversion H; subst.
  cbn [app].
  assert (N1 : NoDup (map (fun y => (x, y)) (seq 0 b))).
  { apply FinFun.Injective_map_NoDup; [|apply seq_NoDup]. intros y z [= E]. exact E. }
  assert (N2 : NoDup (list_prod l (seq 0 b))) by now apply IH.
  assert (D : forall r, In r (map (fun y => (x, y)) (seq 0 b)) -> ~ In r (list_prod l (seq 0 b))).
  { intros r Hr. apply in_map_iff in Hr. destruct Hr as (y & <- & _). intros C. apply in_prod_iff in C. tauto. }
  clear - N1 N2 D. induction (map (fun y => (x, y)) (seq 0 b)) as [|r m IH]; [exact N2|].
  cbn [app]. inversion N1; subst. constructor.
  - intros C. apply in_app_iff in C. destruct C as [C|C]; [contradiction|]. apply (D r); [now left|exact C].
  - apply IH; [assumption|]. intros r' Hr'. apply D. now right.
Qed.
