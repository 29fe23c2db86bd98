(** * Proofs about matrix multiplication and attention. *)
From Coq Require Import Reals List ZArith Lia Lra.
From Verif Require Import PyBase Deriv_Proofs Corr_Spec Corr_Proofs Pool_Proofs Axis_Model Axis_Spec Axis_Proofs Axis_Props Move_Model Move_Spec Move_Proofs Move_Proofs2 Move_Props
  Select_Model Select_Spec Select_Proofs Select_Proofs2 Attn_Model Attn_Spec.
Import ListNotations.
Open Scope R_scope.
Open Scope list_scope.
Open Scope res_scope.

Lemma sum_to_lsum n f : sum_to n f = lsum (seq 0 n) f.
Proof. reflexivity. Qed.
Lemma lsum_cons {A} (a : A) l f : lsum (a :: l) f = f a + lsum l f.
Proof. reflexivity. Qed.
Lemma lsum_one {A} (a : A) f : lsum [a] f = f a.
Proof. unfold lsum. cbn. ring. Qed.
Lemma lsum_indices_app b s f : lsum (indices (b ++ s)) f = lsum (indices b) (fun i => lsum (indices s) (fun j => f (i ++ j))).
Proof.
  revert f. induction b as [|d b IH]; intros f; cbn [app].
  - cbn [indices]. now rewrite lsum_one.
  - rewrite !lsum_indices. apply lsum_ext. intros k _. rewrite IH. reflexivity.
Qed.
Lemma lsum_indices_two n m f : lsum (indices [n; m]) f = lsum (seq 0 n) (fun i => lsum (seq 0 m) (fun j => f [i; j])).
Proof.
  rewrite lsum_indices. apply lsum_ext. intros i _. rewrite lsum_indices. apply lsum_ext. intros j _. cbn [indices]. now rewrite lsum_one.
Qed.
Lemma lsum_matrices b n m f : lsum (indices (b ++ [n; m])) f =
  lsum (indices b) (fun o => lsum (seq 0 n) (fun i => lsum (seq 0 m) (fun j => f (o ++ [i; j])))).
Proof. rewrite lsum_indices_app. apply lsum_ext. intros o _. apply lsum_indices_two. Qed.
Lemma in_range n k : In k (seq 0 n) <-> (k < n)%nat.
Proof. rewrite in_seq. lia. Qed.

(** ** Shapes *)
Lemma split2_app b n m : split2 (b ++ [n; m]) = Some (b, n, m).
Proof. unfold split2. rewrite rev_app_distr. cbn. now rewrite rev_involutive. Qed.
Lemma inside_two_app b n m o i j : inside b o -> (i < n)%nat -> (j < m)%nat -> inside (b ++ [n; m]) (o ++ [i; j]).
Proof. intros H1 H2 H3. apply inside_app; [easy|]. repeat constructor; easy. Qed.
Lemma inside_two_inv b n m o : inside (b ++ [n; m]) o -> exists bo i j, o = bo ++ [i; j] /\ inside b bo /\ (i < n)%nat /\ (j < m)%nat.
Proof.
  intros H. apply inside_app_inv in H as (bo & r & -> & H1 & H2). inversion H2 as [|d i s r1 Hi H3]; subst. inversion H3 as [|d j s r2 Hj H4]; subst.
  inversion H4; subst. now exists bo, i, j.
Qed.
Lemma source_self b o : inside b o -> source b o = o.
Proof. intros H. rewrite source_squash by (now rewrite (inside_length _ _ H)). rewrite (inside_length _ _ H), Nat.sub_diag. now apply squash_same. Qed.
Lemma squash_app a b i j : length a = length i -> squash (a ++ b) (i ++ j) = squash a i ++ squash b j.
Proof. revert i. induction a as [|d a IH]; intros [|k i] L; cbn in *; try easy. f_equal. apply IH. lia. Qed.
Lemma source_app b c o i : (length b <= length o)%nat -> inside c i -> source (b ++ c) (o ++ i) = source b o ++ i.
Proof.
  intros L H. pose proof (inside_length _ _ H) as LI. rewrite !source_squash by (rewrite ?app_length; lia).
  rewrite !app_length, LI. replace (length o + length c - (length b + length c))%nat with (length o - length b)%nat by lia.
  rewrite skipn_app. replace (length o - length b - length o)%nat with 0%nat by lia. cbn [skipn].
  rewrite squash_app by (rewrite skipn_length; lia). f_equal. now apply squash_same.
Qed.
Lemma batch_source b o : (length b <= length o)%nat -> batch_at b o = source b o.
Proof. intros H. unfold batch_at. now rewrite source_squash. Qed.
Lemma common_two a b t : common [a; b] t <-> broadcast_shape a b = Ok t.
Proof.
  rewrite broadcast_shape_iff. unfold fit1. split.
  - intros [L H]. cbn in L. rewrite Nat.max_0_r in L. split; [easy|]. intros k. destruct (H k) as [H1 H2].
    split; [apply H1; cbn; tauto|]. split; [apply H1; cbn; tauto|]. destruct H2 as [H2|(s & [<-|[<-|[] ] ] & Hs)]; lia.
  - intros [L H]. split; [cbn; lia|]. intros k. specialize (H k). split; [intros s [<-|[<-|[] ] ]; lia|].
    assert (Q : (dim k t = 1 \/ dim k a = dim k t \/ dim k b = dim k t)%nat) by lia.
    destruct Q as [Q|[Q|Q] ]; [now left|..]; right; eexists; (split; [|exact Q]); cbn; tauto.
Qed.
Lemma broadcast_self b : broadcast_shape b b = Ok b.
Proof. apply broadcast_shape_iff. split; [lia|]. intros k. unfold fit1. lia. Qed.

(** ** Products of matrices *)
Lemma matmul_ok x y bx by_ b n m p : shape x = bx ++ [n; m] -> shape y = by_ ++ [m; p] -> broadcast_shape bx by_ = Ok b ->
  exists z, matmul x y = Ok z /\ shape z = b ++ [n; p] /\
    forall o i j, inside b o -> at_ z (o ++ [i; j]) = lsum (seq 0 m) (fun k => at_ x (source bx o ++ [i; k]) * at_ y (source by_ o ++ [k; j])).
Proof.
  intros Ex Ey B. unfold matmul. rewrite Ex, Ey, !split2_app, Nat.eqb_refl, B. cbn [bind]. eexists. split; [reflexivity|]. split; [easy|].
  intros o i j Ho. cbn [at_]. rewrite split2_app, np_sum_lsum. pose proof (proj2 (common_two _ _ _) B) as C. pose proof (inside_length _ _ Ho) as LO.
  rewrite !batch_source; [easy|rewrite LO; apply (common_length _ _ _ C); cbn; tauto|rewrite LO; apply (common_length _ _ _ C); cbn; tauto].
Qed.
Lemma matmul_same x y b n m p : shape x = b ++ [n; m] -> shape y = b ++ [m; p] ->
  exists z, matmul x y = Ok z /\ shape z = b ++ [n; p] /\
    forall o i j, inside b o -> at_ z (o ++ [i; j]) = lsum (seq 0 m) (fun k => at_ x (o ++ [i; k]) * at_ y (o ++ [k; j])).
Proof.
  intros Ex Ey. destruct (matmul_ok x y b b b n m p Ex Ey (broadcast_self b)) as (z & E & S & H). exists z. split; [easy|]. split; [easy|].
  intros o i j Ho. rewrite H by easy. now rewrite source_self.
Qed.
Lemma exchanged_last a b l i j : (length l = a /\ b = S a \/ length l = b /\ a = S b)%nat -> exchanged a b (l ++ [i; j]) = l ++ [j; i].
Proof.
  intros H. unfold exchanged. apply list_nth_eq.
  - rewrite map_length, seq_length, !app_length. reflexivity.
  - intros k Hk. rewrite map_length, seq_length, app_length in Hk. cbn in Hk. rewrite (nth_map_any _ _ _ 0%nat) by (rewrite seq_length, app_length; cbn; lia).
    rewrite seq_nth by (rewrite app_length; cbn; lia). cbn [Nat.add].
    destruct (Nat.lt_ge_cases k (length l)) as [Q|Q].
    + destruct (Nat.eq_dec k a); [lia|]. destruct (Nat.eq_dec k b); [lia|]. now rewrite !app_nth1.
    + assert (K : (k = length l \/ k = S (length l))%nat) by lia.
      assert (N1 : forall u v : nat, nth (length l) (l ++ [u; v]) 0%nat = u) by (intros u v; rewrite app_nth2 by lia; now rewrite Nat.sub_diag).
      assert (N2 : forall u v : nat, nth (S (length l)) (l ++ [u; v]) 0%nat = v) by (intros u v; rewrite app_nth2 by lia; now rewrite Nat.sub_succ_l, Nat.sub_diag by lia).
      destruct H as [[<- ->]|[<- ->] ], K as [->| ->]; repeat (destruct (Nat.eq_dec _ _); [try lia|]); try lia; now rewrite ?N1, ?N2.
Qed.
Lemma swap_last x b n m z1 z2 : (z1 = -1 /\ z2 = -2 \/ z1 = -2 /\ z2 = -1)%Z -> shape x = b ++ [n; m] ->
  exists y, swapaxes x z1 z2 = Ok y /\ shape y = b ++ [m; n] /\
    forall o i j, inside b o -> (i < n)%nat -> (j < m)%nat -> at_ y (o ++ [j; i]) = at_ x (o ++ [i; j]).
Proof.
  intros Z E. set (r := length b). assert (LX : length (shape x) = (r + 2)%nat) by (rewrite E, app_length; reflexivity).
  assert (Q : exists a c, names (length (shape x)) z1 a /\ names (length (shape x)) z2 c /\ ((r = a /\ c = S a) \/ (r = c /\ a = S c))%nat).
  { rewrite LX. destruct Z as [[-> ->]|[-> ->] ]; [exists (S r), r|exists r, (S r)]; unfold names; lia. }
  destruct Q as (a & c & NA & NC & Q). destruct (C55_swapaxes x z1 z2 a c NA NC) as [(y & EY & SY & HY) _].
  exists y. split; [easy|]. split; [rewrite SY, E; now apply exchanged_last|].
  intros o i j Ho Hi Hj. rewrite <- (exchanged_last a c o i j); [|now rewrite (inside_length _ _ Ho)]. apply HY. rewrite E. now apply inside_two_app.
Qed.

(** ** The softmax of a row, some positions excluded *)
Definition ex (a : option R) : R := match a with Some r => exp r | None => 0 end.
Lemma ex_nonneg a : 0 <= ex a.
Proof. destruct a; cbn; [left; apply exp_pos|lra]. Qed.
Lemma eexp_ex a m : eexp a m = ex a * exp (- m).
Proof. destruct a; cbn; [|ring]. unfold Rminus. apply exp_plus. Qed.
Lemma emax_some l : (exists r, In (Some r) l) -> exists m, emax l = Some m.
Proof.
  intros [r H]. induction l as [|a l IH]; [easy|]. unfold emax in *. cbn [fold_right]. destruct H as [->|H].
  - destruct (fold_right _ None l); now eexists.
  - destruct (IH H) as [m E]. rewrite E. destruct a; now eexists.
Qed.
Lemma lsum_nonneg {A} (l : list A) f : (forall a, In a l -> 0 <= f a) -> 0 <= lsum l f.
Proof. induction l as [|a l IH]; intros H; [cbn; lra|]. rewrite lsum_cons. pose proof (H a (or_introl eq_refl)). assert (0 <= lsum l f) by (apply IH; intros b Hb; apply H; now right). lra. Qed.
Lemma lsum_ex_pos {A} (l : list A) f a r : In a l -> f a = Some r -> 0 < lsum l (fun x => ex (f x)).
Proof.
  induction l as [|b l IH]; [easy|]. intros [->|H] E; rewrite lsum_cons.
  - rewrite E. cbn. pose proof (exp_pos r). assert (0 <= lsum l (fun x => ex (f x))) by (apply lsum_nonneg; intros; apply ex_nonneg). lra.
  - specialize (IH H E). pose proof (ex_nonneg (f b)). lra.
Qed.
Lemma removelast_snoc {A} (l : list A) a : removelast (l ++ [a]) = l.
Proof. rewrite removelast_app by easy. cbn. apply app_nil_r. Qed.
Lemma esoftmax_ok (x : earr) r n : eshape x = r ++ [n] -> (forall i, inside r i -> exists k v, (k < n)%nat /\ eat x (i ++ [k]) = Some v) ->
  exists y, esoftmax x = Ok y /\ shape y = eshape x /\
    forall i k, inside r i -> (k < n)%nat -> at_ y (i ++ [k]) = ex (eat x (i ++ [k])) / lsum (seq 0 n) (fun s => ex (eat x (i ++ [s]))).
Proof.
  intros E H. unfold esoftmax. rewrite E, rev_app_distr. cbn [rev app]. rewrite rev_involutive.
  assert (M : forall i c, inside r i -> exists m, emax (erow x n (i ++ [c])) = Some m).
  { intros i c Hi. apply emax_some. destruct (H i Hi) as (k & v & Hk & Ev). exists v. unfold erow. rewrite removelast_snoc. apply in_map_iff.
    exists k. split; [easy|]. now apply in_range. }
  assert (F : forallb (fun o => match emax (erow x n o) with Some _ => true | None => false end) (indices (r ++ [1%nat])) = true).
  { apply forallb_forall. intros o Ho. apply in_indices in Ho. apply inside_app_inv in Ho as (i & c & -> & Hi & Hc).
    inversion Hc as [|d c0 s c1 Hc0 Hc1]; subst. inversion Hc1; subst. destruct (M i c0 Hi) as [m ->]. reflexivity. }
  rewrite F. eexists. split; [reflexivity|]. cbn [shape at_]. split; [easy|]. intros i k Hi Hk. destruct (M i k Hi) as [m ->].
  unfold erow. rewrite removelast_snoc, map_map, np_sum_lsum, eexp_ex.
  rewrite (lsum_ext _ (fun a => eexp (eat x (i ++ [a])) m) (fun a => ex (eat x (i ++ [a])) * exp (- m))) by (intros; apply eexp_ex).
  rewrite lsum_scal_r. destruct (H i Hi) as (k0 & v & Hk0 & Ev).
  assert (P : 0 < lsum (seq 0 n) (fun a => ex (eat x (i ++ [a])))) by (apply (lsum_ex_pos _ _ k0 v); [now apply in_range|easy]).
  pose proof (exp_pos (- m)). field. split; lra.
Qed.
(** Its derivative. *)
Section Row.
  Variables (n : nat) (c a d : nat -> R) (u : nat -> option R).
  Let E (s : nat) (t : R) : R := match u s with Some b => exp (a s + t * d s + b) | None => 0 end.
  Let Z : R := lsum (seq 0 n) (fun r => E r 0).
  Let w (s : nat) : R := E s 0 / Z.
  Lemma row_dl : (exists s b, (s < n)%nat /\ u s = Some b) ->
    derivable_pt_lim (fun t => lsum (seq 0 n) (fun s => c s * (E s t / lsum (seq 0 n) (fun r => E r t)))) 0
      (lsum (seq 0 n) (fun s => d s * (w s * (c s - lsum (seq 0 n) (fun r => w r * c r))))).
  Proof.
    intros (s0 & b0 & Hs0 & U0).
    assert (EX : forall s t, E s t = ex (match u s with Some b => Some (a s + t * d s + b) | None => None end)) by (intros s t; unfold E; now destruct (u s)).
    assert (P : forall t, 0 < lsum (seq 0 n) (fun r => E r t)).
    { intros t. rewrite (lsum_ext _ _ (fun r => ex (match u r with Some b => Some (a r + t * d r + b) | None => None end))) by (intros; apply EX).
      eapply (lsum_ex_pos _ _ s0); [now apply in_range|]. now rewrite U0. }
    assert (DE : forall s, derivable_pt_lim (E s) 0 (E s 0 * d s)).
    { intros s. unfold E. destruct (u s) as [b|]; [|replace (0 * d s) with 0 by ring; apply derivable_pt_lim_const].
      apply (dl_eq _ _ (exp (a s + 0 * d s + b) * d s)); [|easy].
      apply (derivable_pt_lim_comp (fun t => a s + t * d s + b) exp 0 (d s) (exp (a s + 0 * d s + b))); [|apply derivable_pt_lim_exp].
      apply (dl_of_affine _ (a s + b)). intros t. ring. }
    assert (DN : derivable_pt_lim (fun t => lsum (seq 0 n) (fun s => c s * E s t)) 0 (lsum (seq 0 n) (fun s => c s * (E s 0 * d s)))).
    { apply (dl_lsum (seq 0 n) (fun s t => c s * E s t)). intros s _. apply dl_scal. apply DE. }
    assert (DZ : derivable_pt_lim (fun t => lsum (seq 0 n) (fun s => E s t)) 0 (lsum (seq 0 n) (fun s => E s 0 * d s))).
    { apply (dl_lsum (seq 0 n) (fun s t => E s t)). intros s _. apply DE. }
    apply (dl_ext _ (fun t => lsum (seq 0 n) (fun s => c s * E s t) / lsum (seq 0 n) (fun r => E r t))).
    { intros t. unfold Rdiv. rewrite <- lsum_scal_r. apply lsum_ext. intros s _. ring. }
    pose proof (P 0) as P0. fold Z in P0.
    eapply dl_eq; [apply (derivable_pt_lim_div _ _ 0 _ _ DN DZ); fold Z; lra|]. fold Z. unfold Rsqr.
    set (N := lsum (seq 0 n) (fun s => c s * E s 0)).
    assert (W : lsum (seq 0 n) (fun r => w r * c r) = N / Z).
    { unfold N, Rdiv. rewrite <- lsum_scal_r. apply lsum_ext. intros r _. unfold w, Rdiv. ring. }
    rewrite W. rewrite (lsum_ext _ (fun s => d s * (w s * (c s - N / Z))) (fun s => / Z * (c s * (E s 0 * d s)) + (- (N / (Z * Z))) * (E s 0 * d s))).
    2:{ intros s _. unfold w. field. lra. }
    rewrite lsum_plus, !lsum_scal. field. lra.
  Qed.
End Row.

(** ** [softmax_grad] along the last axis *)
Lemma proj_last j c : forall k, proj [(k + length j)%nat] true k (j ++ [c]) = j ++ [0%nat].
Proof.
  induction j as [|a j IH]; intros k; cbn [app length proj].
  - rewrite Nat.add_0_r. cbn. now rewrite Nat.eqb_refl.
  - replace (k + S (length j))%nat with (S k + length j)%nat by lia. rewrite IH. cbn [is_in existsb]. destruct (Nat.eqb_spec k (S k + length j)); [lia|].
    cbn. reflexivity.
Qed.
Lemma softmax_grad_last (out g x : arr) r n : shape out = r ++ [n] ->
  exists G, softmax_grad out g x (-1) = Ok G /\ shape G = shape out /\
    forall i k, inside r i -> (k < n)%nat -> at_ G (i ++ [k]) = at_ out (i ++ [k]) * (at_ g (i ++ [k]) - lsum (seq 0 n) (fun s => at_ out (i ++ [s]) * at_ g (i ++ [s]))).
Proof.
  intros E. unfold softmax_grad. set (e := mka (shape out) (fun i => at_ out i * at_ g i)).
  assert (X : axes_of (length (shape e)) (AInt (-1)) [length r]).
  { exists (length r). split; [easy|]. cbn [e shape]. rewrite E, app_length. cbn. unfold names. lia. }
  rewrite (reduce_ok np_sum e (AInt (-1)) [length r] true X). cbn [bind]. eexists. split; [reflexivity|]. split; [easy|].
  assert (PJ : forall j c, inside r j -> proj [length r] true 0 (j ++ [c]) = j ++ [0%nat]).
  { intros j c Hj. rewrite <- (inside_length _ _ Hj). apply (proj_last j c 0). }
  intros i k Hi Hk. cbn [at_]. f_equal. f_equal.
  rewrite (bat_kept _ [length r] (shape out)); [|easy|rewrite E; apply inside_app; [easy|repeat constructor; easy] ]. cbn [at_]. rewrite np_sum_lsum. unfold group.
  rewrite lsum_filter. cbn [e shape at_]. rewrite E, lsum_indices_app. rewrite (lsum_single _ i).
  - rewrite lsum_indices. apply lsum_ext. intros s _. cbn [indices]. rewrite lsum_one.
    rewrite !PJ by easy. rewrite (proj2 (index_eqb_true _ _) eq_refl). reflexivity.
  - apply nodup_indices.
  - now apply in_indices.
  - intros j Hj N. apply in_indices in Hj. apply lsum_zero. intros s Hs. apply in_indices in Hs. inversion Hs as [|d s0 s1 s2 Hs0 Hs1]; subst. inversion Hs1; subst.
    destruct (index_eqb _ _) eqn:Q; [|easy]. apply index_eqb_true in Q. exfalso. apply N.
    rewrite !PJ in Q by easy. now apply app_inj_tail in Q.
Qed.
