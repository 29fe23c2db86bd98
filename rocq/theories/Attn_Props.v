(** * C57: matrix multiplication and attention of the numpy backend, and their gradients. *)
From Coq Require Import Reals List ZArith Lia Lra.
From Verif Require Import PyBase Deriv_Proofs Corr_Spec Corr_Proofs Pool_Proofs Axis_Model Axis_Spec Axis_Proofs Move_Model Move_Spec Move_Proofs Move_Proofs2
  Select_Model Select_Spec Select_Proofs Select_Proofs2 Attn_Model Attn_Spec Attn_Proofs.
Import ListNotations.
Open Scope R_scope.
Open Scope list_scope.
Open Scope res_scope.

(** ** Matrix multiplication *)
Theorem C57_matmul x y bx by_ b n m p : shape x = bx ++ [n; m] -> shape y = by_ ++ [m; p] -> common [bx; by_] b ->
  (exists z, matmul x y = Ok z /\ shape z = b ++ [n; p] /\
     forall o i j, inside b o -> (i < n)%nat -> (j < p)%nat -> at_ z (o ++ [i; j]) = product_at x y bx by_ m o i j) /\
  forall g, shape g = b ++ [n; p] ->
    exists Gx Gy, matmul_grad g x y 0 = Ok Gx /\ matmul_grad g x y 1 = Ok Gy /\
      shape Gx = b ++ [n; m] /\ shape Gy = b ++ [m; p] /\
      spread_gradient_at (fun x' => matmul x' y) x g Gx /\ spread_gradient_at (fun y' => matmul x y') y g Gy.
Proof.
  intros Ex Ey C. pose proof (proj1 (common_two _ _ _) C) as B.
  assert (LX : (length bx <= length b)%nat) by (apply (common_length _ _ _ C); cbn; tauto).
  assert (LY : (length by_ <= length b)%nat) by (apply (common_length _ _ _ C); cbn; tauto).
  assert (IX : forall o, inside b o -> inside bx (source bx o)).
  { intros o Ho. assert (SP : spreads bx b) by (apply (common_spreads _ _ _ C); cbn; tauto). clear -Ho SP.
    destruct (broadcast_axes bx b SP) as [_ D]. set (k := (length b - length bx)%nat) in *.
    destruct (drops_squash _ 0 _ b D o Ho) as [I _]. rewrite ones_squash in I by (rewrite (inside_length _ _ Ho); unfold k; destruct SP; lia).
    apply ones_inside_inv in I. rewrite source_squash by (rewrite (inside_length _ _ Ho); apply SP). rewrite (inside_length _ _ Ho). exact I. }
  assert (IY : forall o, inside b o -> inside by_ (source by_ o)).
  { intros o Ho. assert (SP : spreads by_ b) by (apply (common_spreads _ _ _ C); cbn; tauto). clear -Ho SP.
    destruct (broadcast_axes by_ b SP) as [_ D]. set (k := (length b - length by_)%nat) in *.
    destruct (drops_squash _ 0 _ b D o Ho) as [I _]. rewrite ones_squash in I by (rewrite (inside_length _ _ Ho); unfold k; destruct SP; lia).
    apply ones_inside_inv in I. rewrite source_squash by (rewrite (inside_length _ _ Ho); apply SP). rewrite (inside_length _ _ Ho). exact I. }
  assert (SX : spreads bx b) by (apply (common_spreads _ _ _ C); cbn; tauto).
  assert (SY : spreads by_ b) by (apply (common_spreads _ _ _ C); cbn; tauto).
  split.
  - destruct (matmul_ok x y bx by_ b n m p Ex Ey B) as (z & E & S & H). exists z. split; [easy|]. split; [easy|].
    intros o i j Ho _ _. rewrite H by easy. reflexivity.
  - intros g Sg.
    destruct (swap_last y by_ m p (-1) (-2) ltac:(now left) Ey) as (yt & Eyt & Syt & Hyt).
    destruct (swap_last x bx n m (-1) (-2) ltac:(now left) Ex) as (xt & Ext & Sxt & Hxt).
    destruct (matmul_ok g yt b by_ b n p m Sg Syt (broadcast_into _ _ SY)) as (Gx & EGx & SGx & HGx).
    assert (BX : broadcast_shape bx b = Ok b).
    { apply broadcast_shape_iff. pose proof (proj1 (broadcast_shape_iff _ _ _) (broadcast_into _ _ SX)) as [L1 L2]. split; [lia|].
      intros k. specialize (L2 k). unfold fit1 in *. lia. }
    destruct (matmul_ok xt g bx b b m n p Sxt Sg BX) as (Gy & EGy & SGy & HGy).
    exists Gx, Gy. cbn [matmul_grad]. rewrite Eyt, Ext. cbn [bind]. do 4 (split; [easy|]). split; intros dx.
    + rewrite SGx, sum_over_lsum, lsum_matrices.
      apply (dl_of_affine _ (lsum (indices b) (fun o => lsum (seq 0 n) (fun i => lsum (seq 0 p) (fun j => at_ g (o ++ [i; j]) *
        lsum (seq 0 m) (fun k => at_ x (source bx o ++ [i; k]) * at_ y (source by_ o ++ [k; j]))))))).
      intros t. destruct (matmul_ok (moved x dx t) y bx by_ b n m p Ex Ey B) as (z & E & S & H). rewrite E. cbn [weighted].
      rewrite Sg, sum_over_lsum, lsum_matrices. rewrite <- lsum_scal, <- lsum_plus. apply lsum_ext. intros o Ho. apply in_indices in Ho.
      rewrite <- lsum_scal, <- lsum_plus. apply lsum_ext. intros i Hi. apply in_range in Hi.
      rewrite (lsum_ext (seq 0 m) (fun j => at_ Gx (o ++ [i; j]) * dx (source (shape x) (o ++ [i; j])))
        (fun k => lsum (seq 0 p) (fun j => at_ g (o ++ [i; j]) * (dx (source bx o ++ [i; k]) * at_ y (source by_ o ++ [k; j]))))).
      2:{ intros k Hk. apply in_range in Hk. rewrite HGx by easy. rewrite (source_self b o Ho), Ex, source_app; [|rewrite (inside_length _ _ Ho); lia|repeat constructor; easy].
          rewrite <- lsum_scal_r. apply lsum_ext. intros j Hj. apply in_range in Hj. rewrite Hyt; [ring|now apply IY|easy|easy]. }
      rewrite lsum_swap, <- lsum_scal, <- lsum_plus. apply lsum_ext. intros j Hj. rewrite H by easy. cbn [moved at_].
      rewrite !lsum_scal. rewrite (lsum_ext (seq 0 m) (fun k => (at_ x (source bx o ++ [i; k]) + t * dx (source bx o ++ [i; k])) * at_ y (source by_ o ++ [k; j]))
        (fun k => at_ x (source bx o ++ [i; k]) * at_ y (source by_ o ++ [k; j]) + t * (dx (source bx o ++ [i; k]) * at_ y (source by_ o ++ [k; j])))) by (intros; ring).
      rewrite lsum_plus, lsum_scal. ring.
    + rewrite SGy, sum_over_lsum, lsum_matrices.
      apply (dl_of_affine _ (lsum (indices b) (fun o => lsum (seq 0 n) (fun i => lsum (seq 0 p) (fun j => at_ g (o ++ [i; j]) *
        lsum (seq 0 m) (fun k => at_ x (source bx o ++ [i; k]) * at_ y (source by_ o ++ [k; j]))))))).
      intros t. destruct (matmul_ok x (moved y dx t) bx by_ b n m p Ex Ey B) as (z & E & S & H). rewrite E. cbn [weighted].
      rewrite Sg, sum_over_lsum, lsum_matrices. rewrite <- lsum_scal, <- lsum_plus. apply lsum_ext. intros o Ho. apply in_indices in Ho.
      rewrite (lsum_ext (seq 0 m) (fun k => lsum (seq 0 p) (fun j => at_ Gy (o ++ [k; j]) * dx (source (shape y) (o ++ [k; j]))))
        (fun k => lsum (seq 0 n) (fun i => lsum (seq 0 p) (fun j => at_ g (o ++ [i; j]) * (at_ x (source bx o ++ [i; k]) * dx (source by_ o ++ [k; j])))))).
      2:{ intros k Hk. apply in_range in Hk. rewrite lsum_swap. apply lsum_ext. intros j Hj. apply in_range in Hj. rewrite HGy by easy.
          rewrite (source_self b o Ho), Ey, source_app; [|rewrite (inside_length _ _ Ho); lia|repeat constructor; easy].
          rewrite <- lsum_scal_r. apply lsum_ext. intros i Hi. apply in_range in Hi. rewrite Hxt; [ring|now apply IX|easy|easy]. }
      rewrite (lsum_swap (seq 0 m)), <- lsum_scal, <- lsum_plus. apply lsum_ext. intros i Hi.
      rewrite (lsum_swap (seq 0 m)), <- lsum_scal, <- lsum_plus. apply lsum_ext. intros j Hj. rewrite H by easy. cbn [moved at_].
      rewrite !lsum_scal. rewrite (lsum_ext (seq 0 m) (fun k => at_ x (source bx o ++ [i; k]) * (at_ y (source by_ o ++ [k; j]) + t * dx (source by_ o ++ [k; j])))
        (fun k => at_ x (source bx o ++ [i; k]) * at_ y (source by_ o ++ [k; j]) + t * (at_ x (source bx o ++ [i; k]) * dx (source by_ o ++ [k; j])))) by (intros; ring).
      rewrite lsum_plus, lsum_scal. ring.
Qed.
Theorem C57_matmul_only x y z : matmul x y = Ok z ->
  exists bx by_ n m p, shape x = bx ++ [n; m] /\ shape y = by_ ++ [m; p] /\ exists b, common [bx; by_] b /\ shape z = b ++ [n; p].
Proof.
  assert (S2 : forall s b n m, split2 s = Some (b, n, m) -> s = b ++ [n; m]).
  { intros s b n m. unfold split2. destruct (rev s) as [|c [|r l] ] eqn:E; try easy. intros Q. injection Q as <- <- <-.
    rewrite <- (rev_involutive s), E. cbn. now rewrite <- app_assoc. }
  unfold matmul. destruct (split2 (shape x)) as [ [ [bx n] m]|] eqn:E1; [|easy]. destruct (split2 (shape y)) as [ [ [by_ m'] p]|] eqn:E2; [|easy].
  destruct (Nat.eqb_spec m m') as [<-|]; [|easy]. destruct (broadcast_shape bx by_) as [b|] eqn:E3; [|easy]. cbn [bind]. intros Q. injection Q as <-.
  exists bx, by_, n, m, p. split; [now apply S2|]. split; [now apply S2|]. exists b. split; [now apply common_two|easy].
Qed.

(** ** Attention *)
Lemma source_source c t o : spreads c t -> length t = length o -> source c (source t o) = source c o.
Proof.
  intros [L H] LO. unfold source. rewrite rev_involutive. f_equal. rewrite <- (rev_length c) in L. rewrite <- (rev_length t) in L, LO. rewrite <- (rev_length o) in LO.
  rewrite <- (rev_length c) in H. revert L H LO. generalize (rev c) (rev t) (rev o). clear. intros a. induction a as [|d a IH]; intros [|e t] [|k o] L H LO; try easy; try (cbn in L, LO; lia).
  cbn [combine map fst snd]. f_equal.
  - destruct (H 0%nat ltac:(cbn; lia)) as [Q|Q]; cbn in Q; subst; [reflexivity|]. destruct (Nat.eq_dec e 1); reflexivity.
  - apply IH; [cbn in L; lia| |cbn in LO; lia]. intros j Hj. apply (H (S j)). cbn. lia.
Qed.
Lemma skipn_twice {A} (l : list A) : forall n m, skipn n (skipn m l) = skipn (n + m) l.
Proof. induction l as [|a l IH]; intros n m; [now rewrite !skipn_nil|]. destruct m; [now rewrite Nat.add_0_r|]. rewrite Nat.add_succ_r. cbn. apply IH. Qed.
Lemma spreads_app_inside (b r i o : list nat) : length o = length b -> inside r i -> source r (o ++ i) = i.
Proof. intros L H. rewrite <- (app_nil_l r). rewrite source_app; [reflexivity|cbn; lia|easy]. Qed.
Lemma spreads_dim s t : spreads s t <-> (length s <= length t)%nat /\ forall k, (dim k s = 1 \/ dim k s = dim k t)%nat.
Proof.
  unfold spreads, dim. split; intros [L H]; (split; [easy|]).
  - intros k. destruct (Nat.lt_ge_cases k (length s)) as [Hk|Hk]; [|left; apply nth_overflow; now rewrite rev_length].
    specialize (H k Hk). rewrite !(nth_indep (rev _) 0%nat 1%nat) in H by (rewrite rev_length; lia). exact H.
  - intros k Hk. rewrite !(nth_indep (rev _) 0%nat 1%nat) by (rewrite rev_length; lia). apply H.
Qed.
Lemma dim_app_two b nq nk k : dim k [nq; nk] = 1%nat \/ dim k [nq; nk] = dim k (b ++ [nq; nk]).
Proof.
  unfold dim. rewrite rev_app_distr. cbn. destruct k as [|[|k] ]; [now right|now right|left]. now destruct k.
Qed.
Lemma bias_ok b nq nk is_causal m : fitting b nq nk is_causal m ->
  exists bias, attn_bias nq nk is_causal m = Ok bias /\ broadcastable (eshape bias) (b ++ [nq; nk]) = true /\
    forall o l s, inside b o -> (l < nq)%nat -> (s < nk)%nat -> ebat bias (o ++ [l; s]) = bias_at is_causal m o l s.
Proof.
  intros F.
  assert (SP2 : spreads [nq; nk] (b ++ [nq; nk])).
  { apply spreads_dim. split; [rewrite app_length; cbn; lia|]. intros k. apply dim_app_two. }
  assert (EB : forall f o l s, inside b o -> (l < nq)%nat -> (s < nk)%nat -> ebat (mke [nq; nk] f) (o ++ [l; s]) = f [l; s]).
  { intros f o l s Ho Hl Hs. unfold ebat. cbn [eshape eat]. rewrite <- source_squash by (rewrite app_length; cbn; lia).
    rewrite (spreads_app_inside b); [easy|now apply inside_length|repeat constructor; easy]. }
  unfold attn_bias. destruct m as [|c|a]; cbn [fitting bias_at] in *.
  - destruct is_causal; cbn [bind]; (eexists; split; [reflexivity|]; split; [now apply spreads_iff|]; intros o l s Ho Hl Hs; rewrite EB by easy); [|reflexivity].
    cbn [nth]. destruct (Nat.leb_spec s l), (le_dec s l); try lia; reflexivity.
  - destruct F as [-> F]. cbn [bind]. apply spreads_dim in F as [L H]. rewrite app_length in L. cbn in L.
    set (t := of_dims (Nat.max (length (bshape c)) 2) (fun k => if Nat.eqb (dim k (bshape c)) 1 then dim k [nq; nk] else dim k (bshape c))).
    assert (DT : forall k, fit1 (dim k (bshape c)) (dim k [nq; nk]) (dim k t) /\ (dim k t = 1 \/ dim k t = dim k (b ++ [nq; nk]))%nat).
    { intros k. unfold t. rewrite of_dims_dim. pose proof (dim_app_two b nq nk k) as D2. specialize (H k). unfold fit1.
      destruct (Nat.ltb_spec k (Nat.max (length (bshape c)) 2)) as [Hk|Hk].
      - destruct (Nat.eqb_spec (dim k (bshape c)) 1); lia.
      - rewrite (dim_out k (bshape c)), (dim_out k [nq; nk]) by (cbn; lia). lia. }
    assert (BT : broadcast_shape (bshape c) [nq; nk] = Ok t).
    { apply broadcast_shape_iff. split; [unfold t; now rewrite of_dims_length|]. intros k. apply DT. }
    rewrite BT. cbn [bind]. eexists. split; [reflexivity|]. cbn [eshape].
    assert (ST : spreads t (b ++ [nq; nk])).
    { apply spreads_dim. split; [unfold t; rewrite of_dims_length, app_length; cbn; lia|]. intros k. apply DT. }
    split; [now apply spreads_iff|]. intros o l s Ho Hl Hs. unfold ebat at 1. cbn [eshape eat].
    assert (LO : length (o ++ [l; s]) = length (b ++ [nq; nk])) by (rewrite !app_length, (inside_length _ _ Ho); reflexivity).
    destruct ST as [LT HT]. rewrite <- source_squash by lia.
    assert (LS : length (source t (o ++ [l; s])) = length t).
    { unfold source. rewrite rev_length, map_length, combine_length, !rev_length. lia. }
    assert (CS : (length (bshape c) <= length t)%nat) by (unfold t; rewrite of_dims_length; lia).
    rewrite source_bbat by lia.
    assert (SS : forall r, spreads r t -> source r (source t (o ++ [l; s])) = source r (o ++ [l; s])).
    { intros r SR.
      assert (LK : length (skipn (length b + 2 - length t) (o ++ [l; s])) = length t) by (rewrite skipn_length, LO; rewrite app_length in *; cbn in *; lia).
      assert (ET : source t (o ++ [l; s]) = source t (skipn (length b + 2 - length t) (o ++ [l; s]))).
      { rewrite (source_squash t (o ++ [l; s])) by lia. rewrite (source_squash t (skipn _ _)) by lia. rewrite LK, Nat.sub_diag, LO, app_length. reflexivity. }
      rewrite ET, source_source; [|easy|now rewrite LK]. destruct SR as [SR _]. rewrite (source_squash r (skipn _ _)), (source_squash r (o ++ [l; s])) by lia. rewrite LK, LO.
      rewrite skipn_twice. f_equal. f_equal. rewrite app_length in *. cbn in *. lia. }
    rewrite SS.
    2:{ apply spreads_dim. split; [easy|]. intros k. destruct (DT k) as [D _]. unfold fit1 in D. lia. }
    destruct (bool_at c _); [|reflexivity]. unfold ebat. reflexivity.
  - destruct F as [-> F]. cbn [bind]. rewrite (proj2 (spreads_iff _ _) F). eexists. split; [reflexivity|]. cbn [eshape]. split; [now apply spreads_iff|].
    intros o l s Ho Hl Hs. rewrite EB by easy. cbn [eat]. unfold ebat. rewrite <- source_squash by (destruct F as [F _]; cbn in *; lia).
    destruct (eat a _); cbn; [now rewrite Rplus_0_l|reflexivity].
Qed.

Section Attention.
  Variables (b : list nat) (nq nk ne nv : nat) (is_causal : bool) (m : mask) (scale : option R).
  Hypothesis FIT : fitting b nq nk is_causal m.
  Hypothesis SCALE : scale = None -> (0 < ne)%nat.
  Hypothesis ROWS : forall o l, inside b o -> (l < nq)%nat -> exists s v, (s < nk)%nat /\ bias_at is_causal m o l s = Some v.
  Let c : R := factor_of ne scale.
  Definition wt (q k : arr) := weight q k ne nk c is_causal m.

  Lemma attention_ok q k v : shape q = b ++ [nq; ne] -> shape k = b ++ [nk; ne] -> shape v = b ++ [nk; nv] ->
    exists soft out, attention q k v m 0 is_causal scale = Ok (soft, c, out) /\
      shape soft = b ++ [nq; nk] /\ shape out = b ++ [nq; nv] /\
      (forall o l s, inside b o -> (l < nq)%nat -> (s < nk)%nat -> at_ soft (o ++ [l; s]) = wt q k o l s) /\
      (forall o l j, inside b o -> (l < nq)%nat -> (j < nv)%nat -> at_ out (o ++ [l; j]) = lsum (seq 0 nk) (fun s => wt q k o l s * at_ v (o ++ [s; j]))).
  Proof.
    intros Eq Ek Ev. unfold attention. destruct (Req_EM_T 0 0) as [_|N]; [|easy].
    assert (LS : forall s n p, shape s = b ++ [n; p] -> last_size (shape s) 1 = Ok n /\ last_size (shape s) 0 = Ok p).
    { intros s n p E. unfold last_size. rewrite E, rev_app_distr. cbn. now split. }
    rewrite (proj1 (LS q _ _ Eq)), (proj1 (LS k _ _ Ek)), (proj2 (LS q _ _ Eq)). cbn [bind].
    assert (FA : match scale with Some c0 => Ok c0 | None => if Nat.eqb ne 0 then Err ZeroDivisionError else Ok (1 / sqrt (INR ne)) end = Ok c).
    { unfold c, factor_of. destruct scale as [z|]; [easy|]. specialize (SCALE eq_refl). destruct (Nat.eqb_spec ne 0); [lia|easy]. }
    rewrite FA. cbn [bind]. destruct (bias_ok b nq nk is_causal m FIT) as (bias & -> & BB & HB). cbn [bind].
    destruct (swap_last k b nk ne (-2) (-1) ltac:(now right) Ek) as (kt & -> & Skt & Hkt). cbn [bind].
    destruct (matmul_same q kt b nq ne nk Eq Skt) as (w & -> & Sw & Hw). cbn [bind]. rewrite Sw, BB.
    set (x := mke (b ++ [nq; nk]) (fun o => eplus (Some (at_ w o * c)) (ebat bias o))).
    assert (HX : forall o l s, inside b o -> (l < nq)%nat -> (s < nk)%nat -> eat x ((o ++ [l]) ++ [s]) =
      match bias_at is_causal m o l s with Some v => Some (lsum (seq 0 ne) (fun i => at_ q (o ++ [l; i]) * at_ k (o ++ [s; i])) * c + v) | None => None end).
    { intros o l s Ho Hl Hs. rewrite <- app_assoc. cbn [app x eat]. rewrite HB by easy. rewrite Hw by easy.
      rewrite (lsum_ext (seq 0 ne) (fun k0 => at_ q (o ++ [l; k0]) * at_ kt (o ++ [k0; s])) (fun i => at_ q (o ++ [l; i]) * at_ k (o ++ [s; i]))).
      2:{ intros i Hi. apply in_range in Hi. now rewrite Hkt. }
      destruct (bias_at is_causal m o l s); reflexivity. }
    assert (ISN : forall i, inside (b ++ [nq]) i -> exists o l, i = o ++ [l] /\ inside b o /\ (l < nq)%nat).
    { intros i Hi. apply inside_app_inv in Hi as (o & r & -> & Ho & Hr). inversion Hr as [|d l s r1 Hl Hr1]; subst. inversion Hr1; subst. now exists o, l. }
    destruct (esoftmax_ok x (b ++ [nq]) nk) as (soft & -> & Ss & Hs).
    { cbn [x eshape]. now rewrite <- app_assoc. }
    { intros i Hi. apply ISN in Hi as (o & l & -> & Ho & Hl). destruct (ROWS o l Ho Hl) as (s & u & Hs & Eu). exists s. eexists. split; [easy|].
      rewrite HX by easy. now rewrite Eu. }
    cbn [bind x eshape] in *.
    assert (SW : forall o l s, inside b o -> (l < nq)%nat -> (s < nk)%nat -> at_ soft (o ++ [l; s]) = wt q k o l s).
    { intros o l s Ho Hl Hsk. replace (o ++ [l; s]) with ((o ++ [l]) ++ [s]) by (now rewrite <- app_assoc).
      rewrite Hs; [|apply inside_app; [easy|repeat constructor; easy]|easy]. unfold wt, weight. rewrite sum_to_lsum.
      assert (EX : forall r, (r < nk)%nat -> ex (eat x ((o ++ [l]) ++ [r])) = strength q k ne c o l r (bias_at is_causal m o l r)).
      { intros r Hr. rewrite HX by easy. unfold strength. destruct (bias_at is_causal m o l r); [|reflexivity]. cbn [ex]. rewrite sum_to_lsum.
        f_equal. ring. }
      fold x. rewrite EX by easy. f_equal. apply lsum_ext. intros r Hr. apply in_range in Hr. now apply EX. }
    destruct (matmul_same soft v b nq nk nv Ss Ev) as (out & -> & So & Ho). cbn [bind]. exists soft, out.
    do 4 (split; [easy|]). intros o l j Io Hl Hj. rewrite Ho by easy. apply lsum_ext. intros s Hsk. apply in_range in Hsk. now rewrite SW.
  Qed.
End Attention.
Print Assumptions C57_matmul.
Print Assumptions C57_matmul_only.
