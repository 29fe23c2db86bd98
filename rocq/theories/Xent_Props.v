(** * C54: the cross entropy losses of the numpy backend and their gradients. *)
From Coq Require Import Reals List ZArith Lia Lra.
From Coquelicot Require Import Coquelicot.
From Verif Require Import PyBase Deriv_Model Deriv_Proofs Deriv_Unary Deriv_Binary Corr_Spec Corr_Proofs Pool_Proofs
  Xent_Model Xent_Spec Xent_Proofs.
Import ListNotations.
Open Scope R_scope.
Open Scope list_scope.
Open Scope res_scope.

(** Where a target reads the input: at the label, or everywhere. *)
Definition reads (x : input3) (t : target) (i k j : nat) : Prop :=
  match t with Labels l => class_of (nc x) (l i j) k | Probs _ => True end.
Lemma mass_reads x t i k j : (k < nc x)%nat -> mass (nc x) t i k j <> 0 -> reads x t i k j.
Proof.
  intros Hk. destruct t as [l|p]; cbn; [|easy]. destruct Z.eq_dec as [E|_]; [intros _; split; [easy|now left]|].
  destruct Z.eq_dec as [E|_]; [intros _; split; [easy|now right]|lra].
Qed.

(** ** From probabilities *)
Theorem C54_cross_entropy x t w W thr robust : fits x t -> weights_are x t w W ->
  computes_loss (cross_entropy x t w thr (is_labels t) robust) x
    (entropy x t W (fun i k j => spec_log robust thr (xat x i k j))) /\
  ((robust = true -> 0 < thr) ->
   (forall i k j, (i < nn x)%nat -> (k < nc x)%nat -> (j < nd x)%nat -> reads x t i k j -> if robust then xat x i k j <> 0 else 0 < xat x i k j) ->
   forall g, exists o ws, cross_entropy x t w thr (is_labels t) robust = Ok (o, ws) /\
     loss_gradient (fun y => cross_entropy y t w thr (is_labels t) robust) x g (fst (cross_entropy_grad g x t ws thr robust))).
Proof.
  intros HF HW. destruct (checked_ok x t w W HF HW) as (ws & E & Hws).
  assert (OK : forall y, nn y = nn x -> nc y = nc x -> nd y = nd x -> flat y = flat x -> exists o, cross_entropy y t w thr (is_labels t) robust = Ok (o, ws) /\
     on o = nn x /\ od o = nd x /\
     forall i j, (i < nn x)%nat -> (j < nd x)%nat -> oat o i j = entropy x t W (fun i k j => spec_log robust thr (xat y i k j)) i j).
  { intros y En Ec Ed Ef. unfold cross_entropy.
    assert (E' : checked y t (is_labels t) w = Ok ws).
    { rewrite <- E. destruct x, y. cbn in *. now subst. }
    rewrite E'. cbn [bind]. eexists. split; [reflexivity|]. split; [easy|]. split; [easy|]. intros i j Hi Hj. cbn [oat]. unfold entropy.
    destruct t as [l|p].
    - destruct (proj2 HF i j Hi Hj) as (k & Hk). rewrite Ec, (index_class _ _ _ Hk), (weight_of_label x l W ws i j k Hws Hi Hj Hk).
      rewrite (total_ext _ _ (fun k' => mass (nc x) (Labels l) i k' j * (W k' * spec_log robust thr (xat y i k' j)))) by (intros; ring).
      rewrite (total_label _ _ _ _ k (fun k' => W k' * spec_log robust thr (xat y i k' j)) Hk). rewrite spec_log_model. ring.
    - rewrite sum_n_total, Ec. f_equal. apply total_ext. intros k Hk. rewrite spec_log_model. cbn [mass].
      destruct (Req_EM_T (p i k j) 0) as [Z|Z]; [rewrite Z; ring|]. rewrite (proj2 Hws i k j) by easy. ring. }
  split.
  - destruct (OK x) as (o & Eo & On & Od & Ho); try easy. now exists o, ws.
  - intros HT HD g. destruct (OK x) as (o & Eo & _); try easy. exists o, ws. split; [easy|].
    apply (gradient_from_entries _ x g _
      (fun i j v => - total (nc x) (fun k => mass (nc x) t i k j * W k * spec_log robust thr (v k)))
      (fun i k j => - (mass (nc x) t i k j * W k * loss_log_grad robust 1 thr (xat x i k j)))).
    + intros dx s. destruct (OK (shifted x dx s)) as (os & Es & _ & _ & Hs); try easy. exists os, ws. split; [exact Es|]. exact Hs.
    + intros i j v Hi Hj.
      apply (dl_ext _ (fun s => (-1) * total (nc x) (fun k => mass (nc x) t i k j * W k * spec_log robust thr (xat x i k j + s * v k)))); [intros s; ring|].
      apply (dl_eq _ _ ((-1) * total (nc x) (fun k => mass (nc x) t i k j * W k * (loss_log_grad robust 1 thr (xat x i k j) * v k)))).
      * apply (dl_scal (fun s => total (nc x) (fun k => mass (nc x) t i k j * W k * spec_log robust thr (xat x i k j + s * v k)))).
        apply (dl_total (nc x) (fun k s => mass (nc x) t i k j * W k * spec_log robust thr (xat x i k j + s * v k))).
        intros k Hk. destruct (Req_EM_T (mass (nc x) t i k j) 0) as [Z|Z].
        -- rewrite Z. apply (dl_of_affine _ 0). intros s. ring.
        -- apply (dl_scal (fun s => spec_log robust thr (xat x i k j + s * v k))). apply dl_line_comp.
           specialize (HD i k j Hi Hk Hj (mass_reads x t i k j Hk Z)).
           destruct robust.
           ++ apply dl_spec_log; [now apply HT|exact HD].
           ++ apply (dl_eq _ _ (/ xat x i k j)); [|cbn; field; lra]. now apply derivable_pt_lim_ln.
      * rewrite <- total_scal. apply total_ext. intros k _. ring.
    + intros i k j Hi Hk Hj. unfold cross_entropy_grad. destruct t as [l|p]; cbn [fst].
      * destruct (proj2 HF i j Hi Hj) as (q & Hq). rewrite (one_hot_mass _ _ _ _ q k Hq Hk), (mass_label _ _ _ _ q k Hq Hk).
        rewrite (weight_of_label x l W ws i j q Hws Hi Hj Hq), (index_class _ _ _ Hq), loss_log_grad_lin.
        destruct (Nat.eqb_spec q k); [subst; ring|ring].
      * rewrite loss_log_grad_lin. cbn [mass]. destruct (Req_EM_T (p i k j) 0) as [Z|Z]; [rewrite Z; ring|].
        rewrite (proj2 Hws i k j) by easy. ring.
Qed.
Print Assumptions C54_cross_entropy.

(** ** From logits *)
Theorem C54_logits x t w W thr robust : fits x t -> weights_are x t w W ->
  robust = false \/ is_labels t = true /\ 0 < thr <= 1 ->
  computes_loss (cross_entropy_with_logits x t w thr (is_labels t) robust) x (entropy x t W (log_softmax x)) /\
  forall g, exists o ws, cross_entropy_with_logits x t w thr (is_labels t) robust = Ok (o, ws) /\
     loss_gradient (fun y => cross_entropy_with_logits y t w thr (is_labels t) robust) x g
       (cross_entropy_with_logits_grad g x t ws thr robust).
Proof.
  intros HF HW HR. destruct (checked_ok x t w W HF HW) as (ws & E & Hws).
  assert (OK : forall y, nn y = nn x -> nc y = nc x -> nd y = nd x -> flat y = flat x -> exists o, cross_entropy_with_logits y t w thr (is_labels t) robust = Ok (o, ws) /\
     on o = nn x /\ od o = nd x /\
     forall i j, (i < nn x)%nat -> (j < nd x)%nat -> oat o i j = entropy x t W (log_softmax y) i j).
  { intros y En Ec Ed Ef. unfold cross_entropy_with_logits.
    assert (E' : checked y t (is_labels t) w = Ok ws).
    { rewrite <- E. destruct x, y. cbn in *. now subst. }
    rewrite E'. cbn [bind]. eexists. split; [reflexivity|]. split; [easy|]. split; [easy|]. intros i j Hi Hj. cbn [oat]. unfold entropy.
    destruct t as [l|p].
    - destruct (proj2 HF i j Hi Hj) as (k & Hk). pose proof (proj1 Hk). rewrite log_normalizer; [|lia|tauto].
      rewrite Ec, (index_class _ _ _ Hk), (weight_of_label x l W ws i j k Hws Hi Hj Hk).
      rewrite (total_ext (nc x) (fun k' => mass (nc x) (Labels l) i k' j * W k' * log_softmax y i k' j)
                (fun k' => mass (nc x) (Labels l) i k' j * (W k' * log_softmax y i k' j))) by (intros; ring).
      rewrite (total_label _ _ _ _ k (fun k' => W k' * log_softmax y i k' j) Hk). unfold log_softmax. rewrite Ec. ring.
    - destruct HR as [HR|[HR _]]; [|easy]. subst robust. cbn [loss_log]. rewrite !sum_n_total, Ec. f_equal. apply total_ext. intros k Hk.
      unfold log_softmax. rewrite Ec. cbn [mass].
      destruct (Req_EM_T (p i k j) 0) as [Z|Z]; [rewrite Z; ring|]. rewrite (proj2 Hws i k j) by easy. ring. }
  split.
  - destruct (OK x) as (o & Eo & On & Od & Ho); try easy. now exists o, ws.
  - intros g. destruct (OK x) as (o & Eo & _); try easy. exists o, ws. split; [easy|].
    set (S := fun i j => total (nc x) (fun k => exp (xat x i k j))).
    apply (gradient_from_entries _ x g _
      (fun i j v => - total (nc x) (fun k => mass (nc x) t i k j * W k * (v k - ln (total (nc x) (fun k' => exp (v k'))))))
      (fun i k j => exp (xat x i k j) / S i j * total (nc x) (fun k' => mass (nc x) t i k' j * W k') - mass (nc x) t i k j * W k)).
    + intros dx s. destruct (OK (shifted x dx s)) as (os & Es & _ & _ & Hs); try easy. exists os, ws. split; [exact Es|]. exact Hs.
    + intros i j v Hi Hj.
      set (M := total (nc x) (fun k => mass (nc x) t i k j * W k)).
      destruct (nc x) as [|c] eqn:Ec.
      { apply (dl_of_affine _ 0). intros s. cbn. ring. }
      assert (P : 0 < S i j).
      { unfold S. apply (total_pos _ _ 0%nat); [intros; left; apply exp_pos|lia|apply exp_pos]. }
      apply (dl_ext _ (fun s => (-1) * total (Datatypes.S c) (fun k => mass (Datatypes.S c) t i k j * W k * (xat x i k j + s * v k))
                                + M * ln (total (Datatypes.S c) (fun k => exp (xat x i k j + s * v k))))).
      { intros s. unfold M.
        rewrite (total_ext _ (fun k => mass _ t i k j * W k * (xat x i k j + s * v k - ln (total (Datatypes.S c) (fun k' => exp (xat x i k' j + s * v k')))))
          (fun k => mass (Datatypes.S c) t i k j * W k * (xat x i k j + s * v k) + (- ln (total (Datatypes.S c) (fun k' => exp (xat x i k' j + s * v k')))) * (mass (Datatypes.S c) t i k j * W k))) by (intros; ring).
        rewrite total_plus, total_scal. ring. }
      apply (dl_eq _ _ ((-1) * total (Datatypes.S c) (fun k => mass (Datatypes.S c) t i k j * W k * v k)
                        + M * (/ S i j * total (Datatypes.S c) (fun k => exp (xat x i k j) * v k)))).
      * apply (derivable_pt_lim_plus (fun s => (-1) * total (Datatypes.S c) (fun k => mass (Datatypes.S c) t i k j * W k * (xat x i k j + s * v k)))
                  (fun s => M * ln (total (Datatypes.S c) (fun k => exp (xat x i k j + s * v k))))).
        -- apply (dl_scal (fun s => total (Datatypes.S c) (fun k => mass (Datatypes.S c) t i k j * W k * (xat x i k j + s * v k)))).
           apply (dl_total _ (fun k s => mass (Datatypes.S c) t i k j * W k * (xat x i k j + s * v k))). intros k _.
           apply (dl_of_affine _ (mass (Datatypes.S c) t i k j * W k * xat x i k j)). intros s. ring.
        -- apply (dl_scal (fun s => ln (total (Datatypes.S c) (fun k => exp (xat x i k j + s * v k))))).
           assert (E0 : total (Datatypes.S c) (fun k => exp (xat x i k j + 0 * v k)) = S i j).
           { unfold S. rewrite ?Ec. apply total_ext. intros k _. f_equal. ring. }
           apply (derivable_pt_lim_comp (fun s => total (Datatypes.S c) (fun k => exp (xat x i k j + s * v k))) ln 0).
           ++ apply (dl_total _ (fun k s => exp (xat x i k j + s * v k))). intros k _. apply dl_line_comp. apply derivable_pt_lim_exp.
           ++ rewrite E0. now apply derivable_pt_lim_ln.
      * rewrite <- !total_scal, <- total_plus. apply total_ext. intros k _. unfold Rdiv. ring.
    + intros i k j Hi Hk Hj. unfold cross_entropy_with_logits_grad.
      assert (Q : forall k', class_softmax x i k' j = exp (xat x i k' j) / S i j).
      { intros k'. destruct (softmax_quotient x i k' j) as [->|Z]; [reflexivity|lia]. }
      destruct t as [l|p].
      * destruct (proj2 HF i j Hi Hj) as (q & Hq). rewrite Q, (one_hot_mass _ _ _ _ q k Hq Hk).
        rewrite (weight_of_label x l W ws i j q Hws Hi Hj Hq).
        rewrite (total_label _ _ _ _ q W Hq). rewrite (mass_label _ _ _ _ q k Hq Hk).
        destruct (Nat.eqb_spec q k); [subst; ring|ring].
      * destruct HR as [HR|[HR _]]; [|easy]. subst robust. cbn [loss_log_grad mass]. rewrite sum_n_total, Q.
        assert (P : 0 < S i j).
        { unfold S. apply (total_pos _ _ 0%nat); [intros; left; apply exp_pos|lia|apply exp_pos]. }
        rewrite (total_ext _ _ (fun k' => g i j * (p i k' j * W k'))).
        2:{ intros k' Hk'. rewrite Q. pose proof (exp_pos (xat x i k' j)).
            destruct (Req_EM_T (p i k' j) 0) as [Z|Z]; [rewrite Z; ring|]. rewrite (proj2 Hws i k' j) by easy. field. split; lra. }
        rewrite total_scal. pose proof (exp_pos (xat x i k j)).
        destruct (Req_EM_T (p i k j) 0) as [Z|Z].
        -- rewrite Z. field. lra.
        -- rewrite (proj2 Hws i k j) by easy. field. split; lra.
Qed.
Print Assumptions C54_logits.

(** ** From logarithms of probabilities *)
Theorem C54_log_probs x t w W : fits x t -> weights_are x t w W ->
  computes_loss (cross_entropy_with_log_probs x t w (is_labels t)) x (entropy x t W (xat x)) /\
  forall g, exists o ws, cross_entropy_with_log_probs x t w (is_labels t) = Ok (o, ws) /\
     loss_gradient (fun y => cross_entropy_with_log_probs y t w (is_labels t)) x g
       (cross_entropy_with_log_probs_grad g x t ws).
Proof.
  intros HF HW. destruct (checked_ok x t w W HF HW) as (ws & E & Hws).
  assert (OK : forall y, nn y = nn x -> nc y = nc x -> nd y = nd x -> flat y = flat x -> exists o, cross_entropy_with_log_probs y t w (is_labels t) = Ok (o, ws) /\
     on o = nn x /\ od o = nd x /\
     forall i j, (i < nn x)%nat -> (j < nd x)%nat -> oat o i j = entropy x t W (xat y) i j).
  { intros y En Ec Ed Ef. unfold cross_entropy_with_log_probs.
    assert (E' : checked y t (is_labels t) w = Ok ws).
    { rewrite <- E. destruct x, y. cbn in *. now subst. }
    rewrite E'. cbn [bind]. eexists. split; [reflexivity|]. split; [easy|]. split; [easy|]. intros i j Hi Hj. cbn [oat]. unfold entropy.
    destruct t as [l|p].
    - destruct (proj2 HF i j Hi Hj) as (k & Hk). rewrite Ec, (index_class _ _ _ Hk), (weight_of_label x l W ws i j k Hws Hi Hj Hk).
      rewrite (total_ext _ _ (fun k' => mass (nc x) (Labels l) i k' j * (W k' * xat y i k' j))) by (intros; ring).
      rewrite (total_label _ _ _ _ k (fun k' => W k' * xat y i k' j) Hk). ring.
    - rewrite sum_n_total, Ec. f_equal. apply total_ext. intros k Hk. cbn [mass].
      destruct (Req_EM_T (p i k j) 0) as [Z|Z]; [rewrite Z; ring|]. rewrite (proj2 Hws i k j) by easy. ring. }
  split.
  - destruct (OK x) as (o & Eo & On & Od & Ho); try easy. now exists o, ws.
  - intros g. destruct (OK x) as (o & Eo & _); try easy. exists o, ws. split; [easy|].
    apply (gradient_from_entries _ x g _
      (fun i j v => - total (nc x) (fun k => mass (nc x) t i k j * W k * v k))
      (fun i k j => - (mass (nc x) t i k j * W k))).
    + intros dx s. destruct (OK (shifted x dx s)) as (os & Es & _ & _ & Hs); try easy. exists os, ws. split; [exact Es|]. exact Hs.
    + intros i j v Hi Hj. apply (dl_of_affine _ (- total (nc x) (fun k => mass (nc x) t i k j * W k * xat x i k j))). intros s.
      rewrite (total_ext _ (fun k => mass (nc x) t i k j * W k * (xat x i k j + s * v k))
        (fun k => mass (nc x) t i k j * W k * xat x i k j + (- s) * (- (mass (nc x) t i k j * W k) * v k))) by (intros; ring).
      rewrite total_plus, total_scal. ring.
    + intros i k j Hi Hk Hj. unfold cross_entropy_with_log_probs_grad. destruct t as [l|p].
      * destruct (proj2 HF i j Hi Hj) as (q & Hq). rewrite (one_hot_mass _ _ _ _ q k Hq Hk), (mass_label _ _ _ _ q k Hq Hk).
        rewrite (weight_of_label x l W ws i j q Hws Hi Hj Hq). destruct (Nat.eqb_spec q k); [subst; ring|ring].
      * cbn [mass]. destruct (Req_EM_T (p i k j) 0) as [Z|Z]; [rewrite Z; ring|]. rewrite (proj2 Hws i k j) by easy. ring.
Qed.
Print Assumptions C54_log_probs.

(** ** Rejected arguments *)
Theorem C54_only x t w thr robust :
  (forall l i j, t = Labels l -> (i < nn x)%nat -> (j < nd x)%nat -> (forall k, ~ class_of (nc x) (l i j) k) -> w <> WNested ->
     cross_entropy x t w thr true robust = Err IndexError /\ cross_entropy_with_logits x t w thr true robust = Err IndexError /\
     cross_entropy_with_log_probs x t w true = Err IndexError) /\
  (forall p, t = Probs p -> w <> WBool true ->
     cross_entropy x t w thr true robust = Err ValueError /\ cross_entropy_with_logits x t w thr true robust = Err ValueError /\
     cross_entropy_with_log_probs x t w true = Err ValueError) /\
  (forall p, t = Probs p -> w = WNested \/ (exists ws, w = WList ws /\ length ws <> nc x) ->
     cross_entropy x t w thr false robust = Err ValueError /\ cross_entropy_with_logits x t w thr false robust = Err ValueError /\
     cross_entropy_with_log_probs x t w false = Err ValueError).
Proof.
  split; [|split].
  - intros l i j -> Hi Hj H NW.
    assert (LF : labels_fit (nn x) (nd x) (nc x) l = false).
    { destruct (labels_fit _ _ _ _) eqn:E; [|easy]. destruct (proj1 (labels_fit_iff _ _ _ _) E i j Hi Hj) as (k & Hk). now apply H in Hk. }
    assert (C : checked x (Labels l) true w = Err IndexError).
    { unfold checked, class_weights, categorical_weight. destruct w as [[|]|ws|]; [| | |now exfalso]; cbn [bind]; rewrite LF; reflexivity. }
    unfold cross_entropy, cross_entropy_with_logits, cross_entropy_with_log_probs. now rewrite C.
  - intros p -> NW.
    assert (C : checked x (Probs p) true w = Err ValueError) by (unfold checked; destruct w as [[|]|ws|]; easy).
    unfold cross_entropy, cross_entropy_with_logits, cross_entropy_with_log_probs. now rewrite C.
  - intros p -> HW.
    assert (C : checked x (Probs p) false w = Err ValueError).
    { unfold checked, class_weights. destruct HW as [->|(ws & -> & L)]; cbn [bind]; [reflexivity|]. destruct (Nat.eqb_spec (length ws) (nc x)); easy. }
    unfold cross_entropy, cross_entropy_with_logits, cross_entropy_with_log_probs. now rewrite C.
Qed.
Print Assumptions C54_only.
