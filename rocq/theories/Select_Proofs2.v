(** * Proofs about rows and about broadcasting several shapes. *)
From Coq Require Import Reals List ZArith Lia Lra Permutation.
From Verif Require Import PyBase Corr_Spec Corr_Proofs Axis_Model Axis_Spec Axis_Proofs Move_Model Move_Spec Move_Proofs Move_Proofs2 Select_Model Select_Spec Select_Proofs.
Import ListNotations.
Open Scope R_scope.
Open Scope list_scope.
Open Scope res_scope.

(** ** Rows *)
Lemma row_names n z k : names n z k -> row n z = k.
Proof. unfold names, row. intros [H E]. destruct (Z.ltb_spec z 0); lia. Qed.
Lemma row_ok_names n ix : row_ok n ix = true <-> name_rows n ix.
Proof.
  unfold row_ok, name_rows. rewrite forallb_forall. split.
  - intros H j Hj. apply in_indices in Hj. specialize (H j Hj). apply Bool.andb_true_iff in H as [H1 H2]. apply Z.leb_le in H1. apply Z.ltb_lt in H2.
    exists (row n (iat ix j)). unfold names, row. destruct (Z.ltb_spec (iat ix j) 0); lia.
  - intros H j Hj. apply in_indices in Hj. destruct (H j Hj) as [k [H1 H2] ]. apply Bool.andb_true_iff. rewrite Z.leb_le, Z.ltb_lt. lia.
Qed.
Lemma row_index_app n ix j i : inside (ishape ix) j -> row_index n ix (j ++ i) = row n (iat ix j) :: i.
Proof.
  intros H. unfold row_index. rewrite <- (inside_length _ _ H). rewrite firstn_app, firstn_all, Nat.sub_diag, skipn_app, skipn_all, Nat.sub_diag.
  cbn. now rewrite app_nil_r.
Qed.
Lemma inside_app_inv s t o : inside (s ++ t) o -> exists j i, o = j ++ i /\ inside s j /\ inside t i.
Proof. intros H. apply Forall2_app_inv_l in H as (j & i & H1 & H2 & ->). now exists j, i. Qed.
Lemma inside_app s t j i : inside s j -> inside t i -> inside (s ++ t) (j ++ i).
Proof. intros H1 H2. now apply Forall2_app. Qed.
Lemma row_index_inside n ix s o : name_rows n ix -> inside (ishape ix ++ s) o -> inside (n :: s) (row_index n ix o).
Proof.
  intros N H. apply inside_app_inv in H as (j & i & -> & Hj & Hi). rewrite row_index_app by easy. constructor; [|easy].
  destruct (N j Hj) as [k Hk]. rewrite (row_names _ _ _ Hk). apply Hk.
Qed.
Lemma row_index_inj n ix s o o' : name_rows n ix -> no_row_twice n ix -> inside (ishape ix ++ s) o -> inside (ishape ix ++ s) o' ->
  row_index n ix o = row_index n ix o' -> o = o'.
Proof.
  intros N D H H'. apply inside_app_inv in H as (j & i & -> & Hj & Hi). apply inside_app_inv in H' as (j' & i' & -> & Hj' & Hi').
  rewrite !row_index_app by easy. intros E. injection E as E ->. f_equal.
  destruct (N j Hj) as [k Hk], (N j' Hj') as [k' Hk']. rewrite (row_names _ _ _ Hk), (row_names _ _ _ Hk') in E. subst k'. now apply (D j j' k).
Qed.
Lemma take_rows_ok (x : arr) n s ix : shape x = n :: s -> name_rows n ix ->
  take_rows x ix = Ok (mka (ishape ix ++ s) (fun o => at_ x (row_index n ix o))).
Proof. intros E N. unfold take_rows. rewrite E. now rewrite (proj2 (row_ok_names n ix) N). Qed.
Lemma take_rows_of (x : arr) n s ix : shape x = n :: s -> name_rows n ix -> rows_of x n s ix (take_rows x ix).
Proof.
  intros E N. eexists. split; [now apply (take_rows_ok x n s)|]. split; [easy|]. intros j k i Hj Hk Hi. cbn [at_].
  now rewrite row_index_app, (row_names _ _ _ Hk).
Qed.

(** ** Broadcasting of two shapes *)
Definition fit1 (x y z : nat) : Prop := (x = 1 \/ x = z)%nat /\ (y = 1 \/ y = z)%nat /\ (z = 1 \/ z = x \/ z = y)%nat.
Lemma join_iff a : forall b r, join a b = Ok r <-> length r = Nat.max (length a) (length b) /\ forall k, fit1 (nth k a 1%nat) (nth k b 1%nat) (nth k r 1%nat).
Proof.
  induction a as [|x a IH]; intros b r; cbn [join].
  - split.
    + intros E. injection E as <-. split; [easy|]. intros k. destruct k; cbn; unfold fit1; tauto.
    + intros [L H]. cbn in L. f_equal. clear -L H. revert r L H. induction b as [|y b IH]; intros [|z r] L H; cbn in L; try easy. f_equal.
      * specialize (H 0%nat). cbn in H. unfold fit1 in H. lia.
      * apply IH; [lia|]. intros k. specialize (H (S k)). cbn in H. now destruct k.
  - destruct b as [|y b].
    + split.
      * intros E. injection E as <-. split; [easy|]. intros k. unfold fit1. destruct k; cbn; [tauto|]. destruct k; cbn; tauto.
      * intros [L H]. f_equal. cbn in L. destruct r as [|z r]; [easy|]. f_equal; [specialize (H 0%nat); cbn in H; unfold fit1 in H; lia|].
        assert (L' : length r = length a) by (cbn in L; lia). assert (H' : forall k, fit1 (nth k a 1%nat) 1%nat (nth k r 1%nat)) by (intros k; specialize (H (S k)); cbn in H; now destruct k).
        clear -L' H'. revert r L' H'. induction a as [|x a IH]; intros [|z r] L H; cbn in L; try easy. f_equal.
        -- specialize (H 0%nat). cbn in H. unfold fit1 in H. lia.
        -- apply IH; [lia|]. intros k. specialize (H (S k)). cbn in H. now destruct k.
    + destruct (join a b) as [r'|e] eqn:J; cbn [bind].
      * apply IH in J as [L H]. split.
        -- intros E. assert (Q : exists z, r = z :: r' /\ fit1 x y z).
           { destruct (Nat.eqb_spec x y); [exists x; split; [congruence|unfold fit1; lia]|]. destruct (Nat.eqb_spec x 1); [exists y; split; [congruence|unfold fit1; lia]|].
             destruct (Nat.eqb_spec y 1); [exists x; split; [congruence|unfold fit1; lia]|easy]. }
           destruct Q as (z & -> & Q). split; [cbn; lia|]. intros [|k]; [easy|]. apply H.
        -- intros [L' H']. destruct r as [|z r]; [easy|].
           assert (r' = r).
           { assert (K : Ok r' = Ok r); [|now injection K]. rewrite <- (proj2 (IH b r)); [symmetry; now apply IH|]. split; [cbn in L'; lia|]. intros k. apply (H' (S k)). }
           subst r'. pose proof (H' 0%nat) as H0. cbn in H0. unfold fit1 in H0. destruct (Nat.eqb_spec x y); [f_equal; f_equal; lia|].
           destruct (Nat.eqb_spec x 1); [f_equal; f_equal; lia|]. destruct (Nat.eqb_spec y 1); [f_equal; f_equal; lia|lia].
      * split; [easy|]. intros [L' H']. destruct r as [|z r]; [easy|]. exfalso. assert (K : join a b = Ok r); [|congruence].
        apply IH. split; [cbn in L'; lia|]. intros k. apply (H' (S k)).
Qed.
Lemma broadcast_shape_iff a b t : broadcast_shape a b = Ok t <->
  length t = Nat.max (length a) (length b) /\ forall k, fit1 (dim k a) (dim k b) (dim k t).
Proof.
  unfold broadcast_shape, dim. split.
  - destruct (join (rev a) (rev b)) as [r|] eqn:J; [|easy]. cbn [bind]. intros E. injection E as <-. apply join_iff in J as [L H].
    rewrite !rev_length in *. split; [easy|]. intros k. rewrite rev_involutive. apply H.
  - intros [L H]. rewrite (proj2 (join_iff (rev a) (rev b) (rev t))); [cbn; now rewrite rev_involutive|]. rewrite !rev_length. now split.
Qed.
Lemma dim_out k s : (length s <= k)%nat -> dim k s = 1%nat.
Proof. intros H. unfold dim. apply nth_overflow. now rewrite rev_length. Qed.
(** A shape from its sizes counted from the end. *)
Definition of_dims (n : nat) (f : nat -> nat) : list nat := rev (map f (seq 0 n)).
Lemma of_dims_dim n f k : dim k (of_dims n f) = if Nat.ltb k n then f k else 1%nat.
Proof.
  unfold dim, of_dims. rewrite rev_involutive. destruct (Nat.ltb_spec k n) as [H|H].
  - rewrite (nth_indep _ 1%nat (f 0%nat)) by (now rewrite map_length, seq_length). rewrite map_nth, seq_nth by easy. reflexivity.
  - apply nth_overflow. now rewrite map_length, seq_length.
Qed.
Lemma of_dims_length n f : length (of_dims n f) = n.
Proof. unfold of_dims. now rewrite rev_length, map_length, seq_length. Qed.
Lemma common_three a b c t : common [a; b; c] t <-> exists t1, broadcast_shape a b = Ok t1 /\ broadcast_shape t1 c = Ok t.
Proof.
  split.
  - intros [L H]. cbn in L. rewrite Nat.max_0_r in L.
    exists (of_dims (Nat.max (length a) (length b)) (fun k => if Nat.eqb (dim k a) 1 then dim k b else dim k a)).
    assert (F : forall k, (dim k a = 1 \/ dim k a = dim k t)%nat /\ (dim k b = 1 \/ dim k b = dim k t)%nat /\ (dim k c = 1 \/ dim k c = dim k t)%nat /\
                (dim k t = 1 \/ dim k t = dim k a \/ dim k t = dim k b \/ dim k t = dim k c)%nat).
    { intros k. destruct (H k) as [H1 H2]. split; [apply H1; cbn; tauto|]. split; [apply H1; cbn; tauto|]. split; [apply H1; cbn; tauto|].
      destruct H2 as [H2|(s & [<-|[<-|[<-|[] ] ] ] & Hs)]; lia. }
    split; apply broadcast_shape_iff.
    + split; [apply of_dims_length|]. intros k. rewrite of_dims_dim. destruct (F k) as (F1 & F2 & F3 & F4). unfold fit1.
      destruct (Nat.ltb_spec k (Nat.max (length a) (length b))); [destruct (Nat.eqb_spec (dim k a) 1); lia|].
      rewrite (dim_out k a), (dim_out k b) by lia. lia.
    + split; [rewrite of_dims_length; lia|]. intros k. rewrite of_dims_dim. destruct (F k) as (F1 & F2 & F3 & F4). unfold fit1.
      destruct (Nat.ltb_spec k (Nat.max (length a) (length b))); [destruct (Nat.eqb_spec (dim k a) 1); lia|].
      rewrite (dim_out k a), (dim_out k b) in F4 by lia. lia.
  - intros (t1 & H1 & H2). apply broadcast_shape_iff in H1 as [L1 H1], H2 as [L2 H2]. split; [cbn; lia|]. intros k.
    specialize (H1 k). specialize (H2 k). unfold fit1 in *. split.
    + intros s [<-|[<-|[<-|[] ] ] ]; lia.
    + assert (Q : (dim k t = 1 \/ dim k a = dim k t \/ dim k b = dim k t \/ dim k c = dim k t)%nat) by lia.
      destruct Q as [Q|[Q|[Q|Q] ] ]; [now left|..]; right; eexists; (split; [|exact Q]); cbn; tauto.
Qed.
Lemma common_length ss t s : common ss t -> In s ss -> (length s <= length t)%nat.
Proof.
  intros [L _] H. rewrite L. clear L. induction ss as [|a ss IH]; [easy|]. cbn. destruct H as [->|H]; [lia|]. specialize (IH H). lia.
Qed.
Lemma common_spreads ss t s : common ss t -> In s ss -> spreads s t.
Proof.
  intros C H. split; [now apply (common_length ss)|]. intros k Hk. destruct C as [L C]. destruct (C k) as [C1 _]. specialize (C1 s H). unfold dim in C1.
  pose proof (common_length ss t s (conj L C) H).
  rewrite !(nth_indep (rev _) 0%nat 1%nat) by (rewrite rev_length; lia). exact C1.
Qed.
Lemma source_bat (x : arr) o : (length (shape x) <= length o)%nat -> bat x o = at_ x (source (shape x) o).
Proof. intros H. unfold bat. now rewrite source_squash. Qed.
Lemma source_bbat (c : bools) o : (length (bshape c) <= length o)%nat -> bbat c o = bool_at c (source (bshape c) o).
Proof. intros H. unfold bbat. now rewrite source_squash. Qed.
Lemma squash_same s o : inside s o -> squash s o = o.
Proof. intros H. induction H as [|d k s o Hk _ IH]; cbn; [easy|]. rewrite IH. destruct (Nat.eqb_spec d 1); [|easy]. f_equal. lia. Qed.
Lemma bat_inside (g : arr) o : inside (shape g) o -> bat g o = at_ g o.
Proof.
  intros H. unfold bat. rewrite (inside_length _ _ H), Nat.sub_diag. cbn. now rewrite squash_same.
Qed.
(** A shape that fits into another does not change it. *)
Lemma broadcast_into a t : spreads a t -> broadcast_shape t a = Ok t.
Proof.
  intros [L H]. apply broadcast_shape_iff. split; [lia|]. intros k. unfold fit1. split; [tauto|]. split; [|tauto].
  destruct (Nat.lt_ge_cases k (length a)) as [Hk|Hk]; [|left; now apply dim_out]. specialize (H k Hk).
  rewrite !(nth_indep (rev _) 0%nat 1%nat) in H by (rewrite rev_length; lia). exact H.
Qed.
