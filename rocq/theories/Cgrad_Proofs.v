(** * Gradients in C memory: sums collected into places. *)
From Coq Require Import Reals List ZArith Lia Lra Bool Permutation.
From Verif Require Import PyBase Deriv_Proofs Corr_Proofs Pool_Proofs Axis_Model Axis_Spec Axis_Proofs Move_Model Move_Spec Move_Proofs Move_Proofs2 Attn_Proofs Select_Spec Carr_Model Carr_Spec Carr_Proofs Carr_Proofs2 Carr_Proofs3 Carr_Proofs4 Carr_Proofs5 Cgrad_Model Cgrad_Spec.
Import ListNotations.
Open Scope R_scope.
Open Scope list_scope.
Open Scope res_scope.

(** The values [v] of the indices of [T] collected into the places [q]. *)
Definition gathered (T : list nat) (q : list nat -> list nat) (v : list nat -> R) (i : list nat) : R :=
  lsum (indices T) (fun e => if same_place (q e) i then v e else 0).
Lemma same_refl i : same_place i i = true.
Proof. unfold same_place. destruct (list_eq_dec Nat.eq_dec i i); easy. Qed.
Lemma same_iff i j : same_place i j = true <-> i = j.
Proof. unfold same_place. destruct (list_eq_dec Nat.eq_dec i j); easy. Qed.
Lemma gathered_sum s T q v dx : (forall e, inside T e -> inside s (q e)) ->
  lsum (indices s) (fun i => gathered T q v i * dx i) = lsum (indices T) (fun e => v e * dx (q e)).
Proof.
  intros H. transitivity (lsum (indices s) (fun i => lsum (indices T) (fun e => if same_place (q e) i then v e * dx i else 0))).
  - apply lsum_ext. intros i _. unfold gathered. rewrite <- lsum_scal_r. apply lsum_ext. intros e _. destruct (same_place (q e) i); ring.
  - rewrite lsum_swap. apply lsum_ext. intros e He. apply in_indices in He.
    rewrite (lsum_single (indices s) (q e)); [now rewrite same_refl|apply nodup_indices| |].
    + apply in_indices. now apply H.
    + intros i _ N. destruct (same_place (q e) i) eqn:Q; [|reflexivity]. apply same_iff in Q. congruence.
Qed.
Lemma gathered_id s v i : inside s i -> gathered s (fun e => e) v i = v i.
Proof.
  intros H. unfold gathered. rewrite (lsum_single (indices s) i); [now rewrite same_refl|apply nodup_indices|now apply in_indices|].
  intros e _ N. destruct (same_place e i) eqn:Q; [|reflexivity]. apply same_iff in Q. congruence.
Qed.
Lemma adds_of_entries call F t x g T q v : (forall e, inside T e -> inside (shape x) (q e)) ->
  (forall acc G0, stores acc G0 -> shape G0 = shape x -> writes (call acc) (shape x) (fun i => at_ G0 i + gathered T q v i)) ->
  (forall dx, derivable_pt_lim (fun h => sum_over t (fun o => at_ g o * F (moved x dx h) o)) 0 (lsum (indices T) (fun e => v e * dx (q e)))) ->
  adds_gradient call F t x g.
Proof.
  intros I W D acc G0 SA SG. destruct (W acc G0 SA SG) as (c & E & SC). exists c, (mka (shape x) (fun i => at_ G0 i + gathered T q v i)).
  split; [exact E|]. split; [exact SC|]. split; [reflexivity|]. intros dx. apply (dl_eq _ _ _ _ (D dx)).
  rewrite sum_over_lsum, <- (gathered_sum (shape x) T q v dx I). apply lsum_ext. intros i _. cbn [at_]. ring.
Qed.
Lemma sets_of_entries call F t x g T q v : (forall e, inside T e -> inside (shape x) (q e)) ->
  (forall acc, buffer acc (shape x) -> writes (call acc) (shape x) (gathered T q v)) ->
  (forall dx, derivable_pt_lim (fun h => sum_over t (fun o => at_ g o * F (moved x dx h) o)) 0 (lsum (indices T) (fun e => v e * dx (q e)))) ->
  sets_gradient call F t x g.
Proof.
  intros I W D. exists (mka (shape x) (gathered T q v)). split; [reflexivity|]. split.
  - intros acc SA. destruct (W acc SA) as (c & E & SC). now exists c.
  - intros dx. apply (dl_eq _ _ _ _ (D dx)). rewrite sum_over_lsum. symmetry. now apply gathered_sum.
Qed.
(** Termwise derivatives. *)
Lemma dl_sum_over t (f : list nat -> R -> R) (d : list nat -> R) : (forall o, inside t o -> derivable_pt_lim (f o) 0 (d o)) ->
  derivable_pt_lim (fun h => sum_over t (fun o => f o h)) 0 (lsum (indices t) d).
Proof.
  intros H. apply (dl_ext _ (fun h => lsum (indices t) (fun o => f o h))); [intros h; apply sum_over_lsum|].
  apply dl_lsum. intros o Ho. apply H. now apply in_indices.
Qed.

(** Loops that add. *)
Definition adding (n : nat) (body : list R -> res (list R)) (V : nat -> R) : Prop :=
  forall d, length d = n -> exists d', body d = Ok d' /\ length d' = n /\ forall j, (j < n)%nat -> nth j d' 0 = nth j d 0 + V j.
Lemma adding_upd n p v : (p < n)%nat -> adding n (fun d => upd d p v) (fun j => if Nat.eqb p j then v else 0).
Proof.
  intros H d L. unfold upd. rewrite (rd_nth _ _ 0) by lia. cbn [bind].
  destruct (wr_ok d p (nth p d 0 + v) 0 ltac:(lia)) as (d' & E & L' & N). exists d'. split; [exact E|]. split; [lia|].
  intros j Hj. rewrite N, (Nat.eqb_sym p j). destruct (Nat.eqb_spec j p) as [->|_]; [reflexivity|ring].
Qed.
Lemma adding_skip n : adding n (fun d => Ok d) (fun _ => 0).
Proof. intros d L. exists d. split; [reflexivity|]. split; [exact L|]. intros j _. ring. Qed.
Lemma adding_ext n f g V W : (forall d, f d = g d) -> (forall j, (j < n)%nat -> V j = W j) -> adding n g V -> adding n f W.
Proof.
  intros H K A d L. destruct (A d L) as (d' & E & L' & N). exists d'. rewrite H. split; [exact E|]. split; [exact L'|].
  intros j Hj. rewrite N, K by assumption. reflexivity.
Qed.
Lemma adding_change n f V W : (forall j, (j < n)%nat -> V j = W j) -> adding n f V -> adding n f W.
Proof. intros K. now apply adding_ext. Qed.
Lemma adding_for n m body (V : nat -> nat -> R) : (forall i, (i < m)%nat -> adding n (body i) (V i)) ->
  adding n (fun d => for_ m body d) (fun j => lsum (seq 0 m) (fun i => V i j)).
Proof.
  intros H d L.
  destruct (for_inv m body (fun i d' => length d' = n /\ forall j, (j < n)%nat -> nth j d' 0 = nth j d 0 + lsum (seq 0 i) (fun k => V k j)) d) as (d' & E & L' & N).
  - split; [exact L|]. intros j _. cbn. ring.
  - intros i d1 Hi (L1 & N1). destruct (H i Hi d1 L1) as (d2 & E2 & L2 & N2). exists d2. split; [exact E2|]. split; [exact L2|].
    intros j Hj. rewrite N2, N1 by assumption. rewrite seq_S, lsum_app, lsum_one. cbn [Nat.add]. ring.
  - exists d'. split; [exact E|]. split; assumption.
Qed.
(** A loop over the running index of [T] that adds [v] at [q]. *)
Lemma adding_writes s T q v body acc G0 : (forall e, inside T e -> inside s (q e)) -> stores acc G0 -> shape G0 = s ->
  adding (size s) body (fun j => lsum (indices T) (fun e => if Nat.eqb (ravel s (q e)) j then v e else 0)) ->
  writes (let* d := body (c_data acc) in Ok (with_data acc d)) s (fun i => at_ G0 i + gathered T q v i).
Proof.
  intros I SA <- A. pose proof (stores_buffer _ _ SA) as BA. destruct SA as (AS & AW & AD).
  destruct (A (c_data acc)) as (d & E & L & N); [now rewrite AD, entries_length|]. rewrite E. cbn [bind].
  apply writes_data; [exact BA|exact L|]. intros m Hm. rewrite N by assumption. rewrite AD, entries_nth by assumption. f_equal.
  destruct (unravel_inside _ m Hm) as [J R]. unfold gathered. apply lsum_ext. intros e He. apply in_indices in He.
  destruct (Nat.eqb_spec (ravel (shape G0) (q e)) m) as [Q|Q], (same_place (q e) (unravel (shape G0) m)) eqn:Z; try reflexivity; exfalso.
  - assert (q e = unravel (shape G0) m) by (apply (ravel_inj (shape G0)); [now apply I|exact J|congruence]). apply same_iff in H. congruence.
  - apply same_iff in Z. apply Q. now rewrite Z.
Qed.
Lemma lsum_running T (f : list nat -> R) : lsum (seq 0 (size T)) (fun m => f (unravel T m)) = lsum (indices T) f.
Proof. now rewrite indices_unravel, lsum_map. Qed.
