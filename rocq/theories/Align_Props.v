(** * C64: broadcasting shapes whose ranks may be unknown *)
From Coq Require Import List Arith Lia Bool ZArith.
From Verif Require Import PyBase Uniadic_Model Uniadic_Proofs Bcast_Model Bcast_Proofs Bcast_Props Shape_Model Shape_Proofs Shape_Proofs2 Shape_Proofs3 Shape_Props Reduce_Model Reduce_Proofs2
  Rule_Proofs Window_Model Window_Proofs Window_Props Arange_Model Arange_Proofs Arange_Props Reshape_Model Reshape_Proofs Reshape_Props Concat_Model Concat_Proofs Concat_Props
  Flat_Model Flat_Spec Flat_Proofs Flat_Proofs2 Flat_Proofs3 Flat_Props Pad_Model Pad_Spec Pad_Proofs Pad_Proofs2 Pad_Proofs3 Pad_Props
  Align_Model Align_Spec Align_Proofs Align_Proofs2 Align_Proofs3 Align_Proofs4 Align_Proofs5.
Import ListNotations.
Open Scope list_scope. Open Scope nat_scope. Open Scope shm_scope.

(** ** When the rule is right: the output's rank is unknown or both ranks of the inputs are known; ... *)
Definition rank_given (s : shst) (q : nat) : Prop := exists n, has_rank_now s q n.
(** ... no input of known rank has more dimensions than the other, of unknown rank, shows, if that one shows leading dimensions; ... *)
Definition no_leading (s : shst) (a b : nat) : Prop := rank_given s a -> ~ rank_given s b -> length (pre (rp s b)) + length (suf (rp s b)) < length (pre (rp s a)) -> pre (rp s b) = [].
(** ... and inputs with the same unknown part show as many dimensions behind it. *)
Definition same_tail (s : shst) (a b : nat) : Prop := forall v, root (rp s a) = Some v -> root (rp s b) = Some v -> length (suf (rp s a)) = length (suf (rp s b)).
Definition bcast_case (s : shst) (qo ql qr : nat) : Prop := (rank_given s qo -> rank_given s ql /\ rank_given s qr) /\ no_leading s ql qr /\ no_leading s qr ql /\ same_tail s ql qr.

Lemma given_closed s q : sinv s -> q < nrep s -> rank_given s q <-> root (rp s q) = None.
Proof. intros I Hq. symmetry. exact (rank_iff s q I Hq). Qed.
Lemma given_open s q : sinv s -> q < nrep s -> rank_given s q <-> ~ open_at s q.
Proof. intros I Hq. rewrite (given_closed s q I Hq). split; [intros H X; congruence|apply not_open]. Qed.
Lemma case_conditions s qo ql qr : sinv s -> qo < nrep s -> ql < nrep s -> qr < nrep s -> bcast_case s qo ql qr ->
  (open_at s qo \/ (~ open_at s ql /\ ~ open_at s qr)) /\ shown_ok s ql qr /\ shown_ok s qr ql /\ (root (rp s ql) = root (rp s qr) -> root (rp s ql) <> None -> length (suf (rp s ql)) = length (suf (rp s qr))).
Proof.
  intros I Ho Hl Hr (H1 & H2 & H3 & H4). split.
  - destruct (root (rp s qo)) as [v|] eqn:R; [left; unfold open_at; congruence|right]. destruct H1 as [A B]; [apply (given_closed s qo I Ho); auto|]. apply (given_open s ql I Hl) in A. apply (given_open s qr I Hr) in B. auto.
  - assert (X : forall a b, a < nrep s -> b < nrep s -> no_leading s a b -> shown_ok s a b).
    { intros a b Ha Hb N Ra Rb L. apply N; [apply (given_closed s a I Ha); auto|rewrite (given_closed s b I Hb); auto|]. unfold shlen in L. destruct (s_repr _ I a Ha) as (_ & W & _). rewrite (W Ra) in L. cbn in L. lia. }
    split; [apply X; auto|]. split; [apply X; auto|]. intros E N. destruct (root (rp s ql)) as [v|] eqn:R; [|congruence]. apply (H4 v); congruence.
Qed.
Lemma rule_same pick n m qo ql qr s : n <= m -> snd (bcast_rule pick n qo ql qr s) <> Err OutOfFuel -> bcast_rule pick m qo ql qr s = bcast_rule pick n qo ql qr s.
Proof.
  intros L. rewrite !rule_eq. unfold hbind. destruct (aligned qo ql qr s) as [s1 [x|e]]; [|auto].
  assert (D : forall t, snd (dims_step pick n qo ql qr t) <> Err OutOfFuel -> dims_step pick m qo ql qr t = dims_step pick n qo ql qr t).
  { intros t E. unfold dims_step, lift in *. rewrite (uniadics_more pick n m); auto. destruct (bcast_uniadics pick n _ _ _ 0 (us t)) as [u r]. exact E. }
  assert (D1 := D s1). destruct (dims_step pick n qo ql qr s1) as [s2 [up|e]]; [rewrite D1 by discriminate|intros H; rewrite D1 by (cbn [snd] in *; congruence); auto]. cbv beta iota.
  assert (D2 := D s2). destruct (dims_step pick n qo ql qr s2) as [s3 [up'|e]]; [rewrite D2 by discriminate; auto|intros H; rewrite D2 by (cbn [snd] in *; congruence); auto].
Qed.
Lemma rule_more pick n m qo ql qr s s' b : n <= m -> bcast_rule pick n qo ql qr s = (s', Ok b) -> bcast_rule pick m qo ql qr s = (s', Ok b).
Proof. intros L E. rewrite <- E. apply rule_same; [auto|]. rewrite E. discriminate. Qed.

(** ** Sessions with the rules so far and this one *)
Inductive brule (s : shst) : shst -> Prop :=
| br_old s' : prule s s' -> brule s s'
| br_bcast pick fuel qo ql qr s' b : chooses pick -> qo < nrep s -> ql < nrep s -> qr < nrep s -> bcast_case s qo ql qr -> bcast_rule pick fuel qo ql qr s = (s', Ok b) -> brule s s'.
Lemma brule_inv s s' : sinv s -> brule s s' -> sinv s'.
Proof.
  intros I. destruct 1 as [s' W|pick fuel qo ql qr s' b Hp Ho Hl Hr C E]; [eapply prule_inv; eauto|]. destruct (case_conditions s qo ql qr I Ho Hl Hr C) as (C1 & C2 & C3 & C4). destruct (bcast_rule_ok pick s qo ql qr Hp I Ho Hl Hr C1 C2 C3 C4) as (N & H).
  specialize (H (Nat.max N fuel) ltac:(lia)). rewrite (rule_more pick fuel (Nat.max N fuel) qo ql qr s s' b ltac:(lia) E) in H. apply H.
Qed.
Definition bsess : shst -> Prop := runs brule.
Lemma bsess_inv s : bsess s -> sinv s.
Proof. apply runs_inv, brule_inv. Qed.

(** ** The rule of element-wise operations, for whatever is known about the three shapes: it terminates; no possible shapes are lost and
    none invented; afterwards the rank of the output is known if and only if both ranks of the inputs are; an error means that the shapes
    do not fit. *)
Theorem C64_bcast : forall s pick qo ql qr, bsess s -> chooses pick -> qo < nrep s -> ql < nrep s -> qr < nrep s -> bcast_case s qo ql qr ->
  exists N, forall fuel, N <= fuel ->
    match bcast_rule pick fuel qo ql qr s with
    | (s', Ok b) => bsess s' /\ narrows (fun sh => bcasts (sh ql) (sh qr) (sh qo)) s s' /\ (rank_given s' qo <-> rank_given s' ql /\ rank_given s' qr)
    | (_, Err e) => e = ValueError /\ forall rho sh, allows s rho sh -> ~ bcasts (sh ql) (sh qr) (sh qo)
    end.
Proof.
  intros s pick qo ql qr S Hp Ho Hl Hr C. assert (I := bsess_inv s S). destruct (case_conditions s qo ql qr I Ho Hl Hr C) as (C1 & C2 & C3 & C4). destruct (bcast_rule_ok pick s qo ql qr Hp I Ho Hl Hr C1 C2 C3 C4) as (N & H). exists N. intros fuel Hf. specialize (H fuel Hf).
  assert (K := fun s' b => br_bcast s pick fuel qo ql qr s' b Hp Ho Hl Hr C). destruct (bcast_rule pick fuel qo ql qr s) as [s' [b|e]].
  - destruct H as [H B]. assert (I' : sinv s') by apply H. assert (N' : nrep s' = nrep s) by apply H. split; [eapply runs_rule; [exact S|eapply K; reflexivity]|]. split; [apply sound_narrows; exact H|].
    rewrite (given_open s' qo I') by lia. rewrite (given_open s' ql I') by lia. rewrite (given_open s' qr I') by lia. unfold balanced in B. tauto.
  - destruct H as [-> H]. split; [auto|]. intros rho sh A. apply (H rho sh A).
Qed.
Lemma known_case s qo ql qr x y : bsess s -> ql < nrep s -> qr < nrep s -> determined s ql x -> determined s qr y -> bcast_case s qo ql qr.
Proof.
  intros S Hl Hr D1 D2. assert (I := bsess_inv s S). assert (R1 := determined_plain s ql x I Hl D1). assert (R2 := determined_plain s qr y I Hr D2). assert (G1 := proj2 (given_closed s ql I Hl) R1). assert (G2 := proj2 (given_closed s qr I Hr) R2).
  split; [auto|]. split; [intros _ X; contradiction|]. split; [intros _ X; contradiction|]. intros v X. congruence.
Qed.
(** ** Known inputs: the output is known afterwards, it is what broadcasting gives, and the rule is finished. *)
Theorem C64_known : forall s pick qo ql qr x y, bsess s -> chooses pick -> qo < nrep s -> ql < nrep s -> qr < nrep s -> determined s ql x -> determined s qr y ->
  exists N, forall fuel, N <= fuel ->
    match bcast_rule pick fuel qo ql qr s with
    | (s', Ok b) => b = true /\ exists z, bcasts x y z /\ determined s' qo z
    | (_, Err e) => e = ValueError /\ forall rho sh, allows s rho sh -> ~ bcasts x y (sh qo)
    end.
Proof.
  intros s pick qo ql qr x y S Hp Ho Hl Hr D1 D2. assert (I := bsess_inv s S).
  assert (C := known_case s qo ql qr x y S Hl Hr D1 D2).
  destruct (C64_bcast s pick qo ql qr S Hp Ho Hl Hr C) as (N1 & H1). destruct (bcast_known_ok pick s qo ql qr x y Hp I Ho Hl Hr D1 D2) as (N2 & H2). exists (Nat.max N1 N2). intros fuel Hf. specialize (H1 fuel ltac:(lia)). specialize (H2 fuel). destruct (bcast_rule pick fuel qo ql qr s) as [s' [b|e]].
  - apply (H2 s' b ltac:(lia) eq_refl).
  - destruct H1 as [-> H1]. split; [auto|]. intros rho sh A B. apply (H1 rho sh A). rewrite (D1 rho sh A), (D2 rho sh A). exact B.
Qed.

(** ** where: with known condition and inputs, the output is known afterwards: the inputs broadcast together, and with the condition; an
    error means that they do not fit. *)
Theorem C64_where : forall s pick qo qc q1 q2 c x y, bsess s -> chooses pick -> qo < nrep s -> qc < nrep s -> q1 < nrep s -> q2 < nrep s -> determined s qc c -> determined s q1 x -> determined s q2 y ->
  exists N, forall fuel, N <= fuel ->
    match where_rule pick fuel qo qc q1 q2 s with
    | (s', Ok b) => bsess s' /\ b = true /\ exists w z, bcasts x y w /\ bcasts w c z /\ determined s' qo z
    | (_, Err e) => e = ValueError /\ forall rho sh w, allows s rho sh -> bcasts x y w -> ~ bcasts w c (sh qo)
    end.
Proof.
  intros s pick qo qc q1 q2 c x y S Hp Ho Hc H1 H2 Dc D1 D2. assert (I := bsess_inv s S). destruct (born_var s I) as (s1 & E1 & B1 & U1 & V1). assert (I1 : sinv s1) by apply B1. assert (Rp1 : rp s1 = rp s) by apply B1. assert (N1 : nrep s1 = nrep s) by apply B1.
  set (r := mkshape [] (Some (nvar s)) []). assert (W : wf_repr s1 r) by (split; [intros u []|split; [discriminate|intros v [= <-]; lia]]). destruct (new_repr_ok r s1 I1 W) as (s2 & E2 & I2 & Us2 & N2 & _ & Rq & Ro). rewrite N1 in *.
  assert (S2 : bsess s2). { eapply (runs_op _ s1 (ORepr r)); [eapply (runs_op _ s OVar); [exact S|exact Logic.I|cbn [exec]; unfold hbind; rewrite E1; auto]|exact W|]. cbn [exec]. unfold hbind. rewrite E2. auto. }
  assert (Back : forall rho sh, allows s2 rho sh -> allows s rho sh).
  { intros rho sh A. apply allows_den in A as (Hs & tau & D). apply allows_den. split; [rewrite <- U1; apply (proj1 Us2); auto|]. exists tau. intros q Hq. rewrite <- (D q) by lia. unfold den. rewrite Ro by auto. rewrite Rp1. auto. }
  assert (Fwd : forall rho sh w, allows s rho sh -> allows s2 rho (upd sh (nrep s) w)).
  { intros rho sh w A. apply allows_den in A as (Hs & tau & D). apply allows_den. split; [apply (proj2 Us2); rewrite U1; auto|]. exists (upd tau (nvar s) w). intros q Hq. rewrite N2 in Hq. destruct (Nat.eq_dec q (nrep s)) as [->|Nq].
    - unfold den. rewrite Rq, upd_same. unfold dshape, r. cbn [pre root suf rval map app]. rewrite upd_same. apply app_nil_r.
    - rewrite upd_other by auto. rewrite <- (D q) by lia. unfold den. rewrite Ro by lia. rewrite Rp1. unfold dshape. f_equal. f_equal. destruct (root (rp s q)) as [v|] eqn:Rv; [|auto]. cbn. apply upd_other. destruct (s_repr _ I q ltac:(lia)) as (_ & _ & X). specialize (X v Rv). lia. }
  assert (Run : forall fuel, where_rule pick fuel qo qc q1 q2 s = (do _ <- bcast_rule pick fuel (nrep s) q1 q2; bcast_rule pick fuel qo (nrep s) qc) s2).
  { intros fuel. unfold where_rule. unfold hbind at 1. rewrite E1. unfold hbind at 1. fold r. rewrite E2. auto. }
  assert (D1' : determined s2 q1 x) by (intros rho sh A; apply (D1 rho sh); auto). assert (D2' : determined s2 q2 y) by (intros rho sh A; apply (D2 rho sh); auto). assert (Dc' : determined s2 qc c) by (intros rho sh A; apply (Dc rho sh); auto).
  destruct (C64_known s2 pick (nrep s) q1 q2 x y S2 Hp ltac:(lia) ltac:(lia) ltac:(lia) D1' D2') as (n1 & K1). destruct (C64_bcast s2 pick (nrep s) q1 q2 S2 Hp ltac:(lia) ltac:(lia) ltac:(lia) (known_case s2 (nrep s) q1 q2 x y S2 ltac:(lia) ltac:(lia) D1' D2')) as (n2 & K2).
  set (n := Nat.max n1 n2). specialize (K1 n ltac:(lia)). specialize (K2 n ltac:(lia)). destruct (bcast_rule pick n (nrep s) q1 q2 s2) as [s3 [b|e]] eqn:E3.
  - destruct K1 as (-> & w & Bw & Dw). destruct K2 as (S3 & (N3 & F3 & G3) & _).
    assert (Dc3 : determined s3 qc c) by (intros rho sh A; apply (Dc' rho sh); auto).
    destruct (C64_known s3 pick qo (nrep s) qc w c S3 Hp ltac:(lia) ltac:(lia) ltac:(lia) Dw Dc3) as (m1 & L1). destruct (C64_bcast s3 pick qo (nrep s) qc S3 Hp ltac:(lia) ltac:(lia) ltac:(lia) (known_case s3 qo (nrep s) qc w c S3 ltac:(lia) ltac:(lia) Dw Dc3)) as (m2 & L2).
    exists (Nat.max n (Nat.max m1 m2)). intros fuel Hf. specialize (L1 fuel ltac:(lia)). specialize (L2 fuel ltac:(lia)). rewrite Run. unfold hbind. rewrite (rule_more pick n fuel (nrep s) q1 q2 s2 s3 true ltac:(lia) E3). destruct (bcast_rule pick fuel qo (nrep s) qc s3) as [s4 [b|e]].
    + split; [apply L2|]. destruct L1 as (-> & z & Bz & Dz). split; [auto|]. exists w, z. auto.
    + destruct L1 as [-> L1]. split; [auto|]. intros rho sh w' A Bw' Bz. assert (w' = w) as -> by (apply (bcasts_fun x y); auto). assert (A2 := Fwd rho sh w A). destruct (F3 rho _ A2) as (rho' & _ & A3).
      { cbv beta. rewrite upd_same, !upd_other by lia. rewrite (D1 rho sh A), (D2 rho sh A). auto. } apply (L1 rho' _ A3). rewrite upd_other by lia. auto.
  - destruct K2 as [-> K2]. exists n. intros fuel Hf. rewrite Run. unfold hbind. rewrite (rule_same pick n fuel) by (try exact Hf; rewrite E3; discriminate). rewrite E3. split; [auto|]. intros rho sh w A Bw _. apply (K2 rho _ (Fwd rho sh w A)). rewrite upd_same, !upd_other by lia. rewrite (D1 rho sh A), (D2 rho sh A). auto.
Qed.

(** ** Cases *)
(** representations: 0 (1, 7); 1 (2, ...); 2 unknown; 3 unknown; 4 (5, 3); 5 (3, ...); 6 (..., 1); 7 the same unknown part; 8 (2, ...); 9 (3, ..., 1) with the same unknown part; 10 (4, ?); 11 (?, 1, 6);
    12 (..., 2, 3); 13 (..., 1, 1); 14 (5, 1) *)
Definition c64_state := state [ODim (Some 1%Z); ODim (Some 7%Z); ODim (Some 2%Z); ODim (Some 3%Z); ODim (Some 5%Z); ODim None; ODim None; ODim (Some 4%Z); ODim (Some 6%Z); OVar; OVar; OVar; OVar; OVar; OVar; OVar; OVar;
  ORepr (mkshape [0; 1] None []); ORepr (mkshape [2] (Some 0) []); ORepr (mkshape [] (Some 1) []); ORepr (mkshape [] (Some 2) []); ORepr (mkshape [4; 3] None []); ORepr (mkshape [3] (Some 3) []);
  ORepr (mkshape [] (Some 4) [0]); ORepr (mkshape [] (Some 4) []); ORepr (mkshape [2] (Some 5) []); ORepr (mkshape [3] (Some 5) [0]);
  ORepr (mkshape [7; 5] None []); ORepr (mkshape [6; 0; 8] None []); ORepr (mkshape [] (Some 6) [2; 3]); ORepr (mkshape [] (Some 7) [0; 0]); ORepr (mkshape [4; 0] None [])].
Lemma c64_sess : bsess c64_state.
Proof. apply reach_runs, state_reach. Qed.
Lemma c64_det q x : q < 15 -> root (rp c64_state q) = None -> values c64_state (pre (rp c64_state q)) = map Some x -> determined c64_state q x.
Proof. intros L R V. apply determined_values; [apply bsess_inv, c64_sess|vm_compute in L |- *; lia|auto]. Qed.
Lemma c64_given q : q < 15 -> rank_given c64_state q <-> root (rp c64_state q) = None.
Proof. intros L. apply given_closed; [apply bsess_inv, c64_sess|vm_compute in L |- *; lia]. Qed.
Lemma bcasts_check x y z : length z = Nat.max (length x) (length y) ->
  forallb (fun i => (Z.eqb (size_at x i) 1 && Z.eqb (size_at z i) (size_at y i)) || (Z.eqb (size_at y i) 1 && Z.eqb (size_at z i) (size_at x i)) || (Z.eqb (size_at x i) (size_at y i) && Z.eqb (size_at z i) (size_at x i)))%bool (seq 0 (length z)) = true -> bcasts x y z.
Proof.
  intros L H. split; [auto|]. intros i Hi. rewrite forallb_forall in H. specialize (H i). lapply H; [clear H; intros H|apply in_seq; lia].
  apply orb_prop in H as [H|H]; [apply orb_prop in H as [H|H]|]; apply andb_prop in H as [H1 H2]; apply Z.eqb_eq in H1, H2; auto.
Qed.
(** The example in the source: output (..., 2, 3) and left (..., 1, 1) give right (..., 2, 3); (4, ?) and (?, 1, 6) give (?, 4, 6), with ? of the second input *)
Example C64_bcast_example : bsess c64_state /\ chooses first_key /\ bcast_case c64_state 12 13 2 /\ bcast_case c64_state 2 10 11 /\
  snd (bcast_rule first_key 20 12 13 2 c64_state) = Ok false /\ shape_now (fst (bcast_rule first_key 20 12 13 2 c64_state)) 2 = ([], Some 9, [Some 2; Some 3]%Z) /\
  snd (bcast_rule first_key 20 2 10 11 c64_state) = Ok true /\ shape_now (fst (bcast_rule first_key 20 2 10 11 c64_state)) 2 = ([None; Some 4; Some 6]%Z, None, []) /\
  pre (rp (fst (bcast_rule first_key 20 2 10 11 c64_state)) 2) = [6; 9; 8] /\ bcasts [4; 6]%Z [9; 1; 6]%Z [9; 4; 6]%Z /\
  snd (bcast_rule first_key 20 2 4 0 c64_state) = Err ValueError /\ snd (bcast_rule first_key 20 2 1 3 c64_state) = Ok false.
Proof.
  split; [apply c64_sess|]. split; [apply first_key_ok|].
  split. { split; [intros G; apply c64_given in G; [exfalso; vm_compute in G; discriminate G|lia]|]. split; [intros G; apply c64_given in G; [exfalso; vm_compute in G; discriminate G|lia]|]. split; [intros G; apply c64_given in G; [exfalso; vm_compute in G; discriminate G|lia]|]. intros v A B. exfalso. vm_compute in A, B. congruence. }
  split. { split; [intros G; apply c64_given in G; [exfalso; vm_compute in G; discriminate G|lia]|]. split; [intros _ G; exfalso; apply G; apply c64_given; [lia|vm_compute; auto]|]. split; [intros _ G; exfalso; apply G; apply c64_given; [lia|vm_compute; auto]|]. intros v A. exfalso. vm_compute in A. discriminate A. }
  do 5 (split; [vm_compute; auto|]). split; [apply bcasts_check; vm_compute; auto|]. vm_compute. auto.
Qed.
Example C64_known_example : determined c64_state 0 [1; 7]%Z /\ snd (bcast_rule first_key 20 2 0 0 c64_state) = Ok true /\ shape_now (fst (bcast_rule first_key 20 2 0 0 c64_state)) 2 = ([Some 1; Some 7]%Z, None, []) /\
  determined c64_state 4 [5; 3]%Z /\ snd (bcast_rule first_key 20 2 4 0 c64_state) = Err ValueError.
Proof. split; [apply c64_det; [lia|vm_compute; auto|vm_compute; auto]|]. split; [vm_compute; auto|]. split; [vm_compute; auto|]. split; [apply c64_det; [lia|vm_compute; auto|vm_compute; auto]|]. vm_compute. auto. Qed.
(** (5, 1) and (1, 7), condition (1, 7): (5, 7); condition (5, 3): refused *)
Example C64_where_example : determined c64_state 14 [5; 1]%Z /\ determined c64_state 0 [1; 7]%Z /\ snd (where_rule first_key 20 2 0 14 0 c64_state) = Ok true /\ shape_now (fst (where_rule first_key 20 2 0 14 0 c64_state)) 2 = ([Some 5; Some 7]%Z, None, []) /\
  snd (where_rule first_key 20 2 4 14 0 c64_state) = Err ValueError.
Proof. split; [apply c64_det; [lia|vm_compute; auto|vm_compute; auto]|]. split; [apply c64_det; [lia|vm_compute; auto|vm_compute; auto]|]. vm_compute. auto. Qed.

(** ** Findings *)
Lemma c64_sizes : exists rho, sat (us c64_state) rho /\ rho 0 = 1%Z /\ rho 1 = 7%Z /\ rho 2 = 2%Z /\ rho 3 = 3%Z /\ rho 4 = 5%Z.
Proof.
  assert (I := bsess_inv _ c64_sess). destruct (sat_exists (us c64_state) (s_inv _ I)) as (rho & Hs). exists rho. split; [auto|].
  assert (V : forall u n, live (us c64_state) u -> value (us c64_state) u = Some n -> rho u = n) by (intros u n L V; eapply value_sat; [apply I|exact L|exact V|auto]).
  repeat split; apply V; vm_compute; auto 15.
Qed.
(** (1, 7) and (2, ...): the last size but one of the output is taken to be 1 or 2, but the second input may be (2, 5, 7). *)
Theorem C64_leading_refuted : exists s s' rho sh, bsess s /\ bcast_rule first_key 20 2 0 1 s = (s', Ok false) /\ allows s rho sh /\ sh 0 = [1; 7]%Z /\ sh 1 = [2; 5; 7]%Z /\ sh 2 = [2; 5; 7]%Z /\ bcasts (sh 0) (sh 1) (sh 2) /\
  forall rho', ~ allows s' rho' sh.
Proof.
  destruct c64_sizes as (rho & Hs & E0 & E1 & E2 & E3 & E4). set (tau := fun v => match v with 0 => [5; 7]%Z | 1 => [2; 5; 7]%Z | _ => [] end). destruct (bcast_rule first_key 20 2 0 1 c64_state) as [s' r] eqn:E.
  assert (Er : r = Ok false) by (change r with (snd (s', r)); rewrite <- E; vm_compute; auto). subst r. assert (Es : s' = fst (bcast_rule first_key 20 2 0 1 c64_state)) by (rewrite E; auto). clear E.
  exists c64_state, s', rho, (den c64_state rho tau). split; [apply c64_sess|]. split; [rewrite Es; vm_compute; auto|]. split; [apply allows_self; auto|].
  assert (S0 : den c64_state rho tau 0 = [1; 7]%Z) by (unfold den, dshape; replace (rp c64_state 0) with (mkshape [0; 1] None []) by (vm_compute; auto); cbn; rewrite E0, E1; auto).
  assert (S1 : den c64_state rho tau 1 = [2; 5; 7]%Z) by (unfold den, dshape; replace (rp c64_state 1) with (mkshape [2] (Some 0) []) by (vm_compute; auto); cbn; rewrite E2; auto).
  assert (S2 : den c64_state rho tau 2 = [2; 5; 7]%Z) by (unfold den, dshape; replace (rp c64_state 2) with (mkshape [] (Some 1) []) by (vm_compute; auto); auto).
  split; [auto|]. split; [auto|]. split; [auto|]. split; [rewrite S0, S1, S2; apply bcasts_check; vm_compute; auto|]. intros rho' A. assert (A' := A). apply allows_den in A' as (Hs' & tau' & D). specialize (D 2 ltac:(rewrite Es; vm_compute; lia)). rewrite S2 in D. unfold den, dshape in D.
  replace (rp s' 2) with (mkshape [] (Some 8) [9; 1]) in D by (rewrite Es; vm_compute; auto). cbn [pre root suf map rval app] in D.
  assert (P : In (rho' 9) [2; 1]%Z) by (apply (pv_sat (us s') 9); [rewrite Es; vm_compute; auto 15|auto|rewrite Es; vm_compute; auto]).
  assert (X := f_equal (fun l => nth 1 (rev l) 0%Z) D). cbv beta in X. rewrite rev_app_distr in X. cbn in X. rewrite X in P. destruct P as [P|[P|[]]]; discriminate.
Qed.
(** A known output (5, 3) and an input (3, ...): refused, but the inputs may be (5, 1) and (3). *)
Theorem C64_output_refuted : exists s rho sh, bsess s /\ allows s rho sh /\ sh 4 = [5; 3]%Z /\ sh 2 = [5; 1]%Z /\ sh 5 = [3]%Z /\ bcasts (sh 2) (sh 5) (sh 4) /\
  forall pick fuel, snd (bcast_rule pick fuel 4 2 5 s) = Err ValueError.
Proof.
  destruct c64_sizes as (rho & Hs & E0 & E1 & E2 & E3 & E4). set (tau := fun v => match v with 1 => [5; 1]%Z | _ => [] end). exists c64_state, rho, (den c64_state rho tau). split; [apply c64_sess|]. split; [apply allows_self; auto|].
  assert (S4 : den c64_state rho tau 4 = [5; 3]%Z) by (unfold den, dshape; replace (rp c64_state 4) with (mkshape [4; 3] None []) by (vm_compute; auto); cbn; rewrite E3, E4; auto).
  assert (S2 : den c64_state rho tau 2 = [5; 1]%Z) by (unfold den, dshape; replace (rp c64_state 2) with (mkshape [] (Some 1) []) by (vm_compute; auto); auto).
  assert (S5 : den c64_state rho tau 5 = [3]%Z) by (unfold den, dshape; replace (rp c64_state 5) with (mkshape [3] (Some 3) []) by (vm_compute; auto); cbn; rewrite E3; auto).
  split; [auto|]. split; [auto|]. split; [auto|]. split; [rewrite S4, S2, S5; apply bcasts_check; vm_compute; auto|]. intros pick fuel. unfold bcast_rule. unfold hbind at 1. replace (align_output 4 2 5 c64_state) with (fst (align_output 4 2 5 c64_state), @Err unit ValueError); [auto|]. assert (X : snd (align_output 4 2 5 c64_state) = Err ValueError) by (vm_compute; auto). rewrite <- X. symmetry. apply surjective_pairing.
Qed.
(** (..., 1) and the same unknown part: the last size of the output is taken to be 1, but the inputs may be (5, 1) and (5). *)
Theorem C64_shared_refuted : exists s s' rho sh, bsess s /\ root (rp s 6) = root (rp s 7) /\ bcast_rule first_key 20 2 6 7 s = (s', Ok false) /\ allows s rho sh /\ sh 6 = [5; 1]%Z /\ sh 7 = [5]%Z /\ sh 2 = [5; 5]%Z /\ bcasts (sh 6) (sh 7) (sh 2) /\
  forall rho', ~ allows s' rho' sh.
Proof.
  destruct c64_sizes as (rho & Hs & E0 & E1 & E2 & E3 & E4). set (tau := fun v => match v with 4 => [5]%Z | 1 => [5; 5]%Z | _ => [] end). destruct (bcast_rule first_key 20 2 6 7 c64_state) as [s' r] eqn:E.
  assert (Er : r = Ok false) by (change r with (snd (s', r)); rewrite <- E; vm_compute; auto). subst r. assert (Es : s' = fst (bcast_rule first_key 20 2 6 7 c64_state)) by (rewrite E; auto). clear E.
  exists c64_state, s', rho, (den c64_state rho tau). split; [apply c64_sess|]. split; [vm_compute; auto|]. split; [rewrite Es; vm_compute; auto|]. split; [apply allows_self; auto|].
  assert (S6 : den c64_state rho tau 6 = [5; 1]%Z) by (unfold den, dshape; replace (rp c64_state 6) with (mkshape [] (Some 4) [0]) by (vm_compute; auto); cbn; rewrite E0; auto).
  assert (S7 : den c64_state rho tau 7 = [5]%Z) by (unfold den, dshape; replace (rp c64_state 7) with (mkshape [] (Some 4) []) by (vm_compute; auto); auto).
  assert (S2 : den c64_state rho tau 2 = [5; 5]%Z) by (unfold den, dshape; replace (rp c64_state 2) with (mkshape [] (Some 1) []) by (vm_compute; auto); auto).
  split; [auto|]. split; [auto|]. split; [auto|]. split; [rewrite S6, S7, S2; apply bcasts_check; vm_compute; auto|]. intros rho' A. assert (A' := A). apply allows_den in A' as (Hs' & tau' & D). specialize (D 2 ltac:(rewrite Es; vm_compute; lia)). rewrite S2 in D. unfold den, dshape in D.
  replace (rp s' 2) with (mkshape [] (Some 9) [0]) in D by (rewrite Es; vm_compute; auto). cbn [pre root suf map rval app] in D.
  assert (P : In (rho' 0) [1]%Z) by (apply (pv_sat (us s') 0); [rewrite Es; vm_compute; auto 15|auto|rewrite Es; vm_compute; auto]).
  assert (X := f_equal (fun l => nth 0 (rev l) 0%Z) D). cbv beta in X. rewrite rev_app_distr in X. cbn in X. rewrite X in P. destruct P as [P|[]]; discriminate.
Qed.
(** (2, ...) and (3, ..., 1) with the same unknown part: refused, but it may be empty: (2) and (3, 1). *)
Theorem C64_shared_error_refuted : exists s rho sh, bsess s /\ root (rp s 8) = root (rp s 9) /\ allows s rho sh /\ sh 8 = [2]%Z /\ sh 9 = [3; 1]%Z /\ sh 2 = [3; 2]%Z /\ bcasts (sh 8) (sh 9) (sh 2) /\
  forall pick fuel, snd (bcast_rule pick fuel 2 8 9 s) = Err ValueError.
Proof.
  destruct c64_sizes as (rho & Hs & E0 & E1 & E2 & E3 & E4). set (tau := fun v => match v with 1 => [3; 2]%Z | _ => [] end). exists c64_state, rho, (den c64_state rho tau). split; [apply c64_sess|]. split; [vm_compute; auto|]. split; [apply allows_self; auto|].
  assert (S8 : den c64_state rho tau 8 = [2]%Z) by (unfold den, dshape; replace (rp c64_state 8) with (mkshape [2] (Some 5) []) by (vm_compute; auto); cbn; rewrite E2; auto).
  assert (S9 : den c64_state rho tau 9 = [3; 1]%Z) by (unfold den, dshape; replace (rp c64_state 9) with (mkshape [3] (Some 5) [0]) by (vm_compute; auto); cbn; rewrite E3, E0; auto).
  assert (S2 : den c64_state rho tau 2 = [3; 2]%Z) by (unfold den, dshape; replace (rp c64_state 2) with (mkshape [] (Some 1) []) by (vm_compute; auto); auto).
  split; [auto|]. split; [auto|]. split; [auto|]. split; [rewrite S8, S9, S2; apply bcasts_check; vm_compute; auto|]. intros pick fuel. unfold bcast_rule. unfold hbind at 1. replace (align_output 2 8 9 c64_state) with (fst (align_output 2 8 9 c64_state), @Err unit ValueError); [auto|]. assert (X : snd (align_output 2 8 9 c64_state) = Err ValueError) by (vm_compute; auto). rewrite <- X. symmetry. apply surjective_pairing.
Qed.
Print Assumptions C64_bcast.
Print Assumptions C64_known.
Print Assumptions C64_where.
Print Assumptions C64_leading_refuted.
Print Assumptions C64_output_refuted.
Print Assumptions C64_shared_refuted.
Print Assumptions C64_shared_error_refuted.
