(** * Lemmas about broadcasting: known inputs *)
From Coq Require Import List Arith Lia Bool ZArith.
From Verif Require Import PyBase Uniadic_Model Uniadic_Proofs Uniadic_Props Bcast_Model Bcast_Proofs Bcast_Props Shape_Model Shape_Proofs Shape_Proofs2 Shape_Proofs3 Shape_Props Reduce_Model Reduce_Proofs Reduce_Proofs2
  Rule_Proofs Arange_Proofs Window_Proofs Reshape_Model Reshape_Proofs Flat_Model Flat_Proofs2 Align_Model Align_Spec Align_Proofs Align_Proofs2 Align_Proofs3 Align_Proofs4.
Import ListNotations.
Open Scope list_scope. Open Scope nat_scope. Open Scope shm_scope.

(** The shape of the result is determined by the shapes of the inputs. *)
Lemma bcasts_fun x y z z' : bcasts x y z -> bcasts x y z' -> z = z'.
Proof.
  intros B B'. assert (L := proj1 B). assert (L' := proj1 B'). apply size_ext; [lia|]. intros i _. assert (R := bcasts_rel _ _ _ B i). assert (R' := bcasts_rel _ _ _ B' i).
  destruct R as [[H1 H2]|[[H1 H2]|[H1 H2]]], R' as [[H3 H4]|[[H3 H4]|[H3 H4]]]; congruence.
Qed.
Lemma ok_bcasts s qo ql qr rho sh : sinv s -> qo < nrep s -> ql < nrep s -> qr < nrep s -> root (rp s qo) = None -> root (rp s ql) = None -> root (rp s qr) = None -> allows s rho sh ->
  bcast_ok (srep (rp s qo)) (srep (rp s ql)) (srep (rp s qr)) 0 rho -> bc_rel qo ql qr sh.
Proof.
  intros I Ho Hl Hr R1 R2 R3 A [L H]. assert (Kn : ranks_known (srep (rp s qo)) (srep (rp s ql)) (srep (rp s qr)) = true) by (unfold ranks_known, srep, no_root; cbn [rooted]; rewrite R1, R2, R3; auto).
  destruct (plain_len s qo rho sh I Ho R1 A) as [L1 M1]. destruct (plain_len s ql rho sh I Hl R2 A) as [L2 M2]. destruct (plain_len s qr rho sh I Hr R3 A) as [L3 M3]. split; [specialize (L Kn); unfold rlen, srep, shlen in *; cbn [prefix suffix] in L; lia|].
  intros i Hi. specialize (H i ltac:(lia)). rewrite !axis_rev, Kn in H. destruct (nth_error (reversed (rp s qo)) i) as [u|] eqn:Eo; [|apply nth_error_None in Eo; lia]. cbn [option_map axis_rel] in H. destruct H as (a & b & Fa & Fb & B).
  assert (F : forall q z, q < nrep s -> root (rp s q) = None -> length (sh q) = length (reversed (rp s q)) -> Bcast_Proofs.fits true (option_map rho (nth_error (reversed (rp s q)) i)) z -> z = size_at (sh q) i).
  { intros q z Hq Rq Lq Fz. destruct (nth_error (reversed (rp s q)) i) as [x|] eqn:E; cbn [option_map Bcast_Proofs.fits] in Fz.
    - apply (nth_some _ _ _ 0) in E as [E1 E2]. destruct (shown_back s q rho sh i I Hq A E1) as [_ X]. congruence.
    - apply nth_error_None in E. rewrite (Fz eq_refl). symmetry. apply size_beyond. lia. }
  rewrite <- (F ql a Hl R2 L2 Fa), <- (F qr b Hr R3 L3 Fb). apply (nth_some _ _ _ 0) in Eo as [E1 E2]. destruct (shown_back s qo rho sh i I Ho A E1) as [_ X]. rewrite X, E2. exact B.
Qed.
Lemma known_values s q x u : sinv s -> q < nrep s -> determined s q x -> In u (reversed (rp s q)) -> value (us s) u <> None.
Proof.
  intros I Hq D Hu. apply (determined_values s q x I Hq) in D as [R V]. unfold reversed in Hu. rewrite R in Hu. apply in_rev in Hu. unfold Reshape_Model.values in V. assert (X := in_map (value (us s)) _ _ Hu). rewrite V in X. apply in_map_iff in X as (z & Ez & _). congruence.
Qed.
Lemma dims_known pick s qo ql qr x y : chooses pick -> sinv s -> qo < nrep s -> ql < nrep s -> qr < nrep s -> root (rp s qo) = None -> determined s ql x -> determined s qr y ->
  exists N, forall fuel s' up, N <= fuel -> dims_step pick fuel qo ql qr s = (s', Ok up) -> exists z, bcasts x y z /\ determined s' qo z.
Proof.
  intros Hp I Ho Hl Hr R1 D1 D2. assert (R2 := determined_plain s ql x I Hl D1). assert (R3 := determined_plain s qr y I Hr D2).
  assert (Kn : ranks_known (srep (rp s qo)) (srep (rp s ql)) (srep (rp s qr)) = true) by (unfold ranks_known, srep, no_root; cbn [rooted]; rewrite R1, R2, R3; auto).
  destruct (known_inputs (us s) pick (srep (rp s qo)) (srep (rp s ql)) (srep (rp s qr)) 0 (s_inv _ I) Hp (srep_ok s qo I Ho) (srep_ok s ql I Hl) (srep_ok s qr I Hr) Kn) as (N & HN).
  { intros i u _ [H|H]; rewrite axis_rev in H; apply nth_error_In in H; [apply (known_values s ql x)|apply (known_values s qr y)]; auto. }
  destruct (dims_step_ok pick s qo ql qr Hp I Ho Hl Hr) as (n & Fn & On). exists (Nat.max N n). intros fuel s' up Hf E. assert (On' := On). rewrite <- (Fn fuel ltac:(lia)), E in On'. destruct On' as [Sd Er]. unfold dims_step, lift in E. destruct (bcast_uniadics pick fuel _ _ _ 0 (us s)) as [u r] eqn:Eu. injection E as <- ->.
  destruct (HN fuel ltac:(lia) u up Eu) as [Hs _].
  assert (En : forall rho sh, allows (with_us s u) rho sh -> bcasts x y (sh qo)).
  { intros rho sh A. assert (A0 : allows s rho sh) by (apply Sd; auto). rewrite <- (D1 rho sh A0), <- (D2 rho sh A0). apply (ok_bcasts s qo ql qr rho sh); auto. apply (Hs rho). apply A. }
  assert (I' : sinv (with_us s u)) by apply Sd. destruct (sat_exists _ (s_inv _ I')) as (rho0 & Hr0). assert (A0 := allows_self (with_us s u) rho0 (fun _ => []) Hr0). exists (den (with_us s u) rho0 (fun _ => []) qo). split; [apply (En rho0); auto|]. intros rho sh A. apply (bcasts_fun x y); [apply (En rho); auto|apply (En rho0); auto].
Qed.
Lemma check_all s out : forall left right, (forall i, i < length out -> i < length left -> i < length right -> Bcast_Model.agrees s (nth i out 0) (nth i left 0) = true \/ Bcast_Model.agrees s (nth i out 0) (nth i right 0) = true) -> check_rev s left right out = true.
Proof.
  induction out as [|o out IH]; intros left right H; cbn [check_rev]; [auto|]. rewrite IH.
  - rewrite andb_true_r. destruct right as [|r right]; [auto|]. destruct left as [|l left]; [apply orb_true_r|]. destruct (H 0) as [X|X]; cbn; [lia..| |]; cbn in X; rewrite X; [apply orb_true_r|auto].
  - intros i H1 H2 H3. destruct left as [|l left]; [cbn in H2; lia|]. destruct right as [|r right]; [cbn in H3; lia|]. apply (H (S i)); cbn in *; lia.
Qed.
Lemma exit_known s qo ql qr x y z : sinv s -> qo < nrep s -> ql < nrep s -> qr < nrep s -> determined s ql x -> determined s qr y -> determined s qo z -> bcasts x y z ->
  bcast_exit (us s) (srep (rp s qo)) (srep (rp s ql)) (srep (rp s qr)) = true.
Proof.
  intros I Ho Hl Hr D1 D2 D3 B. assert (R1 := determined_plain s qo z I Ho D3). assert (R2 := determined_plain s ql x I Hl D1). assert (R3 := determined_plain s qr y I Hr D2). unfold bcast_exit, srep, no_root. cbn [rooted prefix]. rewrite R1, R2, R3. cbn [negb andb].
  destruct (sat_exists _ (s_inv _ I)) as (rho & Hs). assert (A := allows_self s rho (fun _ => []) Hs). set (sh := den s rho (fun _ => [])) in *.
  assert (V : forall q w i, q < nrep s -> determined s q w -> i < length (rev (pre (rp s q))) -> value (us s) (nth i (rev (pre (rp s q))) 0) = Some (size_at w i)).
  { intros q w i Hq D Hi. assert (Rq := determined_plain s q w I Hq D). assert (Er : rev (pre (rp s q)) = reversed (rp s q)) by (unfold reversed; rewrite Rq; auto). rewrite Er in *. destruct (shown_back s q rho sh i I Hq A Hi) as [_ X]. rewrite (D rho sh A) in X. rewrite X.
    assert (Nn := known_values s q w (nth i (reversed (rp s q)) 0) I Hq D ltac:(apply nth_In; auto)). destruct (value (us s) (nth i (reversed (rp s q)) 0)) as [n|] eqn:En; [|congruence]. f_equal. symmetry. apply (value_sat (us s)); [apply I| |auto|auto]. apply (reversed_live s q); auto. apply nth_In. auto. }
  apply check_all. intros i H1 H2 H3. assert (Vo := V qo z i Ho D3 H1). assert (Vl := V ql x i Hl D1 H2). assert (Vr := V qr y i Hr D2 H3). unfold Bcast_Model.agrees. rewrite Vo, Vl, Vr.
  destruct (bcasts_either x y z i B) as [E|E]; rewrite E; [left|right]; apply orb_true_iff; right; apply andb_true_iff; (split; [unfold oz_eqb; apply eqb_eq; auto|apply negb_true_iff; unfold oz_eqb]).
  - destruct (eqb (Some (size_at x i)) None) eqn:Q; [apply (proj1 (eqb_eq _ _)) in Q; discriminate|auto].
  - destruct (eqb (Some (size_at y i)) None) eqn:Q; [apply (proj1 (eqb_eq _ _)) in Q; discriminate|auto].
Qed.
Lemma bcast_known_ok pick s qo ql qr x y : chooses pick -> sinv s -> qo < nrep s -> ql < nrep s -> qr < nrep s -> determined s ql x -> determined s qr y ->
  exists N, forall fuel s' b, N <= fuel -> bcast_rule pick fuel qo ql qr s = (s', Ok b) -> b = true /\ exists z, bcasts x y z /\ determined s' qo z.
Proof.
  intros Hp I Ho Hl Hr D1 D2. assert (R2 := determined_plain s ql x I Hl D1). assert (R3 := determined_plain s qr y I Hr D2).
  assert (H1 : open_at s qo \/ (~ open_at s ql /\ ~ open_at s qr)) by (right; unfold open_at; split; congruence).
  assert (O := aligned_ok s qo ql qr I Ho Hl Hr H1 ltac:(intros _ X; congruence) ltac:(intros _ X; congruence) ltac:(intros _ X; congruence)). destruct (aligned qo ql qr s) as [s1 [[]|e]] eqn:E1.
  2: { exists 0. intros fuel s' b _ E. rewrite rule_eq in E. unfold hbind in E. rewrite E1 in E. discriminate. }
  destruct O as [S1 B1]. assert (N1 : nrep s1 = nrep s) by apply S1. assert (I1 : sinv s1) by apply S1.
  assert (D1' : determined s1 ql x) by (intros rho sh A; apply (D1 rho); apply S1; auto). assert (D2' : determined s1 qr y) by (intros rho sh A; apply (D2 rho); apply S1; auto).
  assert (R1 : root (rp s1 qo) = None). { apply not_open. intros X. apply B1 in X. unfold open_at in X. rewrite (determined_plain s1 ql x I1 ltac:(lia) D1'), (determined_plain s1 qr y I1 ltac:(lia) D2') in X. destruct X as [X|X]; apply X; auto. }
  destruct (dims_known pick s1 qo ql qr x y Hp I1 ltac:(lia) ltac:(lia) ltac:(lia) R1 D1' D2') as (n1 & K1). destruct (dims_step_ok pick s1 qo ql qr Hp I1 ltac:(lia) ltac:(lia) ltac:(lia)) as (n2 & F2 & O2).
  destruct (dims_step pick n2 qo ql qr s1) as [s2 [up|e]] eqn:E2.
  2: { exists n2. intros fuel s' b Hf E. rewrite rule_eq in E. unfold hbind in E. rewrite E1, (F2 fuel Hf) in E. discriminate. }
  destruct O2 as [S2 _]. assert (N2 : nrep s2 = nrep s1) by apply S2. assert (I2 : sinv s2) by apply S2.
  destruct (dims_step_ok pick s2 qo ql qr Hp I2 ltac:(lia) ltac:(lia) ltac:(lia)) as (n3 & F3 & O3).
  exists (Nat.max n1 (Nat.max n2 n3)). intros fuel s' b Hf E. destruct (K1 fuel s2 up ltac:(lia) (F2 fuel ltac:(lia))) as (z & Bz & Dz).
  rewrite rule_eq in E. unfold hbind in E. rewrite E1, (F2 fuel ltac:(lia)), (F3 fuel ltac:(lia)) in E. destruct (dims_step pick n3 qo ql qr s2) as [s3 [up'|e]]; [|discriminate]. injection E as <- <-. destruct O3 as [S3 _]. assert (N3 : nrep s3 = nrep s2) by apply S3.
  assert (Dz3 : determined s3 qo z) by (intros rho sh A; apply (Dz rho); apply S3; auto).
  split; [|exists z; auto]. apply (exit_known s3 qo ql qr x y z); [apply S3|lia..| | |auto|auto]; intros rho sh A; [apply (D1' rho)|apply (D2' rho)]; apply S2, S3; auto.
Qed.
