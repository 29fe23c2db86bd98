(** * Matching of symbolic shapes: crossing representations, [inner_match] *)
From Coq Require Import List Arith Lia Bool ZArith.
From Verif Require Import PyBase Uniadic_Model Uniadic_Proofs Uniadic_Props Bcast_Proofs Shape_Model Shape_Proofs.
Import ListNotations.
Open Scope list_scope. Open Scope nat_scope. Open Scope shm_scope.

Lemma eqb_some_false (a b : nat) : a <> b -> eqb (Some a) (Some b) = false.
Proof. intros H. destruct (eqb (Some a) (Some b)) eqn:E; auto. apply (proj1 (eqb_eq _ _)) in E. congruence. Qed.
Lemma skipn_skipn' {A} a b (l : list A) : skipn a (skipn b l) = skipn (b + a) l.
Proof. revert l. induction b; intros [|x l]; cbn; auto. destruct a; reflexivity. Qed.

Section Handle.
Variables (s : shst) (main other : nat) (RP RS : list nat).
Hypotheses (I : sinv s) (Hm : main < nvar s) (Ho : other < nvar s) (Hne : main <> other).
Hypothesis HL : forall u, In u (RP ++ RS) -> live (us s) u.
Definition Cx (rho : nat -> Z) (tau : nat -> list Z) : Prop := map rho RP ++ tau main = tau other ++ map rho RS.
Let k := Nat.min (length RP) (length RS).

Lemma no_overlap rho j : sat (us s) rho -> j < k ->
  identical (us s) (firstn (k - j) (firstn k RS)) (skipn j (skipn (length RP - k) RP)) = false ->
  skipn (length RP - (k - j)) (map rho RP) <> firstn (k - j) (map rho RS).
Proof.
  intros Hs Hj H E. rewrite firstn_firstn, Nat.min_l in H by lia. rewrite skipn_skipn' in H.
  replace (length RP - k + j) with (length RP - (k - j)) in H by lia.
  apply (identical_sound _ _ _ rho Hs) in H.
  - apply H. rewrite map_firstn, map_skipn. auto.
  - intros u Hu. apply HL. apply in_app_iff. right. rewrite <- (firstn_skipn (k - j) RS). apply in_app_iff. auto.
  - intros u Hu. apply HL. apply in_app_iff. left. rewrite <- (firstn_skipn (length RP - (k - j)) RP). apply in_app_iff. auto.
Qed.
(** Without overlaps of more than [m]: either no overlap, or a small one. *)
Lemma solutions rho tau m : sat (us s) rho -> Cx rho tau -> m <= k -> (forall n, m < n -> n <= k -> skipn (length RP - n) (map rho RP) <> firstn n (map rho RS)) ->
  (exists X, tau other = map rho RP ++ X /\ tau main = X ++ map rho RS) \/
  (exists n, 1 <= n /\ n <= m /\ tau other = firstn (length RP - n) (map rho RP) /\ tau main = skipn n (map rho RS)).
Proof.
  intros Hs C Hmk Hn. destruct (overlap _ _ _ _ C) as [X|(n & N1 & N2 & N3 & E1 & E2 & E3)]; [left; auto|right].
  rewrite map_length in *. exists n. split; [auto|]. split; [|auto]. destruct (le_lt_dec n m); auto. exfalso. apply (Hn n); auto. unfold k. lia.
Qed.
Lemma solutions_parts rho tau m : sat (us s) rho -> Cx rho tau -> m <= k -> (forall n, m < n -> n <= k -> skipn (length RP - n) (map rho RP) <> firstn n (map rho RS)) ->
  (exists X, tau main = X ++ skipn m (map rho RS)) /\ (exists Y, tau other = firstn (length RP - m) (map rho RP) ++ Y).
Proof.
  intros Hs C Hmk Hn. destruct (solutions rho tau m Hs C Hmk Hn) as [(X & E1 & E2)|(n & N1 & N2 & E1 & E2)].
  - split.
    + exists (X ++ firstn m (map rho RS)). rewrite <- app_assoc, firstn_skipn. auto.
    + exists (skipn (length RP - m) (map rho RP) ++ X). rewrite app_assoc, firstn_skipn. auto.
  - split.
    + exists (firstn (m - n) (skipn n (map rho RS))). replace m with (n + (m - n)) at 2 by lia. rewrite <- skipn_skipn', firstn_skipn. auto.
    + exists (firstn (m - n) (skipn (length RP - m) (map rho RP))). rewrite E1.
      rewrite <- (firstn_skipn (length RP - m) (map rho RP)) at 1. rewrite firstn_app.
      assert (L : length (firstn (length RP - m) (map rho RP)) = length RP - m) by (rewrite firstn_length, map_length; lia).
      rewrite firstn_all2 by lia. rewrite L. f_equal. f_equal. unfold k in Hmk. lia.
Qed.

Lemma handle_ok : exists s' b, handle main other RP RS s = (s', Ok b) /\ extends s s' /\ keeps s s' Cx /\
  match b with
  | false => s' = s
  | true => yields s s' Cx \/ (yields s s' (fun _ _ => True) /\ exists w1 w2, w1 <> w2 /\ forall q, q < nrep s ->
      (root (rp s q) = Some main -> root (rp s' q) = Some w1) /\ (root (rp s q) = Some other -> root (rp s' q) = Some w2))
  end.
Proof.
  unfold handle. cbv zeta. fold k. unfold hbind at 1, hgets. assert (F := find_seq (fun idx => identical (us s) (firstn (k - idx) (firstn k RS)) (skipn idx (skipn (length RP - k) RP))) k).
  destruct (find (fun idx => identical (us s) (firstn (k - idx) (firstn k RS)) (skipn idx (skipn (length RP - k) RP))) (seq 0 k)) as [[|i]|].
  - exists s, false. split; [reflexivity|]. split; [apply extends_refl; auto|]. split; [|reflexivity]. intros rho tau Hs _. exists tau. auto.
  - destruct F as (F1 & _ & F3). set (idx := S i) in *. clearbody idx.
    assert (Fk : forall rho, sat (us s) rho -> forall n, k - idx < n -> n <= k -> skipn (length RP - n) (map rho RP) <> firstn n (map rho RS)).
    { intros rho Hs n N1 N2. replace n with (k - (k - n)) by lia. apply no_overlap; auto; [lia|]. apply F3. lia. }
    replace (length RS - idx - (length RS - k)) with (k - idx) by (unfold k in *; lia). replace (idx + (length RP - k)) with (length RP - (k - idx)) by (unfold k in *; lia).
    set (B := skipn (k - idx) RS) in *. set (Q := firstn (length RP - (k - idx)) RP) in *.
    assert (HB : forall u, In u B -> live (us s) u). { intros u Hu. apply HL. apply in_app_iff. right. rewrite <- (firstn_skipn (k - idx) RS). apply in_app_iff. auto. }
    assert (HQ : forall u, In u Q -> live (us s) u). { intros u Hu. apply HL. apply in_app_iff. left. rewrite <- (firstn_skipn (length RP - (k - idx)) RP). apply in_app_iff. auto. }
    destruct (fresh_step s main [] B I Hm HB) as (s0 & s1 & E0 & E1 & X1 & S1 & V1 & _ & _ & _ & _ & D1 & T1).
    assert (I1 : sinv s1) by apply X1. assert (N1 : nrep s1 = nrep s) by apply X1.
    destruct (fresh_step s1 other Q [] I1) as (s2 & s3 & E2 & E3 & X2 & S2 & V2 & _ & _ & _ & _ & D2 & T2); [lia| |].
    { intros u Hu. rewrite app_nil_r in Hu. eapply evolves_live; [apply S1|auto]. }
    unfold hbind. rewrite E0, E1, E2, E3. exists s3, true. split; [reflexivity|]. split; [eapply extends_trans; eauto|].
    set (w1 := nvar s) in *. assert (W2 : nvar s1 = S w1) by auto. set (w2 := nvar s1) in *.
    assert (D : forall rho tau, tau main = tau w1 ++ map rho B -> tau other = map rho Q ++ tau w2 -> forall q, q < nrep s -> den s3 rho tau q = den s rho tau q).
    { intros rho tau Q1 Q2 q Hq. rewrite D2; [apply D1; auto|rewrite app_nil_r; auto|lia]. }
    split; [|right; split].
    + intros rho tau Hs C. destruct (solutions_parts rho tau (k - idx) Hs C) as [(X & EX) (Y & EY)]; [lia|apply Fk; auto|].
      exists (upd (upd tau w1 X) w2 Y). split; [apply S2, S1; auto|]. split.
      * intros x Hx. rewrite !upd_tau. destruct (Nat.eqb_spec x w2); [lia|]. destruct (Nat.eqb_spec x w1); [lia|auto].
      * intros q Hq. rewrite D.
        -- apply den_agree; auto. intros x Hx. rewrite !upd_tau. destruct (Nat.eqb_spec x w2); [lia|]. destruct (Nat.eqb_spec x w1); [lia|auto].
        -- rewrite !upd_tau. rewrite Nat.eqb_refl. destruct (Nat.eqb_spec main w2); [lia|]. destruct (Nat.eqb_spec main w1); [lia|]. destruct (Nat.eqb_spec w1 w2); [lia|].
           rewrite EX. f_equal. unfold B. rewrite map_skipn. auto.
        -- rewrite !upd_tau. rewrite Nat.eqb_refl. destruct (Nat.eqb_spec other w2); [lia|]. destruct (Nat.eqb_spec other w1); [lia|].
           rewrite EY. f_equal. unfold Q. rewrite map_firstn. auto.
        -- auto.
    + intros rho tau' Hs. exists (upd (upd tau' main (tau' w1 ++ map rho B)) other (map rho Q ++ tau' w2)).
      split; [apply S1, S2; auto|]. split; [|auto]. intros q Hq. set (tau := upd _ _ _).
      assert (Tm : tau main = tau' w1 ++ map rho B). { unfold tau. rewrite !upd_tau. destruct (Nat.eqb_spec main other); [lia|]. rewrite Nat.eqb_refl. auto. }
      assert (To : tau other = map rho Q ++ tau' w2). { unfold tau. rewrite upd_tau, Nat.eqb_refl. auto. }
      assert (Tx : forall x, x <> main -> x <> other -> tau x = tau' x). { intros x A1 A2. unfold tau. rewrite !upd_tau. destruct (Nat.eqb_spec x other); [lia|]. destruct (Nat.eqb_spec x main); [lia|auto]. }
      rewrite <- (D rho tau).
      * apply den_occurs. intros x. rewrite T2 by lia. rewrite T1 by auto. intros Hr. symmetry. symmetry. apply Tx.
        -- intros ->. destruct (eqb (root (rp s q)) (Some main)) eqn:Z1.
           ++ rewrite eqb_some_false in Hr by lia. injection Hr as Hr. lia.
           ++ destruct (eqb (root (rp s q)) (Some other)); [injection Hr as Hr; lia|]. rewrite Hr, eqb_refl in Z1. discriminate.
        -- intros ->. destruct (eqb (root (rp s q)) (Some main)) eqn:Z1.
           ++ rewrite eqb_some_false in Hr by lia. injection Hr as Hr. lia.
           ++ destruct (eqb (root (rp s q)) (Some other)) eqn:Z2; [injection Hr as Hr; lia|]. rewrite Hr, eqb_refl in Z2. discriminate.
      * rewrite Tm. f_equal. symmetry. apply Tx; lia.
      * rewrite To. f_equal. symmetry. apply Tx; lia.
      * auto.
    + exists w1, w2. split; [lia|]. intros q Hq. split; intros Hr; rewrite T2 by lia; rewrite T1 by auto; rewrite Hr.
      * rewrite eqb_refl, eqb_some_false by lia. auto.
      * rewrite (eqb_some_false other main), eqb_refl by lia. auto.
  - assert (Fk : forall rho, sat (us s) rho -> forall n, 0 < n -> n <= k -> skipn (length RP - n) (map rho RP) <> firstn n (map rho RS)).
    { intros rho Hs n N1 N2. replace n with (k - (k - n)) by lia. apply no_overlap; auto; [lia|]. apply F. lia. }
    assert (HB : forall u, In u RS -> live (us s) u) by (intros; apply HL; apply in_app_iff; auto).
    destruct (fresh_step s main [] RS I Hm HB) as (s0 & s1 & E0 & E1 & X1 & S1 & V1 & _ & _ & _ & _ & D1 & T1).
    assert (I1 : sinv s1) by apply X1. assert (N1 : nrep s1 = nrep s) by apply X1. set (w := nvar s) in *.
    destruct (var_match_ok s1 other (Some w) RP [] I1) as (s2 & E2 & P).
    { intros X. injection X. lia. } { intros x X. injection X as <-. lia. } { discriminate. }
    { intros u Hu. rewrite app_nil_r in Hu. eapply evolves_live; [apply S1|]. apply HL. apply in_app_iff. auto. }
    assert (P' : replaced s1 other (Some w) RP [] s2) by exact P. destruct P as (I2 & S2 & V2 & N2 & _).
    unfold hbind. rewrite E0, E1, E2. exists s2, true. split; [reflexivity|]. split; [eapply extends_trans; [exact X1|eapply replaced_extends; eauto]|].
    assert (D : forall rho tau, tau main = tau w ++ map rho RS -> tau other = map rho RP ++ tau w -> forall q, q < nrep s -> den s2 rho tau q = den s rho tau q).
    { intros rho tau Q1 Q2 q Hq. rewrite (replaced_den _ _ _ _ _ _ rho tau P'); [apply D1; auto|discriminate|cbn; rewrite app_nil_r; auto|lia]. }
    split; [|left].
    + intros rho tau Hs C. destruct (solutions rho tau 0 Hs C) as [(X & EY & EX)|(n & ? & ? & _)]; [lia|apply Fk; auto| |lia].
      exists (upd tau w X). split; [apply S2, S1; auto|]. split.
      * intros x Hx. rewrite !upd_tau. destruct (Nat.eqb_spec x w); [lia|auto].
      * intros q Hq. rewrite D.
        -- apply den_agree; auto. intros x Hx. rewrite !upd_tau. destruct (Nat.eqb_spec x w); [lia|auto].
        -- rewrite !upd_tau, Nat.eqb_refl. destruct (Nat.eqb_spec main w); [lia|]. auto.
        -- rewrite !upd_tau, Nat.eqb_refl. destruct (Nat.eqb_spec other w); [lia|]. auto.
        -- auto.
    + intros rho tau' Hs. exists (upd (upd tau' main (tau' w ++ map rho RS)) other (map rho RP ++ tau' w)).
      split; [apply S1, S2; auto|]. set (tau := upd _ _ _).
      assert (Tm : tau main = tau' w ++ map rho RS). { unfold tau. rewrite !upd_tau. destruct (Nat.eqb_spec main other); [lia|]. rewrite Nat.eqb_refl. auto. }
      assert (To : tau other = map rho RP ++ tau' w). { unfold tau. rewrite upd_tau, Nat.eqb_refl. auto. }
      assert (Tx : forall x, x <> main -> x <> other -> tau x = tau' x). { intros x A1 A2. unfold tau. rewrite !upd_tau. destruct (Nat.eqb_spec x other); [lia|]. destruct (Nat.eqb_spec x main); [lia|auto]. }
      split; [|unfold Cx; rewrite Tm, To, app_assoc; auto]. intros q Hq.
      rewrite <- (D rho tau).
      * apply den_occurs. intros x. rewrite (replaced_root _ _ _ _ _ _ q P') by lia. rewrite T1 by auto. intros Hr. apply Tx.
        -- intros ->. destruct (eqb (root (rp s q)) (Some main)) eqn:Z1.
           ++ rewrite eqb_some_false in Hr by lia. injection Hr as Hr. lia.
           ++ destruct (eqb (root (rp s q)) (Some other)); [injection Hr as Hr; lia|]. rewrite Hr, eqb_refl in Z1. discriminate.
        -- intros ->. destruct (eqb (root (rp s q)) (Some main)) eqn:Z1.
           ++ rewrite eqb_some_false in Hr by lia. injection Hr as Hr. lia.
           ++ destruct (eqb (root (rp s q)) (Some other)) eqn:Z2; [injection Hr as Hr; lia|]. rewrite Hr, eqb_refl in Z2. discriminate.
      * rewrite Tm. f_equal. symmetry. apply Tx; lia.
      * rewrite To. f_equal. symmetry. apply Tx; lia.
      * auto.
Qed.
End Handle.

(** ** Equations between shapes *)
Lemma longer_eq (P S P' S' V W : list Z) : zeq P P' -> zeq (rev S) (rev S') -> length P' <= length P -> length S' <= length S ->
  (P ++ V ++ S = P' ++ W ++ S' <-> W = skipn (length P') P ++ V ++ firstn (length S - length S') S).
Proof.
  intros Z1 Z2 L1 L2. apply zeq_sym in Z1, Z2. apply zeq_le in Z1; auto. apply zeq_rev_le in Z2; auto.
  set (A := skipn (length P') P) in *. set (B := firstn (length S - length S') S) in *. clearbody A B. subst P S.
  split; [intros E|intros ->].
  - rewrite <- app_assoc in E. apply app_inv_head in E. rewrite !app_assoc in E. apply app_inv_tail in E. rewrite <- E, <- !app_assoc. auto.
  - rewrite <- !app_assoc. auto.
Qed.
Lemma skipn_prefix {A} (a b : list A) n : length a = n -> skipn n (a ++ b) = b.
Proof. intros <-. rewrite skipn_app, skipn_all, Nat.sub_diag. reflexivity. Qed.
Lemma slice_eq (P S P' V : list Z) : zeq P P' -> zeq (rev S) (rev P') -> length P + length S <= length P' ->
  (P ++ V ++ S = P' <-> V = firstn (length P' - length S - length P) (skipn (length P) P')).
Proof.
  intros Z1 Z2 L. apply zeq_le in Z1; [|lia]. apply zeq_rev_le in Z2; [|lia]. set (A := skipn (length P) P') in *.
  assert (E : P' = P ++ firstn (length P' - length S - length P) A ++ S).
  { assert (EA : A = firstn (length P' - length S - length P) A ++ skipn (length P' - length S - length P) A) by (symmetry; apply firstn_skipn).
    assert (EP : P' = (P ++ firstn (length P' - length S - length P) A) ++ skipn (length P' - length S - length P) A) by (rewrite <- app_assoc, <- EA; auto).
    assert (LA : length A = length P' - length P) by (unfold A; rewrite skipn_length; auto).
    assert (ES : skipn (length P' - length S - length P) A = S).
    { transitivity (skipn (length P' - length S) P').
      - rewrite EP at 3. symmetry. apply skipn_prefix. rewrite app_length, firstn_length. lia.
      - rewrite Z2 at 2. apply skipn_prefix. rewrite firstn_length. lia. }
    rewrite ES in EP. rewrite <- app_assoc in EP. auto. }
  set (B := firstn _ A) in *. clearbody B. split; [intros Q|intros ->; auto]. rewrite E in Q. apply app_inv_head in Q. apply app_inv_tail in Q. auto.
Qed.

Definition Ceq (s : shst) (q : nat) (o : shrepr) (rho : nat -> Z) (tau : nat -> list Z) : Prop := den s rho tau q = dshape rho tau o.
Definition crossing (r o : shrepr) : Prop :=
  root r <> None /\ root o <> None /\
  ((length (pre o) < length (pre r) /\ length (suf r) < length (suf o)) \/ (length (pre r) < length (pre o) /\ length (suf o) < length (suf r))).

Lemma replaced_exact s v nr np ns s' : replaced s v nr np ns s' -> nr <> Some v -> (nr = None -> ns = []) ->
  let C := fun rho (tau : nat -> list Z) => tau v = map rho np ++ rval tau nr ++ map rho ns in keeps s s' C /\ yields s s' C.
Proof.
  intros P Hn Hs C. assert (D := fun rho tau => replaced_den _ _ _ _ _ _ rho tau P Hs). split.
  - intros rho tau S E. exists tau. split; [apply P; auto|]. split; [auto|]. apply D. auto.
  - intros rho tau' S. set (tau := upd tau' v (map rho np ++ rval tau' nr ++ map rho ns)). exists tau.
    assert (T : forall x, x <> v -> tau x = tau' x). { intros x A. unfold tau. rewrite upd_tau. destruct (Nat.eqb_spec x v); congruence. }
    assert (E : C rho tau). { unfold C, tau at 1. rewrite upd_tau, Nat.eqb_refl. do 2 f_equal. destruct nr; cbn; auto. symmetry. apply T. congruence. }
    split; [apply P; auto|]. split; [|auto]. intros q Hq. rewrite <- (D rho tau E) by auto. apply den_occurs. intros x Hr.
    rewrite (replaced_root _ _ _ _ _ _ q P Hq) in Hr. apply T. intros ->. destruct (eqb (root (rp s q)) (Some v)) eqn:Z; [congruence|]. rewrite Hr, eqb_refl in Z. discriminate.
Qed.

Lemma with_us_sinv s u : sinv s -> evolves (us s) u -> sinv (with_us s u).
Proof.
  intros I E. split; cbn.
  - eapply evolves_inv; eauto.
  - intros q Hq. destruct (s_repr _ I q Hq) as (W1 & W2 & W3). split; [|auto]. intros x Hx. cbn. eapply evolves_live; eauto.
  - apply (s_back _ I).
Qed.
Lemma den_with_us s u rho tau q : den (with_us s u) rho tau q = den s rho tau q. Proof. reflexivity. Qed.
Lemma extends_us s u s' : evolves (us s) u -> extends (with_us s u) s' -> extends s s'.
Proof. intros E (I & N & V & E'). split; [auto|]. split; [auto|]. split; [auto|]. eapply evolves_trans; eauto. Qed.
Lemma keeps_us s u s' (C C' : _ -> _ -> Prop) : keeps (with_us s u) s' C' -> (forall rho tau, sat (us s) rho -> C rho tau -> sat u rho /\ C' rho tau) -> keeps s s' C.
Proof. intros K H rho tau S X. destruct (H rho tau S X) as [S' X']. exact (K rho tau S' X'). Qed.
Lemma yields_us s u s' (E E' : _ -> _ -> Prop) : yields (with_us s u) s' E' -> (forall rho tau, sat u rho -> E' rho tau -> sat (us s) rho /\ E rho tau) -> yields s s' E.
Proof. intros Y H rho tau' S. destruct (Y rho tau' S) as (tau & S' & D & X). destruct (H rho tau S' X). exists tau. auto. Qed.
Lemma yields_weaken s s' (E E' : _ -> _ -> Prop) : yields s s' E -> (forall rho tau, sat (us s) rho -> E rho tau -> E' rho tau) -> yields s s' E'.
Proof. intros Y H rho tau' S. destruct (Y rho tau' S) as (tau & S' & D & X). exists tau. auto. Qed.
Lemma keeps_refl s C : keeps s s C. Proof. intros rho tau S X. exists tau. auto. Qed.
Lemma yields_refl s : yields s s (fun _ _ => True). Proof. intros rho tau S. exists tau. auto. Qed.

Lemma fresh_exact s v np ns s0 s' : sinv s -> v < nvar s -> replaced s0 v (Some (nvar s)) np ns s' -> rp s0 = rp s -> nrep s0 = nrep s -> us s0 = us s -> nvar s0 = S (nvar s) ->
  keeps s s' (fun rho tau => exists X, tau v = map rho np ++ X ++ map rho ns) /\ yields s s' (fun _ _ => True).
Proof.
  intros I Hv P R0 N0 U0 V0. destruct (replaced_exact s0 v _ np ns s' P) as [K Y]; [intros X; injection X; lia|discriminate|]. split.
  - intros rho tau S (X & E). destruct (K rho (upd tau (nvar s) X)) as (tau' & S' & T & D).
    + rewrite U0. auto.
    + cbn. rewrite !upd_tau, Nat.eqb_refl. destruct (Nat.eqb_spec v (nvar s)); [lia|auto].
    + exists tau'. split; [auto|]. split.
      * intros x Hx. rewrite T by lia. rewrite upd_tau. destruct (Nat.eqb_spec x (nvar s)); [lia|auto].
      * intros q Hq. rewrite D by lia. unfold den at 1. rewrite R0. change (den s rho (upd tau (nvar s) X) q = den s rho tau q).
        apply den_agree; auto. intros x Hx. rewrite upd_tau. destruct (Nat.eqb_spec x (nvar s)); [lia|auto].
  - intros rho tau' S. destruct (Y rho tau' S) as (tau & S' & D & _). exists tau. rewrite U0 in S'. split; [auto|]. split; [|auto]. intros q Hq.
    rewrite <- D by lia. unfold den. rewrite R0. auto.
Qed.

Lemma zeq_firstn_full a b : zeq a b -> length a = length b -> a = b.
Proof. intros Z L. apply zeq_le in Z; [|lia]. rewrite L, skipn_all, app_nil_r in Z. auto. Qed.
Lemma in_skipn {A} n (l : list A) x : In x (skipn n l) -> In x l.
Proof. intros H. rewrite <- (firstn_skipn n l). apply in_app_iff. auto. Qed.
Lemma in_firstn {A} n (l : list A) x : In x (firstn n l) -> In x l.
Proof. intros H. rewrite <- (firstn_skipn n l). apply in_app_iff. auto. Qed.
Lemma in_slice l i j x : In x (slice l i j) -> In x l.
Proof. intros H. apply in_firstn in H. apply in_skipn in H. auto. Qed.
Lemma rem_suf (a b : list nat) : length b <= length a -> rev (remainings (rev a) (rev b)) = firstn (length a - length b) a.
Proof. intros L. unfold remainings. rewrite !rev_length. destruct (Nat.ltb_spec (length a) (length b)); [lia|]. apply rev_skipn. Qed.
Lemma rem_suf' (a b : list nat) : length a < length b -> rev (remainings (rev a) (rev b)) = firstn (length b - length a) b.
Proof. intros L. unfold remainings. rewrite !rev_length. destruct (Nat.ltb_spec (length a) (length b)); [|lia]. apply rev_skipn. Qed.
Lemma rem_pre (a b : list nat) : length b <= length a -> remainings a b = skipn (length b) a.
Proof. intros L. unfold remainings. destruct (Nat.ltb_spec (length a) (length b)); [lia|auto]. Qed.
Lemma rem_pre' (a b : list nat) : length a < length b -> remainings a b = skipn (length a) b.
Proof. intros L. unfold remainings. destruct (Nat.ltb_spec (length a) (length b)); [auto|lia]. Qed.

Section Inner.
Variables (s : shst) (q : nat) (o : shrepr).
Hypotheses (I : sinv s) (Hq : q < nrep s) (Wo : wf_repr s o).
Definition outcome (s0 : shst) (p : shst * res unit) : Prop :=
  match snd p with
  | Err e => e = ValueError /\ forall rho tau, sat (us s0) rho -> ~ Ceq s q o rho tau
  | Ok _ => extends s0 (fst p) /\ keeps s0 (fst p) (Ceq s q o) /\
      (yields s0 (fst p) (Ceq s q o) \/
       (crossing (rp s q) o /\ yields s0 (fst p) (fun _ _ => True) /\ (forall q', q' < nrep s -> rp s q' = o -> resolved (fst p) q q' = false) /\
        (root (rp s q) <> root o -> forall q', q' < nrep s -> root (rp s q') = root o -> root (rp (fst p) q) <> root (rp (fst p) q'))))
  end.

(** Dimensions at the same position agree. *)
Definition aligned (rho : nat -> Z) : Prop :=
  zeq (map rho (pre (rp s q))) (map rho (pre o)) /\
  zeq (map rho (reversed (rp s q))) (map rho (match root o with Some _ => rev (suf o) | None => rev (pre o) end)).
Lemma aligned_needed rho tau : Ceq s q o rho tau -> aligned rho.
Proof.
  unfold Ceq, den, dshape, aligned, reversed. intros E. destruct (s_repr _ I q Hq) as (_ & W & _). destruct Wo as (_ & W' & _). split; [eapply zeq_app; eauto|].
  destruct (root (rp s q)) as [v|], (root o) as [w|]; cbn [rval] in E; rewrite !map_rev.
  - rewrite !app_assoc in E. eapply zeq_rev_app; eauto.
  - rewrite (W' eq_refl) in E. cbn [map app] in E. rewrite app_nil_r in E. rewrite app_assoc in E. eapply zeq_rev_app with (y := []); eauto.
  - rewrite (W eq_refl) in E. cbn [map app] in E. rewrite app_nil_r in E. rewrite app_assoc in E. eapply zeq_rev_app with (x := []); eauto.
  - rewrite (W eq_refl), (W' eq_refl) in E. cbn [map app] in E. rewrite !app_nil_r in E. rewrite E. unfold zeq. auto.
Qed.

Lemma live_parts u' : evolves (us s) u' -> (forall x, In x (pre (rp s q) ++ suf (rp s q)) -> live u' x) /\ (forall x, In x (pre o ++ suf o) -> live u' x).
Proof. intros E. split; intros x Hx; eapply evolves_live; eauto; [apply (proj1 (s_repr _ I q Hq)); auto|apply Wo; auto]. Qed.

(** A replacement that is equivalent to the equation. *)
Lemma by_replacement u' v nr np ns : evolves (us s) u' -> (forall rho, sat u' rho -> sat (us s) rho /\ aligned rho) -> nr <> Some v -> (forall w, nr = Some w -> w < nvar s) ->
  (nr = None -> ns = []) -> (forall u, In u (np ++ ns) -> live u' u) ->
  (forall rho tau, sat u' rho -> (Ceq s q o rho tau <-> tau v = map rho np ++ rval tau nr ++ map rho ns)) ->
  outcome (with_us s u') (var_match v nr np ns (with_us s u')).
Proof.
  intros E HA Hn Hw Hs HL HE. assert (I' := with_us_sinv s u' I E).
  destruct (var_match_ok (with_us s u') v nr np ns I' Hn Hw Hs HL) as (s' & EM & P). rewrite EM. unfold outcome. cbn [fst snd].
  assert (P' : replaced (with_us s u') v nr np ns s') by exact P. split; [eapply replaced_extends; eauto|].
  destruct (replaced_exact _ _ _ _ _ _ P' Hn Hs) as [K Y]. split.
  - intros rho tau S C. apply K; auto. apply HE; auto.
  - left. intros rho tau' S. destruct (Y rho tau' S) as (tau & S' & D & X). exists tau. split; [auto|]. split; [auto|]. apply HE; auto.
Qed.

(** The crossing case: the equation in terms of the leftovers *)
Lemma cross_self_pre v w rho tau : root (rp s q) = Some v -> root o = Some w -> aligned rho -> length (pre o) <= length (pre (rp s q)) -> length (suf (rp s q)) <= length (suf o) ->
  (Ceq s q o rho tau <-> Cx v w (remainings (pre (rp s q)) (pre o)) (rev (remainings (reversed (rp s q)) (rev (suf o)))) rho tau).
Proof.
  intros Rv Rw [Z1 Z2] L1 L2. unfold Ceq, Cx, den, dshape, reversed in *. rewrite Rv, Rw in *. cbn [rval]. rewrite rem_pre by auto.
  assert (ES : rev (remainings (rev (suf (rp s q))) (rev (suf o))) = firstn (length (suf o) - length (suf (rp s q))) (suf o)).
  { destruct (Nat.eq_dec (length (suf (rp s q))) (length (suf o))) as [e|e].
    - rewrite rem_suf by lia. rewrite e, Nat.sub_diag. reflexivity.
    - apply rem_suf'. lia. }
  rewrite ES, map_skipn, map_firstn. rewrite !map_rev in Z2.
  set (P := map rho (pre (rp s q))) in *. set (P' := map rho (pre o)) in *. set (X := map rho (suf (rp s q))) in *. set (X' := map rho (suf o)) in *.
  replace (length (pre o)) with (length P') in * by apply map_length. replace (length (pre (rp s q))) with (length P) in * by apply map_length.
  replace (length (suf o)) with (length X') in * by apply map_length. replace (length (suf (rp s q))) with (length X) in * by apply map_length.
  apply zeq_sym in Z1. apply zeq_le in Z1; auto. apply zeq_rev_le in Z2; auto.
  set (A := skipn (length P') P) in *. set (B := firstn (length X' - length X) X') in *. clearbody A B. rewrite Z1, Z2.
  split; intros E.
  - rewrite <- app_assoc in E. apply app_inv_head in E. rewrite !app_assoc in E. apply app_inv_tail in E. auto.
  - rewrite <- !app_assoc. f_equal. rewrite !app_assoc. f_equal. auto.
Qed.
Lemma cross_other_pre v w rho tau : root (rp s q) = Some v -> root o = Some w -> aligned rho -> length (pre (rp s q)) < length (pre o) -> length (suf o) <= length (suf (rp s q)) ->
  (Ceq s q o rho tau <-> Cx w v (remainings (pre (rp s q)) (pre o)) (rev (remainings (reversed (rp s q)) (rev (suf o)))) rho tau).
Proof.
  intros Rv Rw [Z1 Z2] L1 L2. unfold Ceq, Cx, den, dshape, reversed in *. rewrite Rv, Rw in *. cbn [rval]. rewrite rem_pre' by auto.
  rewrite rem_suf by auto. rewrite map_skipn, map_firstn. rewrite !map_rev in Z2.
  set (P := map rho (pre (rp s q))) in *. set (P' := map rho (pre o)) in *. set (X := map rho (suf (rp s q))) in *. set (X' := map rho (suf o)) in *.
  replace (length (pre o)) with (length P') in * by apply map_length. replace (length (pre (rp s q))) with (length P) in * by apply map_length.
  replace (length (suf o)) with (length X') in * by apply map_length. replace (length (suf (rp s q))) with (length X) in * by apply map_length.
  apply zeq_le in Z1; [|lia]. apply zeq_sym in Z2. apply zeq_rev_le in Z2; auto.
  set (A := skipn (length P) P') in *. set (B := firstn (length X - length X') X) in *. clearbody A B. rewrite Z1, Z2.
  split; intros E.
  - rewrite <- app_assoc in E. apply app_inv_head in E. rewrite !app_assoc in E. apply app_inv_tail in E. auto.
  - rewrite <- !app_assoc. f_equal. rewrite !app_assoc. f_equal. auto.
Qed.

Lemma not_resolved s' q' : root (rp s' q) <> root (rp s' q') -> resolved s' q q' = false.
Proof.
  intros H. unfold resolved. destruct (eqb (root (rp s' q)) (root (rp s' q'))) eqn:E; [|apply andb_false_r]. apply (proj1 (eqb_eq _ _)) in E. contradiction.
Qed.

(** One direction of the crossing case, in terms of the two roots. *)
Definition after_handle (main other removed : nat) (RP RS : list nat) (differ : bool) : shm unit :=
  do updated <- handle main other RP RS;
  if negb updated && differ then
    let '(RP, RS) := if length RP <? length RS then ([], skipn (length RP) RS) else (firstn (length RP - length RS) RP, []) in
    do z <- new_variadic;
    var_match removed (Some z) RP RS
  else hret tt.
Lemma by_handle u' main other removed RP RS : evolves (us s) u' -> main < nvar s -> other < nvar s -> main <> other -> (forall u, In u (RP ++ RS) -> live u' u) ->
  (forall rho tau, sat u' rho -> (Ceq s q o rho tau <-> Cx main other RP RS rho tau)) ->
  (length RP < length RS -> removed = main) -> (length RS < length RP -> removed = other) ->
  crossing (rp s q) o ->
  (root (rp s q) = Some main /\ root o = Some other) \/ (root (rp s q) = Some other /\ root o = Some main) ->
  outcome (with_us s u') (after_handle main other removed RP RS (negb (length RP =? length RS)) (with_us s u')).
Proof.
  intros E Hm Ho Hne HL HE R1 R2 Hc Hr. assert (I' := with_us_sinv s u' I E).
  unfold after_handle, hbind at 1. destruct (handle_ok (with_us s u') main other RP RS I' Hm Ho Hne HL) as (s1 & b & EH & X1 & K1 & Y1). rewrite EH.
  assert (KC : keeps (with_us s u') s1 (Ceq s q o)). { intros rho tau S C. apply K1; auto. apply HE; auto. }
  destruct b; cbn [negb andb].
  - unfold outcome, hret. cbn [fst snd]. split; [auto|]. split; [auto|]. destruct Y1 as [Y|(Y & w1 & w2 & W & F)].
    + left. eapply yields_weaken; [exact Y|]. intros rho tau S C. apply HE; auto.
    + right. split; [auto|]. split; [auto|].
      assert (G : forall q', q' < nrep s -> root (rp s q') = root o -> root (rp s1 q) <> root (rp s1 q')).
      { intros q' Hq' Eo. destruct (F q Hq) as [F1 F2]. destruct (F q' Hq') as [F3 F4]. cbn [rp with_us] in F1, F2, F3, F4. rewrite Eo in F3, F4.
        destruct Hr as [[A1 A2]|[A1 A2]].
        - rewrite (F1 A1), (F4 A2). congruence.
        - rewrite (F2 A1), (F3 A2). congruence. }
      split; [intros q' Hq' Eo; apply not_resolved, G; congruence|auto].
  - subst s1. destruct (Nat.eqb_spec (length RP) (length RS)) as [L|L]; cbn [negb].
    + unfold outcome, hret. cbn [fst snd]. split; [apply extends_refl; auto|]. split; [auto|]. right. split; [auto|]. split; [apply yields_refl|].
      split; [intros q' Hq' Eo; apply not_resolved; cbn [rp with_us]; rewrite Eo; destruct Hr as [[-> ->]|[-> ->]]; congruence|].
      intros _ q' Hq' Eo. cbn [rp with_us]. rewrite Eo. destruct Hr as [[-> ->]|[-> ->]]; congruence.
    + set (k := Nat.min (length RP) (length RS)).
      assert (Parts : forall rho tau, sat u' rho -> Ceq s q o rho tau -> (exists X, tau main = X ++ skipn k (map rho RS)) /\ (exists Y, tau other = firstn (length RP - k) (map rho RP) ++ Y)).
      { intros rho tau S C. eapply solutions_parts with (s := with_us s u'); eauto; [apply HE; auto|]. intros n N1 N2. lia. }
      destruct (Nat.ltb_spec (length RP) (length RS)) as [L'|L'].
      * rewrite (R1 L'). replace k with (length RP) in * by (unfold k; lia).
        destruct (fresh_step (with_us s u') main [] (skipn (length RP) RS) I' Hm) as (s0 & s2 & E0 & E1 & X2 & S2 & V2 & P2 & R0 & N0 & U0 & D2 & T2).
        { intros u Hu. apply HL. apply in_app_iff. right. apply in_skipn in Hu. auto. }
        assert (V0 : nvar s0 = S (nvar (with_us s u'))) by (destruct P2 as (_ & _ & A & _); congruence).
        destruct (fresh_exact _ _ _ _ _ _ I' Hm P2 R0 N0 U0 V0) as [K Y].
        unfold hbind. rewrite E0, E1. unfold outcome. cbn [fst snd]. split; [auto|]. split; [|right; split; [auto|split; [auto|]]].
        -- intros rho tau S C. apply K; auto. destruct (Parts rho tau S C) as [(X & EX) _]. exists X. rewrite map_skipn. auto.
        -- assert (G : forall q', q' < nrep s -> root (rp s q') = root o -> root (rp s2 q) <> root (rp s2 q')).
           { intros q' Hq' Eo. rewrite !T2 by auto. cbn [rp with_us]. rewrite Eo. destruct Hr as [[A1 A2]|[A1 A2]]; rewrite A1, A2;
               rewrite eqb_refl, eqb_some_false by auto; cbn; intros H; injection H; lia. }
           split; [intros q' Hq' Eo; apply not_resolved, G; congruence|auto].
      * rewrite (R2 ltac:(lia)). replace k with (length RS) in * by (unfold k; lia).
        destruct (fresh_step (with_us s u') other (firstn (length RP - length RS) RP) [] I' Ho) as (s0 & s2 & E0 & E1 & X2 & S2 & V2 & P2 & R0 & N0 & U0 & D2 & T2).
        { intros u Hu. rewrite app_nil_r in Hu. apply HL. apply in_app_iff. left. apply in_firstn in Hu. auto. }
        assert (V0 : nvar s0 = S (nvar (with_us s u'))) by (destruct P2 as (_ & _ & A & _); congruence).
        destruct (fresh_exact _ _ _ _ _ _ I' Ho P2 R0 N0 U0 V0) as [K Y].
        unfold hbind. rewrite E0, E1. unfold outcome. cbn [fst snd]. split; [auto|]. split; [|right; split; [auto|split; [auto|]]].
        -- intros rho tau S C. apply K; auto. destruct (Parts rho tau S C) as [_ (Y' & EY)]. exists Y'. cbn [map]. rewrite map_firstn, app_nil_r. auto.
        -- assert (G : forall q', q' < nrep s -> root (rp s q') = root o -> root (rp s2 q) <> root (rp s2 q')).
           { intros q' Hq' Eo. rewrite !T2 by auto. cbn [rp with_us]. rewrite Eo. destruct Hr as [[A1 A2]|[A1 A2]]; rewrite A1, A2;
               rewrite eqb_refl, eqb_some_false by auto; cbn; intros H; injection H; lia. }
           split; [intros q' Hq' Eo; apply not_resolved, G; congruence|auto].
Qed.
End Inner.

Lemma outcome_us s q o u' p : sinv s -> q < nrep s -> wf_repr s o -> evolves (us s) u' -> (forall rho, sat u' rho <-> sat (us s) rho /\ aligned s q o rho) ->
  outcome s q o (with_us s u') p -> outcome s q o s p.
Proof.
  intros I Hq Wo E HA. unfold outcome. destruct (snd p).
  - intros (X & K & Y). split; [eapply extends_us; eauto|]. split.
    + eapply keeps_us; [exact K|]. intros rho tau S C. split; [|auto]. apply HA. split; [auto|]. eapply aligned_needed; eauto.
    + destruct Y as [Y|(Hc & Y & R)].
      * left. eapply yields_us; [exact Y|]. intros rho tau S C. split; [|auto]. apply HA in S. tauto.
      * right. split; [auto|]. split; [|auto]. eapply yields_us; [exact Y|]. intros rho tau S C. split; [|auto]. apply HA in S. tauto.
  - intros [-> H]. split; [auto|]. intros rho tau S C. apply (H rho tau); auto. cbn. apply HA. split; [auto|]. eapply aligned_needed; eauto.
Qed.

Lemma inner_match_ok s q o : sinv s -> q < nrep s -> wf_repr s o -> outcome s q o s (inner_match q o s).
Proof.
  intros I Hq Wo. destruct (s_repr _ I q Hq) as (Ws1 & Ws2 & Ws3). destruct Wo as (Wo1 & Wo2 & Wo3).
  assert (Wo : wf_repr s o) by (split; auto).
  unfold inner_match. destruct (match root o, root (rp s q) with None, None => negb (shlen o =? shlen (rp s q)) | _, _ => false end) eqn:EL.
  { unfold outcome. cbn [fst snd]. split; [auto|]. intros rho tau S C. unfold Ceq, den, dshape in C.
    destruct (root o); [discriminate|]. destruct (root (rp s q)); [discriminate|]. apply negb_true_iff in EL. apply Nat.eqb_neq in EL. apply EL.
    unfold shlen. rewrite (Wo2 eq_refl), (Ws2 eq_refl) in *. cbn in C |- *. rewrite !app_nil_r in C. apply (f_equal (@length Z)) in C. rewrite !map_length in C. lia. }
  destruct (umatch_ok (pre (rp s q)) (pre o) s (s_inv _ I)) as (u1 & r1 & E1 & V1 & S1).
  { intros u Hu. apply Ws1. apply in_app_iff. auto. } { intros u Hu. apply Wo1. apply in_app_iff. auto. }
  unfold hbind at 1. rewrite E1. destruct r1 as [[]|e].
  2:{ unfold outcome. cbn [fst snd]. destruct S1 as [-> S1]. split; [auto|]. intros rho tau S C. eapply S1; eauto. eapply aligned_needed; eauto. }
  set (OR := match root o with Some _ => rev (suf o) | None => rev (pre o) end).
  assert (I1 := with_us_sinv s u1 I V1).
  destruct (umatch_ok (reversed (rp s q)) OR (with_us s u1) (s_inv _ I1)) as (u2 & r2 & E2 & V2 & S2).
  { intros u Hu. cbn. eapply evolves_live; eauto. apply Ws1. apply in_app_iff. unfold reversed in Hu. destruct (root (rp s q)); apply in_rev in Hu; auto. }
  { intros u Hu. cbn. eapply evolves_live; eauto. apply Wo1. apply in_app_iff. unfold OR in Hu. destruct (root o); apply in_rev in Hu; auto. }
  unfold hbind at 1. rewrite E2. destruct r2 as [[]|e].
  2:{ unfold outcome. cbn [fst snd]. destruct S2 as [-> S2]. split; [auto|]. intros rho tau S C. apply (S2 rho).
      - cbn. apply S1. split; [auto|]. eapply aligned_needed; eauto.
      - assert (A : aligned s q o rho) by (eapply aligned_needed; eauto). apply A. }
  change (with_us (with_us s u1) u2) with (with_us s u2).
  assert (V : evolves (us s) u2) by (eapply evolves_trans; eauto).
  assert (HA : forall rho, sat u2 rho <-> sat (us s) rho /\ aligned s q o rho). { intros rho. rewrite S2. cbn. rewrite S1. unfold aligned, OR. tauto. }
  assert (HA1 : forall rho, sat u2 rho -> sat (us s) rho /\ aligned s q o rho) by (intros rho; apply HA).
  apply outcome_us with (u' := u2); auto.
  assert (I2 := with_us_sinv s u2 I V).
  destruct (live_parts s q o I Hq Wo u2 V) as [Ls Lo].
  destruct (root o) as [w|] eqn:Ro, (root (rp s q)) as [v|] eqn:Rs.
  - destruct (Nat.eqb_spec v w) as [->|Hvw].
    + destruct (Nat.eqb_spec (shlen (rp s q)) (shlen o)) as [L|L].
      * unfold outcome, hret. cbn [fst snd]. split; [apply extends_refl; auto|]. split; [apply keeps_refl|].
        unfold shlen in L. destruct (Nat.eq_dec (length (pre (rp s q))) (length (pre o))) as [LP|LP].
        -- left. intros rho tau S. exists tau. split; [auto|]. split; [auto|]. apply HA in S as [_ [Z1 Z2]]. unfold reversed in Z2. rewrite Rs, Ro in Z2. rewrite !map_rev in Z2.
           apply zeq_firstn_full in Z1; [|rewrite !map_length; auto]. apply zeq_firstn_full in Z2; [|rewrite !rev_length, !map_length; lia].
           apply (f_equal (@rev Z)) in Z2. rewrite !rev_involutive in Z2. unfold Ceq, den, dshape. rewrite Rs, Ro, Z1, Z2. auto.
        -- right. split; [split; [congruence|split; [congruence|]]|split; [apply yields_refl|]].
           ++ destruct (le_lt_dec (length (pre (rp s q))) (length (pre o))); [right|left]; lia.
           ++ split; [|intros H; congruence]. intros q' Hq' Eo. unfold resolved. cbn [rp with_us]. rewrite Eo. destruct (Nat.eqb_spec (length (pre (rp s q))) (length (pre o))); [lia|auto].
      * unfold outcome, hraise. cbn [fst snd]. split; [auto|]. intros rho tau S C. apply L. unfold Ceq, den, dshape in C. rewrite Rs, Ro in C. apply (f_equal (@length Z)) in C.
        rewrite !app_length, !map_length in C. unfold shlen. lia.
    + assert (Hv : v < nvar s) by auto. assert (Hw : w < nvar s) by auto. unfold shlen.
      set (RP := remainings (pre (rp s q)) (pre o)). set (RS := rev (remainings (reversed (rp s q)) (rev (suf o)))).
      assert (RSd : RS = if length (suf (rp s q)) <? length (suf o) then firstn (length (suf o) - length (suf (rp s q))) (suf o) else firstn (length (suf (rp s q)) - length (suf o)) (suf (rp s q))).
      { unfold RS, reversed. rewrite Rs. destruct (Nat.ltb_spec (length (suf (rp s q))) (length (suf o))); [apply rem_suf'|apply rem_suf]; auto. }
      assert (RPd : RP = if length (pre (rp s q)) <? length (pre o) then skipn (length (pre (rp s q))) (pre o) else skipn (length (pre o)) (pre (rp s q))) by reflexivity.
      assert (LL : forall u, In u (RP ++ RS) -> live u2 u).
      { intros u Hu. apply in_app_iff in Hu. rewrite RSd, RPd in Hu. destruct Hu as [Hu|Hu].
        - destruct (length (pre (rp s q)) <? length (pre o)); apply in_skipn in Hu; [apply Lo|apply Ls]; apply in_app_iff; auto.
        - destruct (length (suf (rp s q)) <? length (suf o)); apply in_firstn in Hu; [apply Lo|apply Ls]; apply in_app_iff; auto. }
      assert (LRP : length RP = if length (pre (rp s q)) <? length (pre o) then length (pre o) - length (pre (rp s q)) else length (pre (rp s q)) - length (pre o)).
      { rewrite RPd. destruct (length (pre (rp s q)) <? length (pre o)); apply skipn_length. }
      assert (LRS : length RS = if length (suf (rp s q)) <? length (suf o) then length (suf o) - length (suf (rp s q)) else length (suf (rp s q)) - length (suf o)).
      { rewrite RSd. destruct (length (suf (rp s q)) <? length (suf o)); rewrite firstn_length; lia. }
      clearbody RS.
      destruct (Nat.ltb_spec (length (pre (rp s q))) (length (pre o))) as [Lp|Lp].
      * (* the other has the longer prefix *)
        destruct (Nat.ltb_spec (length (pre o)) (length (pre (rp s q)))); [lia|]. cbn [andb orb].
        destruct (Nat.ltb_spec (length (suf o)) (length (suf (rp s q)))) as [Lsu|Lsu]; cbn [andb orb].
        -- destruct (Nat.ltb_spec (length (suf (rp s q))) (length (suf o))); [lia|].
           assert (O : outcome s q o (with_us s u2) (after_handle w v (if length (pre o) + length (suf o) <=? length (pre (rp s q)) + length (suf (rp s q)) then w else v) RP RS (negb (length RP =? length RS)) (with_us s u2))).
           { apply by_handle; auto.
             - intros rho tau S. apply HA in S as [_ A]. eapply iff_trans; [apply cross_other_pre with (v := v) (w := w); auto; lia|]. fold RP. unfold reversed. rewrite Rs. rewrite rem_suf by lia. rewrite RSd. tauto.
             - intros L. destruct (Nat.leb_spec (length (pre o) + length (suf o)) (length (pre (rp s q)) + length (suf (rp s q)))); [auto|lia].
             - intros L. destruct (Nat.leb_spec (length (pre o) + length (suf o)) (length (pre (rp s q)) + length (suf (rp s q)))); [lia|auto].
             - split; [congruence|split; [congruence|]]. right. lia. }
           unfold after_handle in O. replace (length RP =? length RS) with (length (pre (rp s q)) + length (suf (rp s q)) =? length (pre o) + length (suf o)) in O.
           2:{ destruct (Nat.eqb_spec (length (pre (rp s q)) + length (suf (rp s q))) (length (pre o) + length (suf o))), (Nat.eqb_spec (length RP) (length RS)); auto; lia. }
           destruct (length (pre o) + length (suf o) <=? length (pre (rp s q)) + length (suf (rp s q))); exact O.
        -- destruct (Nat.leb_spec (length (pre o) + length (suf o)) (length (pre (rp s q)) + length (suf (rp s q)))); [lia|].
           apply by_replacement; auto; try discriminate; try congruence.
           intros rho tau S. apply HA in S as [_ [Z1 Z2]]. unfold reversed in Z2. rewrite Rs, Ro in Z2. rewrite !map_rev in Z2.
           unfold Ceq, den, dshape. rewrite Rs, Ro. cbn [rval]. apply zeq_sym in Z1, Z2.
           assert (RS' : RS = firstn (length (suf o) - length (suf (rp s q))) (suf o)).
           { rewrite RSd. destruct (Nat.ltb_spec (length (suf (rp s q))) (length (suf o))); auto. replace (length (suf o)) with (length (suf (rp s q))) by lia. rewrite Nat.sub_diag. reflexivity. }
           rewrite RS', RPd, map_firstn, map_skipn. rewrite <- (map_length rho (suf o)), <- (map_length rho (suf (rp s q))), <- (map_length rho (pre (rp s q))).
           rewrite <- longer_eq; auto; [|rewrite !map_length; lia|rewrite !map_length; lia]. split; auto.
      * destruct (Nat.ltb_spec (length (suf (rp s q))) (length (suf o))) as [Lsu|Lsu].
        -- destruct (Nat.ltb_spec (length (suf o)) (length (suf (rp s q)))); [lia|].
           destruct (Nat.ltb_spec (length (pre o)) (length (pre (rp s q)))) as [Lp'|Lp']; cbn [andb orb].
           ++ assert (O : outcome s q o (with_us s u2) (after_handle v w (if length (pre o) + length (suf o) <=? length (pre (rp s q)) + length (suf (rp s q)) then w else v) RP RS (negb (length RP =? length RS)) (with_us s u2))).
              { apply by_handle; auto.
                - intros rho tau S. apply HA in S as [_ A]. eapply iff_trans; [apply cross_self_pre with (v := v) (w := w); auto; lia|]. fold RP. unfold reversed. rewrite Rs. rewrite rem_suf' by lia. rewrite RSd. tauto.
                - intros L. destruct (Nat.leb_spec (length (pre o) + length (suf o)) (length (pre (rp s q)) + length (suf (rp s q)))); [lia|auto].
                - intros L. destruct (Nat.leb_spec (length (pre o) + length (suf o)) (length (pre (rp s q)) + length (suf (rp s q)))); [auto|lia].
                - split; [congruence|split; [congruence|]]. left. lia. }
              unfold after_handle in O. replace (length RP =? length RS) with (length (pre (rp s q)) + length (suf (rp s q)) =? length (pre o) + length (suf o)) in O.
              2:{ destruct (Nat.eqb_spec (length (pre (rp s q)) + length (suf (rp s q))) (length (pre o) + length (suf o))), (Nat.eqb_spec (length RP) (length RS)); auto; lia. }
              destruct (length (pre o) + length (suf o) <=? length (pre (rp s q)) + length (suf (rp s q))); exact O.
           ++ destruct (Nat.leb_spec (length (pre o) + length (suf o)) (length (pre (rp s q)) + length (suf (rp s q)))); [lia|].
              apply by_replacement; auto; try discriminate; try congruence.
              intros rho tau S. apply HA in S as [_ [Z1 Z2]]. unfold reversed in Z2. rewrite Rs, Ro in Z2. rewrite !map_rev in Z2.
              unfold Ceq, den, dshape. rewrite Rs, Ro. cbn [rval]. apply zeq_sym in Z1, Z2.
              assert (LE : length (pre o) = length (pre (rp s q))) by lia.
              assert (RP' : RP = skipn (length (pre (rp s q))) (pre o)). { rewrite RPd, <- LE, skipn_all. rewrite LE, skipn_all. reflexivity. }
              rewrite RSd, RP', map_firstn, map_skipn. rewrite <- (map_length rho (suf o)), <- (map_length rho (suf (rp s q))), <- (map_length rho (pre (rp s q))).
              rewrite <- longer_eq; auto; [|rewrite !map_length; lia|rewrite !map_length; lia]. split; auto.
        -- rewrite andb_false_r. cbn [orb andb].
           destruct (Nat.leb_spec (length (pre o) + length (suf o)) (length (pre (rp s q)) + length (suf (rp s q)))); [|lia].
           apply by_replacement; auto; try discriminate; try congruence.
           intros rho tau S. apply HA in S as [_ [Z1 Z2]]. unfold reversed in Z2. rewrite Rs, Ro in Z2. rewrite !map_rev in Z2.
           unfold Ceq, den, dshape. rewrite Rs, Ro. cbn [rval].
           rewrite RSd, RPd, map_firstn, map_skipn. rewrite <- (map_length rho (suf o)), <- (map_length rho (suf (rp s q))), <- (map_length rho (pre o)).
           apply longer_eq; auto; rewrite !map_length; lia.
  - (* only the other has a variadic *)
    assert (Es := Ws2 eq_refl).
    destruct (Nat.ltb_spec (length (pre (rp s q))) (shlen o)) as [L|L]; unfold shlen in L.
    + unfold outcome, hraise. cbn [fst snd]. split; [auto|]. intros rho tau S C. unfold Ceq, den, dshape in C. rewrite Rs, Ro, Es in C. apply (f_equal (@length Z)) in C.
      rewrite !app_length, !map_length in C. cbn in C. lia.
    + apply by_replacement; auto; try discriminate; try congruence.
      { intros u Hu. rewrite app_nil_r in Hu. apply in_slice in Hu. apply Ls. apply in_app_iff. auto. }
      intros rho tau S. apply HA in S as [_ [Z1 Z2]]. unfold reversed in Z2. rewrite Rs, Ro in Z2. rewrite !map_rev in Z2.
      unfold Ceq, den, dshape. rewrite Rs, Ro, Es. cbn [rval map]. rewrite !app_nil_r. unfold slice. rewrite map_firstn, map_skipn.
      rewrite <- (map_length rho (suf o)), <- (map_length rho (pre (rp s q))), <- (map_length rho (pre o)). apply zeq_sym in Z1, Z2.
      rewrite <- slice_eq; auto; [|rewrite !map_length; lia]. split; auto.
  - assert (Eo := Wo2 eq_refl).
    destruct (Nat.ltb_spec (length (pre o)) (shlen (rp s q))) as [L|L]; unfold shlen in L.
    + unfold outcome, hraise. cbn [fst snd]. split; [auto|]. intros rho tau S C. unfold Ceq, den, dshape in C. rewrite Rs, Ro, Eo in C. apply (f_equal (@length Z)) in C.
      rewrite !app_length, !map_length in C. cbn in C. lia.
    + apply by_replacement; auto; try discriminate; try congruence.
      { intros u Hu. rewrite app_nil_r in Hu. apply in_slice in Hu. apply Lo. apply in_app_iff. auto. }
      intros rho tau S. apply HA in S as [_ [Z1 Z2]]. unfold reversed in Z2. rewrite Rs, Ro in Z2. rewrite !map_rev in Z2.
      unfold Ceq, den, dshape. rewrite Rs, Ro, Eo. cbn [rval map]. rewrite !app_nil_r. unfold slice. rewrite map_firstn, map_skipn.
      rewrite <- (map_length rho (suf (rp s q))), <- (map_length rho (pre (rp s q))), <- (map_length rho (pre o)).
      apply slice_eq; auto. rewrite !map_length; lia.
  - unfold outcome, hret. cbn [fst snd]. split; [apply extends_refl; auto|]. split; [apply keeps_refl|]. left. intros rho tau S. exists tau. split; [auto|]. split; [auto|].
    apply HA in S as [_ [Z1 _]]. apply negb_false_iff in EL. apply Nat.eqb_eq in EL. unfold shlen in EL. rewrite (Wo2 eq_refl), (Ws2 eq_refl) in EL. cbn in EL.
    apply zeq_firstn_full in Z1; [|rewrite !map_length; lia]. unfold Ceq, den, dshape. rewrite Rs, Ro, (Wo2 eq_refl), (Ws2 eq_refl), Z1. auto.
Qed.
