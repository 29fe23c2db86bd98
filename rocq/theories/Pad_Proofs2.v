(** * eye and transpose: proofs *)
From Coq Require Import List Arith Lia Bool ZArith.
From Verif Require Import PyBase Uniadic_Model Uniadic_Proofs Uniadic_Props Bcast_Proofs Shape_Model Shape_Proofs Shape_Proofs2 Shape_Proofs3 Shape_Props Reduce_Model Reduce_Proofs Reduce_Proofs2
  Rule_Proofs Window_Proofs Arange_Model Arange_Proofs Reshape_Model Reshape_Proofs Concat_Model Concat_Proofs Flat_Model Flat_Proofs Flat_Proofs2 Pad_Model Pad_Spec Pad_Proofs.
Import ListNotations.
Open Scope list_scope. Open Scope nat_scope. Open Scope shm_scope.

(** ** eye *)
Definition eye_shape (qo : nat) (N : option Z) (M : option (option Z)) (sh : nat -> list Z) : Prop := exists n m, sh qo = [n; m] /\ eye_sizes N M n m.
Lemma eye_ok s qo N M : sinv s -> qo < nrep s -> (forall rho sh, allows s rho sh -> length (sh qo) = 2) ->
  match eye_rule qo N M s with
  | (s', Ok (r, N', M')) => sound_for (eye_shape qo N M) s s' /\ (forall n m, eye_sizes N' M' n m -> eye_sizes N M n m) /\
      (forall rho sh n m, allows s' rho sh -> sh qo = [n; m] -> eye_sizes N M n m -> eye_sizes N' M' n m) /\
      (r = true <-> (exists n, N' = Some n) /\ (exists m, M' = Some (Some m)) /\ exists y, determined s' qo y)
  | (_, Err e) => e = ValueError /\ excludes (eye_shape qo N M) s
  end.
Proof.
  intros I Hq Rk. destruct (rank_plain 2 s qo I Hq Rk) as [Rt Ln]. unfold eye_rule. destruct (pre (rp s qo)) as [|n [|m [|? ?]]] eqn:Ep; try discriminate. clear Ln. set (P := eye_shape qo N M).
  assert (Lv : live (us s) n /\ live (us s) m) by (split; apply (pre_live s qo); auto; rewrite Ep; cbn; auto). destruct Lv as [Lvn Lvm].
  assert (Sh : forall rho sh, allows s rho sh -> sh qo = [rho n; rho m]) by (intros rho sh A; rewrite (plain_sh s qo rho sh I Hq Rt A), Ep; auto).
  assert (A1 : match (match N, value (us s) n with Some z, None => (do _ <- set_dim n z; hret N) s | None, Some z => (s, Ok (Some z)) | _, _ => (s, Ok N) end) with
    | (s1, Ok N') => sound_for P s s1 /\ rp s1 = rp s /\ (forall z, given N' z -> given N z) /\ (forall rho, sat (us s1) rho -> given N (rho n) -> given N' (rho n))
    | (_, Err e) => e = ValueError /\ excludes P s end).
  { destruct N as [z|], (value (us s) n) as [v|] eqn:Ev; try (split; [apply sound_for_refl; auto|]; split; [auto|]; split; [cbn; auto|auto]; fail).
    - assert (X := set_dim_ok P s n z I Lvn). lapply X; [clear X; intros X|]. 2: { intros rho sh A (a & b & E & G & _). rewrite (Sh rho sh A) in E. injection E as <- <-. exact G. }
      unfold hbind, hret. destruct (set_dim n z s) as [s1 [[]|e]]; [|auto]. destruct X as (X1 & X2 & X3). do 2 (split; [auto|]). auto.
    - split; [apply sound_for_refl; auto|]. split; [auto|]. split; [cbn; auto|]. intros rho Hs _. cbn. eapply value_sat; [apply I|exact Lvn|exact Ev|auto]. }
  unfold hbind at 1. destruct (match N, value (us s) n with Some z, None => _ | None, Some z => _ | _, _ => _ end) as [s1 [N'|e]]; [|auto]. destruct A1 as (S1 & R1 & G1 & F1).
  assert (I1 : sinv s1) by apply S1. assert (Lm1 : live (us s1) m) by (apply S1; auto). assert (Ln1 : live (us s1) n) by (apply S1; auto).
  assert (A2 : match (match M, value (us s1) m with Some (Some z), None => (do _ <- set_dim m z; hret M) s1 | None, Some z => (s1, Ok (Some (Some z))) | _, _ => (s1, Ok M) end) with
    | (s2, Ok M') => sound_for P s1 s2 /\ rp s2 = rp s1 /\ (M' = M \/ M = None) /\ (M = None -> M' = M \/ exists z, M' = Some (Some z) /\ forall rho, sat (us s2) rho -> rho m = z)
    | (_, Err e) => e = ValueError /\ excludes P s1 end).
  { destruct M as [[z|]|], (value (us s1) m) as [v|] eqn:Ev; try (split; [apply sound_for_refl; auto|]; split; [auto|]; split; [auto|auto]; fail).
    - assert (X := set_dim_ok P s1 m z I1 Lm1). lapply X; [clear X; intros X|]. 2: { intros rho sh A (a & b & E & _ & G). apply S1 in A. rewrite (Sh rho sh A) in E. injection E as <- <-. exact G. }
      unfold hbind, hret. destruct (set_dim m z s1) as [s2 [[]|e]]; [|auto]. destruct X as (X1 & X2 & X3). do 2 (split; [auto|]). auto.
    - split; [apply sound_for_refl; auto|]. split; [auto|]. split; [auto|]. intros _. right. exists v. split; [auto|]. intros rho Hs. eapply value_sat; [apply I1|exact Lm1|exact Ev|auto]. }
  unfold hbind at 1. destruct (match M, value (us s1) m with Some (Some z), None => _ | None, Some z => _ | _, _ => _ end) as [s2 [M'|e]]; [|destruct A2 as [-> A2]; split; [auto|eapply excludes_back; eauto]]. destruct A2 as (S2 & R2 & G2 & F2).
  assert (S12 := sound_for_trans _ _ _ _ S1 S2). split; [auto|]. split; [|split].
  - intros a b [E1 E2]. assert (X := G1 a E1). split; [auto|]. destruct G2 as [->| ->]; [exact E2|exact Logic.I].
  - intros rho sh a b A E [H1 H2]. assert (A0 := proj2 (proj2 (proj2 (proj2 S12))) rho sh A). rewrite (Sh rho sh A0) in E. injection E as <- <-. split; [apply F1; [eapply sound_sat; [exact S2|apply A]|auto]|].
    destruct M as [o|]; [destruct G2 as [->|]; [auto|discriminate]|]. destruct (F2 eq_refl) as [->|(z & -> & Q)]; [auto|]. apply Q, A.
  - assert (Rt2 : root (rp s2 qo) = None) by (rewrite R2, R1; auto). assert (Ep2 : pre (rp s2 qo) = [n; m]) by (rewrite R2, R1; auto). assert (N2 : nrep s2 = nrep s) by apply S12. split.
    + intros E. destruct N' as [a|]; [|discriminate]. destruct M' as [[b|]|]; try discriminate. destruct (value (us s2) n) as [v|] eqn:E1; [|discriminate]. destruct (value (us s2) m) as [w|] eqn:E2; [|discriminate].
      split; [eauto|]. split; [eauto|]. exists [v; w]. apply determined_values; [apply S12|lia|]. split; [auto|]. rewrite Ep2. cbn. rewrite E1, E2. auto.
    + intros ((a & ->) & (b & ->) & y & D). apply determined_values in D as [_ D]; [|apply S12|lia]. rewrite Ep2 in D. destruct y as [|v [|w [|? ?]]]; try discriminate. cbn in D. injection D as D1 D2. rewrite D1, D2. auto.
Qed.

(** ** Unifying with a list, without comparing the ranks *)
Definition with_list (q : nat) (l : list nat) : shm unit :=
  do _ <- (fun s => update_uniadics (pre (rp s q)) l s);
  do _ <- (fun s => update_uniadics (reversed (rp s q)) (rev l) s);
  fun s => if no_root (rp s q) then (s, Ok tt) else remove_variadic q l s.
Lemma zeq_refl a : zeq a a.
Proof. unfold zeq. auto. Qed.
Lemma no_root_iff r : no_root r = true <-> root r = None.
Proof. unfold no_root. destruct (root r); split; congruence. Qed.
Lemma with_list_ok (P : srel) s q l : sinv s -> q < nrep s -> (forall u, In u l -> live (us s) u) -> (forall rho sh, allows s rho sh -> P sh -> sh q = map rho l) ->
  match with_list q l s with
  | (s', Ok _) => sound_for P s s' /\ (forall rho sh, allows s' rho sh -> root (rp s q) <> None \/ length (sh q) = length l -> sh q = map rho l)
  | (_, Err e) => e = ValueError /\ excludes P s
  end.
Proof.
  intros I Hq Lv H. destruct (root (rp s q)) as [v|] eqn:Rt.
  - assert (B := by_match q l s ltac:(congruence)).
    assert (E : with_list q l s = inner_match q (mkshape l None []) s).
    { rewrite <- B. unfold with_list, hbind. assert (E1 := update_rp (pre (rp s q)) l s). destruct (update_uniadics (pre (rp s q)) l s) as [s1 [[]|e]]; [|auto]. cbn [fst] in E1. assert (E2 := update_rp (reversed (rp s1 q)) (rev l) s1).
      destruct (update_uniadics (reversed (rp s1 q)) (rev l) s1) as [s2 [[]|e]]; [|auto]. cbn [fst] in E2. unfold no_root. rewrite E2, E1, Rt. auto. }
    rewrite E. assert (W : wf_repr s (mkshape l None [])). { split; [cbn; intros u Hu; rewrite app_nil_r in Hu; auto|]. split; [auto|discriminate]. }
    assert (M := rule_step P s s q (mkshape l None []) I (born_refl s I) Hq W ltac:(auto)). lapply M; [clear M; intros M|].
    2: { intros rho tau sh Hs D Hp. exists rho, tau. split; [intros x _; auto|]. do 2 (split; [auto|]). unfold dshape. cbn [pre suf root rval map]. rewrite app_nil_r. apply (H rho sh); [apply allows_den; eauto|auto]. }
    destruct (inner_match q (mkshape l None []) s) as [s' [[]|e]]; [|auto]. destruct M as (M1 & _ & M2). split; [auto|]. intros rho sh A _. destruct (M2 ltac:(intros (_ & X & _); cbn in X; congruence) rho sh A) as (tau & _ & _ & E'). unfold dshape in E'. cbn [pre suf root rval map] in E'. rewrite app_nil_r in E'. auto.
  - assert (Lp : forall u, In u (pre (rp s q)) -> live (us s) u) by (intros u Hu; eapply pre_live; eauto). unfold with_list. unfold hbind at 1. destruct (umatch_ok (pre (rp s q)) l s (s_inv _ I) Lp Lv) as (u1 & r1 & -> & V1 & E1). destruct r1 as [[]|e].
    + unfold hbind. cbn [rp with_us]. unfold reversed. rewrite Rt. destruct (umatch_ok (rev (pre (rp s q))) (rev l) (with_us s u1)) as (u2 & r2 & -> & V2 & E2); [apply V1|intros u Hu; apply (evolves_live _ _ _ V1), Lp, in_rev; auto|intros u Hu; apply (evolves_live _ _ _ V1), Lv, in_rev; auto|]. destruct r2 as [[]|e].
      * unfold no_root. cbn [rp with_us]. rewrite Rt. cbn [us with_us] in *. assert (V12 : evolves (us s) u2) by (eapply evolves_trans; eauto). change (with_us (with_us s u1) u2) with (with_us s u2).
        split.
        -- split; [apply with_us_sinv; auto|]. split; [auto|]. split; [intros x Hx; apply (evolves_live _ _ _ V12); auto|]. split.
           ++ intros rho sh A Hp. exists rho. split; [intros x _; auto|]. assert (Eq := H rho sh A Hp). rewrite (plain_sh s q rho sh I Hq Rt A) in Eq. apply allows_den in A as (Hs & tau & D). apply allows_den. split; [|exists tau; auto]. cbn. apply E2. split; [apply E1; split; [auto|]|]; [rewrite Eq; apply zeq_refl|rewrite !map_rev, Eq; apply zeq_refl].
           ++ intros rho sh A. apply allows_den in A as (Hs & tau & D). apply allows_den. split; [|exists tau; auto]. cbn in Hs. apply E2 in Hs as [Hs _]. apply E1 in Hs. apply Hs.
        -- intros rho sh A [X|X]; [congruence|]. assert (Hs : sat u2 rho) by apply A. apply E2 in Hs as [Hs _]. apply E1 in Hs as [Hs Z]. assert (Ex : sh q = map rho (pre (rp s q))). { apply (plain_sh s q rho sh I Hq Rt). apply allows_den in A as (_ & tau & D). apply allows_den. split; [auto|exists tau; auto]. }
           rewrite Ex. apply zeq_firstn_full; [auto|]. rewrite <- Ex, X, map_length. auto.
      * destruct E2 as [-> E2]. split; [auto|]. intros rho sh A Hp. assert (Eq := H rho sh A Hp). rewrite (plain_sh s q rho sh I Hq Rt A) in Eq. apply (E2 rho); [cbn; apply E1; split; [apply A|rewrite Eq; apply zeq_refl]|]. rewrite !map_rev, Eq. apply zeq_refl.
    + destruct E1 as [-> E1]. split; [auto|]. intros rho sh A Hp. assert (Eq := H rho sh A Hp). rewrite (plain_sh s q rho sh I Hq Rt A) in Eq. apply (E1 rho); [apply A|]. rewrite Eq. apply zeq_refl.
Qed.

(** ** All axes reversed *)
Definition reversed_pair (qi qo : nat) (sh : nat -> list Z) : Prop := sh qo = rev (sh qi).
Lemma half_ok (P : srel) s q q' : sinv s -> q < nrep s -> q' < nrep s -> (forall rho sh, allows s rho sh -> P sh -> sh q = rev (sh q')) ->
  match reverse_half q q' s with
  | (s', Ok b) => sound_for P s s' /\ (b = true <-> root (rp s q') = None) /\ (b = false -> s' = s) /\
      (b = true -> forall rho sh, allows s' rho sh -> root (rp s q) <> None \/ length (sh q) = length (sh q') -> sh q = rev (sh q'))
  | (_, Err e) => e = ValueError /\ excludes P s
  end.
Proof.
  intros I Hq Hq' H. unfold reverse_half. destruct (no_root (rp s q')) eqn:Nr.
  2: { split; [apply sound_for_refl; auto|]. split; [rewrite <- no_root_iff, Nr; tauto|]. split; [auto|discriminate]. }
  assert (Rt := proj1 (no_root_iff _) Nr). set (l := rev (pre (rp s q'))). assert (Sh' : forall rho sh, allows s rho sh -> map rho l = rev (sh q')). { intros rho sh A. rewrite (plain_sh s q' rho sh I Hq' Rt A). unfold l. apply map_rev. }
  assert (X := with_list_ok P s q l I Hq). lapply X; [clear X; intros X|intros u Hu; apply in_rev in Hu; eapply pre_live; eauto]. lapply X; [clear X; intros X|intros rho sh A Hp; rewrite (Sh' rho sh A); eapply H; eauto].
  revert X. unfold with_list, hbind at 1 2 3 4 5 6. assert (El : reversed (rp s q') = l) by (unfold reversed, l; rewrite Rt; auto). rewrite El. assert (E1 := update_rp (pre (rp s q)) l s). destruct (update_uniadics (pre (rp s q)) l s) as [s1 [[]|e]]; [|auto]. cbn [fst] in E1.
  assert (El2 : pre (rp s1 q') = rev l) by (rewrite E1; unfold l; rewrite rev_involutive; auto). rewrite El2. assert (E2 := update_rp (reversed (rp s1 q)) (rev l) s1). destruct (update_uniadics (reversed (rp s1 q)) (rev l) s1) as [s2 [[]|e]]; [|auto]. cbn [fst] in E2.
  rewrite E2, E1, El. destruct (no_root (rp s q)) eqn:Nq.
  - intros [X1 X2]. unfold hret. split; [auto|]. split; [tauto|]. split; [discriminate|]. intros _ rho sh A C. assert (A0 := proj2 (proj2 (proj2 (proj2 X1))) rho sh A). rewrite <- (Sh' rho sh A0). apply (X2 rho sh A). destruct C as [C|C]; [auto|right]. rewrite C, <- (map_length rho l), (Sh' rho sh A0), rev_length. auto.
  - unfold hbind. destruct (remove_variadic q l s2) as [s3 [[]|e]]; [|auto]. intros [X1 X2]. assert (N3 : nrep s3 = nrep s) by apply X1. assert (Rq : root (rp s q) <> None) by (intros C; apply no_root_iff in C; congruence).
    assert (K : forall rho sh, allows s3 rho sh -> length (sh q) = length l /\ length (sh q') = length l). { intros rho sh A. assert (A0 := proj2 (proj2 (proj2 (proj2 X1))) rho sh A). rewrite (X2 rho sh A (or_introl Rq)), map_length. split; [auto|]. rewrite <- rev_length, <- (Sh' rho sh A0), map_length. auto. }
    destruct (rank_plain (length l) s3 q (proj1 X1) ltac:(lia) (fun rho sh A => proj1 (K rho sh A))) as [_ ->]. destruct (rank_plain (length l) s3 q' (proj1 X1) ltac:(lia) (fun rho sh A => proj2 (K rho sh A))) as [_ ->]. rewrite Nat.eqb_refl. unfold hret.
    split; [auto|]. split; [tauto|]. split; [discriminate|]. intros _ rho sh A _. assert (A0 := proj2 (proj2 (proj2 (proj2 X1))) rho sh A). rewrite <- (Sh' rho sh A0). apply (X2 rho sh A). auto.
Qed.
Lemma rev_swap {A} (x y : list A) : x = rev y <-> y = rev x.
Proof. split; intros ->; rewrite rev_involutive; auto. Qed.
Lemma reverse_all_ok s qi qo : sinv s -> qi < nrep s -> qo < nrep s ->
  match reverse_all qi qo s with
  | (s', Ok r) => sound_for (reversed_pair qi qo) s s' /\ (r = true <-> root (rp s qi) = None \/ root (rp s qo) = None) /\
      (r = true -> forall rho sh, allows s' rho sh -> (root (rp s qi) <> None \/ root (rp s qo) <> None) \/ length (sh qo) = length (sh qi) -> sh qo = rev (sh qi))
  | (_, Err e) => e = ValueError /\ excludes (reversed_pair qi qo) s
  end.
Proof.
  intros I Hi Ho. set (P := reversed_pair qi qo). unfold reverse_all, hbind at 1. assert (X := half_ok P s qi qo I Hi Ho ltac:(intros rho sh _ Hp; apply rev_swap; exact Hp)). destruct (reverse_half qi qo s) as [s1 [a|e]]; [|auto]. destruct X as (X1 & X2 & X0 & X3).
  assert (I1 : sinv s1) by apply X1. assert (N1 : nrep s1 = nrep s) by apply X1. assert (Y := half_ok P s1 qo qi I1 ltac:(lia) ltac:(lia) ltac:(intros rho sh _ Hp; exact Hp)). unfold hbind. destruct (reverse_half qo qi s1) as [s2 [b|e]]; [|destruct Y as [-> Y]; split; [auto|eapply excludes_back; eauto]].
  destruct Y as (Y1 & Y2 & Y0 & Y3). unfold hret. assert (S12 := sound_for_trans _ _ _ _ X1 Y1). split; [auto|].
  assert (Keep : forall q, q < nrep s -> root (rp s q) = None -> root (rp s1 q) = None). { intros q Hq R. apply (rank_plain (length (pre (rp s q))) s1 q I1 ltac:(lia)). intros rho sh A. apply X1 in A. rewrite (plain_sh s q rho sh I Hq R A), map_length. auto. }
  assert (Both : a = true -> root (rp s1 qi) = None).
  { intros Ea. destruct (root (rp s qi)) as [v|] eqn:Ri in |- *; [|auto]. assert (Ro := proj1 X2 Ea). assert (Nn : root (rp s qi) <> None) by (rewrite Ri; discriminate). apply (rank_plain (length (pre (rp s qo))) s1 qi I1 ltac:(lia)). intros rho sh A. rewrite (X3 Ea rho sh A (or_introl Nn)). apply X1 in A. rewrite rev_length, (plain_sh s qo rho sh I Ho Ro A), map_length. auto. }
  assert (Eb : b = true <-> root (rp s qi) = None \/ root (rp s qo) = None).
  { rewrite Y2. split; [|intros [R|R]; [auto|apply Both, X2; auto]]. intros R. destruct a; [right; apply X2; auto|]. left. rewrite (X0 eq_refl) in R. auto. }
  split; [rewrite orb_true_iff, Eb, X2; tauto|]. intros Er rho sh A C. assert (A1 := proj2 (proj2 (proj2 (proj2 Y1))) rho sh A).
  assert (Et : b = true) by (apply orb_true_iff in Er as [Er|Er]; [apply Eb; right; apply X2; auto|auto]). destruct C as [[C|C]|C].
  - destruct a; [apply rev_swap; apply (X3 eq_refl rho sh A1); auto|]. apply Eb in Et as [R|R]; [contradiction|]. assert (false = true) by (apply X2; auto). discriminate.
  - destruct a; [exfalso; apply C, X2; auto|]. apply (Y3 Et rho sh A). left. rewrite (X0 eq_refl). auto.
  - apply (Y3 Et rho sh A). auto.
Qed.
