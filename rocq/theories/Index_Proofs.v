(** * Indexing: the rule *)
From Coq Require Import List Arith Lia Bool ZArith.
From Verif Require Import PyBase Uniadic_Model Uniadic_Proofs Uniadic_Props Bcast_Proofs Shape_Model Shape_Proofs Shape_Proofs2 Shape_Proofs3 Shape_Props Reduce_Model Reduce_Proofs Reduce_Proofs2
  Rule_Proofs Window_Proofs Arange_Model Arange_Proofs Reshape_Model Reshape_Proofs Concat_Model Concat_Proofs Index_Model Index_Spec Index_Pure Index_Arrange Index_Loop.
Import ListNotations.
Open Scope list_scope. Open Scope nat_scope. Open Scope shm_scope.

(** ** Steps on assignments of the variadics *)
Lemma t_match2 (R : trel) s q o : sinv s -> q < nrep s -> wf_repr s o -> (forall rho tau sh, tallows s rho tau sh -> R rho tau sh -> sh q = dshape rho tau o) ->
  match inner_match q o s with
  | (s', Ok _) => tsound R s s' /\ evolves (us s) (us s') /\ (~ crossing (rp s q) o -> forall rho sh, allows s' rho sh -> exists tau, tallows s rho tau sh /\ sh q = dshape rho tau o)
  | (_, Err e) => e = ValueError /\ texcludes R s
  end.
Proof.
  intros I Hq W H. assert (T := t_match R s q o I Hq W H). assert (O := inner_match_ok s q o I Hq W). unfold outcome in O. destruct (inner_match q o s) as [s' [[]|e]]; [|auto]. cbn [fst snd] in O. split; [auto|]. destruct O as ((X1 & X2 & X3 & X4) & K & Y). split; [auto|].
  intros Nc rho sh A. destruct Y as [Y|(C & _)]; [|contradiction]. apply allows_den in A as (Hs & t' & D). destruct (Y rho t' Hs) as (t & Hs1 & D1 & C). exists t. assert (D2 : forall x, x < nrep s -> den s rho t x = sh x) by (intros x Hx; rewrite D1 by auto; apply D; lia). split; [split; auto|]. rewrite <- D2 by auto. exact C.
Qed.
Lemma t_dims {A} (R : trel) (m : sm A) (C : (nat -> Z) -> Prop) s : sinv s -> imposes m C (us s) -> (forall rho tau sh, tallows s rho tau sh -> R rho tau sh -> C rho) ->
  match lift m s with
  | (s', Ok _) => tsound R s s' /\ rp s' = rp s /\ nvar s' = nvar s /\ evolves (us s) (us s') /\ forall rho, sat (us s') rho -> sat (us s) rho /\ C rho
  | (_, Err e) => e = ValueError /\ texcludes R s
  end.
Proof.
  intros I M H. assert (V := imposes_evolves m C (us s) (s_inv _ I) M). destruct M as (_ & _ & L & _ & M). unfold lift. destruct (m (us s)) as [u' [x|e]]; cbn [fst snd] in *.
  - assert (I' := with_us_sinv s u' I V). split; [|split; [auto|split; [auto|split; [auto|intros rho Hs; apply M; auto]]]]. split; [auto|]. split; [auto|]. split; [cbn; lia|]. split; [intros y Hy; apply L; auto|]. split.
    + intros rho tau sh A1 Hp. exists rho, tau. split; [intros y _; auto|]. split; [auto|]. assert (Cr := H rho tau sh A1 Hp). destruct A1 as [Hs D]. split; [apply M; auto|auto].
    + intros rho sh A1. apply allows_den in A1 as (Hs & tau & D). apply allows_den. split; [apply M in Hs; apply Hs|]. exists tau. auto.
  - destruct M as (-> & _ & M). split; [auto|]. intros rho tau sh A1 Hp. apply (M rho). split; [apply A1|eapply H; eauto].
Qed.
Lemma tsound_same R s : sinv s -> tsound R s s /\ rp s = rp s /\ nvar s = nvar s /\ evolves (us s) (us s) /\ True.
Proof. intros I. split; [apply tsound_refl; auto|]. do 2 (split; [auto|]). split; [apply evolves_refl; apply I|auto]. Qed.

(** ** Slices *)
Definition weak1 (rho : nat -> Z) (x : slc) : Prop := let '(o, i, (a, b, c)) := x in if full a b c then rho o = rho i else c <> Some 0%Z /\ rho o = slice_size a b c (rho i).
Lemma run_slices_ok (R : trel) l : forall s, sinv s -> Forall (slc_live (us s)) l -> tstable R s ->
  (forall rho tau sh, R rho tau sh -> holds rho l /\ Forall (fun '(_, _, (_, _, c)) => c <> Some 0%Z) l) ->
  match run_slices l s with
  | (s', Ok r) => tsound R s s' /\ rp s' = rp s /\ nvar s' = nvar s /\ evolves (us s) (us s') /\ (forall rho, sat (us s') rho -> sat (us s) rho) /\
      (r = true -> forall rho, sat (us s') rho -> Forall (weak1 rho) l) /\ (Forall (fun '(_, i, (a, b, c)) => full a b c = true \/ exists n, value (us s) i = Some n) l -> r = true)
  | (_, Err e) => e = ValueError /\ texcludes R s
  end.
Proof.
  induction l as [|[[o i] [[a b] c]] l IH]; intros s I Lv St H; cbn [run_slices].
  - destruct (tsound_same R s I) as (X1 & X2 & X3 & X4 & _). repeat (split; [auto|]). auto.
  - apply Forall_cons_iff in Lv as [[Lo Li] Lv]. unfold hbind at 1.
    assert (Hd : match run_slice o i a b c s with
      | (s', Ok r) => tsound R s s' /\ rp s' = rp s /\ nvar s' = nvar s /\ evolves (us s) (us s') /\ (forall rho, sat (us s') rho -> sat (us s) rho) /\ (r = true -> forall rho, sat (us s') rho -> weak1 rho (o, i, (a, b, c))) /\ (full a b c = true \/ (exists n, value (us s) i = Some n) -> r = true)
      | (_, Err e) => e = ValueError /\ texcludes R s end).
    { destruct (full a b c) eqn:Ef.
      - destruct a; [discriminate|]. destruct b; [discriminate|]. destruct c; [discriminate|]. cbn [run_slice]. destruct (uni_match_imposes (us s) o i (s_inv _ I) Lo Li) as [M _].
        assert (T := t_dims R (uni_match o i) _ s I M). lapply T; [clear T; intros T|]. 2: { intros rho tau sh _ Hr. destruct (H rho tau sh Hr) as [Hh _]. apply Forall_inv in Hh. cbn in Hh. apply Hh. auto. }
        unfold hbind, hret. destruct (lift (uni_match o i) s) as [s' [up|e]]; [|auto]. destruct T as (T1 & T2 & T3 & T4 & T5). do 4 (split; [auto|]). split; [intros rho Hs; apply T5; auto|]. split; [|auto]. intros _ rho Hs. cbn. apply T5. auto.
      - assert (Em : run_slice o i a b c s = match value (us s) i with None => (s, Ok false) | Some n => match slice_len a b c n with Err e => (s, Err e) | Ok m => (do _ <- set_dim o m; hret true) s end end).
        { destruct a, b, c; try discriminate; reflexivity. }
        rewrite Em. clear Em. destruct (value (us s) i) as [n|] eqn:Ev.
        + rewrite slice_len_ok. destruct (match c with Some k => (k =? 0)%Z | None => false end) eqn:Ec.
          * split; [auto|]. intros rho tau sh _ Hr. destruct (H rho tau sh Hr) as [_ Hc]. apply Forall_inv in Hc. destruct c as [k|]; [|discriminate]. apply Z.eqb_eq in Ec. subst. congruence.
          * set (m := slice_size a b c n). assert (M := update_imposes (us s) o (Some [m]) (s_inv _ I) Lo ltac:(cbn; constructor; [intros []|constructor])).
            assert (T := t_dims R (update_possible_values o (Some [m])) _ s I M). lapply T; [clear T; intros T|].
            2: { intros rho tau sh A Hr. destruct (H rho tau sh Hr) as [Hh _]. apply Forall_inv in Hh. cbn in Hh. cbn. left. symmetry. rewrite (proj1 Hh). unfold m. f_equal. eapply value_sat; eauto; [apply I|apply A]. }
            unfold set_dim, hbind, hret. destruct (lift (update_possible_values o (Some [m])) s) as [s' [up|e]]; [|auto]. destruct T as (T1 & T2 & T3 & T4 & T5). do 4 (split; [auto|]). split; [intros rho Hs; apply T5; auto|]. split; [|auto]. intros _ rho Hs. unfold weak1. rewrite Ef. split; [intros ->; discriminate|]. destruct (T5 rho Hs) as [Hs0 Hin]. cbn in Hin. destruct Hin as [Hin|[]]. rewrite <- Hin. unfold m. f_equal. symmetry. eapply value_sat; eauto. apply I.
        + destruct (tsound_same R s I) as (X1 & X2 & X3 & X4 & _). do 5 (split; [auto|]). split; [discriminate|]. intros [?|(n & ?)]; discriminate. }
    destruct (run_slice o i a b c s) as [s1 [r|e]]; [|auto].
    destruct Hd as (T1 & T2 & T3 & T4 & T5 & T6 & T7).
    assert (I1 : sinv s1) by apply T1. assert (Lv1 : Forall (slc_live (us s1)) l). { eapply Forall_impl; [|exact Lv]. intros [[o' i'] [[a' b'] c']] [L1 L2]. split; eapply evolves_live; eauto. }
    assert (St1 : tstable R s1). { intros rho rho' tau tau' sh A B. apply St; [intros x Hx; apply A; eapply evolves_live; eauto|intros x Hx; apply B; lia]. }
    assert (X := IH s1 I1 Lv1 St1). lapply X; [clear X; intros X|]. 2: { intros rho tau sh Hr. destruct (H rho tau sh Hr) as [H1 H2]. apply Forall_inv_tail in H1. apply Forall_inv_tail in H2. auto. }
    unfold hbind, hret. destruct (run_slices l s1) as [s2 [r'|e]].
    + destruct X as (X1 & X2 & X3 & X4 & X5 & X6 & X7). split; [eapply tsound_trans; eauto|]. split; [congruence|]. split; [congruence|]. split; [eapply evolves_trans; eauto|]. split; [auto|]. split.
      * intros Er rho Hs. apply andb_true_iff in Er as [-> ->]. constructor; [apply T6; auto|apply X6; auto].
      * intros F. apply Forall_cons_iff in F as [F1 F2]. rewrite T7, X7; auto. rewrite Forall_forall in *. intros [[o' i'] [[a' b'] c']] Hx. specialize (F2 _ Hx). specialize (Lv _ Hx). cbn in F2, Lv. destruct F2 as [F2|(n & F2)]; [auto|]. right. exists n. eapply evolves_value; eauto. apply Lv.
    + destruct X as [-> X]. split; [auto|]. eapply texcludes_back; eauto.
Qed.

(** ** Lists *)
Lemma set_ends (rho : nat -> Z) (P op os : list nat) A M C : map rho P = A ++ M ++ C -> map rho (set_back (length C) os (set_front (length A) op P)) = map rho op ++ M ++ map rho os.
Proof.
  intros E. unfold set_back, set_front. assert (Sk : map rho (skipn (length A) P) = M ++ C) by (rewrite <- skipn_map, E, skipn_app, skipn_all, Nat.sub_diag; auto).
  rewrite map_app, <- firstn_map, map_app, Sk. assert (Ls : length (skipn (length A) P) = length M + length C) by (rewrite <- (map_length rho), Sk, app_length; auto). rewrite app_length, Ls.
  rewrite app_assoc, firstn_app, firstn_all2 by (rewrite app_length, map_length; lia). replace (length op + (length M + length C) - length C - length (map rho op ++ M)) with 0 by (rewrite app_length, map_length; lia). cbn [firstn]. rewrite app_nil_r, <- app_assoc. auto.
Qed.
Lemma set_front_root (rho : nat -> Z) (P op : list nat) A X T : map rho P ++ X = A ++ T -> length A <= length P -> exists Y, map rho (set_front (length A) op P) = map rho op ++ Y /\ T = Y ++ X /\ Y = map rho (skipn (length A) P).
Proof.
  intros E L. exists (map rho (skipn (length A) P)). unfold set_front. rewrite map_app. split; [auto|]. split; [|auto]. rewrite <- skipn_map. assert (Ea : A = firstn (length A) (map rho P)). { assert (F := f_equal (firstn (length A)) E). rewrite firstn_app, firstn_app, firstn_all, Nat.sub_diag in F. replace (length A - length (map rho P)) with 0 in F by (rewrite map_length; lia). cbn in F. rewrite !app_nil_r in F. auto. }
  rewrite <- (firstn_skipn (length A) (map rho P)) in E. rewrite <- Ea, <- app_assoc in E. apply app_inv_head in E. auto.
Qed.
Lemma set_back_root (rho : nat -> Z) (P os : list nat) C X T : X ++ map rho P = T ++ C -> length C <= length P -> exists Y, map rho (set_back (length C) os P) = Y ++ map rho os /\ T = X ++ Y.
Proof.
  intros E L. exists (map rho (firstn (length P - length C) P)). unfold set_back. rewrite map_app. split; [auto|]. rewrite <- firstn_map. set (Q := map rho P) in *. assert (LQ : length P = length Q) by (unfold Q; rewrite map_length; auto). rewrite LQ in *.
  rewrite <- (firstn_skipn (length Q - length C) Q) in E at 1. assert (Lk : length (skipn (length Q - length C) Q) = length C) by (rewrite skipn_length; lia).
  rewrite app_assoc in E. assert (Z : forall (u v x y : list Z), length x = length y -> u ++ x = v ++ y -> u = v). { clear. intros u v x y Lx E. assert (Lu : length u = length v) by (apply (f_equal (@length Z)) in E; rewrite !app_length in E; lia). revert v Lu E. induction u as [|a u IH]; intros [|b v] Lu E; try discriminate; [auto|]. cbn in E. injection E as -> E. f_equal. apply IH; auto. }
  symmetry. eapply Z; [|exact E]. auto.
Qed.
