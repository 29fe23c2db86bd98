(** * Reductions of shapes with variadic parts *)
From Coq Require Import List Arith Lia Bool ZArith.
From Verif Require Import PyBase Uniadic_Model Uniadic_Proofs Uniadic_Props Bcast_Proofs Shape_Model Shape_Proofs Shape_Proofs2 Shape_Proofs3 Shape_Props Reduce_Model Reduce_Spec Reduce_Proofs Reduce_Proofs2.
Import ListNotations.
Open Scope list_scope. Open Scope nat_scope. Open Scope shm_scope.

Lemma app_split {A} (a b c d : list A) : a ++ b = c ++ d -> length a = length c -> a = c /\ b = d.
Proof. revert c. induction a as [|x a IH]; intros [|y c] E L; cbn in *; try lia; auto. injection E as -> E. destruct (IH c E) as [-> ->]; auto. Qed.

(** ** The minimal rank of the input *)
Lemma infer_rank_ok s qi qo axes v (Rel : list Z -> list Z -> Prop) : sinv s -> qi < nrep s -> qo < nrep s -> root (rp s qi) = Some v ->
  (forall x y, Rel x y -> axes_ok axes (Z.of_nat (length x))) ->
  match infer_rank qi axes s with
  | (s', Ok _) => soundly qi qo s s' Rel /\ (rank_needed axes <= zlen (rp s' qi))%Z /\ (exists x, root (rp s' qi) = Some x) /\
      (root (rp s qo) <> root (rp s qi) -> root (rp s' qo) = root (rp s qo) /\ root (rp s' qo) <> root (rp s' qi)) /\
      (root (rp s qo) = root (rp s qi) -> root (rp s' qo) <> None)
  | (_, Err e) => e = ValueError /\ never qi qo s Rel
  end.
Proof.
  intros I Hi Ho Rv HR. unfold infer_rank. fold (pos_of axes) (neg_of axes). change (zmax (-1) (pos_of axes) + 1)%Z with (max_pos axes). change (Z.abs (zmin 0 (neg_of axes))) with (max_neg axes). fold (rank_needed axes).
  assert (Ws := s_repr _ I qi Hi). destruct (wf_live s _ Ws) as [W1 W2].
  set (n := Z.to_nat (rank_needed axes - zlen (rp s qi))). unfold hbind at 1.
  destruct (extend_ok n (max_pos axes) (pre (rp s qi)) (rev (suf (rp s qi))) s (s_inv _ I)) as (u' & Np & Ns & E & G & ND & Fr & Len & Sat). rewrite E. unfold hbind.
  assert (I1 := with_us_grow s u' I G). destruct (born_var (with_us s u') I1) as (s2 & E2 & B2 & U2 & V2). rewrite E2. cbn [nvar with_us] in *.
  assert (B : born s s2). { eapply born_trans; [|exact B2]. apply born_us; auto. }
  rewrite rev_app_distr, rev_involutive.
  set (o := mkshape (pre (rp s qi) ++ Np) (Some (nvar s)) (rev Ns ++ suf (rp s qi))).
  assert (Wo : wf_repr s2 o).
  { split; [|split; [discriminate|intros x Hx; injection Hx as <-; lia]]. cbn. intros u Hu. rewrite U2. cbn. rewrite !in_app_iff, <- in_rev in Hu. destruct Hu as [[Hu|Hu]|[Hu|Hu]]; [apply G; auto|apply Fr, in_app_iff; auto|apply Fr, in_app_iff; auto|apply G; auto]. }
  assert (Lv : v < nvar s) by (apply Ws; auto).
  assert (St := infer_step qi qo s s2 qi o Rel I B Hi Wo). assert (Mono : forall rho, sat (us s2) rho -> sat (us s) rho). { intros rho Hs. rewrite U2 in Hs. apply Sat. auto. } specialize (St Mono).
  assert (Ok : step_ok qi qo s s2 qi o Rel).
  { intros rho tau Hs R. apply HR in R. set (x := den s rho tau qi) in *. assert (Rk := rank_needed_le axes _ R ltac:(lia)).
    assert (Ex : x = map rho (pre (rp s qi)) ++ tau v ++ map rho (suf (rp s qi))) by (unfold x, den, dshape; rewrite Rv; auto).
    assert (Lx : n <= length (tau v)). { assert (L := f_equal (@length Z) Ex). rewrite !app_length, !map_length in L. unfold n, zlen, shlen. lia. }
    set (X := tau v) in *. set (A := firstn (length Np) X). set (C := skipn (length X - length Ns) X). set (M := firstn (length X - length Np - length Ns) (skipn (length Np) X)).
    assert (EX : X = A ++ M ++ C). { unfold A, M, C. rewrite <- (firstn_skipn (length Np) X) at 1. f_equal. rewrite <- (firstn_skipn (length X - length Np - length Ns) (skipn (length Np) X)) at 1. f_equal. rewrite skipn_skipn'. f_equal. lia. }
    assert (LA : length A = length Np) by (unfold A; rewrite firstn_length; lia). assert (LC : length C = length Ns) by (unfold C; rewrite skipn_length; lia).
    destruct (assign rho (Np ++ Ns) (A ++ rev C) ND) as (rho' & Mp & O); [rewrite !app_length, rev_length; lia|].
    assert (Ag : agrees (us s) rho rho'). { intros y Hy. apply O. intros H. apply (proj2 (Fr y H)). auto. }
    rewrite map_app in Mp. apply app_split in Mp as [M1 Mp]; [|rewrite map_length; lia]. exists rho', (upd tau (nvar s) M). split; [auto|]. split; [intros y Hy; apply upd_other; lia|].
    split; [rewrite U2; apply Sat; eapply sat_agrees; eauto|]. rewrite Ex. unfold dshape, o. cbn [pre root suf rval]. rewrite upd_same, !map_app, map_rev, Mp, rev_involutive, M1.
    rewrite (map_agrees (us s) rho rho' _ Ag W1), (map_agrees (us s) rho rho' _ Ag W2). fold X. rewrite EX at 1. rewrite <- !app_assoc. auto. }
  specialize (St Ok). assert (Rs2 : rp s2 = rp s) by apply B. assert (Nr2 : nrep s2 = nrep s) by apply B.
  assert (Lg := match_longer s2 qi v (pre (rp s qi) ++ Np) (nvar s) (rev Ns ++ suf (rp s qi))). rewrite Rs2, Nr2 in Lg. specialize (Lg (proj1 B) Hi Rv Wo ltac:(lia)).
  specialize (Lg ltac:(rewrite app_length; lia) ltac:(rewrite app_length; lia)). fold o in Lg.
  destruct (inner_match qi o s2) as [s' [[]|e]]; [|exact St]. destruct Lg as (L1 & L2 & (x & Rx & Kx) & Oth & Oth2). split; [apply St|]. split.
  - unfold zlen, shlen. rewrite L1, L2, !app_length, rev_length. unfold n, zlen, shlen in Len. lia.
  - split; [exists x; auto|]. split; [|intros Eq; apply Oth2; congruence]. intros Ne. assert (No : root (rp s qo) <> Some (nvar s)). { intros H. assert (Wq := s_repr _ I qo Ho). destruct Wq as (_ & _ & W3). apply W3 in H. lia. }
    rewrite Oth; auto; [|congruence]. split; [auto|]. rewrite Rx. destruct Kx as [->| ->]; congruence.
Qed.

(** ** The two sides of the output *)
Lemma sidespec_free axes limit xs : forall idx ys, (limit <= idx)%Z -> length ys = length (without axes false idx xs) -> sidespec false axes limit idx xs ys.
Proof.
  induction xs as [|x xs IH]; intros idx ys L Len; cbn [sidespec without] in *; [destruct ys; [auto|discriminate]|].
  assert (Em : mem idx axes = existsb (Z.eqb idx) axes). { apply eq_true_iff_eq. rewrite mem_In, existsb_In. tauto. } rewrite Em. destruct (existsb (Z.eqb idx) axes); [apply IH; [lia|auto]|].
  destruct ys as [|z y]; [discriminate|]. exists z, y. split; [auto|]. split; [lia|]. apply IH; [lia|]. cbn in Len. lia.
Qed.
Lemma sidespec_length keep axes limit xs : forall idx ys, sidespec keep axes limit idx xs ys -> length ys = length (without axes keep idx xs).
Proof.
  induction xs as [|x xs IH]; intros idx ys H; cbn [sidespec without] in *; [subst; auto|].
  assert (Em : mem idx axes = existsb (Z.eqb idx) axes). { apply eq_true_iff_eq. rewrite mem_In, existsb_In. tauto. } rewrite Em in H. rewrite app_length. destruct (existsb (Z.eqb idx) axes); [destruct keep|].
  - destruct H as (y & -> & H). apply IH in H. cbn. lia.
  - apply IH in H. cbn. lia.
  - destruct H as (z & y & -> & _ & H). apply IH in H. cbn. lia.
Qed.
(** Outputs of the reduction agree with the side as far as it goes. *)
Lemma side_sound keep axes limit red rest : (forall a, In a axes -> In a red) -> (forall a, In a red -> (a < limit)%Z -> In a axes) ->
  forall xs idx n, n <= length (without red keep idx (xs ++ rest)) ->
  exists ys, sidespec keep axes limit idx xs ys /\ (n <= length ys -> firstn n ys = firstn n (without red keep idx (xs ++ rest))).
Proof.
  intros H1 H2. induction xs as [|x xs IH]; intros idx n Hn.
  { exists []. split; [reflexivity|]. intros L. replace n with 0 by (cbn in L; lia). auto. }
  cbn [sidespec without app] in *. assert (Em : mem idx axes = existsb (Z.eqb idx) axes). { apply eq_true_iff_eq. rewrite mem_In, existsb_In. tauto. } rewrite Em.
  assert (Cut : forall h y ys m, S m <= length (h :: y) -> (m <= length ys -> firstn m ys = firstn m y) -> (S m <= length (h :: ys : list Z) -> firstn (S m) (h :: ys) = firstn (S m) (h :: y : list Z))).
  { intros h y ys m L F Lm. cbn. f_equal. apply F. cbn in Lm. lia. }
  destruct (existsb (Z.eqb idx) axes) eqn:E.
  - assert (Er : existsb (Z.eqb idx) red = true) by (apply existsb_In; apply H1; apply existsb_In; auto). rewrite Er in *. destruct keep; cbn [app] in *.
    + destruct n as [|n]; [destruct (IH (idx + 1)%Z 0) as (ys & S1 & _); [lia|]; exists (1%Z :: ys); split; [exists ys; auto|auto]|].
      destruct (IH (idx + 1)%Z n) as (ys & S1 & F); [cbn in Hn; lia|]. exists (1%Z :: ys). split; [exists ys; auto|]. apply Cut; auto.
    + destruct (IH (idx + 1)%Z n Hn) as (ys & S1 & F). exists ys. auto.
  - destruct (Z.ltb_spec idx limit) as [Lt|Ge].
    + assert (Er : existsb (Z.eqb idx) red = false). { apply existsb_notIn. intros H. apply H2 in H; auto. apply existsb_In in H. congruence. } rewrite Er in *. cbn [app] in *.
      destruct n as [|n]; [destruct (IH (idx + 1)%Z 0) as (ys & S1 & _); [lia|]; exists (x :: ys); split; [exists x, ys; auto|auto]|].
      destruct (IH (idx + 1)%Z n) as (ys & S1 & F); [cbn in Hn; lia|]. exists (x :: ys). split; [exists x, ys; auto|]. apply Cut; auto.
    + destruct keep.
      * set (h := if existsb (Z.eqb idx) red then 1%Z else x). assert (Eh : (if existsb (Z.eqb idx) red then [1%Z] else [x]) = [h]) by (unfold h; destruct (existsb (Z.eqb idx) red); auto). rewrite Eh in *. cbn [app] in *.
        destruct n as [|n]; [destruct (IH (idx + 1)%Z 0) as (ys & S1 & _); [lia|]; exists (h :: ys); split; [exists h, ys; split; [auto|]; split; [lia|auto]|auto]|].
        destruct (IH (idx + 1)%Z n) as (ys & S1 & F); [cbn in Hn; lia|]. exists (h :: ys). split; [exists h, ys; split; [auto|]; split; [lia|auto]|]. apply Cut; auto.
      * set (Y := _ ++ without red false (idx + 1) (xs ++ rest)) in *. set (c := length (without axes false (idx + 1) xs)).
        assert (F : forall ys, length ys = S c -> exists z y, ys = z :: y /\ ((idx < limit)%Z -> z = x) /\ sidespec false axes limit (idx + 1) xs y).
        { intros ys L. destruct ys as [|z y]; [discriminate|]. exists z, y. split; [auto|]. split; [lia|]. apply sidespec_free; [lia|]. cbn in L. unfold c in L. lia. }
        destruct (le_gt_dec n (S c)) as [Le|Gt].
        -- exists (firstn n Y ++ repeat 0%Z (S c - n)). assert (Lf : length (firstn n Y) = n) by (rewrite firstn_length; lia). split; [apply F; rewrite app_length, Lf, repeat_length; lia|].
           intros _. rewrite firstn_app, Lf, Nat.sub_diag, app_nil_r. rewrite firstn_all2 by lia. auto.
        -- exists (repeat 0%Z (S c)). split; [apply F; rewrite repeat_length; auto|]. rewrite repeat_length. lia.
Qed.
(** If everything is below the limit, the side is determined. *)
Lemma sidespec_exact keep axes limit xs : forall idx, (idx + Z.of_nat (length xs) <= limit)%Z -> forall ys, sidespec keep axes limit idx xs ys <-> ys = without axes keep idx xs.
Proof.
  induction xs as [|x xs IH]; intros idx L ys; cbn [sidespec without]; [tauto|].
  assert (Em : mem idx axes = existsb (Z.eqb idx) axes). { apply eq_true_iff_eq. rewrite mem_In, existsb_In. tauto. } rewrite Em. cbn [length] in L. assert (IH' := IH (idx + 1)%Z ltac:(lia)).
  destruct (existsb (Z.eqb idx) axes); [destruct keep|].
  - split; [intros (y & -> & H); apply IH' in H as ->; auto|intros ->; eexists; split; [reflexivity|apply IH'; auto]].
  - apply IH'.
  - split; [intros (z & y & -> & Hz & H); apply IH' in H as ->; rewrite Hz by lia; auto|]. intros ->. eexists. eexists. split; [reflexivity|]. split; [auto|]. apply IH'. auto.
Qed.

(** ** Axes that may lie in the variadic part *)
Definition uncertain (np ns : Z) (a : Z) : bool := ((np <=? a) || (a <? - ns))%Z.
Lemma removelast_firstn' {A} (l : list A) : removelast l = firstn (length l - 1) l.
Proof.
  induction l as [|x l IH]; auto. cbn [removelast length]. replace (S (length l) - 1) with (length l) by lia. destruct l as [|y l]; auto. rewrite IH. cbn [length firstn]. replace (S (length l) - 1) with (length l) by lia. auto.
Qed.
Lemma drop_uncertain_ok keep np ns axes : forall P rt S s, sinv s -> let u := length (filter (uncertain np ns) axes) in
  (keep = true \/ u <= length P + length S) ->
  exists s' rt', drop_uncertain keep axes np ns P rt S s = (s', Ok (if keep then P else firstn (length P - u) P, rt', if keep then S else firstn (length S - (u - length P)) S)) /\ born s s' /\ us s' = us s /\
    (u = 0 -> rt' = rt /\ s' = s) /\ (0 < u -> exists w, rt' = Some w /\ nvar s <= w /\ w < nvar s').
Proof.
  induction axes as [|a axes IH]; intros P rt S s I u Hu; cbn [drop_uncertain].
  - exists s, rt. unfold u. cbn [filter length]. rewrite !Nat.sub_0_r, !firstn_all. split; [destruct keep; auto|]. split; [apply born_refl; auto|]. split; [auto|]. split; [auto|lia].
  - cbn [filter] in u. fold (uncertain np ns a). destruct (uncertain np ns a) eqn:E.
    + cbn [length] in u. set (u' := length (filter (uncertain np ns) axes)) in *. destruct (born_var s I) as (s1 & E1 & B1 & U1 & V1). unfold hbind. rewrite E1.
      assert (K : forall P' S', (keep = true \/ u' <= length P' + length S') -> exists s' rt', drop_uncertain keep axes np ns P' (Some (nvar s)) S' s1 = (s', Ok (if keep then P' else firstn (length P' - u') P', rt', if keep then S' else firstn (length S' - (u' - length P')) S')) /\ born s s' /\ us s' = us s /\ (u = 0 -> rt' = rt /\ s' = s) /\ (0 < u -> exists w, rt' = Some w /\ nvar s <= w /\ w < nvar s')).
      { intros P' S' H. destruct (IH P' (Some (nvar s)) S' s1 (proj1 B1) H) as (s' & rt' & E' & B' & U' & Z1 & Z2). exists s', rt'. split; [exact E'|]. split; [eapply born_trans; eauto|]. split; [congruence|]. split; [unfold u; lia|]. intros _.
        fold u' in Z1, Z2. destruct (Nat.eq_dec u' 0) as [Z|Z]; [destruct (Z1 Z) as [-> ->]; exists (nvar s); split; [auto|lia]|]. destruct (Z2 ltac:(lia)) as (w & -> & L1 & L2). exists w. split; [auto|]. lia. }
      destruct keep; [apply K; auto|]. destruct Hu as [Hu|Hu]; [discriminate|]. unfold u in *. destruct P as [|p P].
      * destruct S as [|x S]; [cbn in Hu; lia|]. destruct (K [] (removelast (x :: S))) as (s' & rt' & E' & R). { right. rewrite removelast_firstn', firstn_length. cbn [length] in *. lia. }
        exists s', rt'. rewrite E'. split; [|auto]. replace (firstn (length (removelast (x :: S)) - (u' - length (@nil nat))) (removelast (x :: S))) with (firstn (length (x :: S) - (Datatypes.S u' - length (@nil nat))) (x :: S)); [reflexivity|].
        rewrite removelast_firstn', firstn_firstn, firstn_length. f_equal. cbn [length]. lia.
      * destruct (K (removelast (p :: P)) S) as (s' & rt' & E' & R). { right. rewrite removelast_firstn', firstn_length. cbn [length] in *. lia. }
        exists s', rt'. rewrite E'. split; [|auto]. rewrite removelast_firstn', firstn_firstn, firstn_length. replace (Nat.min _ (length (p :: P) - 1)) with (length (p :: P) - Datatypes.S u') by (cbn [length]; lia).
        replace (length S - (u' - _)) with (length S - (Datatypes.S u' - length (p :: P))) by (cbn [length]; lia). reflexivity.
    + apply IH; auto.
Qed.
