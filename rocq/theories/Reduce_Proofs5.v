(** * Reductions: one of the shapes has a known rank *)
From Coq Require Import List Arith Lia Bool ZArith Permutation Sorted.
From Verif Require Import PyBase Uniadic_Model Uniadic_Proofs Uniadic_Props Bcast_Proofs Shape_Model Shape_Proofs Shape_Proofs2 Shape_Proofs3 Shape_Props Reduce_Model Reduce_Spec Reduce_Proofs Reduce_Proofs2 Reduce_Proofs3 Reduce_Proofs4.
Import ListNotations.
Open Scope list_scope. Open Scope nat_scope. Open Scope shm_scope.

Lemma den_plain s rho tau q : sinv s -> q < nrep s -> root (rp s q) = None -> den s rho tau q = map rho (pre (rp s q)).
Proof. intros I Hq R. destruct (s_repr _ I q Hq) as (_ & W & _). unfold den, dshape. rewrite R, (W R). cbn. apply app_nil_r. Qed.
Lemma wf_plain s l : (forall u, In u l -> live (us s) u) -> wf_repr s (mkshape l None []).
Proof. intros H. split; [intros u Hu; cbn in Hu; rewrite app_nil_r in Hu; auto|]. split; [auto|discriminate]. Qed.
Lemma dshape_plain rho tau l : dshape rho tau (mkshape l None []) = map rho l.
Proof. unfold dshape. cbn. apply app_nil_r. Qed.

(** ** Forward *)
Definition drops (axes : list Z) (keep : bool) (x y : list Z) : Prop := y = without (map (normed (Z.of_nat (length x))) axes) keep 0 x.
Lemma forward_ok s qi qo axes keep : sinv s -> qi < nrep s -> qo < nrep s -> root (rp s qi) = None ->
  match forward qi qo axes keep s with
  | (s', Ok _) => soundly qi qo s s' (drops axes keep) /\ gives qi qo s' (drops axes keep)
  | (_, Err e) => e = ValueError /\ never qi qo s (drops axes keep)
  end.
Proof.
  intros I Hi Ho R. unfold forward, hbind. assert (Ws := s_repr _ I qi Hi). destruct (wf_live s _ Ws) as [W1 _]. set (P := pre (rp s qi)) in *.
  replace (map (fun a => if (0 <=? a)%Z then a else (Z.of_nat (length P) + a)%Z) axes) with (map (normed (Z.of_nat (length P))) axes).
  2: { apply map_ext. intros a. unfold normed. destruct (Z.leb_spec 0 a), (Z.ltb_spec a 0); lia. }
  destruct (keep_or_one_ok keep (map (normed (Z.of_nat (length P))) axes) P 0%Z s (s_inv _ I) W1) as (u1 & L & E & G & V & S & C). rewrite E.
  assert (B := born_us s u1 I G). assert (Wo : wf_repr (with_us s u1) (mkshape L None [])) by (apply wf_plain; auto).
  assert (IS := infer_step qi qo s (with_us s u1) qo (mkshape L None []) (drops axes keep) I B Ho Wo). assert (Mono : forall rho, sat u1 rho -> sat (us s) rho) by (intros rho Hs; apply S; auto). specialize (IS Mono).
  assert (St : step_ok qi qo s (with_us s u1) qo (mkshape L None []) (drops axes keep)).
  { intros rho tau Hs H. unfold drops in H. rewrite (den_plain s rho tau qi I Hi R) in H. fold P in H. rewrite map_length in H. destruct (C rho _ Hs H) as (rho' & A & Hs' & M). exists rho', tau. split; [auto|]. split; [auto|]. split; [auto|].
    rewrite dshape_plain. auto. }
  specialize (IS St). destruct (inner_match qo (mkshape L None []) (with_us s u1)) as [s' [[]|e]]; [|exact IS]. destruct IS as (Sd & _ & Y). split; [auto|].
  intros rho tau' Hs. destruct (Y eq_refl rho tau' Hs) as (tau & Hs1 & D & Cq). unfold Ceq in Cq. cbn [nrep with_us] in D. rewrite <- !D by auto. rewrite Cq, dshape_plain. unfold drops.
  assert (Ei : den (with_us s u1) rho tau qi = map rho P). { rewrite den_with_us. apply den_plain; auto. } rewrite Ei, map_length. apply S in Hs1. apply Hs1.
Qed.

(** ** Everything reduced *)
Lemma all_keep_ok s qi qo : sinv s -> qi < nrep s -> qo < nrep s ->
  let m := (do prefix <- new_dims (Some 1%Z) (length (pre (rp s qi)));
            do suffix <- new_dims (Some 1%Z) (length (suf (rp s qi)));
            do rt <- match root (rp s qi) with None => hret None | Some _ => do w <- new_variadic; hret (Some w) end;
            inner_match qo (mkshape prefix rt suffix)) in
  match m s with
  | (s', Ok _) => soundly qi qo s s' (reduces_all true) /\ (root (rp s qi) = None -> gives qi qo s' (reduces_all true))
  | (_, Err e) => e = ValueError /\ never qi qo s (reduces_all true)
  end.
Proof.
  intros I Hi Ho m. unfold m, hbind. assert (Ws := s_repr _ I qi Hi). set (P := pre (rp s qi)) in *. set (S := suf (rp s qi)) in *.
  destruct (new_dims_ok (Some 1%Z) (length P) s (s_inv _ I)) as (u1 & Lp & E1 & G1 & V1 & S1 & C1). rewrite E1.
  destruct (new_dims_ok (Some 1%Z) (length S) (with_us s u1) (proj1 G1)) as (u2 & Ls & E2 & G2 & V2 & S2 & C2). rewrite E2. cbn [us with_us] in *. change (with_us (with_us s u1) u2) with (with_us s u2).
  assert (G : grows (us s) u2) by (eapply grows_trans; eauto). assert (I2 := with_us_grow s u2 I G). assert (B2 := born_us s u2 I G).
  assert (Ones : forall n l, length l = n /\ Forall (fitsv (Some 1%Z)) l -> l = repeat 1%Z n). { intros n l [<- F]. induction F as [|y l H F IH]; cbn; auto. rewrite H, <- IH. auto. }
  assert (OnesB : forall n, length (repeat 1%Z n) = n /\ Forall (fitsv (Some 1%Z)) (repeat 1%Z n)). { intros n. rewrite repeat_length. split; auto. apply Forall_forall. intros y Hy. apply repeat_spec in Hy. auto. }
  assert (Mono : forall rho, sat u2 rho -> sat (us s) rho /\ map rho Lp = repeat 1%Z (length P) /\ map rho Ls = repeat 1%Z (length S)).
  { intros rho Hs. destruct (S2 rho Hs) as [Hs1 P2]. destruct (S1 rho Hs1) as [Hs0 P1]. auto. }
  assert (Cpl : forall rho, sat (us s) rho -> exists rho', agrees (us s) rho rho' /\ sat u2 rho' /\ map rho' Lp = repeat 1%Z (length P) /\ map rho' Ls = repeat 1%Z (length S)).
  { intros rho Hs. destruct (C1 rho _ Hs (OnesB (length P))) as (r1 & A1 & Hs1 & M1). destruct (C2 r1 _ Hs1 (OnesB (length S))) as (r2 & A2 & Hs2 & M2). exists r2. split; [intros x Hx; rewrite A2 by (apply G1; auto); auto|]. split; [auto|]. apply Mono; auto. }
  assert (MR : forall l : list Z, map (fun _ => 1%Z) l = repeat 1%Z (length l)). { induction l as [|y l IH]; cbn; auto. rewrite IH. auto. }
  destruct (root (rp s qi)) as [v|] eqn:R.
  - destruct (born_var (with_us s u2) I2) as (s3 & E3 & B3 & U3 & V3). rewrite E3. cbn [hret nvar us with_us] in *. set (o := mkshape Lp (Some (nvar s)) Ls). unfold hret. cbv beta iota. fold o.
    assert (B : born s s3) by (eapply born_trans; eauto).
    assert (Wo : wf_repr s3 o). { split; [|split; [discriminate|intros x Hx; injection Hx as <-; lia]]. cbn. intros x Hx. rewrite U3. apply in_app_iff in Hx as [Hx|Hx]; [apply G2; auto|auto]. }
    assert (IS := infer_step qi qo s s3 qo o (reduces_all true) I B Ho Wo ltac:(intros rho Hs; rewrite U3 in Hs; apply Mono; auto)).
    assert (St : step_ok qi qo s s3 qo o (reduces_all true)).
    { intros rho tau Hs H. destruct (Cpl rho Hs) as (rho' & A & Hs' & M1 & M2). exists rho', (upd tau (nvar s) (repeat 1%Z (length (tau v)))). split; [auto|]. split; [intros x Hx; apply upd_other; lia|]. split; [rewrite U3; auto|].
      unfold reduces_all in H. rewrite H. unfold dshape, o. cbn [pre root suf rval]. rewrite upd_same, M1, M2. unfold den, dshape. rewrite R. cbn [rval]. fold P S. rewrite !map_app, !MR, !map_length. auto. }
    specialize (IS St). destruct (inner_match qo o s3) as [s' [[]|e]]; [|exact IS]. split; [apply IS|discriminate].
  - set (o := mkshape Lp None Ls). unfold hret. cbv beta iota. fold o. assert (ES : S = []) by (apply Ws; auto). 
    assert (ELs : Ls = []). { rewrite ES in E2. cbn in E2. injection E2 as _ E2. auto. }
    assert (Wo : wf_repr (with_us s u2) o). { unfold o. rewrite ELs. apply wf_plain. intros x Hx. apply G2. auto. }
    assert (IS := infer_step qi qo s (with_us s u2) qo o (reduces_all true) I B2 Ho Wo ltac:(intros rho Hs; apply Mono; auto)).
    assert (St : step_ok qi qo s (with_us s u2) qo o (reduces_all true)).
    { intros rho tau Hs H. destruct (Cpl rho Hs) as (rho' & A & Hs' & M1 & M2). exists rho', tau. split; [auto|]. split; [auto|]. split; [auto|]. unfold reduces_all in H. rewrite H, (den_plain s rho tau qi I Hi R). fold P. rewrite MR, map_length.
      unfold o. rewrite ELs, dshape_plain. auto. }
    specialize (IS St). destruct (inner_match qo o (with_us s u2)) as [s' [[]|e]]; [|exact IS]. destruct IS as (Sd & _ & Y). split; [auto|]. intros _.
    intros rho tau' Hs. destruct (Y eq_refl rho tau' Hs) as (tau & Hs1 & D & Cq). unfold Ceq in Cq. cbn [nrep with_us] in D. rewrite <- !D by auto. rewrite Cq. unfold o. rewrite ELs, dshape_plain. unfold reduces_all.
    rewrite den_with_us, (den_plain s rho tau qi I Hi R). fold P. rewrite MR, map_length. apply Mono in Hs1. apply Hs1.
Qed.
Lemma all_drop_ok s qi qo : sinv s -> qi < nrep s -> qo < nrep s ->
  match inner_match qo (mkshape [] None []) s with
  | (s', Ok _) => soundly qi qo s s' (reduces_all false) /\ gives qi qo s' (reduces_all false)
  | (_, Err e) => e = ValueError /\ never qi qo s (reduces_all false)
  end.
Proof.
  intros I Hi Ho. assert (Wo : wf_repr s (mkshape [] None [])) by (apply wf_plain; intros u []).
  assert (IS := infer_step qi qo s s qo (mkshape [] None []) (reduces_all false) I (born_refl s I) Ho Wo ltac:(auto)).
  assert (St : step_ok qi qo s s qo (mkshape [] None []) (reduces_all false)). { intros rho tau Hs H. exists rho, tau. split; [intros x _; auto|]. split; [auto|]. split; [auto|]. rewrite H. reflexivity. }
  specialize (IS St). destruct (inner_match qo (mkshape [] None []) s) as [s' [[]|e]]; [|exact IS]. destruct IS as (Sd & _ & Y). split; [auto|].
  intros rho tau' Hs. destruct (Y eq_refl rho tau' Hs) as (tau & Hs1 & D & Cq). rewrite <- !D by auto. exact Cq.
Qed.

(** ** Backward: sorting *)
Lemma insert_perm z l : Permutation (z :: l) (insert_z z l).
Proof. induction l as [|y l IH]; cbn; auto. destruct (z <=? y)%Z; auto. rewrite perm_swap. auto. Qed.
Lemma sort_perm l : Permutation l (sort_z l).
Proof. induction l as [|z l IH]; cbn; auto. rewrite IH at 1. apply insert_perm. Qed.
Lemma insert_sorted z l : StronglySorted Z.le l -> StronglySorted Z.le (insert_z z l).
Proof.
  induction 1 as [|y l SS IH F]; cbn; [repeat constructor|]. destruct (Z.leb_spec z y).
  - constructor; [constructor; auto|]. constructor; auto. eapply Forall_impl; [|exact F]. cbn. intros a Ha. lia.
  - constructor; auto. apply (Permutation_Forall (insert_perm z l)). constructor; auto. lia.
Qed.
Lemma sort_sorted l : StronglySorted Z.le (sort_z l).
Proof. induction l as [|z l IH]; cbn; [constructor|]. apply insert_sorted. auto. Qed.
Lemma sorted_strict l : StronglySorted Z.le l -> NoDup l -> StronglySorted Z.lt l.
Proof.
  induction 1 as [|y l SS IH F]; intros ND; [constructor|]. inversion ND; subst. constructor; auto. rewrite Forall_forall in *. intros a Ha. specialize (F a Ha). assert (a <> y) by congruence. lia.
Qed.

(** Removing the smallest axis last *)
Lemma split_at (x : list Z) a : (0 <= a < Z.of_nat (length x))%Z -> exists h d t, x = h ++ d :: t /\ Z.of_nat (length h) = a.
Proof.
  intros H. destruct (nth_error x (Z.to_nat a)) as [d|] eqn:E; [|apply nth_error_None in E; lia]. apply nth_error_split in E as (h & t & E & L). exists h, d, t. split; [auto|lia].
Qed.
Lemma without_smallest a l h d t : Forall (Z.lt a) l -> Z.of_nat (length h) = a ->
  without (a :: l) false 0 (h ++ d :: t) = h ++ without l false (a + 1) t /\ without l false 0 (h ++ d :: t) = h ++ d :: without l false (a + 1) t.
Proof.
  intros F E. rewrite Forall_forall in F. rewrite !without_app. cbn [without Z.add]. rewrite E.
  assert (E1 : existsb (Z.eqb a) (a :: l) = true) by (apply existsb_In; left; auto). assert (E2 : existsb (Z.eqb a) l = false). { apply existsb_notIn. intros H. apply F in H. lia. } rewrite E1, E2. cbn [app].
  rewrite !without_none with (x := h). 2: { intros j Hj H. apply F in H. lia. } 2: { intros j Hj [H|H]; [lia|]. apply F in H. lia. }
  split; [|auto]. f_equal. apply without_ext. intros j Hj. cbn. split; [intros [H|H]; [lia|auto]|auto].
Qed.
Lemma insert_item_at (h t : list nat) u a : Z.of_nat (length h) = a -> insert_item (h ++ t) a u = h ++ u :: t.
Proof.
  intros E. unfold insert_item. destruct (Z.ltb_spec a 0); [lia|]. replace (Z.to_nat a) with (length h) by lia. rewrite firstn_app, Nat.sub_diag, firstn_all, app_nil_r. rewrite skipn_app, Nat.sub_diag, skipn_all. auto.
Qed.
(** Insertion of the reduced dimensions *)
Lemma back_drop_ok axes : StronglySorted Z.lt axes -> forall inp out s, inv (us s) -> (forall u, In u inp -> live (us s) u) -> (forall a, In a axes -> (0 <= a < Z.of_nat (length inp + length axes))%Z) ->
  exists u' inp', back_loop false axes inp out s = (with_us s u', Ok (inp', out)) /\ grows (us s) u' /\ (forall u, In u inp' -> live u' u) /\ length inp' = length inp + length axes /\
    (forall rho, sat u' rho -> sat (us s) rho /\ map rho inp = without axes false 0 (map rho inp')) /\
    (forall rho x, sat (us s) rho -> length x = length inp + length axes -> map rho inp = without axes false 0 x -> exists rho', agrees (us s) rho rho' /\ sat u' rho' /\ map rho' inp' = x).
Proof.
  induction 1 as [|a axes SS IH F]; intros inp out s I L R; cbn [back_loop].
  - exists (us s), inp. split; [destruct s; auto|]. split; [apply grows_refl; auto|]. split; [auto|]. split; [cbn; lia|].
    assert (W : forall i x, without [] false i x = x) by (intros i x; apply without_none; intros j _ []). split; [intros rho Hs; rewrite W; auto|].
    intros rho x Hs _ E. rewrite W in E. exists rho. split; [intros y _; auto|auto].
  - destruct (new_uniadic_ok (us s) None I) as (u1 & E1 & G1 & L1 & N1 & S1). set (u := nu (us s)) in *. unfold hbind, new_dim, lift. rewrite E1.
    assert (Ra := R a (or_introl eq_refl)). assert (La : (a <= Z.of_nat (length inp))%Z).
    { (* the other axes are larger *)
      assert (Cnt : (a + Z.of_nat (length axes) < Z.of_nat (length inp + length (a :: axes)))%Z).
      { clear - SS F R. assert (G : forall l b M, StronglySorted Z.lt l -> Forall (Z.lt b) l -> (b < M)%Z -> (forall c, In c l -> (c < M)%Z) -> (b + Z.of_nat (length l) < M)%Z).
        { clear. induction l as [|c l IH]; intros b M SS F Hb H; cbn [length]; [lia|]. inversion SS; subst. inversion F; subst. assert (X := IH c M H2 H3 (H c (or_introl eq_refl)) ltac:(intros d Hd; apply H; right; auto)). lia. }
        apply G; auto; [apply (R a); left; auto|]. intros c Hc. apply (R c). right; auto. }
      cbn [length] in Cnt. lia. }
    assert (exists h t, inp = h ++ t /\ Z.of_nat (length h) = a) as (h & t & Einp & Lh). { exists (firstn (Z.to_nat a) inp), (skipn (Z.to_nat a) inp). split; [symmetry; apply firstn_skipn|]. rewrite firstn_length. lia. }
    replace (insert_item inp a u) with (h ++ u :: t) by (rewrite Einp; symmetry; apply insert_item_at; auto).
    destruct (IH (h ++ u :: t) out (with_us s u1)) as (u2 & inp' & E2 & G2 & L2 & Len & S2 & C2).
    { apply G1. } { intros y Hy. cbn. apply in_app_iff in Hy as [Hy|[<-|Hy]]; [apply G1, L; rewrite Einp; apply in_app_iff; auto|auto|apply G1, L; rewrite Einp; apply in_app_iff; auto]. }
    { intros b Hb. assert (Rb := R b (or_intror Hb)). rewrite Einp in Rb. rewrite !app_length in *. cbn [length] in *. lia. }
    cbn [us with_us] in *. exists u2, inp'. split; [exact E2|]. split; [eapply grows_trans; eauto|]. split; [auto|]. assert (Len' : length inp' = length inp + length (a :: axes)). { rewrite Len, Einp, !app_length. cbn. lia. }
    split; [exact Len'|]. split.
    + intros rho Hs. destruct (S2 rho Hs) as [Hs1 E]. split; [apply S1; auto|]. destruct (split_at (map rho inp') a) as (h' & d & t' & Ex & Lh'). { rewrite map_length, Len'. exact Ra. }
      rewrite Ex in *. destruct (without_smallest a axes h' d t' F Lh') as [W1 W2]. rewrite W1. rewrite W2 in E. rewrite map_app in E. cbn [map] in E. apply app_split in E as [Ea Eb]; [|rewrite map_length; lia]. injection Eb as _ Eb. rewrite Einp, map_app, Ea, Eb. auto.
    + intros rho x Hs Lx Ex0. destruct (split_at x a) as (h' & d & t' & Ex & Lh'). { rewrite Lx. exact Ra. }
      subst x. destruct (without_smallest a axes h' d t' F Lh') as [W1 W2]. rewrite W1, Einp, map_app in Ex0. apply app_split in Ex0 as [Ea Eb]; [|rewrite map_length; lia].
      assert (Ag : agrees (us s) rho (upd rho u d)). { intros y Hy. apply upd_other. intros ->. contradiction. }
      assert (Lht : forall y, In y (h ++ t) -> live (us s) y) by (rewrite <- Einp; auto).
      destruct (C2 (upd rho u d) (h' ++ d :: t')) as (rho' & A2 & Hs2 & M2).
      * apply S1. split; [eapply sat_agrees; eauto|cbn; auto].
      * rewrite Lx, Einp, !app_length. cbn. lia.
      * rewrite W2, map_app. cbn [map]. rewrite upd_same. rewrite (map_agrees (us s) rho _ h Ag), (map_agrees (us s) rho _ t Ag), Ea, Eb; auto; intros y Hy; apply Lht, in_app_iff; auto.
      * exists rho'. split; [intros y Hy; rewrite A2 by (apply G1; auto); apply Ag; auto|auto].
Qed.

(** Replacement of the reduced dimensions *)
Lemma set_item_spec l i u : (0 <= i)%Z -> set_item l i u = if (i <? Z.of_nat (length l))%Z then Ok (firstn (Z.to_nat i) l ++ u :: skipn (S (Z.to_nat i)) l) else Err IndexError.
Proof. intros H. unfold set_item. destruct (Z.ltb_spec i 0); [lia|]. destruct (Z.leb_spec 0 i); [|lia]. auto. Qed.
Lemma nth_replace {A} (l : list A) i u d j : i < length l -> nth j (firstn i l ++ u :: skipn (S i) l) d = if j =? i then u else nth j l d.
Proof.
  intros H. assert (Lf : length (firstn i l) = i) by (rewrite firstn_length; lia). destruct (Nat.eqb_spec j i) as [->|Ne].
  - rewrite app_nth2 by lia. rewrite Lf, Nat.sub_diag. auto.
  - destruct (lt_dec j i) as [Lt|Ge].
    + rewrite app_nth1 by lia. rewrite <- (firstn_skipn i l) at 2. rewrite app_nth1 by lia. auto.
    + rewrite app_nth2 by lia. rewrite Lf. destruct (j - i) as [|k] eqn:E; [lia|]. cbn [nth]. rewrite <- (firstn_skipn (S i) l) at 2. rewrite app_nth2 by (rewrite firstn_length; lia). f_equal. rewrite firstn_length. lia.
Qed.
Lemma replace_length {A} (l : list A) i u : i < length l -> length (firstn i l ++ u :: skipn (S i) l) = length l.
Proof. intros H. rewrite app_length. cbn [length]. rewrite firstn_length, skipn_length. lia. Qed.
Lemma in_replace {A} (l : list A) i u x : In x (firstn i l ++ u :: skipn (S i) l) -> x = u \/ In x l.
Proof. intros H. apply in_app_iff in H as [H|[H|H]]; [apply in_firstn in H; auto|auto|apply in_skipn in H; auto]. Qed.
Lemma map_nth' (rho : nat -> Z) l j : j < length l -> nth j (map rho l) 0%Z = rho (nth j l 0).
Proof. intros H. rewrite (nth_indep _ 0%Z (rho 0)) by (rewrite map_length; auto). apply map_nth. Qed.
Lemma list_nth_ext (a b : list Z) : length a = length b -> (forall j, j < length a -> nth j a 0%Z = nth j b 0%Z) -> a = b.
Proof. intros L H. eapply nth_ext; eauto. Qed.
Lemma back_keep_ok axes : (forall a, In a axes -> (0 <= a)%Z) -> forall inp out s, inv (us s) -> (forall u, In u inp -> live (us s) u) -> (forall u, In u out -> live (us s) u) -> length out = length inp ->
  ((exists a, In a axes /\ (Z.of_nat (length inp) <= a)%Z) /\ snd (back_loop true axes inp out s) = Err IndexError) \/
  ((forall a, In a axes -> (a < Z.of_nat (length inp))%Z) /\
   exists u' inp' out', back_loop true axes inp out s = (with_us s u', Ok (inp', out')) /\ grows (us s) u' /\ (forall u, In u inp' -> live u' u) /\ (forall u, In u out' -> live u' u) /\
    length inp' = length inp /\ length out' = length inp /\
    (forall rho, sat u' rho -> sat (us s) rho /\ forall j, j < length inp ->
       (In (Z.of_nat j) axes -> nth j (map rho out') 0%Z = 1%Z) /\
       (~ In (Z.of_nat j) axes -> nth j (map rho out') 0%Z = nth j (map rho out) 0%Z /\ nth j (map rho inp') 0%Z = nth j (map rho inp) 0%Z)) /\
    (forall rho x, sat (us s) rho -> length x = length inp -> (forall j, j < length inp -> ~ In (Z.of_nat j) axes -> nth j x 0%Z = nth j (map rho inp) 0%Z) ->
       exists rho', agrees (us s) rho rho' /\ sat u' rho' /\ map rho' inp' = x)).
Proof.
  induction axes as [|a axes IH]; intros Pos inp out s I Li Lo Leq; cbn [back_loop].
  - right. split; [intros a []|]. exists (us s), inp, out. split; [destruct s; auto|]. split; [apply grows_refl; auto|]. split; [auto|]. split; [auto|]. split; [auto|]. split; [auto|]. split.
    + intros rho Hs. split; [auto|]. intros j Hj. split; [intros []|auto].
    + intros rho x Hs Lx H. exists rho. split; [intros y _; auto|]. split; [auto|]. apply list_nth_ext; [rewrite map_length; auto|]. rewrite map_length. intros j Hj. symmetry. apply H; auto.
  - assert (Pa := Pos a (or_introl eq_refl)). destruct (new_uniadic_ok (us s) None I) as (u1 & E1 & G1 & L1 & N1 & S1). set (u := nu (us s)) in *.
    match goal with |- context [hbind (new_dim None) ?f s] => set (M := hbind (new_dim None) f s); assert (EM : M = hbind (new_dim None) f s) by reflexivity; clearbody M end.
    unfold hbind at 1, new_dim at 1, lift at 1 in EM. rewrite E1 in EM.
    unfold hbind at 1 in EM. rewrite (set_item_spec inp a u Pa) in EM. destruct (Z.ltb_spec a (Z.of_nat (length inp))) as [Lt|Ge]; [|left; split; [exists a; split; [left; auto|auto]|rewrite EM; auto]].
    set (i := Z.to_nat a) in *. assert (Hi : i < length inp) by (unfold i; lia). set (inp1 := firstn i inp ++ u :: skipn (S i) inp).
    destruct (new_uniadic_ok u1 (Some 1%Z) (proj1 G1)) as (u2 & E2 & G2 & L2 & N2 & S2). set (one := nu u1) in *. unfold hbind at 1, new_dim at 1, lift at 1 in EM. cbn [us with_us] in EM. rewrite E2 in EM.
    unfold hbind at 1 in EM. rewrite (set_item_spec out a one Pa), Leq in EM. destruct (Z.ltb_spec a (Z.of_nat (length inp))) as [_|]; [|lia]. fold i in EM. set (out1 := firstn i out ++ one :: skipn (S i) out) in EM. change (with_us (with_us s u1) u2) with (with_us s u2) in EM. fold inp1 in EM. subst M.
    assert (G : grows (us s) u2) by (eapply grows_trans; eauto). assert (Len1 : length inp1 = length inp) by (apply replace_length; auto). assert (Len2 : length out1 = length inp) by (unfold out1; rewrite replace_length; lia).
    destruct (IH ltac:(intros b Hb; apply Pos; right; auto) inp1 out1 (with_us s u2)) as [[(b & Hb & Gb) E]|(Rg & u' & inp' & out' & E & G' & Li' & Lo' & Le1 & Le2 & S' & C')].
    { apply G. } { intros y Hy. apply in_replace in Hy as [->|Hy]; [apply G2; auto|apply G; auto]. } { intros y Hy. apply in_replace in Hy as [->|Hy]; [auto|apply G; auto]. } { congruence. }
    + left. split; [exists b; split; [right; auto|lia]|auto].
    + right. cbn [us with_us] in *. rewrite Len1 in *. split; [intros b [<-|Hb]; [auto|apply Rg; auto]|]. exists u', inp', out'. split; [exact E|]. split; [eapply grows_trans; eauto|]. split; [auto|]. split; [auto|]. split; [auto|]. split; [auto|].
      assert (Ai : Z.of_nat i = a) by (unfold i; lia). split.
      * intros rho Hs. destruct (S' rho Hs) as [Hs2 H]. apply S2 in Hs2 as [Hs1 F1]. apply S1 in Hs1 as [Hs0 _]. split; [auto|]. intros j Hj. destruct (H j Hj) as [H1 H2].
        assert (No : nth j (map rho out1) 0%Z = if j =? i then 1%Z else nth j (map rho out) 0%Z).
        { rewrite map_nth' by lia. unfold out1. rewrite nth_replace by lia. destruct (j =? i); [exact F1|rewrite map_nth' by lia; auto]. }
        split.
        -- intros Hin. destruct (in_dec Z.eq_dec (Z.of_nat j) axes) as [Hj'|Hj']; [auto|]. destruct Hin as [Hin|Hin]; [|contradiction]. rewrite (proj1 (H2 Hj')), No. assert (Ej : j = i) by lia. rewrite Ej, Nat.eqb_refl. auto.
        -- intros Hn. destruct H2 as [H2 H3]; [intros Hin; apply Hn; right; auto|]. rewrite H2, H3, No. assert (Ne : j <> i) by (intros ->; apply Hn; left; auto). destruct (Nat.eqb_spec j i); [contradiction|]. split; [auto|].
           rewrite !map_nth' by lia. unfold inp1. rewrite nth_replace by lia. destruct (Nat.eqb_spec j i); [contradiction|auto].
      * intros rho x Hs Lx Hx. set (r1 := upd (upd rho u (nth i x 0%Z)) one 1%Z). assert (Nuo : u <> one). { intros Eq. apply N2. rewrite <- Eq. auto. }
        assert (Nout : ~ live (us s) one). { intros H. apply N2, G1, H. }
        assert (Ag : agrees (us s) rho r1). { intros y Hy. unfold r1. rewrite upd_other by (intros ->; contradiction). apply upd_other. intros ->. contradiction. }
        assert (Hs2 : sat u2 r1). { apply S2. split; [|unfold r1; rewrite upd_same; cbn; auto]. apply S1. split; [eapply sat_agrees; eauto|cbn; auto]. }
        destruct (C' r1 x Hs2 ltac:(lia)) as (rho' & A' & Hs' & M').
        { intros j Hj Hn. rewrite map_nth' by lia. unfold inp1. rewrite nth_replace by lia. destruct (Nat.eqb_spec j i) as [->|Ne].
          - unfold r1. rewrite upd_other by auto. rewrite upd_same. auto.
          - rewrite Ag by (apply Li, nth_In; lia). rewrite <- map_nth' by lia. apply Hx; auto. intros [Hin|Hin]; [lia|contradiction]. }
        exists rho'. split; [intros y Hy; rewrite A' by (apply G; auto); apply Ag; auto|auto].
Qed.
