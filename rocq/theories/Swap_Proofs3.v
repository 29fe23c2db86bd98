(** * swap_axes with unknown ranks and axes counted from different ends: proofs *)
From Coq Require Import List Arith Lia Bool ZArith.
From Verif Require Import PyBase Uniadic_Model Uniadic_Proofs Uniadic_Props Bcast_Proofs Shape_Model Shape_Proofs Shape_Proofs2 Shape_Proofs3 Shape_Props Reduce_Model Reduce_Proofs Reduce_Proofs2
  Rule_Proofs Window_Proofs Arange_Model Arange_Proofs Reshape_Model Reshape_Proofs Concat_Model Concat_Proofs Flat_Model Flat_Proofs Flat_Proofs2 Pad_Proofs Swap_Model Swap_Spec Swap_Proofs Swap_Proofs2.
Import ListNotations.
Open Scope list_scope. Open Scope nat_scope. Open Scope shm_scope.

Definition different_ends (a b : Z) : Prop := (a < 0 /\ 0 <= b)%Z \/ (0 <= a /\ b < 0)%Z.
Lemma required_mixed a b p q : different_ends a b -> required a b = (p, q) -> (Z.of_nat (p + q) <= Z.max (Z.max a b + 1) (- Z.min a b))%Z.
Proof.
  intros D. unfold required. destruct D as [[H1 H2]|[H1 H2]]; destruct (Z.ltb_spec 0 a), (Z.ltb_spec a 0), (Z.leb_spec 0 b), (Z.ltb_spec b 0); try lia; cbn [andb];
    repeat match goal with |- context [(?x <? ?y)%Z] => destruct (Z.ltb_spec x y) end; intros E; injection E as <- <-; lia.
Qed.
(** What comes before both axes stays. *)
Lemma swaps_front a b x y n : swaps a b x y -> different_ends a b -> (Z.of_nat n <= Z.min (Z.max a b) (Z.of_nat (length x) + Z.min a b))%Z -> firstn n y = firstn n x.
Proof.
  intros (L & i & j & (Hi & Ha) & (Hj & Hb) & _ & _ & E) D H. assert (Eq : forall k, k < n -> nth_error y k = nth_error x k) by (intros k Hk; apply E; unfold different_ends in D; lia). clear - Eq L. revert y L Eq. revert n. induction x as [|u x IH]; intros n [|v y] L Eq; try discriminate; [auto|].
  destruct n as [|n]; [auto|]. cbn [firstn]. f_equal; [specialize (Eq 0 ltac:(lia)); cbn in Eq; congruence|]. apply IH; [cbn in L; lia|]. intros k Hk. apply (Eq (S k)). lia.
Qed.
Lemma mixed_ok s qi qo a b : sinv s -> qi < nrep s -> qo < nrep s -> root (rp s qi) <> None -> different_ends a b ->
  match swap_unknown qi qo a b s with
  | (s', Ok r) => r = false /\ sound_for (fun sh => swaps a b (sh qi) (sh qo)) s s'
  | (_, Err e) => e = ValueError /\ excludes (fun sh => swaps a b (sh qi) (sh qo)) s
  end.
Proof.
  intros I Hi Ho Ri Dg. unfold swap_unknown. destruct (required a b) as [p q] eqn:Er. set (r := rp s qi) in *. assert (Rm := required_mixed a b p q Dg Er). clear Er.
  destruct (extended_ok p (pre r) s I) as (s1 & f & E1 & F1 & L1 & V1). assert (I1 : sinv s1) by apply F1. destruct (extended_back_ok q (suf r) s1 I1) as (s2 & g & E2 & F2 & L2 & V2). assert (I2 : sinv s2) by apply F2.
  destruct (fresh_var s2 I2) as (s3 & E3 & F3 & V3). assert (F := fresh_nil _ _ _ _ (fresh_trans _ _ _ _ _ F1 F2) F3).
  unfold hbind at 1. rewrite E1. unfold hbind at 1. rewrite E2. unfold hbind at 1. rewrite E3. set (prefix := firstn p (pre r) ++ f) in *. set (suffix := g ++ skipn (length (suf r) - q) (suf r)) in *. set (w := nvar s2) in *.
  assert (Sg : ((a <? 0) && (b <? 0) || (0 <=? a) && (0 <=? b))%Z = false) by (destruct Dg; destruct (Z.ltb_spec a 0), (Z.ltb_spec b 0), (Z.leb_spec 0 a), (Z.leb_spec 0 b); cbn; lia). rewrite Sg. clear Sg.
  assert (Lp : length prefix = p) by (unfold prefix; rewrite app_length, firstn_length, L1; lia). assert (Lq : length suffix = q) by (unfold suffix; rewrite app_length, skipn_length, L2; lia).
  assert (Gr : grows (us s) (us s3)) by apply F. assert (Lr : forall u, In u (pre r ++ suf r) -> live (us s) u) by (destruct (s_repr _ I qi Hi) as (W & _); exact W).
  assert (Live : forall u, In u (prefix ++ suffix) -> live (us s3) u).
  { intros u Hu. unfold prefix, suffix in Hu. rewrite !in_app_iff in Hu. destruct Hu as [[Hu|Hu]|[Hu|Hu]].
    - apply Gr, Lr, in_app_iff. left. eapply in_firstn; eauto.
    - apply F, in_app_iff. auto.
    - apply F, in_app_iff. auto.
    - apply Gr, Lr, in_app_iff. right. eapply in_skipn; eauto. }
  set (P := fun sh : nat -> list Z => swaps a b (sh qi) (sh qo)). set (o1 := mkshape prefix (Some w) suffix).
  assert (W1 : wf_repr s3 o1) by (split; [exact Live|split; [discriminate|intros v Hv; cbn in Hv; injection Hv as <-; unfold w; lia]]).
  assert (I3 : sinv s3) by apply F. assert (N3 : nrep s3 = nrep s) by apply F. assert (Rp3 : rp s3 = rp s) by apply F.
  assert (Rk : forall sh, P sh -> p + q <= length (sh qi) /\ length (sh qo) = length (sh qi)). { intros sh Hp. apply swaps_rank in Hp as [Hl R]. split; [|auto]. assert (Ra := R a (or_introl eq_refl)). assert (Rb := R b (or_intror eq_refl)). lia. }
  set (R := fun (rho : nat -> Z) (tau : nat -> list Z) (sh : nat -> list Z) => P sh /\ sh qi = dshape rho tau o1).
  assert (St : tstable R s3).
  { intros rho rho' tau tau' sh A T (Hp & E). split; [auto|]. rewrite E. unfold dshape, o1. cbn [pre root suf rval]. rewrite (T w) by (unfold w; lia). f_equal; [|f_equal]; apply map_ext_in; intros u Hu; symmetry; apply A, Live, in_app_iff; auto. }
  assert (Ext : forall rho sh, allows s rho sh -> P sh -> exists rho' tau', agrees (us s) rho rho' /\ tallows s3 rho' tau' sh /\ R rho' tau' sh).
  { intros rho sh A Hp. apply allows_den in A as (Hs & tau & D). set (x := sh qi). assert (Lx : p + q <= length x) by (apply Rk; auto). destruct (parts_meet rho tau r x p q f g) as (ys & Ly & Hm); [unfold x; rewrite <- D by auto; reflexivity|auto..|].
    destruct F as (B & V & S & C). destruct (C rho ys Hs Ly) as (r' & Ag & Hr & Em). exists r', (upd tau w (firstn (length x - q - p) (skipn p x))). split; [auto|].
    destruct (Hm r' (fun u Hu => Ag u (Lr u Hu)) Em) as [Mp Ms]. fold prefix in Mp. fold suffix in Ms. split.
    - split; [auto|]. intros y Hy. rewrite N3 in Hy. rewrite <- D by auto. apply born_den; auto. intros v Hv. apply upd_other. unfold w. lia.
    - split; [auto|]. unfold dshape, o1. cbn [pre root suf rval]. rewrite upd_same, Mp, Ms. fold x. rewrite <- (firstn_skipn p x) at 1. f_equal. rewrite <- (firstn_skipn (length x - q - p) (skipn p x)) at 1. f_equal. rewrite skipn_two. f_equal. lia. }
  assert (Back3 : forall rho sh, allows s3 rho sh -> allows s rho sh).
  { intros rho sh A. apply allows_den in A as (Hs & tau & D). apply allows_den. split; [apply F; auto|]. exists tau. intros x Hx. rewrite <- D by lia. unfold den. rewrite Rp3. auto. }
  assert (T1 := t_match R s3 qi o1 I3 ltac:(lia) W1 ltac:(intros ? ? ? _ (_ & E); exact E)). unfold hbind at 1. destruct (inner_match qi o1 s3) as [s4 [[]|e]].
  2: { destruct T1 as [-> T1]. split; [auto|]. intros rho sh A Hp. destruct (Ext rho sh A Hp) as (r' & t & _ & At & Rt). apply (T1 r' t sh At Rt). }
  assert (T1' := T1). destruct T1' as (I4 & N4 & V4 & L4 & F4 & B4).
  set (n := Z.to_nat (Z.min (Z.max a b) (Z.of_nat (shlen (rp s4 qi)) + Z.min a b))).
  destruct (fresh_dims (length prefix - n) s4 I4) as (s5 & f' & E5 & F5 & L5 & V5). assert (I5 : sinv s5) by apply F5. destruct (fresh_dims (length suffix) s5 I5) as (s6 & g' & E6 & F6 & L6 & V6). assert (I6 : sinv s6) by apply F6.
  destruct (fresh_var s6 I6) as (s7 & E7 & F7 & V7). assert (G := fresh_nil _ _ _ _ (fresh_trans _ _ _ _ _ F5 F6) F7). cbv zeta. fold n.
  unfold hbind at 1. rewrite E5. unfold hbind at 1. rewrite E6. unfold hbind at 1. rewrite E7. set (w' := nvar s6) in *. set (o2 := mkshape (firstn n prefix ++ f') (Some w') g').
  assert (Gr4 : grows (us s4) (us s7)) by apply G. assert (I7 : sinv s7) by apply G. assert (N7 : nrep s7 = nrep s4) by apply G. assert (Rp7 : rp s7 = rp s4) by apply G.
  assert (Live2 : forall u, In u (pre o2 ++ suf o2) -> live (us s7) u).
  { cbn [o2 pre suf]. intros u Hu. rewrite !in_app_iff in Hu. destruct Hu as [[Hu|Hu]|Hu]; [apply Gr4, L4, Live, in_app_iff; left; eapply in_firstn; eauto|apply G, in_app_iff; auto..]. }
  assert (W2 : wf_repr s7 o2) by (split; [exact Live2|split; [discriminate|intros v Hv; cbn in Hv; injection Hv as <-; unfold w'; lia]]).
  set (R2 := fun (rho : nat -> Z) (tau : nat -> list Z) (sh : nat -> list Z) => P sh /\ sh qo = dshape rho tau o2).
  assert (Ext2 : forall rho sh, allows s rho sh -> P sh -> exists rho' tau', agrees (us s) rho rho' /\ tallows s7 rho' tau' sh /\ R2 rho' tau' sh).
  { intros rho sh A Hp. destruct (Ext rho sh A Hp) as (r1 & t1 & Ag1 & At1 & Rt1). destruct (F4 r1 t1 sh At1 Rt1) as (r2 & t2 & Ag2 & Tg2 & [Hs2 D2]). assert (Rt2 : R r2 t2 sh) by (eapply St; eauto).
    destruct Rt2 as [_ Ei]. set (x := sh qi) in *. set (y := sh qo). destruct (Rk sh Hp) as [Lx Ly]. fold x in Lx. fold x y in Ly.
    assert (Mp : map r2 prefix = firstn p x). { rewrite Ei. unfold dshape, o1. cbn [pre root suf rval]. rewrite firstn_app, map_length, Lp, Nat.sub_diag, firstn_all2, firstn_O, app_nil_r by (rewrite map_length; lia). auto. }
    assert (Len : shlen (rp s4 qi) <= length x). { unfold x. rewrite <- D2 by lia. rewrite shlen_den. lia. }
    destruct (Nat.le_gt_cases n p) as [Hn|Hn].
    - assert (Fr : firstn n y = firstn n x). { apply (swaps_front a b x y n Hp Dg). unfold n in *. destruct (swaps_rank a b x y Hp) as [_ Rg]. assert (Ra := Rg a (or_introl eq_refl)). assert (Rb := Rg b (or_intror eq_refl)). unfold different_ends in Dg. lia. }
      destruct G as (B & V & S & C). destruct (C r2 (firstn (p - n) (skipn n y) ++ skipn (length y - q) y) Hs2) as (r3 & Ag3 & Hs3 & Em); [rewrite !app_length, firstn_length, !skipn_length; lia|].
      rewrite map_app in Em. apply app_eq_len in Em as [Ef Eg]; [|rewrite map_length, firstn_length, skipn_length; lia].
      exists r3, (upd t2 w' (firstn (length y - q - p) (skipn p y))). split; [intros u Hu; rewrite Ag3 by (apply L4, Gr; auto); rewrite Ag2 by (apply Gr; auto); auto|]. split.
      + split; [auto|]. intros z Hz. rewrite <- D2 by lia. apply born_den; auto; [lia|]. intros v Hv. apply upd_other. unfold w'. lia.
      + split; [auto|]. fold y. unfold dshape, o2. cbn [pre root suf rval]. rewrite upd_same, map_app, Ef, Eg.
        assert (Mn : map r3 (firstn n prefix) = firstn n y). { rewrite (map_ext_in r3 r2) by (intros u Hu; apply Ag3, L4, Live, in_app_iff; left; eapply in_firstn; eauto). rewrite map_firstn, Mp, firstn_firstn, Nat.min_l by lia. auto. }
        rewrite Mn. rewrite <- (firstn_skipn p y) at 1. f_equal; [|rewrite <- (firstn_skipn (length y - q - p) (skipn p y)) at 1; f_equal; rewrite skipn_two; f_equal; lia].
        rewrite <- (firstn_skipn n (firstn p y)). rewrite firstn_firstn, Nat.min_l by lia. f_equal. rewrite skipn_firstn_comm. auto.
    - assert (Fr : firstn p y = firstn p x). { apply (swaps_front a b x y p Hp Dg). unfold n in *. destruct (swaps_rank a b x y Hp) as [_ Rg]. assert (Ra := Rg a (or_introl eq_refl)). assert (Rb := Rg b (or_intror eq_refl)). unfold different_ends in Dg. lia. }
      destruct G as (B & V & S & C). destruct (C r2 (skipn (length y - q) y) Hs2) as (r3 & Ag3 & Hs3 & Em); [rewrite !app_length, !skipn_length; lia|]. assert (length f' = 0) by lia. destruct f'; [|discriminate]. cbn [app] in Em.
      exists r3, (upd t2 w' (firstn (length y - q - p) (skipn p y))). split; [intros u Hu; rewrite Ag3 by (apply L4, Gr; auto); rewrite Ag2 by (apply Gr; auto); auto|]. split.
      + split; [auto|]. intros z Hz. rewrite <- D2 by lia. apply born_den; auto; [lia|]. intros v Hv. apply upd_other. unfold w'. lia.
      + split; [auto|]. fold y. unfold dshape, o2. cbn [pre root suf rval]. rewrite upd_same, app_nil_r, Em, firstn_all2 by lia.
        rewrite (map_ext_in r3 r2) by (intros u Hu; apply Ag3, L4, Live, in_app_iff; auto). rewrite Mp, <- Fr.
        rewrite <- (firstn_skipn p y) at 1. f_equal. rewrite <- (firstn_skipn (length y - q - p) (skipn p y)) at 1. f_equal. rewrite skipn_two. f_equal. lia. }
  assert (T2 := t_match R2 s7 qo o2 I7 ltac:(lia) W2 ltac:(intros ? ? ? _ (_ & E); exact E)). unfold hbind at 1. destruct (inner_match qo o2 s7) as [s8 [[]|e]].
  - unfold hret. split; [auto|]. destruct T2 as (I8 & N8 & V8 & L8 & F8 & B8). split; [auto|]. split; [lia|]. split; [intros x Hx; apply L8, Gr4, L4, Gr; auto|]. split.
    + intros rho sh A Hp. destruct (Ext2 rho sh A Hp) as (r' & t & Ag & At & Rt). destruct (F8 r' t sh At Rt) as (r'' & t' & Ag' & _ & At'). exists r''. split; [intros x Hx; rewrite Ag' by (apply Gr4, L4, Gr; auto); auto|]. apply allows_t. eauto.
    + intros rho sh A. apply B8 in A. apply Back3, B4. apply allows_den in A as (Hs & tau & D). apply allows_den. split; [apply G; auto|]. exists tau. intros x Hx. rewrite <- D by lia. unfold den. rewrite Rp7. auto.
  - destruct T2 as [-> T2]. split; [auto|]. intros rho sh A Hp. destruct (Ext2 rho sh A Hp) as (r' & t & _ & At & Rt). apply (T2 r' t sh At Rt).
Qed.
