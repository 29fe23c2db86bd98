(** * Indexing: soundness of the rule *)
From Coq Require Import List Arith Lia Bool ZArith.
From Verif Require Import PyBase Uniadic_Model Uniadic_Proofs Uniadic_Props Bcast_Proofs Shape_Model Shape_Proofs Shape_Proofs2 Shape_Proofs3 Shape_Props Reduce_Model Reduce_Proofs Reduce_Proofs2
  Rule_Proofs Window_Proofs Arange_Model Arange_Proofs Reshape_Model Reshape_Proofs Concat_Model Concat_Proofs Index_Model Index_Spec Index_Pure Index_Arrange Index_Loop Index_Proofs.
Import ListNotations.
Open Scope list_scope. Open Scope nat_scope. Open Scope shm_scope.

Lemma sized_ok b : forall s, inv (us s) -> exists u' x, sized b s = (with_us s u', Ok x) /\ grows (us s) u' /\ (forall y, In y x -> live u' y) /\
  (forall rho, sat u' rho -> sat (us s) rho /\ map rho x = b) /\ (forall rho, sat (us s) rho -> exists rho', agrees (us s) rho rho' /\ sat u' rho').
Proof.
  induction b as [|n b IH]; intros s I; cbn [sized].
  - exists (us s), []. split; [destruct s; reflexivity|]. split; [apply grows_refl; auto|]. split; [intros y []|]. split; [auto|]. intros rho Hr. exists rho. split; [intros x _; auto|auto].
  - destruct (dim_ok (Some n) s I) as (u1 & E1 & G1 & L1 & N1 & S1). destruct (IH (with_us s u1) ltac:(apply G1)) as (u2 & x & E2 & G2 & L2 & S2 & C2). cbn [us with_us] in *. exists u2, (nu (us s) :: x). unfold hbind, hret. rewrite E1, E2. split; [auto|]. split; [eapply grows_trans; eauto|].
    split; [intros y [<-|Hy]; [apply G2; auto|auto]|]. split.
    + intros rho Hr. destruct (S2 rho Hr) as [H1 H2]. apply S1 in H1 as [H1 F]. split; [auto|]. cbn in F |- *. rewrite H2, F. auto.
    + intros rho Hr. assert (A := upd_agrees (us s) rho (nu (us s)) n N1). destruct (C2 (upd rho (nu (us s)) n)) as (r2 & A2 & H2). { apply S1. split; [eapply sat_agrees; eauto|cbn; apply upd_same]. } exists r2. split; [intros y Hy; rewrite A2 by (apply G1; auto); apply A; auto|auto].
Qed.
Lemma map_insert (rho : nat -> Z) p x l : map rho (insert p x l) = ins p (map rho x) (map rho l).
Proof. unfold insert, ins. rewrite !map_app, firstn_map, skipn_map. auto. Qed.
Lemma in_insert {y p} {x l : list nat} : In y (insert p x l) -> In y x \/ In y l.
Proof. unfold insert. rewrite !in_app_iff. intros [H|[H|H]]; [right; eapply in_firstn; eauto|auto|right; eapply in_skipn; eauto]. Qed.
Lemma fld_place x l : ipre (place x l) = ipre l /\ isuf (place x l) = isuf l /\ slices (place x l) = slices l /\
  opre (place x l) = (if rsuf l then opre l else insert (rpos l) x (opre l)) /\ osuf (place x l) = (if rsuf l then insert (rpos l) x (osuf l) else osuf l).
Proof. unfold place. destruct (rsuf l); cbn; auto. Qed.

(** The prepared dimensions *)
Record ready (u0 : ustate) (es : list entry) (b : list Z) (l : loc) (u : ustate) : Prop := {
  r_grows : grows u0 u;
  r_live : forall x, In x (ipre l ++ isuf l ++ opre l ++ osuf l) -> live u x;
  r_slive : Forall (slc_live u) (slices l);
  r_pre : length (ipre l) = width (front es);
  r_end : length (isuf l) = width (back es);
  r_all : forall a b c, In (ESlice a b c) es -> exists o i, In (o, i, (a, b, c)) (slices l);
  r_slices : forall o i a b c, In (o, i, (a, b, c)) (slices l) -> In (ESlice a b c) es /\ In i (ipre l ++ isuf l);
  r_old : forall rho, sat u rho -> sat u0 rho;
  r_sem : forall rho m, ellipses es <= 1 -> sat u rho -> holds rho (slices l) -> map rho (opre l) ++ m ++ map rho (osuf l) = arrange b (toks (front es) (map rho (ipre l)) ++ Cut :: map Dim m ++ toks (back es) (map rho (isuf l)));
  r_ext : forall rho p q, sat u0 rho -> length p = width (front es) -> length q = width (back es) -> nonneg p -> nonneg q ->
    exists rho', agrees u0 rho rho' /\ sat u rho' /\ map rho' (ipre l) = p /\ map rho' (isuf l) = q /\ holds rho' (slices l) }.
Lemma place_ready s es b l u u' x : linv (us s) es l u -> grows u u' -> (forall y, In y x -> live u' y) -> (forall rho, sat u' rho -> sat u rho /\ map rho x = b) -> (forall rho, sat u rho -> exists rho', agrees u rho rho' /\ sat u' rho') ->
  (has_tensor es = false -> b = []) -> ready (us s) es b (place x l) u'.
Proof.
  intros [G L SL SU IP IS V SH SS Sem Ext Al] G' Lx S C Hb. destruct (fld_place x l) as (F1 & F2 & F3 & F4 & F5). split.
  - eapply grows_trans; eauto.
  - rewrite F1, F2, F4, F5. intros y Hy. assert (H : In y x \/ In y (ipre l ++ isuf l ++ opre l ++ osuf l)). { rewrite !in_app_iff in *. destruct Hy as [Hy|[Hy|[Hy|Hy]]]; auto; destruct (rsuf l); auto; apply in_insert in Hy; tauto. } destruct H as [H|H]; [auto|apply G'; auto].
  - rewrite F3. eapply Forall_impl; [|exact SL]. intros [[o i] [[a c] d]] [H1 H2]. split; apply G'; auto.
  - rewrite F1. auto.
  - rewrite F2. auto.
  - rewrite F3. auto.
  - rewrite F1, F2, F3. auto.
  - intros rho Hr. apply S in Hr as [Hr _]. apply Sem in Hr. apply Hr.
  - intros rho m He Hr Hh. rewrite F3 in Hh. destruct (S rho Hr) as [H1 H2]. destruct (Sem rho H1) as [_ K]. destruct (K Hh) as [K1 K2]. rewrite arranged by auto. cbn zeta. rewrite F1, F2, F4, F5. unfold pview in V. assert (Vb : pb (prun es p0) = rsuf l) by (rewrite <- V; auto). assert (Vp : pp (prun es p0) = rpos l) by (rewrite <- V; auto). rewrite Vb, Vp. destruct (rsuf l); rewrite map_insert, H2, K1, K2; auto.
  - intros rho p q Hr Lp Lq Np Nq. destruct (Ext rho p q Hr Lp Lq Np Nq) as (r1 & A1 & S1 & M1 & M2 & M3). destruct (C r1 S1) as (r2 & A2 & S2). exists r2. rewrite F1, F2, F3. split; [intros y Hy; rewrite A2 by (apply G; auto); apply A1; auto|]. split; [auto|].
    assert (E : forall y, In y (ipre l ++ isuf l) -> r2 y = r1 y) by (intros y Hy; apply A2; apply L; rewrite !in_app_iff in *; tauto).
    split; [rewrite <- M1; apply map_ext_in; intros; apply E; rewrite in_app_iff; auto|]. split; [rewrite <- M2; apply map_ext_in; intros; apply E; rewrite in_app_iff; auto|]. eapply holds_agrees; eauto.
Qed.

(** ** The relation that the steps keep *)
Section Rule.
Variables (es : list entry) (b : list Z) (qi qo : nat) (l : loc) (w : nat).
Definition rel (sh : nat -> list Z) : Prop := nonneg (sh qi) /\ indexed any es (sh qi) (sh qo).
Definition tie (rho : nat -> Z) (tau : nat -> list Z) (sh : nat -> list Z) : Prop :=
  rel sh /\ sh qi = map rho (ipre l) ++ tau w ++ map rho (isuf l) /\ sh qo = map rho (opre l) ++ tau w ++ map rho (osuf l) /\ holds rho (slices l).
Definition known_dims (s : shst) : Prop := (forall x, In x (ipre l ++ isuf l ++ opre l ++ osuf l) -> live (us s) x) /\ Forall (slc_live (us s)) (slices l) /\ w < nvar s.
Lemma known_mono s s' : known_dims s -> nvar s <= nvar s' -> (forall x, live (us s) x -> live (us s') x) -> known_dims s'.
Proof. intros (H1 & H2 & H3) N L. split; [auto|]. split; [|lia]. eapply Forall_impl; [|exact H2]. intros [[o i] [[a c] d]] [X Y]. split; auto. Qed.
Lemma tie_stable s : known_dims s -> tstable tie s.
Proof.
  intros (L & SL & Hw) rho rho' tau tau' sh A T (H1 & H2 & H3 & H4). assert (E : forall k, (forall x, In x k -> In x (ipre l ++ isuf l ++ opre l ++ osuf l)) -> map rho' k = map rho k) by (intros k Hk; apply map_ext_in; intros x Hx; apply A; auto).
  split; [auto|]. rewrite !E, T by (auto; intros x Hx; rewrite !in_app_iff; auto). split; [auto|]. split; [auto|]. eapply holds_agrees; eauto.
Qed.
Lemma match_output_ok s : sinv s -> qi < nrep s -> qo < nrep s -> known_dims s ->
  match match_output qi qo l s with
  | (s', Ok r) => tsound tie s s' /\ (root (rp s qi) = None -> r = true /\ forall rho sh, allows s' rho sh -> exists tau, tallows s rho tau sh /\ sh qo = map rho (set_back (length (isuf l)) (osuf l) (set_front (length (ipre l)) (opre l) (pre (rp s qi)))))
  | (_, Err e) => e = ValueError /\ texcludes tie s
  end.
Proof.
  intros I Hi Ho Kd. assert (St := tie_stable s Kd). destruct Kd as (L & SL & Hw). unfold match_output. destruct (root (rp s qi)) as [v|] eqn:R.
  - destruct ((length (pre (rp s qi)) <? length (ipre l)) || (length (suf (rp s qi)) <? length (isuf l))) eqn:El.
    + destruct (born_var s I) as (s1 & E1 & B1 & U1 & V1). unfold hbind at 1. rewrite E1. assert (I1 : sinv s1) by apply B1. assert (N1 : nrep s1 = nrep s) by apply B1. set (w2 := nvar s) in *.
      assert (W : wf_repr s1 (mkshape (opre l) (Some w2) (osuf l))). { split; [|split; [discriminate|intros x Hx; injection Hx as <-; unfold w2; lia]]. cbn. intros x Hx. rewrite U1. apply L. rewrite !in_app_iff in *. tauto. }
      set (R2 := fun (rho : nat -> Z) (tau : nat -> list Z) sh => tie rho tau sh /\ tau w2 = tau w).
      assert (M := t_match2 R2 s1 qo _ I1 ltac:(lia) W). lapply M; [clear M; intros M|]. 2: { intros rho tau sh _ ((_ & _ & H & _) & E). unfold dshape. cbn. rewrite E. auto. }
      assert (Ext : forall rho tau sh, tallows s rho tau sh -> tie rho tau sh -> tallows s1 rho (upd tau w2 (tau w)) sh /\ R2 rho (upd tau w2 (tau w)) sh).
      { intros rho tau sh [Hs D] T. assert (Tw : forall x, x < nvar s -> upd tau w2 (tau w) x = tau x) by (intros x Hx; apply upd_other; unfold w2; lia). split; [split; [rewrite U1; auto|]|].
        - intros q Hx. rewrite N1 in Hx. rewrite <- D by auto. apply born_den; auto. intros x _. auto.
        - split; [eapply (St rho rho tau); eauto; intros x _; auto|]. rewrite upd_same, Tw by auto. auto. }
      unfold hbind, hret. destruct (inner_match qo (mkshape (opre l) (Some w2) (osuf l)) s1) as [s' [[]|e]].
      * destruct M as ((M1 & M2 & M3 & M4 & M5 & M6) & _). split; [|discriminate]. split; [auto|]. split; [lia|]. split; [lia|]. split; [intros x Hx; apply M4; rewrite U1; auto|]. split.
        -- intros rho tau sh A T. destruct (Ext rho tau sh A T) as [A1 T1]. destruct (M5 rho _ sh A1 T1) as (r & t & Ag & Tt & A2). exists r, t. split; [intros x Hx; apply Ag; rewrite U1; auto|]. split; [|auto]. intros x Hx. rewrite Tt by lia. apply upd_other. unfold w2. lia.
        -- intros rho sh A. apply M6 in A. apply allows_den in A as (Hs & tau & D). apply allows_den. rewrite U1 in Hs. split; [auto|]. exists tau. intros x Hx. rewrite <- (D x) by lia. unfold den. assert (Er : rp s1 = rp s) by apply B1. rewrite Er. auto.
      * split; [apply M|]. intros rho tau sh A T. destruct (Ext rho tau sh A T) as [A1 T1]. apply (proj2 M rho _ sh A1 T1).
    + apply orb_false_iff in El as [El1 El2]. apply Nat.ltb_ge in El1, El2. set (o := mkshape (set_front (length (ipre l)) (opre l) (pre (rp s qi))) (Some v) (set_back (length (isuf l)) (osuf l) (suf (rp s qi)))).
      assert (Wi := s_repr _ I qi Hi). destruct Wi as (Wi1 & _ & Wi3).
      assert (W : wf_repr s o). { split; [|split; [discriminate|cbn; intros x Hx; apply Wi3; congruence]]. cbn. intros x Hx. unfold set_front, set_back in Hx. rewrite !in_app_iff in Hx. destruct Hx as [[Hx|Hx]|[Hx|Hx]]; [apply L; rewrite !in_app_iff; auto|apply Wi1; rewrite in_app_iff; left; eapply in_skipn; eauto|apply Wi1; rewrite in_app_iff; right; eapply in_firstn; eauto|apply L; rewrite !in_app_iff; auto]. }
      assert (M := t_match2 tie s qo o I Ho W). lapply M; [clear M; intros M|].
      2: { intros rho tau sh [Hs D] (_ & H1 & H2 & _). assert (D' := D qi Hi). rewrite H1 in D'. unfold den, dshape in D'. rewrite R in D'. cbn [rval] in D'. rewrite H2. unfold o, dshape. cbn [pre root suf rval].
        rewrite <- (map_length rho (ipre l)), <- (map_length rho (isuf l)).
        destruct (set_front_root rho (pre (rp s qi)) (opre l) (map rho (ipre l)) _ _ D' ltac:(rewrite map_length; auto)) as (Y & E1 & E2 & _). rewrite E1.
        assert (E2' : (Y ++ tau v) ++ map rho (suf (rp s qi)) = tau w ++ map rho (isuf l)) by (rewrite E2, <- app_assoc; auto).
        destruct (set_back_root rho (suf (rp s qi)) (osuf l) (map rho (isuf l)) _ _ E2' ltac:(rewrite map_length; auto)) as (Y2 & E3 & E4). rewrite E3, E4, <- !app_assoc. auto. }
      unfold hbind, hret. fold o. destruct (inner_match qo o s) as [s' [[]|e]]; [|auto]. split; [apply M|discriminate].
  - set (L0 := set_back (length (isuf l)) (osuf l) (set_front (length (ipre l)) (opre l) (pre (rp s qi)))).
    assert (W : wf_repr s (mkshape L0 None [])). { split; [|split; [auto|discriminate]]. cbn. rewrite app_nil_r. intros x Hx. unfold L0, set_front, set_back in Hx. rewrite in_app_iff in Hx. destruct Hx as [Hx|Hx]; [|apply L; rewrite !in_app_iff; auto]. apply in_firstn in Hx. apply in_app_iff in Hx as [Hx|Hx]; [apply L; rewrite !in_app_iff; auto|]. apply in_skipn in Hx. exact (pre_live s qi x I Hi Hx). }
    assert (M := t_match2 tie s qo _ I Ho W). lapply M; [clear M; intros M|].
    2: { intros rho tau sh [Hs D] (_ & H1 & H2 & _). assert (D' := D qi Hi). rewrite H1, den_plain_suffix in D' by auto. rewrite H2. unfold dshape. cbn. rewrite app_nil_r. unfold L0. rewrite <- (map_length rho (ipre l)), <- (map_length rho (isuf l)). symmetry. apply set_ends. auto. }
    unfold hbind, hret. destruct (inner_match qo (mkshape L0 None []) s) as [s' [[]|e]]; [|auto]. destruct M as (M1 & M2 & M3). split; [auto|]. intros _. split; [auto|]. intros rho sh A. destruct (M3 ltac:(intros (_ & Hn & _); cbn in Hn; congruence) rho sh A) as (tau & A' & E). exists tau. split; [auto|]. rewrite E. unfold dshape. cbn. apply app_nil_r.
Qed.
End Rule.

(** ** Facts on [indexed] *)
Lemma indexed_split ok es b x y : (forall z, broadcast (tensor_shapes es) z <-> z = b) ->
  indexed ok es x y <-> ellipses es <= 1 /\ exists p m q, x = p ++ m ++ q /\ fits ok (front es) p /\ fits ok (back es) q /\ y = arrange b (toks (front es) p ++ Cut :: map Dim m ++ toks (back es) q).
Proof.
  intros B. unfold indexed. split.
  - intros (He & b' & t & Hb & Hr & Hy). split; [auto|]. apply B in Hb. subst b'. rewrite complete_split in Hr by auto. apply reads_split in Hr as (p & m & q & E1 & E2 & E3 & E4); [|apply front_plain|apply back_plain; auto]. subst t. exists p, m, q. auto.
  - intros (He & p & m & q & E1 & E2 & E3 & E4). split; [auto|]. exists b, (toks (front es) p ++ Cut :: map Dim m ++ toks (back es) q). split; [apply B; auto|]. split; [|auto]. rewrite complete_split by auto. apply reads_split; [apply front_plain|apply back_plain; auto|]. exists p, m, q. auto.
Qed.
Lemma app3_inj {A} (p m q p' m' q' : list A) : p ++ m ++ q = p' ++ m' ++ q' -> length p = length p' -> length q = length q' -> p = p' /\ m = m' /\ q = q'.
Proof.
  intros E L1 L2. assert (H : p = p' /\ m ++ q = m' ++ q'). { clear L2. revert p' L1 E. induction p as [|a p IH]; intros [|a' p'] L E; try discriminate; [auto|]. cbn in E. injection E as -> E. injection L as L. destruct (IH p' L E) as [-> H]. auto. }
  destruct H as [-> H]. split; [auto|]. assert (Lm : length m = length m') by (apply (f_equal (@length A)) in H; rewrite !app_length in H; lia). clear - Lm H. revert m' Lm H. induction m as [|a m IH]; intros [|a' m'] L E; try discriminate; [auto|]. cbn in E. injection E as -> E. injection L as L. destruct (IH m' L E) as [-> ->]. auto.
Qed.
Lemma indexed_det ok es x y y' : indexed ok es x y -> indexed ok es x y' -> y = y'.
Proof.
  intros H H'. assert (Hb := H). destruct Hb as (_ & b & _ & Hb & _). assert (B := bcast_shapes_ok (tensor_shapes es)). destruct (bcast_shapes (tensor_shapes es)) as [b0|e]; [|exfalso; apply (proj2 B b); auto]. 
  apply (indexed_split ok es b0 _ _ B) in H as (_ & p & m & q & E1 & E2 & E3 & ->). apply (indexed_split ok es b0 _ _ B) in H' as (_ & p' & m' & q' & E1' & E2' & E3' & ->).
  apply fits_width in E2, E3, E2', E3'. subst x. apply app3_inj in E1' as (-> & -> & ->); [auto|congruence|congruence].
Qed.
Lemma indexed_any ok es x y : indexed ok es x y -> indexed any es x y.
Proof.
  intros H. assert (Hb := H). destruct Hb as (_ & b & _ & Hb & _). assert (B := bcast_shapes_ok (tensor_shapes es)). destruct (bcast_shapes (tensor_shapes es)) as [b0|e]; [|exfalso; apply (proj2 B b); auto].
  apply (indexed_split ok es b0 _ _ B) in H as (He & p & m & q & E1 & E2 & E3 & E4). apply (indexed_split any es b0 _ _ B). split; [auto|]. exists p, m, q. split; [auto|]. split; [eapply fits_mono; [|exact E2]; intros; exact Logic.I|]. split; [eapply fits_mono; [|exact E3]; intros; exact Logic.I|auto].
Qed.
Lemma all_shapes_ok es : match all_shapes (shapes_of es) with Some xs => xs = tensor_shapes es /\ ~ In (ETensor None) es | None => In (ETensor None) es end.
Proof.
  induction es as [|e es IH]; [cbn; auto|]. destruct e; cbn [shapes_of tensor_shapes flat_map app]; fold (shapes_of es); fold (tensor_shapes es);
    try (destruct (all_shapes (shapes_of es)); [destruct IH as [-> IH]; split; [auto|intros [H|H]; [discriminate|auto]]|right; auto]).
  destruct shape as [x|]; cbn [all_shapes]; [|left; auto]. destruct (all_shapes (shapes_of es)); [destruct IH as [-> IH]; split; [auto|intros [H|H]; [discriminate|auto]]|right; auto].
Qed.
Lemma no_tensor es : has_tensor es = false -> tensor_shapes es = [].
Proof. induction es as [|[] es IH]; cbn; auto; discriminate. Qed.
Lemma nonneg_app x y : nonneg (x ++ y) <-> nonneg x /\ nonneg y.
Proof. apply Forall_app. Qed.
Lemma nonneg_zeros n : nonneg (repeat 0%Z n).
Proof. induction n; constructor; [lia|auto]. Qed.

(** ** The rule *)
Lemma tensor_item_ok s qi qo es : sinv s -> qi < nrep s -> qo < nrep s ->
  match tensor_item qi qo (Some es) s with
  | (s', Ok r) => sound_for (rel es qi qo) s s' /\
      ((exists n, rank n s qi) -> r = true -> ellipses es <= 1 -> forall rho sh, allows s' rho sh -> nonneg (sh qi) -> indexed any es (sh qi) (sh qo)) /\
      (forall x, determined s qi x -> ~ In (ETensor None) es -> r = true)
  | (_, Err e) => e = ValueError /\ excludes (rel es qi qo) s
  end.
Proof.
  intros I Hi Ho. cbn [tensor_item]. unfold hbind at 1. destruct (loop_ok es s ltac:(apply I)) as (u1 & l & E & Li). rewrite E. assert (G1 := l_grows _ _ _ _ Li). assert (B1 := born_us s u1 I G1). rewrite (l_shapes _ _ _ _ Li).
  assert (As := all_shapes_ok es). destruct (all_shapes (shapes_of es)) as [xs|].
  2: { unfold hret. split; [|split; [intros _; discriminate|intros x _ H; contradiction]]. split; [apply B1|]. split; [auto|]. split; [apply G1|]. split.
    - intros rho sh A _. apply allows_den in A as (Hs & tau & D). destruct (l_ext _ _ _ _ Li rho (repeat 0%Z (width (front es))) (repeat 0%Z (width (back es))) Hs) as (rho' & Ag & Hs' & _); [apply repeat_length|apply repeat_length|apply nonneg_zeros|apply nonneg_zeros|].
      exists rho'. split; [auto|]. apply allows_den. split; [auto|]. exists tau. intros q Hq. rewrite <- D by auto. apply born_den; auto.
    - intros rho sh A. apply allows_den in A as (Hs & tau & D). apply allows_den. split; [apply (l_sem _ _ _ _ Li); auto|]. exists tau. auto. }
  destruct As as [-> Hn]. assert (Bc := bcast_shapes_ok (tensor_shapes es)). destruct (bcast_shapes (tensor_shapes es)) as [b|e].
  2: { destruct Bc as [-> Bc]. unfold hraise. split; [auto|]. intros rho sh A (_ & _ & b & t & Hb & _). apply (Bc b). auto. }
  unfold hbind at 1. destruct (sized_ok b (with_us s u1) ltac:(apply B1)) as (u2 & x & E2 & G2 & Lx & S2 & C2). rewrite E2. cbn [us with_us] in *. change (with_us (with_us s u1) u2) with (with_us s u2).
  assert (Rd : ready (us s) es b (place x l) u2). { eapply place_ready; eauto. intros Hh. apply no_tensor in Hh. symmetry. apply Bc. rewrite Hh. unfold broadcast. cbn. split; [auto|]. intros; lia. }
  clear E E2 Lx S2 C2 Li G1 G2 B1. set (l1 := place x l) in *. clearbody l1. clear l x u1. cbv zeta. assert (Gr := r_grows _ _ _ _ _ Rd). assert (B1 := born_us s u2 I Gr). set (s1 := with_us s u2) in *. assert (I1 : sinv s1) by apply B1.
  unfold hbind at 1. destruct (born_var s1 I1) as (s2 & E2 & B2 & U2 & V2). rewrite E2. set (w := nvar s1) in *. assert (I2 : sinv s2) by apply B2. assert (B := born_trans _ _ _ B1 B2). assert (N2 : nrep s2 = nrep s) by apply B. assert (Uu : us s2 = u2) by (rewrite U2; auto).
  assert (K2 : known_dims l1 w s2). { split; [rewrite Uu; apply (r_live _ _ _ _ _ Rd)|]. split; [rewrite Uu; apply (r_slive _ _ _ _ _ Rd)|]. unfold w. lia. }
  assert (St2 := tie_stable es qi qo l1 w s2 K2). set (R := tie es qi qo l1 w) in *.
  assert (Back : forall rho tau sh, tallows s2 rho tau sh -> tallows s rho tau sh). { intros rho tau sh [Hs D]. rewrite Uu in Hs. split; [eapply (r_old _ _ _ _ _ Rd); eauto|]. intros q Hq. rewrite <- D by lia. symmetry. unfold den. assert (Er : rp s2 = rp s) by apply B. rewrite Er. auto. }
  assert (Fwd : forall rho sh, allows s rho sh -> rel es qi qo sh -> exists rho' tau', agrees (us s) rho rho' /\ tallows s2 rho' tau' sh /\ R rho' tau' sh).
  { intros rho sh A Hr. assert (Hr' := Hr). destruct Hr' as [Nn Hx]. apply (indexed_split any es b _ _ Bc) in Hx as (He & p & m & q & Ex & Fp & Fq & Ey). apply allows_den in A as (Hs & tau & D).
    assert (Wp := fits_width _ _ _ Fp). assert (Wq := fits_width _ _ _ Fq). rewrite Ex, !nonneg_app in Nn. destruct Nn as (Np & _ & Nq).
    destruct (r_ext _ _ _ _ _ Rd rho p q Hs Wp Wq Np Nq) as (rho' & Ag & Hs' & M1 & M2 & M3). exists rho', (upd tau w m). split; [auto|]. split.
    - split; [rewrite Uu; auto|]. intros k Hk. rewrite N2 in Hk. rewrite <- D by auto. apply born_den; auto. intros z Hz. apply upd_other. unfold w. cbn. lia.
    - split; [auto|]. rewrite upd_same, M1, M2. split; [auto|]. split; [|auto]. rewrite Ey. rewrite <- M1, <- M2. symmetry. apply (r_sem _ _ _ _ _ Rd); auto. }
  assert (Snd : forall s', tsound R s2 s' -> sound_for (rel es qi qo) s s').
  { intros s' (T1 & T2 & T3 & T4 & T5 & T6). split; [auto|]. split; [lia|]. split; [intros z Hz; apply T4; rewrite Uu; apply Gr; auto|]. split.
    - intros rho sh A Hr. destruct (Fwd rho sh A Hr) as (r & t & Ag & A2 & HR). destruct (T5 r t sh A2 HR) as (r' & t' & Ag' & _ & A'). exists r'. split; [intros z Hz; rewrite Ag' by (rewrite Uu; apply Gr; auto); apply Ag; auto|]. apply allows_t. exists t'. auto.
    - intros rho sh A. apply T6, allows_t in A as (t & A). apply allows_t. exists t. auto. }
  assert (Exc : texcludes R s2 -> excludes (rel es qi qo) s) by (intros X rho sh A Hr; destruct (Fwd rho sh A Hr) as (r & t & _ & A2 & HR); apply (X r t sh A2 HR)).
  (* the match of the input *)
  set (o := mkshape (ipre l1) (Some w) (isuf l1)). assert (Wo : wf_repr s2 o). { split; [|split; [discriminate|intros y Hy; injection Hy as <-; apply K2]]. cbn. intros y Hy. apply K2. rewrite !in_app_iff in *. tauto. }
  assert (M := t_match2 R s2 qi o I2 ltac:(lia) Wo). lapply M; [clear M; intros M|]. 2: { intros rho tau sh _ (_ & H & _). exact H. }
  unfold hbind at 1. destruct (inner_match qi o s2) as [s3 [[]|e]]; [|destruct M as [-> M]; split; auto]. destruct M as (T3 & V3 & Ex3).
  assert (I3 : sinv s3) by apply T3. assert (N3 : nrep s3 = nrep s) by (destruct T3 as (_ & T & _); lia). assert (K3 : known_dims l1 w s3) by (eapply known_mono; [exact K2|apply T3|apply T3]). assert (St3 := tie_stable es qi qo l1 w s3 K3). fold R in St3.
  (* the slices *)
  assert (M := run_slices_ok R (slices l1) s3 I3 (proj1 (proj2 K3)) St3). lapply M; [clear M; intros M|].
  2: { intros rho tau sh ((_ & Hx) & _ & _ & Hh). split; [auto|]. apply (indexed_split any es b _ _ Bc) in Hx as (He & p & m & q & _ & Fp & Fq & _). apply Forall_forall. intros [[o' i'] [[a' b'] c']] Hx. apply (r_slices _ _ _ _ _ Rd) in Hx as [Hx _].
    assert (Hc : In (ESlice a' b' c') (front es ++ EEllipsis :: back es)). { destruct (forallb plain_entry es) eqn:Ep; [destruct (without_ellipsis es Ep) as [E' _]; rewrite E'; apply in_app_iff; auto|]. rewrite <- with_ellipsis by auto. auto. }
    apply in_app_iff in Hc as [Hc|[Hc|Hc]]; [eapply fits_steps; [exact Fp|eauto]|discriminate|eapply fits_steps; [exact Fq|eauto]]. }
  unfold hbind at 1. destruct (run_slices (slices l1) s3) as [s4 [r|e]]; [|destruct M as [-> M]; split; [auto|apply Exc; eapply texcludes_back; eauto]]. destruct M as (T4 & Rp4 & Nv4 & V4 & Old4 & W4 & C4).
  assert (I4 : sinv s4) by apply T4. assert (N4 : nrep s4 = nrep s) by (destruct T4 as (_ & T & _); lia). assert (K4 : known_dims l1 w s4) by (eapply known_mono; [exact K3|apply T4|apply T4]).
  (* the match of the output *)
  assert (M := match_output_ok es qi qo l1 w s4 I4 ltac:(lia) ltac:(lia) K4). fold R in M. assert (T24 : tsound R s2 s4) by (eapply tsound_trans; eauto).
  unfold hbind, hret. destruct (match_output qi qo l1 s4) as [s5 [r'|e]]; [|destruct M as [-> M]; split; [auto|apply Exc; eapply texcludes_back; eauto]]. destruct M as (T5 & Ex5).
  split; [apply Snd; eapply tsound_trans; eauto|]. assert (St4 : forall rho tau sh, tallows s4 rho tau sh -> tallows s3 rho tau sh). { intros rho tau sh [Hs D]. split; [auto|]. intros q Hq. rewrite <- D by lia. unfold den. rewrite Rp4. auto. }
  assert (Rk4 : forall n, rank n s qi -> root (rp s4 qi) = None /\ root (rp s qi) = None). { intros n Rk. split; [|apply (rank_plain n s qi); auto]. apply (rank_plain n s4 qi); auto; [lia|]. intros rho sh A. apply Rk with (rho := rho). apply T24, allows_t in A as (t & A). apply allows_t. exists t. auto. }
  assert (Nc : root (rp s qi) = None -> ~ crossing (rp s2 qi) o). { intros Rt (Hr & _). assert (Er : rp s2 = rp s) by apply B. rewrite Er in Hr. congruence. }
  split.
  - intros (n & Rk) Er He rho sh A Nn. apply andb_true_iff in Er as [-> ->]. destruct (Rk4 n Rk) as [Rt4 Rt]. destruct (Ex5 Rt4) as [_ Ex5']. destruct (Ex5' rho sh A) as (t4 & A4 & Eo). assert (A3 := St4 _ _ _ A4). destruct (Ex3 (Nc Rt) rho sh ltac:(apply allows_t; exists t4; auto)) as (t2 & A2 & Ei). unfold dshape, o in Ei. cbn [pre suf root rval] in Ei.
    assert (Wk := W4 eq_refl rho (proj1 A4)). rewrite Ei, !nonneg_app in Nn. destruct Nn as (Np & _ & Nq).
    assert (Hd : holds rho (slices l1)). { unfold holds. rewrite Forall_forall in *. intros [[o' i'] [[a' b'] c']] Hx. specialize (Wk _ Hx). cbn in *. apply (r_slices _ _ _ _ _ Rd) in Hx as [_ Hx]. assert (P : (0 <= rho i')%Z). { unfold nonneg in *. rewrite Forall_forall in Np, Nq. apply in_app_iff in Hx as [Hx|Hx]; [apply Np|apply Nq]; apply in_map; auto. } destruct (full a' b' c') eqn:Ef; [|split; [apply Wk|discriminate]]. destruct a', b', c'; try discriminate. rewrite slice_full by auto. auto. }
    assert (Hc : forall a' b' c', In (ESlice a' b' c') es -> c' <> Some 0%Z). { intros a' b' c' Hx. destruct (r_all _ _ _ _ _ Rd _ _ _ Hx) as (o' & i' & Hx'). rewrite Forall_forall in Wk. specialize (Wk _ Hx'). cbn in Wk. destruct (full a' b' c') eqn:Ef; [destruct a', b', c'; discriminate|apply Wk]. }
    assert (Hin : forall e, In e (front es) \/ In e (back es) -> In e es). { intros e Hx. destruct (forallb plain_entry es) eqn:Ep; [destruct (without_ellipsis es Ep) as [E1' E2']; rewrite E1', E2' in Hx; destruct Hx as [Hx|[]]; auto|]. rewrite (with_ellipsis es Ep). apply in_app_iff. cbn. tauto. }
    apply (indexed_split any es b _ _ Bc). split; [auto|]. exists (map rho (ipre l1)), (t2 w), (map rho (isuf l1)). split; [auto|]. split; [apply fits_any; [intros; eapply Hc; eauto|rewrite map_length; apply (r_pre _ _ _ _ _ Rd)]|]. split; [apply fits_any; [intros; eapply Hc; eauto|rewrite map_length; apply (r_end _ _ _ _ _ Rd)]|].
    rewrite <- (r_sem _ _ _ _ _ Rd rho (t2 w) He); [|rewrite <- Uu; apply A2|auto]. rewrite Eo. rewrite <- (map_length rho (ipre l1)), <- (map_length rho (isuf l1)). apply set_ends. rewrite <- Ei. symmetry. apply (plain_sh s4); auto; [lia|]. apply allows_t. exists t4. auto.
  - intros xx Dt _. assert (Rk : rank (length xx) s qi) by (intros rho sh A; rewrite (Dt rho sh A); auto). destruct (Rk4 _ Rk) as [Rt4 Rt]. destruct (Ex5 Rt4) as [-> _]. rewrite andb_true_r. apply C4. apply Forall_forall. intros [[o' i'] [[a' b'] c']] Hx. right.
    apply (r_slices _ _ _ _ _ Rd) in Hx as [_ Hx]. assert (Lv : live (us s3) i') by (apply K3; rewrite !in_app_iff in *; tauto).
    assert (Dd : exists d, forall rho, sat (us s3) rho -> rho i' = d).
    { assert (Dx : forall rho, sat (us s3) rho -> exists m, xx = map rho (ipre l1) ++ m ++ map rho (isuf l1)). { intros rho Hs. destruct (Ex3 (Nc Rt) rho (den s3 rho (fun _ => [])) ltac:(apply allows_self; auto)) as (t2 & A2 & Ei). exists (t2 w). unfold dshape, o in Ei. cbn [pre suf root rval] in Ei. rewrite <- Ei. symmetry. apply (Dt rho). apply allows_t. exists t2. auto. }
      apply in_app_iff in Hx as [Hx|Hx]; apply In_nth_error in Hx as (k & Hk).
      - exists (nth k xx 0%Z). intros rho Hs. destruct (Dx rho Hs) as (m & ->). rewrite app_nth1 by (rewrite map_length; apply nth_error_Some; congruence). symmetry. apply nth_error_nth. rewrite nth_error_map, Hk. auto.
      - exists (nth (length xx - length (isuf l1) + k) xx 0%Z). intros rho Hs. destruct (Dx rho Hs) as (m & ->). rewrite app_assoc. replace (length ((map rho (ipre l1) ++ m) ++ map rho (isuf l1)) - length (isuf l1) + k) with (length (map rho (ipre l1) ++ m) + k) by (rewrite (app_length _ (map rho (isuf l1))), (map_length rho (isuf l1)); lia). rewrite app_nth2_plus. symmetry. apply nth_error_nth. rewrite nth_error_map, Hk. auto. }
    destruct Dd as (d & Dd). exists d. apply value_complete; auto. apply I3.
Qed.
