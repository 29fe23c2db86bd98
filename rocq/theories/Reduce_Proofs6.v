(** * Reductions: the whole rule *)
From Coq Require Import List Arith Lia Bool ZArith Permutation Sorted.
From Verif Require Import PyBase Uniadic_Model Uniadic_Proofs Uniadic_Props Bcast_Proofs Shape_Model Shape_Proofs Shape_Proofs2 Shape_Proofs3 Shape_Props Reduce_Model Reduce_Spec Reduce_Proofs Reduce_Proofs2 Reduce_Proofs3 Reduce_Proofs4 Reduce_Proofs5.
Import ListNotations.
Open Scope list_scope. Open Scope nat_scope. Open Scope shm_scope.

Lemma NoDup_sort l : NoDup l -> NoDup (sort_z l).
Proof. intros H. eapply Permutation_NoDup; [apply sort_perm|auto]. Qed.
Lemma In_sort a l : In a (sort_z l) <-> In a l.
Proof. split; apply Permutation_in; [apply Permutation_sym|]; apply sort_perm. Qed.
Lemma without_keep_nth red x : forall i j, j < length x -> nth j (without red true i x) 0%Z = if existsb (Z.eqb (i + Z.of_nat j)) red then 1%Z else nth j x 0%Z.
Proof.
  induction x as [|d x IH]; intros i j Hj; [cbn in Hj; lia|]. cbn [without]. destruct j as [|j].
  - replace (i + Z.of_nat 0)%Z with i by lia. destruct (existsb (Z.eqb i) red); auto.
  - replace (i + Z.of_nat (S j))%Z with (i + 1 + Z.of_nat j)%Z by lia. cbn in Hj. assert (E : nth (S j) ((if existsb (Z.eqb i) red then [1%Z] else [d]) ++ without red true (i + 1) x) 0%Z = nth j (without red true (i + 1) x) 0%Z) by (destruct (existsb (Z.eqb i) red); auto).
    rewrite E. apply IH. lia.
Qed.

(** ** Backward *)
Lemma backward_drop_ok s qi qo axes : sinv s -> qi < nrep s -> qo < nrep s -> root (rp s qo) = None ->
  let R := Z.of_nat (length axes + length (pre (rp s qo))) in (forall a, In a axes -> a <> 0%Z) -> axes_ok axes R ->
  match backward qi qo axes false s with
  | (s', Ok _) => soundly qi qo s s' (reduces axes false) /\ gives qi qo s' (reduces axes false)
  | (_, Err e) => e = ValueError /\ never qi qo s (reduces axes false)
  end.
Proof.
  intros I Hi Ho Ro R NZ Ok. unfold backward. set (O := pre (rp s qo)) in *. assert (Wq := s_repr _ I qo Ho). destruct (wf_live s _ Wq) as [W1 _]. fold O in W1.
  change (Z.of_nat (length axes + length O)) with R.
  assert (Em : map (fun a => if (0 <? a)%Z then a else (a + R)%Z) axes = map (normed R) axes). { apply map_ext_in. intros a Ha. apply NZ in Ha. unfold normed. destruct (Z.ltb_spec 0 a), (Z.ltb_spec a 0); lia. }
  rewrite Em. set (red := map (normed R) axes) in *. assert (ND : NoDup red) by apply Ok.
  assert (SS : StronglySorted Z.lt (sort_z red)) by (apply sorted_strict; [apply sort_sorted|apply NoDup_sort; auto]).
  assert (Ls : length (sort_z red) = length axes). { rewrite <- (Permutation_length (sort_perm red)). apply map_length. }
  assert (Rg : forall a, In a (sort_z red) -> (0 <= a < Z.of_nat (length O + length (sort_z red)))%Z). { intros a Ha. apply (proj1 (In_sort _ _)) in Ha. apply in_map_iff in Ha as (b & <- & Hb). rewrite Ls. replace (Z.of_nat (length O + length axes)) with R by (unfold R; lia). apply Ok. auto. }
  destruct (back_drop_ok (sort_z red) SS O O s (s_inv _ I) W1 Rg) as (u1 & inp & E & G & L & Len & S1 & C1). unfold hbind. rewrite E. rewrite Ls in *.
  assert (LenR : Z.of_nat (length inp) = R) by (rewrite Len; unfold R; lia).
  assert (Sort : forall x, without (sort_z red) false 0 x = without red false 0 x). { intros x. apply without_ext. intros j _. apply In_sort. }
  assert (B := born_us s u1 I G). assert (Wo : wf_repr (with_us s u1) (mkshape inp None [])) by (apply wf_plain; auto).
  assert (IS := infer_step qi qo s (with_us s u1) qi (mkshape inp None []) (reduces axes false) I B Hi Wo ltac:(intros rho Hs; apply S1; auto)).
  assert (St : step_ok qi qo s (with_us s u1) qi (mkshape inp None []) (reduces axes false)).
  { intros rho tau Hs H. assert (Lr := reduces_length _ _ _ _ H). destruct H as [_ Ey]. rewrite (den_plain s rho tau qo I Ho Ro) in Ey, Lr. fold O in Ey, Lr. rewrite map_length in Lr. set (x := den s rho tau qi) in *.
    assert (ER : Z.of_nat (length x) = R) by (unfold R; lia). rewrite ER in Ey. fold red in Ey. rewrite <- Sort in Ey. destruct (C1 rho x Hs ltac:(lia) Ey) as (rho' & A & Hs' & M).
    exists rho', tau. split; [auto|]. split; [auto|]. split; [auto|]. rewrite dshape_plain. auto. }
  specialize (IS St). destruct (inner_match qi (mkshape inp None []) (with_us s u1)) as [s2 [[]|e]]; [|exact IS]. destruct IS as (Sd & _ & Y). specialize (Y eq_refl).
  assert (I2 : sinv s2) by apply Sd. assert (N2 : nrep s2 = nrep s) by apply Sd. assert (LL : forall x, live (us s) x -> live (us s2) x) by apply Sd.
  assert (Gv : gives qi qo s2 (reduces axes false) /\ forall rho tau, sat (us s2) rho -> den s2 rho tau qo = map rho O).
  { assert (K : forall rho tau', sat (us s2) rho -> reduces axes false (den s2 rho tau' qi) (den s2 rho tau' qo) /\ den s2 rho tau' qo = map rho O).
    { intros rho tau' Hs. destruct (Y rho tau' Hs) as (tau & Hs1 & D & Cq). unfold Ceq in Cq. cbn [nrep us with_us] in *. rewrite <- !D by auto. rewrite Cq, dshape_plain, den_with_us, (den_plain s rho tau qo I Ho Ro). fold O. split; [|auto].
      unfold reduces. rewrite map_length, LenR. split; [auto|]. fold red. rewrite <- Sort. apply S1. auto. }
    split; intros rho tau Hs; apply K; auto. }
  assert (Wo2 : wf_repr s2 (mkshape O None [])) by (apply wf_plain; auto).
  assert (IS2 := infer_step qi qo s2 s2 qo (mkshape O None []) (reduces axes false) I2 (born_refl s2 I2) ltac:(lia) Wo2 ltac:(auto)).
  assert (St2 : step_ok qi qo s2 s2 qo (mkshape O None []) (reduces axes false)). { intros rho tau Hs _. exists rho, tau. split; [intros x _; auto|]. split; [auto|]. split; [auto|]. rewrite dshape_plain. apply Gv; auto. }
  specialize (IS2 St2). destruct (inner_match qo (mkshape O None []) s2) as [s3 [[]|e]].
  - destruct IS2 as (Sd2 & _ & _). split; [eapply soundly_trans; eauto|]. eapply gives_forward; [| |exact Sd2|apply Gv]; lia.
  - destruct IS2 as [-> Nv]. split; [auto|]. eapply never_back; [| |exact Sd|exact Nv]; auto.
Qed.
Lemma backward_keep_ok s qi qo axes : sinv s -> qi < nrep s -> qo < nrep s -> root (rp s qo) = None -> (forall a, In a axes -> (0 < a)%Z) -> NoDup axes ->
  match backward qi qo axes true s with
  | (s', Ok _) => soundly qi qo s s' (reduces axes true) /\ gives qi qo s' (reduces axes true)
  | (_, Err e) => (e = ValueError \/ e = IndexError) /\ never qi qo s (reduces axes true)
  end.
Proof.
  intros I Hi Ho Ro Pos ND. unfold backward. set (O := pre (rp s qo)) in *. assert (Wq := s_repr _ I qo Ho). destruct (wf_live s _ Wq) as [W1 _]. fold O in W1. set (R := Z.of_nat (length O)).
  assert (Em : map (fun a => if (0 <? a)%Z then a else (a + R)%Z) axes = axes). { rewrite <- (map_id axes) at 2. apply map_ext_in. intros a Ha. apply Pos in Ha. destruct (Z.ltb_spec 0 a); lia. }
  assert (En : forall r, map (normed r) axes = axes). { intros r. rewrite <- (map_id axes) at 2. apply map_ext_in. intros a Ha. apply Pos in Ha. unfold normed. destruct (Z.ltb_spec a 0); lia. }
  rewrite Em. unfold hbind at 1.
  assert (Nv : (exists a, In a axes /\ (R <= a)%Z) -> never qi qo s (reduces axes true)).
  { intros (a & Ha & La) rho tau Hs H. assert (Lr := reduces_length _ _ _ _ H). destruct H as [[Ok _] _]. apply Ok in Ha as Hb. rewrite (den_plain s rho tau qo I Ho Ro), map_length in Lr. fold O in Lr. apply Pos in Ha. unfold normed in Hb. destruct (Z.ltb_spec a 0); unfold R in La; lia. }
  destruct (back_keep_ok (sort_z axes) ltac:(intros a Ha; apply (proj1 (In_sort _ _)), Pos in Ha; lia) O O s (s_inv _ I) W1 W1 eq_refl) as [[(a & Ha & La) E]|(Rg & u1 & inp & out & E & G & Li & Lo & Len1 & Len2 & S1 & C1)].
  { destruct (back_loop true (sort_z axes) O O s) as [s1 [x|e]]; [discriminate|]. cbn in E. split; [right; congruence|]. apply Nv. exists a. apply (proj1 (In_sort _ _)) in Ha. auto. }
  rewrite E. assert (Ok : axes_ok axes R). { split; [|rewrite En; auto]. intros a Ha. apply Pos in Ha as Pa. apply (proj2 (In_sort _ _)) in Ha. apply Rg in Ha. unfold normed. destruct (Z.ltb_spec a 0); unfold R; lia. }
  assert (Red : forall (rho : nat -> Z) (x y : list Z), length x = length O -> y = without axes true 0 x <-> length y = length O /\ forall j, j < length O -> nth j y 0%Z = if existsb (Z.eqb (Z.of_nat j)) axes then 1%Z else nth j x 0%Z).
  { intros _ x y Lx. split.
    - intros ->. rewrite without_keep_length. split; [auto|]. intros j Hj. apply without_keep_nth. lia.
    - intros [Ly H]. apply list_nth_ext; [rewrite without_keep_length; lia|]. intros j Hj. rewrite H by lia. symmetry. apply without_keep_nth. lia. }
  assert (B := born_us s u1 I G). assert (Wo : wf_repr (with_us s u1) (mkshape inp None [])) by (apply wf_plain; auto).
  assert (IS := infer_step qi qo s (with_us s u1) qi (mkshape inp None []) (reduces axes true) I B Hi Wo ltac:(intros rho Hs; apply S1; auto)).
  assert (St : step_ok qi qo s (with_us s u1) qi (mkshape inp None []) (reduces axes true)).
  { intros rho tau Hs H. assert (Lr := reduces_length _ _ _ _ H). destruct H as [_ Ey]. rewrite En in Ey. rewrite (den_plain s rho tau qo I Ho Ro) in Ey, Lr. fold O in Ey, Lr. rewrite map_length in Lr. set (x := den s rho tau qi) in *.
    apply (Red rho x _ ltac:(lia)) in Ey as [_ Ey]. destruct (C1 rho x Hs ltac:(lia)) as (rho' & A & Hs' & M).
    { intros j Hj Hn. rewrite Ey by auto. rewrite In_sort in Hn. apply existsb_notIn in Hn. rewrite Hn. auto. }
    exists rho', tau. split; [auto|]. split; [auto|]. split; [auto|]. rewrite dshape_plain. auto. }
  specialize (IS St). unfold hbind. destruct (inner_match qi (mkshape inp None []) (with_us s u1)) as [s2 [[]|e]]; [|split; [left|]; apply IS]. destruct IS as (Sd & (_ & Ll) & Y). specialize (Y eq_refl).
  assert (I2 : sinv s2) by apply Sd. assert (N2 : nrep s2 = nrep s) by apply Sd.
  assert (K : forall rho tau', sat (us s2) rho -> exists tau, sat u1 rho /\ den s2 rho tau' qi = map rho inp /\ den s2 rho tau' qo = map rho O /\ den s rho tau qo = den s2 rho tau' qo).
  { intros rho tau' Hs. destruct (Y rho tau' Hs) as (tau & Hs1 & D & Cq). unfold Ceq in Cq. cbn [nrep us with_us] in *. exists tau. rewrite <- !D by auto. rewrite Cq, dshape_plain, den_with_us, (den_plain s rho tau qo I Ho Ro). auto. }
  assert (Wo2 : wf_repr s2 (mkshape out None [])) by (apply wf_plain; intros x Hx; apply Ll, Lo; auto).
  assert (IS2 := infer_step qi qo s2 s2 qo (mkshape out None []) (reduces axes true) I2 (born_refl s2 I2) ltac:(lia) Wo2 ltac:(auto)).
  assert (St2 : step_ok qi qo s2 s2 qo (mkshape out None []) (reduces axes true)).
  { intros rho tau Hs H. exists rho, tau. split; [intros x _; auto|]. split; [auto|]. split; [auto|]. rewrite dshape_plain. destruct (K rho tau Hs) as (tau0 & Hs1 & D1 & D2 & _). destruct H as [_ Ey]. rewrite En in Ey.
    rewrite D1 in Ey. apply (Red rho) in Ey as [Ly Ey]; [|rewrite map_length; auto]. apply list_nth_ext; [rewrite map_length; lia|]. rewrite Ly. intros j Hj. rewrite Ey by auto. destruct (S1 rho Hs1) as [_ H]. destruct (H j Hj) as [H1 H2]. rewrite In_sort in H1, H2.
    destruct (existsb (Z.eqb (Z.of_nat j)) axes) eqn:Ex; [apply existsb_In in Ex; rewrite H1; auto|]. apply existsb_notIn in Ex. destruct (H2 Ex) as [H3 H4]. rewrite H3, H4. auto. }
  specialize (IS2 St2). destruct (inner_match qo (mkshape out None []) s2) as [s3 [[]|e]].
  - destruct IS2 as (Sd2 & _ & Y2). split; [eapply soundly_trans; eauto|]. intros rho tau3 Hs. destruct (Y2 eq_refl rho tau3 Hs) as (tau2 & Hs2 & D2 & Cq). unfold Ceq in Cq. rewrite dshape_plain in Cq. rewrite <- !D2 by lia. rewrite Cq.
    destruct (K rho tau2 Hs2) as (tau & Hs1 & Di & _). rewrite Di. unfold reduces. rewrite map_length, Len1. fold R. split; [auto|]. rewrite En. apply (Red rho); [rewrite map_length; auto|]. split; [rewrite map_length; auto|]. intros j Hj.
    destruct (S1 rho Hs1) as [_ H]. destruct (H j Hj) as [H1 H2]. rewrite In_sort in H1, H2. destruct (existsb (Z.eqb (Z.of_nat j)) axes) eqn:Ex; [apply existsb_In in Ex; auto|]. apply existsb_notIn in Ex. destruct (H2 Ex) as [H3 H4]. rewrite H3, H4. auto.
  - destruct IS2 as [-> Nv2]. split; [auto|]. eapply never_back; [| |exact Sd|exact Nv2]; auto.
Qed.

(** ** The preliminary checks *)
Lemma known_some axes : known (map Some axes) = axes.
Proof. induction axes; cbn; congruence. Qed.
Lemma completes_some l axes : completes l axes -> forall a, In a (known l) -> In a axes.
Proof. induction 1 as [|o a l axes H C IH]; cbn; [auto|]. intros b Hb. destruct o as [z|]; [destruct Hb as [<-|Hb]; [left; auto|right; auto]|right; auto]. Qed.
Lemma completes_map axes axes' : completes (map Some axes) axes' -> axes' = axes.
Proof. revert axes'. induction axes as [|a axes IH]; intros axes' C; inversion C; subst; auto. f_equal; auto. Qed.
Lemma completes_refl axes : completes (map Some axes) axes.
Proof. unfold completes. induction axes; cbn; constructor; auto. Qed.
Lemma known_ok l axes R : completes l axes -> axes_ok axes R -> axes_ok (known l) R.
Proof.
  intros C [H ND]. split; [intros a Ha; apply H; eapply completes_some; eauto|]. revert ND. clear H. induction C as [|o a l axes H C IH]; intros ND; cbn; [constructor|]. cbn in ND. inversion ND as [|? ? N1 N2]; subst.
  destruct o as [z|]; [|auto]. cbn. constructor; auto. intros M. apply N1. apply in_map_iff in M as (b & E & Hb). rewrite H, <- E. apply in_map. eapply completes_some; eauto.
Qed.
Lemma reduces_by_axes axis kd x y l : axes_of axis = Some l -> reduces_by axis kd x y -> exists keep axes, match kd with Some k => keep = k | None => True end /\ completes l axes /\ reduces axes keep x y.
Proof.
  intros E (keep & K & H). exists keep. destruct axis as [| |a|l']; try discriminate; injection E as <-.
  - exists [a]. split; [auto|]. split; [apply (completes_refl [a])|auto].
  - destruct H as (axes & C & H). exists axes. auto.
Qed.
Lemma reduces_by_intro axis keep x y axes : axes_of axis = Some (map Some axes) -> reduces axes keep x y -> reduces_by axis (Some keep) x y.
Proof.
  intros E H. exists keep. split; [auto|]. destruct axis as [| |a|l]; try discriminate.
  - injection E as E. destruct axes as [|b [|]]; try discriminate. injection E as <-. auto.
  - injection E as ->. exists axes. split; [apply completes_refl|auto].
Qed.
Lemma reduces_by_keep axis x y : reduces_by axis (Some true) x y -> length y = length x.
Proof.
  intros (keep & -> & H). destruct axis as [| |a|l].
  - unfold reduces_all in H. subst. apply map_length.
  - destruct H as [H|(axes & H)]; [unfold reduces_all in H; subst; apply map_length|]. apply reduces_length in H. lia.
  - apply reduces_length in H. lia.
  - destruct H as (axes & _ & H). apply reduces_length in H. lia.
Qed.
Lemma den_length s rho tau q : length (den s rho tau q) = shlen (rp s q) + length (rval tau (root (rp s q))).
Proof. unfold den, dshape, shlen. rewrite !app_length, !map_length. lia. Qed.
Lemma Forall2_len {A B} (P : A -> B -> Prop) l1 l2 : Forall2 P l1 l2 -> length l1 = length l2.
Proof. induction 1; cbn; auto. Qed.

Definition axes_check (i o : shrepr) (axes : list Z) : res unit :=
  match root i, root o with
  | Some _, Some _ => if repeated axes then Err ValueError else Ok tt
  | _, _ =>
      let L := match root i with None => zlen i | Some _ => Z.of_nat (length (pre o) + length axes) end in
      if (L <? zmax (-1) (map (normed L) axes) + 1)%Z then Err ValueError else if repeated (map (normed L) axes) then Err ValueError else Ok tt
  end.
Lemma sanity_eq i o axis kd : reduce_sanity i o axis kd =
  if eqb (root i) (root o) && match kd with
       | Some true => negb (shlen i =? shlen o)
       | Some false => match axes_of axis with Some l => negb (shlen i =? shlen o + length l) | None => false end
       | None => false
       end then Err ValueError
  else match axes_of axis with None => Ok tt | Some l => axes_check i o (known l) end.
Proof.
  unfold reduce_sanity, axes_check. destruct (_ && _); auto. destruct (axes_of axis) as [l|]; auto.
  assert (E : forall L, map (fun idx => if (0 <=? idx)%Z then idx else (idx + L)%Z) (known l) = map (normed L) (known l)). { intros L. apply map_ext. intros a. unfold normed. destruct (Z.leb_spec 0 a), (Z.ltb_spec a 0); lia. }
  destruct (root i), (root o); rewrite ?E; auto.
Qed.
Lemma check_passes axes R L : axes_ok axes R -> (0 <= R <= L)%Z -> map (normed L) axes = map (normed R) axes ->
  (L <? zmax (-1) (map (normed L) axes) + 1)%Z = false /\ repeated (map (normed L) axes) = false.
Proof.
  intros [H ND] LR ->. split; [|apply not_repeated; auto]. apply Z.ltb_ge. destruct (zmax_spec (-1) (map (normed R) axes)) as (_ & M & D). destruct axes as [|a axes]; [rewrite D by auto; lia|].
  assert (X : In (zmax (-1) (map (normed R) (a :: axes))) (map (normed R) (a :: axes))) by (apply M; discriminate). apply in_map_iff in X as (b & E & Hb). apply H in Hb. lia.
Qed.
Lemma check_false axes L : (L <? zmax (-1) (map (normed L) axes) + 1)%Z = false -> repeated (map (normed L) axes) = false -> (forall a, In a axes -> (- L <= a)%Z) -> axes_ok axes L.
Proof.
  intros H1 H2 Lo. apply Z.ltb_ge in H1. apply not_repeated in H2. split; [|auto]. intros a Ha. destruct (zmax_spec (-1) (map (normed L) axes)) as (M & _). assert (X := M (normed L a) ltac:(apply in_map; auto)). split; [|lia].
  specialize (Lo a Ha). unfold normed. destruct (Z.ltb_spec a 0); lia.
Qed.
Lemma NoDup_map {A B} (f : A -> B) l : NoDup (map f l) -> NoDup l.
Proof. induction l as [|x l IH]; cbn; intros H; constructor; inversion H; subst; auto. intros Hx. apply H2. apply in_map. auto. Qed.

Lemma sanity_passes s qi qo axis kd rho tau : sinv s -> qi < nrep s -> qo < nrep s -> fine (rp s qi) (rp s qo) axis kd ->
  reduces_by axis kd (den s rho tau qi) (den s rho tau qo) -> reduce_sanity (rp s qi) (rp s qo) axis kd = Ok tt.
Proof.
  intros I Hi Ho Fine H. rewrite sanity_eq. assert (Li := den_length s rho tau qi). assert (Lo := den_length s rho tau qo).
  match goal with |- (if ?c then _ else _) = _ => assert (Ec : c = false) end.
  { destruct (eqb (root (rp s qi)) (root (rp s qo))) eqn:Er; auto. apply (proj1 (eqb_eq _ _)) in Er. rewrite Er in Li. cbn [andb]. destruct kd as [[|]|]; auto.
    - apply reduces_by_keep in H. apply negb_false_iff, Nat.eqb_eq. lia.
    - destruct (axes_of axis) as [l|] eqn:Ea; auto. destruct (reduces_by_axes _ _ _ _ _ Ea H) as (keep & axes & -> & C & Hr). apply reduces_length in Hr. apply Forall2_len in C. apply negb_false_iff, Nat.eqb_eq. lia. }
  rewrite Ec. destruct (axes_of axis) as [l|] eqn:Ea; auto. destruct (reduces_by_axes _ _ _ _ _ Ea H) as (keep & axes & K & C & Hr). assert (Ok := known_ok _ _ _ C (proj1 Hr)). apply reduces_length in Hr as Lr.
  unfold axes_check. set (x := den s rho tau qi) in *. set (R := Z.of_nat (length x)) in *. unfold fine in Fine. rewrite Ea in Fine.
  assert (Plain : root (rp s qi) = None -> zlen (rp s qi) = R). { intros Rn. rewrite Rn in Li. cbn in Li. unfold zlen, R. lia. }
  destruct (root (rp s qi)) as [v|] eqn:Ri.
  - destruct (root (rp s qo)) as [w|] eqn:Ro.
    + assert (N : NoDup (known l)) by (eapply NoDup_map; apply Ok). apply not_repeated in N. rewrite N. auto.
    + destruct (Fine ltac:(discriminate) eq_refl) as (axes' & -> & F). apply completes_map in C as ->. rewrite known_some in *. cbn in Lo. assert (Ls : length (suf (rp s qo)) = 0). { destruct (s_repr _ I qo Ho) as (_ & W & _). rewrite (W Ro). auto. } unfold shlen in Lo.
      destruct (check_passes axes' R (Z.of_nat (length (pre (rp s qo)) + length axes')) Ok) as [-> ->]; auto.
      { unfold R. destruct keep; lia. }
      apply map_ext_in. intros a Ha. unfold normed. destruct (Z.ltb_spec a 0); auto. destruct kd as [[|]|]; [apply F in Ha; lia| |apply F in Ha; lia]. subst keep. unfold R. lia.
  - rewrite Plain by auto. destruct (check_passes (known l) R R Ok) as [-> ->]; auto. unfold R; lia.
Qed.

(** ** The rule *)
Lemma reduces_drops axes keep x y : reduces axes keep x y -> drops axes keep x y.
Proof. intros [_ H]. exact H. Qed.
Definition full (l : list (option Z)) : bool := forallb (fun a => match a with Some _ => true | None => false end) l.
Lemma full_known l : full l = true -> l = map Some (known l).
Proof. induction l as [|[z|] l IH]; cbn; intros H; [auto| |discriminate]. f_equal. auto. Qed.

Lemma full_map axes : full (map Some axes) = true.
Proof. induction axes; cbn; auto. Qed.
Definition reduced (s : shst) (qi qo : nat) (axis : axisv) (kd : option bool) (s' : shst) (b : bool) : Prop :=
  soundly qi qo s s' (reduces_by axis kd) /\
  (forall axes keep, axes_of axis = Some (map Some axes) -> kd = Some keep ->
     (root (rp s qi) = None -> (forall a, In a axes -> (- zlen (rp s qi) <= a)%Z) -> gives qi qo s' (reduces axes keep)) /\
     (root (rp s qi) <> None -> root (rp s qo) = None -> gives qi qo s' (reduces axes keep)) /\
     (root (rp s qi) <> None -> root (rp s qo) <> None -> root (rp s qi) <> root (rp s qo) -> b = true -> gives qi qo s' (reduces axes keep))) /\
  (forall keep, axis = AxNone -> kd = Some keep -> (keep = true -> root (rp s qi) = None) -> gives qi qo s' (reduces_all keep)).
Lemma reduced_idle s qi qo axis kd s' b l : axes_of axis = Some l -> (kd = None \/ full l = false) -> soundly qi qo s s' (reduces_by axis kd) -> reduced s qi qo axis kd s' b.
Proof.
  intros Ea H Sd. split; [auto|]. split.
  - intros axes keep E K. destruct H as [H|H]; [congruence|]. replace l with (map Some axes) in H by congruence. rewrite full_map in H. discriminate.
  - intros keep ->. discriminate.
Qed.

Lemma reduce_ok s qi qo axis kd : sinv s -> qi < nrep s -> qo < nrep s -> fine (rp s qi) (rp s qo) axis kd ->
  match reduce qi qo axis kd s with
  | (s', Ok b) => reduced s qi qo axis kd s' b
  | (_, Err e) => (e = ValueError \/ e = IndexError) /\ never qi qo s (reduces_by axis kd)
  end.
Proof.
  intros I Hi Ho Fine. unfold reduce. assert (Pass := fun rho tau => sanity_passes s qi qo axis kd rho tau I Hi Ho Fine).
  destruct (reduce_sanity (rp s qi) (rp s qo) axis kd) as [[]|e] eqn:San.
  2: { split; [|intros rho tau Hs H; specialize (Pass rho tau H); discriminate]. left. rewrite sanity_eq in San. destruct (_ && _); [congruence|]. destruct (axes_of axis) as [l|]; [|discriminate].
       unfold axes_check in San. destruct (root (rp s qi)), (root (rp s qo)); repeat (match type of San with (if ?c then _ else _) = _ => destruct c end; try congruence). }
  clear Pass. rewrite sanity_eq in San. destruct (_ && _) in San; [discriminate|].
  destruct (axes_of axis) as [l|] eqn:Ea.
  - (* axes *) set (axes := known l) in *.
    assert (Ok1 : forall x y, reduces_by axis kd x y -> axes_ok axes (Z.of_nat (length x))). { intros x y H. destruct (reduces_by_axes _ _ _ _ _ Ea H) as (keep & ax & _ & C & Hr). eapply known_ok; eauto. apply Hr. }
    assert (Imp : forall keep, kd = Some keep -> full l = true -> forall x y, reduces_by axis kd x y -> reduces axes keep x y).
    { intros keep -> Fl x y H. destruct (reduces_by_axes _ _ _ _ _ Ea H) as (k & ax & -> & C & Hr). rewrite (full_known l Fl) in C. apply completes_map in C as ->. auto. }
    assert (Eax : forall ax, Some l = Some (map Some ax) -> ax = axes). { intros ax E. unfold axes. injection E as ->. symmetry. apply known_some. }
    fold (full l). unfold hbind at 1. unfold axes_check in San. unfold fine in Fine. rewrite Ea in Fine.
    destruct (root (rp s qi)) as [v|] eqn:Ri; [destruct (root (rp s qo)) as [w|] eqn:Ro|].
    + (* both *)
      destruct (repeated axes) eqn:Rep; [discriminate|]. apply not_repeated in Rep.
      assert (IR := infer_rank_ok s qi qo axes v (reduces_by axis kd) I Hi Ho Ri Ok1). destruct (infer_rank qi axes s) as [s1 [[]|e]]; [|split; [left|]; apply IR].
      destruct IR as (Sd & Rk & (v1 & R1) & Rts & Rts2). assert (I1 : sinv s1) by apply Sd. assert (N1 : nrep s1 = nrep s) by apply Sd. unfold hbind.
      destruct kd as [keep|]; [destruct (full l) eqn:Fl|]; unfold hret, hgets; [|eapply reduced_idle; eauto..].
      specialize (Imp keep eq_refl eq_refl). rewrite R1.
      assert (Qo : root (rp s1 qo) <> None). { intros Hn. destruct (Nat.eq_dec v w) as [->|Nvw]; [apply Rts2; congruence|destruct Rts as [Rt1 _]; congruence]. }
      destruct (root (rp s1 qo)) as [w1|] eqn:Ro1; [|congruence].
      assert (Q := both_variadic_ok s1 qi qo v1 axes keep I1 ltac:(lia) ltac:(lia) R1 Rep).
      assert (En : (Z.of_nat (length axes) <= zlen (rp s1 qi))%Z). { assert (X := axes_ok_length axes _ (rank_needed_ok axes Rep)). unfold zlen in *. lia. }
      specialize (Q En). destruct (both_variadic qi qo axes keep s1) as [s' [[]|e]].
      * destruct Q as [Sd2 Gv]. split; [eapply soundly_trans; [| |exact Sd|eapply soundly_weaken; eauto]; auto|]. split; [|intros k ->; discriminate].
        intros ax k E Ek. rewrite Ea in E. apply Eax in E as ->. injection Ek as <-. rewrite Ri, Ro. split; [discriminate|]. split; [discriminate|]. intros _ _ Nr Hb. apply (proj1 (eqb_eq _ _)) in Hb. apply Gv; auto. destruct Rts as [Rt1 Rt2]; [congruence|]. exists w1. split; congruence.
      * destruct Q as [-> Nv]. split; [auto|]. eapply never_back; [| |exact Sd|]; auto. intros rho tau Hs H. apply (Nv rho tau Hs). auto.
    + (* the output has a known rank *)
      unfold hbind. destruct (Fine ltac:(discriminate) eq_refl) as (ax & El & F). assert (ax = axes) as -> by (apply Eax; congruence).
      assert (Fl : full l = true) by (rewrite El; apply full_map). rewrite Fl. destruct kd as [keep|]; unfold hret, hgets; [|eapply reduced_idle; eauto; apply soundly_refl; auto]. rewrite Ri, Ro.
      specialize (Imp keep eq_refl Fl). destruct (_ <? _)%Z eqn:C1 in San; [discriminate|]. destruct (repeated _) eqn:C2 in San; [discriminate|].
      assert (Q : match backward qi qo axes keep s with
        | (s', Ok _) => soundly qi qo s s' (reduces axes keep) /\ gives qi qo s' (reduces axes keep)
        | (_, Err e) => (e = ValueError \/ e = IndexError) /\ never qi qo s (reduces axes keep) end).
      { destruct keep.
        - apply backward_keep_ok; auto. apply not_repeated in C2. eapply NoDup_map; eauto.
        - assert (Q := backward_drop_ok s qi qo axes I Hi Ho Ro). cbv zeta in Q. specialize (Q (fun a Ha => proj1 (F a Ha))). rewrite (Nat.add_comm (length axes)) in Q.
          specialize (Q (check_false _ _ C1 C2 (fun a Ha => proj2 (F a Ha)))). destruct (backward qi qo axes false s) as [s' [[]|e]]; auto. split; [left|]; apply Q. }
      destruct (backward qi qo axes keep s) as [s' [[]|e]].
      * destruct Q as [Sd Gv]. split; [eapply soundly_weaken; eauto|]. split; [|intros k ->; discriminate]. intros ax k E Ek. rewrite Ea in E. apply Eax in E as ->. injection Ek as <-. rewrite Ri, Ro. split; [discriminate|]. split; [auto|]. congruence.
      * split; [apply Q|]. intros rho tau Hs H. apply (proj2 Q rho tau Hs). auto.
    + (* the input has a known rank *)
      unfold hbind. destruct kd as [keep|]; [destruct (full l) eqn:Fl|]; unfold hret, hgets; [|eapply reduced_idle; eauto; apply soundly_refl; auto..]. rewrite Ri.
      specialize (Imp keep eq_refl eq_refl). assert (Q := forward_ok s qi qo axes keep I Hi Ho Ri). destruct (forward qi qo axes keep s) as [s' [[]|e]].
      * destruct Q as [Sd Gv]. assert (Sd' : soundly qi qo s s' (reduces_by axis (Some keep))). { eapply soundly_weaken; [exact Sd|]. intros x y H. apply reduces_drops. auto. } split; [exact Sd'|]. split; [|intros k ->; discriminate].
        intros ax k E Ek. rewrite Ea in E. apply Eax in E as ->. injection Ek as <-. rewrite Ri. split; [|split; congruence]. intros _ Lo rho tau Hs. split; [|apply (Gv rho tau Hs)].
        destruct Sd as (_ & _ & _ & _ & Bk). destruct (Bk rho tau Hs) as (t & _ & D). rewrite <- (D qi Hi), den_length, Ri. cbn [rval length]. rewrite Nat.add_0_r.
        destruct (_ <? _)%Z eqn:C1 in San; [discriminate|]. destruct (repeated _) eqn:C2 in San; [discriminate|]. apply (check_false _ _ C1 C2 Lo).
      * split; [left; apply Q|]. intros rho tau Hs H. apply (proj2 Q rho tau Hs), reduces_drops. auto.
  - destruct axis as [| |a|l]; try discriminate.
    + (* axis None *)
      assert (Imp : forall keep x y, reduces_by AxNone (Some keep) x y -> reduces_all keep x y) by (intros keep x y (k & -> & H); exact H).
      destruct kd as [[|]|].
      * assert (Q := all_keep_ok s qi qo I Hi Ho). cbv zeta in Q. revert Q. unfold hbind. destruct (new_dims (Some 1%Z) (length (pre (rp s qi))) s) as [s1 [pr|e]]; [|intros [-> Q]; split; [auto|intros rho tau Hs H; apply (Q rho tau Hs); auto]].
        destruct (new_dims (Some 1%Z) (length (suf (rp s qi))) s1) as [s2 [sf|e]]; [|intros [-> Q]; split; [auto|intros rho tau Hs H; apply (Q rho tau Hs); auto]].
        assert (Fin : forall s3 rt, match inner_match qo (mkshape pr rt sf) s3 with
            | (s', Ok _) => soundly qi qo s s' (reduces_all true) /\ (root (rp s qi) = None -> gives qi qo s' (reduces_all true))
            | (_, Err e) => e = ValueError /\ never qi qo s (reduces_all true) end ->
          match (let (s', r) := inner_match qo (mkshape pr rt sf) s3 in match r with Ok _ => hgets (fun s => match root (rp s qi) with Some _ => false | None => true end) s' | Err e => (s', Err e) end) with
            | (s', Ok b) => reduced s qi qo AxNone (Some true) s' b
            | (_, Err e) => (e = ValueError \/ e = IndexError) /\ never qi qo s (reduces_by AxNone (Some true)) end).
        { intros s3 rt. destruct (inner_match qo (mkshape pr rt sf) s3) as [s' [[]|e]]; [|intros [-> Q]; split; [auto|intros rho tau Hs H; apply (Q rho tau Hs); auto]].
          intros [Sd Gv]. unfold hgets. split; [eapply soundly_weaken; eauto|]. split; [intros axes k E; discriminate|]. intros keep _ Ek Hr. injection Ek as <-. apply Gv. auto. }
        destruct (root (rp s qi)) as [v|]; [|apply Fin]. destruct (new_variadic s2) as [s3 [rt|e]]; [apply Fin|]. intros [-> Q]; split; [auto|intros rho tau Hs H; apply (Q rho tau Hs); auto].
      * unfold hbind. assert (Q := all_drop_ok s qi qo I Hi Ho). destruct (inner_match qo (mkshape [] None []) s) as [s' [[]|e]].
        -- destruct Q as [Sd Gv]. unfold hret. split; [eapply soundly_weaken; eauto|]. split; [intros axes k E; discriminate|]. intros keep _ Ek _. injection Ek as <-. exact Gv.
        -- split; [left; apply Q|]. intros rho tau Hs H. apply (proj2 Q rho tau Hs). auto.
      * split; [apply soundly_refl; auto|]. split; [intros axes k E; discriminate|intros keep _ E; discriminate].
    + destruct kd as [[|]|]; (split; [apply soundly_refl; auto|]; split; [intros axes k E; discriminate|intros keep E; discriminate]).
Qed.
