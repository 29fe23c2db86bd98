(** * C73: swap_axes *)
From Coq Require Import List Arith Lia Bool ZArith.
From Verif Require Import PyBase Uniadic_Model Uniadic_Proofs Uniadic_Props Bcast_Proofs Shape_Model Shape_Proofs Shape_Proofs2 Shape_Proofs3 Shape_Props Reduce_Model
  Rule_Proofs Window_Model Window_Proofs Window_Props Arange_Model Arange_Proofs Arange_Props Reshape_Model Reshape_Proofs Reshape_Props Concat_Model Concat_Proofs Concat_Props
  Flat_Model Flat_Spec Flat_Proofs Flat_Proofs2 Flat_Proofs3 Flat_Props Pad_Model Pad_Spec Pad_Proofs Pad_Props Swap_Model Swap_Spec Swap_Proofs Swap_Proofs2 Swap_Proofs3.
Import ListNotations.
Open Scope list_scope. Open Scope nat_scope. Open Scope shm_scope.

(** ** Sessions with the rules so far and swap_axes, except when both axes are given and one rank only is known, or different ranks are (see the findings) *)
Definition rank_known (s : shst) (q : nat) : Prop := exists n, has_rank_now s q n.
Definition comparable (s : shst) (qi qo : nat) : Prop := (~ rank_known s qi /\ ~ rank_known s qo) \/ exists n, has_rank_now s qi n /\ has_rank_now s qo n.
Inductive swrule (s : shst) : shst -> Prop :=
| sw_old s' : prule s s' -> swrule s s'
| sw_swap qi qo a b s' r : qi < nrep s -> qo < nrep s -> (a = None \/ b = None \/ comparable s qi qo) -> swap_rule qi qo a b s = (s', Ok r) -> swrule s s'.
Lemma rank_root s q : sinv s -> q < nrep s -> rank_known s q <-> root (rp s q) = None.
Proof. intros I Hq. unfold rank_known. symmetry. apply (rank_iff s q I Hq). Qed.
Lemma plain_rank s q n : sinv s -> q < nrep s -> root (rp s q) = None -> has_rank_now s q n -> length (pre (rp s q)) = n.
Proof.
  intros I Hq R H. destruct (sat_exists (us s) (s_inv _ I)) as (rho & Hs). assert (A := allows_self s rho (fun _ => []) Hs). rewrite <- (H rho _ A). rewrite (plain_sh s q rho _ I Hq R A), map_length. auto.
Qed.
Lemma sides s qi qo : sinv s -> qi < nrep s -> qo < nrep s -> comparable s qi qo ->
  (root (rp s qi) <> None /\ root (rp s qo) <> None) \/ (root (rp s qi) = None /\ root (rp s qo) = None /\ length (pre (rp s qi)) = length (pre (rp s qo))).
Proof.
  intros I Hi Ho [[H1 H2]|(n & H1 & H2)]; [left; rewrite rank_root in H1, H2 by auto; auto|right].
  assert (R1 : root (rp s qi) = None) by (apply rank_root; [auto..|exists n; auto]). assert (R2 : root (rp s qo) = None) by (apply rank_root; [auto..|exists n; auto]).
  do 2 (split; [auto|]). rewrite (plain_rank s qi n), (plain_rank s qo n); auto.
Qed.
Lemma some_root r : root r <> None -> no_root r = false.
Proof. intros H. destruct (no_root r) eqn:E; [apply no_root_iff in E; contradiction|auto]. Qed.
Lemma ends a b : same_end a b \/ different_ends a b.
Proof. unfold same_end, different_ends. lia. Qed.
Lemma given_range a b x y z : swaps_given a b x y -> a = Some z \/ b = Some z -> (- Z.of_nat (length x) <= z < Z.of_nat (length x))%Z.
Proof. intros (a' & b' & Ha & Hb & Sw) H. apply swaps_rank in Sw as [_ R]. apply R. destruct H as [-> | ->]; auto. Qed.
Lemma swap_sound s qi qo a b : sinv s -> qi < nrep s -> qo < nrep s -> (a = None \/ b = None \/ comparable s qi qo) ->
  match swap_rule qi qo a b s with
  | (s', Ok _) => sound_for (fun sh => swaps_given a b (sh qi) (sh qo)) s s'
  | (_, Err e) => e = ValueError /\ excludes (fun sh => swaps_given a b (sh qi) (sh qo)) s
  end.
Proof.
  intros I Hi Ho C. assert (One : forall z, a = Some z \/ b = Some z -> match swap_one qi z s with
    | (s', Ok _) => sound_for (fun sh => swaps_given a b (sh qi) (sh qo)) s s'
    | (_, Err e) => e = ValueError /\ excludes (fun sh => swaps_given a b (sh qi) (sh qo)) s end).
  { intros z Hz. assert (X := one_axis_ok s qi qo z (fun sh => swaps_given a b (sh qi) (sh qo)) I Hi Ho (fun sh Hp => given_range a b _ _ z Hp Hz)). destruct (swap_one qi z s) as [s' [r|e]]; [apply X|auto]. }
  unfold swap_rule. destruct a as [a|], b as [b|]; [|apply One; auto..|apply sound_for_refl; auto].
  destruct C as [C|[C|C]]; [discriminate..|]. assert (W : forall sh : nat -> list Z, swaps_given (Some a) (Some b) (sh qi) (sh qo) -> swaps a b (sh qi) (sh qo)) by (intros sh (a' & b' & -> & -> & H); auto).
  destruct (sides s qi qo I Hi Ho C) as [[R1 R2]|(R1 & R2 & L)].
  - rewrite (some_root _ R1), (some_root _ R2). cbn [orb]. assert (X := ends a b). destruct X as [X|X]; [assert (Y := unknown_ok s qi qo a b I Hi Ho R1 X)|assert (Y := mixed_ok s qi qo a b I Hi Ho R1 X)];
      (destruct (swap_unknown qi qo a b s) as [s' [r|e]]; [eapply sound_for_weaken; [apply Y|exact W]|destruct Y as [-> Y]; split; [auto|]; eapply excludes_weaken; [exact Y|exact W]]).
  - rewrite (proj2 (no_root_iff _) R1). cbn [orb]. assert (Y := known_ok s qi qo a b I Hi Ho R1 R2 L). destruct (swap_known qi qo a b s) as [s' [r|e]]; [eapply sound_for_weaken; [apply Y|exact W]|destruct Y as [-> Y]; split; [auto|]; eapply excludes_weaken; [exact Y|exact W]].
Qed.
Lemma swrule_inv s s' : sinv s -> swrule s s' -> sinv s'.
Proof. intros I. destruct 1 as [s' W|qi qo a b s' r Hi Ho C E]; [eapply prule_inv; eauto|]. assert (X := swap_sound s qi qo a b I Hi Ho C). rewrite E in X. apply X. Qed.
Definition swsess : shst -> Prop := runs swrule.
Lemma swsess_inv s : swsess s -> sinv s.
Proof. apply runs_inv, swrule_inv. Qed.

(** ** Unless one rank only is known, no possible shapes are lost and none invented, whatever is known of the axes; an error means that none were
    possible.  The rule is finished exactly if both axes are given and are counted from the same end or the ranks are known. *)
Theorem C73_sound : forall s qi qo a b, swsess s -> qi < nrep s -> qo < nrep s -> (a = None \/ b = None \/ comparable s qi qo) ->
  match swap_rule qi qo a b s with
  | (s', Ok r) => swsess s' /\ narrows (fun sh => swaps_given a b (sh qi) (sh qo)) s s' /\
      (r = true <-> exists x y, a = Some x /\ b = Some y /\ (rank_known s qi \/ ((x < 0)%Z <-> (y < 0)%Z)))
  | (_, Err e) => e = ValueError /\ forall rho sh, allows s rho sh -> ~ swaps_given a b (sh qi) (sh qo)
  end.
Proof.
  intros s qi qo a b Ss Hi Ho C. assert (I := swsess_inv s Ss). assert (X := swap_sound s qi qo a b I Hi Ho C). destruct (swap_rule qi qo a b s) as [s' [r|e]] eqn:E; [|exact X].
  split; [eapply runs_rule; [exact Ss|exact (sw_swap s qi qo a b s' r Hi Ho C E)]|]. split; [apply sound_narrows; exact X|]. clear X. unfold swap_rule in E.
  assert (One : forall z, swap_one qi z s = (s', Ok r) -> r = false). { intros z Ez. assert (Y := one_axis_ok s qi qo z (fun sh => swaps z z (sh qi) (sh qo)) I Hi Ho (fun sh Hp => proj2 (swaps_rank _ _ _ _ Hp) z (or_introl eq_refl))). rewrite Ez in Y. apply Y. }
  destruct a as [a|], b as [b|].
  2,3: apply One in E as ->; split; [discriminate|intros (x & y & ? & ? & _); discriminate].
  2: injection E as <- <-; split; [discriminate|intros (x & y & ? & ? & _); discriminate].
  destruct C as [C|[C|C]]; [discriminate..|]. destruct (sides s qi qo I Hi Ho C) as [[R1 R2]|(R1 & R2 & L)].
  - rewrite (some_root _ R1), (some_root _ R2) in E. cbn [orb] in E. destruct (ends a b) as [D|D]; [assert (Y := unknown_ok s qi qo a b I Hi Ho R1 D)|assert (Y := mixed_ok s qi qo a b I Hi Ho R1 D)]; rewrite E in Y; destruct Y as [-> _].
    + split; [intros _; exists a, b; do 2 (split; [auto|]); right; unfold same_end in D; lia|auto].
    + split; [discriminate|]. intros (x & y & Ex & Ey & [K|K]); [apply (rank_root s qi I Hi) in K; contradiction|]. injection Ex as <-. injection Ey as <-. unfold different_ends in D. lia.
  - rewrite (proj2 (no_root_iff _) R1) in E. cbn [orb] in E. assert (Y := known_ok s qi qo a b I Hi Ho R1 R2 L). rewrite E in Y. destruct Y as [-> _]. split; [|auto]. intros _. exists a, b. do 2 (split; [auto|]). left. apply rank_root; auto.
Qed.
(** ** Known ranks: afterwards the sizes of the two axes are exchanged. *)
Theorem C73_known : forall s qi qo a b s' r n, swsess s -> qi < nrep s -> qo < nrep s -> has_rank_now s qi n -> has_rank_now s qo n -> swap_rule qi qo (Some a) (Some b) s = (s', Ok r) ->
  forall rho sh, allows s' rho sh -> length (sh qi) = n /\ length (sh qo) = n /\ exists i j, axis_at n a i /\ axis_at n b j /\ nth_error (sh qo) i = nth_error (sh qi) j /\ nth_error (sh qo) j = nth_error (sh qi) i.
Proof.
  intros s qi qo a b s' r n Ss Hi Ho H1 H2 E rho sh A. assert (I := swsess_inv s Ss). assert (C : comparable s qi qo) by (right; exists n; auto).
  destruct (sides s qi qo I Hi Ho C) as [[R1 _]|(R1 & R2 & L)]; [exfalso; apply R1, rank_root; [auto..|exists n; auto]|].
  unfold swap_rule in E. rewrite (proj2 (no_root_iff _) R1) in E. cbn [orb] in E. assert (Y := known_ok s qi qo a b I Hi Ho R1 R2 L). rewrite E in Y. destruct Y as (_ & S & Y).
  assert (A0 : allows s rho sh) by (apply S; auto). assert (L1 := H1 rho sh A0). assert (L2 := H2 rho sh A0). split; [auto|]. split; [auto|]. destruct (Y rho sh A) as (i & j & i' & j' & X1 & X2 & X3 & X4 & X5 & X6).
  rewrite L1 in X1, X2. rewrite L2 in X3, X4. rewrite (axis_fun _ _ _ _ X3 X1), (axis_fun _ _ _ _ X4 X2) in *. exists i, j. auto.
Qed.

(** ** Cases *)
(** representations: 0 (3, ?, 2); 1 (?, ?, ?); 2 (5, ..., 7); 3 unknown; 4 (3, 2); 5 (2, ...); 6 the unknown part of 5; 7 (2, 3, 4); 8 (3, 2, 9); 9 (3, 2, 9, 9) *)
Definition c73_state := state [ODim (Some 3%Z); ODim None; ODim (Some 2%Z); ODim None; ODim None; ODim None; ODim (Some 5%Z); ODim (Some 7%Z); ODim (Some 4%Z); ODim (Some 9%Z); OVar; OVar; OVar;
  ORepr (mkshape [0; 1; 2] None []); ORepr (mkshape [3; 4; 5] None []); ORepr (mkshape [6] (Some 0) [7]); ORepr (mkshape [] (Some 1) []); ORepr (mkshape [0; 2] None []); ORepr (mkshape [2] (Some 2) []); ORepr (mkshape [] (Some 2) []);
  ORepr (mkshape [2; 0; 8] None []); ORepr (mkshape [0; 2; 9] None []); ORepr (mkshape [0; 2; 9; 9] None [])].
Lemma c73_sess : swsess c73_state.
Proof. apply reach_runs, state_reach. Qed.
Lemma c73_det q x : q < 10 -> root (rp c73_state q) = None -> values c73_state (pre (rp c73_state q)) = map Some x -> determined c73_state q x.
Proof. intros L R V. apply determined_values; [apply swsess_inv, c73_sess|vm_compute in L |- *; lia|auto]. Qed.
Lemma c73_rank q : q < 10 -> root (rp c73_state q) = None -> has_rank_now c73_state q (length (pre (rp c73_state q))).
Proof. intros L R rho sh A. rewrite (plain_sh c73_state q rho sh (swsess_inv _ c73_sess) ltac:(vm_compute in L |- *; lia) R A). apply map_length. Qed.
Lemma c73_unranked q : q < 10 -> root (rp c73_state q) <> None -> ~ rank_known c73_state q.
Proof. intros L R K. apply R. apply (rank_root c73_state q (swsess_inv _ c73_sess)); [vm_compute in L |- *; lia|auto]. Qed.
(** (5, ..., 7) with axes 0 and 2, -1 and -3, and 1 and -2; one axis; (3, ?, 2) with axes 0 and -1 *)
Example C73_sound_example : swsess c73_state /\ comparable c73_state 2 3 /\ comparable c73_state 0 1 /\
  snd (swap_rule 2 3 (Some 0%Z) (Some 2%Z) c73_state) = Ok true /\ shape_now (fst (swap_rule 2 3 (Some 0%Z) (Some 2%Z) c73_state)) 3 = ([None; None; Some 5%Z], Some 3, []) /\
  snd (swap_rule 2 3 (Some (-1)%Z) (Some (-3)%Z) c73_state) = Ok true /\ shape_now (fst (swap_rule 2 3 (Some (-1)%Z) (Some (-3)%Z) c73_state)) 3 = ([], Some 3, [Some 7%Z; None; None]) /\ snd (swap_rule 2 3 (Some 1%Z) (Some (-2)%Z) c73_state) = Ok false /\ snd (swap_rule 2 3 None (Some (-2)%Z) c73_state) = Ok false.
Proof.
  split; [apply c73_sess|]. split; [left; split; (apply c73_unranked; [lia|vm_compute; discriminate])|]. split; [right; exists 3; split; [apply (c73_rank 0); [lia|vm_compute; auto]|apply (c73_rank 1); [lia|vm_compute; auto]]|]. vm_compute. repeat split.
Qed.
Example C73_known_example : has_rank_now c73_state 0 3 /\ has_rank_now c73_state 1 3 /\ snd (swap_rule 0 1 (Some 0%Z) (Some (-1)%Z) c73_state) = Ok true /\
  shape_now (fst (swap_rule 0 1 (Some 0%Z) (Some (-1)%Z) c73_state)) 1 = ([Some 2%Z; None; Some 3%Z], None, []) /\ snd (swap_rule 0 1 (Some 0%Z) (Some 3%Z) c73_state) = Err ValueError.
Proof. split; [apply (c73_rank 0); [lia|vm_compute; auto]|]. split; [apply (c73_rank 1); [lia|vm_compute; auto]|]. vm_compute. auto. Qed.

(** ** Findings *)
(** The other axes are not compared: (2, 3, 4) with the axes 0 and 1 exchanged is accepted as (3, 2, 9), and of (3, 2, 9, 9), of another rank. *)
Theorem C73_other_axes_refuted : exists s, swsess s /\ determined s 7 [2; 3; 4]%Z /\ determined s 8 [3; 2; 9]%Z /\ determined s 9 [3; 2; 9; 9]%Z /\
  snd (swap_rule 7 8 (Some 0%Z) (Some 1%Z) s) = Ok true /\ snd (swap_rule 7 9 (Some 0%Z) (Some 1%Z) s) = Ok true /\ ~ swaps 0 1 [2; 3; 4]%Z [3; 2; 9]%Z /\ forall a b, ~ swaps a b [2; 3; 4]%Z [3; 2; 9; 9]%Z.
Proof.
  exists c73_state. split; [apply c73_sess|]. do 3 (split; [apply c73_det; [lia|vm_compute; auto|vm_compute; auto]|]). do 2 (split; [vm_compute; auto|]). split; [|intros a b [L _]; discriminate].
  intros (_ & i & j & (_ & Hi) & (_ & Hj) & _ & _ & E). cbn [length] in *. specialize (E 2 ltac:(lia) ltac:(lia)). cbn in E. discriminate.
Qed.
(** Nor is an unknown size of another axis inferred: (2, 3, 4) gives (3, 2, ?); the rule is finished. *)
Theorem C73_middle_refuted : exists s s', swsess s /\ swap_rule 7 1 (Some 0%Z) (Some 1%Z) s = (s', Ok true) /\ shape_now s' 7 = ([Some 2; Some 3; Some 4]%Z, None, []) /\ shape_now s' 1 = ([Some 3%Z; Some 2%Z; None], None, []).
Proof. exists c73_state. eexists. split; [apply c73_sess|]. split; [vm_compute; reflexivity|]. vm_compute. auto. Qed.
(** If one rank only is known the shapes are matched before the exchange: (3, 2) to (2, ...) with axes 0 and 1 is refused, though it may be (2, 3). *)
Theorem C73_matched_refuted : exists s rho sh, swsess s /\ snd (swap_rule 4 5 (Some 0%Z) (Some 1%Z) s) = Err ValueError /\ allows s rho sh /\ sh 4 = [3; 2]%Z /\ sh 5 = [2; 3]%Z /\ swaps 0 1 (sh 4) (sh 5).
Proof.
  assert (I := swsess_inv _ c73_sess). destruct (sat_exists (us c73_state) (s_inv _ I)) as (rho & Hs).
  assert (V : forall u n, live (us c73_state) u -> value (us c73_state) u = Some n -> rho u = n) by (intros u n L V; eapply value_sat; [apply I|exact L|exact V|auto]).
  assert (R0 : rho 0 = 3%Z) by (apply V; vm_compute; auto 15). assert (R2 : rho 2 = 2%Z) by (apply V; vm_compute; auto 15).
  exists c73_state, rho, (den c73_state rho (fun _ => [3%Z])). split; [apply c73_sess|]. split; [vm_compute; auto|]. split; [apply allows_self; auto|].
  assert (S4 : den c73_state rho (fun _ => [3%Z]) 4 = [3; 2]%Z). { unfold den, dshape. replace (rp c73_state 4) with (mkshape [0; 2] None []) by (vm_compute; auto). cbn. rewrite R0, R2. auto. }
  assert (S5 : den c73_state rho (fun _ => [3%Z]) 5 = [2; 3]%Z). { unfold den, dshape. replace (rp c73_state 5) with (mkshape [2] (Some 2) []) by (vm_compute; auto). cbn. rewrite R2. auto. }
  split; [exact S4|]. split; [exact S5|]. rewrite S4, S5. split; [auto|]. exists 0, 1. unfold axis_at. cbn [length nth_error]. do 4 (split; [auto; lia|]). intros [|[|k]] H1 H2; [lia..|auto].
Qed.
(** ... and what shares the unknown part gets the sizes before the exchange: after (3, 2) to an unknown output, which becomes (2, 3), the tensor of the same unknown shape is (3, 2). *)
Definition c73_twins := state [ODim (Some 3%Z); ODim (Some 2%Z); OVar; ORepr (mkshape [0; 1] None []); ORepr (mkshape [] (Some 0) []); ORepr (mkshape [] (Some 0) [])].
Theorem C73_twins_refuted : exists s s', swsess s /\ (forall rho sh, allows s rho sh -> sh 1 = sh 2) /\ swap_rule 0 1 (Some 0%Z) (Some 1%Z) s = (s', Ok true) /\
  shape_now s' 1 = ([Some 2; Some 3]%Z, None, []) /\ shape_now s' 2 = ([Some 3; Some 2]%Z, None, []).
Proof.
  exists c73_twins. eexists. split; [apply reach_runs, state_reach|]. split; [|split; [vm_compute; reflexivity|vm_compute; auto]].
  intros rho sh A. apply allows_den in A as (_ & tau & D). rewrite <- (D 1), <- (D 2) by (vm_compute; lia). unfold den, dshape. replace (rp c73_twins 1) with (mkshape [] (Some 0) []) by (vm_compute; auto). replace (rp c73_twins 2) with (mkshape [] (Some 0) []) by (vm_compute; auto). auto.
Qed.
(** With unknown ranks the rule is finished when both axes are counted from the same end, but the rest of the shapes may not be linked: (5, ..., 7) with
    axes 0 and 2 gives (?, ?, 5, ...), which need not end with the 7; a result of rank three is possible for an input of rank four. *)
Theorem C73_unlinked_refuted : exists s s', swsess s /\ swap_rule 2 3 (Some 0%Z) (Some 2%Z) s = (s', Ok true) /\ shape_now s' 2 = ([Some 5%Z; None], Some 4, [Some 7%Z]) /\ shape_now s' 3 = ([None; None; Some 5%Z], Some 3, []) /\
  exists rho sh, allows s' rho sh /\ length (sh 2) = 4 /\ length (sh 3) = 3 /\ ~ swaps 0 2 (sh 2) (sh 3).
Proof.
  assert (Q := C73_sound c73_state 2 3 (Some 0%Z) (Some 2%Z) c73_sess ltac:(vm_compute; lia) ltac:(vm_compute; lia) ltac:(right; right; left; split; (apply c73_unranked; [lia|vm_compute; discriminate]))). destruct (swap_rule 2 3 (Some 0%Z) (Some 2%Z) c73_state) as [s' r] eqn:E.
  assert (Er : r = Ok true) by (change r with (snd (s', r)); rewrite <- E; vm_compute; auto). subst r. destruct Q as (Q1 & _). assert (I' := swsess_inv _ Q1). assert (Es : s' = fst (swap_rule 2 3 (Some 0%Z) (Some 2%Z) c73_state)) by (rewrite E; auto).
  exists c73_state, s'. split; [apply c73_sess|]. split; [exact E|]. split; [rewrite Es; vm_compute; auto|]. split; [rewrite Es; vm_compute; auto|]. destruct (sat_exists (us s') (s_inv _ I')) as (rho & Hs).
  exists rho, (den s' rho (fun v => if v =? 4 then [1%Z] else [])). split; [apply allows_self; auto|]. assert (S2 : length (den s' rho (fun v => if v =? 4 then [1%Z] else []) 2) = 4). { rewrite Flat_Proofs.shlen_den, Es. vm_compute. auto. }
  assert (S3 : length (den s' rho (fun v => if v =? 4 then [1%Z] else []) 3) = 3). { rewrite Flat_Proofs.shlen_den, Es. vm_compute. auto. } split; [auto|]. split; [auto|]. intros [L _]. lia.
Qed.
Print Assumptions C73_unlinked_refuted.
Print Assumptions C73_sound.
Print Assumptions C73_known.
Print Assumptions C73_other_axes_refuted.
Print Assumptions C73_middle_refuted.
Print Assumptions C73_matched_refuted.
Print Assumptions C73_twins_refuted.
