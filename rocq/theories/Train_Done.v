(** * Proofs about training models: the cost *)
From Coq Require Import List Bool String Arith Lia Permutation.
From Verif Require Import PyBase Train_Model Train_Spec Train_Proofs Train_Inv Train_Final.
Import ListNotations.
Open Scope string_scope. Open Scope list_scope.
Lemma NoDup_map_in : forall {A C} (f : A -> C) l, (forall x y, In x l -> In y l -> f x = f y -> x = y) -> NoDup l -> NoDup (map f l).
Proof.
  intros A C f l; induction l as [|a l IH]; intros H N; [constructor|]. apply NoDup_cons_iff in N as [N1 N2]. cbn. constructor.
  - intros HI. apply in_map_iff in HI as (x & E & HI). assert (x = a) as -> by (apply H; [right; exact HI|left; reflexivity|exact E]). contradiction.
  - apply IH; [|exact N2]. intros x y Hx Hy; apply H; right; assumption.
Qed.
Lemma NoDup_inj : forall {A C} (f : A -> C) l x y, NoDup (map f l) -> In x l -> In y l -> f x = f y -> x = y.
Proof.
  intros A C f l x y; induction l as [|a l IH]; intros N Hx Hy E; [destruct Hx|]. cbn in N; apply NoDup_cons_iff in N as [N1 N2]. destruct Hx as [->|Hx], Hy as [->|Hy]; [reflexivity| | |apply IH; assumption].
  - exfalso; apply N1; rewrite E; apply in_map; exact Hy.
  - exfalso; apply N1; rewrite <- E; apply in_map; exact Hx.
Qed.
Section Done.
Context {B : backend}.
Variable value_of : string -> V B.
Variable accepts : list string -> @loss B -> bool.
Variable trainable : string -> bool.
Notation train := (@train B). Notation spec := (@spec B). Notation at_ := (at_ value_of). Notation sized := (sized value_of). Notation ats := (ats value_of). Notation rel := (rel value_of).
Lemma item_reg : forall (s : train) R c q ll, Permutation (pairs (geomean_map s)) (map info_of R) -> In ((c, q), ll) (geo_mappings s) -> ll <> [] /\ ll = map snd (filter (fun e => if eq_dec (c, q) (fst e) then true else false) (events s)) /\ exists k, In (q, c, k) R.
Proof.
  intros s R c q ll P HI. rewrite geo_mappings_events in HI. destruct (events_item _ _ _ HI) as (N & E). split; [exact N|]. split; [exact E|].
  destruct (filter _ (events s)) as [|e E'] eqn:EF; [exfalso; apply N; exact E|]. assert (In e (filter (fun e => if eq_dec (c, q) (fst e) then true else false) (events s))) as Hin by (rewrite EF; left; reflexivity).
  apply filter_In in Hin as [H1 H2]. destruct (eq_dec (c, q) (fst e)) as [E2|]; [|discriminate]. unfold events in H1. apply in_flat_map in H1 as (kv & _ & H1).
  rewrite (inner_events (fun k => mem k (nth (snd kv) (deps (nodes s)) [])) (getl (reduce_inputs s) (fst kv)) (geomean_map s)) in H1. apply in_map_iff in H1 as (y & <- & H1). apply filter_In in H1 as [H1 _]. cbn in E2.
  rewrite P in H1. apply in_map_iff in H1 as ([[q1 c1] k1] & <- & H1). cbn in E2. injection E2 as -> ->. exists k1; exact H1.
Qed.
Lemma dep_losses : forall (s : train) p k, rel s p -> Forall2 (sized (nodes s)) (map (fun kv => getl (reduce_inputs s) (fst kv)) (filter (fun kv => mem k (nth (snd kv) (deps (nodes s)) [])) (loss_keys s))) (map lsizes (filter (fun l => mem k (ldeps l)) (losses p))).
Proof.
  intros s p k H. pose proof (r_loss _ _ _ H) as L. induction L as [|a e l m [H1 H2] H3 IH]; [constructor|]. cbn. rewrite (nth_error_nth _ _ [] (proj2 H1)). destruct (mem k (ldeps e)); cbn; [constructor; assumption|exact IH].
Qed.
Lemma In_F2 : forall {A C} (P : A -> C -> Prop) l m a, Forall2 P l m -> In a l -> exists b, In b m /\ P a b.
Proof. intros A C P l m a H; induction H as [|x y l m H1 H2 IH]; intros HI; [destruct HI|]. destruct HI as [<-|HI]; [exists y; split; [left; reflexivity|exact H1]|]. destruct (IH HI) as (b & X & Y); exists b; split; [right; exact X|exact Y]. Qed.
Lemma geo_rel : forall s p, rel s p -> exists g rm R', add_geo_mean s = set_maps s g rm /\ le (nodes s) g /\ map fst rm = map fst (reg_coef_map s) /\ Permutation (pairs rm) R' /\
  Forall2 (fun x r => fst x = rq r /\ exists v d, at_ g (snd x) v d /\ flat B v = divided p r) R' (regs p).
Proof.
  intros s p H. destruct (r_regs _ _ _ H) as (R & R1 & R2 & R3 & R4).
  assert (Permutation (pairs (geomean_map s)) (map info_of R)) as R3' by exact R3. clear R3.
  assert (forall c q ll, In ((c, q), ll) (geo_mappings s) -> ll <> [] /\ exists k, In (q, c, k) R /\ ll = map (fun kv => getl (reduce_inputs s) (fst kv)) (filter (fun kv => mem k (nth (snd kv) (deps (nodes s)) [])) (loss_keys s))) as Items.
  { intros c q ll HI. destruct (item_reg s R c q ll R3' HI) as (N & E & k & Hk). split; [exact N|]. exists k; split; [exact Hk|]. rewrite E. apply (info_events s R); assumption. }
  assert (dwf (geo_mappings s)) as Wg by (rewrite geo_mappings_events; apply events_wf; constructor).
  destruct (geo_loop value_of (geo_mappings s) (nodes s) (reg_coef_map s)) as (g & rm & sub & E & L & K & P & S1 & S2).
  - apply (r_wf2 _ _ _ H).
  - apply NoDup_map_in; [|eapply NoDup_map_inv; exact Wg]. intros [[c1 q1] l1] [[c2 q2] l2] I1 I2 Eq. cbn in Eq. subst c2. destruct (Items _ _ _ I1) as (_ & k1 & K1 & _). destruct (Items _ _ _ I2) as (_ & k2 & K2 & _).
    pose proof (NoDup_inj _ R _ _ R2 K1 K2 eq_refl) as Q. injection Q as <- <-. eapply (NoDup_inj fst); [exact Wg|exact I1|exact I2|reflexivity].
  - rewrite R4, map_map. exact R2.
  - intros q c HI. rewrite R4 in HI. apply in_map_iff in HI as (x & Ex & HI). destruct (In_F2 _ _ _ _ R1 HI) as (r & _ & _ & _ & d & A). rewrite Ex in A. apply (at_lt _ _ _ _ _ A).
  - intros c q ll HI. destruct (Items _ _ _ HI) as (N & k & Hk & El). split; [|split; [exact N|]].
    + rewrite R4. change (q, c) with (fst (q, c, k)). apply in_map; exact Hk.
    + destruct (In_F2 _ _ _ _ R1 Hk) as (r & _ & _ & _ & d & A). cbn in A. exists (rv r), d. eexists; split; [exact A|]. rewrite El. apply (dep_losses s p k H).
  - exists g, rm, (map (fun x => (fst (fst x), sub (snd (fst x)))) R). split; [unfold add_geo_mean; match goal with |- context [fold_left geo_step ?a ?b] => assert (fold_left geo_step a b = (g, rm)) as -> by exact E end; reflexivity|]. split; [exact L|]. split; [exact K|]. split; [rewrite P, R4, map_map; apply Permutation_refl|].
    assert (forall x r, In x R -> reged value_of (nodes s) x r -> fst (fst x) = rq r /\ exists v d, at_ g (sub (snd (fst x))) v d /\ flat B v = divided p r) as G.
    { intros [[q c] k] r Hx (X1 & X2 & d & A). cbn in X1, X2, A |- *. split; [exact X1|]. unfold divided, geo_mean. rewrite <- X2. pose proof (dep_losses s p k H) as D.
      destruct (filter (fun l => mem k (ldeps l)) (losses p)) as [|l0 ls] eqn:Ef.
      - assert (sub c = c) as ->. { apply S1. intros q' ll HI. destruct (Items _ _ _ HI) as (N & k' & Hk' & El). pose proof (NoDup_inj _ R _ _ R2 Hx Hk' eq_refl) as Q. injection Q as <- <-. cbn in D. inversion D as [Dl|]. rewrite <- Dl in El. exact (N El). }
        exists (rv r), d. split; [eapply at_le; eassumption|reflexivity].
      - rewrite <- Ef in D |- *. assert (exists ll, In ((c, q), ll) (geo_mappings s)) as (ll & HI).
        { rewrite geo_mappings_events. apply events_in. intros Hn. pose proof (info_events s R q c k R2 R3' Hx) as Q. rewrite Hn in Q. cbn in Q. rewrite <- Q in D. rewrite Ef in D. inversion D. }
        destruct (Items _ _ _ HI) as (N & k' & Hk' & El). pose proof (NoDup_inj _ R _ _ R2 Hx Hk' eq_refl) as Q. injection Q as <-. rewrite <- El in D.
        destruct (S2 c q ll (rv r) d _ HI A D) as (v' & d' & A' & F'). exists v', d'. split; [exact A'|]. rewrite F'. rewrite map_map. replace (List.length ll) with (List.length (filter (fun l => mem k (ldeps l)) (losses p))); [reflexivity|].
        symmetry. rewrite <- (map_length lsizes). clear -D. induction D; cbn; congruence. }
    clear -R1 G. induction R1 as [|x r R rs H1 H2 IH]; cbn; constructor; [apply (G x r (or_introl eq_refl) H1)|]. apply IH. intros x' r' HI; apply G; right; exact HI.
Qed.
Lemma combiner_at : forall s p g rm, rel s p -> le (nodes s) g -> losses p <> [] ->
  exists s1 out d, add_loss_combiner (set_maps s g rm) = name_output s1 (Some (match rm with [] => FinalCost | _ => LossKey end)) out /\ same (set_maps s g rm) s1 /\ le g (nodes s1) /\ names s1 = names s /\ at_ (nodes s1) out (combined p) d.
Proof.
  intros s p g rm H L N. pose proof (lossed_le _ _ _ _ _ _ L (r_loss _ _ _ H)) as A. unfold add_loss_combiner, combined. change (loss_keys (set_maps s g rm)) with (loss_keys s). change (reg_coef_map (set_maps s g rm)) with rm. set (key := match rm with [] => FinalCost | _ => LossKey end).
  inversion A as [Q1 Q2|a e la le' A1 A2 Q1 Q2]; [exfalso; apply N; rewrite <- Q2; reflexivity|]. destruct la as [|a2 la].
  - inversion A2; subst. destruct a as [ak ac]. destruct (extend (set_maps s g rm) (Apply (buffer_model B)) [ac]) as [s1 out] eqn:E. unfold extend in E. destruct (emit _ _ _) as [g1 c1] eqn:E1 in E. injection E as <- <-.
    destruct (emit1_at value_of g (Apply (buffer_model B)) ac (lv e) (ldeps e) (proj1 A1) ltac:(discriminate) _ _ E1) as (L1 & _ & A3). cbn [calc] in A3. rewrite run_buffer in A3.
    eexists _, _, _. split; [reflexivity|]. split; [repeat split|]. split; [exact L1|]. split; [reflexivity|exact A3].
  - inversion A2 as [|a2' e2 la' le2 A21 A22]; subst le'. subst.
    assert (ats g (map snd (a :: a2 :: la)) (map (fun l => (lv l, ldeps l)) (e :: e2 :: le2))) as As.
    { assert (Forall2 (lossed value_of g (reduce_inputs s)) (a :: a2 :: la) (e :: e2 :: le2)) as A' by (constructor; [exact A1|exact A2]). clear -A'. induction A' as [|x y l m X1 X2 IH]; cbn; constructor; [exact (proj1 X1)|exact IH]. }
    set (ls := e :: e2 :: le2) in *. set (la2 := a :: a2 :: la) in *.
    destruct (emit_all g AtLeast1d (map snd la2)) as [g1 cs] eqn:E1. destruct (emit_all_at value_of AtLeast1d ltac:(discriminate) _ g _ As _ _ E1) as (L1 & A3).
    destruct (emit g1 Concat cs) as [g2 cc] eqn:E2. destruct (emit_at value_of g1 Concat _ _ A3 _ _ E2) as (L2 & _ & _ & A4).
    destruct (emit g2 (Apply (combiner p)) [cc]) as [g3 out] eqn:E3. destruct (emit1_at value_of g2 (Apply (combiner p)) cc _ _ A4 ltac:(discriminate) _ _ E3) as (L3 & _ & A5).
    exists (set_graph (set_maps s g rm) g3 (names s)), out. eexists. split; [|split; [repeat split|split; [eapply le_trans; [exact L1|eapply le_trans; [exact L2|exact L3]]|split; [reflexivity|]]]].
    + subst la2. cbn [nodes set_maps]. destruct a as [a1 a1']. rewrite E1, E2. unfold extend. cbn [nodes set_graph names loss_combiner set_maps]. rewrite (r_comb _ _ _ H), E3. reflexivity.
    + cbn [calc dep_of] in A5. rewrite !map_map in A5. cbn [fst snd] in A5. exact A5.
Qed.
Lemma emit_terms_at : forall (fl : nat -> list (F B)) rm g, (forall q c, In (q, c) (pairs rm) -> exists v d, at_ g c v d /\ flat B v = fl c) -> forall h ms, emit_terms g rm = (h, ms) ->
  le g h /\ exists r, ats h ms r /\ map (fun x => flat B (fst x)) r = map (fun x => [fmul B (total (List.concat (map fl (snd x)))) (fst x)]) rm.
Proof.
  intros fl rm; induction rm as [|[q os] rm IH]; intros g H h ms E; cbn [emit_terms] in E.
  - injection E as <- <-. split; [apply le_refl|]. exists []; split; [constructor|reflexivity].
  - assert (exists r, ats g os r /\ map (fun x => flat B (fst x)) r = map fl os) as (r0 & R0 & F0).
    { assert (forall c, In c os -> exists v d, at_ g c v d /\ flat B v = fl c) as H' by (intros c HI; apply (H q); unfold pairs; cbn; apply in_or_app; left; apply in_map; exact HI).
      clear -H'. induction os as [|c os IH]; [exists []; split; [constructor|reflexivity]|]. destruct (H' c (or_introl eq_refl)) as (v & d & A & Fv). destruct IH as (r & R1 & R2); [intros c' HI; apply H'; right; exact HI|].
      exists ((v, d) :: r); split; [constructor; assumption|]. cbn; rewrite Fv, R2; reflexivity. }
    destruct (emit_all g AtLeast1d os) as [g1 os1] eqn:E1. destruct (emit_all_at value_of AtLeast1d ltac:(discriminate) os g r0 R0 _ _ E1) as (L1 & A1).
    destruct (emit g1 Concat os1) as [g2 cc] eqn:E2. destruct (emit_at value_of g1 Concat _ _ A1 _ _ E2) as (L2 & _ & _ & A2).
    destruct (emit g2 Sum [cc]) as [g3 a] eqn:E3. destruct (emit1_at value_of g2 Sum cc _ _ A2 ltac:(discriminate) _ _ E3) as (L3 & _ & A3).
    destruct (emit g3 (Scale q) [a]) as [g4 m] eqn:E4. destruct (emit1_at value_of g3 (Scale q) a _ _ A3 ltac:(discriminate) _ _ E4) as (L4 & _ & A4).
    destruct (emit_terms g4 rm) as [g5 ms5] eqn:E5. injection E as <- <-. pose proof (le_trans _ _ _ L1 (le_trans _ _ _ L2 (le_trans _ _ _ L3 L4))) as L14.
    destruct (IH g4) with (h := g5) (ms := ms5) as (L5 & r & R1 & R2); [|exact E5|].
    { intros q' c HI. destruct (H q' c) as (v & d & A & Fv); [unfold pairs; cbn; apply in_or_app; right; exact HI|]. exists v, d; split; [eapply at_le; eassumption|exact Fv]. }
    split; [eapply le_trans; eassumption|]. eexists (_ :: r). split; [constructor; [eapply at_le; [exact L5|]; match goal with |- at_ _ _ (fst ?x) (snd ?x) => instantiate (1 := (_, _)) end; exact A4|exact R1]|].
    cbn [map fst snd]. rewrite R2. f_equal. cbn [calc]. rewrite flat_scale, flat_sum, flat_concat, !map_map. cbn [fst calc].
    assert (map (fun x => flat B (atleast_1d B (fst x))) r0 = map fl os) as Q by (rewrite <- F0; apply map_ext; intros; apply flat_atleast_1d). rewrite Q. reflexivity.
Qed.
(** ** The whole of finalisation *)
Definition dead (s : train) : Prop := is_finalized s = false /\ (dmem FinalCost (names s) = true \/ (dmem LossKey (names s) = true /\ reg_coef_map s <> [])).
Definition deadp (p : spec) : Prop := cost p = None /\ blocked p = true.
Definition finished (s : train) (p : spec) : Prop := is_finalized s = true /\ exists l c v, cost p = Some l /\ dget FinalCost (names s) = Some c /\ nth_error (values value_of (nodes s)) c = Some v /\ flat B v = l.
Lemma regs_empty : forall s p, rel s p -> (reg_coef_map s = [] <-> regs p = []).
Proof.
  intros s p H. destruct (r_regs _ _ _ H) as (R & R1 & _ & _ & R4). split; intros E.
  - rewrite E in R4. cbn in R4. apply Permutation_nil in R4. apply map_eq_nil in R4. subst R. inversion R1; reflexivity.
  - rewrite E in R1. inversion R1; subst. cbn in R4. symmetry in R4. apply Permutation_nil in R4. pose proof (r_ne _ _ _ H) as N. destruct (reg_coef_map s) as [|[q l] rm]; [reflexivity|]. inversion N; subst. cbn in R4. apply app_eq_nil in R4 as [R4 _]. apply map_eq_nil in R4. contradiction.
Qed.
Lemma set_maps_self : forall s : train, set_maps s (nodes s) (reg_coef_map s) = s. Proof. intros []; reflexivity. Qed.
Lemma finalize_rel : forall s p, rel s p -> let p' := spec_call value_of accepts trainable p Finalize in let s' := fst (finalize s) in
  finished s' p' \/ (cost p' = None /\ (rel s' p' \/ (dead s' /\ deadp p'))).
Proof.
  intros s p H. cbv zeta. unfold spec_call. rewrite (r_cost _ _ _ H). unfold finalize. rewrite (r_fin _ _ _ H).
  destruct (losses p) as [|l0 ls] eqn:EL.
  { cbn [orb]. pose proof (r_loss _ _ _ H) as A. rewrite EL in A. inversion A as [A1|]. assert (add_geo_mean s = s) as ->. { unfold add_geo_mean, geo_mappings. rewrite <- A1. cbn. apply set_maps_self. }
    unfold add_loss_combiner. rewrite <- A1. cbn [fst]. right; split; [apply (r_cost _ _ _ H)|]. left; exact H. }
  cbn [orb]. assert (losses p <> []) as NL by (rewrite EL; discriminate). rewrite <- EL. clear l0 ls EL.
  destruct (geo_rel s p H) as (g & rm & R' & E1 & L1 & K & P & F2). rewrite E1. destruct (combiner_at s p g rm H L1 NL) as (s1 & out & d & E2 & S1 & L2 & N1 & A1). rewrite E2.
  assert (forall k, dmem k (names s1) = dmem k (env p)) as DM by (intros k; rewrite N1; apply (dmem_named _ _ _ _ _ (r_names _ _ _ H))).
  destruct S1 as (T1 & T2 & T3 & T4 & T5 & T6). cbn [set_maps loss_keys reduce_inputs geomean_map reg_coef_map loss_combiner is_finalized] in *. rewrite (r_fin _ _ _ H) in T6.
  pose proof (regs_empty s p H) as RE. unfold blocked. destruct rm as [|r0 rm0] eqn:Erm.
  - assert (regs p = []) as ER by (apply RE; destruct (reg_coef_map s); [reflexivity|discriminate]). rewrite ER.
    cbn [negb andb]. rewrite orb_false_r. unfold name_output. rewrite DM. change FinalCost with "final_cost". destruct (dmem "final_cost" (env p)) eqn:DF.
    + cbn [fst]. right. split; [apply (r_cost _ _ _ H)|]. right. split; [split; [exact T6|left; rewrite DM; exact DF]|]. split; [apply (r_cost _ _ _ H)|]. unfold blocked. rewrite DF; reflexivity.
    + cbn [reg_coef_map set_graph]. rewrite T4. cbn [fst]. left. split; [reflexivity|]. exists (final_cost p), out, (combined p). cbn [cost]. split; [reflexivity|]. cbn [names freeze set_graph nodes]. split; [apply dget_dset_same|]. split; [exact (proj1 A1)|]. unfold final_cost. rewrite ER; reflexivity.
  - assert (regs p <> []) as NR. { intros X. apply (proj2 RE) in X. rewrite X in K. discriminate. } rewrite <- Erm in *. assert (rm <> []) as Nrm by (rewrite Erm; discriminate). clear r0 rm0 Erm.
    assert ((match regs p with [] => true | _ => false end) = false) as -> by (destruct (regs p); [congruence|reflexivity]). cbn [negb andb]. 
    change LossKey with "loss". assert (name_output s1 (Some "loss") out = if dmem "loss" (names s1) then (s1, Some KeyError) else (set_graph s1 (nodes s1) (dset "loss" out (names s1)), None)) as -> by reflexivity. rewrite DM. destruct (dmem "loss" (env p)) eqn:DL.
    + rewrite orb_true_r. cbn [fst]. right. split; [apply (r_cost _ _ _ H)|]. right. split.
      * split; [exact T6|]. right. split; [rewrite DM; exact DL|]. rewrite T4; exact Nrm.
      * split; [apply (r_cost _ _ _ H)|]. unfold blocked. rewrite DL. destruct (regs p); [congruence|]. apply orb_true_r.
    + rewrite orb_false_r. cbn [reg_coef_map set_graph]. rewrite T4. cbn [names nodes set_graph]. set (s2 := set_graph s1 (nodes s1) (dset "loss" out (names s1))).
      destruct rm as [|r0 rm0] eqn:Erm; [congruence|]. rewrite <- Erm in *. clear r0 rm0 Erm. change LossKey with "loss". rewrite dget_dset_same.
      destruct (emit (nodes s1) AtLeast1d [out]) as [g1 lc1] eqn:E3. destruct (emit1_at value_of (nodes s1) AtLeast1d out _ d A1 ltac:(discriminate) _ _ E3) as (L3 & _ & A3). pose proof (le_trans _ _ _ L2 L3) as L23.
      set (fl := fun c => match nth_error (values value_of g1) c with Some v => flat B v | None => [] end).
      destruct (emit_terms g1 rm) as [g2 ms] eqn:E4. destruct (emit_terms_at fl rm g1) with (h := g2) (ms := ms) as (L4 & r & R1 & R2); [|exact E4|].
      { intros q c HI. rewrite P in HI. destruct (In_F2 _ _ _ _ F2 HI) as (re & _ & _ & v & d' & Av & _). pose proof (at_le _ _ _ _ _ _ L23 Av) as Av'. cbn [snd] in Av'. exists v, d'. split; [exact Av'|]. unfold fl. rewrite (proj1 Av'). reflexivity. }
      destruct (emit g2 Concat (lc1 :: ms)) as [g3 cc] eqn:E5. assert (ats g2 (lc1 :: ms) ((calc value_of AtLeast1d [combined p], d) :: r)) as A5 by (constructor; [apply (at_le _ _ _ _ _ _ L4 A3)|exact R1]).
      destruct (emit_at value_of g2 Concat _ _ A5 _ _ E5) as (L5 & _ & _ & A6). destruct (emit g3 Sum [cc]) as [g4 out2] eqn:E6. destruct (emit1_at value_of g3 Sum cc _ _ A6 ltac:(discriminate) _ _ E6) as (L6 & _ & A7).
      unfold name_output. change FinalCost with "final_cost". cbn [names set_graph]. assert (dmem "final_cost" (dset "loss" out (names s1)) = dmem "final_cost" (env p)) as ->. { rewrite <- DM. unfold dmem. rewrite dget_dset_other by discriminate. reflexivity. }
      destruct (dmem "final_cost" (env p)) eqn:DF; cbn [fst].
      * right. split; [apply (r_cost _ _ _ H)|]. right. split.
        -- split; [exact T6|]. left. cbn [names set_graph]. unfold dmem. change FinalCost with "final_cost". rewrite dget_dset_other by discriminate. specialize (DM "final_cost"). unfold dmem in DM, DF. rewrite DM; exact DF.
        -- split; [apply (r_cost _ _ _ H)|]. unfold blocked. rewrite DF. reflexivity.
      * left. split; [reflexivity|]. exists (final_cost p), out2. eexists. cbn [cost]. split; [reflexivity|]. cbn [names freeze set_graph nodes]. split; [apply dget_dset_same|]. split; [exact (proj1 A7)|].
        unfold final_cost. destruct (regs p) as [|r0 rs0] eqn:ER; [congruence|]. rewrite <- ER in *. clear r0 rs0 ER. cbn [calc map fst]. rewrite flat_sum, flat_concat. cbn [map List.concat]. rewrite flat_atleast_1d.
        change (fold_right (fadd B) (fzero B)) with (@total B). rewrite total_app. rewrite map_map, R2. f_equal. f_equal.
        rewrite <- (map_map (fun x : F B * list nat => fmul B (total (List.concat (map fl (snd x)))) (fst x)) (fun a => [a])), concat_single, total_terms.
        rewrite (total_perm _ _ (Permutation_map _ P)). unfold penalty. f_equal. clear -F2 L23. induction F2 as [|x re R' rs (X1 & v & d & X2 & X3) F2 IH]; [reflexivity|]. cbn [map]. rewrite IH, X1. do 3 f_equal.
        unfold fl. rewrite (proj1 (at_le _ _ _ _ _ _ L23 X2)). exact X3.
Qed.
End Done.
