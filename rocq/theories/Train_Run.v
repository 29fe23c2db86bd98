(** * Proofs about training models: sequences of calls *)
From Coq Require Import List Bool String Arith Lia Permutation.
From Verif Require Import PyBase Train_Model Train_Spec Train_Proofs Train_Inv Train_Final Train_Done.
Import ListNotations.
Open Scope string_scope. Open Scope list_scope.
Section Run.
Context {B : backend}.
Variable value_of : string -> V B.
Variable accepts : list string -> @loss B -> bool.
Variable trainable : string -> bool.
Notation train := (@train B). Notation spec := (@spec B). Notation rel := (rel value_of).
Definition mono (s t : train) : Prop := (forall k, dmem k (names s) = true -> dmem k (names t) = true) /\ (reg_coef_map s <> [] -> reg_coef_map t <> []) /\ is_finalized t = is_finalized s.
Lemma mono_refl : forall s, mono s s. Proof. repeat split; auto. Qed.
Lemma mono_trans : forall s t u, mono s t -> mono t u -> mono s u.
Proof. intros s t u (A1 & A2 & A3) (B1 & B2 & B3); repeat split; auto; congruence. Qed.
Lemma dmem_dset : forall {K A} `{EqDec K} (d : list (K * A)) k k' v, dmem k d = true -> dmem k (dset k' v d) = true.
Proof. intros K A HK d k k' v H. unfold dmem in *. destruct (eq_dec k' k) as [->|N]; [rewrite dget_dset_same; reflexivity|rewrite dget_dset_other by congruence; exact H]. Qed.
Lemma dset_ne : forall {K A} `{EqDec K} (d : list (K * A)) k v, dset k v d <> [].
Proof. intros K A HK [|[k' v'] d] k v; cbn; [discriminate|]. destruct (eq_dec k k'); discriminate. Qed.
Lemma resolve_mono : forall s k, mono s (fst (resolve s k)).
Proof. intros s k. unfold resolve. destruct (dget k (names s)); [apply mono_refl|]. cbn. repeat split; auto. intros k' H. apply dmem_dset; exact H. Qed.
Lemma resolve_all_mono : forall l s, mono s (fst (resolve_all s l)).
Proof.
  intros l; induction l as [|a l IH]; intros s; [apply mono_refl|]. cbn [resolve_all]. pose proof (resolve_mono s (here a)) as M. destruct (resolve s (here a)) as [s1 c]. specialize (IH s1). destruct (resolve_all s1 l) as [s2 cs]. cbn in *. eapply mono_trans; eassumption.
Qed.
Lemma extend_mono : forall s o cs, mono s (fst (extend s o cs)). Proof. intros; repeat split; auto. Qed.
Lemma reduce_mono : forall steps s prev rs, mono s (fst (fst (reduce s steps prev rs))).
Proof. intros steps; induction steps as [|st steps IH]; intros s prev rs; [apply mono_refl|]. cbn [reduce]. pose proof (extend_mono s (Apply (smodel st)) [prev]) as M. destruct (extend s (Apply (smodel st)) [prev]) as [s1 c]. eapply mono_trans; [exact M|apply IH]. Qed.
Lemma name_mono : forall s k c, mono s (fst (name_output s k c)).
Proof. intros s [k|] c; cbn; [|apply mono_refl]. destruct (dmem k (names s)); [apply mono_refl|]. cbn. repeat split; auto. intros k' H. apply dmem_dset; exact H. Qed.
Lemma add_loss_mono : forall s l, mono s (fst (add_loss accepts s l)).
Proof.
  intros s l. unfold add_loss. destruct (is_finalized s) eqn:F; [apply mono_refl|]. destruct (negb _); [apply mono_refl|].
  pose proof (resolve_all_mono (largs l) s) as M1. destruct (resolve_all s (largs l)) as [s1 args]. pose proof (extend_mono s1 (Apply (lmodel l)) args) as M2. destruct (extend s1 (Apply (lmodel l)) args) as [s2 lk].
  pose proof (reduce_mono (default_steps l) s2 lk []) as M3. destruct (reduce s2 (default_steps l) lk []) as [[s3 out] rs]. cbn [fst] in *.
  set (X := match lcoef l with Some c => extend s3 (Scale c) [out] | None => (s3, out) end). assert (mono s3 (fst X)) as M4 by (subst X; destruct (lcoef l); [apply extend_mono|apply mono_refl]). destruct X as [s4 out']. cbn [fst] in M4.
  pose proof (name_mono s4 (lname l) out') as M5. destruct (name_output s4 (lname l) out') as [s5 e]. cbn [fst] in M5.
  pose proof (mono_trans _ _ _ M1 (mono_trans _ _ _ M2 (mono_trans _ _ _ M3 (mono_trans _ _ _ M4 M5)))) as M. destruct e; [exact M|]. destruct M as (Q1 & Q2 & Q3). repeat split; assumption.
Qed.
Lemma add_reg1_mono : forall s r, mono s (fst (add_reg1 trainable s r)).
Proof.
  intros s r. unfold add_reg1. destruct (negb _); [apply mono_refl|].
  pose proof (resolve_all_mono (rarg r :: rothers r) s) as M1. destruct (resolve_all s (rarg r :: rothers r)) as [s1 args]. pose proof (extend_mono s1 (Apply (rmodel r)) args) as M2. destruct (extend s1 (Apply (rmodel r)) args) as [s2 out].
  pose proof (name_mono s2 (rname r) out) as M3. destruct (name_output s2 (rname r) out) as [s3 e]. cbn [fst] in *. pose proof (mono_trans _ _ _ M1 (mono_trans _ _ _ M2 M3)) as M. destruct e; [exact M|]. destruct M as (Q1 & Q2 & Q3). repeat split; [exact Q1| |exact Q3]. cbn [fst reg_coef_map]. intros _; apply dset_ne.
Qed.
Lemma add_pattern_mono : forall s m q f n, mono s (fst (add_pattern trainable s m q f n)).
Proof.
  intros s m q f n. unfold add_pattern. destruct (is_finalized s); [apply mono_refl|]. set (l := filter _ _). clearbody l.
  assert (forall l s e, mono s (fst (fold_left (fun (r : @result B) k => match r with (s, Some e) => (s, Some e) | (s, None) => add_reg1 trainable s {| rmodel := m; rcoef := q; rarg := ByName k; rothers := []; rname := n |} end) l (s, e)))) as G; [|apply G].
  clear. intros l; induction l as [|k l IH]; intros s e; [apply mono_refl|]. cbn [fold_left]. destruct e as [e|]; [apply IH|]. pose proof (add_reg1_mono s {| rmodel := m; rcoef := q; rarg := ByName k; rothers := []; rname := n |}) as M.
  destruct (add_reg1 trainable s _) as [s1 e1]. eapply mono_trans; [exact M|apply IH].
Qed.
Lemma add_metric_mono : forall s m l st n, mono s (fst (add_metric s m l st n)).
Proof.
  intros s m l st n. unfold add_metric. destruct (is_finalized s); [apply mono_refl|]. pose proof (resolve_all_mono l s) as M1. destruct (resolve_all s l) as [s1 args]. pose proof (extend_mono s1 (Apply m) args) as M2. destruct (extend s1 (Apply m) args) as [s2 out].
  match goal with |- context [reduce s2 ?a out []] => pose proof (reduce_mono a s2 out []) as M3; destruct (reduce s2 a out []) as [[s3 out'] rs] end. cbn [fst] in *. eapply mono_trans; [exact M1|eapply mono_trans; [exact M2|eapply mono_trans; [exact M3|apply name_mono]]].
Qed.
Lemma geo_step_ne : forall items (gr : @graph B * list (F B * list nat)), snd gr <> [] -> snd (fold_left geo_step items gr) <> [].
Proof.
  intros items; induction items as [|[[c q] ll] items IH]; intros [g rm] H; [exact H|]. cbn [fold_left]. apply IH. unfold geo_step. destruct (emit_reductions g ll) as [g1 outs]. destruct outs; [exact H|].
  destruct (emit_all _ _ _). destruct (emit _ _ _). destruct (emit _ _ _). destruct (if Nat.ltb _ _ then _ else _). destruct (emit _ _ _). cbn [snd]. apply dset_ne.
Qed.
Lemma geo_mono : forall s, mono s (add_geo_mean s) /\ names (add_geo_mean s) = names s.
Proof.
  intros s. unfold add_geo_mean. pose proof (geo_step_ne (geo_mappings s) (nodes s, reg_coef_map s)) as N. destruct (fold_left geo_step (geo_mappings s) (nodes s, reg_coef_map s)) as [g rm] eqn:E.
  split; [|reflexivity]. repeat split; auto.
Qed.
(** A model that cannot be finalised stays so. *)
Lemma dead_mono : forall s t : train, dead s -> mono s t -> dead t.
Proof. intros s t (D1 & D2) (M1 & M2 & M3). split; [congruence|]. destruct D2 as [D2|[D2 D3]]; [left; auto|right; auto]. Qed.
Lemma combiner_names : forall s : train, loss_keys s <> [] -> exists s1 out, add_loss_combiner s = name_output s1 (Some (match reg_coef_map s with [] => FinalCost | _ => LossKey end)) out /\ mono s s1 /\ names s1 = names s.
Proof.
  intros s N. unfold add_loss_combiner. destruct (loss_keys s) as [|[a c] [|b l]]; [congruence| |].
  - eexists _, _. split; [reflexivity|]. split; [repeat split; auto|reflexivity].
  - destruct (emit_all _ _ _) as [g cs]. destruct (emit g Concat cs) as [g1 cc]. eexists _, _. split; [reflexivity|]. split; [repeat split; auto|reflexivity].
Qed.
Lemma dead_finalize : forall s : train, dead s -> dead (fst (finalize s)).
Proof.
  intros s D. unfold finalize. pose proof (proj1 D) as Df. rewrite Df. destruct (geo_mono s) as [M1 N1]. pose proof (dead_mono _ _ D M1) as D1. set (s1 := add_geo_mean s) in *. clearbody s1.
  destruct (loss_keys s1) as [|a L] eqn:EL; [unfold add_loss_combiner; rewrite EL; exact D1|]. destruct (combiner_names s1) as (s2 & out & E & M2 & N2); [rewrite EL; discriminate|]. rewrite E. pose proof (dead_mono _ _ D1 M2) as D2.
  destruct D1 as (_ & D1). rewrite <- N2 in D1. destruct (reg_coef_map s1) as [|r rm] eqn:ER.
  - destruct D1 as [D1|[_ D1]]; [|congruence]. cbn [name_output]. rewrite D1. exact D2.
  - assert (reg_coef_map s2 <> []) as NE by (apply M2; rewrite ER; discriminate). assert (name_output s2 (Some LossKey) out = if dmem LossKey (names s2) then (s2, Some KeyError) else (set_graph s2 (nodes s2) (dset LossKey out (names s2)), None)) as -> by reflexivity.
    destruct (dmem LossKey (names s2)) eqn:DL; [exact D2|]. destruct D1 as [D1|[D1 _]]; [|congruence]. cbn [reg_coef_map set_graph names nodes]. destruct (reg_coef_map s2) as [|r2 rm2]; [congruence|]. rewrite dget_dset_same.
    destruct (emit _ _ _) as [g1 lc1]. destruct (emit_terms g1 _) as [g2 ms]. destruct (emit g2 _ _) as [g3 cc]. destruct (emit g3 _ _) as [g4 o4]. cbn [name_output names set_graph].
    rewrite (dmem_dset _ FinalCost LossKey out D1). cbn [fst]. split; [exact (proj1 D2)|]. left. cbn [names set_graph]. apply dmem_dset; exact D1.
Qed.
Lemma dead_do : forall (s : train) c, dead s -> dead (fst (do accepts trainable s c)).
Proof.
  intros s c D. destruct c as [l|r|m q f n|m l st n|m|]; cbn [do].
  - eapply dead_mono; [exact D|apply add_loss_mono].
  - eapply dead_mono; [exact D|]. unfold add_regularization. destruct (is_finalized s); [apply mono_refl|apply add_reg1_mono].
  - eapply dead_mono; [exact D|apply add_pattern_mono].
  - eapply dead_mono; [exact D|apply add_metric_mono].
  - eapply dead_mono; [exact D|]. unfold set_loss_combiner. destruct (is_finalized s) eqn:E; [apply mono_refl|]. repeat split; auto.
  - apply dead_finalize; exact D.
Qed.
(** The same for the specification *)
Definition pmono (p p' : spec) : Prop := (forall k, dmem k (env p) = true -> dmem k (env p') = true) /\ (regs p <> [] -> regs p' <> []) /\ cost p' = cost p.
Lemma pmono_refl : forall p, pmono p p. Proof. repeat split; auto. Qed.
Lemma pmono_trans : forall s t u, pmono s t -> pmono t u -> pmono s u.
Proof. intros s t u (A1 & A2 & A3) (B1 & B2 & B3); repeat split; auto; congruence. Qed.
Lemma dmem_app : forall {K A} `{EqDec K} (d e : list (K * A)) k, dmem k d = true -> dmem k (d ++ e) = true.
Proof. intros K A HK d e k H. apply dmem_In in H. apply dmem_In. unfold dkeys in *. rewrite map_app. apply in_or_app; left; exact H. Qed.
Lemma get_key_mono : forall e k k', dmem k' e = true -> dmem k' (fst (get_key value_of e k)) = true.
Proof. intros e k k' H. unfold get_key. destruct (dget k e); [exact H|]. apply dmem_app; exact H. Qed.
Lemma get_keys_mono : forall l e k', dmem k' e = true -> dmem k' (fst (get_keys value_of e l)) = true.
Proof. intros l; induction l as [|k l IH]; intros e k' H; [exact H|]. cbn [get_keys]. pose proof (get_key_mono e k k' H) as H1. destruct (get_key value_of e k) as [e1 x]. specialize (IH e1 k' H1). destruct (get_keys value_of e1 l) as [e2 xs]. exact IH. Qed.
Lemma bound_mono : forall e k (v : V B) d k', dmem k' e = true -> dmem k' (bound e k v d) = true.
Proof. intros e [k|] v d k' H; cbn; [apply dmem_app; exact H|exact H]. Qed.
Lemma spec_reg_mono : forall p m q k args n, pmono p (fst (spec_reg value_of trainable p m q k args n)).
Proof.
  intros p m q k args n. unfold spec_reg. destruct (negb _); [apply pmono_refl|]. pose proof (get_keys_mono (map here args) (env p)) as G. destruct (get_keys value_of (env p) (map here args)) as [e xs]. cbn [fst] in G. destruct (compute m xs) as [v d]. destruct (in_use e n); cbn.
  - repeat split; auto.
  - repeat split; auto; [intros k' H; apply bound_mono; auto|]. intros _ X. apply app_eq_nil in X as [_ X]; discriminate.
Qed.
Lemma spec_call_mono : forall p c, c <> Finalize -> pmono p (spec_call value_of accepts trainable p c).
Proof.
  intros p c N. unfold spec_call. destruct (cost p) eqn:EC; [apply pmono_refl|]. destruct c as [l|r|m q f n|m l st n|m|]; [| | | | |congruence].
  - unfold spec_loss. destruct (negb _); [apply pmono_refl|]. pose proof (get_keys_mono (map here (largs l)) (env p)) as G. destruct (get_keys value_of (env p) _) as [e xs]. cbn [fst] in G. destruct (compute (lmodel l) xs) as [v d]. destruct (in_use e (lname l)).
    + repeat split; auto.
    + repeat split; auto. intros k' H; apply bound_mono; auto.
  - apply spec_reg_mono.
  - set (l := filter _ _). clearbody l. assert (forall l p b, pmono p (fst (fold_left (fun (pb : spec * bool) k => if snd pb then spec_reg value_of trainable (fst pb) m q k [ByName k] n else pb) l (p, b)))) as G; [|apply G].
    clear. intros l; induction l as [|k l IH]; intros p b; [apply pmono_refl|]. cbn [fold_left snd fst]. destruct b; [|apply IH]. pose proof (spec_reg_mono p m q k [ByName k] n) as M. destruct (spec_reg value_of trainable p m q k [ByName k] n) as [p1 b1]. eapply pmono_trans; [exact M|apply IH].
  - unfold spec_metric. pose proof (get_keys_mono (map here l) (env p)) as G. destruct (get_keys value_of (env p) _) as [e xs]. cbn [fst] in G. destruct (compute m xs) as [v d]. destruct (in_use e n); repeat split; auto. intros k' H; apply bound_mono; auto.
  - repeat split; auto.
Qed.
Lemma deadp_call : forall (p : spec) c, deadp p -> deadp (spec_call value_of accepts trainable p c).
Proof.
  intros p c (D1 & D2). assert (c = Finalize \/ c <> Finalize) as [->|N] by (destruct c; auto; right; discriminate).
  - unfold spec_call. rewrite D1, D2, orb_true_r. split; assumption.
  - destruct (spec_call_mono p c N) as (M1 & M2 & M3). split; [congruence|]. unfold blocked in *. apply orb_prop in D2 as [D2|D2]; [rewrite (M1 _ D2); reflexivity|]. apply andb_prop in D2 as [D2 D3]. rewrite (M1 _ D3). rewrite andb_true_r.
    destruct (regs p) eqn:ER; [discriminate|]. destruct (regs (spec_call value_of accepts trainable p c)); [exfalso; apply M2; [discriminate|reflexivity]|]. apply orb_true_r.
Qed.
(** ** Every sequence *)
Definition inv (s : train) (p : spec) : Prop := finished value_of s p \/ (cost p = None /\ (rel s p \/ (dead s /\ deadp p))).
Definition same_key (c : @call B) : Prop := match c with AddReg r => own (rarg r) = here (rarg r) | _ => True end.
Lemma inv_call : forall s p c, same_key c -> inv s p -> inv (fst (do accepts trainable s c)) (spec_call value_of accepts trainable p c).
Proof.
  intros s p c K [I|(C & [H|[D Dp]])].
  - left. destruct I as (F & l & c0 & v & E1 & E2 & E3 & E4). unfold spec_call. rewrite E1. assert (fst (do accepts trainable s c) = s) as ->; [|split; [exact F|]; exists l, c0, v; auto].
    destruct c; cbn [do]; unfold add_loss, add_regularization, add_pattern, add_metric, set_loss_combiner, finalize; rewrite F; reflexivity.
  - assert (forall p', rel (fst (do accepts trainable s c)) p' -> p' = spec_call value_of accepts trainable p c -> inv (fst (do accepts trainable s c)) (spec_call value_of accepts trainable p c)) as G.
    { intros p' H' <-. right; split; [apply (r_cost _ _ _ H')|left; exact H']. }
    destruct c as [l|r|m q f n|m l st n|m|].
    + eapply G; [cbn [do]; apply add_loss_rel; exact H|]. unfold spec_call; rewrite C; reflexivity.
    + eapply G; [cbn [do]; unfold add_regularization; rewrite (r_fin _ _ _ H); apply (add_reg1_rel value_of trainable s p r H K)|]. unfold spec_call; rewrite C; reflexivity.
    + eapply G; [cbn [do]; apply add_pattern_rel; exact H|reflexivity].
    + eapply G; [cbn [do]; apply add_metric_rel; exact H|reflexivity].
    + eapply G; [|unfold spec_call; rewrite C; reflexivity]. cbn [do]. unfold set_loss_combiner. rewrite (r_fin _ _ _ H). cbn [fst]. destruct H as [r1 r2 r3 r4 r5 r6 r7 r8 r9 r10]. constructor; cbn; auto.
    + cbn [do]. exact (finalize_rel value_of accepts trainable s p H).
  - right. split; [apply (deadp_call p c Dp)|]. right. split; [apply dead_do; exact D|apply deadp_call; exact Dp].
Qed.
Lemma inv_run : forall cs s p, Forall same_key cs -> inv s p -> inv (run accepts trainable s cs) (spec_run value_of accepts trainable p cs).
Proof. intros cs; induction cs as [|c cs IH]; intros s p K I; [exact I|]. apply Forall_cons_iff in K as [K1 K2]. cbn. apply IH; [exact K2|apply inv_call; assumption]. Qed.
(** ** The start *)
Lemma rel_empty : rel empty_train {| env := []; losses := []; regs := []; combiner := sum_model B; cost := None |}.
Proof. constructor; cbn; try constructor; try reflexivity; try (intros k [[]|[]]). exists []; repeat split; constructor. Qed.
Lemma init_rel : forall ins outs s, init ins outs = Ok s -> rel s (spec_init value_of ins outs).
Proof.
  intros ins outs s E. unfold init in E. destruct (mem LossKey _ || mem FinalCost _); [discriminate|].
  assert (forall ins s p, rel s p -> rel (fold_left (fun s k => fst (resolve s k)) ins s) (set_env p (fold_left (fun e k => fst (get_key value_of e k)) ins (env p)))) as G.
  { clear. intros ins; induction ins as [|k ins IH]; intros s p H; cbn [fold_left]; [rewrite set_env_self; exact H|]. destruct (resolve s k) as [s1 c] eqn:E1. destruct (get_key value_of (env p) k) as [e x] eqn:E2.
    destruct (resolve_rel _ _ _ _ _ _ _ _ H E1 E2) as (H1 & _). specialize (IH s1 _ H1). rewrite set_env_twice in IH. exact IH. }
  specialize (G ins _ _ rel_empty). cbn [env] in G. set (s0 := fold_left _ ins empty_train) in *. unfold spec_init. set (e0 := fold_left (fun e k => fst (get_key value_of e k)) ins []) in *. unfold set_env in G. cbn [losses regs combiner cost] in G. clearbody s0 e0. revert s0 e0 G E.
  induction outs as [|[k [m l]] outs IH]; intros s0 e0 H E; cbn [foldM fold_left fst snd] in *; [injection E as <-; exact H|]. unfold bind in E.
  destruct (resolve_all s0 (map ByName l)) as [s1 args] eqn:E1. destruct (get_keys value_of e0 l) as [e xs] eqn:E2.
  destruct (resolve_all_rel value_of (map ByName l) s0 _ s1 args e xs H E1) as (H1 & _ & _ & A1); [rewrite map_map; cbn [here env]; rewrite map_id; exact E2|].
  destruct (extend s1 (Apply m) args) as [s2 out] eqn:E3. destruct (extend_rel value_of s1 _ (Apply m) _ _ s2 out H1 ltac:(discriminate) A1 E3) as (H2 & _ & _ & _ & _ & A2 & I2).
  assert (calc value_of (Apply m) (map fst (map (fun x => (ev x, edeps x)) xs)) = fst (compute m xs)) as V2 by (cbn; rewrite map_map; reflexivity).
  assert (List.concat (map snd (map (fun x : entry => (ev x, edeps x)) xs)) = snd (compute m xs)) as D2 by (cbn; rewrite map_map; apply concat_flat_map).
  rewrite V2, D2 in A2. destruct (compute m xs) as [v d] eqn:EC. cbn [fst snd] in A2.
  destruct (name_rel value_of s2 _ (Some k) out v d H2 A2 I2) as [(U & er & EN)|(U & s3 & EN & H3 & S3 & N3)]; rewrite EN in E; [discriminate|]. apply (IH s3 _ H3 E).
Qed.
End Run.
