(** * Proofs about training models: what the calls keep *)
From Coq Require Import List Bool String Arith Lia Permutation.
From Verif Require Import PyBase Train_Model Train_Spec Train_Proofs.
Import ListNotations.
Open Scope string_scope. Open Scope list_scope.
Section Inv.
Context {B : backend}.
Variable value_of : string -> V B.
Variable accepts : list string -> @loss B -> bool.
Variable trainable : string -> bool.
Notation train := (@train B). Notation spec := (@spec B). Notation at_ := (at_ value_of). Notation sized := (sized value_of). Notation ats := (ats value_of).
Definition inp (g : @graph B) (c : nat) : bool := match nth_error g c with Some (Input _, _) => true | _ => false end.
Definition named (g : @graph B) (a : string * nat) (b : string * @entry B) : Prop := fst a = fst b /\ at_ g (snd a) (ev (snd b)) (edeps (snd b)) /\ inp g (snd a) = einput (snd b).
Definition lossed (g : @graph B) (ri : list (nat * list (nat * Axis B))) (a : nat * nat) (e : @lentry B) : Prop := at_ g (snd a) (lv e) (ldeps e) /\ sized g (getl ri (fst a)) (lsizes e).
Definition reged (g : @graph B) (x : F B * nat * string) (r : @rentry B) : Prop := fst (fst x) = rq r /\ snd x = rk r /\ exists d, at_ g (snd (fst x)) (rv r) d.
Record rel (s : train) (p : spec) : Prop := {
  r_names : Forall2 (named (nodes s)) (names s) (env p);
  r_loss : Forall2 (lossed (nodes s) (reduce_inputs s)) (loss_keys s) (losses p);
  r_keys : forall k, In k (dkeys (loss_keys s)) \/ In k (dkeys (reduce_inputs s)) -> k < List.length (nodes s);
  r_regs : exists R, Forall2 (reged (nodes s)) R (regs p) /\ NoDup (map (fun x => snd (fst x)) R) /\ Permutation (pairs (geomean_map s)) (map (fun x => (snd x, (snd (fst x), fst (fst x)))) R) /\ Permutation (pairs (reg_coef_map s)) (map fst R);
  r_wf1 : dwf (geomean_map s); r_wf2 : dwf (reg_coef_map s); r_ne : Forall (fun x => snd x <> []) (reg_coef_map s);
  r_comb : loss_combiner s = combiner p; r_fin : is_finalized s = false; r_cost : cost p = None }.
(** ** Growing the graph *)
Lemma inp_le : forall g h c v d, le g h -> at_ g c v d -> inp h c = inp g c.
Proof.
  intros g h c v d L A. apply at_lt in A. unfold inp. destruct (nth_error g c) as [n|] eqn:E; [rewrite (le_nth _ _ _ _ L E); reflexivity|]. apply nth_error_None in E; lia.
Qed.
Lemma named_le : forall g h a b, le g h -> named g a b -> named h a b.
Proof. intros g h a b L (H1 & H2 & H3); repeat split; [exact H1|apply (at_le _ _ _ _ _ _ L H2)|apply (at_le _ _ _ _ _ _ L H2)|rewrite (inp_le _ _ _ _ _ L H2); exact H3]. Qed.
Lemma named_all_le : forall g h l m, le g h -> Forall2 (named g) l m -> Forall2 (named h) l m.
Proof. intros g h l m L H; induction H; constructor; [eapply named_le; eassumption|assumption]. Qed.
Lemma lossed_le : forall g h ri l m, le g h -> Forall2 (lossed g ri) l m -> Forall2 (lossed h ri) l m.
Proof. intros g h ri l m L H; induction H as [|a e l m [H1 H2] H3 IH]; constructor; [split; [eapply at_le; eassumption|eapply sized_le; eassumption]|exact IH]. Qed.
Lemma reged_le : forall g h l m, le g h -> Forall2 (reged g) l m -> Forall2 (reged h) l m.
Proof. intros g h l m L H; induction H as [|a e l m (H1 & H2 & d & H3) H4 IH]; constructor; [|exact IH]. split; [exact H1|]; split; [exact H2|]. exists d; eapply at_le; eassumption. Qed.
Definition same (s t : train) : Prop :=
  loss_keys t = loss_keys s /\ reduce_inputs t = reduce_inputs s /\ geomean_map t = geomean_map s /\ reg_coef_map t = reg_coef_map s /\ loss_combiner t = loss_combiner s /\ is_finalized t = is_finalized s.
Lemma same_refl : forall s, same s s. Proof. repeat split. Qed.
Lemma same_trans : forall s t u, same s t -> same t u -> same s u.
Proof. unfold same; intros s t u (A1 & A2 & A3 & A4 & A5 & A6) (B1 & B2 & B3 & B4 & B5 & B6); repeat split; congruence. Qed.
Lemma same_set_graph : forall s g n, same s (set_graph s g n). Proof. repeat split. Qed.
Lemma rel_grow : forall s p t, rel s p -> same s t -> le (nodes s) (nodes t) -> forall e, Forall2 (named (nodes t)) (names t) e -> rel t (set_env p e).
Proof.
  intros s p t H (S1 & S2 & S3 & S4 & S5 & S6) L e He. destruct H as [r1 r2 r3 r4 r5 r6 r7 r8 r9 r10]. constructor; cbn; rewrite ?S1, ?S2, ?S3, ?S4, ?S5, ?S6; auto.
  - eapply lossed_le; eassumption.
  - intros k Hk. pose proof (le_length _ _ L). specialize (r3 k Hk); lia.
  - destruct r4 as (R & R1 & R2); exists R; split; [eapply reged_le; eassumption|exact R2].
Qed.
Lemma set_env_self : forall p : spec, set_env p (env p) = p. Proof. intros []; reflexivity. Qed.
Lemma set_env_twice : forall (p : spec) e e', set_env (set_env p e) e' = set_env p e'. Proof. reflexivity. Qed.
Lemma rel_same_names : forall s p t, rel s p -> same s t -> le (nodes s) (nodes t) -> names t = names s -> rel t p.
Proof. intros s p t H S L N. rewrite <- (set_env_self p). apply (rel_grow s p t H S L). rewrite N. eapply named_all_le; [exact L|apply H]. Qed.
Lemma dget_named : forall g l m k, Forall2 (named g) l m ->
  match dget k l, dget k m with Some c, Some x => at_ g c (ev x) (edeps x) /\ inp g c = einput x | None, None => True | _, _ => False end.
Proof.
  intros g l m k H; induction H as [|[k1 c] [k2 x] l m (H1 & H2 & H3) H4 IH]; cbn; [exact Logic.I|]. cbn in H1; subst k2. destruct (eq_dec k k1); [split; assumption|exact IH].
Qed.
Lemma dmem_named : forall g l m k, Forall2 (named g) l m -> dmem k l = dmem k m.
Proof. intros g l m k H. pose proof (dget_named g l m k H) as D. unfold dmem. destruct (dget k l), (dget k m); try reflexivity; contradiction. Qed.
Lemma keys_named : forall g l m, Forall2 (named g) l m -> dkeys l = map fst m.
Proof. intros g l m H; induction H as [|a b l m (H1 & _) H4 IH]; cbn; [reflexivity|]. unfold dkeys in *; cbn; rewrite H1, IH; reflexivity. Qed.
(** ** The arguments *)
Lemma resolve_rel : forall s p k s' c e x, rel s p -> resolve s k = (s', c) -> get_key value_of (env p) k = (e, x) ->
  rel s' (set_env p e) /\ same s s' /\ le (nodes s) (nodes s') /\ at_ (nodes s') c (ev x) (edeps x).
Proof.
  intros s p k s' c e x H E1 E2. unfold resolve, get_key in *. pose proof (dget_named _ _ _ k (r_names _ _ H)) as D. destruct (dget k (names s)) as [c0|] eqn:G1, (dget k (env p)) as [x0|] eqn:G2; try contradiction.
  - injection E1 as <- <-. injection E2 as <- <-. rewrite set_env_self. split; [exact H|]. split; [apply same_refl|]. split; [apply le_refl|]. apply D.
  - destruct (emit (nodes s) (Input k) []) as [g c1] eqn:E. injection E1 as <- <-. injection E2 as <- <-. destruct (emit_at value_of _ _ [] [] (Forall2_nil _) _ _ E) as (L & Hc & _ & A).
    assert (inp g c1 = true) as I1. { injection E as <- <-. unfold inp. rewrite nth_error_app2, Nat.sub_diag; [reflexivity|lia]. }
    split; [|split; [apply same_set_graph|split; [exact L|exact A]]]. apply (rel_grow s p _ H); [apply same_set_graph|exact L|]. cbn. rewrite dset_fresh; [|apply dget_None; exact G1].
    apply Forall2_app; [eapply named_all_le; [exact L|apply H]|]. constructor; [|constructor]. split; [reflexivity|]. split; [exact A|exact I1].
Qed.
Lemma resolve_all_rel : forall l s p s' cs e xs, rel s p -> resolve_all s l = (s', cs) -> get_keys value_of (env p) (map here l) = (e, xs) ->
  rel s' (set_env p e) /\ same s s' /\ le (nodes s) (nodes s') /\ ats (nodes s') cs (map (fun x => (ev x, edeps x)) xs).
Proof.
  intros l; induction l as [|a l IH]; intros s p s' cs e xs H E1 E2; cbn [resolve_all map get_keys] in E1, E2.
  - injection E1 as <- <-. injection E2 as <- <-. rewrite set_env_self. split; [exact H|]. split; [apply same_refl|]. split; [apply le_refl|constructor].
  - destruct (resolve s (here a)) as [s1 c1] eqn:R1. destruct (get_key value_of (env p) (here a)) as [e1 x1] eqn:R2. destruct (resolve_all s1 l) as [s2 cs2] eqn:R3. destruct (get_keys value_of e1 (map here l)) as [e2 xs2] eqn:R4.
    injection E1 as <- <-. injection E2 as <- <-. destruct (resolve_rel _ _ _ _ _ _ _ H R1 R2) as (H1 & S1 & L1 & A1). destruct (IH s1 (set_env p e1) s2 cs2 e2 xs2 H1 R3 R4) as (H2 & S2 & L2 & A2).
    split; [exact H2|]. split; [eapply same_trans; eassumption|]. split; [eapply le_trans; eassumption|]. constructor; [eapply at_le; [exact L2|exact A1]|exact A2].
Qed.
Lemma extend_rel : forall s p o cs r s' c, rel s p -> (forall k, o <> Input k) -> ats (nodes s) cs r -> extend s o cs = (s', c) ->
  rel s' p /\ same s s' /\ le (nodes s) (nodes s') /\ names s' = names s /\ c = List.length (nodes s) /\ at_ (nodes s') c (calc value_of o (map fst r)) (List.concat (map snd r)) /\ inp (nodes s') c = false.
Proof.
  intros s p o cs r s' c H N A E. unfold extend in E. destruct (emit (nodes s) o cs) as [g c1] eqn:E1. injection E as <- <-. destruct (emit_at value_of _ _ _ _ A _ _ E1) as (L & Hc & _ & A1).
  split; [apply (rel_same_names s); [exact H|apply same_set_graph|exact L|reflexivity]|]. split; [apply same_set_graph|]. split; [exact L|]. split; [reflexivity|]. split; [exact Hc|].
  split; [destruct o; try exact A1; exfalso; eapply N; reflexivity|]. injection E1 as <- <-. unfold inp. cbn. rewrite nth_error_app2, Nat.sub_diag; [|lia]. cbn. destruct o; try reflexivity. exfalso; eapply N; reflexivity.
Qed.
Lemma extend1_rel : forall s p o c0 v d s' c, rel s p -> (forall k, o <> Input k) -> at_ (nodes s) c0 v d -> extend s o [c0] = (s', c) ->
  rel s' p /\ same s s' /\ le (nodes s) (nodes s') /\ names s' = names s /\ at_ (nodes s') c (calc value_of o [v]) d /\ inp (nodes s') c = false.
Proof.
  intros s p o c0 v d s' c H N A E. destruct (extend_rel s p o [c0] [(v, d)] s' c H N (ats_one _ _ _ _ _ A) E) as (H1 & H2 & H3 & H4 & _ & H5 & H6). cbn in H5. rewrite app_nil_r in H5.
  split; [exact H1|]; split; [exact H2|]; split; [exact H3|]; split; [exact H4|]; split; [exact H5|exact H6].
Qed.
Lemma reduce_rel : forall steps s p prev v d rs fs s' out rs', rel s p -> at_ (nodes s) prev v d -> inp (nodes s) prev = false -> sized (nodes s) rs fs -> reduce s steps prev rs = (s', out, rs') ->
  rel s' p /\ same s s' /\ le (nodes s) (nodes s') /\ names s' = names s /\ at_ (nodes s') out (reduced steps v) d /\ inp (nodes s') out = false /\ sized (nodes s') rs' (fs ++ sizes steps v).
Proof.
  intros steps; induction steps as [|st steps IH]; intros s p prev v d rs fs s' out rs' H A Hi Hs E; cbn [reduce] in E.
  - injection E as <- <- <-. cbn. rewrite app_nil_r. split; [exact H|]. split; [apply same_refl|]. split; [apply le_refl|]. auto.
  - destruct (extend s (Apply (smodel st)) [prev]) as [s1 c1] eqn:E1.
    destruct (extend1_rel s p (Apply (smodel st)) prev v d s1 c1 H ltac:(discriminate) A E1) as (H1 & S1 & L1 & N1 & A1 & I1). cbn [calc] in A1.
    assert (sized (nodes s1) (match saxis st with Some ax => rs ++ [(prev, ax)] | None => rs end) (fs ++ match saxis st with Some ax => [fsize B v ax] | None => [] end)) as Hs1.
    { pose proof (sized_le _ _ _ _ _ L1 Hs) as Hs'. destruct (saxis st) as [ax|]; [|rewrite app_nil_r; exact Hs']. apply Forall2_app; [exact Hs'|]. constructor; [|constructor]. exists v, d; split; [eapply at_le; eassumption|reflexivity]. }
    destruct (IH s1 p c1 _ d _ _ s' out rs' H1 A1 I1 Hs1 E) as (H2 & S2 & L2 & N2 & A2 & I2 & Z2). cbn [reduced sizes]. rewrite <- app_assoc in Z2.
    split; [exact H2|]. split; [eapply same_trans; eassumption|]. split; [eapply le_trans; eassumption|]. split; [congruence|]. auto.
Qed.
Lemma name_rel : forall s p k c v d, rel s p -> at_ (nodes s) c v d -> inp (nodes s) c = false ->
  (in_use (env p) k = true /\ exists e, name_output s k c = (s, Some e)) \/
  (in_use (env p) k = false /\ exists s', name_output s k c = (s', None) /\ rel s' (set_env p (bound (env p) k v d)) /\ same s s' /\ nodes s' = nodes s).
Proof.
  intros s p k c v d H A Hi. destruct k as [k|]; cbn; [|right; split; [reflexivity|]; exists s; rewrite set_env_self; repeat split; apply H].
  rewrite <- (dmem_named _ _ _ k (r_names _ _ H)). destruct (dmem k (names s)) eqn:E; [left; split; [reflexivity|]; eexists; reflexivity|].
  right; split; [reflexivity|]. eexists; split; [reflexivity|]. split; [|split; [apply same_set_graph|reflexivity]]. apply (rel_grow s p _ H); [apply same_set_graph|apply le_refl|]. cbn.
  rewrite dset_fresh; [|unfold dmem in E; destruct (dget k (names s)) eqn:G; [discriminate|]; apply dget_None; exact G]. apply Forall2_app; [apply H|]. constructor; [|constructor]. split; [reflexivity|]. split; [exact A|exact Hi].
Qed.
(** ** Adding losses *)
Lemma getl_fresh : forall {K A} `{EqDec K} (m : list (K * list A)) k l, ~ In k (dkeys m) -> getl (m ++ [(k, l)]) k = l.
Proof. intros K A HK m k l N; induction m as [|[k' l'] m IH]; unfold getl; cbn; [destruct (eq_dec k k); [reflexivity|congruence]|]. destruct (eq_dec k k') as [->|E]; [exfalso; apply N; left; reflexivity|]. apply IH. intros HI; apply N; right; exact HI. Qed.
Lemma getl_old : forall {K A} `{EqDec K} (m : list (K * list A)) k k' l, k <> k' -> getl (m ++ [(k', l)]) k = getl m k.
Proof. intros K A HK m k k' l N; induction m as [|[k1 l1] m IH]; unfold getl; cbn; [destruct (eq_dec k k'); [congruence|reflexivity]|]. destruct (eq_dec k k1) as [->|E]; [reflexivity|]. apply IH. Qed.
Lemma concat_flat_map : forall {A C} (f : A -> list C) l, List.concat (map f l) = flat_map f l.
Proof. intros; symmetry; apply flat_map_concat_map. Qed.
Lemma add_loss_rel : forall s p l, rel s p -> rel (fst (add_loss accepts s l)) (spec_loss value_of accepts p l).
Proof.
  intros s p l H. unfold add_loss, spec_loss. rewrite (r_fin _ _ H). rewrite (keys_named _ _ _ (r_names _ _ H)). destruct (accepts (map fst (env p)) l); cbn [negb]; [|exact H].
  destruct (resolve_all s (largs l)) as [s1 args] eqn:E1. destruct (get_keys value_of (env p) (map here (largs l))) as [e xs] eqn:E2. destruct (resolve_all_rel _ _ _ _ _ _ _ H E1 E2) as (H1 & S1 & L1 & A1).
  destruct (extend s1 (Apply (lmodel l)) args) as [s2 lk] eqn:E3. destruct (extend_rel s1 _ (Apply (lmodel l)) _ _ s2 lk H1 ltac:(discriminate) A1 E3) as (H2 & S2 & L2 & N2 & Hlk & A2 & I2).
  destruct (reduce s2 (default_steps l) lk []) as [[s3 out] rs] eqn:E4.
  assert (calc value_of (Apply (lmodel l)) (map fst (map (fun x => (ev x, edeps x)) xs)) = fst (compute (lmodel l) xs)) as V2 by (cbn; rewrite map_map; reflexivity).
  assert (List.concat (map snd (map (fun x : entry => (ev x, edeps x)) xs)) = snd (compute (lmodel l) xs)) as D2 by (cbn; rewrite map_map; apply concat_flat_map).
  rewrite V2, D2 in A2. destruct (compute (lmodel l) xs) as [v0 d] eqn:EC. cbn [fst snd] in A2.
  destruct (reduce_rel _ s2 _ lk v0 d [] [] s3 out rs H2 A2 I2 (Forall2_nil _) E4) as (H3 & S3 & L3 & N3 & A3 & I3 & Z3). cbn [app] in Z3.
  change (default_steps l) with (loss_steps l) in *.
  set (X := match lcoef l with Some c => extend s3 (Scale c) [out] | None => (s3, out) end). destruct X as [s4 out'] eqn:EX.
  assert (rel s4 (set_env p e) /\ same s3 s4 /\ le (nodes s3) (nodes s4) /\ at_ (nodes s4) out' (weighted (lcoef l) (reduced (loss_steps l) v0)) d /\ inp (nodes s4) out' = false) as (H4 & S4 & L4 & A4 & I4).
  { subst X. destruct (lcoef l) as [q|]; cbn [weighted].
    - destruct (extend1_rel s3 _ (Scale q) out _ d s4 out' H3 ltac:(discriminate) A3 EX) as (K1 & K2 & K3 & K4 & K5 & K6). auto.
    - injection EX as <- <-. split; [exact H3|]. split; [apply same_refl|]. split; [apply le_refl|]. auto. }
  destruct (name_rel s4 _ (lname l) out' _ d H4 A4 I4) as [(U & er & EN)|(U & s5 & EN & H5 & S5 & N5)]; cbn [env set_env] in U; rewrite U, EN; cbn [fst].
  - exact H4.
  - pose proof (same_trans _ _ _ S2 (same_trans _ _ _ S3 (same_trans _ _ _ S4 S5))) as S. destruct S as (T1 & T2 & T3 & T4 & T5 & T6).
    assert (forall k, In k (dkeys (loss_keys s5)) \/ In k (dkeys (reduce_inputs s5)) -> k < lk) as Hf. { intros k Hk. rewrite Hlk. apply (r_keys _ _ H1). rewrite <- T1, <- T2; exact Hk. }
    assert (~ In lk (dkeys (loss_keys s5))) as F1 by (intros HI; specialize (Hf lk (or_introl HI)); lia). assert (~ In lk (dkeys (reduce_inputs s5))) as F2 by (intros HI; specialize (Hf lk (or_intror HI)); lia).
    rewrite (dset_fresh lk out' _ F1), (dset_fresh lk rs _ F2). destruct H5 as [r1 r2 r3 r4 r5 r6 r7 r8 r9 r10]. rewrite set_env_twice in *. cbn [env set_env losses regs combiner cost] in *. constructor; cbn; auto.
    + apply Forall2_app.
      * clear - r2 Hf. assert (forall k, In k (dkeys (loss_keys s5)) -> k < lk) as Hg by auto. clear Hf. induction r2 as [|a x l m [Q1 Q2] Q IH]; constructor.
        -- split; [exact Q1|]. rewrite getl_old; [exact Q2|]. assert (fst a < lk) by (apply Hg; left; reflexivity). lia.
        -- apply IH. intros k Hk; apply Hg; right; exact Hk.
      * constructor; [|constructor]. split; cbn; [rewrite N5; exact A4|]. rewrite getl_fresh by exact F2. rewrite N5. eapply sized_le; [exact L4|exact Z3].
    + intros k Hk. assert (lk < List.length (nodes s5)) as Q. { rewrite N5. pose proof (le_length _ _ L3); pose proof (le_length _ _ L4); pose proof (at_lt _ _ _ _ _ A2). lia. }
      unfold dkeys in Hk. rewrite !map_app in Hk. cbn in Hk. destruct Hk as [Hk|Hk]; apply in_app_or in Hk as [Hk|[<-|[]]]; try exact Q; specialize (Hf k); unfold dkeys in Hf; assert (k < lk) by auto; lia.
Qed.
(** ** Regularisations *)
Lemma is_input_rel : forall s p k, rel s p -> is_input s k = key_is_input (env p) k.
Proof. intros s p k H. pose proof (dget_named _ _ _ k (r_names _ _ H)) as D. unfold is_input, key_is_input. destruct (dget k (names s)), (dget k (env p)); try contradiction; [|reflexivity]. apply D. Qed.
Lemma existsb_ext' : forall {A} (f g : A -> bool) l, (forall a, f a = g a) -> existsb f l = existsb g l.
Proof. intros A f g l E; induction l; cbn; [reflexivity|]. rewrite E, IHl; reflexivity. Qed.
Lemma add_reg1_rel : forall s p r, rel s p -> own (rarg r) = here (rarg r) ->
  let q := spec_reg value_of trainable p (rmodel r) (rcoef r) (here (rarg r)) (rarg r :: rothers r) (rname r) in rel (fst (add_reg1 trainable s r)) (fst q) /\ (snd q = match snd (add_reg1 trainable s r) with None => true | Some _ => false end).
Proof.
  intros s p r H Ho. cbv zeta. unfold add_reg1, spec_reg. rewrite (existsb_ext' _ (fun a => key_is_input (env p) (here a) && trainable (here a))); [|intros a; rewrite (is_input_rel s p _ H); reflexivity].
  destruct (existsb _ _); cbn [negb]; [|split; [exact H|reflexivity]].
  destruct (resolve_all s (rarg r :: rothers r)) as [s1 args] eqn:E1. destruct (get_keys value_of (env p) (map here (rarg r :: rothers r))) as [e xs] eqn:E2. destruct (resolve_all_rel _ _ _ _ _ _ _ H E1 E2) as (H1 & S1 & L1 & A1).
  destruct (extend s1 (Apply (rmodel r)) args) as [s2 out] eqn:E3. destruct (extend_rel s1 _ (Apply (rmodel r)) _ _ s2 out H1 ltac:(discriminate) A1 E3) as (H2 & S2 & L2 & N2 & Hlk & A2 & I2).
  assert (calc value_of (Apply (rmodel r)) (map fst (map (fun x => (ev x, edeps x)) xs)) = fst (compute (rmodel r) xs)) as V2 by (cbn; rewrite map_map; reflexivity).
  assert (List.concat (map snd (map (fun x : entry => (ev x, edeps x)) xs)) = snd (compute (rmodel r) xs)) as D2 by (cbn; rewrite map_map; apply concat_flat_map).
  rewrite V2, D2 in A2. destruct (compute (rmodel r) xs) as [v d] eqn:EC. cbn [fst snd] in A2.
  destruct (name_rel s2 _ (rname r) out _ d H2 A2 I2) as [(U & er & EN)|(U & s3 & EN & H3 & S3 & N3)]; cbn [env set_env] in U; rewrite U, EN; cbn [fst snd].
  - split; [exact H2|reflexivity].
  - split; [|reflexivity]. rewrite set_env_twice in *. pose proof (same_trans _ _ _ S2 S3) as (T1 & T2 & T3 & T4 & T5 & T6). destruct (r_regs _ _ H1) as (R & R1 & R2 & R3 & R4). cbn [set_env regs] in R1.
    destruct H3 as [r1 r2 r3 r4 r5 r6 r7 r8 r9 r10]. cbn [set_env env losses regs combiner cost] in *. rewrite Ho. constructor; cbn [nodes names loss_keys reduce_inputs geomean_map reg_coef_map loss_combiner is_finalized set_env env losses regs combiner cost]; auto.
    + exists (R ++ [(rcoef r, out, here (rarg r))]). split; [|split; [|split]].
      * apply Forall2_app; [eapply reged_le; [|exact R1]; rewrite N3; exact L2|]. constructor; [|constructor]. split; [reflexivity|]. split; [reflexivity|]. cbn. exists d; rewrite N3; exact A2.
      * rewrite map_app. cbn. apply NoDup_snoc; [exact R2|]. intros HI. apply in_map_iff in HI as (x & Hx & HI). assert (exists y, reged (nodes s1) x y) as (y & _ & _ & dd & Ay).
        { clear - R1 HI. induction R1 as [|a b l m Q1 Q2 IH]; [destruct HI|]. destruct HI as [->|HI]; [exists b; exact Q1|apply IH; exact HI]. }
        apply at_lt in Ay. rewrite Hx in Ay. lia.
      * rewrite pairs_snoc; [|exact r5]. rewrite map_app. cbn. apply Permutation_app; [rewrite T3; exact R3|apply Permutation_refl].
      * rewrite pairs_snoc; [|exact r6]. rewrite map_app. cbn. apply Permutation_app; [rewrite T4; exact R4|apply Permutation_refl].
    + apply dwf_dset; exact r5.
    + apply dwf_dset; exact r6.
    + assert (forall m : list (F B * list nat), Forall (fun x => snd x <> []) m -> forall k l, l <> [] -> Forall (fun x => snd x <> []) (dset k l m)) as Q.
      { clear. intros m Hm k l Hl; induction Hm as [|[k1 l1] m M1 M2 IH]; cbn; [repeat constructor; exact Hl|]. destruct (eq_dec k k1); constructor; auto. }
      apply Q; [exact r7|]. intros Habs; apply app_eq_nil in Habs as [_ Habs]; discriminate.
Qed.
Lemma add_pattern_rel : forall s p m q f n, rel s p -> rel (fst (add_pattern trainable s m q f n)) (spec_call value_of accepts trainable p (AddPattern m q f n)).
Proof.
  intros s p m q f n H. unfold add_pattern, spec_call. rewrite (r_fin _ _ H), (r_cost _ _ H), (keys_named _ _ _ (r_names _ _ H)).
  rewrite (filter_ext _ (fun k => key_is_input (env p) k && f k)); [|intros k; rewrite (is_input_rel s p k H); reflexivity]. set (l := filter _ _). clearbody l.
  assert (forall l s e p b, rel s p -> b = match e with None => true | Some _ => false end ->
    rel (fst (fold_left (fun (r : @result B) k => match r with (s, Some e) => (s, Some e) | (s, None) => add_reg1 trainable s {| rmodel := m; rcoef := q; rarg := ByName k; rothers := []; rname := n |} end) l (s, e)))
        (fst (fold_left (fun (pb : spec * bool) k => if snd pb then spec_reg value_of trainable (fst pb) m q k [ByName k] n else pb) l (p, b)))) as G.
  { clear s p H l. intros l; induction l as [|k l IH]; intros s e p b H Hb; [exact H|]. cbn [fold_left snd fst]. destruct e as [er|]; subst b; cbn [snd fst].
    - apply IH; [exact H|reflexivity].
    - pose proof (add_reg1_rel s p {| rmodel := m; rcoef := q; rarg := ByName k; rothers := []; rname := n |} H eq_refl) as Q. cbv zeta in Q. cbn [rmodel rcoef rarg rothers rname here] in Q.
      destruct (add_reg1 trainable s _) as [s1 e1]. destruct (spec_reg value_of trainable p m q k [ByName k] n) as [p1 b1]. cbn [fst snd] in Q. destruct Q as [Q1 Q2]. apply IH; [exact Q1|exact Q2]. }
  apply G; [exact H|reflexivity].
Qed.
Lemma add_metric_rel : forall s p m l st n, rel s p -> rel (fst (add_metric s m l st n)) (spec_call value_of accepts trainable p (AddMetric m l st n)).
Proof.
  intros s p m l st n H. unfold add_metric, spec_call, spec_metric. rewrite (r_fin _ _ H), (r_cost _ _ H).
  destruct (resolve_all s l) as [s1 args] eqn:E1. destruct (get_keys value_of (env p) (map here l)) as [e xs] eqn:E2. destruct (resolve_all_rel _ _ _ _ _ _ _ H E1 E2) as (H1 & S1 & L1 & A1).
  destruct (extend s1 (Apply m) args) as [s2 out] eqn:E3. destruct (extend_rel s1 _ (Apply m) _ _ s2 out H1 ltac:(discriminate) A1 E3) as (H2 & S2 & L2 & N2 & Hlk & A2 & I2).
  assert (calc value_of (Apply m) (map fst (map (fun x => (ev x, edeps x)) xs)) = fst (compute m xs)) as V2 by (cbn; rewrite map_map; reflexivity).
  assert (List.concat (map snd (map (fun x : entry => (ev x, edeps x)) xs)) = snd (compute m xs)) as D2 by (cbn; rewrite map_map; apply concat_flat_map).
  rewrite V2, D2 in A2. destruct (compute m xs) as [v d] eqn:EC. cbn [fst snd] in A2. set (steps := match st with [] => _ | _ => _ end).
  destruct (reduce s2 steps out []) as [[s3 out'] rs] eqn:E4.
  destruct (reduce_rel steps s2 _ out v d [] [] s3 out' rs H2 A2 I2 (Forall2_nil _) E4) as (H3 & S3 & L3 & N3 & A3 & I3 & _).
  destruct (name_rel s3 _ n out' _ d H3 A3 I3) as [(U & er & EN)|(U & s4 & EN & H4 & S4 & N4)]; cbn [env set_env] in U; rewrite U, EN; cbn [fst snd]; assumption.
Qed.
End Inv.
