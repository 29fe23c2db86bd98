(** * C39: key sets given to compilation *)
From Coq Require Import List Bool String Ascii.
From Verif Require Import PyBase Keys_Model.
Import ListNotations.
Open Scope list_scope.

(** ** Specification *)
(** The physical name of a logical one, and the physical name a given key stands for: names must be given without the prefix of unnamed
    connections and occur in the model, connections must belong to the model. *)
Definition external (m : lmodel) (s p : string) : Prop := dget s (mapping m) = Some p \/ dget s (mapping m) = None /\ p = s.
Inductive means (m : lmodel) : ukey -> string -> Prop :=
| means_name s e p : (forall s', s <> String "$" s') -> dget s (conns m) = Some e -> external m s p -> means m (Name s) p
| means_conn e s p : by_metadata m e = Some s -> external m s p -> means m (Conn e) p.
Definition edge (m : lmodel) (k : ukey) (e : nat) : Prop := match k with Conn e' => e = e' | Name s => dget s (conns m) = Some e end.
Inductive category := Constant | Data | Trainable | Discard.
Section Spec.
Context {V S : Type}.
Definition in_category (g : given V S) (c : category) (k : ukey) : Prop :=
  match c with Constant => exists v, In (k, v) (constants g) | Data => In k (data g) | Trainable => In k (trainable g) | Discard => In k (discarded g) end.
Definition named (m : lmodel) (g : given V S) : Prop := (forall c k, in_category g c k -> exists p, means m k p) /\ forall k s, In (k, s) (shaped g) -> exists p, means m k p.
Definition unset (m : lmodel) (g : given V S) : Prop := forall k e, in_category g Constant k \/ in_category g Data k -> edge m k e -> valued m e = false.
Definition separate (m : lmodel) (g : given V S) : Prop := forall c1 c2 k1 k2 p, in_category g c1 k1 -> in_category g c2 k2 -> means m k1 p -> means m k2 p -> c1 = c2.
Definition contained (m : lmodel) (g : given V S) : Prop := forall c k p, in_category g c k -> means m k p -> In p (inputs m) \/ c = Discard /\ In p (outputs m).
Definition result (r : prepared V S) (c : category) (p : string) : Prop :=
  match c with Constant => dget p (p_constants r) <> None | Data => In p (p_data r) | Trainable => In p (p_trainable r) | Discard => In p (p_discarded r) end.

(** ** Proofs *)
Lemma means_fun m k p q : means m k p -> means m k q -> p = q.
Proof. intros A B. destruct A as [s e p N E X|e s p E X]; inversion B as [s' e' p' N' E' X'|e' s' p' E' X']; subst; [|assert (s' = s) by congruence; subst s']; destruct X as [X|[X ->]], X' as [X'|[X' ->]]; congruence. Qed.
Lemma dollar_spec s : dollar s = false <-> forall s', s <> String "$" s'.
Proof. destruct s as [|c s]; cbn; [split; [discriminate|auto]|]. destruct (Ascii.eqb_spec c "$"%char) as [->|N]; split; intros X; [discriminate|exfalso; eapply X; reflexivity|intros s' E; injection E; congruence|auto]. Qed.
Lemma convert_spec m k : match convert_key m k with Ok p => means m k p | Err e => e = KeyError /\ forall p, ~ means m k p end.
Proof.
  unfold convert_key. assert (Ext : forall s, external m s (match dget s (mapping m) with Some p => p | None => s end)) by (intros s; unfold external; destruct (dget s (mapping m)); auto). destruct k as [s|e].
  - destruct (dollar s) eqn:D; cbn [bind]; [split; [auto|]; intros p X; inversion X; subst; apply dollar_spec in H0; congruence|]. unfold dmem. destruct (dget s (conns m)) as [e|] eqn:E; cbn [bind]; [|split; [auto|]; intros p X; inversion X; subst; congruence]. apply means_name with e; [apply dollar_spec; auto|auto|auto].
  - destruct (by_metadata m e) as [s|] eqn:E; cbn [bind]; [|split; [auto|]; intros p X; inversion X; congruence]. apply means_conn with s; auto.
Qed.
Lemma convert_set_spec m ks : forall acc, NoDup acc ->
  match convert_set m ks acc with
  | Ok r => NoDup r /\ (forall k, In k ks -> exists p, means m k p) /\ forall p, In p r <-> In p acc \/ exists k, In k ks /\ means m k p
  | Err e => e = KeyError /\ exists k, In k ks /\ forall p, ~ means m k p
  end.
Proof.
  induction ks as [|k ks IH]; intros acc N; cbn [convert_set]; [split; [auto|]; split; [intros k []|]; intros p; split; [auto|intros [X|(k & [] & _)]; auto]|]. assert (C := convert_spec m k). destruct (convert_key m k) as [p|e]; cbn [bind]; [|destruct C as [-> C]; split; [auto|]; exists k; split; [left; auto|auto]].
  specialize (IH (sadd p acc) (NoDup_sadd _ _ N)). destruct (convert_set m ks (sadd p acc)) as [r|e]; [|destruct IH as (-> & k' & H1 & H2); split; [auto|]; exists k'; split; [right; auto|auto]].
  destruct IH as (N' & D & IH). split; [auto|]. split; [intros k' [->|H']; [exists p; auto|auto]|]. intros q. rewrite IH, In_sadd. split.
  - intros [[->|H]|(k' & H1 & H2)]; [right; exists k; split; [left|]; auto|auto|right; exists k'; split; [right|]; auto].
  - intros [H|(k' & [->|H1] & H2)]; [auto| |right; exists k'; auto]. left. left. eapply means_fun; eauto.
Qed.
(** The last entry given for a name *)
Definition last_given {W} (m : lmodel) (l : list (ukey * W)) (p : string) (v : W) : Prop := exists l1 k l2, l = l1 ++ (k, v) :: l2 /\ means m k p /\ forall k' v', In (k', v') l2 -> ~ means m k' p.
Lemma convert_dict_spec {W} m (ks : list (ukey * W)) : forall acc,
  match convert_dict m ks acc with
  | Ok r => (forall k v, In (k, v) ks -> exists p, means m k p) /\ (forall p, (forall k v, In (k, v) ks -> ~ means m k p) -> dget p r = dget p acc) /\ (forall k v p, In (k, v) ks -> means m k p -> exists v', dget p r = Some v' /\ last_given m ks p v')
  | Err e => e = KeyError /\ exists k v, In (k, v) ks /\ forall p, ~ means m k p
  end.
Proof.
  induction ks as [|[k v] ks IH]; intros acc; cbn [convert_dict]; [split; [intros k v []|]; split; [auto|intros k v p []]|]. assert (C := convert_spec m k). destruct (convert_key m k) as [p|e]; cbn [bind]; [|destruct C as [-> C]; split; [auto|]; exists k, v; split; [left; auto|auto]].
  specialize (IH (dset p v acc)). destruct (convert_dict m ks (dset p v acc)) as [r|e]; [|destruct IH as (-> & k' & v' & H1 & H2); split; [auto|]; exists k', v'; split; [right; auto|auto]].
  destruct IH as (D & Old & New). split; [intros k' v' [E|H']; [injection E as -> ->; exists p; auto|eauto]|]. split.
  - intros q H. rewrite Old by (intros k' v' X; apply H with v'; right; auto). apply dget_dset_other. intros ->. apply (H k v); [left; auto|auto].
  - intros k' v' q H Hm. assert (Dec : (exists k1 v1, In (k1, v1) ks /\ means m k1 q) \/ (forall k1 v1, In (k1, v1) ks -> ~ means m k1 q)).
    { clear - ks. induction ks as [|[k1 v1] ks IH]; [right; intros k1 v1 []|]. assert (C := convert_spec m k1). assert (X : means m k1 q \/ ~ means m k1 q). { destruct (convert_key m k1) as [q'|e]; [|right; apply C]. destruct (string_dec q q') as [->|N]; [auto|]. right. intros X. apply N. eapply means_fun; eauto. }
      destruct X as [X|X]; [left; exists k1, v1; split; [left|]; auto|]. destruct IH as [(k2 & v2 & H1 & H2)|IH]; [left; exists k2, v2; split; [right|]; auto|]. right. intros k2 v2 [E|H']; [injection E as <- <-; auto|eauto]. }
    destruct Dec as [(k1 & v1 & H1 & H2)|No].
    + destruct (New k1 v1 q H1 H2) as (w & Ew & l1 & k2 & l2 & E & M2 & L2). exists w. split; [auto|]. exists ((k, v) :: l1), k2, l2. rewrite E. auto.
    + destruct H as [E|H]; [|exfalso; eapply No; eauto]. injection E as -> ->. assert (p = q) by (eapply means_fun; eauto). subst q. exists v'. split; [rewrite Old by auto; apply dget_dset_same|]. exists [], k', ks. auto.
Qed.
Lemma check_spec m ks : (forall k, In k ks -> exists p e, means m k p /\ edge m k e) -> match check_overridden m ks with Ok _ => forall k e, In k ks -> edge m k e -> valued m e = false | Err x => x = ValueError /\ exists k e, In k ks /\ edge m k e /\ valued m e = true end.
Proof.
  induction ks as [|k ks IH]; intros H; cbn [check_overridden]; [intros k e []|]. destruct (H k (or_introl eq_refl)) as (p & e & _ & E). assert (Em : metadata m k = Ok e) by (destruct k; cbn in *; [rewrite E; auto|congruence]). rewrite Em. cbn [bind].
  assert (U : forall e', edge m k e' -> e' = e) by (intros e' X; destruct k; cbn in *; congruence). destruct (valued m e) eqn:Ev; [split; [auto|]; exists k, e; split; [left|]; auto|]. specialize (IH ltac:(intros k' X; apply H; right; auto)). destruct (check_overridden m ks); [|destruct IH as (-> & k' & e' & A & B); split; [auto|]; exists k', e'; split; [right|]; auto].
  intros k' e' [->|X] Ed; [rewrite (U e' Ed); auto|eauto].
Qed.
Lemma is_nil_spec {A} (l : list A) : is_nil l = true <-> forall x, ~ In x l.
Proof. destruct l as [|y l]; cbn; split; auto; [discriminate|]. intros X. exfalso. apply (X y). auto. Qed.
Definition pick (c d t x : list string) (k : category) : list string := match k with Constant => c | Data => d | Trainable => t | Discard => x end.
Lemma validate_spec m c d t x :
  match validate_keys m c d t x with
  | Ok _ => (forall k1 k2 p, In p (pick c d t x k1) -> In p (pick c d t x k2) -> k1 = k2) /\ (forall k p, In p (pick c d t x k) -> In p (inputs m) \/ k = Discard /\ In p (outputs m))
  | Err e => e = ValueError /\ ~ (forall k1 k2 p, In p (pick c d t x k1) -> In p (pick c d t x k2) -> k1 = k2) \/ e = KeyError /\ ~ (forall k p, In p (pick c d t x k) -> In p (inputs m) \/ k = Discard /\ In p (outputs m))
  end.
Proof.
  unfold validate_keys. match goal with |- context[negb (is_nil ?l)] => set (common := l) end.
  assert (C : forall p, In p common <-> (In p c /\ In p d) \/ (In p c /\ In p t) \/ (In p c /\ In p x) \/ (In p d /\ In p t) \/ (In p d /\ In p x) \/ (In p t /\ In p x)) by (intros p; unfold common; rewrite !In_sunion, !In_sinter; tauto). clearbody common.
  destruct (is_nil common) eqn:E0; cbn [negb].
  2:{ left. split; [auto|]. intros F. assert (E1 : is_nil common = true); [|congruence]. apply is_nil_spec. intros p Hp. apply C in Hp. decompose [or and] Hp;
    [assert (Constant = Data)|assert (Constant = Trainable)|assert (Constant = Discard)|assert (Data = Trainable)|assert (Data = Discard)|assert (Trainable = Discard)]; try discriminate; eapply F; cbn; eauto. }
  assert (D : forall k1 k2 p, In p (pick c d t x k1) -> In p (pick c d t x k2) -> k1 = k2). { intros k1 k2 p H1 H2. assert (X : ~ In p common) by (apply is_nil_spec; auto). rewrite C in X. destruct k1, k2; cbn in *; auto; tauto. }
  destruct (is_nil (sdiff (sunion d c) (inputs m))) eqn:E1; cbn [negb].
  2:{ right. split; [auto|]. intros F. assert (X : is_nil (sdiff (sunion d c) (inputs m)) = true); [|congruence]. apply is_nil_spec. intros p Hp. apply In_sdiff in Hp as [Hp N]. apply In_sunion in Hp as [Hp|Hp]; [destruct (F Data p Hp) as [|[? _]]|destruct (F Constant p Hp) as [|[? _]]]; try discriminate; auto. }
  destruct (is_nil (sdiff t (inputs m))) eqn:E2; cbn [negb].
  2:{ right. split; [auto|]. intros F. assert (X : is_nil (sdiff t (inputs m)) = true); [|congruence]. apply is_nil_spec. intros p Hp. apply In_sdiff in Hp as [Hp N]. destruct (F Trainable p Hp) as [|[? _]]; try discriminate; auto. }
  destruct (is_nil (sdiff x (sunion (inputs m) (outputs m)))) eqn:E3; cbn [negb].
  2:{ right. split; [auto|]. intros F. assert (X : is_nil (sdiff x (sunion (inputs m) (outputs m))) = true); [|congruence]. apply is_nil_spec. intros p Hp. apply In_sdiff in Hp as [Hp N]. apply N. apply In_sunion. destruct (F Discard p Hp) as [|[_ ?]]; auto. }
  split; [auto|]. assert (Sub : forall s u : list string, is_nil (sdiff s u) = true -> forall p, In p s -> In p u). { intros s u X p Hp. destruct (in_dec string_dec p u) as [|N]; [auto|]. exfalso. apply (proj1 (is_nil_spec _) X p). apply In_sdiff. auto. }
  intros k p Hp. destruct k; cbn in Hp.
  - left. apply (Sub _ _ E1). apply In_sunion. auto.
  - left. apply (Sub _ _ E1). apply In_sunion. auto.
  - left. apply (Sub _ _ E2). auto.
  - apply (Sub _ _ E3) in Hp. apply In_sunion in Hp as [|]; auto.
Qed.
Lemma means_edge m k p : means m k p -> exists e, edge m k e.
Proof. intros [s e q _ E _|e s q E _]; [exists e|exists e]; cbn; auto. Qed.
Lemma prepare_spec m (g : given V S) :
  match prepare_keys m g with
  | Ok r => named m g /\ unset m g /\ separate m g /\ contained m g /\ (forall c p, result r c p <-> exists k, in_category g c k /\ means m k p)
            /\ (forall p v, dget p (p_constants r) = Some v <-> last_given m (constants g) p v) /\ (forall p s, dget p (p_shapes r) = Some s <-> last_given m (shaped g) p s)
  | Err e => e = KeyError /\ (~ named m g \/ ~ contained m g) \/ e = ValueError /\ (~ unset m g \/ ~ separate m g)
  end.
Proof.
  unfold prepare_keys. assert (C := convert_dict_spec m (constants g) []). destruct (convert_dict m (constants g) []) as [c|e]; cbn [bind]; [|left; destruct C as (-> & k & v & H1 & H2); split; [auto|]; left; intros [N _]; destruct (N Constant k) as (p & X); [exists v; auto|eapply H2; eauto]].
  assert (D := convert_set_spec m (data g) [] ltac:(constructor)). destruct (convert_set m (data g) []) as [d|e]; cbn [bind]; [|left; destruct D as (-> & k & H1 & H2); split; [auto|]; left; intros [N _]; destruct (N Data k) as (p & X); [exact H1|eapply H2; eauto]].
  assert (T := convert_set_spec m (trainable g) [] ltac:(constructor)). destruct (convert_set m (trainable g) []) as [t|e]; cbn [bind]; [|left; destruct T as (-> & k & H1 & H2); split; [auto|]; left; intros [N _]; destruct (N Trainable k) as (p & X); [exact H1|eapply H2; eauto]].
  assert (X := convert_set_spec m (discarded g) [] ltac:(constructor)). destruct (convert_set m (discarded g) []) as [x|e]; cbn [bind]; [|left; destruct X as (-> & k & H1 & H2); split; [auto|]; left; intros [N _]; destruct (N Discard k) as (p & Z); [exact H1|eapply H2; eauto]].
  assert (Sh := convert_dict_spec m (shaped g) []). destruct (convert_dict m (shaped g) []) as [s|e]; cbn [bind]; [|left; destruct Sh as (-> & k & v & H1 & H2); split; [auto|]; left; intros [_ N]; destruct (N k v H1) as (p & Z); eapply H2; eauto].
  destruct C as (C1 & C2 & C3). destruct D as (_ & D1 & D2). destruct T as (_ & T1 & T2). destruct X as (_ & X1 & X2). destruct Sh as (S1 & S2 & S3).
  assert (Nm : named m g). { split; [|auto]. intros [| | |] k Hk; cbn in Hk; [destruct Hk as (v & Hk); eauto|auto|auto|auto]. }
  assert (Dk : forall W (l : list (ukey * W)) (r : dict string W), (forall p, (forall k v, In (k, v) l -> ~ means m k p) -> dget p r = dget p []) -> (forall k v p, In (k, v) l -> means m k p -> exists v', dget p r = Some v' /\ last_given m l p v') -> forall p v, dget p r = Some v <-> last_given m l p v).
  { intros W l r Old New p v. split.
    - intros E. destruct (existsb (fun kv => match convert_key m (fst kv) with Ok q => eqb p q | Err _ => false end) l) eqn:Ex.
      + apply existsb_exists in Ex as ([k v0] & Hk & E0). cbn in E0. assert (Z := convert_spec m k). destruct (convert_key m k) as [q|]; [|discriminate]. apply (proj1 (eqb_eq _ _)) in E0. subst q. destruct (New k v0 p Hk Z) as (v' & E' & L). rewrite E in E'. injection E' as ->. auto.
      + rewrite Old in E; [discriminate|]. intros k v0 Hk Z. assert (Ex' : existsb (fun kv => match convert_key m (fst kv) with Ok q => eqb p q | Err _ => false end) l = true); [|congruence]. apply existsb_exists. exists (k, v0). split; [auto|]. cbn. assert (Z' := convert_spec m k). destruct (convert_key m k) as [q|]; [apply eqb_eq; eapply means_fun; eauto|]. destruct Z' as [_ Z']. exfalso. eapply Z'; eauto.
    - intros L. assert (L' := L). destruct L' as (l1 & k & l2 & E & M & No). destruct (New k v p) as (v' & E' & (l1' & k' & l2' & E2 & M' & No')); [rewrite E; apply in_app_iff; right; left; auto|auto|]. rewrite E'. f_equal. rewrite E in E2. clear - E2 M M' No No'. revert l1' E2. induction l1 as [|y l1 IH]; intros [|y' l1'] E2; cbn in E2.
      + congruence.
      + injection E2 as _ E2. exfalso. apply (No k' v'); [rewrite E2; apply in_app_iff; right; left; auto|auto].
      + injection E2 as _ E2. exfalso. apply (No' k v); [rewrite <- E2; apply in_app_iff; right; left; auto|auto].
      + injection E2 as _ E2. eauto. }
  assert (Ck : forall p, In p (dkeys c) <-> exists k, in_category g Constant k /\ means m k p).
  { intros p. assert (Z : In p (dkeys c) <-> dget p c <> None) by (rewrite <- dmem_In; unfold dmem; destruct (dget p c); split; congruence). rewrite Z. split.
    - intros N. destruct (dget p c) as [v|] eqn:E; [|congruence]. apply (Dk V (constants g) c C2 C3) in E. destruct E as (l1 & k & l2 & E & M & _). exists k. split; [|auto]. exists v. rewrite E. apply in_app_iff. right. left. auto.
    - intros (k & (v & Hk) & M). destruct (C3 k v p Hk M) as (v' & -> & _). discriminate. }
  assert (Res : forall k p, In p (pick (dkeys c) d t x k) <-> exists u, in_category g k u /\ means m u p). { intros [| | |] p; cbn [pick]; [exact (Ck p)|rewrite D2|rewrite T2|rewrite X2]; cbn; (split; [intros [Z|Z]; [destruct Z|exact Z]|auto]). }
  assert (Ch := check_spec m (sunion (map fst (constants g)) (data g))). assert (In' : forall k, In k (sunion (map fst (constants g)) (data g)) <-> in_category g Constant k \/ in_category g Data k). { intros k. rewrite In_sunion, in_map_iff. cbn. split; [intros [([k' v] & <- & Hk)|]; [left; exists v|]; auto|intros [(v & Hk)|]; [left; exists (k, v)|]; auto]. }
  specialize (Ch ltac:(intros k Hk; apply In' in Hk; assert (Z : exists p, means m k p) by (destruct Hk as [Hk|Hk]; exact (proj1 Nm _ _ Hk)); destruct Z as (p & Z); destruct (means_edge m k p Z) as (e & Ee); eauto)).
  destruct (check_overridden m (sunion (map fst (constants g)) (data g))) as [[]|e]; cbn [bind].
  2:{ destruct Ch as (-> & k & e0 & Hk & He & Ev). right. split; [auto|]. left. intros U. rewrite (U k e0) in Ev; [discriminate|apply In'; auto|auto]. }
  assert (Un : unset m g) by (intros k e Hk; apply Ch; apply In'; auto).
  assert (V0 := validate_spec m (dkeys c) d t x). destruct (validate_keys m (dkeys c) d t x) as [[]|e]; cbn [bind].
  - destruct V0 as [V1 V2]. do 2 (split; [auto|]). split; [intros c1 c2 k1 k2 p H1 H2 M1 M2; eapply V1; apply Res; eauto|]. split; [intros c1 k p H1 M1; apply V2; apply Res; eauto|]. cbn [p_constants p_shapes]. split; [|split; [apply (Dk V (constants g) c C2 C3)|apply (Dk S (shaped g) s S2 S3)]].
    intros k p. rewrite <- Res. destruct k; cbn; try tauto. rewrite <- dmem_In. unfold dmem. destruct (dget p c); split; congruence.
  - destruct V0 as [(-> & N)|(-> & N)]; [right|left]; (split; [auto|]); right; intros F; apply N.
    + intros k1 k2 p H1 H2. apply Res in H1 as (u1 & A1 & B1). apply Res in H2 as (u2 & A2 & B2). eapply F; eauto.
    + intros k p H1. apply Res in H1 as (u1 & A1 & B1). eapply F; eauto.
Qed.
End Spec.

(** ** Exactly the documented combinations are accepted *)
Theorem C39_accepts : forall V S m (g : given V S), (exists r, prepare_keys m g = Ok r) <-> named m g /\ unset m g /\ separate m g /\ contained m g.
Proof.
  intros V S m g. assert (P := prepare_spec m g). destruct (prepare_keys m g) as [r|e].
  - split; [intros _; decompose [and] P; auto|eauto].
  - split; [intros (r & E); discriminate|]. intros (A & B & C & D). exfalso. destruct P as [(_ & [X|X])|(_ & [X|X])]; auto.
Qed.
(** The other combinations are rejected with KeyError for unknown keys and wrong containments, ValueError for values set before and common keys. *)
Theorem C39_rejects : forall V S m (g : given V S) e, prepare_keys m g = Err e -> e = KeyError /\ (~ named m g \/ ~ contained m g) \/ e = ValueError /\ (~ unset m g \/ ~ separate m g).
Proof. intros V S m g e E. assert (P := prepare_spec m g). rewrite E in P. auto. Qed.
(** The sets used by the compiler are exactly the physical names of the given keys; of several entries for one name the last counts. *)
Theorem C39_result : forall V S m (g : given V S) r, prepare_keys m g = Ok r ->
  (forall c p, result r c p <-> exists k, in_category g c k /\ means m k p) /\ (forall p v, dget p (p_constants r) = Some v <-> last_given m (constants g) p v) /\ (forall p s, dget p (p_shapes r) = Some s <-> last_given m (shaped g) p s).
Proof. intros V S m g r E. assert (P := prepare_spec m g). rewrite E in P. decompose [and] P. auto. Qed.

(** ** Cases *)
Open Scope string_scope.
Definition sample : lmodel := {| conns := [("x", 0); ("w", 1); ("$1", 2); ("y", 3); ("u", 4)]; by_metadata := fun e => nth_error ["x"; "w"; "$1"; "y"; "u"] e; valued := fun e => Nat.eqb e 4;
  mapping := [("x", "x"); ("w", "w"); ("$1", "input"); ("y", "y"); ("u", "u")]; inputs := ["x"; "w"; "input"; "u"]; outputs := ["y"] |}.
Example C39_example : prepare_keys sample {| constants := [(Conn 0, 7)]; data := [Conn 2]; trainable := [Name "w"]; discarded := [Name "y"]; shaped := [(Name "w", 5)] |} =
    Ok {| p_constants := [("x", 7)]; p_data := ["input"]; p_trainable := ["w"]; p_discarded := ["y"]; p_shapes := [("w", 5)] |} /\
  @prepare_keys nat nat sample {| constants := [(Conn 0, 7)]; data := [Name "x"]; trainable := []; discarded := []; shaped := [] |} = Err ValueError /\
  @prepare_keys nat nat sample {| constants := []; data := [Name "$1"]; trainable := []; discarded := []; shaped := [] |} = Err KeyError /\
  @prepare_keys nat nat sample {| constants := [(Name "u", 7)]; data := []; trainable := []; discarded := []; shaped := [] |} = Err ValueError.
Proof. vm_compute. auto. Qed.
(** Finding: one input given twice as a constant, once by name and once by connection, is accepted; the first value is dropped silently. *)
Theorem C39_twice_refuted : exists r, @prepare_keys nat nat sample {| constants := [(Name "x", 1); (Conn 0, 2)]; data := []; trainable := []; discarded := []; shaped := [] |} = Ok r /\ p_constants r = [("x", 2)].
Proof. eexists. split; vm_compute; reflexivity. Qed.
Print Assumptions C39_accepts.
Print Assumptions C39_rejects.
Print Assumptions C39_result.
Print Assumptions C39_twice_refuted.
