(** * C38: stateful models *)
From Coq Require Import List Arith Lia Bool.
From Verif Require Import PyBase State_Model.
Import ListNotations.
Open Scope list_scope.

(** ** Bindings *)
(** What can be bound: an input to something that is none, each only once *)
Definition inputlike (b : binder) (e : nat) : Prop := dget e (types b) = Some KInput \/ dget e (types b) = Some KLatentInput.
Definition known (b : binder) (e : nat) : Prop := dget e (types b) <> None.
Definition bindable (b : binder) (i o : nat) : Prop := frozen b = false /\ inputlike b i /\ known b o /\ ~ inputlike b o /\ forall o' i', In (o', i') (bound b) -> i' <> i /\ o' <> o.
Definition bindings_ok (b : binder) : Prop :=
  NoDup (map fst (bound b)) /\ NoDup (map snd (bound b)) /\ (forall e, In e (map fst (bound b)) -> ~ In e (map snd (bound b)))
  /\ forall o i, In (o, i) (bound b) -> dget i (types b) = Some KLatentInput /\ known b o /\ ~ inputlike b o.
Lemma inputlike_spec b e t : dget e (types b) = Some t -> (is_input t = true <-> inputlike b e).
Proof. intros E. unfold inputlike. rewrite E. destruct t; cbn; split; auto; try discriminate; intros [X|X]; discriminate. Qed.
Lemma clash_spec (l : list (nat * nat)) i o : existsb (fun oi => eqb (snd oi) i || eqb (fst oi) o) l = false <-> forall o' i', In (o', i') l -> i' <> i /\ o' <> o.
Proof.
  split.
  - intros E o' i' H. split; intros ->; assert (X : existsb (fun oi => eqb (snd oi) i || eqb (fst oi) o) l = true); try congruence; apply existsb_exists; [exists (o', i)|exists (o, i')]; split; auto; cbn; rewrite eqb_refl; auto using orb_true_r.
  - intros H. destruct (existsb (fun oi => eqb (snd oi) i || eqb (fst oi) o) l) eqn:E; [|auto]. apply existsb_exists in E as ([o' i'] & Hin & E). destruct (H o' i' Hin) as [A B]. apply orb_true_iff in E as [E|E]; apply (proj1 (eqb_eq _ _)) in E; cbn in E; congruence.
Qed.
Lemma bind_spec b i o later : match bind_state_keys b i o later with
  | (b', Ok _) => bindable b i o /\ later = None /\ bound b' = bound b ++ [(o, i)]
  | (b', Err e) => bound b' = bound b /\ (bindable b i o -> later = Some e)
  end.
Proof.
  unfold bind_state_keys. destruct (frozen b) eqn:Ef; [split; [auto|intros (X & _); congruence]|]. destruct (dget i (types b)) as [ti|] eqn:Ei; [|split; [auto|intros (_ & [X|X] & _); congruence]]. destruct (dget o (types b)) as [to_|] eqn:Eo; [|split; [auto|intros (_ & _ & X & _); exfalso; apply X; auto]].
  destruct (is_input ti) eqn:Ti; cbn [negb]; [|split; [auto|intros (_ & X & _); apply (inputlike_spec b i ti Ei) in X; congruence]]. destruct (is_input to_) eqn:To; [split; [auto|intros (_ & _ & _ & X & _); exfalso; apply X; apply (inputlike_spec b o to_ Eo); auto]|].
  destruct (existsb _ (bound b)) eqn:Ex; [split; [auto|intros (_ & _ & _ & _ & X); apply clash_spec in X; congruence]|]. destruct later as [e|]; [split; auto|]. split; [|auto]. split; [auto|]. split; [apply (inputlike_spec b i ti Ei); auto|]. split; [unfold known; congruence|]. split; [|apply clash_spec; auto]. intros X. apply (inputlike_spec b o to_ Eo) in X. congruence.
Qed.
Lemma bind_ok b i o later : bindings_ok b -> bindings_ok (fst (bind_state_keys b i o later)).
Proof.
  intros Ok0. unfold bind_state_keys. destruct (frozen b) eqn:Ef; [auto|]. destruct (dget i (types b)) as [ti|] eqn:Ei; [|auto]. destruct (dget o (types b)) as [to_|] eqn:Eo; [|auto]. destruct (is_input ti) eqn:Ti; cbn [negb]; [|auto]. destruct (is_input to_) eqn:To; [auto|]. destruct (existsb _ (bound b)) eqn:Ex; [auto|].
  assert (Cl := proj1 (clash_spec _ _ _) Ex). set (ts := match to_ with KOutput => dset o KLatentOutput (dset i KLatentInput (types b)) | _ => dset i KLatentInput (types b) end).
  assert (Nio : o <> i) by congruence.
  assert (Gi : dget i ts = Some KLatentInput) by (unfold ts; destruct to_; try rewrite (dget_dset_other i o) by auto; apply dget_dset_same).
  assert (Go : exists t, dget o ts = Some t /\ is_input t = false) by (unfold ts; destruct to_; try discriminate; try (rewrite dget_dset_same; eauto); rewrite dget_dset_other, Eo by auto; eauto).
  assert (Gx : forall e, e <> i -> e <> o -> dget e ts = dget e (types b)) by (intros e N1 N2; unfold ts; destruct to_; rewrite ?dget_dset_other by auto; auto).
  destruct Ok0 as (N1 & N2 & Dj & Ty). assert (Old : forall bd o' i', In (o', i') (bound b) -> dget i' ts = Some KLatentInput /\ known {| frozen := false; types := ts; bound := bd |} o' /\ ~ inputlike {| frozen := false; types := ts; bound := bd |} o').
  { intros bd o' i' H. destruct (Cl o' i' H) as [C1 C2]. destruct (Ty o' i' H) as (T1 & T2 & T3). assert (i' <> o). { intros ->. rewrite T1 in Eo. injection Eo as <-. discriminate. } assert (o' <> i). { intros ->. apply T3. apply (inputlike_spec b i ti Ei). auto. } unfold known, inputlike in *. cbn [types]. rewrite !Gx by auto. auto. }
  destruct later as [e|]; cbn [fst]; unfold bindings_ok; cbn [bound]; fold ts.
  - do 3 (split; [auto|]). intros o' i' H. apply Old. auto.
  - rewrite !map_app. cbn [map fst snd]. split; [|split; [|split]].
    + apply NoDup_snoc; [auto|]. intros X. apply in_map_iff in X as ([o' i'] & E & H). cbn in E. subst o'. destruct (Cl o i' H). auto.
    + apply NoDup_snoc; [auto|]. intros X. apply in_map_iff in X as ([o' i'] & E & H). cbn in E. subst i'. destruct (Cl o' i H). auto.
    + intros e H X. apply in_app_iff in H. apply in_app_iff in X. cbn in H, X. destruct H as [H|[<-|[]]], X as [X|[X|[]]].
      * eapply Dj; eauto.
      * subst e. apply in_map_iff in H as ([o' i'] & E & H). cbn in E. subst o'. destruct (Ty i i' H) as (_ & _ & T3). apply T3. apply (inputlike_spec b i ti Ei). auto.
      * apply in_map_iff in X as ([o' i'] & E & X). cbn in E. subst i'. destruct (Ty o' o X) as (T1 & _). rewrite T1 in Eo. injection Eo as <-. discriminate.
      * congruence.
    + intros o' i' H. apply in_app_iff in H as [H|[E|[]]]; [apply Old; auto|]. injection E as <- <-. split; [auto|]. destruct Go as (t & Go & Gt). unfold known, inputlike. cbn [types]. rewrite Go. split; [discriminate|]. intros [X|X]; injection X as ->; discriminate.
Qed.
(** After any calls, whatever their errors, no edge is bound twice, none is bound on both sides, and bound inputs are no inputs of the user any more. *)
Theorem C38_bindings : forall b calls, bound b = [] -> bindings_ok (bind_all b calls).
Proof.
  intros b calls E. assert (B : bindings_ok b) by (unfold bindings_ok; rewrite E; cbn; split; [constructor|]; split; [constructor|]; split; [intros e []|intros o i []]). clear E. revert b B. induction calls as [|c calls IH]; intros b B; cbn [bind_all fold_left]; [auto|]. apply IH. apply bind_ok. auto.
Qed.
(** A call binds exactly the bindable pairs. *)
Theorem C38_binds : forall b i o, (snd (bind_state_keys b i o None) = Ok tt <-> bindable b i o) /\ (bindable b i o -> bound (fst (bind_state_keys b i o None)) = bound b ++ [(o, i)]) /\ (~ bindable b i o -> bound (fst (bind_state_keys b i o None)) = bound b).
Proof.
  intros b i o. assert (S := bind_spec b i o None). destruct (bind_state_keys b i o None) as [b' [[]|e]]; cbn [fst snd].
  - destruct S as (S1 & _ & S2). split; [tauto|]. split; [auto|]. intros X. contradiction.
  - destruct S as (S1 & S2). split; [split; [discriminate|intros X; specialize (S2 X); discriminate]|]. split; [intros X; specialize (S2 X); discriminate|auto].
Qed.

(** ** Evaluation: specification *)
Section Spec.
Context {K V G : Type} `{EqDec K}.
Definition lookups := K -> option V.
(** What the generated function computes, as a function of the values of the keys *)
Definition extensional (F : lookups -> lookups) : Prop := forall f g, (forall k, f k = g k) -> forall k, F f k = F g k.
Definition computes (F : lookups -> lookups) (fwd : dict K V -> res (dict K V)) : Prop := forall d, exists outs, fwd d = Ok outs /\ dwf outs /\ forall k, dget k outs = F (fun k => dget k d) k.
(** The state has precedence over the data *)
Definition over (state data : lookups) : lookups := fun k => match state k with Some v => Some v | None => data k end.
(** The bindings by name; the visible outputs; the state after a step *)
Section Names.
Variables (name : nat -> K) (bs : list (nat * nat)) (exposed : list K).
Definition hidden (k : K) : Prop := ~ In k exposed /\ exists o i, In (o, i) bs /\ name o = k.
Definition visible (outs shown : lookups) : Prop := forall k, (hidden k -> shown k = None) /\ (~ hidden k -> shown k = outs k).
Definition advances (outs next : lookups) : Prop := (forall o i, In (o, i) bs -> next (name i) = outs (name o)) /\ forall k, (forall o i, In (o, i) bs -> name i <> k) -> next k = None.
End Names.

(** ** Proofs *)
Lemma dget_dupdate (e : dict K V) : dwf e -> forall d k, dget k (dupdate d e) = match dget k e with Some v => Some v | None => dget k d end.
Proof.
  induction e as [|[k0 v0] e IH]; intros N d k; [auto|]. unfold dwf in N. cbn in N. inversion N as [|? ? N1 N2]; subst. change (dupdate d ((k0, v0) :: e)) with (dupdate (dset k0 v0 d) e). rewrite (IH N2). cbn [dget]. destruct (eq_dec k k0) as [->|Ne].
  - replace (dget k0 e) with (@None V); [apply dget_dset_same|]. symmetry. apply dget_None. auto.
  - destruct (dget k e); [auto|]. apply dget_dset_other. auto.
Qed.
Section Keys.
Variables (name : nat -> K) (value : nat -> option V).
Hypothesis inj : forall a b, name a = name b -> a = b.
Lemma make_spec bs : forall outs sks outs', make_state_keys name value bs outs = (sks, outs') -> NoDup (map fst bs) ->
  sks = map (fun oi => {| in_key := name (snd oi); out_key := name (fst oi); is_exposed := mem (name (fst oi)) outs; initial := value (snd oi) |}) bs /\ forall k, In k outs' <-> In k outs \/ exists o i, In (o, i) bs /\ name o = k.
Proof.
  induction bs as [|[o i] bs IH]; intros outs sks outs' E N; cbn [make_state_keys] in E; [injection E as <- <-; split; [auto|]; intros k; split; [auto|intros [X|(o & i & [] & _)]; auto]|].
  destruct (make_state_keys name value bs (sadd (name o) outs)) as [sks0 outs0] eqn:E0. injection E as <- <-. cbn in N. inversion N as [|? ? N1 N2]; subst. destruct (IH _ _ _ E0 N2) as [-> Ho]. split.
  - cbn [map fst snd]. f_equal. apply map_ext_in. intros [o' i'] Hin. cbn [fst snd]. f_equal. assert (No : name o' <> name o). { intros X. apply inj in X. subst o'. apply N1. apply in_map_iff. exists (o, i'). auto. }
    destruct (mem_spec (name o') outs) as [A|A], (mem_spec (name o') (sadd (name o) outs)) as [B|B]; auto; exfalso; [apply B; apply In_sadd; auto|apply In_sadd in B as [B|B]; auto].
  - intros k. rewrite Ho, In_sadd. split.
    + intros [[->|X]|(o' & i' & H1 & H2)]; [right; exists o, i; split; [left|]; auto|auto|right; exists o', i'; split; [right|]; auto].
    + intros [X|(o' & i' & [E|H1] & H2)]; [auto|injection E as <- <-; auto|right; exists o', i'; auto].
Qed.
Definition keys_of (exposed : list K) (bs : list (nat * nat)) : list (state_key K V) := map (fun oi => {| in_key := name (snd oi); out_key := name (fst oi); is_exposed := mem (name (fst oi)) exposed; initial := value (snd oi) |}) bs.
Lemma extract_spec exposed bs : forall (outs st : dict K V), NoDup (map fst bs) -> NoDup (map snd bs) -> dwf outs -> dwf st -> (forall o i, In (o, i) bs -> dget (name o) outs <> None) ->
  exists shown next, extract (keys_of exposed bs) outs st = Ok (shown, next) /\ dwf next /\ (forall k, (hidden name bs exposed k -> dget k shown = None) /\ (~ hidden name bs exposed k -> dget k shown = dget k outs))
    /\ (forall o i, In (o, i) bs -> dget (name i) next = dget (name o) outs) /\ (forall k, (forall o i, In (o, i) bs -> name i <> k) -> dget k next = dget k st).
Proof.
  induction bs as [|[o i] bs IH]; intros outs st N1 N2 Wo Ws D.
  - exists outs, st. split; [auto|]. split; [auto|]. split; [|split; [intros o i []|auto]]. intros k. split; [intros (_ & o & i & [] & _)|auto].
  - cbn [keys_of map extract out_key is_exposed in_key fst snd]. fold (keys_of exposed bs). cbn in N1, N2. inversion N1 as [|? ? N1a N1b]; inversion N2 as [|? ? N2a N2b]; subst. destruct (dget (name o) outs) as [v|] eqn:Ev; [|exfalso; apply (D o i); [left; auto|auto]].
    set (outs' := if mem (name o) exposed then outs else ddel (name o) outs). assert (Wo' : dwf outs') by (unfold outs'; destruct (mem (name o) exposed); auto using dwf_ddel).
    assert (No : forall o' i', In (o', i') bs -> name o' <> name o). { intros o' i' Hin X. apply inj in X. subst o'. apply N1a. apply in_map_iff. exists (o, i'). auto. } assert (Ni : forall o' i', In (o', i') bs -> name i' <> name i). { intros o' i' Hin X. apply inj in X. subst i'. apply N2a. apply in_map_iff. exists (o', i). auto. }
    assert (Gk : forall k, k <> name o -> dget k outs' = dget k outs) by (intros k Nk; unfold outs'; destruct (mem (name o) exposed); [auto|apply dget_ddel_other; auto]).
    destruct (IH outs' (dset (name i) v st) N1b N2b Wo' (dwf_dset _ _ _ Ws)) as (shown & next & E & Wn & Sh & Nx & Nk); [intros o' i' Hin; rewrite Gk by (eapply No; eauto); apply (D o' i'); right; auto|].
    exists shown, next. split; [exact E|]. split; [auto|]. split; [|split].
    + intros k. destruct (Sh k) as [Sh1 Sh2]. split.
      * intros (He & o' & i' & [X|Hin] & <-); [injection X as -> ->|apply Sh1; split; [auto|]; exists o', i'; auto]. rewrite Sh2 by (intros (_ & o2 & i2 & Hin & X); apply (No o2 i2 Hin); auto). unfold outs'. destruct (mem_spec (name o') exposed) as [A|A]; [contradiction|]. apply dget_ddel_same. auto.
      * intros Hk. rewrite Sh2 by (intros (He & o' & i' & Hin & <-); apply Hk; split; [auto|]; exists o', i'; split; [right|]; auto). destruct (eq_dec k (name o)) as [->|Nk0]; [|auto]. unfold outs'. destruct (mem_spec (name o) exposed) as [A|A]; [auto|]. exfalso. apply Hk. split; [auto|]. exists o, i. split; [left; auto|auto].
    + intros o' i' [X|Hin]; [injection X as <- <-|rewrite (Nx o' i' Hin); apply Gk; eapply No; eauto]. rewrite Nk by auto. rewrite dget_dset_same. auto.
    + intros k Hk. rewrite Nk by (intros o' i' Hin; apply (Hk o' i'); right; auto). apply dget_dset_other. intros ->. apply (Hk o i); [left; auto|auto].
Qed.
End Keys.
End Spec.

(** ** One call *)
Section Theorems.
Context {K V G : Type} `{EqDec K}.
Lemma state_some (next : dict K V) name (bs : list (nat * nat)) (g : K -> option V) : bs <> [] -> (forall o i, In (o, i) bs -> dget (name i) next = g (name o)) -> (forall o i, In (o, i) bs -> g (name o) <> None) -> next <> [].
Proof. intros Nb A B ->. destruct bs as [|[o i] bs]; [congruence|]. apply (B o i); [left; auto|]. rewrite <- (A o i) by (left; auto). auto. Qed.
(** The generated function gets the data with the state in front; the visible outputs are its outputs without the bound ones that are not
    exposed; the new state gives every bound input the value of its output.  The same with gradients. *)
Theorem C38_step : forall (name : nat -> K) value bs exposed sks outs' (F : lookups -> lookups) fwd all (grads : dict K V -> G) inference gradients (data : option (dict K V)) (state : dict K V),
  (forall a b, name a = name b -> a = b) -> NoDup (map fst bs) -> NoDup (map snd bs) -> make_state_keys name value bs exposed = (sks, outs') -> dwf state -> extensional F -> computes F fwd ->
  (forall d, exists outs, fwd d = Ok outs /\ all d = Ok (outs, grads d)) -> (forall f o i, In (o, i) bs -> F f (name o) <> None) ->
  match evaluate sks inference fwd all gradients data (Some state) with
  | Err e => gradients = true /\ inference = true /\ e = NotImplementedError
  | Ok a => exists d, let outs := F (over (fun k => dget k state) (fun k => match data with Some d => dget k d | None => None end)) in
      (forall k, dget k d = over (fun k => dget k state) (fun k => match data with Some d => dget k d | None => None end) k) /\
      visible name bs exposed outs (fun k => dget k (a_outputs a)) /\
      a_gradients a = (if gradients then Some (grads d) else None) /\ (gradients = true -> inference = false) /\
      match a_state a with None => bs = [] | Some next => bs <> [] /\ dwf next /\ advances name bs outs (fun k => dget k next) end
  end.
Proof.
  intros name value bs exposed sks outs' F fwd all grads inference gradients data state inj N1 N2 E Ws Ext Comp All Def. destruct (make_spec name value inj bs exposed sks outs' E N1) as [Sk _]. fold (keys_of name value exposed bs) in Sk. subst sks. unfold evaluate. cbn [bind].
  set (dat := dupdate (match data with Some d => d | None => [] end) state). assert (Dd : forall k, dget k dat = over (fun k => dget k state) (fun k => match data with Some d => dget k d | None => None end) k). { intros k. unfold dat. rewrite dget_dupdate by auto. unfold over. destruct (dget k state); [auto|]. destruct data; auto. }
  destruct (Comp dat) as (outs & Ef & Wo & Ho). assert (Ho' : forall k, dget k outs = F (over (fun k => dget k state) (fun k => match data with Some d => dget k d | None => None end)) k) by (intros k; rewrite Ho; apply Ext; auto).
  destruct (extract_spec name value inj exposed bs outs [] N1 N2 Wo) as (shown & next & Ex & Wn & Sh & Nx & Nk); [constructor|intros o i Hin; rewrite Ho'; eauto|].
  assert (Adv : match (match next with [] => None | _ => Some next end) with None => bs = [] | Some next => bs <> [] /\ dwf next /\ advances name bs (F (over (fun k => dget k state) (fun k => match data with Some d => dget k d | None => None end))) (fun k => dget k next) end).
  { assert (A : advances name bs (F (over (fun k => dget k state) (fun k => match data with Some d => dget k d | None => None end))) (fun k => dget k next)) by (split; [intros o i Hin; rewrite (Nx o i Hin); auto|intros k Hk; rewrite (Nk k Hk); auto]). destruct next as [|kv next].
    - destruct bs as [|[o i] bs]; [auto|]. exfalso. apply (Def (over (fun k => dget k state) (fun k => match data with Some d => dget k d | None => None end)) o i); [left; auto|]. rewrite <- Ho'. rewrite <- (Nx o i) by (left; auto). auto.
    - split; [|auto]. intros ->. cbn in Nk. specialize (Nk (fst kv) ltac:(intros o i [])). destruct kv as [k v]. cbn [dget fst] in Nk. destruct (eq_dec k k); congruence. }
  assert (Vis : visible name bs exposed (F (over (fun k => dget k state) (fun k => match data with Some d => dget k d | None => None end))) (fun k => dget k shown)) by (intros k; destruct (Sh k) as [S1 S2]; split; [auto|]; intros Hk; rewrite (S2 Hk); auto).
  destruct gradients; cbn [negb].
  - destruct inference; [auto|]. destruct (All dat) as (outs2 & E2 & ->). rewrite Ef in E2. injection E2 as <-. cbn [bind fst]. rewrite Ex. cbn [bind fst snd a_outputs a_gradients a_state]. exists dat. do 3 (split; [auto|]). split; [first [reflexivity|discriminate]|exact Adv].
  - rewrite Ef. cbn [bind]. rewrite Ex. cbn [bind fst snd a_outputs a_gradients a_state]. exists dat. do 3 (split; [auto|]). split; [first [reflexivity|discriminate]|exact Adv].
Qed.
(** Without state a model with bindings cannot be evaluated. *)
Theorem C38_required : forall (sks : list (state_key K V)) inference fwd (all : dict K V -> res (dict K V * G)) gradients data, sks <> [] -> evaluate sks inference fwd all gradients data None = Err ValueError.
Proof. intros [|s sks] inference fwd all gradients data N; [congruence|auto]. Qed.

End Theorems.
(** ** Many calls: the states are the iterates of the function *)
Section Many.
Context {K V : Type} `{EqDec K}.
Theorem C38_run : forall (name : nat -> K) value bs exposed sks outs' (F : lookups -> lookups) fwd (ds : list (dict K V)) (s0 : dict K V),
  (forall a b, name a = name b -> a = b) -> NoDup (map fst bs) -> NoDup (map snd bs) -> bs <> [] -> make_state_keys name value bs exposed = (sks, outs') -> dwf s0 -> extensional F -> computes F fwd -> (forall f o i, In (o, i) bs -> F f (name o) <> None) ->
  exists os sn (states : nat -> K -> option V), run sks fwd ds (Some s0) = Ok (os, Some sn) /\ length os = length ds /\
    (forall k, states 0 k = dget k s0) /\ (forall k, states (length ds) k = dget k sn) /\
    forall t d o, nth_error ds t = Some d -> nth_error os t = Some o ->
      let outs := F (over (states t) (fun k => dget k d)) in visible name bs exposed outs (fun k => dget k o) /\ advances name bs outs (states (S t)).
Proof.
  intros name value bs exposed sks outs' F fwd ds s0 inj N1 N2 Nb E Ws Ext Comp Def. revert s0 Ws. induction ds as [|d ds IH]; intros s0 Ws.
  - exists [], s0, (fun _ k => dget k s0). split; [auto|]. split; [auto|]. split; [auto|]. split; [auto|]. intros [|t] d o X; discriminate.
  - assert (St := C38_step name value bs exposed sks outs' F fwd (fun d => match fwd d with Ok o => Ok (o, tt) | Err e => Err e end) (fun _ => tt) false false (Some d) s0 inj N1 N2 E Ws Ext Comp).
    specialize (St ltac:(intros d0; destruct (Comp d0) as (outs & E0 & _); exists outs; rewrite E0; auto) Def). cbn [run].
    change (@evaluate K V unit _ sks false fwd (fun _ => Err AssertionError) false (Some d) (Some s0)) with (@evaluate K V unit _ sks false fwd (fun d => match fwd d with Ok o => Ok (o, tt) | Err e => Err e end) false (Some d) (Some s0)).
    destruct (evaluate sks false fwd _ false (Some d) (Some s0)) as [a|e]; [|destruct St; discriminate]. cbn [bind]. destruct St as (_ & _ & Vis & _ & _ & Ad). destruct (a_state a) as [next|]; [|contradiction]. destruct Ad as (_ & Wn & Ad).
    destruct (IH next Wn) as (os & sn & states & Er & L & S0 & Sn & Steps). rewrite Er. cbn [bind fst snd]. exists (a_outputs a :: os), sn, (fun t => match t with O => fun k => dget k s0 | S t => states t end). split; [auto|]. split; [cbn; auto|]. split; [auto|]. split; [auto|].
    intros [|t] d' o Ed Eo; cbn in Ed, Eo.
    + injection Ed as <-. injection Eo as <-. split; [exact Vis|]. destruct Ad as [A1 A2]. split; [intros o i Hin; rewrite S0; auto|intros k Hk; rewrite S0; auto].
    + apply Steps; auto.
Qed.
(** ** The initial state: a value for each bound input, or an error *)
Theorem C38_initial : forall (name : nat -> K) value bs exposed sks outs', (forall a b, name a = name b -> a = b) -> NoDup (map fst bs) -> NoDup (map snd bs) -> make_state_keys name value bs exposed = (sks, outs') ->
  match initial_state (V := V) sks [] with
  | Ok s => dwf s /\ (forall o i, In (o, i) bs -> value i <> None /\ dget (name i) s = value i) /\ forall k, (forall o i, In (o, i) bs -> name i <> k) -> dget k s = None
  | Err e => e = ValueError /\ exists o i, In (o, i) bs /\ value i = None
  end.
Proof.
  intros name value bs exposed sks outs' inj N1 N2 E. destruct (make_spec name value inj bs exposed sks outs' E N1) as [Sk _]. fold (keys_of name value exposed bs) in Sk. subst sks. clear E.
  assert (Gen : forall bs acc, NoDup (map snd bs) -> dwf acc -> match initial_state (keys_of name value exposed bs) acc with
    | Ok s => dwf s /\ (forall o i, In (o, i) bs -> value i <> None /\ dget (name i) s = value i) /\ forall k, (forall o i, In (o, i) bs -> name i <> k) -> dget k s = dget k acc
    | Err e => e = ValueError /\ exists o i, In (o, i) bs /\ value i = None end).
  { clear - inj. induction bs as [|[o i] bs IH]; intros acc N W; [split; [auto|]; split; [intros o i []|auto]|]. cbn [keys_of map initial_state initial in_key fst snd]. fold (keys_of name value exposed bs). cbn in N. inversion N as [|? ? Na Nb]; subst. destruct (value i) as [v|] eqn:Ev; [|split; [auto|]; exists o, i; split; [left|]; auto].
    specialize (IH (dset (name i) v acc) Nb (dwf_dset _ _ _ W)). destruct (initial_state (keys_of name value exposed bs) (dset (name i) v acc)) as [s|e]; [|destruct IH as (-> & o' & i' & A & B); split; [auto|]; exists o', i'; split; [right|]; auto].
    destruct IH as (Ws & A & B). split; [auto|]. split.
    - intros o' i' [X|Hin]; [injection X as <- <-|exact (A o' i' Hin)]. split; [congruence|]. rewrite B; [rewrite dget_dset_same; congruence|]. intros o' i' Hin X. apply inj in X. subst i'. apply Na. apply in_map_iff. exists (o', i). auto.
    - intros k Hk. rewrite B by (intros o' i' Hin; apply (Hk o' i'); right; auto). apply dget_dset_other. intros ->. apply (Hk o i); [left; auto|auto]. }
  specialize (Gen bs [] N2 ltac:(constructor)). destruct (initial_state (keys_of name value exposed bs) []); auto.
Qed.
End Many.

(** ** Cases *)
(** A counter: input 0, step 1, bound output 2 = input + step, visible output 3 = 10 * input *)
Definition counter (d : dict nat nat) : res (dict nat nat) := let get k := match dget k d with Some v => v | None => 0 end in Ok [(2, get 0 + get 1); (3, 10 * get 0)].
Definition counter_fun (f : nat -> option nat) (k : nat) : option nat := let get k := match f k with Some v => v | None => 0 end in match k with 2 => Some (get 0 + get 1) | 3 => Some (10 * get 0) | _ => None end.
Example C38_example : computes counter_fun counter /\ extensional counter_fun /\ make_state_keys (fun e => e) (fun _ => Some 5) [(2, 0)] [3] = ([{| in_key := 0; out_key := 2; is_exposed := false; initial := Some 5 |}], [3; 2]) /\
  run [{| in_key := 0; out_key := 2; is_exposed := false; initial := Some 5 |}] counter [[(1, 1)]; [(1, 4)]; [(1, 2)]] (Some [(0, 5)]) = Ok ([[(3, 50)]; [(3, 60)]; [(3, 100)]], Some [(0, 12)]) /\
  initial_state [{| in_key := 0; out_key := 2; is_exposed := false; initial := Some 5 |}] [] = Ok [(0, 5)].
Proof.
  split; [|split; [|vm_compute; auto]].
  - intros d. eexists. split; [reflexivity|]. split; [repeat constructor; cbn; lia|]. intros k. do 4 (destruct k as [|k]; [auto|]). auto.
  - intros f g Efg k. unfold counter_fun. rewrite !Efg. auto.
Qed.
Example C38_bindings_example : bound (bind_all {| frozen := false; types := [(0, KInput); (1, KInput); (2, KOutput); (3, KInternal)]; bound := [] |} [(0, 2, None); (0, 3, None); (1, 2, None); (1, 3, None); (2, 1, None)]) = [(2, 0); (3, 1)] /\
  bindable {| frozen := false; types := [(0, KInput); (2, KOutput)]; bound := [] |} 0 2.
Proof. split; [vm_compute; auto|]. split; [auto|]. split; [left; auto|]. split; [discriminate|]. split; [intros [X|X]; discriminate|intros o i []]. Qed.
(** Findings. A state with further keys changes the data silently. *)
Theorem C38_extra_refuted : exists a, @evaluate nat nat unit _ [{| in_key := 0; out_key := 2; is_exposed := false; initial := None |}] false counter (fun _ => Err AssertionError) false (Some [(1, 1)]) (Some [(0, 5); (1, 100)]) = Ok a /\ a_state a = Some [(0, 105)].
Proof. eexists. split; vm_compute; reflexivity. Qed.
(** Only a missing state is noticed, not a state without the bound input: the input is then taken from the data. *)
Theorem C38_missing_refuted : exists a, @evaluate nat nat unit _ [{| in_key := 0; out_key := 2; is_exposed := false; initial := None |}] false counter (fun _ => Err AssertionError) false (Some [(0, 7); (1, 1)]) (Some []) = Ok a /\ a_state a = Some [(0, 8)].
Proof. eexists. split; vm_compute; reflexivity. Qed.
(** A call refused because of the initial value, the types or the shapes has turned the input into a latent one already, without any binding. *)
Theorem C38_refused_refuted : exists b, bind_state_keys {| frozen := false; types := [(0, KInput); (2, KOutput)]; bound := [] |} 0 2 (Some ValueError) = (b, Err ValueError) /\ bound b = [] /\ dget 0 (types b) = Some KLatentInput.
Proof. eexists. split; vm_compute; auto. Qed.
Print Assumptions C38_bindings.
Print Assumptions C38_binds.
Print Assumptions C38_step.
Print Assumptions C38_required.
Print Assumptions C38_run.
Print Assumptions C38_initial.
Print Assumptions C38_extra_refuted.
Print Assumptions C38_missing_refuted.
Print Assumptions C38_refused_refuted.
