(** * C41: the constraint solver loses no wake-ups *)
From Coq Require Import List Arith Lia Bool Relation_Operators.
From Verif Require Import PyBase Solver_Model Solver_Proofs.
Import ListNotations.
Open Scope list_scope. Open Scope nat_scope. Open Scope res_scope.

(** ** Specification, on the record of the run (newest event first) *)
(** The event asks for a run of [c]: its creation, or a change of data it is registered for. *)
Definition concerns (c : nat) (ev : event) : Prop :=
  match ev with Changed _ _ ws => In c ws | Created d _ => d = c | _ => False end.
(** Something concerns [c], and no turn of [c] has ended since. *)
Definition pending (tr : list event) (c : nat) : Prop :=
  exists tr1 ev tr2, tr = tr1 ++ ev :: tr2 /\ concerns c ev /\ forall st, ~ In (Ended c st) tr1.
(** Watched data was changed, and no turn of [c] has started since. *)
Definition unseen (tr : list event) (c : nat) : Prop :=
  exists tr1 ev tr2, tr = tr1 ++ ev :: tr2 /\ concerns c ev /\ ~ In (Started c) tr1.

Definition choice (pick : list nat -> nat) : Prop := forall l, l <> [] -> In (pick l) l.

Lemma pending_owed tr c : pending tr c <-> owed tr c.
Proof.
  split.
  - intros (tr1 & ev & tr2 & -> & Hc & Hn). induction tr1 as [|x tr1 IH]; cbn [app].
    + destruct ev; cbn in *; auto; contradiction.
    + assert (IH' : owed (tr1 ++ ev :: tr2) c) by (apply IH; intros st H; apply (Hn st); right; auto).
      destruct x; cbn; auto. split; auto. intros ->. apply (Hn done). left. auto.
  - induction tr as [|x tr IH]; [intros []|]. intros H.
    assert (Sub : owed tr c -> (forall st, x <> Ended c st) -> pending (x :: tr) c).
    { intros Ho Hx. destruct (IH Ho) as (tr1 & ev & tr2 & -> & Hc & Hn). exists (x :: tr1), ev, tr2. split; auto. split; auto. intros st [E|E]; [apply (Hx st); auto|apply (Hn st); auto]. }
    destruct x; cbn in H.
    + destruct H as [H|H]; [exists [], (Changed e t watchers), tr; split; auto; split; auto; intros st []|apply Sub; auto; discriminate].
    + destruct H as [H|H]; [exists [], (Created c0 deps), tr; split; auto; split; auto; intros st []|apply Sub; auto; discriminate].
    + apply Sub; auto; discriminate.
    + destruct H as [Hc H]. apply Sub; auto. intros st [= E _]. auto.
Qed.

Section Session.
  Variable fn : nat -> list (nat * utype) -> res (bool * list (nat * utype)).
  Variable shapes : list nat -> list (nat * utype) -> res (list (nat * utype)).
  Variable pick : list nat -> nat.
  Hypothesis Hpick : choice pick.

  Lemma init_inv : inv init /\ waits init [].
  Proof.
    split; [|intros c _ _ []]. split; cbn; try tauto.
    - intros c e t. split; [intros []|]. intros (es & H & _). discriminate.
    - split; cbn; [tauto|constructor].
    - intros c H. exfalso. apply H. auto.
    - constructor.
    - intros tr1 c tr2 H. destruct tr1; discriminate.
  Qed.
  Lemma apply_ok fuel o s pend : inv s -> waits s pend ->
    match apply fn shapes pick fuel o (s, pend) with
    | Ok (s', pend') => inv s' /\ waits s' pend' /\ (o = OSolve -> pend' = [])
    | Err e => e = OutOfFuel \/ raised fn shapes e \/ (exists l ch, o = OMerge l l ch /\ e = KeyError)
    end.
  Proof.
    intros I W. destruct o as [es ts deps|ch|l r ch|]; cbn [apply].
    - assert (N := new_ok es ts deps s pend I W). destruct (new_constraint es ts deps s) as [c s1]. destruct N as (I1 & W1 & _).
      assert (L := loop_spec fn shapes pick pend fuel [c] s1 I1 W1). destruct (solver_loop fn shapes pick fuel [c] s1) as [s2|e]; cbn [bind]; [|tauto].
      split; [tauto|]. split; [tauto|discriminate].
    - destruct (record_inv ch s I) as (evs & ups & E & _ & _ & I1 & _ & O). rewrite E. split; auto. split; [|discriminate].
      intros c R P Ow. apply In_sunion. apply O in Ow as [Ow|Ow]; auto.
    - assert (M := merge_ok l r ch s pend I W). destruct (merge l r ch s) as [[s1 ups]|e]; cbn [bind].
      + split; [tauto|]. split; [tauto|discriminate].
      + destruct M as [-> ->]. right; right. eauto.
    - destruct (shapes pend (hist (trace s))) as [ch|e] eqn:Es; cbn [bind]; [|right; left; right; eauto].
      destruct (record_inv ch s I) as (evs & ups & E & _ & _ & I1 & _ & O). rewrite E. set (s1 := set_trace _ _) in *.
      assert (W1 : waits s1 (sunion pend ups ++ [])).
      { intros c R P Ow. rewrite app_nil_r. apply In_sunion. apply O in Ow as [Ow|Ow]; auto. }
      assert (L := loop_spec fn shapes pick [] fuel (sunion pend ups) s1 I1 W1). destruct (solver_loop fn shapes pick fuel (sunion pend ups) s1) as [s2|e]; cbn [bind]; [|tauto].
      split; [tauto|]. split; [tauto|auto].
  Qed.
  Lemma session_ok fuel os : forall s pend, inv s -> waits s pend ->
    match session fn shapes pick fuel os (s, pend) with
    | Ok (s', pend') => inv s' /\ waits s' pend'
    | Err e => e = OutOfFuel \/ raised fn shapes e \/ (exists l ch, In (OMerge l l ch) os /\ e = KeyError)
    end.
  Proof.
    induction os as [|o os IH]; intros s pend I W; cbn [session]; auto. assert (A := apply_ok fuel o s pend I W).
    destruct (apply fn shapes pick fuel o (s, pend)) as [[s1 p1]|e]; cbn [bind].
    - destruct A as (I1 & W1 & _). specialize (IH s1 p1 I1 W1). destruct (session fn shapes pick fuel os (s1, p1)) as [[s2 p2]|e]; auto.
      destruct IH as [|[|(l & ch & H & ->)]]; auto. right; right. exists l, ch. split; auto. right. auto.
    - destruct A as [|[|(l & ch & -> & ->)]]; auto. right; right. exists l, ch. split; auto. left. auto.
  Qed.
  Lemma session_app fuel os1 os2 : forall sp, session fn shapes pick fuel (os1 ++ os2) sp = let* sp := session fn shapes pick fuel os1 sp in session fn shapes pick fuel os2 sp.
  Proof. induction os1 as [|o os1 IH]; intros sp; cbn [app session]; [reflexivity|]. destruct (apply fn shapes pick fuel o sp); cbn [bind]; auto. Qed.

  (** Whatever the constraints do and in whatever order they are taken: a registered constraint that waits for no other one and has
      something pending is among the updates that the next solver call will run ... *)
  Theorem C41_collected : forall fuel os s pend, session fn shapes pick fuel os (init, []) = Ok (s, pend) ->
    forall c, registered s c -> parents s c = [] -> pending (trace s) c -> In c pend.
  Proof.
    intros fuel os s pend E c R P H. destruct init_inv as [I W]. assert (S0 := session_ok fuel os init [] I W). rewrite E in S0. destruct S0 as [_ S0].
    apply pending_owed in H. apply S0; auto.
  Qed.
  (** ... and after a solver call nothing is pending for any such constraint. *)
  Theorem C41_settled : forall fuel os s pend, session fn shapes pick fuel (os ++ [OSolve]) (init, []) = Ok (s, pend) ->
    forall c, registered s c -> parents s c = [] -> ~ pending (trace s) c.
  Proof.
    intros fuel os s pend E c R P H. assert (E0 := E). rewrite session_app in E. destruct init_inv as [I W]. assert (S0 := session_ok fuel os init [] I W).
    destruct (session fn shapes pick fuel os (init, [])) as [[s1 p1]|]; [|discriminate]. cbn [bind session] in E. destruct S0 as [I1 W1].
    assert (A := apply_ok fuel OSolve s1 p1 I1 W1). destruct (apply fn shapes pick fuel OSolve (s1, p1)) as [[s2 p2]|]; [|discriminate]. cbn [bind] in E. injection E as -> ->.
    destruct A as (_ & _ & A). rewrite (A eq_refl) in E0. exact (C41_collected _ _ _ _ E0 c R P H).
  Qed.

  (** A constraint that is still registered is registered at exactly its edges, for exactly its kinds of updates, also after edges were
      merged; a finished one nowhere. *)
  Theorem C41_registration : forall fuel os s pend, session fn shapes pick fuel os (init, []) = Ok (s, pend) ->
    (forall c e t, In c (watch s e t) <-> exists es, dget c (cmap s) = Some es /\ In e es /\ In t (types s c)) /\
    (forall c, In (Ended c true) (trace s) -> ~ registered s c).
  Proof.
    intros fuel os s pend E. destruct init_inv as [I W]. assert (S0 := session_ok fuel os init [] I W). rewrite E in S0. destruct S0 as [I0 _].
    split; [apply (i_reg _ I0)|]. intros c H. apply (i_done _ I0) in H. tauto.
  Qed.

  (** A constraint starts only after all constraints it was made to depend on have finished, and never after it has finished itself. *)
  Theorem C41_dependencies : forall fuel os s pend, session fn shapes pick fuel os (init, []) = Ok (s, pend) ->
    forall later c earlier, trace s = later ++ Started c :: earlier ->
      ~ In (Ended c true) earlier /\ forall deps d, In (Created c deps) earlier -> In d deps -> In (Ended d true) earlier.
  Proof.
    intros fuel os s pend E. destruct init_inv as [I W]. assert (S0 := session_ok fuel os init [] I W). rewrite E in S0. destruct S0 as [I0 _]. exact (i_order _ I0).
  Qed.

  (** A constraint that waits for others waits, directly or through others, for a registered one that can run. *)
  Theorem C41_no_deadlock : forall fuel os s pend, session fn shapes pick fuel os (init, []) = Ok (s, pend) ->
    forall c, registered s c -> parents s c <> [] ->
      exists d, registered s d /\ parents s d = [] /\ clos_trans nat (fun p q => In p (parents s q)) d c.
  Proof.
    intros fuel os s pend E. destruct init_inv as [I W]. assert (S0 := session_ok fuel os init [] I W). rewrite E in S0. destruct S0 as [I0 _].
    induction c as [c IH] using lt_wf_ind. intros R P. destruct (parents s c) as [|p l] eqn:Ep; [congruence|].
    assert (Hp : In p (parents s c)) by (rewrite Ep; left; auto). destruct (i_par _ I0 p c Hp) as (L & Rp & _).
    destruct (parents s p) as [|q l'] eqn:Eq.
    - exists p. split; auto. split; auto. apply t_step. auto.
    - destruct (IH p L Rp) as (d & Rd & Pd & T); [rewrite Eq; discriminate|]. exists d. split; auto. split; auto. eapply t_trans; [exact T|]. apply t_step. auto.
  Qed.

  (** Errors come from the constraints (or from merging an edge with itself), never from the solver's own bookkeeping. *)
  Theorem C41_errors : forall fuel os e, session fn shapes pick fuel os (init, []) = Err e -> e <> OutOfFuel ->
    (exists c h, fn c h = Err e) \/ (exists u h, shapes u h = Err e) \/ (exists l ch, In (OMerge l l ch) os /\ e = KeyError).
  Proof.
    intros fuel os e E Hn. destruct init_inv as [I W]. assert (S0 := session_ok fuel os init [] I W). rewrite E in S0. unfold raised in S0. intuition.
  Qed.

  (** If no constraint can change the data for ever, every operation ends. *)
  Theorem C41_terminates : forall mu : list (nat * utype) -> nat,
    (forall c h st ch, fn c h = Ok (st, ch) -> ch <> [] -> mu (rev ch ++ h) < mu h) ->
    (forall u h ch, shapes u h = Ok ch -> ch <> [] -> mu (rev ch ++ h) < mu h) ->
    (forall c h e, fn c h <> Err e) -> (forall u h e, shapes u h <> Err e) ->
    forall fuel os s pend, session fn shapes pick fuel os (init, []) = Ok (s, pend) ->
    forall o, (forall l ch, o <> OMerge l l ch) -> exists N, forall n, N <= n -> exists sp, apply fn shapes pick n o (s, pend) = Ok sp.
  Proof.
    intros mu Hf Hs Nf Ns fuel os s pend E o Ho. destruct init_inv as [I W]. assert (S0 := session_ok fuel os init [] I W). rewrite E in S0. destruct S0 as [I0 W0].
    assert (Nr : forall e, ~ raised fn shapes e). { intros e [(c & h & H)|(u & h & H)]; [apply (Nf c h e H)|apply (Ns u h e H)]. }
    assert (G : exists N, forall n, N <= n -> apply fn shapes pick n o (s, pend) <> Err OutOfFuel).
    { destruct o as [es ts deps|ch|l r ch|]; cbn [apply].
      - assert (N := new_ok es ts deps s pend I0 W0). destruct (new_constraint es ts deps s) as [c s1]. destruct N as (I1 & W1 & _).
        destruct (loop_stops fn shapes pick Hpick mu Hf Hs _ _ [c] s1 I1 (le_n _) (le_n _)) as [N HN]. exists N. intros n Hn. destruct (HN n Hn) as [H|H]; [|exfalso; apply (Nr _ H)].
        destruct (solver_loop fn shapes pick n [c] s1); cbn [bind]; congruence.
      - exists 0. intros n _. destruct (record ch s). discriminate.
      - exists 0. intros n _ H. assert (M := merge_ok l r ch s pend I0 W0). destruct (merge l r ch s) as [[s1 u1]|e]; cbn [bind] in H; [discriminate|]. destruct M as [-> _]. discriminate.
      - destruct (shapes pend (hist (trace s))) as [ch|e] eqn:Es; [|exfalso; apply (Ns _ _ _ Es)]. cbn [bind].
        destruct (record_inv ch s I0) as (evs & ups & E1 & _ & _ & I1 & _ & O). rewrite E1.
        destruct (loop_stops fn shapes pick Hpick mu Hf Hs _ _ (sunion pend ups) _ I1 (le_n _) (le_n _)) as [N HN]. exists N. intros n Hn. destruct (HN n Hn) as [H|H]; [|exfalso; apply (Nr _ H)].
        destruct (solver_loop fn shapes pick n (sunion pend ups) _); cbn [bind]; congruence. }
    destruct G as [N HN]. exists N. intros n Hn. assert (A := apply_ok n o s pend I0 W0). specialize (HN n Hn). destruct (apply fn shapes pick n o (s, pend)) as [sp|e]; [eauto|].
    exfalso. destruct A as [->|[A|(l & ch & -> & ->)]]; [congruence|apply (Nr _ A)|apply (Ho l ch eq_refl)].
  Qed.
End Session.

(** ** A concrete session *)
(** Constraint 0 copies a change of edge 0 to edge 1 and then is done; constraint 1 watches edge 1 and depends on constraint 0; constraint 2
    watches edges 2 and 1 and never finishes. *)
Definition ex_fn (c : nat) (h : list (nat * utype)) : res (bool * list (nat * utype)) :=
  match c with
  | 0 => if mem (0, VALUE) h then Ok (true, [(1, SHAPE)]) else Ok (false, [])
  | 1 => Ok (mem (1, SHAPE) h, [])
  | _ => Ok (false, [])
  end.
Definition ex_shapes (_ : list nat) (_ : list (nat * utype)) : res (list (nat * utype)) := Ok [].
Definition ex_pick (l : list nat) : nat := last l 0.
Definition ex_ops := [OAdd [0; 1] [SHAPE; VALUE] []; OAdd [1] [SHAPE] [0]; OAdd [2; 1] [SHAPE] []; OMerge 3 2 []; OChange [(0, VALUE)]].
Lemma ex_pick_ok : choice ex_pick.
Proof.
  intros l. induction l as [|x [|y l] IH]; [congruence|cbn; auto|]. intros _. right. apply IH. discriminate.
Qed.
Example C41_example :
  match session ex_fn ex_shapes ex_pick 20 ex_ops (init, []) with
  | Ok (s, pend) => pend = [0] /\ parents s 1 = [0] /\ dget 2 (cmap s) = Some [3; 1] /\ watch s 3 SHAPE = [2] /\ watch s 2 SHAPE = []
  | Err _ => False
  end /\
  match session ex_fn ex_shapes ex_pick 20 (ex_ops ++ [OSolve]) (init, []) with
  | Ok (s, pend) => dkeys (cmap s) = [2] /\ watch s 1 SHAPE = [2] /\
      firstn 7 (trace s) = [Ended 1 true; Started 1; Ended 2 false; Started 2; Ended 0 true; Changed 1 SHAPE [0; 1; 2]; Started 0]
  | Err _ => False
  end.
Proof. vm_compute. repeat split. Qed.
(** The hypotheses of [C41_terminates] hold of a constraint that makes three changes at most. *)
Example C41_terminates_example :
  let f := fun (c : nat) (h : list (nat * utype)) => if length h <? 3 then Ok (false, [(c, VALUE)]) else Ok (true, []) in
  (forall c h st ch, f c h = Ok (st, ch) -> ch <> [] -> 3 - length (rev ch ++ h) < 3 - length h) /\
  (forall u h ch, ex_shapes u h = Ok ch -> ch <> [] -> 3 - length (rev ch ++ h) < 3 - length h) /\ (forall c h e, f c h <> Err e).
Proof.
  cbv zeta. split; [|split].
  - intros c h st ch. destruct (Nat.ltb_spec (length h) 3); intros [= <- <-] Hn; [rewrite app_length, rev_length; cbn [length]; lia|congruence].
  - intros u h ch [= <-] H. congruence.
  - intros c h e. destruct (length h <? 3); discriminate.
Qed.

(** ** Findings *)
(** A change that a constraint makes to data it watches itself does not wake it up: [discard] drops it. *)
Definition self_fn (c : nat) (h : list (nat * utype)) : res (bool * list (nat * utype)) :=
  match h with [] => Ok (false, [(0, VALUE)]) | _ => Ok (true, []) end.
Theorem C41_self_wakeup_refuted : ~ forall fn shapes pick, choice pick -> forall fuel os s pend,
  session fn shapes pick fuel (os ++ [OSolve]) (init, []) = Ok (s, pend) -> forall c, registered s c -> parents s c = [] -> ~ unseen (trace s) c.
Proof.
  intros H. destruct (session self_fn ex_shapes ex_pick 9 ([OAdd [0] [VALUE] []] ++ [OSolve]) (init, [])) as [[s pend]|e] eqn:E; [|vm_compute in E; discriminate].
  assert (Es : match session self_fn ex_shapes ex_pick 9 ([OAdd [0] [VALUE] []] ++ [OSolve]) (init, []) with Ok (s, _) => registered s 0 /\ parents s 0 = [] /\
    trace s = [Ended 0 false; Changed 0 VALUE [0]; Started 0; Created 0 []] | Err _ => False end) by (vm_compute; repeat split; discriminate).
  rewrite E in Es. destruct Es as (R & P & T). apply (H _ _ _ ex_pick_ok _ _ _ _ E 0 R P). rewrite T.
  exists [Ended 0 false], (Changed 0 VALUE [0]), [Started 0; Created 0 []]. split; auto. split; [left; auto|]. intros [X|[]]. discriminate.
Qed.
(** A constraint that depends on an unfinished one is not run when its data changes, although it is registered. *)
Definition never_fn (c : nat) (h : list (nat * utype)) : res (bool * list (nat * utype)) := Ok (false, []).
Theorem C41_blocked_refuted : ~ forall fn shapes pick, choice pick -> forall fuel os s pend,
  session fn shapes pick fuel (os ++ [OSolve]) (init, []) = Ok (s, pend) -> forall c, registered s c -> ~ pending (trace s) c.
Proof.
  intros H. set (os := [OAdd [0] [VALUE] []; OAdd [1] [VALUE] [0]; OChange [(1, VALUE)]]).
  destruct (session never_fn ex_shapes ex_pick 9 (os ++ [OSolve]) (init, [])) as [[s pend]|e] eqn:E; [|vm_compute in E; discriminate].
  assert (Es : match session never_fn ex_shapes ex_pick 9 (os ++ [OSolve]) (init, []) with Ok (s, _) => registered s 1 /\
    trace s = [Changed 1 VALUE [1]; Created 1 [0]; Ended 0 false; Started 0; Created 0 []] | Err _ => False end) by (vm_compute; repeat split; discriminate).
  rewrite E in Es. destruct Es as (R & T). apply (H _ _ _ ex_pick_ok _ _ _ _ E 1 R). rewrite T.
  exists [], (Changed 1 VALUE [1]), [Created 1 [0]; Ended 0 false; Started 0; Created 0 []]. split; auto. split; [left; auto|]. intros st [].
Qed.

Print Assumptions C41_collected.
Print Assumptions C41_settled.
Print Assumptions C41_registration.
Print Assumptions C41_dependencies.
Print Assumptions C41_no_deadlock.
Print Assumptions C41_errors.
Print Assumptions C41_terminates.
Print Assumptions C41_self_wakeup_refuted.
Print Assumptions C41_blocked_refuted.
