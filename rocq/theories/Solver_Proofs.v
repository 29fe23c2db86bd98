(** * Proofs about the constraint solver *)
From Coq Require Import List Arith Lia Bool.
From Verif Require Import PyBase Solver_Model.
Import ListNotations.
Open Scope list_scope. Open Scope nat_scope. Open Scope res_scope.

(** ** Sets *)
Lemma In_sadd x y l : In x (sadd y l) <-> x = y \/ In x l.
Proof.
  unfold sadd. destruct (mem y l) eqn:M.
  - apply mem_In in M. split; [auto|intros [->|]; auto].
  - rewrite in_app_iff. cbn. intuition.
Qed.
Lemma In_sunion x m : forall l, In x (sunion l m) <-> In x l \/ In x m.
Proof.
  unfold sunion. induction m as [|y m IH]; intros l; cbn; [tauto|]. rewrite IH, In_sadd. intuition.
Qed.
Lemma In_sdiscard x y l : In x (sdiscard y l) <-> In x l /\ x <> y.
Proof. unfold sdiscard. rewrite filter_In, negb_true_iff, Nat.eqb_neq. tauto. Qed.
Lemma upd_same {A} (f : nat -> A) k v : upd f k v k = v.
Proof. unfold upd. rewrite Nat.eqb_refl. auto. Qed.
Lemma upd_other {A} (f : nat -> A) k v x : x <> k -> upd f k v x = f x.
Proof. unfold upd. intros H. apply Nat.eqb_neq in H. rewrite H. auto. Qed.
Lemma upd2_spec {A} (f : nat -> utype -> A) k t v x y : upd2 f k t v x y = if (x =? k) && eqb y t then v else f x y.
Proof. auto. Qed.
Lemma upd2_cases {A} (f : nat -> utype -> A) k t v x y : (x = k /\ y = t /\ upd2 f k t v x y = v) \/ (~ (x = k /\ y = t) /\ upd2 f k t v x y = f x y).
Proof.
  unfold upd2. destruct (Nat.eqb_spec x k) as [E|E]; cbn; [|right; intuition].
  destruct (eqb y t) eqn:T; [apply (proj1 (eqb_eq _ _)) in T; auto|]. right. split; auto. intros [_ ->].
  assert (X : eqb t t = true) by (apply (proj2 (eqb_eq _ _)); auto). congruence.
Qed.

(** ** Registration *)
Lemma watch_add c e s d e' t : In d (watch (add_constraint c e s) e' t) <-> In d (watch s e' t) \/ (d = c /\ e' = e /\ In t (types s c)).
Proof.
  unfold add_constraint, with_watch. cbn [watch]. generalize (watch s). induction (types s c) as [|t0 ts IH]; intros w; cbn [fold_left]; [cbn; tauto|].
  rewrite IH. destruct (upd2_cases w e t0 (sadd c (w e t0)) e' t) as [(-> & -> & E)|[N E]]; rewrite E.
  - rewrite In_sadd. cbn. intuition.
  - cbn. split; [intuition|]. intros [H|(-> & -> & [<-|H])]; auto. exfalso. apply N. auto.
Qed.
Lemma watch_remove c e s d e' t : In d (watch (remove_constraint c e s) e' t) <-> In d (watch s e' t) /\ ~ (d = c /\ e' = e /\ In t (types s c)).
Proof.
  unfold remove_constraint, with_watch. cbn [watch]. generalize (watch s). induction (types s c) as [|t0 ts IH]; intros w; cbn [fold_left]; [cbn; tauto|].
  rewrite IH. destruct (upd2_cases w e t0 (sdiscard c (w e t0)) e' t) as [(-> & -> & E)|[N E]]; rewrite E.
  - rewrite In_sdiscard. cbn. intuition.
  - cbn. split; [intros [H1 H2]|intros [H1 H2]]; split; auto; intros (-> & -> & H); [|apply H2; auto].
    destruct H as [<-|H]; [apply N; auto|apply H2; auto].
Qed.
(** States that differ at most in the registration at edges. *)
Definition same_but_watch (s s' : sstate) : Prop :=
  cmap s' = cmap s /\ types s' = types s /\ parents s' = parents s /\ children s' = children s /\ nc s' = nc s /\ trace s' = trace s.
Lemma remove_all_spec c es : forall s, same_but_watch s (remove_all c es s) /\
  forall d e t, In d (watch (remove_all c es s) e t) <-> In d (watch s e t) /\ ~ (d = c /\ In e es /\ In t (types s c)).
Proof.
  induction es as [|e0 es IH]; intros s; cbn [remove_all]; [split; [repeat split|cbn; tauto]|].
  destruct (IH (remove_constraint c e0 s)) as [(A1 & A2 & A3 & A4 & A5 & A6) B]. split; [repeat split; auto|].
  intros d e t. rewrite B, watch_remove. cbn [types remove_constraint with_watch]. cbn [In]. split.
  - intros [[H1 H2] H3]. split; auto. intros (-> & [<-|H] & Ht); [apply H2; auto|apply H3; auto].
  - intros [H1 H2]. split; [split; auto|]; intros (-> & H & Ht); apply H2; intuition.
Qed.
Lemma add_all_spec c es : forall s, same_but_watch s (fold_left (fun s e => add_constraint c e s) es s) /\
  forall d e t, In d (watch (fold_left (fun s e => add_constraint c e s) es s) e t) <-> In d (watch s e t) \/ (d = c /\ In e es /\ In t (types s c)).
Proof.
  induction es as [|e0 es IH]; intros s; cbn [fold_left]; [split; [repeat split|cbn; tauto]|].
  destruct (IH (add_constraint c e0 s)) as [(A1 & A2 & A3 & A4 & A5 & A6) B]. split; [repeat split; auto|].
  intros d e t. rewrite B, watch_add. cbn [types add_constraint with_watch]. cbn [In]. intuition.
Qed.

(** ** The specification of what is owed (see Solver_Props) *)
Fixpoint owed (tr : list event) (c : cid) : Prop :=
  match tr with
  | [] => False
  | Changed _ _ ws :: tr => In c ws \/ owed tr c
  | Created d _ :: tr => d = c \/ owed tr c
  | Started _ :: tr => owed tr c
  | Ended d _ :: tr => d <> c /\ owed tr c
  end.

Definition set_trace tr (s : sstate) := mkss (cmap s) (watch s) (types s) (parents s) (children s) (nc s) tr.
Lemma record_spec ch : forall s, exists evs ups, record ch s = (set_trace (evs ++ trace s) s, ups) /\
  (forall ev, In ev evs -> exists e t ws, ev = Changed e t ws) /\
  hist (evs ++ trace s) = rev ch ++ hist (trace s) /\
  (forall c, In c ups <-> exists e t, In (e, t) ch /\ In c (watch s e t)) /\
  (forall c, owed (evs ++ trace s) c <-> owed (trace s) c \/ In c ups).
Proof.
  induction ch as [|[e t] ch IH]; intros s.
  - exists [], []. split; [destruct s; reflexivity|]. split; [intros ev []|]. split; [reflexivity|]. split.
    + intros c. split; [intros []|intros (? & ? & [] & _)].
    + intros c. cbn. tauto.
  - cbn [record]. destruct (IH (log (Changed e t (watch s e t)) s)) as (evs & ups & E & H1 & H2 & H3 & H4). rewrite E. cbn [trace log] in *.
    exists (evs ++ [Changed e t (watch s e t)]), (sunion (watch s e t) ups).
    assert (A : (evs ++ [Changed e t (watch s e t)]) ++ trace s = evs ++ Changed e t (watch s e t) :: trace s) by (rewrite <- app_assoc; auto).
    rewrite A. split; [reflexivity|]. split; [|split; [|split]].
    + intros ev Hev. apply in_app_iff in Hev as [Hev|[<-|[]]]; eauto.
    + rewrite H2. cbn. rewrite <- app_assoc. reflexivity.
    + intros c. rewrite In_sunion, H3. cbn [watch log]. split.
      * intros [H|(e' & t' & Hin & H)]; [exists e, t; cbn; auto|exists e', t'; cbn; auto].
      * intros (e' & t' & [Heq|Hin] & Hw); [injection Heq as <- <-; auto|right; exists e', t'; auto].
    + intros c. rewrite H4, In_sunion. cbn. tauto.
Qed.

(** ** Dependencies *)
Lemma leave_parents_ok c cs : forall s, NoDup cs -> (forall d, In d cs -> In c (parents s d)) ->
  exists s', leave_parents c cs s = Ok s' /\ children s' = children s /\ cmap s' = cmap s /\ watch s' = watch s /\ types s' = types s /\ nc s' = nc s /\ trace s' = trace s /\
    forall p d, In p (parents s' d) <-> In p (parents s d) /\ ~ (p = c /\ In d cs).
Proof.
  induction cs as [|d cs IH]; intros s N H; cbn [leave_parents].
  - exists s. do 7 (split; [reflexivity|]). intros p d. cbn. tauto.
  - apply NoDup_cons_iff in N as [N1 N2]. rewrite (proj2 (mem_In _ _)) by (apply H; left; auto).
    destruct (IH (with_deps (upd (parents s) d (sdiscard c (parents s d))) (children s) s)) as (s' & E & A1 & A2 & A3 & A4 & A5 & A6 & B); auto.
    { intros d' Hd'. cbn [parents with_deps]. rewrite upd_other by congruence. apply H. right. auto. }
    exists s'. do 7 (split; [auto|]). intros p d'. rewrite B. cbn [parents with_deps]. destruct (Nat.eq_dec d' d) as [->|Hd].
    + rewrite upd_same, In_sdiscard. cbn. intuition.
    + rewrite upd_other by auto. cbn. intuition.
Qed.
Lemma leave_children_nil c s : leave_children c [] s = Ok s.
Proof. auto. Qed.

Definition sym (s : sstate) : Prop := (forall p c, In p (parents s c) <-> In c (children s p)) /\ (forall p, NoDup (children s p)).
Lemma NoDup_sadd (x : nat) l : NoDup l -> NoDup (sadd x l).
Proof.
  unfold sadd. intros H. destruct (mem x l) eqn:M; auto. apply mem_not_In in M.
  apply NoDup_rev in H. rewrite <- (rev_involutive (l ++ [x])). apply NoDup_rev. rewrite rev_app_distr. cbn. constructor; auto. rewrite <- in_rev. auto.
Qed.
Lemma NoDup_sdiscard (x : nat) l : NoDup l -> NoDup (sdiscard x l).
Proof. apply NoDup_filter. Qed.

(** The constraint is not blocked: it is taken out of the dependencies. *)
Lemma clear_ok c s : sym s -> parents s c = [] -> exists s', clear c s = Ok s' /\ cmap s' = cmap s /\ watch s' = watch s /\ types s' = types s /\ nc s' = nc s /\ trace s' = trace s /\
  (forall p d, In p (parents s' d) <-> In p (parents s d) /\ p <> c) /\ (forall p d, In d (children s' p) <-> In d (children s p) /\ p <> c) /\
  (forall p, NoDup (children s' p)).
Proof.
  intros [Sy Nd] Hp. unfold clear. destruct (leave_parents_ok c (children s c) s (Nd c)) as (s1 & E1 & A1 & A2 & A3 & A4 & A5 & A6 & B).
  { intros d Hd. apply Sy. auto. }
  rewrite E1. cbn [bind].
  assert (P1 : parents s1 c = []). { destruct (parents s1 c) as [|x l] eqn:Ex; auto. assert (In x (parents s1 c)) by (rewrite Ex; left; auto). apply B in H as [H _]. rewrite Hp in H. destruct H. }
  rewrite P1. cbn [leave_children bind]. eexists. split; [reflexivity|]. cbn [cmap watch types nc trace parents children with_deps].
  do 5 (split; [assumption|]). split; [|split].
  - intros p d. destruct (Nat.eq_dec d c) as [->|Hd].
    + rewrite upd_same. rewrite Hp. cbn. tauto.
    + rewrite upd_other by auto. rewrite B. split; intros [H1 H2]; split; auto; [intros ->|intros [-> _]; congruence]. apply H2. split; auto. apply Sy. auto.
  - intros p d. rewrite A1. destruct (Nat.eq_dec p c) as [->|Hc]; [rewrite upd_same; cbn; tauto|rewrite upd_other by auto; tauto].
  - intros p. rewrite A1. destruct (Nat.eq_dec p c) as [->|Hc]; [rewrite upd_same; constructor|rewrite upd_other by auto; auto].
Qed.

(** ** Invariants *)
Definition ordered (tr : list event) : Prop := forall tr1 c tr2, tr = tr1 ++ Started c :: tr2 ->
  ~ In (Ended c true) tr2 /\ forall ps p, In (Created c ps) tr2 -> In p ps -> In (Ended p true) tr2.
Definition registered (s : sstate) (c : cid) : Prop := dget c (cmap s) <> None.
Record inv (s : sstate) : Prop := {
  i_reg : forall c e t, In c (watch s e t) <-> exists es, dget c (cmap s) = Some es /\ In e es /\ In t (types s c);
  i_sym : sym s;
  i_par : forall p c, In p (parents s c) -> p < c /\ registered s p /\ registered s c;
  i_key : forall c, registered s c -> c < nc s;
  i_wf : dwf (cmap s);
  i_created : forall c ps p, In (Created c ps) (trace s) -> In p ps -> In p (parents s c) \/ In (Ended p true) (trace s);
  i_new : forall c ps, In (Created c ps) (trace s) -> c < nc s;
  i_done : forall c, In (Ended c true) (trace s) -> c < nc s /\ ~ registered s c;
  i_order : ordered (trace s) }.
Definition waits (s : sstate) (work : list cid) : Prop :=
  forall c, registered s c -> parents s c = [] -> owed (trace s) c -> In c work.

Lemma ordered_cons ev tr : ordered tr -> (forall c, ev = Started c -> ~ In (Ended c true) tr /\ forall ps p, In (Created c ps) tr -> In p ps -> In (Ended p true) tr) -> ordered (ev :: tr).
Proof.
  intros O H tr1 c tr2 E. destruct tr1 as [|x tr1]; cbn in E.
  - injection E as -> ->. apply H. auto.
  - injection E as -> E. apply (O tr1). auto.
Qed.
Definition changes_only (evs : list event) : Prop := forall ev, In ev evs -> exists e t ws, ev = Changed e t ws.
Lemma ordered_changes evs tr : changes_only evs -> ordered tr -> ordered (evs ++ tr).
Proof.
  intros H O. induction evs as [|ev evs IH]; cbn; auto. apply ordered_cons; [apply IH; intros x Hx; apply H; right; auto|].
  intros c ->. destruct (H (Started c)) as (? & ? & ? & ?); [left; auto|discriminate].
Qed.
Lemma changes_app evs evs' : changes_only evs -> changes_only evs' -> changes_only (evs ++ evs').
Proof. intros H H' ev Hev. apply in_app_iff in Hev as [|]; auto. Qed.
Lemma not_change_in evs tr ev : changes_only evs -> (forall e t ws, ev <> Changed e t ws) -> (In ev (evs ++ tr) <-> In ev tr).
Proof. intros H Hn. rewrite in_app_iff. split; [|auto]. intros [Hin|]; auto. destruct (H _ Hin) as (e & t & ws & ->). exfalso. eapply Hn. auto. Qed.

Lemma parents_nil s c : parents s c = [] <-> forall p, ~ In p (parents s c).
Proof. split; [intros -> p []|]. intros H. destruct (parents s c) as [|x l]; auto. exfalso. apply (H x). left; auto. Qed.

Lemma inv_changes s evs : inv s -> changes_only evs -> inv (set_trace (evs ++ trace s) s).
Proof.
  intros I Hc. destruct I as [I1 I2 I3 I4 I5 I6 I6' I7 I8]. split; cbn; auto.
  - intros c ps p H Hp. rewrite (not_change_in _ _ _ Hc) in H by discriminate. destruct (I6 c ps p H Hp); [auto|right; apply in_app_iff; auto].
  - intros c ps H. rewrite (not_change_in _ _ _ Hc) in H by discriminate. eauto.
  - intros c H. rewrite (not_change_in _ _ _ Hc) in H by discriminate. apply I7. auto.
  - apply ordered_changes; auto.
Qed.
Lemma record_inv ch s : inv s -> exists evs ups, record ch s = (set_trace (evs ++ trace s) s, ups) /\ changes_only evs /\ hist (evs ++ trace s) = rev ch ++ hist (trace s) /\
  inv (set_trace (evs ++ trace s) s) /\ (forall c, In c ups <-> exists e t, In (e, t) ch /\ In c (watch s e t)) /\ (forall c, owed (evs ++ trace s) c <-> owed (trace s) c \/ In c ups).
Proof.
  intros I. destruct (record_spec ch s) as (evs & ups & E & H1 & H2 & H3 & H4). exists evs, ups. split; auto. split; auto. split; auto. split; [apply inv_changes; auto|auto].
Qed.

Section Loop.
  Variable fn : cid -> list change -> res (bool * list change).
  Variable shapes : list cid -> list change -> res (list change).
  Variable pick : list cid -> cid.

  (** One turn. *)
  Lemma turn_ok c es s : inv s -> parents s c = [] -> dget c (cmap s) = Some es ->
    match turn fn shapes c es s with
    | Ok (s', ups) => exists st ch1 ch2,
        fn c (hist (trace s)) = Ok (st, ch1) /\
        (if mem SHAPE (types s c) then exists u, shapes u (rev ch1 ++ hist (trace s)) = Ok ch2 else ch2 = []) /\
        hist (trace s') = rev ch2 ++ rev ch1 ++ hist (trace s) /\
        inv s' /\ ~ owed (trace s') c /\
        cmap s' = (if st then ddel c (cmap s) else cmap s) /\
        (forall d, d <> c -> owed (trace s') d -> owed (trace s) d \/ In d ups) /\
        (forall d, registered s' d -> parents s' d = [] -> parents s d = [] \/ In d ups) /\
        (st = false -> ch1 = [] -> ch2 = [] -> ups = [])
    | Err e => fn c (hist (trace s)) = Err e \/ exists u h, shapes u h = Err e
    end.
  Proof.
    intros I Hp Hes. assert (Hr : registered s c) by (unfold registered; congruence).
    assert (Hnd : ~ In (Ended c true) (trace s)) by (intros H; apply (i_done _ I) in H; tauto).
    unfold turn. unfold constr_call. cbn [trace log hist]. destruct (fn c (hist (trace s))) as [[st ch1]|e] eqn:Ef; [|cbn [bind]; left; auto].
    (* the start *)
    assert (I0 : inv (log (Started c) s)).
    { destruct I as [I1 I2 I3 I4 I5 I6 I6' I7 I8]. split; cbn; auto.
      - intros d ps p [H|H] Hp'; [discriminate|]. destruct (I6 d ps p H Hp'); auto.
      - intros d ps [H|H]; [discriminate|eauto].
      - intros d [H|H]; [discriminate|exact (I7 d H)].
      - apply ordered_cons; auto. intros d [= <-]. split; auto. intros ps p H Hin. destruct (I6 c ps p H Hin) as [H'|]; auto. rewrite Hp in H'. destruct H'. }
    set (s0 := log (Started c) s) in *.
    destruct (record_inv ch1 s0 I0) as (ev1 & up1 & E1 & C1 & H1 & I1 & U1 & O1). rewrite E1. set (s1 := set_trace (ev1 ++ trace s0) s0) in *.
    assert (O0 : forall d, owed (trace s0) d <-> owed (trace s) d) by (intros d; reflexivity).
    assert (H0 : hist (trace s0) = hist (trace s)) by reflexivity.
    (* the rest, from a state s2 that differs from s1 in the dependencies only *)
    assert (Rest : forall s2 ups, cmap s2 = cmap s1 -> watch s2 = watch s1 -> types s2 = types s1 -> nc s2 = nc s1 -> trace s2 = trace s1 -> sym s2 ->
      (forall p d, In p (parents s2 d) <-> In p (parents s d) /\ (st = true -> p <> c)) ->
      (forall d, In d up1 -> In d ups) -> (st = true -> forall d, In d (children s c) -> In d ups) -> (st = false -> ups = up1) ->
      match (let* sp := (if mem SHAPE (types s2 c) then
                let* ch := shapes ups (hist (trace s2)) in
                let (s, more) := record ch s2 in Ok (s, sunion ups more)
              else Ok (s2, ups)) in
        let (s, ups) := sp in
        let s := if st then remove_all c es (with_cmap (ddel c (cmap s)) s) else s in
        Ok (log (Ended c st) s, ups)) with
      | Ok (s', ups) => exists st' ch1' ch2,
          Ok (st, ch1) = Ok (st', ch1') /\
          (if mem SHAPE (types s c) then exists u, shapes u (rev ch1' ++ hist (trace s)) = Ok ch2 else ch2 = []) /\
          hist (trace s') = rev ch2 ++ rev ch1' ++ hist (trace s) /\
          inv s' /\ ~ owed (trace s') c /\
          cmap s' = (if st' then ddel c (cmap s) else cmap s) /\
          (forall d, d <> c -> owed (trace s') d -> owed (trace s) d \/ In d ups) /\
          (forall d, registered s' d -> parents s' d = [] -> parents s d = [] \/ In d ups) /\
          (st' = false -> ch1' = [] -> ch2 = [] -> ups = [])
      | Err e => Ok (st, ch1) = Err e \/ exists u h, shapes u h = Err e
      end).
    { intros s2 ups Q1 Q2 Q3 Q4 Q5 Q6 Q7 Q8 Q9 Q10.
      replace (types s2 c) with (types s c) by (rewrite Q3; reflexivity).
      assert (T2 : trace s2 = ev1 ++ trace s0) by (rewrite Q5; reflexivity).
      (* shapes *)
      assert (Sh : match (if mem SHAPE (types s c) then
                let* ch := shapes ups (hist (trace s2)) in
                let (s, more) := record ch s2 in Ok (s, sunion ups more)
              else Ok (s2, ups)) with
        | Ok (s3, ups3) => exists ch2 ev2, s3 = set_trace (ev2 ++ trace s2) s2 /\ changes_only ev2 /\
            (if mem SHAPE (types s c) then exists u, shapes u (rev ch1 ++ hist (trace s)) = Ok ch2 else ch2 = []) /\
            hist (ev2 ++ trace s2) = rev ch2 ++ hist (trace s2) /\ (forall d, In d ups -> In d ups3) /\
            (forall d, owed (ev2 ++ trace s2) d -> owed (trace s2) d \/ In d ups3) /\ (ch2 = [] -> ups = [] -> ups3 = [])
        | Err e => exists u h, shapes u h = Err e
        end).
      { destruct (mem SHAPE (types s c)) eqn:M.
        - destruct (shapes ups (hist (trace s2))) as [ch2|e] eqn:Es; cbn [bind]; [|eauto].
          destruct (record_spec ch2 s2) as (ev2 & up2 & E2 & C2 & H2 & U2 & O2). rewrite E2. exists ch2, ev2. split; [auto|]. split; [auto|].
          split. { exists ups. rewrite <- Es. f_equal. rewrite T2, H1, H0. auto. }
          split; [auto|]. split; [intros d Hd; apply In_sunion; auto|]. split.
          + intros d Hd. apply O2 in Hd as [Hd|Hd]; [auto|right; apply In_sunion; auto].
          + intros -> ->. cbn in E2. assert (Eu : up2 = []) by congruence. rewrite Eu. reflexivity.
        - exists [], []. split; [destruct s2; reflexivity|]. split; [intros ev []|]. do 4 (split; [auto|]). auto. }
      destruct (if mem SHAPE (types s c) then _ else _) as [[s3 ups3]|e] eqn:Eif; cbn [bind]; [|right; exact Sh].
      destruct Sh as (ch2 & ev2 & -> & C2 & Hs & H2 & Sub & O2 & Emp).
      exists st, ch1, ch2. split; [auto|]. split; [exact Hs|]. set (s3 := set_trace (ev2 ++ trace s2) s2).
      destruct (remove_all_spec c es (with_cmap (ddel c (cmap s3)) s3)) as [(R1 & R2 & R3 & R4 & R5 & R6) Rw].
      set (s4 := if st then remove_all c es (with_cmap (ddel c (cmap s3)) s3) else s3).
      assert (T4 : trace s4 = ev2 ++ ev1 ++ Started c :: trace s). { unfold s4. destruct st; [rewrite R6|]; cbn; rewrite T2; reflexivity. }
      assert (M4 : cmap s4 = if st then ddel c (cmap s) else cmap s). { unfold s4. destruct st; [rewrite R1|]; cbn; rewrite Q1; reflexivity. }
      assert (Ty4 : types s4 = types s). { unfold s4. destruct st; [rewrite R2|]; cbn; rewrite Q3; reflexivity. }
      assert (P4 : parents s4 = parents s2). { unfold s4. destruct st; [rewrite R3|]; reflexivity. }
      assert (Ch4 : children s4 = children s2). { unfold s4. destruct st; [rewrite R4|]; reflexivity. }
      assert (N4 : nc s4 = nc s). { unfold s4. destruct st; [rewrite R5|]; cbn; rewrite Q4; reflexivity. }
      assert (Wf := i_wf _ I).
      assert (Reg4 : forall d, registered s4 d <-> registered s d /\ (st = true -> d <> c)).
      { intros d. unfold registered. rewrite M4. destruct st.
        - rewrite dget_ddel by auto. destruct (eq_dec d c) as [->|Hd]; split.
          + congruence.
          + intros [_ H]. exfalso. apply H; reflexivity.
          + intros H. split; [exact H|intros _; exact Hd].
          + intros [H _]. exact H.
        - split; [intros H; split; [exact H|discriminate]|intros [H _]; exact H]. }
      assert (CC : changes_only (ev2 ++ ev1)) by (apply changes_app; auto).
      rewrite app_assoc in T4. set (evs := ev2 ++ ev1) in *.
      split. { cbn. rewrite T4. unfold evs. rewrite <- app_assoc. change (Started c :: trace s) with (trace s0). rewrite <- T2, H2, T2, H1, H0. reflexivity. }
      split.
      { split; cbn.
        - intros d e t. rewrite Ty4. unfold s4 at 1. rewrite M4. destruct st.
          + rewrite Rw. cbn [watch with_cmap s3 set_trace types]. rewrite Q2, Q3. change (watch s1) with (watch s). change (types s1) with (types s).
            rewrite (i_reg _ I d e t), dget_ddel by auto. destruct (eq_dec d c) as [->|Hd].
            * split; [|intros (? & ? & _); discriminate]. intros [(es' & G & Ge & Gt) Hn]. exfalso. apply Hn. rewrite Hes in G. injection G as <-. auto.
            * split; [tauto|]. intros H. split; auto. tauto.
          + cbn [watch s3 set_trace]. rewrite Q2. apply (i_reg _ I).
        - unfold sym in *. cbn. rewrite P4, Ch4. exact Q6.
        - intros p d. rewrite P4, Q7. intros [H Hne]. destruct (i_par _ I p d H) as (L & Rp & Rd).
          change (p < d /\ registered s4 p /\ registered s4 d). rewrite !Reg4. split; auto. split; [auto|]. split; auto. intros _ ->. rewrite Hp in H. destruct H.
        - intros d. change (registered s4 d -> d < nc s4). rewrite Reg4, N4. intros [H _]. apply (i_key _ I). auto.
        - rewrite M4. destruct st; auto. apply dwf_ddel. auto.
        - intros d ps p [H|H] Hin; [discriminate|]. rewrite T4, (not_change_in _ _ _ CC) in H by discriminate. destruct H as [H|H]; [discriminate|].
          rewrite P4, Q7. destruct (i_created _ I d ps p H Hin) as [H'|H'].
          + destruct st; [|left; split; [auto|discriminate]]. destruct (Nat.eq_dec p c) as [->|]; auto.
          + right; right. rewrite T4, (not_change_in _ _ _ CC) by discriminate. right. auto.
        - intros d ps [H|H]; [discriminate|]. rewrite T4, (not_change_in _ _ _ CC) in H by discriminate. destruct H as [H|H]; [discriminate|]. rewrite N4. eapply (i_new _ I); eauto.
        - intros d H. change (d < nc s4 /\ ~ registered s4 d). rewrite N4, Reg4. destruct H as [H|H].
          + injection H as -> ->. split; [apply (i_key _ I); auto|]. intros [_ X]. apply X; auto.
          + rewrite T4, (not_change_in _ _ _ CC) in H by discriminate. destruct H as [H|H]; [discriminate|]. destruct (i_done _ I d H). tauto.
        - apply ordered_cons; [|discriminate]. rewrite T4. apply ordered_changes; auto. apply (i_order _ I0). }
      split; [cbn; tauto|]. split; [cbn; auto|]. split; [|split].
      - intros d Hd. cbn. rewrite T4. intros [_ H]. unfold evs in H. rewrite <- app_assoc in H. change (Started c :: trace s) with (trace s0) in H. rewrite <- T2 in H.
        apply O2 in H as [H|H]; auto. rewrite T2 in H. apply O1 in H as [H|H]; [left; exact H|right; auto].
      - intros d _ Hn. cbn in Hn. rewrite P4 in Hn. destruct (parents s d) as [|x l] eqn:Ex; auto. right. apply Sub. destruct st.
        + apply Q9; auto. apply (i_sym _ I). rewrite Ex. left. assert (Z := proj1 (parents_nil s2 d) Hn x). rewrite Q7, Ex in Z.
          destruct (Nat.eq_dec x c); auto. exfalso. apply Z. split; auto. left; auto.
        + exfalso. apply (proj1 (parents_nil s2 d) Hn x). rewrite Q7, Ex. split; [left; auto|discriminate].
      - intros -> -> ->. apply Emp; auto. rewrite Q10 by auto. cbn in E1. congruence. }
    destruct st.
    - destruct (clear_ok c s1) as (s2 & Ec & A1 & A2 & A3 & A4 & A5 & A6 & A7 & A8); [apply (i_sym _ I1)|exact Hp|]. rewrite Ec. cbn [bind].
      apply Rest; auto.
      + split; auto. intros p d. rewrite A6, A7. change (parents s1) with (parents s). change (children s1) with (children s). rewrite (proj1 (i_sym _ I) p d). tauto.
      + intros p d. rewrite A6. change (parents s1) with (parents s). tauto.
      + intros d Hd. apply In_sunion. auto.
      + intros _ d Hd. apply In_sunion. auto.
      + discriminate.
    - cbn [bind]. apply Rest; auto.
      + apply (i_sym _ I1).
      + intros p d. change (parents s1) with (parents s). split; [intros H; split; [auto|discriminate]|tauto].
      + discriminate.
  Qed.

  Definition raised (e : exn) : Prop := (exists c h, fn c h = Err e) \/ (exists u h, shapes u h = Err e).
  Hypothesis Hpick : forall l, l <> [] -> In (pick l) l.

  Lemma sub_registered s s' c d (st : bool) : dwf (cmap s) -> cmap s' = (if st then ddel c (cmap s) else cmap s) -> registered s' d -> registered s d.
  Proof.
    unfold registered. intros W -> H. destruct st; auto. rewrite dget_ddel in H by auto. destruct (eq_dec d c); congruence.
  Qed.
  Lemma loop_spec pend fuel : forall work s, inv s -> waits s (work ++ pend) ->
    match solver_loop fn shapes pick fuel work s with
    | Ok s' => inv s' /\ waits s' pend
    | Err e => e = OutOfFuel \/ raised e
    end.
  Proof.
    induction fuel as [|n IH]; intros work s I W.
    - destruct work; cbn; auto.
    - destruct work as [|w0 work']; [cbn; auto|]. set (work := w0 :: work') in *. cbn [solver_loop].
      change (match work with [] => Ok s | _ :: _ => _ end) with (let c := pick work in let wk := sdiscard c work in
        match parents s c, dget c (cmap s) with
          | [], Some es => let* sp := turn fn shapes c es s in let (s, new) := sp in solver_loop fn shapes pick n (sdiscard c (sunion wk new)) s
          | _, _ => solver_loop fn shapes pick n wk s
          end).
      cbv zeta. set (c := pick work). set (wk := sdiscard c work).
      assert (Hno : ~ (registered s c /\ parents s c = []) -> waits s (wk ++ pend)).
      { intros Hn d R P O. destruct (Nat.eq_dec d c) as [->|Hd]; [tauto|]. specialize (W d R P O). apply in_app_iff in W. apply in_app_iff. unfold wk. rewrite In_sdiscard. tauto. }
      destruct (parents s c) as [|p ps] eqn:Hp; [|apply IH; auto; apply Hno; intros [_ X]; discriminate].
      destruct (dget c (cmap s)) as [es|] eqn:Hd; [|apply IH; auto; apply Hno; intros [X _]; apply X; auto].
      assert (T := turn_ok c es s I Hp Hd). destruct (turn fn shapes c es s) as [[s' new]|e]; cbn [bind].
      + destruct T as (st & ch1 & ch2 & _ & _ & _ & I' & O' & M' & T1 & T2 & _). apply IH; auto.
        intros d R P O. destruct (Nat.eq_dec d c) as [->|Hdc]; [tauto|]. apply in_app_iff. rewrite In_sdiscard, In_sunion. unfold wk. rewrite In_sdiscard.
        destruct (T1 d Hdc O) as [O1|]; [|tauto]. destruct (T2 d R P) as [P1|]; [|tauto].
        specialize (W d (sub_registered _ _ _ _ _ (i_wf _ I) M' R) P1 O1). apply in_app_iff in W. tauto.
      + right. destruct T as [T|T]; [left; eauto|right; exact T].
  Qed.

  Lemma exn_eq_dec (e f : exn) : {e = f} + {e <> f}.
  Proof. decide equality. Qed.
  (** Termination. *)
  Variable mu : list change -> nat.
  Hypothesis fn_progress : forall c h st ch, fn c h = Ok (st, ch) -> ch <> [] -> mu (rev ch ++ h) < mu h.
  Hypothesis shapes_progress : forall u h ch, shapes u h = Ok ch -> ch <> [] -> mu (rev ch ++ h) < mu h.

  Lemma length_ddel (c : nat) (m : dict nat (list edge)) es : dget c m = Some es -> S (length (ddel c m)) = length m.
  Proof.
    induction m as [|[k v] m IH]; cbn; [discriminate|]. destruct (eq_dec c k); [reflexivity|]. intros H. cbn. rewrite IH; auto.
  Qed.
  Lemma length_sdiscard c (l : list nat) : In c l -> length (sdiscard c l) < length l.
  Proof.
    unfold sdiscard. induction l as [|x l IH]; cbn; [tauto|]. intros [->|H].
    - rewrite Nat.eqb_refl. cbn. assert (length (filter (fun y => negb (y =? c)) l) <= length l); [|lia]. clear. induction l as [|y l IH]; cbn; auto. destruct (negb (y =? c)); cbn; lia.
    - specialize (IH H). destruct (negb (x =? c)); cbn; lia.
  Qed.
  Lemma sdiscard_idem c l : sdiscard c (sdiscard c l) = sdiscard c l.
  Proof. unfold sdiscard. induction l as [|x l IH]; cbn; auto. destruct (negb (x =? c)) eqn:E; cbn; [rewrite E, IH; auto|auto]. Qed.

  Lemma loop_stops : forall m w work s, inv s -> mu (hist (trace s)) + length (cmap s) <= m -> length work <= w ->
    exists N, forall fuel, N <= fuel -> solver_loop fn shapes pick fuel work s <> Err OutOfFuel \/ raised OutOfFuel.
  Proof.
    induction m as [m IHm] using lt_wf_ind. induction w as [w IHw] using lt_wf_ind. intros work s I Hm Hw.
    destruct work as [|w0 work']; [exists 0; intros fuel _; left; destruct fuel; cbn; discriminate|]. set (work := w0 :: work') in *.
    assert (Hin : In (pick work) work) by (apply Hpick; discriminate). set (c := pick work) in *.
    assert (Step : forall n, solver_loop fn shapes pick (S n) work s = match parents s c, dget c (cmap s) with
          | [], Some es => let* sp := turn fn shapes c es s in let (s, new) := sp in solver_loop fn shapes pick n (sdiscard c (sunion (sdiscard c work) new)) s
          | _, _ => solver_loop fn shapes pick n (sdiscard c work) s
          end) by reflexivity.
    assert (Hlt := length_sdiscard c work Hin).
    assert (Drop : exists N, forall fuel, N <= fuel -> solver_loop fn shapes pick fuel (sdiscard c work) s <> Err OutOfFuel \/ raised OutOfFuel).
    { apply (IHw (length (sdiscard c work)) ltac:(lia)); [exact I|exact Hm|apply le_n]. }
    assert (Fin : forall N, (forall n, N <= n -> solver_loop fn shapes pick (S n) work s <> Err OutOfFuel \/ raised OutOfFuel) ->
      exists N, forall fuel, N <= fuel -> solver_loop fn shapes pick fuel work s <> Err OutOfFuel \/ raised OutOfFuel).
    { intros N H. exists (S N). intros [|n] Hn; [lia|]. apply H. lia. }
    destruct (parents s c) as [|p ps] eqn:Hp; [|destruct Drop as [N HN]; apply (Fin N); intros n Hn; rewrite Step; apply HN; auto].
    destruct (dget c (cmap s)) as [es|] eqn:Hd; [|destruct Drop as [N HN]; apply (Fin N); intros n Hn; rewrite Step; apply HN; auto].
    assert (T := turn_ok c es s I Hp Hd). destruct (turn fn shapes c es s) as [[s' new]|e].
    - destruct T as (st & ch1 & ch2 & Ef & Es & Eh & I' & _ & M' & _ & _ & Emp).
      assert (Mu1 : mu (rev ch1 ++ hist (trace s)) <= mu (hist (trace s)) /\ (ch1 <> [] -> mu (rev ch1 ++ hist (trace s)) < mu (hist (trace s)))).
      { destruct ch1 as [|x ch1]; [cbn; split; [lia|congruence]|]. assert (X := fn_progress _ _ _ _ Ef ltac:(discriminate)). split; [lia|auto]. }
      assert (Mu2 : mu (hist (trace s')) <= mu (rev ch1 ++ hist (trace s)) /\ (ch2 <> [] -> mu (hist (trace s')) < mu (rev ch1 ++ hist (trace s)))).
      { rewrite Eh. destruct (mem SHAPE (types s c)); [|subst ch2; cbn; split; [lia|congruence]].
        destruct Es as [u Es]. destruct ch2 as [|x ch2]; [cbn; split; [lia|congruence]|]. assert (X := shapes_progress _ _ _ Es ltac:(discriminate)). split; [lia|auto]. }
      assert (Len : length (cmap s') <= length (cmap s) /\ (st = true -> length (cmap s') < length (cmap s))).
      { rewrite M'. destruct st; [|split; [lia|discriminate]]. assert (X := length_ddel _ _ _ Hd). split; [lia|intros; lia]. }
      assert (New : exists N, forall fuel, N <= fuel -> solver_loop fn shapes pick fuel (sdiscard c (sunion (sdiscard c work) new)) s' <> Err OutOfFuel \/ raised OutOfFuel).
      { assert (Cases : (st = false /\ ch1 = [] /\ ch2 = []) \/ mu (hist (trace s')) + length (cmap s') < mu (hist (trace s)) + length (cmap s)).
        { destruct st; [right; destruct Len as [_ L]; specialize (L eq_refl); lia|].
          destruct ch1 as [|x1 l1]; [|right; destruct Mu1 as [_ X]; specialize (X ltac:(discriminate)); lia].
          destruct ch2 as [|x2 l2]; [left; auto|]. right. destruct Mu2 as [_ X]; specialize (X ltac:(discriminate)). lia. }
        destruct Cases as [(-> & -> & ->)|Lt].
        - rewrite (Emp eq_refl eq_refl eq_refl). change (sunion (sdiscard c work) []) with (sdiscard c work). rewrite sdiscard_idem.
          apply (IHw (length (sdiscard c work)) ltac:(lia)); [exact I'|lia|apply le_n].
        - eapply (IHm (mu (hist (trace s')) + length (cmap s'))); [lia|exact I'|apply le_n|apply le_n]. }
      destruct New as [N HN]. apply (Fin N). intros n Hn. rewrite Step. cbn [bind]. apply HN. auto.
    - apply (Fin 0). intros n _. rewrite Step. cbn [bind]. destruct (exn_eq_dec e OutOfFuel) as [->|Hne]; [right|left; congruence].
      destruct T as [T|T]; [left; eauto|right; exact T].
  Qed.
End Loop.

(** ** Sessions *)
Lemma dep_children c ps : forall ch p d, In d (fold_left (fun ch p => upd ch p (sadd c (ch p))) ps ch p) <-> In d (ch p) \/ (d = c /\ In p ps).
Proof.
  induction ps as [|q ps IH]; intros ch p d; cbn [fold_left In]; [tauto|]. rewrite IH. destruct (Nat.eq_dec p q) as [->|Hpq].
  - rewrite upd_same, In_sadd. intuition.
  - rewrite upd_other by auto. intuition congruence.
Qed.
Lemma dep_children_nodup c ps : forall ch, (forall p, NoDup (ch p)) -> forall p, NoDup (fold_left (fun ch p => upd ch p (sadd c (ch p))) ps ch p).
Proof.
  induction ps as [|q ps IH]; intros ch H p; cbn [fold_left]; auto. apply IH. intros x. destruct (Nat.eq_dec x q) as [->|Hx]; [rewrite upd_same; apply NoDup_sadd; auto|rewrite upd_other by auto; auto].
Qed.

Lemma new_ok es ts deps s pend : inv s -> waits s pend -> let (c, s') := new_constraint es ts deps s in inv s' /\ waits s' ([c] ++ pend) /\ hist (trace s') = hist (trace s).
Proof.
  intros I W. unfold new_constraint. set (c := nc s). set (un := filter (fun d => dmem d (cmap s)) deps).
  assert (Un : forall d, In d un -> registered s d). { intros d H. apply filter_In in H as [_ H]. unfold registered, dmem in *. destruct (dget d (cmap s)); congruence. }
  assert (Fr : ~ registered s c). { intros H. apply (i_key _ I) in H. unfold c in H. lia. }
  assert (Pc : forall p, ~ In p (parents s c)). { intros p H. apply (i_par _ I) in H. tauto. }
  assert (Cp : forall p, ~ In c (parents s p)). { intros p H. apply (i_par _ I) in H. tauto. }
  assert (Cc : forall p, ~ In c (children s p)). { intros p H. apply (i_sym _ I) in H. apply (Pc p H). }
  assert (Cc2 : children s c = []). { destruct (children s c) as [|x l] eqn:E; auto. exfalso. apply (Cp x). apply (i_sym _ I). rewrite E. left; auto. }
  set (s2 := with_cmap _ _). destruct (add_all_spec c es s2) as [(A1 & A2 & A3 & A4 & A5 & A6) B].
  set (s3 := fold_left _ _ _) in *.
  assert (M3 : cmap s3 = dset c es (cmap s)) by (rewrite A1; reflexivity).
  assert (T3 : types s3 = upd (types s) c ts) by (rewrite A2; reflexivity).
  assert (P3 : forall p d, In p (parents s3 d) <-> In p (parents s d) \/ (d = c /\ In p un)).
  { intros p d. rewrite A3. cbn [parents s2 with_cmap add_dependencies with_deps]. destruct (Nat.eq_dec d c) as [->|Hd].
    - rewrite upd_same, In_sunion, upd_same. split; [intros [[]|H]; auto|intros [H|[_ H]]; auto]. exfalso. apply (Pc p H).
    - rewrite !upd_other by auto. intuition. }
  assert (C3 : forall p d, In d (children s3 p) <-> In d (children s p) \/ (d = c /\ In p un)).
  { intros p d. rewrite A4. cbn [children s2 with_cmap add_dependencies with_deps]. rewrite dep_children. destruct (Nat.eq_dec p c) as [->|Hp]; [rewrite upd_same, Cc2; tauto|rewrite upd_other by auto; tauto]. }
  assert (R3 : forall d, registered s3 d <-> registered s d \/ d = c).
  { intros d. unfold registered. rewrite M3, dget_dset. destruct (eq_dec d c) as [->|Hd]; [intuition discriminate|tauto]. }
  assert (Tr : trace s3 = trace s) by (rewrite A6; reflexivity).
  assert (Nc : nc s3 = S c) by (rewrite A5; reflexivity).
  split; [|split].
  - split; cbn.
    + intros d e t. rewrite B, M3, T3, dget_dset. replace (types s2 c) with ts by (cbn; rewrite upd_same; auto). cbn [watch s2 with_cmap add_dependencies with_deps]. rewrite (i_reg _ I).
      destruct (eq_dec d c) as [->|Hd].
      * rewrite upd_same. split.
        -- intros [(es' & X & _)|(_ & H1 & H2)]; [exfalso; apply Fr; unfold registered; congruence|]. exists es. auto.
        -- intros (es' & [= <-] & H1 & H2). auto.
      * rewrite upd_other by auto. intuition.
    + split; cbn.
      * intros p d. rewrite P3, C3. rewrite (proj1 (i_sym _ I) p d). tauto.
      * rewrite A4. cbn [children s2 with_cmap add_dependencies with_deps]. apply dep_children_nodup. intros p. destruct (Nat.eq_dec p c) as [->|Hp]; [rewrite upd_same; constructor|rewrite upd_other by auto; apply (i_sym _ I)].
    + intros p d H. rewrite P3 in H. change (p < d /\ registered s3 p /\ registered s3 d). rewrite !R3. destruct H as [H|[-> H]].
      * destruct (i_par _ I p d H) as (? & ? & ?). auto.
      * split; [apply (i_key _ I); auto|auto].
    + intros d. change (registered s3 d -> d < nc s3). rewrite R3, Nc. intros [H| ->]; [apply (i_key _ I) in H; unfold c; lia|lia].
    + rewrite M3. apply dwf_dset. apply (i_wf _ I).
    + rewrite Tr. intros d ps p [[= <- <-]|H] Hin; rewrite P3; [auto|]. destruct (i_created _ I d ps p H Hin); auto.
    + rewrite Tr, Nc. intros d ps [[= <- <-]|H]; [lia|]. apply (i_new _ I) in H. unfold c. lia.
    + rewrite Tr. intros d [H|H]; [discriminate|]. change (d < nc s3 /\ ~ registered s3 d). rewrite R3, Nc. destruct (i_done _ I d H) as [H1 H2]. split; [unfold c; lia|]. intros [?| ->]; [tauto|]. unfold c in H1. lia.
    + rewrite Tr. apply ordered_cons; [apply (i_order _ I)|discriminate].
  - intros d R P O. cbn in O. rewrite Tr in O. change (registered s3 d) in R. change (parents s3 d = []) in P. rewrite R3 in R. cbn [app In]. destruct (Nat.eq_dec c d) as [->|Hd]; auto. right. apply W.
    + destruct R as [R| ->]; [auto|congruence].
    + apply parents_nil. intros p H. apply (proj1 (parents_nil s3 d) P p). rewrite P3. auto.
    + destruct O as [O|O]; [congruence|auto].
  - cbn. rewrite Tr. auto.
Qed.

Lemma update_map_ok l r cs : l <> r -> forall m, dwf m -> (forall c, In c cs -> dget c m <> None) ->
  exists m', update_map l r cs m = Ok m' /\ dwf m' /\
    forall c, dget c m' = if mem c cs then option_map (map (fun e => if e =? r then l else e)) (dget c m) else dget c m.
Proof.
  intros Hlr. induction cs as [|c cs IH]; intros m W H; cbn [update_map].
  - exists m. split; auto.
  - destruct (dget c m) as [es|] eqn:E; [|exfalso; apply (H c); [left; auto|auto]].
    set (f := map (fun e => if e =? r then l else e)).
    assert (Idem : forall x : list nat, f (f x) = f x).
    { intros x. unfold f. rewrite map_map. apply map_ext. intros e. destruct (Nat.eqb_spec e r) as [He|He]; [destruct (Nat.eqb_spec l r); congruence|]. apply Nat.eqb_neq in He. rewrite He. auto. }
    destruct (IH (dset c (f es) m)) as (m' & E' & W' & G); [apply dwf_dset; auto| |].
    { intros d Hd. rewrite dget_dset. destruct (eq_dec d c); [discriminate|]. apply H. right. auto. }
    exists m'. split; auto. split; auto. intros d. rewrite G, dget_dset. change (mem d (c :: cs)) with (eqb d c || mem d cs)%bool.
    destruct (eq_dec d c) as [->|Hd].
    + assert (X : eqb c c = true) by (apply (proj2 (eqb_eq _ _)); auto). rewrite X, E. cbn [orb option_map]. destruct (mem c cs); [cbn; fold (f (f es)); rewrite Idem|]; auto.
    + assert (X : eqb d c = false). { destruct (eqb d c) eqn:Y; auto. apply (proj1 (eqb_eq _ _)) in Y. congruence. } rewrite X. auto.
Qed.
Lemma merge_ok l r ch s pend : inv s -> waits s pend ->
  match merge l r ch s with
  | Ok (s', ups) => inv s' /\ waits s' (sunion pend ups)
  | Err e => e = KeyError /\ l = r
  end.
Proof.
  intros I W. unfold merge. destruct (Nat.eqb_spec l r) as [->|Hlr]; [auto|].
  assert (All : forall c, In c (all_constraints s r) <-> exists t, In c (watch s r t)).
  { intros c. unfold all_constraints. rewrite !in_app_iff. split; [intros [H|[H|H]]; eauto|]. intros [[] H]; auto. }
  destruct (update_map_ok l r (all_constraints s r) Hlr (cmap s) (i_wf _ I)) as (m & E & Wm & G).
  { intros c H. apply All in H as [t H]. apply (i_reg _ I) in H as (es & X & _). congruence. }
  rewrite E. cbn [bind]. destruct (record_spec ch (with_cmap m s)) as (evs & ups & Er & C & _ & U & O). rewrite Er.
  assert (Reg : forall c, dget c m <> None <-> registered s c).
  { intros c. rewrite G. unfold registered. destruct (mem c (all_constraints s r)); [|tauto]. destruct (dget c (cmap s)); cbn; intuition discriminate. }
  split.
  - split; cbn.
    + intros c e t. unfold move_watch. rewrite G. destruct (Nat.eqb_spec e r) as [->|Her].
      * split; [intros []|]. intros (es & H1 & H2 & H3). destruct (mem c (all_constraints s r)) eqn:M.
        -- destruct (dget c (cmap s)) as [es0|]; [|discriminate]. injection H1 as <-. apply in_map_iff in H2 as (x & H2 & _). destruct (Nat.eqb_spec x r); congruence.
        -- apply mem_not_In in M. apply M. apply All. exists t. apply (i_reg _ I). eauto.
      * assert (Cl : e = l -> In c (watch s l t) \/ In c (watch s r t) <-> exists es, (if mem c (all_constraints s r) then option_map (map (fun e => if e =? r then l else e)) (dget c (cmap s)) else dget c (cmap s)) = Some es /\ In e es /\ In t (types s c)).
        { intros ->. destruct (mem c (all_constraints s r)) eqn:M.
          - rewrite !(i_reg _ I). split.
            + intros [(es & H1 & H2 & H3)|(es & H1 & H2 & H3)]; rewrite H1; eexists; (split; [reflexivity|]); split; auto; apply in_map_iff.
              * exists l. apply Nat.eqb_neq in Her. rewrite Her. auto.
              * exists r. rewrite Nat.eqb_refl. auto.
            + intros (es & H1 & H2 & H3). destruct (dget c (cmap s)) as [es0|]; [|discriminate]. injection H1 as <-. apply in_map_iff in H2 as (x & H2 & H4).
              destruct (Nat.eqb_spec x r) as [Hx|Hx]; [right; rewrite Hx in H4; eauto|left; rewrite H2 in H4; eauto].
          - apply mem_not_In in M. split.
            + intros [H|H]; [apply (i_reg _ I); auto|]. exfalso. apply M, All. eauto.
            + intros H. left. apply (i_reg _ I). auto. }
        destruct (Nat.eqb_spec e l) as [->|Hel]; [rewrite In_sunion; apply Cl; auto|]. rewrite (i_reg _ I). destruct (mem c (all_constraints s r)) eqn:M; [|tauto].
        split.
        -- intros (es & H1 & H2 & H3). rewrite H1. eexists. split; [reflexivity|]. split; auto. apply in_map_iff. exists e. apply Nat.eqb_neq in Her. rewrite Her. auto.
        -- intros (es & H1 & H2 & H3). destruct (dget c (cmap s)) as [es0|]; [|discriminate]. injection H1 as <-. apply in_map_iff in H2 as (x & H2 & H4).
           destruct (Nat.eqb_spec x r) as [Hx|Hx]; [congruence|]. rewrite H2 in H4. eauto.
    + apply (i_sym _ I).
    + intros p d H. unfold registered. cbn. rewrite !Reg. apply (i_par _ I). auto.
    + intros c. unfold registered. cbn. rewrite Reg. apply (i_key _ I).
    + exact Wm.
    + intros c ps p H Hin. rewrite (not_change_in _ _ _ C) in H by discriminate. destruct (i_created _ I c ps p H Hin); [auto|right; apply in_app_iff; auto].
    + intros c ps H. rewrite (not_change_in _ _ _ C) in H by discriminate. eapply (i_new _ I); eauto.
    + intros c H. rewrite (not_change_in _ _ _ C) in H by discriminate. unfold registered. cbn. rewrite Reg. apply (i_done _ I). auto.
    + apply ordered_changes; auto. apply (i_order _ I).
  - intros c R P Ow. unfold registered in R. cbn in R, P, Ow. rewrite Reg in R. apply In_sunion. apply O in Ow as [Ow|Ow]; auto.
Qed.
