(** * Proofs about the types of results: the combinations and the rule *)
From Coq Require Import List Arith Lia Bool ZArith QArith Permutation.
From Verif Require Import PyBase Poly_Model Poly_Proofs Optype_Model Optype_Spec Optype_Proofs.
Import ListNotations.
Open Scope list_scope. Open Scope nat_scope. Open Scope res_scope.

Lemma F2_len {A B} (P : A -> B -> Prop) l m : Forall2 P l m -> length l = length m.
Proof. induction 1; cbn; auto. Qed.
Definition reorders (order : list atom -> list atom) : Prop := forall l, Permutation (order l) l.
Lemma all_possible_In a : In a all_possible <-> known a.
Proof. split; [intros [<-|[<-|[<-|[<-|[<-|[<-|[]]]]]]]; cbn; auto|]. destruct a as [[]|[]|n]; cbn; intuition. Qed.
Lemma fold_possible fpow o bits L : forall acc, (forall ts, In ts L -> exists t, out_type fpow o bits ts = Ok t) ->
  exists p, foldM (fun acc ts => let* t := out_type fpow o bits ts in Ok (acc ++ map (cons t) (perms ts))) L acc = Ok p /\
    forall c, In c p <-> In c acc \/ exists ts t q, In ts L /\ out_type fpow o bits ts = Ok t /\ Permutation ts q /\ c = t :: q.
Proof.
  induction L as [|ts L IH]; intros acc H; cbn [foldM].
  - exists acc. split; [auto|]. intros c. split; [auto|]. intros [X|(ts & _ & _ & [] & _)]. auto.
  - destruct (H ts) as (t & Et); [left; auto|]. rewrite Et. cbn [bind]. destruct (IH (acc ++ map (cons t) (perms ts))) as (p & E & Hp); [intros us Hu; apply H; right; auto|]. exists p. split; [exact E|]. intros c. rewrite Hp, in_app_iff. split.
    + intros [[X|X]|(us & u & q & Hu & X)]; [auto| |right; exists us, u, q; split; [right; auto|auto]]. right. apply in_map_iff in X as (q & <- & Hq). apply perms_In in Hq. exists ts, t, q. split; [left; auto|auto].
    + intros [X|(us & u & q & [<-|Hu] & Eu & P & ->)]; [auto| |right; exists us, u, q; auto]. left. right. rewrite Et in Eu. injection Eu as <-. apply in_map. apply perms_In. auto.
Qed.
(** The kinds of the inputs are acceptable *)
Definition inputs_ok (o : opname) (ins : list (list atom)) : Prop := usable o (length ins) /\ forall l a, In l ins -> In a l -> known a /\ accepts o (kind_of a).
Lemma possible_ok fpow order o bits ins : reorders order -> inputs_ok o ins ->
  exists p, possible fpow order o bits ins = Ok p /\ forall t ts, Forall2 (fun x l => In x l) ts ins -> (In (t :: ts) p <-> result o bits ts t).
Proof.
  intros R [U A]. unfold possible. set (av := filter (fun a => existsb (mem a) ins) all_possible).
  assert (Av : forall a, In a (order av) <-> exists l, In l ins /\ In a l).
  { intros a. transitivity (In a av); [split; [apply Permutation_in; auto|apply Permutation_in, Permutation_sym; auto]|]. unfold av. rewrite filter_In, existsb_exists. split.
    - intros (_ & l & Hl & Ha). apply mem_In in Ha. eauto.
    - intros (l & Hl & Ha). split; [apply all_possible_In, (A l a); auto|]. exists l. split; [auto|apply mem_In; auto]. }
  assert (Ok1 : forall ts, length ts = length ins -> incl ts (order av) -> exists t, out_type fpow o bits ts = Ok t /\ result o bits ts t).
  { intros ts Lt It. apply out_type_ok; [rewrite Lt; auto| |]; apply Forall_forall; intros a Ha; apply It, Av in Ha as (l & Hl & Ha); apply (A l a); auto. }
  destruct (fold_possible fpow o bits (cwr (length ins) (order av)) []) as (p & E & Hp).
  { intros ts Hts. apply cwr_over in Hts as [Lt It]. destruct (Ok1 ts Lt It) as (t & Et & _). eauto. }
  exists p. split; [exact E|]. intros t ts F. assert (Lts : length ts = length ins) by (eapply F2_len; eauto).
  assert (Its : incl ts (order av)). { intros a Ha. apply Av. clear - F Ha. induction F as [|x l ts ins Hx F IH]; [destruct Ha|]. destruct Ha as [<-|Ha]; [exists l; split; [left; auto|auto]|]. destruct (IH Ha) as (l' & Hl' & Ha'). exists l'. split; [right; auto|auto]. }
  rewrite Hp. split.
  - intros [[]|(us & u & q & Hu & Eu & P & [= -> ->])]. apply cwr_over in Hu as [Lu Iu]. destruct (Ok1 us Lu Iu) as (u' & Eu' & Ru). rewrite Eu in Eu'. injection Eu' as <-. eapply result_perm; eauto.
  - intros Rt. right. destruct (cwr_all eq_dec (order av) ts Its) as (us & Hu & Pu). rewrite Lts in Hu. assert (Hu' := Hu). apply cwr_over in Hu' as [Lu Iu]. destruct (Ok1 us Lu Iu) as (u & Eu & Ru). exists us, u, ts. split; [auto|]. split; [auto|]. split; [auto|].
    f_equal. eapply result_fun; [exact Rt|]. eapply result_perm; eauto.
Qed.
Lemma combinations_ok fpow order o bits outs ins : reorders order -> inputs_ok o ins ->
  exists cs, combinations fpow order o bits outs ins = Ok cs /\ (forall t ts, In (t :: ts) cs <-> In t outs /\ Forall2 (fun x l => In x l) ts ins /\ result o bits ts t) /\ incl cs (products (outs :: ins)) /\
    (Forall (@NoDup atom) (outs :: ins) -> NoDup cs).
Proof.
  intros R A. destruct (possible_ok fpow order o bits ins R A) as (p & E & Hp). unfold combinations. rewrite E. cbn [bind]. eexists. split; [reflexivity|]. split; [|split].
  - intros t ts. rewrite filter_In, products_In, mem_In. split.
    + intros [F X]. inversion F; subst. split; [auto|]. split; [auto|]. apply Hp; auto.
    + intros (Ht & F & X). split; [constructor; auto|]. apply Hp; auto.
  - intros c Hc. apply filter_In in Hc. apply Hc.
  - intros N. apply NoDup_filter, products_NoDup, N.
Qed.
(** The order does not matter *)
Lemma combinations_same fpow order order' o bits outs ins : reorders order -> reorders order' -> inputs_ok o ins -> combinations fpow order o bits outs ins = combinations fpow order' o bits outs ins.
Proof.
  intros R R' A. destruct (possible_ok fpow order o bits ins R A) as (p & E & Hp). destruct (possible_ok fpow order' o bits ins R' A) as (p' & E' & Hp'). unfold combinations. rewrite E, E'. cbn [bind]. f_equal. apply filter_ext_in. intros c Hc. apply products_In in Hc. inversion Hc as [|t ? ts ? Ht F]; subst.
  apply eq_true_iff_eq. rewrite !mem_In, Hp, Hp' by auto. tauto.
Qed.

(** ** Columns *)
Lemma columns_length n : forall cs, length (columns n cs) = n.
Proof. induction n as [|n IH]; intros cs; cbn; [auto|]. rewrite IH. auto. Qed.
Lemma columns_cover n : forall cs c, In c cs -> length c = n -> Forall2 (fun x l => In x l) c (columns n cs).
Proof.
  induction n as [|n IH]; intros cs c Hc L; [destruct c; [constructor|discriminate]|]. destruct c as [|x c]; [discriminate|]. injection L as L. cbn [columns]. constructor.
  - apply nodup_In. apply in_map_iff. exists (x :: c). auto.
  - apply IH; [|auto]. apply in_map_iff. exists (x :: c). auto.
Qed.
Lemma columns_from n : forall cs j a, (forall c, In c cs -> length c = n) -> j < n -> In a (nth j (columns n cs) []) -> exists c, In c cs /\ nth j c (Other 0) = a.
Proof.
  induction n as [|n IH]; intros cs j a L Hj H; [lia|]. cbn [columns] in H. destruct j as [|j]; cbn [nth] in H.
  - apply nodup_In, in_map_iff in H as (c & <- & Hc). exists c. split; [auto|]. specialize (L c Hc). destruct c; [discriminate|auto].
  - apply IH in H as (c & Hc & E); [|intros c Hc; apply in_map_iff in Hc as (c' & <- & Hc'); specialize (L c' Hc'); destruct c'; [discriminate|cbn in *; lia]|lia]. apply in_map_iff in Hc as (c' & <- & Hc'). specialize (L c' Hc'). destruct c' as [|y c']; [discriminate|]. exists (y :: c'). auto.
Qed.
Lemma columns_NoDup n : forall cs, Forall (@NoDup atom) (columns n cs).
Proof. induction n as [|n IH]; intros cs; cbn; constructor; [apply NoDup_nodup|auto]. Qed.
Lemma fold_left_mul (ls : list (list atom)) : forall n, fold_left (fun n c => n * length c) ls n = n * length (products ls).
Proof. induction ls as [|l ls IH]; intros n; [cbn; lia|]. cbn [fold_left]. rewrite IH, !products_length. cbn [fold_right]. lia. Qed.

(** ** Setting the types *)
Lemma set_type_ok e ts st : match set_type e ts st with Ok st' => (forall a, In a (st' e) <-> In a (st e) /\ In a ts) /\ (forall e', e' <> e -> st' e' = st e') | Err x => x = TypeError /\ forall a, In a (st e) -> ~ In a ts end.
Proof.
  unfold set_type. assert (F : forall a, In a (filter (fun a => mem a ts) (st e)) <-> In a (st e) /\ In a ts) by (intros a; rewrite filter_In, mem_In; tauto). destruct (filter (fun a => mem a ts) (st e)) as [|b l].
  - split; [auto|]. intros a H1 H2. apply (F a). auto.
  - split; [intros a; rewrite Nat.eqb_refl; apply F|]. intros e' N. apply Nat.eqb_neq in N. rewrite N. auto.
Qed.
Lemma set_types_ok : forall keys cols st, length cols = length keys ->
  match set_types keys cols st with
  | Ok st' => (forall e a, In a (st' e) <-> In a (st e) /\ forall j, j < length keys -> nth j keys 0 = e -> In a (nth j cols [])) /\ (forall e, ~ In e keys -> st' e = st e)
  | Err x => x = TypeError /\ forall tau : nat -> atom, (forall e, In e keys -> In (tau e) (st e)) -> ~ Forall2 (fun e l => In (tau e) l) keys cols
  end.
Proof.
  induction keys as [|k keys IH]; intros cols st L; destruct cols as [|c cols]; try discriminate; cbn [set_types].
  - split; [intros e a; split; [intros H; split; [auto|intros j Hj; cbn in Hj; lia]|tauto]|auto].
  - injection L as L. assert (S := set_type_ok k c st). destruct (set_type k c st) as [st1|x]; cbn [bind].
    + destruct S as [S1 S2]. specialize (IH cols st1 L). destruct (set_types keys cols st1) as [st'|x].
      * destruct IH as [IH1 IH2]. split.
        -- intros e a. rewrite IH1. split.
           ++ intros [Ha Hj]. split; [destruct (Nat.eq_dec e k) as [->|N]; [apply S1 in Ha; apply Ha|rewrite S2 in Ha by auto; auto]|]. intros [|j] Lj E; [cbn in E |- *; subst; apply S1 in Ha; apply Ha|]. cbn in Lj |- *. apply Hj; [lia|exact E].
           ++ intros [Ha Hj]. split; [destruct (Nat.eq_dec e k) as [->|N]; [apply S1; split; [auto|apply (Hj 0); [cbn; lia|auto]]|rewrite S2 by auto; auto]|]. intros j Lj E. apply (Hj (S j)); [cbn; lia|exact E].
        -- intros e N. rewrite IH2 by (intros H; apply N; right; auto). apply S2. intros ->. apply N. left. auto.
      * destruct IH as [-> IH]. split; [auto|]. intros tau Ht F. inversion F; subst. apply (IH tau); [|auto]. intros e He. destruct (Nat.eq_dec e k) as [->|N]; [apply S1; split; [apply Ht; left; auto|auto]|rewrite S2 by auto; apply Ht; right; auto].
    + destruct S as [-> S]. split; [auto|]. intros tau Ht F. inversion F; subst. apply (S (tau k)); [apply Ht; left; auto|auto].
Qed.

(** ** The rule *)
Definition inputs_fine (o : opname) (ins : list nat) (st : store) : Prop := usable o (length ins) /\ forall e k, In e ins -> In (Scalar k) (st e) \/ In (Tens k) (st e) -> accepts o k.
Lemma key_types_In st e a : In a (key_types st e) <-> In a (st e) /\ known a.
Proof. unfold key_types. rewrite filter_In. destruct a; cbn; intuition discriminate. Qed.
Lemma inputs_fine_ok o ins st : inputs_fine o ins st -> inputs_ok o (map (key_types st) ins).
Proof.
  intros [U A]. split; [rewrite map_length; auto|]. intros l a Hl Ha. apply in_map_iff in Hl as (e & <- & He). apply key_types_In in Ha as [Ha K]. split; [auto|]. destruct a as [k|k|n]; [apply (A e k); auto|apply (A e k); auto|destruct K].
Qed.
Lemma result_known o bits ts t : result o bits ts t -> known t /\ Forall known ts.
Proof. intros (ks & k & K & C & _). apply kinds_iff in K as [K _]. split; [destruct C as [[_ ->]|[_ ->]]; cbn; auto|auto]. Qed.
Lemma fits_in o bits out ins st tau cs : (forall t ts, In (t :: ts) cs <-> In t (key_types st out) /\ Forall2 (fun x l => In x l) ts (map (key_types st) ins) /\ result o bits ts t) ->
  fits o bits out ins st tau <-> (forall e, In e (out :: ins) -> In (tau e) (st e)) /\ In (map tau (out :: ins)) cs.
Proof.
  intros H. cbn [map]. rewrite H. unfold fits. split.
  - intros [F R]. split; [auto|]. destruct (result_known _ _ _ _ R) as [K Ks]. split; [apply key_types_In; split; [apply F; left; auto|auto]|]. split; [|auto].
    assert (Fi : forall e, In e ins -> In (tau e) (st e)) by (intros e He; apply F; right; auto). clear - Fi Ks. induction ins as [|e ins IH]; [constructor|]. cbn [map] in *. inversion Ks; subst. constructor; [apply key_types_In; split; [apply Fi; left; auto|auto]|]. apply IH; [auto|]. intros e' He'. apply Fi. right. auto.
  - intros [F (_ & _ & R)]. auto.
Qed.
(** Types from a combination, for different connections *)
Fixpoint assign (keys : list nat) (c : list atom) (e : nat) : atom := match keys, c with k :: keys, x :: c => if e =? k then x else assign keys c e | _, _ => Other 0 end.
Lemma assign_map keys : forall c, NoDup keys -> length c = length keys -> map (assign keys c) keys = c.
Proof.
  induction keys as [|k keys IH]; intros c N L; destruct c as [|x c]; try discriminate; [auto|]. inversion N; subst. injection L as L. cbn [map assign]. rewrite Nat.eqb_refl. f_equal. transitivity (map (assign keys c) keys); [|apply IH; auto]. apply map_ext_in. intros e He. cbn [assign]. destruct (e =? k) eqn:E; [apply Nat.eqb_eq in E; subst; contradiction|auto].
Qed.
Lemma assign_nth keys c j : NoDup keys -> length c = length keys -> j < length keys -> assign keys c (nth j keys 0) = nth j c (Other 0).
Proof. intros N L H. transitivity (nth j (map (assign keys c) keys) (Other 0)); [|rewrite (assign_map keys c N L); auto]. rewrite (nth_indep _ (Other 0) (assign keys c 0)) by (rewrite map_length; auto). rewrite map_nth. auto. Qed.
Lemma cover_map (keys : list nat) (cols : list (list atom)) tau : Forall2 (fun x l => In x l) (map tau keys) cols <-> Forall2 (fun e l => In (tau e) l) keys cols.
Proof.
  revert cols. induction keys as [|k keys IH]; intros cols; cbn; split; intros H; inversion H; subst; constructor; auto; apply IH; auto.
Qed.
Lemma F2_nth {A B} (P : A -> B -> Prop) l m d d' j : Forall2 P l m -> j < length l -> P (nth j l d) (nth j m d').
Proof. intros H. revert j. induction H; intros [|j] L; cbn in *; try lia; auto. apply IHForall2. lia. Qed.
Lemma cover_nth (tau : nat -> atom) : forall keys cols, (forall j, j < length keys -> In (tau (nth j keys 0)) (nth j cols [])) -> length cols = length keys -> Forall2 (fun x l => In x l) (map tau keys) cols.
Proof.
  induction keys as [|k keys IH]; intros cols Hn Lc; destruct cols as [|c cols]; try discriminate; [constructor|]. cbn [map]. constructor; [apply (Hn 0); cbn; lia|]. apply IH; [|cbn in Lc; lia]. intros j Lj. apply (Hn (S j)). cbn. lia.
Qed.
