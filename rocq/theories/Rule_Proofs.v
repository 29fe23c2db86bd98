(** * Inference rules on symbolic shapes: the common steps *)
From Coq Require Import List Arith Lia Bool ZArith.
From Verif Require Import PyBase Uniadic_Model Uniadic_Proofs Uniadic_Props Bcast_Proofs Shape_Model Shape_Proofs Shape_Proofs2 Shape_Proofs3 Shape_Props Reduce_Model Reduce_Proofs Reduce_Proofs2.
Import ListNotations.
Open Scope list_scope. Open Scope nat_scope. Open Scope shm_scope.

Lemma allows_den s rho sh : allows s rho sh <-> sat (us s) rho /\ exists tau, forall q, q < nrep s -> den s rho tau q = sh q.
Proof. split; intros [Hs (tau & H)]; (split; [auto|]; exists tau; intros; apply H; auto). Qed.

(** A relation between the concrete shapes of all representations *)
Notation srel := ((nat -> list Z) -> Prop) (only parsing).
(** All combinations related by [P] survive (with values for new dimensions), and nothing is invented. *)
Definition sound_for (P : srel) (s s' : shst) : Prop :=
  sinv s' /\ nrep s' = nrep s /\ (forall x, live (us s) x -> live (us s') x) /\
  (forall rho sh, allows s rho sh -> P sh -> exists rho', agrees (us s) rho rho' /\ allows s' rho' sh) /\
  (forall rho sh, allows s' rho sh -> allows s rho sh).
Definition ensures (P : srel) (s : shst) : Prop := forall rho sh, allows s rho sh -> P sh.
Definition excludes (P : srel) (s : shst) : Prop := forall rho sh, allows s rho sh -> ~ P sh.
Lemma sound_for_refl P s : sinv s -> sound_for P s s.
Proof. intros I. do 3 (split; [auto|]). split; [|auto]. intros rho sh A _. exists rho. split; [intros x _; auto|auto]. Qed.
Lemma sound_for_trans P a b c : sound_for P a b -> sound_for P b c -> sound_for P a c.
Proof.
  intros (I1 & N1 & L1 & F1 & B1) (I2 & N2 & L2 & F2 & B2). split; [auto|]. split; [congruence|]. split; [auto|]. split; [|auto].
  intros rho sh A H. destruct (F1 rho sh A H) as (r1 & G1 & A1). destruct (F2 r1 sh A1 H) as (r2 & G2 & A2). exists r2. split; [|auto]. intros x Hx. rewrite G2, G1 by auto. auto.
Qed.
Lemma sound_for_weaken (P P' : srel) s s' : sound_for P s s' -> (forall sh, P' sh -> P sh) -> sound_for P' s s'.
Proof. intros (I & N & L & F & B) H. do 3 (split; [auto|]). split; [|auto]. intros rho sh A X. apply F; auto. Qed.
Lemma excludes_back P a b : sound_for P a b -> excludes P b -> excludes P a.
Proof. intros (I & N & L & F & B) E rho sh A H. destruct (F rho sh A H) as (r & _ & A'). apply (E r sh A' H). Qed.
Lemma excludes_weaken (P P' : srel) s : excludes P s -> (forall sh, P' sh -> P sh) -> excludes P' s.
Proof. intros E H rho sh A X. apply (E rho sh A). auto. Qed.
Lemma ensures_forward P Q s s' : sound_for Q s s' -> ensures P s -> ensures P s'.
Proof. intros (I & N & L & F & B) E rho sh A. apply (E rho sh). auto. Qed.

(** Unification of representation [q] with newly created parts.  The premise: related combinations extend to the new parts. *)
Lemma rule_step (P : srel) s s1 q o : sinv s -> born s s1 -> q < nrep s -> wf_repr s1 o -> (forall rho, sat (us s1) rho -> sat (us s) rho) ->
  (forall rho tau sh, sat (us s) rho -> (forall x, x < nrep s -> den s rho tau x = sh x) -> P sh ->
     exists rho' tau', agrees (us s) rho rho' /\ (forall x, x < nvar s -> tau' x = tau x) /\ sat (us s1) rho' /\ sh q = dshape rho' tau' o) ->
  match inner_match q o s1 with
  | (s', Ok _) => sound_for P s s' /\ (forall x, live (us s1) x -> live (us s') x) /\
      (~ crossing (rp s q) o -> forall rho sh, allows s' rho sh -> exists tau, sat (us s1) rho /\ (forall x, x < nrep s -> den s rho tau x = sh x) /\ sh q = dshape rho tau o)
  | (_, Err e) => e = ValueError /\ excludes P s
  end.
Proof.
  intros I B Hq W Mono Ok. assert (I1 : sinv s1) by apply B. assert (N : nrep s1 = nrep s) by apply B. assert (Rs : rp s1 = rp s) by apply B. assert (O := inner_match_ok s1 q o I1 ltac:(lia) W). unfold outcome in O.
  assert (Same : forall rho tau x, x < nrep s -> den s1 rho tau x = den s rho tau x) by (intros rho tau x Hx; unfold den; rewrite Rs; auto).
  assert (Ext : forall rho tau sh, sat (us s) rho -> (forall x, x < nrep s -> den s rho tau x = sh x) -> P sh -> exists rho' tau', agrees (us s) rho rho' /\ (forall x, x < nrep s -> den s1 rho' tau' x = sh x) /\ sat (us s1) rho' /\ Ceq s1 q o rho' tau').
  { intros rho tau sh Hs D H. destruct (Ok rho tau sh Hs D H) as (r & t & A & T & Hs1 & E). assert (D' : forall x, x < nrep s -> den s1 r t x = sh x). { intros x Hx. rewrite <- (D x Hx). apply born_den; auto. }
    exists r, t. do 3 (split; [auto|]). unfold Ceq. rewrite D' by auto. auto. }
  destruct (inner_match q o s1) as [s' [[]|e]]; cbn [fst snd] in O.
  - destruct O as ((X1 & X2 & X3 & X4) & K & Y). assert (Yt : yields s1 s' (fun _ _ => True)). { destruct Y as [Y|(_ & Y & _)]; [eapply yields_weaken; [exact Y|auto]|auto]. }
    split; [|split; [apply X4|]].
    + split; [auto|]. split; [lia|]. split; [intros x Hx; destruct B as (_ & _ & _ & _ & G); apply X4, G; auto|]. split.
      * intros rho sh A H. apply allows_den in A as (Hs & tau & D). destruct (Ext rho tau sh Hs D H) as (r & t & A & T & Hs1 & C). destruct (K r t Hs1 C) as (t' & Hs' & _ & D'). exists r. split; [auto|].
        apply allows_den. split; [auto|]. exists t'. intros x Hx. rewrite D' by lia. apply T. lia.
      * intros rho sh A. apply allows_den in A as (Hs & t' & D). destruct (Yt rho t' Hs) as (t & Hs1 & D1 & _). apply allows_den. split; [auto|]. exists t. intros x Hx. rewrite <- (D x) by lia. rewrite <- D1 by lia. symmetry. auto.
    + intros Nc rho sh A. apply allows_den in A as (Hs & t' & D). destruct Y as [Y|(C & _)]; [|rewrite Rs in C; contradiction]. destruct (Y rho t' Hs) as (t & Hs1 & D1 & C). exists t. split; [auto|].
      assert (D2 : forall x, x < nrep s -> den s rho t x = sh x). { intros x Hx. rewrite <- (D x) by lia. rewrite <- D1 by lia. symmetry. auto. } split; [auto|]. rewrite <- D2 by auto. unfold Ceq in C. rewrite Same in C by auto. auto.
  - destruct O as [-> O]. split; [auto|]. intros rho sh A H. apply allows_den in A as (Hs & tau & D). destruct (Ext rho tau sh Hs D H) as (r & t & _ & _ & Hs1 & C). apply (O r t Hs1 C).
Qed.

(** ... with a list of dimensions *)
Lemma match_list (P : srel) (spec : (nat -> Z) -> list Z -> Prop) m s q : sinv s -> q < nrep s -> makes m s spec ->
  (forall rho tau sh, sat (us s) rho -> (forall x, x < nrep s -> den s rho tau x = sh x) -> P sh -> spec rho (sh q)) ->
  match (do l <- m; inner_match q (mkshape l None [])) s with
  | (s', Ok _) => sound_for P s s' /\ forall rho sh, allows s' rho sh -> spec rho (sh q)
  | (_, Err e) => e = ValueError /\ excludes P s
  end.
Proof.
  intros I Hq (u' & L & E & G & V & S & C) H. unfold hbind. rewrite E.
  assert (W : wf_repr (with_us s u') (mkshape L None [])). { split; [|split; [auto|discriminate]]. cbn. intros x Hx. rewrite app_nil_r in Hx. auto. }
  assert (R := rule_step P s (with_us s u') q (mkshape L None []) I (born_us s u' I G) Hq W (fun rho Hs => proj1 (S rho Hs))).
  assert (Dl : forall (rho : nat -> Z) tau, dshape rho tau (mkshape L None []) = map rho L) by (intros; unfold dshape; cbn; apply app_nil_r).
  destruct (inner_match q (mkshape L None []) (with_us s u')) as [s' [[]|e]]; (lapply R; [clear R; intros R|]).
  - split; [apply R|]. intros rho sh A. destruct R as (_ & _ & R). destruct (R ltac:(intros (_ & Hn & _); cbn in Hn; congruence) rho sh A) as (tau & Hs & D & Eq). rewrite Dl in Eq. rewrite Eq. apply S. auto.
  - intros rho tau sh Hs D Hp. destruct (C rho (sh q) Hs (H rho tau sh Hs D Hp)) as (r & Ag & Hs' & M). exists r, tau. rewrite Dl. auto.
  - exact R.
  - intros rho tau sh Hs D Hp. destruct (C rho (sh q) Hs (H rho tau sh Hs D Hp)) as (r & Ag & Hs' & M). exists r, tau. rewrite Dl. auto.
Qed.
(** ... with a list of last dimensions *)
Definition ends (spec : list Z -> Prop) (y : list Z) : Prop := exists front l, y = front ++ l /\ spec l.
Lemma match_suffix (P : srel) (spec : (nat -> Z) -> list Z -> Prop) m s q : sinv s -> q < nrep s -> (forall s1, us s1 = us s -> makes m s1 spec) ->
  (forall rho tau sh, sat (us s) rho -> (forall x, x < nrep s -> den s rho tau x = sh x) -> P sh -> ends (spec rho) (sh q)) ->
  match (do w <- new_variadic; do l <- m; inner_match q (mkshape [] (Some w) l)) s with
  | (s', Ok _) => sound_for P s s' /\ ((forall n l, spec n l -> ~ (root (rp s q) <> None /\ pre (rp s q) <> [] /\ length (suf (rp s q)) < length l)) -> forall rho sh, allows s' rho sh -> ends (spec rho) (sh q))
  | (_, Err e) => e = ValueError /\ excludes P s
  end.
Proof.
  intros I Hq Mk H. destruct (born_var s I) as (s1 & E1 & B1 & U1 & V1). unfold hbind at 1. rewrite E1. destruct (Mk s1 U1) as (u' & L & E & G & V & S & C). unfold hbind. rewrite E. rewrite U1 in *.
  assert (I1 : sinv s1) by apply B1. assert (B : born s (with_us s1 u')). { eapply born_trans; [exact B1|]. apply born_us; [auto|rewrite U1; auto]. }
  set (o := mkshape [] (Some (nvar s)) L). assert (W : wf_repr (with_us s1 u') o). { split; [|split; [discriminate|intros x Hx; injection Hx as <-; cbn; lia]]. cbn. auto. }
  assert (R := rule_step P s (with_us s1 u') q o I B Hq W (fun rho Hs => proj1 (S rho Hs))).
  assert (Dl : forall (rho : nat -> Z) tau, dshape rho tau o = tau (nvar s) ++ map rho L) by (intros; unfold dshape; cbn; auto).
  assert (Pr : forall rho tau sh, sat (us s) rho -> (forall x, x < nrep s -> den s rho tau x = sh x) -> P sh ->
     exists rho' tau', agrees (us s) rho rho' /\ (forall x, x < nvar s -> tau' x = tau x) /\ sat (us (with_us s1 u')) rho' /\ sh q = dshape rho' tau' o).
  { intros rho tau sh Hs D Hp. destruct (H rho tau sh Hs D Hp) as (front & l & Eq & Sp). destruct (C rho l Hs Sp) as (r & Ag & Hs' & M). exists r, (upd tau (nvar s) front). rewrite Dl, upd_same, M. split; [auto|].
    split; [intros x Hx; apply upd_other; lia|auto]. }
  specialize (R Pr). destruct (inner_match q o (with_us s1 u')) as [s' [[]|e]]; [|exact R]. destruct R as (R1 & _ & R2). split; [auto|].
  intros Nc rho sh A. assert (Nx : ~ crossing (rp s q) o).
  { assert (A' := proj2 (proj2 (proj2 (proj2 R1))) rho sh A). destruct (sat_exists u') as (r & Hr); [apply G|]. assert (Sp := proj2 (S r Hr)). apply Nc in Sp. rewrite map_length in Sp. intros (X1 & _ & X2). cbn in X2. apply Sp. split; [auto|]. destruct X2 as [[X X']|[X X']]; [|lia]. split; [|auto]. intros Ep. rewrite Ep in X. cbn in X. lia. }
  destruct (R2 Nx rho sh A) as (tau & Hs & D & Eq). rewrite Dl in Eq. exists (tau (nvar s)), (map rho L). split; [auto|]. apply S. auto.
Qed.
(** ... a condition on the dimensions *)
Lemma on_dims {A} (P : srel) (m : sm A) (C : (nat -> Z) -> Prop) s : sinv s -> imposes m C (us s) ->
  (forall rho tau sh, sat (us s) rho -> (forall x, x < nrep s -> den s rho tau x = sh x) -> P sh -> C rho) ->
  match lift m s with
  | (s', Ok _) => sound_for P s s' /\ rp s' = rp s /\ (forall x, live (us s') x <-> live (us s) x) /\ forall rho sh, allows s' rho sh -> C rho
  | (_, Err e) => e = ValueError /\ excludes P s
  end.
Proof.
  intros I M H. assert (V := imposes_evolves m C (us s) (s_inv _ I) M). destruct M as (_ & _ & L & _ & M). unfold lift. destruct (m (us s)) as [u' [x|e]]; cbn [fst snd] in *.
  - assert (I' := with_us_sinv s u' I V). split; [|split; [auto|split; [exact L|intros rho sh [Hs _]; apply M; auto]]]. split; [auto|]. split; [auto|]. split; [intros y Hy; apply L; auto|]. split.
    + intros rho sh A1 Hp. exists rho. split; [intros y _; auto|]. apply allows_den in A1 as (Hs & tau & D). apply allows_den. split; [apply M; split; [auto|eapply H; eauto]|]. exists tau. auto.
    + intros rho sh A1. apply allows_den in A1 as (Hs & tau & D). apply allows_den. split; [apply M in Hs; apply Hs|]. exists tau. auto.
  - destruct M as (-> & _ & M). split; [auto|]. intros rho sh A1 Hp. apply allows_den in A1 as (Hs & tau & D). apply (M rho). split; [auto|eapply H; eauto].
Qed.
(** The value of a dimension at the end of a shape *)
Lemma den_plain_suffix s rho tau q : sinv s -> q < nrep s -> root (rp s q) = None -> den s rho tau q = map rho (pre (rp s q)).
Proof. intros I Hq R. destruct (s_repr _ I q Hq) as (_ & W & _). unfold den, dshape. rewrite R, (W R). cbn. apply app_nil_r. Qed.

(** ** Sessions: creations and unifications of dimensions and shapes and successful runs of some rules, in any order *)
Inductive runs (R : shst -> shst -> Prop) : shst -> Prop :=
| runs_0 : runs R no_shapes
| runs_op s op s' : runs R s -> valid s op -> exec op s = (s', Ok tt) -> runs R s'
| runs_rule s s' : runs R s -> R s s' -> runs R s'.
Lemma runs_inv (R : shst -> shst -> Prop) : (forall s s', sinv s -> R s s' -> sinv s') -> forall s, runs R s -> sinv s.
Proof. intros H s. induction 1 as [|s op s' _ I V E|s s' _ I X]; [apply sinv_nil|eapply exec_inv; eauto|eapply H; eauto]. Qed.
Lemma reach_runs (R : shst -> shst -> Prop) s : reach s -> runs R s.
Proof. induction 1; [constructor|eapply runs_op; eauto]. Qed.
(** From [s] to [s']: every combination of concrete shapes with [P] stays possible, and nothing new becomes possible. *)
Definition narrows (P : srel) (s s' : shst) : Prop :=
  nrep s' = nrep s /\
  (forall rho sh, allows s rho sh -> P sh -> exists rho', (forall u, live (us s) u -> rho' u = rho u) /\ allows s' rho' sh) /\
  (forall rho sh, allows s' rho sh -> allows s rho sh).
Lemma sound_narrows P s s' : sound_for P s s' -> narrows P s s'.
Proof. intros (_ & N & _ & F & B). split; [auto|]. split; [|auto]. intros rho sh A Hp. destruct (F rho sh A Hp) as (r & Ag & A'). exists r. split; [intros u Hu; apply Ag; auto|auto]. Qed.
