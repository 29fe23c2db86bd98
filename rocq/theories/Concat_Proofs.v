(** * concat: specification and proofs *)
From Coq Require Import List Arith Lia Bool ZArith.
From Verif Require Import PyBase Uniadic_Model Uniadic_Proofs Uniadic_Props Bcast_Proofs Shape_Model Shape_Proofs Shape_Proofs2 Shape_Proofs3 Shape_Props Reduce_Model Reduce_Proofs Reduce_Proofs2
  Rule_Proofs Window_Proofs Arange_Model Arange_Proofs Reshape_Model Reshape_Proofs Concat_Model.
Import ListNotations.
Open Scope list_scope. Open Scope nat_scope. Open Scope shm_scope.

(** ** Specification *)
Definition total (l : list Z) : Z := fold_right Z.add 0%Z l.
(** Axis [a] is the position behind [front] and before [back]. *)
Definition at_axis (a : Z) (front back : list Z) : Prop := a = Z.of_nat (length front) \/ a = (- (1 + Z.of_nat (length back)))%Z.
(** The shapes agree except at the axis. *)
Definition alike (a : Z) (xs : list (list Z)) (front back : list Z) (ds : list Z) : Prop := at_axis a front back /\ xs = map (fun d => front ++ d :: back) ds.
(** Arrays of shapes [xs] are joined along the axis to one of shape [y]. *)
Definition joins (a : Z) (xs : list (list Z)) (y : list Z) : Prop := exists front back ds, alike a xs front back ds /\ y = front ++ total ds :: back.
(** ... or flattened and joined *)
Definition joins_flat (xs : list (list Z)) (y : list Z) : Prop := y = [total (map volume xs)].

(** ** Assignments of the variadics *)
Definition tallows (s : shst) (rho : nat -> Z) (tau : nat -> list Z) (sh : nat -> list Z) : Prop := sat (us s) rho /\ forall q, q < nrep s -> den s rho tau q = sh q.
Lemma allows_t s rho sh : allows s rho sh <-> exists tau, tallows s rho tau sh.
Proof. rewrite allows_den. unfold tallows. split; [intros (H & tau & D); exists tau; auto|intros (tau & H & D); split; [auto|exists tau; auto]]. Qed.
Notation trel := ((nat -> Z) -> (nat -> list Z) -> (nat -> list Z) -> Prop) (only parsing).
Definition tsound (R : trel) (s s' : shst) : Prop :=
  sinv s' /\ nrep s' = nrep s /\ nvar s <= nvar s' /\ (forall x, live (us s) x -> live (us s') x) /\
  (forall rho tau sh, tallows s rho tau sh -> R rho tau sh -> exists rho' tau', agrees (us s) rho rho' /\ (forall x, x < nvar s -> tau' x = tau x) /\ tallows s' rho' tau' sh) /\
  (forall rho sh, allows s' rho sh -> allows s rho sh).
Definition tstable (R : trel) (s : shst) : Prop := forall rho rho' tau tau' sh, agrees (us s) rho rho' -> (forall x, x < nvar s -> tau' x = tau x) -> R rho tau sh -> R rho' tau' sh.
Lemma tsound_refl R s : sinv s -> tsound R s s.
Proof. intros I. do 4 (split; [auto|]). split; [|auto]. intros rho tau sh A _. exists rho, tau. split; [intros x _; auto|auto]. Qed.
Lemma tsound_trans R a b c : tstable R a -> tsound R a b -> tsound R b c -> tsound R a c.
Proof.
  intros St (I1 & N1 & V1 & L1 & F1 & B1) (I2 & N2 & V2 & L2 & F2 & B2). split; [auto|]. split; [congruence|]. split; [lia|]. split; [auto|]. split; [|auto].
  intros rho tau sh A H. destruct (F1 rho tau sh A H) as (r1 & t1 & G1 & T1 & A1). destruct (F2 r1 t1 sh A1) as (r2 & t2 & G2 & T2 & A2); [eapply St; eauto|]. exists r2, t2. split; [intros x Hx; rewrite G2, G1; auto|]. split; [intros x Hx; rewrite T2, T1 by lia; auto|auto].
Qed.
Definition texcludes (R : trel) (s : shst) : Prop := forall rho tau sh, tallows s rho tau sh -> ~ R rho tau sh.
Lemma texcludes_back R a b : tstable R a -> tsound R a b -> texcludes R b -> texcludes R a.
Proof. intros St (_ & _ & _ & _ & F & _) E rho tau sh A H. destruct (F rho tau sh A H) as (r & t & G & T & A'). apply (E r t sh A'). eapply St; eauto. Qed.
Lemma t_match (R : trel) s q o : sinv s -> q < nrep s -> wf_repr s o -> (forall rho tau sh, tallows s rho tau sh -> R rho tau sh -> sh q = dshape rho tau o) ->
  match inner_match q o s with
  | (s', Ok _) => tsound R s s'
  | (_, Err e) => e = ValueError /\ texcludes R s
  end.
Proof.
  intros I Hq W H. assert (O := inner_match_ok s q o I Hq W). unfold outcome in O. destruct (inner_match q o s) as [s' [[]|e]]; cbn [fst snd] in O.
  - destruct O as ((X1 & X2 & X3 & X4) & K & Y). assert (Yt : yields s s' (fun _ _ => True)). { destruct Y as [Y|(_ & Y & _)]; [eapply yields_weaken; [exact Y|auto]|auto]. }
    split; [auto|]. split; [lia|]. split; [lia|]. split; [apply X4|]. split.
    + intros rho tau sh [Hs D] Hr. destruct (K rho tau Hs) as (t & Hs' & T & D'); [unfold Ceq; rewrite D by auto; eapply H; [split|]; eauto|]. exists rho, t. split; [intros x _; auto|]. split; [auto|]. split; [auto|]. intros x Hx. rewrite D' by lia. apply D. lia.
    + intros rho sh A. apply allows_den in A as (Hs & t' & D). destruct (Yt rho t' Hs) as (t & Hs1 & D1 & _). apply allows_den. split; [auto|]. exists t. intros x Hx. rewrite D1 by auto. apply D. lia.
  - destruct O as [-> O]. split; [auto|]. intros rho tau sh [Hs D] Hr. apply (O rho tau Hs). unfold Ceq. rewrite D by auto. eapply H; [split|]; eauto.
Qed.
(** A new dimension, then a unification with it *)
Lemma new_dim_ok s : sinv s -> exists u', new_dim None s = (with_us s u', Ok (nu (us s))) /\ grows (us s) u' /\ live u' (nu (us s)) /\ ~ live (us s) (nu (us s)) /\ forall rho, sat u' rho <-> sat (us s) rho.
Proof.
  intros I. destruct (new_uniadic_ok (us s) None (s_inv _ I)) as (u' & E & G & L & N & S). exists u'. unfold new_dim, lift. rewrite E. split; [auto|]. do 3 (split; [auto|]). intros rho. rewrite S. cbn. tauto.
Qed.
Lemma t_step (R : trel) s q (mk : nat -> shrepr) : sinv s -> q < nrep s -> tstable R s ->
  (forall s1 u, sinv s1 -> nvar s <= nvar s1 -> (forall x, live (us s) x -> live (us s1) x) -> live (us s1) u -> wf_repr s1 (mk u)) ->
  (forall u rho tau sh, ~ live (us s) u -> tallows s rho tau sh -> R rho tau sh -> exists d, forall rho', agrees (us s) rho rho' -> rho' u = d -> sh q = dshape rho' tau (mk u)) ->
  match (do u <- new_dim None; inner_match q (mk u)) s with
  | (s', Ok _) => tsound R s s'
  | (_, Err e) => e = ValueError /\ texcludes R s
  end.
Proof.
  intros I Hq St W H. destruct (new_dim_ok s I) as (u' & E & G & L & N & S). unfold hbind. rewrite E. set (u := nu (us s)) in *. assert (B := born_us s u' I G). assert (I1 : sinv (with_us s u')) by apply B.
  assert (M := t_match (fun rho tau sh => R rho tau sh /\ sh q = dshape rho tau (mk u)) (with_us s u') q (mk u) I1 Hq ltac:(apply W; auto; apply G) ltac:(intros r t sh _ [_ X]; exact X)).
  assert (Ext : forall rho tau sh, tallows s rho tau sh -> R rho tau sh -> exists rho', agrees (us s) rho rho' /\ tallows (with_us s u') rho' tau sh /\ R rho' tau sh /\ sh q = dshape rho' tau (mk u)).
  { intros rho tau sh A Hr. destruct (H u rho tau sh N A Hr) as (d & Hd). assert (Ag : agrees (us s) rho (upd rho u d)) by (intros x Hx; apply upd_other; intros ->; contradiction). exists (upd rho u d). split; [auto|]. destruct A as [Hs D]. split; [|split; [eapply St; eauto|apply Hd; auto; apply upd_same]].
    split; [apply S; eapply sat_agrees; eauto|]. intros x Hx. rewrite <- D by auto. apply born_den; auto. }
  destruct (inner_match q (mk u) (with_us s u')) as [s' [[]|e]].
  - destruct M as (M1 & M2 & M3 & M4 & M5 & M6). split; [auto|]. split; [auto|]. split; [auto|]. split; [intros x Hx; apply M4; apply G; auto|]. split.
    + intros rho tau sh A Hr. destruct (Ext rho tau sh A Hr) as (r & Ag & A1 & Hr1 & E1). destruct (M5 r tau sh A1 (conj Hr1 E1)) as (r2 & t2 & G2 & T2 & A2). exists r2, t2. split; [intros x Hx; rewrite G2 by (apply G; auto); auto|auto].
    + intros rho sh A. apply M6 in A. apply allows_den in A as (Hs & tau & D). apply allows_den. split; [apply S; auto|]. exists tau. auto.
  - split; [apply M|]. intros rho tau sh A Hr. destruct (Ext rho tau sh A Hr) as (r & Ag & A1 & Hr1 & E1). apply (proj2 M r tau sh A1). auto.
Qed.
Lemma t_pattern (R : trel) (mk : nat -> shrepr) reprs : forall s, sinv s -> (forall q, In q reprs -> q < nrep s) -> tstable R s ->
  (forall s1 u, sinv s1 -> nvar s <= nvar s1 -> (forall x, live (us s) x -> live (us s1) x) -> live (us s1) u -> wf_repr s1 (mk u)) ->
  (forall q u s1 rho tau sh, In q reprs -> nvar s <= nvar s1 -> (forall x, live (us s) x -> live (us s1) x) -> ~ live (us s1) u -> R rho tau sh -> exists d, forall rho', agrees (us s1) rho rho' -> rho' u = d -> sh q = dshape rho' tau (mk u)) ->
  match match_pattern mk reprs s with
  | (s', Ok _) => tsound R s s'
  | (_, Err e) => e = ValueError /\ texcludes R s
  end.
Proof.
  induction reprs as [|q reprs IH]; intros s I Hq St W H; cbn [match_pattern]; [apply tsound_refl; auto|].
  assert (T := t_step R s q mk I ltac:(apply Hq; left; auto) St W). lapply T; [clear T; intros T|]. 2: { intros u rho tau sh N A Hr. apply (H q u s rho tau sh); auto. left; auto. }
  unfold hbind at 1. destruct ((do u <- new_dim None; inner_match q (mk u)) s) as [s1 [[]|e]]; [|auto]. assert (T' := T). destruct T' as (T1 & T2 & T3 & T4 & T5 & T6).
  assert (St1 : tstable R s1). { intros rho rho' tau tau' sh A B. apply St; [intros x Hx; apply A; auto|intros x Hx; apply B; lia]. }
  assert (X := IH s1 T1 ltac:(intros x Hx; rewrite T2; apply Hq; right; auto) St1). lapply X; [clear X; intros X|]. 2: { intros s2 u I2 V2 L2. apply W; auto; lia. }
  lapply X; [clear X; intros X|]. 2: { intros q' u s2 rho tau sh Hq' V2 L2. apply (H q' u s2 rho tau sh); auto; [right; auto|lia]. }
  destruct (match_pattern mk reprs s1) as [s2 [[]|e]]; [eapply tsound_trans; eauto|]. destruct X as [-> X]. split; [auto|]. eapply texcludes_back; eauto.
Qed.

(** ** First step *)
Definition same_off (a : Z) (reprs : list nat) (sh : nat -> list Z) : Prop := exists front back, at_axis a front back /\ forall q, In q reprs -> exists d, sh q = front ++ d :: back.
Lemma match_axis_ok s a reprs (P : srel) : sinv s -> (forall q, In q reprs -> q < nrep s) -> (forall rho sh, allows s rho sh -> P sh -> same_off a reprs sh) ->
  match match_axis a reprs s with
  | (s', Ok _) => sound_for P s s'
  | (_, Err e) => e = ValueError /\ excludes P s
  end.
Proof.
  intros I Hq HP. unfold match_axis. destruct (born_var s I) as (s1 & E1 & B1 & U1 & V1). unfold hbind at 1. rewrite E1. set (n := Z.to_nat (if (0 <=? a)%Z then a else (- a - 1)%Z)). assert (I1 : sinv s1) by apply B1.
  destruct (new_dims_ok None n s1 (s_inv _ I1)) as (u' & L & E & G & V & S & C). unfold hbind. rewrite E. rewrite U1 in *. assert (B : born s (with_us s1 u')) by (eapply born_trans; [exact B1|apply born_us; [auto|rewrite U1; auto]]). set (s2 := with_us s1 u') in *. assert (I2 : sinv s2) by apply B.
  assert (N2 : nrep s2 = nrep s) by apply B. assert (Vn : nvar s2 = Datatypes.S (nvar s)) by exact V1. set (w := nvar s) in *.
  set (R := fun (rho : nat -> Z) (tau : nat -> list Z) (sh : nat -> list Z) => P sh /\ exists front back, (forall q, In q reprs -> exists d, sh q = front ++ d :: back) /\ map rho L = (if (0 <=? a)%Z then front else back) /\ tau w = (if (0 <=? a)%Z then back else front)).
  assert (M := t_pattern R (pattern a w L) reprs s2 I2 ltac:(intros q Hx; rewrite N2; auto)). lapply M; [clear M; intros M|].
  2: { intros rho rho' tau tau' sh A T (Hp & f & b & H1 & H2 & H3). split; [auto|]. exists f, b. split; [auto|]. rewrite T by lia. split; [|auto]. rewrite <- H2. apply map_ext_in. intros x Hx. apply A. apply V. auto. }
  lapply M; [clear M; intros M|].
  2: { intros s3 u I3 V3 L3 Lu. unfold pattern. destruct (0 <=? a)%Z; (split; [|split; [discriminate|intros x Hx; injection Hx as <-; lia]]); cbn; intros x Hx; rewrite ?app_nil_r, ?in_app_iff in Hx; cbn in Hx; [destruct Hx as [Hx|[<-|[]]]|destruct Hx as [<-|Hx]]; auto; apply L3, V; auto. }
  lapply M; [clear M; intros M|].
  2: { intros q u s3 rho tau sh Hx V3 L3 Nu (Hp & f & b & H1 & H2 & H3). destruct (H1 q Hx) as (d & Ed). exists d. intros rho' A Eu. rewrite Ed. unfold pattern, dshape. assert (Em : map rho' L = map rho L) by (apply map_ext_in; intros x Hy; apply A; apply L3; apply V; auto).
    destruct (0 <=? a)%Z; cbn [pre suf root rval map]; rewrite ?map_app; cbn [map]; rewrite Em, H2, H3, Eu; [rewrite <- !app_assoc; cbn; rewrite app_nil_r; auto|auto]. }
  assert (Ext : forall rho sh, allows s rho sh -> P sh -> exists rho' tau', agrees (us s) rho rho' /\ tallows s2 rho' tau' sh /\ R rho' tau' sh).
  { intros rho sh A Hp. destruct (HP rho sh A Hp) as (f & b & Ax & H1). apply allows_den in A as (Hs & tau & D). set (common := if (0 <=? a)%Z then f else b).
    assert (Lc' : length common = n) by (unfold common, n, at_axis in *; destruct (Z.leb_spec 0 a); destruct Ax as [->| ->]; lia).
    destruct (C rho common Hs) as (r & Ag & Hs' & Em); [split; [auto|apply Forall_forall; intros; exact Logic.I]|]. exists r, (upd tau w (if (0 <=? a)%Z then b else f)). split; [auto|].
    split; [split; [auto|]|]. { intros q Hx. rewrite N2 in Hx. rewrite <- D by auto. apply born_den; auto. intros x Hy. apply upd_other. unfold w. lia. }
    split; [auto|]. exists f, b. split; [auto|]. split; [exact Em|apply upd_same]. }
  destruct (match_pattern (pattern a w L) reprs s2) as [s' [[]|e]].
  - destruct M as (M1 & M2 & M3 & M4 & M5 & M6). split; [auto|]. split; [lia|]. split; [intros x Hx; apply M4; apply B; auto|]. split.
    + intros rho sh A Hp. destruct (Ext rho sh A Hp) as (r & t & Ag & A2 & Hr). destruct (M5 r t sh A2 Hr) as (r2 & t2 & G2 & _ & A3). exists r2. split; [intros x Hx; rewrite G2; [auto|apply B; auto]|]. apply allows_t. exists t2. auto.
    + intros rho sh A. apply M6 in A. apply allows_den in A as (Hs & tau & D). apply allows_den. split; [apply S in Hs; apply Hs|]. exists tau. intros x Hx. rewrite <- (D x) by lia. unfold den. assert (Er : rp s2 = rp s) by apply B. rewrite Er. auto.
  - split; [apply M|]. intros rho sh A Hp. destruct (Ext rho sh A Hp) as (r & t & Ag & A2 & Hr). apply (proj2 M r t sh A2 Hr).
Qed.

(** ** Second step *)
Fixpoint sameat (pos : Z) (l y : list Z) : Prop := match l, y with [], [] => True | x :: l, z :: y => (pos = 0%Z \/ z = x) /\ sameat (pos - 1) l y | _, _ => False end.
Lemma sameat_length l : forall pos y, sameat pos l y -> length y = length l.
Proof. induction l as [|x l IH]; intros pos [|z y] H; cbn in *; try contradiction; auto. f_equal. eapply IH. apply H. Qed.
Lemma sameat_past l : forall pos y, (pos < 0)%Z -> sameat pos l y -> y = l.
Proof. induction l as [|x l IH]; intros pos [|z y] L H; cbn in *; try contradiction; auto. destruct H as [[H|H] H']; [lia|]. f_equal; [auto|]. eapply IH; [|exact H']. lia. Qed.
Lemma sameat_refl l : forall pos, sameat pos l l.
Proof. induction l as [|x l IH]; intros pos; cbn; auto. Qed.
Lemma sameat_split f : forall d b y, sameat (Z.of_nat (length f)) (f ++ d :: b) y <-> exists e, y = f ++ e :: b.
Proof.
  induction f as [|x f IH]; intros d b y.
  - cbn [length app]. split.
    + intros H. destruct y as [|z y]; [destruct H|]. cbn in H. destruct H as [_ H]. apply sameat_past in H; [|lia]. subst. eauto.
    + intros (e & ->). cbn. split; [auto|apply sameat_refl].
  - destruct y as [|z y]; [cbn; split; [intros []|intros (e & H); discriminate]|]. cbn [length app sameat]. replace (Z.of_nat (Datatypes.S (length f)) - 1)%Z with (Z.of_nat (length f)) by lia. rewrite IH. split.
    + intros [[H|H] (e & ->)]; [lia|]. subst. eauto.
    + intros (e & H). injection H as -> ->. eauto.
Qed.
Lemma makes_renewed l : forall pos s, inv (us s) -> (forall x, In x l -> live (us s) x) -> makes (renewed pos l) s (fun rho ys => sameat pos (map rho l) ys).
Proof.
  induction l as [|u l IH]; intros pos s I HL; cbn [renewed].
  - eapply makes_iff; [apply makes_old; [auto|intros x []]|]. intros rho ys. cbn. destruct ys; split; auto; try discriminate; contradiction.
  - set (m := if (pos =? 0)%Z then do u <- new_dim None; hret [u] else hret [u]). set (spec := fun (rho : nat -> Z) ys => exists y : Z, ys = [y] /\ (pos = 0%Z \/ y = rho u)).
    assert (M1 : makes m s spec).
    { unfold m. destruct (Z.eqb_spec pos 0) as [E|E].
      - eapply makes_iff; [apply makes_dim; auto|]. intros rho ys. unfold spec. split; [intros (y & -> & _); eauto|intros (y & -> & _); exists y; split; [auto|exact Logic.I]].
      - eapply makes_iff; [apply makes_old; [auto|intros x [<-|[]]; apply HL; left; auto]|]. intros rho ys. unfold spec. cbn. split; [intros ->; eauto|]. intros (y & -> & [H|H]); [contradiction|congruence]. }
    assert (M := makes_app m (renewed (pos - 1) l) s spec (fun rho ys => sameat (pos - 1) (map rho l) ys) M1). lapply M; [clear M; intros M|]. 2: { intros u' G. apply IH; [apply G|intros x Hx; apply G; apply HL; right; auto]. }
    lapply M; [clear M; intros M|]. 2: { intros rho rho' ys A H. replace (map rho' l) with (map rho l); [auto|]. apply map_ext_in. intros x Hx. symmetry. apply A. apply HL. right. auto. }
    eapply makes_iff; [exact M|]. intros rho ys. cbn [map sameat]. unfold spec. split.
    + intros (y1 & y2 & -> & (y & -> & H) & H2). cbn. auto.
    + destruct ys as [|y ys]; [intros []|]. intros [H1 H2]. exists [y], ys. split; [auto|]. split; eauto.
Qed.
Lemma match_with_ok q0 pos (P : srel) reprs : forall s, sinv s -> q0 < nrep s -> root (rp s q0) = None -> (forall q, In q reprs -> q < nrep s) ->
  (forall rho sh, allows s rho sh -> P sh -> forall q, In q reprs -> sameat pos (sh q0) (sh q)) ->
  match match_with q0 pos reprs s with
  | (s', Ok _) => sound_for P s s' /\ forall rho sh q, allows s' rho sh -> In q reprs -> sameat pos (sh q0) (sh q)
  | (_, Err e) => e = ValueError /\ excludes P s
  end.
Proof.
  induction reprs as [|q reprs IH]; intros s I H0 R Hq HP; cbn [match_with]; [split; [apply sound_for_refl; auto|intros rho sh q _ []]|].
  assert (Step : match (if q =? q0 then hret tt else fun s => (do l <- renewed pos (pre (rp s q0)); inner_match q (mkshape l None [])) s) s with
    | (s', Ok _) => sound_for P s s' /\ forall rho sh, allows s' rho sh -> sameat pos (sh q0) (sh q)
    | (_, Err e) => e = ValueError /\ excludes P s end).
  { destruct (Nat.eqb_spec q q0) as [->|Ne].
    - unfold hret. split; [apply sound_for_refl; auto|]. intros rho sh A. apply sameat_refl.
    - assert (M := match_list P _ (renewed pos (pre (rp s q0))) s q I ltac:(apply Hq; left; auto) (makes_renewed (pre (rp s q0)) pos s (s_inv _ I) ltac:(intros x Hx; eapply pre_live; eauto))).
      lapply M; [clear M; intros M|]. 2: { intros rho tau sh Hs D Hp. rewrite <- (den_plain_suffix s rho tau q0 I H0 R), D by auto. apply (HP rho sh); [apply allows_den; eauto|auto|left; auto]. }
      destruct ((do l <- renewed pos (pre (rp s q0)); inner_match q (mkshape l None [])) s) as [s' [[]|e]]; [|auto]. destruct M as [M1 M2]. split; [auto|]. intros rho sh A. rewrite (plain_sh s q0 rho sh I H0 R) by (apply M1; auto). apply (M2 rho sh A). }
  unfold hbind at 1. destruct ((if q =? q0 then hret tt else _) s) as [s1 [[]|e]]; [|auto]. destruct Step as [S1 S2]. assert (N : nrep s1 = nrep s) by apply S1.
  assert (X := IH s1 (proj1 S1) ltac:(lia) (sound_for_plain P s s1 q0 I H0 R S1) ltac:(intros x Hx; rewrite N; apply Hq; right; auto)). lapply X; [clear X; intros X|]. 2: { intros rho sh A Hp x Hx. apply (HP rho sh); [apply S1; auto|auto|right; auto]. }
  destruct (match_with q0 pos reprs s1) as [s2 [[]|e]].
  - destruct X as [X1 X2]. split; [eapply sound_for_trans; eauto|]. intros rho sh x A [<-|Hx]; [apply (S2 rho sh); apply X1; auto|apply (X2 rho sh x A Hx)].
  - destruct X as [-> X]. split; [auto|]. eapply excludes_back; eauto.
Qed.

(** ** The dimensions at the axis *)
Lemma axis_unique a f d b f' d' b' : at_axis a f b -> at_axis a f' b' -> f ++ d :: b = f' ++ d' :: b' -> f = f' /\ d = d' /\ b = b'.
Proof.
  intros A A' E. assert (L : length f + S (length b) = length f' + S (length b')) by (apply (f_equal (@length _)) in E; rewrite !app_length in E; cbn in E; auto). assert (Lf : length f = length f') by (unfold at_axis in *; lia).
  revert f' Lf E A A' L. induction f as [|x f IH]; intros [|y f'] Lf E A A' L; try discriminate.
  - cbn in E. injection E as -> ->. auto.
  - cbn in E. injection E as -> E. cbn in Lf. assert (X : f = f' /\ d :: b = d' :: b'). { clear - Lf E. injection Lf as Lf. revert f' Lf E. induction f as [|x f IH]; intros [|z f'] Lf E; try discriminate; [auto|]. cbn in E. injection E as -> E. injection Lf as Lf. destruct (IH f' Lf E) as [-> ->]. auto. }
    destruct X as [-> X]. injection X as -> ->. auto.
Qed.
Lemma nth_split_map (rho : nat -> Z) l i u : nth_error l i = Some u -> exists f b, map rho l = f ++ rho u :: b /\ length f = i.
Proof. intros H. apply nth_error_split in H as (l1 & l2 & -> & L). exists (map rho l1), (map rho l2). rewrite map_app, map_length. auto. Qed.
Lemma nth_rev_split_map (rho : nat -> Z) l i u : nth_error (rev l) i = Some u -> exists f b, map rho l = f ++ rho u :: b /\ length b = i.
Proof.
  intros H. apply nth_error_split in H as (l1 & l2 & E & L). apply (f_equal (@rev _)) in E. rewrite rev_involutive, rev_app_distr in E. cbn in E. rewrite <- app_assoc in E. cbn in E. exists (map rho (rev l2)), (map rho (rev l1)). rewrite E, map_app. split; [auto|]. rewrite map_length, rev_length. auto.
Qed.
Lemma item_den s q a u rho tau : sinv s -> q < nrep s -> item (rp s q) a = Some u -> exists f b, den s rho tau q = f ++ rho u :: b /\ at_axis a f b.
Proof.
  intros I Hq E. unfold item in E. destruct (Z.leb_spec 0 a).
  - apply (nth_split_map rho) in E as (f & b & E & L). unfold den, dshape. rewrite E, <- app_assoc. cbn. eexists f, _. split; [reflexivity|]. left. lia.
  - destruct (root (rp s q)) as [v|] eqn:R.
    + apply (nth_rev_split_map rho) in E as (f & b & E & L). unfold den, dshape. rewrite E, !app_assoc. eexists _, b. split; [reflexivity|]. right. lia.
    + apply (nth_rev_split_map rho) in E as (f & b & E & L). rewrite den_plain_suffix, E by auto. exists f, b. split; [auto|]. right. lia.
Qed.
Lemma item_none s q a rho tau f d b : sinv s -> q < nrep s -> root (rp s q) = None -> item (rp s q) a = None -> den s rho tau q = f ++ d :: b -> ~ at_axis a f b.
Proof.
  intros I Hq R E D A. unfold item in E. rewrite R in E. rewrite den_plain_suffix in D by auto. apply (f_equal (@length _)) in D. rewrite map_length, app_length in D. cbn in D. destruct (Z.leb_spec 0 a); apply nth_error_None in E; rewrite ?rev_length in E; unfold at_axis in A; lia.
Qed.
Lemma item_live s q a u : sinv s -> q < nrep s -> item (rp s q) a = Some u -> live (us s) u.
Proof.
  intros I Hq E. assert (W := s_repr _ I q Hq). destruct W as (W & _). apply W. unfold item in E. apply in_app_iff. destruct (0 <=? a)%Z; [left; eapply nth_error_In; eauto|]. apply nth_error_In in E. rewrite <- in_rev in E. destruct (root (rp s q)); auto.
Qed.
Lemma collect_ok s a reprs : match collect s a reprs with
  | Ok l => length l <= length reprs /\ (length l = length reprs -> Forall2 (fun q u => item (rp s q) a = Some u) reprs l) /\ ((forall q, In q reprs -> root (rp s q) = None) -> length l = length reprs)
  | Err e => e = IndexError /\ exists q, In q reprs /\ root (rp s q) = None /\ item (rp s q) a = None
  end.
Proof.
  induction reprs as [|q reprs IH]; cbn [collect]; [cbn; auto|]. destruct (item (rp s q) a) as [u|] eqn:E.
  - assert (X : match match collect s a reprs with Ok l => Ok (u :: l) | Err e => Err e end with
      | Ok l => length l <= length (q :: reprs) /\ (length l = length (q :: reprs) -> Forall2 (fun q u => item (rp s q) a = Some u) (q :: reprs) l) /\ ((forall x, In x (q :: reprs) -> root (rp s x) = None) -> length l = length (q :: reprs))
      | Err e => e = IndexError /\ exists x, In x (q :: reprs) /\ root (rp s x) = None /\ item (rp s x) a = None end).
    { destruct (collect s a reprs) as [l|e]; [|destruct IH as (-> & x & Hx & H); split; [auto|]; exists x; cbn; tauto]. destruct IH as (L & F & A). cbn [length]. split; [lia|]. split; [intros H; constructor; auto|]. intros H. f_equal. apply A. intros x Hx. apply H. right. auto. }
    destruct (root (rp s q)); exact X.
  - destruct (root (rp s q)) as [v|] eqn:R; [|split; [auto|]; exists q; cbn; auto]. destruct (collect s a reprs) as [l|e]; [|destruct IH as (-> & x & Hx & H); split; [auto|]; exists x; cbn; tauto]. destruct IH as (L & F & A). cbn [length]. split; [lia|]. split; [intros; lia|]. intros H. rewrite H in R by (left; auto). discriminate.
Qed.

(** ** The sum *)
Lemma known_app l m : known (l ++ m) = known l ++ known m.
Proof. induction l as [|[z|] l IH]; cbn; [auto|f_equal; auto|auto]. Qed.
Lemma known_map l : known (map Some l) = l.
Proof. induction l; cbn; f_equal; auto. Qed.
Lemma known_count l : length (known l) + count_none l = length l.
Proof. induction l as [|[z|] l IH]; cbn; lia. Qed.
Lemma count_none_map l : count_none l = 0 <-> exists r, l = map Some r.
Proof.
  split; [|intros (r & ->); apply count_none_0]. induction l as [|[z|] l IH]; cbn; intros H; [exists []; auto| |discriminate]. destruct (IH H) as (r & ->). exists (z :: r). auto.
Qed.
Lemma total_app l m : total (l ++ m) = (total l + total m)%Z.
Proof. induction l as [|x l IH]; cbn [app total fold_right]; [reflexivity|]. fold (total (l ++ m)). fold (total l). rewrite IH. ring. Qed.
Lemma sumz_total l : sumz l = total l.
Proof. reflexivity. Qed.
Lemma values_length s l : length (values s l) = length l.
Proof. apply map_length. Qed.
Lemma live_sound P s s' : sound_for P s s' -> forall x, live (us s) x -> live (us s') x.
Proof. intros H. apply H. Qed.
Lemma sound_sat P s s' : sound_for P s s' -> forall rho, sat (us s') rho -> sat (us s) rho.
Proof. intros (_ & _ & _ & _ & B) rho Hs. apply (B rho _ (allows_self s' rho (fun _ => []) Hs)). Qed.
Lemma last_map_some (b : list Z) : b <> [] -> last (map Some b) None = Some (last b 0%Z).
Proof. induction b as [|x [|y b] IH]; intros H; [contradiction|auto|]. cbn [map last] in *. apply IH. discriminate. Qed.
Lemma last_app_r {A} (l m : list A) d : m <> [] -> last (l ++ m) d = last m d.
Proof. intros H. induction l as [|x l IH]; [auto|]. cbn [app]. destruct (l ++ m) eqn:E; [apply app_eq_nil in E as [_ E]; contradiction|]. cbn [last]. auto. Qed.
Lemma balance_ok s li lo (P : srel) : sinv s -> (forall u, In u (li ++ [lo]) -> live (us s) u) -> (forall rho sh, allows s rho sh -> P sh -> rho lo = total (map rho li)) ->
  match balance (S (length li)) (li ++ [lo]) s with
  | (s', Ok b) => sound_for P s s' /\ rp s' = rp s /\ (b = true <-> exists r, values s' (li ++ [lo]) = map Some r) /\ (count_none (values s (li ++ [lo])) = 1 -> b = true /\ forall rho, sat (us s') rho -> rho lo = total (map rho li))
  | (_, Err e) => e = ValueError /\ excludes P s
  end.
Proof.
  intros I HL HP. unfold balance. set (L := li ++ [lo]) in *. assert (Len : length L = S (length li)) by (unfold L; rewrite app_length; cbn; lia). assert (Kc := known_count (values s L)). rewrite values_length, Len in Kc. destruct (Nat.eqb_spec (S (length (known (values s L)))) (S (length li))) as [Ek|Ek].
  - assert (C1 : count_none (values s L) = 1) by lia. apply count_none_spec in C1 as (x & y & V). rewrite V, known_app. cbn [known]. rewrite !known_map. destruct y as [|y0 y1] eqn:Ey.
    + replace (last (map Some x ++ None :: map Some []) None) with (@None Z) by (cbn [map]; rewrite last_app_r by discriminate; auto). unfold L. rewrite rev_app_distr. cbn [rev app]. rewrite app_nil_r. assert (Vi : values s li = map Some x). { unfold L, values in V. rewrite map_app in V. cbn [map] in V. apply app_inj_tail in V as [V _]. auto. }
      assert (Li : forall u, In u li -> live (us s) u) by (intros u Hu; apply HL; unfold L; apply in_app_iff; auto). assert (X := set_one s lo (sumz x) P I ltac:(apply HL; unfold L; apply in_app_iff; right; left; auto)). lapply X; [clear X; intros X|]. 2: { intros rho sh A Hp. rewrite (HP rho sh A Hp). rewrite (values_sat s li x I Li Vi rho (proj1 A)). auto. }
      change (set_dim lo (sumz x)) with (do _ <- lift (update_possible_values lo (Some [sumz x])); hret tt). unfold hbind at 1. destruct ((do _ <- lift (update_possible_values lo (Some [sumz x])); hret tt) s) as [s' [[]|e]]; [|auto]. destruct X as (X1 & X2 & X3). unfold hret. split; [auto|]. split; [auto|].
      assert (Fx : forall rho, sat (us s') rho -> map rho li = x /\ rho lo = total x). { intros rho Hs. split; [apply (values_sat s li x I Li Vi); eapply sound_sat; eauto|]. rewrite (X3 rho _ (allows_self s' rho (fun _ => []) Hs)). auto. }
      split; [|intros _; split; [auto|]; intros rho Hs; destruct (Fx rho Hs) as [-> ->]; auto]. split; [|auto]. intros _. exists (x ++ [total x]). apply values_complete; [apply X1|intros u Hu; eapply live_sound; eauto|]. intros rho Hs. unfold L. rewrite map_app. cbn. destruct (Fx rho Hs) as [-> ->]. auto.
    + rewrite <- Ey in *. assert (Ny : y <> []) by (rewrite Ey; discriminate). clear Ey. assert (La : last (map Some x ++ None :: map Some y) None = Some (last y 0%Z)). { rewrite last_app_r by discriminate. change (None :: map Some y) with ([@None Z] ++ map Some y). rewrite last_app_r; [apply last_map_some; auto|]. destruct y; [contradiction|discriminate]. }
      rewrite La. destruct (pick is_none L (map Some x ++ None :: map Some y)) as [u|] eqn:Ep.
      2: { exfalso. assert (X := pick_none is_none L (map Some x ++ None :: map Some y)). rewrite <- V in X. specialize (X (values_length s L)). rewrite <- V in Ep. specialize (X Ep None). rewrite V in X. discriminate X. apply in_app_iff. right. left. auto. }
      rewrite <- V in Ep. destruct (pick_values s L x y u Ep V) as (A & B & EL & VA & VB). assert (NB : B <> []). { intros ->. destruct y; [contradiction|discriminate]. } destruct (exists_last NB) as (B' & lo' & EB). destruct (exists_last Ny) as (y' & m & Ey).
      assert (Elo : li = A ++ u :: B' /\ lo = lo'). { unfold L in EL. rewrite EB in EL. change (A ++ u :: B' ++ [lo']) with (A ++ (u :: B') ++ [lo']) in EL. rewrite app_assoc in EL. apply app_inj_tail in EL. auto. } destruct Elo as [Eli <-].
      assert (VB2 : values s B' = map Some y' /\ value (us s) lo = Some m). { rewrite EB, Ey in VB. unfold values in VB. rewrite !map_app in VB. cbn [map] in VB. apply app_inj_tail in VB as [V1 V2]. auto. } destruct VB2 as [VB' Vlo].
      assert (Es : (last (x ++ y) 0 - sumz (removelast (x ++ y)) = m - (total x + total y'))%Z). { rewrite Ey, app_assoc, removelast_last, last_last, sumz_total, total_app. auto. } rewrite Es.
      assert (LA : forall v, In v A -> live (us s) v) by (intros v Hv; apply HL; rewrite EL; apply in_app_iff; auto). assert (LB : forall v, In v B' -> live (us s) v) by (intros v Hv; apply HL; rewrite EL, EB; apply in_app_iff; right; right; apply in_app_iff; auto).
      assert (Llo : live (us s) lo) by (apply HL; unfold L; apply in_app_iff; right; left; auto).
      assert (Fx : forall rho, sat (us s) rho -> map rho A = x /\ map rho B' = y' /\ rho lo = m). { intros rho Hs. split; [eapply values_sat; eauto|]. split; [eapply values_sat; eauto|]. eapply value_sat; [apply I|exact Llo|exact Vlo|auto]. }
      assert (X := set_one s u (m - (total x + total y'))%Z P I ltac:(apply HL; rewrite EL; apply in_app_iff; right; left; auto)). lapply X; [clear X; intros X|].
      2: { intros rho sh Ar Hp. assert (H := HP rho sh Ar Hp). destruct (Fx rho (proj1 Ar)) as (F1 & F2 & F3). rewrite Eli, map_app in H. cbn [map] in H. rewrite total_app, F1, F3 in H. change (total (rho u :: map rho B')) with (rho u + total (map rho B'))%Z in H. rewrite F2 in H. lia. }
      unfold set_dim. unfold hbind at 1. destruct ((do _ <- lift (update_possible_values u (Some [(m - (total x + total y'))%Z])); hret tt) s) as [s' [[]|e]]; [|auto]. destruct X as (X1 & X2 & X3). unfold hret. split; [auto|]. split; [auto|].
      assert (Fx' : forall rho, sat (us s') rho -> map rho li = x ++ (m - (total x + total y'))%Z :: y' /\ rho lo = m). { intros rho Hs. destruct (Fx rho (sound_sat _ _ _ X1 rho Hs)) as (F1 & F2 & F3). split; [|auto]. rewrite Eli, map_app. cbn [map]. rewrite F1, F2, (X3 rho _ (allows_self s' rho (fun _ => []) Hs)). auto. }
      split.
      * split; [|auto]. intros _. exists ((x ++ (m - (total x + total y'))%Z :: y') ++ [m]). apply values_complete; [apply X1|intros v Hv; eapply live_sound; eauto|]. intros rho Hs. unfold L. rewrite map_app. cbn [map]. destruct (Fx' rho Hs) as [-> ->]. auto.
      * intros _. split; [auto|]. intros rho Hs. destruct (Fx' rho Hs) as [-> ->]. rewrite total_app. change (m = total x + (m - (total x + total y') + total y'))%Z. lia.
  - split; [apply sound_for_refl; auto|]. split; [auto|]. split; [|intros C; exfalso; lia]. rewrite Nat.eqb_eq. split.
    + intros E. apply count_none_map. lia.
    + intros (r & V). rewrite V, known_map. apply (f_equal (@length _)) in V. rewrite values_length, map_length in V. lia.
Qed.
Lemma balance_short s n l b s' : length l < n -> balance n l s = (s', Ok b) -> s' = s /\ b = false.
Proof.
  intros L E. unfold balance in E. assert (Kc := known_count (values s l)). rewrite values_length in Kc. destruct (Nat.eqb_spec (S (length (known (values s l)))) n) as [Ek|Ek].
  - exfalso. assert (C0 : count_none (values s l) = 0) by lia. apply count_none_map in C0 as (r & V). destruct (last (values s l) None) eqn:La.
    + destruct (pick is_none l (values s l)) as [u|] eqn:Ep; [|discriminate]. apply pick_spec in Ep as (A & B & va & v & vb & _ & Ev & _ & N & _). destruct v; [discriminate|]. rewrite V in Ev. assert (X : In None (map (@Some Z) r)) by (rewrite Ev; apply in_app_iff; right; left; auto). apply in_map_iff in X as (z0 & X & _). discriminate.
    + destruct l as [|u l]; [discriminate|]. exfalso. rewrite V in La. destruct r as [|z r]; [discriminate|]. rewrite last_map_some in La by discriminate. discriminate.
  - injection E as <- <-. split; [auto|]. apply Nat.eqb_neq. lia.
Qed.

(** ** Both steps *)
Lemma align_ok s a reprs : sinv s -> (forall q, In q reprs -> q < nrep s) ->
  match (do _ <- match_axis a reprs; match_known a reprs) s with
  | (s', Ok _) => sound_for (same_off a reprs) s s' /\ ((exists q, In q reprs /\ root (rp s q) = None) -> exists q0 n, In q0 reprs /\ forall q, In q reprs -> root (rp s' q) = None /\ length (pre (rp s' q)) = n /\
      forall rho sh, allows s' rho sh -> sameat (if (0 <=? a)%Z then a else (Z.of_nat n + a)%Z) (sh q0) (sh q))
  | (_, Err e) => e = ValueError /\ excludes (same_off a reprs) s
  end.
Proof.
  intros I Hq. assert (M := match_axis_ok s a reprs (same_off a reprs) I Hq ltac:(auto)). unfold hbind at 1. destruct (match_axis a reprs s) as [s1 [[]|e]]; [|auto]. assert (I1 : sinv s1) by apply M. assert (N1 : nrep s1 = nrep s) by apply M. unfold match_known.
  destruct (find (plain s1) reprs) as [q0|] eqn:F.
  - apply find_some in F as [H0 F]. assert (R0 : root (rp s1 q0) = None) by (unfold plain in F; destruct (root (rp s1 q0)); [discriminate|auto]). set (n := length (pre (rp s1 q0))). set (pos := if (0 <=? a)%Z then a else (Z.of_nat n + a)%Z).
    assert (H0' : q0 < nrep s1) by (rewrite N1; auto). assert (X := match_with_ok q0 pos (same_off a reprs) reprs s1 I1 H0' R0 ltac:(intros q Hx; rewrite N1; auto)). lapply X; [clear X; intros X|].
    2: { intros rho sh A (f & b & Ax & H) q Hx. destruct (H q0 H0) as (d0 & E0). destruct (H q Hx) as (d & E). assert (Lf : pos = Z.of_nat (length f)). { unfold pos. assert (Ln : length (sh q0) = n) by (rewrite (plain_sh s1 q0 rho sh I1 H0' R0 A), map_length; auto). rewrite E0, app_length in Ln. cbn in Ln. unfold at_axis in Ax. destruct (Z.leb_spec 0 a); lia. }
      rewrite Lf, E0. apply sameat_split. eauto. }
    destruct (match_with q0 pos reprs s1) as [s2 [[]|e]].
    + destruct X as [X1 X2]. assert (N2 : nrep s2 = nrep s1) by apply X1. assert (I2 : sinv s2) by apply X1. split; [eapply sound_for_trans; eauto|]. intros _. exists q0, n. split; [auto|]. intros q Hx.
      assert (Rk : rank n s2 q). { intros rho sh A. rewrite (sameat_length _ _ _ (X2 rho sh q A Hx)). rewrite (plain_sh s1 q0 rho sh I1 H0' R0) by (apply X1; auto). rewrite map_length. auto. }
      destruct (rank_plain n s2 q I2 ltac:(rewrite N2, N1; auto) Rk) as [R2 L2]. split; [auto|]. split; [auto|]. intros rho sh A. apply (X2 rho sh q A Hx).
    + destruct X as [-> X]. split; [auto|]. eapply excludes_back; eauto.
  - split; [auto|]. intros (q & Hx & R). exfalso. assert (X := find_none _ _ F q Hx). unfold plain in X. rewrite (sound_for_plain _ s s1 q I (Hq q Hx) R M) in X. discriminate.
Qed.
(** The axis dimensions are [L] and the shapes agree otherwise. *)
Definition described (a : Z) (reprs L : list nat) (s : shst) : Prop := forall rho sh, allows s rho sh -> exists f b, at_axis a f b /\ Forall2 (fun q u => sh q = f ++ rho u :: b) reprs L.
Lemma joins_off a qs qo sh : joins a (map sh qs) (sh qo) -> same_off a (qs ++ [qo]) sh.
Proof.
  intros (f & b & ds & [Ax E] & Eo). exists f, b. split; [auto|]. intros q Hq. apply in_app_iff in Hq as [Hq|[<-|[]]]; [|eauto]. assert (X : In (sh q) (map sh qs)) by (apply in_map; auto). rewrite E in X. apply in_map_iff in X as (d & <- & _). eauto.
Qed.
Lemma described_sound P a reprs L s s' : sound_for P s s' -> described a reprs L s -> (forall u, In u L -> live (us s) u) -> described a reprs L s'.
Proof. intros (_ & _ & _ & _ & B) D _ rho sh A. apply (D rho sh (B rho sh A)). Qed.
Lemma items_sum s a qs qo li lo rho sh : sinv s -> (forall q, In q (qs ++ [qo]) -> q < nrep s) -> Forall2 (fun q u => item (rp s q) a = Some u) (qs ++ [qo]) (li ++ [lo]) -> allows s rho sh -> joins a (map sh qs) (sh qo) -> rho lo = total (map rho li).
Proof.
  intros I Hq F A (f & b & ds & [Ax E] & Eo). apply allows_den in A as (Hs & tau & D). assert (It : forall q u d, In q (qs ++ [qo]) -> item (rp s q) a = Some u -> sh q = f ++ d :: b -> rho u = d).
  { intros q u d Hx Ei Es. destruct (item_den s q a u rho tau I (Hq q Hx) Ei) as (f' & b' & E' & Ax'). rewrite D, Es in E' by auto. symmetry in E'. destruct (axis_unique a _ _ _ _ _ _ Ax' Ax E') as (_ & -> & _). auto. }
  assert (Lq : length qs = length li) by (apply Forall2_length in F; rewrite !app_length in F; cbn in F; lia). apply Forall2_app_inv_l in F as (l1 & l2 & F1 & F2 & El). inversion F2 as [|? u ? ? Fu Fn]; subst. inversion Fn; subst. apply app_inj_tail in El as [<- <-].
  rewrite (It qo lo (total ds)); auto; [|apply in_app_iff; right; left; auto]. f_equal. assert (It' : forall q u d, In q qs -> item (rp s q) a = Some u -> sh q = f ++ d :: b -> rho u = d) by (intros q u d Hx; apply It; apply in_app_iff; auto). clear - F1 E It'. revert ds E It'. induction F1 as [|q u qs li Fq _ IH]; intros [|d ds] E It; try discriminate; [auto|].
  cbn [map] in *. injection E as Eq E. f_equal; [symmetry; apply (It q u d); auto; left; auto|]. apply IH; auto. intros x v d' Hx. apply It. right. auto.
Qed.
Lemma concat_axis_ok s qs qo a : sinv s -> (forall q, In q (qs ++ [qo]) -> q < nrep s) ->
  match concat_axis qs qo a s with
  | (s', Ok r) => sound_for (fun sh => joins a (map sh qs) (sh qo)) s s' /\
      ((exists q, In q (qs ++ [qo]) /\ root (rp s q) = None) -> exists s2 li lo, sound_for (same_off a (qs ++ [qo])) s s2 /\ (forall u, In u (li ++ [lo]) -> live (us s2) u) /\ described a (qs ++ [qo]) (li ++ [lo]) s2 /\
        sinv s' /\ (forall u, In u (li ++ [lo]) -> live (us s') u) /\ described a (qs ++ [qo]) (li ++ [lo]) s' /\ (r = true <-> exists x, values s' (li ++ [lo]) = map Some x) /\ (count_none (values s2 (li ++ [lo])) = 1 -> r = true /\ forall rho, sat (us s') rho -> rho lo = total (map rho li)))
  | (_, Err e) => In e [ValueError; IndexError] /\ ((exists q, In q (qs ++ [qo]) /\ root (rp s q) = None) -> excludes (fun sh => joins a (map sh qs) (sh qo)) s)
  end.
Proof.
  intros I Hq. set (reprs := qs ++ [qo]) in *. set (J := fun sh => joins a (map sh qs) (sh qo)). assert (JO : forall sh, J sh -> same_off a reprs sh) by (intros sh; apply joins_off). assert (A := align_ok s a reprs I Hq).
  assert (Ec : concat_axis qs qo a s = match (do _ <- match_axis a reprs; match_known a reprs) s with (s1, Ok _) => match collect s1 a reprs with Err e => (s1, Err e) | Ok l => balance (length reprs) l s1 end | (s1, Err e) => (s1, Err e) end).
  { unfold concat_axis. fold reprs. unfold hbind. destruct (match_axis a reprs s) as [s1 [[]|e]]; [|auto]. destruct (match_known a reprs s1) as [s2 [[]|e]]; auto. }
  rewrite Ec. destruct ((do _ <- match_axis a reprs; match_known a reprs) s) as [s1 [[]|e]].
  2: { destruct A as [-> A]. split; [left; auto|]. intros _ rho sh Al Hj. apply (A rho sh Al). auto. }
  destruct A as [A1 A2]. assert (I1 : sinv s1) by apply A1. assert (N1 : nrep s1 = nrep s) by apply A1. assert (Hq1 : forall q, In q reprs -> q < nrep s1) by (intros q Hx; rewrite N1; auto). assert (AJ : sound_for J s s1) by (eapply sound_for_weaken; [exact A1|exact JO]).
  assert (C := collect_ok s1 a reprs). destruct (collect s1 a reprs) as [l|e].
  2: { destruct C as (-> & q & Hx & R & It). split; [right; left; auto|]. intros _. eapply excludes_back; [exact AJ|]. intros rho sh Al Hj. apply JO in Hj as (f & b & Ax & H). destruct (H q Hx) as (d & E). apply allows_den in Al as (Hs & tau & D). eapply (item_none s1 q a rho tau f d b); eauto. rewrite D; auto. }
  destruct C as (C1 & C2 & C3). destruct (Nat.eq_dec (length l) (length reprs)) as [El|El].
  - specialize (C2 El). assert (Nl : l <> []) by (intros ->; unfold reprs in El; rewrite app_length in El; cbn in El; lia). destruct (exists_last Nl) as (li & lo & ->). assert (Ll : length reprs = S (length li)) by (rewrite <- El, app_length; cbn; lia). rewrite Ll.
    assert (LL : forall u, In u (li ++ [lo]) -> live (us s1) u). { intros u Hu. clear - C2 Hu I1 Hq1. induction C2 as [|q v reprs l E _ IH]; [destruct Hu|]. destruct Hu as [->|Hu]; [eapply item_live; [auto|apply Hq1; left; auto|exact E]|apply IH; auto]. intros x Hx. apply Hq1. right. auto. }
    assert (B := balance_ok s1 li lo J I1 LL ltac:(intros rho sh Al Hj; eapply items_sum; eauto)). destruct (balance (S (length li)) (li ++ [lo]) s1) as [s2 [r|e]].
    + destruct B as (B1 & B2 & B3 & B4). split; [eapply sound_for_trans; eauto|]. intros Pl. destruct (A2 Pl) as (q0 & n & H0 & A3). exists s1, li, lo. split; [auto|]. split; [auto|].
      assert (De : described a reprs (li ++ [lo]) s1).
      { intros rho sh Al. assert (Al' := Al). apply allows_den in Al' as (Hs & tau & D). assert (E0 : exists u0, item (rp s1 q0) a = Some u0). { clear - C2 H0. induction C2 as [|q v reprs l E _ IH]; [destruct H0|]. destruct H0 as [->|H0]; eauto. } destruct E0 as (u0 & E0).
        destruct (item_den s1 q0 a u0 rho tau I1 (Hq1 q0 H0) E0) as (f & b & Ef & Ax). rewrite D in Ef by auto. exists f, b. split; [auto|]. destruct (A3 q0 H0) as (R0 & Ln & _). assert (Lq0 : length (sh q0) = n) by (rewrite (plain_sh s1 q0 rho sh I1 (Hq1 q0 H0) R0 Al), map_length; auto).
        assert (Pos : (if (0 <=? a)%Z then a else (Z.of_nat n + a)%Z) = Z.of_nat (length f)). { rewrite Ef, app_length in Lq0. cbn in Lq0. unfold at_axis in Ax. destruct (Z.leb_spec 0 a); lia. }
        assert (Each : forall q u, In q reprs -> item (rp s1 q) a = Some u -> sh q = f ++ rho u :: b). { intros q u Hx Ei. destruct (A3 q Hx) as (_ & _ & Sa). specialize (Sa rho sh Al). rewrite Pos, Ef in Sa. apply sameat_split in Sa as (d & Ed). destruct (item_den s1 q a u rho tau I1 (Hq1 q Hx) Ei) as (f' & b' & E' & Ax'). rewrite D, Ed in E' by auto. destruct (axis_unique a _ _ _ _ _ _ Ax Ax' E') as (_ & -> & _). auto. }
        clear - C2 Each. revert Each. generalize (li ++ [lo]) C2. clear C2. intros l C2. induction C2 as [|q v reprs l E _ IH]; intros Each; constructor; [apply Each; [left; auto|auto]|]. apply IH. intros x u Hx. apply Each. right. auto. }
      split; [auto|]. split; [apply B1|]. split; [intros u Hu; eapply live_sound; eauto|]. split; [eapply described_sound; eauto|]. split; [auto|auto].
    + destruct B as [-> B]. split; [left; auto|]. intros _. eapply excludes_back; [exact AJ|auto].
  - destruct (balance (length reprs) l s1) as [s2 [r|e]] eqn:Eb.
    + destruct (balance_short s1 (length reprs) l r s2 ltac:(lia) Eb) as [-> ->]. split; [auto|]. intros Pl. exfalso. apply El. apply C3. destruct (A2 Pl) as (q0 & n & H0 & A3). intros q Hx. apply A3. auto.
    + split; [|intros Pl; exfalso; apply El; apply C3; destruct (A2 Pl) as (q0 & n & H0 & A3); intros q Hx; apply A3; auto].
      clear - Eb El C1. unfold balance in Eb. assert (Kc := known_count (values s1 l)). rewrite values_length in Kc. destruct (S (length (known (values s1 l))) =? length reprs) eqn:Ek; [|discriminate]. apply Nat.eqb_eq in Ek. assert (C0 : count_none (values s1 l) = 0) by lia. apply count_none_map in C0 as (r & V).
      destruct (last (values s1 l) None) eqn:La.
      * destruct (pick is_none l (values s1 l)) as [u|] eqn:Ep; [|injection Eb as <- <-; left; auto]. exfalso. apply pick_spec in Ep as (A & B & va & v & vb & _ & Ev & _ & N & _). destruct v; [discriminate|]. rewrite V in Ev. assert (X : In None (map (@Some Z) r)) by (rewrite Ev; apply in_app_iff; right; left; auto). apply in_map_iff in X as (y & X & _). discriminate.
      * destruct l as [|u l]; [cbn in Eb; injection Eb as <- <-; right; left; auto|]. exfalso. rewrite V in La. destruct r as [|y r]; [discriminate|]. rewrite last_map_some in La by discriminate. discriminate.
Qed.

(** ** Without axis *)
Lemma volumes_ok s qs n : sinv s -> (forall q, In q qs -> q < nrep s) -> volumes s qs = Some n <-> exists xs, Forall2 (determined s) qs xs /\ n = total (map volume xs).
Proof.
  intros I. revert n. induction qs as [|q qs IH]; intros n Hq; cbn [volumes].
  - split; [intros E; injection E as <-; exists []; split; [constructor|auto]|]. intros (xs & F & ->). inversion F; auto.
  - assert (Hq0 : q < nrep s) by (apply Hq; left; auto). assert (Hqs : forall x, In x qs -> x < nrep s) by (intros x Hx; apply Hq; right; auto). split.
    + intros E. destruct (root (rp s q)) eqn:R; [discriminate|]. destruct (all_some (values s (pre (rp s q)))) as [x|] eqn:V; [|discriminate]. destruct (volumes s qs) as [m|] eqn:Em; [|discriminate]. injection E as <-. destruct (proj1 (IH m Hqs) eq_refl) as (xs & F & ->).
      exists (x :: xs). split; [|auto]. constructor; [|auto]. apply determined_values; auto. split; [auto|]. apply all_some_spec. auto.
    + intros (xs & F & ->). inversion F as [|? x ? xs' D F']; subst. apply determined_values in D as [R V]; auto. rewrite R. apply all_some_spec in V. rewrite V. rewrite (proj2 (IH (total (map volume xs')) Hqs)); [auto|eauto].
Qed.
Definition part (unknown : list nat) (div : Z) (rho : nat -> Z) : Z := match unknown with [u] => (div * rho u)%Z | _ => 0%Z end.
Definition unvalued (s : shst) (u : nat) : bool := is_none (value (us s) u).
Lemma volume_split s l rho : sinv s -> (forall u, In u l -> live (us s) u) -> sat (us s) rho -> volume (map rho l) = (volume (known (values s l)) * volume (map rho (filter (unvalued s) l)))%Z.
Proof.
  intros I HL Hs. induction l as [|u l IH]; [auto|]. specialize (IH ltac:(intros x Hx; apply HL; right; auto)). cbn [map filter values known]. change (map (value (us s)) l) with (values s l). unfold unvalued at 1. change (volume (rho u :: map rho l)) with (rho u * volume (map rho l))%Z. destruct (value (us s) u) as [z|] eqn:E; cbn [is_none].
  - assert (Ez : rho u = z) by (eapply value_sat; [apply I|apply HL; left; auto|exact E|auto]). rewrite Ez, IH. change (volume (z :: known (values s l))) with (z * volume (known (values s l)))%Z. ring.
  - cbn [map]. change (volume (rho u :: map rho (filter (unvalued s) l))) with (rho u * volume (map rho (filter (unvalued s) l)))%Z. rewrite IH. ring.
Qed.
Lemma known_in z l : In z (known l) -> In (Some z) l.
Proof. induction l as [|[y|] l IH]; cbn; auto. intros [->|H]; auto. Qed.
Lemma values_in s l z rho : sinv s -> (forall u, In u l -> live (us s) u) -> sat (us s) rho -> In (Some z) (values s l) -> In z (map rho l).
Proof. intros I HL Hs H. apply in_map_iff in H as (u & E & Hu). apply in_map_iff. exists u. split; [|auto]. eapply value_sat; [apply I|apply HL; auto|exact E|auto]. Qed.
Lemma volume_zero l : volume l = 0%Z -> In 0%Z l.
Proof. induction l as [|x l IH]; cbn [volume fold_right]; [lia|]. fold (volume l). intros H. apply Z.mul_eq_0 in H as [->|H]; [left; auto|right; auto]. Qed.
Lemma missing_ok s qs : forall unknown div sub u' d' b', sinv s -> (forall q, In q qs -> q < nrep s) -> length unknown <= 1 -> missing s qs unknown div sub = Some (u', d', b') -> (unknown = [] -> div = 1%Z) ->
  length u' <= 1 /\ (u' = [] -> unknown = []) /\
  (forall u, In u u' -> In u unknown \/ (exists q, In q qs /\ In u (pre (rp s q)) /\ value (us s) u = None)) /\ (forall u, In u unknown -> In u u') /\
  (forall q, In q qs -> root (rp s q) = None /\ forall u, In u (pre (rp s q)) -> value (us s) u = None -> In u u') /\
  (forall rho sh, allows s rho sh -> (total (map volume (map sh qs)) + sub + part unknown div rho = b' + part u' d' rho)%Z) /\
  (d' = 0%Z -> div = 0%Z \/ exists q, In q qs /\ forall rho sh, allows s rho sh -> In 0%Z (sh q)).
Proof.
  induction qs as [|q qs IH]; intros unknown div sub u' d' b' I Hq Lu E Hd; cbn [missing] in E.
  - injection E as <- <- <-. split; [auto|]. split; [auto|]. split; [auto|]. split; [auto|]. split; [intros q []|]. split; [intros rho sh _; cbn; lia|auto].
  - assert (Hq0 : q < nrep s) by (apply Hq; left; auto). assert (Hqs : forall x, In x qs -> x < nrep s) by (intros x Hx; apply Hq; right; auto). destruct (root (rp s q)) eqn:R; [discriminate|]. set (l := pre (rp s q)) in *. assert (HL : forall u, In u l -> live (us s) u) by (intros; eapply pre_live; eauto).
    assert (Vs : forall rho sh, allows s rho sh -> volume (sh q) = (volume (known (values s l)) * volume (map rho (filter (unvalued s) l)))%Z) by (intros rho sh A; rewrite (plain_sh s q rho sh I Hq0 R A); apply volume_split; auto; apply A).
    assert (Zk : volume (known (values s l)) = 0%Z -> forall rho sh, allows s rho sh -> In 0%Z (sh q)) by (intros Z0 rho sh A; rewrite (plain_sh s q rho sh I Hq0 R A); apply (values_in s); auto; [apply A|]; apply known_in, volume_zero; auto).
    assert (Fin : forall u, In u l -> value (us s) u = None -> In u (filter (unvalued s) l)) by (intros u Hu V; apply filter_In; unfold unvalued; rewrite V; auto).
    change (fun u : nat => is_none (value (us s) u)) with (unvalued s) in E. change (prodz (known (values s l))) with (volume (known (values s l))) in E. destruct (1 <? length (unknown ++ filter (unvalued s) l)) eqn:E1; [discriminate|]. apply Nat.ltb_ge in E1. rewrite app_length in E1.
    destruct (filter (unvalued s) l) as [|u fl] eqn:Ef.
    + rewrite app_nil_r in E. destruct (IH _ _ _ _ _ _ I Hqs Lu E Hd) as (H1 & H2 & H3 & H4 & H5 & H6 & H7). split; [auto|]. split; [auto|]. split; [intros u Hu; destruct (H3 u Hu) as [X|(q' & X & Y)]; [auto|right; exists q'; split; [right; auto|auto]]|]. split; [auto|]. split.
      * intros x [<-|Hx]; [split; [auto|intros u Hu V; destruct (Fin u Hu V)]|auto].
      * split; [|intros Z0; destruct (H7 Z0) as [X|(q' & X & Y)]; [auto|right; exists q'; split; [right; auto|auto]]]. intros rho sh A. specialize (H6 rho sh A). cbn [map]. change (total (volume (sh q) :: map volume (map sh qs))) with (volume (sh q) + total (map volume (map sh qs)))%Z. rewrite (Vs rho sh A). change (volume (map rho [])) with 1%Z. lia.
    + cbn [length] in E1. destruct unknown as [|w unknown]; [|cbn in E1; lia]. destruct fl as [|x fl]; [|cbn in E1; lia]. rewrite (Hd eq_refl) in *. cbn [app] in E. destruct (IH [u] _ _ _ _ _ I Hqs ltac:(cbn; lia) E ltac:(discriminate)) as (H1 & H2 & H3 & H4 & H5 & H6 & H7). assert (Hu' : In u u') by (apply H4; left; auto).
      assert (Ui : In u l /\ value (us s) u = None). { assert (X : In u (filter (unvalued s) l)) by (rewrite Ef; left; auto). apply filter_In in X as [X Y]. split; [auto|]. unfold unvalued in Y. destruct (value (us s) u); [discriminate|auto]. }
      split; [auto|]. split; [intros ->; destruct Hu'|]. split; [intros v Hv; right; destruct (H3 v Hv) as [[<-|[]]|(q' & X & Y)]; [exists q; split; [left; auto|auto]|exists q'; split; [right; auto|auto]]|]. split; [intros v []|]. split.
      * intros y [<-|Hy]; [split; [auto|intros v Hv V; destruct (Fin v Hv V) as [<-|[]]; auto]|auto].
      * split.
        -- intros rho sh A. specialize (H6 rho sh A). cbn [map]. change (total (volume (sh q) :: map volume (map sh qs))) with (volume (sh q) + total (map volume (map sh qs)))%Z. rewrite (Vs rho sh A). change (volume (map rho [u])) with (rho u * 1)%Z. cbn [part] in *. lia.
        -- intros Z0. right. destruct (H7 Z0) as [X|(q' & X & Y)]; [exists q; split; [left; auto|apply Zk; lia]|exists q'; split; [right; auto|auto]].
Qed.
Lemma missing_fixed s q1 xs rest : forall unknown div sub, sinv s -> (forall q, In q q1 -> q < nrep s) -> length unknown <= 1 -> Forall2 (determined s) q1 xs -> missing s (q1 ++ rest) unknown div sub = missing s rest unknown div (sub + total (map volume xs)).
Proof.
  intros unknown div sub I Hq Lu F. revert sub. induction F as [|q x q1 xs D F IH]; intros sub; [cbn; f_equal; lia|]. cbn [app missing]. apply determined_values in D as [R V]; [|auto|apply Hq; left; auto]. rewrite R. assert (Fl : filter (unvalued s) (pre (rp s q)) = []).
  { destruct (filter (unvalued s) (pre (rp s q))) as [|u l] eqn:E; [auto|]. exfalso. assert (X : In u (filter (unvalued s) (pre (rp s q)))) by (rewrite E; left; auto). apply filter_In in X as [X Y]. unfold unvalued in Y. assert (Z0 : In (value (us s) u) (values s (pre (rp s q)))) by (apply in_map; auto). rewrite V in Z0. apply in_map_iff in Z0 as (z & Z0 & _). rewrite <- Z0 in Y. discriminate. }
  change (fun u : nat => is_none (value (us s) u)) with (unvalued s). rewrite Fl, app_nil_r. destruct (1 <? length unknown) eqn:E1; [apply Nat.ltb_lt in E1; lia|]. rewrite IH by (intros y Hy; apply Hq; right; auto). f_equal. rewrite V, known_map. cbn [map]. change (total (volume x :: map volume xs)) with (volume x + total (map volume xs))%Z. change (prodz x) with (volume x). lia.
Qed.
Lemma determined_all s s' P qs : sinv s -> sound_for P s s' -> rp s' = rp s -> (forall q, In q qs -> q < nrep s) -> (forall q, In q qs -> root (rp s q) = None) -> (forall q u, In q qs -> In u (pre (rp s q)) -> exists n, forall rho, sat (us s') rho -> rho u = n) -> exists xs, Forall2 (determined s') qs xs.
Proof.
  intros I S E Hq R H. induction qs as [|q qs IH]; [exists []; constructor|]. destruct IH as (xs & F); [intros; apply Hq; right; auto|intros; apply R; right; auto|intros x u Hx; apply H; right; auto|]. assert (I' : sinv s') by apply S. assert (N : nrep s' = nrep s) by apply S.
  destruct (sat_exists (us s') (s_inv _ I')) as (r0 & Hs0). exists (map r0 (pre (rp s q)) :: xs). constructor; [|auto]. intros rho sh A. rewrite (plain_sh s' q rho sh I' ltac:(rewrite N; apply Hq; left; auto) ltac:(rewrite E; apply R; left; auto) A). rewrite E. apply map_ext_in. intros u Hu. destruct (H q u) as (n & Hn); [left; auto|auto|]. rewrite (Hn r0 Hs0). apply Hn. apply A.
Qed.
Lemma determined_sound P s s' q x : sound_for P s s' -> determined s q x -> determined s' q x.
Proof. intros (_ & _ & _ & _ & B) D rho sh A. apply (D rho). auto. Qed.
Lemma Forall2_weaken {A B} (R R' : A -> B -> Prop) l m : (forall x y, R x y -> R' x y) -> Forall2 R l m -> Forall2 R' l m.
Proof. induction 2; constructor; auto. Qed.
Lemma concat_flat_ok s qs qo (J := fun sh => joins_flat (map sh qs) (sh qo)) : sinv s -> (forall q, In q qs -> q < nrep s) -> qo < nrep s ->
  match concat_flat qs qo s with
  | (s', Ok r) => sound_for J s s' /\ rank 1 s' qo /\ (r = true <-> (exists xs, Forall2 (determined s') qs xs) /\ exists y, determined s' qo y) /\
      (forall xs, Forall2 (determined s) qs xs -> (forall y, exists rho sh d, allows s rho sh /\ sh qo = [d] /\ d <> y) -> determined s' qo [total (map volume xs)]) /\
      (forall n q1 q q2 xs1 xs2 a b, qs = q1 ++ q :: q2 -> determined s qo [n] -> Forall2 (determined s) q1 xs1 -> Forall2 (determined s) q2 xs2 -> (forall rho sh, allows s rho sh -> exists d, sh q = a ++ d :: b) -> (forall x, ~ determined s q x) ->
        determined s' q (a ++ ((n - total (map volume (xs1 ++ xs2))) / volume (a ++ b))%Z :: b))
  | (_, Err e) => (e = ValueError /\ excludes J s) \/ (e = ZeroDivisionError /\ (exists q, In q qs /\ forall rho sh, allows s rho sh -> length (sh qo) = 1 -> In 0%Z (sh q)) /\ (exists n, forall rho sh d, allows s rho sh -> sh qo = [d] -> d = n) /\
      (forall n q1 q q2 xs1 xs2 a b, qs = q1 ++ q :: q2 -> determined s qo [n] -> Forall2 (determined s) q1 xs1 -> Forall2 (determined s) q2 xs2 -> (forall rho sh, allows s rho sh -> exists d, sh q = a ++ d :: b) -> (forall x, ~ determined s q x) -> volume (a ++ b) = 0%Z))
  end.
Proof.
  intros I Hq Ho. set (P1 := fun sh : nat -> list Z => length (sh qo) = 1). assert (JP : forall sh, J sh -> P1 sh) by (intros sh Hj; unfold J, joins_flat in Hj; unfold P1; rewrite Hj; auto).
  assert (M := match_list P1 _ (do u <- new_dim None; hret [u]) s qo I Ho (makes_dim None s (s_inv _ I))). lapply M; [clear M; intros M|]. 2: { intros rho tau sh _ _ Hp. unfold P1 in Hp. destruct (sh qo) as [|y [|z l]]; try discriminate. exists y. split; [auto|exact Logic.I]. }
  unfold concat_flat. unfold hbind at 1. destruct ((do l <- (do u <- new_dim None; hret [u]); inner_match qo (mkshape l None [])) s) as [s1 [[]|e]].
  2: { left. destruct M as [-> M]. split; [auto|]. intros rho sh A Hj. apply (M rho sh A). auto. }
  destruct M as [S1 M2]. assert (I1 : sinv s1) by apply S1. assert (N1 : nrep s1 = nrep s) by apply S1. assert (SJ : sound_for J s s1) by (eapply sound_for_weaken; [exact S1|exact JP]). assert (Rk : rank 1 s1 qo) by (intros rho sh A; destruct (M2 rho sh A) as (y & -> & _); auto).
  destruct (rank_plain 1 s1 qo I1 ltac:(lia) Rk) as [Ro Lo]. destruct (pre (rp s1 qo)) as [|o [|? ?]] eqn:Eo; try discriminate. assert (So : forall rho sh, allows s1 rho sh -> sh qo = [rho o]) by (intros rho sh A; rewrite (plain_sh s1 qo rho sh I1 ltac:(lia) Ro A), Eo; auto).
  assert (Lvo : live (us s1) o) by (apply (pre_live s1 qo); auto; [lia|rewrite Eo; left; auto]). assert (Hq1 : forall q, In q qs -> q < nrep s1) by (intros; rewrite N1; auto).
  assert (Dn : forall n, determined s qo [n] -> value (us s1) o = Some n). { intros n D. apply value_complete; [apply I1|auto|]. intros rho Hs. assert (A := allows_self s1 rho (fun _ => []) Hs). assert (X := So rho _ A). rewrite (D rho _ (proj2 (proj2 (proj2 (proj2 S1))) rho _ A)) in X. injection X; auto. }
  destruct (value (us s1) o) as [n|] eqn:Vo.
  - assert (Fo : forall rho, sat (us s1) rho -> rho o = n) by (intros rho Hs; eapply value_sat; [apply I1|exact Lvo|exact Vo|auto]). assert (Do : determined s1 qo [n]) by (intros rho sh A; rewrite (So rho sh A), (Fo rho (proj1 A)); auto).
    assert (NoFw : forall (C : Prop), (forall y, exists rho sh d, allows s rho sh /\ sh qo = [d] /\ d <> y) -> C). { intros C H. exfalso. destruct (H n) as (rho & sh & d & A & Ed & Nd). destruct S1 as (_ & _ & _ & F & _). destruct (F rho sh A ltac:(unfold P1; rewrite Ed; auto)) as (r' & _ & A'). rewrite (Do r' sh A') in Ed. congruence. }
    assert (Bw : forall q1 q q2 xs1 xs2 a b, qs = q1 ++ q :: q2 -> determined s qo [n] -> Forall2 (determined s) q1 xs1 -> Forall2 (determined s) q2 xs2 -> (forall rho sh, allows s rho sh -> exists d, sh q = a ++ d :: b) -> (forall x, ~ determined s q x) ->
      exists w, missing s1 qs [] 1 0 = Some ([w], volume (a ++ b), total (map volume (xs1 ++ xs2))) /\ forall rho sh, allows s1 rho sh -> sh q = a ++ rho w :: b).
    { intros q1 q q2 xs1 xs2 a b Eq D F1 F2 Sh Nd.
        assert (Hq0 : q < nrep s1) by (apply Hq1; rewrite Eq; apply in_app_iff; right; left; auto). assert (D1 : Forall2 (determined s1) q1 xs1) by (eapply Forall2_weaken; [|exact F1]; intros; eapply determined_sound; eauto). assert (D2 : Forall2 (determined s1) q2 xs2) by (eapply Forall2_weaken; [|exact F2]; intros; eapply determined_sound; eauto).
        assert (Hin1 : forall x, In x q1 -> x < nrep s1) by (intros x Hx; apply Hq1; rewrite Eq; apply in_app_iff; auto). assert (Hin2 : forall x, In x q2 -> x < nrep s1) by (intros x Hx; apply Hq1; rewrite Eq; apply in_app_iff; right; right; auto).
        assert (Sh1 : forall rho sh, allows s1 rho sh -> exists d, sh q = a ++ d :: b) by (intros rho sh A; apply (Sh rho); apply S1; auto). assert (R1 : root (rp s1 q) = None). { apply (rank_plain (length (a ++ 0%Z :: b)) s1 q); auto. intros rho sh A. destruct (Sh1 rho sh A) as (d & ->). rewrite !app_length. auto. }
        assert (Nd1 : forall x, ~ determined s1 q x). { intros x Dx. apply (Nd x). intros rho sh A. destruct S1 as (_ & _ & _ & F & _). destruct (F rho sh A) as (r' & _ & A'); [unfold P1; rewrite (D rho sh A); auto|]. apply (Dx r' sh A'). }
        rewrite Eq. rewrite (missing_fixed s1 q1 xs1 (q :: q2) [] 1 0 I1 Hin1 ltac:(auto) D1).
        assert (Pq : exists A w B, pre (rp s1 q) = A ++ w :: B /\ length A = length a /\ length B = length b). { destruct (sat_exists (us s1) (s_inv _ I1)) as (r0 & Hs0). destruct (Sh1 r0 _ (allows_self s1 r0 (fun _ => []) Hs0)) as (d & Ed). rewrite den_plain_suffix in Ed by auto. apply (f_equal (@length _)) in Ed. rewrite map_length, app_length in Ed. cbn in Ed. exists (firstn (length a) (pre (rp s1 q))). destruct (skipn (length a) (pre (rp s1 q))) as [|w B] eqn:Es; [apply (f_equal (@length _)) in Es; rewrite skipn_length in Es; cbn in Es; lia|]. exists w, B. rewrite <- Es, firstn_skipn. split; [auto|]. rewrite firstn_length. split; [lia|]. apply (f_equal (@length _)) in Es. rewrite skipn_length in Es. cbn in Es. lia. }
        destruct Pq as (A & w & B & Ep & LA & LB).
        assert (Mab : forall rho sh, allows s1 rho sh -> map rho A = a /\ map rho B = b /\ sh q = a ++ rho w :: b). { intros rho sh Al. destruct (Sh1 rho sh Al) as (d & Ed). assert (Y := plain_sh s1 q rho sh I1 Hq0 R1 Al). rewrite Ed, Ep, map_app in Y. cbn [map] in Y. assert (Z1 : at_axis (Z.of_nat (length a)) a b) by (left; auto). assert (Z2 : at_axis (Z.of_nat (length a)) (map rho A) (map rho B)) by (left; rewrite map_length, LA; auto). destruct (axis_unique _ _ _ _ _ _ _ Z1 Z2 Y) as (<- & <- & <-). auto. }
        assert (Lq : forall v, In v (pre (rp s1 q)) -> live (us s1) v) by (intros; eapply pre_live; eauto).
        assert (VA : values s1 A = map Some a) by (apply values_complete; [auto|intros v Hv; apply Lq; rewrite Ep; apply in_app_iff; auto|intros rho Hs; apply (Mab rho _ (allows_self s1 rho (fun _ => []) Hs))]). assert (VB : values s1 B = map Some b) by (apply values_complete; [auto|intros v Hv; apply Lq; rewrite Ep; apply in_app_iff; right; right; auto|intros rho Hs; apply (Mab rho _ (allows_self s1 rho (fun _ => []) Hs))]).
        assert (Vw : value (us s1) w = None). { destruct (value (us s1) w) as [z|] eqn:V; [|auto]. exfalso. apply (Nd1 (a ++ z :: b)). intros rho sh Al. destruct (Mab rho sh Al) as (_ & _ & ->). assert (Ez : rho w = z) by (eapply value_sat; [apply I1|apply Lq; rewrite Ep; apply in_app_iff; right; left; auto|exact V|apply Al]). rewrite Ez. auto. }
        assert (Nf : forall l r, values s1 l = map Some r -> filter (unvalued s1) l = []). { clear. induction l as [|v l IH]; intros [|z r] E; try discriminate; [auto|]. cbn [values map] in E. injection E as E1 E2. cbn [filter]. unfold unvalued at 1. rewrite E1. cbn. eapply IH. exact E2. }
        assert (Uw : unvalued s1 w = true) by (unfold unvalued; rewrite Vw; auto). cbn [missing]. rewrite R1. change (fun u : nat => is_none (value (us s1) u)) with (unvalued s1). rewrite Ep. rewrite filter_app. cbn [filter]. rewrite (Nf A a VA), (Nf B b VB), Uw. cbn [app length Nat.ltb Nat.leb].
        unfold values. rewrite map_app. cbn [map]. change (map (value (us s1)) A) with (values s1 A). change (map (value (us s1)) B) with (values s1 B). rewrite VA, VB, Vw, known_app. cbn [known]. rewrite !known_map.
        assert (Y := fun d z => missing_fixed s1 q2 xs2 [] [w] d z I1 Hin2 ltac:(auto) D2). rewrite app_nil_r in Y. rewrite Y. cbn [missing]. exists w. split; [|intros rho sh Al; apply (Mab rho sh Al)]. change (prodz (a ++ b)) with (volume (a ++ b)). rewrite map_app, total_app. rewrite Z.mul_1_l, Z.add_0_l. auto. }
    destruct (missing s1 qs [] 1 0) as [[[u' d'] b']|] eqn:Em.
    + destruct (missing_ok s1 qs [] 1 0 u' d' b' I1 Hq1 ltac:(auto) Em ltac:(auto)) as (H1 & _ & H3 & _ & H5 & H6 & H7). destruct u' as [|u [|? ?]]; [| |cbn in H1; lia].
      * split; [auto|]. split; [auto|]. assert (Da : exists xs, Forall2 (determined s1) qs xs). { apply (determined_all s1 s1 J qs I1 (sound_for_refl _ _ I1) eq_refl Hq1); [intros q Hx; apply H5; auto|]. intros q u Hx Hu. destruct (value (us s1) u) as [z|] eqn:V; [exists z; intros rho Hs; eapply value_sat; [apply I1|eapply pre_live; eauto|exact V|auto]|]. destruct (proj2 (H5 q Hx) u Hu V). }
        split; [split; [intros _; split; [auto|eauto]|auto]|]. split; [intros xs _ Hop; apply NoFw; auto|]. intros m q1 q q2 xs1 xs2 a b Eq D F1 F2 Sh Nd. exfalso. destruct Da as (xs & Da). rewrite Eq in Da. apply Forall2_app_inv_l in Da as (y1 & y2 & _ & Da & _). inversion Da as [|? x ? ? Dx _]; subst.
        apply (Nd x). intros rho sh A. destruct S1 as (_ & _ & _ & F & _). destruct (F rho sh A) as (r' & _ & A'); [unfold P1; rewrite (D rho sh A); auto|]. apply (Dx r' sh A').
      * destruct (H3 u ltac:(left; auto)) as [[]|(qu & Hqu & Hu & Vu)]. assert (Lu : live (us s1) u) by (apply (pre_live s1 qu); auto). destruct (Z.eqb_spec d' 0) as [Z0|Z0].
        { right. destruct S1 as (_ & _ & _ & F & _). split; [auto|]. split.
          - destruct (H7 Z0) as [X|(q & Hx & X)]; [discriminate|]. exists q. split; [auto|]. intros rho sh A L. destruct (F rho sh A L) as (r' & _ & A'). apply (X r' sh A').
          - split; [|intros m q1 q q2 xs1 xs2 a b Eq D F1 F2 Sh Nd; assert (Em' : m = n) by (specialize (Dn m D); congruence); subst m; destruct (Bw q1 q q2 xs1 xs2 a b Eq D F1 F2 Sh Nd) as (w & Ew & _); injection Ew as _ Ed _; congruence].
            exists n. intros rho sh d A Ed. destruct (F rho sh A ltac:(unfold P1; rewrite Ed; auto)) as (r' & _ & A'). rewrite (Do r' sh A') in Ed. congruence. }
        assert (X := set_one s1 u ((n - b') / d')%Z J I1 Lu). lapply X; [clear X; intros X|]. 2: { intros rho sh A Hj. specialize (H6 rho sh A). cbn [part] in H6. unfold J, joins_flat in Hj. rewrite (Do rho sh A) in Hj. injection Hj as Hj. rewrite <- Hj in H6. replace (n - b')%Z with (rho u * d')%Z by lia. rewrite Z.div_mul; auto. }
        unfold set_dim. unfold hbind at 1. destruct ((do _ <- lift (update_possible_values u (Some [((n - b') / d')%Z])); hret tt) s1) as [s2 [[]|e]]; [|left; destruct X as [-> X]; split; [auto|eapply excludes_back; eauto]]. destruct X as (X1 & X2 & X3). unfold hret.
        assert (Ss : sound_for J s s2) by (eapply sound_for_trans; eauto). split; [auto|]. split; [apply (rank_kept 1 J s1 s2 qo X1 Rk)|].
        assert (Da : exists xs, Forall2 (determined s2) qs xs). { apply (determined_all s1 s2 J qs I1 X1 X2 Hq1); [intros q Hx; apply H5; auto|]. intros q v Hx Hv. destruct (value (us s1) v) as [z|] eqn:V; [exists z; intros rho Hs; eapply value_sat; [apply I1|eapply pre_live; eauto|exact V|eapply sound_sat; eauto]|]. destruct (proj2 (H5 q Hx) v Hv V) as [<-|[]]. eexists. intros rho Hs. apply (X3 rho _ (allows_self s2 rho (fun _ => []) Hs)). }
        split; [split; [intros _; split; [auto|exists [n]; apply (determined_sound J s1 s2 qo [n] X1 Do)]|auto]|]. split; [intros xs _ Hop; apply NoFw; auto|]. intros m q1 q q2 xs1 xs2 a b Eq D F1 F2 Sh Nd. assert (Em' : m = n) by (specialize (Dn m D); congruence). subst m.
        destruct (Bw q1 q q2 xs1 xs2 a b Eq D F1 F2 Sh Nd) as (w & Ew & Hw). injection Ew as <- <- <-. intros rho sh Al. assert (Al1 : allows s1 rho sh) by (apply X1; auto). rewrite (Hw rho sh Al1), (X3 rho sh Al). auto.
    + split; [auto|]. split; [auto|]. split.
      * split; [discriminate|]. intros [(xs & F) _]. exfalso. assert (X := missing_fixed s1 qs xs [] [] 1 0 I1 Hq1 ltac:(auto) F). rewrite app_nil_r, Em in X. discriminate.
      * split; [intros xs _ Hop; apply NoFw; auto|]. intros m q1 q q2 xs1 xs2 a b Eq D F1 F2 Sh Nd. exfalso. assert (Em' : m = n) by (specialize (Dn m D); congruence). subst m. destruct (Bw q1 q q2 xs1 xs2 a b Eq D F1 F2 Sh Nd) as (w & Ew & _). congruence.
  - assert (NoBw : forall (C : Prop) n, determined s qo [n] -> C) by (intros C n D; specialize (Dn n D); congruence). destruct (volumes s1 qs) as [n|] eqn:Ev.
    + destruct (proj1 (volumes_ok s1 qs n I1 Hq1) Ev) as (xs & F & En). assert (X := set_one s1 o n J I1 Lvo). lapply X; [clear X; intros X|].
      2: { intros rho sh A Hj. unfold J, joins_flat in Hj. rewrite (So rho sh A) in Hj. injection Hj as ->. rewrite En. f_equal. f_equal. clear - F A. induction F as [|q x qs xs D _ IH]; cbn [map]; f_equal; auto. apply (D rho sh A). }
      unfold set_dim. unfold hbind at 1. destruct ((do _ <- lift (update_possible_values o (Some [n])); hret tt) s1) as [s2 [[]|e]]; [|left; destruct X as [-> X]; split; [auto|eapply excludes_back; eauto]]. destruct X as (X1 & X2 & X3). unfold hret.
      assert (D2 : determined s2 qo [n]) by (intros rho sh A; rewrite (So rho sh ltac:(apply X1; auto)), (X3 rho sh A); auto). split; [eapply sound_for_trans; eauto|]. split; [apply (rank_kept 1 J s1 s2 qo X1 Rk)|]. split; [split; [intros _; split; [exists xs; eapply Forall2_weaken; [|exact F]; intros; eapply determined_sound; eauto|eauto]|auto]|]. split.
      * intros xs' F' _. assert (Ex : xs' = xs). { destruct (sat_exists (us s1) (s_inv _ I1)) as (r0 & Hs0). assert (A0 := allows_self s1 r0 (fun _ => []) Hs0). assert (A00 : allows s r0 (den s1 r0 (fun _ => []))) by (apply S1; auto). clear - F F' A0 A00. revert xs' F'. induction F as [|q x qs xs D _ IH]; intros xs' F'; inversion F'; subst; [auto|]. f_equal; [|apply IH; auto]. rewrite <- (D _ _ A0). symmetry. match goal with H : determined s q _ |- _ => apply (H _ _ A00) end. }
        subst xs'. rewrite <- En. auto.
      * intros m q1 q q2 xs1 xs2 a b _ D. apply (NoBw _ m D).
    + split; [auto|]. split; [auto|]. split.
      * split; [discriminate|]. intros [(xs & F) _]. exfalso. assert (X := proj2 (volumes_ok s1 qs _ I1 Hq1) (ex_intro _ xs (conj F eq_refl))). congruence.
      * split; [|intros m q1 q q2 xs1 xs2 a b _ D; apply (NoBw _ m D)]. intros xs F _. exfalso. assert (F1 : Forall2 (determined s1) qs xs) by (eapply Forall2_weaken; [|exact F]; intros; eapply determined_sound; eauto). assert (X := proj2 (volumes_ok s1 qs _ I1 Hq1) (ex_intro _ xs (conj F1 eq_refl))). congruence.
Qed.
