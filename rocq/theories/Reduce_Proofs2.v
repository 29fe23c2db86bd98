(** * Reductions: soundness of the steps *)
From Coq Require Import List Arith Lia Bool ZArith.
From Verif Require Import PyBase Uniadic_Model Uniadic_Proofs Uniadic_Props Bcast_Proofs Shape_Model Shape_Proofs Shape_Proofs2 Shape_Proofs3 Shape_Props Reduce_Model Reduce_Spec Reduce_Proofs.
Import ListNotations.
Open Scope list_scope. Open Scope nat_scope. Open Scope shm_scope.

(** ** Steps: new objects, then a unification *)
Definition born (s s1 : shst) : Prop := sinv s1 /\ rp s1 = rp s /\ nrep s1 = nrep s /\ nvar s <= nvar s1 /\ grows (us s) (us s1).
Lemma born_us s u : sinv s -> grows (us s) u -> born s (with_us s u).
Proof. intros I G. split; [apply with_us_grow; auto|]. cbn. auto. Qed.
Lemma born_trans a b c : born a b -> born b c -> born a c.
Proof. intros (I1 & R1 & N1 & V1 & G1) (I2 & R2 & N2 & V2 & G2). split; [auto|]. split; [congruence|]. split; [congruence|]. split; [lia|eapply grows_trans; eauto]. Qed.
Lemma born_refl s : sinv s -> born s s.
Proof. intros I. split; [auto|]. do 3 (split; [auto|]). apply grows_refl, I. Qed.
Lemma born_var s : sinv s -> exists s1, new_variadic s = (s1, Ok (nvar s)) /\ born s s1 /\ us s1 = us s /\ nvar s1 = S (nvar s).
Proof.
  intros I. destruct (new_variadic_ok s I) as (s1 & E & I1 & U & R & N & V). exists s1. split; [auto|]. split; [|auto]. split; [auto|]. split; [auto|]. split; [auto|]. split; [lia|]. rewrite U. apply grows_refl, I.
Qed.
Lemma born_den s s1 rho rho' tau tau' q : sinv s -> born s s1 -> q < nrep s -> agrees (us s) rho rho' -> (forall x, x < nvar s -> tau' x = tau x) -> den s1 rho' tau' q = den s rho tau q.
Proof.
  intros I (I1 & R & _) Hq A T. unfold den. rewrite R. transitivity (den s rho' tau' q); [reflexivity|]. rewrite (den_rho s rho rho' tau' q); auto. apply den_agree; auto.
Qed.

Section Steps.
Variables qi qo : nat.
(** All combinations related by [Rel] survive (with values for new dimensions), and nothing is invented. *)
Definition soundly (s s' : shst) (Rel : list Z -> list Z -> Prop) : Prop :=
  sinv s' /\ nrep s' = nrep s /\ (forall x, live (us s) x -> live (us s') x) /\
  (forall rho tau, sat (us s) rho -> Rel (den s rho tau qi) (den s rho tau qo) ->
     exists rho' tau', agrees (us s) rho rho' /\ sat (us s') rho' /\ forall q, q < nrep s -> den s' rho' tau' q = den s rho tau q) /\
  (forall rho tau', sat (us s') rho -> exists tau, sat (us s) rho /\ forall q, q < nrep s -> den s rho tau q = den s' rho tau' q).
Definition gives (s' : shst) (E : list Z -> list Z -> Prop) : Prop := forall rho tau, sat (us s') rho -> E (den s' rho tau qi) (den s' rho tau qo).
Definition never (s : shst) (Rel : list Z -> list Z -> Prop) : Prop := forall rho tau, sat (us s) rho -> ~ Rel (den s rho tau qi) (den s rho tau qo).
Lemma soundly_refl s Rel : sinv s -> soundly s s Rel.
Proof.
  intros I. split; [auto|]. split; [auto|]. split; [auto|]. split; [intros rho tau Hs _; exists rho, tau; split; [intros x _; auto|auto]|]. intros rho tau Hs. exists tau. auto.
Qed.
Lemma soundly_trans a b c Rel : qi < nrep a -> qo < nrep a -> soundly a b Rel -> soundly b c Rel -> soundly a c Rel.
Proof.
  intros Hi Ho (I1 & N1 & L1 & F1 & B1) (I2 & N2 & L2 & F2 & B2). split; [auto|]. split; [congruence|]. split; [auto|]. split.
  - intros rho tau Hs H. destruct (F1 rho tau Hs H) as (r1 & t1 & A1 & Hs1 & D1). destruct (F2 r1 t1 Hs1) as (r2 & t2 & A2 & Hs2 & D2).
    { rewrite !D1 by auto. auto. }
    exists r2, t2. split; [intros x Hx; rewrite A2 by auto; auto|]. split; [auto|]. intros q Hq. rewrite D2 by lia. auto.
  - intros rho t2 Hs. destruct (B2 rho t2 Hs) as (t1 & Hs1 & D1). destruct (B1 rho t1 Hs1) as (t0 & Hs0 & D0). exists t0. split; [auto|]. intros q Hq. rewrite D0, D1 by lia. auto.
Qed.
Lemma soundly_weaken s s' (Rel Rel' : list Z -> list Z -> Prop) : soundly s s' Rel -> (forall x y, Rel' x y -> Rel x y) -> soundly s s' Rel'.
Proof. intros (I & N & L & F & B) H. split; [auto|]. split; [auto|]. split; [auto|]. split; [|auto]. intros rho tau Hs R. apply F; auto. Qed.
Lemma never_back a b Rel : qi < nrep a -> qo < nrep a -> soundly a b Rel -> never b Rel -> never a Rel.
Proof.
  intros Hi Ho (I & N & L & F & B) H rho tau Hs R. destruct (F rho tau Hs R) as (r1 & t1 & A & Hs1 & D). apply (H r1 t1 Hs1). rewrite !D by auto. auto.
Qed.
Lemma gives_forward s s' E Rel : qi < nrep s -> qo < nrep s -> soundly s s' Rel -> gives s E -> gives s' E.
Proof. intros Hi Ho (I & N & L & F & B) H rho tau Hs. destruct (B rho tau Hs) as (t & Hs0 & D). rewrite <- !D by auto. apply H; auto. Qed.

(** The premise of a unification with newly created parts *)
Definition step_ok (s s1 : shst) (q : nat) (o : shrepr) (Rel : list Z -> list Z -> Prop) : Prop :=
  forall rho tau, sat (us s) rho -> Rel (den s rho tau qi) (den s rho tau qo) ->
  exists rho' tau', agrees (us s) rho rho' /\ (forall x, x < nvar s -> tau' x = tau x) /\ sat (us s1) rho' /\ den s rho tau q = dshape rho' tau' o.
(** What the created dimensions say *)
Lemma infer_step s s1 q o Rel : sinv s -> born s s1 -> q < nrep s -> wf_repr s1 o -> (forall rho, sat (us s1) rho -> sat (us s) rho) -> step_ok s s1 q o Rel ->
  match inner_match q o s1 with
  | (s', Ok _) => soundly s s' Rel /\ (yields s1 s' (fun _ _ => True) /\ forall x, live (us s1) x -> live (us s') x) /\ (root o = None -> yields s1 s' (Ceq s1 q o))
  | (_, Err e) => e = ValueError /\ never s Rel
  end.
Proof.
  intros I B Hq W Mono Ok. assert (I1 : sinv s1) by apply B. assert (N : nrep s1 = nrep s) by apply B. assert (O := inner_match_ok s1 q o I1 ltac:(lia) W). unfold outcome in O.
  assert (Ext : forall rho tau, sat (us s) rho -> Rel (den s rho tau qi) (den s rho tau qo) -> exists rho' tau', agrees (us s) rho rho' /\ (forall x, x < nvar s -> tau' x = tau x) /\ sat (us s1) rho' /\ Ceq s1 q o rho' tau').
  { intros rho tau Hs R. destruct (Ok rho tau Hs R) as (r & t & A & T & Hs1 & E). exists r, t. split; [auto|]. split; [auto|]. split; [auto|]. unfold Ceq. rewrite <- E. apply born_den; auto. }
  destruct (inner_match q o s1) as [s' [[]|e]]; cbn [fst snd] in O.
  - destruct O as ((X1 & X2 & X3 & X4) & K & Y). assert (Yt : yields s1 s' (fun _ _ => True)). { destruct Y as [Y|(_ & Y & _)]; [eapply yields_weaken; [exact Y|auto]|auto]. }
    split; [|split; [split; [auto|apply X4]|]].
    + split; [auto|]. split; [lia|]. split; [intros x Hx; destruct B as (_ & _ & _ & _ & G); apply X4, G; auto|]. split.
      * intros rho tau Hs R. destruct (Ext rho tau Hs R) as (r & t & A & T & Hs1 & C). destruct (K r t Hs1 C) as (t' & Hs' & _ & D). exists r, t'. split; [auto|]. split; [auto|].
        intros x Hx. rewrite D by lia. apply born_den; auto.
      * intros rho t' Hs. destruct (Yt rho t' Hs) as (t & Hs1 & D & _). exists t. split; [auto|]. intros x Hx. rewrite <- D by lia. symmetry. apply born_den; auto. intros y _; auto.
    + intros R. destruct Y as [Y|((_ & F & _) & _)]; [auto|congruence].
  - destruct O as [-> O]. split; [auto|]. intros rho tau Hs R. destruct (Ext rho tau Hs R) as (r & t & _ & _ & Hs1 & C). apply (O r t Hs1 C).
Qed.
End Steps.

(** ** Roots and lengths after a unification *)
Lemma update_us l1 l2 s s' r : inv (us s) -> (forall u, In u l1 -> live (us s) u) -> (forall u, In u l2 -> live (us s) u) -> update_uniadics l1 l2 s = (s', r) -> exists u', s' = with_us s u' /\ evolves (us s) u'.
Proof. intros I H1 H2 E. destruct (umatch_ok l1 l2 s I H1 H2) as (u' & r' & E' & V & _). exists u'. split; [congruence|auto]. Qed.
Lemma wf_live s r : wf_repr s r -> (forall u, In u (pre r) -> live (us s) u) /\ (forall u, In u (suf r) -> live (us s) u).
Proof. intros (W & _). split; intros u Hu; apply W, in_app_iff; auto. Qed.
(** Unification with something at least as long on both sides *)
Lemma match_longer s q v P w S : sinv s -> q < nrep s -> root (rp s q) = Some v -> wf_repr s (mkshape P (Some w) S) -> v <> w -> length (pre (rp s q)) <= length P -> length (suf (rp s q)) <= length S ->
  match inner_match q (mkshape P (Some w) S) s with
  | (s', Ok _) => length (pre (rp s' q)) = length P /\ length (suf (rp s' q)) = length S /\
      (exists x, root (rp s' q) = Some x /\ (x = v \/ x = w)) /\
      (forall q', q' < nrep s -> root (rp s q') <> Some v -> root (rp s q') <> Some w -> root (rp s' q') = root (rp s q')) /\
      (forall q', q' < nrep s -> root (rp s q') = Some v -> root (rp s' q') <> None)
  | (_, Err e) => True
  end.
Proof.
  intros I Hq Rv W Ne Lp Ls. assert (Ws := s_repr _ I q Hq). destruct (wf_live s _ Ws) as [Ws1 Ws2]. destruct (wf_live s _ W) as [Wo1 Wo2]. cbn in Wo1, Wo2.
  unfold inner_match. cbn [root pre suf]. unfold hbind.
  destruct (update_uniadics (pre (rp s q)) P s) as [s1 [[]|e]] eqn:E1; [|exact Logic.I]. apply update_us in E1 as (u1 & -> & V1); [|apply I|auto|auto].
  assert (R : reversed (rp s q) = rev (suf (rp s q))) by (unfold reversed; rewrite Rv; auto). rewrite R, Rv.
  destruct (update_uniadics (rev (suf (rp s q))) (rev S) (with_us s u1)) as [s2 [[]|e]] eqn:E2; [|auto].
  apply update_us in E2 as (u2 & -> & V2); [|apply V1|intros u Hu; rewrite <- in_rev in Hu; apply V1, Ws2; auto|intros u Hu; rewrite <- in_rev in Hu; apply V1, Wo2; auto].
  destruct (Nat.eqb_spec v w) as [|_]; [congruence|]. unfold shlen; cbn [pre suf].
  destruct (Nat.ltb_spec (length P) (length (pre (rp s q)))); [lia|]. destruct (Nat.ltb_spec (length S) (length (suf (rp s q)))); [lia|]. cbn [andb orb]. rewrite andb_false_r. cbn [orb].
  set (removed_new := if _ <=? _ then _ else _). assert (V : evolves (us s) u2) by (eapply evolves_trans; eauto).
  assert (I2 : sinv (with_us s u2)) by (apply with_us_sinv; auto).
  assert (Lw : w < nvar s). { destruct W as (_ & _ & W3). apply W3; auto. } assert (Lv : v < nvar s). { destruct Ws as (_ & _ & W3). apply W3; auto. }
  assert (RP : length (pre (rp s q)) + length (remainings (pre (rp s q)) P) = length P). { destruct (Nat.eq_dec (length (pre (rp s q))) (length P)) as [Eq|Nq]; [rewrite rem_pre by lia|rewrite rem_pre' by lia]; rewrite skipn_length; lia. }
  assert (RS : length (rev (remainings (rev (suf (rp s q))) (rev S))) + length (suf (rp s q)) = length S).
  { destruct (Nat.eq_dec (length (suf (rp s q))) (length S)) as [Eq|Nq]; [rewrite rem_suf by lia|rewrite rem_suf' by lia]; rewrite firstn_length; lia. }
  assert (LV : forall u, In u (remainings (pre (rp s q)) P ++ rev (remainings (rev (suf (rp s q))) (rev S))) -> live u2 u).
  { intros u Hu. apply V. apply in_app_iff in Hu as [Hu|Hu].
    - unfold remainings in Hu. destruct (_ <? _); apply in_skipn in Hu; auto.
    - rewrite <- in_rev in Hu. unfold remainings in Hu. destruct (_ <? _); apply in_skipn in Hu; rewrite <- in_rev in Hu; auto. }
  subst removed_new. destruct (Nat.leb_spec (length P + length S) (length (pre (rp s q)) + length (suf (rp s q)))) as [Le|Gt]; cbv beta iota; rewrite ?andb_false_l, ?andb_false_r; cbn [orb]; change (with_us (with_us s u1) u2) with (with_us s u2).
  - destruct (var_match_ok (with_us s u2) w (Some v) (remainings (pre (rp s q)) P) (rev (remainings (rev (suf (rp s q))) (rev S))) I2) as (s' & E & Rp);
      [congruence|intros x Hx; injection Hx as <-; auto|discriminate|auto|]. rewrite E. destruct Rp as (I' & _ & _ & _ & Rp). cbn [rp nrep with_us] in Rp. rewrite (Rp q Hq), Rv. cbn [eqb].
    rewrite eqb_some_false by auto. split; [lia|]. split; [lia|]. split; [exists v; auto|]. split; [intros q' Hq' N1 N2; rewrite (Rp q' Hq'); destruct (eqb (root (rp s q')) (Some w)) eqn:E'; [|auto]; apply (proj1 (eqb_eq _ _)) in E'; congruence|].
    intros q' Hq' R'. rewrite (Rp q' Hq'), R', eqb_some_false by auto. congruence.
  - destruct (var_match_ok (with_us s u2) v (Some w) (remainings (pre (rp s q)) P) (rev (remainings (rev (suf (rp s q))) (rev S))) I2) as (s' & E & Rp);
      [congruence|intros x Hx; injection Hx as <-; auto|discriminate|auto|]. rewrite E. destruct Rp as (I' & _ & _ & _ & Rp). cbn [rp nrep with_us] in Rp. rewrite (Rp q Hq), Rv. rewrite eqb_refl. cbn [moved pre suf root].
    rewrite !app_length. split; [lia|]. split; [lia|]. split; [exists w; auto|]. split; [intros q' Hq' N1 N2; rewrite (Rp q' Hq'); destruct (eqb (root (rp s q')) (Some v)) eqn:E'; [|auto]; apply (proj1 (eqb_eq _ _)) in E'; congruence|].
    intros q' Hq' R'. rewrite (Rp q' Hq'), R', eqb_refl. cbn. congruence.
Qed.

(** Only the variadics involved change. *)
Section Roots.
Variables (s0 : shst) (v w : nat).
Hypothesis I0 : sinv s0.
Definition known_var (x : nat) : Prop := x = v \/ x = w \/ nvar s0 <= x.
Definition tame (s : shst) : Prop := sinv s /\ nrep s = nrep s0 /\ nvar s0 <= nvar s /\ (forall x, live (us s0) x -> live (us s) x) /\ forall q, q < nrep s0 ->
  (root (rp s0 q) = Some v \/ root (rp s0 q) = Some w -> exists x, root (rp s q) = Some x /\ known_var x) /\
  (root (rp s0 q) <> Some v -> root (rp s0 q) <> Some w -> root (rp s q) = root (rp s0 q)).
Definition tamely {A} (m : shm A) : Prop := forall s, tame s -> match m s with (s', Ok _) => tame s' | (_, Err _) => True end.
Lemma tamely_ret {A} (a : A) : tamely (hret a). Proof. intros s T. exact T. Qed.
Lemma tamely_bind {A B} (m : shm A) (f : A -> shm B) : tamely m -> (forall a, tamely (f a)) -> tamely (hbind m f).
Proof. intros Hm Hf s T. unfold hbind. specialize (Hm s T). destruct (m s) as [s1 [a|e]]; auto. apply Hf. auto. Qed.
Lemma tame_replace s a b np ns : tame s -> known_var a -> known_var b -> a <> b -> b < nvar s -> (forall u, In u (np ++ ns) -> live (us s0) u) ->
  match var_match a (Some b) np ns s with (s', Ok _) => tame s' | (_, Err _) => True end.
Proof.
  intros (I & N & V & L & T) Ka Kb Ne Lb Lv. destruct (var_match_ok s a (Some b) np ns I) as (s' & E & I' & S' & V' & N' & Rp); [congruence|intros x Hx; injection Hx as <-; auto|discriminate|auto|].
  rewrite E. split; [auto|]. split; [congruence|]. split; [lia|]. split; [intros x Hx; apply S', L; auto|]. intros q Hq. rewrite (Rp q) by lia. destruct (T q Hq) as [T1 T2].
  destruct (eqb (root (rp s q)) (Some a)) eqn:Ea; [|auto]. apply (proj1 (eqb_eq _ _)) in Ea. cbn [moved root]. split; [intros _; exists b; auto|].
  intros H1 H2. exfalso. specialize (T2 H1 H2). rewrite Ea in T2. assert (W := s_repr _ I0 q Hq). destruct W as (_ & _ & W). specialize (W a (eq_sym T2)). destruct Ka as [->|[->|Ka]]; [congruence|congruence|lia].
Qed.
Lemma tame_fresh a np ns : known_var a -> a < nvar s0 -> (forall u, In u (np ++ ns) -> live (us s0) u) -> tamely (do z <- new_variadic; var_match a (Some z) np ns).
Proof.
  intros Ka La Lv s (I & N & V & L & T). destruct (new_variadic_ok s I) as (s1 & E & I1 & U & R & N1 & V1). unfold hbind. rewrite E. apply tame_replace; auto; try lia.
  - split; [auto|]. split; [congruence|]. split; [lia|]. split; [intros x Hx; rewrite U; auto|]. rewrite R. auto.
  - right; right. lia.
Qed.
Lemma tame_handle main other RP RS : known_var main -> known_var other -> main < nvar s0 -> other < nvar s0 -> (forall u, In u (RP ++ RS) -> live (us s0) u) -> tamely (handle main other RP RS).
Proof.
  intros Km Ko Lm Lo Lv. unfold handle. assert (L1 : forall n u, In u (skipn n RS) -> live (us s0) u). { intros n u Hu. apply in_skipn in Hu. apply Lv, in_app_iff; auto. }
  assert (L2 : forall n u, In u (firstn n RP) -> live (us s0) u). { intros n u Hu. apply in_firstn in Hu. apply Lv, in_app_iff; auto. }
  apply tamely_bind; [intros s T; exact T|]. intros [[|idx]|]; [apply tamely_ret| |].
  - set (a := skipn _ RS). set (b := firstn _ RP). intros s T.
    assert (T1 := tame_fresh main [] a Km Lm ltac:(cbn; apply L1) s T). unfold hbind in T1 |- *. destruct (new_variadic s) as [s1 [z|e]]; auto. destruct (var_match main (Some z) [] a s1) as [s2 [[]|e]]; auto.
    assert (T2 := tame_fresh other b [] Ko Lo ltac:(rewrite app_nil_r; apply L2) s2 T1). unfold hbind in T2. destruct (new_variadic s2) as [s3 [z2|e]]; auto. destruct (var_match other (Some z2) b [] s3) as [s4 [[]|e]]; auto.
  - intros s T. assert (T1 := tame_fresh main [] RS Km Lm ltac:(intros u Hu; apply Lv, in_app_iff; auto) s T). unfold hbind in T1 |- *. destruct (new_variadic_ok s (proj1 T)) as (s1 & E & I1 & U & R & N1 & V1). rewrite E in *.
    destruct (var_match_ok s1 main (Some (nvar s)) [] RS I1) as (s2 & E2 & I2 & S2 & V2 & N2 & Rp).
    { intros H. injection H as H. destruct T as (_ & _ & V & _). lia. } { intros x Hx. injection Hx as <-. lia. } { discriminate. } { intros u Hu. cbn in Hu. rewrite U. apply T. apply Lv, in_app_iff; auto. }
    rewrite E2 in *. assert (Hs := T). destruct Hs as (_ & _ & V & _).
    assert (T2 := tame_replace s2 other (nvar s) RP [] T1 Ko ltac:(right; right; lia) ltac:(lia) ltac:(lia) ltac:(rewrite app_nil_r; intros u Hu; apply Lv, in_app_iff; auto)).
    destruct (var_match other (Some (nvar s)) RP [] s2) as [s4 [[]|e]]; auto.
Qed.
End Roots.
Lemma match_roots s q v o w : sinv s -> q < nrep s -> root (rp s q) = Some v -> root o = Some w -> wf_repr s o -> v <> w ->
  match inner_match q o s with
  | (s', Ok _) => (exists x, root (rp s' q) = Some x /\ (x = v \/ x = w \/ nvar s <= x)) /\
      forall q', q' < nrep s -> root (rp s q') <> Some v -> root (rp s q') <> Some w -> root (rp s' q') = root (rp s q')
  | (_, Err e) => True
  end.
Proof.
  intros I Hq Rv Rw W Ne. assert (Ws := s_repr _ I q Hq). destruct (wf_live s _ Ws) as [Ws1 Ws2]. destruct (wf_live s _ W) as [Wo1 Wo2].
  assert (Fin : forall (m : shm unit), tamely s v w m -> forall u, evolves (us s) u -> match m (with_us s u) with
    | (s', Ok _) => (exists x, root (rp s' q) = Some x /\ (x = v \/ x = w \/ nvar s <= x)) /\ forall q', q' < nrep s -> root (rp s q') <> Some v -> root (rp s q') <> Some w -> root (rp s' q') = root (rp s q')
    | (_, Err e) => True end).
  { intros m Hm u V. specialize (Hm (with_us s u)). destruct (m (with_us s u)) as [s' [x|e]]; auto. destruct Hm as (_ & _ & _ & _ & T).
    - split; [apply with_us_sinv; auto|]. cbn. split; [auto|]. split; [auto|]. split; [apply V|]. intros q' Hq'. split; [|auto]. intros [R|R]; rewrite R; eexists; (split; [reflexivity|]); unfold known_var; auto.
    - split; [apply T; auto|]. intros q' Hq'. apply T; auto. }
  unfold inner_match. rewrite Rw. unfold hbind at 1 2.
  destruct (update_uniadics (pre (rp s q)) (pre o) s) as [s1 [[]|e]] eqn:E1; [|exact Logic.I]. apply update_us in E1 as (u1 & -> & V1); [|apply I|auto|auto].
  assert (R : reversed (rp s q) = rev (suf (rp s q))) by (unfold reversed; rewrite Rv; auto). rewrite R, Rv.
  destruct (update_uniadics (rev (suf (rp s q))) (rev (suf o)) (with_us s u1)) as [s2 [[]|e]] eqn:E2; [|exact Logic.I].
  apply update_us in E2 as (u2 & -> & V2); [|apply V1|intros u Hu; rewrite <- in_rev in Hu; apply V1, Ws2; auto|intros u Hu; rewrite <- in_rev in Hu; apply V1, Wo2; auto].
  destruct (Nat.eqb_spec v w) as [|_]; [congruence|]. assert (V : evolves (us s) u2) by (eapply evolves_trans; eauto). change (with_us (with_us s u1) u2) with (with_us s u2).
  assert (Lw : w < nvar s). { destruct W as (_ & _ & W3). apply W3; auto. } assert (Lv : v < nvar s). { destruct Ws as (_ & _ & W3). apply W3; auto. }
  set (RP := remainings (pre (rp s q)) (pre o)). set (RS := rev (remainings (rev (suf (rp s q))) (rev (suf o)))).
  assert (LRP : forall u, In u RP -> live (us s) u). { intros u Hu. unfold RP, remainings in Hu. destruct (_ <? _); apply in_skipn in Hu; auto. }
  assert (LRS : forall u, In u RS -> live (us s) u). { intros u Hu. unfold RS in Hu. rewrite <- in_rev in Hu. unfold remainings in Hu. destruct (_ <? _); apply in_skipn in Hu; rewrite <- in_rev in Hu; auto. }
  assert (LA : forall u, In u (RP ++ RS) -> live (us s) u). { intros u Hu. apply in_app_iff in Hu as [Hu|Hu]; auto. }
  assert (Kv : known_var s v w v) by (left; auto). assert (Kw : known_var s v w w) by (right; left; auto).
  assert (K : forall rn : nat * nat, (rn = (w, v) \/ rn = (v, w)) -> forall mo : nat * nat, (mo = (v, w) \/ mo = (w, v)) -> forall cross : bool, tamely s v w (let '(removed, new) := rn in if cross then let '(main, other) := mo in
      do updated <- handle main other RP RS;
      if negb updated && negb (shlen (rp s q) =? shlen o) then
        let '(rpre, rsuf) := if length RP <? length RS then ([], skipn (length RP) RS) else (firstn (length RP - length RS) RP, []) in do z <- new_variadic; var_match removed (Some z) rpre rsuf
      else hret tt
    else var_match removed (Some new) RP RS)).
  { intros rn Hrn mo Hmo cross. destruct cross.
    - assert (H : let '(main, other) := mo in known_var s v w main /\ known_var s v w other /\ main < nvar s /\ other < nvar s). { destruct Hmo as [->| ->]; auto. }
      destruct mo as [main other]. destruct rn as [removed new]. destruct H as (K1 & K2 & L1 & L2). apply tamely_bind; [apply tame_handle; auto|]. intros b. destruct (negb b && _); [|apply tamely_ret].
      destruct (_ <? _); apply tame_fresh; auto; try (destruct Hrn as [Hrn|Hrn]; injection Hrn as -> ->; auto).
      all: intros u Hu; cbn in Hu; rewrite ?app_nil_r in Hu; first [apply in_skipn in Hu|apply in_firstn in Hu]; auto.
    - destruct rn as [removed new]. intros s' T. destruct Hrn as [Hrn|Hrn]; injection Hrn as -> ->; apply tame_replace with (v := v) (w := w) (s0 := s); auto; destruct T as (_ & _ & T & _); lia. }
  match goal with |- context [(let '(_, _) := ?rn in _) (with_us s u2)] => set (RN := rn) end.
  match goal with |- context [if ?c || ?d then let '(_, _) := ?mo in _ else _] => specialize (K RN ltac:(unfold RN; destruct (shlen o <=? shlen (rp s q)); auto) mo ltac:(destruct ((length (pre o) <? length (pre (rp s q))) && (length (suf (rp s q)) <? length (suf o))); auto) (c || d)) end.
  apply (Fin _ K u2 V).
Qed.
