(** * flatten: proofs *)
From Coq Require Import List Arith Lia Bool ZArith.
From Verif Require Import PyBase Uniadic_Model Uniadic_Proofs Uniadic_Props Bcast_Proofs Shape_Model Shape_Proofs Shape_Proofs2 Shape_Proofs3 Shape_Props Reduce_Model Reduce_Proofs Reduce_Proofs2
  Rule_Proofs Window_Proofs Reshape_Model Reshape_Proofs Concat_Model Concat_Proofs Flat_Model Flat_Spec Flat_Proofs.
Import ListNotations.
Open Scope list_scope. Open Scope nat_scope. Open Scope shm_scope.

(** ** New dimensions and variadics, without conditions *)
Definition fresh (s s2 : shst) (l : list nat) : Prop :=
  born s s2 /\ (forall x, In x l -> live (us s2) x) /\ (forall rho, sat (us s2) rho -> sat (us s) rho) /\
  forall rho ys, sat (us s) rho -> length ys = length l -> exists rho', agrees (us s) rho rho' /\ sat (us s2) rho' /\ map rho' l = ys.
Lemma fresh_dims n s : sinv s -> exists s1 l, new_dims None n s = (s1, Ok l) /\ fresh s s1 l /\ length l = n /\ nvar s1 = nvar s.
Proof.
  intros I. destruct (new_dims_ok None n s (s_inv _ I)) as (u' & l & E & G & V & S & C). exists (with_us s u'), l. split; [auto|].
  assert (Ll : length l = n). { destruct (sat_exists u' (proj1 G)) as (r & Hr). destruct (S r Hr) as [_ [Ln _]]. rewrite map_length in Ln. auto. }
  split; [|auto]. split; [apply born_us; auto|]. split; [exact V|]. split; [intros rho Hs; apply S; auto|]. intros rho ys Hs Ly. apply C; [auto|]. split; [lia|]. apply Forall_forall. intros; exact Logic.I.
Qed.
Lemma fresh_var s : sinv s -> exists s1, new_variadic s = (s1, Ok (nvar s)) /\ fresh s s1 [] /\ nvar s1 = S (nvar s).
Proof.
  intros I. destruct (born_var s I) as (s1 & E & B & U & V). exists s1. split; [auto|]. split; [|auto]. split; [auto|]. split; [intros x []|]. rewrite U. split; [auto|]. intros rho ys Hs Ly. destruct ys; [|discriminate]. exists rho. split; [intros x _; auto|auto].
Qed.
Lemma fresh_trans a b c l1 l2 : fresh a b l1 -> fresh b c l2 -> fresh a c (l1 ++ l2).
Proof.
  intros (B1 & V1 & S1 & C1) (B2 & V2 & S2 & C2). assert (G2 : grows (us b) (us c)) by apply B2. assert (G1 : grows (us a) (us b)) by apply B1. split; [eapply born_trans; eauto|].
  split; [intros x Hx; apply in_app_iff in Hx as [Hx|Hx]; [apply G2; auto|auto]|]. split; [auto|]. intros rho ys Hs Ly. rewrite app_length in Ly.
  destruct (C1 rho (firstn (length l1) ys) Hs) as (r1 & A1 & Hs1 & M1); [rewrite firstn_length; lia|]. destruct (C2 r1 (skipn (length l1) ys) Hs1) as (r2 & A2 & Hs2 & M2); [rewrite skipn_length; lia|].
  exists r2. split; [intros x Hx; rewrite A2 by (apply G1; auto); auto|]. split; [auto|]. rewrite map_app, M2. rewrite <- (firstn_skipn (length l1) ys) at 2. f_equal. rewrite <- M1. apply map_ext_in. intros x Hx. apply A2. auto.
Qed.
Lemma fresh_nil a b c l : fresh a b l -> fresh b c [] -> fresh a c l.
Proof. intros F G. assert (H := fresh_trans _ _ _ _ _ F G). rewrite app_nil_r in H. auto. Qed.
(** The given sizes and variadics make the representation that shape. *)
Definition meets (s : shst) (l : list nat) (rho : nat -> Z) (ys : list Z) (tau' : nat -> list Z) (x : list Z) (o : shrepr) : Prop :=
  forall rho', agrees (us s) rho rho' -> map rho' l = ys -> x = dshape rho' tau' o.
Lemma one_ok (P : srel) s s2 l q o : sinv s -> fresh s s2 l -> q < nrep s -> wf_repr s2 o ->
  (forall rho tau sh, sat (us s) rho -> (forall x, x < nrep s -> den s rho tau x = sh x) -> P sh -> exists ys tau', length ys = length l /\ (forall x, x < nvar s -> tau' x = tau x) /\ meets s l rho ys tau' (sh q) o) ->
  match inner_match q o s2 with
  | (s', Ok _) => sound_for P s s'
  | (_, Err e) => e = ValueError /\ excludes P s
  end.
Proof.
  intros I (B & V & S & C) Hq W H. assert (M := rule_step P s s2 q o I B Hq W S). lapply M; [clear M; intros M|].
  - destruct (inner_match q o s2) as [s' [[]|e]]; [apply M|auto].
  - intros rho tau sh Hs D Hp. destruct (H rho tau sh Hs D Hp) as (ys & t & Ly & Ht & Mt). destruct (C rho ys Hs Ly) as (r & A & Hr & Em). exists r, t. auto.
Qed.
Lemma two_ok (P : srel) s s2 l q1 o1 q2 o2 : sinv s -> fresh s s2 l -> q1 < nrep s -> q2 < nrep s -> wf_repr s2 o1 -> wf_repr s2 o2 ->
  (forall rho tau sh, sat (us s) rho -> (forall x, x < nrep s -> den s rho tau x = sh x) -> P sh -> exists ys tau', length ys = length l /\ (forall x, x < nvar s -> tau' x = tau x) /\ meets s l rho ys tau' (sh q1) o1 /\ meets s l rho ys tau' (sh q2) o2) ->
  match (do _ <- inner_match q1 o1; inner_match q2 o2) s2 with
  | (s', Ok _) => sound_for P s s'
  | (_, Err e) => e = ValueError /\ excludes P s
  end.
Proof.
  intros I (B & V & S & C) H1 H2 W1 W2 H. assert (I2 : sinv s2) by apply B. assert (N2 : nrep s2 = nrep s) by apply B.
  set (R := fun (rho : nat -> Z) (tau : nat -> list Z) (sh : nat -> list Z) => P sh /\ sh q1 = dshape rho tau o1 /\ sh q2 = dshape rho tau o2).
  assert (Same : forall o rho rho' tau tau', wf_repr s2 o -> agrees (us s2) rho rho' -> (forall x, x < nvar s2 -> tau' x = tau x) -> dshape rho' tau' o = dshape rho tau o).
  { intros o rho rho' tau tau' (Wl & _ & Wv) A T. unfold dshape. f_equal; [apply map_ext_in; intros x Hx; apply A, Wl, in_app_iff; auto|]. f_equal; [|apply map_ext_in; intros x Hx; apply A, Wl, in_app_iff; auto]. destruct (root o) as [v|]; [cbn; apply T; auto|auto]. }
  assert (St : tstable R s2). { intros rho rho' tau tau' sh A T (Hp & E1 & E2). split; [auto|]. rewrite (Same o1 rho rho' tau tau'), (Same o2 rho rho' tau tau'); auto. }
  assert (Ext : forall rho sh, allows s rho sh -> P sh -> exists rho' tau', agrees (us s) rho rho' /\ tallows s2 rho' tau' sh /\ R rho' tau' sh).
  { intros rho sh A Hp. apply allows_den in A as (Hs & tau & D). destruct (H rho tau sh Hs D Hp) as (ys & t & Ly & Ht & M1 & M2). destruct (C rho ys Hs Ly) as (r & A & Hr & Em). exists r, t. split; [auto|]. split; [|split; [auto|split; auto]]. split; [auto|]. intros x Hx. rewrite N2 in Hx. rewrite <- D by auto. apply born_den; auto. }
  assert (T1 := t_match R s2 q1 o1 I2 ltac:(lia) W1 ltac:(intros ? ? ? _ (_ & E & _); exact E)). unfold hbind. destruct (inner_match q1 o1 s2) as [s3 [[]|e]].
  - assert (T1' := T1). destruct T1' as (I3 & N3 & V3 & L3 & F3 & B3). assert (W3 : wf_repr s3 o2). { destruct W2 as (Wl & Wn & Wv). split; [auto|]. split; [auto|]. intros v Hv. specialize (Wv v Hv). lia. }
    assert (T2 := t_match R s3 q2 o2 I3 ltac:(lia) W3 ltac:(intros ? ? ? _ (_ & _ & E); exact E)). destruct (inner_match q2 o2 s3) as [s4 [[]|e]].
    + assert (T := tsound_trans R s2 s3 s4 St T1 T2). destruct T as (I4 & N4 & V4 & L4 & F4 & B4). assert (G2 : grows (us s) (us s2)) by apply B. split; [auto|]. split; [lia|]. split; [intros x Hx; apply L4, G2; auto|]. split.
      * intros rho sh A Hp. destruct (Ext rho sh A Hp) as (r & t & Ag & At & Rt). destruct (F4 r t sh At Rt) as (r' & t' & Ag' & _ & At'). exists r'. split; [intros x Hx; rewrite Ag' by (apply G2; auto); auto|]. apply allows_t. eauto.
      * intros rho sh A. apply B4 in A. apply allows_den in A as (Hs & tau & D). apply allows_den. split; [auto|]. exists tau. intros x Hx. rewrite <- D by lia. unfold den. assert (Er : rp s2 = rp s) by apply B. rewrite Er. auto.
    + destruct T2 as [-> T2]. split; [auto|]. assert (X := texcludes_back R s2 s3 St T1 T2). intros rho sh A Hp. destruct (Ext rho sh A Hp) as (r & t & _ & At & Rt). apply (X r t sh At Rt).
  - destruct T1 as [-> T1]. split; [auto|]. intros rho sh A Hp. destruct (Ext rho sh A Hp) as (r & t & _ & At & Rt). apply (T1 r t sh At Rt).
Qed.

(** ** Lists *)
Lemma map_firstn {A B} (f : A -> B) n l : map f (firstn n l) = firstn n (map f l).
Proof. revert n. induction l as [|x l IH]; intros [|n]; cbn; f_equal; auto. Qed.
Lemma map_skipn {A B} (f : A -> B) n l : map f (skipn n l) = skipn n (map f l).
Proof. revert n. induction l as [|x l IH]; intros [|n]; cbn; auto. Qed.
Lemma skipn_exact {A} (a b : list A) n : n = length a -> skipn n (a ++ b) = b.
Proof. intros ->. rewrite skipn_app, skipn_all, Nat.sub_diag. auto. Qed.
Lemma firstn_exact {A} (a b : list A) n : n = length a -> firstn n (a ++ b) = a.
Proof. intros ->. rewrite firstn_app, firstn_all, Nat.sub_diag. cbn. apply app_nil_r. Qed.
Lemma map_split {A B} (f : A -> B) l1 l2 a b : map f (l1 ++ l2) = a ++ b -> length a = length l1 -> map f l1 = a /\ map f l2 = b.
Proof. intros E L. rewrite map_app in E. assert (X : firstn (length a) (map f l1 ++ map f l2) = firstn (length a) (a ++ b)) by congruence. rewrite !firstn_exact in X by (rewrite ?map_length; auto). split; [auto|]. rewrite X in E. apply app_inv_head in E. auto. Qed.
Lemma in_firstn {A} (x : A) n l : In x (firstn n l) -> In x l.
Proof. intros H. rewrite <- (firstn_skipn n l). apply in_app_iff. auto. Qed.

(** ** The ranks *)
Definition flat_pair (qi qo : nat) (st en : option Z) (sh : nat -> list Z) : Prop := flattens st en (sh qi) (sh qo).
Lemma wf_new s s2 l o : fresh s s2 l -> (forall u, In u (pre o ++ suf o) -> In u l) -> (root o = None -> suf o = []) -> (forall v, root o = Some v -> v < nvar s2) -> wf_repr s2 o.
Proof. intros (_ & V & _) H1 H2 H3. split; [auto|]. auto. Qed.
(** Creating the parts in front of a computation *)
Lemma with_dims n s {A} (k : list nat -> shm A) s1 l : new_dims None n s = (s1, Ok l) -> (do x <- new_dims None n; k x) s = k l s1.
Proof. intros E. unfold hbind. rewrite E. auto. Qed.
Lemma with_var s {A} (k : nat -> shm A) s1 w : new_variadic s = (s1, Ok w) -> (do x <- new_variadic; k x) s = k w s1.
Proof. intros E. unfold hbind. rewrite E. auto. Qed.

(** Representation [q] has at least [n] dimensions, at the front or at the end. *)
Lemma at_least (P : srel) s q n (behind : bool) : sinv s -> q < nrep s -> (forall rho sh, allows s rho sh -> P sh -> n <= length (sh q)) ->
  match (do l <- new_dims None n; do w <- new_variadic; inner_match q (if behind then mkshape [] (Some w) l else mkshape l (Some w) [])) s with
  | (s', Ok _) => sound_for P s s'
  | (_, Err e) => e = ValueError /\ excludes P s
  end.
Proof.
  intros I Hq H. destruct (fresh_dims n s I) as (s1 & l & E1 & F1 & L1 & V1). assert (I1 : sinv s1) by apply F1. destruct (fresh_var s1 I1) as (s2 & E2 & F2 & V2). assert (F := fresh_nil _ _ _ _ F1 F2). rewrite (with_dims _ _ _ _ _ E1), (with_var _ _ _ _ E2).
  apply (one_ok P s s2 l q); auto.
  - apply (wf_new s s2 l); [auto|destruct behind; cbn; [auto|intros u; rewrite app_nil_r; auto]|destruct behind; cbn; [discriminate|auto]|destruct behind; cbn; intros v Hv; injection Hv as <-; lia].
  - intros rho tau sh Hs D Hp. assert (Ln := H rho sh (proj2 (allows_den _ _ _) (conj Hs (ex_intro _ tau D))) Hp). destruct behind.
    + exists (skipn (length (sh q) - n) (sh q)), (upd tau (nvar s1) (firstn (length (sh q) - n) (sh q))). split; [rewrite skipn_length; lia|]. split; [intros x Hx; apply upd_other; lia|].
      intros r A Em. unfold dshape. cbn [pre suf root rval map app]. rewrite upd_same, Em, firstn_skipn. auto.
    + exists (firstn n (sh q)), (upd tau (nvar s1) (skipn n (sh q))). split; [rewrite firstn_length; lia|]. split; [intros x Hx; apply upd_other; lia|].
      intros r A Em. unfold dshape. cbn [pre suf root rval map app]. rewrite upd_same, Em, app_nil_r, firstn_skipn. auto.
Qed.
Lemma then_ok {A} (P : srel) s (m : shm A) (k : A -> shm unit) :
  match m s with (s', Ok a) => sound_for P s s' /\ match k a s' with (s'', Ok _) => sound_for P s' s'' | (_, Err e) => e = ValueError /\ excludes P s' end | (_, Err e) => e = ValueError /\ excludes P s end ->
  match (do a <- m; k a) s with
  | (s', Ok _) => sound_for P s s'
  | (_, Err e) => e = ValueError /\ excludes P s
  end.
Proof.
  unfold hbind. destruct (m s) as [s' [a|e]]; [|auto]. intros [H1 H2]. destruct (k a s') as [s'' [[]|e]]; [eapply sound_for_trans; eauto|]. destruct H2 as [-> H2]. split; [auto|]. eapply excludes_back; eauto.
Qed.
Lemma assoc {A B C} (m : shm A) (f : A -> shm B) (g : B -> shm C) s : (do x <- m; do y <- f x; g y) s = (do y <- (do x <- m; f x); g y) s.
Proof. unfold hbind. destruct (m s) as [s1 [a|e]]; auto. Qed.
Lemma assoc2 {A A' B C} (m : shm A) (m' : shm A') (f : A -> A' -> shm B) (g : B -> shm C) s : (do x <- m; do x' <- m'; do y <- f x x'; g y) s = (do y <- (do x <- m; do x' <- m'; f x x'); g y) s.
Proof. unfold hbind. destruct (m s) as [s1 [a|e]]; [|auto]. destruct (m' s1) as [s2 [a'|e]]; auto. Qed.

Lemma flatten_ranks_ok s qi qo st en : sinv s -> qi < nrep s -> qo < nrep s ->
  match flatten_ranks qi qo st en s with
  | (s', Ok _) => sound_for (flat_pair qi qo st en) s s'
  | (_, Err e) => e = ValueError /\ excludes (flat_pair qi qo st en) s
  end.
Proof.
  intros I Hi Ho. set (P := flat_pair qi qo st en).
  assert (Out : forall t, sinv t -> qo < nrep t -> match (do l <- new_dims None 1; do w <- new_variadic; inner_match qo (mkshape l (Some w) [])) t with (s', Ok _) => sound_for P t s' | (_, Err e) => e = ValueError /\ excludes P t end).
  { intros t It Hot. apply (at_least P t qo 1 false It Hot). intros rho sh A (f & m & b & _ & _ & -> & _). rewrite app_length. cbn. lia. }
  destruct st as [a|], en as [e|]; cbn [flatten_ranks].
  - destruct (Z.leb_spec 0 a) as [Ha|Ha].
    + destruct (Z.leb_spec 0 e) as [He|He].
      * destruct (fresh_dims (S (Z.to_nat e)) s I) as (s1 & l & E1 & F1 & L1 & V1). assert (I1 : sinv s1) by apply F1. destruct (fresh_dims 1 s1 I1) as (s2 & u & E2 & F2 & L2 & V2). assert (I2 : sinv s2) by apply F2. destruct (fresh_var s2 I2) as (s3 & E3 & F3 & V3).
        assert (F := fresh_nil _ _ _ _ (fresh_trans _ _ _ _ _ F1 F2) F3). rewrite (with_dims _ _ _ _ _ E1), (with_dims _ _ _ _ _ E2), (with_var _ _ _ _ E3). cbv zeta. apply (two_ok P s s3 (l ++ u)); auto.
        -- apply (wf_new s s3 (l ++ u)); [auto| | |]; cbn [pre suf root]; [intros x Hx; rewrite app_nil_r in Hx; apply in_app_iff; auto|auto|intros v Hv; injection Hv as <-; lia].
        -- apply (wf_new s s3 (l ++ u)); [auto| | |]; cbn [pre suf root]; [|auto|intros v Hv; injection Hv as <-; lia]. intros x Hx. rewrite app_nil_r in Hx. apply in_app_iff in Hx as [Hx|Hx]; [apply in_firstn in Hx; apply in_app_iff; auto|]. destruct (a =? e)%Z; [apply in_skipn in Hx|]; apply in_app_iff; auto.
        -- intros rho tau sh Hs D (f & m & b & Ex & Nm & Ey & Sa & Se). rewrite Ex, !app_length in Sa, Se. cbn [stands_for] in Sa, Se. assert (Lm : length m <> 0) by (destruct m; [congruence|discriminate]). exists ((f ++ m) ++ [volume m]), (upd tau (nvar s2) b).
           split; [rewrite !app_length; cbn [length]; lia|]. split; [intros x Hx; apply upd_other; lia|].
           assert (K : forall r, map r (l ++ u) = (f ++ m) ++ [volume m] -> map r l = f ++ m /\ map r u = [volume m]) by (intros r Em; apply map_split; [auto|rewrite app_length; lia]).
           split; intros r _ Em; apply K in Em as [Em1 Em2]; unfold dshape; cbn [pre suf root rval map]; rewrite upd_same, app_nil_r.
           ++ rewrite Em1, Ex, app_assoc. auto.
           ++ rewrite map_app, map_firstn, Em1, firstn_exact by lia. rewrite Ey, <- app_assoc. f_equal. destruct (Z.eqb_spec a e).
              ** rewrite map_skipn, Em1, skipn_exact by lia. destruct m as [|d [|? ?]]; cbn in Lm, Sa, Se |- *; [lia| |lia]. f_equal. lia.
              ** rewrite Em2. auto.
      * destruct (fresh_dims (S (Z.to_nat a)) s I) as (s1 & l & E1 & F1 & L1 & V1). assert (I1 : sinv s1) by apply F1. destruct (fresh_dims (Z.to_nat (- e - 1)) s1 I1) as (s2 & r & E2 & F2 & L2 & V2). assert (I2 : sinv s2) by apply F2. destruct (fresh_dims 1 s2 I2) as (s3 & u & E3 & F3 & L3 & V3). assert (I3 : sinv s3) by apply F3. destruct (fresh_var s3 I3) as (s4 & E4 & F4 & V4).
        assert (F := fresh_nil _ _ _ _ (fresh_trans _ _ _ _ _ (fresh_trans _ _ _ _ _ F1 F2) F3) F4). rewrite (with_dims _ _ _ _ _ E1), (with_dims _ _ _ _ _ E2), (with_dims _ _ _ _ _ E3), (with_var _ _ _ _ E4). apply (two_ok P s s4 ((l ++ r) ++ u)); auto.
        -- apply (wf_new s s4 ((l ++ r) ++ u)); [auto| | |]; cbn [pre suf root]; [intros x Hx; apply in_app_iff; auto|discriminate|intros v Hv; injection Hv as <-; lia].
        -- apply (wf_new s s4 ((l ++ r) ++ u)); [auto| | |]; cbn [pre suf root]; [|auto|discriminate]. intros x Hx. rewrite app_nil_r, !in_app_iff in *. destruct Hx as [Hx|[Hx|Hx]]; [apply in_firstn in Hx|..]; auto.
        -- intros rho tau sh Hs D (f & m & b & Ex & Nm & Ey & Sa & Se). rewrite Ex, !app_length in Sa, Se. cbn [stands_for] in Sa, Se. destruct m as [|d m]; [congruence|]. cbn [length] in Sa, Se. exists (((f ++ [d]) ++ b) ++ [volume (d :: m)]), (upd tau (nvar s3) m).
           split; [rewrite !app_length; cbn [length]; lia|]. split; [intros x Hx; apply upd_other; lia|].
           assert (K : forall r0, map r0 ((l ++ r) ++ u) = ((f ++ [d]) ++ b) ++ [volume (d :: m)] -> map r0 l = f ++ [d] /\ map r0 r = b /\ map r0 u = [volume (d :: m)]). { intros r0 Em. apply map_split in Em as [Em Eu]; [|rewrite !app_length; cbn [length]; lia]. apply map_split in Em as [El Er]; [auto|rewrite app_length; cbn [length]; lia]. }
           split; intros r0 _ Em; apply K in Em as (Em1 & Em2 & Em3); unfold dshape; cbn [pre suf root rval map].
           ++ rewrite upd_same, Em1, Em2, Ex, <- !app_assoc. auto.
           ++ rewrite !map_app, map_firstn, Em1, Em2, Em3, firstn_exact by lia. rewrite Ey. cbn [app]. rewrite app_nil_r. auto.
    + destruct (Z.ltb_spec e 0) as [He|He]; [|apply sound_for_refl; auto].
      destruct (fresh_dims (Z.to_nat (- a)) s I) as (s1 & l & E1 & F1 & L1 & V1). assert (I1 : sinv s1) by apply F1. destruct (fresh_dims 1 s1 I1) as (s2 & u & E2 & F2 & L2 & V2). assert (I2 : sinv s2) by apply F2. destruct (fresh_var s2 I2) as (s3 & E3 & F3 & V3).
      assert (F := fresh_nil _ _ _ _ (fresh_trans _ _ _ _ _ F1 F2) F3). rewrite (with_dims _ _ _ _ _ E1), (with_dims _ _ _ _ _ E2), (with_var _ _ _ _ E3). cbv zeta. apply (two_ok P s s3 (l ++ u)); auto.
      * apply (wf_new s s3 (l ++ u)); [auto| | |]; cbn [pre suf root]; [intros x Hx; apply in_app_iff; auto|discriminate|intros v Hv; injection Hv as <-; lia].
      * apply (wf_new s s3 (l ++ u)); [auto| | |]; cbn [pre suf root]; [|discriminate|intros v Hv; injection Hv as <-; lia]. intros x Hx. cbn [app] in Hx. apply in_app_iff. apply in_app_iff in Hx as [Hx|Hx]; [destruct (a =? e)%Z; [apply in_firstn in Hx|]; auto|]. destruct (e =? -1)%Z; [destruct Hx|]. unfold from in Hx. apply in_skipn in Hx. auto.
      * intros rho tau sh Hs D (f & m & b & Ex & Nm & Ey & Sa & Se). rewrite Ex, !app_length in Sa, Se. cbn [stands_for] in Sa, Se. assert (Lm : length m <> 0) by (destruct m; [congruence|discriminate]). exists ((m ++ b) ++ [volume m]), (upd tau (nvar s2) f).
        split; [rewrite !app_length; cbn [length]; lia|]. split; [intros x Hx; apply upd_other; lia|].
        assert (K : forall r, map r (l ++ u) = (m ++ b) ++ [volume m] -> map r l = m ++ b /\ map r u = [volume m]) by (intros r Em; apply map_split; [auto|rewrite app_length; lia]).
        split; intros r _ Em; apply K in Em as [Em1 Em2]; unfold dshape; cbn [pre suf root rval map app]; rewrite upd_same.
        -- rewrite Em1, Ex. auto.
        -- rewrite Ey. f_equal. rewrite map_app. transitivity ([volume m] ++ b); [reflexivity|]. apply (f_equal2 (@app Z)).
           ++ destruct (Z.eqb_spec a e); [|symmetry; exact Em2]. rewrite map_firstn, Em1. destruct m as [|d [|? ?]]; cbn in Lm, Sa, Se |- *; [lia| |lia]. f_equal. lia.
           ++ destruct (Z.eqb_spec e (-1)); [destruct b; cbn in Sa, Se |- *; [auto|lia]|]. unfold from. destruct (Z.leb_spec 0 (e + 1)); [lia|]. rewrite map_skipn, Em1, skipn_exact; [auto|lia].
  - destruct (Z.leb_spec 0 a) as [Ha|Ha].
    + destruct (fresh_dims (S (Z.to_nat a)) s I) as (s1 & l & E1 & F1 & L1 & V1). assert (I1 : sinv s1) by apply F1. destruct (fresh_dims 1 s1 I1) as (s2 & u & E2 & F2 & L2 & V2). assert (I2 : sinv s2) by apply F2. destruct (fresh_var s2 I2) as (s3 & E3 & F3 & V3). assert (I3 : sinv s3) by apply F3. destruct (fresh_var s3 I3) as (s4 & E4 & F4 & V4).
      assert (F := fresh_nil _ _ _ _ (fresh_nil _ _ _ _ (fresh_trans _ _ _ _ _ F1 F2) F3) F4). rewrite (with_dims _ _ _ _ _ E1), (with_dims _ _ _ _ _ E2), (with_var _ _ _ _ E3), (with_var _ _ _ _ E4). apply (two_ok P s s4 (l ++ u)); auto.
      * apply (wf_new s s4 (l ++ u)); [auto| | |]; cbn [pre suf root]; [intros x Hx; rewrite app_nil_r in Hx; apply in_app_iff; auto|auto|intros v Hv; injection Hv as <-; lia].
      * apply (wf_new s s4 (l ++ u)); [auto| | |]; cbn [pre suf root]; [|auto|intros v Hv; injection Hv as <-; lia]. intros x Hx. rewrite app_nil_r in Hx. apply in_app_iff in Hx as [Hx|Hx]; [apply in_firstn in Hx|]; apply in_app_iff; auto.
      * intros rho tau sh Hs D (f & m & b & Ex & Nm & Ey & Sa & Se). rewrite Ex, !app_length in Sa. cbn [stands_for] in Sa. destruct m as [|d m]; [congruence|]. cbn [length] in Sa. exists ((f ++ [d]) ++ [volume (d :: m)]), (upd (upd tau (nvar s2) (m ++ b)) (nvar s3) b).
        split; [rewrite !app_length; cbn [length]; lia|]. split; [intros x Hx; rewrite !upd_other by lia; auto|].
        assert (K : forall r, map r (l ++ u) = (f ++ [d]) ++ [volume (d :: m)] -> map r l = f ++ [d] /\ map r u = [volume (d :: m)]) by (intros r Em; apply map_split; [auto|rewrite app_length; cbn [length]; lia]).
        split; intros r _ Em; apply K in Em as [Em1 Em2]; unfold dshape; cbn [pre suf root rval map]; rewrite app_nil_r.
        -- rewrite upd_other, upd_same by lia. rewrite Em1, Ex, <- app_assoc. auto.
        -- rewrite upd_same, map_app, map_firstn, Em1, Em2, firstn_exact by lia. rewrite Ey, <- app_assoc. auto.
    + rewrite assoc2. apply then_ok. assert (A1 := at_least P s qi (Z.to_nat (- a)) true I Hi). lapply A1; [clear A1; intros A1|]. 2: { intros rho sh _ (f & m & b & -> & Nm & _ & Sa & _). rewrite !app_length in *. cbn [stands_for] in Sa. lia. }
      cbv iota in A1. destruct ((do l <- new_dims None (Z.to_nat (- a)); do w <- new_variadic; inner_match qi (mkshape [] (Some w) l)) s) as [s1 [[]|er]]; [|auto]. split; [auto|]. apply Out; [apply A1|]. destruct A1 as (_ & -> & _). auto.
  - destruct (Z.leb_spec 0 e) as [He|He].
    + rewrite assoc2. apply then_ok. assert (A1 := at_least P s qi (S (Z.to_nat e)) false I Hi). lapply A1; [clear A1; intros A1|]. 2: { intros rho sh _ (f & m & b & -> & Nm & _ & _ & Sa). rewrite !app_length in *. cbn [stands_for] in Sa. destruct m; [congruence|]. cbn [length] in *. lia. }
      cbv iota in A1. destruct ((do l <- new_dims None (S (Z.to_nat e)); do w <- new_variadic; inner_match qi (mkshape l (Some w) [])) s) as [s1 [[]|er]]; [|auto]. split; [auto|]. apply Out; [apply A1|]. destruct A1 as (_ & -> & _). auto.
    + rewrite assoc2. apply then_ok. assert (A1 := at_least P s qi (Z.to_nat (- e)) true I Hi). lapply A1; [clear A1; intros A1|]. 2: { intros rho sh _ (f & m & b & -> & Nm & _ & _ & Sa). rewrite !app_length in *. cbn [stands_for] in Sa. destruct m; [congruence|]. cbn [length] in *. lia. }
      cbv iota in A1. destruct ((do l <- new_dims None (Z.to_nat (- e)); do w <- new_variadic; inner_match qi (mkshape [] (Some w) l)) s) as [s1 [[]|er]]; [|auto]. split; [auto|]. clear Out. assert (I1 : sinv s1) by apply A1. assert (N1 : nrep s1 = nrep s) by apply A1. rewrite <- N1 in Hi, Ho. clear A1 N1 I s. rename s1 into s, I1 into I.
      cbv zeta. set (t := from _ (suf (rp s qi))). destruct (fresh_dims 1 s I) as (s1 & u & E1 & F1 & L1 & V1). assert (I1 : sinv s1) by apply F1. destruct (fresh_var s1 I1) as (s2 & E2 & F2 & V2). assert (F := fresh_nil _ _ _ _ F1 F2). rewrite (with_dims _ _ _ _ _ E1), (with_var _ _ _ _ E2).
      assert (Ht : exists j, t = skipn j (suf (rp s qi))) by (unfold t, from; eauto). assert (Lt : length t <= Z.to_nat (- e - 1)). { unfold t, from. rewrite skipn_length. destruct (Z.leb_spec 0 (Z.of_nat (length (suf (rp s qi))) + e + 1)); lia. } clearbody t. destruct Ht as (j & Et).
      apply (one_ok P s s2 u qo); auto.
      * split; [|split; [discriminate|intros v Hv; injection Hv as <-; lia]]. cbn. intros x Hx. apply in_app_iff in Hx as [Hx|Hx]; [apply F; auto|]. assert (G : grows (us s) (us s2)) by apply F. apply G. rewrite Et in Hx. apply in_skipn in Hx. apply (proj1 (s_repr _ I qi Hi)). apply in_app_iff. auto.
      * intros rho tau sh Hs D (f & m & b & Ex & Nm & Ey & _ & Sa). assert (Lm : length m <> 0) by (destruct m; [congruence|discriminate]). cbn [stands_for] in Sa. rewrite Ex, !app_length in Sa.
        assert (Xb : exists b1, b = b1 ++ map rho t). { assert (Ed : exists pr, sh qi = pr ++ map rho t). { rewrite <- D by auto. unfold den, dshape. exists (map rho (pre (rp s qi)) ++ rval tau (root (rp s qi)) ++ firstn j (map rho (suf (rp s qi)))). rewrite Et, map_skipn, <- !app_assoc, firstn_skipn. auto. }
          destruct Ed as (pr & Ed). rewrite Ex, app_assoc in Ed. exists (firstn (length b - length t) b). rewrite <- (firstn_skipn (length b - length t) b) at 1. f_equal. assert (Z1 : skipn (length ((f ++ m) ++ b) - length t) ((f ++ m) ++ b) = map rho t). { rewrite Ed, skipn_exact; [auto|]. rewrite app_length, map_length. lia. }
          rewrite skipn_app in Z1. rewrite (skipn_all2 (f ++ m)) in Z1 by (rewrite !app_length; lia). cbn [app] in Z1. rewrite <- Z1. f_equal. rewrite !app_length. lia. }
        destruct Xb as (b1 & ->). assert (Ne : f ++ volume m :: b1 <> []) by (destruct f; discriminate). destruct (exists_last Ne) as (g & d & Eg). exists [d], (upd tau (nvar s1) g). split; [rewrite L1; auto|]. split; [intros x Hx; apply upd_other; lia|].
        intros r A Em. unfold dshape. cbn [pre suf root rval map app]. rewrite upd_same, map_app, Em, Ey. change (fold_right Z.mul 1%Z m) with (volume m). change (volume m :: b1 ++ map rho t) with ((volume m :: b1) ++ map rho t). rewrite app_assoc, Eg, <- app_assoc. f_equal. f_equal. symmetry. apply map_ext_in. intros x Hx. apply A. rewrite Et in Hx. apply in_skipn in Hx. apply (proj1 (s_repr _ I qi Hi)). apply in_app_iff. auto.
  - apply sound_for_refl; auto.
Qed.
