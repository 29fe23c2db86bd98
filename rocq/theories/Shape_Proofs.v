(** * Symbolic shapes: what matching means *)
From Coq Require Import List Arith Lia Bool ZArith.
From Verif Require Import PyBase Uniadic_Model Uniadic_Proofs Uniadic_Props Bcast_Proofs Shape_Model.
Import ListNotations.
Open Scope list_scope. Open Scope nat_scope. Open Scope shm_scope.

(** ** Meaning of representations *)
(** Sizes for dimensions ([rho]) and lists of sizes for variadics ([tau]) turn a representation into a concrete shape. *)
Definition rval (tau : nat -> list Z) (o : option nat) : list Z := match o with Some v => tau v | None => [] end.
Definition dshape (rho : nat -> Z) (tau : nat -> list Z) (r : shrepr) : list Z := map rho (pre r) ++ rval tau (root r) ++ map rho (suf r).
Definition den (s : shst) rho tau (q : nat) : list Z := dshape rho tau (rp s q).

Definition wf_repr (s : shst) (r : shrepr) : Prop :=
  (forall u, In u (pre r ++ suf r) -> live (us s) u) /\ (root r = None -> suf r = []) /\ (forall v, root r = Some v -> v < nvar s).
Record sinv (s : shst) : Prop := {
  s_inv : inv (us s);
  s_repr : forall q, q < nrep s -> wf_repr s (rp s q);
  s_back : forall v q, In q (vreprs s v) <-> q < nrep s /\ root (rp s q) = Some v }.

(** ** Lists *)
Definition zeq (a b : list Z) : Prop := firstn (Nat.min (length a) (length b)) a = firstn (Nat.min (length a) (length b)) b.
Lemma zeq_nil_l b : zeq [] b. Proof. unfold zeq. cbn. reflexivity. Qed.
Lemma zeq_nil_r a : zeq a []. Proof. unfold zeq. rewrite Nat.min_r by (cbn; lia). reflexivity. Qed.
Lemma zeq_cons x y a b : zeq (x :: a) (y :: b) <-> x = y /\ zeq a b.
Proof. unfold zeq. cbn. split; [intros H; injection H; auto|intros [-> ->]; auto]. Qed.
Lemma zeq_app a b x y : a ++ x = b ++ y -> zeq a b.
Proof.
  revert b. induction a as [|c a IH]; intros b H; [apply zeq_nil_l|]. destruct b as [|d b]; [apply zeq_nil_r|].
  cbn in H. injection H as -> H. apply zeq_cons. eauto.
Qed.
Lemma zeq_le a b : zeq a b -> length a <= length b -> b = a ++ skipn (length a) b.
Proof.
  revert b. induction a as [|c a IH]; intros b H L; auto. destruct b as [|d b]; cbn in L; [lia|]. apply zeq_cons in H as [-> H]. cbn. f_equal. apply IH; auto. lia.
Qed.
Lemma zeq_sym a b : zeq a b -> zeq b a.
Proof. unfold zeq. rewrite Nat.min_comm. auto. Qed.
Lemma rev_skipn {A} n (l : list A) : rev (skipn n (rev l)) = firstn (length l - n) l.
Proof. rewrite skipn_rev, rev_involutive. reflexivity. Qed.
Lemma map_firstn {A B} (f : A -> B) n l : map f (firstn n l) = firstn n (map f l).
Proof. revert l. induction n; intros [|x l]; cbn; auto. f_equal. auto. Qed.
Lemma map_skipn {A B} (f : A -> B) n l : map f (skipn n l) = skipn n (map f l).
Proof. revert l. induction n; intros [|x l]; cbn; auto. Qed.
Lemma zeq_rev_le a b : zeq (rev a) (rev b) -> length a <= length b -> b = firstn (length b - length a) b ++ a.
Proof.
  intros H L. apply zeq_le in H; [|rewrite !rev_length; auto]. rewrite rev_length in H.
  apply (f_equal (@rev Z)) in H. rewrite rev_app_distr, !rev_involutive, rev_skipn in H. auto.
Qed.
Lemma zeq_rev_app a b x y : x ++ a = y ++ b -> zeq (rev a) (rev b).
Proof. intros H. apply (f_equal (@rev Z)) in H. rewrite !rev_app_distr in H. eapply zeq_app; eauto. Qed.

(** The solutions of [P ++ M = O ++ S]. *)
Lemma overlap (P M O S : list Z) : P ++ M = O ++ S ->
  (exists X, O = P ++ X /\ M = X ++ S) \/
  (exists n, 1 <= n /\ n <= length P /\ n <= length S /\ skipn (length P - n) P = firstn n S /\ O = firstn (length P - n) P /\ M = skipn n S).
Proof.
  intros H. destruct (le_lt_dec (length P) (length O)) as [L|L].
  - left. assert (Z := zeq_app _ _ _ _ H). apply zeq_le in Z; auto. exists (skipn (length P) O). split; auto.
    rewrite Z in H at 1. rewrite <- app_assoc in H. apply app_inv_head in H. auto.
  - right. assert (Z := zeq_app _ _ _ _ H). apply zeq_sym in Z. apply zeq_le in Z; [|lia]. set (R := skipn (length O) P) in *.
    assert (HR : length R = length P - length O) by (unfold R; apply skipn_length).
    rewrite Z in H. rewrite <- app_assoc in H. apply app_inv_head in H. exists (length R).
    assert (LS : length S = length R + length M) by (rewrite <- H, app_length; auto).
    split; [lia|]. split; [lia|]. split; [lia|]. replace (length P - length R) with (length O) by lia. split; [|split].
    + fold R. rewrite <- H. rewrite firstn_app, firstn_all, Nat.sub_diag. cbn. rewrite app_nil_r. auto.
    + rewrite Z. rewrite firstn_app, firstn_all, Nat.sub_diag. cbn. rewrite app_nil_r. auto.
    + rewrite <- H. rewrite skipn_app, skipn_all, Nat.sub_diag. reflexivity.
Qed.

(** ** Dimensions of the heap *)
Definition same_us (a b : ustate) : Prop := evolves a b /\ forall rho, sat a rho -> sat b rho.
Lemma same_refl a : inv a -> same_us a a.
Proof. intros I. split; [apply evolves_refl|]; auto. Qed.
Lemma same_trans a b c : same_us a b -> same_us b c -> same_us a c.
Proof. intros [E1 S1] [E2 S2]. split; [eapply evolves_trans; eauto|auto]. Qed.
Lemma attach_same s u q : inv s -> live s u -> same_us s (fst (attach u q s)).
Proof.
  intros I L. destruct (attach_ok s u q I L) as (I' & Lv & S & M). split; [|intros rho; apply S]. split; [auto|]. split; [reflexivity|]. split; [auto|].
  split; [intros x y _ _ E; rewrite M; auto|]. intros rho. apply S.
Qed.
Lemma attach_all_ok q l : forall s, inv (us s) -> (forall u, In u l -> live (us s) u) ->
  exists u', attach_all q l s = (with_us s u', Ok tt) /\ same_us (us s) u'.
Proof.
  induction l as [|u l IH]; intros s I H; cbn [attach_all].
  - exists (us s). split; [destruct s; reflexivity|apply same_refl; auto].
  - unfold hbind, lift. assert (A := attach_same (us s) u q I (H u (or_introl eq_refl))).
    destruct (attach u q (us s)) as [u1 r] eqn:E. cbn [fst] in A. assert (Er : r = Ok tt) by (unfold attach in E; injection E; auto). rewrite Er.
    destruct (IH (with_us s u1)) as (u2 & E2 & S2); [apply A| |].
    + intros x Hx. cbn. eapply evolves_live; [apply A|]. apply H. right; auto.
    + exists u2. split; [rewrite E2; reflexivity|]. cbn in S2. eapply same_trans; eauto.
Qed.

Lemma umatch_ok l1 : forall l2 s, inv (us s) -> (forall u, In u l1 -> live (us s) u) -> (forall u, In u l2 -> live (us s) u) ->
  exists u' r, update_uniadics l1 l2 s = (with_us s u', r) /\ evolves (us s) u' /\
  match r with
  | Ok _ => forall rho, sat u' rho <-> sat (us s) rho /\ zeq (map rho l1) (map rho l2)
  | Err e => e = ValueError /\ forall rho, sat (us s) rho -> ~ zeq (map rho l1) (map rho l2)
  end.
Proof.
  induction l1 as [|a l1 IH]; intros l2 s I H1 H2; cbn [update_uniadics].
  - exists (us s), (Ok tt). split; [destruct s; reflexivity|]. split; [apply evolves_refl; auto|]. intros rho. split; [intros; split; auto; apply zeq_nil_l|tauto].
  - destruct l2 as [|b l2].
    + exists (us s), (Ok tt). split; [destruct s; reflexivity|]. split; [apply evolves_refl; auto|]. intros rho. split; [intros; split; auto; apply zeq_nil_r|tauto].
    + unfold hbind, lift. destruct (uni_match_imposes (us s) a b I (H1 a (or_introl eq_refl)) (H2 b (or_introl eq_refl))) as [M _].
      assert (Ev := imposes_evolves _ _ _ I M). destruct M as (I1 & N1 & L1 & _ & M). destruct (uni_match a b (us s)) as [u1 [x|e]] eqn:E; cbn [fst snd] in *.
      * destruct (IH l2 (with_us s u1)) as (u2 & r & E2 & Ev2 & R2); [auto|intros; apply L1; apply H1; right; auto|intros; apply L1; apply H2; right; auto|].
        rewrite E2. exists u2, r. split; [reflexivity|]. cbn [us with_us] in *. split; [eapply evolves_trans; eauto|]. destruct r as [y|e].
        -- intros rho. rewrite R2, M. cbn [map]. rewrite zeq_cons. tauto.
        -- destruct R2 as [-> R2]. split; auto. intros rho Hs. cbn [map]. rewrite zeq_cons. intros [Q1 Q2]. apply (R2 rho); auto. apply M. auto.
      * exists u1, (Err e). split; [reflexivity|]. split; [auto|]. destruct M as (-> & -> & M). split; auto. intros rho Hs. cbn [map]. rewrite zeq_cons. intros [Q _]. apply (M rho). auto.
Qed.

(** ** Replacing a variadic *)
Definition moved (new_root : option nat) (np ns : list nat) (r : shrepr) : shrepr :=
  match new_root with
  | Some w => mkshape (pre r ++ np) (Some w) (ns ++ suf r)
  | None => mkshape (pre r ++ np ++ suf r) None []
  end.
Lemma moved_den rho tau v new_root np ns r : root r = Some v -> (new_root = None -> ns = []) ->
  tau v = map rho np ++ rval tau new_root ++ map rho ns -> dshape rho tau (moved new_root np ns r) = dshape rho tau r.
Proof.
  intros Hr Hn E. unfold dshape, moved. rewrite Hr. cbn [rval]. rewrite E. destruct new_root as [w|]; cbn [pre root suf rval].
  - rewrite !map_app, <- !app_assoc. reflexivity.
  - rewrite (Hn eq_refl). cbn [map]. rewrite !map_app, !app_nil_r. reflexivity.
Qed.
Lemma mem_cons (x q : nat) qs : mem x (q :: qs) = eqb x q || mem x qs.
Proof. reflexivity. Qed.
Lemma redirect_all_ok v new_root np ns qs : new_root <> Some v -> forall s, inv (us s) ->
  (forall u, In u (np ++ ns) -> live (us s) u) -> (forall q, In q qs -> root (rp s q) = Some v \/ root (rp s q) = new_root) ->
  exists s', redirect_all new_root np ns qs s = (s', Ok tt) /\ same_us (us s) (us s') /\ nvar s' = nvar s /\ nrep s' = nrep s /\
    (forall q, rp s' q = if mem q qs && eqb (root (rp s q)) (Some v) then moved new_root np ns (rp s q) else rp s q) /\
    (forall x y, In y (vreprs s' x) <-> In y (vreprs s x) \/ (new_root = Some x /\ In y qs /\ root (rp s y) = Some v)).
Proof.
  intros Hne. induction qs as [|q qs IH]; intros s I HL Hq; cbn [redirect_all].
  - exists s. split; [reflexivity|]. split; [apply same_refl; auto|]. do 2 (split; [auto|]). split; [intros; reflexivity|]. intros x y. cbn. tauto.
  - unfold hbind at 1. unfold redirect. destruct (eqb (root (rp s q)) new_root) eqn:Q.
    + apply (proj1 (eqb_eq _ _)) in Q. destruct (IH s I HL) as (s' & E & S & N1 & N2 & R & V); [intros y Hy; apply Hq; right; auto|].
      exists s'. split; [exact E|]. split; [auto|]. do 2 (split; [auto|]). assert (Nq : root (rp s q) <> Some v) by congruence. split.
      * intros x. rewrite R, mem_cons. destruct (eqb x q) eqn:Qx.
        -- apply (proj1 (eqb_eq _ _)) in Qx. subst x. cbn [orb andb]. destruct (eqb (root (rp s q)) (Some v)) eqn:Z; [apply (proj1 (eqb_eq _ _)) in Z; contradiction|]. rewrite andb_false_r. reflexivity.
        -- reflexivity.
      * intros x y. rewrite V. cbn [In]. split; [tauto|]. intros [?|(?&[<-|?]&?)]; auto. contradiction.
    + assert (Qn : root (rp s q) = Some v). { destruct (Hq q (or_introl eq_refl)) as [?|Z]; auto. rewrite Z in Q. assert (X := eqb_refl new_root). congruence. }
      destruct (attach_all_ok q np s I) as (u1 & E1 & S1); [intros; apply HL; apply in_app_iff; auto|].
      unfold hbind at 1. rewrite E1. destruct (attach_all_ok q (rev ns) (with_us s u1)) as (u2 & E2 & S2); [apply S1| |].
      { intros u Hu. cbn. eapply evolves_live; [apply S1|]. apply HL. apply in_app_iff. right. apply in_rev. auto. }
      unfold hbind at 1. rewrite E2. cbn [rp us with_us] in *.
      set (s1 := match new_root with Some w => _ | None => _ end).
      assert (U1 : us s1 = u2) by (unfold s1; destruct new_root; reflexivity).
      assert (R1 : forall x, rp s1 x = if x =? q then moved new_root np ns (rp s q) else rp s x) by (intros x; unfold s1, moved; destruct new_root; reflexivity).
      assert (Np : nvar s1 = nvar s /\ nrep s1 = nrep s) by (unfold s1; destruct new_root; auto).
      assert (V1 : forall x y, In y (vreprs s1 x) <-> In y (vreprs s x) \/ (new_root = Some x /\ y = q)).
      { intros x y. unfold s1. destruct new_root as [w|]; cbn [vreprs set_repr add_to with_us].
        - unfold upd. destruct (Nat.eqb_spec x w) as [->|Nw].
          + destruct (mem q (vreprs s w)) eqn:Mq.
            * apply mem_In in Mq. split; [tauto|]. intros [?|[_ ->]]; auto.
            * rewrite in_app_iff. cbn. split; [intros [?|[?|[]]]; auto|]. intros [?|[_ ->]]; auto.
          + split; [auto|]. intros [?|[X _]]; auto. congruence.
        - split; [auto|]. intros [?|[X _]]; auto. discriminate. }
      assert (S02 : same_us (us s) u2) by (eapply same_trans; eauto).
      destruct (IH s1) as (s' & E & S & N1 & N2 & R & V).
      * rewrite U1. apply S02.
      * intros u Hu. rewrite U1. eapply evolves_live; [apply S02|]. auto.
      * intros x Hx. rewrite R1. destruct (x =? q); [right; unfold moved; destruct new_root; reflexivity|apply Hq; right; auto].
      * exists s'. split; [exact E|]. rewrite U1 in S. split; [eapply same_trans; eauto|]. split; [rewrite N1; apply Np|]. split; [rewrite N2; apply Np|]. split.
        -- intros x. rewrite R, !R1, mem_cons. destruct (Nat.eqb_spec x q) as [->|Nx].
           ++ rewrite Qn. assert (X1 : eqb q q = true) by apply eqb_refl. assert (X2 : eqb (Some v) (Some v) = true) by apply eqb_refl. rewrite X1, X2. cbn [orb andb].
              destruct (eqb (root (moved new_root np ns (rp s q))) (Some v)) eqn:Z; [|rewrite andb_false_r; reflexivity].
              apply (proj1 (eqb_eq _ _)) in Z. exfalso. apply Hne. rewrite <- Z. unfold moved. destruct new_root; reflexivity.
           ++ destruct (eqb x q) eqn:Z; [apply (proj1 (eqb_eq _ _)) in Z; contradiction|]. reflexivity.
        -- intros x y. rewrite V, V1, R1. cbn [In]. destruct (Nat.eqb_spec y q) as [->|Ny].
           ++ split; [|intros [?|(?&_&?)]; auto]. intros [[?|[? _]]|(?&?&Z)]; auto.
           ++ split; [intros [[?|[? ?]]|(?&?&?)]; auto; contradiction|]. intros [?|(?&[?|?]&?)]; auto; congruence.
Qed.
Lemma mem_vreprs s v q : sinv s -> q < nrep s -> mem q (vreprs s v) && eqb (root (rp s q)) (Some v) = eqb (root (rp s q)) (Some v).
Proof.
  intros I Hq. destruct (eqb (root (rp s q)) (Some v)) eqn:E; [|apply andb_false_r]. rewrite andb_true_r. apply mem_In. apply (s_back _ I). apply (proj1 (eqb_eq _ _)) in E. auto.
Qed.
Lemma var_match_ok s v new_root np ns : sinv s -> new_root <> Some v -> (forall w, new_root = Some w -> w < nvar s) -> (new_root = None -> ns = []) ->
  (forall u, In u (np ++ ns) -> live (us s) u) ->
  exists s', var_match v new_root np ns s = (s', Ok tt) /\ sinv s' /\ same_us (us s) (us s') /\ nvar s' = nvar s /\ nrep s' = nrep s /\
    (forall q, q < nrep s -> rp s' q = if eqb (root (rp s q)) (Some v) then moved new_root np ns (rp s q) else rp s q).
Proof.
  intros I Hne Hw Hs HL. unfold var_match, hbind, hgets.
  destruct (redirect_all_ok v new_root np ns (vreprs s v) Hne s (s_inv _ I) HL) as (s1 & E & S & N1 & N2 & R & V).
  { intros q Hq. left. apply (s_back _ I) in Hq. tauto. }
  rewrite E. exists (set_reprs s1 v []). split; [destruct new_root; [reflexivity|]; rewrite (Hs eq_refl); reflexivity|]. cbn [us nvar nrep rp set_reprs].
  assert (R' : forall q, q < nrep s -> rp s1 q = if eqb (root (rp s q)) (Some v) then moved new_root np ns (rp s q) else rp s q).
  { intros q Hq. rewrite R, mem_vreprs; auto. }
  assert (Rt : forall q, q < nrep s -> root (rp s1 q) <> Some v).
  { intros q Hq. rewrite R' by auto. destruct (eqb (root (rp s q)) (Some v)) eqn:Z.
    - unfold moved. destruct new_root; cbn; congruence.
    - intros X. rewrite X in Z. rewrite eqb_refl in Z. discriminate. }
  split; [|split; [auto|split; [auto|split; [auto|exact R']]]]. split; cbn [us nvar nrep rp set_reprs vreprs].
  - apply S.
  - intros q Hq. rewrite N2 in Hq. rewrite R' by auto. destruct (s_repr _ I q Hq) as (W1 & W2 & W3).
    assert (Lv : forall u, live (us s) u -> live (us s1) u) by (intros u; apply evolves_live; apply S).
    destruct (eqb (root (rp s q)) (Some v)).
    + unfold wf_repr. cbn [us set_reprs nvar]. unfold moved. destruct new_root as [w|]; cbn [pre suf root].
      * split; [|split; [discriminate|intros x Hx; injection Hx as <-; rewrite N1; auto]].
        intros u Hu. apply Lv. rewrite !in_app_iff in Hu. destruct Hu as [[?|?]|[?|?]]; [apply W1|apply HL|apply HL|apply W1]; apply in_app_iff; auto.
      * split; [|split; [auto|discriminate]]. intros u Hu. apply Lv. rewrite !in_app_iff in Hu. destruct Hu as [[?|[?|?]]|[]]; [apply W1|apply HL|apply W1]; apply in_app_iff; auto.
    + split; [auto|split; [auto|]]. intros x Hx. cbn [nvar set_reprs]. rewrite N1. auto.
  - intros x q. unfold upd. destruct (Nat.eqb_spec x v) as [->|Nx].
    + cbn. split; [tauto|]. rewrite N2. intros [Hq Z]. apply (Rt q Hq). auto.
    + rewrite V, N2, (s_back _ I). split.
      * intros [[Hq Hx]|(Hn & Hq & Hr)].
        -- split; auto. rewrite R' by auto. destruct (eqb (root (rp s q)) (Some v)) eqn:Z; auto. apply (proj1 (eqb_eq _ _)) in Z. congruence.
        -- apply (s_back _ I) in Hq as [Hq _]. split; auto. rewrite R' by auto. rewrite Hr, eqb_refl. unfold moved. rewrite Hn. reflexivity.
      * intros [Hq Hx]. rewrite R' in Hx by auto. destruct (eqb (root (rp s q)) (Some v)) eqn:Z; auto. apply (proj1 (eqb_eq _ _)) in Z. right.
        unfold moved in Hx. destruct new_root as [w|]; cbn in Hx; [|discriminate]. split; auto. split; auto. apply (s_back _ I). auto.
Qed.

(** ** Steps *)
Definition extends (s s' : shst) : Prop := sinv s' /\ nrep s' = nrep s /\ nvar s <= nvar s' /\ evolves (us s) (us s').
Lemma extends_refl s : sinv s -> extends s s.
Proof. intros I. split; [auto|]. split; [auto|]. split; [auto|]. apply evolves_refl. apply (s_inv _ I). Qed.
Lemma extends_trans a b c : extends a b -> extends b c -> extends a c.
Proof.
  intros (I1 & N1 & V1 & E1) (I2 & N2 & V2 & E2). split; [auto|]. split; [congruence|]. split; [lia|]. eapply evolves_trans; eauto.
Qed.
(** Nothing that satisfies [C] is lost. *)
Definition keeps (s s' : shst) (C : (nat -> Z) -> (nat -> list Z) -> Prop) : Prop :=
  forall rho tau, sat (us s) rho -> C rho tau ->
  exists tau', sat (us s') rho /\ (forall x, x < nvar s -> tau' x = tau x) /\ forall q, q < nrep s -> den s' rho tau' q = den s rho tau q.
(** Nothing is invented, and [E] holds. *)
Definition yields (s s' : shst) (E : (nat -> Z) -> (nat -> list Z) -> Prop) : Prop :=
  forall rho tau', sat (us s') rho -> exists tau, sat (us s) rho /\ (forall q, q < nrep s -> den s rho tau q = den s' rho tau' q) /\ E rho tau.
Definition replaced (s : shst) (v : nat) (new_root : option nat) (np ns : list nat) (s' : shst) : Prop :=
  sinv s' /\ same_us (us s) (us s') /\ nvar s' = nvar s /\ nrep s' = nrep s /\
  (forall q, q < nrep s -> rp s' q = if eqb (root (rp s q)) (Some v) then moved new_root np ns (rp s q) else rp s q).
Lemma replaced_extends s v nr np ns s' : replaced s v nr np ns s' -> extends s s'.
Proof. intros (I & S & V & N & _). split; [auto|]. split; [auto|]. split; [lia|apply S]. Qed.
Lemma replaced_den s v nr np ns s' rho tau : replaced s v nr np ns s' -> (nr = None -> ns = []) ->
  tau v = map rho np ++ rval tau nr ++ map rho ns -> forall q, q < nrep s -> den s' rho tau q = den s rho tau q.
Proof.
  intros (_ & _ & _ & _ & R) Hn E q Hq. unfold den. rewrite R by auto. destruct (eqb (root (rp s q)) (Some v)) eqn:Z; auto.
  apply (proj1 (eqb_eq _ _)) in Z. eapply moved_den; eauto.
Qed.
Lemma replaced_root s v nr np ns s' q : replaced s v nr np ns s' -> q < nrep s -> root (rp s' q) = if eqb (root (rp s q)) (Some v) then nr else root (rp s q).
Proof.
  intros (_ & _ & _ & _ & R) Hq. rewrite R by auto. destruct (eqb (root (rp s q)) (Some v)); auto. unfold moved. destruct nr; reflexivity.
Qed.
Lemma den_agree s rho tau tau' q : sinv s -> q < nrep s -> (forall x, x < nvar s -> tau' x = tau x) -> den s rho tau' q = den s rho tau q.
Proof.
  intros I Hq H. unfold den, dshape. destruct (s_repr _ I q Hq) as (_ & _ & W). destruct (root (rp s q)) as [v|]; cbn; auto. rewrite H; auto.
Qed.
(** Only the values of variadics that occur matter. *)
Lemma den_occurs s rho tau tau' q : (forall x, root (rp s q) = Some x -> tau' x = tau x) -> den s rho tau' q = den s rho tau q.
Proof.
  intros H. unfold den, dshape. destruct (root (rp s q)) as [v|]; cbn; auto. rewrite H; auto.
Qed.
Lemma new_variadic_ok s : sinv s -> exists s', new_variadic s = (s', Ok (nvar s)) /\ sinv s' /\ us s' = us s /\ rp s' = rp s /\ nrep s' = nrep s /\ nvar s' = S (nvar s).
Proof.
  intros I. eexists. split; [reflexivity|]. cbn. split; [|auto]. split; cbn.
  - apply (s_inv _ I).
  - intros q Hq. destruct (s_repr _ I q Hq) as (W1 & W2 & W3). split; [auto|]. split; [auto|]. intros v Hv. cbn. apply W3 in Hv. lia.
  - intros v q. unfold upd. destruct (Nat.eqb_spec v (nvar s)) as [->|N]; [|apply (s_back _ I)].
    split; [intros []|]. intros [Hq Hr]. destruct (s_repr _ I q Hq) as (_ & _ & W3). apply W3 in Hr. lia.
Qed.
Lemma upd_tau (tau : nat -> list Z) x y v : upd tau x v y = if y =? x then v else tau y.
Proof. reflexivity. Qed.

(** Replacing one variadic by a fresh one between known parts. *)
Lemma fresh_step s v np ns : sinv s -> v < nvar s -> (forall u, In u (np ++ ns) -> live (us s) u) ->
  exists s0 s', new_variadic s = (s0, Ok (nvar s)) /\ var_match v (Some (nvar s)) np ns s0 = (s', Ok tt) /\ extends s s' /\ same_us (us s) (us s') /\ nvar s' = S (nvar s) /\
    replaced s0 v (Some (nvar s)) np ns s' /\ rp s0 = rp s /\ nrep s0 = nrep s /\ us s0 = us s /\
    (forall rho tau, tau v = map rho np ++ tau (nvar s) ++ map rho ns -> forall q, q < nrep s -> den s' rho tau q = den s rho tau q) /\
    (forall q, q < nrep s -> root (rp s' q) = if eqb (root (rp s q)) (Some v) then Some (nvar s) else root (rp s q)).
Proof.
  intros I Hv HL. destruct (new_variadic_ok s I) as (s0 & E0 & I0 & U0 & R0 & N0 & V0).
  destruct (var_match_ok s0 v (Some (nvar s)) np ns I0) as (s' & E & I' & S & V & N & R).
  - intros X. injection X as X. lia.
  - intros w X. injection X as <-. lia.
  - discriminate.
  - rewrite U0. auto.
  - assert (Rp : replaced s0 v (Some (nvar s)) np ns s') by (split; auto). exists s0, s'. do 2 (split; [auto|]). rewrite U0 in S. split; [|split; [auto|split; [lia|split; [auto|split; [auto|split; [auto|split; [auto|split]]]]]]].
    + split; [auto|]. split; [lia|]. split; [lia|apply S].
    + intros rho tau Ht q Hq. rewrite (replaced_den _ _ _ _ _ _ rho tau Rp); [|discriminate|exact Ht|lia]. unfold den. rewrite R0. reflexivity.
    + intros q Hq. rewrite (replaced_root _ _ _ _ _ _ q Rp) by lia. rewrite R0. reflexivity.
Qed.

Lemma identical_sound l1 : forall l2 s rho, sat s rho -> (forall u, In u l1 -> live s u) -> (forall u, In u l2 -> live s u) ->
  identical s l1 l2 = false -> map rho l1 <> map rho l2.
Proof.
  induction l1 as [|a l1 IH]; intros l2 s rho Hs H1 H2; cbn [identical]; [discriminate|]. destruct l2 as [|b l2]; [discriminate|].
  intros H E. cbn [map] in E. injection E as Eab E.
  assert (Pa := proj1 Hs a (H1 a (or_introl eq_refl))). assert (Pb := proj1 Hs b (H2 b (or_introl eq_refl))).
  assert (Rec : identical s l1 l2 = false -> False).
  { intros X. apply (IH l2 s rho Hs) in X; auto; intros u Hu; [apply H1|apply H2]; right; auto. }
  destruct (possible_values s a) as [p|]; auto. destruct (possible_values s b) as [p'|]; auto. destruct (inter p p') as [|z l] eqn:Ei; auto.
  cbn in Pa, Pb. assert (X : In (rho a) (inter p p')) by (apply In_inter; rewrite Eab in *; auto). rewrite Ei in X. destruct X.
Qed.
Lemma find_seq (f : nat -> bool) k : match find f (seq 0 k) with
  | Some i => i < k /\ f i = true /\ forall j, j < i -> f j = false
  | None => forall j, j < k -> f j = false end.
Proof.
  assert (G : forall k b, match find f (seq b k) with Some i => b <= i /\ i < b + k /\ f i = true /\ forall j, b <= j -> j < i -> f j = false | None => forall j, b <= j -> j < b + k -> f j = false end).
  { clear k. induction k as [|k IH]; intros b; cbn; [intros j; lia|]. destruct (f b) eqn:E.
    - split; [lia|]. split; [lia|]. split; [auto|]. intros j; lia.
    - specialize (IH (S b)). destruct (find f (seq (S b) k)) as [i|].
      + destruct IH as (A & B & C & D). split; [lia|]. split; [lia|]. split; [auto|]. intros j J1 J2. destruct (Nat.eq_dec j b) as [->|]; auto. apply D; lia.
      + intros j J1 J2. destruct (Nat.eq_dec j b) as [->|]; auto. apply IH; lia. }
  specialize (G k 0). destruct (find f (seq 0 k)) as [i|].
  - destruct G as (_ & A & B & C). split; [auto|]. split; [auto|]. intros j J. apply C; lia.
  - intros j J. apply G; lia.
Qed.
