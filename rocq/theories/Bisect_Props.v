(** * C43: the bisection brackets the target and finds its whole interval *)
From Coq Require Import List Arith Lia Bool ZArith.
From Verif Require Import Bisect_Model.
Import ListNotations.
Open Scope list_scope. Open Scope nat_scope.

(** What is assumed of points: a total order decided by [aeq], and midpoints between their arguments.  Both hold for integers with floor
    division, for rationals, and for floats other than NaN as long as the sum does not overflow. *)
Record points (A : Type) (aeq : A -> A -> bool) (le : A -> A -> Prop) (mid : A -> A -> A) : Prop := {
  p_eq : forall a b, aeq a b = true <-> a = b;
  p_refl : forall a, le a a;
  p_trans : forall a b c, le a b -> le b c -> le a c;
  p_anti : forall a b, le a b -> le b a -> a = b;
  p_total : forall a b, le a b \/ le b a;
  p_comm : forall a b, mid a b = mid b a;
  p_between : forall a b, le a b -> le a (mid a b) /\ le (mid a b) b }.
(** Function values: a strict total order (no NaN). *)
Record values (D : Type) (veq vlt : D -> D -> bool) : Prop := {
  v_eq : forall x y, veq x y = true <-> x = y;
  v_irr : forall x, vlt x x = false;
  v_trans : forall x y z, vlt x y = true -> vlt y z = true -> vlt x z = true;
  v_total : forall x y, x = y \/ vlt x y = true \/ vlt y x = true }.
(** [f] is non-decreasing between [lo] and [hi]. *)
Definition non_decreasing {A D} (le : A -> A -> Prop) (vlt : D -> D -> bool) (f : A -> D) (lo hi : A) : Prop :=
  forall x y, le lo x -> le x y -> le y hi -> vlt (f y) (f x) = false.
(** [depth a b] bounds the number of bisections between two points: a midpoint strictly inside leaves intervals of smaller depth, and as
    long as some point is strictly inside, the midpoint is. *)
Record resolution (A : Type) (le : A -> A -> Prop) (mid : A -> A -> A) (depth : A -> A -> nat) : Prop := {
  r_sym : forall a b, depth a b = depth b a;
  r_self : forall a, depth a a = 0;
  r_less : forall a b, le a b -> mid a b <> a -> mid a b <> b -> depth a (mid a b) < depth a b /\ depth (mid a b) b < depth a b;
  r_inside : forall a x b, le a x -> le x b -> x <> a -> x <> b -> mid a b <> a /\ mid a b <> b }.

Section Bisect.
Variables (A D : Type) (aeq : A -> A -> bool) (le : A -> A -> Prop) (mid : A -> A -> A) (veq vlt : D -> D -> bool) (f : A -> D).
Hypothesis HA : points A aeq le mid.
Hypothesis HD : values D veq vlt.
Notation search := (search A D aeq mid veq vlt f).
Notation boundary_loop := (boundary_loop A D aeq mid veq f).
Notation find_boundary := (find_boundary A D aeq mid veq f).
Notation binary_search := (binary_search A D aeq mid veq vlt f).
Let refl := p_refl _ _ _ _ HA.
Let trans := p_trans _ _ _ _ HA.
Let anti := p_anti _ _ _ _ HA.
Let btw := p_between _ _ _ _ HA.

Definition within (a b x : A) : Prop := (le a x /\ le x b) \/ (le b x /\ le x a).
Lemma within_mid a b : within a b (mid a b).
Proof.
  destruct (p_total _ _ _ _ HA a b) as [H|H]; [left; auto|right]. rewrite (p_comm _ _ _ _ HA). auto.
Qed.
Lemma within_trans a b x y : within a b x -> within x b y -> within a b y.
Proof.
  intros [[H1 H2]|[H1 H2]] [[H3 H4]|[H3 H4]].
  - left. split; eauto.
  - assert (b = y) by (apply anti; [auto|eapply trans; eauto]). subst. left. split; eauto.
  - assert (b = y) by (apply anti; [eapply trans; eauto|auto]). subst. right. split; eauto.
  - right. split; eauto.
Qed.
Lemma within_trans' a b x y : within a b x -> within a x y -> within a b y.
Proof.
  intros [[H1 H2]|[H1 H2]] [[H3 H4]|[H3 H4]].
  - left. split; eauto.
  - left. split; [eapply trans; eauto|eapply trans; eauto].
  - right. split; eauto.
  - right. split; eauto.
Qed.
Lemma within_self a b : within a b a.
Proof. destruct (p_total _ _ _ _ HA a b); [left|right]; auto. Qed.

Lemma search_inv t k : forall lo hi k' l u o, search t k lo hi = (k', l, u, o) -> le lo hi ->
  le lo l /\ le l u /\ le u hi /\ (forall g, o = Some g -> le l g /\ le g u /\ f g = t /\ k' > 0 /\ l <> u /\ g = mid l u) /\
  (o = None -> k' = 0 \/ l = u).
Proof.
  induction k as [|k IH]; intros lo hi k' l u o; cbn [Bisect_Model.search].
  - intros E H. inversion E; subst. do 3 (split; [auto|]). split; [discriminate|auto].
  - destruct (aeq lo hi) eqn:Q.
    + intros E H. inversion E; subst. do 3 (split; [auto|]). split; [discriminate|]. intros _. right. apply (p_eq _ _ _ _ HA). auto.
    + destruct (veq (f (mid lo hi)) t) eqn:V.
      * intros E H. inversion E; subst. do 3 (split; [auto|]). split; [|discriminate]. intros g Hg. inversion Hg; subst. destruct (btw l u H).
        do 3 (split; [auto; apply (v_eq _ _ _ HD); auto|]). split; [lia|]. split; [|auto]. intros ->. assert (X := proj2 (p_eq _ _ _ _ HA u u) eq_refl). congruence.
      * intros E H. destruct (btw lo hi H) as [B1 B2]. destruct (vlt t (f (mid lo hi))); [|destruct (vlt (f (mid lo hi)) t)]; apply IH in E; auto; destruct E as (E1 & E2 & E3 & E4); do 3 (split; [eauto|]); auto.
Qed.
Lemma boundary_inv t k : forall s b r k', boundary_loop t k s b = (r, k') -> f s = t -> within s b r /\ f r = t /\ k' <= k.
Proof.
  induction k as [|k IH]; intros s b r k'; cbn [Bisect_Model.boundary_loop].
  - intros E H. inversion E; subst. auto using within_self.
  - destruct (negb (aeq s (mid s b)) && negb (aeq (mid s b) b)).
    + destruct (veq (f (mid s b)) t) eqn:V; intros E H; apply IH in E; auto.
      * destruct E as (E1 & E2 & E3). do 2 (split; [eauto using within_trans, within_mid|]). lia.
      * apply (v_eq _ _ _ HD). auto.
      * destruct E as (E1 & E2 & E3). do 2 (split; [eauto using within_trans', within_mid|]). lia.
    + intros E H. inversion E; subst. auto using within_self.
Qed.
Lemma find_boundary_inv k s b r k' : find_boundary s b k = (r, k') -> within s b r /\ f r = f s /\ k' <= k.
Proof.
  unfold Bisect_Model.find_boundary. destruct (veq (f b) (f s)) eqn:V; intros E.
  - inversion E; subst. split; [|split; [apply (v_eq _ _ _ HD); auto|auto]]. destruct (p_total _ _ _ _ HA s r); [left|right]; auto.
  - apply boundary_inv in E; auto.
Qed.
Lemma within_up s b r : le s b -> within s b r -> le s r /\ le r b.
Proof. intros H [[H1 H2]|[H1 H2]]; auto. split; eauto. Qed.
Lemma within_down s b r : le b s -> within s b r -> le b r /\ le r s.
Proof. intros H [[H1 H2]|[H1 H2]]; auto. split; eauto. Qed.

(** The result lies in the interval given, whatever the function. *)
Theorem C43_never_grows : forall t k lo hi l u, le lo hi -> binary_search t k lo hi = (l, u) -> le lo l /\ le l u /\ le u hi.
Proof.
  intros t k lo hi l u H. unfold Bisect_Model.binary_search. destruct (search t k lo hi) as [[[k1 l1] u1] o] eqn:Es.
  destruct (search_inv _ _ _ _ _ _ _ _ Es H) as (H1 & H2 & H3 & Hg & _). destruct o as [g|].
  - destruct (Hg g eq_refl) as (G1 & G2 & _). destruct (find_boundary g u1 k1) as [u2 k2] eqn:E1. destruct (find_boundary g l1 k2) as [l2 k3] eqn:E2.
    intros E. inversion E; subst. apply find_boundary_inv in E1 as (W1 & _). apply find_boundary_inv in E2 as (W2 & _).
    apply within_up in W1; auto. apply within_down in W2; auto. destruct W1, W2. split; [eauto|]. split; eauto.
  - intros E. inversion E; subst. auto.
Qed.

(** If the given interval contains a solution, so does the result. *)
Lemma search_solution t k : forall lo hi k' l u o, search t k lo hi = (k', l, u, o) -> le lo hi -> non_decreasing le vlt f lo hi ->
  forall x, le lo x -> le x hi -> f x = t -> le l x /\ le x u.
Proof.
  induction k as [|k IH]; intros lo hi k' l u o; cbn [Bisect_Model.search].
  - intros E. inversion E; subst. auto.
  - destruct (aeq lo hi) eqn:Q; [intros E; inversion E; subst; auto|]. destruct (veq (f (mid lo hi)) t) eqn:V; [intros E; inversion E; subst; auto|].
    intros E H Hm x X1 X2 X3. destruct (btw lo hi H) as [B1 B2]. set (m := mid lo hi) in *.
    destruct (vlt t (f m)) eqn:Q1; [|destruct (vlt (f m) t) eqn:Q2].
    + apply (IH _ _ _ _ _ _ E); auto; [intros y z Y1 Y2 Y3; apply Hm; eauto|]. destruct (p_total _ _ _ _ HA x m) as [?|C]; auto.
      exfalso. assert (Z := Hm m x B1 C X2). rewrite X3 in Z. congruence.
    + apply (IH _ _ _ _ _ _ E); auto; [intros y z Y1 Y2 Y3; apply Hm; eauto|]. destruct (p_total _ _ _ _ HA x m) as [C|?]; auto.
      exfalso. assert (Z := Hm x m X1 C B2). rewrite X3 in Z. congruence.
    + apply (IH _ _ _ _ _ _ E); auto.
Qed.
Theorem C43_bracket : forall t k lo hi l u, le lo hi -> non_decreasing le vlt f lo hi -> binary_search t k lo hi = (l, u) ->
  (exists x, le lo x /\ le x hi /\ f x = t) -> exists x, le l x /\ le x u /\ f x = t.
Proof.
  intros t k lo hi l u H Hm. unfold Bisect_Model.binary_search. destruct (search t k lo hi) as [[[k1 l1] u1] o] eqn:Es.
  destruct (search_inv _ _ _ _ _ _ _ _ Es H) as (H1 & H2 & H3 & Hg & _). destruct o as [g|].
  - destruct (Hg g eq_refl) as (G1 & G2 & G3 & _). destruct (find_boundary g u1 k1) as [u2 k2] eqn:E1. destruct (find_boundary g l1 k2) as [l2 k3] eqn:E2.
    intros E _. inversion E; subst. apply find_boundary_inv in E1 as (W1 & _). apply find_boundary_inv in E2 as (W2 & _).
    apply within_up in W1; auto. apply within_down in W2; auto. exists g. tauto.
  - intros E (x & X1 & X2 & X3). injection E as <- <-. exists x. destruct (search_solution _ _ _ _ _ _ _ _ Es H Hm x X1 X2 X3). auto.
Qed.

(** A search that stops on a hit: both ends have the target value, and so
    has everything between them. *)
Theorem C43_hit : forall t k lo hi l u, le lo hi -> non_decreasing le vlt f lo hi -> binary_search t k lo hi = (l, u) ->
  (exists k' l' u' g, search t k lo hi = (k', l', u', Some g)) -> f l = t /\ f u = t /\ forall x, le l x -> le x u -> f x = t.
Proof.
  intros t k lo hi l u H Hm Hb (k1 & l1 & u1 & g & Es). assert (N := C43_never_grows _ _ _ _ _ _ H Hb). unfold Bisect_Model.binary_search in Hb. rewrite Es in Hb.
  destruct (search_inv _ _ _ _ _ _ _ _ Es H) as (H1 & H2 & H3 & Hg & _). destruct (Hg g eq_refl) as (G1 & G2 & G3 & _).
  destruct (find_boundary g u1 k1) as [u2 k2] eqn:E1. destruct (find_boundary g l1 k2) as [l2 k3] eqn:E2. inversion Hb; subst.
  apply find_boundary_inv in E1 as (_ & F1 & _). apply find_boundary_inv in E2 as (_ & F2 & _). split; auto. split; auto. intros x X1 X2. destruct N as (N1 & N2 & N3).
  assert (A1 := Hm l x N1 X1 (trans _ _ _ X2 N3)). assert (A2 := Hm x u (trans _ _ _ N1 X1) X2 N3).
  rewrite F1 in A2. rewrite F2 in A1. destruct (v_total _ _ _ HD (f x) (f g)) as [?|[?|?]]; congruence.
Qed.

(** With enough iterations, and a solution strictly inside the given interval, the result is exactly the set of solutions. *)
Variable depth : A -> A -> nat.
Hypothesis HR : resolution A le mid depth.

Lemma aeq_false a b : aeq a b = false <-> a <> b.
Proof.
  split; intros H.
  - intros ->. assert (X := proj2 (p_eq _ _ _ _ HA b b) eq_refl). congruence.
  - destruct (aeq a b) eqn:E; auto. apply (p_eq _ _ _ _ HA) in E. contradiction.
Qed.
Lemma search_finds t k : forall lo hi, le lo hi -> non_decreasing le vlt f lo hi -> (exists x, le lo x /\ le x hi /\ x <> lo /\ x <> hi /\ f x = t) -> depth lo hi < k ->
  exists k' l u g, search t k lo hi = (k', l, u, Some g) /\ k + depth l u <= k' + depth lo hi /\ k' <= k.
Proof.
  induction k as [|k IH]; intros lo hi H Hm (x & X1 & X2 & X3 & X4 & X5) Hk; [lia|]. cbn [Bisect_Model.search].
  destruct (r_inside _ _ _ _ HR lo x hi X1 X2 X3 X4) as [N1 N2].
  assert (Q : aeq lo hi = false). { apply aeq_false. intros ->. apply X3. apply anti; auto. }
  rewrite Q. destruct (veq (f (mid lo hi)) t) eqn:V; [exists (S k), lo, hi, (mid lo hi); split; [auto|lia]|].
  assert (Vn : f (mid lo hi) <> t). { intros E. apply (v_eq _ _ _ HD) in E. congruence. }
  destruct (btw lo hi H) as [B1 B2]. destruct (r_less _ _ _ _ HR lo hi H N1 N2) as [D1 D2]. set (m := mid lo hi) in *.
  assert (Xm : x <> m) by congruence.
  destruct (vlt t (f m)) eqn:Q1; [|destruct (vlt (f m) t) eqn:Q2].
  - destruct (IH lo m) as (k' & l & u & g & E & L); auto; [intros y z Y1 Y2 Y3; apply Hm; eauto| |lia|exists k', l, u, g; split; [auto|lia]].
    exists x. do 1 (split; [auto|]). split; [|auto]. destruct (p_total _ _ _ _ HA x m) as [?|C]; auto.
    exfalso. assert (Z := Hm m x B1 C X2). rewrite X5 in Z. congruence.
  - destruct (IH m hi) as (k' & l & u & g & E & L); auto; [intros y z Y1 Y2 Y3; apply Hm; eauto| |lia|exists k', l, u, g; split; [auto|lia]].
    exists x. split; [|auto]. destruct (p_total _ _ _ _ HA x m) as [C|?]; auto.
    exfalso. assert (Z := Hm x m X1 C B2). rewrite X5 in Z. congruence.
  - exfalso. destruct (v_total _ _ _ HD (f m) t) as [?|[?|?]]; congruence.
Qed.
(** What the boundary search leaves: no solution strictly between the result and some point without the target value. *)
Lemma boundary_maximal t k : forall s b r k', boundary_loop t k s b = (r, k') -> f s = t -> f b <> t -> depth s b < k ->
  k <= k' + depth s b /\ exists b', within r b b' /\ f b' <> t /\ (forall y, within r b' y -> y = r \/ y = b').
Proof.
  induction k as [|k IH]; intros s b r k'; [lia|]. cbn [Bisect_Model.boundary_loop]. intros E Hs Hb Hk.
  assert (Dm : mid s b <> s -> mid s b <> b -> depth s (mid s b) < depth s b /\ depth (mid s b) b < depth s b).
  { intros N1 N2. destruct (p_total _ _ _ _ HA s b) as [L|L]; [apply (r_less _ _ _ _ HR); auto|].
    rewrite (p_comm _ _ _ _ HA s b) in *. destruct (r_less _ _ _ _ HR b s L) as [D1 D2]; auto.
    rewrite (r_sym _ _ _ _ HR s (mid b s)), (r_sym _ _ _ _ HR (mid b s) b), (r_sym _ _ _ _ HR s b). lia. }
  destruct (negb (aeq s (mid s b)) && negb (aeq (mid s b) b)) eqn:Q.
  - apply andb_true_iff in Q as [Q1 Q2]. apply negb_true_iff in Q1, Q2. apply aeq_false in Q1, Q2. destruct Dm as [D1 D2]; auto.
    destruct (veq (f (mid s b)) t) eqn:V.
    + apply (v_eq _ _ _ HD) in V. destruct (IH _ _ _ _ E V Hb) as (K & b' & W & P1 & P2); [lia|]. split; [lia|]. exists b'. auto.
    + assert (Vn : f (mid s b) <> t). { intros X. apply (v_eq _ _ _ HD) in X. congruence. }
      destruct (IH _ _ _ _ E Hs Vn) as (K & b' & W & P1 & P2); [lia|]. split; [lia|]. exists b'. split; [|auto].
      apply boundary_inv in E as (Wr & _); auto.
      (* r within s m, b' within r m, m within s b: b' within r b *)
      assert (Wm := within_mid s b). set (m := mid s b) in *. clearbody m. clear - W Wr Wm trans anti.
      destruct Wm as [[M1 M2]|[M1 M2]].
      * apply within_up in Wr as [R1 R2]; auto. apply within_up in W as [U1 U2]; auto. left. split; eauto.
      * apply within_down in Wr as [R1 R2]; auto. apply within_down in W as [U1 U2]; auto. right. split; eauto.
  - inversion E; subst. split; [lia|]. exists b. split; [destruct (p_total _ _ _ _ HA r b); [left|right]; auto|]. split; auto.
    intros y Wy. assert (Mid : mid r b = r \/ mid r b = b).
    { apply andb_false_iff in Q as [Q|Q]; apply negb_false_iff in Q; apply (p_eq _ _ _ _ HA) in Q; auto. }
    destruct (aeq y r) eqn:Y1; [left; apply (p_eq _ _ _ _ HA); auto|]. destruct (aeq y b) eqn:Y2; [right; apply (p_eq _ _ _ _ HA); auto|].
    apply aeq_false in Y1, Y2. exfalso. destruct Wy as [[W1 W2]|[W1 W2]].
    + destruct (r_inside _ _ _ _ HR r y b W1 W2 Y1 Y2). destruct Mid; contradiction.
    + destruct (r_inside _ _ _ _ HR b y r W1 W2 Y2 Y1) as [I1 I2]. rewrite (p_comm _ _ _ _ HA) in Mid. destruct Mid; contradiction.
Qed.
Lemma find_boundary_maximal k s b r k' : find_boundary s b k = (r, k') -> depth s b < k ->
  k <= k' + depth s b /\ (r = b \/ exists b', within r b b' /\ f b' <> f s /\ (forall y, within r b' y -> y = r \/ y = b')).
Proof.
  unfold Bisect_Model.find_boundary. destruct (veq (f b) (f s)) eqn:V; intros E Hk.
  - inversion E; subst. split; [lia|auto].
  - assert (Vn : f b <> f s). { intros X. apply (v_eq _ _ _ HD) in X. congruence. }
    destruct (boundary_maximal _ _ _ _ _ _ E eq_refl Vn Hk). auto.
Qed.

Theorem C43_exact : forall t k lo hi l u, le lo hi -> non_decreasing le vlt f lo hi -> binary_search t k lo hi = (l, u) ->
  (exists x, le lo x /\ le x hi /\ x <> lo /\ x <> hi /\ f x = t) -> 2 * depth lo hi < k ->
  forall x, le lo x -> le x hi -> (f x = t <-> le l x /\ le x u).
Proof.
  intros t k lo hi l u H Hm Hb Hx Hk. destruct (search_finds t k lo hi H Hm Hx) as (k1 & l1 & u1 & g & Es & Hd & Hd'); [lia|].
  destruct (C43_hit t k lo hi l u H Hm Hb) as (Fl & Fu & Fin); [eauto|]. intros x X1 X2. split; [|intros []; auto].
  intros Fx. assert (Sx := search_solution _ _ _ _ _ _ _ _ Es H Hm x X1 X2 Fx).
  unfold Bisect_Model.binary_search in Hb. rewrite Es in Hb.
  destruct (search_inv _ _ _ _ _ _ _ _ Es H) as (H1 & H2 & H3 & Hg & _). destruct (Hg g eq_refl) as (G1 & G2 & G3 & G4 & G5 & G6).
  (* depths of the two halves *)
  assert (Dp : depth g u1 <= depth l1 u1 /\ depth g l1 <= depth l1 u1).
  { destruct (aeq g l1) eqn:Q1; [apply (p_eq _ _ _ _ HA) in Q1|apply aeq_false in Q1; destruct (aeq g u1) eqn:Q2; [apply (p_eq _ _ _ _ HA) in Q2|apply aeq_false in Q2]].
    - rewrite Q1. rewrite (r_self _ _ _ _ HR). lia.
    - rewrite Q2. rewrite (r_self _ _ _ _ HR), (r_sym _ _ _ _ HR u1). lia.
    - subst g. destruct (r_less _ _ _ _ HR l1 u1 H2 Q1 Q2). rewrite (r_sym _ _ _ _ HR _ l1). lia. }
  destruct (find_boundary g u1 k1) as [u2 k2] eqn:E1. destruct (find_boundary g l1 k2) as [l2 k3] eqn:E2. inversion Hb; subst l2 u2. clear Hb.
  destruct (find_boundary_maximal _ _ _ _ _ E1) as [K1 M1]; [lia|]. destruct (find_boundary_maximal _ _ _ _ _ E2) as [K2 M2]; [lia|].
  apply find_boundary_inv in E1 as (W1 & _ & _). apply find_boundary_inv in E2 as (W2 & _ & _). apply within_up in W1 as [W1 W1']; auto. apply within_down in W2 as [W2 W2']; auto.
  destruct Sx as [S1 S2]. split.
  - destruct M2 as [->|(b' & B1 & B2 & B3)]; auto. destruct (p_total _ _ _ _ HA l x) as [?|C]; auto. apply within_down in B1 as [B1 B1']; auto.
    destruct (p_total _ _ _ _ HA b' x) as [C'|C'].
    + destruct (B3 x) as [->| ->]; [right; auto|auto|congruence].
    + exfalso. apply B2. rewrite G3. destruct (v_total _ _ _ HD (f b') t) as [?|[Q|Q]]; auto.
      * assert (Z := Hm x b' X1 C' (trans _ _ _ B1' (trans _ _ _ (trans _ _ _ W2' W1) (trans _ _ _ W1' H3)))). rewrite Fx in Z. congruence.
      * assert (Z := Hm b' l (trans _ _ _ H1 B1) B1' (trans _ _ _ (trans _ _ _ W2' W1) (trans _ _ _ W1' H3))). rewrite Fl in Z. congruence.
  - destruct M1 as [->|(b' & B1 & B2 & B3)]; auto. destruct (p_total _ _ _ _ HA x u) as [?|C]; auto. apply within_up in B1 as [B1 B1']; auto.
    destruct (p_total _ _ _ _ HA x b') as [C'|C'].
    + destruct (B3 x) as [->| ->]; [left; auto|auto|congruence].
    + exfalso. apply B2. rewrite G3. destruct (v_total _ _ _ HD (f b') t) as [?|[Q|Q]]; auto.
      * assert (Z := Hm u b' (trans _ _ _ (trans _ _ _ H1 G1) W1) B1 (trans _ _ _ B1' H3)). rewrite Fu in Z. congruence.
      * assert (Z := Hm b' x (trans _ _ _ (trans _ _ _ (trans _ _ _ H1 G1) W1) B1) C' X2). rewrite Fx in Z. congruence.
Qed.
End Bisect.

(** Integers with floor division meet the assumptions. *)
Definition zmid (a b : Z) : Z := ((a + b) / 2)%Z.
Definition zdepth (a b : Z) : nat := Z.to_nat (Z.abs (a - b)).
Lemma z_points : points Z Z.eqb Z.le zmid.
Proof.
  split; unfold zmid; intros; try lia; try (apply Z.eqb_eq); try (f_equal; lia); Z.div_mod_to_equations; lia.
Qed.
Lemma z_values : values Z Z.eqb Z.ltb.
Proof. split; intros; try apply Z.eqb_eq; try lia; try (apply Z.ltb_irrefl). Qed.
Lemma z_resolution : resolution Z Z.le zmid zdepth.
Proof. split; unfold zmid, zdepth; intros; try lia; Z.div_mod_to_equations; lia. Qed.
Example C43_example :
  non_decreasing Z.le Z.ltb (fun x => (x / 10)%Z) 0%Z 100%Z /\ 2 * zdepth 0 100 < 1000 /\
  binary_search Z Z Z.eqb zmid Z.eqb Z.ltb (fun x => (x / 10)%Z) 3%Z 1000 0%Z 100%Z = (30, 39)%Z.
Proof.
  split; [|split; [vm_compute; lia|vm_compute; reflexivity]]. intros x y H1 H2 H3. apply Z.ltb_ge. apply Z.div_le_mono; lia.
Qed.
(** Finding: a solution that is only at an end of the given interval may be missed however many iterations are allowed; the result then
    still brackets it, but the ends do not have the target value. *)
Theorem C43_end_refuted : ~ forall (f : Z -> Z) t lo hi, (lo <= hi)%Z -> non_decreasing Z.le Z.ltb f lo hi -> (exists x, (lo <= x <= hi)%Z /\ f x = t) ->
  exists k l u, binary_search Z Z Z.eqb zmid Z.eqb Z.ltb f t k lo hi = (l, u) /\ f l = t /\ f u = t.
Proof.
  intros H. destruct (H (fun x => x) 1%Z 0%Z 1%Z) as (k & l & u & E & El & Eu); [lia| |exists 1%Z; lia|].
  - intros x y _ H2 _. apply Z.ltb_ge. auto.
  - assert (S : forall k, exists k', Bisect_Model.search Z Z Z.eqb zmid Z.eqb Z.ltb (fun x => x) 1%Z k 0%Z 1%Z = (k', 0%Z, 1%Z, None)).
    { induction k0 as [|k0 [k' IH]]; [exists 0; reflexivity|]. exists k'. rewrite <- IH. reflexivity. }
    destruct (S k) as [k' E']. unfold binary_search in E. rewrite E' in E. inversion E. subst. discriminate.
Qed.

Print Assumptions C43_never_grows.
Print Assumptions C43_bracket.
Print Assumptions C43_hit.
Print Assumptions C43_exact.
Print Assumptions C43_end_refuted.
