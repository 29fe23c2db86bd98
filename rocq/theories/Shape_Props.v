(** * C23: unification of symbolic shapes *)
From Coq Require Import List Arith Lia Bool ZArith.
From Verif Require Import PyBase Uniadic_Model Uniadic_Proofs Uniadic_Props Bcast_Proofs Shape_Model Shape_Proofs Shape_Proofs2 Shape_Proofs3.
Import ListNotations.
Open Scope list_scope. Open Scope nat_scope. Open Scope shm_scope.

(** ** Sessions: any sequence of successful creations and unifications *)
Inductive shop :=
| ODim (v : option Z)                    (* Uniadic(v) *)
| OVar                                   (* Variadic() *)
| ORepr (r : shrepr)                     (* ShapeRepr(prefix, root, suffix) *)
| OUpd (u : nat) (vals : option zset)    (* uniadic.update_possible_values(vals) *)
| OUni (u v : nat)                       (* uniadic.match(uniadic) *)
| OMatch (q q' : nat)                    (* repr.match(repr) *)
| OInner (q : nat) (r : shrepr)          (* repr.inner_match(prefix, root, suffix) *)
| OSet (q : nat) (vals : list (option Z))  (* repr.set_values(vals) *)
| OMerge (A B : list nat)                (* node.merge(node) *)
| OCombine (qs : list nat).              (* node.combine() *)
Definition exec (op : shop) : shm unit :=
  match op with
  | ODim v => do _ <- lift (new_uniadic (option_map (fun n => [n]) v)); hret tt
  | OVar => do _ <- new_variadic; hret tt
  | ORepr r => do _ <- new_repr r; hret tt
  | OUpd u vals => do _ <- lift (update_possible_values u vals); hret tt
  | OUni u v => do _ <- lift (uni_match u v); hret tt
  | OMatch q q' => repr_match q q'
  | OInner q r => inner_match q r
  | OSet q vals => set_values q vals
  | OMerge A B => do _ <- node_merge A B; hret tt
  | OCombine qs => do _ <- node_combine qs; hret tt
  end.
(** Objects that are used exist; nodes have no representation in common. *)
Definition valid (s : shst) (op : shop) : Prop :=
  match op with
  | ODim _ | OVar => True
  | ORepr r => wf_repr s r
  | OUpd u vals => live (us s) u /\ is_set vals
  | OUni u v => live (us s) u /\ live (us s) v
  | OMatch q q' => q < nrep s /\ q' < nrep s
  | OInner q r => q < nrep s /\ wf_repr s r
  | OSet q _ => q < nrep s
  | OMerge A B => (forall q, In q (A ++ B) -> q < nrep s) /\ NoDup (A ++ B)
  | OCombine qs => (forall q, In q qs -> q < nrep s) /\ NoDup qs
  end.
Inductive reach : shst -> Prop :=
| reach_0 : reach no_shapes
| reach_step s op s' : reach s -> valid s op -> exec op s = (s', Ok tt) -> reach s'.

(** ** What a state allows: sizes of the dimensions and a concrete shape for each representation, for some choice of what the
    variadics stand for *)
Definition allows_on (Q : nat -> Prop) (s : shst) (rho : nat -> Z) (sh : nat -> list Z) : Prop :=
  sat (us s) rho /\ exists tau, forall q, q < nrep s -> Q q -> map rho (pre (rp s q)) ++ (match root (rp s q) with Some v => tau v | None => [] end) ++ map rho (suf (rp s q)) = sh q.
Definition allows : shst -> (nat -> Z) -> (nat -> list Z) -> Prop := allows_on (fun _ => True).
Definition known_as (v : option Z) (x : Z) : Prop := match v with Some n => x = n | None => True end.

Lemma sinv_nil : sinv no_shapes.
Proof. split; cbn; [apply inv_nil|lia|]. intros v q. split; [intros []|lia]. Qed.

(** Values for new dimensions *)
Lemma assign (rho : nat -> Z) l : forall xs, NoDup l -> length xs = length l -> exists rho', map rho' l = xs /\ forall u, ~ In u l -> rho' u = rho u.
Proof.
  induction l as [|u l IH]; intros [|x xs] ND Len; try discriminate; [exists rho; auto|]. inversion ND as [|? ? Nu ND']; subst. cbn in Len.
  destruct (IH xs ND') as (r & M & O); [lia|]. exists (upd r u x). split.
  - cbn [map]. rewrite upd_same. f_equal. rewrite <- M. apply map_ext_in. intros y Hy. apply upd_other. intros ->. contradiction.
  - intros y Hy. rewrite upd_other by (intros ->; apply Hy; left; auto). apply O. intros H. apply Hy. right; auto.
Qed.
Lemma den_rho s rho rho' tau q : sinv s -> q < nrep s -> (forall u, live (us s) u -> rho' u = rho u) -> den s rho' tau q = den s rho tau q.
Proof.
  intros I Hq H. destruct (s_repr _ I q Hq) as (W & _). unfold den, dshape.
  rewrite (map_ext_in rho' rho (pre (rp s q))) by (intros u Hu; apply H, W, in_app_iff; auto). rewrite (map_ext_in rho' rho (suf (rp s q))) by (intros u Hu; apply H, W, in_app_iff; auto). auto.
Qed.
Lemma fits_len vals xs : Forall2 fitsv vals xs -> length xs = length vals.
Proof. intros F. induction F; cbn; congruence. Qed.

Lemma set_values_ok q vals s : sinv s -> q < nrep s ->
  match set_values q vals s with
  | (s', Ok _) => sinv s' /\ nrep s' = nrep s /\
      (forall rho tau', sat (us s') rho -> exists tau, sat (us s) rho /\ (forall x, x < nrep s -> den s rho tau x = den s' rho tau' x) /\ Forall2 fitsv vals (den s rho tau q)) /\
      (forall rho tau, sat (us s) rho -> Forall2 fitsv vals (den s rho tau q) ->
         exists rho' tau', (forall u, live (us s) u -> rho' u = rho u) /\ sat (us s') rho' /\ forall x, x < nrep s -> den s' rho' tau' x = den s rho tau x)
  | (_, Err e) => e = ValueError /\ forall rho tau, sat (us s) rho -> ~ Forall2 fitsv vals (den s rho tau q)
  end.
Proof.
  intros I Hq. destruct (s_repr _ I q Hq) as (W1 & W2 & W3). destruct (root (rp s q)) as [v|] eqn:R.
  - rewrite (set_values_rooted q vals s v R). unfold hbind.
    destruct (new_uniadics_ok vals s (s_inv _ I)) as (u' & l & E & G & L & ND & Len & S). rewrite E.
    assert (I1 := with_us_grow s u' I G).
    assert (O := inner_match_ok (with_us s u') q (mkshape l None []) I1 Hq). unfold outcome in O.
    assert (Wl : wf_repr (with_us s u') (mkshape l None [])). { split; [|split; [auto|discriminate]]. cbn. intros x Hx. rewrite app_nil_r in Hx. apply L; auto. }
    specialize (O Wl). assert (Ceql : forall rho tau, Ceq (with_us s u') q (mkshape l None []) rho tau <-> den s rho tau q = map rho l).
    { intros rho tau. unfold Ceq, dshape. cbn. rewrite app_nil_r. rewrite den_with_us. tauto. }
    assert (Ext : forall rho tau, sat (us s) rho -> Forall2 fitsv vals (den s rho tau q) ->
      exists rho', (forall u, live (us s) u -> rho' u = rho u) /\ sat u' rho' /\ (forall x, x < nrep s -> den s rho' tau x = den s rho tau x) /\ map rho' l = den s rho tau q).
    { intros rho tau Hs F. destruct (assign rho l (den s rho tau q) ND) as (rho' & M & O'); [rewrite Len; apply fits_len; auto|].
      assert (Ag : forall u, live (us s) u -> rho' u = rho u). { intros u Hu. apply O'. intros H. apply (proj2 (L u H)). auto. }
      exists rho'. split; [auto|]. split; [|split; [|auto]].
      - apply S. split; [|rewrite M; auto]. eapply sat_ext; [|exact Hs]. intros u Hu. symmetry. auto.
      - intros x Hx. apply den_rho; auto. }
    destruct (inner_match q (mkshape l None []) (with_us s u')) as [s' [[]|e]]; cbn [fst snd] in O.
    + destruct O as (X & K & Y). assert (Y' : yields (with_us s u') s' (Ceq (with_us s u') q (mkshape l None []))). { destruct Y as [Y|((_ & N & _) & _)]; [auto|cbn in N; congruence]. }
      split; [apply X|]. split; [apply X|]. split.
      * intros rho tau' Hs. destruct (Y' rho tau' Hs) as (tau & Hs1 & D & C). apply S in Hs1 as [Hs1 F]. exists tau. split; [auto|]. split; [exact D|]. apply Ceql in C. rewrite C. auto.
      * intros rho tau Hs F. destruct (Ext rho tau Hs F) as (rho' & Ag & Hs' & Dr & M). destruct (K rho' tau Hs') as (tau' & Hs2 & _ & D).
        { apply Ceql. rewrite Dr by auto. auto. }
        exists rho', tau'. split; [auto|]. split; [auto|]. intros x Hx. rewrite D by auto. rewrite den_with_us. auto.
    + destruct O as [-> O]. split; [auto|]. intros rho tau Hs F. destruct (Ext rho tau Hs F) as (rho' & Ag & Hs' & Dr & M). apply (O rho' tau Hs'). apply Ceql. rewrite Dr by auto. auto.
  - unfold set_values. rewrite R. assert (Ed : forall rho tau, den s rho tau q = map rho (pre (rp s q))). { intros. unfold den, dshape. rewrite R, (W2 eq_refl). cbn. apply app_nil_r. }
    destruct (Nat.eqb_spec (length vals) (length (pre (rp s q)))) as [Len|Len].
    + destruct (set_each_ok (pre (rp s q)) vals s (s_inv _ I)) as (u' & r & E & V & S); [intros u Hu; apply W1, in_app_iff; auto|auto|]. rewrite E. destruct r as [[]|e].
      * split; [apply with_us_sinv; auto|]. split; [auto|]. split.
        -- intros rho tau' Hs. exists tau'. apply S in Hs as [Hs F]. split; [auto|]. split; [auto|]. rewrite Ed. auto.
        -- intros rho tau Hs F. exists rho, tau. split; [auto|]. split; [apply S; rewrite Ed in F; auto|auto].
      * destruct S as [-> S]. split; [auto|]. intros rho tau Hs. rewrite Ed. auto.
    + split; [auto|]. intros rho tau Hs F. apply Len. rewrite Ed in F. apply fits_len in F. rewrite map_length in F. auto.
Qed.

Lemma node_combine_ok L s : sinv s -> (forall q, In q L -> q < nrep s) -> NoDup L ->
  match node_combine L s with
  | (s', Ok R) => exists same, sinv s' /\ nrep s' = nrep s /\ incl same L /\ (forall q, In q R <-> In q L /\ ~ In q same) /\
      (forall rho tau x, sat (us s) rho -> (forall q, In q L -> den s rho tau q = x) ->
         exists tau', sat (us s') rho /\ forall q, q < nrep s -> ~ In q same -> den s' rho tau' q = den s rho tau q) /\
      (forall rho tau' x, sat (us s') rho -> (forall q, In q R -> den s' rho tau' q = x) ->
         exists tau, sat (us s) rho /\ (forall q, q < nrep s -> ~ In q same -> den s rho tau q = den s' rho tau' q) /\ forall q, In q L -> den s rho tau q = x)
  | (_, Err e) => e = ValueError /\ forall rho tau x, sat (us s) rho -> ~ (forall q, In q L -> den s rho tau q = x)
  end.
Proof.
  intros I HL ND. unfold node_combine, hbind. assert (C := combine_loop_ok L (pairs L) [] s I HL).
  assert (Hp : forall a b, In (a, b) (pairs L) -> In a L /\ In b L /\ a <> b). { intros a b H. apply in_pairs in H as (H1 & H2 & H3). auto. } specialize (C Hp).
  destruct (combine_loop (pairs L) [] s) as [s' [same|e]].
  - unfold hret. destruct C as (I' & N & V & E & _ & In2 & F & B). exists same. split; [auto|]. split; [auto|]. split; [intros q Hq; destruct (In2 q Hq) as [[]|]; auto|].
    assert (RR : forall q, In q (filter (fun q => negb (mem q same)) L) <-> In q L /\ ~ In q same).
    { intros q. rewrite filter_In, negb_true_iff. split; intros [H1 H2]; split; auto; [intros H; apply mem_In in H; congruence|]. destruct (mem q same) eqn:M; auto. apply mem_In in M. contradiction. }
    split; [exact RR|]. split.
    + intros rho tau x Hs A. apply (F rho tau x); auto.
    + intros rho tau' x Hs A. destruct (B rho tau' x Hs) as (tau & Hs' & D & A'); [intros q Hq Hn; apply A, RR; auto|]. exists tau. split; [auto|]. split; [auto|]. intros q Hq. apply A'; auto.
  - destruct C as [-> C]. split; [auto|]. intros rho tau x Hs A. apply (C rho tau x Hs). auto.
Qed.

Lemma exec_inv s op s' : sinv s -> valid s op -> exec op s = (s', Ok tt) -> sinv s'.
Proof.
  intros I V E. destruct op as [v| |r|u vals|u v|q q'|q r|q vals|A B|qs]; cbn [exec] in E.
  - destruct (new_uniadic_ok (us s) v (s_inv _ I)) as (u1 & E1 & G1 & _). unfold hbind, lift, hret in E. rewrite E1 in E. injection E as <-. apply with_us_grow; auto.
  - destruct (new_variadic_ok s I) as (s1 & E1 & I1 & _). unfold hbind, hret in E. rewrite E1 in E. injection E as <-. auto.
  - destruct (new_repr_ok r s I V) as (s1 & E1 & I1 & _). unfold hbind, hret in E. rewrite E1 in E. injection E as <-. auto.
  - destruct V as [L Sv]. assert (P := update_imposes (us s) u vals (s_inv _ I) L Sv). apply imposes_evolves in P; [|apply I]. unfold hbind, lift, hret in E.
    destruct (update_possible_values u vals (us s)) as [u1 [x|e]]; [|discriminate]. injection E as <-. apply with_us_sinv; auto.
  - destruct V as [L Lv]. destruct (uni_match_imposes (us s) u v (s_inv _ I) L Lv) as [P _]. apply imposes_evolves in P; [|apply I]. unfold hbind, lift, hret in E.
    destruct (uni_match u v (us s)) as [u1 [x|e]]; [|discriminate]. injection E as <-. apply with_us_sinv; auto.
  - destruct V as [Hq Hq']. assert (M := match_ok s q q' I Hq Hq'). rewrite E in M. apply M.
  - destruct V as [Hq W]. assert (M := inner_match_ok s q r I Hq W). rewrite E in M. apply M.
  - assert (M := set_values_ok q vals s I V). rewrite E in M. apply M.
  - destruct V as [H N]. assert (M := node_merge_ok A B s I H N). unfold hbind, hret in E. destruct (node_merge A B s) as [s1 [R|e]]; [|discriminate]. injection E as <-. destruct M as (res & I1 & _). auto.
  - destruct V as [H N]. assert (M := node_combine_ok qs s I H N). unfold hbind, hret in E. destruct (node_combine qs s) as [s1 [R|e]]; [|discriminate]. injection E as <-. destruct M as (res & I1 & _). auto.
Qed.
Lemma reach_inv s : reach s -> sinv s.
Proof. induction 1 as [|s op s' _ I V E]; [apply sinv_nil|eapply exec_inv; eauto]. Qed.

(** ** Unification of two representations.  In whatever state the session is: every combination of concrete shapes that gives both the
    same shape survives, nothing new is allowed, and — unless one of the two has the longer prefix and the other the longer suffix —
    afterwards both always have the same shape.  A failure means that no allowed combination makes them equal. *)
Theorem C23_match : forall s q q', reach s -> q < nrep s -> q' < nrep s ->
  match repr_match q q' s with
  | (s', Ok _) =>
      reach s' /\ nrep s' = nrep s /\
      (forall rho sh, allows s rho sh -> sh q = sh q' -> allows s' rho sh) /\
      (forall rho sh, allows s' rho sh -> allows s rho sh) /\
      (~ crossing (rp s q) (rp s q') -> forall rho sh, allows s' rho sh -> sh q = sh q')
  | (_, Err e) => e = ValueError /\ forall rho sh, allows s rho sh -> sh q <> sh q'
  end.
Proof.
  intros s q q' R Hq Hq'. assert (I := reach_inv s R). assert (M := match_ok s q q' I Hq Hq').
  assert (RS : forall s', repr_match q q' s = (s', Ok tt) -> reach s'). { intros s' E. eapply reach_step with (op := OMatch q q'); eauto. split; auto. }
  destruct (repr_match q q' s) as [s' [[]|e]].
  - destruct M as (X & K & Y & Z). assert (N : nrep s' = nrep s) by apply X. split; [auto|]. split; [auto|]. split; [|split].
    + intros rho sh [Hs (tau & H)] E. destruct (K rho tau Hs) as (tau' & Hs' & _ & D); [unfold den, dshape, rval; rewrite !H; auto|].
      split; [auto|]. exists tau'. intros x Hx _. rewrite N in Hx. rewrite <- H by auto. apply D. auto.
    + intros rho sh [Hs (tau' & H)]. destruct (Y rho tau' Hs) as (tau & Hs' & D & _). split; [auto|]. exists tau. intros x Hx _. rewrite <- H by (auto || lia). apply D. auto.
    + intros Nc rho sh [Hs (tau' & H)]. destruct (Z (or_intror Nc) rho tau' Hs) as (tau & Hs' & D & E). rewrite <- !H by (auto || lia). rewrite !D in E by auto. exact E.
  - destruct M as [-> M]. split; [auto|]. intros rho sh [Hs (tau & H)] E. apply (M rho tau Hs). unfold den, dshape, rval. rewrite !H; auto.
Qed.

(** Unification with a list of dimensions, the way inference rules do it: exact. *)
Theorem C23_match_dims : forall s q l, reach s -> q < nrep s -> (forall u, In u l -> live (us s) u) ->
  match inner_match q (mkshape l None []) s with
  | (s', Ok _) => reach s' /\ nrep s' = nrep s /\ forall rho sh, allows s' rho sh <-> allows s rho sh /\ sh q = map rho l
  | (_, Err e) => e = ValueError /\ forall rho sh, allows s rho sh -> sh q <> map rho l
  end.
Proof.
  intros s q l R Hq HL. assert (I := reach_inv s R).
  assert (W : wf_repr s (mkshape l None [])). { split; [intros u Hu; cbn in Hu; rewrite app_nil_r in Hu; auto|]. split; [auto|discriminate]. }
  assert (O := inner_match_ok s q (mkshape l None []) I Hq W). unfold outcome in O.
  assert (RS : forall s', inner_match q (mkshape l None []) s = (s', Ok tt) -> reach s'). { intros s' E. eapply reach_step with (op := OInner q (mkshape l None [])); eauto. split; auto. }
  assert (C : forall rho tau, Ceq s q (mkshape l None []) rho tau <-> den s rho tau q = map rho l). { intros. unfold Ceq, dshape. cbn. rewrite app_nil_r. tauto. }
  destruct (inner_match q (mkshape l None []) s) as [s' [[]|e]]; cbn [fst snd] in O.
  - destruct O as (X & K & Y). assert (N : nrep s' = nrep s) by apply X. split; [auto|]. split; [auto|].
    destruct Y as [Y|((_ & F & _) & _)]; [|cbn in F; congruence]. intros rho sh. split.
    + intros [Hs (tau' & H)]. destruct (Y rho tau' Hs) as (tau & Hs' & D & E). apply C in E. split; [split; [auto|]; exists tau; intros x Hx _; rewrite <- H by (auto || lia); apply D; auto|].
      rewrite <- H by (auto || lia). rewrite <- E. symmetry. apply D. auto.
    + intros [[Hs (tau & H)] E]. destruct (K rho tau Hs) as (tau' & Hs' & _ & D); [apply C; rewrite <- E; apply H; auto|]. split; [auto|]. exists tau'. intros x Hx _. rewrite N in Hx. rewrite <- H by auto. apply D. auto.
  - destruct O as [-> O]. split; [auto|]. intros rho sh [Hs (tau & H)] E. apply (O rho tau Hs). apply C. rewrite <- E. apply H; auto.
Qed.

(** Setting a shape to concrete values ([None] for unknown) is exact. *)
Theorem C23_set_values : forall s q vals, reach s -> q < nrep s ->
  match set_values q vals s with
  | (s', Ok _) => reach s' /\ nrep s' = nrep s /\
      (forall rho sh, allows s' rho sh -> allows s rho sh /\ Forall2 known_as vals (sh q)) /\
      (forall rho sh, allows s rho sh -> Forall2 known_as vals (sh q) -> exists rho', (forall u, live (us s) u -> rho' u = rho u) /\ allows s' rho' sh)
  | (_, Err e) => e = ValueError /\ forall rho sh, allows s rho sh -> ~ Forall2 known_as vals (sh q)
  end.
Proof.
  intros s q vals R Hq. assert (I := reach_inv s R). assert (M := set_values_ok q vals s I Hq).
  assert (RS : forall s', set_values q vals s = (s', Ok tt) -> reach s'). { intros s' E. eapply reach_step with (op := OSet q vals); eauto. }
  destruct (set_values q vals s) as [s' [[]|e]].
  - destruct M as (I' & N & B & F). split; [auto|]. split; [auto|]. split.
    + intros rho sh [Hs (tau' & H)]. destruct (B rho tau' Hs) as (tau & Hs' & D & E). split.
      * split; [auto|]. exists tau. intros x Hx _. rewrite <- H by (auto || lia). apply D. auto.
      * rewrite D in E by auto. unfold den, dshape, rval in E. rewrite H in E by (auto || lia). exact E.
    + intros rho sh [Hs (tau & H)] E. destruct (F rho tau Hs) as (rho' & tau' & Ag & Hs' & D); [unfold den, dshape, rval; rewrite H by auto; exact E|].
      exists rho'. split; [auto|]. split; [auto|]. exists tau'. intros x Hx _. rewrite N in Hx. rewrite <- (H x) by auto. apply D. auto.
  - destruct M as [-> M]. split; [auto|]. intros rho sh [Hs (tau & H)] E. apply (M rho tau Hs). unfold den, dshape, rval. rewrite H by auto. exact E.
Qed.

(** ** Nodes: all representations of a node are the same shape.  Merging two nodes keeps exactly the combinations in which all their
    representations agree; representations that are dropped ([res]) are determined by the ones that are left ([R]). *)
Theorem C23_merge : forall s A B, reach s -> (forall q, In q (A ++ B) -> q < nrep s) -> NoDup (A ++ B) ->
  match node_merge A B s with
  | (s', Ok R) => reach s' /\ exists res, (forall q, In q R <-> In q (A ++ B) /\ ~ In q res) /\ incl res B /\
      forall rho sh x, (allows_on (fun q => ~ In q res) s' rho sh /\ (forall q, In q R -> sh q = x)) <->
        exists sh0, allows s rho sh0 /\ (forall q, In q (A ++ B) -> sh0 q = x) /\ forall q, q < nrep s -> ~ In q res -> sh0 q = sh q
  | (_, Err e) => e = ValueError /\ forall rho sh x, allows s rho sh -> ~ forall q, In q (A ++ B) -> sh q = x
  end.
Proof.
  intros s A B R HL ND. assert (I := reach_inv s R). assert (M := node_merge_ok A B s I HL ND).
  assert (RS : forall s' L, node_merge A B s = (s', Ok L) -> reach s').
  { intros s' L E. eapply reach_step with (op := OMerge A B); eauto; [split; auto|]. cbn. unfold hbind. rewrite E. reflexivity. }
  destruct (node_merge A B s) as [s' [L|e]].
  - destruct M as (res & I' & N & Inc & HR & _ & _ & F & Bk). split; [eauto|]. exists res. split; [exact HR|]. split; [auto|]. intros rho sh x. split.
    + intros [[Hs (tau' & H)] Hx]. destruct (Bk rho tau' Hs) as (tau & Hs' & D & E). exists (den s rho tau). 
      assert (Dx : forall q, In q L -> den s rho tau q = x). { intros q Hq. apply HR in Hq as [H1 H2]. rewrite D by auto. rewrite <- (Hx q) by (apply HR; auto). apply H; auto. rewrite N. auto. }
      split; [split; [auto|exists tau; auto]|]. split.
      * intros q Hq. destruct (in_dec Nat.eq_dec q res) as [Hr|Hr]; [|apply Dx, HR; auto]. destruct (E q Hr) as (q1 & H1 & <-). apply Dx. auto.
      * intros q Hq Hn. rewrite D by auto. apply H; auto. rewrite N. auto.
    + intros (sh0 & [Hs (tau & H)] & Hx & Hsh). destruct (F rho tau Hs) as (tau' & Hs' & D).
      { intros a b Ha Hb. unfold den, dshape, rval. rewrite !H by auto. rewrite !Hx; auto. }
      split; [split; [auto|]|].
      * exists tau'. intros q Hq Hn. rewrite N in Hq. rewrite <- Hsh by auto. rewrite <- H by auto. apply D; auto.
      * intros q Hq. apply HR in Hq as [H1 H2]. rewrite <- Hsh by auto. apply Hx. auto.
  - destruct M as [-> M]. split; [auto|]. intros rho sh x [Hs (tau & H)] Hx. apply (M rho tau Hs). intros a b Ha Hb. unfold den, dshape, rval. rewrite !H by auto. rewrite !Hx; auto.
Qed.
Theorem C23_combine : forall s L, reach s -> (forall q, In q L -> q < nrep s) -> NoDup L ->
  match node_combine L s with
  | (s', Ok R) => reach s' /\ exists same, (forall q, In q R <-> In q L /\ ~ In q same) /\ incl same L /\
      forall rho sh x, (allows_on (fun q => ~ In q same) s' rho sh /\ (forall q, In q R -> sh q = x)) <->
        exists sh0, allows s rho sh0 /\ (forall q, In q L -> sh0 q = x) /\ forall q, q < nrep s -> ~ In q same -> sh0 q = sh q
  | (_, Err e) => e = ValueError /\ forall rho sh x, allows s rho sh -> ~ forall q, In q L -> sh q = x
  end.
Proof.
  intros s L R HL ND. assert (I := reach_inv s R). assert (M := node_combine_ok L s I HL ND).
  assert (RS : forall s' R', node_combine L s = (s', Ok R') -> reach s').
  { intros s' R' E. eapply reach_step with (op := OCombine L); eauto; [split; auto|]. cbn. unfold hbind. rewrite E. reflexivity. }
  destruct (node_combine L s) as [s' [R'|e]].
  - destruct M as (same & I' & N & Inc & HR & F & Bk). split; [eauto|]. exists same. split; [exact HR|]. split; [auto|]. intros rho sh x. split.
    + intros [[Hs (tau' & H)] Hx]. destruct (Bk rho tau' x Hs) as (tau & Hs' & D & E).
      { intros q Hq. rewrite <- (Hx q Hq). apply HR in Hq as [H1 H2]. apply H; auto. rewrite N. auto. }
      exists (den s rho tau). split; [split; [auto|exists tau; auto]|]. split; [auto|]. intros q Hq Hn. rewrite D by auto. apply H; auto. rewrite N. auto.
    + intros (sh0 & [Hs (tau & H)] & Hx & Hsh). destruct (F rho tau x Hs) as (tau' & Hs' & D).
      { intros q Hq. unfold den, dshape, rval. rewrite !H by auto. auto. }
      split; [split; [auto|]|].
      * exists tau'. intros q Hq Hn. rewrite N in Hq. rewrite <- Hsh by auto. rewrite <- H by auto. apply D; auto.
      * intros q Hq. apply HR in Hq as [H1 H2]. rewrite <- Hsh by auto. apply Hx. auto.
  - destruct M as [-> M]. split; [auto|]. intros rho sh x [Hs (tau & H)] Hx. apply (M rho tau x Hs). intros q Hq. unfold den, dshape, rval. rewrite !H by auto. auto.
Qed.

(** ** Sessions by computation *)
Lemma live_b_live s u : live_b s u = true -> live s u.
Proof. unfold live_b, live. intros H. apply andb_true_iff in H as [H1 H2]. apply Nat.ltb_lt in H1. apply mem_In in H2. auto. Qed.
Definition wf_b (s : shst) (r : shrepr) : bool :=
  forallb (live_b (us s)) (pre r ++ suf r) && match root r with None => match suf r with [] => true | _ => false end | Some v => v <? nvar s end.
Lemma wf_b_wf s r : wf_b s r = true -> wf_repr s r.
Proof.
  unfold wf_b. intros H. apply andb_true_iff in H as [H1 H2]. rewrite forallb_forall in H1. split; [intros u Hu; apply live_b_live; auto|].
  destruct (root r); split; try discriminate.
  - intros v E. injection E as <-. apply Nat.ltb_lt. auto.
  - intros _. destruct (suf r); [auto|discriminate].
Qed.
Fixpoint nodup_n (l : list nat) : bool := match l with [] => true | x :: l => negb (mem x l) && nodup_n l end.
Lemma nodup_n_ok l : nodup_n l = true -> NoDup l.
Proof.
  induction l as [|x l IH]; cbn [nodup_n]; intros H; [constructor|]. apply andb_true_iff in H as [H1 H2]. constructor; auto. intros H. apply mem_In in H. rewrite H in H1. discriminate.
Qed.
Definition valid_b (s : shst) (op : shop) : bool :=
  match op with
  | ODim _ | OVar => true
  | ORepr r => wf_b s r
  | OUpd u vals => live_b (us s) u && match vals with None => true | Some l => nodup_z l end
  | OUni u v => live_b (us s) u && live_b (us s) v
  | OMatch q q' => (q <? nrep s) && (q' <? nrep s)
  | OInner q r => (q <? nrep s) && wf_b s r
  | OSet q _ => q <? nrep s
  | OMerge A B => forallb (fun q => q <? nrep s) (A ++ B) && nodup_n (A ++ B)
  | OCombine qs => forallb (fun q => q <? nrep s) qs && nodup_n qs
  end.
Lemma nodup_z_ok l : nodup_z l = true -> NoDup l.
Proof.
  induction l as [|x l IH]; cbn [nodup_z]; intros H; [constructor|]. apply andb_true_iff in H as [H1 H2]. constructor; auto. intros H. apply mem_In in H. rewrite H in H1. discriminate.
Qed.
Lemma valid_b_ok s op : valid_b s op = true -> valid s op.
Proof.
  destruct op; cbn; auto.
  - apply wf_b_wf.
  - intros H. apply andb_true_iff in H as [H1 H2]. split; [apply live_b_live; auto|]. destruct vals; cbn; auto. apply nodup_z_ok; auto.
  - intros H. apply andb_true_iff in H as [H1 H2]. split; apply live_b_live; auto.
  - intros H. apply andb_true_iff in H as [H1 H2]. split; apply Nat.ltb_lt; auto.
  - intros H. apply andb_true_iff in H as [H1 H2]. split; [apply Nat.ltb_lt; auto|apply wf_b_wf; auto].
  - apply Nat.ltb_lt.
  - intros H. apply andb_true_iff in H as [H1 H2]. rewrite forallb_forall in H1. split; [intros q Hq; apply Nat.ltb_lt; exact (H1 q Hq)|apply nodup_n_ok; auto].
  - intros H. apply andb_true_iff in H as [H1 H2]. rewrite forallb_forall in H1. split; [intros q Hq; apply Nat.ltb_lt; exact (H1 q Hq)|apply nodup_n_ok; auto].
Qed.
Fixpoint session (ops : list shop) (s : shst) : option shst :=
  match ops with
  | [] => Some s
  | op :: ops => if valid_b s op then match exec op s with (s', Ok tt) => session ops s' | _ => None end else None
  end.
Lemma session_reach ops : forall s s', reach s -> session ops s = Some s' -> reach s'.
Proof.
  induction ops as [|op ops IH]; intros s s' R E; cbn [session] in E; [congruence|]. destruct (valid_b s op) eqn:V; [|discriminate].
  destruct (exec op s) as [s1 [[]|e]] eqn:X; [|discriminate]. eapply IH; [|exact E]. eapply reach_step; [exact R|apply valid_b_ok; exact V|exact X].
Qed.
Definition state (ops : list shop) : shst := match session ops no_shapes with Some s => s | None => no_shapes end.
Lemma state_reach ops : reach (state ops).
Proof. unfold state. destruct (session ops no_shapes) as [s|] eqn:E; [|constructor]. eapply session_reach; [constructor|exact E]. Qed.

(** A tensor of shape [a, V0, 3] against [b, c, V1, d, e]: the shorter one takes over what it lacks, dimensions are identified. *)
Definition c23_state := state [ODim None; ODim (Some 3%Z); ODim None; ODim None; ODim None; ODim None; OVar; OVar;
  ORepr (mkshape [0] (Some 0) [1]); ORepr (mkshape [2; 3] (Some 1) [4; 5]); ORepr (mkshape [] (Some 0) [])].
Definition shape_now (s : shst) (q : nat) : list (option Z) * option nat * list (option Z) :=
  (map (value (us s)) (pre (rp s q)), root (rp s q), map (value (us s)) (suf (rp s q))).
Example C23_match_example : reach c23_state /\ nrep c23_state = 3 /\ ~ crossing (rp c23_state 0) (rp c23_state 1) /\
  snd (repr_match 0 1 c23_state) = Ok tt /\
  let s' := fst (repr_match 0 1 c23_state) in
  shape_now s' 0 = ([None; None], Some 1, [None; Some 3%Z]) /\ shape_now s' 1 = ([None; None], Some 1, [None; Some 3%Z]) /\
  shape_now s' 2 = ([None], Some 1, [None]).
Proof. split; [apply state_reach|]. vm_compute. split; [reflexivity|]. split; [intros (_ & _ & [[H H']|[H H']]); lia|]. repeat split. Qed.
Example C23_match_error_example : let s := state [ODim (Some 2%Z); ODim (Some 3%Z); OVar; ORepr (mkshape [0] (Some 0) []); ORepr (mkshape [1; 1] None [])] in
  reach s /\ nrep s = 2 /\ snd (repr_match 0 1 s) = Err ValueError.
Proof. split; [apply state_reach|]. vm_compute. auto. Qed.
Example C23_match_dims_example : reach c23_state /\ (forall u, In u [2; 3; 1] -> live (us c23_state) u) /\ snd (inner_match 0 (mkshape [2; 3; 1] None []) c23_state) = Ok tt /\
  shape_now (fst (inner_match 0 (mkshape [2; 3; 1] None []) c23_state)) 0 = ([None; None; Some 3%Z], None, []).
Proof. split; [apply state_reach|]. split; [intros u Hu; apply live_b_live; destruct Hu as [<-|[<-|[<-|[]]]]; reflexivity|]. vm_compute. auto. Qed.
Example C23_set_values_example : reach c23_state /\ nrep c23_state = 3 /\ snd (set_values 0 [Some 7; None; Some 9; Some 3]%Z c23_state) = Ok tt /\
  shape_now (fst (set_values 0 [Some 7; None; Some 9; Some 3]%Z c23_state)) 0 = ([Some 7; None; Some 9; Some 3]%Z, None, []) /\
  shape_now (fst (set_values 0 [Some 7; None; Some 9; Some 3]%Z c23_state)) 2 = ([None; Some 9%Z], None, []) /\
  snd (set_values 0 [Some 7; Some 4]%Z c23_state) = Err ValueError.
Proof. split; [apply state_reach|]. vm_compute. auto 6. Qed.
(** Two nodes with two representations each; one representation is dropped, a crossing one stays. *)
Definition c23_nodes := state [ODim (Some 2%Z); ODim None; ODim None; ODim (Some 2%Z); OVar; OVar; OVar; OVar;
  ORepr (mkshape [0] (Some 0) []); ORepr (mkshape [] (Some 1) [1]); ORepr (mkshape [2] (Some 2) []); ORepr (mkshape [] (Some 3) [3])].
Example C23_merge_example : reach c23_nodes /\ (forall q, In q ([0; 1] ++ [2; 3]) -> q < nrep c23_nodes) /\ NoDup ([0; 1] ++ [2; 3]) /\
  snd (node_merge [0; 1] [2; 3] c23_nodes) = Ok [0; 1] /\
  shape_now (fst (node_merge [0; 1] [2; 3] c23_nodes)) 0 = ([Some 2%Z], Some 0, []) /\
  shape_now (fst (node_merge [0; 1] [2; 3] c23_nodes)) 1 = ([], Some 1, [Some 2%Z]).
Proof.
  split; [apply state_reach|]. split; [change (nrep c23_nodes) with 4; intros q Hq; destruct Hq as [<-|[<-|[<-|[<-|[]]]]]; lia|].
  split; [apply nodup_n_ok; reflexivity|]. vm_compute. auto.
Qed.
Example C23_combine_example : snd (node_combine [0; 1; 2; 3] c23_nodes) = Ok [0; 1] /\ (forall q, In q [0; 1; 2; 3] -> q < nrep c23_nodes) /\ NoDup [0; 1; 2; 3].
Proof. split; [vm_compute; auto|]. split; [change (nrep c23_nodes) with 4; intros q Hq; destruct Hq as [<-|[<-|[<-|[<-|[]]]]]; lia|apply nodup_n_ok; reflexivity]. Qed.

(** ** Findings: when one has the longer prefix and the other the longer suffix, unification may succeed without making the two equal.
    [a, V0] against [V1, b]: nothing is recorded at all (the node keeps both representations). *)
Theorem C23_match_crossing_refuted : exists s q q' s' rho sh, reach s /\ q < nrep s /\ q' < nrep s /\ repr_match q q' s = (s', Ok tt) /\ allows s' rho sh /\ sh q <> sh q'.
Proof.
  exists (state [ODim None; ODim None; OVar; OVar; ORepr (mkshape [0] (Some 0) []); ORepr (mkshape [] (Some 1) [1])]), 0, 1.
  eexists. exists (fun _ => 5%Z), (fun q => if q =? 0 then [5; 5]%Z else [5]%Z). split; [apply state_reach|]. split; [vm_compute; lia|]. split; [vm_compute; lia|]. split; [vm_compute; reflexivity|].
  split; [|discriminate]. split.
  - split; [intros u (L & _); cbn in L; destruct u as [|[|u]]; [exact Logic.I|exact Logic.I|lia]|auto].
  - exists (fun v => if v =? 0 then [5]%Z else []). intros q Hq _. cbn in Hq. destruct q as [|[|q]]; [reflexivity|reflexivity|lia].
Qed.
(** With the same variadic on both sides, [a, V] against [V, b], the shapes can only be equal if V consists of equal dimensions. *)
Theorem C23_match_same_variadic_refuted : exists s q q' s' rho sh, reach s /\ q < nrep s /\ q' < nrep s /\ root (rp s q) = root (rp s q') /\
  repr_match q q' s = (s', Ok tt) /\ allows s' rho sh /\ sh q <> sh q'.
Proof.
  exists (state [ODim (Some 2%Z); ODim (Some 3%Z); OVar; ORepr (mkshape [0] (Some 0) []); ORepr (mkshape [] (Some 0) [1])]), 0, 1.
  eexists. exists (fun u => if u =? 0 then 2%Z else 3%Z), (fun q => if q =? 0 then [2]%Z else [3]%Z). split; [apply state_reach|]. split; [vm_compute; lia|]. split; [vm_compute; lia|].
  split; [vm_compute; reflexivity|]. split; [vm_compute; reflexivity|]. split; [|discriminate]. split.
  - split.
    + intros u (L & _); cbn in L; destruct u as [|[|u]]; [left; reflexivity|left; reflexivity|lia].
    + intros u v (Lu & _) (Lv & _) E. cbn in Lu, Lv, E. destruct u as [|[|u]], v as [|[|v]]; try lia; auto; discriminate.
  - exists (fun v => []). intros q Hq _. cbn in Hq. destruct q as [|[|q]]; [reflexivity|reflexivity|lia].
Qed.
Print Assumptions C23_match.
Print Assumptions C23_match_dims.
Print Assumptions C23_set_values.
Print Assumptions C23_merge.
Print Assumptions C23_combine.
Print Assumptions C23_match_crossing_refuted.
Print Assumptions C23_match_same_variadic_refuted.
