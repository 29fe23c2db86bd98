(** * Lemmas about broadcasting: new dimensions, the steps on dimensions, what stays *)
From Coq Require Import List Arith Lia Bool ZArith.
From Verif Require Import PyBase Uniadic_Model Uniadic_Proofs Uniadic_Props Bcast_Model Bcast_Proofs Bcast_Props Shape_Model Shape_Proofs Shape_Proofs2 Shape_Proofs3 Shape_Props Reduce_Model Reduce_Proofs Reduce_Proofs2
  Rule_Proofs Arange_Proofs Flat_Model Flat_Proofs2 Align_Model Align_Spec.
Import ListNotations.
Open Scope list_scope. Open Scope nat_scope. Open Scope shm_scope.

(** ** The new dimensions of the output *)
Definition may_be (same : nat) (known : bool) (first : option nat) (idx u : nat) (rho : nat -> Z) (y : Z) : Prop :=
  (idx < same -> y = rho u) /\ (known = true -> rho u <> 1%Z -> y = rho u) /\ (idx = 0 -> same = 0 -> forall f, first = Some f -> y = rho u \/ y = rho f).
Lemma align_dim_ok same known first idx u s : inv (us s) -> live (us s) u -> (forall f, first = Some f -> live (us s) f) ->
  exists u' v, align_dim same known first idx u s = (with_us s u', Ok v) /\ grows (us s) u' /\ live u' v /\ (forall rho, sat u' rho -> sat (us s) rho) /\
    forall rho y, sat (us s) rho -> may_be same known first idx u rho y -> exists rho', Reduce_Proofs.agrees (us s) rho rho' /\ sat u' rho' /\ rho' v = y.
Proof.
  intros I Lu Lf. unfold align_dim. destruct (Nat.ltb_spec idx same) as [Lt|Ge]; cbn [orb].
  { exists (us s), u. split; [destruct s; auto|]. split; [apply grows_refl; auto|]. split; [auto|]. split; [auto|]. intros rho y Hs (H & _). exists rho. split; [intros x _; auto|]. split; [auto|]. symmetry. auto. }
  destruct (big (value (us s) u) && known)%bool eqn:Bk.
  { apply andb_prop in Bk as [Bg ->]. exists (us s), u. split; [destruct s; auto|]. split; [apply grows_refl; auto|]. split; [auto|]. split; [auto|]. intros rho y Hs (_ & H & _). exists rho. split; [intros x _; auto|]. split; [auto|]. symmetry. apply H; [auto|].
    destruct (big_sat (us s) u rho I Lu Bg Hs); auto. }
  destruct (new_uniadic_ok (us s) None I) as (u1 & E & G & L & N & S). set (v := nu (us s)) in *. unfold new_dim, hbind, lift. rewrite E. cbn [us with_us].
  assert (S' : forall rho, sat u1 rho <-> sat (us s) rho) by (intros rho; rewrite S; cbn; tauto).
  assert (New : forall rho y, sat (us s) rho -> Reduce_Proofs.agrees (us s) rho (upd rho v y) /\ sat u1 (upd rho v y) /\ upd rho v y v = y).
  { intros rho y Hs. assert (A : Reduce_Proofs.agrees (us s) rho (upd rho v y)) by (intros x Hx; apply upd_other; intros ->; contradiction). split; [auto|]. split; [apply S'; eapply sat_agrees; eauto|apply upd_same]. }
  assert (Plain : exists u' v0, (with_us (with_us s u1) u1, Ok v) = (with_us s u', Ok v0) /\ grows (us s) u' /\ live u' v0 /\ (forall rho, sat u' rho -> sat (us s) rho) /\
    forall rho y, sat (us s) rho -> may_be same known first idx u rho y -> exists rho', Reduce_Proofs.agrees (us s) rho rho' /\ sat u' rho' /\ rho' v0 = y).
  { exists u1, v. split; [auto|]. split; [auto|]. split; [auto|]. split; [intros rho; apply S'|]. intros rho y Hs _. exists (upd rho v y). apply New; auto. }
  destruct idx as [|idx]; [|exact Plain]. destruct first as [f|]; [|exact Plain]. destruct (possible_values u1 f) as [p|] eqn:Pf; [|exact Plain]. destruct (possible_values u1 u) as [p'|] eqn:Pu; [|exact Plain].
  assert (I1 : inv u1) by apply G. assert (Lf1 : live u1 f) by (apply G; auto). assert (Lu1 : live u1 u) by (apply G; auto).
  assert (Sf : is_set (Some (union p p'))). { assert (W1 := set_pv u1 f I1). assert (W2 := set_pv u1 u I1). rewrite Pf in W1. rewrite Pu in W2. cbn in *. apply NoDup_union; auto. }
  assert (Iy : forall rho y, sat u1 rho -> y = rho u \/ y = rho f -> In y (union p p')).
  { intros rho y Hs [-> | ->]; apply In_union; [right; eapply pv_sat; [exact Lu1|exact Hs|exact Pu]|left; eapply pv_sat; [exact Lf1|exact Hs|exact Pf]]. }
  assert (M := update_imposes u1 v (Some (union p p')) I1 L Sf). destruct M as (I2 & _ & L2 & _ & M). destruct (update_possible_values v (Some (union p p')) u1) as [u2 [x|e]]; cbn [fst snd] in *.
  - exists u2, v. split; [auto|]. split; [split; [auto|]; intros y Hy; apply L2, G; auto|]. split; [apply L2; auto|]. split; [intros rho Hs; apply S', M; auto|].
    intros rho y Hs (_ & _ & H). destruct (New rho y Hs) as (A & Hs1 & Ev). exists (upd rho v y). split; [auto|]. split; [|auto]. apply M. split; [auto|]. cbn. rewrite Ev. apply (Iy rho); [apply S'; auto|]. apply H; [auto|lia|auto].
  - exfalso. destruct M as (_ & _ & M). destruct (sat_exists (us s) I) as (rho & Hs). destruct (New rho (rho u) Hs) as (A & Hs1 & Ev). apply (M (upd rho v (rho u))). split; [auto|]. cbn. rewrite Ev. apply (Iy rho); [apply S'; auto|auto].
Qed.
Lemma align_dims_ok same known first l : forall idx s, inv (us s) -> (forall x, In x l -> live (us s) x) -> (forall f, first = Some f -> live (us s) f) ->
  exists u' L, align_dims same known first idx l s = (with_us s u', Ok L) /\ length L = length l /\ grows (us s) u' /\ (forall x, In x L -> live u' x) /\ (forall rho, sat u' rho -> sat (us s) rho) /\
    forall rho ys, sat (us s) rho -> length ys = length l -> (forall k, k < length l -> may_be same known first (idx + k) (nth k l 0) rho (nth k ys 0%Z)) ->
      exists rho', Reduce_Proofs.agrees (us s) rho rho' /\ sat u' rho' /\ map rho' L = ys.
Proof.
  induction l as [|u l IH]; intros idx s I Lv Lf; cbn [align_dims].
  - exists (us s), []. split; [destruct s; auto|]. split; [auto|]. split; [apply grows_refl; auto|]. split; [intros x []|]. split; [auto|]. intros rho [|? ?] Hs Ln _; [|discriminate]. exists rho. split; [intros x _; auto|auto].
  - destruct (align_dim_ok same known first idx u s I ltac:(apply Lv; left; auto) Lf) as (u1 & v & E1 & G1 & L1 & S1 & C1). unfold hbind. rewrite E1.
    destruct (IH (S idx) (with_us s u1)) as (u2 & L & E2 & Ln & G2 & L2 & S2 & C2); [apply G1|intros x Hx; apply G1, Lv; right; auto|intros f Ef; apply G1; auto|]. rewrite E2. cbn [us with_us] in *.
    exists u2, (v :: L). split; [auto|]. split; [cbn; auto|]. split; [eapply grows_trans; eauto|]. split; [intros x [<-|Hx]; [apply G2; auto|auto]|]. split; [auto|].
    intros rho [|y ys] Hs Ly H; [discriminate|]. cbn in Ly. destruct (C1 rho y Hs) as (r1 & A1 & Hs1 & Ev). { assert (X := H 0 ltac:(cbn; lia)). cbn [nth] in X. rewrite Nat.add_0_r in X. auto. }
    destruct (C2 r1 ys Hs1 ltac:(lia)) as (r2 & A2 & Hs2 & Em).
    { intros k Hk. assert (X := H (S k) ltac:(cbn; lia)). cbn [nth] in X. rewrite Nat.add_succ_r in X. unfold may_be in *. rewrite (A1 (nth k l 0)) by (apply Lv; right; apply nth_In; auto).
      destruct X as (X1 & X2 & X3). split; [auto|]. split; [auto|]. intros; lia. }
    exists r2. split; [intros x Hx; rewrite A2 by (apply G1; auto); auto|]. split; [auto|]. cbn. rewrite Em, A2 by auto. rewrite Ev. auto.
Qed.

(** ** Steps on dimensions *)
Lemma lift_sound {A} (P : srel) (m : sm A) (C : (nat -> Z) -> Prop) s : sinv s -> sound m C (us s) -> (forall rho sh, allows s rho sh -> P sh -> C rho) ->
  match lift m s with
  | (s', Ok _) => sound_for P s s' /\ rp s' = rp s
  | (_, Err e) => e = ValueError /\ excludes P s
  end.
Proof.
  intros I [V M] H. unfold lift. destruct (m (us s)) as [u' [x|e]]; cbn [fst snd] in *.
  - assert (I' := with_us_sinv s u' I V). split; [|auto]. split; [auto|]. split; [auto|]. split; [intros y Hy; eapply evolves_live; eauto|]. split.
    + intros rho sh A1 Hp. exists rho. split; [intros y _; auto|]. assert (Hc := H rho sh A1 Hp). apply allows_den in A1 as (Hs & tau & D). apply allows_den. split; [apply M; auto|]. exists tau. auto.
    + intros rho sh A1. apply allows_den in A1 as (Hs & tau & D). apply allows_den. split; [apply V; auto|]. exists tau. auto.
  - destruct M as (-> & M). split; [auto|]. intros rho sh A1 Hp. apply (M rho); [apply A1|eauto].
Qed.
Lemma group_each_ok (P : srel) ls : forall rs os s, sinv s -> (forall x, In x (ls ++ rs ++ os) -> live (us s) x) ->
  (forall rho sh, allows s rho sh -> P sh -> forall k, k < length ls -> k < length rs -> k < length os -> bcast_rel (rho (nth k rs 0)) (rho (nth k ls 0)) (rho (nth k os 0))) ->
  match group_each ls rs os s with
  | (s', Ok _) => sound_for P s s' /\ rp s' = rp s
  | (_, Err e) => e = ValueError /\ excludes P s
  end.
Proof.
  induction ls as [|l ls IH]; intros rs os s I Lv H; cbn [group_each]; [split; [apply sound_for_refl; auto|auto]|]. destruct rs as [|r rs]; [split; [apply sound_for_refl; auto|auto]|]. destruct os as [|o os]; [split; [apply sound_for_refl; auto|auto]|].
  assert (M := lift_sound P (bcast_group (r, l, o)) (rel3 (r, l, o)) s I). lapply M; [clear M; intros M|apply bcast_group_sound; [apply I|]; split; [apply Lv; apply in_app_iff; right; apply in_app_iff; left; left; auto|split; apply Lv; [left; auto|apply in_app_iff; right; apply in_app_iff; right; left; auto]]].
  lapply M; [clear M; intros M|intros rho sh A Hp; apply (H rho sh A Hp 0); cbn; lia]. unfold hbind. destruct (lift (bcast_group (r, l, o)) s) as [s1 [x|e]]; [|auto]. destruct M as [M1 M2].
  assert (X := IH rs os s1 ltac:(apply M1)). lapply X; [clear X; intros X|intros x0 Hx; apply M1, Lv; apply in_app_iff in Hx as [Hx|Hx]; [right; apply in_app_iff; auto|right; apply in_app_iff; right; apply in_app_iff in Hx as [Hx|Hx]; [right; apply in_app_iff; auto|right; apply in_app_iff; right; right; auto]]].
  lapply X; [clear X; intros X|intros rho sh A Hp k H1 H2 H3; apply M1 in A; apply (H rho sh A Hp (S k)); cbn; lia].
  destruct (group_each ls rs os s1) as [s2 [[]|e]]; [|destruct X as [-> X]; split; [auto|eapply excludes_back; eauto]]. destruct X as [X1 X2]. split; [eapply sound_for_trans; eauto|congruence].
Qed.

(** ** What unification with an open shape keeps: open shapes stay open, and shapes of the same form stay so *)
Definition paired (s : shst) (a b : nat) : Prop :=
  root (rp s a) = root (rp s b) /\ length (pre (rp s a)) = length (pre (rp s b)) /\ length (suf (rp s a)) = length (suf (rp s b)) /\ (forall v, In a (vreprs s v) <-> In b (vreprs s v)).
Definition keeps (s s' : shst) : Prop := (forall q, root (rp s q) <> None -> root (rp s' q) <> None) /\ (forall a b, paired s a b -> paired s' a b).
Lemma keeps_refl s : keeps s s.
Proof. split; auto. Qed.
Lemma keeps_trans a b c : keeps a b -> keeps b c -> keeps a c.
Proof. intros [A1 A2] [B1 B2]. split; auto. Qed.
Lemma keeps_us s u : keeps s (with_us s u).
Proof. split; auto. Qed.
Lemma keeps_lift {A} (m : sm A) s : keeps s (fst (lift m s)).
Proof. unfold lift. destruct (m (us s)). apply keeps_us. Qed.
Lemma keeps_bind {A B} (m : shm A) (f : A -> shm B) s : keeps s (fst (m s)) -> (forall a s', m s = (s', Ok a) -> keeps s' (fst (f a s'))) -> keeps s (fst ((do x <- m; f x) s)).
Proof. intros H1 H2. unfold hbind. destruct (m s) as [s1 [a|e]]; [|auto]. eapply keeps_trans; [exact H1|]. apply (H2 a s1); auto. Qed.
Lemma keeps_var s : keeps s (fst (new_variadic s)).
Proof.
  split; [auto|]. intros a b (H1 & H2 & H3 & H4). do 3 (split; [auto|]). intros v. cbn. destruct (Nat.eq_dec v (nvar s)) as [->|N]; [rewrite upd_same; tauto|rewrite upd_other by auto; auto].
Qed.
Lemma update_vreprs l1 : forall l2 s, vreprs (fst (update_uniadics l1 l2 s)) = vreprs s.
Proof.
  induction l1 as [|a l1 IH]; intros [|b l2] s; auto. cbn [update_uniadics]. unfold hbind, lift. destruct (uni_match a b (us s)) as [u [x|e]]; [|auto]. apply (IH l2 (with_us s u)).
Qed.
Lemma keeps_same s s' : rp s' = rp s -> vreprs s' = vreprs s -> keeps s s'.
Proof. intros E1 E2. unfold keeps, paired. rewrite E1, E2. auto. Qed.
Lemma keeps_update l1 l2 s : keeps s (fst (update_uniadics l1 l2 s)).
Proof. apply keeps_same; [apply update_rp|apply update_vreprs]. Qed.
Lemma attach_all_us q l : forall s, exists u, attach_all q l s = (with_us s u, Ok tt).
Proof.
  induction l as [|x l IH]; intros s; cbn [attach_all]; [exists (us s); destruct s; auto|]. unfold hbind, lift, attach. destruct (IH (with_us s (set_rec (us s) (meta (us s) x) (mkrec (pv (recs (us s) (meta (us s) x))) (refs (recs (us s) (meta (us s) x))) (if mem q (reprs (recs (us s) (meta (us s) x))) then reprs (recs (us s) (meta (us s) x)) else reprs (recs (us s) (meta (us s) x)) ++ [q]))))) as (u & E).
  exists u. cbv zeta. rewrite E. auto.
Qed.
Lemma redirect_some w np ns q s : exists s', redirect (Some w) np ns q s = (s', Ok tt) /\
  (forall x, rp s' x = if (x =? q) && negb (eqb (root (rp s x)) (Some w)) then moved (Some w) np ns (rp s x) else rp s x) /\
  (forall v y, In y (vreprs s' v) <-> In y (vreprs s v) \/ (v = w /\ y = q /\ root (rp s y) <> Some w)).
Proof.
  unfold redirect. destruct (eqb (root (rp s q)) (Some w)) eqn:E.
  - exists s. split; [auto|]. split.
    + intros x. destruct (Nat.eqb_spec x q) as [->|]; [rewrite E|]; auto.
    + intros v y. apply (proj1 (eqb_eq _ _)) in E. split; [auto|]. intros [H|(-> & -> & H)]; [auto|congruence].
  - destruct (attach_all_us q np s) as (u1 & E1). unfold hbind at 1. rewrite E1. destruct (attach_all_us q (rev ns) (with_us s u1)) as (u2 & E2). unfold hbind at 1. rewrite E2. eexists. split; [reflexivity|]. cbn [set_repr add_to with_us rp vreprs us]. split.
    + intros x. destruct (Nat.eqb_spec x q) as [->|N]; [rewrite upd_same, E; auto|rewrite upd_other by auto; auto].
    + intros v y. assert (Nr : root (rp s q) <> Some w) by (intros H; rewrite H in E; assert (X : eqb (Some w) (Some w) = true) by (apply eqb_eq; auto); congruence).
      destruct (Nat.eq_dec v w) as [->|N]; [|rewrite upd_other by auto; intuition congruence]. rewrite upd_same. destruct (mem q (vreprs s w)) eqn:Mq.
      * apply mem_In in Mq. split; [auto|]. intros [H|(_ & -> & _)]; auto.
      * rewrite in_app_iff. cbn. split; [intros [H|[<-|[]]]; auto|intros [H|(_ & -> & _)]; auto].
Qed.
Lemma redirect_all_some w np ns qs : forall s, exists s', redirect_all (Some w) np ns qs s = (s', Ok tt) /\
  (forall x, rp s' x = if mem x qs && negb (eqb (root (rp s x)) (Some w)) then moved (Some w) np ns (rp s x) else rp s x) /\
  (forall v y, In y (vreprs s' v) <-> In y (vreprs s v) \/ (v = w /\ In y qs /\ root (rp s y) <> Some w)).
Proof.
  induction qs as [|q qs IH]; intros s; cbn [redirect_all].
  - exists s. split; [auto|]. split; [auto|]. cbn. tauto.
  - destruct (redirect_some w np ns q s) as (s1 & E1 & R1 & V1). destruct (IH s1) as (s2 & E2 & R2 & V2). exists s2. split; [unfold hbind; rewrite E1; auto|].
    assert (Ww : eqb (Some w) (Some w) = true) by (apply eqb_eq; auto). split.
    + intros x. rewrite R2, R1, mem_cons. assert (Q : eqb x q = (x =? q)) by (apply eq_true_iff_eq; rewrite (eqb_eq x q), Nat.eqb_eq; tauto). rewrite Q. destruct (x =? q); cbn [andb orb]; [|auto].
      destruct (eqb (root (rp s x)) (Some w)) eqn:Er; cbn [negb]; [rewrite Er, andb_false_r; auto|]. cbn [moved root]. rewrite Ww. rewrite andb_false_r. auto.
    + intros v y. rewrite V2, V1, R1. destruct (Nat.eqb_spec y q) as [->|N]; cbn [andb].
      * destruct (eqb (root (rp s q)) (Some w)) eqn:Er; cbn [negb].
        -- apply (proj1 (eqb_eq _ _)) in Er. split; [intros [[H|(_ & _ & H)]|(_ & _ & H)]; [auto|congruence..]|intros [H|(_ & _ & H)]; [auto|congruence]].
        -- assert (Nr : root (rp s q) <> Some w) by (intros H; rewrite H in Er; congruence). cbn [moved root]. split; [intros [[H|(-> & _ & H)]|(_ & _ & H)]; [auto|right; split; [auto|split; [left; auto|auto]]|congruence]|]. intros [H|(-> & _ & _)]; auto.
      * split; [intros [[H|(_ & H & _)]|(-> & H1 & H2)]; [auto|congruence|right; split; [auto|split; [right; auto|auto]]]|]. intros [H|(-> & [H1|H1] & H2)]; [auto|congruence|auto].
Qed.
Lemma keeps_match v w np ns s : keeps s (fst (var_match v (Some w) np ns s)).
Proof.
  unfold var_match, hbind, hgets. destruct (redirect_all_some w np ns (vreprs s v) s) as (s1 & E & R & V). rewrite E. cbn [fst]. split.
  - intros q Hq. cbn. rewrite R. destruct (_ && _)%bool; [discriminate|auto].
  - intros a b (H1 & H2 & H3 & H4). assert (Ma : mem a (vreprs s v) = mem b (vreprs s v)) by (apply eq_true_iff_eq; rewrite !mem_In; apply H4). unfold paired. cbn. rewrite !R. rewrite Ma, H1.
    split; [|split; [|split]].
    + destruct (_ && _)%bool; cbn; auto.
    + destruct (_ && _)%bool; cbn; [rewrite !app_length; lia|auto].
    + destruct (_ && _)%bool; cbn; [rewrite !app_length; lia|auto].
    + intros x. destruct (Nat.eq_dec x v) as [->|N]; [rewrite upd_same; tauto|rewrite upd_other by auto]. rewrite !V, H1, !(H4 x), !(H4 v). tauto.
Qed.
Lemma keeps_inner q o w s : root (rp s q) <> None -> root o = Some w -> keeps s (fst (inner_match q o s)).
Proof.
  intros Rq Ro. unfold inner_match. rewrite Ro. destruct (root (rp s q)) as [v|] eqn:Ev; [|congruence]. apply keeps_bind; [apply keeps_update|]. intros _ s1 _. apply keeps_bind; [apply keeps_update|]. intros _ s2 _.
  destruct (v =? w); [destruct (shlen (rp s q) =? shlen o); apply keeps_refl|]. cbv zeta. destruct (if shlen o <=? shlen (rp s q) then (w, v) else (v, w)) as [removed new].
  destruct (_ || _)%bool; [|apply keeps_match]. destruct (if (_ && _)%bool then (v, w) else (w, v)) as [main other]. apply keeps_bind.
  - unfold handle. apply keeps_bind; [apply keeps_refl|]. intros [[|idx]|] s3 _; [apply keeps_refl|..].
    + apply keeps_bind; [apply keeps_var|]. intros a s4 _. apply keeps_bind; [apply keeps_match|]. intros _ s5 _. apply keeps_bind; [apply keeps_var|]. intros a' s6 _. apply keeps_bind; [apply keeps_match|]. intros _ s7 _. apply keeps_refl.
    + apply keeps_bind; [apply keeps_var|]. intros a s4 _. apply keeps_bind; [apply keeps_match|]. intros _ s5 _. apply keeps_bind; [apply keeps_match|]. intros _ s7 _. apply keeps_refl.
  - intros b s3 _. destruct (negb b && _)%bool; [|apply keeps_refl]. destruct (if _ <? _ then _ else _) as [x y]. apply keeps_bind; [apply keeps_var|]. intros z s4 _. apply keeps_match.
Qed.
Lemma keeps_group ls : forall rs os s, keeps s (fst (group_each ls rs os s)).
Proof. induction ls as [|l ls IH]; intros [|r rs] [|o os] s; cbn [group_each]; try apply keeps_refl. apply keeps_bind; [apply keeps_lift|]. intros _ s' _. apply IH. Qed.
