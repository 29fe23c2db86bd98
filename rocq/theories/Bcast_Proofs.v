(** * Lemmas about broadcast inference *)
From Coq Require Import List Arith Lia Bool ZArith Wf_nat Wellfounded.
From Verif Require Import PyBase Uniadic_Model Uniadic_Proofs Bcast_Model.
Import ListNotations.
Open Scope list_scope. Open Scope nat_scope. Open Scope sm_scope.

(** Sizes of two inputs and of the output of an elementwise operation on one axis. *)
Definition bcast_rel (l r o : Z) : Prop := (l = 1%Z /\ o = r) \/ (r = 1%Z /\ o = l) \/ (l = r /\ o = l).
Lemma bcast_rel_sym l r o : bcast_rel l r o -> bcast_rel r l o.
Proof. unfold bcast_rel. intuition congruence. Qed.

(** ** How states develop *)
Definition evolves (s s' : ustate) : Prop :=
  inv s' /\ nu s' = nu s /\ (forall u, live s' u <-> live s u) /\
  (forall u v, live s u -> live s v -> meta s u = meta s v -> meta s' u = meta s' v) /\
  (forall rho, sat s' rho -> sat s rho).
Lemma evolves_refl s : inv s -> evolves s s.
Proof. intros I. split; auto. split; auto. split; [tauto|]. split; auto. Qed.
Lemma evolves_trans a b c : evolves a b -> evolves b c -> evolves a c.
Proof.
  intros (I1 & N1 & L1 & M1 & S1) (I2 & N2 & L2 & M2 & S2). split; [auto|]. split; [congruence|]. split; [intros u; rewrite L2; apply L1|].
  split; [|auto]. intros u v Lu Lv E. apply M2; [apply L1; auto | apply L1; auto | apply M1; auto].
Qed.
Lemma evolves_live s s' u : evolves s s' -> live s u -> live s' u.
Proof. intros (_ & _ & L & _) H. apply L; auto. Qed.
Lemma evolves_inv s s' : evolves s s' -> inv s'.
Proof. intros H. apply H. Qed.
Lemma evolves_pv s s' u n : evolves s s' -> live s u -> in_pv n (possible_values s' u) -> in_pv n (possible_values s u).
Proof.
  intros E L H. assert (L' := evolves_live _ _ _ E L). destruct (sat_with s' u n (evolves_inv _ _ E) L' H) as (rho & Hs & <-).
  apply E in Hs. apply Hs. auto.
Qed.
Lemma absent_z (l : list Z) : exists n, ~ In n l.
Proof.
  assert (H : exists b, forall x, In x l -> (x < b)%Z).
  { induction l as [|x l [b Hb]]; [exists 0%Z; intros x []|]. exists (Z.max b (x + 1)). intros y [<-|Hy]; [lia|]. specialize (Hb y Hy). lia. }
  destruct H as [b Hb]. exists b. intros H. apply Hb in H. lia.
Qed.
Lemma evolves_none s s' u : evolves s s' -> live s u -> possible_values s' u = None -> possible_values s u = None.
Proof.
  intros E L H. destruct (possible_values s u) as [l|] eqn:P; auto. exfalso. destruct (absent_z l) as [n Hn]. apply Hn.
  assert (X := evolves_pv s s' u n E L). rewrite H, P in X. apply X. exact Logic.I.
Qed.
Lemma evolves_value s s' u n : evolves s s' -> live s u -> value s u = Some n -> value s' u = Some n.
Proof.
  intros E L V. assert (I' := evolves_inv _ _ E). unfold value in *. apply value_of_spec; [apply (i_pv _ I')|].
  assert (W : wf_pv (possible_values s u)). { unfold possible_values in *. destruct (pv (recs s (meta s u))) as [[|x [|y l]]|]; try discriminate. cbn. split; [discriminate|]. constructor; [auto|constructor]. }
  apply (value_of_spec _ _ W) in V as [V1 V2].
  assert (A : forall m, in_pv m (possible_values s' u) -> m = n). { intros m Hm. apply V2. eapply evolves_pv; eauto. }
  assert (N : possible_values s' u <> None). { intros H. apply V1. eapply evolves_none; eauto. }
  split; [exact N|]. intros m. split; [apply A|]. intros ->.
  destruct (wf_inhabited _ (i_pv _ I' (meta s' u))) as [k Hk]. change (pv (recs s' (meta s' u))) with (possible_values s' u) in Hk.
  rewrite <- (A k Hk). exact Hk.
Qed.

(** ** Sound computations: no assignment that satisfies [C] is lost; an exception means there is none. *)
Definition sound {A} (m : sm A) (C : (nat -> Z) -> Prop) (s : ustate) : Prop :=
  evolves s (fst (m s)) /\
  match snd (m s) with
  | Ok _ => forall rho, sat s rho -> C rho -> sat (fst (m s)) rho
  | Err e => e = ValueError /\ forall rho, sat s rho -> ~ C rho
  end.
Lemma sound_ret {A} (a : A) C s : inv s -> sound (ret a) C s.
Proof. intros I. split; [apply evolves_refl; auto|]. cbn. auto. Qed.
Lemma sound_bind {A B} (m : sm A) (f : A -> sm B) C s :
  sound m C s -> (forall a s', m s = (s', Ok a) -> evolves s s' -> sound (f a) C s') -> sound (sbind m f) C s.
Proof.
  intros [E H] F. unfold sound, sbind. destruct (m s) as [s1 [a|e]] eqn:Em; cbn [fst snd] in *.
  - destruct (F a s1 eq_refl E) as [E1 H1]. split; [eapply evolves_trans; eauto|].
    destruct (f a s1) as [s2 [b|e]]; cbn [fst snd] in *.
    + intros rho Hs HC. apply H1; auto.
    + destruct H1 as [-> H1]. split; auto. intros rho Hs HC. apply (H1 rho); auto.
  - split; auto.
Qed.
Lemma sound_gets {A B} (g : ustate -> A) (f : A -> sm B) C s : sound (f (g s)) C s -> sound (sbind (gets g) f) C s.
Proof. intros H. exact H. Qed.
Lemma imposes_evolves {A} (m : sm A) C s : inv s -> imposes m C s -> evolves s (fst (m s)).
Proof.
  intros I (I' & N & L & M & H). split; auto. split; auto. split; auto. split; auto. intros rho Hr. destruct (snd (m s)).
  - apply H; auto.
  - destruct H as (_ & E & _). rewrite E in Hr. exact Hr.
Qed.
Lemma imposes_sound {A} (m : sm A) (C C' : (nat -> Z) -> Prop) s : inv s -> imposes m C' s -> (forall rho, sat s rho -> C rho -> C' rho) -> sound m C s.
Proof.
  intros I H X. split; [eapply imposes_evolves; eauto|]. destruct H as (_ & _ & _ & _ & H). destruct (snd (m s)).
  - intros rho Hs HC. apply H. split; auto.
  - destruct H as (-> & _ & H). split; auto. intros rho Hs HC. apply (H rho). split; auto.
Qed.

(** ** Progress *)
Definition works (K : list nat) (s s' : ustate) : Prop :=
  (exists x n, In x K /\ in_pv n (possible_values s x) /\ ~ in_pv n (possible_values s' x)) \/
  (exists x y, In x K /\ In y K /\ meta s x <> meta s y /\ meta s' x = meta s' y).
Lemma works_left K s s1 s2 : (forall x, In x K -> live s x) -> evolves s1 s2 -> evolves s s1 -> works K s s1 -> works K s s2.
Proof.
  intros HK E2 E1 [(x & n & Hx & H1 & H2)|(x & y & Hx & Hy & H1 & H2)]; [left | right].
  - exists x, n. split; auto. split; auto. intros H. apply H2. eapply evolves_pv; eauto. eapply evolves_live; eauto.
  - exists x, y. split; auto. split; auto. split; auto. apply E2; auto; eapply evolves_live; eauto.
Qed.
Lemma works_right K s s1 s2 : (forall x, In x K -> live s x) -> evolves s s1 -> works K s1 s2 -> works K s s2.
Proof.
  intros HK E1 [(x & n & Hx & H1 & H2)|(x & y & Hx & Hy & H1 & H2)]; [left | right].
  - exists x, n. split; auto. split; auto. eapply evolves_pv; eauto.
  - exists x, y. split; auto. split; auto. split; auto. intros H. apply H1. apply E1; auto.
Qed.
(** A computation that reports an update has worked, and reports only members of [K]. *)
Definition prog (K : list nat) (m : sm updates) (s : ustate) : Prop :=
  forall s' up, m s = (s', Ok up) -> (forall u, In u (unis up) -> In u K) /\ (unis up <> [] -> works K s s').
Lemma prog_ret K s : prog K (ret no_updates) s.
Proof. intros s' up [= <- <-]. cbn. split; [tauto|congruence]. Qed.

Lemma prog_update K s u vals : inv s -> live s u -> is_set vals -> In u K -> prog K (update_possible_values u vals) s.
Proof.
  intros I L Sv Hu s' up E. assert (D := update_details s u vals I L Sv). rewrite E in D. destruct D as (D1 & _ & _ & _ & _ & ->).
  destruct (set_eqb (possible_values s u) (possible_values s' u)) eqn:Q; cbn; [split; [tauto|congruence]|].
  split; [intros x [<-|[]]; auto|]. intros _. left. exists u.
  destruct (updated_ok _ _ _ D1 (i_pv _ I _) Sv) as [Wp Hp].
  destruct (possible_values s u) as [l|] eqn:P.
  - destruct (possible_values s' u) as [l'|] eqn:P'.
    + assert (X : exists n, In n l /\ ~ In n l').
      { cbn in Q. apply andb_false_iff in Q as [Q|Q].
        - unfold subset_b in Q. clear - Q. induction l as [|x l IH]; [discriminate|]. cbn in Q. apply andb_false_iff in Q as [Q|Q].
          + exists x. split; [left; auto|]. intros H. apply mem_In in H. congruence.
          + destruct (IH Q) as (n & H1 & H2). exists n. split; [right; auto|auto].
        - exfalso. assert (subset_b l' l = true); [|congruence]. apply subset_b_spec. intros x Hx. apply (Hp x). exact Hx. }
      destruct X as (n & H1 & H2). exists n. auto.
    + exfalso. destruct (updated_not_none _ _ _ D1 eq_refl). discriminate.
  - destruct (possible_values s' u) as [l'|] eqn:P'; [|cbn in Q; discriminate].
    destruct (absent_z l') as [n Hn]. exists n. split; auto. split; [exact Logic.I|exact Hn].
Qed.
Lemma prog_match K s u v : inv s -> live s u -> live s v -> In u K -> In v K -> prog K (uni_match u v) s.
Proof.
  intros I Lu Lv Hu Hv s' up E. assert (M := proj2 (uni_match_imposes s u v I Lu Lv)). rewrite E in M. cbn in M. specialize (M up eq_refl).
  assert (Hin : forall x, In x (unis up) -> In x K).
  { unfold uni_match in E. destruct (meta s u =? meta s v); [injection E as <- <-; intros x []|].
    cbv zeta in E. destruct (oz_eqb (value s u) (value s v) && _)%bool.
    - unfold sbind, ret in E. destruct (rec_match (meta s u) (meta s v) s) as [w [[]|]]; [|discriminate]. injection E as <- <-.
      cbn. intros x [<-|[]]. auto.
    - unfold sbind, gets, ret in E.
      assert (S1 : is_set (possible_values s u)). { assert (W := i_pv _ I (meta s u)). unfold possible_values. destruct (pv _); cbn in *; tauto. }
      assert (S2 : is_set (possible_values s v)). { assert (W := i_pv _ I (meta s v)). unfold possible_values. destruct (pv _); cbn in *; tauto. }
      destruct (update_possible_values u (possible_values s v) s) as [s1 [a|]] eqn:E1; [|discriminate].
      assert (P1 := prog_update K s u _ I Lu S2 Hu _ _ E1).
      assert (Ev := imposes_evolves _ _ _ I (update_imposes s u _ I Lu S2)). rewrite E1 in Ev. cbn in Ev.
      destruct (update_possible_values v (possible_values s u) s1) as [s2 [b|]] eqn:E2; [|discriminate].
      assert (P2 := prog_update K s1 v _ (evolves_inv _ _ Ev) (evolves_live _ _ _ Ev Lv) S1 Hv _ _ E2).
      destruct (rec_match (meta s2 u) (meta s2 v) s2) as [w [[]|]]; [|discriminate]. injection E as <- <-.
      cbn. intros x Hx. apply in_app_iff in Hx as [Hx|Hx]; [apply P1 | apply P2]; auto. }
  split; auto. intros N. right. exists u, v. split; auto. split; auto. split; auto.
  intros Em. unfold uni_match in E. rewrite Em, Nat.eqb_refl in E. injection E as <- <-. apply N. reflexivity.
Qed.

(** ** One group of three dimensions *)
Definition rel3 (k : key3) (rho : nat -> Z) : Prop := let '(l, r, o) := k in bcast_rel (rho l) (rho r) (rho o).
Definition live3 (s : ustate) (k : key3) : Prop := let '(l, r, o) := k in live s l /\ live s r /\ live s o.

Lemma set_union p : wf_pv (Some p) -> is_set (Some (union p [1%Z])).
Proof. intros [_ W]. cbn. apply NoDup_union; auto. constructor; [cbn; tauto|constructor]. Qed.
Lemma set_pv s u : inv s -> is_set (possible_values s u).
Proof. intros I. assert (W := i_pv _ I (meta s u)). unfold possible_values. destruct (pv _); cbn in *; tauto. Qed.
Lemma is_one_sat s u rho : inv s -> live s u -> is_one (value s u) = true -> sat s rho -> rho u = 1%Z.
Proof.
  intros I L H Hs. unfold is_one, oz_eqb in H. apply (proj1 (eqb_eq _ _)) in H.
  apply (value_of_spec _ _ (i_pv _ I (meta s u))) in H as [_ H]. apply H. apply Hs. auto.
Qed.
Lemma pv_sat s u rho p : live s u -> sat s rho -> possible_values s u = Some p -> In (rho u) p.
Proof. intros L Hs E. assert (H := proj1 Hs u L). rewrite E in H. exact H. Qed.

Lemma group_sound a b o s : inv s -> live s a -> live s b -> live s o ->
  sound (group_per_input a b o) (rel3 (a, b, o)) s.
Proof.
  intros I La Lb Lo. unfold group_per_input. apply sound_gets. apply sound_bind.
  { destruct (_ || _)%bool eqn:One; [|apply sound_ret; auto].
    eapply imposes_sound; [auto|apply (uni_match_imposes s o b I Lo Lb)|]. cbn. intros rho Hs R.
    apply orb_prop in One as [One|One].
    - assert (E := is_one_sat _ _ _ I La One Hs). unfold bcast_rel in R. intuition congruence.
    - assert (E := is_one_sat _ _ _ I Lo One Hs). unfold bcast_rel in R. intuition congruence. }
  intros up1 s1 _ E1. assert (I1 := evolves_inv _ _ E1).
  assert (La1 := evolves_live _ _ _ E1 La). assert (Lb1 := evolves_live _ _ _ E1 Lb). assert (Lo1 := evolves_live _ _ _ E1 Lo).
  apply sound_gets. apply sound_bind.
  { destruct (possible_values s1 o) as [p|] eqn:P; [|apply sound_ret; auto].
    assert (Wp : wf_pv (Some p)) by (rewrite <- P; apply (i_pv _ I1)).
    eapply imposes_sound; [auto|apply (update_imposes s1 b _ I1 Lb1 (set_union _ Wp))|]. cbn. intros rho Hs R. apply In_union.
    assert (H := pv_sat _ _ _ _ Lo1 Hs P). unfold bcast_rel in R.
    destruct R as [[_ R]|[[R _]|[R1 R2]]]; [left; congruence | right; left; auto | left; congruence]. }
  intros up2 s2 _ E2. assert (I2 := evolves_inv _ _ E2).
  assert (La2 := evolves_live _ _ _ E2 La1). assert (Lb2 := evolves_live _ _ _ E2 Lb1). assert (Lo2 := evolves_live _ _ _ E2 Lo1).
  apply sound_gets. destruct (possible_values s2 a) as [p|] eqn:P; [|apply sound_ret; auto].
  destruct (mem_spec 1%Z p) as [M|M]; [apply sound_ret; auto|].
  assert (Wp : wf_pv (Some p)) by (rewrite <- P; apply (i_pv _ I2)).
  apply sound_bind.
  { eapply imposes_sound; [auto|apply (update_imposes s2 b _ I2 Lb2 (set_union _ Wp))|]. cbn. intros rho Hs R. apply In_union.
    assert (H := pv_sat _ _ _ _ La2 Hs P). unfold bcast_rel in R.
    destruct R as [[R _]|[[R _]|[R1 R2]]]; [rewrite R in H; contradiction | right; left; auto | left; congruence]. }
  intros up3 s3 _ E3. assert (I3 := evolves_inv _ _ E3).
  assert (La3 := evolves_live _ _ _ E3 La2). assert (Lo3 := evolves_live _ _ _ E3 Lo2).
  apply sound_gets. apply sound_bind.
  { eapply imposes_sound; [auto|apply (update_imposes s3 o _ I3 Lo3 (set_pv s3 a I3))|]. cbn. intros rho Hs R.
    assert (H := pv_sat _ _ _ _ La2 (proj2 (proj2 (proj2 (proj2 E3))) rho Hs) P).
    assert (H3 := proj1 Hs a La3). unfold bcast_rel in R.
    destruct R as [[R _]|[[_ R]|[_ R]]]; [rewrite R in H; contradiction | rewrite R; auto | rewrite R; auto]. }
  intros up4 s4 _ E4. apply sound_ret. apply (evolves_inv _ _ E4).
Qed.

Lemma group_prog K a b o s : inv s -> live s a -> live s b -> live s o -> (forall x, In x K -> live s x) -> In a K -> In b K -> In o K ->
  prog K (group_per_input a b o) s.
Proof.
  intros I La Lb Lo HK Ka Kb Ko s' up. unfold group_per_input.
  assert (Step : forall (m : sm updates) t, inv t -> prog K m t -> (exists C, sound m C t) -> forall t1 u1, m t = (t1, Ok u1) ->
     evolves t t1 /\ (forall x, In x (unis u1) -> In x K) /\ (unis u1 <> [] -> works K t t1)).
  { intros m t It Hp [C [Hs _]] t1 u1 E. rewrite E in Hs. destruct (Hp _ _ E). auto. }
  unfold sbind at 1, gets at 1. unfold sbind at 1.
  destruct ((if is_one (value s a) || is_one (value s o) then uni_match o b else ret no_updates) s) as [s1 [u1|]] eqn:E1; [|discriminate].
  assert (X1 : evolves s s1 /\ (forall x, In x (unis u1) -> In x K) /\ (unis u1 <> [] -> works K s s1)).
  { eapply (Step (if is_one (value s a) || is_one (value s o) then uni_match o b else ret no_updates)); [auto| | |exact E1].
    - destruct (_ || _)%bool; [apply prog_match; auto | apply prog_ret].
    - exists (fun rho => rho o = rho b). destruct (_ || _)%bool; [|apply sound_ret; auto].
      eapply imposes_sound; [auto|apply (uni_match_imposes s o b I Lo Lb)|auto]. }
  destruct X1 as (V1 & A1 & B1). assert (I1 := evolves_inv _ _ V1).
  assert (La1 := evolves_live _ _ _ V1 La). assert (Lb1 := evolves_live _ _ _ V1 Lb). assert (Lo1 := evolves_live _ _ _ V1 Lo).
  unfold sbind at 1, gets at 1. unfold sbind at 1.
  destruct (match possible_values s1 o with Some p => update_possible_values b (Some (union p [1%Z])) | None => ret no_updates end s1) as [s2 [u2|]] eqn:E2; [|discriminate].
  assert (X2 : evolves s1 s2 /\ (forall x, In x (unis u2) -> In x K) /\ (unis u2 <> [] -> works K s1 s2)).
  { eapply (Step (match possible_values s1 o with Some p => update_possible_values b (Some (union p [1%Z])) | None => ret no_updates end)); [auto| | |exact E2].
    - destruct (possible_values s1 o) as [p|] eqn:P; [|apply prog_ret]. apply prog_update; auto. apply set_union. rewrite <- P. apply (i_pv _ I1).
    - destruct (possible_values s1 o) as [p|] eqn:P; [|exists (fun _ => True); apply sound_ret; auto].
      eexists. eapply imposes_sound; [auto|apply (update_imposes s1 b _ I1 Lb1)|intros rho _ HC; exact HC]. apply set_union. rewrite <- P. apply (i_pv _ I1). }
  destruct X2 as (V2 & A2 & B2). assert (I2 := evolves_inv _ _ V2).
  assert (La2 := evolves_live _ _ _ V2 La1). assert (Lb2 := evolves_live _ _ _ V2 Lb1). assert (Lo2 := evolves_live _ _ _ V2 Lo1).
  assert (V12 := evolves_trans _ _ _ V1 V2).
  assert (Two : forall (l : list nat), l = unis (join u1 u2) -> (forall x, In x l -> In x K) /\ (l <> [] -> works K s s2)).
  { intros l ->. cbn. split; [intros x Hx; apply in_app_iff in Hx as [Hx|Hx]; auto|]. intros N.
    destruct (unis u1) as [|x0 l0] eqn:Eu; [eapply works_right; [exact HK|exact V1|apply B2; exact N] | eapply works_left; [exact HK|exact V2|exact V1|apply B1; discriminate]]. }
  unfold sbind at 1, gets at 1.
  destruct (possible_values s2 a) as [p|] eqn:P; [|intros [= <- <-]; apply (Two _ eq_refl)].
  destruct (mem 1%Z p); [intros [= <- <-]; apply (Two _ eq_refl)|].
  assert (Wp : wf_pv (Some p)) by (rewrite <- P; apply (i_pv _ I2)).
  unfold sbind at 1. destruct (update_possible_values b (Some (union p [1%Z])) s2) as [s3 [u3|]] eqn:E3; [|discriminate].
  assert (X3 : evolves s2 s3 /\ (forall x, In x (unis u3) -> In x K) /\ (unis u3 <> [] -> works K s2 s3)).
  { eapply (Step (update_possible_values b (Some (union p [1%Z])))); [auto| | |exact E3].
    - apply prog_update; auto. apply set_union. auto.
    - eexists. eapply imposes_sound; [auto|apply (update_imposes s2 b _ I2 Lb2 (set_union _ Wp))|intros rho _ HC; exact HC]. }
  destruct X3 as (V3 & A3 & B3). assert (I3 := evolves_inv _ _ V3). assert (La3 := evolves_live _ _ _ V3 La2). assert (Lo3 := evolves_live _ _ _ V3 Lo2).
  assert (V13 := evolves_trans _ _ _ V12 V3).
  unfold sbind at 1, gets at 1.
  unfold sbind at 1. destruct (update_possible_values o (possible_values s3 a) s3) as [s4 [u4|]] eqn:E4; [|discriminate].
  assert (X4 : evolves s3 s4 /\ (forall x, In x (unis u4) -> In x K) /\ (unis u4 <> [] -> works K s3 s4)).
  { eapply (Step (update_possible_values o (possible_values s3 a))); [auto| | |exact E4].
    - apply prog_update; auto. apply set_pv; auto.
    - eexists. eapply imposes_sound; [auto|apply (update_imposes s3 o _ I3 Lo3 (set_pv s3 a I3))|intros rho _ HC; exact HC]. }
  destruct X4 as (V4 & A4 & B4).
  intros [= <- <-]. cbn [join unis]. split.
  - intros x Hx. apply in_app_iff in Hx as [Hx|Hx]; auto. apply in_app_iff in Hx as [Hx|Hx]; auto. apply (Two _ eq_refl). exact Hx.
  - intros N. destruct (unis u4) as [|x4 l4] eqn:Eu4; [|eapply works_right; [auto|exact V13|apply B4; discriminate]].
    rewrite app_nil_r in N. eapply works_left; [auto|exact V4|exact V13|].
    destruct (unis u3) as [|x3 l3] eqn:Eu3; [|eapply works_right; [auto|exact V12|apply B3; discriminate]].
    rewrite app_nil_r in N. eapply works_left; [auto|exact V3|exact V12|]. apply (Two _ eq_refl). exact N.
Qed.

Lemma bcast_group_sound k s : inv s -> live3 s k -> sound (bcast_group k) (rel3 k) s.
Proof.
  destruct k as [[l r] o]. intros I (Ll & Lr & Lo). unfold bcast_group. apply sound_bind; [apply group_sound; auto|].
  intros a s1 _ E1. apply sound_bind.
  - assert (H := group_sound r l o s1 (evolves_inv _ _ E1) (evolves_live _ _ _ E1 Lr) (evolves_live _ _ _ E1 Ll) (evolves_live _ _ _ E1 Lo)).
    destruct H as [V H]. split; auto. destruct (snd _).
    + intros rho Hs R. apply H; auto. cbn in *. apply bcast_rel_sym; auto.
    + destruct H as [-> H]. split; auto. intros rho Hs R. apply (H rho Hs). cbn in *. apply bcast_rel_sym; auto.
  - intros b s2 _ E2. apply sound_ret. apply (evolves_inv _ _ E2).
Qed.
Lemma bcast_group_prog K k s : inv s -> live3 s k -> (forall x, In x K -> live s x) -> (let '(l, r, o) := k in In l K /\ In r K /\ In o K) ->
  prog K (bcast_group k) s.
Proof.
  destruct k as [[l r] o]. intros I (Ll & Lr & Lo) HK (Kl & Kr & Ko) s' up. unfold bcast_group, sbind.
  assert (S1 := group_sound l r o s I Ll Lr Lo). assert (P1 := group_prog K l r o s I Ll Lr Lo HK Kl Kr Ko).
  destruct (group_per_input l r o s) as [s1 [a|]] eqn:E1; [|discriminate]. destruct S1 as [V1 _]. rewrite E1 in V1. cbn [fst] in V1.
  destruct (P1 _ _ E1) as [A1 B1].
  assert (I1 := evolves_inv _ _ V1).
  assert (Ll1 := evolves_live _ _ _ V1 Ll). assert (Lr1 := evolves_live _ _ _ V1 Lr). assert (Lo1 := evolves_live _ _ _ V1 Lo).
  assert (S2 := group_sound r l o s1 I1 Lr1 Ll1 Lo1). assert (P2 := group_prog K r l o s1 I1 Lr1 Ll1 Lo1 (fun x Hx => evolves_live _ _ _ V1 (HK x Hx)) Kr Kl Ko).
  destruct (group_per_input r l o s1) as [s2 [b|]] eqn:E2; [|discriminate]. destruct S2 as [V2 _]. rewrite E2 in V2. cbn [fst] in V2.
  destruct (P2 _ _ E2) as [A2 B2]. intros [= <- <-]. cbn [join unis]. split.
  - intros x Hx. apply in_app_iff in Hx as [Hx|Hx]; auto.
  - intros N. destruct (unis b) as [|x0 l0] eqn:Eb; [|eapply works_right; [auto|exact V1|apply B2; discriminate]].
    rewrite app_nil_r in N. eapply works_left; [auto|exact V2|exact V1|auto].
Qed.

(** ** Termination measure *)
Fixpoint nsum (f : nat -> nat) (K : list nat) : nat := match K with [] => 0 | x :: K => f x + nsum f K end.
Lemma nsum_le f g K : (forall x, In x K -> f x <= g x) -> nsum f K <= nsum g K.
Proof. induction K as [|x K IH]; cbn; intros H; [lia|]. assert (f x <= g x) by (apply H; auto). assert (nsum f K <= nsum g K) by (apply IH; auto). lia. Qed.
Lemma nsum_lt f g K x : (forall y, In y K -> f y <= g y) -> In x K -> f x < g x -> nsum f K < nsum g K.
Proof.
  induction K as [|y K IH]; cbn; intros H Hx L; [tauto|]. destruct Hx as [->|Hx].
  - assert (nsum f K <= nsum g K) by (apply nsum_le; auto). lia.
  - assert (f y <= g y) by (apply H; auto). assert (nsum f K < nsum g K) by (apply IH; auto). lia.
Qed.
Definition nones (s : ustate) (x : nat) : nat := match possible_values s x with None => 1 | Some _ => 0 end.
Definition sizes (s : ustate) (x : nat) : nat := match possible_values s x with None => 0 | Some l => length l end.
Definition apart (K : list nat) (s : ustate) (x : nat) : nat := nsum (fun y => if meta s x =? meta s y then 0 else 1) K.
Definition meas1 (K : list nat) (s : ustate) : nat := nsum (nones s) K + nsum (apart K s) K.
Definition meas2 (K : list nat) (s : ustate) : nat := nsum (sizes s) K.

Lemma works_decreases K s s' : inv s -> evolves s s' -> (forall x, In x K -> live s x) -> works K s s' ->
  meas1 K s' < meas1 K s \/ (meas1 K s' = meas1 K s /\ meas2 K s' < meas2 K s).
Proof.
  intros I E HK W. assert (I' := evolves_inv _ _ E).
  assert (N : forall x, In x K -> nones s' x <= nones s x).
  { intros x Hx. unfold nones. destruct (possible_values s' x) eqn:P; [lia|]. rewrite (evolves_none _ _ _ E (HK x Hx) P). lia. }
  assert (A1 : forall x y, In x K -> In y K -> (if meta s' x =? meta s' y then 0 else 1) <= (if meta s x =? meta s y then 0 else 1)).
  { intros x y Hx Hy. destruct (Nat.eqb_spec (meta s x) (meta s y)) as [Q|Q]; [|destruct (_ =? _); lia].
    assert (Z := proj1 (proj2 (proj2 (proj2 E))) x y (HK x Hx) (HK y Hy) Q). rewrite Z, Nat.eqb_refl. lia. }
  assert (A : forall x, In x K -> apart K s' x <= apart K s x). { intros x Hx. apply nsum_le. intros y Hy. apply A1; auto. }
  assert (N' := nsum_le _ _ _ N). assert (A' := nsum_le _ _ _ A).
  destruct W as [(x & n & Hx & H1 & H2)|(x & y & Hx & Hy & H1 & H2)].
  - destruct (possible_values s x) as [l|] eqn:P.
    + destruct (Nat.eq_dec (meas1 K s') (meas1 K s)) as [Em|Em]; [right; split; auto|left; unfold meas1 in *; lia].
      assert (Nn : forall y, In y K -> nones s' y = nones s y).
      { intros y Hy. destruct (Nat.eq_dec (nones s' y) (nones s y)); auto. exfalso.
        assert (nsum (nones s') K < nsum (nones s) K) by (apply (nsum_lt _ _ _ y); auto; specialize (N y Hy); lia). unfold meas1 in Em. lia. }
      apply (nsum_lt _ _ _ x); auto.
      * intros y Hy. unfold sizes. specialize (Nn y Hy). unfold nones in Nn.
        destruct (possible_values s' y) as [l'|] eqn:P'; [|lia]. destruct (possible_values s y) as [l2|] eqn:P2; [|discriminate].
        apply NoDup_incl_length.
        -- assert (W := i_pv _ I' (meta s' y)). change (pv (recs s' (meta s' y))) with (possible_values s' y) in W. rewrite P' in W. apply W.
        -- intros z Hz. assert (X := evolves_pv s s' y z E (HK y Hy)). rewrite P', P2 in X. apply X. exact Hz.
      * unfold sizes. rewrite P. destruct (possible_values s' x) as [l'|] eqn:P'; [|exfalso; apply H2; exact Logic.I].
        assert (W := i_pv _ I' (meta s' x)). change (pv (recs s' (meta s' x))) with (possible_values s' x) in W. rewrite P' in W.
        assert (X : length (n :: l') <= length l).
        { apply NoDup_incl_length; [constructor; [exact H2|apply W]|]. intros z [<-|Hz]; [exact H1|].
          assert (X := evolves_pv s s' x z E (HK x Hx)). rewrite P', P in X. apply X. exact Hz. }
        cbn in X. lia.
    + left. assert (nsum (nones s') K < nsum (nones s) K); [|unfold meas1; lia]. apply (nsum_lt _ _ _ x); auto.
      unfold nones. rewrite P. destruct (possible_values s' x); [lia|]. exfalso. apply H2. exact Logic.I.
  - left. assert (nsum (apart K s') K < nsum (apart K s) K); [|unfold meas1; lia]. apply (nsum_lt _ _ _ x); auto.
    apply (nsum_lt _ _ _ y); auto. rewrite H2, Nat.eqb_refl. destruct (Nat.eqb_spec (meta s x) (meta s y)); [congruence|lia].
Qed.
Lemma no_works_le K s s' : inv s -> evolves s s' -> (forall x, In x K -> live s x) ->
  meas1 K s' < meas1 K s \/ (meas1 K s' = meas1 K s /\ meas2 K s' <= meas2 K s).
Proof.
  intros I E HK. assert (I' := evolves_inv _ _ E).
  assert (N : forall x, In x K -> nones s' x <= nones s x).
  { intros x Hx. unfold nones. destruct (possible_values s' x) eqn:P; [lia|]. rewrite (evolves_none _ _ _ E (HK x Hx) P). lia. }
  assert (A : forall x, In x K -> apart K s' x <= apart K s x).
  { intros x Hx. apply nsum_le. intros y Hy. destruct (Nat.eqb_spec (meta s x) (meta s y)) as [Q|Q]; [|destruct (_ =? _); lia].
    assert (Z := proj1 (proj2 (proj2 (proj2 E))) x y (HK x Hx) (HK y Hy) Q). rewrite Z, Nat.eqb_refl. lia. }
  assert (N' := nsum_le _ _ _ N). assert (A' := nsum_le _ _ _ A).
  destruct (Nat.eq_dec (meas1 K s') (meas1 K s)) as [Em|Em]; [right; split; auto|left; unfold meas1 in *; lia].
  assert (Nn : forall y, In y K -> nones s' y = nones s y).
  { intros y Hy. destruct (Nat.eq_dec (nones s' y) (nones s y)); auto. exfalso.
    assert (nsum (nones s') K < nsum (nones s) K) by (apply (nsum_lt _ _ _ y); auto; specialize (N y Hy); lia). unfold meas1 in Em. lia. }
  apply nsum_le. intros y Hy. unfold sizes. specialize (Nn y Hy). unfold nones in Nn.
  destruct (possible_values s' y) as [l'|] eqn:P'; [|lia]. destruct (possible_values s y) as [l2|] eqn:P2; [|discriminate].
  apply NoDup_incl_length.
  - assert (W := i_pv _ I' (meta s' y)). change (pv (recs s' (meta s' y))) with (possible_values s' y) in W. rewrite P' in W. apply W.
  - intros z Hz. assert (X := evolves_pv s s' y z E (HK y Hy)). rewrite P', P2 in X. apply X. exact Hz.
Qed.

(** ** The work list *)
Definition members (k : key3) : list nat := let '(l, r, o) := k in [l; r; o].
Lemma key3_eqb_spec a b : key3_eqb a b = true <-> a = b.
Proof.
  destruct a as [[x y] z], b as [[x' y'] z']. cbn. rewrite !andb_true_iff, !Nat.eqb_eq. split; [intros [[-> ->] ->]; auto | intros [= -> -> ->]; auto].
Qed.
Lemma kmem_spec k l : kmem k l = true <-> In k l.
Proof.
  unfold kmem. rewrite existsb_exists. split.
  - intros (x & Hx & E). apply key3_eqb_spec in E as ->. auto.
  - intros H. exists k. split; auto. apply key3_eqb_spec; auto.
Qed.
Lemma In_kadd x k l : In x (kadd k l) <-> In x l \/ x = k.
Proof.
  unfold kadd. destruct (kmem k l) eqn:E.
  - apply kmem_spec in E. split; [auto|]. intros [H|H]; subst; auto.
  - rewrite in_app_iff. cbn. intuition congruence.
Qed.
Lemma In_kunion x m : forall l, In x (kunion l m) <-> In x l \/ In x m.
Proof.
  unfold kunion. induction m as [|k m IH]; intros l; cbn; [tauto|]. rewrite IH, In_kadd. intuition congruence.
Qed.
Lemma In_kremove x k l : In x (kremove k l) <-> In x l /\ x <> k.
Proof.
  unfold kremove. rewrite filter_In, negb_true_iff. split.
  - intros [H E]. split; auto. intros ->. assert (X : key3_eqb k k = true) by (apply key3_eqb_spec; auto). congruence.
  - intros [H N]. split; auto. destruct (key3_eqb k x) eqn:E; auto. apply key3_eqb_spec in E. congruence.
Qed.
Lemma kremove_length k l : In k l -> length (kremove k l) < length l.
Proof.
  unfold kremove. induction l as [|x l IH]; [intros []|]. intros H. cbn [filter length]. destruct (key3_eqb k x) eqn:E; cbn [negb length].
  - assert (length (filter (fun x => negb (key3_eqb k x)) l) <= length l) by (clear; induction l as [|y l IH]; cbn; [lia|]; destruct (negb _); cbn; lia). lia.
  - destruct H as [->|H]; [|specialize (IH H); lia]. assert (X : key3_eqb k k = true) by (apply key3_eqb_spec; auto). congruence.
Qed.
Lemma contains_spec u k : contains u k = true <-> In u (members k).
Proof.
  destruct k as [[l r] o]. cbn. rewrite !orb_true_iff, !Nat.eqb_eq. intuition congruence.
Qed.
Lemma requeue_ok all us : forall work s, (forall u, In u us -> In u (flat_map members all)) -> incl work all ->
  exists work', requeue all us work s = (s, Ok work') /\ incl work work' /\ incl work' all /\ (us = [] -> work' = work).
Proof.
  induction us as [|u us IH]; intros work s H W; cbn [requeue].
  - exists work. split; [reflexivity|]. split; [apply incl_refl|]. auto.
  - assert (X : exists k, In k all /\ In u (members k)). { apply in_flat_map. apply H. left; auto. }
    destruct X as (k & Hk & Hu).
    assert (Hf : In k (filter (contains u) all)). { apply filter_In. split; auto. apply contains_spec; auto. }
    assert (Hs : incl (filter (contains u) all) all). { intros x Hx. apply filter_In in Hx. tauto. }
    destruct (filter (contains u) all) as [|k0 ks] eqn:F; [destruct Hf|].
    destruct (IH (kunion work (k0 :: ks)) s) as (w & E & W1 & W2 & _).
    + intros x Hx. apply H. right; auto.
    + intros x Hx. apply In_kunion in Hx as [Hx|Hx]; auto.
    + exists w. split; [exact E|]. split; [|split; [auto|discriminate]]. intros x Hx. apply W1. apply In_kunion. auto.
Qed.

Definition was_run (s s' : ustate) (k : key3) : Prop :=
  exists s1 s2 up, evolves s s1 /\ bcast_group k s1 = (s2, Ok up) /\ evolves s2 s'.
Lemma was_run_left s0 s s' k : evolves s0 s -> was_run s s' k -> was_run s0 s' k.
Proof. intros E (s1 & s2 & up & A & B & C). exists s1, s2, up. split; [eapply evolves_trans; eauto|auto]. Qed.

Section LoopProof.
  Variable pick : list key3 -> key3.
  Hypothesis Hpick : forall l, l <> [] -> In (pick l) l.
  Variable all : list key3.
  Let K := flat_map members all.
  Variable C : (nat -> Z) -> Prop.
  Hypothesis HC : forall rho k, C rho -> In k all -> rel3 k rho.

  Lemma loop_ok : forall s work, inv s -> (forall x, In x K -> live s x) -> incl work all ->
    exists N, forall fuel ups, N <= fuel ->
      sound (bcast_loop pick fuel all work ups) C s /\
      (forall s' up, bcast_loop pick fuel all work ups s = (s', Ok up) -> forall k, In k work -> was_run s s' k).
  Proof.
    intros s work. remember (meas1 K s) as a eqn:Ea. revert s work Ea. induction a as [a IHa] using lt_wf_ind.
    intros s work Ea. remember (meas2 K s) as b eqn:Eb. revert s work Ea Eb. induction b as [b IHb] using lt_wf_ind.
    intros s work Ea Eb. remember (length work) as c eqn:Ec. revert s work Ea Eb Ec. induction c as [c IHc] using lt_wf_ind.
    intros s work Ea Eb Ec I HK HW.
    destruct work as [|w0 ws].
    { exists 0. intros fuel ups _. split.
      - destruct fuel; cbn; apply sound_ret; auto.
      - intros s' up _ k []. }
    set (work := w0 :: ws) in *. set (k := pick work).
    assert (Hk : In k work) by (apply Hpick; discriminate).
    assert (Hka : In k all) by auto.
    assert (Mk : forall x, In x (members k) -> In x K). { intros x Hx. apply in_flat_map. exists k. auto. }
    assert (Lk : live3 s k). { destruct k as [[l r] o]. cbn in *. auto 10. }
    assert (Sg := bcast_group_sound k s I Lk).
    assert (Pg : prog K (bcast_group k) s).
    { apply bcast_group_prog; auto. destruct k as [[l r] o]. cbn in *. auto 10. }
    destruct (bcast_group k s) as [s1 [up|e]] eqn:Eg.
    - unfold sound in Sg. rewrite Eg in Sg. destruct Sg as [V1 S1]. cbn [fst snd] in *.
      destruct (Pg _ _ Eg) as [A B].
      destruct (requeue_ok all (unis up) (kremove k work) s1 A) as (w & Er & W1 & W2 & W3).
      { intros x Hx. apply In_kremove in Hx as [Hx _]. auto. }
      assert (I1 := evolves_inv _ _ V1). assert (HK1 : forall x, In x K -> live s1 x) by (intros x Hx; eapply evolves_live; eauto).
      assert (X : exists N, forall fuel ups, N <= fuel -> sound (bcast_loop pick fuel all w ups) C s1 /\
        (forall s' up, bcast_loop pick fuel all w ups s1 = (s', Ok up) -> forall k, In k w -> was_run s1 s' k)).
      { destruct (unis up) as [|u0 us] eqn:Eu.
        - assert (Le := no_works_le K s s1 I V1 HK). specialize (W3 eq_refl). subst w.
          destruct Le as [Lt|[Eq Le]]; [eapply IHa; [|reflexivity|auto|auto|auto]; lia|].
          destruct (Nat.eq_dec (meas2 K s1) (meas2 K s)) as [E2|E2].
          + eapply (IHc (length (kremove k work))); [|congruence|congruence|reflexivity|auto|auto|auto].
            subst c. apply kremove_length; auto.
          + eapply (IHb (meas2 K s1)); [|congruence|reflexivity|auto|auto|auto]. lia.
        - assert (D : works K s s1) by (apply B; discriminate).
          destruct (works_decreases K s s1 I V1 HK D) as [Lt|[Eq Lt]].
          + eapply IHa; [|reflexivity|auto|auto|auto]. lia.
          + eapply (IHb (meas2 K s1)); [|congruence|reflexivity|auto|auto|auto]. lia. }
      destruct X as [N X]. exists (S N). intros fuel ups Hf. destruct fuel as [|n]; [lia|].
      destruct (X n (join ups up)) as [Sx Rx]; [lia|].
      assert (Eq : bcast_loop pick (S n) all work ups s = bcast_loop pick n all w (join ups up) s1).
      { change (bcast_loop pick (S n) all work ups s) with ((do a <- bcast_group k; do w' <- requeue all (unis a) (kremove k work); bcast_loop pick n all w' (join ups a)) s). unfold sbind. rewrite Eg, Er. reflexivity. }
      split.
      + unfold sound. rewrite Eq. destruct Sx as [Vx Sx]. split; [eapply evolves_trans; eauto|].
        destruct (snd (bcast_loop pick n all w (join ups up) s1)).
        * intros rho Hs Hc. apply Sx; auto.
        * destruct Sx as [-> Sx]. split; auto. intros rho Hs Hc. apply (Sx rho); auto.
      + intros s' up' E j Hj. rewrite Eq in E.
        destruct (key3_eqb j k) eqn:Ej.
        * apply key3_eqb_spec in Ej as ->. exists s, s1, up. split; [apply evolves_refl; auto|]. split; auto.
          destruct Sx as [Vx _]. rewrite E in Vx. exact Vx.
        * eapply was_run_left; [exact V1|]. eapply Rx; [exact E|]. apply W1. apply In_kremove. split; auto.
          intros ->. assert (Y : key3_eqb k k = true) by (apply key3_eqb_spec; auto). congruence.
    - exists 1. intros fuel ups Hf. destruct fuel as [|n]; [lia|].
      assert (Eq : bcast_loop pick (S n) all work ups s = (s1, Err e)).
      { change (bcast_loop pick (S n) all work ups s) with ((do a <- bcast_group k; do w' <- requeue all (unis a) (kremove k work); bcast_loop pick n all w' (join ups a)) s). unfold sbind. rewrite Eg. reflexivity. }
      split.
      + unfold sound in *. rewrite Eq. rewrite Eg in Sg. destruct Sg as [V1 [-> S1]]. split; auto. cbn. split; auto. intros rho Hs Hc. apply (S1 rho); auto.
      + intros s' up' E. rewrite Eq in E. discriminate.
  Qed.
End LoopProof.

(** ** The axes *)
(** Specification of one axis, seen from the right: a missing input axis counts as extent 1; if some rank is open, a missing
    axis may have any extent, and a missing output axis says nothing. *)
Definition fits (complete : bool) (d : option Z) (x : Z) : Prop :=
  match d with Some n => x = n | None => complete = true -> x = 1%Z end.
Definition axis_rel (complete : bool) (l r o : option Z) : Prop :=
  match o with
  | None => True
  | Some o => exists x y, fits complete l x /\ fits complete r y /\ bcast_rel x y o
  end.
Definition pos_rel (complete : bool) (rho : nat -> Z) (p : option nat * option nat * option nat) : Prop :=
  let '(l, r, o) := p in axis_rel complete (option_map rho l) (option_map rho r) (option_map rho o).
Definition live_o (s : ustate) (x : option nat) : Prop := match x with Some u => live s u | None => True end.
Definition live_pos (s : ustate) (p : option nat * option nat * option nat) : Prop :=
  let '(l, r, o) := p in live_o s l /\ live_o s r /\ live_o s o.
Lemma live_pos_evolves s s' p : evolves s s' -> live_pos s p -> live_pos s' p.
Proof.
  destruct p as [[l r] o]. intros E (A & B & D).
  assert (H : forall x, live_o s x -> live_o s' x) by (intros [u|]; cbn; auto; apply evolves_live; auto).
  split; [auto|split; auto].
Qed.
(** What the code assumes when all ranks are known (checked before): an output axis and some input axis exist. *)
Definition pos_ok (complete : bool) (p : option nat * option nat * option nat) : Prop :=
  complete = true -> let '(l, r, o) := p in o <> None /\ (l <> None \/ r <> None).
(** What is settled about a position after it has been visited. *)
Definition pos_done (complete : bool) (s' : ustate) (keys' : list key3) (p : option nat * option nat * option nat) : Prop :=
  match p with
  | (Some l, Some r, Some o) => In (l, r, o) keys' \/ (meta s' l = meta s' r /\ meta s' o = meta s' l)
  | (Some e, None, Some o) | (None, Some e, Some o) => complete = true -> meta s' o = meta s' e
  | _ => True
  end.
Lemma pos_done_later c s s' ks ks' p : evolves s s' -> live_pos s p -> incl ks ks' -> pos_done c s ks p -> pos_done c s' ks' p.
Proof.
  intros E L H. destruct p as [[[l|] [r|]] [o|]]; cbn in *; try tauto.
  - destruct L as (Ll & Lr & Lo). intros [D|[D1 D2]]; [left; auto | right; split; apply E; auto].
  - destruct L as (Ll & _ & Lo). intros D Hc. apply E; auto.
  - destruct L as (_ & Lr & Lo). intros D Hc. apply E; auto.
Qed.

Lemma value_sat s u n rho : inv s -> live s u -> value s u = Some n -> sat s rho -> rho u = n.
Proof. intros I L V Hs. apply (value_of_spec _ _ (i_pv _ I (meta s u))) in V as [_ V]. apply V. apply Hs. auto. Qed.
Lemma big_sat s u rho : inv s -> live s u -> big (value s u) = true -> sat s rho -> value s u = Some (rho u) /\ rho u <> 1%Z.
Proof.
  intros I L B Hs. destruct (value s u) as [n|] eqn:V; [|discriminate]. cbn in B. assert (E := value_sat _ _ _ _ I L V Hs). subst n.
  split; auto. intros E. rewrite E in B. discriminate.
Qed.

Lemma position_ok c p acc s : inv s -> live_pos s p -> pos_ok c p ->
  sound (bcast_position c p acc) (fun rho => pos_rel c rho p) s /\
  (forall s' ups' keys', bcast_position c p acc s = (s', Ok (ups', keys')) ->
     incl (snd acc) keys' /\ pos_done c s' keys' p /\
     (forall k, In k keys' -> In k (snd acc) \/ let '(l, r, o) := k in p = (Some l, Some r, Some o))).
Proof.
  intros I L Hok. destruct p as [[lu ru] ou]. destruct acc as [ups keys]. destruct L as (Ll & Lr & Lo). cbn [snd].
  (* matching the output with the only input *)
  assert (Single : forall o e, live s o -> live s e -> forall C : (nat -> Z) -> Prop, (forall rho, sat s rho -> C rho -> rho o = rho e) ->
     sound (fun s => (if meta s o =? meta s e then ret (ups, keys) else (do a <- uni_match o e; ret (join ups a, keys))) s) C s /\
     (forall s' ups' keys', (if meta s o =? meta s e then ret (ups, keys) else (do a <- uni_match o e; ret (join ups a, keys))) s = (s', Ok (ups', keys')) ->
        keys' = keys /\ meta s' o = meta s' e)).
  { intros o e Lo' Le C X. destruct (Nat.eqb_spec (meta s o) (meta s e)) as [Em|Em].
    - split.
      + unfold sound. cbv beta. rewrite Em, Nat.eqb_refl. apply (sound_ret (ups, keys) C s I).
      + intros s' ups' keys' [= <- <- <-]. auto.
    - split.
      + unfold sound. cbv beta. apply Nat.eqb_neq in Em. rewrite Em.
        assert (H : sound (do a <- uni_match o e; ret (join ups a, keys)) C s); [|exact H].
        apply sound_bind; [eapply imposes_sound; [auto|apply (uni_match_imposes s o e I Lo' Le)|exact X]|].
        intros a s1 _ V1. apply sound_ret. apply (evolves_inv _ _ V1).
      + intros s' ups' keys'. unfold sbind, ret. assert (M := proj2 (uni_match_imposes s o e I Lo' Le)).
        destruct (uni_match o e s) as [s1 [a|]]; [|discriminate]. intros [= <- <- <-]. split; auto. apply (M a). reflexivity. }
  (* a position that is left alone *)
  assert (Skip : forall C, sound (ret (ups, keys)) C s /\ (forall s' ups' keys', ret (ups, keys) s = (s', Ok (ups', keys')) ->
     incl keys keys' /\ (forall k, In k keys' -> In k keys \/ let '(l, r, o) := k in (lu, ru, ou) = (Some l, Some r, Some o)))).
  { intros C. split; [apply sound_ret; auto|]. intros s' ups' keys' [= <- <- <-]. split; [apply incl_refl|auto]. }
  (* one input axis is missing *)
  assert (One : forall o e, ou = Some o -> (lu = Some e /\ ru = None) \/ (lu = None /\ ru = Some e) -> live s o -> live s e ->
     forall rho, pos_rel c rho (lu, ru, ou) <-> exists x, (c = true -> x = 1%Z) /\ bcast_rel (rho e) x (rho o)).
  { intros o e -> [[-> ->]|[-> ->]] _ _ rho; cbn; split.
    - intros (x & y & -> & Hy & R). exists y. auto.
    - intros (x & Hx & R). exists (rho e), x. auto.
    - intros (x & y & Hx & -> & R). exists x. split; auto. apply bcast_rel_sym; auto.
    - intros (x & Hx & R). exists x, (rho e). split; auto. split; auto. apply bcast_rel_sym; auto. }
  assert (OneCase : forall o e, ou = Some o -> (lu = Some e /\ ru = None) \/ (lu = None /\ ru = Some e) -> live s o -> live s e ->
     sound (bcast_position c (lu, ru, ou) (ups, keys)) (fun rho => pos_rel c rho (lu, ru, ou)) s /\
     (forall s' ups' keys', bcast_position c (lu, ru, ou) (ups, keys) s = (s', Ok (ups', keys')) ->
       incl keys keys' /\ pos_done c s' keys' (lu, ru, ou) /\
       (forall k, In k keys' -> In k keys \/ let '(l, r, o) := k in (lu, ru, ou) = (Some l, Some r, Some o)))).
  { intros o e Eo Ee Lo' Le. specialize (One o e Eo Ee Lo' Le).
    assert (Eq : bcast_position c (lu, ru, ou) (ups, keys) =
      if c then fun s => (if meta s o =? meta s e then ret (ups, keys) else (do a <- uni_match o e; ret (join ups a, keys))) s
      else fun s => if big (value s e) || is_one (value s o) then (do a <- uni_match o e; ret (join ups a, keys)) s
            else match possible_values s o with
                 | Some p => (do a <- update_possible_values e (Some (union p [1%Z])); ret (join ups a, keys)) s
                 | None => (s, Ok (ups, keys))
                 end).
    { destruct Ee as [[-> ->]|[-> ->]]; subst ou; destruct c; reflexivity. }
    rewrite Eq. clear Eq. destruct c.
    - destruct (Single o e Lo' Le (fun rho => pos_rel true rho (lu, ru, ou))) as [S1 S2].
      { intros rho Hs R. apply One in R as (x & Hx & R). rewrite (Hx eq_refl) in R. unfold bcast_rel in R. intuition congruence. }
      split; auto. intros s' ups' keys' E. cbv beta in E. destruct (S2 _ _ _ E) as [-> M]. split; [apply incl_refl|]. split; [|auto].
      destruct Ee as [[-> ->]|[-> ->]]; subst ou; cbn; auto.
    - assert (Hd : forall s' ks, pos_done false s' ks (lu, ru, ou)). { intros s' ks. destruct Ee as [[-> ->]|[-> ->]]; subst ou; cbn; discriminate. }
      destruct (big (value s e) || is_one (value s o))%bool eqn:B.
      + split.
        * unfold sound. cbv beta. rewrite B.
          assert (H : sound (do a <- uni_match o e; ret (join ups a, keys)) (fun rho => pos_rel false rho (lu, ru, ou)) s); [|exact H].
          apply sound_bind; [eapply imposes_sound; [auto|apply (uni_match_imposes s o e I Lo' Le)|]|intros a s1 _ V1; apply sound_ret; apply (evolves_inv _ _ V1)].
          cbv beta. intros rho Hs R. apply One in R as (x & _ & R). apply orb_prop in B as [B|B].
          -- destruct (big_sat _ _ _ I Le B Hs) as [_ B']. unfold bcast_rel in R. intuition congruence.
          -- assert (B' := is_one_sat _ _ _ I Lo' B Hs). unfold bcast_rel in R. intuition congruence.
        * intros s' ups' keys'. unfold sbind, ret. destruct (uni_match o e s) as [s1 [a|]]; [|discriminate]. intros [= <- <- <-].
          split; [apply incl_refl|]. split; auto.
      + destruct (possible_values s o) as [p|] eqn:P.
        * assert (Wp : wf_pv (Some p)) by (rewrite <- P; apply (i_pv _ I)). split.
          -- unfold sound. cbv beta. rewrite B, P.
             assert (H : sound (do a <- update_possible_values e (Some (union p [1%Z])); ret (join ups a, keys)) (fun rho => pos_rel false rho (lu, ru, ou)) s); [|exact H].
             apply sound_bind; [eapply imposes_sound; [auto|apply (update_imposes s e _ I Le (set_union _ Wp))|]|intros a s1 _ V1; apply sound_ret; apply (evolves_inv _ _ V1)].
             cbv beta. intros rho Hs R. apply One in R as (x & _ & R). cbn. apply In_union. assert (H := pv_sat _ _ _ _ Lo' Hs P).
             unfold bcast_rel in R. destruct R as [[R _]|[[_ R]|[_ R]]]; [right; left; auto | left; congruence | left; congruence].
          -- intros s' ups' keys'. unfold sbind, ret. destruct (update_possible_values e _ s) as [s1 [a|]]; [|discriminate]. intros [= <- <- <-].
             split; [apply incl_refl|]. split; auto.
        * split.
          -- unfold sound. cbv beta. rewrite B, P. apply (sound_ret (ups, keys) _ s I).
          -- intros s' ups' keys' [= <- <- <-]. split; [apply incl_refl|]. split; auto. }
  destruct ou as [o|]; [destruct lu as [l|]; [destruct ru as [r|]|destruct ru as [r|]]|].
  - (* all three *)
    clear One OneCase. unfold bcast_position. cbn [live_o] in *.
    assert (PR : forall rho, pos_rel c rho (Some l, Some r, Some o) <-> bcast_rel (rho l) (rho r) (rho o)).
    { intros rho. cbn. split; [intros (x & y & -> & -> & R); auto | intros R; exists (rho l), (rho r); auto]. }
    destruct (big (value s l) && big (value s r) && negb (oz_eqb (value s l) (value s r)))%bool eqn:B.
    + split; [|intros s' ups' keys' E; discriminate].
      unfold sound. cbv beta. rewrite B. split; [apply evolves_refl; auto|]. cbn. split; auto. intros rho Hs R. apply PR in R.
      apply andb_prop in B as [B B3]. apply andb_prop in B as [B1 B2].
      destruct (big_sat _ _ _ I Ll B1 Hs) as [V1 N1]. destruct (big_sat _ _ _ I Lr B2 Hs) as [V2 N2].
      assert (Ne : rho l <> rho r). { intros E. rewrite V1, V2, E in B3. unfold oz_eqb in B3. rewrite eqb_refl in B3. discriminate. }
      unfold bcast_rel in R. intuition congruence.
    + destruct (Nat.eqb_spec (meta s l) (meta s r)) as [Em|Em].
      * destruct (Single o l Lo Ll (fun rho => pos_rel c rho (Some l, Some r, Some o))) as [S1 S2].
        { intros rho Hs R. apply PR in R. assert (E : rho l = rho r) by (apply Hs; auto). unfold bcast_rel in R. intuition congruence. }
        split.
        -- unfold sound in *. cbv beta in *. rewrite B, Em, Nat.eqb_refl. rewrite Em in S1. exact S1.
        -- intros s' ups' keys' E. destruct (S2 _ _ _ E) as [-> M].
           split; [apply incl_refl|]. split; [|auto]. cbn. right. split; auto.
           assert (V : evolves s s').
           { destruct S1 as [V _]. cbv beta in V. rewrite E in V. exact V. }
           apply V; auto.
      * apply Nat.eqb_neq in Em. split.
        -- unfold sound. cbv beta. rewrite B, Em. split; [apply evolves_refl; auto|]. cbn. auto.
        -- intros s' ups' keys' E. injection E as <- <- <-. split; [intros x Hx; apply In_kadd; auto|].
           split; [left; apply In_kadd; auto|]. intros k Hk. apply In_kadd in Hk as [Hk| ->]; auto.
  - apply (OneCase o l); auto.
  - apply (OneCase o r); auto.
  - destruct c; [destruct (Hok eq_refl) as [_ [H|H]]; congruence|].
    destruct (Skip (fun rho => pos_rel false rho (None, None, Some o))) as [S1 S2]. split; [exact S1|].
    intros s' ups' keys' E. destruct (S2 _ _ _ E). split; [auto|]. split; [exact Logic.I|auto].
  - destruct c; [destruct (Hok eq_refl) as [H _]; congruence|].
    assert (Eq : bcast_position false (lu, ru, None) (ups, keys) = ret (ups, keys)). { destruct lu, ru; reflexivity. }
    rewrite Eq. destruct (Skip (fun rho => pos_rel false rho (lu, ru, None))) as [S1 S2]. split; auto.
    intros s' ups' keys' E. destruct (S2 _ _ _ E). split; [auto|]. split; [destruct lu, ru; exact Logic.I|auto].
Qed.

Lemma positions_ok c ps : forall acc s, inv s -> (forall p, In p ps -> live_pos s p /\ pos_ok c p) ->
  sound (bcast_positions c ps acc) (fun rho => forall p, In p ps -> pos_rel c rho p) s /\
  (forall s' ups' keys', bcast_positions c ps acc s = (s', Ok (ups', keys')) ->
     incl (snd acc) keys' /\ (forall p, In p ps -> pos_done c s' keys' p) /\
     (forall k, In k keys' -> In k (snd acc) \/ exists l r o, k = (l, r, o) /\ In (Some l, Some r, Some o) ps)).
Proof.
  induction ps as [|p ps IH]; intros acc s I H; cbn [bcast_positions].
  - split; [apply sound_ret; auto|]. intros s' ups' keys' E. unfold ret in E. destruct acc. injection E as <- <- <-. cbn.
    split; [apply incl_refl|]. split; [intros p []|auto].
  - destruct (H p (or_introl eq_refl)) as [Lp Op]. destruct (position_ok c p acc s I Lp Op) as [Sp Dp].
    assert (Next : forall (acc' : updates * list key3) s1, evolves s s1 -> inv s1 /\ forall q, In q ps -> live_pos s1 q /\ pos_ok c q).
    { intros acc' s1 V. split; [apply (evolves_inv _ _ V)|]. intros q Hq. destruct (H q (or_intror Hq)). split; auto. eapply live_pos_evolves; eauto. }
    split.
    + apply sound_bind.
      * destruct Sp as [V S0]. split; auto. destruct (snd (bcast_position c p acc s)).
        -- intros rho Hs Hc. apply S0; auto. apply Hc. left; auto.
        -- destruct S0 as [-> S0]. split; auto. intros rho Hs Hc. apply (S0 rho Hs). apply Hc. left; auto.
      * intros acc' s1 _ V. destruct (Next acc' s1 V) as [I1 H1]. destruct (IH acc' s1 I1 H1) as [[V2 S2] _]. split; auto. destruct (snd (bcast_positions c ps acc' s1)).
        -- intros rho Hs Hc. apply S2; auto. intros q Hq. apply Hc. right; auto.
        -- destruct S2 as [-> S2]. split; auto. intros rho Hs Hc. apply (S2 rho Hs). intros q Hq. apply Hc. right; auto.
    + intros s' ups' keys'. unfold sbind. destruct (bcast_position c p acc s) as [s1 [[u1 k1]|]] eqn:E1; [|discriminate].
      destruct Sp as [V1 _]. rewrite E1 in V1. cbn [fst] in V1. destruct (Dp _ _ _ eq_refl) as (D1 & D2 & D3).
      destruct (Next (u1, k1) s1 V1) as [I1 H1]. destruct (IH (u1, k1) s1 I1 H1) as [[V2 _] R]. intros E2. rewrite E2 in V2. cbn [fst] in V2.
      destruct (R _ _ _ E2) as (R1 & R2 & R3). cbn [snd] in *. split; [eapply incl_tran; eauto|]. split.
      * intros q [<-|Hq]; [|auto]. eapply pos_done_later; [exact V2| |exact R1|exact D2]. eapply live_pos_evolves; eauto.
      * intros k Hk. destruct (R3 k Hk) as [Hk'|(l & r & o & -> & Hk')]; [|right; exists l, r, o; split; auto; right; auto].
        destruct (D3 k Hk') as [Hk2|Hk2]; auto. right. destruct k as [[l r] o]. exists l, r, o. split; auto. left. auto.
Qed.

Lemma zip2_nth fuel : forall a b c, length a + length b + length c <= fuel -> forall i,
  nth_error (zip2 fuel a b c) i = if i <? Nat.max (length a) (Nat.max (length b) (length c)) then Some (nth_error a i, nth_error b i, nth_error c i) else None.
Proof.
  induction fuel as [|n IH]; intros a b c Hf i.
  - destruct a, b, c; cbn in Hf; try lia. cbn. destruct i; reflexivity.
  - assert (G : (a = [] /\ b = [] /\ c = []) \/ zip2 (S n) a b c = (hd_error a, hd_error b, hd_error c) :: zip2 n (tl a) (tl b) (tl c)).
    { destruct a, b, c; auto. }
    destruct G as [(-> & -> & ->)|G]; [cbn; destruct i; reflexivity|].
    assert (Le : length (tl a) + length (tl b) + length (tl c) <= n /\ 0 < Nat.max (length a) (Nat.max (length b) (length c))).
    { destruct a, b, c; cbn in *; try lia. discriminate. }
    rewrite G. destruct i as [|i].
    + cbn [nth_error]. destruct (Nat.ltb_spec 0 (Nat.max (length a) (Nat.max (length b) (length c)))); [|lia]. destruct a, b, c; reflexivity.
    + cbn [nth_error]. rewrite IH by lia.
      assert (N : forall x : list nat, nth_error (tl x) i = nth_error x (S i)) by (intros [|y x]; [destruct i|]; reflexivity).
      change (match a with [] => None | _ :: l => nth_error l i end) with (nth_error a (S i)).
      change (match b with [] => None | _ :: l => nth_error l i end) with (nth_error b (S i)).
      change (match c with [] => None | _ :: l => nth_error l i end) with (nth_error c (S i)).
      rewrite !N.
      assert (Lt : forall x : list nat, length (tl x) = length x - 1) by (intros [|y x]; cbn; lia). rewrite !Lt.
      destruct (Nat.ltb_spec i (Nat.max (length a - 1) (Nat.max (length b - 1) (length c - 1)))), (Nat.ltb_spec (S i) (Nat.max (length a) (Nat.max (length b) (length c)))); auto; lia.
Qed.
Lemma In_zip a b c p : In p (zip_longest a b c) <->
  exists i, i < Nat.max (length a) (Nat.max (length b) (length c)) /\ p = (nth_error a i, nth_error b i, nth_error c i).
Proof.
  unfold zip_longest. split.
  - intros H. apply In_nth_error in H as [i H]. rewrite zip2_nth in H by lia. exists i.
    destruct (Nat.ltb_spec i (Nat.max (length a) (Nat.max (length b) (length c)))); [|discriminate]. injection H as <-. auto.
  - intros (i & Hi & ->). apply nth_error_In with i. rewrite zip2_nth by lia. apply Nat.ltb_lt in Hi. rewrite Hi. auto.
Qed.
