(** * Proofs about symbolic dimensions *)
From Coq Require Import List Arith Lia Bool ZArith.
From Verif Require Import PyBase Uniadic_Model.
Import ListNotations.
Open Scope list_scope. Open Scope nat_scope. Open Scope sm_scope.

(** ** Sets *)
Definition in_pv (n : Z) (p : option zset) : Prop := match p with None => True | Some l => In n l end.
Definition wf_pv (p : option zset) : Prop := match p with None => True | Some l => l <> [] /\ NoDup l end.
Definition is_set (p : option zset) : Prop := match p with None => True | Some l => NoDup l end.

Lemma In_inter n a b : In n (inter a b) <-> In n a /\ In n b.
Proof. unfold inter. rewrite filter_In, mem_In. tauto. Qed.
Lemma In_union n a b : In n (union a b) <-> In n a \/ In n b.
Proof.
  unfold union. rewrite in_app_iff, filter_In. destruct (mem_spec n a) as [H|H]; cbn; [tauto|].
  split; [tauto|]. intros [?|?]; [tauto | right; auto].
Qed.
Lemma NoDup_union a b : NoDup a -> NoDup b -> NoDup (union a b).
Proof.
  intros Ha Hb. unfold union. induction a as [|x a IH]; cbn.
  - apply NoDup_filter; auto.
  - inversion Ha as [|? ? Hx Ha']; subst. constructor.
    + rewrite in_app_iff, filter_In. intros [H|[_ H]]; [auto|]. rewrite eqb_refl in H. discriminate.
    + specialize (IH Ha'). 
      assert (G : NoDup (a ++ filter (fun y => negb (mem y (x :: a))) b)).
      { clear IH. induction a as [|y a IHa]; cbn [app].
        - apply NoDup_filter; auto.
        - inversion Ha' as [|? ? Hy Ha'']; subst. constructor.
          + rewrite in_app_iff, filter_In. intros [H|[_ H]]; [auto|].
            cbn in H. rewrite eqb_refl, orb_true_r in H. discriminate.
          + assert (E : filter (fun y0 => negb (mem y0 (x :: y :: a))) b = filter (fun y0 => negb (mem y0 [y])) (filter (fun y0 => negb (mem y0 (x :: a))) b)).
            { clear. induction b as [|z b IHb]; cbn [filter]; auto.
              cbn [mem existsb] in *. destruct (eqb z x), (existsb (eqb z) a) eqn:Ez, (eqb z y) eqn:Ey; cbn; rewrite ?Ey; cbn; auto; f_equal; auto. }
            rewrite E.
            assert (N : NoDup (a ++ filter (fun y0 => negb (mem y0 (x :: a))) b)).
            { apply IHa; [constructor; [intros H; apply Hx; right; auto|auto] | intros H; apply Hx; right; auto | auto]. }
            clear -N. revert N. generalize (filter (fun y0 => negb (mem y0 (x :: a))) b). intros l N.
            induction a as [|z a IH]; cbn in *; [apply NoDup_filter; auto|].
            inversion N as [|? ? Hz N']; subst. constructor; [|auto].
            rewrite in_app_iff, filter_In in *. tauto. }
      exact G.
Qed.
Lemma subset_b_spec a b : subset_b a b = true <-> forall x, In x a -> In x b.
Proof. unfold subset_b. rewrite forallb_forall. split; intros H x Hx; apply mem_In; auto. Qed.
Lemma set_eqb_spec a b : set_eqb a b = true <-> (a = None /\ b = None) \/ (a <> None /\ b <> None /\ forall n, in_pv n a <-> in_pv n b).
Proof.
  destruct a as [a|], b as [b|]; cbn.
  - rewrite andb_true_iff, !subset_b_spec. split.
    + intros [H1 H2]. right. split; [discriminate|]. split; [discriminate|]. intros n; split; auto.
    + intros [[? _]|(_ & _ & H)]; [discriminate|]. split; intros x; apply H.
  - split; [discriminate|]. intros [[? _]|(_ & ? & _)]; [discriminate|congruence].
  - split; [discriminate|]. intros [[_ ?]|(? & _)]; [discriminate|congruence].
  - split; auto.
Qed.

Lemma wf_inhabited p : wf_pv p -> exists n, in_pv n p.
Proof. destruct p as [[|x l]|]; cbn; [intros [? _]; congruence | intros _; exists x; auto | intros _; exists 0%Z; auto]. Qed.

Lemma value_of_spec p n : wf_pv p -> value_of p = Some n <-> p <> None /\ forall m, in_pv m p <-> m = n.
Proof.
  destruct p as [[|x [|y l]]|]; cbn; intros W.
  - destruct W; congruence.
  - split.
    + intros [= ->]. split; [discriminate|]. intros m. split; [intros [?|[]]; auto | auto].
    + intros [_ H]. f_equal. apply H. auto.
  - split; [discriminate|]. intros [_ H]. exfalso. assert (x = n) by (apply H; auto). assert (y = n) by (apply H; auto). subst.
    destruct W as [_ W]. inversion W as [|? ? Hn _]; subst. apply Hn; left; auto.
  - split; [discriminate|]. intros [? _]. congruence.
Qed.

Lemma updated_ok cur vals p : updated cur vals = Ok p -> wf_pv cur -> is_set vals ->
  wf_pv p /\ forall n, in_pv n p <-> in_pv n cur /\ in_pv n vals.
Proof.
  unfold updated. destruct vals as [[|v vs]|].
  - discriminate.
  - destruct cur as [c|]; intros E W S.
    + destruct (inter c (v :: vs)) as [|i il] eqn:Ei; [discriminate|]. injection E as <-. rewrite <- Ei. split.
      * split; [rewrite Ei; discriminate|]. apply NoDup_filter. apply W.
      * intros n. cbn [in_pv]. apply In_inter.
    + injection E as <-. split; [split; [discriminate|exact S] | intros n; cbn; tauto].
  - intros E W _. injection E as <-. split; auto. intros n; cbn; tauto.
Qed.
Lemma updated_err cur vals e : updated cur vals = Err e -> e = ValueError /\ forall n, ~ (in_pv n cur /\ in_pv n vals).
Proof.
  unfold updated. destruct vals as [[|v vs]|]; [| |discriminate].
  - intros E. injection E as <-. split; auto. intros n [_ []].
  - destruct cur as [c|]; [|discriminate]. destruct (inter c (v :: vs)) as [|i il] eqn:Ei; [|discriminate].
    intros E. injection E as <-. split; auto. intros n [H1 H2]. cbn [in_pv] in *.
    assert (H : In n (inter c (v :: vs))) by (apply In_inter; auto). rewrite Ei in H. destruct H.
Qed.
Lemma updated_none vals p : updated None vals = Ok p -> p = vals.
Proof. destruct vals as [[|v vs]|]; cbn; congruence. Qed.
Lemma updated_not_none cur vals p : updated cur vals = Ok p -> p = None -> cur = None /\ vals = None.
Proof.
  destruct vals as [[|v vs]|]; cbn; [discriminate| |intros [= ->]; auto].
  destruct cur as [c|]; [destruct (inter _ _); congruence | congruence].
Qed.

(** ** The heap *)
Definition live (s : ustate) (u : nat) : Prop := u < nu s /\ In u (refs (recs s (meta s u))).
Record inv (s : ustate) : Prop := {
  i_meta : forall u, u < nu s -> meta s u < nu s;
  i_refs : forall r u, In u (refs (recs s r)) -> u < nu s /\ meta s u = r;
  i_pv : forall r, wf_pv (pv (recs s r));
}.

(** An assignment of sizes to dimensions that the state allows. *)
Definition sat (s : ustate) (rho : nat -> Z) : Prop :=
  (forall u, live s u -> in_pv (rho u) (possible_values s u)) /\
  (forall u v, live s u -> live s v -> meta s u = meta s v -> rho u = rho v).

(** Specification of a mutation that imposes exactly the condition [C]. *)
Definition imposes {A} (m : sm A) (C : (nat -> Z) -> Prop) (s : ustate) : Prop :=
  inv (fst (m s)) /\ nu (fst (m s)) = nu s /\
  (forall u, live (fst (m s)) u <-> live s u) /\
  (forall u v, live s u -> live s v -> meta s u = meta s v -> meta (fst (m s)) u = meta (fst (m s)) v) /\
  match snd (m s) with
  | Ok _ => forall rho, sat (fst (m s)) rho <-> sat s rho /\ C rho
  | Err e => e = ValueError /\ fst (m s) = s /\ forall rho, ~ (sat s rho /\ C rho)
  end.

Lemma upd_same {A} (f : nat -> A) k v : upd f k v k = v.
Proof. unfold upd. rewrite Nat.eqb_refl. auto. Qed.
Lemma upd_other {A} (f : nat -> A) k v x : x <> k -> upd f k v x = f x.
Proof. intros H. unfold upd. apply Nat.eqb_neq in H. rewrite H. auto. Qed.

Lemma set_pv_sat s r p : inv s -> wf_pv p ->
  let s' := set_rec s r (mkrec p (refs (recs s r)) (reprs (recs s r))) in
  inv s' /\ (forall u, live s' u <-> live s u) /\
  forall rho, sat s' rho <-> (forall u, live s u -> in_pv (rho u) (if meta s u =? r then p else possible_values s u)) /\
                            (forall u v, live s u -> live s v -> meta s u = meta s v -> rho u = rho v).
Proof.
  intros I W s'. set (f := upd (recs s) r (mkrec p (refs (recs s r)) (reprs (recs s r)))).
  assert (Hr : forall x, refs (f x) = refs (recs s x)).
  { intros x. unfold f, upd. destruct (x =? r) eqn:E; auto. apply Nat.eqb_eq in E. subst. auto. }
  assert (L : forall u, live s' u <-> live s u).
  { intros u. unfold live, s', set_rec. cbn. fold f. rewrite Hr. tauto. }
  split; [|split; auto].
  - split; unfold s', set_rec; cbn.
    + apply (i_meta _ I).
    + intros x u. fold f. rewrite Hr. apply (i_refs _ I).
    + intros x. unfold upd. destruct (x =? r); cbn; auto. apply (i_pv _ I).
  - intros rho. unfold sat.
    assert (P : forall u, possible_values s' u = if meta s u =? r then p else possible_values s u).
    { intros u. unfold possible_values, s', set_rec, upd. cbn. destruct (meta s u =? r); auto. }
    split; intros [H1 H2]; split.
    + intros u Hu. rewrite <- P. apply H1. apply L; auto.
    + intros u v Hu Hv E. apply H2; auto; apply L; auto.
    + intros u Hu. rewrite P. apply H1. apply L; auto.
    + intros u v Hu Hv E. apply H2; auto; apply L; auto.
Qed.

Lemma rec_update_live s u vals : inv s -> live s u -> is_set vals ->
  imposes (rec_update (meta s u) vals) (fun rho => in_pv (rho u) vals) s /\
  (forall x, snd (rec_update (meta s u) vals s) = Ok x ->
     updated (possible_values s u) vals = Ok (possible_values (fst (rec_update (meta s u) vals s)) u) /\
     meta (fst (rec_update (meta s u) vals s)) = meta s /\
     (forall r, refs (recs (fst (rec_update (meta s u) vals s)) r) = refs (recs s r)) /\
     (forall r, reprs (recs (fst (rec_update (meta s u) vals s)) r) = reprs (recs s r)) /\
     (forall r, r <> meta s u -> recs (fst (rec_update (meta s u) vals s)) r = recs s r)).
Proof.
  intros I Lu Sv. unfold imposes, rec_update. set (r := meta s u).
  assert (W := i_pv _ I r). fold (possible_values s u). change (pv (recs s r)) with (possible_values s u) in W.
  change (pv (recs s r)) with (possible_values s u).
  destruct (updated (possible_values s u) vals) as [p|e] eqn:E; cbn [fst snd].
  - destruct (updated_ok _ _ _ E W Sv) as [Wp Hp].
    destruct (set_pv_sat s r p I Wp) as (I' & L & S). split.
    + split; auto. split; auto. split; auto. split; auto. intros rho. rewrite S. split.
      * intros [H1 H2]. assert (Hu := H1 u Lu). change (meta s u) with r in Hu. rewrite Nat.eqb_refl in Hu. apply Hp in Hu as [Hu1 Hu2].
        split; auto. split; auto. intros v Hv. assert (Q := H1 v Hv). destruct (meta s v =? r) eqn:Er; auto.
        apply Nat.eqb_eq in Er. apply Hp in Q as [Q _]. unfold possible_values in *. fold r in Q. rewrite Er. auto.
      * intros [[H1 H2] Hv]. split; auto. intros v Lv. destruct (meta s v =? r) eqn:Er; auto.
        apply Nat.eqb_eq in Er. apply Hp. rewrite (H2 v u Lv Lu Er). auto.
    + intros _ _. unfold possible_values, set_rec. cbn. fold r. rewrite upd_same. cbn. split; auto. split; auto.
      split; [|split].
      * intros x. unfold upd. destruct (x =? r) eqn:Ex; auto. apply Nat.eqb_eq in Ex. subst; auto.
      * intros x. unfold upd. destruct (x =? r) eqn:Ex; auto. apply Nat.eqb_eq in Ex. subst; auto.
      * intros x Hx. apply upd_other; auto.
  - destruct (updated_err _ _ _ E) as [-> He]. split; [|discriminate].
    split; auto. split; auto. split; [tauto|]. split; auto. split; auto. split; auto.
    intros rho [[H1 H2] Hv]. apply (He (rho u)). split; auto.
Qed.

Lemma update_imposes s u vals : inv s -> live s u -> is_set vals ->
  imposes (update_possible_values u vals) (fun rho => in_pv (rho u) vals) s.
Proof.
  intros I Lu Sv. destruct (rec_update_live s u vals I Lu Sv) as [H _].
  unfold imposes, update_possible_values, sbind, gets in *.
  destruct (rec_update (meta s u) vals s) as [s' [x|e]]; cbn [fst snd] in *; auto.
Qed.

(** Details of [update_possible_values] needed below. *)
Lemma update_details s u vals : inv s -> live s u -> is_set vals ->
  match update_possible_values u vals s with
  | (s', Ok up) => updated (possible_values s u) vals = Ok (possible_values s' u) /\ meta s' = meta s /\
      (forall r, refs (recs s' r) = refs (recs s r)) /\ (forall r, reprs (recs s' r) = reprs (recs s r)) /\
      (forall r, r <> meta s u -> recs s' r = recs s r) /\
      up = (if set_eqb (possible_values s u) (possible_values s' u) then no_updates else add_uni s' u no_updates)
  | (s', Err e) => s' = s /\ updated (possible_values s u) vals = Err e
  end.
Proof.
  intros I Lu Sv. destruct (rec_update_live s u vals I Lu Sv) as [_ H].
  unfold update_possible_values, sbind, gets.
  assert (E : snd (rec_update (meta s u) vals s) = match updated (possible_values s u) vals with Ok _ => Ok tt | Err e => Err e end).
  { unfold rec_update. fold (possible_values s u). destruct (updated _ _); auto. }
  assert (F : forall e, snd (rec_update (meta s u) vals s) = Err e -> fst (rec_update (meta s u) vals s) = s).
  { intros e. unfold rec_update. destruct (updated _ _); cbn; [discriminate|auto]. }
  destruct (rec_update (meta s u) vals s) as [s' [x|e]]; cbn [fst snd] in *.
  - destruct (H x eq_refl) as (H1 & H2 & H3 & H4 & H5). auto 10.
  - split; [eapply F; eauto|]. destruct (updated (possible_values s u) vals); congruence.
Qed.

Lemma fold_upd (l : list nat) (r : nat) : forall (m : nat -> nat) (x : nat),
  fold_left (fun m u => upd m u r) l m x = if mem x l then r else m x.
Proof.
  induction l as [|y l IH]; intros m x; cbn [fold_left]; auto.
  rewrite IH. cbn [mem existsb]. fold (mem x l). unfold upd. unfold eqb. destruct (eq_dec x y) as [->|N]; cbn.
  - rewrite Nat.eqb_refl. destruct (mem y l); auto.
  - apply Nat.eqb_neq in N. rewrite N. auto.
Qed.

Lemma rec_match_imposes s u v : inv s -> live s u -> live s v -> meta s u <> meta s v ->
  imposes (rec_match (meta s u) (meta s v)) (fun rho => rho u = rho v) s.
Proof.
  intros I Lu Lv Hne. unfold imposes, rec_match, sbind at 1. unfold gets.
  set (r1 := meta s u) in *. set (r2 := meta s v) in *. unfold sbind.
  assert (S2 : is_set (pv (recs s r2))). { assert (W := i_pv _ I r2). destruct (pv (recs s r2)); cbn in *; tauto. }
  unfold rec_update.
  assert (W1 := i_pv _ I r1).
  destruct (updated (pv (recs s r1)) (pv (recs s r2))) as [p|e] eqn:E; cbn [fst snd].
  - destruct (updated_ok _ _ _ E W1 S2) as [Wp Hp].
    unfold set_rec; cbn [meta recs nu].
    rewrite upd_same, upd_other by auto. cbn [pv refs reprs].
    set (m' := fold_left (fun m u0 => upd m u0 r1) (refs (recs s r2)) (meta s)).
    set (R1 := mkrec p (_ ++ _) _). set (R2 := mkrec _ [] []).
    match goal with |- context [mkst (nu s) m' ?g] => set (f := g) end.
    assert (F : forall x, f x = if x =? r2 then R2 else if x =? r1 then R1 else recs s x).
    { intros x. unfold f, upd. destruct (x =? r2); [reflexivity|]. destruct (x =? r1); reflexivity. }
    assert (Hm : forall x, m' x = if mem x (refs (recs s r2)) then r1 else meta s x) by (intros; apply fold_upd).
    assert (N21 : r2 =? r1 = false) by (apply Nat.eqb_neq; auto).
    assert (F1 : f r1 = R1). { rewrite F, Nat.eqb_refl. destruct (r1 =? r2) eqn:X; auto. apply Nat.eqb_eq in X. congruence. }
    assert (HR1 : forall x, In x (refs R1) <-> In x (refs (recs s r1)) \/ In x (refs (recs s r2))).
    { intros x. unfold R1. cbn [refs]. rewrite in_app_iff, filter_In. destruct (mem_spec x (refs (recs s r1))); cbn; tauto. }
    assert (Hl : forall x, live (mkst (nu s) m' f) x <-> live s x).
    { intros x. unfold live. cbn [nu meta recs]. rewrite Hm. destruct (mem_spec x (refs (recs s r2))) as [H|H].
      - rewrite F1, HR1. destruct (i_refs _ I _ _ H) as [Hx Em]. rewrite Em. tauto.
      - rewrite F. destruct (Nat.eqb_spec (meta s x) r2) as [Ex|Ex].
        + cbn. split; [intros [_ []]|]. rewrite Ex. tauto.
        + destruct (Nat.eqb_spec (meta s x) r1) as [Ex1|Ex1]; [|tauto].
          rewrite HR1, Ex1. tauto. }
    assert (Hclass : forall x, live s x -> m' x = if meta s x =? r2 then r1 else meta s x).
    { intros x [Hx Hin]. rewrite Hm. destruct (mem_spec x (refs (recs s r2))) as [H|H].
      - destruct (i_refs _ I _ _ H) as [_ ->]. rewrite Nat.eqb_refl. auto.
      - destruct (Nat.eqb_spec (meta s x) r2) as [Ex|Ex]; auto. rewrite Ex in Hin. contradiction. }
    assert (Hpv : forall x, live s x -> pv (f (m' x)) = if (meta s x =? r2) || (meta s x =? r1) then p else pv (recs s (meta s x))).
    { intros x Hx. rewrite (Hclass x Hx). destruct (Nat.eqb_spec (meta s x) r2) as [Ex|Ex]; cbn [orb].
      - rewrite F1. auto.
      - rewrite F. destruct (Nat.eqb_spec (meta s x) r2); [contradiction|]. destruct (meta s x =? r1); auto. }
    split; [|split; [auto|split; [auto|split]]].
    + split; cbn [nu meta recs].
      * intros x Hx. rewrite Hm. destruct (mem x _); [apply (i_meta _ I); apply Lu | apply (i_meta _ I); auto].
      * intros x y Hy. fold f in Hy. rewrite F in Hy. destruct (Nat.eqb_spec x r2) as [->|Ex]; [destruct Hy|].
        destruct (Nat.eqb_spec x r1) as [->|Ex1].
        -- apply HR1 in Hy as [Hy|Hy].
           ++ destruct (i_refs _ I _ _ Hy) as [Hy1 Hy2]. split; auto. fold m'. rewrite Hm. destruct (mem y _); auto.
           ++ destruct (i_refs _ I _ _ Hy) as [Hy1 Hy2]. split; auto. fold m'. rewrite Hm. apply mem_In in Hy. rewrite Hy. auto.
        -- destruct (i_refs _ I _ _ Hy) as [Hy1 Hy2]. split; auto. fold m'. rewrite Hm. destruct (mem_spec y (refs (recs s r2))) as [H|H]; auto.
           destruct (i_refs _ I _ _ H). congruence.
      * intros x. fold f. rewrite F. destruct (x =? r2); [apply (i_pv _ I)|]. destruct (x =? r1); auto. apply (i_pv _ I).
    + intros x y Hx Hy Em. fold m'. rewrite (Hclass x Hx), (Hclass y Hy), Em. auto.
    + intros rho. unfold sat. fold m' f. cbn [meta]. split.
      * intros [H1 H2].
        assert (Heq : forall x y, live s x -> live s y -> (meta s x = r1 \/ meta s x = r2) -> (meta s y = r1 \/ meta s y = r2) -> rho x = rho y).
        { intros x y Hx Hy Ex Ey. apply H2; try (apply Hl; auto). rewrite (Hclass x Hx), (Hclass y Hy).
          destruct Ex as [->| ->], Ey as [->| ->]; rewrite ?Nat.eqb_refl; try (destruct (Nat.eqb_spec r1 r2); congruence). }
        split; [split|].
        -- intros x Hx. assert (Q := H1 x (proj2 (Hl x) Hx)). unfold possible_values in *. cbn [meta recs] in Q. rewrite (Hpv x Hx) in Q.
           destruct (Nat.eqb_spec (meta s x) r2) as [Ex|Ex]; cbn [orb] in Q.
           ++ apply Hp in Q. rewrite Ex. tauto.
           ++ destruct (Nat.eqb_spec (meta s x) r1) as [Ex1|Ex1]; auto. apply Hp in Q. rewrite Ex1. tauto.
        -- intros x y Hx Hy Em. apply H2; try (apply Hl; auto). rewrite (Hclass x Hx), (Hclass y Hy), Em. auto.
        -- apply Heq; auto.
      * intros [[H1 H2] Huv]. split.
        -- intros x Hx. apply Hl in Hx. unfold possible_values. cbn [meta recs]. rewrite (Hpv x Hx).
           assert (Q1 := H1 u Lu). assert (Q2 := H1 v Lv). unfold possible_values in Q1, Q2. fold r1 in Q1. fold r2 in Q2.
           destruct (Nat.eqb_spec (meta s x) r2) as [Ex|Ex]; cbn [orb].
           ++ rewrite (H2 x v Hx Lv Ex). apply Hp. split; [rewrite <- Huv; auto | auto].
           ++ destruct (Nat.eqb_spec (meta s x) r1) as [Ex1|Ex1]; [|apply H1; auto].
              rewrite (H2 x u Hx Lu Ex1). apply Hp. split; [auto | rewrite Huv; auto].
        -- intros x y Hx Hy Em. apply Hl in Hx, Hy. rewrite (Hclass x Hx), (Hclass y Hy) in Em.
           destruct (Nat.eqb_spec (meta s x) r2) as [Ex|Ex], (Nat.eqb_spec (meta s y) r2) as [Ey|Ey].
           ++ apply H2; congruence.
           ++ rewrite (H2 x v Hx Lv Ex), (H2 y u Hy Lu (eq_sym Em)). auto.
           ++ rewrite (H2 x u Hx Lu Em), (H2 y v Hy Lv Ey). auto.
           ++ apply H2; auto.
  - destruct (updated_err _ _ _ E) as [-> He]. split; auto. split; auto. split; [tauto|]. split; auto. split; auto. split; auto.
    intros rho [[H1 H2] Huv]. apply (He (rho u)). split; [apply H1; auto | rewrite Huv; apply H1; auto].
Qed.

Lemma imposes_ok {A} (m : sm A) C s s' a : imposes m C s -> m s = (s', Ok a) ->
  inv s' /\ nu s' = nu s /\ (forall u, live s' u <-> live s u) /\
  (forall u v, live s u -> live s v -> meta s u = meta s v -> meta s' u = meta s' v) /\
  (forall rho, sat s' rho <-> sat s rho /\ C rho).
Proof. unfold imposes. intros H E. rewrite E in H. exact H. Qed.

(** A state always allows some sizes. *)
Lemma sat_exists s : inv s -> exists rho, sat s rho.
Proof.
  intros I. exists (fun u => match pv (recs s (meta s u)) with Some (x :: _) => x | _ => 0%Z end). split.
  - intros u _. unfold possible_values. assert (W := i_pv _ I (meta s u)). destruct (pv (recs s (meta s u))) as [[|x l]|]; cbn in *; auto.
    destruct W; congruence.
  - intros u v _ _ E. rewrite E. auto.
Qed.

(** Any allowed size of one dimension extends to all. *)
Lemma sat_with s u n : inv s -> live s u -> in_pv n (possible_values s u) -> exists rho, sat s rho /\ rho u = n.
Proof.
  intros I L H. exists (fun x => if meta s x =? meta s u then n else match pv (recs s (meta s x)) with Some (y :: _) => y | _ => 0%Z end).
  rewrite Nat.eqb_refl. split; auto. split.
  - intros x _. unfold possible_values in *. destruct (Nat.eqb_spec (meta s x) (meta s u)) as [E|E]; [rewrite E; auto|].
    assert (W := i_pv _ I (meta s x)). destruct (pv (recs s (meta s x))) as [[|y l]|]; cbn in *; auto. destruct W; congruence.
  - intros x y _ _ E. rewrite E. auto.
Qed.

Lemma uni_match_imposes s u v : inv s -> live s u -> live s v ->
  imposes (uni_match u v) (fun rho => rho u = rho v) s /\
  (forall x, snd (uni_match u v s) = Ok x -> meta (fst (uni_match u v s)) u = meta (fst (uni_match u v s)) v).
Proof.
  intros I Lu Lv. 
  assert (Heq : forall s', inv s' -> nu s' = nu s -> (forall u, live s' u <-> live s u) ->
     forall x, rec_match (meta s' u) (meta s' v) s' = (fst (rec_match (meta s' u) (meta s' v) s'), Ok x) -> meta s' u <> meta s' v ->
     meta (fst (rec_match (meta s' u) (meta s' v) s')) u = meta (fst (rec_match (meta s' u) (meta s' v) s')) v).
  { intros s' I' N' L' x E Hne. revert E. unfold rec_match, sbind, gets, rec_update. destruct (updated _ _) as [p|e]; cbn [fst snd]; [|discriminate].
    intros _. unfold set_rec. cbn [fst meta recs nu refs]. rewrite (upd_other _ _ _ (meta s' v)) by auto. rewrite !fold_upd.
    destruct (proj2 (L' v) Lv) as [_ Hv]. apply mem_In in Hv. rewrite Hv. destruct (mem u _); auto. }
  unfold imposes, uni_match. cbv beta. destruct (Nat.eqb_spec (meta s u) (meta s v)) as [E|Hne].
  { cbn [fst snd]. split; [|auto]. refine (conj I (conj eq_refl (conj (fun x => iff_refl _) (conj (fun x y _ _ H => H) _)))).
    intros rho. split; [|tauto]. intros H. split; auto. apply H; auto. }
  cbv zeta. match goal with |- context [oz_eqb _ _ && ?b] => generalize b; intros both end.
  destruct (oz_eqb (value s u) (value s v) && both).
  - unfold sbind at 1 2. assert (R := rec_match_imposes s u v I Lu Lv Hne).
    assert (M := rec_match_imposes s u v I Lu Lv Hne).
    specialize (Heq s I eq_refl (fun x => iff_refl _)).
    unfold imposes in *. cbv zeta. unfold sbind.
    destruct (rec_match (meta s u) (meta s v) s) as [s' [x|e]]; cbn [fst snd ret] in *; [|split; [auto|discriminate]].
    split; auto. intros _ _. eapply Heq; eauto.
  - unfold gets, sbind, ret. cbv beta iota. set (p1 := possible_values s u). set (p2 := possible_values s v).
    assert (W1 : wf_pv p1) by apply (i_pv _ I). assert (W2 : wf_pv p2) by apply (i_pv _ I).
    assert (S1 : is_set p1) by (destruct p1; cbn in *; tauto). assert (S2 : is_set p2) by (destruct p2; cbn in *; tauto).
    assert (U1 := update_imposes s u p2 I Lu S2). assert (D1 := update_details s u p2 I Lu S2).
    destruct (update_possible_values u p2 s) as [s1 [a|e]] eqn:E1.
    + destruct (imposes_ok _ _ _ _ _ U1 E1) as (I1 & N1 & L1 & C1 & T1). destruct D1 as (D11 & D12 & D13 & D14 & D15 & D16).
      assert (Lu1 : live s1 u) by (apply L1; auto). assert (Lv1 : live s1 v) by (apply L1; auto).
      assert (U2 := update_imposes s1 v p1 I1 Lv1 S1). assert (D2 := update_details s1 v p1 I1 Lv1 S1).
      assert (P2 : possible_values s1 v = p2). { unfold possible_values, p2. rewrite D12. rewrite D15; auto. }
      fold p1 in D11. destruct (updated_ok _ _ _ D11 W1 S2) as [Wq Hq].
      destruct (wf_inhabited _ Wq) as [n Hn]. apply Hq in Hn as [Hn1 Hn2].
      destruct (update_possible_values v p1 s1) as [s2 [b|e]] eqn:E2.
      2:{ exfalso. destruct D2 as [_ D2]. rewrite P2 in D2. destruct (updated_err _ _ _ D2) as [_ He]. apply (He n). auto. }
      destruct (imposes_ok _ _ _ _ _ U2 E2) as (I2 & N2 & L2 & C2 & T2). destruct D2 as (D21 & D22 & D23 & D24 & D25 & D26).
      assert (Lu2 : live s2 u) by (apply L2; auto). assert (Lv2 : live s2 v) by (apply L2; auto).
      assert (Hne2 : meta s2 u <> meta s2 v) by (rewrite D22, D12; auto).
      assert (M := rec_match_imposes s2 u v I2 Lu2 Lv2 Hne2).
      assert (L02 : forall x, live s2 x <-> live s x) by (intros; rewrite L2, L1; tauto).
      specialize (Heq s2 I2 ltac:(congruence) L02).
      unfold imposes in M |- *. destruct (rec_match (meta s2 u) (meta s2 v) s2) as [s3 [x|e]] eqn:E3; cbn [fst snd ret] in *.
      * destruct M as (I3 & N3 & L3 & C3 & T3). split; [|intros _ _; eapply Heq; eauto].
        split; auto. split; [congruence|]. split; [intros; rewrite L3; auto|]. split.
        -- intros y z Hy Hz Em. apply C3; [apply L02; auto | apply L02; auto|]. rewrite D22, D12. auto.
        -- intros rho. rewrite T3, T2, T1. split; [tauto|]. intros [H Huv]. assert (Q1 := proj1 H u Lu). assert (Q2 := proj1 H v Lv). fold p1 in Q1. fold p2 in Q2.
           split; auto. split; [split; auto|]; [rewrite Huv; auto | rewrite <- Huv; auto].
      * exfalso. destruct M as (_ & _ & _ & _ & _ & _ & M).
        assert (Q1 : in_pv n (possible_values s2 u)).
        { unfold possible_values. rewrite D22. rewrite D25 by (rewrite D12; auto). fold (possible_values s1 u). apply Hq. auto. }
        rewrite P2 in D21. destruct (updated_ok _ _ _ D21 W2 S1) as [_ Hq2].
        assert (Q2 : in_pv n (possible_values s2 v)) by (apply Hq2; auto).
        destruct (sat_exists s2 I2) as [rho Hr].
        apply (M (fun x => if (meta s2 x =? meta s2 u) || (meta s2 x =? meta s2 v) then n else rho x)). split.
        -- split.
           ++ intros x Hx. unfold possible_values. destruct (Nat.eqb_spec (meta s2 x) (meta s2 u)) as [Ex|Ex]; cbn [orb].
              ** rewrite Ex. apply Q1.
              ** destruct (Nat.eqb_spec (meta s2 x) (meta s2 v)) as [Ey|Ey]; [rewrite Ey; apply Q2 | apply Hr; auto].
           ++ intros x y Hx Hy Em. rewrite Em. destruct (_ || _)%bool; auto. apply Hr; auto.
        -- rewrite !Nat.eqb_refl, orb_true_r. auto.
    + destruct D1 as [-> D1]. destruct (updated_err _ _ _ D1) as [-> He].
      unfold imposes. cbn [fst snd]. split; [|discriminate]. split; auto. split; auto. split; [tauto|]. split; auto. split; auto. split; auto.
      intros rho [[H1 H2] Huv]. apply (He (rho u)). split; [apply H1; auto | rewrite Huv; apply H1; auto].
Qed.
