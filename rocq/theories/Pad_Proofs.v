(** * pad and eye: proofs *)
From Coq Require Import List Arith Lia Bool ZArith.
From Verif Require Import PyBase Uniadic_Model Uniadic_Proofs Uniadic_Props Bcast_Proofs Shape_Model Shape_Proofs Shape_Proofs2 Shape_Proofs3 Shape_Props Reduce_Model Reduce_Proofs Reduce_Proofs2
  Rule_Proofs Window_Proofs Arange_Model Arange_Proofs Reshape_Model Reshape_Proofs Concat_Model Concat_Proofs Flat_Model Flat_Proofs Flat_Proofs2 Pad_Model Pad_Spec.
Import ListNotations.
Open Scope list_scope. Open Scope nat_scope. Open Scope shm_scope.

Lemma set_dim_ok (P : srel) s u n : sinv s -> live (us s) u -> (forall rho sh, allows s rho sh -> P sh -> rho u = n) ->
  match set_dim u n s with
  | (s', Ok _) => sound_for P s s' /\ rp s' = rp s /\ forall rho, sat (us s') rho -> rho u = n
  | (_, Err e) => e = ValueError /\ excludes P s
  end.
Proof.
  intros I Lu H. assert (X := on_dims P (update_possible_values u (Some [n])) _ s I (update_imposes (us s) u (Some [n]) (s_inv _ I) Lu ltac:(cbn; constructor; [intros []|constructor]))). lapply X; [clear X; intros X|].
  - unfold set_dim, hbind, hret. destruct (lift _ s) as [s' [x|e]]; [|auto]. destruct X as (X1 & X2 & X3 & X4). split; [auto|]. split; [auto|]. intros rho Hs. destruct (X4 rho _ (allows_self s' rho (fun _ => []) Hs)) as [E|[]]; auto.
  - intros rho tau sh Hs D Hp. left. symmetry. apply (H rho sh); [apply allows_den; eauto|auto].
Qed.
Lemma match_ok (P : srel) s u v : sinv s -> live (us s) u -> live (us s) v -> (forall rho sh, allows s rho sh -> P sh -> rho u = rho v) ->
  match lift (uni_match u v) s with
  | (s', Ok _) => sound_for P s s' /\ rp s' = rp s /\ forall rho, sat (us s') rho -> rho u = rho v
  | (_, Err e) => e = ValueError /\ excludes P s
  end.
Proof.
  intros I Lu Lv H. assert (X := on_dims P (uni_match u v) _ s I (proj1 (uni_match_imposes (us s) u v (s_inv _ I) Lu Lv))). lapply X; [clear X; intros X|].
  - destruct (lift _ s) as [s' [x|e]]; [|auto]. destruct X as (X1 & X2 & X3 & X4). split; [auto|]. split; [auto|]. intros rho Hs. apply (X4 rho _ (allows_self s' rho (fun _ => []) Hs)).
  - intros rho tau sh Hs D Hp. apply (H rho sh); [apply allows_den; eauto|auto].
Qed.
Lemma sound_sat P s s' rho : sound_for P s s' -> sat (us s') rho -> sat (us s) rho.
Proof. intros (_ & _ & _ & _ & B) Hs. apply (B rho _ (allows_self s' rho (fun _ => []) Hs)). Qed.
Lemma value_kept P s s' u n : sinv s -> sound_for P s s' -> live (us s) u -> value (us s) u = Some n -> value (us s') u = Some n.
Proof. intros I Sf Lu V. apply value_complete; [apply Sf|apply Sf; auto|]. intros rho Hs. eapply value_sat; [apply I|exact Lu|exact V|]. eapply sound_sat; eauto. Qed.

(** ** One dimension *)
Definition given1 (p : pad1) (l r : Z) : Prop := given (fst p) l /\ given (snd p) r.
Definition knows (s : shst) (u : nat) : Prop := exists n, value (us s) u = Some n.
Definition settled1 (s : shst) (i o : nat) (p : pad1) : Prop :=
  match p with (Some _, Some _) => knows s i \/ knows s o | (None, None) => False | _ => knows s i /\ knows s o end.
Lemma pad_dim_ok (P : srel) s i o p : sinv s -> live (us s) i -> live (us s) o -> (forall rho sh, allows s rho sh -> P sh -> exists l r, given1 p l r /\ rho o = (rho i + l + r)%Z) ->
  match pad_dim i o p s with
  | (s', Ok (p', b)) => sound_for P s s' /\ rp s' = rp s /\ (forall l r, given1 p' l r -> given1 p l r) /\
      (forall rho l r, sat (us s') rho -> given1 p l r -> (0 <= l)%Z -> (0 <= r)%Z -> rho o = (rho i + l + r)%Z -> given1 p' l r) /\
      (b = true -> exists l r, p' = (Some l, Some r) /\ forall rho, sat (us s') rho -> rho o = (rho i + l + r)%Z) /\ (settled1 s i o p -> b = true)
  | (_, Err e) => e = ValueError /\ excludes P s
  end.
Proof.
  intros I Li Lo H. unfold pad_dim. assert (Vi : forall n, value (us s) i = Some n -> forall rho, sat (us s) rho -> rho i = n) by (intros n V rho Hs; eapply value_sat; [apply I|exact Li|exact V|auto]).
  assert (Vo : forall n, value (us s) o = Some n -> forall rho, sat (us s) rho -> rho o = n) by (intros n V rho Hs; eapply value_sat; [apply I|exact Lo|exact V|auto]).
  destruct (value (us s) i) as [a|] eqn:Ei; [|destruct (value (us s) o) as [b|] eqn:Eo]; [destruct (value (us s) o) as [b|] eqn:Eo|..].
  - specialize (Vi a eq_refl). specialize (Vo b eq_refl). destruct p as [[l|] [r|]].
    + destruct (Z.eqb_spec (a + l + r) b) as [Q|Q].
      * split; [apply sound_for_refl; auto|]. split; [auto|]. split; [auto|]. split; [auto|]. split; [|auto]. intros _. exists l, r. split; [auto|]. intros rho Hs. rewrite (Vi rho Hs), (Vo rho Hs). lia.
      * split; [auto|]. intros rho sh A Hp. destruct (H rho sh A Hp) as (l' & r' & [G1 G2] & E). destruct A as [Hs _]. cbn in G1, G2. subst. rewrite (Vi rho Hs), (Vo rho Hs) in E. lia.
    + split; [apply sound_for_refl; auto|]. split; [auto|]. split; [intros l' r' [G1 G2]; split; [auto|cbn; auto]|]. split; [|split; [|auto]].
      * intros rho l' r' Hs [G1 G2] _ _ E. split; [auto|]. cbn in G1 |- *. rewrite (Vi rho Hs), (Vo rho Hs) in E. lia.
      * intros _. eexists _, _. split; [reflexivity|]. intros rho Hs. rewrite (Vi rho Hs), (Vo rho Hs). lia.
    + split; [apply sound_for_refl; auto|]. split; [auto|]. split; [intros l' r' [G1 G2]; split; [cbn; auto|auto]|]. split; [|split; [|auto]].
      * intros rho l' r' Hs [G1 G2] _ _ E. split; [|auto]. cbn in G2 |- *. rewrite (Vi rho Hs), (Vo rho Hs) in E. lia.
      * intros _. eexists _, _. split; [reflexivity|]. intros rho Hs. rewrite (Vi rho Hs), (Vo rho Hs). lia.
    + destruct ((i =? o) || (a =? b)%Z) eqn:Q.
      * assert (Eab : a = b). { apply orb_true_iff in Q as [Q|Q]; [apply Nat.eqb_eq in Q; subst; congruence|apply Z.eqb_eq; auto]. } subst b.
        split; [apply sound_for_refl; auto|]. split; [auto|]. split; [intros; split; cbn; auto|]. split; [|split; [|intros []]].
        -- intros rho l' r' Hs _ Hl Hr E. rewrite (Vi rho Hs), (Vo rho Hs) in E. split; cbn; lia.
        -- intros _. eexists _, _. split; [reflexivity|]. intros rho Hs. rewrite (Vi rho Hs), (Vo rho Hs). lia.
      * split; [apply sound_for_refl; auto|]. do 3 (split; [auto|]). split; [discriminate|]. intros [].
  - specialize (Vi a eq_refl). assert (No : ~ knows s o) by (intros (n & E); congruence).
    destruct p as [[l|] [r|]]; [|split; [apply sound_for_refl; auto|]; do 3 (split; [auto|]); split; [discriminate|cbn; tauto]..].
    assert (X := set_dim_ok P s o (a + (l + r))%Z I Lo). lapply X; [clear X; intros X|].
    2: { intros rho sh A Hp. destruct (H rho sh A Hp) as (l' & r' & [G1 G2] & E). destruct A as [Hs _]. cbn in G1, G2. subst. rewrite E, (Vi rho Hs). lia. }
    unfold hbind, hret. destruct (set_dim o (a + (l + r)) s) as [s' [[]|e]]; [|auto]. destruct X as (X1 & X2 & X3). split; [auto|]. split; [auto|]. do 2 (split; [auto|]). split; [|auto].
    intros _. exists l, r. split; [auto|]. intros rho Hs. rewrite (X3 rho Hs), (Vi rho) by (eapply sound_sat; eauto). lia.
  - specialize (Vo b eq_refl). assert (Ni : ~ knows s i) by (intros (n & E); congruence).
    destruct p as [[l|] [r|]]; [|split; [apply sound_for_refl; auto|]; do 3 (split; [auto|]); split; [discriminate|cbn; tauto]..].
    assert (X := set_dim_ok P s i (b - (l + r))%Z I Li). lapply X; [clear X; intros X|].
    2: { intros rho sh A Hp. destruct (H rho sh A Hp) as (l' & r' & [G1 G2] & E). destruct A as [Hs _]. cbn in G1, G2. subst. rewrite (Vo rho Hs) in E. lia. }
    unfold hbind, hret. destruct (set_dim i (b - (l + r)) s) as [s' [[]|e]]; [|auto]. destruct X as (X1 & X2 & X3). split; [auto|]. split; [auto|]. do 2 (split; [auto|]). split; [|auto].
    intros _. exists l, r. split; [auto|]. intros rho Hs. rewrite (X3 rho Hs), (Vo rho) by (eapply sound_sat; eauto). lia.
  - assert (No : ~ knows s o) by (intros (n & E); congruence). assert (Ni : ~ knows s i) by (intros (n & E); congruence).
    assert (Df : sound_for P s s /\ rp s = rp s /\ (forall l r, given1 p l r -> given1 p l r) /\
      (forall rho l r, sat (us s) rho -> given1 p l r -> (0 <= l)%Z -> (0 <= r)%Z -> rho o = (rho i + l + r)%Z -> given1 p l r) /\
      (false = true -> exists l r, p = (Some l, Some r) /\ forall rho, sat (us s) rho -> rho o = (rho i + l + r)%Z) /\ (settled1 s i o p -> false = true)).
    { split; [apply sound_for_refl; auto|]. do 3 (split; [auto|]). split; [discriminate|]. destruct p as [[l|] [r|]]; cbn; tauto. }
    destruct p as [[[| |]|] [[| |]|]]; try exact Df. clear Df.
    assert (X := match_ok P s i o I Li Lo). lapply X; [clear X; intros X|].
    2: { intros rho sh A Hp. destruct (H rho sh A Hp) as (l' & r' & [G1 G2] & E). cbn in G1, G2. lia. }
    unfold hbind, hret. destruct (lift (uni_match i o) s) as [s' [x|e]]; [|auto]. destruct X as (X1 & X2 & X3). split; [auto|]. split; [auto|]. do 2 (split; [auto|]). split; [|auto].
    intros _. exists 0%Z, 0%Z. split; [auto|]. intros rho Hs. rewrite (X3 rho Hs). lia.
Qed.

(** ** All dimensions *)
Definition given0 (g : option pad1) (lr : Z * Z) : Prop := match g with Some (a, b) => given a (fst lr) /\ given b (snd lr) | None => True end.
Definition settled0 (s : shst) (x : nat * nat * option pad1) : Prop := let '(i, o, g) := x in match g with Some p => settled1 s i o p | None => False end.
Lemma pad_entry_ok (P : srel) s i o g : sinv s -> live (us s) i -> live (us s) o -> (forall rho sh, allows s rho sh -> P sh -> exists l r, given0 g (l, r) /\ rho o = (rho i + l + r)%Z) ->
  match pad_entry i o g s with
  | (s', Ok (g', b)) => sound_for P s s' /\ rp s' = rp s /\ (forall lr, given0 g' lr -> given0 g lr) /\
      (forall rho l r, sat (us s') rho -> given0 g (l, r) -> (0 <= l)%Z -> (0 <= r)%Z -> rho o = (rho i + l + r)%Z -> given0 g' (l, r)) /\
      (b = true -> exists l r, g' = Some (Some l, Some r) /\ forall rho, sat (us s') rho -> rho o = (rho i + l + r)%Z) /\ (settled0 s (i, o, g) -> b = true)
  | (_, Err e) => e = ValueError /\ excludes P s
  end.
Proof.
  intros I Li Lo H. unfold pad_entry. destruct g as [p|].
  - assert (X := pad_dim_ok P s i o p I Li Lo). lapply X; [clear X; intros X|]. 2: { intros rho sh A Hp. destruct (H rho sh A Hp) as (l & r & G & E). exists l, r. split; [destruct p; exact G|auto]. }
    unfold hbind, hret. destruct (pad_dim i o p s) as [s' [[p' b]|e]]; [|auto]. destruct X as (X1 & X2 & X3 & X4 & X5 & X6). cbn [fst snd]. split; [auto|]. split; [auto|].
    split; [intros [l r] G; destruct p, p'; apply (X3 l r); exact G|]. split; [intros rho l r Hs G Hl Hr E; destruct p, p'; apply (X4 rho l r); auto|]. split; [|auto]. intros ->. destruct (X5 eq_refl) as (l & r & -> & Y). exists l, r. auto.
  - destruct ((i =? o) || match value (us s) i, value (us s) o with Some a, Some b => (a =? b)%Z | _, _ => false end) eqn:Q.
    + assert (Eq : forall rho, sat (us s) rho -> rho o = rho i).
      { intros rho Hs. apply orb_true_iff in Q as [Q|Q]; [apply Nat.eqb_eq in Q; subst; auto|]. destruct (value (us s) i) as [a|] eqn:Ei; [|discriminate]. destruct (value (us s) o) as [b|] eqn:Eo; [|discriminate]. apply Z.eqb_eq in Q. subst.
        rewrite (value_sat (us s) i b rho (s_inv _ I) Li Ei Hs), (value_sat (us s) o b rho (s_inv _ I) Lo Eo Hs). auto. }
      split; [apply sound_for_refl; auto|]. split; [auto|]. split; [cbn; auto|]. split; [|split; [|intros []]].
      * intros rho l r Hs _ Hl Hr E. rewrite (Eq rho Hs) in E. split; cbn; lia.
      * intros _. exists 0%Z, 0%Z. split; [auto|]. intros rho Hs. rewrite (Eq rho Hs). lia.
    + split; [apply sound_for_refl; auto|]. do 3 (split; [auto|]). split; [discriminate|]. intros [].
Qed.
Lemma pads_to_inv l r p n x m y : pads_to ((l, r) :: p) (n :: x) (m :: y) -> m = (n + l + r)%Z /\ pads_to p x y.
Proof. inversion 1; subst; auto. Qed.
Lemma settled_kept P s s' i o g : sinv s -> sound_for P s s' -> live (us s) i -> live (us s) o -> settled0 s (i, o, g) -> settled0 s' (i, o, g).
Proof.
  intros I Sf Li Lo. assert (K : forall u, live (us s) u -> knows s u -> knows s' u) by (intros u Lu (n & V); exists n; eapply value_kept; eauto). destruct g as [[[l|] [r|]]|]; cbn; auto; intuition auto.
Qed.
Lemma pad_dims_ok (P : srel) is : forall os ps s, sinv s -> length os = length is -> length ps = length is -> (forall u, In u is -> live (us s) u) -> (forall u, In u os -> live (us s) u) ->
  (forall rho sh, allows s rho sh -> P sh -> exists p, pads_given ps p /\ pads_to p (map rho is) (map rho os)) ->
  match pad_dims is os ps s with
  | (s', Ok (ps', b)) => sound_for P s s' /\ rp s' = rp s /\ (forall p, pads_given ps' p -> pads_given ps p) /\
      (forall rho p, sat (us s') rho -> pads_given ps p -> not_negative p -> pads_to p (map rho is) (map rho os) -> pads_given ps' p) /\
      (b = true -> exists p, ps' = pads_exactly p /\ forall rho, sat (us s') rho -> pads_to p (map rho is) (map rho os)) /\
      (Forall (settled0 s) (combine (combine is os) ps) -> b = true)
  | (_, Err e) => e = ValueError /\ excludes P s
  end.
Proof.
  induction is as [|i is IH]; intros [|o os] [|g ps] s I L1 L2 Hi Ho H; try discriminate; cbn [pad_dims].
  - unfold hret. split; [apply sound_for_refl; auto|]. do 3 (split; [auto|]). split; [|auto]. intros _. exists []. split; [auto|]. intros. constructor.
  - injection L1 as L1. injection L2 as L2. unfold hbind at 1.
    assert (X := pad_entry_ok P s i o g I (Hi i (or_introl eq_refl)) (Ho o (or_introl eq_refl))). lapply X; [clear X; intros X|].
    2: { intros rho sh A Hp. destruct (H rho sh A Hp) as (p & G & T). inversion T; subst. inversion G; subst. eauto. }
    destruct (pad_entry i o g s) as [s1 [[g' b]|e]]; [|auto]. destruct X as (X1 & X2 & X3 & X4 & X5 & X6).
    specialize (IH os ps s1 (proj1 X1) L1 L2). lapply IH; [clear IH; intros IH|intros u Hu; apply X1, Hi; right; auto]. lapply IH; [clear IH; intros IH|intros u Hu; apply X1, Ho; right; auto]. lapply IH; [clear IH; intros IH|].
    2: { intros rho sh A Hp. apply X1 in A. destruct (H rho sh A Hp) as (p & G & T). inversion T; subst. inversion G; subst. eauto. }
    unfold hbind at 1. destruct (pad_dims is os ps s1) as [s2 [[ps' b']|e]].
    2: { destruct IH as [-> IH]. split; [auto|]. eapply excludes_back; eauto. }
    destruct IH as (Y1 & Y2 & Y3 & Y4 & Y5 & Y6). unfold hret. cbn [fst snd]. split; [eapply sound_for_trans; eauto|]. split; [congruence|]. split; [|split; [|split]].
    + intros p G. inversion G; subst. constructor; [apply X3; auto|apply Y3; auto].
    + intros rho p Hs G Nn T. inversion T as [|l r p' n x m y Em T' Ep En Ey]; subst. inversion G; subst. inversion Nn as [|? ? [N1 N2] Nn']; subst. constructor; [|apply (Y4 rho); auto]. apply (X4 rho); auto. eapply sound_sat; eauto.
    + intros Eb. apply andb_true_iff in Eb as [-> ->]. destruct (X5 eq_refl) as (l & r & -> & Q). destruct (Y5 eq_refl) as (p & -> & Q'). exists ((l, r) :: p). split; [auto|]. intros rho Hs. cbn [map]. constructor; [apply Q; eapply sound_sat; eauto|auto].
    + cbn [combine]. intros F. apply Forall_cons_iff in F as [F1 F2]. rewrite (X6 F1), Y6; [auto|]. apply Forall_forall. intros [[u v] z] Hz. assert (Hin := Hz). apply in_combine_l in Hin. assert (U1 := in_combine_l _ _ _ _ Hin). assert (U2 := in_combine_r _ _ _ _ Hin).
      apply (settled_kept P s s1 u v z I X1); [apply Hi; right; auto|apply Ho; right; auto|]. apply (proj1 (Forall_forall _ _) F2). auto.
Qed.

(** ** The rule *)
Definition pad_pair (qi qo : nat) (ps : list (option pad1)) (sh : nat -> list Z) : Prop := exists p, pads_given ps p /\ pads_to p (sh qi) (sh qo).
Lemma pads_to_length p x y : pads_to p x y -> length x = length p /\ length y = length p.
Proof. induction 1; cbn; lia. Qed.
Lemma pads_given_length (ps : list (option pad1)) p : pads_given ps p -> length p = length ps.
Proof. intros H. symmetry. eapply Forall2_length. exact H. Qed.
Lemma has_rank (P : srel) s q n : sinv s -> q < nrep s -> (forall rho sh, allows s rho sh -> P sh -> length (sh q) = n) ->
  match (do l <- new_dims None n; inner_match q (mkshape l None [])) s with
  | (s', Ok _) => sound_for P s s' /\ (forall rho sh, allows s' rho sh -> length (sh q) = n)
  | (_, Err e) => e = ValueError /\ excludes P s
  end.
Proof.
  intros I Hq H. assert (M : makes (new_dims None n) s (fun _ ys => length ys = n)).
  { destruct (new_dims_ok None n s (s_inv _ I)) as (u' & l & E & G & V & S & C). exists u', l. do 3 (split; [auto|]). split.
    - intros rho Hs. destruct (S rho Hs) as [S1 [S2 _]]. auto.
    - intros rho ys Hs Ly. apply C; [auto|]. split; [auto|]. apply Forall_forall. intros; exact Logic.I. }
  assert (X := match_list P _ _ s q I Hq M). lapply X; [auto|]. intros rho tau sh Hs D Hp. apply (H rho); [apply allows_den; eauto|auto].
Qed.
Lemma pad_ok s qi qo ps : sinv s -> qi < nrep s -> qo < nrep s ->
  match pad_rule qi qo (Some ps) s with
  | (s', Ok (b, r)) => exists ps', r = Some ps' /\ sound_for (pad_pair qi qo ps) s s' /\ (forall p, pads_given ps' p -> pads_given ps p) /\
      (forall rho sh p, allows s' rho sh -> pads_given ps p -> not_negative p -> pads_to p (sh qi) (sh qo) -> pads_given ps' p) /\
      (b = true -> exists p, ps' = pads_exactly p /\ forall rho sh, allows s' rho sh -> pads_to p (sh qi) (sh qo)) /\
      (forall p, ps = pads_exactly p -> (exists x, determined s qi x \/ determined s qo x) -> b = true) /\
      (forall x y, determined s qi x -> determined s qo y -> Forall (fun g => exists a b, g = Some (a, b) /\ (a <> None \/ b <> None)) ps -> b = true)
  | (_, Err e) => e = ValueError /\ excludes (pad_pair qi qo ps) s
  end.
Proof.
  intros I Hi Ho. set (P := pad_pair qi qo ps). unfold pad_rule.
  assert (H1 := has_rank P s qi (length ps) I Hi). lapply H1; [clear H1; intros H1|]. 2: { intros rho sh _ (p & G & T). destruct (pads_to_length _ _ _ T). apply (pads_given_length ps) in G. lia. }
  rewrite assoc. unfold hbind at 1. destruct ((do l <- new_dims None (length ps); inner_match qi (mkshape l None [])) s) as [s1 [[]|e]]; [|auto]. destruct H1 as [S1 R1]. assert (I1 : sinv s1) by apply S1. assert (N1 : nrep s1 = nrep s) by apply S1.
  assert (H2 := has_rank P s1 qo (length ps) I1 ltac:(lia)). lapply H2; [clear H2; intros H2|]. 2: { intros rho sh _ (p & G & T). destruct (pads_to_length _ _ _ T). apply (pads_given_length ps) in G. lia. }
  rewrite assoc. unfold hbind at 1. destruct ((do l <- new_dims None (length ps); inner_match qo (mkshape l None [])) s1) as [s2 [[]|e]]; [|destruct H2 as [-> H2]; split; [auto|eapply excludes_back; eauto]]. destruct H2 as [S2 R2]. assert (I2 : sinv s2) by apply S2. assert (N2 : nrep s2 = nrep s1) by apply S2.
  assert (S12 := sound_for_trans _ _ _ _ S1 S2). assert (R1' : forall rho sh, allows s2 rho sh -> length (sh qi) = length ps) by (intros rho sh A; apply (R1 rho sh); apply S2; auto). clear R1.
  destruct (rank_plain (length ps) s2 qi I2 ltac:(lia) R1') as [Pi Li]. destruct (rank_plain (length ps) s2 qo I2 ltac:(lia) R2) as [Po Lo].
  assert (Hi2 : qi < nrep s2) by lia. assert (Ho2 : qo < nrep s2) by lia. assert (Lio : length (pre (rp s2 qo)) = length (pre (rp s2 qi))) by congruence. assert (Lpi : length ps = length (pre (rp s2 qi))) by congruence.
  assert (X := pad_dims_ok P (pre (rp s2 qi)) (pre (rp s2 qo)) ps s2 I2 Lio Lpi (fun u => pre_live s2 qi u I2 Hi2) (fun u => pre_live s2 qo u I2 Ho2)). lapply X; [clear X; intros X|].
  2: { intros rho sh A Hp. rewrite <- (plain_sh s2 qi rho sh I2 ltac:(lia) Pi A), <- (plain_sh s2 qo rho sh I2 ltac:(lia) Po A). exact Hp. }
  unfold hbind, hret. destruct (pad_dims (pre (rp s2 qi)) (pre (rp s2 qo)) ps s2) as [s3 [[ps' b]|e]]; [|destruct X as [-> X]; split; [auto|eapply excludes_back; eauto]].
  destruct X as (X1 & X2 & X3 & X4 & X5 & X6). cbn [fst snd]. exists ps'. split; [auto|]. split; [eapply sound_for_trans; eauto|]. split; [auto|].
  assert (I3 : sinv s3) by apply X1. assert (N3 : nrep s3 = nrep s2) by apply X1.
  assert (Ei : forall rho sh, allows s3 rho sh -> sh qi = map rho (pre (rp s2 qi))) by (intros rho sh A; apply X1 in A; apply plain_sh; auto; lia). assert (Eo : forall rho sh, allows s3 rho sh -> sh qo = map rho (pre (rp s2 qo))) by (intros rho sh A; apply X1 in A; apply plain_sh; auto; lia).
  split; [intros rho sh p A G Nn T; rewrite (Ei _ _ A), (Eo _ _ A) in T; apply (X4 rho p); auto; apply A|].
  split; [intros Eb; destruct (X5 Eb) as (p & -> & Q); exists p; split; [auto|]; intros rho sh A; rewrite (Ei _ _ A), (Eo _ _ A); apply Q, A|].
  assert (Kn : forall q x, q < nrep s -> determined s q x -> forall u, In u (pre (rp s2 q)) -> knows s2 u).
  { intros q x Hq D u Hu. assert (D2 : determined s2 q x) by (intros rho sh A; apply (D rho sh); apply S12; auto). apply determined_values in D2 as [_ D2]; [|auto|lia]. apply (in_map (value (us s2))) in Hu. change (map (value (us s2)) (pre (rp s2 q))) with (values s2 (pre (rp s2 q))) in Hu. rewrite D2 in Hu. apply in_map_iff in Hu as (n & En & _). exists n. auto. }
  split.
  - intros p -> (x & D). apply X6. apply Forall_forall. intros [[u v] g] Hz. assert (Hp := in_combine_l _ _ _ _ Hz). assert (Hg := in_combine_r _ _ _ _ Hz). unfold pads_exactly in Hg. apply in_map_iff in Hg as ([l r] & <- & _). cbn. destruct D as [D|D]; [left; apply (Kn qi x); auto; apply (in_combine_l _ _ _ _ Hp)|right; apply (Kn qo x); auto; apply (in_combine_r _ _ _ _ Hp)].
  - intros x y Dx Dy F. apply X6. apply Forall_forall. intros [[u v] g] Hz. assert (Hp := in_combine_l _ _ _ _ Hz). assert (Hg := in_combine_r _ _ _ _ Hz). apply (proj1 (Forall_forall _ _) F) in Hg as (a & c & -> & Q).
    assert (Ku : knows s2 u) by (apply (Kn qi x); auto; apply (in_combine_l _ _ _ _ Hp)). assert (Kv : knows s2 v) by (apply (Kn qo y); auto; apply (in_combine_r _ _ _ _ Hp)). cbn. destruct a, c; auto. destruct Q; congruence.
Qed.
