(** * squeeze and broadcast_to: proofs *)
From Coq Require Import List Arith Lia Bool ZArith.
From Verif Require Import PyBase Uniadic_Model Uniadic_Proofs Uniadic_Props Bcast_Proofs Shape_Model Shape_Proofs Shape_Proofs2 Shape_Proofs3 Shape_Props Reduce_Model Reduce_Proofs Reduce_Proofs2
  Rule_Proofs Window_Proofs Reshape_Model Reshape_Proofs Concat_Model Concat_Proofs Flat_Model Flat_Spec.
Import ListNotations.
Open Scope list_scope. Open Scope nat_scope. Open Scope shm_scope.

(** ** squeeze *)
Definition not1 (n : Z) : bool := negb (n =? 1)%Z.
Lemma squeezes_iff x y : squeezes x y <-> y = filter not1 x.
Proof.
  split.
  - induction 1 as [|x y _ ->|n x y N _ ->]; [auto|auto|]. cbn [filter]. assert (E : not1 n = true) by (unfold not1; destruct (Z.eqb_spec n 1); [contradiction|auto]). rewrite E. auto.
  - intros ->. induction x as [|n x IH]; cbn [filter]; [constructor|]. destruct (not1 n) eqn:E; unfold not1 in E; destruct (Z.eqb_spec n 1) as [->|N]; try discriminate; constructor; auto.
Qed.
Lemma until_unknown_ok s l : sinv s -> (forall u, In u l -> live (us s) u) -> forall np b, until_unknown s l = (np, b) ->
  (forall u, In u np -> In u l) /\ exists l1 l2, l = l1 ++ l2 /\ (forall rho, sat (us s) rho -> map rho np = filter not1 (map rho l1)) /\ (forall u, In u l1 -> value (us s) u <> None) /\
    (if b then exists u l3, l2 = u :: l3 /\ value (us s) u = None else l2 = []).
Proof.
  intros I. induction l as [|u l IH]; intros L np b E; cbn in E.
  - injection E as <- <-. split; [auto|]. exists [], []. cbn. auto.
  - destruct (value (us s) u) as [n|] eqn:V.
    + destruct (until_unknown s l) as [r b'] eqn:E'. destruct (IH ltac:(intros x Hx; apply L; right; auto) r b' eq_refl) as (H1 & l1 & l2 & -> & H2 & H3 & H4). injection E as <- <-.
      split; [destruct (n =? 1)%Z; intros x Hx; [right; auto|destruct Hx as [<-|Hx]; [left; auto|right; auto]]|]. exists (u :: l1), l2. split; [auto|]. split; [|split; [intros x [<-|Hx]; [congruence|auto]|exact H4]].
      intros rho Hs. assert (Eu : rho u = n) by (eapply value_sat; [apply I|apply L; left; auto|exact V|auto]). cbn [map filter]. unfold not1 at 1. rewrite Eu. destruct (n =? 1)%Z; cbn [negb map]; rewrite (H2 rho Hs); [auto|rewrite Eu; auto].
    + injection E as <- <-. split; [intros x []|]. exists [], (u :: l). split; [auto|]. split; [auto|]. split; [intros x []|]. eauto.
Qed.
Lemma no_overlap {A} (C : A -> Prop) : forall (l1 : list A) u l2 a m, l1 ++ u :: l2 = a ++ m -> ~ C u -> (forall x, In x m -> C x) -> exists mid, l1 ++ mid ++ m = a ++ m.
Proof.
  induction l1 as [|x l1 IH]; intros u l2 a m E Nu Hm; cbn in *.
  - exists a. auto.
  - destruct a as [|y a]; cbn in *.
    + exfalso. apply Nu. apply Hm. rewrite <- E. right. apply in_app_iff. right. left. auto.
    + injection E as -> E. destruct (IH u l2 a m E Nu Hm) as (mid & Em). exists mid. f_equal. auto.
Qed.
Lemma no_root_iff r : no_root r = true <-> root r = None.
Proof. unfold no_root. destruct (root r); split; congruence. Qed.
(** The known ends of the input *)
Lemma known_ends s q np b1 rns b2 : sinv s -> q < nrep s -> until_unknown s (pre (rp s q)) = (np, b1) -> until_unknown s (reversed (rp s q)) = (rns, b2) ->
  (forall u, In u (np ++ rev rns) -> live (us s) u) /\
  if b1 || b2 || negb (no_root (rp s q)) then forall rho tau, sat (us s) rho -> exists mid, filter not1 (den s rho tau q) = map rho np ++ mid ++ map rho (rev rns)
  else forall rho tau, sat (us s) rho -> filter not1 (den s rho tau q) = map rho np.
Proof.
  intros I Hq E1 E2. assert (Lp : forall u, In u (pre (rp s q)) -> live (us s) u) by (intros u; apply pre_live; auto). assert (Lr : forall u, In u (reversed (rp s q)) -> live (us s) u) by (intros u; apply reversed_live; auto).
  destruct (until_unknown_ok s _ I Lp _ _ E1) as (A1 & l1 & l2 & Ep & A2 & A3 & A4). destruct (until_unknown_ok s _ I Lr _ _ E2) as (B1 & m1 & m2 & Er & B2 & B3 & B4).
  split; [intros u Hu; apply in_app_iff in Hu as [Hu|Hu]; [auto|rewrite <- in_rev in Hu; auto]|].
  assert (B2' : forall rho, sat (us s) rho -> map rho (rev rns) = filter not1 (map rho (rev m1))). { intros rho Hs. rewrite !map_rev, (B2 rho Hs). clear. induction (map rho m1) as [|x l IH]; [auto|]. cbn. rewrite filter_app. cbn. rewrite <- IH. destruct (not1 x); cbn; [auto|]. rewrite app_nil_r. auto. }
  unfold reversed in Er. destruct (root (rp s q)) as [v|] eqn:R.
  - unfold no_root. rewrite R. cbn [negb]. rewrite orb_true_r. intros rho tau Hs. assert (Es : suf (rp s q) = rev m2 ++ rev m1) by (rewrite <- rev_app_distr, <- Er, rev_involutive; auto).
    exists (filter not1 (map rho l2 ++ tau v ++ map rho (rev m2))). unfold den, dshape. rewrite R, Ep, Es, !map_app. cbn [rval]. rewrite (A2 rho Hs), (B2' rho Hs). rewrite <- !filter_app. f_equal. rewrite <- !app_assoc. auto.
  - unfold no_root. rewrite R. cbn [negb]. rewrite orb_false_r. assert (Es : pre (rp s q) = rev m2 ++ rev m1) by (rewrite <- rev_app_distr, <- Er, rev_involutive; auto).
    assert (D : forall rho tau, den s rho tau q = map rho (pre (rp s q))) by (intros; apply den_plain_suffix; auto).
    destruct (b1 || b2) eqn:Eb.
    + assert (X : exists mid, pre (rp s q) = l1 ++ mid ++ rev m1).
      { destruct b1.
        - destruct A4 as (u & l3 & -> & Vu). destruct (no_overlap (fun x => value (us s) x <> None) l1 u l3 (rev m2) (rev m1)) as (mid & Em); [congruence|congruence|intros x Hx; apply B3; rewrite in_rev; auto|]. exists mid. congruence.
        - destruct b2; [|discriminate]. destruct B4 as (u & l3 & -> & Vu). subst l2. rewrite app_nil_r in Ep. exfalso. apply (A3 u); [|auto]. rewrite <- Ep, Es. cbn. apply in_app_iff. left. apply in_app_iff. right. left. auto. }
      destruct X as (mid & Em). intros rho tau Hs. exists (filter not1 (map rho mid)). rewrite D, Em, !map_app, (A2 rho Hs), (B2' rho Hs). rewrite <- !filter_app. auto.
    + apply orb_false_iff in Eb as [-> ->]. intros rho tau Hs. subst l2. rewrite app_nil_r in Ep. rewrite D, Ep, (A2 rho Hs). auto.
Qed.
Definition squeezed_pair (qi qo : nat) (sh : nat -> list Z) : Prop := squeezes (sh qi) (sh qo).
Lemma filter_length_le {A} (f : A -> bool) l : length (filter f l) <= length l.
Proof. induction l as [|x l IH]; cbn; [lia|]. destruct (f x); cbn; lia. Qed.
Lemma shlen_den s rho tau q : length (den s rho tau q) = shlen (rp s q) + length (rval tau (root (rp s q))).
Proof. apply den_length. Qed.
Lemma squeeze_ok s qi qo : sinv s -> qi < nrep s -> qo < nrep s ->
  match squeeze_rule qi qo s with
  | (s', Ok r) => sound_for (squeezed_pair qi qo) s s' /\ (r = true <-> root (rp s' qo) = None) /\ (forall x, determined s qi x -> determined s' qo (filter not1 x))
  | (_, Err e) => e = ValueError /\ excludes (squeezed_pair qi qo) s
  end.
Proof.
  intros I Hi Ho. unfold squeeze_rule. destruct (no_root (rp s qi) && (shlen (rp s qi) <? shlen (rp s qo))) eqn:C1.
  { split; [auto|]. intros rho sh A Hp. apply andb_prop in C1 as [R C1]. apply no_root_iff in R. apply Nat.ltb_lt in C1. apply allows_den in A as (Hs & tau & D). apply squeezes_iff in Hp. assert (L := shlen_den s rho tau qi). assert (L' := shlen_den s rho tau qo). rewrite R in L. cbn in L. rewrite D in L, L' by auto.
    rewrite Hp in L'. assert (F := filter_length_le not1 (sh qi)). lia. }
  destruct (existsb _ (pre (rp s qo) ++ suf (rp s qo))) eqn:C2.
  { split; [auto|]. intros rho sh A Hp. apply existsb_exists in C2 as (u & Hu & Vu). destruct (value (us s) u) as [n|] eqn:V; [|discriminate]. apply Z.eqb_eq in Vu. subst n. apply allows_den in A as (Hs & tau & D). apply squeezes_iff in Hp.
    assert (Eu : rho u = 1%Z) by (eapply value_sat; [apply I|apply (proj1 (s_repr _ I qo Ho)); auto|exact V|auto]). assert (In 1%Z (sh qo)). { rewrite <- D by auto. unfold den, dshape. rewrite <- Eu. apply in_app_iff in Hu as [Hu|Hu]; apply in_app_iff; [left; apply in_map; auto|right; apply in_app_iff; right; apply in_map; auto]. }
    rewrite Hp in H. apply filter_In in H as [_ H]. discriminate. }
  destruct (until_unknown s (pre (rp s qi))) as [np b1] eqn:E1. destruct (until_unknown s (reversed (rp s qi))) as [rns b2] eqn:E2. destruct (known_ends s qi np b1 rns b2 I Hi E1 E2) as [L K]. destruct (b1 || b2 || negb (no_root (rp s qi))) eqn:Eb.
  - destruct (born_var s I) as (s1 & Ev & B1 & U1 & V1). set (o := mkshape np (Some (nvar s)) (rev rns)). assert (W : wf_repr s1 o). { split; [cbn; intros u Hu; rewrite U1; auto|]. split; [discriminate|]. intros v Hv. injection Hv as <-. lia. }
    assert (M := rule_step (squeezed_pair qi qo) s s1 qo o I B1 Ho W ltac:(rewrite U1; auto)). lapply M; [clear M; intros M|].
    2: { intros rho tau sh Hs D Hp. destruct (K rho tau Hs) as (mid & Em). exists rho, (upd tau (nvar s) mid). split; [intros x _; auto|]. split; [intros x Hx; apply upd_other; lia|]. split; [rewrite U1; auto|]. apply squeezes_iff in Hp. rewrite Hp, <- D, Em by auto. unfold dshape, o. cbn [pre suf root rval]. rewrite upd_same. auto. }
    unfold hbind at 1. unfold hbind at 1. rewrite Ev. fold o. destruct (inner_match qo o s1) as [s' [[]|e]]; [|auto]. unfold hgets. split; [apply M|]. split; [apply no_root_iff|]. intros x Dx. exfalso.
    apply determined_values in Dx as [R V]; [|auto|auto]. assert (Nx : forall u, In u (pre (rp s qi)) -> value (us s) u <> None). { intros u Hu Hn. assert (X : In None (values s (pre (rp s qi)))) by (unfold values; rewrite <- Hn; apply in_map; auto). rewrite V in X. apply in_map_iff in X as (? & ? & ?). discriminate. }
    destruct (until_unknown_ok s _ I (fun u => pre_live s qi u I Hi) _ _ E1) as (_ & l1 & l2 & Ep & _ & _ & A4). destruct (until_unknown_ok s _ I (fun u => reversed_live s qi u I Hi) _ _ E2) as (_ & m1 & m2 & Er & _ & _ & B4). unfold no_root in Eb. unfold reversed in Er. rewrite R in Eb, Er. cbn [negb] in Eb. rewrite orb_false_r in Eb.
    apply orb_prop in Eb as [->| ->]; [destruct A4 as (u & l3 & -> & Hn); apply (Nx u); [rewrite Ep; apply in_app_iff; right; left; auto|auto]|destruct B4 as (u & l3 & -> & Hn); apply (Nx u); [rewrite in_rev, Er; apply in_app_iff; right; left; auto|auto]].
  - set (o := mkshape np None []). assert (W : wf_repr s o). { split; [cbn; intros u Hu; apply L; rewrite app_nil_r in Hu; apply in_app_iff; auto|]. split; [auto|discriminate]. }
    assert (M := rule_step (squeezed_pair qi qo) s s qo o I (born_refl s I) Ho W ltac:(auto)). lapply M; [clear M; intros M|].
    2: { intros rho tau sh Hs D Hp. exists rho, tau. split; [intros x _; auto|]. split; [auto|]. split; [auto|]. apply squeezes_iff in Hp. rewrite Hp, <- D, (K rho tau Hs) by auto. unfold dshape, o. cbn. rewrite app_nil_r. auto. }
    unfold hbind at 1. fold o. destruct (inner_match qo o s) as [s' [[]|e]]; [|auto]. unfold hgets. split; [apply M|]. split; [apply no_root_iff|]. intros x Dx rho sh A. destruct M as (M1 & _ & M2). destruct (M2 ltac:(intros (_ & Hn & _); cbn in Hn; congruence) rho sh A) as (tau & Hs & D & Eq). rewrite Eq. unfold dshape, o. cbn. rewrite app_nil_r, <- (K rho tau Hs), D by auto. f_equal. apply (Dx rho sh). apply M1. auto.
Qed.

(** ** broadcast_to *)
Lemma fits_reversed_iff x : forall y, fits_reversed x y = true <-> exists y1 y2, y = y1 ++ y2 /\ Forall2 (fun a b => a = 1%Z \/ a = b) x y1.
Proof.
  induction x as [|a x IH]; intros y; cbn.
  - split; [intros _; exists [], y; auto|auto].
  - destruct y as [|b y]; [split; [discriminate|intros (y1 & y2 & E & F); inversion F; subst; discriminate]|]. rewrite andb_true_iff, orb_true_iff, !Z.eqb_eq, IH. split.
    + intros [H (y1 & y2 & -> & F)]. exists (b :: y1), y2. split; [auto|constructor; auto].
    + intros (y1 & y2 & E & F). inversion F as [|? c ? y3 H F']; subst. injection E as -> ->. split; [auto|eauto].
Qed.
Lemma Forall2_rev' {A B} (R : A -> B -> Prop) l m : Forall2 R l m -> Forall2 R (rev l) (rev m).
Proof. induction 1; cbn; [constructor|]. apply Forall2_app; auto. Qed.
Lemma validate_ok x y : match validate_bcast x y with Ok _ => stretches x y | Err e => e = ValueError /\ ~ stretches x y end.
Proof.
  assert (X : fits_reversed (rev x) (rev y) = true <-> stretches x y).
  { rewrite fits_reversed_iff. split.
    - intros (y1 & y2 & E & F). exists (rev y2), (rev y1). split; [rewrite <- rev_app_distr, <- E, rev_involutive; auto|]. rewrite <- (rev_involutive x). apply Forall2_rev'. auto.
    - intros (f & b & -> & F). exists (rev b), (rev f). split; [apply rev_app_distr|apply Forall2_rev'; auto]. }
  unfold validate_bcast. destruct (Nat.ltb_spec (length y) (length x)).
  - split; [auto|]. intros (f & b & -> & F). apply Forall2_length in F. rewrite app_length in *. lia.
  - destruct (fits_reversed _ _) eqn:E; [apply X; auto|]. split; [auto|]. rewrite <- X. congruence.
Qed.
Definition bcast_pair (qi qo : nat) (sv : list (option Z)) (sh : nat -> list Z) : Prop := as_given sv (sh qo) /\ stretches (sh qi) (sh qo).
Lemma as_given_fits sv y : as_given sv y <-> Forall2 fitsv sv y.
Proof. reflexivity. Qed.
Lemma as_given_all l y : as_given (map Some l) y <-> y = l.
Proof.
  split.
  - unfold as_given. revert y. induction l as [|z l IH]; intros y F; inversion F; subst; [auto|]. f_equal; auto.
  - intros ->. induction l; constructor; auto.
Qed.
Lemma bcast_to_ok s qi qo sv : sinv s -> qi < nrep s -> qo < nrep s ->
  match bcast_to_rule qi qo (Some sv) s with
  | (s', Ok r) => sound_for (bcast_pair qi qo sv) s s' /\ ensures (fun sh => as_given sv (sh qo)) s' /\ (r = true -> ensures (bcast_pair qi qo sv) s') /\
      (r = true <-> (exists y, sv = map Some y) /\ exists x, determined s' qi x)
  | (_, Err e) => e = ValueError /\ excludes (bcast_pair qi qo sv) s
  end.
Proof.
  intros I Hi Ho. unfold bcast_to_rule. destruct (Nat.ltb_spec (length sv) (shlen (rp s qo))) as [C|C].
  { split; [auto|]. intros rho sh A [Hg _]. apply allows_den in A as (Hs & tau & D). apply Forall2_length in Hg. assert (L := shlen_den s rho tau qo). rewrite D in L by auto. lia. }
  assert (M := match_list (bcast_pair qi qo sv) (fun _ ys => Forall2 fitsv sv ys) (new_uniadics sv) s qo I Ho (makes_new sv s (s_inv _ I))). lapply M; [clear M; intros M|].
  2: { intros rho tau sh Hs D [Hg _]. auto. }
  assert (Er : forall (k : shm bool), (do l <- new_uniadics sv; do _ <- inner_match qo (mkshape l None []); k) s = (do _ <- (do l <- new_uniadics sv; inner_match qo (mkshape l None [])); k) s). { intros k. unfold hbind. destruct (new_uniadics sv s) as [s1 [l|e]]; [|auto]. destruct (inner_match _ _ s1) as [s2 [[]|e]]; auto. }
  rewrite Er. unfold hbind at 1. destruct ((do l <- new_uniadics sv; inner_match qo (mkshape l None [])) s) as [s' [[]|e]]; [|auto]. destruct M as [M1 M2]. assert (I' : sinv s') by apply M1. assert (Hi' : qi < nrep s') by (destruct M1 as (_ & -> & _); auto).
  destruct (repr_known s' qi) eqn:Rk.
  - assert (Rk' := Rk). apply repr_known_iff in Rk' as (x & Dx); [|auto|auto]. assert (Dv := Dx). apply determined_values in Dv as [R V]; [|auto|auto]. rewrite V. assert (Ax : all_some (map Some x) = Some x) by (apply all_some_spec; auto). rewrite Ax. destruct (all_some sv) as [y|] eqn:Ay.
    + apply all_some_spec in Ay. subst sv. assert (Vd := validate_ok x y). destruct (validate_bcast x y) as [[]|e].
      * split; [auto|]. split; [exact M2|]. split; [|split; [intros _; eauto|auto]]. intros _ rho sh A. split; [apply (M2 rho sh A)|]. assert (G := M2 rho sh A). apply as_given_all in G. rewrite G, (Dx rho sh A). auto.
      * destruct Vd as [-> Vd]. split; [auto|]. eapply excludes_back; [exact M1|]. intros rho sh A [Hg Hs]. apply as_given_all in Hg. rewrite Hg, (Dx rho sh A) in Hs. auto.
    + split; [auto|]. split; [exact M2|]. split; [discriminate|]. split; [discriminate|]. intros [(y & ->) _]. assert (all_some (map Some y) = Some y) by (apply all_some_spec; auto). congruence.
  - split; [auto|]. split; [exact M2|]. split; [discriminate|]. split; [discriminate|]. intros [_ H]. apply repr_known_iff in H; [congruence|auto|auto].
Qed.
