(** * reshape: specification and proofs *)
From Coq Require Import List Arith Lia Bool ZArith.
From Verif Require Import PyBase Uniadic_Model Uniadic_Proofs Uniadic_Props Bcast_Proofs Shape_Model Shape_Proofs Shape_Proofs2 Shape_Proofs3 Shape_Props Reduce_Model Reduce_Proofs Reduce_Proofs2
  Rule_Proofs Window_Proofs Arange_Model Arange_Proofs Reshape_Model.
Import ListNotations.
Open Scope list_scope. Open Scope nat_scope. Open Scope shm_scope.

(** ** Specification *)
(** The number of elements of an array *)
Definition volume (x : list Z) : Z := fold_right Z.mul 1%Z x.
(** An entry of the requested shape: -1 is free, None is not known yet *)
Definition wanted (v : option Z) (y : Z) : Prop := match v with Some z => z = (-1)%Z \/ y = z | None => True end.
Definition one_free (sv : list (option Z)) : Prop := forall i j, nth_error sv i = Some (Some (-1)%Z) -> nth_error sv j = Some (Some (-1)%Z) -> i = j.
(** The array of shape [x] reshapes to [y] when [sv] is asked for. *)
Definition reshapes (sv : list (option Z)) (x y : list Z) : Prop := one_free sv /\ Forall2 wanted sv y /\ Forall (fun d => 0 <= d)%Z y /\ volume x = volume y.
(** Not empty, and fewer than 2^53 elements *)
Definition ordinary (x : list Z) : Prop := Forall (fun d => 0 < d)%Z x /\ (volume x < 2 ^ 53)%Z.
(** The state leaves only one shape. *)
Definition determined (s : shst) (q : nat) (x : list Z) : Prop := forall rho sh, allows s rho sh -> sh q = x.

(** ** Lists *)
Lemma Forall2_length {A B} (R : A -> B -> Prop) l1 l2 : Forall2 R l1 l2 -> length l1 = length l2.
Proof. induction 1; cbn; auto. Qed.
Lemma volume_pos x : Forall (fun d => 0 < d)%Z x -> (0 < volume x)%Z.
Proof. induction 1 as [|d x H _ IH]; [reflexivity|]. change (0 < d * volume x)%Z. nia. Qed.
Lemma volume_nonzero x : volume x <> 0%Z -> Forall (fun d => d <> 0)%Z x.
Proof. induction x as [|d x IH]; intros H; [constructor|]. change (d * volume x <> 0)%Z in H. constructor; [intros ->; lia|apply IH; nia]. Qed.
Lemma volume_app x y : volume (x ++ y) = (volume x * volume y)%Z.
Proof. induction x as [|d x IH]; [cbn [app]; change (volume []) with 1%Z; lia|]. change (d * volume (x ++ y) = d * volume x * volume y)%Z. rewrite IH. ring. Qed.
Lemma all_some_spec l r : all_some l = Some r <-> l = map Some r.
Proof.
  revert r. induction l as [|[z|] l IH]; intros r; cbn [all_some].
  - split; [intros H; injection H as <-; auto|]. destruct r; [auto|discriminate].
  - destruct (all_some l) as [t|]; split; intros H.
    + injection H as <-. cbn. f_equal. apply IH. auto.
    + destruct r as [|y r]; [discriminate|]. injection H as -> H. apply IH in H. congruence.
    + discriminate.
    + destruct r as [|y r]; [discriminate|]. injection H as -> H. apply IH in H. discriminate.
  - split; [discriminate|]. destruct r; discriminate.
Qed.
Lemma all_some_none l : all_some l = None <-> In None l.
Proof. induction l as [|[z|] l IH]; cbn; [split; [discriminate|intros []]| |split; auto]. destruct (all_some l); split; try discriminate; intros H; auto; [destruct H as [H|H]; [discriminate|apply IH in H; discriminate]|right; apply IH; auto]. Qed.
Lemma is_free_iff v : is_free v = true <-> v = Some (-1)%Z.
Proof. destruct v as [z|]; cbn; [|split; discriminate]. rewrite Z.eqb_eq. split; [intros ->; auto|intros E; injection E; auto]. Qed.
Lemma has_free sv : existsb is_free sv = true <-> In (Some (-1)%Z) sv.
Proof. rewrite existsb_exists. split; [intros (x & H & E); apply is_free_iff in E; congruence|]. intros H. exists (Some (-1)%Z). auto. Qed.
Lemma wanted_fits sv y : Forall2 wanted sv y <-> Forall2 fitsv (map (fun v => if is_free v then None else v) sv) y.
Proof.
  split.
  - induction 1 as [|v d sv y H _ IH]; cbn [map]; constructor; auto. destruct v as [z|]; cbn in *; [|exact Logic.I]. destruct (Z.eqb_spec z (-1)); cbn; [exact Logic.I|]. destruct H; [contradiction|auto].
  - revert y. induction sv as [|v sv IH]; intros y H; inversion H; subst; constructor; auto. destruct v as [z|]; cbn in *; [|exact Logic.I]. destruct (Z.eqb_spec z (-1)); cbn in *; [auto|]. right. congruence.
Qed.
Lemma wanted_all l y : ~ In (Some (-1)%Z) (map Some l) -> Forall2 wanted (map Some l) y -> y = l.
Proof.
  revert y. induction l as [|z l IH]; intros y N H; inversion H; subst; [auto|]. f_equal; [|apply IH; auto; intros X; apply N; right; auto]. cbn in H2. destruct H2 as [->|]; [exfalso; apply N; left; auto|auto].
Qed.
(** At most one free entry: the list around it *)
Lemma free_split sv : In (Some (-1)%Z) sv -> exists a b, sv = a ++ Some (-1)%Z :: b /\ ~ In (Some (-1)%Z) a.
Proof.
  induction sv as [|v sv IH]; [intros []|]. intros H. destruct (is_free v) eqn:E; [apply is_free_iff in E; subst v; exists [], sv; split; [auto|intros []]|]. destruct H as [->|H]; [discriminate|]. destruct (IH H) as (a & b & -> & N). exists (v :: a), b. split; [auto|].
  intros [->|X]; [discriminate|auto].
Qed.
Lemma one_free_rest a b : one_free (a ++ Some (-1)%Z :: b) -> ~ In (Some (-1)%Z) a /\ ~ In (Some (-1)%Z) b.
Proof.
  intros O. assert (M : nth_error (a ++ Some (-1)%Z :: b) (length a) = Some (Some (-1)%Z)) by (rewrite nth_error_app2, Nat.sub_diag by lia; auto). split; intros H; apply In_nth_error in H as (i & H).
  - assert (L : i < length a) by (apply nth_error_Some; congruence). rewrite <- (O i (length a)) in L; [lia| |auto]. rewrite nth_error_app1; auto.
  - assert (X := O (length a) (length a + S i) M). rewrite nth_error_app2 in X by lia. replace (length a + S i - length a) with (S i) in X by lia. specialize (X H). lia.
Qed.
Lemma pick_spec p l : forall vs u, pick p l vs = Some u -> exists a b va v vb, l = a ++ u :: b /\ vs = va ++ v :: vb /\ length a = length va /\ p v = true /\ forall x, In x va -> p x = false.
Proof.
  induction l as [|w l IH]; intros [|v vs] u H; try discriminate. cbn in H. destruct (p v) eqn:E.
  - injection H as ->. exists [], l, [], v, vs. do 4 (split; [auto|]). intros x [].
  - destruct (IH vs u H) as (a & b & va & v' & vb & -> & -> & L & E' & N). exists (w :: a), b, (v :: va), v', vb. do 4 (split; [cbn; auto|]). intros x [<-|Hx]; auto.
Qed.
Lemma pick_none p l : forall vs, length vs = length l -> pick p l vs = None -> forall x, In x vs -> p x = false.
Proof. induction l as [|w l IH]; intros [|v vs] L H x Hx; try discriminate; [destruct Hx|]. cbn in H. destruct (p v) eqn:E; [discriminate|]. destruct Hx as [<-|Hx]; [auto|]. apply (IH vs); auto. Qed.
Lemma count_none_spec vs : count_none vs = 1 <-> exists a b, vs = map Some a ++ None :: map Some b.
Proof.
  assert (Z0 : forall l, count_none l = 0 <-> exists r, l = map Some r).
  { induction l as [|[z|] l IH]; cbn [count_none].
    - split; [exists []; auto|auto].
    - rewrite IH. split; [intros (r & ->); exists (z :: r); auto|]. intros ([|y r] & E); [discriminate|]. injection E as -> E. exists r. auto.
    - split; [discriminate|]. intros ([|y r] & E); discriminate. }
  induction vs as [|[z|] vs IH]; cbn [count_none].
  - split; [discriminate|]. intros ([|y a] & b & E); discriminate.
  - rewrite IH. split; [intros (a & b & ->); exists (z :: a), b; auto|]. intros ([|y a] & b & E); [discriminate|]. injection E as -> E. eauto.
  - split; [intros E; injection E as E; apply Z0 in E as (r & ->); exists [], r; auto|]. intros ([|y a] & b & E); [|discriminate]. injection E as E. f_equal. apply Z0. eauto.
Qed.
Lemma count_none_0 r : count_none (map Some r) = 0.
Proof. induction r; cbn; auto. Qed.
Lemma truthy_app a b : truthy (a ++ b) = truthy a ++ truthy b.
Proof. induction a as [|[z|] a IH]; cbn; auto. destruct (z =? 0)%Z; [auto|]. cbn. f_equal. auto. Qed.
Lemma truthy_some l : Forall (fun d => 0 < d)%Z l -> truthy (map Some l) = l.
Proof. induction 1 as [|d l H _ IH]; cbn; auto. destruct (Z.eqb_spec d 0); [lia|]. f_equal. auto. Qed.

(** ** Values of shapes *)
Lemma values_sat s l r : sinv s -> (forall u, In u l -> live (us s) u) -> values s l = map Some r -> forall rho, sat (us s) rho -> map rho l = r.
Proof.
  intros I. revert r. induction l as [|u l IH]; intros [|n r] HL E rho Hs; try discriminate; [auto|]. injection E as E1 E2. cbn. f_equal; [eapply value_sat; [apply I|apply HL; left; auto|exact E1|auto]|]. apply IH; auto. intros x Hx. apply HL. right. auto.
Qed.
Lemma values_complete s l r : sinv s -> (forall u, In u l -> live (us s) u) -> (forall rho, sat (us s) rho -> map rho l = r) -> values s l = map Some r.
Proof.
  intros I. revert r. induction l as [|u l IH]; intros r HL H.
  - destruct (sat_exists (us s) (s_inv _ I)) as (rho & Hs). rewrite <- (H rho Hs). auto.
  - destruct (sat_exists (us s) (s_inv _ I)) as (rho0 & Hs0). assert (E0 := H rho0 Hs0). destruct r as [|n r]; [discriminate|]. cbn. f_equal.
    + apply value_complete; [apply I|apply HL; left; auto|]. intros rho Hs. specialize (H rho Hs). injection H; auto.
    + apply IH; [intros x Hx; apply HL; right; auto|]. intros rho Hs. specialize (H rho Hs). injection H; auto.
Qed.
Lemma pre_live s q u : sinv s -> q < nrep s -> In u (pre (rp s q)) -> live (us s) u.
Proof. intros I Hq H. destruct (s_repr _ I q Hq) as (W & _). apply W. apply in_or_app. auto. Qed.
Lemma plain_sh s q rho sh : sinv s -> q < nrep s -> root (rp s q) = None -> allows s rho sh -> sh q = map rho (pre (rp s q)).
Proof. intros I Hq R A. apply allows_den in A as (Hs & tau & D). rewrite <- D by auto. apply den_plain_suffix; auto. Qed.
Lemma plain_sat s q (C : list Z -> Prop) : sinv s -> q < nrep s -> root (rp s q) = None -> (forall rho sh, allows s rho sh -> C (sh q)) -> forall rho, sat (us s) rho -> C (map rho (pre (rp s q))).
Proof. intros I Hq R H rho Hs. assert (A := allows_self s rho (fun _ => []) Hs). rewrite <- (plain_sh s q rho _ I Hq R A). apply (H rho). auto. Qed.
Lemma determined_plain s q x : sinv s -> q < nrep s -> determined s q x -> root (rp s q) = None.
Proof. intros I Hq D. apply (rank_plain (length x) s q); auto. intros rho sh A. rewrite (D rho sh A). auto. Qed.
Lemma determined_values s q x : sinv s -> q < nrep s -> determined s q x <-> root (rp s q) = None /\ values s (pre (rp s q)) = map Some x.
Proof.
  intros I Hq. split.
  - intros D. assert (R := determined_plain s q x I Hq D). split; [auto|]. apply values_complete; [auto|intros; eapply pre_live; eauto|]. apply (plain_sat s q (fun y => y = x)); auto.
  - intros [R V] rho sh A. rewrite (plain_sh s q rho sh I Hq R A). eapply values_sat; [exact I|intros; eapply pre_live; eauto|exact V|apply A].
Qed.
Lemma repr_known_iff s q : sinv s -> q < nrep s -> repr_known s q = true <-> exists x, determined s q x.
Proof.
  intros I Hq. unfold repr_known. split.
  - destruct (root (rp s q)) eqn:R; [discriminate|]. destruct (all_some _) as [x|] eqn:E; [|discriminate]. intros _. exists x. apply determined_values; auto. split; [auto|]. apply all_some_spec. auto.
  - intros (x & D). apply determined_values in D as [-> D]; auto. apply all_some_spec in D. rewrite D. auto.
Qed.
Lemma known_input_iff s q x : sinv s -> q < nrep s -> known_input s q = Some x <-> determined s q x /\ x <> [].
Proof.
  intros I Hq. rewrite determined_values by auto. unfold known_input. rewrite <- all_some_spec. destruct (root (rp s q)) eqn:R; [split; [discriminate|intros [[X _] _]; discriminate]|]. destruct (pre (rp s q)) as [|u l] eqn:E.
  - split; [discriminate|]. intros [[_ X] N]. cbn in X. injection X as <-. congruence.
  - split; [|tauto]. intros X. split; [auto|]. intros ->. apply all_some_spec in X. discriminate.
Qed.

(** ** The steps *)
Lemma makes_new vals s : inv (us s) -> makes (new_uniadics vals) s (fun _ ys => Forall2 fitsv vals ys).
Proof.
  revert s. induction vals as [|v vals IH]; intros s I.
  - exists (us s), []. split; [destruct s; auto|]. split; [apply grows_refl; auto|]. split; [intros x []|]. split; [intros rho Hs; split; [auto|constructor]|]. intros rho ys Hs H. inversion H; subst. exists rho. split; [intros x Hx; auto|auto].
  - assert (M := makes_app (do x <- new_dim v; hret [x]) (new_uniadics vals) s _ (fun _ ys => Forall2 fitsv vals ys) (makes_dim v s I)). lapply M; [clear M; intros M|intros u' G; apply IH; apply G]. specialize (M ltac:(auto)).
    assert (E : forall t, (do a <- (do x <- new_dim v; hret [x]); do b <- new_uniadics vals; hret (a ++ b)) t = new_uniadics (v :: vals) t).
    { intros t. cbn [new_uniadics]. unfold new_dim, hbind, hret. destruct (lift _ t) as [t1 [u|e]]; [|auto]. destruct (new_uniadics vals t1) as [t2 [l|e]]; auto. }
    destruct M as (u' & L & M1 & M2 & M3 & M4 & M5). rewrite E in M1. exists u', L. do 3 (split; [auto|]). split.
    + intros rho Hs. destruct (M4 rho Hs) as (X & y1 & y2 & Ey & (y & -> & F) & G). split; [auto|]. rewrite Ey. constructor; auto.
    + intros rho ys Hs F. inversion F as [|? y ? y2 F1 F2]; subst. apply M5; [auto|]. exists [y], y2. split; [auto|]. split; [exists y; auto|auto].
Qed.
Lemma new_rp vals : forall s, rp (fst (new_uniadics vals s)) = rp s.
Proof.
  induction vals as [|v vals IH]; intros s; [auto|]. cbn [new_uniadics]. unfold hbind, lift. destruct (new_uniadic _ (us s)) as [u [x|e]]; [|auto]. specialize (IH (with_us s u)). destruct (new_uniadics vals (with_us s u)) as [s2 [l|e]]; auto.
Qed.
Lemma match_output_ok s qo sv (P : srel) : sinv s -> qo < nrep s -> (forall rho sh, allows s rho sh -> P sh -> Forall2 wanted sv (sh qo)) ->
  match match_output qo sv s with
  | (s', Ok _) => sound_for P s s' /\ root (rp s' qo) = None
  | (_, Err e) => e = ValueError /\ excludes P s
  end.
Proof.
  intros I Hq HP. unfold match_output. destruct (root (rp s qo)) as [v|] eqn:R; [|split; [apply sound_for_refl; auto|auto]].
  destruct (Nat.ltb_spec (length sv) (shlen (rp s qo))) as [L|L].
  - split; [auto|]. intros rho sh A Hp. assert (X := Forall2_length _ _ _ (HP rho sh A Hp)). apply allows_den in A as (Hs & tau & D). rewrite <- D, den_length in X by auto. lia.
  - set (vals := map (fun v => if is_free v then None else v) sv). assert (M := match_list P _ (new_uniadics vals) s qo I Hq (makes_new vals s (s_inv _ I))). lapply M; [clear M; intros M|].
    2: { intros rho tau sh Hs D Hp. apply wanted_fits. apply (HP rho); [apply allows_den; eauto|auto]. }
    revert M. unfold hbind. assert (Er := new_rp vals s). destruct (new_uniadics vals s) as [s1 [l|e]]; cbn [fst] in Er; [|intros [-> M]; auto].
    assert (B := by_match qo l s1). rewrite Er, R in B. specialize (B ltac:(discriminate)). unfold hbind in B. rewrite <- B, Er. clear B.
    destruct (update_uniadics (pre (rp s qo)) l s1) as [s2 [[]|e]]; [|intros [-> M]; auto]. destruct (update_uniadics (reversed (rp s2 qo)) (rev l) s2) as [s3 [[]|e]]; [|intros [-> M]; auto].
    destruct (remove_variadic qo l s3) as [s4 [[]|e]]; [|intros [-> M]; auto]. intros [M1 M2]. split; [auto|]. assert (N : nrep s4 = nrep s) by apply M1.
    apply (rank_plain (length vals)); [apply M1|lia|]. intros rho sh A. symmetry. eapply Forall2_length. apply (M2 rho sh A).
Qed.
Lemma set_entries_ok l : forall sv s (P : srel), sinv s -> (forall u, In u l -> live (us s) u) -> length l = length sv -> (forall rho sh, allows s rho sh -> P sh -> Forall2 wanted sv (map rho l)) ->
  match set_entries l sv s with
  | (s', Ok _) => sound_for P s s' /\ rp s' = rp s /\ forall rho sh, allows s' rho sh -> Forall2 wanted sv (map rho l)
  | (_, Err e) => e = ValueError /\ excludes P s
  end.
Proof.
  induction l as [|u l IH]; intros [|v sv] s P I HL Len HP; try discriminate; cbn [set_entries].
  - split; [apply sound_for_refl; auto|]. split; [auto|]. constructor.
  - assert (Step : match (if is_free v then hret tt else do _ <- lift (update_possible_values u (option_map (fun n => [n]) v)); hret tt) s with
      | (s', Ok _) => sound_for P s s' /\ rp s' = rp s /\ (forall x, live (us s) x -> live (us s') x) /\ (forall rho sh, allows s' rho sh -> wanted v (rho u))
      | (_, Err e) => e = ValueError /\ excludes P s end).
    { destruct (is_free v) eqn:E.
      - apply is_free_iff in E. subst v. unfold hret. split; [apply sound_for_refl; auto|]. do 2 (split; [auto|]). intros; cbn; auto.
      - assert (Sv : is_set (option_map (fun n : Z => [n]) v)). { destruct v; cbn; auto. constructor; [intros []|constructor]. }
        assert (Q : forall y, in_pv y (option_map (fun n : Z => [n]) v) <-> wanted v y). { intros y. destruct v as [z|]; cbn; [|tauto]. cbn in E. apply Z.eqb_neq in E. intuition congruence. }
        assert (X := on_dims P (update_possible_values u (option_map (fun n => [n]) v)) _ s I (update_imposes (us s) u _ (s_inv _ I) (HL u (or_introl eq_refl)) Sv)). lapply X; [clear X; intros X|].
        2: { intros rho tau sh Hs D Hp. apply Q. assert (W := HP rho sh ltac:(apply allows_den; eauto) Hp). inversion W; auto. }
        unfold hbind. destruct (lift _ s) as [s' [x|e]]; [|auto]. unfold hret. destruct X as (X1 & X2 & X3 & X4). do 2 (split; [auto|]). split; [intros x0; apply X3|]. intros rho sh A. apply Q. apply (X4 rho sh A). }
    unfold hbind at 1. destruct ((if is_free v then hret tt else _) s) as [s1 [[]|e]]; [|auto]. destruct Step as (S1 & S2 & S3 & S4).
    assert (H := IH sv s1 P (proj1 S1) ltac:(intros x Hx; apply S3; apply HL; right; auto) ltac:(cbn in Len; lia)). lapply H; [clear H; intros H|].
    2: { intros rho sh A Hp. assert (W := HP rho sh ltac:(apply S1; auto) Hp). inversion W; auto. }
    destruct (set_entries l sv s1) as [s2 [[]|e]].
    + destruct H as (H1 & H2 & H3). split; [eapply sound_for_trans; eauto|]. split; [congruence|]. intros rho sh A. cbn. constructor; [apply (S4 rho sh); apply H1; auto|apply (H3 rho sh A)].
    + destruct H as [-> H]. split; [auto|]. eapply excludes_back; eauto.
Qed.
Lemma set_output_ok s qo sv (P : srel) : sinv s -> qo < nrep s -> (forall rho sh, allows s rho sh -> P sh -> Forall2 wanted sv (sh qo)) ->
  match set_output qo sv s with
  | (s', Ok _) => sound_for P s s' /\ root (rp s' qo) = None /\ forall rho sh, allows s' rho sh -> Forall2 wanted sv (sh qo)
  | (_, Err e) => e = ValueError /\ excludes P s
  end.
Proof.
  intros I Hq HP. unfold set_output. assert (M := match_output_ok s qo sv P I Hq HP). unfold hbind at 1. destruct (match_output qo sv s) as [s1 [[]|e]]; [|auto]. destruct M as [M R]. assert (N1 : nrep s1 = nrep s) by apply M. assert (I1 : sinv s1) by apply M.
  assert (Sf : suf (rp s1 qo) = []). { destruct (s_repr _ I1 qo ltac:(lia)) as (_ & W & _). auto. } assert (Ls : shlen (rp s1 qo) = length (pre (rp s1 qo))) by (unfold shlen; rewrite Sf; cbn; lia). unfold hbind. rewrite Ls.
  assert (HP1 : forall rho sh, allows s1 rho sh -> P sh -> Forall2 wanted sv (map rho (pre (rp s1 qo)))). { intros rho sh A Hp. rewrite <- (plain_sh s1 qo rho sh); [|auto|lia|auto|auto]. apply (HP rho); [apply M; auto|auto]. }
  destruct (Nat.eqb_spec (length (pre (rp s1 qo))) (length sv)) as [L|L].
  - assert (E := set_entries_ok (pre (rp s1 qo)) sv s1 P I1 ltac:(intros u Hu; eapply pre_live; [exact I1| |exact Hu]; lia) L HP1). destruct (set_entries (pre (rp s1 qo)) sv s1) as [s2 [[]|e]].
    + destruct E as (E1 & E2 & E3). split; [eapply sound_for_trans; eauto|]. rewrite E2. split; [auto|]. intros rho sh A. rewrite (plain_sh s2 qo rho sh); [rewrite E2; apply (E3 rho sh A)|apply E1| |rewrite E2; auto|auto]. assert (nrep s2 = nrep s1) by apply E1. lia.
    + destruct E as [-> E]. split; [auto|]. eapply excludes_back; eauto.
  - split; [auto|]. eapply excludes_back; [exact M|]. intros rho sh A Hp. apply L. assert (X := Forall2_length _ _ _ (HP1 rho sh A Hp)). rewrite map_length in X. auto.
Qed.
(** Setting one dimension *)
Lemma set_one s u n (P : srel) : sinv s -> live (us s) u -> (forall rho sh, allows s rho sh -> P sh -> rho u = n) ->
  match (do _ <- lift (update_possible_values u (Some [n])); hret tt) s with
  | (s', Ok _) => sound_for P s s' /\ rp s' = rp s /\ forall rho sh, allows s' rho sh -> rho u = n
  | (_, Err e) => e = ValueError /\ excludes P s
  end.
Proof.
  intros I L HP. assert (X := on_dims P (update_possible_values u (Some [n])) _ s I (update_imposes (us s) u (Some [n]) (s_inv _ I) L ltac:(cbn; repeat constructor; auto))). lapply X; [clear X; intros X|].
  2: { intros rho tau sh Hs D Hp. left. symmetry. apply (HP rho sh); [apply allows_den; eauto|auto]. }
  unfold hbind. destruct (lift _ s) as [s' [x|e]]; [|auto]. unfold hret. destruct X as (X1 & X2 & X3 & X4). do 2 (split; [auto|]). intros rho sh A. destruct (X4 rho sh A) as [Y|[]]. auto.
Qed.
Lemma free_value l L (rho : nat -> Z) u : one_free (map Some l) -> pick is_free L (map Some l) = Some u -> Forall2 wanted (map Some l) (map rho L) -> volume (map rho L) = (- volume l * rho u)%Z.
Proof.
  intros O E W. apply pick_spec in E as (A & B & va & v & vb & -> & Es & Len & F & _). apply is_free_iff in F. subst v. rewrite Es in O. apply one_free_rest in O as [Na Nb].
  apply map_eq_app in Es as (la & lb' & -> & <- & Es). apply map_eq_cons in Es as (z & lb & -> & Ez & <-). injection Ez as ->.
  rewrite !map_app in W. cbn [map] in W. apply Forall2_app_inv_l in W as (y1 & y2 & W1 & W2 & Ey). inversion W2 as [|? d ? y3 _ W3]; subst. apply wanted_all in W1, W3; auto. subst y1 y3.
  rewrite map_length in Len.  assert (Sp : map rho A = la /\ rho u = d /\ map rho B = lb).
  { clear - Ey Len. revert la Len Ey. induction A as [|x A IH]; intros [|z la] Len Ey; try discriminate; cbn in *; [injection Ey; auto|]. injection Ey as -> Ey. injection Len as Len. destruct (IH la Len Ey) as (-> & X). auto. }
  destruct Sp as (E1 & E2 & E3). rewrite map_app. cbn [map]. rewrite E1, E3, !volume_app. change (volume la * (rho u * volume lb) = - (volume la * (-1 * volume lb)) * rho u)%Z. ring.
Qed.
Definition one_of (e : exn) (l : list exn) : Prop := In e l.
Lemma divides_small a b : (0 < b)%Z -> (b < 2 ^ 53)%Z -> (a | b)%Z -> (Z.abs b < 2 ^ 53)%Z /\ (Z.abs a < 2 ^ 1000)%Z /\ a <> 0%Z.
Proof.
  intros P Hb D. assert (N : a <> 0%Z). { intros ->. apply Z.divide_0_l in D. lia. } split; [lia|]. split; [|auto]. apply Z.le_lt_trans with b; [|apply Z.lt_trans with (2 ^ 53)%Z; [auto|apply Z.pow_lt_mono_r; lia]]. clear Hb. apply Z.divide_abs_l in D. apply Z.divide_pos_le in D; lia.
Qed.
Lemma set_free_ok s qo iv l (P : srel) : sinv s -> qo < nrep s -> root (rp s qo) = None -> In (Some (-1)%Z) (map Some l) -> (forall rho sh, allows s rho sh -> Forall2 wanted (map Some l) (sh qo)) ->
  (forall rho sh, allows s rho sh -> P sh -> one_free (map Some l) /\ volume (sh qo) = volume iv /\ (0 < volume iv < 2 ^ 53)%Z) ->
  match set_free qo (Some iv) (map Some l) s with
  | (s', Ok _) => sound_for P s s' /\ rp s' = rp s /\ (one_free (map Some l) -> (volume l | volume iv)%Z -> (0 < volume iv < 2 ^ 53)%Z -> forall rho sh, allows s' rho sh -> volume (sh qo) = volume iv)
  | (_, Err e) => one_of e [ValueError; ZeroDivisionError; OverflowError] /\ excludes P s
  end.
Proof.
  intros I Hq R F W HP. assert (Rt : forall rho sh, allows s rho sh -> sh qo = map rho (pre (rp s qo))) by (intros; apply plain_sh; auto). unfold set_free. assert (El : all_some (map Some l) = Some l) by (apply all_some_spec; auto).
  assert (Len : length (pre (rp s qo)) = length l). { destruct (sat_exists (us s) (s_inv _ I)) as (rho & Hs). assert (A := allows_self s rho (fun _ => []) Hs). assert (X := Forall2_length _ _ _ (W rho _ A)). rewrite (Rt rho _ A), !map_length in X. auto. }
  destruct (pick is_free (pre (rp s qo)) (map Some l)) as [u|] eqn:E.
  2: { exfalso. apply (pick_none _ _ _) with (x := Some (-1)%Z) in E; [discriminate|rewrite map_length; auto|auto]. }
  assert (Vu : one_free (map Some l) -> forall rho sh, allows s rho sh -> volume (sh qo) = (- volume l * rho u)%Z). { intros O rho sh A. assert (X := W rho sh A). rewrite (Rt rho sh A) in *. apply free_value; auto. }
  assert (Lu : live (us s) u). { apply pick_spec in E as (a & b & _ & _ & _ & Eq & _). apply (pre_live s qo); auto. rewrite Eq. apply in_or_app. right. left. auto. }
  unfold shp_prod. rewrite El. change (prodz iv) with (volume iv). change (prodz l) with (volume l).
  assert (Ex : (- volume l | volume iv)%Z -> (0 < volume iv < 2 ^ 53)%Z -> exists v, true_div (volume iv) (- volume l) = Ok v /\ to_int v = (volume iv / - volume l)%Z /\ volume l <> 0%Z).
  { intros D [B1 B2]. destruct (divides_small _ _ B1 B2 D) as (C1 & C2 & C3). destruct (true_div_exact (volume iv) (- volume l) C3 C1 C2) as (v & Ev & _ & T). clear C1 C2 B2. exists v. split; [auto|]. split; [auto|lia]. }
  assert (HP' : forall rho sh, allows s rho sh -> P sh -> exists v, true_div (volume iv) (- volume l) = Ok v /\ to_int v = rho u).
  { intros rho sh A Hp. destruct (HP rho sh A Hp) as (O & Ev & B). assert (X := Vu O rho sh A). rewrite Ev in X. destruct Ex as (v & E1 & E2 & E3); [exists (rho u); rewrite X; ring|auto|]. exists v. split; [auto|]. rewrite E2, X. clear B. rewrite Z.mul_comm, Z.div_mul by lia. auto. }
  destruct (true_div (volume iv) (- volume l)) as [v|e] eqn:Ev.
  - assert (S := set_one s u (to_int v) P I Lu). lapply S; [clear S; intros S|]. 2: { intros rho sh A Hp. destruct (HP' rho sh A Hp) as (v' & E' & T). injection E' as <-. auto. }
    destruct ((do _ <- lift (update_possible_values u (Some [to_int v])); hret tt) s) as [s' [[]|e]]; [|destruct S as [-> S]; split; [left; auto|auto]]. destruct S as (S1 & S2 & S3). do 2 (split; [auto|]).
    intros O D B rho sh A. rewrite (Vu O rho sh) by (apply S1; auto). rewrite (S3 rho sh A). destruct Ex as (v' & E' & T & N); [apply Z.divide_opp_l; auto|auto|]. injection E' as <-. rewrite T. clear B. apply Z.divide_opp_l in D. destruct D as (c & ->). rewrite Z.div_mul by lia. ring.
  - split; [|intros rho sh A Hp; destruct (HP' rho sh A Hp) as (v & E' & _); discriminate]. unfold true_div in Ev. destruct (_ =? 0)%Z; [injection Ev as <-; right; left; auto|]. destruct (_ =? 0)%Z; [discriminate|]. destruct (_ && _); [|discriminate]. injection Ev as <-. do 2 right. left. auto.
Qed.
Lemma pick_values s L a b u : pick is_none L (values s L) = Some u -> values s L = map Some a ++ None :: map Some b -> exists A B, L = A ++ u :: B /\ values s A = map Some a /\ values s B = map Some b.
Proof.
  intros E V. apply pick_spec in E as (A & B & va & v & vb & EL & EV & Len & F & N). exists A, B. split; [auto|]. destruct v; [discriminate|]. rewrite V in EV.
  assert (X : forall p q : list (option Z), (forall x, In x p -> is_none x = false) -> (forall x, In x q -> is_none x = false) -> forall p' q', p ++ None :: p' = q ++ None :: q' -> p = q /\ p' = q').
  { induction p as [|x p IH]; intros [|y q] Hp Hq p' q' Eq; cbn in Eq; [injection Eq; auto| | |].
    - injection Eq as <- _. specialize (Hq None (or_introl eq_refl)). discriminate.
    - injection Eq as -> _. specialize (Hp None (or_introl eq_refl)). discriminate.
    - injection Eq as -> Eq. destruct (IH q ltac:(intros; apply Hp; right; auto) ltac:(intros; apply Hq; right; auto) p' q' Eq) as [-> ->]. auto. }
  destruct (X (map Some a) va ltac:(intros x Hx; apply in_map_iff in Hx as (y & <- & _); auto) N _ _ EV) as [<- <-]. rewrite EL in V. unfold values in *. rewrite map_app in V. cbn [map] in V. clear - V Len.
  revert a Len V. induction A as [|x A IH]; intros [|z a] Len V; try discriminate; cbn in *; [injection V; auto|]. injection V as V1 V2. injection Len as Len. destruct (IH a Len V2) as [E1 E2]. split; [congruence|auto].
Qed.
Lemma set_missing_ok s qi l (P : srel) : sinv s -> qi < nrep s ->
  (forall rho sh, allows s rho sh -> P sh -> Forall (fun d => 0 < d)%Z (sh qi) /\ volume (sh qi) = volume l) ->
  match set_missing qi l true s with
  | (s', Ok _) => sound_for P s s' /\ rp s' = rp s /\
      (forall a b, Forall (fun d => 0 < d)%Z (a ++ b) -> (forall rho sh, allows s rho sh -> exists d, sh qi = a ++ d :: b) -> (forall x, ~ determined s qi x) -> determined s' qi (a ++ (volume l / volume (a ++ b))%Z :: b))
  | (_, Err e) => e = ValueError /\ excludes P s
  end.
Proof.
  intros I Hq HP. unfold set_missing. cbn [negb andb]. destruct (root (rp s qi)) as [r|] eqn:R.
  { split; [apply sound_for_refl; auto|]. split; [auto|]. intros a b _ H _. exfalso. assert (X : root (rp s qi) = None); [|congruence]. apply (rank_plain (length (a ++ 0%Z :: b)) s qi); auto. intros rho sh A. destruct (H rho sh A) as (d & ->). rewrite !app_length. auto. }
  assert (Rt : forall rho sh, allows s rho sh -> sh qi = map rho (pre (rp s qi))) by (intros; apply plain_sh; auto). assert (Lv : forall u, In u (pre (rp s qi)) -> live (us s) u) by (intros; eapply pre_live; eauto).
  assert (Sat : forall (C : list Z -> Prop), (forall rho sh, allows s rho sh -> C (sh qi)) -> forall rho, sat (us s) rho -> C (map rho (pre (rp s qi)))) by (intros; apply plain_sat; auto).
  destruct (Nat.eqb_spec (count_none (values s (pre (rp s qi)))) 1) as [C|C].
  - apply count_none_spec in C as (a & b & V). destruct (pick is_none (pre (rp s qi)) (values s (pre (rp s qi)))) as [u|] eqn:E.
    2: { exfalso. apply (pick_none _ _ _) with (x := None) in E; [discriminate|unfold values; rewrite map_length; auto|rewrite V; apply in_or_app; right; left; auto]. }
    destruct (pick_values s _ a b u E V) as (A & B & EL & Va & Vb). rewrite EL in Lv. assert (Ma := values_sat s A a I ltac:(intros x Hx; apply Lv; apply in_or_app; auto) Va). assert (Mb := values_sat s B b I ltac:(intros x Hx; apply Lv; apply in_or_app; right; right; auto) Vb).
    assert (Sh : forall rho sh, allows s rho sh -> sh qi = a ++ rho u :: b). { intros rho sh X. rewrite (Rt rho sh X), EL, map_app. cbn [map]. rewrite (Ma rho), (Mb rho) by apply X. auto. }
    rewrite V, truthy_app. cbn [truthy]. rewrite <- truthy_app, <- map_app. change prodz with volume.
    assert (S := set_one s u (volume l / volume (truthy (map Some (a ++ b))))%Z P I ltac:(apply Lv; apply in_or_app; right; left; auto)). lapply S; [clear S; intros S|].
    2: { intros rho sh X Hp. destruct (HP rho sh X Hp) as [Pos Vl]. rewrite (Sh rho sh X) in *. assert (Pab : Forall (fun d => 0 < d)%Z (a ++ b)). { apply Forall_app in Pos as [P1 P2]. inversion P2; subst. apply Forall_app. auto. } rewrite truthy_some by auto. assert (Vp := volume_pos _ Pab).
      rewrite <- Vl, !volume_app. rewrite volume_app in Vp. change (rho u = (volume a * (rho u * volume b)) / (volume a * volume b))%Z. replace (volume a * (rho u * volume b))%Z with (rho u * (volume a * volume b))%Z by ring. rewrite Z.div_mul by lia. auto. }
    destruct ((do _ <- lift _; hret tt) s) as [s' [[]|e]]; [|auto]. destruct S as (S1 & S2 & S3). do 2 (split; [auto|]). intros a' b' Pos H N rho sh X.
    assert (Y := Sh rho sh ltac:(apply S1; auto)). rewrite Y.
    assert (Same : a' = a /\ b' = b).
    { assert (La : length a' = length a).
      { destruct (Nat.eq_dec (length a') (length a)) as [|D]; [auto|]. exfalso. destruct (sat_exists (us s) (s_inv _ I)) as (r0 & Hs0). apply (N (map r0 (pre (rp s qi)))). intros r sh' A1. rewrite (Sh r sh' A1). assert (A0 := allows_self s r0 (fun _ => []) Hs0). rewrite <- (Rt r0 _ A0), (Sh r0 _ A0). f_equal. f_equal.
        destruct (H r sh' A1) as (d & E1). destruct (H r0 _ A0) as (d0 & E0). rewrite (Sh r sh' A1) in E1. rewrite (Sh r0 _ A0) in E0. clear - E1 E0 D.
        assert (T1 : nth_error (a ++ r u :: b) (length a) = Some (r u)) by (rewrite nth_error_app2, Nat.sub_diag; auto). assert (T0 : nth_error (a ++ r0 u :: b) (length a) = Some (r0 u)) by (rewrite nth_error_app2, Nat.sub_diag; auto). rewrite E1 in T1. rewrite E0 in T0.
        destruct (Nat.lt_ge_cases (length a) (length a')) as [L|L]; [rewrite nth_error_app1 in T1, T0 by auto; congruence|]. rewrite nth_error_app2 in T1, T0 by auto. destruct (length a - length a') eqn:Z0; [lia|]. cbn in T1, T0. congruence. }
      destruct (H rho sh ltac:(apply S1; auto)) as (d & E1). rewrite Y in E1. clear - La E1. revert a La E1. induction a' as [|x a' IH]; intros [|z a] La E1; try discriminate; cbn in *; [injection E1; auto|]. injection E1 as -> E1. injection La as La. destruct (IH a La E1) as [-> ->]. auto. }
    destruct Same as [-> ->]. rewrite (S3 rho sh X), truthy_some by auto. auto.
  - split; [apply sound_for_refl; auto|]. split; [auto|]. intros a b Pos H N. exfalso.
    assert (V : exists v, values s (pre (rp s qi)) = map Some a ++ v :: map Some b).
    { assert (X := Sat (fun y => exists d, y = a ++ d :: b) H). destruct (sat_exists (us s) (s_inv _ I)) as (r0 & Hs0). destruct (X r0 Hs0) as (d0 & E0). apply map_eq_app in E0 as (A & B' & EL & Ea & Eb). apply map_eq_cons in Eb as (u & B & -> & _ & Eb). rewrite EL in *. unfold values. rewrite map_app. cbn [map]. exists (value (us s) u).
      assert (Sp : forall rho, sat (us s) rho -> map rho A = a /\ map rho B = b). { intros rho Hs. destruct (X rho Hs) as (d & Ed). rewrite map_app in Ed. cbn [map] in Ed. assert (La : length A = length a) by (rewrite <- Ea, map_length; auto). clear - La Ed. revert a La Ed. induction A as [|x A IH]; intros [|z a] La Ed; try discriminate; cbn in *; [injection Ed; auto|]. injection Ed as -> Ed. injection La as La. destruct (IH a La Ed) as [-> ->]. auto. }
      f_equal; [apply values_complete; [auto|intros; apply Lv; apply in_or_app; auto|intros; apply Sp; auto]|]. f_equal. apply values_complete; [auto|intros; apply Lv; apply in_or_app; right; right; auto|intros; apply Sp; auto]. }
    destruct V as ([z|] & V).
    + apply (N (a ++ z :: b)). apply determined_values; auto. split; [auto|]. rewrite V, map_app. auto.
    + apply C. apply count_none_spec. eauto.
Qed.
Lemma consistent_ok iv sv : match consistent (Some iv) sv with
  | Ok _ => forall l, sv = map Some l -> (Z.abs (volume l) < 2 ^ 1000)%Z -> (0 < volume iv < 2 ^ 53)%Z -> (volume l | volume iv)%Z /\ (~ In (Some (-1)%Z) sv -> volume l = volume iv)
  | Err e => one_of e [ValueError; ZeroDivisionError; OverflowError] /\ forall y, one_free sv -> Forall2 wanted sv y -> volume y = volume iv -> ~ (0 < volume iv < 2 ^ 53)%Z
  end.
Proof.
  unfold consistent. destruct (all_some sv) as [l|] eqn:El.
  2: { intros l ->. rewrite (proj2 (all_some_spec _ _) eq_refl) in El. discriminate. }
  apply all_some_spec in El. subst sv. change prodz with volume.
  assert (D : forall y, one_free (map Some l) -> Forall2 wanted (map Some l) y -> volume y = volume iv -> (volume l | volume iv)%Z /\ (~ In (Some (-1)%Z) (map Some l) -> volume l = volume iv)).
  { intros y O W E. assert (Nf : ~ In (Some (-1)%Z) (map Some l) -> volume l = volume iv) by (intros N; rewrite <- E, (wanted_all l y); auto). split; [|auto]. destruct (existsb is_free (map Some l)) eqn:X.
    - apply has_free in X. destruct (pick is_free (seq 0 (length y)) (map Some l)) as [u|] eqn:Pk.
      + assert (Y : map (fun i => nth i y 0%Z) (seq 0 (length y)) = y). { clear. apply nth_ext with (d := 0%Z) (d' := 0%Z); [rewrite map_length, seq_length; auto|]. intros n H. rewrite map_length, seq_length in H. rewrite (nth_indep _ _ (nth 0 y 0%Z)) by (rewrite map_length, seq_length; auto). rewrite (map_nth (fun i => nth i y 0%Z)), seq_nth by auto. auto. }
        assert (V := free_value l (seq 0 (length y)) (fun i => nth i y 0%Z) u O Pk). rewrite Y in V. rewrite <- E, (V W). exists (- nth u y 0)%Z. ring.
      + apply (pick_none _ _ _) with (x := Some (-1)%Z) in Pk; [discriminate| |auto]. rewrite seq_length. apply (Forall2_length _ _ _ W).
    - rewrite <- Nf; [apply Z.divide_refl|]. intros H. apply has_free in H. congruence. }
  destruct (true_div (volume iv) (volume l)) as [v|e] eqn:Ev.
  - assert (T : (Z.abs (volume l) < 2 ^ 1000)%Z -> (0 < volume iv < 2 ^ 53)%Z -> (integral v = true <-> (volume l | volume iv)%Z)).
    { intros B1 [B2 B3]. assert (N : volume l <> 0%Z) by (intros Z0; unfold true_div in Ev; rewrite Z0 in Ev; discriminate). destruct (true_div_exact (volume iv) (volume l) N ltac:(rewrite Z.abs_eq; lia) B1) as (v' & E' & T & _). rewrite Ev in E'. injection E' as <-. auto. }
    destruct (existsb is_free (map Some l)) eqn:X.
    + destruct (integral v) eqn:Iv; cbn [negb].
      * intros l' E B1 B2. apply (f_equal all_some) in E. rewrite (proj2 (all_some_spec _ l) eq_refl), (proj2 (all_some_spec _ l') eq_refl) in E. injection E as <-. split; [apply T; auto|]. intros N. exfalso. apply N. apply has_free. auto.
      * split; [left; auto|]. intros y O W E B. destruct (D y O W E) as [Dv _]. destruct (divides_small _ _ (proj1 B) (proj2 B) Dv) as (_ & C & _). apply (T C B) in Dv. discriminate.
    + destruct (Z.eqb_spec (volume l) (volume iv)) as [E|E]; cbn [negb].
      * intros l' E' B1 B2. apply (f_equal all_some) in E'. rewrite (proj2 (all_some_spec _ l) eq_refl), (proj2 (all_some_spec _ l') eq_refl) in E'. injection E' as <-. rewrite E. split; [apply Z.divide_refl|auto].
      * split; [left; auto|]. intros y O W Ey _. destruct (D y O W Ey) as [_ N]. apply E. apply N. intros H. apply has_free in H. congruence.
  - split.
    + unfold true_div in Ev. destruct (_ =? 0)%Z; [injection Ev as <-; right; left; auto|]. destruct (_ =? 0)%Z; [discriminate|]. destruct (_ && _); [|discriminate]. injection Ev as <-. do 2 right. left. auto.
    + intros y O W E B. destruct (D y O W E) as [Dv _]. destruct (divides_small _ _ (proj1 B) (proj2 B) Dv) as (C1 & C2 & C3). destruct (true_div_exact (volume iv) (volume l) C3 C1 C2) as (v & E' & _). congruence.
Qed.
Lemma reshape_valued_ok s qi qo sv (P : srel) : sinv s -> qi < nrep s -> qo < nrep s -> ~ (In (Some (-1)%Z) sv /\ In None sv) ->
  (forall rho sh, allows s rho sh -> P sh -> reshapes sv (sh qi) (sh qo) /\ ordinary (sh qi)) ->
  match reshape_valued qi qo sv s with
  | (s', Ok _) => sound_for P s s' /\ (forall rho sh, allows s' rho sh -> Forall2 wanted sv (sh qo)) /\
      (forall x l, determined s qi x -> x <> [] -> (0 < volume x < 2 ^ 53)%Z -> sv = map Some l -> one_free sv -> (Z.abs (volume l) < 2 ^ 1000)%Z -> forall rho sh, allows s' rho sh -> volume (sh qo) = volume x) /\
      (forall a b l, sv = map Some l -> ~ In (Some (-1)%Z) sv -> Forall (fun d => 0 < d)%Z (a ++ b) -> (forall rho sh, allows s rho sh -> exists d, sh qi = a ++ d :: b) ->
        (forall x, exists rho sh, allows s rho sh /\ sh qo = l /\ sh qi <> x) -> determined s' qi (a ++ (volume l / volume (a ++ b))%Z :: b))
  | (_, Err e) => one_of e [ValueError; ZeroDivisionError; OverflowError] /\ excludes P s
  end.
Proof.
  intros I Hi Hq Mix HP. unfold reshape_valued.
  assert (Pos : forall rho sh, allows s rho sh -> P sh -> (0 < volume (sh qi) < 2 ^ 53)%Z) by (intros rho sh A Hp; destruct (HP rho sh A Hp) as (_ & X & Y); split; [apply volume_pos; auto|auto]).
  assert (Ck : match consistent (known_input s qi) sv with
     | Ok _ => forall x l, determined s qi x -> x <> [] -> sv = map Some l -> (Z.abs (volume l) < 2 ^ 1000)%Z -> (0 < volume x < 2 ^ 53)%Z -> (volume l | volume x)%Z /\ (~ In (Some (-1)%Z) sv -> volume l = volume x)
     | Err e => one_of e [ValueError; ZeroDivisionError; OverflowError] /\ excludes P s end).
  { destruct (known_input s qi) as [iv|] eqn:K.
    - apply known_input_iff in K as [K Kn]; auto. assert (C := consistent_ok iv sv). destruct (consistent (Some iv) sv) as [[]|e].
      + intros x l Dx _. assert (x = iv); [|subst x; auto]. destruct (sat_exists (us s) (s_inv _ I)) as (rho & Hs). assert (A := allows_self s rho (fun _ => []) Hs). rewrite <- (Dx rho _ A). apply (K rho _ A).
      + split; [apply C|]. intros rho sh A Hp. destruct (HP rho sh A Hp) as ((O & W & _ & Ev) & _). assert (Ps := Pos rho sh A Hp). rewrite (K rho sh A) in *. apply (proj2 C (sh qo)); auto.
    - cbn. intros x l Dx Nx. exfalso. assert (X : known_input s qi = Some x) by (apply known_input_iff; auto). congruence. }
  destruct (consistent (known_input s qi) sv) as [[]|e]; [|exact Ck].
  assert (M := set_output_ok s qo sv P I Hq ltac:(intros rho sh A Hp; apply (HP rho sh A Hp))). assert (M2 := set_output_ok s qo sv (fun sh => Forall2 wanted sv (sh qo)) I Hq ltac:(auto)). unfold hbind at 1.
  destruct (set_output qo sv s) as [s1 [[]|e]]; [|destruct M as [-> M]; split; [left; auto|auto]]. destruct M as (M & R1 & W1). destruct M2 as (M2 & _ & _). assert (N1 : nrep s1 = nrep s) by apply M. assert (I1 : sinv s1) by apply M.
  assert (HP1 : forall rho sh, allows s1 rho sh -> P sh -> reshapes sv (sh qi) (sh qo) /\ ordinary (sh qi)) by (intros rho sh A; apply (HP rho); apply M; auto).
  assert (Pos1 : forall rho sh, allows s1 rho sh -> P sh -> (0 < volume (sh qi) < 2 ^ 53)%Z) by (intros rho sh A; apply (Pos rho); apply M; auto).
  destruct (existsb is_free sv) eqn:F.
  - apply has_free in F. assert (El : exists l, sv = map Some l). { destruct (all_some sv) as [l|] eqn:E; [exists l; apply all_some_spec; auto|]. apply all_some_none in E. exfalso. auto. } destruct El as (l & ->).
    assert (L : match set_free qo (known_input s qi) (map Some l) s1 with
      | (s', Ok _) => sound_for P s1 s' /\ rp s' = rp s1 /\ (forall x, determined s qi x -> x <> [] -> one_free (map Some l) -> (volume l | volume x)%Z -> (0 < volume x < 2 ^ 53)%Z -> forall rho sh, allows s' rho sh -> volume (sh qo) = volume x)
      | (_, Err e) => one_of e [ValueError; ZeroDivisionError; OverflowError] /\ excludes P s1 end).
    { destruct (known_input s qi) as [iv|] eqn:K.
      - apply known_input_iff in K as [K Kn]; auto. assert (S := set_free_ok s1 qo iv l P I1 ltac:(lia) R1 F W1). lapply S; [clear S; intros S|].
        2: { intros rho sh A Hp. destruct (HP1 rho sh A Hp) as ((O & _ & _ & Ev) & _). assert (Ps := Pos1 rho sh A Hp). rewrite (K rho sh) in * by (apply M; auto). split; [auto|]. split; [symmetry|]; auto. }
        destruct (set_free qo (Some iv) (map Some l) s1) as [s2 [[]|e]]; [|exact S]. destruct S as (S1 & S2 & S3). do 2 (split; [auto|]). intros x Dx _. assert (x = iv); [|subst x; auto]. destruct (sat_exists (us s) (s_inv _ I)) as (rho & Hs). assert (A := allows_self s rho (fun _ => []) Hs). rewrite <- (Dx rho _ A). apply (K rho _ A).
      - cbn. split; [apply sound_for_refl; auto|]. split; [auto|]. intros x Dx Nx. exfalso. assert (X : known_input s qi = Some x) by (apply known_input_iff; auto). congruence. }
    unfold hbind. destruct (set_free qo (known_input s qi) (map Some l) s1) as [s2 [[]|e]].
    + unfold set_last. rewrite (proj2 (has_free _) F). unfold hret. destruct L as (L1 & L2 & L3). split; [eapply sound_for_trans; eauto|]. split; [intros rho sh A; apply (W1 rho); apply L1; auto|]. split.
      * intros x l' Dx Nx B E O Bl. assert (l' = l). { apply (f_equal all_some) in E. rewrite (proj2 (all_some_spec _ l) eq_refl), (proj2 (all_some_spec _ l') eq_refl) in E. injection E; auto. } subst l'. apply L3; auto. apply (Ck x l); auto.
      * intros a b l' E N. exfalso. auto.
    + split; [apply L|]. eapply excludes_back; [exact M|apply L].
  - assert (Nf : ~ In (Some (-1)%Z) sv) by (intros H; apply has_free in H; congruence). unfold hbind at 1, hret. unfold set_last. rewrite F. destruct (all_some sv) as [l|] eqn:El.
    + apply all_some_spec in El. subst sv. assert (Wl : forall rho sh, allows s1 rho sh -> sh qo = l) by (intros rho sh A; apply wanted_all; [auto|apply (W1 rho sh A)]).
      assert (S := set_missing_ok s1 qi l P I1 ltac:(lia)). lapply S; [clear S; intros S|]. 2: { intros rho sh A Hp. destruct (HP1 rho sh A Hp) as ((_ & _ & _ & Ev) & Or & _). split; [auto|]. rewrite Ev, (Wl rho sh A). auto. }
      unfold hbind. destruct (set_missing qi l true s1) as [s2 [[]|e]]; [|destruct S as [-> S]; split; [left; auto|eapply excludes_back; eauto]]. destruct S as (S1 & S2 & S3).
      assert (N2 : nrep s2 = nrep s1) by apply S1. assert (D2 : determined s2 qo l) by (intros rho sh A; apply (Wl rho); apply S1; auto). assert (E2 := proj1 (determined_values s2 qo l ltac:(apply S1) ltac:(lia)) D2). unfold set_missing. rewrite (proj1 E2), (proj2 E2), count_none_0. cbn [Nat.eqb].
      split; [eapply sound_for_trans; eauto|]. split; [intros rho sh A; apply (W1 rho); apply S1; auto|]. split.
      * intros x l' Dx Nx B E O Bl rho sh A. apply (f_equal all_some) in E. rewrite (proj2 (all_some_spec _ l) eq_refl), (proj2 (all_some_spec _ l') eq_refl) in E. injection E as <-. rewrite (D2 rho sh A). apply (Ck x l); auto.
      * intros a b l' E _ Pab H Nd. apply (f_equal all_some) in E. rewrite (proj2 (all_some_spec _ l) eq_refl), (proj2 (all_some_spec _ l') eq_refl) in E. injection E as <-. apply S3; auto.
        -- intros rho sh A. apply (H rho). apply M. auto.
        -- intros x Dx. destruct (Nd x) as (rho & sh & A & Eo & Ex). apply Ex. destruct M2 as (_ & _ & _ & Fw & _). destruct (Fw rho sh A) as (rho' & _ & A'); [|apply (Dx rho' sh A')]. rewrite Eo. clear - Nf. induction l as [|z l IH]; cbn; constructor; cbn; auto. apply IH. intros X. apply Nf. right. auto.
    + apply all_some_none in El. split; [auto|]. split; [auto|]. split; intros; subst sv; apply in_map_iff in El as (z & X & _); discriminate.
Qed.
