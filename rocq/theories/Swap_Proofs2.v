(** * swap_axes with unknown ranks: proofs *)
From Coq Require Import List Arith Lia Bool ZArith.
From Verif Require Import PyBase Uniadic_Model Uniadic_Proofs Uniadic_Props Bcast_Proofs Shape_Model Shape_Proofs Shape_Proofs2 Shape_Proofs3 Shape_Props Reduce_Model Reduce_Proofs Reduce_Proofs2
  Rule_Proofs Window_Proofs Arange_Model Arange_Proofs Reshape_Model Reshape_Proofs Concat_Model Concat_Proofs Flat_Model Flat_Proofs Flat_Proofs2 Pad_Proofs Swap_Model Swap_Spec Swap_Proofs.
Import ListNotations.
Open Scope list_scope. Open Scope nat_scope. Open Scope shm_scope.

(** ** Lists *)
Lemma ext_nth {A} (l : list A) : forall m, (forall k, nth_error l k = nth_error m k) -> l = m.
Proof.
  induction l as [|x l IH]; intros [|y m] H; [auto|specialize (H 0); discriminate..|]. f_equal; [specialize (H 0); cbn in H; congruence|]. apply IH. intros k. apply (H (S k)).
Qed.
Lemma skipn_two {A} (a b : nat) : forall m : list A, skipn a (skipn b m) = skipn (a + b) m.
Proof.
  induction b as [|b IH]; intros m; [rewrite Nat.add_0_r; auto|]. rewrite Nat.add_succ_r. destruct m; [cbn; apply skipn_nil|]. cbn [skipn]. apply IH.
Qed.
Lemma put_length k u l : length (put k u l) = length l.
Proof. revert k. induction l as [|x l IH]; intros [|k]; cbn; auto. Qed.
Lemma put_nth k u l : forall m, k < length l -> nth_error (put k u l) m = if m =? k then Some u else nth_error l m.
Proof.
  revert k. induction l as [|x l IH]; intros k m H; cbn in H; [lia|]. destruct k as [|k], m as [|m]; cbn [put nth_error Nat.eqb]; auto. apply IH. lia.
Qed.
Lemma exchange_ok l a b i j : axis_at (length l) a i -> axis_at (length l) b j -> exists l', exchange l a b = Ok l' /\ length l' = length l /\ (forall u, In u l' -> In u l) /\
  nth_error l' i = nth_error l j /\ nth_error l' j = nth_error l i /\ forall k, k <> i -> k <> j -> nth_error l' k = nth_error l k.
Proof.
  intros Ha Hb. assert (Li : i < length l) by apply Ha. assert (Lj : j < length l) by apply Hb. unfold exchange. rewrite (proj2 (at_position_iff _ _ _) Ha), (proj2 (at_position_iff _ _ _) Hb). eexists. split; [reflexivity|].
  split; [rewrite !put_length; auto|].
  assert (N : forall m, nth_error (put j (nth i l 0) (put i (nth j l 0) l)) m = if m =? j then nth_error l i else if m =? i then nth_error l j else nth_error l m).
  { intros m. rewrite put_nth by (rewrite put_length; auto). rewrite put_nth by auto. rewrite (nth_error_nth' l 0 Li), (nth_error_nth' l 0 Lj). auto. }
  split; [|split; [|split]].
  - intros u Hu. apply In_nth_error in Hu as [m Hm]. rewrite N in Hm. destruct (m =? j); [eapply nth_error_In; eauto|]. destruct (m =? i); eapply nth_error_In; eauto.
  - rewrite N. rewrite Nat.eqb_refl. destruct (Nat.eqb_spec i j) as [->|]; auto.
  - rewrite N, Nat.eqb_refl. auto.
  - intros k H1 H2. rewrite N. destruct (Nat.eqb_spec k j); [lia|]. destruct (Nat.eqb_spec k i); [lia|auto].
Qed.
(** An exchange within a part of the shape *)
Lemma exchange_part (rho : nat -> Z) (l l' : list nat) (A B : list Z) a b i j x y : x = A ++ map rho l ++ B -> swaps a b x y -> axis_at (length x) a (length A + i) -> axis_at (length x) b (length A + j) -> length l' = length l ->
  nth_error l' i = nth_error l j -> nth_error l' j = nth_error l i -> (forall k, k <> i -> k <> j -> nth_error l' k = nth_error l k) -> i < length l -> j < length l -> y = A ++ map rho l' ++ B.
Proof.
  intros Ex (Ly & i' & j' & Ha & Hb & E1 & E2 & E) Ha' Hb' Ll N1 N2 N Hi Hj. rewrite (axis_fun _ _ _ _ Ha Ha') in *. rewrite (axis_fun _ _ _ _ Hb Hb') in *. clear i' j' Ha Hb.
  assert (At : forall (m : list nat) k, nth_error (A ++ map rho m ++ B) (length A + k) = nth_error (map rho m ++ B) k) by (intros m k; rewrite nth_error_app2 by lia; f_equal; lia).
  assert (In : forall (m : list nat) k, k < length m -> nth_error (map rho m ++ B) k = option_map rho (nth_error m k)) by (intros m k H; rewrite nth_error_app1 by (rewrite map_length; auto); apply nth_error_map).
  apply ext_nth. intros k. destruct (Nat.eq_dec k (length A + i)) as [->|D1]; [rewrite E1, Ex, !At, !In by lia; rewrite N1; auto|]. destruct (Nat.eq_dec k (length A + j)) as [->|D2]; [rewrite E2, Ex, !At, !In by lia; rewrite N2; auto|].
  rewrite (E k D1 D2), Ex. destruct (Nat.lt_ge_cases k (length A)) as [H|H]; [rewrite !nth_error_app1 by auto; auto|]. replace k with (length A + (k - length A)) in * by lia. set (m := k - length A) in *. rewrite !At.
  destruct (Nat.lt_ge_cases m (length l)) as [H2|H2]; [rewrite !In by lia; rewrite N by lia; auto|]. rewrite !nth_error_app2 by (rewrite map_length; lia). rewrite !map_length, Ll. auto.
Qed.

(** ** The parts required *)
Lemma app_eq_len {A} (a c : list A) : forall b d, a ++ b = c ++ d -> length a = length c -> a = c /\ b = d.
Proof. revert c. induction a as [|x a IH]; intros [|y c] b d E L; cbn in *; try discriminate; [auto|]. injection E as -> E. destruct (IH c b d E ltac:(lia)) as [-> ->]. auto. Qed.
Lemma required_pos a b : (0 <= a)%Z -> (0 <= b)%Z -> required a b = (S (Z.to_nat (Z.max a b)), 0).
Proof.
  intros Ha Hb. unfold required. destruct (Z.ltb_spec 0 a), (Z.ltb_spec a 0); try lia; destruct (Z.leb_spec 0 b); try lia; cbn [andb].
  - destruct (Z.ltb_spec (Z.of_nat (Z.to_nat (a + 1))) (b + 1)); [f_equal; lia|]. destruct (Z.ltb_spec b 0); [lia|]. cbn [andb]. f_equal; lia.
  - assert (a = 0%Z) by lia. subst a. destruct (Z.ltb_spec (Z.of_nat (Z.to_nat (- 0))) (b + 1)); [f_equal; lia|lia].
Qed.
Lemma required_neg a b : (a < 0)%Z -> (b < 0)%Z -> required a b = (0, Z.to_nat (Z.max (- a) (- b))).
Proof.
  intros Ha Hb. unfold required. destruct (Z.ltb_spec 0 a), (Z.ltb_spec a 0); try lia; destruct (Z.leb_spec 0 b); try lia; cbn [andb]. destruct (Z.ltb_spec b 0); [|lia]. cbn [andb].
  destruct (Z.ltb_spec (Z.of_nat (Z.to_nat (- a))) (Z.abs b)); f_equal; lia.
Qed.
Lemma parts_meet rho tau r (x : list Z) p q f g : x = dshape rho tau r -> p + q <= length x -> length f = p - length (pre r) -> length g = q - length (suf r) ->
  exists ys, length ys = length (f ++ g) /\ forall rho', (forall u, In u (pre r ++ suf r) -> rho' u = rho u) -> map rho' (f ++ g) = ys ->
    map rho' (firstn p (pre r) ++ f) = firstn p x /\ map rho' (g ++ skipn (length (suf r) - q) (suf r)) = skipn (length x - q) x.
Proof.
  intros Ex Lx Lf Lg. unfold dshape in Ex. set (t := rval tau (root r)) in *. set (P := map rho (pre r)) in *. set (S := map rho (suf r)) in *.
  assert (LP : length P = length (pre r)) by (unfold P; apply map_length). assert (LS : length S = length (suf r)) by (unfold S; apply map_length).
  assert (Xl : length x = length P + (length t + length S)) by (rewrite Ex, !app_length; auto).
  exists (firstn (p - length P) (t ++ S) ++ skipn (length x - q) (P ++ t)). split; [rewrite !app_length, firstn_length, skipn_length, !app_length; lia|].
  intros rho' Ag Em. rewrite map_app in Em. apply app_eq_len in Em as [Ef Eg]; [|rewrite map_length, firstn_length, app_length; lia].
  assert (Ep : map rho' (pre r) = P) by (apply map_ext_in; intros u Hu; apply Ag, in_app_iff; auto). assert (Es : map rho' (suf r) = S) by (apply map_ext_in; intros u Hu; apply Ag, in_app_iff; auto). split.
  - rewrite map_app, map_firstn, Ep, Ef, Ex, (firstn_app p P). auto.
  - rewrite map_app, map_skipn, Es, Eg. assert (K : length (suf r) - q = (length x - q) - length (P ++ t)) by (rewrite app_length; lia). rewrite K. set (k := length x - q). rewrite Ex, app_assoc, (skipn_app k (P ++ t) S). auto.
Qed.

(** ** Axes counted from the same end *)
Lemma extended_ok n l s : sinv s -> exists s1 f, extended n l s = (s1, Ok (firstn n l ++ f)) /\ fresh s s1 f /\ length f = n - length l /\ nvar s1 = nvar s.
Proof. intros I. destruct (fresh_dims (n - length l) s I) as (s1 & f & E & F & L & V). exists s1, f. split; [unfold extended, hbind; rewrite E; auto|auto]. Qed.
Lemma extended_back_ok n l s : sinv s -> exists s1 f, extended_back n l s = (s1, Ok (f ++ skipn (length l - n) l)) /\ fresh s s1 f /\ length f = n - length l /\ nvar s1 = nvar s.
Proof. intros I. destruct (fresh_dims (n - length l) s I) as (s1 & f & E & F & L & V). exists s1, f. split; [unfold extended_back, hbind; rewrite E; auto|auto]. Qed.
Lemma in_skipn {A} (x : A) n l : In x (skipn n l) -> In x l.
Proof. intros H. rewrite <- (firstn_skipn n l). apply in_app_iff. auto. Qed.
Definition same_end (a b : Z) : Prop := (a < 0 /\ b < 0)%Z \/ (0 <= a /\ 0 <= b)%Z.
Lemma unknown_ok s qi qo a b : sinv s -> qi < nrep s -> qo < nrep s -> root (rp s qi) <> None -> same_end a b ->
  match swap_unknown qi qo a b s with
  | (s', Ok r) => r = true /\ sound_for (fun sh => swaps a b (sh qi) (sh qo)) s s'
  | (_, Err e) => e = ValueError /\ excludes (fun sh => swaps a b (sh qi) (sh qo)) s
  end.
Proof.
  intros I Hi Ho Ri Sg. unfold swap_unknown. destruct (required a b) as [p q] eqn:Er. set (r := rp s qi) in *.
  destruct (extended_ok p (pre r) s I) as (s1 & f & E1 & F1 & L1 & V1). assert (I1 : sinv s1) by apply F1. destruct (extended_back_ok q (suf r) s1 I1) as (s2 & g & E2 & F2 & L2 & V2). assert (I2 : sinv s2) by apply F2.
  destruct (fresh_var s2 I2) as (s3 & E3 & F3 & V3). assert (F := fresh_nil _ _ _ _ (fresh_trans _ _ _ _ _ F1 F2) F3).
  unfold hbind at 1. rewrite E1. unfold hbind at 1. rewrite E2. unfold hbind at 1. rewrite E3. set (prefix := firstn p (pre r) ++ f) in *. set (suffix := g ++ skipn (length (suf r) - q) (suf r)) in *. set (w := nvar s2) in *.
  assert (Gr : grows (us s) (us s3)) by apply F. assert (Lr : forall u, In u (pre r ++ suf r) -> live (us s) u). { destruct (s_repr _ I qi Hi) as (W & _). exact W. }
  assert (Live : forall u, In u (prefix ++ suffix) -> live (us s3) u).
  { intros u Hu. unfold prefix, suffix in Hu. rewrite !in_app_iff in Hu. destruct Hu as [[Hu|Hu]|[Hu|Hu]].
    - apply Gr, Lr, in_app_iff. left. eapply in_firstn; eauto.
    - apply F, in_app_iff. auto.
    - apply F, in_app_iff. auto.
    - apply Gr, Lr, in_app_iff. right. eapply in_skipn; eauto. }
  set (P := fun sh : nat -> list Z => swaps a b (sh qi) (sh qo)).
  assert (Key : forall prefix' suffix', (forall u, In u (prefix' ++ suffix') -> In u (prefix ++ suffix)) ->
    (forall (rho' : nat -> Z) x y, swaps a b x y -> p + q <= length x -> map rho' prefix = firstn p x -> map rho' suffix = skipn (length x - q) x -> y = map rho' prefix' ++ firstn (length x - q - p) (skipn p x) ++ map rho' suffix') ->
    (forall x y, swaps a b x y -> p + q <= length x) ->
    match (do _ <- inner_match qi (mkshape prefix (Some w) suffix); do _ <- inner_match qo (mkshape prefix' (Some w) suffix'); hret true) s3 with
    | (s', Ok r) => r = true /\ sound_for P s s'
    | (_, Err e) => e = ValueError /\ excludes P s
    end).
  { intros prefix' suffix' Sub Ex Rk. assert (T := two_ok P s s3 (f ++ g) qi (mkshape prefix (Some w) suffix) qo (mkshape prefix' (Some w) suffix') I F Hi Ho).
    assert (W1 : wf_repr s3 (mkshape prefix (Some w) suffix)) by (split; [auto|split; [discriminate|intros v Hv; cbn in Hv; injection Hv as <-; unfold w; lia]]).
    assert (W2 : wf_repr s3 (mkshape prefix' (Some w) suffix')) by (split; [intros u Hu; apply Live, Sub; auto|split; [discriminate|intros v Hv; cbn in Hv; injection Hv as <-; unfold w; lia]]).
    specialize (T W1 W2). lapply T; [clear T; intros T|].
    - unfold hbind in *. destruct (inner_match qi _ s3) as [s4 [[]|e]]; [|exact T]. destruct (inner_match qo _ s4) as [s5 [[]|e]]; [|exact T]. unfold hret. auto.
    - intros rho tau sh Hs D Hp. set (x := sh qi). assert (Lx : p + q <= length x) by (eapply Rk; exact Hp). destruct (parts_meet rho tau r x p q f g) as (ys & Ly & Hm); [unfold x; rewrite <- D by auto; reflexivity|auto..|].
      exists ys, (upd tau w (firstn (length x - q - p) (skipn p x))). split; [auto|]. split; [intros v Hv; apply upd_other; unfold w; lia|].
      assert (Sp : x = firstn p x ++ firstn (length x - q - p) (skipn p x) ++ skipn (length x - q) x).
      { rewrite <- (firstn_skipn p x) at 1. f_equal. rewrite <- (firstn_skipn (length x - q - p) (skipn p x)) at 1. f_equal. rewrite skipn_two. f_equal. lia. }
      split; intros rho' Ag Em; destruct (Hm rho' (fun u Hu => Ag u (Lr u Hu)) Em) as [Mp Ms]; fold prefix in Mp; fold suffix in Ms; unfold dshape; cbn [pre root suf rval]; rewrite upd_same.
      + fold x. rewrite Mp, Ms. exact Sp.
      + apply (Ex rho' x (sh qo) Hp Lx Mp Ms). }
  destruct Sg as [[Na Nb]|[Na Nb]].
  - rewrite required_neg in Er by auto. injection Er as <- <-. destruct (Z.ltb_spec a 0), (Z.ltb_spec b 0), (Z.leb_spec 0 a); try lia. cbn [andb orb].
    set (q := Z.to_nat (Z.max (- a) (- b))) in *. assert (Lq : length suffix = q) by (unfold suffix; rewrite app_length, skipn_length, L2; lia).
    destruct (exchange_ok suffix a b (Z.to_nat (a + Z.of_nat q)) (Z.to_nat (b + Z.of_nat q))) as (l' & E & Ll & Hin & N1 & N2 & N); [rewrite Lq; unfold axis_at; lia..|]. rewrite E. apply Key.
    + intros u Hu. rewrite in_app_iff in *. destruct Hu; auto.
    + intros rho' x y Sw Lx Mp Ms. assert (X : x = firstn (length x - q) x ++ map rho' suffix ++ []) by (rewrite app_nil_r, Ms, firstn_skipn; auto).
      assert (La : length (firstn (length x - q) x) = length x - q) by (rewrite firstn_length; lia).
      rewrite (exchange_part rho' suffix l' _ [] a b (Z.to_nat (a + Z.of_nat q)) (Z.to_nat (b + Z.of_nat q)) x y X Sw); auto; try (rewrite La; unfold axis_at; lia); try lia.
      rewrite app_nil_r. unfold prefix. assert (length f = 0) by lia. destruct f; [|discriminate]. cbn. rewrite Nat.sub_0_r. auto.
    + intros x y Sw. apply swaps_rank in Sw as [_ R]. assert (Ra := R a (or_introl eq_refl)). assert (Rb := R b (or_intror eq_refl)). unfold q. lia.
  - rewrite required_pos in Er by auto. injection Er as <- <-. destruct (Z.ltb_spec a 0), (Z.ltb_spec b 0), (Z.leb_spec 0 a), (Z.leb_spec 0 b); try lia. cbn [andb orb].
    set (p := S (Z.to_nat (Z.max a b))) in *. assert (Lp : length prefix = p) by (unfold prefix; rewrite app_length, firstn_length, L1; lia).
    destruct (exchange_ok prefix a b (Z.to_nat a) (Z.to_nat b)) as (l' & E & Ll & Hin & N1 & N2 & N); [rewrite Lp; unfold axis_at; lia..|]. rewrite E. apply Key.
    + intros u Hu. rewrite in_app_iff in *. destruct Hu; auto.
    + intros rho' x y Sw Lx Mp Ms. assert (X : x = [] ++ map rho' prefix ++ skipn p x) by (cbn [app]; rewrite Mp, firstn_skipn; auto).
      rewrite (exchange_part rho' prefix l' [] (skipn p x) a b (Z.to_nat a) (Z.to_nat b) x y X Sw); auto; try (cbn [length Nat.add]; unfold axis_at; lia); try lia.
      cbn [app]. f_equal. rewrite Ms, Nat.sub_0_r, skipn_all. rewrite firstn_all2 by (rewrite skipn_length; lia). rewrite app_nil_r. auto.
    + intros x y Sw. apply swaps_rank in Sw as [_ R]. assert (Ra := R a (or_introl eq_refl)). assert (Rb := R b (or_intror eq_refl)). unfold p. lia.
Qed.
