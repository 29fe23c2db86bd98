(** * C24: broadcast inference on dimensions *)
From Coq Require Import List Arith Lia Bool ZArith.
From Verif Require Import PyBase Uniadic_Model Uniadic_Proofs Uniadic_Props Bcast_Model Bcast_Proofs.
Import ListNotations.
Open Scope list_scope. Open Scope nat_scope. Open Scope sm_scope.

(** ** Specification *)
(** A shape: without a variadic it is the prefix. *)
Definition repr_ok (s : ustate) (r : srepr) : Prop :=
  (rooted r = false -> suffix r = []) /\ forall u, In u (prefix r ++ suffix r) -> live s u.
(** All three ranks are known. *)
Definition ranks_known (out left right : srepr) : bool := negb (rooted left || rooted right || rooted out).
(** The i-th axis from the right, if the representation shows it. *)
Definition axis (r : srepr) (i : nat) : option nat := nth_error (rev (if rooted r then suffix r else prefix r)) i.
(** The sizes [rho] are those of an elementwise operation (from axis [index] on, counted from the right; [index] is 2 for the
    batch axes of a matrix product). *)
Definition bcast_ok (out left right : srepr) (index : nat) (rho : nat -> Z) : Prop :=
  (ranks_known out left right = true -> rlen out = Nat.max (rlen left) (rlen right)) /\
  forall i, index <= i -> axis_rel (ranks_known out left right) (option_map rho (axis left i)) (option_map rho (axis right i)) (option_map rho (axis out i)).

Lemma nth_skipn {A} (l : list A) n : forall i, nth_error (skipn n l) i = nth_error l (n + i).
Proof. revert l. induction n as [|n IH]; intros l i; [reflexivity|]. destruct l; cbn; [destruct i; reflexivity|apply IH]. Qed.
Lemma core_axis r index i : nth_error (core r index) i = axis r (index + i).
Proof. unfold core, axis. apply nth_skipn. Qed.
Lemma axis_live s r i u : repr_ok s r -> axis r i = Some u -> live s u.
Proof.
  intros [_ H] E. apply nth_error_In in E. apply in_rev in E. apply H. apply in_or_app. destruct (rooted r); auto.
Qed.
Lemma live_pos_axes s out left right i : repr_ok s out -> repr_ok s left -> repr_ok s right ->
  live_pos s (axis left i, axis right i, axis out i).
Proof.
  intros Ho Hl Hr. cbn. split; [|split].
  - destruct (axis left i) eqn:E; cbn; auto. eapply axis_live; [exact Hl|eauto].
  - destruct (axis right i) eqn:E; cbn; auto. eapply axis_live; [exact Hr|eauto].
  - destruct (axis out i) eqn:E; cbn; auto. eapply axis_live; [exact Ho|eauto].
Qed.
Lemma core_length r index : length (core r index) = length (if rooted r then suffix r else prefix r) - index.
Proof. unfold core. rewrite skipn_length, rev_length. auto. Qed.
Lemma known_parts out left right : ranks_known out left right = true -> rooted out = false /\ rooted left = false /\ rooted right = false.
Proof. unfold ranks_known. destruct (rooted left), (rooted right), (rooted out); cbn; intros; try discriminate; auto. Qed.

Lemma zip_axes out left right index p : In p (zip_longest (core left index) (core right index) (core out index)) <->
  exists i, index <= i /\ (i - index < Nat.max (length (core left index)) (Nat.max (length (core right index)) (length (core out index)))) /\
    p = (axis left i, axis right i, axis out i).
Proof.
  rewrite In_zip. split.
  - intros (j & Hj & ->). exists (index + j). split; [lia|]. split; [replace (index + j - index) with j by lia; auto|]. rewrite !core_axis. auto.
  - intros (i & Hi & Hlt & ->). exists (i - index). split; auto. rewrite !core_axis. replace (index + (i - index)) with i by lia. auto.
Qed.
Lemma out_axis_bound out index i o : index <= i -> axis out i = Some o -> i - index < length (core out index).
Proof. intros Hi E. rewrite core_length. unfold axis in E. assert (H := nth_error_Some (rev (if rooted out then suffix out else prefix out)) i). rewrite E, rev_length in H.
  assert (i < length (if rooted out then suffix out else prefix out)) by (apply H; discriminate). lia. Qed.
Lemma positions_spec out left right index rho :
  bcast_ok out left right index rho <->
  (ranks_known out left right = true -> rlen out = Nat.max (rlen left) (rlen right)) /\
  (forall p, In p (zip_longest (core left index) (core right index) (core out index)) -> pos_rel (ranks_known out left right) rho p).
Proof.
  unfold bcast_ok. split; intros [H1 H2]; split; auto.
  - intros p Hp. apply zip_axes in Hp as (i & Hi & _ & ->). cbn. apply H2; auto.
  - intros i Hi. destruct (axis out i) as [o|] eqn:E; [|exact Logic.I]. rewrite <- E.
    apply (H2 (axis left i, axis right i, axis out i)). apply zip_axes. exists i. split; auto. split; auto.
    assert (B := out_axis_bound out index i o Hi E). lia.
Qed.
Lemma pos_ok_axes out left right index s : repr_ok s out -> repr_ok s left -> repr_ok s right ->
  (ranks_known out left right = true -> rlen out = Nat.max (rlen left) (rlen right)) ->
  forall p, In p (zip_longest (core left index) (core right index) (core out index)) -> pos_ok (ranks_known out left right) p.
Proof.
  intros Ho Hl Hr Hm p Hp Hc. destruct (known_parts _ _ _ Hc) as (Ro & Rl & Rr). specialize (Hm Hc).
  unfold rlen in Hm. rewrite (proj1 Ho Ro), (proj1 Hl Rl), (proj1 Hr Rr) in Hm. cbn in Hm. rewrite !Nat.add_0_r in Hm.
  apply zip_axes in Hp as (i & Hi & Hlt & ->). rewrite !core_length, Ro, Rl, Rr in Hlt. unfold axis. rewrite Ro, Rl, Rr.
  split.
  - apply nth_error_Some. rewrite rev_length. lia.
  - destruct (Nat.lt_ge_cases i (length (prefix left))); [left | right]; apply nth_error_Some; rewrite rev_length; lia.
Qed.

Definition chooses (pick : list key3 -> key3) : Prop := forall l, l <> [] -> In (pick l) l.

(** Everything the proofs need about one call. *)
Lemma bcast_all pick out left right index s : chooses pick -> inv s -> repr_ok s out -> repr_ok s left -> repr_ok s right ->
  exists N, forall fuel, N <= fuel ->
    sound (bcast_uniadics pick fuel out left right index) (bcast_ok out left right index) s /\
    (forall s' up, bcast_uniadics pick fuel out left right index s = (s', Ok up) ->
       (ranks_known out left right = true -> rlen out = Nat.max (rlen left) (rlen right)) /\
       forall i, index <= i -> match axis left i, axis right i, axis out i with
         | Some l, Some r, Some o => was_run s s' (l, r, o) \/ (meta s' l = meta s' r /\ meta s' o = meta s' l)
         | Some e, None, Some o | None, Some e, Some o => ranks_known out left right = true -> meta s' o = meta s' e
         | _, _, _ => True
         end).
Proof.
  intros Hpick I Ho Hl Hr. unfold bcast_uniadics. fold (ranks_known out left right). set (c := ranks_known out left right).
  set (ps := zip_longest (core left index) (core right index) (core out index)).
  destruct (c && negb (Nat.max (rlen left) (rlen right) =? rlen out))%bool eqn:Bad.
  { apply andb_prop in Bad as [Bc Bm]. apply negb_true_iff, Nat.eqb_neq in Bm. exists 0. intros fuel _. split; [|intros s' up E; discriminate].
    split; [apply evolves_refl; auto|]. cbn. split; auto. intros rho _ [H _]. apply Bm. symmetry. apply H. exact Bc. }
  assert (Hm : c = true -> rlen out = Nat.max (rlen left) (rlen right)).
  { intros Hc. rewrite Hc in Bad. cbn in Bad. apply negb_false_iff, Nat.eqb_eq in Bad. auto. }
  assert (Hps : forall p, In p ps -> live_pos s p /\ pos_ok c p).
  { intros p Hp. split; [|eapply pos_ok_axes; eauto]. apply zip_axes in Hp as (i & _ & _ & ->). apply live_pos_axes; auto. }
  destruct (positions_ok c ps (no_updates, []) s I Hps) as [Sp Dp].
  assert (PS : forall rho, bcast_ok out left right index rho -> forall p, In p ps -> pos_rel c rho p). { intros rho H. apply positions_spec in H as [_ H]. exact H. }
  destruct (bcast_positions c ps (no_updates, []) s) as [s1 [[ups keys]|e]] eqn:E1.
  - destruct (Dp _ _ _ eq_refl) as (_ & D2 & D3). unfold sound in Sp. rewrite E1 in Sp. cbn [fst snd] in Sp. destruct Sp as [V1 S1].
    assert (I1 := evolves_inv _ _ V1).
    assert (Keys : forall k, In k keys -> exists l r o, k = (l, r, o) /\ In (Some l, Some r, Some o) ps).
    { intros k Hk. destruct (D3 k Hk) as [[]|H]; auto. }
    destruct (loop_ok pick Hpick keys (bcast_ok out left right index)) with (s := s1) (work := keys) as [N HN].
    + intros rho k H Hk. destruct (Keys k Hk) as (l & r & o & -> & Hp). assert (R := PS rho H _ Hp). cbn in R.
      destruct R as (x & y & -> & -> & R). exact R.
    + exact I1.
    + intros x Hx. apply in_flat_map in Hx as (k & Hk & Hx). destruct (Keys k Hk) as (l & r & o & -> & Hp).
      destruct (Hps _ Hp) as [(L1 & L2 & L3) _]. cbn in L1, L2, L3. eapply evolves_live; [exact V1|]. cbn in Hx. destruct Hx as [<-|[<-|[<-|[]]]]; auto.
    + apply incl_refl.
    + exists N. intros fuel Hf. destruct (HN fuel ups Hf) as [S2 R2].
      assert (Eq : (do (ups0, keys0) <- bcast_positions c ps (no_updates, []); bcast_loop pick fuel keys0 keys0 ups0) s = bcast_loop pick fuel keys keys ups s1).
      { unfold sbind. rewrite E1. reflexivity. }
      split.
      * unfold sound. rewrite Eq. destruct S2 as [V2 S2]. split; [eapply evolves_trans; eauto|]. destruct (snd (bcast_loop pick fuel keys keys ups s1)).
        -- intros rho Hs H. apply S2; [apply S1; auto|auto].
        -- destruct S2 as [-> S2]. split; auto. intros rho Hs H. apply (S2 rho); [apply S1; auto|auto].
      * intros s' up E. rewrite Eq in E. split; auto. intros i Hi.
        destruct S2 as [V2 _]. rewrite E in V2. cbn [fst] in V2.
        destruct (axis out i) as [o|] eqn:Eo; [|destruct (axis left i), (axis right i); exact Logic.I].
        assert (Hp : In (axis left i, axis right i, Some o) ps).
        { unfold ps. rewrite <- Eo. apply zip_axes. exists i. split; auto. split; auto. assert (B := out_axis_bound out index i o Hi Eo). lia. }
        assert (P := D2 _ Hp). destruct (Hps _ Hp) as [Lp _].
        apply (pos_done_later c s1 s' keys keys _ V2 (live_pos_evolves _ _ _ V1 Lp) (incl_refl _)) in P.
        destruct (axis left i) as [l|], (axis right i) as [r|]; cbn [pos_done] in P; auto.
        destruct P as [P|P]; [left|right; auto].
        eapply was_run_left; [exact V1|]. eapply R2; [exact E|exact P].
  - exists 0. intros fuel _.
    assert (Eq : (do (ups0, keys0) <- bcast_positions c ps (no_updates, []); bcast_loop pick fuel keys0 keys0 ups0) s = (s1, Err e)).
    { unfold sbind. rewrite E1. reflexivity. }
    split; [|intros s' up E; rewrite Eq in E; discriminate].
    unfold sound in *. rewrite Eq. rewrite E1 in Sp. destruct Sp as [V1 [-> S1]]. split; [exact V1|]. cbn. split; [reflexivity|].
    intros rho Hs H. apply (S1 rho Hs). apply PS. exact H.
Qed.

(** The inference ends, keeps every size combination that broadcasting allows, and raises only if there is none. *)
Theorem C24_sound : forall h s pick out left right index, run h s -> chooses pick ->
  repr_ok s out -> repr_ok s left -> repr_ok s right ->
  exists N, forall fuel, N <= fuel ->
    match bcast_uniadics pick fuel out left right index s with
    | (s', Ok _) => forall rho, (sat s' rho -> sat s rho) /\ (sat s rho -> bcast_ok out left right index rho -> sat s' rho)
    | (_, Err e) => e = ValueError /\ forall rho, sat s rho -> ~ bcast_ok out left right index rho
    end.
Proof.
  intros h s pick out left right index R Hp Ho Hl Hr. assert (I := run_inv _ _ R).
  destruct (bcast_all pick out left right index s Hp I Ho Hl Hr) as [N HN]. exists N. intros fuel Hf. destruct (HN fuel Hf) as [[V S0] _].
  destruct (bcast_uniadics pick fuel out left right index s) as [s' [up|e]]; cbn [fst snd] in *; auto.
  intros rho. split; [apply V|auto].
Qed.

(** *** Known inputs *)
Lemma value_forced s u n : inv s -> live s u -> (forall rho, sat s rho -> rho u = n) -> value s u = Some n.
Proof.
  intros I L H. apply (value_of_spec _ _ (i_pv _ I (meta s u))).
  assert (G : forall m, in_pv m (possible_values s u) -> m = n). { intros m Hm. destruct (sat_with s u m I L Hm) as (rho & Hs & <-). auto. }
  change (pv (recs s (meta s u))) with (possible_values s u). split.
  - intros E. rewrite E in G. assert (n + 1 = n)%Z by (apply G; exact Logic.I). lia.
  - intros m. split; auto. intros ->. destruct (wf_inhabited _ (i_pv _ I (meta s u))) as [k Hk].
    change (pv (recs s (meta s u))) with (possible_values s u) in Hk. rewrite <- (G k Hk). auto.
Qed.
Lemma value_pv s u n : value s u = Some n -> possible_values s u = Some [n].
Proof. unfold value, value_of. destruct (possible_values s u) as [[|x [|y l]]|]; try discriminate. intros [= ->]. auto. Qed.

Lemma group_per_input_known a b o s s' up n : inv s -> live s a -> live s b -> live s o -> value s a = Some n ->
  group_per_input a b o s = (s', Ok up) ->
  forall rho, sat s' rho -> (n = 1%Z -> rho o = rho b) /\ (n <> 1%Z -> rho o = n /\ (rho b = n \/ rho b = 1%Z)).
Proof.
  intros I La Lb Lo V. unfold group_per_input. unfold sbind at 1, gets at 1. unfold sbind at 1. intros E.
  destruct ((if is_one (value s a) || is_one (value s o) then uni_match o b else ret no_updates) s) as [s1 [u1|]] eqn:E1; [|discriminate].
  assert (X1 : evolves s s1 /\ (n = 1%Z -> forall rho, sat s1 rho -> rho o = rho b)).
  { destruct (is_one (value s a) || is_one (value s o))%bool eqn:One.
    - destruct (uni_match_imposes s o b I Lo Lb) as [Im _]. assert (Ev := imposes_evolves _ _ _ I Im). rewrite E1 in Ev. split; auto.
      intros _ rho Hs. apply (imposes_ok _ _ _ _ _ Im E1) in Hs. tauto.
    - injection E1 as <- <-. split; [apply evolves_refl; auto|]. intros ->. rewrite V in One. cbn in One. discriminate. }
  destruct X1 as [V1 H1]. assert (I1 := evolves_inv _ _ V1). assert (Lb1 := evolves_live _ _ _ V1 Lb). assert (Lo1 := evolves_live _ _ _ V1 Lo). assert (La1 := evolves_live _ _ _ V1 La).
  unfold sbind at 1, gets at 1 in E. unfold sbind at 1 in E.
  destruct (match possible_values s1 o with Some p => update_possible_values b (Some (union p [1%Z])) | None => ret no_updates end s1) as [s2 [u2|]] eqn:E2; [|discriminate].
  assert (V2 : evolves s1 s2).
  { destruct (possible_values s1 o) as [p|] eqn:P; [|injection E2 as <- <-; apply evolves_refl; auto].
    assert (Wp : wf_pv (Some p)) by (rewrite <- P; apply (i_pv _ I1)).
    assert (Ev := imposes_evolves _ _ _ I1 (update_imposes s1 b _ I1 Lb1 (set_union _ Wp))). rewrite E2 in Ev. exact Ev. }
  assert (I2 := evolves_inv _ _ V2). assert (Lb2 := evolves_live _ _ _ V2 Lb1). assert (Lo2 := evolves_live _ _ _ V2 Lo1). assert (La2 := evolves_live _ _ _ V2 La1).
  assert (Va : value s2 a = Some n) by (eapply evolves_value; [exact V2|auto|eapply evolves_value; eauto]).
  unfold sbind at 1, gets at 1 in E. rewrite (value_pv _ _ _ Va) in E.
  destruct (Z.eq_dec n 1) as [->|Hn].
  { cbn in E. injection E as <- <-. intros rho Hs. split; [|congruence]. intros _. apply H1; auto. apply V2; auto. }
  assert (M : mem 1%Z [n] = false). { apply mem_not_In. intros [?|[]]. congruence. }
  rewrite M in E. assert (Wp : wf_pv (Some [n])). { cbn. split; [discriminate|]. constructor; [auto|constructor]. }
  unfold sbind at 1 in E. destruct (update_possible_values b (Some (union [n] [1%Z])) s2) as [s3 [u3|]] eqn:E3; [|discriminate].
  assert (Im3 := update_imposes s2 b _ I2 Lb2 (set_union _ Wp)). assert (V3 := imposes_evolves _ _ _ I2 Im3). rewrite E3 in V3. cbn in V3.
  assert (I3 := evolves_inv _ _ V3). assert (Lo3 := evolves_live _ _ _ V3 Lo2).
  assert (Va3 : value s3 a = Some n) by (eapply evolves_value; [exact V3|auto|auto]).
  unfold sbind at 1, gets at 1 in E. rewrite (value_pv _ _ _ Va3) in E.
  unfold sbind at 1 in E. destruct (update_possible_values o (Some [n]) s3) as [s4 [u4|]] eqn:E4; [|discriminate].
  injection E as <- <-.
  assert (Sn : is_set (Some [n])) by apply Wp.
  assert (Im4 := update_imposes s3 o _ I3 Lo3 Sn).
  intros rho Hs. split; [congruence|]. intros _. apply (imposes_ok _ _ _ _ _ Im4 E4) in Hs as [Hs Hc]. cbn in Hc. destruct Hc as [Hc|[]].
  split; auto. apply (imposes_ok _ _ _ _ _ Im3 E3) in Hs as [Hs Hb]. cbn [in_pv] in Hb. apply In_union in Hb as [[Hb|[]]|[Hb|[]]]; auto.
Qed.
Lemma bcast_group_known l r o s s' up n : inv s -> live s l -> live s r -> live s o -> value s l = Some n ->
  bcast_group (l, r, o) s = (s', Ok up) -> forall rho, sat s' rho -> bcast_rel (rho l) (rho r) (rho o).
Proof.
  intros I Ll Lr Lo V E rho Hs. unfold bcast_group, sbind in E.
  assert (Sg := group_sound l r o s I Ll Lr Lo).
  destruct (group_per_input l r o s) as [s1 [a|]] eqn:E1; [|discriminate]. destruct Sg as [V1 _]. rewrite E1 in V1. cbn [fst] in V1.
  assert (Sg := group_sound r l o s1 (evolves_inv _ _ V1) (evolves_live _ _ _ V1 Lr) (evolves_live _ _ _ V1 Ll) (evolves_live _ _ _ V1 Lo)).
  destruct (group_per_input r l o s1) as [s2 [b|]] eqn:E2; [|discriminate]. destruct Sg as [V2 _]. rewrite E2 in V2. cbn [fst] in V2.
  injection E as <- <-. assert (H1 : sat s1 rho) by (apply V2; auto).
  destruct (group_per_input_known _ _ _ _ _ _ _ I Ll Lr Lo V E1 rho H1) as [A B].
  assert (El : rho l = n). { apply (value_sat s l n rho I Ll V). apply V1; auto. }
  destruct (Z.eq_dec n 1) as [Hn|Hn].
  - left. split; [congruence|]. auto.
  - destruct (B Hn) as [Ho [Hb|Hb]]; [right; right; split; congruence | right; left; split; congruence].
Qed.

Lemma known_inputs : forall s pick out left right index, inv s -> chooses pick ->
  repr_ok s out -> repr_ok s left -> repr_ok s right -> ranks_known out left right = true ->
  (forall i u, index <= i -> axis left i = Some u \/ axis right i = Some u -> value s u <> None) ->
  exists N, forall fuel, N <= fuel -> forall s' up, bcast_uniadics pick fuel out left right index s = (s', Ok up) ->
    (forall rho, sat s' rho <-> sat s rho /\ bcast_ok out left right index rho) /\
    (forall i o, index <= i -> axis out i = Some o -> exists n, value s' o = Some n /\
       axis_rel true (option_map (fun u => match value s u with Some v => v | None => 0%Z end) (axis left i))
                     (option_map (fun u => match value s u with Some v => v | None => 0%Z end) (axis right i)) (Some n)).
Proof.
  intros s pick out left right index I Hp Ho Hl Hr Hc Hk.
  destruct (bcast_all pick out left right index s Hp I Ho Hl Hr) as [N HN]. exists N. intros fuel Hf s' up E.
  destruct (HN fuel Hf) as [[V S0] D]. rewrite E in V, S0. cbn [fst snd] in V, S0. destruct (D _ _ E) as [Hm Dn]. clear D HN.
  assert (I' := evolves_inv _ _ V).
  assert (Val : forall i u, index <= i -> axis left i = Some u \/ axis right i = Some u -> live s u /\ exists n, value s u = Some n /\ forall rho, sat s rho -> rho u = n).
  { intros i u Hi Hu. assert (Lu : live s u) by (destruct Hu as [Hu|Hu]; [eapply axis_live; [exact Hl|exact Hu] | eapply axis_live; [exact Hr|exact Hu]]).
    split; [exact Lu|]. specialize (Hk i u Hi Hu). destruct (value s u) as [n|] eqn:Vu; [|congruence]. exists n. split; [reflexivity|].
    intros rho Hs. exact (value_sat s u n rho I Lu Vu Hs). }
  assert (Rel : forall rho, sat s' rho -> bcast_ok out left right index rho).
  { intros rho Hs. split; auto. intros i Hi. rewrite Hc. assert (Di := Dn i Hi). assert (Lp := live_pos_axes s out left right i Ho Hl Hr).
    destruct (axis out i) as [o|] eqn:Eo; [|exact Logic.I].
    destruct (axis left i) as [l|] eqn:El; destruct (axis right i) as [r|] eqn:Er; cbn [option_map axis_rel fits].
    - destruct Lp as (Ll & Lr & Lo). cbn in Ll, Lr, Lo. exists (rho l), (rho r). split; auto. split; auto.
      destruct Di as [(s1 & s2 & u2 & V1 & Eg & V2)|[M1 M2]].
      + destruct (Val i l Hi (or_introl El)) as (_ & n & Vn & _).
        apply (bcast_group_known l r o s1 s2 u2 n (evolves_inv _ _ V1) (evolves_live _ _ _ V1 Ll) (evolves_live _ _ _ V1 Lr) (evolves_live _ _ _ V1 Lo)); auto.
        * eapply evolves_value; eauto.
        * apply V2; auto.
      + right; right. split; apply Hs; auto; apply (evolves_live _ _ _ V); auto.
    - destruct Lp as (Ll & Lr & Lo). cbn in Ll, Lo. exists (rho l), 1%Z. split; auto. split; auto. right; left. split; auto.
      apply Hs; auto; apply (evolves_live _ _ _ V); auto.
    - destruct Lp as (Ll & Lr & Lo). cbn in Lr, Lo. exists 1%Z, (rho r). split; auto. split; auto. left. split; auto.
      apply Hs; auto; apply (evolves_live _ _ _ V); auto.
    - exfalso. assert (Hpo := pos_ok_axes out left right index s Ho Hl Hr Hm (None, None, Some o)).
      destruct Hpo as [_ [X|X]]; auto. apply zip_axes. exists i. split; auto. rewrite El, Er, Eo. split; auto.
      assert (B := out_axis_bound out index i o Hi Eo). lia. }
  split; [intros rho; split; [intros Hs; split; [apply V; auto|auto] | intros [H1 H2]; apply S0; auto]|].
  intros i o Hi Eo. destruct (sat_exists s' I') as [rho Hs]. assert (Lo : live s' o). { eapply evolves_live; [exact V|]. eapply axis_live; [exact Ho|exact Eo]. }
  exists (rho o).
  assert (Forced : forall rho1 rho2, sat s' rho1 -> sat s' rho2 -> rho1 o = rho2 o).
  { intros r1 r2 H1 H2. destruct (Rel r1 H1) as [_ R1]. destruct (Rel r2 H2) as [_ R2]. specialize (R1 i Hi). specialize (R2 i Hi). rewrite Hc, Eo in R1, R2. cbn in R1, R2.
    destruct R1 as (x1 & y1 & A1 & B1 & C1). destruct R2 as (x2 & y2 & A2 & B2 & C2).
    assert (X : x1 = x2). { destruct (axis left i) as [l|] eqn:El; cbn in A1, A2; [|rewrite A1, A2; auto].
      destruct (Val i l Hi (or_introl El)) as (_ & n & _ & F). rewrite A1, A2, (F r1), (F r2); auto; apply V; auto. }
    assert (Y : y1 = y2). { destruct (axis right i) as [r|] eqn:Er; cbn in B1, B2; [|rewrite B1, B2; auto].
      destruct (Val i r Hi (or_intror Er)) as (_ & n & _ & F). rewrite B1, B2, (F r1), (F r2); auto; apply V; auto. }
    unfold bcast_rel in C1, C2. subst x2 y2. intuition congruence. }
  split; [apply value_forced; auto|].
  destruct (Rel rho Hs) as [_ R1]. specialize (R1 i Hi). rewrite Hc, Eo in R1.
  assert (Q : forall x u, x = axis left i \/ x = axis right i -> x = Some u -> rho u = match value s u with Some v => v | None => 0%Z end).
  { intros x u Hx ->. destruct (Val i u Hi) as (_ & n & -> & F); [destruct Hx as [Hx|Hx]; auto|]. apply F. apply V; auto. }
  destruct (axis left i) as [l|] eqn:El; destruct (axis right i) as [r|] eqn:Er; cbn [option_map] in *;
    try rewrite <- (Q _ l (or_introl eq_refl) eq_refl); try rewrite <- (Q _ r (or_intror eq_refl) eq_refl); exact R1.
Qed.
(** If all ranks and all input sizes are known, a successful run leaves exactly the assignments of a correct broadcast, and every
    output size is known. *)
Theorem C24_known_inputs : forall h s pick out left right index, run h s -> chooses pick ->
  repr_ok s out -> repr_ok s left -> repr_ok s right -> ranks_known out left right = true ->
  (forall i u, index <= i -> axis left i = Some u \/ axis right i = Some u -> value s u <> None) ->
  exists N, forall fuel, N <= fuel -> forall s' up, bcast_uniadics pick fuel out left right index s = (s', Ok up) ->
    (forall rho, sat s' rho <-> sat s rho /\ bcast_ok out left right index rho) /\
    (forall i o, index <= i -> axis out i = Some o -> exists n, value s' o = Some n /\
       axis_rel true (option_map (fun u => match value s u with Some v => v | None => 0%Z end) (axis left i))
                     (option_map (fun u => match value s u with Some v => v | None => 0%Z end) (axis right i)) (Some n)).
Proof. intros h s pick out left right index R. apply known_inputs. exact (run_inv _ _ R). Qed.

(** *** Completion *)
(** Later states: after more successful updates and unifications. *)
Inductive later (s : ustate) : ustate -> Prop :=
| later_refl : later s s
| later_update t u vals t' up : later s t -> live t u -> is_set vals -> update_possible_values u vals t = (t', Ok up) -> later s t'
| later_match t u v t' up : later s t -> live t u -> live t v -> uni_match u v t = (t', Ok up) -> later s t'.
Lemma later_evolves s t : inv s -> later s t -> evolves s t.
Proof.
  intros I H. induction H as [|t u vals t' up H IH L Sv E|t u v t' up H IH Lu Lv E]; [apply evolves_refl; auto| |].
  - assert (It := evolves_inv _ _ IH). assert (Ev := imposes_evolves _ _ _ It (update_imposes t u vals It L Sv)). rewrite E in Ev. eapply evolves_trans; eauto.
  - assert (It := evolves_inv _ _ IH). assert (Ev := imposes_evolves _ _ _ It (proj1 (uni_match_imposes t u v It Lu Lv))). rewrite E in Ev. eapply evolves_trans; eauto.
Qed.
Lemma check_rev_nth s : forall out left right i o, check_rev s left right out = true -> nth_error out i = Some o ->
  match nth_error right i with
  | Some r => agrees s o r = true \/ match nth_error left i with Some l => agrees s o l = true | None => True end
  | None => True
  end.
Proof.
  induction out as [|o0 out IH]; intros left right i o H E; [destruct i; discriminate|].
  cbn [check_rev] in H. apply andb_prop in H as [H1 H2]. destruct i as [|i].
  - cbn in E. injection E as <-. destruct right as [|r right]; [exact Logic.I|]. cbn. apply orb_prop in H1 as [H1|H1]; [auto|]. right. destruct left; [exact Logic.I|exact H1].
  - cbn in E. specialize (IH (tl left) (tl right) i o H2 E).
    assert (N : forall x : list nat, nth_error (tl x) i = nth_error x (S i)) by (intros [|y x]; [destruct i|]; reflexivity).
    rewrite !N in IH. exact IH.
Qed.
Lemma error_loop_all s ps : error_loop s ps = Ok true -> forall o l r, In (o, l, r) ps ->
  exists o' v, o = Some o' /\ value s o' = Some v /\ error_one s o' v l = Ok true /\ error_one s o' v r = Ok true.
Proof.
  induction ps as [|[[o0 l0] r0] ps IH]; intros H o l r Hp; [destruct Hp|]. cbn in H.
  destruct o0 as [o'|]; [|discriminate]. destruct (value s o') as [v|] eqn:V; [|discriminate].
  destruct (error_one s o' v l0) as [[]|] eqn:E1; try discriminate. destruct (error_one s o' v r0) as [[]|] eqn:E2; try discriminate.
  destruct Hp as [[= <- <- <-]|Hp]; [exists o', v; auto|]. apply IH; auto.
Qed.

(** When the inference reports completion and the final check (in any later state) passes, the sizes are those of a broadcast. *)
Theorem C24_completion : forall h s pick out left right index, run h s -> chooses pick ->
  repr_ok s out -> repr_ok s left -> repr_ok s right ->
  exists N, forall fuel, N <= fuel -> forall s1 up s2, bcast_uniadics pick fuel out left right index s = (s1, Ok up) ->
    bcast_exit s1 out left right = true -> later s1 s2 -> bcast_error_check s2 out left right index = Ok true ->
    forall rho, sat s2 rho -> bcast_ok out left right index rho.
Proof.
  intros h s pick out left right index R Hp Ho Hl Hr. assert (I := run_inv _ _ R).
  destruct (bcast_all pick out left right index s Hp I Ho Hl Hr) as [N HN]. exists N. intros fuel Hf s1 up s2 E Ex La Ck rho Hs.
  destruct (HN fuel Hf) as [[V1 _] D]. rewrite E in V1. cbn [fst] in V1. destruct (D _ _ E) as [Hm Dn]. clear D HN.
  assert (I1 := evolves_inv _ _ V1). assert (V2 := later_evolves _ _ I1 La). assert (I2 := evolves_inv _ _ V2).
  assert (V12 := evolves_trans _ _ _ V1 V2).
  unfold bcast_exit in Ex. apply andb_prop in Ex as [Ex Cr]. apply andb_prop in Ex as [Ex R3]. apply andb_prop in Ex as [R1 R2].
  apply negb_true_iff in R1, R2, R3.
  assert (Hc : ranks_known out left right = true) by (unfold ranks_known; rewrite R1, R2, R3; auto).
  assert (El : forall r i, repr_ok s r -> rooted r = false -> nth_error (error_list r index) i = axis r (index + i)).
  { intros r i Hok Hroot. unfold error_list, axis. rewrite nth_skipn, Hroot, (proj1 Hok Hroot), app_nil_r. auto. }
  split; auto. intros i Hi. rewrite Hc. assert (Di := Dn i Hi). assert (Lp := live_pos_axes s out left right i Ho Hl Hr).
  destruct (axis out i) as [o|] eqn:Eo; [|exact Logic.I].
  assert (Chk : exists v, value s2 o = Some v /\ error_one s2 o v (axis left i) = Ok true /\ error_one s2 o v (axis right i) = Ok true).
  { destruct (error_loop_all _ _ Ck (Some o) (axis left i) (axis right i)) as (o' & v & [= <-] & X); [|exists v; exact X].
    apply In_zip. exists (i - index). rewrite !El by auto. replace (index + (i - index)) with i by lia. rewrite Eo. split; [|auto].
    assert (B := out_axis_bound out index i o Hi Eo). rewrite core_length, R1 in B.
    unfold error_list. rewrite skipn_length, rev_length, (proj1 Ho R1), app_nil_r. lia. }
  destruct Chk as (v & Vo & C1 & C2).
  assert (Lo2 : live s2 o). { eapply evolves_live; [exact V12|]. apply Lp. }
  assert (Evo : rho o = v) by (eapply value_sat; eauto).
  assert (Err : forall x, live s x -> error_one s2 o v (Some x) = Ok true -> rho x = rho o \/ rho x = 1%Z).
  { intros x Lx C. cbn in C. destruct (Nat.eqb_spec (meta s2 x) (meta s2 o)) as [M|M].
    - left. apply Hs; auto. eapply evolves_live; eauto.
    - destruct (value s2 x) as [n|] eqn:Vx; [|discriminate]. assert (Enx : rho x = n) by (eapply value_sat; [exact I2|eapply evolves_live; [exact V12|exact Lx]|exact Vx|exact Hs]).
      destruct (Z.eqb_spec n v); [left; congruence|]. destruct (Z.eqb_spec n 1); [right; congruence|discriminate]. }
  assert (Agr : forall x, live s x -> agrees s1 o x = true -> rho o = rho x).
  { intros x Lx A. unfold agrees in A. assert (Lo1 : live s1 o) by (eapply evolves_live; [exact V1|apply Lp]). assert (Lx1 : live s1 x) by (eapply evolves_live; eauto).
    assert (Hs1 : sat s1 rho) by (apply V2; auto).
    apply orb_prop in A as [A|A]; [apply Nat.eqb_eq in A; apply Hs1; auto|]. apply andb_prop in A as [A1 A2].
    unfold oz_eqb in A1. apply (proj1 (eqb_eq _ _)) in A1. destruct (value s1 o) as [n|] eqn:Vn; [|discriminate].
    rewrite (value_sat s1 o n rho I1 Lo1 Vn Hs1). symmetry. apply (value_sat s1 x n rho I1 Lx1 (eq_sym A1) Hs1). }
  assert (Cn := check_rev_nth s1 (rev (prefix out)) (rev (prefix left)) (rev (prefix right)) i o Cr).
  assert (Ax : forall r, rooted r = false -> nth_error (rev (prefix r)) i = axis r i) by (intros r H; unfold axis; rewrite H; auto).
  rewrite !Ax in Cn by auto. specialize (Cn Eo).
  destruct (axis left i) as [l|] eqn:Eal; destruct (axis right i) as [r|] eqn:Ear; cbn [option_map axis_rel fits].
  - destruct Lp as (Ll & Lr & Lo). cbn in Ll, Lr, Lo. exists (rho l), (rho r). split; auto. split; auto.
    assert (Hl1 := Err l Ll C1). assert (Hr1 := Err r Lr C2). unfold bcast_rel.
    destruct Cn as [Cn|Cn]; apply Agr in Cn; auto; intuition congruence.
  - destruct Lp as (Ll & Lr & Lo). cbn in Ll, Lo. exists (rho l), 1%Z. split; auto. split; auto. right; left. split; auto.
    apply Hs; [eapply evolves_live; eauto|eapply evolves_live; eauto|]. apply V2; [eapply evolves_live; eauto|eapply evolves_live; eauto|auto].
  - destruct Lp as (Ll & Lr & Lo). cbn in Lr, Lo. exists 1%Z, (rho r). split; auto. split; auto. left. split; auto.
    apply Hs; [eapply evolves_live; eauto|eapply evolves_live; eauto|]. apply V2; [eapply evolves_live; eauto|eapply evolves_live; eauto|auto].
  - exfalso. assert (Hpo := pos_ok_axes out left right index s Ho Hl Hr Hm (None, None, Some o)).
    destruct Hpo as [_ [X|X]]; auto. apply zip_axes. exists i. split; auto. rewrite Eal, Ear, Eo. split; auto.
    assert (B := out_axis_bound out index i o Hi Eo). lia.
Qed.

(** The final check raises only if the sizes cannot be those of a broadcast. *)
Theorem C24_check_raises : forall h s out left right index, run h s ->
  repr_ok s out -> repr_ok s left -> repr_ok s right -> ranks_known out left right = true ->
  (exists e, bcast_error_check s out left right index = Err e) -> forall rho, sat s rho -> ~ bcast_ok out left right index rho.
Proof.
  intros h s out left right index R Ho Hl Hr Hc [e E] rho Hs [Hm Hb]. assert (I := run_inv _ _ R).
  destruct (known_parts _ _ _ Hc) as (Ro & Rl & Rr).
  assert (G : forall ps, (forall o l r, In (o, l, r) ps -> exists i, index <= i /\ o = axis out i /\ l = axis left i /\ r = axis right i) -> forall e, error_loop s ps <> Err e).
  { induction ps as [|[[o l] r] ps IH]; intros Hps e'; cbn; [discriminate|].
    destruct (Hps o l r (or_introl eq_refl)) as (i & Hi & -> & -> & ->).
    destruct (axis out i) as [o|] eqn:Eo; [|discriminate]. destruct (value s o) as [v|] eqn:Vo; [|discriminate].
    assert (Lp := live_pos_axes s out left right i Ho Hl Hr). rewrite Eo in Lp. destruct Lp as (Ll & Lr & Lo). cbn in Lo.
    assert (Evo : rho o = v) by exact (value_sat s o v rho I Lo Vo Hs).
    specialize (Hb i Hi). rewrite Hc, Eo in Hb. cbn [option_map axis_rel] in Hb. destruct Hb as (x & y & Fx & Fy & B). rewrite Evo in B.
    assert (One : forall d z, match d with Some u => live s u | None => True end -> fits true (option_map rho d) z -> z = v \/ z = 1%Z -> forall e, error_one s o v d <> Err e).
    { intros [u|] z Lu F Hz e''; cbn; [|discriminate]. destruct (meta s u =? meta s o); [discriminate|].
      destruct (value s u) as [n|] eqn:Vu; [|discriminate]. assert (En := value_sat s u n rho I Lu Vu Hs). cbn in F.
      replace ((n =? v)%Z || (n =? 1)%Z)%bool with true; [discriminate|]. symmetry. apply orb_true_iff.
      destruct Hz as [Hz|Hz]; [left | right]; apply Z.eqb_eq; congruence. }
    assert (Zx : x = v \/ x = 1%Z) by (unfold bcast_rel in B; intuition congruence).
    assert (Zy : y = v \/ y = 1%Z) by (unfold bcast_rel in B; intuition congruence).
    destruct (error_one s o v (axis left i)) as [[]|e1] eqn:E1; [|discriminate|exfalso; exact (One _ x Ll Fx Zx e1 E1)].
    destruct (error_one s o v (axis right i)) as [[]|e2] eqn:E2; [|discriminate|exfalso; exact (One _ y Lr Fy Zy e2 E2)].
    apply IH. intros o1 l1 r1 H1. apply Hps. right. auto. }
  apply (G _) in E; auto. intros o l r H. apply In_zip in H as (j & _ & [= -> -> ->]). exists (index + j). split; [lia|].
  assert (El : forall r, repr_ok s r -> rooted r = false -> nth_error (error_list r index) j = axis r (index + j)).
  { intros q Hok Hroot. unfold error_list, axis. rewrite nth_skipn, Hroot, (proj1 Hok Hroot), app_nil_r. auto. }
  rewrite !El by auto. auto.
Qed.

(** A first element as choice of [set.pop]. *)
Definition first_key (l : list key3) : key3 := hd (0, 0, 0) l.
Lemma first_key_ok : chooses first_key.
Proof. intros [|k l] H; [congruence|left; auto]. Qed.

(** Shapes [3,1] and [4] of unknown result [x,y]; and [a,1] with unknown [a], [b], result [3,4]. *)
Definition c24_run := after [CNew (Some [3]%Z); CNew (Some [1]%Z); CNew (Some [4]%Z); CNew None; CNew None].
Example C24_example :
  let s := snd c24_run in let out := mkrepr [3; 4] false [] in let left := mkrepr [0; 1] false [] in let right := mkrepr [2] false [] in
  repr_ok s out /\ repr_ok s left /\ repr_ok s right /\ ranks_known out left right = true /\
  let r := bcast_uniadics first_key 5 out left right 0 s in
  (exists up, snd r = Ok up) /\ value (fst r) 3 = Some 3%Z /\ value (fst r) 4 = Some 4%Z /\
  bcast_exit (fst r) out left right = true /\ bcast_error_check (fst r) out left right 0 = Ok true.
Proof.
  assert (RO : forall r, rooted r = false -> suffix r = [] -> forallb (live_b (snd c24_run)) (prefix r) = true -> repr_ok (snd c24_run) r).
  { intros r Hr Hs H. split; auto. intros u Hu. rewrite Hs, app_nil_r in Hu. apply live_b_spec. rewrite forallb_forall in H. auto. }
  split; [apply RO; vm_compute; reflexivity|]. split; [apply RO; vm_compute; reflexivity|]. split; [apply RO; vm_compute; reflexivity|].
  split; [reflexivity|]. cbv zeta. split; [eexists; vm_compute; reflexivity|]. repeat (split; [vm_compute; reflexivity|]). vm_compute; reflexivity.
Qed.

(** Finding: completion is reported although the equation is not implied (an output dimension unified with the left one, the right
    one still free); only the final check of the sizes closes this gap. *)
Definition early_run := after [CNew None; CNew None; CNew None; CMatch 2 0].
Theorem C24_early_completion_refuted :
  let s := snd early_run in let out := mkrepr [2] false [] in let left := mkrepr [0] false [] in let right := mkrepr [1] false [] in
  exists s1 up rho, bcast_uniadics first_key 9 out left right 0 s = (s1, Ok up) /\ bcast_exit s1 out left right = true /\
    sat s1 rho /\ ~ bcast_ok out left right 0 rho.
Proof.
  intros s out left right.
  destruct (bcast_uniadics first_key 9 out left right 0 s) as [s1 r] eqn:E.
  assert (Er : r = Ok no_updates). { change r with (snd (s1, r)). rewrite <- E. vm_compute. reflexivity. }
  subst r. exists s1, no_updates, (fun u => if u =? 1 then 7%Z else 5%Z). split; [auto|].
  assert (Es : s1 = fst (bcast_uniadics first_key 9 out left right 0 s)) by (rewrite E; auto).
  split; [rewrite Es; vm_compute; reflexivity|].
  assert (Nu : nu s1 = 3) by (rewrite Es; vm_compute; reflexivity).
  assert (P : forall u, u < 3 -> possible_values s1 u = None /\ meta s1 u = if u =? 1 then 1 else 2).
  { intros u Hu. rewrite Es. destruct u as [|[|[|u]]]; [..|lia]; split; vm_compute; reflexivity. }
  split.
  - split.
    + intros u [Hu _]. rewrite Nu in Hu. rewrite (proj1 (P u Hu)). exact Logic.I.
    + intros u v [Hu _] [Hv _]. rewrite Nu in Hu, Hv. rewrite (proj2 (P u Hu)), (proj2 (P v Hv)).
      destruct (u =? 1), (v =? 1); auto; discriminate.
  - intros [_ H]. specialize (H 0 (le_n 0)). cbn in H. destruct H as (x & y & -> & -> & R). unfold bcast_rel in R. lia.
Qed.

Print Assumptions C24_sound.
Print Assumptions C24_known_inputs.
Print Assumptions C24_completion.
Print Assumptions C24_check_raises.
Print Assumptions C24_early_completion_refuted.
