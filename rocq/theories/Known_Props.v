(* C70: values known before evaluation are merged without loss or invention. *)

From Coq Require Import String ZArith QArith List Bool Lia Permutation.
From Verif Require Import PyBase Known_Model Known_Spec Known_Proofs.
Import ListNotations.

(* Setting a value gives the least value with everything known of the old and
   the new one, raises exactly if the two contradict each other, and reports an
   update exactly if something new is known. *)
Theorem C70_set : forall v self, nonempty_lists v -> nonempty_lists self ->
  match set_value v self with
  | Ok (c, updated) => least_above [self; v] c /\ (updated = true <-> ~ below c self)
  | Err e => e = ValueError /\ ~ exists d, below v d /\ below self d
  end.
Proof.
  intros v self Hv Hs. pose proof (set_value_spec v self Hv Hs) as G.
  destruct (set_value v self) as [[c f]|e].
  - destruct G as [_ [G1 [G2 [G3 G4]]]]. split; [split|].
    + intros x [<-|[<-|[]]]; assumption.
    + intros d Hd. apply G3; apply Hd; cbn; auto.
    + destruct f; split; try discriminate; try reflexivity.
      * intros _ H. apply G4 in H. discriminate.
      * intros H. exfalso. apply H. apply G4. reflexivity.
  - destruct G as [-> G]. split; [reflexivity|]. intros [d [H1 H2]]. apply (G d H1 H2).
Qed.

(* The order in which any number of values are set does not matter. *)
Theorem C70_order : forall vs ws, Permutation vs ws -> Forall nonempty_lists vs ->
  match set_values vs TBD, set_values ws TBD with
  | Ok a, Ok b => equal a b
  | Err e, Err e' => e = e'
  | _, _ => False
  end.
Proof.
  intros vs ws P Hv.
  assert (Hw : Forall nonempty_lists ws).
  { apply Forall_forall. intros x Hx. apply (proj1 (Forall_forall _ _) Hv). apply (Permutation_in x (Permutation_sym P) Hx). }
  pose proof (set_values_spec vs TBD Hv ne_tbd) as A. pose proof (set_values_spec ws TBD Hw ne_tbd) as B.
  assert (V : forall x, In x (TBD :: vs) <-> In x (TBD :: ws)).
  { intros x. cbn. split; intros [H|H]; auto; right;
      [apply (Permutation_in x P H) | apply (Permutation_in x (Permutation_sym P) H)]. }
  destruct (set_values vs TBD) as [a|e], (set_values ws TBD) as [b|e'].
  - destruct A as [A1 A2], B as [B1 B2]. split.
    + apply A2. intros v Hx. apply B1, V, Hx.
    + apply B2. intros v Hx. apply A1, V, Hx.
  - destruct B as [_ B]. apply (B a). intros v Hx. apply A, V, Hx.
  - destruct A as [_ A]. apply (A b). intros v Hx. apply B, V, Hx.
  - destruct A as [-> _], B as [-> _]. reflexivity.
Qed.

(* Making a list or tuple: afterwards the output has the entries of the
   arguments, nothing known is lost, nothing is known that does not hold for
   every completion of what was known, the status tells whether all is known,
   and an error means that there is no completion. *)
Theorem C70_sequence : forall tup args out,
  Forall nonempty_lists args -> nonempty_lists out ->
  (tup = true \/ args <> []) ->
  (out = TBD \/ exists m, out = Seq tup m) ->
  match to_sequence tup args out with
  | Ok (args', out', status) =>
      equal out' (Seq tup args') /\
      Forall2 below args args' /\ below out out' /\
      (forall c, Forall2 below args c -> below out (Seq tup c) ->
         Forall2 below args' c /\ below out' (Seq tup c)) /\
      (status = true <-> Forall full args' /\ full out')
  | Err e => e = ValueError /\
      ~ exists c, Forall2 below args c /\ below out (Seq tup c)
  end.
Proof.
  intros tup args out Ha Ho Hne Hk.
  assert (Hf : nonempty_lists (Seq tup args)).
  { destruct tup; constructor; try assumption. destruct Hne as [H|H]; [discriminate | exact H]. }
  pose proof (set_value_spec (Seq tup args) out Hf Ho) as G.
  assert (S : forall (l : list value) (o : value), is_valued o && forallb is_valued l = true <-> Forall full l /\ full o).
  { intros l o. rewrite andb_true_iff, is_valued_iff, all_valued_iff. tauto. }
  destruct Hk as [->|[m ->]].
  - cbn [to_sequence] in *. destruct (set_value (Seq tup args) TBD) as [[o f]|e].
    + destruct G as [_ [G1 [_ [G3 _]]]]. split; [split|]; [apply G3; [apply below_refl | exact I] | exact G1|].
      split; [clear; induction args; constructor; [apply below_refl | assumption]|].
      split; [exact I|]. split; [|apply S].
      intros c Hc _. split; [exact Hc|]. apply G3; [|exact I]. apply below_seq. split; [reflexivity | exact Hc].
    + destruct G as [-> G]. split; [reflexivity|]. intros [c [Hc _]].
      apply (G (Seq tup c)); [apply below_seq; split; [reflexivity | exact Hc] | exact I].
  - cbn [to_sequence]. rewrite eqb_reflx. cbn [negb].
    pose proof (set_each_spec m args (nonempty_all _ _ Ho) Ha) as K.
    destruct (set_value (Seq tup args) (Seq tup m)) as [[o f]|e].
    + destruct G as [_ [G1 [G2 [G3 _]]]]. destruct (set_each m args) as [r|e].
      * destruct K as [K1 [K2 K3]].
        assert (O : below o (Seq tup r)).
        { apply G3; apply below_seq; (split; [reflexivity | assumption]). }
        assert (R : below (Seq tup r) o).
        { destruct o as [|x|u n]; try contradiction. apply below_seq in G1. apply below_seq in G2.
          destruct G1 as [-> G1], G2 as [_ G2]. apply below_seq. split; [reflexivity|]. apply K3; assumption. }
        split; [split; assumption|]. split; [exact K2|]. split; [exact G2|]. split; [|apply S].
        intros c Hc Hm. apply below_seq in Hm. destruct Hm as [_ Hm].
        split; [apply K3; assumption|]. apply G3; apply below_seq; (split; [reflexivity | assumption]).
      * destruct K as [-> K]. split; [reflexivity|]. intros [c [Hc Hm]]. apply below_seq in Hm.
        apply (K c); [apply Hm | exact Hc].
    + destruct G as [-> G]. split; [reflexivity|]. intros [c [Hc Hm]].
      apply (G (Seq tup c)); [apply below_seq; split; [reflexivity | exact Hc] | exact Hm].
Qed.

(* Slices: the bounds determine the slice and the slice the bounds; an error
   means that they contradict each other. *)
Theorem C70_slice : forall start stop step out,
  (out = TBD \/ exists a b c, out = Atom (ASlice a b c)) ->
  let holds x y z o := exists a b c,
    below x (of_bound (Some a)) /\ below y (of_bound (Some b)) /\ below z (of_bound (Some c)) /\
    below o (Atom (ASlice a b c)) in
  match slice_values start stop step out with
  | Ok (x, y, z, o, status) =>
      below (of_bound start) x /\ below (of_bound stop) y /\ below (of_bound step) z /\ below out o /\
      holds x y z o /\
      (forall a b c, below (of_bound start) (of_bound (Some a)) -> below (of_bound stop) (of_bound (Some b)) ->
         below (of_bound step) (of_bound (Some c)) -> below out (Atom (ASlice a b c)) ->
         below x (of_bound (Some a)) /\ below y (of_bound (Some b)) /\ below z (of_bound (Some c)) /\
         below o (Atom (ASlice a b c))) /\
      (status = true <-> full x /\ full y /\ full z /\ full o)
  | Err e => e = ValueError /\ ~ holds (of_bound start) (of_bound stop) (of_bound step) out
  end.
Proof.
  intros start stop step out Ho holds.
  assert (NB : forall b, nonempty_lists (of_bound b)) by (intros [[z|]|]; constructor).
  assert (NO : nonempty_lists out) by (destruct Ho as [->|[a [b [c ->]]]]; constructor).
  assert (NS : forall a b c, nonempty_lists (Atom (ASlice a b c))) by (intros; constructor).
  assert (FB : forall b, full (of_bound (Some b))) by (intros [z|]; constructor).
  assert (IB : forall a b, below (of_bound (Some a)) (of_bound (Some b)) -> a = b).
  { intros [a|] [b|] H; cbn in H; try reflexivity.
    - destruct H as [H|[p [q [Hp [Hq E]]]]]; [congruence|]. inversion Hp; inversion Hq; subst.
      unfold Qeq in E. cbn in E. f_equal. lia.
    - destruct H as [H|[p [q [Hp [Hq E]]]]]; [discriminate | inversion Hq].
    - destruct H as [H|[p [q [Hp [Hq E]]]]]; [discriminate | inversion Hp]. }
  assert (IS : forall a b c a' b' c', below (Atom (ASlice a b c)) (Atom (ASlice a' b' c')) -> a = a' /\ b = b' /\ c = c').
  { intros a b c a' b' c' H. cbn in H. destruct H as [H|[p [q [Hp _]]]]; [injection H; auto | inversion Hp]. }
  destruct (match start, stop, step with Some _, Some _, Some _ => true | _, _, _ => false end) eqn:K.
  - destruct start as [a|]; [|discriminate]. destruct stop as [b|]; [|discriminate]. destruct step as [c|]; [|discriminate].
    cbn [slice_values]. pose proof (set_value_spec (Atom (ASlice a b c)) out (NS a b c) NO) as G.
    destruct (set_value (Atom (ASlice a b c)) out) as [[o f]|e].
    + destruct G as [_ [G1 [G2 [G3 _]]]].
      assert (O : below o (Atom (ASlice a b c)) /\ full o).
      { destruct o as [|x|]; try contradiction. split; [|constructor]. cbn in *. apply same_sym, G1. }
      destruct O as [O FO]. repeat split; try apply below_refl; try exact G2; auto.
      * exists a, b, c. repeat split; try apply below_refl. exact O.
      * apply IB in H. apply IB in H0. apply IB in H1. subst. exact O.
    + destruct G as [-> G]. split; [reflexivity|]. intros [a' [b' [c' [H1 [H2 [H3 H4]]]]]].
      apply IB in H1. apply IB in H2. apply IB in H3. subst. apply (G (Atom (ASlice a' b' c'))); [apply below_refl | exact H4].
  - destruct Ho as [->|[a [b [c ->]]]].
    + assert (E : slice_values start stop step TBD = Ok (of_bound start, of_bound stop, of_bound step, TBD, false))
        by (destruct start as [?|], stop as [?|], step as [?|]; try discriminate; reflexivity).
      rewrite E. repeat split; try apply below_refl; auto; try discriminate.
      * exists (match start with Some a => a | None => None end), (match stop with Some a => a | None => None end),
          (match step with Some a => a | None => None end).
        repeat split; try exact I; [destruct start | destruct stop | destruct step]; try apply below_refl; exact I.
      * intros [_ [_ [_ H]]]. inversion H.
    + assert (E : slice_values start stop step (Atom (ASlice a b c)) =
        match set_value (of_bound (Some a)) (of_bound start) with
        | Err e => Err e
        | Ok (x, _) =>
            match set_value (of_bound (Some b)) (of_bound stop) with
            | Err e => Err e
            | Ok (y, _) =>
                match set_value (of_bound (Some c)) (of_bound step) with
                | Err e => Err e
                | Ok (z, _) => Ok (x, y, z, Atom (ASlice a b c), true)
                end
            end
        end) by (destruct start as [?|], stop as [?|], step as [?|]; try discriminate; reflexivity).
      rewrite E. clear E K.
      assert (U : forall v s, match set_value (of_bound (Some v)) (of_bound s) with
        | Ok (w, _) => below (of_bound s) w /\ below w (of_bound (Some v)) /\ full w
        | Err e => e = ValueError /\ ~ below (of_bound s) (of_bound (Some v))
        end).
      { intros v s. pose proof (set_value_spec _ _ (NB (Some v)) (NB s)) as G.
        destruct (set_value (of_bound (Some v)) (of_bound s)) as [[w f]|e].
        - destruct G as [_ [G1 [G2 [G3 _]]]]. split; [exact G2|].
          destruct v as [v|]; cbn [of_bound] in *; (destruct w as [|x|]; try contradiction);
            cbn in *; (split; [apply same_sym, G1 | constructor]).
        - destruct G as [-> G]. split; [reflexivity|]. intros H. apply (G (of_bound (Some v))); [apply below_refl | exact H]. }
      pose proof (U a start) as A. destruct (set_value (of_bound (Some a)) (of_bound start)) as [[x fx]|e].
      2:{ destruct A as [-> A]. split; [reflexivity|]. intros [a' [b' [c' [H1 [H2 [H3 H4]]]]]].
          apply IS in H4. destruct H4 as [<- [<- <-]]. contradiction. }
      pose proof (U b stop) as B. destruct (set_value (of_bound (Some b)) (of_bound stop)) as [[y fy]|e].
      2:{ destruct B as [-> B]. split; [reflexivity|]. intros [a' [b' [c' [H1 [H2 [H3 H4]]]]]].
          apply IS in H4. destruct H4 as [<- [<- <-]]. contradiction. }
      pose proof (U c step) as C. destruct (set_value (of_bound (Some c)) (of_bound step)) as [[z fz]|e].
      2:{ destruct C as [-> C]. split; [reflexivity|]. intros [a' [b' [c' [H1 [H2 [H3 H4]]]]]].
          apply IS in H4. destruct H4 as [<- [<- <-]]. contradiction. }
      destruct A as [A1 [A2 A3]], B as [B1 [B2 B3]], C as [C1 [C2 C3]].
      split; [exact A1|]. split; [exact B1|]. split; [exact C1|]. split; [apply below_refl|].
      split; [exists a, b, c; repeat split; try assumption; apply below_refl|].
      split; [|split; [intros _; repeat split; try assumption; constructor | reflexivity]].
      intros a' b' c' _ _ _ H4. apply IS in H4. destruct H4 as [<- [<- <-]]. repeat split; try assumption. apply below_refl.
Qed.

Lemma position_spec : forall v l i,
  length (filter (fun x => veq x v) l) = 1%nat ->
  exists j x, position v l i = (i + j)%nat /\ nth_error l j = Some x /\ veq x v = true /\
    forall k y, nth_error l k = Some y -> veq y v = true -> k = j.
Proof.
  intros v l. induction l as [|x r IH]; intros i H; cbn [filter] in H; [discriminate|].
  cbn [position]. destruct (veq x v) eqn:E.
  - exists 0%nat, x. split; [lia|]. split; [reflexivity|]. split; [exact E|].
    intros [|k] y Hk Hy; [reflexivity|]. exfalso. cbn in Hk, H. injection H as H.
    apply length_zero_iff_nil in H. apply nth_error_In in Hk.
    assert (In y (filter (fun x => veq x v) r)) by (apply filter_In; auto). rewrite H in H0. exact H0.
  - destruct (IH (S i) H) as [j [y [P1 [P2 [P3 P4]]]]]. exists (S j), y.
    split; [lia|]. split; [exact P2|]. split; [exact P3|].
    intros [|k] z Hk Hz; cbn in Hk; [injection Hk as <-; congruence|]. f_equal. apply (P4 k z Hk Hz).
Qed.

(* Indexing: a known index gives the output the entry, counted from the end when
   negative, and raises outside; an index found from the output is the only
   place of the output. *)
Theorem C70_item : forall l index out, Forall nonempty_lists l -> nonempty_lists out ->
  (forall i, index = Some i ->
     (forall j v, nth_error l j = Some v ->
        i = Z.of_nat j \/ i = (Z.of_nat j - Z.of_nat (length l))%Z ->
        match item_values l index out with
        | Ok (ix, out', status) =>
            ix = Atom (AInt i) /\ least_above [out; v] out' /\ (status = true <-> full out')
        | Err e => e = ValueError /\ ~ exists d, below v d /\ below out d
        end) /\
     ((i < - Z.of_nat (length l) \/ Z.of_nat (length l) <= i)%Z -> item_values l index out = Err IndexError)) /\
  (index = None -> exists ix status, item_values l index out = Ok (ix, out, status) /\
     (status = false -> ix = TBD) /\
     (status = true -> exists j v, ix = Atom (AInt (Z.of_nat j)) /\ nth_error l j = Some v /\ equal v out /\
        forall k w, nth_error l k = Some w -> equal w out -> k = j)).
Proof.
  intros l index out Hl Ho. split.
  - intros i ->. split.
    + intros j v Hj Hi.
      assert (Lt : (j < length l)%nat) by (apply nth_error_Some; rewrite Hj; discriminate).
      assert (E : entry l i = Ok v).
      { unfold entry. destruct (Z.ltb_spec i 0) as [N|N].
        - assert (E : (i + Z.of_nat (length l))%Z = Z.of_nat j) by (destruct Hi; lia).
          cbv zeta. rewrite E. destruct (Z.ltb_spec (Z.of_nat j) 0); [lia|]. rewrite Nat2Z.id, Hj. reflexivity.
        - assert (E : i = Z.of_nat j) by (destruct Hi; lia). subst i.
          cbv zeta. destruct (Z.ltb_spec (Z.of_nat j) 0); [lia|]. rewrite Nat2Z.id, Hj. reflexivity. }
      cbn [item_values]. rewrite E.
      assert (Hv : nonempty_lists v) by (apply (proj1 (Forall_forall _ _) Hl), (nth_error_In l j Hj)).
      pose proof (C70_set v out Hv Ho) as G. destruct (set_value v out) as [[o f]|e]; [|exact G].
      split; [reflexivity|]. split; [apply G | apply is_valued_iff].
    + intros H. cbn [item_values]. unfold entry. cbv zeta. destruct (Z.ltb_spec i 0) as [N|N].
      * destruct (Z.ltb_spec (i + Z.of_nat (length l)) 0); [reflexivity | lia].
      * destruct (Z.ltb_spec i 0); [lia|]. rewrite (proj2 (nth_error_None l (Z.to_nat i))); [reflexivity | lia].
  - intros ->. cbn [item_values].
    destruct (negb (existsb (fun v => veq v TBD) l) && _ && _) eqn:E.
    + exists (Atom (AInt (Z.of_nat (position out l 0)))), true. split; [reflexivity|].
      split; [discriminate|]. intros _. apply andb_prop in E. destruct E as [_ E]. apply Nat.eqb_eq in E.
      destruct (position_spec out l 0 E) as [j [v [P1 [P2 [P3 P4]]]]]. exists j, v.
      split; [rewrite P1; reflexivity|]. split; [exact P2|]. split; [apply veq_below, P3|].
      intros k w Hk Hw. apply (P4 k w Hk). apply veq_below, Hw.
    + exists TBD, false. split; [reflexivity|]. split; [reflexivity | discriminate].
Qed.

(* FINDING.  An index found from the output is written as the nonnegative one;
   giving the equivalent negative index afterwards raises, although giving it
   first does not. *)
Theorem C70_index_refuted : forall l j v out,
  nth_error l j = Some v -> out = v -> nonempty_lists v -> Forall nonempty_lists l ->
  (exists status, item_values l (Some (Z.of_nat j - Z.of_nat (length l))%Z) out =
     Ok (Atom (AInt (Z.of_nat j - Z.of_nat (length l))), out, status)) /\
  (forall i, item_values l None out = Ok (Atom (AInt i), out, true) ->
     set_value (Atom (AInt (i - Z.of_nat (length l)))) (Atom (AInt i)) = Err ValueError).
Proof.
  intros l j v out Hj -> Hv Hl.
  assert (Lt : (j < length l)%nat) by (apply nth_error_Some; rewrite Hj; discriminate).
  split.
  - cbn [item_values]. unfold entry. cbv zeta.
    destruct (Z.ltb_spec (Z.of_nat j - Z.of_nat (length l)) 0); [|lia].
    replace (Z.of_nat j - Z.of_nat (length l) + Z.of_nat (length l))%Z with (Z.of_nat j) by lia.
    destruct (Z.ltb_spec (Z.of_nat j) 0); [lia|]. rewrite Nat2Z.id, Hj.
    unfold set_value. rewrite (proj2 (veq_below v v)) by (split; apply below_refl).
    rewrite orb_true_r. eexists. reflexivity.
  - intros i _. unfold set_value. cbn [orb].
    assert (N : veq (Atom (AInt i)) (Atom (AInt (i - Z.of_nat (length l)))) = false).
    { cbn. destruct (Qeq_bool (inject_Z i) (inject_Z (i - Z.of_nat (length l)))) eqn:E; [|reflexivity].
      apply Qeq_bool_iff in E. unfold Qeq in E. cbn [inject_Z Qnum Qden] in E. lia. }
    rewrite N. cbn [has_type negb match_values]. rewrite veq_sym in N. rewrite N. reflexivity.
Qed.

(* FINDING.  The empty list cannot be the value of a connection: setting it, or
   making it from no arguments, raises TypeError, whereas the empty tuple is
   accepted. *)
Theorem C70_empty_refuted :
  set_value (Seq false []) TBD = Err TypeError /\
  to_sequence false [] TBD = Err TypeError /\
  (forall l, In (Seq false []) l -> set_value (Seq true l) TBD = Err TypeError) /\
  set_value (Seq true []) TBD = Ok (Seq true [], true).
Proof.
  split; [reflexivity|]. split; [reflexivity|]. split; [|reflexivity].
  intros l H. unfold set_value. cbn [orb veq].
  assert (E : has_type (Seq true l) = false).
  { destruct (has_type (Seq true l)) eqn:E; [|reflexivity]. apply has_type_iff in E. apply nonempty_all in E.
    apply (proj1 (Forall_forall _ _) E) in H. inversion H. congruence. }
  rewrite E. reflexivity.
Qed.

(* FINDING.  A value equal by Python's == to the one an edge has is skipped
   before its type is looked at, and True == 1 == 1.0: the first of them remains,
   so that the value and the type an operator finally sees depend on the order. *)
Theorem C70_bool_refuted : forall v w, below v w -> below w v -> v <> TBD ->
  nonempty_lists v -> nonempty_lists w ->
  (set_values [v; w] TBD = Ok v /\ set_values [w; v] TBD = Ok w) /\ exists x y, x <> y /\ set_values [x; y] TBD = Ok x /\ set_values [y; x] TBD = Ok y.
Proof.
  intros v w H1 H2 Hn Nv Nw. apply has_type_iff in Nv as Tv. apply has_type_iff in Nw as Tw. split.
  - assert (W : w <> TBD) by (intros ->; destruct v; try contradiction; congruence).
    assert (T : forall x, x <> TBD -> has_type x = true -> set_value x TBD = Ok (x, true)).
    { intros x Hx Tx. unfold set_value. destruct x; try congruence; cbn [orb veq negb].
      - reflexivity.
      - rewrite Tx. cbn [negb match_values veq]. rewrite Tx. reflexivity. }
    assert (E : forall x y, below x y -> below y x -> set_value y x = Ok (x, false)).
    { intros x y A B. unfold set_value. rewrite (proj2 (veq_below x y)) by tauto. rewrite orb_true_r. reflexivity. }
    cbn [set_values]. rewrite (T v Hn Tv), (T w W Tw), (E v w H1 H2), (E w v H2 H1). split; reflexivity.
  - exists (Atom (ABool true)), (Atom (AInt 1)). split; [discriminate|]. split; reflexivity.
Qed.

(* Three partly known tuples. *)
Example C70_order_ex :
  let n z := Atom (AInt z) in
  let v1 := Seq true [n 1%Z; TBD; TBD] in
  let v2 := Seq true [TBD; Seq false [n 2%Z; TBD]; TBD] in
  let v3 := Seq true [TBD; Seq false [TBD; n 3%Z]; n 4%Z] in
  Forall nonempty_lists [v1; v2; v3] /\
  set_values [v1; v2; v3] TBD = Ok (Seq true [n 1%Z; Seq false [n 2%Z; n 3%Z]; n 4%Z]) /\
  set_values [v3; v1; v2] TBD = Ok (Seq true [n 1%Z; Seq false [n 2%Z; n 3%Z]; n 4%Z]).
Proof.
  cbn zeta. split; [|split; reflexivity].
  repeat constructor; discriminate.
Qed.

Example C70_bool_ex :
  below (Atom (ABool true)) (Atom (AInt 1)) /\ below (Atom (AInt 1)) (Atom (ABool true)).
Proof. apply veq_below. reflexivity. Qed.

Example C70_sequence_ex :
  to_sequence false [Atom (AInt 1); TBD] (Seq false [TBD; Atom (AInt 2)]) =
    Ok ([Atom (AInt 1); Atom (AInt 2)], Seq false [Atom (AInt 1); Atom (AInt 2)], true) /\
  to_sequence true [Atom (AInt 1); TBD] TBD = Ok ([Atom (AInt 1); TBD], Seq true [Atom (AInt 1); TBD], false) /\
  to_sequence true [Atom (AInt 1); TBD] (Seq true [Atom (AInt 2); TBD]) = Err ValueError.
Proof. repeat split; reflexivity. Qed.

Example C70_slice_ex :
  slice_values None (Some (Some 5%Z)) None (Atom (ASlice None (Some 5%Z) (Some 2%Z))) =
    Ok (Atom ANone, Atom (AInt 5), Atom (AInt 2), Atom (ASlice None (Some 5%Z) (Some 2%Z)), true) /\
  slice_values None (Some (Some 4%Z)) None (Atom (ASlice None (Some 5%Z) (Some 2%Z))) = Err ValueError.
Proof. split; reflexivity. Qed.

Example C70_item_ex :
  item_values [Atom (AInt 7); Seq true [TBD]; Atom (AInt 8)] (Some (-1)%Z) TBD = Ok (Atom (AInt (-1)), Atom (AInt 8), true) /\
  item_values [Atom (AInt 7); Atom (AInt 9); Atom (AInt 8)] None (Atom (AInt 9)) = Ok (Atom (AInt 1), Atom (AInt 9), true) /\
  item_values [Atom (AInt 9); Atom (AInt 9)] None (Atom (AInt 9)) = Ok (TBD, Atom (AInt 9), false).
Proof. repeat split; reflexivity. Qed.

Print Assumptions C70_set.
Print Assumptions C70_order.
Print Assumptions C70_sequence.
Print Assumptions C70_slice.
Print Assumptions C70_item.
Print Assumptions C70_index_refuted.
Print Assumptions C70_empty_refuted.
Print Assumptions C70_bool_refuted.
