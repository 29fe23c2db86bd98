(** * Proofs for sizes of shapes: [size] *)
From Coq Require Import List Arith Lia Bool ZArith.
From Verif Require Import PyBase Uniadic_Model Uniadic_Proofs Uniadic_Props Bcast_Proofs Shape_Model Shape_Proofs Shape_Proofs2 Shape_Proofs3 Shape_Props Reduce_Model
  Rule_Proofs Window_Model Window_Proofs Window_Props Arange_Model Arange_Proofs Arange_Props Reshape_Model Reshape_Proofs Reshape_Props Concat_Model Concat_Proofs Concat_Props
  Flat_Model Flat_Spec Flat_Proofs Flat_Proofs2 Flat_Proofs3 Flat_Props Sizes_Model Sizes_Spec Sizes_Proofs.
Import ListNotations.
Open Scope list_scope. Open Scope nat_scope. Open Scope shm_scope.

(** The dimension that is looked up *)
Definition looked_up (r : shrepr) (d : Z) : option nat :=
  if (0 <=? d)%Z then (if (d <? Z.of_nat (length (pre r)))%Z then Some (nth (Z.to_nat d) (pre r) 0) else None)
  else let l := if no_root r then pre r else suf r in
       if (- Z.of_nat (length (reversed r)) <=? d)%Z then Some (nth (length l - Z.to_nat (- d)) l 0) else None.
Lemma nth_map_error (rho : nat -> Z) l k : k < length l -> nth_error (map rho l) k = Some (rho (nth k l 0)).
Proof. intros H. rewrite nth_error_map, (nth_error_nth' l 0 H). auto. Qed.
Lemma looked_up_ok s q d u rho sh : sinv s -> q < nrep s -> looked_up (rp s q) d = Some u -> allows s rho sh ->
  live (us s) u /\ forall n, size_is (Some d) (sh q) n -> n = rho u.
Proof.
  intros I Hq E A. assert (A' := A). apply allows_den in A' as (Hs & tau & D). specialize (D q Hq). unfold den, dshape in D. unfold looked_up in E. destruct (s_repr _ I q Hq) as (W & Ws & _).
  destruct (Z.leb_spec 0 d) as [Z0|Z0].
  - destruct (Z.ltb_spec d (Z.of_nat (length (pre (rp s q))))) as [L|L]; [|discriminate]. injection E as <-. assert (Lk : Z.to_nat d < length (pre (rp s q))) by lia.
    split; [apply W, in_or_app; left; apply nth_In; auto|]. intros n (k & Hk & Ek & En). assert (k = Z.to_nat d) by lia. subst k.
    rewrite <- D, nth_error_app1, nth_map_error in En by (rewrite ?map_length; auto). congruence.
  - destruct (Z.leb_spec (- Z.of_nat (length (reversed (rp s q)))) d) as [L|L]; [|discriminate]. injection E as <-. unfold reversed in L. unfold no_root. destruct (root (rp s q)) as [v|] eqn:R; rewrite rev_length in L.
    + assert (Lk : length (suf (rp s q)) - Z.to_nat (- d) < length (suf (rp s q))) by lia. split; [apply W, in_or_app; right; apply nth_In; auto|]. intros n (k & Hk & Ek & En).
      rewrite <- D in En, Ek. rewrite !app_length, !map_length in Ek. rewrite app_assoc in En. rewrite nth_error_app2 in En by (rewrite app_length, map_length; lia).
      replace (k - _) with (length (suf (rp s q)) - Z.to_nat (- d)) in En by (rewrite app_length, map_length; lia). rewrite nth_map_error in En by auto. congruence.
    + assert (Lk : length (pre (rp s q)) - Z.to_nat (- d) < length (pre (rp s q))) by lia. split; [apply W, in_or_app; left; apply nth_In; auto|]. intros n (k & Hk & Ek & En).
      rewrite (plain_sh s q rho sh I Hq R A) in En, Ek, Hk. rewrite map_length in Ek, Hk. replace k with (length (pre (rp s q)) - Z.to_nat (- d)) in En by lia. rewrite nth_map_error in En by auto. congruence.
Qed.
Lemma looked_up_plain r d x : root r = None -> length (pre r) = x -> (- Z.of_nat x <= d < Z.of_nat x)%Z -> looked_up r d <> None.
Proof.
  intros R L H. unfold looked_up, reversed, no_root. rewrite R, rev_length. destruct (Z.leb_spec 0 d); [destruct (Z.ltb_spec d (Z.of_nat (length (pre r)))); [discriminate|lia]|].
  destruct (Z.leb_spec (- Z.of_nat (length (pre r))) d); [discriminate|lia].
Qed.
Lemma prod_left x : fold_left Z.mul x 1%Z = fold_right Z.mul 1%Z x.
Proof. apply fold_symmetric; intros; lia. Qed.
Lemma set_int_ok out n : match set_int out n with
  | Ok o => o = Some n /\ known_to_be out n
  | Err e => e = ValueError /\ ~ known_to_be out n
  end.
Proof. unfold set_int. destruct out as [m|]; [destruct (Z.eqb_spec m n) as [->|N]|]; cbn; auto. Qed.

Definition valued (o : option Z) : bool := match o with Some _ => true | None => false end.
(** The result: a size of the output, right for all possible shapes; and present once the shape is determined *)
Definition right_size (dim : option (option Z)) (out o : option Z) (q : nat) (s' : shst) : Prop :=
  (forall d rho sh n, dim = Some d -> allows s' rho sh -> size_is d (sh q) n -> known_to_be out n -> known_to_be o n) /\
  (forall m, out = Some m -> o = Some m) /\ (dim = None -> o = out) /\
  (forall d x n, dim = Some d -> determined s' q x -> size_is d x n -> o = Some n).
Lemma size_ok s q dim out : sinv s -> q < nrep s ->
  match size_rule q dim out s with
  | (s', Ok (b, o)) => sound_for (fun sh => size_given dim out (sh q)) s s' /\ right_size dim out o q s' /\ b = valued o
  | (_, Err e) => e = ValueError /\ excludes (fun sh => size_given dim out (sh q)) s
  end.
Proof.
  intros I Hq. set (P := fun sh : nat -> list Z => size_given dim out (sh q)). unfold size_rule. destruct dim as [[d|]|].
  - set (n := Z.to_nat (if (0 <? d)%Z then d + 1 else Z.abs d)). assert (M := at_least P s q n (negb (0 <? d)%Z) I Hq). lapply M; [clear M; intros M|].
    2: { intros rho sh A (d' & m & -> & _ & k & Hk & Ek & _). unfold n. destruct (Z.ltb_spec 0 d); lia. }
    cbv zeta. unfold hbind at 1. match type of M with match ?t with _ => _ end => destruct t as [s' [[]|e]]; [|auto] end.
    assert (I' := proj1 M). assert (Hq' : q < nrep s') by (destruct M as (_ & -> & _); auto). fold (looked_up (rp s' q) d).
    assert (Det : forall x m, determined s' q x -> size_is (Some d) x m -> match looked_up (rp s' q) d with Some u => value (us s') u | None => None end = Some m).
    { intros x m Dx Sx. assert (Dv := Dx). apply determined_values in Dv as [R V]; [|auto|auto]. assert (L : length (pre (rp s' q)) = length x) by (apply (f_equal (@length _)) in V; unfold values in V; rewrite !map_length in V; auto).
      destruct (looked_up (rp s' q) d) as [u|] eqn:Lu.
      - destruct (sat_exists (us s') (s_inv _ I')) as (rho0 & Hs0). assert (Lv := proj1 (looked_up_ok s' q d u rho0 _ I' Hq' Lu (allows_self s' rho0 (fun _ => []) Hs0))).
        apply value_complete; [apply I'|exact Lv|]. intros rho Hs. symmetry. assert (A := allows_self s' rho (fun _ => []) Hs). apply (proj2 (looked_up_ok s' q d u rho _ I' Hq' Lu A)). rewrite (Dx rho _ A). auto.
      - exfalso. revert Lu. apply (looked_up_plain _ _ (length x)); [auto|auto|]. destruct Sx as (k & Hk & Ek & _). lia. }
    destruct (looked_up (rp s' q) d) as [u|] eqn:Lu; [destruct (value (us s') u) as [m|] eqn:V|].
    + assert (Sz : forall rho sh k, allows s' rho sh -> size_is (Some d) (sh q) k -> k = m). { intros rho sh k A Sk. destruct (looked_up_ok s' q d u rho sh I' Hq' Lu A) as [Lv U]. rewrite (U k Sk). eapply value_sat; [apply I'|exact Lv|exact V|apply A]. }
      assert (X := set_int_ok out m). destruct (set_int out m) as [o|e].
      * destruct X as [-> X]. split; [auto|]. split; [|auto]. split; [intros d' rho sh k E A Sk _; injection E as <-; cbn; eapply Sz; eauto|]. split; [intros m' ->; cbn in X; congruence|]. split; [discriminate|].
        intros d' x k E Dx Sx. injection E as <-. eapply Det; eauto.
      * destruct X as [-> X]. split; [auto|]. eapply excludes_back; [exact M|]. intros rho sh A (d' & k & -> & Ko & Sk). apply X. rewrite <- (Sz rho sh k A Sk). auto.
    + split; [auto|]. split; [|auto]. split; [auto|]. split; [auto|]. split; [auto|]. intros d' x k E Dx Sx. injection E as <-. assert (H := Det x k Dx Sx). discriminate.
    + split; [auto|]. split; [|auto]. split; [auto|]. split; [auto|]. split; [auto|]. intros d' x k E Dx Sx. injection E as <-. assert (H := Det x k Dx Sx). discriminate.
  - assert (K : (if no_root (rp s q) then all_some (values s (pre (rp s q))) else None) = None \/ exists x, (if no_root (rp s q) then all_some (values s (pre (rp s q))) else None) = Some x /\ determined s q x).
    { destruct (no_root (rp s q)) eqn:R; [|auto]. destruct (all_some _) as [x|] eqn:A; [|auto]. right. exists x. split; [auto|]. apply determined_values; [auto|auto|]. split; [apply no_root_iff; auto|apply all_some_spec; auto]. }
    destruct K as [K|(x & K & Dx)]; rewrite K.
    + split; [apply sound_for_refl; auto|]. split; [|auto]. split; [auto|]. split; [auto|]. split; [auto|]. intros d' x k _ Dx _. apply determined_values in Dx as [R V]; [|auto|auto]. rewrite (proj2 (no_root_iff _) R) in K. assert (all_some (values s (pre (rp s q))) = Some x) by (apply all_some_spec; auto). congruence.
    + rewrite prod_left. assert (X := set_int_ok out (fold_right Z.mul 1%Z x)). destruct (set_int _ _) as [o|e].
      * destruct X as [-> X]. split; [apply sound_for_refl; auto|]. split; [|auto]. split; [intros d' rho sh k E A Sk _; injection E as <-; cbn in *; rewrite (Dx rho sh A) in Sk; auto|]. split; [intros m ->; cbn in X; congruence|]. split; [discriminate|].
        intros d' y k E Dy Sy. injection E as <-. cbn in Sy. subst k. destruct (sat_exists (us s) (s_inv _ I)) as (rho & Hs). assert (A := allows_self s rho (fun _ => []) Hs). rewrite <- (Dy rho _ A), (Dx rho _ A). auto.
      * destruct X as [-> X]. split; [auto|]. intros rho sh A (d' & k & -> & Ko & Sk). apply X. cbn in Sk. rewrite (Dx rho sh A) in Sk. rewrite <- Sk. auto.
  - split; [apply sound_for_refl; auto|]. split; [|auto]. split; [discriminate|]. split; [auto|]. split; [auto|discriminate].
Qed.

(** ** Afterwards the axis is there, unless known parts of a shape of unknown rank are in the way. *)
Lemma reaches s q n (behind : bool) s' : sinv s -> q < nrep s -> (root (rp s q) = None \/ (if behind then pre (rp s q) else suf (rp s q)) = []) ->
  (do l <- new_dims None n; do w <- new_variadic; inner_match q (if behind then mkshape [] (Some w) l else mkshape l (Some w) [])) s = (s', Ok tt) ->
  forall rho sh, allows s' rho sh -> n <= length (sh q).
Proof.
  intros I Hq Nc. destruct (fresh_dims n s I) as (s1 & l & E1 & F1 & L1 & V1). assert (I1 : sinv s1) by apply F1. destruct (fresh_var s1 I1) as (s2 & E2 & F2 & V2). assert (F := fresh_nil _ _ _ _ F1 F2). rewrite (with_dims _ _ _ _ _ E1), (with_var _ _ _ _ E2).
  destruct F as (B & V & S & C). set (o := if behind then mkshape [] (Some (nvar s1)) l else mkshape l (Some (nvar s1)) []). intros E rho sh A.
  assert (W : wf_repr s2 o). { unfold o. apply (wf_new s s2 l); [split; auto|destruct behind; cbn; [auto|intros u; rewrite app_nil_r; auto]|destruct behind; cbn; [discriminate|auto]|destruct behind; cbn; intros v Hv; injection Hv as <-; lia]. }
  assert (M := rule_step (fun _ => False) s s2 q o I B Hq W S ltac:(intros; contradiction)). rewrite E in M. destruct M as (_ & _ & M). destruct (M) with (rho := rho) (sh := sh) as (tau & _ & _ & Eq); [|auto|].
  - intros (R & _ & Cr). destruct Nc as [Nc|Nc]; [auto|]. unfold o in Cr. destruct behind; cbn in Cr; rewrite Nc in Cr; cbn in Cr; lia.
  - rewrite Eq. unfold o, dshape. destruct behind; cbn; rewrite !app_length, map_length; lia.
Qed.
