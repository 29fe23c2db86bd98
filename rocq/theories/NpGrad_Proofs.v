(** * Proofs about the numpy gradient helpers. *)
From Coq Require Import String Ascii List Arith Lia Bool ZArith.
From Verif Require Import PyBase PyStrings NpGrad_Model.
Import ListNotations.
Open Scope string_scope.
Open Scope list_scope.
Open Scope nat_scope.

Fixpoint indices (s : list nat) : list (list nat) :=
  match s with
  | [] => [[]]
  | n :: s' => flat_map (fun i => map (cons i) (indices s')) (seq 0 n)
  end.
Definition valid (s idx : list nat) : Prop := Forall2 (fun n i => i < n) s idx.

Lemma indices_valid s : forall idx, In idx (indices s) <-> valid s idx.
Proof.
  induction s as [|n s IH]; simpl; intros idx.
  - split; [intros [<-|[]]; constructor|]. intros V. inversion V. auto.
  - rewrite in_flat_map. split.
    + intros (i & Ii & Im). apply in_map_iff in Im. destruct Im as (r & <- & Ir). apply in_seq in Ii.
      constructor; [lia|]. apply IH; auto.
    + intros V. inversion V; subst. exists y. split; [apply in_seq; lia|]. apply in_map. apply IH; auto.
Qed.

(** ** Row-major positions *)
Lemma ravel_lt s : forall idx, valid s idx -> ravel s idx < prod s.
Proof.
  induction s as [|n s IH]; intros idx V; inversion V; subst; simpl; [lia|].
  apply IH in H3. unfold prod in *. simpl. nia.
Qed.
Lemma unravel_ravel s : forall idx, valid s idx -> unravel s (ravel s idx) = idx.
Proof.
  induction s as [|n s IH]; intros idx V; inversion V; subst; simpl; auto.
  pose proof (ravel_lt s _ H3) as L. f_equal.
  - rewrite Nat.div_add_l by lia. rewrite Nat.div_small by lia. lia.
  - rewrite Nat.add_comm, Nat.mod_add by lia. rewrite Nat.mod_small by lia. auto.
Qed.
Lemma prod_cons n s : prod (n :: s) = n * prod s.
Proof. reflexivity. Qed.
Lemma ravel_indices s : map (ravel s) (indices s) = seq 0 (prod s).
Proof.
  induction s as [|n s IH]; auto.
  rewrite prod_cons. cbn [indices].
  assert (X : forall l m, map (ravel (n :: s)) (flat_map (fun i => map (cons i) (indices s)) (seq m l)) = seq (m * prod s) (l * prod s)).
  { induction l as [|l IHl]; intros m; simpl; auto. rewrite map_app, IHl, map_map. simpl.
    rewrite seq_app. f_equal.
    - rewrite <- (map_map (ravel s) (fun x => m * prod s + x)), IH.
      generalize (prod s) as P, (m * prod s) as M. clear. intros P M. revert M. 
      assert (Y : forall P q M, map (fun x => M + x) (seq q P) = seq (M + q) P).
      { induction P0; intros; simpl; auto. f_equal. rewrite IHP0. f_equal. lia. }
      intros. rewrite Y. f_equal. lia.
    - f_equal. lia. }
  apply (X n 0).
Qed.

(** ** Sums *)
Section Sum.
  Context {E : Type}.
  Variable ezero : E.
  Variable eadd : E -> E -> E.
  Hypothesis Eassoc : forall a b c, eadd a (eadd b c) = eadd (eadd a b) c.
  Hypothesis Eid : forall a, eadd ezero a = a.
  Hypothesis Eid_r : forall a, eadd a ezero = a.
  Notation esum := (esum ezero eadd).
  Notation sum_mask := (sum_mask ezero eadd).

  Lemma esum_app a b : esum (a ++ b) = eadd (esum a) (esum b).
  Proof. unfold NpGrad_Model.esum. induction a; simpl; [rewrite Eid; auto|]. rewrite IHa, Eassoc; auto. Qed.
  Lemma esum_flat {A B} (f : B -> E) (g : A -> list B) l :
    esum (map f (flat_map g l)) = esum (map (fun x => esum (map f (g x))) l).
  Proof. induction l; simpl; auto. rewrite map_app, esum_app, IHl; auto. Qed.
  Lemma esum_zero {A} (f : A -> E) l : (forall x, In x l -> f x = ezero) -> esum (map f l) = ezero.
  Proof. unfold NpGrad_Model.esum. induction l; simpl; intros H; auto. rewrite H, IHl, Eid; auto. Qed.
  Lemma esum_one (f : nat -> E) i n : i < n -> (forall k, k <> i -> f k = ezero) -> esum (map f (seq 0 n)) = f i.
  Proof.
    intros L Z. replace n with (i + S (n - i - 1)) by lia. rewrite seq_app, map_app, esum_app. simpl.
    rewrite !esum_zero, Eid, Eid_r; auto; intros k Ik; apply in_seq in Ik; apply Z; lia.
  Qed.

  (** ** The entry of the reduced gradient *)
  Definition bmask (ss gs : list nat) : list bool :=
    zip_with (fun s g => negb (Nat.eqb s g) && negb (Nat.eqb g 1)) ss gs.
  Definition project (ss j : list nat) : list nat := zip_with (fun s i => if Nat.eqb s 1 then 0 else i) ss j.
  Definition okdim (s g : nat) : Prop := s = g \/ (s = 1 /\ 1 <= g).

  Lemma filter_cons_eq k i (P : list nat -> list nat) r (l : list (list nat)) (c : nat) :
    filter (fun j => eqb (match j with x :: j' => (if Nat.eqb c 1 then 0 else x) :: P j' | [] => [] end) (i :: r)) (map (cons k) l) =
    if Nat.eqb (if Nat.eqb c 1 then 0 else k) i then map (cons k) (filter (fun j => eqb (P j) r) l) else [].
  Proof.
    induction l as [|j l IH]; simpl; [destruct (Nat.eqb _ i); auto|]. rewrite IH.
    set (z := if Nat.eqb c 1 then 0 else k). unfold eqb. destruct (Nat.eqb z i) eqn:Z.
    - apply Nat.eqb_eq in Z. destruct (eq_dec (z :: P j) (i :: r)) as [e|n], (eq_dec (P j) r) as [e'|n']; auto.
      + injection e as _ e. congruence.
      + destruct n. congruence.
    - apply Nat.eqb_neq in Z. destruct (eq_dec (z :: P j) (i :: r)) as [e|n]; auto. injection e as e _. congruence.
  Qed.

  Lemma fiber_aligned : forall ss gs, Forall2 okdim ss gs -> forall idx f, valid ss idx ->
    esum (map f (filter (fun j => eqb (project ss j) idx) (indices gs))) =
    sum_mask (bmask ss gs) gs f (unmasked (bmask ss gs) idx).
  Proof.
    induction 1 as [|s g ss gs Ok _ IH]; intros idx f V; inversion V; subst.
    - simpl. unfold eqb. destruct (eq_dec [] []); [|congruence]. simpl. apply Eid_r.
    - rename y into i, l' into r. rename H1 into Hi, H3 into Vr.
      transitivity (esum (map (fun k => esum (map f (filter (fun j => eqb (project (s :: ss) j) (i :: r)) (map (cons k) (indices gs))))) (seq 0 g))).
      { cbn [indices]. rewrite <- (esum_flat f (fun k => filter _ (map (cons k) (indices gs)))). f_equal. f_equal.
        generalize (seq 0 g). intros l. induction l; [reflexivity|]. cbn [flat_map]. rewrite filter_app, IHl. auto. }
      assert (Inner : forall k, esum (map f (filter (fun j => eqb (project (s :: ss) j) (i :: r)) (map (cons k) (indices gs)))) =
         if Nat.eqb (if Nat.eqb s 1 then 0 else k) i then
           sum_mask (bmask ss gs) gs (fun r' => f (k :: r')) (unmasked (bmask ss gs) r) else ezero).
      { intros k. assert (Hf : forall l, filter (fun j => eqb (project (s :: ss) j) (i :: r)) l =
           filter (fun j => eqb (match j with x :: j' => (if Nat.eqb s 1 then 0 else x) :: project ss j' | [] => [] end) (i :: r)) l).
        { intros l. apply filter_ext. intros [|x j']; auto. }
        rewrite Hf, (filter_cons_eq k i (project ss) r (indices gs) s).
        destruct (Nat.eqb _ i); auto. rewrite map_map. apply (IH r (fun r' => f (k :: r')) Vr). }
      rewrite (map_ext _ _ Inner). unfold bmask. cbn [zip_with]. fold (bmask ss gs).
      destruct (Nat.eqb s g) eqn:Esg; simpl.
      + apply Nat.eqb_eq in Esg. subst g. destruct (Nat.eqb s 1) eqn:E1.
        * apply Nat.eqb_eq in E1. subst s. assert (i = 0) by lia. subst i. simpl. unfold NpGrad_Model.esum. simpl. apply Eid_r.
        * rewrite (esum_one _ i s Hi); [rewrite Nat.eqb_refl; auto|]. intros k Nk. apply Nat.eqb_neq in Nk. rewrite Nk; auto.
      + apply Nat.eqb_neq in Esg. destruct Ok as [?|(-> & Hg)]; [congruence|]. assert (i = 0) by lia. subst i.
        assert (Ng : Nat.eqb g 1 = false) by (apply Nat.eqb_neq; lia). rewrite Ng. simpl. auto.
  Qed.

  Lemma fiber : forall d ss gs, length gs = d + length ss -> Forall2 okdim ss (skipn d gs) -> forall idx f, valid ss idx ->
    let mask := repeat true d ++ bmask ss (skipn d gs) in
    esum (map f (filter (fun j => eqb (project ss (skipn d j)) idx) (indices gs))) =
    sum_mask mask gs f (unmasked (bmask ss (skipn d gs)) idx).
  Proof.
    induction d as [|d IH]; intros ss gs L F idx f V; cbv zeta.
    - simpl in *. apply fiber_aligned; auto.
    - destruct gs as [|g gs]; simpl in L; [lia|]. simpl in F. cbn [repeat app indices sum_mask NpGrad_Model.sum_mask].
      transitivity (esum (map (fun k => esum (map f (filter (fun j => eqb (project ss (skipn (S d) j)) idx) (map (cons k) (indices gs))))) (seq 0 g))).
      { rewrite <- (esum_flat f (fun k => filter _ (map (cons k) (indices gs)))). f_equal. f_equal.
        generalize (seq 0 g). intros l. induction l; [reflexivity|]. cbn [flat_map]. rewrite filter_app, IHl. auto. }
      f_equal. apply map_ext. intros k.
      assert (Hf : filter (fun j => eqb (project ss (skipn (S d) j)) idx) (map (cons k) (indices gs)) =
                   map (cons k) (filter (fun j => eqb (project ss (skipn d j)) idx) (indices gs))).
      { induction (indices gs) as [|j l IHl]; auto. cbn [map filter]. rewrite IHl. cbn [skipn]. destruct (eqb _ idx); auto. }
      rewrite Hf, map_map. apply (IH ss gs ltac:(lia) F idx (fun r => f (k :: r)) V).
  Qed.
End Sum.

(** ** Reshaping away axes of extent one *)
Lemma squeeze : forall ss gs, Forall2 okdim ss gs -> forall idx, valid ss idx ->
  let m := bmask ss gs in
  ravel ss idx = ravel (unmasked m gs) (unmasked m idx) /\ prod (unmasked m gs) = prod ss /\ valid (unmasked m gs) (unmasked m idx).
Proof.
  induction 1 as [|s g ss gs Ok _ IH]; intros idx V; inversion V; subst; cbv zeta.
  - simpl. repeat split; constructor.
  - destruct (IH _ H3) as (R & P & Va). cbv zeta in *. unfold bmask. cbn [zip_with]. fold (bmask ss gs).
    destruct (Nat.eqb s g) eqn:Esg; simpl.
    + apply Nat.eqb_eq in Esg. subst g. rewrite R, P. split; auto. split; [|constructor; auto]. auto.
    + apply Nat.eqb_neq in Esg. destruct Ok as [?|(-> & Hg)]; [congruence|].
      assert (Ng : Nat.eqb g 1 = false) by (apply Nat.eqb_neq; lia). rewrite Ng. simpl. assert (y = 0) by lia. subst y. simpl.
      split; auto. split; auto. rewrite P. change (prod ss = 1 * prod ss). lia.
Qed.
Lemma squeeze_prod : forall ss gs, Forall2 okdim ss gs -> prod (unmasked (bmask ss gs) gs) = prod ss.
Proof.
  induction 1 as [|s g ss gs Ok _ IH]; auto. unfold bmask. cbn [zip_with]. fold (bmask ss gs).
  destruct (Nat.eqb s g) eqn:Esg; simpl.
  - apply Nat.eqb_eq in Esg. subst g. rewrite IH; auto.
  - apply Nat.eqb_neq in Esg. destruct Ok as [?|(-> & Hg)]; [congruence|].
    assert (Ng : Nat.eqb g 1 = false) by (apply Nat.eqb_neq; lia). rewrite Ng. simpl. lia.
Qed.
Lemma unmasked_all_false {A} (l : list A) m : length m = length l -> (forall b, In b m -> b = false) -> unmasked m l = l.
Proof.
  revert m. induction l as [|x l IH]; intros [|b m] L H; simpl in *; try lia; auto.
  rewrite (H b) by auto. f_equal. apply IH; auto.
Qed.
Lemma unmasked_lead {A} d (l : list A) m : unmasked (repeat true d ++ m) l = unmasked m (skipn d l) \/ length l < d.
Proof.
  revert l. induction d as [|d IH]; intros l; simpl; auto. destruct l as [|x l]; simpl; [right; lia|].
  destruct (IH l); auto. right; lia.
Qed.

(** ** The axes *)
Definition step (L : nat) (rg : list nat) (axes : list nat) (ix : nat * nat) : res (list nat) :=
  let (idx, item) := ix in
  match nth_error rg idx with
  | None => Err IndexError
  | Some g => if g <? item then Err ValueError
              else Ok (if negb (Nat.eqb item g) && negb (Nat.eqb g 1) then axes ++ [L - (idx + 1)] else axes)
  end.
Definition test (rg : list nat) (ix : nat * nat) : bool :=
  negb (Nat.eqb (snd ix) (nth (fst ix) rg 0)) && negb (Nat.eqb (nth (fst ix) rg 0) 1).
Lemma helper_fold L rg : forall l axes,
  (forall idx item, In (idx, item) l -> exists g, nth_error rg idx = Some g /\ item <= g) ->
  foldM (step L rg) l axes = Ok (axes ++ map (fun ix => L - (fst ix + 1)) (filter (test rg) l)).
Proof.
  induction l as [|[idx item] l IH]; intros axes H.
  - simpl. rewrite app_nil_r. auto.
  - cbn [foldM]. destruct (H idx item (or_introl eq_refl)) as (g & Eg & Le). unfold step at 1. rewrite Eg.
    assert (Lt : (g <? item) = false) by (apply Nat.ltb_ge; auto). rewrite Lt. cbn [bind].
    rewrite IH by (intros; apply H; right; auto). cbn [filter]. unfold test at 2. cbn [fst snd].
    rewrite (nth_error_nth _ _ 0 Eg). destruct (negb _ && negb _); simpl; auto. rewrite <- app_assoc. auto.
Qed.
Lemma helper_fold_err L rg : forall l axes idx item, In (idx, item) l ->
  (nth_error rg idx = None \/ exists g, nth_error rg idx = Some g /\ g < item) ->
  exists e, foldM (step L rg) l axes = Err e /\ (e = IndexError \/ e = ValueError).
Proof.
  induction l as [|[i x] l IH]; intros axes idx item I Bad; [destruct I|]. cbn [foldM]. unfold step at 1.
  destruct (nth_error rg i) as [g|] eqn:Eg.
  2: { exists IndexError. auto. }
  destruct (g <? x) eqn:Lt.
  { exists ValueError. auto. }
  cbn [bind]. destruct I as [I|I]; [|eapply IH; eauto].
  injection I as -> ->. destruct Bad as [B|(g' & E' & L')]; [congruence|]. rewrite Eg in E'. injection E' as <-.
  apply Nat.ltb_ge in Lt. lia.
Qed.

Lemma nth_error_rev {A} (l : list A) i : i < length l -> nth_error (rev l) i = nth_error l (length l - S i).
Proof.
  intros H. revert i H. induction l as [|x l IH] using rev_ind; intros i H; [simpl in H; lia|].
  rewrite rev_app_distr, app_length in *. simpl in *. destruct i.
  - simpl. rewrite nth_error_app2 by lia. replace (length l + 1 - 1 - length l) with 0 by lia. auto.
  - simpl. rewrite IH by lia. rewrite nth_error_app1 by lia. f_equal. lia.
Qed.
Lemma in_enum {A} (l : list A) i x : In (i, x) (combine (seq 0 (length l)) l) <-> nth_error l i = Some x.
Proof.
  assert (X : forall (l : list A) k i, In (i, x) (combine (seq k (length l)) l) <-> k <= i /\ nth_error l (i - k) = Some x).
  { induction l0 as [|y l0 IH]; intros k j; simpl.
    - split; [tauto|]. intros (_ & H). destruct (j - k); discriminate.
    - rewrite IH. split.
      + intros [H|(H1 & H2)].
        * injection H as -> ->. split; auto. rewrite Nat.sub_diag. auto.
        * split; [lia|]. replace (j - k) with (S (j - S k)) by lia. auto.
      + intros (H1 & H2). destruct (Nat.eq_dec j k) as [->|N].
        * rewrite Nat.sub_diag in H2. injection H2 as ->. auto.
        * right. split; [lia|]. replace (j - k) with (S (j - S k)) in H2 by lia. auto. }
  rewrite X, Nat.sub_0_r. split; [tauto|]. intros; split; auto; lia.
Qed.

Definition broadcastable (ss gs : list nat) : Prop :=
  length ss <= length gs /\ Forall2 okdim ss (skipn (length gs - length ss) gs).

Lemma Forall2_nth {A B} (R : A -> B -> Prop) l r : Forall2 R l r -> forall i x y,
  nth_error l i = Some x -> nth_error r i = Some y -> R x y.
Proof. induction 1; intros [|i] a b E1 E2; simpl in *; try discriminate; [congruence|eauto]. Qed.
Lemma nth_error_skipn {A} (l : list A) d i : nth_error (skipn d l) i = nth_error l (d + i).
Proof. revert l. induction d; intros [|x l]; simpl; auto. destruct i; auto. Qed.

Lemma helper_axes ss gs : length ss <= length gs ->
  (forall p s g, nth_error ss p = Some s -> nth_error gs (length gs - length ss + p) = Some g -> s <= g) ->
  exists axes, accumulate_grads_helper gs ss = Ok axes /\ NoDup axes /\
    forall p, In p axes <-> p < length gs - length ss \/
      exists q s g, p = length gs - length ss + q /\ nth_error ss q = Some s /\ nth_error gs p = Some g /\ s <> g /\ g <> 1.
Proof.
  intros L Le. unfold accumulate_grads_helper. cbv zeta. set (d := length gs - length ss).
  change (fun (axes : list nat) (ix : nat * nat) => _) with (step (length gs) (rev gs)).
  rewrite <- (rev_length ss).
  assert (HI : forall idx item, In (idx, item) (combine (seq 0 (length (rev ss))) (rev ss)) ->
     idx < length ss /\ nth_error ss (length ss - S idx) = Some item /\
     exists g, nth_error (rev gs) idx = Some g /\ nth_error gs (length gs - S idx) = Some g /\ item <= g).
  { intros idx item I. apply in_enum in I.
    assert (Li : idx < length ss) by (rewrite <- rev_length; apply nth_error_Some; congruence).
    rewrite nth_error_rev in I by auto. split; auto. split; auto.
    rewrite nth_error_rev by lia. destruct (nth_error gs (length gs - S idx)) as [g|] eqn:Eg.
    - exists g. split; auto. split; auto. apply (Le (length ss - S idx) item g I). rewrite <- Eg. f_equal. lia.
    - apply nth_error_None in Eg. lia. }
  rewrite helper_fold.
  2: { intros idx item I. destruct (HI idx item I) as (_ & _ & g & a & _ & b). eauto. }
  eexists. split; [reflexivity|].
  assert (Char : forall p, In p (map (fun ix => length gs - (fst ix + 1)) (filter (test (rev gs)) (combine (seq 0 (length (rev ss))) (rev ss)))) <->
     exists q s g, p = d + q /\ nth_error ss q = Some s /\ nth_error gs p = Some g /\ s <> g /\ g <> 1).
  { intros p. rewrite in_map_iff. split.
    - intros ((idx & item) & <- & I). apply filter_In in I. destruct I as (I & T). simpl fst.
      destruct (HI idx item I) as (Li & Es & g & Er & Eg & _). unfold test in T. simpl fst in T; simpl snd in T.
      rewrite (nth_error_nth _ _ 0 Er) in T. apply andb_true_iff in T. destruct T as (T1 & T2).
      apply negb_true_iff in T1, T2. apply Nat.eqb_neq in T1, T2.
      exists (length ss - S idx), item, g. split; [unfold d; lia|]. split; auto. split; auto. rewrite <- Eg. f_equal. lia.
    - intros (q & s & g & -> & Es & Eg & N1 & N2).
      assert (Lq : q < length ss) by (apply nth_error_Some; congruence).
      exists (length ss - S q, s). simpl fst. split; [unfold d; lia|]. apply filter_In.
      assert (I : In (length ss - S q, s) (combine (seq 0 (length (rev ss))) (rev ss))).
      { apply in_enum. rewrite nth_error_rev by lia. rewrite <- Es. f_equal. lia. }
      split; auto. destruct (HI _ _ I) as (_ & _ & g' & Er & Eg' & _). unfold test. simpl fst; simpl snd.
      rewrite (nth_error_nth _ _ 0 Er). replace (length gs - S (length ss - S q)) with (d + q) in Eg' by (unfold d; lia).
      rewrite Eg in Eg'. injection Eg' as <-. apply Nat.eqb_neq in N1, N2. rewrite N1, N2. auto. }
  rewrite rev_length. fold d. rewrite rev_length in Char, HI. split.
  - assert (Nd : NoDup (map (fun ix : nat * nat => length gs - (fst ix + 1)) (filter (test (rev gs)) (combine (seq 0 (length ss)) (rev ss))))).
    { assert (N : NoDup (map fst (filter (test (rev gs)) (combine (seq 0 (length ss)) (rev ss))))).
      { assert (N0 : forall (l : list nat) k, NoDup (map fst (combine (seq k (length l)) l))).
        { induction l as [|x l IHl]; intros k; simpl; constructor; auto. intros F. apply in_map_iff in F.
          destruct F as ((a & b) & E & F). simpl in E. subst a. apply in_combine_l, in_seq in F. lia. }
        specialize (N0 (rev ss) 0). rewrite rev_length in N0. revert N0.
        generalize (combine (seq 0 (length ss)) (rev ss)). induction l as [|x l IHl]; simpl; intros N; [constructor|].
        inversion N; subst. destruct (test (rev gs) x); simpl; auto. constructor; auto.
        intros F. apply H1. apply in_map_iff in F. destruct F as (y & Ey & Iy). apply filter_In in Iy.
        apply in_map_iff. exists y. tauto. }
      assert (B : forall ix, In ix (filter (test (rev gs)) (combine (seq 0 (length ss)) (rev ss))) -> fst ix < length gs).
      { intros (a & b) I. apply filter_In in I. destruct I as (I & _). apply in_combine_l, in_seq in I. simpl. lia. }
      revert N B. generalize (filter (test (rev gs)) (combine (seq 0 (length ss)) (rev ss))).
      induction l as [|x l IHl]; simpl; intros N B; [constructor|]. inversion N; subst. constructor; auto.
      intros F. apply in_map_iff in F. destruct F as (y & Ey & Iy). apply H1. apply in_map_iff. exists y. split; auto.
      pose proof (B y (or_intror Iy)). pose proof (B x (or_introl eq_refl)). lia. }
    revert Nd Char. generalize (map (fun ix : nat * nat => length gs - (fst ix + 1)) (filter (test (rev gs)) (combine (seq 0 (length ss)) (rev ss)))).
    intros l Nd Char. assert (Disj : forall p, In p l -> ~ In p (seq 0 d)).
    { intros p I F. apply Char in I. destruct I as (q & _ & _ & -> & _). apply in_seq in F. lia. }
    clear Char. revert Disj. generalize (seq_NoDup d 0). generalize (seq 0 d). induction l0 as [|x l0 IHl]; simpl; intros N D; auto.
    inversion N; subst. constructor.
    + rewrite in_app_iff. intros [F|F]; auto. apply (D x F). auto.
    + apply IHl; auto. intros p I F. apply (D p I). auto.
  - intros p. rewrite in_app_iff, Char, in_seq. split; intros [H|H]; auto; left; lia.
Qed.

Lemma nodupb_NoDup l : NoDup l -> nodupb l = true.
Proof.
  induction 1; simpl; auto. rewrite IHNoDup. apply mem_not_In in H. rewrite H. auto.
Qed.
Lemma zip_with_length {A B C} (f : A -> B -> C) l r : length (zip_with f l r) = Nat.min (length l) (length r).
Proof. revert r. induction l; intros [|y r]; simpl; auto. Qed.
Lemma zip_with_nth {A B C} (f : A -> B -> C) l r i x y : nth_error l i = Some x -> nth_error r i = Some y ->
  nth_error (zip_with f l r) i = Some (f x y).
Proof. revert r i. induction l; intros [|y' r] [|i] E1 E2; simpl in *; try discriminate; auto. congruence. Qed.

Lemma nth_repeat_lt {A} (x y : A) n i : i < n -> nth i (repeat x n) y = x.
Proof. revert i. induction n; intros [|i] H; simpl; try lia; auto. apply IHn. lia. Qed.
(** The mask used by the sum. *)
Lemma mask_of_axes ss gs axes : broadcastable ss gs ->
  (forall p, In p axes <-> p < length gs - length ss \/
      exists q s g, p = length gs - length ss + q /\ nth_error ss q = Some s /\ nth_error gs p = Some g /\ s <> g /\ g <> 1) ->
  map (fun p => mem p axes) (seq 0 (length gs)) =
  repeat true (length gs - length ss) ++ bmask ss (skipn (length gs - length ss) gs).
Proof.
  intros (L & F) Ch. set (d := length gs - length ss) in *.
  assert (Len : length (repeat true d ++ bmask ss (skipn d gs)) = length gs).
  { rewrite app_length, repeat_length. unfold bmask. rewrite zip_with_length, skipn_length. lia. }
  apply (nth_ext _ _ true true); [rewrite map_length, seq_length; auto|].
  intros p Hp. rewrite map_length, seq_length in Hp.
  rewrite (nth_indep _ true (mem 0 axes)) by (rewrite map_length, seq_length; auto).
  rewrite (map_nth (fun p => mem p axes)), seq_nth by auto. simpl.
  destruct (lt_dec p d) as [Lt|Ge].
  - rewrite app_nth1 by (rewrite repeat_length; auto). rewrite nth_repeat_lt by auto. apply mem_In. apply Ch. auto.
  - rewrite app_nth2 by (rewrite repeat_length; lia). rewrite repeat_length.
    destruct (nth_error ss (p - d)) as [s|] eqn:Es; [|apply nth_error_None in Es; lia].
    destruct (nth_error gs p) as [g|] eqn:Eg; [|apply nth_error_None in Eg; lia].
    assert (Eb : nth_error (bmask ss (skipn d gs)) (p - d) = Some (negb (Nat.eqb s g) && negb (Nat.eqb g 1))).
    { unfold bmask. apply (zip_with_nth (fun s g => negb (Nat.eqb s g) && negb (Nat.eqb g 1))); auto.
      rewrite nth_error_skipn. rewrite <- Eg. f_equal. lia. }
    rewrite (nth_error_nth _ _ true Eb). destruct (mem p axes) eqn:M.
    + apply mem_In in M. apply Ch in M. destruct M as [M|(q & s' & g' & E & Es' & Eg' & N1 & N2)]; [lia|].
      replace q with (p - d) in Es' by lia. rewrite Es in Es'. rewrite Eg in Eg'. injection Es' as <-. injection Eg' as <-.
      apply Nat.eqb_neq in N1, N2. rewrite N1, N2. auto.
    + apply mem_not_In in M. destruct (Nat.eqb s g) eqn:N1; auto. destruct (Nat.eqb g 1) eqn:N2; auto.
      destruct M. apply Ch. right. exists (p - d), s, g. apply Nat.eqb_neq in N1, N2. split; [lia|auto].
Qed.

(** ** The cache *)
(** [c] has no entry for [key], or the one that [func value] yields. *)
Definition usable {V} (c : option (dict string V)) (key : string) (fresh : res V) : Prop :=
  match c with
  | None => True
  | Some d => match dget key d with None => True | Some v => fresh = Ok v end
  end.
Lemma write_usable {V} (c : option (dict string V)) key value f v :
  usable c key (f value) -> f value = Ok v ->
  exists c', write_into_cache c key value true (Some f) = Ok (v, c') /\ usable c' key (Ok v).
Proof.
  intros U E. unfold write_into_cache. destruct c as [d|]; simpl in *.
  - unfold dmem. destruct (dget key d) as [w|] eqn:D; simpl.
    + exists (Some d). rewrite U in E. injection E as ->. split; auto. simpl. rewrite D. auto.
    + rewrite E. simpl. eexists. split; [reflexivity|]. simpl. rewrite dget_dset_same. auto.
  - rewrite E. simpl. eexists. split; [reflexivity|]. simpl. auto.
Qed.
Lemma write_usable_err {V} (c : option (dict string V)) key value f e :
  usable c key (f value) -> f value = Err e -> write_into_cache c key value true (Some f) = Err e.
Proof.
  intros U E. unfold write_into_cache. destruct c as [d|]; simpl in *.
  - unfold dmem. destruct (dget key d) as [w|] eqn:D; simpl; [congruence|]. rewrite E. auto.
  - rewrite E. auto.
Qed.

(** ** Sums in a commutative monoid *)
Section Comm.
  Context {R : Type}.
  Variable rzero : R.
  Variable radd : R -> R -> R.
  Hypothesis Rassoc : forall a b c, radd a (radd b c) = radd (radd a b) c.
  Hypothesis Rcomm : forall a b, radd a b = radd b a.
  Hypothesis Rid : forall a, radd rzero a = a.
  Notation rsum := (esum rzero radd).
  Lemma Rid_r a : radd a rzero = a.
  Proof. rewrite Rcomm. apply Rid. Qed.
  Lemma rsum_app a b : rsum (a ++ b) = radd (rsum a) (rsum b).
  Proof. apply esum_app; auto. Qed.
  Lemma rsum_add {A} (f g : A -> R) l : rsum (map (fun x => radd (f x) (g x)) l) = radd (rsum (map f l)) (rsum (map g l)).
  Proof.
    unfold NpGrad_Model.esum. induction l as [|x l IH]; simpl; [rewrite Rid; auto|]. rewrite IH.
    rewrite <- !Rassoc. f_equal. rewrite !Rassoc. f_equal. apply Rcomm.
  Qed.
  Lemma rsum_zero {A} (f : A -> R) l : (forall x, In x l -> f x = rzero) -> rsum (map f l) = rzero.
  Proof. apply esum_zero; auto. Qed.
  Lemma rsum_swap {A B} (f : A -> B -> R) l r :
    rsum (map (fun x => rsum (map (f x) r)) l) = rsum (map (fun y => rsum (map (fun x => f x y) l)) r).
  Proof.
    induction l as [|x l IH]; [simpl; rewrite rsum_zero; auto|].
    cbn [map]. change (rsum (?a :: ?b)) with (radd a (rsum b)). rewrite IH, <- rsum_add. auto.
  Qed.
  Lemma rsum_flat {A B} (f : B -> R) (g : A -> list B) l :
    rsum (map f (flat_map g l)) = rsum (map (fun x => rsum (map f (g x))) l).
  Proof. apply esum_flat; auto. Qed.
  Lemma rsum_filter {A} (f : A -> R) (p : A -> bool) l : rsum (map f (filter p l)) = rsum (map (fun x => if p x then f x else rzero) l).
  Proof.
    unfold NpGrad_Model.esum in *. induction l as [|x l IH]; simpl; auto. rewrite <- IH.
    destruct (p x); auto.
  Qed.
  Lemma rsum_pick {A} `{EqDec A} (f : A -> R) x l : NoDup l -> In x l -> rsum (map (fun y => if eqb x y then f y else rzero) l) = f x.
  Proof.
    intros N I. apply in_split in I. destruct I as (u & w & ->). apply NoDup_remove_2 in N.
    rewrite map_app, rsum_app. cbn [map]. change (rsum (?a :: ?b)) with (radd a (rsum b)).
    rewrite !rsum_zero; [unfold eqb; destruct (eq_dec x x); [|congruence]; rewrite Rid, Rid_r; auto| |];
      intros y Iy; unfold eqb; destruct (eq_dec x y) as [->|]; auto; destruct N; apply in_app_iff; auto.
  Qed.
End Comm.

Lemma NoDup_app2 {A} (l l' : list A) : NoDup l -> NoDup l' -> (forall x, In x l -> ~ In x l') -> NoDup (l ++ l').
Proof.
  induction 1 as [|x l N _ IH]; simpl; intros N' D; auto. constructor.
  - rewrite in_app_iff. intros [F|F]; auto. apply (D x); auto.
  - apply IH; auto.
Qed.
Lemma indices_NoDup s : NoDup (indices s).
Proof.
  induction s as [|n s IH]; simpl; [repeat constructor; auto|].
  generalize (seq_NoDup n 0). generalize (seq 0 n). induction l as [|i l IHl]; simpl; intros N; [constructor|].
  inversion N; subst. apply NoDup_app2; auto.
  - clear -IH. induction IH; simpl; constructor; auto. intros F. apply in_map_iff in F. destruct F as (y & E & I). congruence.
  - intros x I F. apply in_map_iff in I. destruct I as (r & <- & _). apply in_flat_map in F. destruct F as (j & Ij & F).
    apply in_map_iff in F. destruct F as (r' & E & _). congruence.
Qed.
Lemma indices_app s t : indices (s ++ t) = flat_map (fun a => map (app a) (indices t)) (indices s).
Proof.
  induction s as [|n s IH]; simpl.
  - rewrite app_nil_r, map_id. auto.
  - rewrite IH. generalize (seq 0 n). induction l as [|i l IHl]; simpl; auto. rewrite flat_map_app, <- IHl. f_equal.
    generalize (indices s). induction l0 as [|a l0 IHa]; simpl; auto. rewrite map_app, map_map, IHa. auto.
Qed.
Lemma indices_length s : forall i, In i (indices s) -> length i = length s.
Proof. intros i I. apply indices_valid in I. symmetry. unfold valid in I. induction I; simpl; auto. Qed.

(** ** Concatenation *)
(** Consecutive segments of given lengths. *)
Fixpoint segments (start : nat) (sizes : list nat) : list (nat * nat) :=
  match sizes with
  | [] => []
  | n :: r => (start, start + n) :: segments (start + n) r
  end.
Section Concat.
  Context {E : Type}.
  Definition extent (axis : option Z) (t : @tensor E) : res nat :=
    match axis with
    | Some a => match py_index (length (shape t)) a with Some p => Ok (nth p (shape t) 0) | None => Err IndexError end
    | None => Ok (prod (shape t))
    end.
  Lemma slices_of (og : @tensor E) axis p args sizes :
    mapM (extent axis) args = Ok sizes ->
    py_index (length (shape og)) (match axis with Some a => a | None => 0%Z end) = Some p ->
    calc_input_slices og axis args =
    Ok (combine (seq 0 (length args)) (map (fun ab => update_at p (Some ab) (repeat None (length (shape og)))) (segments 0 sizes))).
  Proof.
    intros Es Ep. unfold calc_input_slices. rewrite repeat_length, Ep.
    set (base := repeat None (length (shape og))).
    match goal with |- bind (foldM ?f _ _) _ = _ => set (stepf := f) end.
    assert (Gen : forall args k acc st sizes, mapM (extent axis) args = Ok sizes ->
      foldM stepf (combine (seq k (length args)) args) (acc, st) =
      Ok (acc ++ combine (seq k (length args)) (map (fun ab => update_at p (Some ab) base) (segments st sizes)), st + fold_right Nat.add 0 sizes)).
    { clear. induction args as [|t args IH]; intros k acc st sizes H; cbn [mapM] in H.
      - injection H as <-. simpl. rewrite app_nil_r, Nat.add_0_r. auto.
      - destruct (extent axis t) as [e|] eqn:Ee; [|discriminate]. cbn [bind] in H.
        destruct (mapM (extent axis) args) as [es|] eqn:Es; [|discriminate]. injection H as <-.
        cbn [length seq combine foldM]. unfold stepf at 1. fold (extent axis t). rewrite Ee. cbn [bind].
        fold stepf. rewrite (IH (S k) _ (st + e) es eq_refl). simpl. rewrite <- app_assoc. simpl. do 2 f_equal. lia. }
    rewrite (Gen args 0 [] 0 sizes Es). simpl. auto.
  Qed.
  Lemma segments_length st sizes : length (segments st sizes) = length sizes.
  Proof. revert st. induction sizes; simpl; auto. Qed.
  Lemma mapM_length {A B} (f : A -> res B) l r : mapM f l = Ok r -> length r = length l.
  Proof.
    revert r. induction l as [|x l IH]; simpl; intros r H; [injection H as <-; auto|].
    destruct (f x); [|discriminate]. simpl in H. destruct (mapM f l) eqn:Em; [|discriminate]. injection H as <-. simpl. f_equal. auto.
  Qed.
  Lemma dget_enum {V} (l : list V) : forall k i, dget i (combine (seq k (length l)) l) = if k <=? i then nth_error l (i - k) else None.
  Proof.
    induction l as [|x l IH]; intros k i; simpl.
    - destruct (k <=? i); auto. destruct (i - k); auto.
    - destruct (eq_dec i k) as [->|N].
      + rewrite Nat.leb_refl, Nat.sub_diag. auto.
      + rewrite IH. destruct (k <=? i) eqn:L.
        * apply Nat.leb_le in L. assert (L' : (S k <=? i) = true) by (apply Nat.leb_le; lia). rewrite L'.
          replace (i - k) with (S (i - S k)) by lia. auto.
        * apply Nat.leb_gt in L. assert (L' : (S k <=? i) = false) by (apply Nat.leb_gt; lia). rewrite L'. auto.
  Qed.

  (** Entries of a part of the gradient. *)
  Lemma update_at_mid {A} (pre post : list A) x y : update_at (length pre) y (pre ++ x :: post) = pre ++ y :: post.
  Proof.
    unfold update_at.
    assert (Gen : forall (l : list A) k q, (q < k \/ k + length l <= q) -> zip_with (fun i z => if Nat.eqb i q then y else z) (seq k (length l)) l = l).
    { induction l as [|z l IH]; intros k q H; simpl; auto. assert (Nat.eqb k q = false) by (apply Nat.eqb_neq; simpl in H; lia).
      rewrite H0. f_equal. apply IH. simpl in H. lia. }
    assert (Gen2 : forall (l : list A) k, zip_with (fun i z => if Nat.eqb i (k + length l) then y else z) (seq k (length (l ++ x :: post))) (l ++ x :: post) = l ++ y :: post).
    { induction l as [|z l IH]; intros k; simpl.
      - rewrite Nat.add_0_r, Nat.eqb_refl. f_equal. apply Gen. left; lia.
      - assert (Nat.eqb k (k + S (length l)) = false) by (apply Nat.eqb_neq; lia). rewrite H. f_equal.
        rewrite <- IH with (k := S k). simpl. replace (S (k + length l)) with (k + S (length l)) by lia. auto. }
    apply (Gen2 pre 0).
  Qed.
  Lemma zip_with_app {A B C} (f : A -> B -> C) l1 r1 l2 r2 : length l1 = length r1 ->
    zip_with f (l1 ++ l2) (r1 ++ r2) = zip_with f l1 r1 ++ zip_with f l2 r2.
  Proof. revert r1. induction l1; intros [|y r1] L; simpl in *; try lia; auto. f_equal. apply IHl1. lia. Qed.
  Lemma zip_full s : zip_with slice_len s (repeat None (length s)) = s.
  Proof. induction s; simpl; auto. f_equal; auto. Qed.
  Lemma zip_zero s : zip_with slice_start s (repeat None (length s)) = repeat 0 (length s).
  Proof. induction s; simpl; auto. f_equal; auto. Qed.
  Lemma add_zero n i : length i = n -> zip_with Nat.add (repeat 0 n) i = i.
  Proof. revert n. induction i; intros [|n] L; simpl in *; try lia; auto. f_equal; auto. Qed.
  Lemma base_split (pre post : list nat) N : repeat (@None (nat * nat)) (length (pre ++ N :: post)) =
    repeat None (length pre) ++ None :: repeat None (length post).
  Proof. rewrite app_length. simpl. rewrite repeat_app. auto. Qed.

  Lemma getitem_mid (og : @tensor E) pre N post a b : shape og = pre ++ N :: post -> a <= b <= N ->
    let t := np_getitem og (update_at (length pre) (Some (a, b)) (repeat None (length (shape og)))) in
    shape t = pre ++ (b - a) :: post /\
    forall i k j, length i = length pre -> length j = length post -> at_ t (i ++ k :: j) = at_ og (i ++ (a + k) :: j).
  Proof.
    intros Sh Hab. cbv zeta. rewrite Sh, base_split.
    assert (U : update_at (length pre) (Some (a, b)) (repeat None (length pre) ++ None :: repeat None (length post)) =
                repeat None (length pre) ++ Some (a, b) :: repeat None (length post)).
    { replace (length pre) with (length (repeat (@None (nat * nat)) (length pre))) at 1 by apply repeat_length.
      apply update_at_mid. }
    rewrite U. clear U. unfold np_getitem. rewrite Sh. cbn [shape at_].
    split.
    - rewrite zip_with_app by (rewrite repeat_length; auto). cbn [zip_with]. rewrite !zip_full. f_equal. f_equal. simpl. lia.
    - intros i k j Li Lj. rewrite (zip_with_app slice_start) by (rewrite repeat_length; auto). cbn [zip_with].
      rewrite !zip_zero. rewrite zip_with_app by (rewrite repeat_length; auto). cbn [zip_with].
      rewrite !add_zero by auto. do 3 f_equal. simpl. lia.
  Qed.

  (** ** np.concatenate (library semantics) *)
  Variable ezero : E.
  Fixpoint cat_at (ts : list (@tensor E)) (p : nat) (j : list nat) : E :=
    match ts with
    | [] => ezero
    | t :: r => let n := nth p (shape t) 0 in
                if nth p j 0 <? n then at_ t j else cat_at r p (update_at p (nth p j 0 - n) j)
    end.
  Fixpoint flat_at (ts : list (@tensor E)) (j : nat) : E :=
    match ts with
    | [] => ezero
    | t :: r => let n := prod (shape t) in
                if j <? n then at_ t (unravel (shape t) j) else flat_at r (j - n)
    end.
End Concat.
