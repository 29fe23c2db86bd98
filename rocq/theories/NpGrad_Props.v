(** * C09, C10, C42: gradient helpers of the numpy backend. *)
From Coq Require Import String Ascii List Arith Lia Bool ZArith.
From Verif Require Import PyBase PyStrings NpGrad_Model NpGrad_Proofs.
Import ListNotations.
Open Scope string_scope.
Open Scope list_scope.
Open Scope nat_scope.

(** ** C09
    Specification (defined in NpGrad_Proofs, independent of the code): [valid s idx] says that [idx] is an
    index of an array of shape [s]; [indices s] lists them all; [broadcastable ss gs] says that numpy
    broadcasts shape [ss] to [gs]: trailing extents are equal or the one of [ss] is 1 (and the one of
    [gs] positive); [project ss j] is the entry of the input that entry [j] (its last axes)
    of the result was copied from. *)
Definition source (ss gs : list nat) (j : list nat) : list nat := project ss (skipn (length gs - length ss) j).

Section C09.
  Context {E : Type}.
  Variable ezero : E.
  Variable eadd : E -> E -> E.
  Hypothesis Eassoc : forall a b c, eadd a (eadd b c) = eadd (eadd a b) c.
  Hypothesis Eid : forall a, eadd ezero a = a.
  Hypothesis Eid_r : forall a, eadd a ezero = a.
  Variable str_of_nat : nat -> string.
  Notation esum := (esum ezero eadd).
  Notation accumulate_grads := (accumulate_grads ezero eadd str_of_nat).

  Definition axes_value (gs ss : list nat) : res (@cval E) := let* a := accumulate_grads_helper gs ss in Ok (CAxes a).

  (** The axes summed are the leading ones and those of extent 1 in the input and not in the
      gradient, each once.  An input that is larger anywhere is rejected. *)
  Theorem C09_axes gs ss :
    (length ss <= length gs /\
     (forall p s g, nth_error ss p = Some s -> nth_error gs (length gs - length ss + p) = Some g -> s <= g) ->
     exists axes, accumulate_grads_helper gs ss = Ok axes /\ NoDup axes /\
       forall p, In p axes <-> p < length gs - length ss \/
         exists q s g, p = length gs - length ss + q /\ nth_error ss q = Some s /\ nth_error gs p = Some g /\ s <> g /\ g <> 1) /\
    (length gs < length ss \/
     (exists p s g, nth_error (rev ss) p = Some s /\ nth_error (rev gs) p = Some g /\ g < s) ->
     exists e, accumulate_grads_helper gs ss = Err e /\ (e = IndexError \/ e = ValueError)).
  Proof.
    split; [intros (L & Le); apply helper_axes; auto|].
    intros Bad. unfold accumulate_grads_helper. cbv zeta.
    change (fun (axes : list nat) (ix : nat * nat) => _) with (step (length gs) (rev gs)).
    replace (combine (seq 0 (length ss)) (rev ss)) with (combine (seq 0 (length (rev ss))) (rev ss)) by (rewrite rev_length; auto).
    destruct Bad as [L|(p & s & g & Es & Eg & Lt)].
    - destruct (nth_error (rev ss) (length gs)) as [x|] eqn:Ex.
      + eapply helper_fold_err; [apply in_enum; eauto|]. left. apply nth_error_None. rewrite rev_length. auto.
      + apply nth_error_None in Ex. rewrite rev_length in Ex. lia.
    - eapply helper_fold_err; [apply in_enum; eauto|]. right. eauto.
  Qed.

  (** The result has the shape of the input and each entry is the sum of the gradient over all entries
      of the broadcast array that were copied from it. *)
  Theorem C09_sums_over_copies (g : @tensor E) ss c k : broadcastable ss (shape g) ->
    usable c ("accumulate" ++ str_of_nat k)%string (axes_value (shape g) ss) ->
    exists t c', accumulate_grads g ss c k = Ok (t, c') /\ shape t = ss /\
      (forall idx, valid ss idx ->
         at_ t idx = esum (map (at_ g) (filter (fun j => eqb (source ss (shape g) j) idx) (indices (shape g))))) /\
      usable c' ("accumulate" ++ str_of_nat k)%string (axes_value (shape g) ss).
  Proof.
    intros (L & F) U. set (gs := shape g) in *.
    destruct (helper_axes ss gs L) as (axes & Ea & Nd & Ch).
    { intros p s x Es Ex. assert (O : okdim s x).
      { eapply Forall2_nth; [exact F|exact Es|]. rewrite nth_error_skipn. auto. }
      destruct O as [->|(-> & Hx)]; lia. }
    assert (Ev : axes_value gs ss = Ok (CAxes axes)) by (unfold axes_value; rewrite Ea; auto).
    set (key := ("accumulate" ++ str_of_nat k)%string) in *.
    set (f := fun v : @cval E => match v with CShapes g i => let* a := accumulate_grads_helper g i in Ok (CAxes a) | _ => @Err (@cval E) TypeError end).
    destruct (write_usable c key (CShapes gs ss) f (CAxes axes) U Ev) as (c' & W & U').
    unfold NpGrad_Model.accumulate_grads. fold gs. fold key. fold f. rewrite W. cbn [bind].
    assert (Lt : (length gs <? length ss) = false) by (apply Nat.ltb_ge; auto). rewrite Lt. cbn [negb]. rewrite andb_true_r.
    pose proof (mask_of_axes ss gs axes (conj L F) Ch) as Mk.
    set (d := length gs - length ss) in *. set (bm := bmask ss (skipn d gs)) in *.
    assert (Sum : forall idx, valid ss idx ->
       esum (map (at_ g) (filter (fun j => eqb (source ss gs j) idx) (indices gs))) =
       sum_mask ezero eadd (repeat true d ++ bm) gs (at_ g) (unmasked bm idx)).
    { intros idx V. apply (fiber ezero eadd Eassoc Eid Eid_r d ss gs); auto. unfold d. lia. }
    assert (Lb : length bm = length ss).
    { unfold bm, bmask. rewrite zip_with_length, skipn_length. unfold d. lia. }
    destruct axes as [|a0 axes'] eqn:Eax.
    - (* nothing to sum *)
      simpl. exists g, c'. split; auto.
      assert (D0 : d = 0).
      { destruct d as [|d'] eqn:Dd; auto. exfalso. apply (Ch 0). left. unfold d in Dd. lia. }
      assert (Same : ss = gs).
      { rewrite D0 in F. simpl in F.
        apply (nth_ext _ _ 0 0); [unfold d in D0; lia|]. intros p Hp.
        destruct (nth_error ss p) as [s|] eqn:Es; [|apply nth_error_None in Es; lia].
        destruct (nth_error gs p) as [x|] eqn:Ex; [|apply nth_error_None in Ex; unfold d in D0; lia].
        rewrite (nth_error_nth _ _ 0 Es), (nth_error_nth _ _ 0 Ex).
        destruct (Nat.eq_dec s x); auto. destruct (Nat.eq_dec x 1) as [->|N1].
        - destruct (Forall2_nth _ _ _ F p s 1 Es Ex) as [H|(H & _)]; congruence.
        - exfalso. apply (Ch p). right. exists p, s, x. rewrite D0. auto. }
      split; [auto|]. split; [|rewrite Ev; auto].
      intros idx V. rewrite (Sum idx V).
      assert (Bf : forall b, In b bm -> b = false).
      { unfold bm. rewrite D0. simpl. rewrite Same. unfold bmask. clear. induction gs as [|x l IH]; simpl; [tauto|].
        intros b [<-|I]; auto. rewrite Nat.eqb_refl. auto. }
      rewrite unmasked_all_false; auto.
      2: { rewrite Lb. clear -V. induction V; simpl; auto. }
      rewrite D0. simpl.
      assert (X : forall bm gs f idx, (forall b, In b bm -> b = false) -> length bm = length gs -> length idx = length gs ->
                  sum_mask ezero eadd bm gs f idx = f idx).
      { clear. induction bm as [|b bm IH]; intros gs f idx Hb L1 L2; destruct gs; simpl in *; try lia.
        - destruct idx; simpl in *; auto. lia.
        - rewrite (Hb b) by auto. destruct idx; simpl in *; [lia|]. rewrite (IH gs (fun r' => f (n0 :: r'))); auto. }
      symmetry. apply X; auto; [rewrite Lb, Same; auto|]. rewrite <- Same. clear -V. induction V; simpl; auto.
    - cbn [length Nat.eqb negb]. rewrite <- Eax in *. unfold np_sum. fold gs.
      assert (Fa : forallb (fun a => a <? length gs) axes = true).
      { apply forallb_forall. intros p I. apply Nat.ltb_lt. apply Ch in I. destruct I as [I|(q & s & x & -> & _ & I & _)]; [lia|].
        apply nth_error_Some. congruence. }
      rewrite Fa, (nodupb_NoDup _ Nd). cbn [andb]. rewrite Mk. cbn [bind].
      set (u := unmasked bm (skipn d gs)).
      assert (Eu : unmasked (repeat true d ++ bm) gs = u).
      { destruct (unmasked_lead d gs bm) as [->|X]; auto. unfold d in X. lia. }
      assert (Pu : prod u = prod ss) by (apply squeeze_prod; auto).
      unfold np_reshape. cbn [shape at_]. rewrite Eu, Pu, Nat.eqb_refl. cbn [bind].
      eexists. exists c'. split; [reflexivity|]. cbn [shape at_]. split; auto. split; [|rewrite Ev; auto].
      intros idx V. rewrite (Sum idx V).
      destruct (squeeze ss (skipn d gs) F idx V) as (Rv & _ & Vu). cbv zeta in *. fold bm u in Rv, Vu. rewrite Rv, unravel_ravel; auto.
  Qed.

  (** ** Transposition of broadcasting
      Pairing the gradient with the broadcast of any [v] equals pairing the result with [v]. *)
  Context {D R : Type}.
  Variable rzero : R.
  Variable radd : R -> R -> R.
  Hypothesis Rassoc : forall a b c, radd a (radd b c) = radd (radd a b) c.
  Hypothesis Rcomm : forall a b, radd a b = radd b a.
  Hypothesis Rid : forall a, radd rzero a = a.
  Variable ip : E -> D -> R.
  Hypothesis ip_add : forall a b v, ip (eadd a b) v = radd (ip a v) (ip b v).
  Hypothesis ip_zero : forall v, ip ezero v = rzero.
  Notation rsum := (NpGrad_Model.esum rzero radd).

  Lemma source_valid ss gs j : broadcastable ss gs -> valid gs j -> valid ss (source ss gs j).
  Proof.
    intros (L & F) V. unfold source. set (d := length gs - length ss) in *.
    assert (V' : valid (skipn d gs) (skipn d j)).
    { clearbody d. clear -V. revert gs j V. induction d; intros gs j V; auto. destruct V; simpl; auto. constructor. }
    clearbody d. clear -F V'. revert V'. generalize (skipn d j). generalize dependent (skipn d gs). intros rs F. induction F as [|s g ss rs O _ IH]; intros i V; inversion V; subst; simpl; constructor; auto.
    - destruct O as [->|(-> & Hg)]; simpl; [|lia]. destruct (Nat.eqb g 1) eqn:E1; auto. apply Nat.eqb_eq in E1. lia.
    - apply IH; auto.
  Qed.
  Lemma ip_esum (l : list E) v : ip (esum l) v = rsum (map (fun a => ip a v) l).
  Proof. unfold NpGrad_Model.esum. induction l; simpl; auto. rewrite ip_add, IHl. auto. Qed.

  Theorem C09_transposes_broadcasting (g : @tensor E) ss c k (v : list nat -> D) : broadcastable ss (shape g) ->
    usable c ("accumulate" ++ str_of_nat k)%string (axes_value (shape g) ss) ->
    exists t c', accumulate_grads g ss c k = Ok (t, c') /\ shape t = ss /\
      rsum (map (fun j => ip (at_ g j) (v (source ss (shape g) j))) (indices (shape g))) =
      rsum (map (fun i => ip (at_ t i) (v i)) (indices ss)).
  Proof.
    intros B U. destruct (C09_sums_over_copies g ss c k B U) as (t & c' & Ea & Sh & At & _).
    exists t, c'. split; auto. split; auto.
    transitivity (rsum (map (fun i => rsum (map (fun j => if eqb (source ss (shape g) j) i then ip (at_ g j) (v i) else rzero) (indices (shape g)))) (indices ss))).
    - rewrite rsum_swap; auto. f_equal. apply map_ext_in. intros j Ij. apply indices_valid in Ij.
      symmetry. apply (rsum_pick rzero radd Rassoc Rcomm Rid (fun i => ip (at_ g j) (v i))); [apply indices_NoDup|].
      apply indices_valid, source_valid; auto.
    - f_equal. apply map_ext_in. intros i Ii. apply indices_valid in Ii. rewrite (At i Ii), ip_esum, map_map.
      symmetry. apply (rsum_filter rzero radd Rid (fun j => ip (at_ g j) (v i))).
  Qed.
End C09.

(** A bias of shape (1, 3) broadcast to (2, 2, 3), entries of the gradient numbered row by row. *)
Definition g223 : @tensor nat := mkt [2; 2; 3] (fun j => ravel [2; 2; 3] j).
Definition nat_str (n : nat) : string := "0".
Example C09_example :
  broadcastable [1; 3] (shape g223) /\
  exists t, accumulate_grads 0 Nat.add nat_str g223 [1; 3] None 0 = Ok (t, None) /\ shape t = [1; 3] /\
    map (at_ t) (indices [1; 3]) = [18; 22; 26].
Proof.
  split.
  - split; simpl; [lia|]. constructor; [right; lia|]. constructor; [left; auto|]. constructor.
  - eexists. split; [reflexivity|]. split; reflexivity.
Qed.
Example C09_larger_example : accumulate_grads_helper [2; 3] [4; 3] = Err ValueError /\ accumulate_grads_helper [3] [2; 3] = Err IndexError.
Proof. split; reflexivity. Qed.
(** numpy broadcasts an extent of 1 to an extent of 0 as well; that raises here instead of giving
    zeros.  (The condition [1 <= g] in [okdim] excludes this.) *)
Theorem C09_empty_batch_refuted : accumulate_grads_helper [0; 3] [1; 3] = Err ValueError.
Proof. reflexivity. Qed.

(** ** C10 *)
Section C10.
  Context {E : Type}.
  Notation tensor := (@tensor E).
  Definition slices_value (og : tensor) (axis : option Z) (args : list tensor) : res (@cval E) :=
    let* s := calc_input_slices og axis args in Ok (CSlices s).
  (** All arrays have extents [pre] before the axis and [post] after it; [sizes] on the axis. *)
  Definition aligned (pre post : list nat) (sizes : list nat) (args : list tensor) : Prop :=
    map shape args = map (fun n => pre ++ n :: post) sizes.

  Lemma py_index_lt len z p : py_index len z = Some p -> p < len.
  Proof.
    unfold py_index. destruct (0 <=? z)%Z eqn:A.
    - destruct (z <? Z.of_nat len)%Z eqn:B; [|discriminate]. intros H. injection H as <-. apply Z.leb_le in A. apply Z.ltb_lt in B. lia.
    - destruct (- Z.of_nat len <=? z)%Z eqn:B; [|discriminate]. intros H. injection H as <-. apply Z.leb_gt in A. apply Z.leb_le in B. lia.
  Qed.
  Lemma extents_aligned pre post sizes args axis : aligned pre post sizes args ->
    py_index (length pre + S (length post)) axis = Some (length pre) ->
    mapM (extent (Some axis)) args = Ok sizes.
  Proof.
    unfold aligned. revert sizes. induction args as [|t args IH]; intros [|n sizes] A P; simpl in A; try discriminate; auto.
    injection A as St A. cbn [mapM]. unfold extent at 1. rewrite St, app_length. simpl length. rewrite P.
    rewrite nth_middle. cbn [bind]. rewrite (IH sizes A P). auto.
  Qed.

  (** The slices are [start:stop] on the axis and everything elsewhere; the first starts at 0, each starts where the
      one before stops, and they are as long as the inputs.  Negative axes count from the end. *)
  Theorem C10_slices_tile (og : tensor) pre post N sizes args axis :
    shape og = pre ++ N :: post -> aligned pre post sizes args ->
    py_index (length (shape og)) axis = Some (length pre) ->
    exists slices, calc_input_slices og (Some axis) args = Ok slices /\
      map fst slices = seq 0 (length args) /\
      (forall i sl, In (i, sl) slices ->
         sl = repeat None (length pre) ++ Some (list_sum (firstn i sizes), list_sum (firstn (S i) sizes)) :: repeat None (length post)).
  Proof.
    intros Sh A P. rewrite Sh, app_length in P. simpl in P.
    pose proof (extents_aligned pre post sizes args axis A P) as Ex.
    eexists. split; [apply (slices_of og (Some axis) (length pre) args sizes Ex); rewrite Sh, app_length; exact P|].
    assert (Ln : length (segments 0 sizes) = length args).
    { rewrite segments_length. unfold aligned in A. apply (f_equal (@length _)) in A. rewrite !map_length in A. auto. }
    split.
    - assert (Cf : forall {X Y} (l : list X) (r : list Y), length l = length r -> map fst (combine l r) = l).
      { clear. induction l; intros [|y r] L; simpl in *; try lia; auto. f_equal. apply IHl. lia. }
      apply Cf. rewrite seq_length, map_length. auto.
    - intros i sl I. rewrite <- Ln in I. rewrite <- (map_length (fun ab => update_at (length pre) (Some ab) (repeat None (length (shape og))))) in I.
      apply in_enum in I. rewrite nth_error_map in I. destruct (nth_error (segments 0 sizes) i) as [(a & b)|] eqn:Es; [|discriminate].
      injection I as <-. rewrite Sh, base_split.
      assert (Seg : forall sizes st i a b, nth_error (segments st sizes) i = Some (a, b) ->
         a = st + list_sum (firstn i sizes) /\ b = st + list_sum (firstn (S i) sizes)).
      { clear. induction sizes as [|n r IH]; intros st [|i] a b H; simpl in H; try discriminate.
        - injection H as <- <-. simpl. lia.
        - apply IH in H. destruct H as (-> & ->). simpl. split; lia. }
      apply Seg in Es. destruct Es as (-> & ->). simpl plus.
      replace (length pre) with (length (repeat (@None (nat * nat)) (length pre))) at 1 by apply repeat_length.
      apply update_at_mid.
  Qed.

  (** *** The gradient of concatenation is its transpose *)
  Context {D R : Type}.
  Variable dzero : D.
  Variable rzero : R.
  Variable radd : R -> R -> R.
  Hypothesis Rassoc : forall a b c, radd a (radd b c) = radd (radd a b) c.
  Hypothesis Rcomm : forall a b, radd a b = radd b a.
  Hypothesis Rid : forall a, radd rzero a = a.
  Variable ip : E -> D -> R.
  Notation rsum := (esum rzero radd).
  Definition pairing (t : tensor) (v : list nat -> D) : R := rsum (map (fun j => ip (at_ t j) (v j)) (indices (shape t))).

  Definition slab (pre post : list nat) (F : list nat -> R) (k : nat) : R :=
    rsum (map (fun a => rsum (map (fun b => F (a ++ k :: b)) (indices post))) (indices pre)).
  Lemma slabs pre N post F : rsum (map F (indices (pre ++ N :: post))) = rsum (map (slab pre post F) (seq 0 N)).
  Proof.
    rewrite indices_app, rsum_flat; auto. unfold slab. rewrite <- rsum_swap; auto. f_equal. apply map_ext. intros a.
    cbn [indices]. rewrite map_map, (rsum_flat rzero radd Rassoc Rid (fun x => F (a ++ x))). f_equal. apply map_ext. intros k.
    rewrite map_map. auto.
  Qed.
  Lemma rsum_seq_split (H : nat -> R) : forall sizes st, rsum (map H (seq st (list_sum sizes))) =
    rsum (map (fun ab => rsum (map (fun k => H (fst ab + k)) (seq 0 (snd ab - fst ab)))) (segments st sizes)).
  Proof.
    induction sizes as [|n r IH]; intros st; auto. cbn [list_sum segments]. change (list_sum (n :: r)) with (n + list_sum r).
    rewrite seq_app, map_app, rsum_app, IH; auto. cbn [map fst snd]. change (rsum (?a :: ?b)) with (radd a (rsum b)). f_equal.
    f_equal. replace (st + n - st) with n by lia.
    assert (X : forall n q, map H (seq (st + q) n) = map (fun k => H (st + k)) (seq q n)).
    { clear. induction n; intros q; simpl; auto. f_equal. replace (S (st + q)) with (st + S q) by lia. apply IHn. }
    rewrite <- (X n 0). rewrite Nat.add_0_r. auto.
  Qed.
  Lemma cat_segment pre post : forall (ds : list (@NpGrad_Model.tensor D)) sizes st,
    map shape ds = map (fun n => pre ++ n :: post) sizes ->
    forall i d a b, nth_error ds i = Some d -> nth_error (segments st sizes) i = Some (a, b) ->
    forall x k y, length x = length pre -> k < b - a ->
      cat_at dzero ds (length pre) (x ++ (a - st + k) :: y) = at_ d (x ++ k :: y).
  Proof.
    induction ds as [|t ds IH]; intros [|n sizes] st A i d a b Hd Hs x k y Lx Hk; simpl in A; try discriminate; [destruct i; discriminate|].
    injection A as St A. assert (Nx : forall z, nth (length pre) (x ++ z :: y) 0 = z) by (intros; rewrite <- Lx; apply nth_middle).
    destruct i as [|i]; simpl in Hd, Hs.
    - injection Hd as <-. injection Hs as <- <-. cbn [cat_at]. rewrite St, nth_middle, Nx.
      assert (Lt : (st - st + k <? n) = true) by (apply Nat.ltb_lt; lia). rewrite Lt. do 3 f_equal. lia.
    - cbn [cat_at]. rewrite St, nth_middle, Nx.
      assert (Ga : st + n <= a).
      { clear -Hs. assert (X : forall sizes s i a b, nth_error (segments s sizes) i = Some (a, b) -> s <= a).
        { induction sizes0 as [|m r IH]; intros s [|j] a' b' H; simpl in H; try discriminate; [injection H; lia|]. apply IH in H. lia. }
        eapply X; eauto. }
      assert (Lt : (a - st + k <? n) = false) by (apply Nat.ltb_ge; lia). rewrite Lt.
      rewrite <- Lx at 2. rewrite update_at_mid. rewrite <- (IH sizes (st + n) A i d a b Hd Hs x k y Lx Hk).
      do 3 f_equal. lia.
  Qed.

  (** Along an axis. *)
  Theorem C10_gradient_transposes_concat (og : tensor) pre post sizes args axis c :
    shape og = pre ++ list_sum sizes :: post -> aligned pre post sizes args ->
    py_index (length (shape og)) axis = Some (length pre) ->
    usable c "slices" (slices_value og (Some axis) args) ->
    exists gs c', concat_grad og c args (Some axis) = Ok (gs, c') /\ map shape gs = map shape args /\
      forall ds : list (@NpGrad_Model.tensor D), map shape ds = map shape args ->
        pairing og (cat_at dzero ds (length pre)) = rsum (zip_with (fun g d => pairing g (at_ d)) gs ds).
  Proof.
    intros Sh A P U. pose proof P as P'. rewrite Sh, app_length in P'. simpl in P'.
    pose proof (extents_aligned pre post sizes args axis A P') as Ex.
    pose proof (slices_of og (Some axis) (length pre) args sizes Ex P) as Sl.
    set (mk := fun ab => update_at (length pre) (Some ab) (repeat None (length (shape og)))) in *.
    set (slices := combine (seq 0 (length args)) (map mk (segments 0 sizes))) in *.
    assert (Ln : length (segments 0 sizes) = length args).
    { rewrite segments_length. unfold aligned in A. apply (f_equal (@length _)) in A. rewrite !map_length in A. auto. }
    assert (Ev : slices_value og (Some axis) args = Ok (CSlices slices)) by (unfold slices_value; rewrite Sl; auto).
    set (f := fun v : @cval E => match v with CConcat og axis args => let* s := calc_input_slices og axis args in Ok (CSlices s) | _ => @Err (@cval E) TypeError end).
    destruct (write_usable c "slices" (CConcat og (Some axis) args) f (CSlices slices) U Ev) as (c' & W & U').
    set (gs := map (fun ab => np_getitem og (mk ab)) (segments 0 sizes)).
    exists gs, c'. unfold concat_grad. fold f. rewrite W. cbn [bind].
    assert (Bnd : forall sizes st i a b, nth_error (segments st sizes) i = Some (a, b) -> exists n, nth_error sizes i = Some n /\ b = a + n /\ st <= a /\ b <= st + list_sum sizes).
    { clear. induction sizes as [|n r IH]; intros st [|i] a b H; simpl in H; try discriminate.
      - injection H as <- <-. exists n. simpl. repeat split; lia.
      - apply IH in H. destruct H as (m & H1 & H2 & H3 & H4). exists m. simpl. repeat split; auto; lia. }
    split.
    - match goal with |- bind (mapM ?h _) _ = _ => set (hf := h) end.
      assert (M : mapM hf (seq 0 (length args)) = Ok gs).
      { assert (Gen : forall l k, (forall i, i < length l -> k + i < length args /\ nth_error gs (k + i) = nth_error l i) ->
           mapM hf (seq k (length l)) = Ok l).
        { induction l as [|t l IHl]; intros k H; auto. cbn [length seq mapM].
          destruct (H 0 ltac:(simpl; lia)) as (Lk & Ek). rewrite Nat.add_0_r in *. simpl in Ek.
          assert (Hk : hf k = Ok t).
          { unfold hf. unfold slices. rewrite <- Ln, <- (map_length mk), dget_enum. simpl. rewrite Nat.sub_0_r, nth_error_map.
            unfold gs in Ek. rewrite nth_error_map in Ek.
            destruct (nth_error (segments 0 sizes) k) as [ab|]; [|discriminate]. simpl in *.
            destruct (nth_error args k) eqn:Ea; [|apply nth_error_None in Ea; lia]. congruence. }
          rewrite Hk. cbn [bind]. rewrite IHl; auto.
          intros i Hi. destruct (H (S i) ltac:(simpl; lia)) as (a & b). simpl in b. replace (S k + i) with (k + S i) by lia. auto. }
        replace (length args) with (length gs) by (unfold gs; rewrite map_length; auto). apply Gen.
        intros i Hi. unfold gs in Hi. rewrite map_length in Hi. split; [lia|auto]. }
      rewrite M. auto.
    - assert (Gs : map shape gs = map shape args).
      { rewrite A. unfold gs. rewrite map_map. apply (nth_ext _ _ [] []); [rewrite !map_length, segments_length; auto|].
        intros i Hi. rewrite map_length in Hi.
        destruct (nth_error (segments 0 sizes) i) as [(a & b)|] eqn:Es; [|apply nth_error_None in Es; lia].
        destruct (Bnd sizes 0 i a b Es) as (n & En & -> & _ & Le).
        erewrite (nth_error_nth (map _ (segments 0 sizes))); [|rewrite nth_error_map, Es; reflexivity].
        erewrite (nth_error_nth (map _ sizes)); [|rewrite nth_error_map, En; reflexivity].
        destruct (getitem_mid og pre _ post a (a + n) Sh) as (S1 & _); [lia|].
        unfold mk. rewrite S1. do 2 f_equal. lia. }
      split; auto. intros ds Hd. unfold pairing at 1. rewrite Sh, slabs, rsum_seq_split.
      rewrite A in Hd. unfold gs.
      assert (Gen : forall (l : list (nat * nat)) (rs : list (@NpGrad_Model.tensor D)), length l = length rs ->
        (forall i a b d, nth_error l i = Some (a, b) -> nth_error rs i = Some d ->
            rsum (map (fun k => slab pre post (fun j => ip (at_ og j) (cat_at dzero ds (length pre) j)) (a + k)) (seq 0 (b - a))) =
            pairing (np_getitem og (mk (a, b))) (at_ d)) ->
        rsum (map (fun ab => rsum (map (fun k => slab pre post (fun j => ip (at_ og j) (cat_at dzero ds (length pre) j)) (fst ab + k)) (seq 0 (snd ab - fst ab)))) l) =
        rsum (zip_with (fun g d => pairing g (at_ d)) (map (fun ab => np_getitem og (mk ab)) l) rs)).
      { clear. induction l as [|(a & b) l IH]; intros [|d rs] L H; simpl in L; try lia; auto.
        cbn [map zip_with fst snd]. change (rsum (?x :: ?y)) with (radd x (rsum y)). f_equal.
        - apply (H 0 a b d); auto.
        - apply IH; auto. intros i a' b' d' H1 H2. apply (H (S i)); auto. }
      apply Gen.
      { rewrite segments_length. apply (f_equal (@length _)) in Hd. rewrite !map_length in Hd. auto. }
      intros i a b d Es Ed. destruct (Bnd sizes 0 i a b Es) as (n & En & -> & _ & Le).
      destruct (getitem_mid og pre _ post a (a + n) Sh) as (S1 & A1); [lia|].
      unfold pairing. unfold mk. rewrite S1, slabs. replace (a + n - a) with n by lia. f_equal. apply map_ext_in. intros k Ik.
      apply in_seq in Ik. unfold slab. f_equal. apply map_ext_in. intros x Ix. f_equal. apply map_ext_in. intros y Iy.
      apply indices_length in Ix, Iy. rewrite A1 by auto. f_equal.
      rewrite <- (cat_segment pre post ds sizes 0 Hd i d a (a + n) Ed Es x k y Ix) by lia. do 3 f_equal. lia.
  Qed.

  (** Without an axis: the arrays are flattened and put one after the other. *)
  Lemma flat_segment : forall (ds : list (@NpGrad_Model.tensor D)) st,
    forall i d a b, nth_error ds i = Some d -> nth_error (segments st (map (fun t => prod (shape t)) ds)) i = Some (a, b) ->
    forall k, k < b - a -> flat_at dzero ds (a - st + k) = at_ d (unravel (shape d) k).
  Proof.
    induction ds as [|t ds IH]; intros st i d a b Hd Hs k Hk; [destruct i; discriminate|].
    destruct i as [|i]; simpl in Hd, Hs.
    - injection Hd as <-. injection Hs as <- <-. cbn [flat_at]. replace (st - st + k) with k by lia.
      assert (Lt : (k <? prod (shape t)) = true) by (apply Nat.ltb_lt; lia). rewrite Lt. auto.
    - cbn [flat_at].
      assert (Ga : st + prod (shape t) <= a).
      { clear -Hs. assert (X : forall sizes s i a b, nth_error (segments s sizes) i = Some (a, b) -> s <= a).
        { induction sizes as [|m r IH]; intros s [|j] a' b' H; simpl in H; try discriminate; [injection H; lia|]. apply IH in H. lia. }
        eapply X; eauto. }
      assert (Lt : (a - st + k <? prod (shape t)) = false) by (apply Nat.ltb_ge; lia). rewrite Lt.
      rewrite <- (IH (st + prod (shape t)) i d a b Hd Hs k Hk). f_equal. lia.
  Qed.
  Lemma indices_flat s (F : list nat -> R) (G : nat -> R) :
    (forall i, valid s i -> F i = G (ravel s i)) -> rsum (map F (indices s)) = rsum (map G (seq 0 (prod s))).
  Proof.
    intros H. rewrite <- ravel_indices, map_map. f_equal. apply map_ext_in. intros i I. apply H, indices_valid; auto.
  Qed.

  Theorem C10_gradient_transposes_flat_concat (og : tensor) args c :
    shape og = [list_sum (map (fun t => prod (shape t)) args)] ->
    usable c "slices" (slices_value og None args) ->
    exists gs c', concat_grad og c args None = Ok (gs, c') /\ map shape gs = map shape args /\
      forall ds : list (@NpGrad_Model.tensor D), map shape ds = map shape args ->
        pairing og (fun j => flat_at dzero ds (hd 0 j)) = rsum (zip_with (fun g d => pairing g (at_ d)) gs ds).
  Proof.
    intros Sh U. set (sizes := map (fun t => prod (shape t)) args) in *.
    assert (Ex : mapM (extent None) args = Ok sizes).
    { unfold sizes. clear. induction args as [|t r IH]; auto. cbn [mapM map]. unfold extent at 1. cbn [bind]. rewrite IH. auto. }
    assert (P : py_index (length (shape og)) 0%Z = Some 0) by (rewrite Sh; reflexivity).
    pose proof (slices_of og None 0 args sizes Ex P) as Sl.
    set (mk := fun ab => update_at 0 (Some ab) (repeat None (length (shape og)))) in *.
    set (slices := combine (seq 0 (length args)) (map mk (segments 0 sizes))) in *.
    assert (Ln : length (segments 0 sizes) = length args) by (rewrite segments_length; unfold sizes; apply map_length).
    assert (Ev : slices_value og None args = Ok (CSlices slices)) by (unfold slices_value; rewrite Sl; auto).
    set (f := fun v : @cval E => match v with CConcat og axis args => let* s := calc_input_slices og axis args in Ok (CSlices s) | _ => @Err (@cval E) TypeError end).
    destruct (write_usable c "slices" (CConcat og None args) f (CSlices slices) U Ev) as (c' & W & U').
    set (rs := fun (ab : nat * nat) (t : tensor) => mkt (shape t) (fun idx => at_ (np_getitem og (mk ab)) (unravel [snd ab - fst ab] (ravel (shape t) idx)))).
    set (gs := zip_with rs (segments 0 sizes) args).
    assert (Bnd : forall i a b, nth_error (segments 0 sizes) i = Some (a, b) -> exists t, nth_error args i = Some t /\ b = a + prod (shape t) /\ b <= list_sum sizes).
    { assert (X : forall args st i a b, nth_error (segments st (map (fun t : tensor => prod (shape t)) args)) i = Some (a, b) ->
        exists t, nth_error args i = Some t /\ b = a + prod (shape t) /\ b <= st + list_sum (map (fun t : tensor => prod (shape t)) args)).
      { clear. induction args as [|t r IH]; intros st [|i] a b H; simpl in H; try discriminate.
        - injection H as <- <-. exists t. simpl. repeat split; lia.
        - apply IH in H. destruct H as (m & H1 & H2 & H3). exists m. simpl. repeat split; auto. lia. }
      intros i a b H. apply (X args 0) in H. auto. }
    exists gs, c'. unfold concat_grad. fold f. rewrite W. cbn [bind].
    assert (Gm : forall a b, a <= b <= list_sum sizes -> shape (np_getitem og (mk (a, b))) = [b - a] /\
                   forall k, at_ (np_getitem og (mk (a, b))) [k] = at_ og [a + k]).
    { intros a b H. destruct (getitem_mid og [] (list_sum sizes) [] a b Sh H) as (S1 & A1). split; auto.
      intros k. apply (A1 [] k []); auto. }
    split.
    - match goal with |- bind (mapM ?h _) _ = _ => set (hf := h) end.
      assert (M : mapM hf (seq 0 (length args)) = Ok gs).
      { assert (Gen : forall l k, (forall i, i < length l -> k + i < length args /\ nth_error gs (k + i) = nth_error l i) ->
           mapM hf (seq k (length l)) = Ok l).
        { induction l as [|t l IHl]; intros k H; auto. cbn [length seq mapM].
          destruct (H 0 ltac:(simpl; lia)) as (Lk & Ek). rewrite Nat.add_0_r in *. simpl in Ek.
          assert (Hk : hf k = Ok t).
          { unfold hf. unfold slices. rewrite <- Ln, <- (map_length mk), dget_enum. cbn [Nat.leb]. rewrite Nat.sub_0_r, nth_error_map.
            destruct (nth_error (segments 0 sizes) k) as [(a & b)|] eqn:Es; [|apply nth_error_None in Es; lia]. cbn [option_map].
            destruct (Bnd k a b Es) as (t' & Et & Eb & Le). rewrite Et.
            destruct (Gm a b ltac:(lia)) as (S1 & _).
            unfold gs in Ek. rewrite (zip_with_nth rs _ _ k _ _ Es Et) in Ek. injection Ek as <-.
            unfold np_reshape. rewrite S1. unfold rs. cbn [fst snd].
            assert (Ep : (prod [b - a] =? prod (shape t')) = true) by (apply Nat.eqb_eq; unfold prod at 1; simpl; lia).
            match goal with |- (if ?x then _ else _) = _ => replace x with true by (symmetry; exact Ep) end. auto. }
          rewrite Hk. cbn [bind]. rewrite IHl; auto.
          intros i Hi. destruct (H (S i) ltac:(simpl; lia)) as (a & b). simpl in b. replace (S k + i) with (k + S i) by lia. auto. }
        assert (Lg : length gs = length args) by (unfold gs; rewrite zip_with_length; lia).
        rewrite <- Lg. apply Gen. intros i Hi. split; [lia|auto]. }
      rewrite M. auto.
    - assert (Gs : map shape gs = map shape args).
      { unfold gs. revert Ln. clear. generalize (segments 0 sizes). clear. intros l. revert args.
        induction l as [|ab l IH]; intros [|t r] L; simpl in *; try lia; auto. f_equal. apply IH. lia. }
      split; auto. intros ds Hd. unfold pairing at 1. rewrite Sh.
      rewrite (indices_flat [list_sum sizes] _ (fun j => ip (at_ og [j]) (flat_at dzero ds j))).
      2: { intros i V. inversion V as [|? x ? r Lx V']; subst. inversion V'; subst. simpl. rewrite Nat.mul_1_r, Nat.add_0_r. auto. }
      replace (prod [list_sum sizes]) with (list_sum sizes) by (unfold prod; simpl; lia).
      rewrite rsum_seq_split.
      assert (Sz : sizes = map (fun t : @NpGrad_Model.tensor D => prod (shape t)) ds).
      { unfold sizes. rewrite <- (map_map shape prod), <- (map_map shape prod ds), Hd. auto. }
      unfold gs.
      assert (Gen : forall (l : list (nat * nat)) (ts : list tensor) (qs : list (@NpGrad_Model.tensor D)), length l = length qs -> length l = length ts ->
        (forall i a b t d, nth_error l i = Some (a, b) -> nth_error ts i = Some t -> nth_error qs i = Some d ->
            rsum (map (fun k => ip (at_ og [a + k]) (flat_at dzero ds (a + k))) (seq 0 (b - a))) = pairing (rs (a, b) t) (at_ d)) ->
        rsum (map (fun ab => rsum (map (fun k => ip (at_ og [fst ab + k]) (flat_at dzero ds (fst ab + k))) (seq 0 (snd ab - fst ab)))) l) =
        rsum (zip_with (fun g d => pairing g (at_ d)) (zip_with rs l ts) qs)).
      { clear. induction l as [|(a & b) l IH]; intros [|t ts] [|d qs] L1 L2 H; simpl in L1, L2; try lia; auto.
        cbn [map zip_with fst snd]. change (rsum (?x :: ?y)) with (radd x (rsum y)). f_equal.
        - apply (H 0 a b t d); auto.
        - apply IH; auto. intros i a' b' t' d' H1 H2 H3. apply (H (S i)); auto. }
      apply Gen; auto.
      { rewrite segments_length, Sz, map_length. auto. }
      intros i a b t d Es Et Ed. destruct (Bnd i a b Es) as (t' & Et' & Eb & Le). rewrite Et in Et'. injection Et' as <-.
      destruct (Gm a b ltac:(lia)) as (S1 & A1).
      assert (Sd : shape d = shape t).
      { assert (X : nth_error (map shape ds) i = nth_error (map shape args) i) by (rewrite Hd; auto).
        rewrite !nth_error_map, Et, Ed in X. simpl in X. congruence. }
      unfold pairing, rs. cbn [shape at_ fst snd].
      rewrite (indices_flat (shape t) _ (fun k => ip (at_ og [a + k]) (flat_at dzero ds (a + k)))).
      { do 3 f_equal. lia. }
      intros idx V. pose proof (ravel_lt _ _ V) as Lr.
      rewrite Sz in Es. pose proof (flat_segment ds 0 i d a b Ed Es (ravel (shape t) idx) ltac:(lia)) as Fs.
      rewrite Nat.sub_0_r in Fs. rewrite Fs, Sd, unravel_ravel by auto. f_equal.
      rewrite <- A1. f_equal.
      assert (Lt : ravel (shape t) idx < b - a) by lia. revert Lt. generalize (ravel (shape t) idx) (b - a). clear. intros k n Lt.
      assert (V : valid [n] [k]) by (repeat constructor; auto).
      rewrite <- (unravel_ravel _ _ V) at 1. do 2 f_equal. simpl. unfold prod. simpl. lia.
  Qed.
End C10.

(** Inputs (1, 2) and (2, 2) concatenated on axis -2; and flattened. *)
Definition t12 : @tensor nat := mkt [1; 2] (fun j => nth 1 j 0).
Definition t22 : @tensor nat := mkt [2; 2] (fun j => 10 + ravel [2; 2] j).
Definition og32 : @tensor nat := mkt [3; 2] (fun j => 100 + ravel [3; 2] j).
Definition og6 : @tensor nat := mkt [6] (fun j => 100 + hd 0 j).
Example C10_example :
  shape og32 = [] ++ list_sum [1; 2] :: [2] /\ aligned [] [2] [1; 2] [t12; t22] /\
  py_index (length (shape og32)) (-2)%Z = Some (@length nat []) /\
  (exists g1 g2 c', concat_grad og32 (Some []) [t12; t22] (Some (-2)%Z) = Ok ([g1; g2], c') /\
     map (at_ g1) (indices [1; 2]) = [100; 101] /\ map (at_ g2) (indices [2; 2]) = [102; 103; 104; 105] /\
     usable c' "slices" (slices_value og32 (Some (-2)%Z) [t12; t22])) /\
  map (cat_at 0 [t12; t22] 0) (indices [3; 2]) = [0; 1; 10; 11; 12; 13].
Proof.
  repeat split. do 3 eexists. split; [reflexivity|]. repeat split; reflexivity.
Qed.
Example C10_flat_example :
  shape og6 = [list_sum (map (fun t => prod (shape t)) [t12; t22])] /\
  (exists g1 g2, concat_grad og6 None [t12; t22] None = Ok ([g1; g2], None) /\
     map (at_ g1) (indices [1; 2]) = [100; 101] /\ map (at_ g2) (indices [2; 2]) = [102; 103; 104; 105]) /\
  map (fun j => flat_at 0 [t12; t22] (hd 0 j)) (indices [6]) = [0; 1; 10; 11; 12; 13].
Proof.
  repeat split. do 2 eexists. split; [reflexivity|]. repeat split; reflexivity.
Qed.

(** ** C42
    A program performs writes one after the other; a function that raises leaves the cache alone. *)
Section C42.
  Context {V : Type}.
  Record write := mkw { w_key : string; w_value : V; w_constant : bool; w_func : option (V -> res V) }.
  Definition fresh (w : write) : res V := match w_func w with None => Ok (w_value w) | Some f => f (w_value w) end.

  Fixpoint run (c : option (dict string V)) (ws : list write) : list (res V) :=
    match ws with
    | [] => []
    | w :: r => match write_into_cache c (w_key w) (w_value w) (w_constant w) (w_func w) with
                | Ok (v, c') => Ok v :: run c' r
                | Err e => Err e :: run c r
                end
    end.

  (** Specification: what the last earlier successful write of the key returned. *)
  Fixpoint stored (k : string) (past : list (string * res V)) : option V :=
    match past with
    | [] => None
    | (k', Ok v) :: r => if eqb k' k then Some v else stored k r
    | (_, Err _) :: r => stored k r
    end.
  Definition expected (past : list (string * res V)) (w : write) : res V :=
    match w_func w with
    | None => Ok (w_value w)
    | Some f => match (if w_constant w then stored (w_key w) past else None) with Some v => Ok v | None => f (w_value w) end
    end.
  Fixpoint expect_all (past : list (string * res V)) (ws : list write) : list (res V) :=
    match ws with [] => [] | w :: r => let v := expected past w in v :: expect_all ((w_key w, v) :: past) r end.

  (** Without a cache every write returns the fresh value; with one, exactly the constant writes of a key
      already written return the last result for that key. *)
  Theorem C42_results ws : run None ws = map fresh ws /\ run (Some []) ws = expect_all [] ws.
  Proof.
    split.
    - induction ws as [|w r IH]; simpl; auto. unfold fresh. destruct (w_func w) as [f|]; simpl.
      + destruct (f (w_value w)); simpl; rewrite IH; auto.
      + rewrite IH. auto.
    - assert (X : forall ws c past, (forall k, dget k c = stored k past) -> run (Some c) ws = expect_all past ws).
      { clear ws. induction ws as [|w r IH]; intros c past I; auto. cbn [run expect_all].
        assert (Put : forall v k, dget k (dset (w_key w) v c) = stored k ((w_key w, Ok v) :: past)).
        { intros v k. simpl. unfold eqb. destruct (eq_dec (w_key w) k) as [<-|N]; [apply dget_dset_same|].
          rewrite dget_dset_other; auto. }
        unfold write_into_cache, expected. destruct (w_func w) as [f|]; cbn [bind].
        2: { rewrite (IH _ ((w_key w, Ok (w_value w)) :: past)); auto. }
        unfold dmem. rewrite I. destruct (w_constant w); cbn [andb negb].
        + destruct (stored (w_key w) past) as [v|] eqn:S; cbn [negb].
          * rewrite (IH c ((w_key w, Ok v) :: past)); auto. intros k. rewrite I. simpl. unfold eqb. destruct (eq_dec (w_key w) k) as [<-|]; auto.
          * destruct (f (w_value w)) as [v|e]; cbn [bind]; [rewrite (IH _ ((w_key w, Ok v) :: past))|rewrite (IH c ((w_key w, Err e) :: past))]; auto.
        + destruct (f (w_value w)) as [v|e]; cbn [bind]; [rewrite (IH _ ((w_key w, Ok v) :: past))|rewrite (IH c ((w_key w, Err e) :: past))]; auto. }
      apply X. auto.
  Qed.

  (** If every constant write agrees with every earlier write of its key, caching is not observable. *)
  Theorem C42_same_arguments_fresh ws :
    (forall pre w mid w' post, ws = pre ++ w :: mid ++ w' :: post -> w_key w = w_key w' -> w_constant w' = true ->
       fresh w = fresh w') ->
    run (Some []) ws = map fresh ws.
  Proof.
    intros H. rewrite (proj2 (C42_results ws)).
    assert (St : forall k past v, stored k past = Some v -> In (k, Ok v) past).
    { induction past as [|(k' & r) past IH]; simpl; [discriminate|]. intros v. destruct r as [x|e]; [|auto].
      unfold eqb. destruct (eq_dec k' k) as [->|]; auto. intros E. injection E as ->. auto. }
    assert (X : forall ws done, (forall pre w mid w' post, done ++ ws = pre ++ w :: mid ++ w' :: post -> w_key w = w_key w' -> w_constant w' = true ->
       fresh w = fresh w') -> expect_all (rev (map (fun w => (w_key w, fresh w)) done)) ws = map fresh ws).
    { clear H ws. induction ws as [|w r IH]; intros done H; auto. cbn [expect_all map].
      assert (Ew : expected (rev (map (fun w => (w_key w, fresh w)) done)) w = fresh w).
      { unfold expected. unfold fresh at 2. destruct (w_func w) as [f|] eqn:Ef; auto.
        destruct (w_constant w) eqn:Ec; auto.
        destruct (stored (w_key w) (rev (map (fun w => (w_key w, fresh w)) done))) as [v|] eqn:S; auto.
        apply St in S. apply in_rev, in_map_iff in S. destruct S as (w0 & E0 & I0).
        apply in_split in I0. destruct I0 as (pre & mid & ->).
        injection E0 as Ek Ev. rewrite <- Ev.
        transitivity (fresh w); [|unfold fresh; rewrite Ef; auto].
        apply (H pre w0 mid w r); auto. rewrite <- app_assoc. auto. }
      rewrite Ew. f_equal. specialize (IH (done ++ [w])). rewrite map_app, rev_app_distr in IH. apply IH.
      rewrite <- app_assoc. auto. }
    apply (X ws []). auto.
  Qed.
End C42.

Definition succ_w (k : string) (n : nat) (c : bool) : @write nat := mkw k n c (Some (fun x => Ok (S x))).
Example C42_example :
  run (Some []) [succ_w "a" 1 true; succ_w "b" 5 false; succ_w "a" 1 true; succ_w "b" 6 false] = [Ok 2; Ok 6; Ok 2; Ok 7] /\
  run (Some []) [succ_w "a" 1 true; succ_w "a" 4 true; succ_w "a" 7 false; succ_w "a" 9 true] = [Ok 2; Ok 2; Ok 8; Ok 8].
Proof. split; reflexivity. Qed.

(** A second evaluation with a larger batch: the gradient is returned without being reduced, its shape is not
    that of the input; with a fresh cache it is. *)
Theorem C42_new_shape_refuted :
  let small : @tensor nat := mkt [1; 3] (fun _ => 1) in
  let large : @tensor nat := mkt [4; 3] (fun _ => 1) in
  exists c t t' c', accumulate_grads 0 Nat.add nat_str small [1; 3] (Some []) 0 = Ok (small, c) /\
    accumulate_grads 0 Nat.add nat_str large [1; 3] c 0 = Ok (t, c) /\ shape t = [4; 3] /\
    accumulate_grads 0 Nat.add nat_str large [1; 3] (Some []) 0 = Ok (t', c') /\ shape t' = [1; 3].
Proof. do 4 eexists. repeat split; reflexivity. Qed.

Print Assumptions C09_axes.
Print Assumptions C09_sums_over_copies.
Print Assumptions C09_transposes_broadcasting.
Print Assumptions C09_empty_batch_refuted.
Print Assumptions C10_slices_tile.
Print Assumptions C10_gradient_transposes_concat.
Print Assumptions C10_gradient_transposes_flat_concat.
Print Assumptions C42_results.
Print Assumptions C42_same_arguments_fresh.
Print Assumptions C42_new_shape_refuted.
