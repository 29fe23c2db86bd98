(** * transpose with given axes: proofs *)
From Coq Require Import List Arith Lia Bool ZArith.
From Verif Require Import PyBase Uniadic_Model Uniadic_Proofs Uniadic_Props Bcast_Proofs Shape_Model Shape_Proofs Shape_Proofs2 Shape_Proofs3 Shape_Props Reduce_Model Reduce_Proofs Reduce_Proofs2
  Rule_Proofs Window_Proofs Arange_Model Arange_Proofs Reshape_Model Reshape_Proofs Concat_Model Concat_Proofs Flat_Model Flat_Proofs Flat_Proofs2 Pad_Model Pad_Spec Pad_Proofs Pad_Proofs2.
Import ListNotations.
Open Scope list_scope. Open Scope nat_scope. Open Scope shm_scope.

(** ** Steps *)
Lemma t_update (R : trel) s a b : sinv s -> (forall u, In u a -> live (us s) u) -> (forall u, In u b -> live (us s) u) -> (forall rho tau sh, tallows s rho tau sh -> R rho tau sh -> zeq (map rho a) (map rho b)) ->
  match update_uniadics a b s with
  | (s', Ok _) => tsound R s s' /\ (exists u', s' = with_us s u' /\ evolves (us s) u') /\ (forall rho, sat (us s') rho -> sat (us s) rho /\ zeq (map rho a) (map rho b))
  | (_, Err e) => e = ValueError /\ texcludes R s
  end.
Proof.
  intros I La Lb H. destruct (umatch_ok a b s (s_inv _ I) La Lb) as (u' & r & -> & V & E). destruct r as [[]|e].
  - split; [|split; [eauto|intros rho Hs; apply E; auto]]. split; [apply with_us_sinv; auto|]. split; [auto|]. split; [auto|]. split; [intros x Hx; apply (evolves_live _ _ _ V); auto|]. split.
    + intros rho tau sh A Hr. exists rho, tau. split; [intros x _; auto|]. split; [auto|]. assert (Z := H rho tau sh A Hr). destruct A as [Hs D]. split; [cbn; apply E; auto|auto].
    + intros rho sh A. apply allows_den in A as (Hs & tau & D). apply allows_den. split; [apply E in Hs; apply Hs|exists tau; auto].
  - destruct E as [-> E]. split; [auto|]. intros rho tau sh A Hr. apply (E rho); [apply A|eapply H; eauto].
Qed.
Definition cut {A} (r : shrepr) (l : list A) : list A := firstn (length l - length (suf r) - length (pre r)) (skipn (length (pre r)) l).
Lemma t_remove (R : trel) s q l : sinv s -> q < nrep s -> (forall u, In u l -> live (us s) u) -> (forall rho tau sh, tallows s rho tau sh -> R rho tau sh -> sh q = map rho l) ->
  match (if no_root (rp s q) then (s, Ok tt) else remove_variadic q l s) with
  | (s', Ok _) => tsound R s s' /\ (root (rp s q) <> None -> shlen (rp s q) <= length l) /\ (forall rho, sat (us s') rho -> sat (us s) rho) /\
      (forall rho tau', exists tau, (forall x, x < nrep s -> den s rho tau x = den s' rho tau' x) /\ (forall v, root (rp s q) = Some v -> tau v = map rho (cut (rp s q) l)) /\ (forall v, root (rp s q) <> Some v -> tau v = tau' v)) /\
      (forall x, x < nrep s -> root (rp s q) = None \/ root (rp s x) <> root (rp s q) -> rp s' x = rp s x)
  | (_, Err e) => e = ValueError /\ texcludes R s
  end.
Proof.
  intros I Hq Lv H. unfold no_root. destruct (root (rp s q)) as [v|] eqn:Rt.
  2: { split; [apply tsound_refl; auto|]. split; [congruence|]. split; [auto|]. split; [|auto]. intros rho tau'. exists tau'. split; [auto|]. split; [discriminate|auto]. }
  unfold remove_variadic. rewrite Rt. destruct (Nat.ltb_spec (length l) (shlen (rp s q))) as [L|L].
  - split; [auto|]. intros rho tau sh A Hr. assert (E := f_equal (@length Z) (H rho tau sh A Hr)). destruct A as [_ D]. rewrite <- D, den_length, map_length in E by auto. lia.
  - assert (Cu : slice l (length (pre (rp s q))) (length l - length (suf (rp s q))) = cut (rp s q) l) by reflexivity. rewrite Cu.
    destruct (var_match_ok s v None (cut (rp s q) l) [] I) as (s' & -> & I' & Sm & V & N & Rp); [discriminate|discriminate|auto|intros u Hu; rewrite app_nil_r in Hu; apply Lv; unfold cut in Hu; apply in_firstn in Hu; rewrite <- (firstn_skipn (length (pre (rp s q))) l); apply in_app_iff; auto|].
    assert (Rd : replaced s v None (cut (rp s q) l) [] s') by (split; [auto|split; [auto|split; auto]]).
    assert (Back : forall rho, sat (us s') rho -> sat (us s) rho) by (intros rho Hs; apply (proj1 Sm); auto).
    assert (Bt : forall rho tau', exists tau, (forall x, x < nrep s -> den s rho tau x = den s' rho tau' x) /\ (forall w, Some v = Some w -> tau w = map rho (cut (rp s q) l)) /\ (forall w, Some v <> Some w -> tau w = tau' w)).
    { intros rho tau'. exists (upd tau' v (map rho (cut (rp s q) l))). split; [|split; [intros w Ew; injection Ew as <-; apply upd_same|intros w Nw; apply upd_other; congruence]]. intros x Hx. rewrite <- (replaced_den s v None (cut (rp s q) l) [] s' rho (upd tau' v (map rho (cut (rp s q) l))) Rd); [|auto|rewrite upd_same; cbn; rewrite app_nil_r; auto|auto].
      apply den_occurs. intros w Hw. rewrite (replaced_root s v None (cut (rp s q) l) [] s' x Rd Hx) in Hw. destruct (eqb (root (rp s x)) (Some v)) eqn:Z; [discriminate|]. apply upd_other. intros ->. rewrite Hw in Z. assert (X := eqb_refl (Some v)). congruence. }
    split; [|split; [auto|split; [auto|split; [auto|]]]].
    + split; [auto|]. split; [auto|]. split; [lia|]. split; [intros x Hx; apply (evolves_live _ _ _ (proj1 Sm)); auto|]. split.
      * intros rho tau sh A Hr. exists rho, tau. split; [intros x _; auto|]. split; [auto|]. assert (E := H rho tau sh A Hr). destruct A as [Hs D]. split; [apply Sm; auto|]. intros x Hx. rewrite N in Hx. rewrite <- D by auto. apply (replaced_den s v None (cut (rp s q) l) [] s' rho tau Rd); auto.
        cbn [rval map]. rewrite <- (D q Hq) in E. unfold den, dshape in E. rewrite Rt in E. cbn [rval] in E. cbn. rewrite app_nil_r. unfold cut.
        assert (E' : map rho (pre (rp s q)) ++ tau v ++ map rho (suf (rp s q)) = map rho l ++ []) by (rewrite app_nil_r; auto). apply zeq_app in E'. assert (E2 : (map rho (pre (rp s q)) ++ tau v) ++ map rho (suf (rp s q)) = [] ++ map rho l) by (rewrite <- app_assoc; auto). apply zeq_rev_app in E2.
        apply (proj1 (slice_eq _ _ _ _ E' E2 ltac:(rewrite !map_length; unfold shlen in L; lia))) in E. rewrite E, !map_length, map_firstn, map_skipn. auto.
      * intros rho sh A. apply allows_den in A as (Hs & tau' & D). destruct (Bt rho tau') as (tau & T & _). apply allows_den. split; [auto|]. exists tau. intros x Hx. rewrite T by auto. apply D. lia.
    + intros x Hx [C|C]; [discriminate|]. rewrite Rp by auto. destruct (eqb (root (rp s x)) (Some v)) eqn:Z; [|auto]. apply (proj1 (eqb_eq _ _)) in Z. congruence.
Qed.

(** ** The axes *)
Lemma same_entries {A} (a b : list A) : (forall k, nth_error a k = nth_error b k) -> a = b.
Proof. revert b. induction a as [|x a IH]; intros [|y b] H; [auto|specialize (H 0); discriminate..|]. assert (E := H 0). injection E as ->. f_equal. apply IH. intros k. apply (H (S k)). Qed.
Lemma missing_nil axes : missing_positions axes = [] <-> forall k, k < length axes -> In (Some (Z.of_nat k)) axes.
Proof.
  unfold missing_positions. set (f := fun k => negb _). assert (F : forall k, f k = false <-> In (Some (Z.of_nat k)) axes).
  { intros k. unfold f. rewrite negb_false_iff, existsb_exists. split; [intros ([z|] & H & E); [apply Z.eqb_eq in E; subst; auto|discriminate]|]. intros H. exists (Some (Z.of_nat k)). split; [auto|apply Z.eqb_refl]. }
  split.
  - intros E k Hk. apply F. destruct (f k) eqn:Ef; [|auto]. assert (X : In k (filter f (seq 0 (length axes)))) by (apply filter_In; split; [apply in_seq; lia|auto]). rewrite E in X. destruct X.
  - intros H. destruct (filter f (seq 0 (length axes))) as [|k r] eqn:E; [auto|]. assert (X : In k (filter f (seq 0 (length axes)))) by (rewrite E; left; auto). apply filter_In in X as [X1 X2]. apply in_seq in X1. assert (Y := proj2 (F k) (H k ltac:(lia))). congruence.
Qed.
Lemma all_positions axes : (forall k, k < length axes -> In (Some (Z.of_nat k)) axes) -> exists zs, axes = map (fun k => Some (Z.of_nat k)) zs /\ NoDup zs /\ forall k, In k zs -> k < length zs.
Proof.
  intros H. set (g := fun k => Some (Z.of_nat k)). assert (Gi : forall a b, g a = g b -> a = b) by (unfold g; intros a b E; injection E; lia).
  assert (Nd : NoDup (map g (seq 0 (length axes)))) by (apply FinFun.Injective_map_NoDup; [exact Gi|apply seq_NoDup]).
  assert (Inc : incl (map g (seq 0 (length axes))) axes) by (intros x Hx; apply in_map_iff in Hx as (k & <- & Hk); apply in_seq in Hk; apply H; lia).
  assert (Le : length axes <= length (map g (seq 0 (length axes)))) by (rewrite map_length, seq_length; auto).
  assert (N2 := NoDup_incl_NoDup Nd Le Inc). assert (I2 := NoDup_length_incl Nd Le Inc).
  assert (Ex : exists zs, axes = map g zs /\ forall k, In k zs -> k < length axes).
  { clear -I2. set (n := length axes) in *. clearbody n. induction axes as [|x l IH]; [exists []; split; [auto|intros k []]|]. destruct IH as (zs & -> & Hz); [intros y Hy; apply I2; right; auto|]. assert (Hx := I2 x (or_introl eq_refl)). apply in_map_iff in Hx as (k & <- & Hk). apply in_seq in Hk. exists (k :: zs). split; [auto|]. intros j [<-|Hj]; [lia|auto]. }
  destruct Ex as (zs & E & Hz). exists zs. split; [exact E|]. rewrite E in Hz, N2. rewrite map_length in Hz. split; [eapply NoDup_map_inv; eauto|auto].
Qed.
Definition axes_pair (qi qo : nat) (gs : list (option Z)) (sh : nat -> list Z) : Prop := exists axes, axes_given gs axes /\ transposes axes (sh qi) (sh qo).
Lemma axes_exact zs axes : axes_given (map (fun k => Some (Z.of_nat k)) zs) axes <-> axes = map Z.of_nat zs.
Proof.
  unfold axes_given. rewrite map_length. set (n := length zs). clearbody n. revert axes. induction zs as [|k zs IH]; intros axes; cbn [map].
  - split; [inversion 1; auto|intros ->; constructor].
  - assert (Ck : counted n (Z.of_nat k) = Z.of_nat k) by (unfold counted; destruct (Z.ltb_spec (Z.of_nat k) 0); lia). split.
    + inversion 1 as [|? ? ? ? E1 E2]; subst. rewrite Ck. f_equal. apply IH. auto.
    + intros ->. constructor; [auto|apply IH; auto].
Qed.
Lemma transposes_iff zs x y : NoDup zs -> (forall k, In k zs -> k < length zs) -> transposes (map Z.of_nat zs) x y <-> length x = length zs /\ y = map (fun k => nth k x 0%Z) zs.
Proof.
  intros Nd Lt. unfold transposes. rewrite map_length. split.
  - intros (Lx & Ly & H & _). split; [auto|]. apply same_entries. intros k. destruct (nth_error zs k) as [j|] eqn:E.
    + destruct (H k (Z.of_nat j)) as [H1 H2]; [apply map_nth_error; auto|]. rewrite (map_nth_error _ _ _ E), H2, Nat2Z.id. apply nth_error_nth'. apply nth_error_In in E. apply Lt in E. lia.
    + assert (E' := E). apply nth_error_None in E'. rewrite (proj2 (nth_error_None _ _)) by lia. symmetry. apply nth_error_None. rewrite map_length. lia.
  - intros [Lx ->]. rewrite map_length. split; [auto|]. split; [auto|]. split; [|apply FinFun.Injective_map_NoDup; [intros a b; lia|auto]]. intros k a E. rewrite nth_error_map in E. destruct (nth_error zs k) as [j|] eqn:Ej; [|discriminate]. injection E as <-. assert (Hj := Lt j (nth_error_In _ _ Ej)). split; [lia|].
    rewrite (map_nth_error _ _ _ Ej), Nat2Z.id. symmetry. apply nth_error_nth'. lia.
Qed.
Lemma pick_map (rho : nat -> Z) l zs : (forall k, In k zs -> k < length l) -> map rho (map (fun k => nth k l 0) zs) = map (fun k => nth k (map rho l) 0%Z) zs.
Proof. intros H. rewrite map_map. apply map_ext_in. intros k Hk. rewrite (nth_indep (map rho l) 0%Z (rho 0)) by (rewrite map_length; auto). rewrite map_nth. auto. Qed.

(** ** The rule *)
Lemma whole (rho : nat -> Z) (r : shrepr) (V : list Z) l : shlen r <= length l -> zeq (map rho (pre r)) (map rho l) -> zeq (map rho (rev (suf r))) (map rho (rev l)) -> V = map rho (cut r l) -> map rho (pre r) ++ V ++ map rho (suf r) = map rho l.
Proof.
  intros L Z1 Z2 ->. rewrite !map_rev in Z2. apply slice_eq; [auto|auto|rewrite !map_length; unfold shlen in L; lia|]. rewrite !map_length. unfold cut. rewrite map_firstn, map_skipn. auto.
Qed.
Lemma axes_ok s qi qo gs : sinv s -> qi < nrep s -> qo < nrep s ->
  match reverse_axes qi qo gs s with
  | (s', Ok r) => sound_for (axes_pair qi qo gs) s s' /\ (r = true <-> forall k, k < length gs -> In (Some (Z.of_nat k)) gs) /\
      (r = true -> root (rp s qi) = None \/ root (rp s qi) <> root (rp s qo) -> forall rho sh, allows s' rho sh -> root (rp s qi) <> None \/ length (sh qi) = length gs -> root (rp s qo) <> None \/ length (sh qo) = length gs -> axes_pair qi qo gs sh)
  | (_, Err e) => e = ValueError /\ ((forall k, k < length gs -> In (Some (Z.of_nat k)) gs) -> excludes (axes_pair qi qo gs) s)
  end.
Proof.
  intros I Hi Ho. unfold reverse_axes. destruct (missing_positions gs) as [|k0 [|k1 ks]] eqn:Em.
  2: { unfold hraise. split; [auto|]. intros H. apply missing_nil in H. congruence. }
  2: { unfold hret. split; [apply sound_for_refl; auto|]. split; [|discriminate]. split; [discriminate|]. intros H. apply missing_nil in H. congruence. }
  assert (All := proj1 (missing_nil gs) Em). destruct (all_positions gs All) as (zs & Eg & Nd & Lt). clear Em. assert (Lg : length gs = length zs) by (rewrite Eg, map_length; auto).
  set (P := axes_pair qi qo gs). assert (Pe : forall sh, P sh <-> length (sh qi) = length zs /\ sh qo = map (fun k => nth k (sh qi) 0%Z) zs).
  { intros sh. unfold P, axes_pair. rewrite <- (transposes_iff zs (sh qi) (sh qo) Nd Lt). rewrite Eg. split; [intros (a & H1 & H2); apply axes_exact in H1; subst; auto|]. intros H. exists (map Z.of_nat zs). split; [apply axes_exact; auto|auto]. }
  destruct (fresh_dims (length gs) s I) as (s1 & l & E1 & F1 & L1 & V1). rewrite (with_dims _ _ _ _ _ E1). cbv zeta. destruct F1 as (B & Lv & Sb & C). assert (I1 : sinv s1) by apply B. assert (R1 : rp s1 = rp s) by apply B. assert (N1 : nrep s1 = nrep s) by apply B.
  assert (El' : map (fun a : option Z => nth (Z.to_nat match a with Some z => z | None => 0%Z end) l 0) gs = map (fun k => nth k l 0) zs) by (rewrite Eg, map_map; apply map_ext; intros k; rewrite Nat2Z.id; auto). rewrite El'. clear El'. set (l' := map (fun k => nth k l 0) zs).
  assert (Lv' : forall u, In u l' -> live (us s1) u) by (intros u Hu; apply in_map_iff in Hu as (k & <- & Hk); apply Lv, nth_In; apply Lt in Hk; lia).
  set (R := fun (rho : nat -> Z) (tau : nat -> list Z) (sh : nat -> list Z) => sh qi = map rho l /\ sh qo = map rho l').
  assert (St : forall t, (forall x, live (us s1) x -> live (us t) x) -> tstable R t). { intros t Ht rho rho' tau tau' sh A _ [H1 H2]. split; [rewrite H1|rewrite H2]; apply map_ext_in; intros u Hu; symmetry; apply A, Ht; auto. }
  assert (Ext : forall rho sh, allows s rho sh -> P sh -> exists rho' tau', agrees (us s) rho rho' /\ tallows s1 rho' tau' sh /\ R rho' tau' sh).
  { intros rho sh A Hp. apply Pe in Hp as [H1 H2]. apply allows_den in A as (Hs & tau & D). destruct (C rho (sh qi) Hs ltac:(lia)) as (r & Ag & Hr & Em). exists r, tau. split; [auto|]. split; [split; [auto|]|].
    - intros x Hx. rewrite N1 in Hx. rewrite <- D by auto. apply born_den; auto.
    - split; [auto|]. unfold l'. rewrite pick_map, Em; [auto|]. intros k Hk. apply Lt in Hk. lia. }
  assert (Fin : forall s', tsound R s1 s' -> sound_for P s s').
  { intros s' (I' & N' & V' & L' & F' & B'). assert (G : grows (us s) (us s1)) by apply B. split; [auto|]. split; [lia|]. split; [intros x Hx; apply L', G; auto|]. split.
    - intros rho sh A Hp. destruct (Ext rho sh A Hp) as (r & t & Ag & At & Hr). destruct (F' r t sh At Hr) as (r2 & t2 & Ag2 & _ & At2). exists r2. split; [intros x Hx; rewrite Ag2 by (apply G; auto); auto|]. apply allows_t. eauto.
    - intros rho sh A. apply B' in A. apply allows_den in A as (Hs & tau & D). apply allows_den. split; [auto|]. exists tau. intros x Hx. rewrite <- D by lia. unfold den. rewrite R1. auto. }
  assert (Bad : forall t e, tsound R s1 t -> e = ValueError /\ texcludes R t -> e = ValueError /\ ((forall k, k < length gs -> In (Some (Z.of_nat k)) gs) -> excludes P s)).
  { intros t e T [-> X]. split; [auto|]. intros _ rho sh A Hp. destruct (Ext rho sh A Hp) as (r & tt & _ & At & Hr). apply (texcludes_back R s1 t (St s1 ltac:(auto)) T X r tt sh At Hr). }
  assert (Zi : forall t rho tau sh, rp t = rp s -> nrep t = nrep s -> tallows t rho tau sh -> R rho tau sh -> zeq (map rho (pre (rp s qi))) (map rho l) /\ zeq (map rho (reversed (rp s qi))) (map rho (rev l)) /\ zeq (map rho (pre (rp s qo))) (map rho l') /\ zeq (map rho (reversed (rp s qo))) (map rho (rev l'))).
  { intros t rho tau sh Rt Nt [Hs D] [H1 H2].
    assert (G : forall q l0, q < nrep s -> sh q = map rho l0 -> zeq (map rho (pre (rp s q))) (map rho l0) /\ zeq (map rho (reversed (rp s q))) (map rho (rev l0))).
    { intros q l0 Hq E. rewrite <- (D q ltac:(lia)) in E. unfold den in E. rewrite Rt in E. assert (E' : map rho (pre (rp s q)) ++ (rval tau (root (rp s q)) ++ map rho (suf (rp s q))) = map rho l0 ++ []) by (rewrite app_nil_r; exact E). split; [eapply zeq_app; exact E'|].
      unfold reversed. destruct (root (rp s q)) as [v|] eqn:Rq; rewrite !map_rev; eapply zeq_rev_app.
      - unfold dshape in E. rewrite Rq in E. rewrite app_assoc in E. instantiate (1 := []). cbn [app]. exact E.
      - destruct (s_repr _ I q Hq) as (_ & W & _). specialize (W Rq). rewrite W in E'. cbn [rval map app] in E'. rewrite !app_nil_r in E'. instantiate (1 := []). instantiate (1 := []). cbn [app]. exact E'. }
    destruct (G qi l Hi H1). destruct (G qo l' Ho H2). auto. }
  (* the four unifications of dimensions *)
  assert (Live : forall q u, q < nrep s -> In u (pre (rp s q)) \/ In u (reversed (rp s q)) -> live (us s1) u).
  { intros q u Hq Hu. apply B. destruct (s_repr _ I q Hq) as (W & _). apply W. apply in_app_iff. destruct Hu as [Hu|Hu]; [auto|]. unfold reversed in Hu. destruct (root (rp s q)); apply in_rev in Hu; auto. }
  assert (Step : forall t a b, tsound R s1 t -> rp t = rp s -> (forall u, In u a -> live (us s1) u) -> (forall u, In u b -> live (us s1) u) -> (forall rho tau sh, tallows t rho tau sh -> R rho tau sh -> zeq (map rho a) (map rho b)) ->
    match update_uniadics a b t with (t', Ok _) => tsound R s1 t' /\ rp t' = rp s /\ (forall rho, sat (us t') rho -> sat (us t) rho /\ zeq (map rho a) (map rho b)) | (_, Err e) => e = ValueError /\ texcludes R t end).
  { intros t a b T Rt La Lb H. assert (X := t_update R t a b (proj1 T)). lapply X; [clear X; intros X|intros u Hu; apply T; auto]. lapply X; [clear X; intros X|intros u Hu; apply T; auto]. specialize (X H). destruct (update_uniadics a b t) as [t' [[]|e]]; [|auto]. destruct X as (X1 & (u' & -> & _) & X2).
    split; [eapply tsound_trans; [apply St; auto|exact T|exact X1]|]. split; [auto|auto]. }
  assert (T1 := tsound_refl R s1 I1).
  unfold hbind at 1. rewrite R1. assert (X := Step s1 (pre (rp s qi)) l T1 R1 ltac:(intros u Hu; apply (Live qi); auto) Lv ltac:(intros rho tau sh A Hr; apply (Zi s1 rho tau sh R1 N1 A Hr))). destruct (update_uniadics (pre (rp s qi)) l s1) as [s2 [[]|e]]; [|apply (Bad s1); auto]. destruct X as (T2 & R2 & Z2).
  unfold hbind at 1. rewrite R2. assert (N2 : nrep s2 = nrep s) by (destruct T2 as (_ & N2 & _); lia). assert (X := Step s2 (reversed (rp s qi)) (rev l) T2 R2 ltac:(intros u Hu; apply (Live qi); auto) ltac:(intros u Hu; apply in_rev in Hu; auto) ltac:(intros rho tau sh A Hr; apply (Zi s2 rho tau sh R2 N2 A Hr))). destruct (update_uniadics (reversed (rp s qi)) (rev l) s2) as [s3 [[]|e]]; [|apply (Bad s2); auto]. destruct X as (T3 & R3 & Z3).
  unfold hbind at 1. rewrite R3. assert (N3 : nrep s3 = nrep s) by (destruct T3 as (_ & N3 & _); lia). assert (X := Step s3 (pre (rp s qo)) l' T3 R3 ltac:(intros u Hu; apply (Live qo); auto) Lv' ltac:(intros rho tau sh A Hr; apply (Zi s3 rho tau sh R3 N3 A Hr))). destruct (update_uniadics (pre (rp s qo)) l' s3) as [s4 [[]|e]]; [|apply (Bad s3); auto]. destruct X as (T4 & R4 & Z4).
  unfold hbind at 1. rewrite R4. assert (N4 : nrep s4 = nrep s) by (destruct T4 as (_ & N4 & _); lia). assert (X := Step s4 (reversed (rp s qo)) (rev l') T4 R4 ltac:(intros u Hu; apply (Live qo); auto) ltac:(intros u Hu; apply in_rev in Hu; auto) ltac:(intros rho tau sh A Hr; apply (Zi s4 rho tau sh R4 N4 A Hr))). destruct (update_uniadics (reversed (rp s qo)) (rev l') s4) as [s5 [[]|e]]; [|apply (Bad s4); auto]. destruct X as (T5 & R5 & Z5).
  assert (N5 : nrep s5 = nrep s) by (destruct T5 as (_ & N5 & _); lia). assert (I5 : sinv s5) by apply T5.
  (* the variadics *)
  unfold hbind at 1. assert (X := t_remove R s5 qi l I5 ltac:(lia) ltac:(intros u Hu; apply T5; auto) ltac:(intros rho tau sh _ [Hr _]; exact Hr)). destruct (if no_root (rp s5 qi) then (s5, Ok tt) else remove_variadic qi l s5) as [s6 [[]|e]]; [|apply (Bad s5); auto]. destruct X as (X6 & Y6 & B6 & W6 & K6).
  assert (T6 : tsound R s1 s6) by (eapply tsound_trans; [apply St; auto|exact T5|exact X6]). assert (N6 : nrep s6 = nrep s) by (destruct T6 as (_ & N6 & _); lia). assert (I6 : sinv s6) by apply T6.
  unfold hbind at 1. assert (X := t_remove R s6 qo l' I6 ltac:(lia) ltac:(intros u Hu; apply T6; auto) ltac:(intros rho tau sh _ [_ Hr]; exact Hr)). destruct (if no_root (rp s6 qo) then (s6, Ok tt) else remove_variadic qo l' s6) as [s7 [[]|e]]; [|apply (Bad s6); auto]. destruct X as (X7 & Y7 & B7 & W7 & K7).
  assert (T7 : tsound R s1 s7) by (eapply tsound_trans; [apply St; auto|exact T6|exact X7]). unfold hret. split; [auto|]. split; [tauto|].
  intros _ Df rho sh A Hri Hro. apply allows_den in A as (Hs7 & tau7 & D7). assert (N7 : nrep s7 = nrep s) by (destruct T7 as (_ & N7 & _); lia). destruct (W7 rho tau7) as (tau6 & D6 & O6 & _). destruct (W6 rho tau6) as (tau5 & D5 & O5 & P5). rewrite R5 in *.
  assert (Hs5 : sat (us s5) rho) by auto. destruct (Z5 rho Hs5) as [Hs4 Q4]. destruct (Z4 rho Hs4) as [Hs3 Q3]. destruct (Z3 rho Hs3) as [Hs2 Q2]. destruct (Z2 rho Hs2) as [_ Q1].
  assert (Dn : forall q, q < nrep s -> sh q = dshape rho tau5 (rp s q)). { intros q Hq. rewrite <- D7 by lia. rewrite <- D6 by lia. rewrite <- D5 by lia. unfold den. rewrite R5. auto. }
  assert (R6 : rp s6 qo = rp s qo). { apply (K6 qo); [lia|]. destruct Df; auto. } rewrite R6 in *.
  apply Pe.
  assert (Ei : sh qi = map rho l).
  { rewrite (Dn qi Hi). unfold dshape. unfold reversed in Q2. destruct (root (rp s qi)) as [v|] eqn:Ri.
    - cbn [rval]. apply whole; auto. apply Y6. congruence.
    - destruct (s_repr _ I qi Hi) as (_ & W & _). rewrite (W Ri). cbn [rval map app]. rewrite app_nil_r. destruct Hri as [Hri|Hri]; [congruence|]. apply zeq_firstn_full; [auto|]. rewrite !map_length. rewrite (Dn qi Hi) in Hri. unfold dshape in Hri. rewrite Ri, (W Ri) in Hri. cbn [rval map app] in Hri. rewrite app_nil_r, map_length in Hri. lia. }
  assert (Ll' : length l' = length gs) by (unfold l'; rewrite map_length; lia).
  assert (Eo : sh qo = map rho l').
  { rewrite (Dn qo Ho). unfold dshape. unfold reversed in Q4. destruct (root (rp s qo)) as [v|] eqn:Ro.
    - cbn [rval]. apply whole; auto; [apply Y7; congruence|]. rewrite P5; [apply O6; auto|]. destruct Df as [Df|Df]; [congruence|auto].
    - destruct (s_repr _ I qo Ho) as (_ & W & _). rewrite (W Ro). cbn [rval map app]. rewrite app_nil_r. destruct Hro as [Hro|Hro]; [congruence|]. apply zeq_firstn_full; [auto|]. rewrite !map_length. rewrite (Dn qo Ho) in Hro. unfold dshape in Hro. rewrite Ro, (W Ro) in Hro. cbn [rval map app] in Hro. rewrite app_nil_r, map_length in Hro. lia. }
  split; [rewrite Ei, map_length; lia|]. rewrite Ei, Eo. unfold l'. apply pick_map. intros k Hk. apply Lt in Hk. lia.
Qed.
