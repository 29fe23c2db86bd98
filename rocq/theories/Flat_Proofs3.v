(** * flatten: the sizes and the rule *)
From Coq Require Import List Arith Lia Bool ZArith.
From Verif Require Import PyBase Uniadic_Model Uniadic_Proofs Uniadic_Props Bcast_Proofs Shape_Model Shape_Proofs Shape_Proofs2 Shape_Proofs3 Shape_Props Reduce_Model Reduce_Proofs Reduce_Proofs2
  Rule_Proofs Window_Proofs Reshape_Model Reshape_Proofs Concat_Model Concat_Proofs Flat_Model Flat_Spec Flat_Proofs Flat_Proofs2.
Import ListNotations.
Open Scope list_scope. Open Scope nat_scope. Open Scope shm_scope.

(** The shape that the rule gives the output, for positions in range *)
Definition absolute (n z : Z) : Z := if (0 <=? z)%Z then z else (n + z)%Z.
Lemma until_abs {A} (l : list A) z : (0 <= absolute (Z.of_nat (length l)) z)%Z -> until z l = firstn (Z.to_nat (absolute (Z.of_nat (length l)) z)) l.
Proof. unfold until, absolute. destruct (Z.leb_spec 0 z); [auto|]. intros H1. f_equal. lia. Qed.
Lemma from_abs {A} (l : list A) e : (0 <= absolute (Z.of_nat (length l)) e)%Z -> (if (e =? -1)%Z then [] else from (e + 1) l) = skipn (S (Z.to_nat (absolute (Z.of_nat (length l)) e))) l.
Proof.
  unfold from, absolute. intros H. destruct (Z.eqb_spec e (-1)) as [->|N].
  - cbn [Z.leb] in *. symmetry. apply skipn_all2. destruct (Z.leb_spec 0 (-1)); lia.
  - destruct (Z.leb_spec 0 e); destruct (Z.leb_spec 0 (e + 1)); try lia; f_equal; lia.
Qed.
Lemma three_parts {A} (l : list A) i j : i < j -> l = firstn i l ++ firstn (j - i) (skipn i l) ++ skipn j l.
Proof. intros H. rewrite <- (firstn_skipn i l) at 1. f_equal. rewrite <- (firstn_skipn (j - i) (skipn i l)) at 1. f_equal. clear - H. revert i j H. induction l as [|x l IH]; intros i j H; [rewrite !skipn_nil; auto|]. destruct i, j; try lia; [reflexivity|]. apply (IH i j). lia. Qed.
Lemma slice_map {A B} (f : A -> B) (l : list A) i j : firstn (j - i) (skipn i (map f l)) = map f (firstn (j - i) (skipn i l)).
Proof. rewrite map_firstn, map_skipn. auto. Qed.
Lemma flattens_abs st en x y : flattens (Some st) (Some en) x y <->
  let n := Z.of_nat (length x) in let a := absolute n st in let e := absolute n en in
  (0 <= a <= e)%Z /\ (e < n)%Z /\ (- n <= st)%Z /\ (- n <= en)%Z /\ y = firstn (Z.to_nat a) x ++ volume (firstn (S (Z.to_nat e) - Z.to_nat a) (skipn (Z.to_nat a) x)) :: skipn (S (Z.to_nat e)) x.
Proof.
  cbv zeta. split.
  - intros (f & m & b & -> & Nm & -> & Sa & Se). cbn [stands_for] in Sa, Se. assert (Lm : length m <> 0) by (destruct m; [congruence|discriminate]). set (n := length (f ++ m ++ b)) in *. assert (Ln : n = length f + (length m + length b)) by (unfold n; rewrite !app_length; auto). clearbody n.
    assert (Ea : absolute (Z.of_nat n) st = Z.of_nat (length f)) by (unfold absolute; destruct (Z.leb_spec 0 st); lia). assert (Ee : absolute (Z.of_nat n) en = Z.of_nat (length f + length m - 1)) by (unfold absolute; destruct (Z.leb_spec 0 en); lia).
    rewrite Ea, Ee. do 4 (split; [lia|]). rewrite !Nat2Z.id. replace (S (length f + length m - 1)) with (length f + length m) by lia. replace (length f + length m - length f) with (length m) by lia. rewrite firstn_exact, skipn_exact, firstn_exact by auto. f_equal. f_equal. rewrite app_assoc, skipn_exact; [auto|rewrite app_length; auto].
  - intros (Ha & He & H1 & H2 & ->). set (n := length x) in *. set (i := Z.to_nat (absolute (Z.of_nat n) st)) in *. set (j := S (Z.to_nat (absolute (Z.of_nat n) en))) in *. assert (Hij : i < j) by (unfold i, j; lia). assert (Hjn : j <= n) by (unfold j; lia).
    exists (firstn i x), (firstn (j - i) (skipn i x)), (skipn j x). split; [apply three_parts; auto|]. assert (Lf : length (firstn i x) = i) by (rewrite firstn_length; fold n; lia). assert (Lm : length (firstn (j - i) (skipn i x)) = j - i) by (rewrite firstn_length, skipn_length; fold n; lia).
    split; [intros Hn; rewrite Hn in Lm; cbn [length] in Lm; lia|]. split; [auto|]. rewrite Lf, Lm. fold n. unfold stands_for. unfold i, j, absolute in *. destruct (Z.leb_spec 0 st); destruct (Z.leb_spec 0 en); split; lia.
Qed.
Lemma flatten_sizes_ok s qi qo a e : sinv s -> qi < nrep s -> qo < nrep s -> root (rp s qi) = None ->
  match flatten_sizes qi qo a e s with
  | (s', Ok r) => sound_for (flat_pair qi qo (Some a) (Some e)) s s' /\
      (r = true -> ensures (fun sh => e <> Z.of_nat (length (sh qi)) -> flat_pair qi qo (Some a) (Some e) sh) s') /\
      (forall x, determined s qi x -> r = true)
  | (_, Err er) => er = ValueError /\ excludes (fun sh => joins_axes (Some a) (Some e) (sh qi) (sh qo)) s
  end.
Proof.
  intros I Hi Ho R. unfold flatten_sizes. set (l := pre (rp s qi)). assert (D : forall rho sh, allows s rho sh -> sh qi = map rho l) by (intros rho sh A; apply (plain_sh s qi rho sh I Hi R A)).
  set (n := Z.of_nat (length l)). fold (absolute n a). fold (absolute n e).
  assert (X : forall rho sh, allows s rho sh -> joins_axes (Some a) (Some e) (sh qi) (sh qo) -> (0 <= absolute n a < absolute n e)%Z /\ (absolute n e < n)%Z).
  { intros rho sh A [Hf Hl]. apply flattens_abs in Hf. rewrite (D rho sh A), map_length in Hf. cbv zeta in Hf. fold n in Hf. destruct Hf as (H1 & H2 & _ & _ & Ey). split; [|auto]. apply (f_equal (@length Z)) in Ey. rewrite app_length in Ey. cbn [length] in Ey. rewrite firstn_length, skipn_length, map_length in Ey. rewrite (D rho sh A), map_length in Hl. unfold n in *. lia. }
  destruct (Z.leb_spec (absolute n e) (absolute n a)) as [C1|C1]; [split; [auto|]; intros rho sh A Hj; specialize (X rho sh A Hj); lia|].
  destruct (negb ((0 <=? absolute n a)%Z && (absolute n a <=? n)%Z)) eqn:C2; [split; [auto|]; intros rho sh A Hj; specialize (X rho sh A Hj); apply negb_true_iff, andb_false_iff in C2 as [C2|C2]; apply Z.leb_gt in C2; lia|].
  destruct (negb ((0 <=? absolute n e)%Z && (absolute n e <=? n)%Z)) eqn:C3; [split; [auto|]; intros rho sh A Hj; specialize (X rho sh A Hj); apply negb_true_iff, andb_false_iff in C3 as [C3|C3]; apply Z.leb_gt in C3; lia|].
  clear X. apply negb_false_iff, andb_prop in C2 as [A1 A2]. apply negb_false_iff, andb_prop in C3 as [B1 B2]. apply Z.leb_le in A1, A2, B1, B2. set (i := Z.to_nat (absolute n a)). set (j := Z.to_nat (absolute n e)).
  assert (Ll : forall u, In u l -> live (us s) u) by (intros u; apply pre_live; auto).
  destruct (all_some (values s (slice l i (S j)))) as [keys|] eqn:K.
  - apply all_some_spec in K. rewrite until_abs, from_abs by (fold n; auto). fold n. fold i. fold j.
    assert (Lsl : forall u, In u (slice l i (S j)) -> live (us s) u) by (intros u Hu; unfold slice in Hu; apply in_firstn, in_skipn in Hu; auto).
    assert (Kv : forall rho, sat (us s) rho -> map rho (slice l i (S j)) = keys) by (apply values_sat; auto).
    destruct (new_uniadic_ok (us s) (Some (prodz keys)) (s_inv _ I)) as (u' & E & G & L & N & S0). unfold hbind at 1. unfold new_dim, lift. rewrite E.
    set (u := nu (us s)) in *. set (o := mkshape (firstn i l ++ [u] ++ skipn (S j) l) None []). assert (B := born_us s u' I G).
    assert (W : wf_repr (with_us s u') o). { split; [|split; [auto|discriminate]]. cbn. intros x Hx. rewrite app_nil_r in Hx. rewrite in_app_iff in Hx. cbn in Hx. destruct Hx as [Hx|[<-|Hx]]; [apply G, Ll; apply in_firstn in Hx; auto|auto|apply G, Ll; destruct l; [destruct Hx|apply in_skipn in Hx; right; auto]]. }
    assert (Do : forall rho tau, dshape rho tau o = firstn i (map rho l) ++ rho u :: skipn (S j) (map rho l)). { intros rho tau. unfold dshape, o. cbn [pre suf root rval map app]. rewrite app_nil_r, map_app, map_firstn. cbn [map]. rewrite map_skipn. auto. }
    assert (M := rule_step (flat_pair qi qo (Some a) (Some e)) s (with_us s u') qo o I B Ho W ltac:(intros rho Hs; apply S0 in Hs; apply Hs)). lapply M; [clear M; intros M|].
    2: { intros rho tau sh Hs Dn Hp. assert (Al : allows s rho sh) by (apply allows_den; eauto). exists (upd rho u (prodz keys)), tau. assert (Ag : agrees (us s) rho (upd rho u (prodz keys))) by (intros x Hx; apply upd_other; intros ->; contradiction). split; [auto|]. split; [auto|]. split; [apply S0; split; [eapply sat_agrees; eauto|cbn; apply upd_same]|].
      rewrite Do, upd_same. rewrite (map_agrees (us s) rho (upd rho u (prodz keys)) l Ag Ll). apply flattens_abs in Hp. cbv zeta in Hp. rewrite (D rho sh Al), map_length in Hp. fold n in Hp. fold i in Hp. fold j in Hp. destruct Hp as (_ & _ & _ & _ & ->). f_equal. f_equal. rewrite slice_map. change (firstn (S j - i) (skipn i l)) with (slice l i (S j)). rewrite (Kv rho Hs). reflexivity. }
    unfold hbind. fold o. destruct (inner_match qo o (with_us s u')) as [s' [[]|er]].
    + destruct M as (M1 & M2 & M3). split; [auto|]. split; [|auto]. intros _ rho sh A Ne. destruct (M3 ltac:(intros (_ & Hn & _); cbn in Hn; congruence) rho sh A) as (tau & Hs & Dn & Eq). apply S0 in Hs as [Hs Hu]. cbn in Hu. assert (Al : allows s rho sh) by (apply M1; auto). apply flattens_abs. cbv zeta. rewrite (D rho sh Al), map_length in *. fold n in Ne |- *. fold i. fold j.
      rewrite Eq, Do, Hu. assert (en_ok : (absolute n e < n)%Z) by (unfold absolute in *; destruct (Z.leb_spec 0 e); lia). split; [lia|]. split; [auto|]. split; [unfold absolute in *; destruct (Z.leb_spec 0 a); lia|]. split; [unfold absolute in *; destruct (Z.leb_spec 0 e); lia|].
      f_equal. f_equal. rewrite slice_map. change (firstn (S j - i) (skipn i l)) with (slice l i (S j)). rewrite (Kv rho Hs). reflexivity.
    + destruct M as [-> M]. split; [auto|]. eapply excludes_weaken; [exact M|]. intros sh [H _]. exact H.
  - split; [apply sound_for_refl; auto|]. split; [discriminate|]. intros x Dx. exfalso. apply determined_values in Dx as [_ V]; [|auto|auto]. fold l in V. apply all_some_none in K. unfold values in K. apply in_map_iff in K as (u & Vu & Hu). unfold slice in Hu. apply in_firstn, in_skipn in Hu. assert (Hn : In None (values s l)) by (unfold values; rewrite <- Vu; apply in_map; auto). rewrite V in Hn. apply in_map_iff in Hn as (? & ? & _). discriminate.
Qed.
Lemma flatten_ok s qi qo st en : sinv s -> qi < nrep s -> qo < nrep s ->
  match flatten_rule qi qo st en s with
  | (s', Ok r) => sound_for (flat_pair qi qo st en) s s' /\
      (r = true -> ensures (fun sh => en <> Some (Z.of_nat (length (sh qi))) -> flat_pair qi qo st en sh) s') /\
      (forall x a e, determined s qi x -> st = Some a -> en = Some e -> r = true)
  | (_, Err er) => er = ValueError /\ excludes (fun sh => joins_axes st en (sh qi) (sh qo)) s
  end.
Proof.
  intros I Hi Ho. unfold flatten_rule. assert (M := flatten_ranks_ok s qi qo st en I Hi Ho). unfold hbind. destruct (flatten_ranks qi qo st en s) as [s1 [[]|er]].
  2: { destruct M as [-> M]. split; [auto|]. eapply excludes_weaken; [exact M|]. intros sh [H _]. exact H. }
  assert (I1 : sinv s1) by apply M. assert (N1 : nrep s1 = nrep s) by apply M. rewrite <- N1 in Hi, Ho.
  assert (Triv : forall Q : Prop, (forall x a e, determined s qi x -> st = Some a -> en = Some e -> Q) -> sound_for (flat_pair qi qo st en) s s1 /\ (false = true -> ensures (fun sh => en <> Some (Z.of_nat (length (sh qi))) -> flat_pair qi qo st en sh) s1) /\ (forall x a e, determined s qi x -> st = Some a -> en = Some e -> Q)) by (intros; split; [auto|split; [discriminate|auto]]).
  destruct st as [a|]; [|apply Triv; discriminate]. destruct en as [e|]; [|apply Triv; discriminate]. destruct (root (rp s1 qi)) as [v|] eqn:R.
  - apply Triv. intros x a0 e0 Dx _ _. assert (D1 : determined s1 qi x) by (intros rho sh A; apply (Dx rho sh); apply M; auto). apply determined_plain in D1; [congruence|auto|auto].
  - assert (F := flatten_sizes_ok s1 qi qo a e I1 Hi Ho R). destruct (flatten_sizes qi qo a e s1) as [s2 [r|er]].
    + destruct F as (F1 & F2 & F3). split; [eapply sound_for_trans; eauto|]. split.
      * intros Hr rho sh A Ne. apply (F2 Hr rho sh A). congruence.
      * intros x a0 e0 Dx _ _. apply (F3 x). intros rho sh A. apply (Dx rho sh). apply M. auto.
    + destruct F as [-> F]. split; [auto|]. intros rho sh A [H1 H2]. destruct M as (_ & _ & _ & Fw & _). destruct (Fw rho sh A H1) as (r & _ & A'). apply (F r sh A'). split; auto.
Qed.
