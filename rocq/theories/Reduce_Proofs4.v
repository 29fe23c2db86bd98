(** * Reductions: both shapes have variadic parts *)
From Coq Require Import List Arith Lia Bool ZArith.
From Verif Require Import PyBase Uniadic_Model Uniadic_Proofs Uniadic_Props Bcast_Proofs Shape_Model Shape_Proofs Shape_Proofs2 Shape_Proofs3 Shape_Props Reduce_Model Reduce_Spec Reduce_Proofs Reduce_Proofs2 Reduce_Proofs3.
Import ListNotations.
Open Scope list_scope. Open Scope nat_scope. Open Scope shm_scope.

Lemma without_len_ext red keep x : forall i y, length x = length y -> length (without red keep i x) = length (without red keep i y).
Proof.
  induction x as [|a x IH]; intros i [|b y] L; try discriminate; auto. cbn [without]. cbn in L. rewrite !app_length, (IH (i + 1)%Z y) by lia. destruct (existsb (Z.eqb i) red); auto.
Qed.
Lemma out_side_len keep axes limit l : forall idx s s' L, inv (us s) -> out_side keep axes limit idx l s = (s', Ok L) -> length L = length (without axes keep idx (map (fun _ => 0%Z) l)).
Proof.
  induction l as [|u l IH]; intros idx s s' L I E; cbn [out_side] in E; [injection E as <- <-; auto|].
  assert (Em : mem idx axes = existsb (Z.eqb idx) axes). { apply eq_true_iff_eq. rewrite mem_In, existsb_In. tauto. } rewrite Em in E. cbn [map without]. rewrite app_length.
  assert (K : forall (m1 : shm (list nat)) k spec, makes m1 s spec -> (forall s1 hd, m1 s = (s1, Ok hd) -> length hd = k) -> (do hd <- m1; do tl <- out_side keep axes limit (idx + 1)%Z l; hret (hd ++ tl)) s = (s', Ok L) ->
    length L = k + length (without axes keep (idx + 1) (map (fun _ => 0%Z) l))).
  { intros m1 k spec (u' & hd & E1 & G & _) Hk E'. unfold hbind in E'. rewrite E1 in E'. specialize (Hk _ _ E1). destruct (out_side keep axes limit (idx + 1)%Z l (with_us s u')) as [s2 [tl|e]] eqn:E2; [|discriminate].
    injection E' as <- <-. rewrite app_length. apply IH in E2; [|apply G]. lia. }
  destruct (existsb (Z.eqb idx) axes); [destruct keep|].
  - refine (K _ 1 _ (makes_dim (Some 1%Z) s I) _ E). intros s1 hd H. unfold hbind, hret in H. destruct (new_dim (Some 1%Z) s) as [? [x|e]]; [|discriminate]. injection H as _ <-. auto.
  - refine (K _ 0 _ (makes_old [] s I ltac:(intros x [])) _ E). intros s1 hd H. injection H as _ <-. auto.
  - destruct (idx <? limit)%Z.
    + unfold hbind at 1, hret at 1 in E. unfold hbind in E. destruct (out_side keep axes limit (idx + 1)%Z l s) as [s2 [tl|e]] eqn:E2; [|discriminate]. injection E as <- <-. apply IH in E2; auto. cbn. lia.
    + refine (K _ 1 _ (makes_dim None s I) _ E). intros s1 hd H. unfold hbind, hret in H. destruct (new_dim None s) as [? [x|e]]; [|discriminate]. injection H as _ <-. auto.
Qed.

Lemma without_count_in red x : NoDup red -> (length (without red false 0 x) + length (filter (fun a => (0 <=? a)%Z && (a <? Z.of_nat (length x))%Z) red) = length x).
Proof.
  intros ND. assert (C := without_count red x 0). set (f := filter _ (zseq _ _)) in C. set (g := filter _ red).
  assert (F : forall j, In j f <-> In j g). { intros j. unfold f, g. rewrite !filter_In, In_zseq, existsb_In, andb_true_iff, Z.leb_le, Z.ltb_lt. split; intros [H1 H2]; split; auto; lia. }
  assert (length f <= length g). { apply NoDup_incl_length; [apply NoDup_filter', NoDup_zseq|]. intros j. apply F. }
  assert (length g <= length f). { apply NoDup_incl_length; [apply NoDup_filter'; auto|]. intros j. apply F. }
  lia.
Qed.
Definition mirror (a : Z) : Z := (- a - 1)%Z.
Lemma count_axes np ns axes : (0 <= np)%Z -> (0 <= ns)%Z ->
  length (filter (fun a => (0 <=? a)%Z && (a <? np)%Z) (pos_of axes)) + length (filter (fun a => (0 <=? a)%Z && (a <? ns)%Z) (map mirror (neg_of axes))) + length (filter (uncertain np ns) axes) = length axes.
Proof.
  intros Hp Hn. induction axes as [|a axes IH]; auto. unfold pos_of, neg_of, uncertain in *. cbn [filter]. unfold mirror in *.
  destruct (Z.leb_spec 0 a), (Z.ltb_spec a 0); try lia; cbn [filter map].
  - destruct (Z.leb_spec 0 a), (Z.ltb_spec a np), (Z.leb_spec np a), (Z.ltb_spec a (- ns)); try lia; cbn [andb orb filter length] in *; lia.
  - destruct (Z.leb_spec 0 (- a - 1)), (Z.ltb_spec (- a - 1) ns), (Z.leb_spec np a), (Z.ltb_spec a (- ns)); try lia; cbn [andb orb filter length] in *; lia.
Qed.
Lemma NoDup_mirror l : NoDup l -> NoDup (map mirror l).
Proof. induction 1 as [|a l H ND IH]; cbn; constructor; auto. intros M. apply in_map_iff in M as (b & E & Hb). unfold mirror in E. assert (b = a) by lia. congruence. Qed.

(** All axes lie in the known parts. *)
Lemma certain_split axes keep (P X S : list Z) : NoDup axes -> (forall a, In a axes -> (- Z.of_nat (length S) <= a < Z.of_nat (length P))%Z) ->
  let x := P ++ X ++ S in
  axes_ok axes (Z.of_nat (length x)) /\
  without (map (normed (Z.of_nat (length x))) axes) keep 0 x = without (pos_of axes) keep 0 P ++ X ++ rev (without (map mirror (neg_of axes)) keep 0 (rev S)).
Proof.
  intros ND H x. set (R := Z.of_nat (length x)). assert (Lx : R = (Z.of_nat (length P) + Z.of_nat (length X) + Z.of_nat (length S))%Z) by (unfold R, x; rewrite !app_length; lia).
  split.
  - split.
    + intros a Ha. apply H in Ha. unfold normed. destruct (Z.ltb_spec a 0); lia.
    + clear - ND H Lx. induction ND as [|a l N ND IH]; cbn; constructor.
      * intros M. apply in_map_iff in M as (b & E & Hb). assert (Ha := H a (or_introl eq_refl)). assert (Hb' := H b (or_intror Hb)). unfold normed in E. destruct (Z.ltb_spec b 0), (Z.ltb_spec a 0); try lia; assert (b = a) by lia; congruence.
      * apply IH. intros b Hb. apply H. right; auto.
  - unfold x. rewrite !without_app. f_equal; [|f_equal].
    + apply without_ext. intros j Hj. rewrite in_map_iff, In_pos. split.
      * intros (a & E & Ha). assert (Hb := H a Ha). unfold normed in E. destruct (Z.ltb_spec a 0); [lia|]. subst. auto.
      * intros [Ha Hp]. exists j. split; [|auto]. unfold normed. destruct (Z.ltb_spec j 0); lia.
    + apply without_none. intros j Hj M. apply in_map_iff in M as (a & E & Ha). assert (Hb := H a Ha). unfold normed in E. destruct (Z.ltb_spec a 0); lia.
    + rewrite <- (rev_involutive (without _ keep _ S)). f_equal. rewrite without_rev. rewrite map_map. apply without_ext. rewrite rev_length. intros j Hj. rewrite !in_map_iff. split.
      * intros (a & E & Ha). assert (Hb := H a Ha). unfold normed in E. destruct (Z.ltb_spec a 0); [|lia]. exists a. split; [unfold mirror; lia|apply In_neg; auto].
      * intros (a & E & Ha). apply In_neg in Ha as [Ha1 Ha2]. exists a. split; [|auto]. unfold normed, mirror in *. destruct (Z.ltb_spec a 0); lia.
Qed.
Lemma no_uncertain np ns axes : length (filter (uncertain np ns) axes) = 0 -> forall a, In a axes -> (- ns <= a < np)%Z.
Proof.
  intros H a Ha. destruct (uncertain np ns a) eqn:E.
  - assert (M : In a (filter (uncertain np ns) axes)) by (apply filter_In; auto). destruct (filter (uncertain np ns) axes); [destruct M|discriminate].
  - unfold uncertain in E. apply orb_false_iff in E as [E1 E2]. apply Z.leb_gt in E1. apply Z.ltb_ge in E2. lia.
Qed.
Lemma max_pos_le axes b : (0 <= b)%Z -> (forall a, In a axes -> (a < b)%Z) -> (max_pos axes <= b)%Z.
Proof.
  intros Hb H. unfold max_pos. destruct (zmax_spec (-1) (pos_of axes)) as (_ & M & D). destruct (pos_of axes) as [|z l] eqn:E; [rewrite D by auto; lia|].
  assert (X : In (zmax (-1) (z :: l)) (pos_of axes)) by (rewrite E; apply M; discriminate). apply In_pos in X as [X _]. apply H in X. lia.
Qed.
Lemma max_neg_le axes b : (0 <= b)%Z -> (forall a, In a axes -> (- b <= a)%Z) -> (max_neg axes <= b)%Z.
Proof.
  intros Hb H. unfold max_neg. destruct (zmin_spec 0 (neg_of axes)) as (_ & M & D). destruct (neg_of axes) as [|z l] eqn:E; [rewrite D by auto; lia|].
  assert (X : In (zmin 0 (z :: l)) (neg_of axes)) by (rewrite E; apply M; discriminate). apply In_neg in X as [X X2]. apply H in X. lia.
Qed.
Lemma split3 {A} (y : list A) a b : a + b <= length y -> y = firstn a y ++ firstn (length y - a - b) (skipn a y) ++ rev (firstn b (rev y)).
Proof.
  intros L. rewrite <- (firstn_skipn a y) at 1. f_equal. rewrite <- (firstn_skipn (length y - a - b) (skipn a y)) at 1. f_equal. rewrite skipn_skipn'.
  rewrite firstn_rev, rev_involutive. f_equal. lia.
Qed.

Section Both.
Variables (s : shst) (qi qo v : nat) (axes : list Z) (keep : bool).
Hypothesis I : sinv s.
Hypothesis Hi : qi < nrep s.
Hypothesis Ho : qo < nrep s.
Hypothesis Rv : root (rp s qi) = Some v.
Hypothesis ND : NoDup axes.
Hypothesis Enough : (Z.of_nat (length axes) <= zlen (rp s qi))%Z.
Let P := pre (rp s qi).
Let S := suf (rp s qi).
Let n := zlen (rp s qi).
Let np := Z.of_nat (length P).
Let ns := Z.of_nat (length S).

Lemma prefix_sound rho tau A : let x := den s rho tau qi in let y := without (map (normed (Z.of_nat (length x))) axes) keep 0 x in axes_ok axes (Z.of_nat (length x)) -> A <= length y ->
  exists ys, sidespec keep (pos_of axes) (n - max_neg axes) 0 (map rho P) ys /\ (A <= length ys -> firstn A ys = firstn A y).
Proof.
  intros x y Ok L. set (R := Z.of_nat (length x)) in *. assert (Ex : x = map rho P ++ tau v ++ map rho S) by (unfold x, den, dshape; rewrite Rv; auto).
  assert (LR : (n <= R)%Z). { unfold R. rewrite Ex, !app_length, !map_length. unfold n, zlen, shlen. fold P S. lia. }
  assert (Q := side_sound keep (pos_of axes) (n - max_neg axes) (map (normed R) axes) (tau v ++ map rho S)).
  assert (Q1 : forall a, In a (pos_of axes) -> In a (map (normed R) axes)). { intros a Ha. apply In_pos in Ha as [H1 H2]. apply in_map_iff. exists a. split; [|auto]. unfold normed. destruct (Z.ltb_spec a 0); lia. }
  assert (Q2 : forall a, In a (map (normed R) axes) -> (a < n - max_neg axes)%Z -> In a (pos_of axes)).
  { intros a Ha Lt. apply in_map_iff in Ha as (b & E & Hb). apply In_pos. destruct (max_neg_spec axes) as (_ & M & _). apply M in Hb as Mb. unfold normed in E. destruct (Z.ltb_spec b 0); [lia|]. subst. auto. }
  specialize (Q Q1 Q2 (map rho P) 0%Z A). unfold y in *. rewrite Ex in *. apply Q. auto.
Qed.
Lemma suffix_sound rho tau B : let x := den s rho tau qi in let y := without (map (normed (Z.of_nat (length x))) axes) keep 0 x in axes_ok axes (Z.of_nat (length x)) -> B <= length y ->
  exists ys, sidespec keep (map mirror (neg_of axes)) (n - max_pos axes) 0 (map rho (rev S)) ys /\ (B <= length ys -> firstn B ys = firstn B (rev y)).
Proof.
  intros x y Ok L. set (R := Z.of_nat (length x)) in *. assert (Ex : x = map rho P ++ tau v ++ map rho S) by (unfold x, den, dshape; rewrite Rv; auto).
  assert (LR : (n <= R)%Z). { unfold R. rewrite Ex, !app_length, !map_length. unfold n, zlen, shlen. fold P S. lia. }
  assert (Ey : rev y = without (map (fun a => 0 + R - 1 - a)%Z (map (normed R) axes)) keep 0 (rev x)) by (unfold y, R; apply without_rev).
  assert (Erx : rev x = map rho (rev S) ++ rev (tau v) ++ rev (map rho P)). { rewrite Ex, !rev_app_distr, map_rev, <- app_assoc. auto. }
  assert (Q := side_sound keep (map mirror (neg_of axes)) (n - max_pos axes) (map (fun a => 0 + R - 1 - a)%Z (map (normed R) axes)) (rev (tau v) ++ rev (map rho P))).
  assert (Q1 : forall a, In a (map mirror (neg_of axes)) -> In a (map (fun a => 0 + R - 1 - a)%Z (map (normed R) axes))).
  { intros a Ha. apply in_map_iff in Ha as (b & E & Hb). apply In_neg in Hb as [H1 H2]. rewrite map_map. apply in_map_iff. exists b. split; [|auto]. unfold normed, mirror in *. destruct (Z.ltb_spec b 0); lia. }
  assert (Q2 : forall a, In a (map (fun a => 0 + R - 1 - a)%Z (map (normed R) axes)) -> (a < n - max_pos axes)%Z -> In a (map mirror (neg_of axes))).
  { intros a Ha Lt. rewrite map_map in Ha. apply in_map_iff in Ha as (b & E & Hb). destruct (max_pos_spec axes) as (_ & M & _). apply M in Hb as Mb. unfold normed in E. destruct (Z.ltb_spec b 0); [|lia].
    apply in_map_iff. exists b. split; [unfold mirror; lia|apply In_neg; auto]. }
  specialize (Q Q1 Q2 (map rho (rev S)) 0%Z B). rewrite Ey, Erx. apply Q. rewrite <- Erx, <- Ey, rev_length. auto.
Qed.

Lemma both_variadic_ok :
  match both_variadic qi qo axes keep s with
  | (s', Ok _) => soundly qi qo s s' (reduces axes keep) /\
      ((exists w, root (rp s qo) = Some w /\ w <> v) -> root (rp s' qi) = root (rp s' qo) -> gives qi qo s' (reduces axes keep))
  | (_, Err e) => e = ValueError /\ never qi qo s (reduces axes keep)
  end.
Proof.
  unfold both_variadic. fold (pos_of axes) (neg_of axes). change (zmax (-1) (pos_of axes) + 1)%Z with (max_pos axes). change (Z.abs (zmin 0 (neg_of axes))) with (max_neg axes). fold P S n np ns.
  change (map (fun a => (- a - 1)%Z) (neg_of axes)) with (map mirror (neg_of axes)).
  assert (Ws := s_repr _ I qi Hi). destruct (wf_live s _ Ws) as [W1 W2]. fold P in W1. fold S in W2. assert (Lv : v < nvar s) by (apply Ws; auto).
  unfold hbind at 1. destruct (out_side_ok keep (pos_of axes) (n - max_neg axes) P 0%Z s (s_inv _ I) W1) as (u1 & Lp & E1 & G1 & V1 & S1 & C1). rewrite E1. apply out_side_len in E1 as Len1; [|apply I].
  unfold hbind at 1. destruct (out_side_ok keep (map mirror (neg_of axes)) (n - max_pos axes) (rev S) 0%Z (with_us s u1)) as (u2 & Ls & E2 & G2 & V2 & S2 & C2); [apply G1|intros x Hx; rewrite <- in_rev in Hx; apply G1; auto|].
  rewrite E2. apply out_side_len in E2 as Len2; [|apply G1]. cbn [us with_us] in *. change (with_us (with_us s u1) u2) with (with_us s u2).
  assert (G : grows (us s) u2) by (eapply grows_trans; eauto). assert (I2 := with_us_grow s u2 I G).
  set (u := length (filter (uncertain np ns) axes)).
  assert (Cnt : length Lp + length Ls + (if keep then 0 else length axes - u) = length P + length S /\ u <= length axes).
  { rewrite Len1, Len2. assert (C := count_axes np ns axes ltac:(unfold np; lia) ltac:(unfold ns; lia)). fold u in C. split; [|lia]. destruct keep.
    - rewrite !without_keep_length, !map_length, rev_length. lia.
    - assert (A1 := without_count_in (pos_of axes) (map (fun _ => 0%Z) P) ltac:(apply NoDup_filter'; auto)). assert (A2 := without_count_in (map mirror (neg_of axes)) (map (fun _ => 0%Z) (rev S)) ltac:(apply NoDup_mirror, NoDup_filter'; auto)).
      rewrite !map_length in A1. rewrite !map_length, !rev_length in A2. fold np in A1. fold ns in A2. lia. }
  assert (Un : keep = true \/ u <= length Lp + length Ls). { destruct keep; [auto|right]. unfold n, zlen, shlen in *. fold P S in Enough. lia. }
  unfold hbind. destruct (drop_uncertain_ok keep np ns axes Lp (root (rp s qi)) Ls (with_us s u2) I2 Un) as (s3 & rt & E3 & B3 & U3 & Z0 & Z1). fold u in E3, Z0, Z1. rewrite E3. cbn [us nvar with_us] in *.
  set (A := if keep then length Lp else length Lp - u) in *. set (B := if keep then length Ls else length Ls - (u - length Lp)) in *.
  replace (if keep then Lp else firstn (length Lp - u) Lp) with (firstn A Lp) in * by (unfold A; destruct keep; [apply firstn_all|auto]).
  replace (if keep then Ls else firstn (length Ls - (u - length Lp)) Ls) with (firstn B Ls) in * by (unfold B; destruct keep; [apply firstn_all|auto]).
  set (o := mkshape (firstn A Lp) rt (rev (firstn B Ls))).
  assert (Bn : born s s3). { eapply born_trans; [apply born_us; [apply I|exact G]|auto]. }
  assert (Rt : exists w, rt = Some w /\ w < nvar s3). { destruct (Nat.eq_dec u 0) as [Z|Z]; [destruct (Z0 Z) as [-> ->]; exists v; auto|]. destruct (Z1 ltac:(lia)) as (w & -> & _ & L); exists w; auto. }
  assert (Wo : wf_repr s3 o).
  { destruct Rt as (w & -> & Lw). split; [|split; [discriminate|intros x Hx; injection Hx as <-; auto]]. cbn. intros x Hx. rewrite U3. apply in_app_iff in Hx as [Hx|Hx]; [apply in_firstn in Hx; apply G2; auto|rewrite <- in_rev in Hx; apply in_firstn in Hx; auto]. }
  assert (Mono : forall rho, sat (us s3) rho -> sat (us s) rho). { intros rho Hs. rewrite U3 in Hs. apply S1. apply S2. auto. }
  assert (Cer : u = 0 -> (np <= n - max_neg axes)%Z /\ (ns <= n - max_pos axes)%Z /\ (forall a, In a axes -> (- ns <= a < np)%Z) /\ A = length Lp /\ B = length Ls).
  { intros Z. assert (H := no_uncertain np ns axes Z). assert (M1 := max_neg_le axes ns ltac:(unfold ns; lia) ltac:(intros a Ha; apply H in Ha; lia)). assert (M2 := max_pos_le axes np ltac:(unfold np; lia) ltac:(intros a Ha; apply H in Ha; lia)).
    split; [unfold n, zlen, shlen; fold P S; unfold ns, np in *; lia|]. split; [unfold n, zlen, shlen; fold P S; unfold ns, np in *; lia|]. split; [auto|]. unfold A, B. rewrite Z. destruct keep; lia. }
  assert (Form : forall rho tau, u = 0 -> sat u2 rho -> reduces axes keep (den s rho tau qi) (dshape rho tau o)).
  { intros rho tau Z Hs. destruct (Cer Z) as (M1 & M2 & H & EA & EB). destruct (S2 rho Hs) as [Hs1 P2]. destruct (S1 rho Hs1) as [_ P1]. destruct (Z0 Z) as [Ert _].
    apply sidespec_exact in P1; [|rewrite map_length; fold np; lia]. apply sidespec_exact in P2; [|rewrite map_length, rev_length; fold ns; lia].
    unfold reduces. cbv zeta. unfold den at 1 2 3, dshape. rewrite Rv. cbn [rval]. fold P S.
    destruct (certain_split axes keep (map rho P) (tau v) (map rho S) ND) as [Ok Eq]; [rewrite !map_length; fold np ns; auto|]. cbv zeta in Ok, Eq. split; [exact Ok|]. rewrite Eq. unfold o. cbn [pre root suf]. rewrite Ert, Rv, EA, EB, !firstn_all. cbn [rval].
    rewrite P1, map_rev, P2, map_rev. auto. }
  assert (St : step_ok qi qo s s3 qo o (reduces axes keep)).
  { intros rho tau Hs Hred. destruct Hred as [Ok Ey]. set (x := den s rho tau qi) in *. set (y := den s rho tau qo) in *.
    assert (Ly : length y + (if keep then 0 else length axes) = length x) by (apply (reduces_length axes keep x y); split; auto).
    assert (Lx : length P + length S <= length x). { unfold x, den, dshape. rewrite !app_length, !map_length. fold P S. lia. }
    assert (AB : A + B <= length y). { unfold A, B. destruct keep; [lia|]. destruct Un as [Un|Un]; [discriminate|]. lia. }
    destruct (prefix_sound rho tau A) as (ys1 & P1 & F1); [exact Ok|fold x; rewrite <- Ey; lia|]. destruct (suffix_sound rho tau B) as (ys2 & P2 & F2); [exact Ok|fold x; rewrite <- Ey; lia|]. fold x in F1, F2. rewrite <- Ey in F1, F2.
    assert (L1 : length ys1 = length Lp). { apply sidespec_length in P1. rewrite P1, Len1. apply without_len_ext. rewrite !map_length. auto. }
    assert (L2 : length ys2 = length Ls). { apply sidespec_length in P2. rewrite P2, Len2. apply without_len_ext. rewrite !map_length. auto. }
    assert (LA : A <= length Lp) by (unfold A; destruct keep; lia). assert (LB : B <= length Ls) by (unfold B; destruct keep; lia).
    destruct (C1 rho ys1 Hs P1) as (rho1 & A1 & Hs1 & M1).
    assert (A1S : map rho1 (rev S) = map rho (rev S)). { apply (map_agrees (us s)); auto. intros z Hz. rewrite <- in_rev in Hz. auto. }
    destruct (C2 rho1 ys2 Hs1) as (rho2 & A2 & Hs2 & M2); [rewrite A1S; auto|].
    assert (Ag : agrees (us s) rho rho2). { intros z Hz. rewrite A2 by (apply G1; auto). auto. }
    assert (M1' : map rho2 (firstn A Lp) = firstn A y). { rewrite <- F1 by lia. rewrite <- M1, map_firstn. f_equal. apply map_ext_in. intros z Hz. apply A2, V1. auto. }
    assert (M2' : map rho2 (rev (firstn B Ls)) = rev (firstn B (rev y))). { rewrite map_rev, map_firstn, M2, F2 by lia. auto. }
    destruct (Nat.eq_dec u 0) as [Z|Z].
    - exists rho2, tau. split; [auto|]. split; [auto|]. split; [rewrite U3; auto|]. destruct (Form rho2 tau Z Hs2) as [_ Eq]. rewrite Eq. rewrite Ey.
      assert (Ex : den s rho2 tau qi = x). { apply den_rho; auto. } rewrite Ex. auto.
    - destruct (Z1 ltac:(lia)) as (w & Ew & Lw & Lw'). exists rho2, (upd tau w (firstn (length y - A - B) (skipn A y))). split; [auto|]. split; [intros z Hz; apply upd_other; lia|]. split; [rewrite U3; auto|].
      unfold dshape, o. cbn [pre root suf]. rewrite Ew. cbn [rval]. rewrite upd_same, M1', M2'. apply split3. auto. }
  assert (IS := infer_step qi qo s s3 qo o (reduces axes keep) I Bn Ho Wo Mono St).
  assert (N3 : nrep s3 = nrep s) by apply Bn. assert (R3 : rp s3 = rp s) by apply Bn. assert (I3 : sinv s3) by apply Bn.
  assert (O := inner_match_ok s3 qo o I3 ltac:(lia) Wo). unfold outcome in O.
  destruct (Nat.eq_dec u 0) as [Z|Z].
  - destruct (Z0 Z) as [Ert Es3]. destruct (inner_match qo o s3) as [s' [[]|e]]; [|exact IS]. split; [apply IS|]. intros (w & Rw & Nw) Hroot. destruct O as (X & K & Y). cbn [fst snd] in *.
    assert (Y' : yields s3 s' (Ceq s3 qo o)).
    { destruct Y as [Y|(_ & _ & _ & Y)]; [auto|]. exfalso. apply (Y ltac:(rewrite R3, Rw; unfold o; cbn; rewrite Ert, Rv; congruence) qi); [lia|rewrite R3; unfold o; cbn; congruence|auto]. }
    intros rho tau' Hs. destruct (Y' rho tau' Hs) as (tau & Hs3 & D & C). rewrite <- !D by lia. unfold Ceq in C. rewrite C. rewrite U3 in Hs3. unfold den at 1. rewrite R3. apply (Form rho tau Z Hs3).
  - destruct (Z1 ltac:(lia)) as (w & Ew & Lw & Lw'). destruct (inner_match qo o s3) as [s' [[]|e]] eqn:Em; [|exact IS]. split; [apply IS|]. intros (wo & Rw & Nw) Hroot. exfalso.
    assert (Lwo : wo < nvar s). { assert (Wq := s_repr _ I qo Ho). apply Wq. auto. }
    assert (Mr := match_roots s3 qo wo o w I3 ltac:(lia) ltac:(rewrite R3; auto) Ew Wo ltac:(lia)). rewrite Em in Mr. destruct Mr as ((z & Rz & Kz) & Oth).
    rewrite (Oth qi) in Hroot; [|lia|rewrite R3, Rv; congruence|rewrite R3, Rv; intros Hx; injection Hx as Hx; lia]. rewrite R3, Rv, Rz in Hroot. injection Hroot as Hroot. assert (nvar s <= nvar s3) by apply Bn. lia.
Qed.
End Both.
