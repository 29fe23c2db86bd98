(** * Sliding windows: specification and proofs *)
From Coq Require Import List Arith Lia Bool ZArith.
From Verif Require Import PyBase Uniadic_Model Uniadic_Proofs Uniadic_Props Bcast_Proofs Shape_Model Shape_Proofs Shape_Proofs2 Shape_Proofs3 Shape_Props Reduce_Model Reduce_Proofs Reduce_Proofs2 Rule_Proofs Window_Model.
Import ListNotations.
Open Scope list_scope. Open Scope nat_scope. Open Scope shm_scope.

(** ** Specification *)
(** At position [pos] all [kernel] taps, [dilation] apart, lie in the padded axis of length [len]. *)
Definition fits (len stride dilation kernel pos : Z) : Prop := (0 <= pos /\ forall j, 0 <= j < kernel -> pos * stride + j * dilation < len)%Z.
(** [n] is the number of positions, at least one. *)
Definition windows (input padding stride dilation kernel n : Z) : Prop :=
  (1 <= stride)%Z /\ (1 <= dilation)%Z /\ (1 <= kernel)%Z /\
  exists l, NoDup l /\ l <> [] /\ n = Z.of_nat (length l) /\ forall pos, In pos l <-> fits (input + padding) stride dilation kernel pos.
(** What an argument says, and a padding about the total *)
Definition says (a : option Z) (z : Z) : Prop := match a with Some x => z = x | None => True end.
Definition pads (p : padv) (z : Z) : Prop :=
  match p with PTBD => True | PInt x => z = (2 * x)%Z | PPair a b => exists x y, says a x /\ says b y /\ z = (x + y)%Z end.
Definition axis_windows (stride : option Z) (pad : padv) (dilation kernel : option Z) (i o : Z) : Prop :=
  exists s p d k, says stride s /\ pads pad p /\ says dilation d /\ says kernel k /\ windows i p s d k o.
Definition slides_1d (stride : option Z) (pad : padv) (dilation kernel : option Z) (x y : list Z) : Prop :=
  exists xf i yf o, x = xf ++ [i] /\ y = yf ++ [o] /\ axis_windows stride pad dilation kernel i o.
Definition slides_2d (stride : option Z * option Z) (pad : padv * padv) (dilation kernel : option Z * option Z) (x y : list Z) : Prop :=
  exists xf h w yf oh ow, x = xf ++ [h; w] /\ y = yf ++ [oh; ow] /\
    axis_windows (fst stride) (fst pad) (fst dilation) (fst kernel) h oh /\ axis_windows (snd stride) (snd pad) (snd dilation) (snd kernel) w ow.
(** Convolutions: the sizes of the kernel are its last dimensions. *)
Definition convolves_1d (stride : option Z) (pad : padv) (dilation : option Z) (x y z : list Z) : Prop :=
  exists zf k, z = zf ++ [k] /\ slides_1d stride pad dilation (Some k) x y.
(** Input [N, C, H, W], output [N, O, H', W'], kernel [O, C / groups, h, w] *)
Definition grouped (groups : option Z) (x y z : list Z) : Prop :=
  exists g, says groups g /\ (0 < g)%Z /\ exists c o k, nth_error x 1 = Some c /\ nth_error y 1 = Some o /\ nth_error z 1 = Some k /\ (c = k * g)%Z /\ (o mod g = 0)%Z.
Definition convolves_2d (stride : option Z * option Z) (pad : padv * padv) (dilation : option Z * option Z) (groups : option Z) (x y z : list Z) : Prop :=
  grouped groups x y z /\ exists zf h w, z = zf ++ [h; w] /\ slides_2d stride pad dilation (Some h, Some w) x y.

(** ** The arithmetic *)
Lemma fits_iff len s d k pos : (1 <= s -> 1 <= d -> 1 <= k -> fits len s d k pos <-> 0 <= pos /\ pos * s <= len - (k - 1) * d - 1)%Z.
Proof.
  intros Hs Hd Hk. unfold fits. split; intros [H0 H]; split; auto.
  - specialize (H (k - 1)%Z ltac:(lia)). lia.
  - intros j Hj. assert (j * d <= (k - 1) * d)%Z by nia. lia.
Qed.
Definition zseq (n : Z) : list Z := map Z.of_nat (seq 0 (Z.to_nat n)).
Lemma zseq_In n z : In z (zseq n) <-> (0 <= z < n)%Z.
Proof. unfold zseq. rewrite in_map_iff. split; [intros (x & <- & H); apply in_seq in H; lia|]. intros H. exists (Z.to_nat z). split; [lia|]. apply in_seq. lia. Qed.
Lemma zseq_NoDup n : NoDup (zseq n).
Proof. unfold zseq. apply FinFun.Injective_map_NoDup; [intros a b; lia|apply seq_NoDup]. Qed.
Lemma zseq_length n : length (zseq n) = Z.to_nat n.
Proof. unfold zseq. rewrite map_length, seq_length. auto. Qed.
Lemma window_len_ok i p s d k : (1 <= s)%Z -> (1 <= d)%Z -> (1 <= k)%Z ->
  match window_len i s p d k with
  | Ok n => windows i p s d k n
  | Err e => e = ValueError /\ forall pos, ~ fits (i + p) s d k pos
  end.
Proof.
  intros Hs Hd Hk. unfold window_len. destruct (Z.eqb_spec s 0); [lia|]. set (M := (i + p - (k - 1) * d - 1)%Z). assert (F := fun pos => fits_iff (i + p) s d k pos Hs Hd Hk). fold M in F.
  assert (F' : forall pos, fits (i + p) s d k pos <-> (0 <= pos < M / s + 1)%Z).
  { intros pos. rewrite F. split; intros [H1 H2]; split; auto.
    - assert (pos <= M / s)%Z; [|lia]. apply Z.div_le_lower_bound; lia.
    - assert (X := Z.mul_div_le M s ltac:(lia)). nia. }
  destruct (Z.leb_spec (M / s + 1) 0) as [L|L].
  - split; [auto|]. intros pos H. apply F' in H. lia.
  - do 3 (split; [auto|]). exists (zseq (M / s + 1)). split; [apply zseq_NoDup|]. split; [|split].
    + intros E. assert (X := f_equal (@length Z) E). rewrite zseq_length in X. cbn in X. lia.
    + rewrite zseq_length. lia.
    + intros pos. rewrite zseq_In. symmetry. apply F'.
Qed.
Lemma windows_fun i p s d k n n' : windows i p s d k n -> windows i p s d k n' -> n = n'.
Proof.
  intros (_ & _ & _ & l & N & _ & -> & H) (_ & _ & _ & l' & N' & _ & -> & H'). f_equal. apply Nat.le_antisymm; apply NoDup_incl_length; auto; intros x Hx; [apply H', H|apply H, H']; auto.
Qed.
Lemma windows_pos i p s d k n : windows i p s d k n -> (1 <= s)%Z /\ (1 <= d)%Z /\ (1 <= k)%Z /\ (0 < n)%Z /\ exists pos, fits (i + p) s d k pos.
Proof.
  intros (H1 & H2 & H3 & l & _ & Ne & -> & H). do 3 (split; [auto|]). destruct l as [|x l]; [congruence|]. split; [cbn; lia|]. exists x. apply H. left; auto.
Qed.
Lemma pad_sum_ok pad p z : pad_sum pad = Some p -> pads pad z <-> z = p.
Proof.
  destruct pad as [|x|[a|] [b|]]; cbn [pad_sum pads says]; try discriminate; intros E; injection E as <-; [lia|]. split; [intros (x & y & -> & -> & ->); auto|intros ->; exists a, b; auto].
Qed.
(** What is computed is what any completion gives. *)
Lemma window_val_ok i stride pad dilation kernel i0 o0 : says i i0 -> axis_windows stride pad dilation kernel i0 o0 ->
  match window_val i stride pad dilation kernel with Ok v => fitsv v o0 | Err _ => False end.
Proof.
  intros Hi (s & p & d & k & Hs & Hp & Hd & Hk & W). unfold window_val. destruct i as [i|]; [|exact Logic.I]. destruct stride as [s'|]; [|exact Logic.I]. destruct (pad_sum pad) as [p'|] eqn:Ep; [|exact Logic.I].
  destruct dilation as [d'|]; [|exact Logic.I]. destruct kernel as [k'|]; [|exact Logic.I]. cbn in Hi, Hs, Hd, Hk. apply (pad_sum_ok _ _ _ Ep) in Hp. subst.
  destruct (windows_pos _ _ _ _ _ _ W) as (A & B & C & _ & pos & F). assert (L := window_len_ok i p' s' d' k' A B C). destruct (window_len i s' p' d' k') as [n|e]; [eapply windows_fun; eauto|]. apply (proj2 L pos F).
Qed.
Lemma window_val_err i stride pad dilation kernel e : window_val i stride pad dilation kernel = Err e -> e = ValueError \/ e = ZeroDivisionError.
Proof.
  unfold window_val. destruct i, stride, (pad_sum pad), dilation, kernel; try discriminate. unfold window_len. destruct (_ =? _)%Z; [intros E; right; congruence|]. destruct (_ <=? _)%Z; intros E; [left; congruence|discriminate].
Qed.
Lemma window_val_known i stride pad dilation kernel p v : (1 <= stride)%Z -> (1 <= dilation)%Z -> (1 <= kernel)%Z -> pad_sum pad = Some p ->
  window_val (Some i) (Some stride) pad (Some dilation) (Some kernel) = Ok v -> exists n, v = Some n /\ axis_windows (Some stride) pad (Some dilation) (Some kernel) i n.
Proof.
  intros A B C Ep E. unfold window_val in E. rewrite Ep in E. assert (L := window_len_ok i p stride dilation kernel A B C). destruct (window_len i stride p dilation kernel) as [n|]; [|discriminate]. injection E as <-.
  exists n. split; [auto|]. exists stride, p, dilation, kernel. cbn. do 2 (split; [auto; apply (pad_sum_ok _ _ _ Ep); auto|]). auto.
Qed.

(** ** Last dimensions of a shape *)
Lemma den_reversed s rho tau q : sinv s -> q < nrep s -> exists front, den s rho tau q = front ++ map rho (rev (reversed (rp s q))).
Proof.
  intros I Hq. destruct (root (rp s q)) as [v|] eqn:R.
  - exists (map rho (pre (rp s q)) ++ tau v). unfold den, dshape, reversed. rewrite R, rev_involutive. cbn. rewrite <- app_assoc. auto.
  - exists []. rewrite den_plain_suffix by auto. unfold reversed. rewrite R, rev_involutive. auto.
Qed.
Lemma reversed_live s q u : sinv s -> q < nrep s -> In u (reversed (rp s q)) -> live (us s) u.
Proof. intros I Hq H. destruct (s_repr _ I q Hq) as (W & _). apply W. apply in_app_iff. unfold reversed in H. destruct (root (rp s q)); rewrite <- in_rev in H; auto. Qed.
Lemma last_val_ok s q rho tau front i : sinv s -> q < nrep s -> sat (us s) rho -> den s rho tau q = front ++ [i] -> says (last_val s q) i.
Proof.
  intros I Hq Hs D. destruct (den_reversed s rho tau q I Hq) as (f & E). unfold last_val. destruct (reversed (rp s q)) as [|u l] eqn:R; [exact Logic.I|]. cbn [rev] in E. rewrite map_app, app_assoc in E. cbn in E.
  assert (X : front ++ [i] = (f ++ map rho (rev l)) ++ [rho u]) by congruence. apply app_inj_tail in X as [_ ->]. destruct (value (us s) u) as [n|] eqn:V; [|exact Logic.I]. cbn.
  eapply value_sat; [apply I| |exact V|auto]. apply (reversed_live s q); auto. rewrite R. left; auto.
Qed.
Lemma last2_val_ok s q rho tau front h w : sinv s -> q < nrep s -> sat (us s) rho -> den s rho tau q = front ++ [h; w] -> says (last2_val s q) h.
Proof.
  intros I Hq Hs D. destruct (den_reversed s rho tau q I Hq) as (f & E). unfold last2_val. destruct (reversed (rp s q)) as [|u [|v l]] eqn:R; [exact Logic.I..|]. cbn [rev] in E. rewrite !map_app, !app_assoc in E. cbn in E.
  assert (X : (front ++ [h]) ++ [w] = ((f ++ map rho (rev l)) ++ [rho v]) ++ [rho u]) by (rewrite <- app_assoc; cbn; congruence). apply app_inj_tail in X as [X _]. apply app_inj_tail in X as [_ ->].
  destruct (value (us s) v) as [n|] eqn:V; [|exact Logic.I]. cbn. eapply value_sat; [apply I| |exact V|auto]. apply (reversed_live s q); auto. rewrite R. right; left; auto.
Qed.

(** ** Structure after the unification with last dimensions *)
Lemma match_shorter s q v P w S : sinv s -> q < nrep s -> root (rp s q) = Some v -> wf_repr s (mkshape P (Some w) S) -> v <> w -> length P <= length (pre (rp s q)) -> length S <= length (suf (rp s q)) ->
  match inner_match q (mkshape P (Some w) S) s with (s', Ok _) => rp s' q = rp s q | (_, Err e) => True end.
Proof.
  intros I Hq Rv W Ne Lp Ls. assert (Ws := s_repr _ I q Hq). destruct (wf_live s _ Ws) as [Ws1 Ws2]. destruct (wf_live s _ W) as [Wo1 Wo2]. cbn in Wo1, Wo2.
  unfold inner_match. cbn [root pre suf]. unfold hbind.
  destruct (update_uniadics (pre (rp s q)) P s) as [s1 [[]|e]] eqn:E1; [|exact Logic.I]. apply update_us in E1 as (u1 & -> & V1); [|apply I|auto|auto].
  assert (R : reversed (rp s q) = rev (suf (rp s q))) by (unfold reversed; rewrite Rv; auto). rewrite R, Rv.
  destruct (update_uniadics (rev (suf (rp s q))) (rev S) (with_us s u1)) as [s2 [[]|e]] eqn:E2; [|auto].
  apply update_us in E2 as (u2 & -> & V2); [|apply V1|intros u Hu; rewrite <- in_rev in Hu; apply V1, Ws2; auto|intros u Hu; rewrite <- in_rev in Hu; apply V1, Wo2; auto].
  destruct (Nat.eqb_spec v w) as [|_]; [congruence|]. unfold shlen; cbn [pre suf].
  destruct (Nat.ltb_spec (length (pre (rp s q))) (length P)); [lia|]. destruct (Nat.ltb_spec (length (suf (rp s q))) (length S)); [lia|]. cbn [andb orb]. rewrite andb_false_r. cbn [orb].
  assert (V : evolves (us s) u2) by (eapply evolves_trans; eauto). assert (I2 : sinv (with_us s u2)) by (apply with_us_sinv; auto).
  assert (Lv : v < nvar s). { destruct Ws as (_ & _ & W3). apply W3; auto. }
  assert (LV : forall u, In u (remainings (pre (rp s q)) P ++ rev (remainings (rev (suf (rp s q))) (rev S))) -> live u2 u).
  { intros u Hu. apply V. apply in_app_iff in Hu as [Hu|Hu].
    - unfold remainings in Hu. destruct (_ <? _); apply in_skipn in Hu; auto.
    - rewrite <- in_rev in Hu. unfold remainings in Hu. destruct (_ <? _); apply in_skipn in Hu; rewrite <- in_rev in Hu; auto. }
  destruct (Nat.leb_spec (length P + length S) (length (pre (rp s q)) + length (suf (rp s q)))) as [Le|Gt]; [|lia]. cbv beta iota. change (with_us (with_us s u1) u2) with (with_us s u2).
  destruct (var_match_ok (with_us s u2) w (Some v) (remainings (pre (rp s q)) P) (rev (remainings (rev (suf (rp s q))) (rev S))) I2) as (s' & E & Rp);
      [congruence|intros x Hx; injection Hx as <-; auto|discriminate|auto|]. rewrite E. destruct Rp as (I' & _ & _ & _ & Rp). cbn [rp nrep with_us] in Rp. rewrite (Rp q Hq), Rv, eqb_some_false by auto. auto.
Qed.
(** A representation with room for [n] last dimensions *)
Definition roomy (n : nat) (r : shrepr) : Prop := root r = None \/ pre r = [] \/ n <= length (suf r).
Lemma den_length s rho tau q : length (den s rho tau q) = shlen (rp s q) + length (rval tau (root (rp s q))).
Proof. unfold den, dshape, shlen. rewrite !app_length, !map_length. lia. Qed.
Lemma fixed_rank s q n : sinv s -> q < nrep s -> (forall rho tau, sat (us s) rho -> length (den s rho tau q) = n) -> root (rp s q) = None.
Proof.
  intros I Hq H. destruct (sat_exists (us s) (s_inv _ I)) as (rho & Hs). assert (H0 := H rho (fun _ => []) Hs). assert (H1 := H rho (fun _ => [0%Z]) Hs). rewrite den_length in H0, H1.
  destruct (root (rp s q)); [cbn in H0, H1; lia|auto].
Qed.
Lemma allows_self s rho tau : sat (us s) rho -> allows s rho (den s rho tau).
Proof. intros Hs. apply allows_den. split; [auto|]. exists tau. auto. Qed.
Lemma sound_for_plain P s s' q : sinv s -> q < nrep s -> root (rp s q) = None -> sound_for P s s' -> root (rp s' q) = None.
Proof.
  intros I Hq R (I' & N & _ & _ & B). apply (fixed_rank s' q (shlen (rp s q))); [auto|lia|]. intros rho tau Hs. assert (A := B rho _ (allows_self s' rho tau Hs)). apply allows_den in A as (_ & t & D). rewrite <- D by auto. rewrite den_length, R. cbn. lia.
Qed.
(** A dimension of which the state leaves only one value has this value. *)
Lemma value_complete s u n : inv s -> live s u -> (forall rho, sat s rho -> rho u = n) -> value s u = Some n.
Proof.
  intros I L H. unfold value. apply (value_of_spec _ _ (i_pv _ I (meta s u))). change (pv (recs s (meta s u))) with (possible_values s u). split.
  - intros E. destruct (sat_with s u (n + 1)%Z I L) as (rho & Hs & Er); [rewrite E; exact Logic.I|]. specialize (H rho Hs). lia.
  - intros m. split; [intros Hm; destruct (sat_with s u m I L Hm) as (rho & Hs & <-); auto|]. intros ->. destruct (sat_exists s I) as (rho & Hs). rewrite <- (H rho Hs). apply Hs. auto.
Qed.
Lemma makes_us m (s s1 : shst) spec : makes m s spec -> us s1 = us s -> (forall u, m (with_us s1 u) = (let '(t, r) := m (with_us s u) in (with_us s1 (us t), r))) -> makes m s1 spec.
Proof.
  intros (u' & L & E & G & V & S & C) U H. exists u', L. assert (Es : s1 = with_us s1 (us s)) by (rewrite <- U; destruct s1; auto). assert (Es' : s = with_us s (us s)) by (destruct s; auto).
  split; [rewrite Es, H, <- Es', E; reflexivity|]. rewrite U. auto.
Qed.

(** ** The rules *)
Lemma suffix_struct n (m : shm (list nat)) (spec : (nat -> Z) -> list Z -> Prop) s q : sinv s -> q < nrep s -> (forall s1, us s1 = us s -> makes m s1 spec) -> (forall rho l, spec rho l -> length l = n) -> roomy n (rp s q) ->
  match (do w <- new_variadic; do l <- m; inner_match q (mkshape [] (Some w) l)) s with
  | (s', Ok _) => root (rp s q) <> None -> n <= length (suf (rp s' q))
  | (_, Err e) => True
  end.
Proof.
  intros I Hq Mk Ln Rm. destruct (born_var s I) as (s1 & E1 & B1 & U1 & V1). unfold hbind at 1. rewrite E1. destruct (Mk s1 U1) as (u' & L & E & G & V & S & C). unfold hbind. rewrite E. rewrite U1 in *.
  assert (I1 : sinv s1) by apply B1. assert (B : born s (with_us s1 u')). { eapply born_trans; [exact B1|]. apply born_us; [auto|rewrite U1; auto]. }
  set (o := mkshape [] (Some (nvar s)) L). assert (W : wf_repr (with_us s1 u') o). { split; [|split; [discriminate|intros x Hx; injection Hx as <-; cbn; lia]]. cbn. auto. }
  assert (LL : length L = n). { destruct (sat_exists u') as (r & Hr); [apply G|]. assert (Sp := proj2 (S r Hr)). apply Ln in Sp. rewrite map_length in Sp. auto. }
  assert (I2 : sinv (with_us s1 u')) by apply B. assert (R2 : rp (with_us s1 u') = rp s) by apply B. assert (N2 : nrep (with_us s1 u') = nrep s) by apply B.
  destruct (root (rp s q)) as [v|] eqn:Rv; [|destruct (inner_match q o (with_us s1 u')) as [s' [[]|e]]; [intros X; destruct X; reflexivity|exact Logic.I]].
  assert (Lv : v < nvar s). { destruct (s_repr _ I q Hq) as (_ & _ & W3). auto. }
  destruct (le_lt_dec n (length (suf (rp s q)))) as [Le|Gt].
  - assert (X := match_shorter (with_us s1 u') q v [] (nvar s) L I2 ltac:(lia)). rewrite R2 in X. specialize (X Rv W ltac:(lia) ltac:(cbn; lia) ltac:(lia)). fold o in X. destruct (inner_match q o (with_us s1 u')) as [s' [[]|e]]; [|auto]. rewrite X. auto.
  - destruct Rm as [Rm|[Rm|Rm]]; [congruence| |lia]. assert (X := match_longer (with_us s1 u') q v [] (nvar s) L I2 ltac:(lia)). rewrite R2 in X. specialize (X Rv W ltac:(lia) ltac:(rewrite Rm; cbn; lia) ltac:(lia)). fold o in X.
    destruct (inner_match q o (with_us s1 u')) as [s' [[]|e]]; [|auto]. intros _. lia.
Qed.
(** The dimension number [k] from the end is known to be [n]. *)
Definition from_end (k : nat) (s : shst) (q : nat) (n : Z) : Prop := forall rho sh, allows s rho sh -> nth_error (rev (sh q)) k = Some n.
Lemma from_end_value k s q n : sinv s -> q < nrep s -> from_end k s q n <-> exists u, nth_error (reversed (rp s q)) k = Some u /\ value (us s) u = Some n.
Proof.
  intros I Hq. assert (RD : forall rho tau, exists f, rev (den s rho tau q) = map rho (reversed (rp s q)) ++ f).
  { intros rho tau. destruct (den_reversed s rho tau q I Hq) as (f & ->). exists (rev f). rewrite rev_app_distr, map_rev, rev_involutive. auto. }
  split.
  - intros H. destruct (nth_error (reversed (rp s q)) k) as [u|] eqn:E.
    + exists u. split; [auto|]. apply value_complete; [apply I|apply (reversed_live s q); auto; eapply nth_error_In; eauto|]. intros rho Hs. assert (A := H rho _ (allows_self s rho (fun _ => []) Hs)).
      destruct (RD rho (fun _ => [])) as (f & Ef). rewrite Ef, nth_error_app1 in A; [|rewrite map_length; apply nth_error_Some; congruence]. rewrite (map_nth_error rho k _ E) in A. congruence.
    + exfalso. apply nth_error_None in E. destruct (sat_exists (us s) (s_inv _ I)) as (rho & Hs). assert (A := H rho _ (allows_self s rho (fun _ => repeat (n + 1)%Z (Datatypes.S k)) Hs)). unfold reversed in E. destruct (root (rp s q)) as [v|] eqn:Rt; rewrite rev_length in E.
      * unfold den, dshape in A. rewrite Rt in A. cbn [rval] in A. rewrite !rev_app_distr in A. rewrite <- app_assoc, nth_error_app2 in A; [|rewrite rev_length, map_length; auto]. rewrite nth_error_app1 in A; [|rewrite !rev_length, map_length, repeat_length; lia].
        apply nth_error_In in A. rewrite <- in_rev in A. apply repeat_spec in A. lia.
      * rewrite den_plain_suffix in A by auto. assert (X : nth_error (rev (map rho (pre (rp s q)))) k = None); [|congruence]. apply nth_error_None. rewrite rev_length, map_length. auto.
  - intros (u & E & V) rho sh A. apply allows_den in A as (Hs & tau & D). rewrite <- D by auto. destruct (RD rho tau) as (f & ->). rewrite nth_error_app1; [|rewrite map_length; apply nth_error_Some; congruence]. rewrite (map_nth_error rho k _ E). f_equal.
    eapply value_sat; [apply I| |exact V|auto]. apply (reversed_live s q); auto. eapply nth_error_In; eauto.
Qed.
Lemma item_reversed r k : item_last r k = match nth_error (reversed r) k with Some u => Ok u | None => Err IndexError end.
Proof. unfold item_last, reversed. destruct (root r); auto. Qed.

Lemma window_1d_ok s qi qo stride pad dilation kernel (P : (nat -> list Z) -> Prop) : sinv s -> qi < nrep s -> qo < nrep s ->
  (forall rho sh, allows s rho sh -> P sh -> slides_1d stride pad dilation kernel (sh qi) (sh qo)) -> roomy 1 (rp s qo) ->
  match window_1d qi qo stride pad dilation kernel s with
  | (s', Ok b) => sound_for P s s' /\ roomy 1 (rp s' qo) /\ (b = true <-> exists n, from_end 0 s' qo n) /\
      (forall i st p d k, stride = Some st -> pad_sum pad = Some p -> dilation = Some d -> kernel = Some k -> last_val s qi = Some i -> (1 <= st)%Z -> (1 <= d)%Z -> (1 <= k)%Z ->
         exists n, windows i p st d k n /\ from_end 0 s' qo n)
  | (_, Err e) => (e = ValueError \/ e = ZeroDivisionError) /\ excludes P s
  end.
Proof.
  intros I Hi Ho HP Rm. unfold window_1d.
  assert (Tail : forall s1, sinv s1 -> qo < nrep s1 -> roomy 1 (rp s1 qo) -> exists b, (if 1 <=? shlen (rp s1 qo) then match item_last (rp s1 qo) 0 with Ok u => (s1, Ok (is_some (value (us s1) u))) | Err e => (s1, Err e) end else (s1, Ok false)) = (s1, Ok b) /\
     (b = true <-> exists n, from_end 0 s1 qo n)).
  { intros s1 I1 Hq R1. destruct (Nat.leb_spec 1 (shlen (rp s1 qo))) as [L|L].
    - rewrite item_reversed. destruct (reversed (rp s1 qo)) as [|u l] eqn:R; cbn [nth_error].
      + exfalso. unfold reversed in R. unfold shlen in L. destruct (root (rp s1 qo)) as [v|] eqn:Rt; apply (f_equal (@length nat)) in R; rewrite rev_length in R; cbn in R.
        * destruct R1 as [R1|[R1|R1]]; [congruence|rewrite R1 in L; cbn in L; lia|lia].
        * destruct (s_repr _ I1 qo Hq) as (_ & W & _). rewrite (W Rt) in L. cbn in L. lia.
      + eexists. split; [reflexivity|]. split.
        * destruct (value (us s1) u) as [n|] eqn:V; [|discriminate]. intros _. exists n. apply from_end_value; auto. exists u. rewrite R. auto.
        * intros (n & H). apply (proj1 (from_end_value 0 s1 qo n I1 Hq)) in H as (u' & R' & V). rewrite R in R'. injection R' as <-. rewrite V. auto.
    - eexists. split; [reflexivity|]. split; [discriminate|]. intros (n & H). exfalso. apply (proj1 (from_end_value 0 s1 qo n I1 Hq)) in H as (u' & R' & V). assert (X : 0 < length (reversed (rp s1 qo))) by (apply nth_error_Some; congruence). unfold reversed in X. unfold shlen in L. destruct (root (rp s1 qo)); rewrite rev_length in X; lia. }
  assert (Go : forall st d, stride = Some st -> dilation = Some d ->
    match ((do _ <- (fun s => match window_val (last_val s qi) stride pad dilation kernel with
                        | Err e => (s, Err e)
                        | Ok v => (do w <- new_variadic; do l <- (do u <- new_dim v; hret [u]); inner_match qo (mkshape [] (Some w) l)) s
                        end);
            fun s => if 1 <=? shlen (rp s qo) then match item_last (rp s qo) 0 with Err e => (s, Err e) | Ok u => (s, Ok (is_some (value (us s) u))) end else (s, Ok false)) s) with
    | (s', Ok b) => sound_for P s s' /\ roomy 1 (rp s' qo) /\ (b = true <-> exists n, from_end 0 s' qo n) /\
      (forall i st p d k, stride = Some st -> pad_sum pad = Some p -> dilation = Some d -> kernel = Some k -> last_val s qi = Some i -> (1 <= st)%Z -> (1 <= d)%Z -> (1 <= k)%Z ->
         exists n, windows i p st d k n /\ from_end 0 s' qo n)
    | (_, Err e) => (e = ValueError \/ e = ZeroDivisionError) /\ excludes P s
    end).
  { intros st d -> ->. unfold hbind at 1.
    assert (Val : forall rho tau sh, sat (us s) rho -> (forall x, x < nrep s -> den s rho tau x = sh x) -> P sh -> exists xf i yf o, sh qi = xf ++ [i] /\ sh qo = yf ++ [o] /\ axis_windows (Some st) pad (Some d) kernel i o /\ says (last_val s qi) i).
    { intros rho tau sh Hs D Hp. destruct (HP rho sh) as (xf & i & yf & o & Ex & Ey & A); [apply allows_den; eauto|auto|]. exists xf, i, yf, o. do 3 (split; [auto|]). apply (last_val_ok s qi rho tau xf i); auto. rewrite D by auto. auto. }
    destruct (window_val (last_val s qi) (Some st) pad (Some d) kernel) as [v|e] eqn:Ev.
    2: { split; [eapply window_val_err; eauto|]. intros rho sh A Hp. apply allows_den in A as (Hs & tau & D). destruct (Val rho tau sh Hs D Hp) as (xf & i & yf & o & _ & _ & A & S). assert (X := window_val_ok _ _ _ _ _ i o S A). rewrite Ev in X. exact X. }
    assert (M := match_suffix P (fun _ ys => exists y, ys = [y] /\ fitsv v y) (do u <- new_dim v; hret [u]) s qo I Ho).
    assert (Mk : forall s1, us s1 = us s -> makes (do u <- new_dim v; hret [u]) s1 (fun _ ys => exists y, ys = [y] /\ fitsv v y)). { intros s1 U. apply makes_dim. rewrite U. apply I. }
    specialize (M Mk). assert (Pr : forall (rho : nat -> Z) tau sh, sat (us s) rho -> (forall x, x < nrep s -> den s rho tau x = sh x) -> P sh -> ends (fun ys => exists y, ys = [y] /\ fitsv v y) (sh qo)).
    { intros rho tau sh Hs D Hp. destruct (Val rho tau sh Hs D Hp) as (xf & i & yf & o & _ & -> & A & S). assert (X := window_val_ok _ _ _ _ _ i o S A). rewrite Ev in X. exists yf, [o]. split; [auto|]. exists o. auto. }
    specialize (M Pr). assert (St := suffix_struct 1 _ _ s qo I Ho Mk ltac:(intros rho l (y & -> & _); auto) Rm).
    destruct ((do w <- new_variadic; do l <- (do u <- new_dim v; hret [u]); inner_match qo (mkshape [] (Some w) l)) s) as [s1 [[]|e]]; [|split; [left|]; apply M]. destruct M as [Sd En]. assert (I1 : sinv s1) by apply Sd. assert (N1 : nrep s1 = nrep s) by apply Sd.
    assert (R1 : roomy 1 (rp s1 qo)). { destruct (root (rp s qo)) eqn:Rt; [right; right; apply St; congruence|left; apply (sound_for_plain P s s1 qo); auto]. }
    destruct (Tail s1 I1 ltac:(lia) R1) as (b & E & Hb). rewrite E. split; [auto|]. split; [auto|]. split; [auto|]. intros i st' p d' k E1 E2 E3 E4 E5 H1 H2 H3. injection E1 as <-. injection E3 as <-. subst kernel. rewrite E5 in Ev.
    destruct (window_val_known i st pad d k p v H1 H2 H3 E2 Ev) as (n & -> & (s0 & p0 & d0 & k0 & A1 & A2 & A3 & A4 & A5)). cbn in A1, A3, A4. apply (pad_sum_ok _ _ _ E2) in A2. subst.
    exists n. split; [auto|]. intros rho sh A. destruct (En ltac:(intros _ l (y & -> & _) (X1 & X2 & X3); destruct Rm as [X|[X|X]]; [congruence|congruence|cbn in X3; lia]) rho sh A) as (f & l & -> & y & -> & ->). rewrite rev_app_distr. auto. }
  unfold hbind at 1 in Go. unfold hbind at 1. destruct stride as [st|]; [|unfold hret; destruct (Tail s I Ho Rm) as (b' & E & Hb); cbv beta iota; rewrite E; split; [apply sound_for_refl; auto|]; split; [auto|]; split; [auto|]; discriminate].
  destruct pad as [|z|a b]; [unfold hret; destruct (Tail s I Ho Rm) as (b' & E & Hb); cbv beta iota; rewrite E; split; [apply sound_for_refl; auto|]; split; [auto|]; split; [auto|]; discriminate| |];
    (destruct dilation as [d|]; [apply (Go st d); auto|]; unfold hret; destruct (Tail s I Ho Rm) as (b' & E & Hb); cbv beta iota; rewrite E; split; [apply sound_for_refl; auto|]; split; [auto|]; split; [auto|]; discriminate).
Qed.
Lemma axis_known i st p d k stride pad dilation kernel v : stride = Some st -> pad_sum pad = Some p -> dilation = Some d -> kernel = Some k -> (1 <= st)%Z -> (1 <= d)%Z -> (1 <= k)%Z ->
  window_val (Some i) stride pad dilation kernel = Ok v -> exists n, v = Some n /\ windows i p st d k n.
Proof.
  intros -> Ep -> -> H1 H2 H3 E. destruct (window_val_known i st pad d k p v H1 H2 H3 Ep E) as (n & -> & (s0 & p0 & d0 & k0 & A1 & A2 & A3 & A4 & A5)). cbn in A1, A3, A4. apply (pad_sum_ok _ _ _ Ep) in A2. subst. eauto.
Qed.
Lemma window_2d_ok s qi qo stride pad dilation kernel (P : (nat -> list Z) -> Prop) : sinv s -> qi < nrep s -> qo < nrep s ->
  (forall rho sh, allows s rho sh -> P sh -> slides_2d stride pad dilation kernel (sh qi) (sh qo)) ->
  match window_2d qi qo stride pad dilation kernel s with
  | (s', Ok b) => sound_for P s s' /\ (b = true <-> (exists m, from_end 1 s' qo m) /\ (exists n, from_end 0 s' qo n)) /\
      (roomy 2 (rp s qo) ->
        (forall i st p d k, fst stride = Some st -> pad_sum (fst pad) = Some p -> fst dilation = Some d -> fst kernel = Some k -> last2_val s qi = Some i -> (1 <= st)%Z -> (1 <= d)%Z -> (1 <= k)%Z ->
           exists n, windows i p st d k n /\ from_end 1 s' qo n) /\
        (forall i st p d k, snd stride = Some st -> pad_sum (snd pad) = Some p -> snd dilation = Some d -> snd kernel = Some k -> last_val s qi = Some i -> (1 <= st)%Z -> (1 <= d)%Z -> (1 <= k)%Z ->
           exists n, windows i p st d k n /\ from_end 0 s' qo n))
  | (_, Err e) => (e = ValueError \/ e = ZeroDivisionError) /\ excludes P s
  end.
Proof.
  intros I Hi Ho HP. unfold window_2d.
  assert (Tail : forall s1, sinv s1 -> qo < nrep s1 -> ((2 <=? length (reversed (rp s1 qo))) && is_some (last2_val s1 qo) && is_some (last_val s1 qo) = true <-> (exists m, from_end 1 s1 qo m) /\ (exists n, from_end 0 s1 qo n))).
  { intros s1 I1 Hq. assert (T : forall k, (exists n, from_end k s1 qo n) <-> exists u n, nth_error (reversed (rp s1 qo)) k = Some u /\ value (us s1) u = Some n).
    { intros k. split; [intros (n & H); apply (proj1 (from_end_value k s1 qo n I1 Hq)) in H as (u & H); eauto|intros (u & n & H); exists n; apply from_end_value; eauto]. }
    rewrite (T 1), (T 0). unfold last2_val, last_val. destruct (reversed (rp s1 qo)) as [|u [|v l]]; cbn [nth_error length Nat.leb andb].
    - split; [discriminate|]. intros [(? & ? & ? & _) _]. discriminate.
    - split; [discriminate|]. intros [(? & ? & ? & _) _]. discriminate.
    - destruct (value (us s1) v) as [a|] eqn:Va, (value (us s1) u) as [b|] eqn:Vb; cbn [is_some andb].
      + split; [intros _; split; eauto|auto].
      + split; [discriminate|]. intros [_ (x & n & E & V)]. congruence.
      + split; [discriminate|]. intros [(x & n & E & V) _]. congruence.
      + split; [discriminate|]. intros [_ (x & n & E & V)]. congruence. }
  assert (Val : forall rho tau sh, sat (us s) rho -> (forall x, x < nrep s -> den s rho tau x = sh x) -> P sh -> exists yf oh ow,
     sh qo = yf ++ [oh; ow] /\ match window_val (last2_val s qi) (fst stride) (fst pad) (fst dilation) (fst kernel) with Ok v => fitsv v oh | Err _ => False end /\
     match window_val (last_val s qi) (snd stride) (snd pad) (snd dilation) (snd kernel) with Ok v => fitsv v ow | Err _ => False end).
  { intros rho tau sh Hs D Hp. destruct (HP rho sh) as (xf & h & w & yf & oh & ow & Ex & Ey & A & B); [apply allows_den; eauto|auto|]. exists yf, oh, ow. split; [auto|]. rewrite <- D in Ex by auto. split.
    - eapply window_val_ok; [|exact A]. eapply last2_val_ok; eauto.
    - eapply window_val_ok; [|exact B]. apply (last_val_ok s qi rho tau (xf ++ [h]) w); auto. rewrite Ex, <- app_assoc. auto. }
  unfold hbind at 1.
  destruct (window_val (last2_val s qi) (fst stride) (fst pad) (fst dilation) (fst kernel)) as [a|e] eqn:Ea.
  2: { split; [eapply window_val_err; eauto|]. intros rho sh A Hp. apply allows_den in A as (Hs & tau & D). destruct (Val rho tau sh Hs D Hp) as (yf & oh & ow & _ & [] & _). }
  destruct (window_val (last_val s qi) (snd stride) (snd pad) (snd dilation) (snd kernel)) as [b|e] eqn:Eb.
  2: { split; [eapply window_val_err; eauto|]. intros rho sh A Hp. apply allows_den in A as (Hs & tau & D). destruct (Val rho tau sh Hs D Hp) as (yf & oh & ow & _ & _ & []). }
  set (mk := do x <- (do u <- new_dim a; hret [u]); do y <- (do u <- new_dim b; hret [u]); hret (x ++ y)).
  set (spec := fun (_ : nat -> Z) ys => exists y z, ys = [y; z] /\ fitsv a y /\ fitsv b z).
  assert (Mk : forall s1, us s1 = us s -> makes mk s1 spec).
  { intros s1 U. eapply makes_iff; [apply (makes_app _ _ s1 _ _ (makes_dim a s1 ltac:(rewrite U; apply I)) (fun u' G => makes_dim b (with_us s1 u') (proj1 G)))|]; [auto|].
    intros rho ys. split; [intros (y1 & y2 & -> & (y & -> & F1) & (z & -> & F2)); exists y, z; auto|intros (y & z & -> & F1 & F2); exists [y], [z]; split; [auto|split; eauto]]. }
  assert (M := match_suffix P spec mk s qo I Ho Mk). lapply M; [clear M; intros M|].
  2: { intros rho tau sh Hs D Hp. destruct (Val rho tau sh Hs D Hp) as (yf & oh & ow & -> & F1 & F2). exists yf, [oh; ow]. split; [auto|]. exists oh, ow. auto. }
  destruct ((do w <- new_variadic; do l <- mk; inner_match qo (mkshape [] (Some w) l)) s) as [s1 [[]|e]]; [|split; [left|]; apply M]. destruct M as [Sd En]. unfold hgets. assert (I1 : sinv s1) by apply Sd. assert (N1 : nrep s1 = nrep s) by apply Sd.
  split; [auto|]. split; [apply Tail; auto; lia|]. intros Rm.
  assert (Nc : forall (rho : nat -> Z) l, spec rho l -> ~ (root (rp s qo) <> None /\ pre (rp s qo) <> [] /\ length (suf (rp s qo)) < length l)).
  { intros rho l (y & z & -> & _) (X1 & X2 & X3). cbn in X3. destruct Rm as [X|[X|X]]; [congruence|congruence|lia]. }
  split; intros i st p d k E1 E2 E3 E4 E5 H1 H2 H3.
  - rewrite E5 in Ea. destruct (axis_known i st p d k _ _ _ _ a E1 E2 E3 E4 H1 H2 H3 Ea) as (n & -> & Wn). exists n. split; [auto|]. intros rho sh A. destruct (En Nc rho sh A) as (f & l & -> & y & z & -> & F1 & F2). cbn in F1. rewrite rev_app_distr. cbn. f_equal. auto.
  - rewrite E5 in Eb. destruct (axis_known i st p d k _ _ _ _ b E1 E2 E3 E4 H1 H2 H3 Eb) as (n & -> & Wn). exists n. split; [auto|]. intros rho sh A. destruct (En Nc rho sh A) as (f & l & -> & y & z & -> & F1 & F2). cbn in F2. rewrite rev_app_distr. cbn. f_equal. auto.
Qed.

(** ** Convolutions *)
Definition rank (n : nat) (s : shst) (q : nat) : Prop := forall rho sh, allows s rho sh -> length (sh q) = n.
Lemma rank_plain n s q : sinv s -> q < nrep s -> rank n s q -> root (rp s q) = None /\ length (pre (rp s q)) = n.
Proof.
  intros I Hq R. assert (Rt : root (rp s q) = None). { apply (fixed_rank s q n); auto. intros rho tau Hs. apply (R rho (den s rho tau)). apply allows_self. auto. }
  split; [auto|]. destruct (sat_exists (us s) (s_inv _ I)) as (rho & Hs). assert (X := R rho _ (allows_self s rho (fun _ => []) Hs)). rewrite den_plain_suffix, map_length in X by auto. auto.
Qed.
Lemma rank_kept n P s s' q : sound_for P s s' -> rank n s q -> rank n s' q.
Proof. intros (_ & _ & _ & _ & B) R rho sh A. apply (R rho). apply B. auto. Qed.
Lemma rank_roomy n m s q : sinv s -> q < nrep s -> rank n s q -> roomy m (rp s q).
Proof. intros I Hq R. left. apply (rank_plain n s q); auto. Qed.
Lemma conv_1d_ok s qi qo qk stride pad dilation (P : (nat -> list Z) -> Prop) : sinv s -> qi < nrep s -> qo < nrep s -> qk < nrep s ->
  rank 3 s qo -> rank 3 s qk ->
  (forall rho sh, allows s rho sh -> P sh -> convolves_1d stride pad dilation (sh qi) (sh qo) (sh qk)) ->
  match conv_1d qi qo qk stride pad dilation s with
  | (s', Ok b) => sound_for P s s' /\ (b = true <-> exists n, from_end 0 s' qo n) /\
      (forall i st p d k, stride = Some st -> pad_sum pad = Some p -> dilation = Some d -> from_end 0 s qk k -> from_end 0 s qi i -> (1 <= st)%Z -> (1 <= d)%Z -> (1 <= k)%Z ->
         exists n, windows i p st d k n /\ from_end 0 s' qo n)
  | (_, Err e) => (e = ValueError \/ e = ZeroDivisionError) /\ excludes P s
  end.
Proof.
  intros I Hi Ho Hk Ro Rk HP. unfold conv_1d. rewrite item_reversed. destruct (rank_plain 3 s qk I Hk Rk) as [Rt Ln]. destruct (reversed (rp s qk)) as [|u l] eqn:Rv; [exfalso; unfold reversed in Rv; rewrite Rt in Rv; apply (f_equal (@length nat)) in Rv; rewrite rev_length, Ln in Rv; discriminate|]. cbn [nth_error].
  assert (W := window_1d_ok s qi qo stride pad dilation (value (us s) u) P I Hi Ho). lapply W; [clear W; intros W|].
  2: { intros rho sh A Hp. destruct (HP rho sh A Hp) as (zf & k & Ez & xf & i & yf & o & Ex & Ey & (s0 & p0 & d0 & k0 & A1 & A2 & A3 & A4 & A5)). cbn in A4. subst k0. exists xf, i, yf, o. do 2 (split; [auto|]). exists s0, p0, d0, k. do 3 (split; [auto|]). split; [|auto].
       apply allows_den in A as (Hs & tau & D). rewrite <- D in Ez by auto. assert (X := last_val_ok s qk rho tau zf k I Hk Hs Ez). unfold last_val in X. rewrite Rv in X. auto. }
  specialize (W (rank_roomy 3 1 s qo I Ho Ro)). destruct (window_1d qi qo stride pad dilation (value (us s) u) s) as [s' [b|e]]; [|auto]. destruct W as (W1 & _ & W2 & W3). do 2 (split; [auto|]).
  intros i st p d k E1 E2 E3 E4 E5 H1 H2 H3. apply (W3 i st p d k); auto.
  - apply (proj1 (from_end_value 0 s qk k I Hk)) in E4 as (u' & En & V). rewrite Rv in En. injection En as <-. auto.
  - apply (proj1 (from_end_value 0 s qi i I Hi)) in E5 as (u' & En & V). unfold last_val. destruct (reversed (rp s qi)); [discriminate|]. injection En as <-. auto.
Qed.
(** The dimension number [k] is known to be [n]. *)
Definition at_index (k : nat) (s : shst) (q : nat) (n : Z) : Prop := forall rho sh, allows s rho sh -> nth_error (sh q) k = Some n.
Definition divided (groups : option Z) (x y z : list Z) : Prop :=
  exists g c o, groups = Some g /\ (g <> 0)%Z /\ nth_error x 1 = Some c /\ nth_error y 1 = Some o /\ nth_error z 1 = Some (c / g)%Z /\ (o mod g = 0)%Z.
Lemma second_ok s q : sinv s -> q < nrep s -> rank 4 s q -> exists u, second (rp s q) = Ok u /\ live (us s) u /\ forall rho tau, nth_error (den s rho tau q) 1 = Some (rho u).
Proof.
  intros I Hq R. destruct (rank_plain 4 s q I Hq R) as [Rt Ln]. unfold second. destruct (pre (rp s q)) as [|a [|u l]] eqn:E; try discriminate. cbn. exists u. split; [auto|]. split.
  - destruct (s_repr _ I q Hq) as (W & _). apply W. rewrite E. right; left; auto.
  - intros rho tau. rewrite den_plain_suffix, E by auto. auto.
Qed.
Lemma channels_ok s qi qo qk groups (P : (nat -> list Z) -> Prop) : sinv s -> qi < nrep s -> qo < nrep s -> qk < nrep s -> rank 4 s qi -> rank 4 s qo -> rank 4 s qk ->
  (forall rho sh, allows s rho sh -> P sh -> grouped groups (sh qi) (sh qo) (sh qk)) ->
  match channels qi qo qk groups s with
  | (s', Ok b) => sound_for P s s' /\ (b = true -> forall rho sh, allows s' rho sh -> divided groups (sh qi) (sh qo) (sh qk)) /\
      (b = true <-> groups = Some 1%Z \/ groups <> None /\ (exists c, at_index 1 s qi c) /\ exists o, at_index 1 s qo o)
  | (_, Err e) => (e = ValueError \/ e = ZeroDivisionError) /\ excludes P s
  end.
Proof.
  intros I Hi Ho Hk Ri Ro Rk HP. unfold channels. destruct groups as [g|]; [|split; [apply sound_for_refl; auto|split; [discriminate|split; [discriminate|intros [X|[X _]]; congruence]]]].
  destruct (second_ok s qi I Hi Ri) as (a & Ea & La & Da), (second_ok s qo I Ho Ro) as (o & Eo & Lo & Do), (second_ok s qk I Hk Rk) as (b & Eb & Lb & Db).
  assert (G : forall rho tau sh, sat (us s) rho -> (forall x, x < nrep s -> den s rho tau x = sh x) -> P sh -> (0 < g)%Z /\ rho a = (rho b * g)%Z /\ (rho o mod g = 0)%Z).
  { intros rho tau sh Hs D Hp. destruct (HP rho sh) as (g' & Eg & Pg & c & o' & k & E1 & E2 & E3 & E4 & E5); [apply allows_den; eauto|auto|]. cbn in Eg. subst g'. rewrite <- D in E1, E2, E3 by auto. rewrite Da in E1. rewrite Do in E2. rewrite Db in E3. injection E1 as <-. injection E2 as <-. injection E3 as <-. auto. }
  assert (Kn : forall q u, (forall rho tau, nth_error (den s rho tau q) 1 = Some (rho u)) -> q < nrep s -> live (us s) u -> forall n, at_index 1 s q n <-> value (us s) u = Some n).
  { intros q u Dq Hq Lu n. split.
    - intros H. apply value_complete; [apply I|auto|]. intros rho Hs. assert (X := H rho _ (allows_self s rho (fun _ => []) Hs)). rewrite Dq in X. congruence.
    - intros V rho sh A. apply allows_den in A as (Hs & tau & D). rewrite <- D, Dq by auto. f_equal. eapply value_sat; [apply I|exact Lu|exact V|auto]. }
  destruct (Z.eqb_spec g 1) as [->|Ng].
  - unfold hbind at 1. rewrite Ea. unfold hbind at 1. rewrite Eb. unfold hbind, hret.
    assert (X := on_dims P (uni_match a b) (fun rho => rho a = rho b) s I (proj1 (uni_match_imposes (us s) a b (s_inv _ I) La Lb))). lapply X; [clear X; intros X|intros rho tau sh Hs D Hp; destruct (G rho tau sh Hs D Hp); lia].
    destruct (lift (uni_match a b) s) as [s' [x|e]]; [|split; [left|]; apply X]. destruct X as (X1 & X2 & X3 & X4). split; [auto|]. split; [|split; auto].
    intros _ rho sh A. assert (Q := X4 rho sh A). apply (proj2 (proj2 (proj2 (proj2 X1)))) in A. apply allows_den in A as (Hs & tau & D). exists 1%Z, (rho a), (rho o). rewrite <- !D, Da, Do, Db, Z.div_1_r, Z.mod_1_r, Q by auto. do 2 (split; [auto; lia|]). auto.
  - unfold hbind at 1. rewrite Eo. unfold hbind at 1. destruct (value (us s) o) as [oc|] eqn:Vo.
    + assert (Vs : forall rho, sat (us s) rho -> rho o = oc) by (intros rho Hs; eapply value_sat; [apply I|exact Lo|exact Vo|auto]).
      destruct (Z.eqb_spec g 0) as [->|Ng0]. { split; [right; auto|]. intros rho sh A Hp. apply allows_den in A as (Hs & tau & D). destruct (G rho tau sh Hs D Hp). lia. }
      destruct (Z.eqb_spec (oc mod g) 0) as [Em|Em]. 2: { split; [left; auto|]. intros rho sh A Hp. apply allows_den in A as (Hs & tau & D). destruct (G rho tau sh Hs D Hp) as (_ & _ & X). rewrite (Vs rho Hs) in X. auto. }
      unfold hbind at 1. rewrite Ea, Vo. destruct (value (us s) a) as [ic|] eqn:Va.
      * unfold hbind at 1. rewrite Eb. unfold hbind, hret. assert (Sa : forall rho, sat (us s) rho -> rho a = ic) by (intros rho Hs; eapply value_sat; [apply I|exact La|exact Va|auto]).
        assert (Is : is_set (Some [(ic / g)%Z])) by (cbn; repeat constructor; auto).
        assert (X := on_dims P (update_possible_values b (Some [(ic / g)%Z])) _ s I (update_imposes (us s) b (Some [(ic / g)%Z]) (s_inv _ I) Lb Is)). lapply X; [clear X; intros X|].
        2: { intros rho tau sh Hs D Hp. destruct (G rho tau sh Hs D Hp) as (Pg & Y & _). rewrite (Sa rho Hs) in Y. cbn. left. rewrite Y, Z.div_mul by lia. auto. }
        destruct (lift (update_possible_values b (Some [(ic / g)%Z])) s) as [s' [x|e]]; [|split; [left|]; apply X]. destruct X as (X1 & X2 & X3 & X4). split; [auto|]. split.
        -- intros _ rho sh A. assert (Q := X4 rho sh A). cbn in Q. apply (proj2 (proj2 (proj2 (proj2 X1)))) in A. apply allows_den in A as (Hs & tau & D). exists g, ic, oc. rewrite <- !D, Da, Do, Db, Vs, Sa by auto. do 2 (split; [auto|]). split; [auto|]. split; [auto|]. split; [|auto]. destruct Q as [<-|[]]. auto.
        -- split; [intros _; right; split; [discriminate|]; split; [exists ic; apply (Kn qi a); auto|exists oc; apply (Kn qo o); auto]|auto].
      * split; [apply sound_for_refl; auto|]. split; [discriminate|]. split; [discriminate|]. intros [X|(_ & (c & X) & _)]; [congruence|]. apply (Kn qi a) in X; auto. congruence.
    + unfold hbind at 1. rewrite Ea, Vo. split; [apply sound_for_refl; auto|]. split; [discriminate|]. split; [discriminate|]. intros [X|(_ & _ & (c & X))]; [congruence|]. apply (Kn qo o) in X; auto. congruence.
Qed.
Lemma conv_2d_ok s qi qo qk stride pad dilation groups (P : (nat -> list Z) -> Prop) : sinv s -> qi < nrep s -> qo < nrep s -> qk < nrep s -> rank 4 s qi -> rank 4 s qo -> rank 4 s qk ->
  (forall rho sh, allows s rho sh -> P sh -> convolves_2d stride pad dilation groups (sh qi) (sh qo) (sh qk)) ->
  match conv_2d qi qo qk stride pad dilation groups s with
  | (s', Ok b) => sound_for P s s' /\
      (b = true <-> (groups = Some 1%Z \/ groups <> None /\ (exists c, at_index 1 s qi c) /\ exists o, at_index 1 s qo o) /\ (exists m, from_end 1 s' qo m) /\ (exists n, from_end 0 s' qo n)) /\
      ((groups = Some 1%Z \/ groups <> None /\ (exists c, at_index 1 s qi c) /\ exists o, at_index 1 s qo o) -> forall rho sh, allows s' rho sh -> divided groups (sh qi) (sh qo) (sh qk)) /\
      (forall i st p d k, fst stride = Some st -> pad_sum (fst pad) = Some p -> fst dilation = Some d -> from_end 1 s qk k -> from_end 1 s qi i -> (1 <= st)%Z -> (1 <= d)%Z -> (1 <= k)%Z ->
         exists n, windows i p st d k n /\ from_end 1 s' qo n) /\
      (forall i st p d k, snd stride = Some st -> pad_sum (snd pad) = Some p -> snd dilation = Some d -> from_end 0 s qk k -> from_end 0 s qi i -> (1 <= st)%Z -> (1 <= d)%Z -> (1 <= k)%Z ->
         exists n, windows i p st d k n /\ from_end 0 s' qo n)
  | (_, Err e) => (e = ValueError \/ e = ZeroDivisionError) /\ excludes P s
  end.
Proof.
  intros I Hi Ho Hk Ri Ro Rk HP. unfold conv_2d.
  destruct (rank_plain 4 s qk I Hk Rk) as [Rt Ln]. assert (Rv : exists w h l, reversed (rp s qk) = w :: h :: l).
  { unfold reversed. rewrite Rt. destruct (rev (pre (rp s qk))) as [|w [|h l]] eqn:E; try (apply (f_equal (@length nat)) in E; rewrite rev_length, Ln in E; discriminate). eauto. }
  destruct Rv as (w & h & l & Rv). assert (Ek : kernel_2d s qk = (value (us s) h, value (us s) w)) by (unfold kernel_2d; rewrite Rv; auto). rewrite Ek. cbv zeta.
  assert (C := channels_ok s qi qo qk groups P I Hi Ho Hk Ri Ro Rk (fun rho sh A Hp => proj1 (HP rho sh A Hp))). unfold hbind at 1.
  destruct (channels qi qo qk groups s) as [s1 [c|e]]; [|auto]. destruct C as (C1 & C2 & C3). assert (I1 : sinv s1) by apply C1. assert (N1 : nrep s1 = nrep s) by apply C1. assert (Bk := proj2 (proj2 (proj2 (proj2 C1)))).
  assert (W := window_2d_ok s1 qi qo stride pad dilation (value (us s) h, value (us s) w) P I1 ltac:(lia) ltac:(lia)). lapply W; [clear W; intros W|].
  2: { intros rho sh A Hp. apply Bk in A. destruct (HP rho sh A Hp) as (_ & zf & kh & kw & Ez & xf & ih & iw & yf & oh & ow & Ex & Ey & (s0 & p0 & d0 & k0 & A1 & A2 & A3 & A4 & A5) & (s2 & p2 & d2 & k2 & B1 & B2 & B3 & B4 & B5)). cbn in A4, B4. subst k0 k2.
       apply allows_den in A as (Hs & tau & D). rewrite <- D in Ez by auto. assert (X1 := last2_val_ok s qk rho tau zf kh kw I Hk Hs Ez). assert (X2 := last_val_ok s qk rho tau (zf ++ [kh]) kw I Hk Hs ltac:(rewrite Ez, <- app_assoc; auto)). unfold last2_val in X1. unfold last_val in X2. rewrite Rv in X1, X2.
       exists xf, ih, iw, yf, oh, ow. do 2 (split; [auto|]). split; [exists s0, p0, d0, kh|exists s2, p2, d2, kw]; auto. }
  unfold hbind. destruct (window_2d qi qo stride pad dilation (value (us s) h, value (us s) w) s1) as [s' [b|e]]; [|split; [apply W|eapply excludes_back; [exact C1|apply W]]].
  destruct W as (W1 & W2 & W3). unfold hret. assert (Sd : sound_for P s s') by (eapply sound_for_trans; eauto). split; [auto|].
  split; [rewrite andb_true_iff, W2, C3; tauto|]. split; [intros Hc rho sh A; apply (C2 (proj2 C3 Hc) rho); apply W1; auto|].
  destruct (W3 (rank_roomy 4 2 s1 qo I1 ltac:(lia) (rank_kept 4 P s s1 qo C1 Ro))) as [Wh Ww].
  assert (Fe : forall k q n, q < nrep s -> from_end k s q n -> exists u, nth_error (reversed (rp s1 q)) k = Some u /\ value (us s1) u = Some n).
  { intros k q n Hq F. apply (proj1 (from_end_value k s1 q n I1 ltac:(lia))). intros rho sh A. apply (F rho). auto. }
  split; intros i st p d k E1 E2 E3 E4 E5 H1 H2 H3.
  - apply (Wh i st p d k); auto; cbn.
    + apply (proj1 (from_end_value 1 s qk k I Hk)) in E4 as (u' & En & V). rewrite Rv in En. injection En as <-. auto.
    + destruct (Fe 1 qi i Hi E5) as (u & En & V). unfold last2_val. destruct (reversed (rp s1 qi)) as [|? [|? ?]]; try discriminate. injection En as <-. auto.
  - apply (Ww i st p d k); auto; cbn.
    + apply (proj1 (from_end_value 0 s qk k I Hk)) in E4 as (u' & En & V). rewrite Rv in En. injection En as <-. auto.
    + destruct (Fe 0 qi i Hi E5) as (u & En & V). unfold last_val. destruct (reversed (rp s1 qi)) as [|? ?]; try discriminate. injection En as <-. auto.
Qed.
