(** * C45: concat *)
From Coq Require Import List Arith Lia Bool ZArith.
From Verif Require Import PyBase Uniadic_Model Uniadic_Proofs Bcast_Proofs Shape_Model Shape_Proofs Shape_Proofs2 Shape_Proofs3 Shape_Props Reduce_Model
  Rule_Proofs Window_Model Window_Proofs Window_Props Arange_Model Arange_Proofs Arange_Props Reshape_Model Reshape_Proofs Reshape_Props Concat_Model Concat_Proofs.
Import ListNotations.
Open Scope list_scope. Open Scope nat_scope. Open Scope shm_scope.

(** ** Sessions with the rules of C25 to C28 and C45 *)
Inductive crule (s : shst) : shst -> Prop :=
| c_reshape s' : rrule s s' -> crule s s'
| c_concat qs qo a s' b : (forall q, In q (qs ++ [qo]) -> q < nrep s) -> concat_axis qs qo a s = (s', Ok b) -> crule s s'
| c_flat qs qo s' b : (forall q, In q qs -> q < nrep s) -> qo < nrep s -> concat_flat qs qo s = (s', Ok b) -> crule s s'.
Lemma crule_inv s s' : sinv s -> crule s s' -> sinv s'.
Proof.
  intros I. destruct 1 as [s' W|qs qo a s' b Hq E|qs qo s' b Hq Ho E]; [eapply rrule_inv; eauto| |].
  - assert (M := concat_axis_ok s qs qo a I Hq). rewrite E in M. apply M.
  - assert (M := concat_flat_ok s qs qo I Hq Ho). rewrite E in M. apply M.
Qed.
Definition csess : shst -> Prop := runs crule.
Lemma csess_inv s : csess s -> sinv s.
Proof. apply runs_inv, crule_inv. Qed.

(** The size at the axis *)
Definition axis_size (a : Z) (x : list Z) (d : Z) : Prop := exists front back, at_axis a front back /\ x = front ++ d :: back.
Lemma described_off a reprs L s : described a reprs L s -> forall rho sh, allows s rho sh -> same_off a reprs sh.
Proof. intros D rho sh A. destruct (D rho sh A) as (f & b & Ax & F). exists f, b. split; [auto|]. clear - F. induction F as [|q u reprs L E _ IH]; intros x; [intros []|intros [<-|Hx]]; eauto. Qed.
Lemma described_size a s rho sh f b reprs L q u : at_axis a f b -> Forall2 (fun q u => sh q = f ++ rho u :: b) reprs L -> allows s rho sh -> In (q, u) (combine reprs L) -> forall d, axis_size a (sh q) d <-> d = rho u.
Proof.
  intros Ax F A Hin d. assert (E : sh q = f ++ rho u :: b). { clear - F Hin. induction F as [|x v reprs L E _ IH]; [destruct Hin|]. destruct Hin as [H|H]; [injection H as <- <-; auto|auto]. }
  split; [intros (f' & b' & Ax' & E')|intros ->; exists f, b; auto]. rewrite E in E'. destruct (axis_unique a _ _ _ _ _ _ Ax Ax' E') as (_ & -> & _). auto.
Qed.
Lemma combine_r {A B} (l : list A) (m : list B) y : length l = length m -> In y m -> exists x, In (x, y) (combine l m).
Proof. revert m. induction l as [|a l IH]; intros [|b m] L H; try discriminate; [destruct H|]. injection L as L. destruct H as [->|H]; [exists a; left; auto|]. destruct (IH m L H) as (x & Hx). exists x. right. auto. Qed.
Lemma combine_l {A B} (l : list A) (m : list B) x : length l = length m -> In x l -> exists y, In (x, y) (combine l m).
Proof. revert m. induction l as [|a l IH]; intros [|b m] L H; try discriminate; [destruct H|]. injection L as L. destruct H as [->|H]; [exists b; left; auto|]. destruct (IH m L H) as (y & Hy). exists y. right. auto. Qed.
Lemma described_length a reprs L s : sinv s -> described a reprs L s -> length reprs = length L.
Proof. intros I D. destruct (sat_exists (us s) (s_inv _ I)) as (r0 & Hs0). destruct (D r0 _ (allows_self s r0 (fun _ => []) Hs0)) as (f & b & _ & F). eapply Forall2_length; eauto. Qed.
Lemma sizes_known a reprs L s : sinv s -> (forall u, In u L -> live (us s) u) -> described a reprs L s -> (exists x, values s L = map Some x) <-> (forall q, In q reprs -> exists n, forall rho sh d, allows s rho sh -> axis_size a (sh q) d -> d = n).
Proof.
  intros I HL D. assert (Len := described_length a reprs L s I D). split.
  - intros (x & V) q Hq. destruct (combine_l reprs L q Len Hq) as (u & Hin). destruct (sat_exists (us s) (s_inv _ I)) as (r0 & Hs0). exists (r0 u). intros rho sh d A Sz. destruct (D rho sh A) as (f & b & Ax & F). apply (described_size a s rho sh f b reprs L q u Ax F A Hin) in Sz. subst d.
    assert (E : map rho L = map r0 L) by (rewrite (values_sat s L x I HL V rho (proj1 A)); symmetry; apply (values_sat s L x I HL V r0 Hs0)). apply in_combine_r in Hin. clear - E Hin. induction L as [|v L IH]; [destruct Hin|]. cbn in E. injection E as E1 E2. destruct Hin as [->|Hin]; auto.
  - intros H. destruct (sat_exists (us s) (s_inv _ I)) as (r0 & Hs0). exists (map r0 L). apply values_complete; auto. intros rho Hs. apply map_ext_in. intros u Hu. destruct (combine_r reprs L u Len Hu) as (q & Hin). destruct (H q) as (n & Hn); [eapply in_combine_l; eauto|].
    assert (Z0 : forall r, sat (us s) r -> r u = n). { intros r Hr. assert (A := allows_self s r (fun _ => []) Hr). destruct (D r _ A) as (f & b & Ax & F). apply (Hn r _ (r u) A). apply (described_size a s r _ f b reprs L q u Ax F A Hin). auto. }
    rewrite (Z0 rho Hs), (Z0 r0 Hs0). auto.
Qed.
Lemma rank_of s q : sinv s -> q < nrep s -> (exists n, forall rho sh, allows s rho sh -> length (sh q) = n) -> root (rp s q) = None.
Proof. intros I Hq (n & H). apply (rank_plain n s q); auto. Qed.

(** ** Whatever is known, no possible combination of shapes is lost and none invented.  If the rank of one shape is known, the shapes agree
    except at the axis afterwards, the result tells whether all sizes at the axis are now known, and an error means that no combination
    was possible. *)
Theorem C45_sound : forall s qs qo a, csess s -> (forall q, In q (qs ++ [qo]) -> q < nrep s) ->
  match concat_axis qs qo a s with
  | (s', Ok r) => csess s' /\ narrows (fun sh => joins a (map sh qs) (sh qo)) s s' /\
      ((exists q, In q (qs ++ [qo]) /\ exists n, forall rho sh, allows s rho sh -> length (sh q) = n) ->
        (forall rho sh, allows s' rho sh -> exists front back, at_axis a front back /\ forall q, In q (qs ++ [qo]) -> exists d, sh q = front ++ d :: back) /\
        (r = true <-> forall q, In q (qs ++ [qo]) -> exists n, forall rho sh d, allows s' rho sh -> axis_size a (sh q) d -> d = n))
  | (_, Err e) => In e [ValueError; IndexError] /\
      ((exists q, In q (qs ++ [qo]) /\ exists n, forall rho sh, allows s rho sh -> length (sh q) = n) -> forall rho sh, allows s rho sh -> ~ joins a (map sh qs) (sh qo))
  end.
Proof.
  intros s qs qo a S Hq. assert (I := csess_inv s S). assert (M := concat_axis_ok s qs qo a I Hq). assert (K := fun s' b => c_concat s qs qo a s' b Hq). destruct (concat_axis qs qo a s) as [s' [r|e]].
  - destruct M as [M1 M2]. split; [eapply runs_rule; [exact S|eapply K; reflexivity]|]. split; [apply sound_narrows; auto|]. intros (q & Hx & Rk). destruct M2 as (s2 & li & lo & _ & _ & _ & I' & L' & D' & T & _); [exists q; split; [auto|apply rank_of; auto]|].
    split; [apply (described_off a _ _ s' D')|]. rewrite T. apply sizes_known; auto.
  - destruct M as [M1 M2]. split; [auto|]. intros (q & Hx & Rk). apply M2. exists q. split; [auto|apply rank_of; auto].
Qed.

(** ** All sizes at the axis but one are known: the last one is found by the sum (the output) or the difference (an input), or no
    combination was possible. *)
Lemma count_split (vs ws : list (option Z)) : (forall v, In v (vs ++ ws) -> v <> None) -> count_none (vs ++ None :: ws) = 1.
Proof.
  intros H. assert (Z0 : forall l, (forall v, In v l -> v <> None) -> count_none l = 0). { induction l as [|[z|] l IH]; intros X; cbn; [auto|apply IH; intros v Hv; apply X; right; auto|]. exfalso. apply (X None); [left; auto|auto]. }
  induction vs as [|[z|] vs IH]; cbn [app count_none].
  - rewrite Z0; auto.
  - apply IH. intros v Hv. apply H. right. auto.
  - exfalso. apply (H None); [left; auto|auto].
Qed.
Theorem C45_exact : forall s qs qo a l1 q l2, csess s -> (forall x, In x (qs ++ [qo]) -> x < nrep s) -> qs ++ [qo] = l1 ++ q :: l2 ->
  (exists x, In x (qs ++ [qo]) /\ exists n, forall rho sh, allows s rho sh -> length (sh x) = n) ->
  (forall x, In x (l1 ++ l2) -> exists n, forall rho sh d, allows s rho sh -> same_off a (qs ++ [qo]) sh -> axis_size a (sh x) d -> d = n) ->
  (forall n, exists rho sh d, allows s rho sh /\ same_off a (qs ++ [qo]) sh /\ axis_size a (sh q) d /\ d <> n) ->
  match concat_axis qs qo a s with
  | (s', Ok r) => r = true /\ forall rho sh, allows s' rho sh -> joins a (map sh qs) (sh qo)
  | (_, Err e) => forall rho sh, allows s rho sh -> ~ joins a (map sh qs) (sh qo)
  end.
Proof.
  intros s qs qo a l1 q l2 S Hq El (x0 & Hx0 & Rk) Fx Op. assert (I := csess_inv s S). assert (M := concat_axis_ok s qs qo a I Hq). assert (Pl : exists x, In x (qs ++ [qo]) /\ root (rp s x) = None) by (exists x0; split; [auto|apply rank_of; auto]). destruct (concat_axis qs qo a s) as [s' [r|e]]; [|apply M; auto].
  destruct M as [_ M]. destruct (M Pl) as (s2 & li & lo & S2 & L2 & D2 & I' & L' & D' & T & X). assert (I2 : sinv s2) by apply S2. assert (Len := described_length _ _ _ s2 I2 D2).
  assert (Sp : exists k1 u k2, li ++ [lo] = k1 ++ u :: k2 /\ length k1 = length l1 /\ length k2 = length l2). { rewrite El, app_length in Len. cbn in Len. exists (firstn (length l1) (li ++ [lo])). destruct (skipn (length l1) (li ++ [lo])) as [|u k2] eqn:Es; [apply (f_equal (@length _)) in Es; rewrite skipn_length in Es; cbn in Es; lia|]. exists u, k2. rewrite <- Es, firstn_skipn. split; [auto|]. rewrite firstn_length. split; [lia|]. apply (f_equal (@length _)) in Es. rewrite skipn_length in Es. cbn in Es. lia. }
  destruct Sp as (k1 & u & k2 & Ek & Lk1 & Lk2).
  assert (Cu : combine (qs ++ [qo]) (li ++ [lo]) = combine l1 k1 ++ (q, u) :: combine l2 k2). { rewrite El, Ek. clear - Lk1. revert k1 Lk1. induction l1 as [|x l1 IH]; intros [|k k1] L; try discriminate; [auto|]. cbn [app combine]. f_equal. apply IH. injection L; auto. }
  assert (Vo : value (us s2) u = None). { destruct (value (us s2) u) as [n|] eqn:V; [|auto]. exfalso. destruct (Op n) as (rho & sh & d & A & So & Sz & Nd). destruct S2 as (_ & _ & _ & F & _). destruct (F rho sh A So) as (r' & _ & A'). destruct (D2 r' sh A') as (f & b & Ax & Ff). apply (described_size a s2 r' sh f b _ _ q u Ax Ff A') in Sz; [|rewrite Cu; apply in_app_iff; right; left; auto].
    apply Nd. subst d. eapply value_sat; [apply I2|apply L2; rewrite Ek; apply in_app_iff; right; left; auto|exact V|apply A']. }
  assert (Vk : forall v, In v (k1 ++ k2) -> value (us s2) v <> None). { intros v Hv. assert (Y : exists x, In x (l1 ++ l2) /\ In (x, v) (combine (qs ++ [qo]) (li ++ [lo]))). { rewrite Cu. apply in_app_iff in Hv as [Hv|Hv]; [destruct (combine_r l1 k1 v (eq_sym Lk1) Hv) as (x & Hx)|destruct (combine_r l2 k2 v (eq_sym Lk2) Hv) as (x & Hx)]; exists x; (split; [apply in_app_iff; apply in_combine_l in Hx; auto|apply in_app_iff; auto]). right. right. auto. }
    destruct Y as (x & Hx & Hin). destruct (Fx x Hx) as (n & Hn). assert (V : value (us s2) v = Some n); [|congruence]. apply value_complete; [apply I2|apply L2; rewrite Ek; apply in_app_iff in Hv as [Hv|Hv]; apply in_app_iff; [auto|right; right; auto]|]. intros rho Hs. assert (A := allows_self s2 rho (fun _ => []) Hs).
    destruct (D2 rho _ A) as (f & b & Ax & Ff). apply (Hn rho (den s2 rho (fun _ => []))); [apply S2; auto|apply (described_off a _ _ s2 D2 rho _ A)|]. apply (described_size a s2 rho _ f b _ _ x v Ax Ff A Hin). auto. }
  assert (C1 : count_none (values s2 (li ++ [lo])) = 1). { rewrite Ek. unfold values. rewrite map_app. cbn [map]. rewrite Vo. apply count_split. intros v Hv. rewrite <- map_app in Hv. apply in_map_iff in Hv as (w & <- & Hw). auto. }
  specialize (X C1). destruct X as [Xr X]. assert (Jn : forall rho sh, allows s' rho sh -> joins a (map sh qs) (sh qo)).
  { intros rho sh A. destruct (D' rho sh A) as (f & b & Ax & F). exists f, b, (map rho li). apply Forall2_app_inv_l in F as (m1 & m2 & F1 & F2 & Em). inversion F2 as [|? v ? ? Fv Fn]; subst. inversion Fn; subst. apply app_inj_tail in Em as [<- <-]. split; [split; [auto|]|rewrite <- (X rho (proj1 A)); auto].
    rewrite map_map. clear - F1. induction F1; cbn; f_equal; auto. }
  auto.
Qed.

(** ** Without axis: whatever is known, no possible combination is lost and none invented; the output has one dimension; the result tells
    whether all shapes are now determined; an error means that no combination was possible, or that an input is surely empty. *)
Theorem C45_flat : forall s qs qo, csess s -> (forall q, In q qs -> q < nrep s) -> qo < nrep s ->
  match concat_flat qs qo s with
  | (s', Ok r) => csess s' /\ narrows (fun sh => joins_flat (map sh qs) (sh qo)) s s' /\ (forall rho sh, allows s' rho sh -> length (sh qo) = 1) /\
      (r = true <-> forall q, In q (qs ++ [qo]) -> exists x, determined s' q x)
  | (_, Err e) => (e = ValueError /\ forall rho sh, allows s rho sh -> ~ joins_flat (map sh qs) (sh qo)) \/
      (e = ZeroDivisionError /\ exists q, In q qs /\ forall rho sh, allows s rho sh -> length (sh qo) = 1 -> In 0%Z (sh q))
  end.
Proof.
  intros s qs qo S Hq Ho. assert (I := csess_inv s S). assert (M := concat_flat_ok s qs qo I Hq Ho). assert (K := fun s' b => c_flat s qs qo s' b Hq Ho). destruct (concat_flat qs qo s) as [s' [r|e]]; [|tauto].
  destruct M as (M1 & M2 & M3 & _). split; [eapply runs_rule; [exact S|eapply K; reflexivity]|]. split; [apply sound_narrows; auto|]. split; [exact M2|]. rewrite M3. split.
  - intros [(xs & F) D] q Hx. apply in_app_iff in Hx as [Hx|[<-|[]]]; [|auto]. clear - F Hx. induction F; [destruct Hx|]. destruct Hx as [<-|Hx]; eauto.
  - intros H. split; [|apply H; apply in_app_iff; right; left; auto]. assert (Hq' : forall q, In q qs -> exists x, determined s' q x) by (intros q Hx; apply H; apply in_app_iff; auto). clear - Hq'. induction qs as [|q qs IH]; [exists []; constructor|]. destruct (Hq' q) as (x & D); [left; auto|]. destruct IH as (xs & F); [intros; apply Hq'; right; auto|]. exists (x :: xs). constructor; auto.
Qed.
(** The inputs are known and the output is open: its size becomes the sum of the volumes. *)
Theorem C45_flat_forward : forall s qs qo xs, csess s -> (forall q, In q qs -> q < nrep s) -> qo < nrep s -> Forall2 (determined s) qs xs -> (forall n, exists rho sh d, allows s rho sh /\ sh qo = [d] /\ d <> n) ->
  match concat_flat qs qo s with
  | (s', Ok r) => r = true /\ determined s' qo [total (map volume xs)]
  | (_, Err e) => e = ValueError /\ forall rho sh, allows s rho sh -> sh qo <> [total (map volume xs)]
  end.
Proof.
  intros s qs qo xs S Hq Ho F Op. assert (I := csess_inv s S). assert (M := concat_flat_ok s qs qo I Hq Ho). assert (Em : forall rho sh, allows s rho sh -> map sh qs = xs) by (intros rho sh A; clear - F A; induction F as [|q x qs xs D _ IH]; cbn; f_equal; auto; apply (D rho sh A)).
  destruct (concat_flat qs qo s) as [s' [r|e]].
  - destruct M as (M1 & M2 & M3 & M4 & _). specialize (M4 xs F Op). split; [|auto]. apply M3. split; [|eauto]. exists xs. eapply Forall2_weaken; [|exact F]. intros. eapply determined_sound; eauto.
  - destruct M as [[-> M]|(_ & _ & (n & M) & _)]; [|exfalso; destruct (Op n) as (rho & sh & d & A & Ed & Nd); apply Nd; apply (M rho sh d A Ed)]. split; [auto|]. intros rho sh A E. apply (M rho sh A). unfold joins_flat. rewrite (Em rho sh A). auto.
Qed.

(** The output and all inputs but one dimension are known: it is found, if there is one. *)
Theorem C45_flat_backward : forall s q1 q q2 qo n xs1 xs2 a b m, csess s -> (forall x, In x (q1 ++ q :: q2) -> x < nrep s) -> qo < nrep s -> determined s qo [n] -> Forall2 (determined s) q1 xs1 -> Forall2 (determined s) q2 xs2 ->
  (forall rho sh, allows s rho sh -> exists d, sh q = a ++ d :: b) -> (forall x, ~ determined s q x) -> ~ In 0%Z (a ++ b) -> joins_flat (xs1 ++ (a ++ m :: b) :: xs2) [n] ->
  match concat_flat (q1 ++ q :: q2) qo s with
  | (s', Ok r) => r = true /\ determined s' q (a ++ m :: b)
  | (_, Err e) => forall rho sh, allows s rho sh -> sh q <> a ++ m :: b
  end.
Proof.
  intros s q1 q q2 qo n xs1 xs2 a b m S Hq Ho D F1 F2 Sh Nd Nz Jm. assert (I := csess_inv s S). assert (M := concat_flat_ok s (q1 ++ q :: q2) qo I Hq Ho).
  assert (Vab : volume (a ++ b) <> 0%Z) by (intros Z0; apply Nz, volume_zero; auto).
  assert (Em : ((n - total (map volume (xs1 ++ xs2))) / volume (a ++ b) = m)%Z). { unfold joins_flat in Jm. injection Jm as ->. rewrite !map_app, !total_app. cbn [map]. change (total (volume (a ++ m :: b) :: map volume xs2)) with (volume (a ++ m :: b) + total (map volume xs2))%Z. rewrite volume_app. change (volume (m :: b)) with (m * volume b)%Z.
    rewrite volume_app in *. replace (total (map volume xs1) + (volume a * (m * volume b) + total (map volume xs2)) - (total (map volume xs1) + total (map volume xs2)))%Z with (m * (volume a * volume b))%Z by ring. apply Z.div_mul. auto. }
  destruct (concat_flat (q1 ++ q :: q2) qo s) as [s' [r|e]].
  - destruct M as (M1 & M2 & M3 & _ & M5). specialize (M5 n q1 q q2 xs1 xs2 a b eq_refl D F1 F2 Sh Nd). rewrite Em in M5. split; [|auto]. apply M3. split; [|exists [n]; eapply determined_sound; eauto]. exists (xs1 ++ (a ++ m :: b) :: xs2). apply Forall2_app; [eapply Forall2_weaken; [|exact F1]; intros; eapply determined_sound; eauto|]. constructor; [auto|]. eapply Forall2_weaken; [|exact F2]. intros. eapply determined_sound; eauto.
  - assert (Mp : forall l xs, Forall2 (determined s) l xs -> forall rho sh, allows s rho sh -> map sh l = xs) by (intros l xs F rho sh A; clear - F A; induction F as [|y x l xs Dx _ IH]; cbn; f_equal; auto; apply (Dx rho sh A)).
    intros rho sh A E. destruct M as [[-> M]|(_ & _ & _ & M)].
    + apply (M rho sh A). rewrite map_app. cbn [map]. rewrite (Mp q1 xs1 F1 rho sh A), (Mp q2 xs2 F2 rho sh A), E, (D rho sh A). auto.
    + apply Vab. eapply M; eauto.
Qed.

(** ** Cases *)
Definition c45_state := state [ODim (Some 2%Z); ODim (Some 3%Z); ODim (Some 5%Z); ODim None; ODim None; ODim None; ODim (Some 6%Z); ODim (Some 0%Z); ODim None; ODim None; OVar; OVar; OVar; OVar; OVar;
  ORepr (mkshape [0; 1] None []); ORepr (mkshape [2; 1] None []); ORepr (mkshape [3; 1] None []); ORepr (mkshape [6; 1] None []); ORepr (mkshape [] (Some 0) []);
  ORepr (mkshape [] (Some 1) [1]); ORepr (mkshape [0] (Some 2) []); ORepr (mkshape [2] (Some 3) []);
  ORepr (mkshape [6] None []); ORepr (mkshape [0; 5] None []); ORepr (mkshape [1] None []); ORepr (mkshape [7; 8] None []); ORepr (mkshape [7] None []); ORepr (mkshape [9] None []); ORepr (mkshape [] (Some 4) [])].
Lemma c45_sess : csess c45_state.
Proof. apply reach_runs, state_reach. Qed.
Lemma c45_det q x : q < 15 -> root (rp c45_state q) = None -> values c45_state (pre (rp c45_state q)) = map Some x -> determined c45_state q x.
Proof. intros L R V. apply determined_values; [apply csess_inv, c45_sess|vm_compute in L |- *; lia|auto]. Qed.
Lemma c45_live u : u < 10 -> live (us c45_state) u.
Proof. intros L. do 10 (destruct u as [|u]; [vm_compute; auto 15|]). lia. Qed.
(** (2, 3), (5, 3) and an unknown shape: the output of unknown shape becomes (?, 3). *)
Example C45_sound_example : csess c45_state /\ (forall q, In q [0; 4; 14] -> q < nrep c45_state) /\ (exists n, forall rho sh, allows c45_state rho sh -> length (sh 0) = n) /\
  snd (concat_axis [0; 4] 14 0 c45_state) = Ok false /\ shape_now (fst (concat_axis [0; 4] 14 0 c45_state)) 14 = ([None; Some 3%Z], None, []) /\ joins 0 [[2; 3]; [7; 3]]%Z [9; 3]%Z /\
  snd (concat_axis [0; 8] 14 0 c45_state) = Err ValueError /\ snd (concat_axis [0; 1] 14 2 c45_state) = Err ValueError.
Proof.
  split; [apply c45_sess|]. split; [vm_compute; lia|]. split. { exists 2. intros rho sh A. rewrite (c45_det 0 [2; 3]%Z ltac:(lia) ltac:(vm_compute; auto) ltac:(vm_compute; auto) rho sh A). auto. }
  do 2 (split; [vm_compute; auto|]). split; [|vm_compute; auto]. exists [], [3%Z], [2; 7]%Z. split; [split; [left; auto|auto]|auto].
Qed.
(** (2, 3), (?, 3) joined to (5, 3) *)
Example C45_exact_example : (forall x, In x [0; 2; 1] -> x < nrep c45_state) /\ [0; 2] ++ [1] = [0] ++ 2 :: [1] /\ (exists n, forall rho sh, allows c45_state rho sh -> length (sh 0) = n) /\
  (forall x, In x ([0] ++ [1]) -> exists n, forall rho sh d, allows c45_state rho sh -> same_off 0 ([0; 2] ++ [1]) sh -> axis_size 0 (sh x) d -> d = n) /\
  (forall n, exists rho sh d, allows c45_state rho sh /\ same_off 0 ([0; 2] ++ [1]) sh /\ axis_size 0 (sh 2) d /\ d <> n) /\
  snd (concat_axis [0; 2] 1 0 c45_state) = Ok true /\ shape_now (fst (concat_axis [0; 2] 1 0 c45_state)) 2 = ([Some 3%Z; Some 3%Z], None, []) /\
  snd (concat_axis [0; 1] 4 (-2) c45_state) = Ok true /\ shape_now (fst (concat_axis [0; 1] 4 (-2) c45_state)) 4 = ([Some 7%Z; Some 3%Z], None, []).
Proof.
  assert (I := csess_inv _ c45_sess). assert (D0 := c45_det 0 [2; 3]%Z ltac:(lia) ltac:(vm_compute; auto) ltac:(vm_compute; auto)). assert (D1 := c45_det 1 [5; 3]%Z ltac:(lia) ltac:(vm_compute; auto) ltac:(vm_compute; auto)).
  split; [vm_compute; lia|]. split; [auto|]. split; [exists 2; intros rho sh A; rewrite (D0 rho sh A); auto|]. split; [|split; [|vm_compute; auto 10]].
  - intros x [<-|[<-|[]]]; [exists 2%Z|exists 5%Z]; intros rho sh d A _ (f & b & Ax & E); rewrite ?(D0 rho sh A), ?(D1 rho sh A) in E; (destruct f as [|y f]; [cbn in E; injection E as <- _; auto|unfold at_axis in Ax; cbn [length] in Ax; lia]).
  - intros n. destruct (sat_with (us c45_state) 3 (n + 1)%Z (s_inv _ I) (c45_live 3 ltac:(lia))) as (rho & Hs & E); [vm_compute; auto|]. assert (A := allows_self c45_state rho (fun _ => []) Hs). exists rho, (den c45_state rho (fun _ => [])), (n + 1)%Z. split; [auto|].
    assert (R1 : rho 1 = 3%Z) by (eapply value_sat; [apply I|apply c45_live; lia|vm_compute; reflexivity|auto]). assert (S2 : den c45_state rho (fun _ => []) 2 = [] ++ (n + 1)%Z :: [3%Z]) by (change (den c45_state rho (fun _ => []) 2) with [rho 3; rho 1]; rewrite E, R1; auto).
    split; [|split; [exists [], [3%Z]; split; [left; auto|auto]|lia]]. exists [], [3%Z]. split; [left; auto|]. intros q [<-|[<-|[<-|[]]]]; [exists 2%Z; apply (D0 _ _ A)|eauto|exists 5%Z; apply (D1 _ _ A)].
Qed.
Example C45_flat_example : (forall q, In q [0; 8] -> q < nrep c45_state) /\ snd (concat_flat [0; 8] 14 c45_state) = Ok true /\ shape_now (fst (concat_flat [0; 8] 14 c45_state)) 14 = ([Some 12%Z], None, []) /\ joins_flat [[2; 3]; [6]]%Z [12]%Z /\
  snd (concat_flat [0; 8] 14 c45_state) = Ok true /\ snd (concat_flat [2; 9] 8 c45_state) = Ok false /\ snd (concat_flat [0] 1 c45_state) = Err ValueError.
Proof. split; [vm_compute; lia|]. do 2 (split; [vm_compute; auto|]). split; [vm_compute; auto|]. vm_compute. auto. Qed.
Example C45_flat_forward_example : Forall2 (determined c45_state) [0; 8] [[2; 3]; [6]]%Z /\ (forall n, exists rho sh d, allows c45_state rho sh /\ sh 14 = [d] /\ d <> n) /\ total (map volume [[2; 3]; [6]]%Z) = 12%Z.
Proof.
  split; [constructor; [apply c45_det; [lia|vm_compute; auto|vm_compute; auto]|]; constructor; [apply c45_det; [lia|vm_compute; auto|vm_compute; auto]|constructor]|]. split; [|vm_compute; auto].
  intros n. assert (I := csess_inv _ c45_sess). destruct (sat_exists (us c45_state) (s_inv _ I)) as (rho & Hs). exists rho, (den c45_state rho (fun _ => [n + 1]%Z)), (n + 1)%Z. split; [apply allows_self; auto|]. split; [reflexivity|lia].
Qed.
Example C45_flat_backward_example : determined c45_state 1 [5; 3]%Z /\ determined c45_state 8 [6]%Z /\ determined c45_state 10 [3]%Z /\ (forall rho sh, allows c45_state rho sh -> exists d, sh 2 = [] ++ d :: [3%Z]) /\ (forall x, ~ determined c45_state 2 x) /\
  joins_flat ([[3]] ++ ([] ++ 1 :: [3]) :: [])%Z [6]%Z /\ snd (concat_flat [10; 2] 8 c45_state) = Ok true /\ shape_now (fst (concat_flat [10; 2] 8 c45_state)) 2 = ([Some 1%Z; Some 3%Z], None, []).
Proof.
  do 3 (split; [apply c45_det; [lia|vm_compute; auto|vm_compute; auto]|]). assert (I := csess_inv _ c45_sess). assert (Hq : 2 < nrep c45_state) by (vm_compute; lia). assert (R : root (rp c45_state 2) = None) by (vm_compute; auto).
  split; [|split; [|vm_compute; auto]].
  - intros rho sh A. rewrite (plain_sh _ _ rho sh I Hq R A). change (pre (rp c45_state 2)) with [3; 1]. cbn [map app]. exists (rho 3). do 2 f_equal. eapply value_sat; [apply I|apply c45_live; lia|vm_compute; reflexivity|apply A].
  - intros x D. apply determined_values in D as [_ D]; [|auto|auto]. vm_compute in D. destruct x as [|? [|? ?]]; discriminate.
Qed.

(** ** Findings *)
(** If all sizes at the axis are known, the sum is not compared: (2, 3) and (2, 3) join to (5, 3). *)
Theorem C45_unchecked_refuted : exists s, csess s /\ determined s 0 [2; 3]%Z /\ determined s 1 [5; 3]%Z /\ snd (concat_axis [0; 0] 1 0 s) = Ok true /\ ~ joins 0 [[2; 3]; [2; 3]]%Z [5; 3]%Z /\
  determined s 8 [6]%Z /\ snd (concat_flat [0; 0] 8 s) = Ok true /\ ~ joins_flat [[2; 3]; [2; 3]]%Z [6]%Z.
Proof.
  exists c45_state. split; [apply c45_sess|]. do 2 (split; [apply c45_det; [lia|vm_compute; auto|vm_compute; auto]|]). split; [vm_compute; auto|]. split; [|split; [apply c45_det; [lia|vm_compute; auto|vm_compute; auto]|split; [vm_compute; auto|discriminate]]].
  intros (f & b & ds & [Ax E] & Ey). destruct f as [|y f]; [|unfold at_axis in Ax; cbn [length] in Ax; lia]. cbn in Ey. injection Ey as E5 <-. destruct ds as [|d1 [|d2 [|d3 ds]]]; try discriminate. cbn in E. injection E as <- <-. discriminate.
Qed.
(** The missing input may get a negative size. *)
Theorem C45_negative_refuted : exists s s', csess s /\ concat_axis [3; 2] 1 0 s = (s', Ok true) /\ shape_now s' 3 = ([Some 6%Z; Some 3%Z], None, []) /\ shape_now s' 1 = ([Some 5%Z; Some 3%Z], None, []) /\ shape_now s' 2 = ([Some (-1)%Z; Some 3%Z], None, []).
Proof. exists c45_state. eexists. split; [apply c45_sess|]. do 3 (split; [vm_compute; reflexivity|]). vm_compute. reflexivity. Qed.
(** (..., 3), (2, ...) and an output (5, ...) can be joined along the first axis, but the rule fails with the ValueError of a list search. *)
Theorem C45_crossing_refuted : exists s rho sh, csess s /\ allows s rho sh /\ joins 0 (map sh [5; 6]) (sh 7) /\ snd (concat_axis [5; 6] 7 0 s) = Err ValueError.
Proof.
  assert (I := csess_inv _ c45_sess). destruct (sat_exists (us c45_state) (s_inv _ I)) as (rho & Hs). exists c45_state, rho, (den c45_state rho (fun _ => [3]%Z)). split; [apply c45_sess|]. split; [apply allows_self; auto|]. split; [|vm_compute; auto].
  assert (R1 : rho 1 = 3%Z) by (eapply value_sat; [apply I|apply c45_live; lia|vm_compute; reflexivity|auto]). assert (R0 : rho 0 = 2%Z) by (eapply value_sat; [apply I|apply c45_live; lia|vm_compute; reflexivity|auto]). assert (R2 : rho 2 = 5%Z) by (eapply value_sat; [apply I|apply c45_live; lia|vm_compute; reflexivity|auto]).
  change (joins 0 [[3%Z; rho 1]; [rho 0; 3%Z]] [rho 2; 3%Z]). rewrite R0, R1, R2. exists [], [3%Z], [3; 2]%Z. split; [split; [left; auto|auto]|auto].
Qed.
(** A size that occurs twice is neither found nor refused: (?, 3) joined with itself to (5, 3). *)
Theorem C45_tied_refuted : exists s, csess s /\ snd (concat_axis [2; 2] 1 0 s) = Ok false /\ forall rho sh, allows s rho sh -> ~ joins 0 (map sh [2; 2]) (sh 1).
Proof.
  exists c45_state. split; [apply c45_sess|]. split; [vm_compute; auto|]. intros rho sh A (f & b & ds & [Ax E] & Ey). rewrite (c45_det 1 [5; 3]%Z ltac:(lia) ltac:(vm_compute; auto) ltac:(vm_compute; auto) rho sh A) in Ey. destruct f as [|y f]; [|unfold at_axis in Ax; cbn [length] in Ax; lia]. cbn in Ey. injection Ey as E5 <-.
  destruct ds as [|d1 [|d2 [|d3 ds]]]; try discriminate. cbn [map app] in E. injection E as E1 E2. rewrite E1 in E2. injection E2 as ->. cbn in E5. lia.
Qed.
(** Without axis: the missing dimension is found by integer division without a check, and an empty input is a ZeroDivisionError. *)
Theorem C45_floor_refuted : exists s s', csess s /\ concat_flat [10; 9] 8 s = (s', Ok true) /\ shape_now s' 10 = ([Some 3%Z], None, []) /\ shape_now s' 9 = ([Some 2%Z; Some 1%Z], None, []) /\ shape_now s' 8 = ([Some 6%Z], None, []) /\ ~ joins_flat [[3]; [2; 1]]%Z [6]%Z.
Proof. exists c45_state. eexists. split; [apply c45_sess|]. do 4 (split; [vm_compute; reflexivity|]). discriminate. Qed.
Theorem C45_empty_refuted : exists s rho sh, csess s /\ allows s rho sh /\ joins_flat (map sh [11; 8]) (sh 8) /\ snd (concat_flat [11; 8] 8 s) = Err ZeroDivisionError.
Proof.
  assert (I := csess_inv _ c45_sess). destruct (sat_exists (us c45_state) (s_inv _ I)) as (rho & Hs). exists c45_state, rho, (den c45_state rho (fun _ => [])). split; [apply c45_sess|]. split; [apply allows_self; auto|]. split; [|vm_compute; auto].
  assert (R7 : rho 7 = 0%Z) by (eapply value_sat; [apply I|apply c45_live; lia|vm_compute; reflexivity|auto]). assert (R6 : rho 6 = 6%Z) by (eapply value_sat; [apply I|apply c45_live; lia|vm_compute; reflexivity|auto]). change (joins_flat [[rho 7; rho 8]; [rho 6]] [rho 6]). rewrite R7, R6. reflexivity.
Qed.
Print Assumptions C45_sound.
Print Assumptions C45_exact.
Print Assumptions C45_flat.
Print Assumptions C45_flat_forward.
Print Assumptions C45_flat_backward.
Print Assumptions C45_unchecked_refuted.
Print Assumptions C45_negative_refuted.
Print Assumptions C45_crossing_refuted.
Print Assumptions C45_tied_refuted.
Print Assumptions C45_floor_refuted.
Print Assumptions C45_empty_refuted.
