(** * C25: shape inference for reductions *)
From Coq Require Import List Arith Lia Bool ZArith.
From Verif Require Import PyBase Uniadic_Model Uniadic_Proofs Bcast_Proofs Shape_Model Shape_Proofs Shape_Proofs2 Shape_Proofs3 Shape_Props
  Reduce_Model Reduce_Spec Reduce_Proofs Reduce_Proofs2 Reduce_Proofs6.
Import ListNotations.
Open Scope list_scope. Open Scope nat_scope. Open Scope shm_scope.

(** ** Sessions: creations, unifications and successful runs of the rule, in any order *)
Inductive sess : shst -> Prop :=
| sess_0 : sess no_shapes
| sess_step s op s' : sess s -> valid s op -> exec op s = (s', Ok tt) -> sess s'
| sess_reduce s qi qo axis kd s' b : sess s -> qi < nrep s -> qo < nrep s -> fine (rp s qi) (rp s qo) axis kd -> reduce qi qo axis kd s = (s', Ok b) -> sess s'.
Lemma sess_inv s : sess s -> sinv s.
Proof.
  induction 1 as [|s op s' _ I V E|s qi qo axis kd s' b _ I Hi Ho F E]; [apply sinv_nil|eapply exec_inv; eauto|].
  assert (M := reduce_ok s qi qo axis kd I Hi Ho F). rewrite E in M. apply M.
Qed.
Lemma reach_sess s : reach s -> sess s.
Proof. induction 1; [constructor|eapply sess_step; eauto]. Qed.
Lemma allows_den s rho sh : allows s rho sh -> exists tau, sat (us s) rho /\ forall q, q < nrep s -> den s rho tau q = sh q.
Proof. intros [Hs (tau & H)]. exists tau. split; [auto|]. intros q Hq. apply H; auto. Qed.
Lemma den_allows s rho tau sh : sat (us s) rho -> (forall q, q < nrep s -> den s rho tau q = sh q) -> allows s rho sh.
Proof. intros Hs H. split; [auto|]. exists tau. intros q Hq _. apply H; auto. Qed.
Lemma gives_allows qi qo s' E : gives qi qo s' E -> qi < nrep s' -> qo < nrep s' -> forall rho sh, allows s' rho sh -> E (sh qi) (sh qo).
Proof. intros G Hi Ho rho sh H. apply allows_den in H as (tau & Hs & D). rewrite <- !D by auto. auto. Qed.

(** A representation of which every shape has the same length has no variadic. *)
Lemma fixed_rank s q n : sinv s -> q < nrep s -> (forall rho tau, sat (us s) rho -> length (den s rho tau q) = n) -> root (rp s q) = None.
Proof.
  intros I Hq H. destruct (sat_exists (us s) (s_inv _ I)) as (rho & Hs). assert (H0 := H rho (fun _ => []) Hs). assert (H1 := H rho (fun _ => [0%Z]) Hs). rewrite den_length in H0, H1.
  destruct (root (rp s q)); [cbn in H0, H1; lia|auto].
Qed.
Lemma plain_stays s s' q : sinv s -> sinv s' -> q < nrep s -> nrep s' = nrep s -> root (rp s q) = None ->
  (forall rho tau', sat (us s') rho -> exists tau, sat (us s) rho /\ forall q, q < nrep s -> den s rho tau q = den s' rho tau' q) -> root (rp s' q) = None.
Proof.
  intros I I' Hq N R B. apply (fixed_rank s' q (shlen (rp s q))); [auto|lia|]. intros rho tau Hs. destruct (B rho tau Hs) as (t & _ & D). rewrite <- D, den_length, R by auto. cbn. lia.
Qed.
Lemma status qi qo axis kd s s' b l : axes_of axis = Some l -> reduce qi qo axis kd s = (s', Ok b) -> b = eqb (root (rp s' qi)) (root (rp s' qo)).
Proof.
  intros Ea E. unfold reduce in E. destruct (reduce_sanity _ _ _ _); [|discriminate]. rewrite Ea in E. unfold hbind at 1 in E. destruct (match root (rp s qi) with Some _ => _ | None => _ end) as [s1 [[]|e]]; [|discriminate].
  unfold hbind at 1 in E. match type of E with (let (_, _) := ?t in _) = _ => destruct t as [s2 [[]|e]] end; [|discriminate]. unfold hgets in E. congruence.
Qed.

(** ** Soundness.  Whatever is known about the arguments: every combination of concrete shapes in which the output is the reduction of the
    input (for some completion of the arguments) stays possible, nothing new becomes possible; a failure means that there is no such
    combination. *)
Theorem C25_sound : forall s qi qo axis kd, sess s -> qi < nrep s -> qo < nrep s -> fine (rp s qi) (rp s qo) axis kd ->
  match reduce qi qo axis kd s with
  | (s', Ok _) => sess s' /\ nrep s' = nrep s /\
      (forall rho sh, allows s rho sh -> reduces_by axis kd (sh qi) (sh qo) -> exists rho', (forall u, live (us s) u -> rho' u = rho u) /\ allows s' rho' sh) /\
      (forall rho sh, allows s' rho sh -> allows s rho sh)
  | (_, Err e) => (e = ValueError \/ e = IndexError) /\ forall rho sh, allows s rho sh -> ~ reduces_by axis kd (sh qi) (sh qo)
  end.
Proof.
  intros s qi qo axis kd S Hi Ho F. assert (M := reduce_ok s qi qo axis kd (sess_inv s S) Hi Ho F). assert (K := sess_reduce s qi qo axis kd). destruct (reduce qi qo axis kd s) as [s' [b|e]].
  - destruct M as ((I & N & L & Fw & Bk) & _). split; [eapply K; eauto|]. split; [auto|]. split.
    + intros rho sh H R. apply allows_den in H as (tau & Hs & D). destruct (Fw rho tau Hs) as (rho' & tau' & Ag & Hs' & D'); [rewrite !D by auto; auto|].
      exists rho'. split; [intros u Hu; apply Ag; auto|]. apply (den_allows s' rho' tau'); auto. intros q Hq. rewrite D' by lia. apply D. lia.
    + intros rho sh H. apply allows_den in H as (tau & Hs & D). destruct (Bk rho tau Hs) as (t & Hs' & D'). apply (den_allows s rho t); auto. intros q Hq. rewrite D' by auto. apply D. lia.
  - split; [apply M|]. intros rho sh H R. apply allows_den in H as (tau & Hs & D). apply (proj2 M rho tau Hs). rewrite !D by auto. auto.
Qed.

(** ** Exactness when the rank of the input is known: afterwards exactly the combinations remain in which the output is the reduction of
    the input; in particular axes that are out of range or repeated are rejected. *)
Theorem C25_forward : forall s qi qo axis axes keep, sess s -> qi < nrep s -> qo < nrep s -> root (rp s qi) = None ->
  axes_of axis = Some (map Some axes) -> (forall a, In a axes -> (- Z.of_nat (length (pre (rp s qi))) <= a)%Z) ->
  match reduce qi qo axis (Some keep) s with
  | (s', Ok b) => b = true /\ axes_ok axes (Z.of_nat (length (pre (rp s qi)))) /\
      forall rho sh, (allows s' rho sh -> allows s rho sh /\ reduces axes keep (sh qi) (sh qo)) /\
                     (allows s rho sh /\ reduces axes keep (sh qi) (sh qo) -> exists rho', (forall u, live (us s) u -> rho' u = rho u) /\ allows s' rho' sh)
  | (_, Err e) => forall rho sh, allows s rho sh -> ~ reduces axes keep (sh qi) (sh qo)
  end.
Proof.
  intros s qi qo axis axes keep S Hi Ho Ri Ea Lo. assert (I := sess_inv s S).
  assert (F : fine (rp s qi) (rp s qo) axis (Some keep)) by (intros H; congruence).
  assert (T := C25_sound s qi qo axis (Some keep) S Hi Ho F). assert (M := reduce_ok s qi qo axis (Some keep) I Hi Ho F). 
  assert (Sf : suf (rp s qi) = []). { destruct (s_repr _ I qi Hi) as (_ & W & _). auto. }
  assert (Zl : zlen (rp s qi) = Z.of_nat (length (pre (rp s qi)))) by (unfold zlen, shlen; rewrite Sf; cbn; lia).
  destruct (reduce qi qo axis (Some keep) s) as [s' [b|e]] eqn:E.
  - destruct T as (_ & N & T1 & T2). destruct M as ((I' & _ & _ & _ & Bk) & M & _). destruct (M axes keep Ea eq_refl) as (G & _). rewrite Zl in G. specialize (G Ri Lo). split; [|split].
    + assert (P := plain_stays s s' qi I I' Hi N Ri Bk). rewrite (status _ _ _ _ _ _ _ _ Ea E), P. rewrite (fixed_rank s' qo (if keep then shlen (rp s' qi) else shlen (rp s' qi) - length axes)); [auto|auto|lia|].
      intros rho tau Hs. assert (R := reduces_length _ _ _ _ (G rho tau Hs)). rewrite (den_length s' rho tau qi), P in R. cbn in R. destruct keep; lia.
    + unfold reduce in E. destruct (reduce_sanity (rp s qi) (rp s qo) axis (Some keep)) as [[]|] eqn:San; [|discriminate]. rewrite sanity_eq in San. destruct (_ && _) in San; [discriminate|].
      rewrite Ea, known_some in San. unfold axes_check in San. rewrite Ri in San. destruct (_ <? _)%Z eqn:C1 in San; [discriminate|]. destruct (repeated _) eqn:C2 in San; [discriminate|].
      rewrite <- Zl in Lo. assert (X := check_false _ _ C1 C2 Lo). rewrite Zl in X. exact X.
    + intros rho sh. split; [|intros [H R]; apply T1; auto; eapply reduces_by_intro; eauto]. intros H. split; [auto|]. eapply gives_allows; eauto; lia.
  - destruct T as [_ T]. intros rho sh H R. apply (T rho sh H). eapply reduces_by_intro; eauto.
Qed.
(** ... and for a shape that is known completely, the shape of the output is determined. *)
Theorem C25_concrete : forall s qi qo axis axes keep s' b x, sess s -> qi < nrep s -> qo < nrep s -> root (rp s qi) = None ->
  (forall rho sh, allows s rho sh -> sh qi = x) -> axes_of axis = Some (map Some axes) -> (forall a, In a axes -> (- Z.of_nat (length (pre (rp s qi))) <= a)%Z) ->
  reduce qi qo axis (Some keep) s = (s', Ok b) -> forall rho sh, allows s' rho sh -> sh qo = without (map (normed (Z.of_nat (length x))) axes) keep 0 x.
Proof.
  intros s qi qo axis axes keep s' b x S Hi Ho Ri Hx Ea Lo E rho sh H. assert (T := C25_forward s qi qo axis axes keep S Hi Ho Ri Ea Lo). rewrite E in T. destruct T as (_ & _ & T).
  destruct (proj1 (T rho sh) H) as [H' [_ R]]. rewrite (Hx rho sh H') in R. exact R.
Qed.

(** ** Exactness when only the rank of the output is known *)
Theorem C25_backward : forall s qi qo axis axes keep, sess s -> qi < nrep s -> qo < nrep s -> root (rp s qi) <> None -> root (rp s qo) = None ->
  axes_of axis = Some (map Some axes) -> fine (rp s qi) (rp s qo) axis (Some keep) ->
  match reduce qi qo axis (Some keep) s with
  | (s', Ok b) => b = true /\ forall rho sh, (allows s' rho sh -> allows s rho sh /\ reduces axes keep (sh qi) (sh qo)) /\
                     (allows s rho sh /\ reduces axes keep (sh qi) (sh qo) -> exists rho', (forall u, live (us s) u -> rho' u = rho u) /\ allows s' rho' sh)
  | (_, Err e) => forall rho sh, allows s rho sh -> ~ reduces axes keep (sh qi) (sh qo)
  end.
Proof.
  intros s qi qo axis axes keep S Hi Ho Ri Ro Ea F. assert (I := sess_inv s S).
  assert (T := C25_sound s qi qo axis (Some keep) S Hi Ho F). assert (M := reduce_ok s qi qo axis (Some keep) I Hi Ho F).
  destruct (reduce qi qo axis (Some keep) s) as [s' [b|e]] eqn:E.
  - destruct T as (_ & N & T1 & T2). destruct M as ((I' & _ & _ & _ & Bk) & M & _). destruct (M axes keep Ea eq_refl) as (_ & G & _). specialize (G Ri Ro). split.
    { assert (P := plain_stays s s' qo I I' Ho N Ro Bk). rewrite (status _ _ _ _ _ _ _ _ Ea E), P. rewrite (fixed_rank s' qi (if keep then shlen (rp s' qo) else shlen (rp s' qo) + length axes)); [auto|auto|lia|].
      intros rho tau Hs. assert (R := reduces_length _ _ _ _ (G rho tau Hs)). rewrite (den_length s' rho tau qo), P in R. cbn in R. destruct keep; lia. }
    intros rho sh. split; [|intros [H R]; apply T1; auto; eapply reduces_by_intro; eauto]. intros H. split; [auto|]. eapply gives_allows; eauto; lia.
  - destruct T as [_ T]. intros rho sh H R. apply (T rho sh H). eapply reduces_by_intro; eauto.
Qed.

(** ** Neither rank known: when the rule reports that it is done, the reduction is guaranteed. *)
Theorem C25_done : forall s qi qo axis axes keep s', sess s -> qi < nrep s -> qo < nrep s -> root (rp s qi) <> None -> root (rp s qo) <> None -> root (rp s qi) <> root (rp s qo) ->
  axes_of axis = Some (map Some axes) -> reduce qi qo axis (Some keep) s = (s', Ok true) ->
  forall rho sh, allows s' rho sh -> allows s rho sh /\ reduces axes keep (sh qi) (sh qo).
Proof.
  intros s qi qo axis axes keep s' S Hi Ho Ri Ro Ne Ea E rho sh H.
  assert (F : fine (rp s qi) (rp s qo) axis (Some keep)) by (intros _ Hn; congruence).
  assert (T := C25_sound s qi qo axis (Some keep) S Hi Ho F). assert (M := reduce_ok s qi qo axis (Some keep) (sess_inv s S) Hi Ho F). rewrite E in T, M.
  destruct T as (_ & N & T1 & T2). destruct M as (_ & M & _). destruct (M axes keep Ea eq_refl) as (_ & _ & G). split; [auto|]. eapply gives_allows; eauto; lia.
Qed.

(** ** Reduction over all axes *)
Theorem C25_all : forall s qi qo keep, sess s -> qi < nrep s -> qo < nrep s -> (keep = true -> root (rp s qi) = None) ->
  match reduce qi qo AxNone (Some keep) s with
  | (s', Ok b) => b = true /\ forall rho sh, (allows s' rho sh -> allows s rho sh /\ sh qo = if keep then map (fun _ => 1%Z) (sh qi) else []) /\
      ((allows s rho sh /\ sh qo = if keep then map (fun _ => 1%Z) (sh qi) else []) -> exists rho', (forall u, live (us s) u -> rho' u = rho u) /\ allows s' rho' sh)
  | (_, Err e) => forall rho sh, allows s rho sh -> sh qo <> if keep then map (fun _ => 1%Z) (sh qi) else []
  end.
Proof.
  intros s qi qo keep S Hi Ho Hk. assert (I := sess_inv s S).
  assert (F : fine (rp s qi) (rp s qo) AxNone (Some keep)) by (intros _ _; exact Logic.I).
  assert (T := C25_sound s qi qo AxNone (Some keep) S Hi Ho F). assert (M := reduce_ok s qi qo AxNone (Some keep) I Hi Ho F).
  assert (B : forall s' b, reduce qi qo AxNone (Some keep) s = (s', Ok b) -> nrep s' = nrep s -> sinv s' -> (forall rho tau', sat (us s') rho -> exists tau, sat (us s) rho /\ forall q, q < nrep s -> den s rho tau q = den s' rho tau' q) -> b = true).
  { intros s' b E N I' Bk. unfold reduce in E. destruct (reduce_sanity _ _ _ _); [|discriminate]. cbn [axes_of] in E. destruct keep.
    - assert (P := plain_stays s s' qi I I' Hi N (Hk eq_refl) Bk). revert E. rewrite (Hk eq_refl). unfold hbind, hret, hgets. repeat match goal with |- context [let (_, _) := ?t in _] => match t with (_, _) => fail 1 | _ => destruct t as [? [?|?]]; try discriminate end end.
      intros E. injection E as <- <-. rewrite P. auto.
    - unfold hbind, hret in E. destruct (inner_match _ _ _) as [? [|]]; congruence. }
  destruct (reduce qi qo AxNone (Some keep) s) as [s' [b|e]].
  - destruct T as (_ & N & T1 & T2). destruct M as ((I' & _ & _ & _ & Bk) & _ & M). split; [eapply B; eauto|]. specialize (M keep eq_refl eq_refl Hk).
    intros rho sh. split; [|intros [H R]; apply T1; auto; exists keep; split; [auto|exact R]]. intros H. split; [auto|]. eapply (gives_allows qi qo s' _ M); eauto; lia.
  - destruct T as [_ T]. intros rho sh H R. apply (T rho sh H). exists keep. split; [auto|exact R].
Qed.

(** ** Cases *)
(** A known input [2, 3, a, 5], its output unknown; an unknown input with an output [2, b] of known rank; nothing known. *)
Definition c25_state := state [ODim (Some 2%Z); ODim (Some 3%Z); ODim None; ODim (Some 5%Z); ODim None; OVar; OVar; OVar;
  ORepr (mkshape [0; 1; 2; 3] None []); ORepr (mkshape [] (Some 0) []); ORepr (mkshape [0; 4] None []); ORepr (mkshape [] (Some 1) []); ORepr (mkshape [] (Some 2) [3])].
Lemma c25_sess : sess c25_state.
Proof. apply reach_sess, state_reach. Qed.
Example C25_forward_example : sess c25_state /\ nrep c25_state = 5 /\ root (rp c25_state 0) = None /\ (forall a, In a [1; -1]%Z -> (- Z.of_nat (length (pre (rp c25_state 0))) <= a)%Z) /\
  snd (reduce 0 1 (AxTup [Some 1; Some (-1)]%Z) (Some false) c25_state) = Ok true /\
  shape_now (fst (reduce 0 1 (AxTup [Some 1; Some (-1)]%Z) (Some false) c25_state)) 1 = ([Some 2; None]%Z, None, []) /\
  snd (reduce 0 1 (AxTup [Some 1; Some (-1)]%Z) (Some true) c25_state) = Ok true /\
  shape_now (fst (reduce 0 1 (AxTup [Some 1; Some (-1)]%Z) (Some true) c25_state)) 1 = ([Some 2; Some 1; None; Some 1]%Z, None, []) /\
  snd (reduce 0 1 (AxTup [Some 1; Some (-3)]%Z) (Some true) c25_state) = Err ValueError /\ snd (reduce 0 1 (AxInt 4%Z) (Some true) c25_state) = Err ValueError.
Proof. split; [apply c25_sess|]. split; [reflexivity|]. split; [reflexivity|]. split; [change (length (pre (rp c25_state 0))) with 4; intros a [<-|[<-|[]]]; lia|]. vm_compute. auto 8. Qed.
Example C25_concrete_example : let s := state [ODim (Some 2%Z); ODim (Some 3%Z); OVar; ORepr (mkshape [0; 1] None []); ORepr (mkshape [] (Some 0) [])] in
  sess s /\ (forall rho sh, allows s rho sh -> sh 0 = [2; 3]%Z) /\ snd (reduce 0 1 (AxInt (-2)%Z) (Some false) s) = Ok true /\
  shape_now (fst (reduce 0 1 (AxInt (-2)%Z) (Some false) s)) 1 = ([Some 3%Z], None, []) /\ without (map (normed 2) [(-2)%Z]) false 0 [2; 3]%Z = [3%Z].
Proof.
  split; [apply reach_sess, state_reach|]. split; [|vm_compute; auto]. intros rho sh [[H _] (tau & D)].
  specialize (D 0 ltac:(vm_compute; lia) Logic.I). vm_compute in D. rewrite <- D.
  assert (H0 := H 0 ltac:(apply live_b_live; reflexivity)). assert (H1 := H 1 ltac:(apply live_b_live; reflexivity)). vm_compute in H0, H1. destruct H0 as [<-|[]], H1 as [<-|[]]. reflexivity.
Qed.
Example C25_backward_example : sess c25_state /\ root (rp c25_state 3) <> None /\ root (rp c25_state 2) = None /\ fine (rp c25_state 3) (rp c25_state 2) (AxTup [Some 1; Some (-1)]%Z) (Some false) /\
  snd (reduce 3 2 (AxTup [Some 1; Some (-1)]%Z) (Some false) c25_state) = Ok true /\
  shape_now (fst (reduce 3 2 (AxTup [Some 1; Some (-1)]%Z) (Some false) c25_state)) 3 = ([Some 2; None; None; None]%Z, None, []) /\
  fine (rp c25_state 3) (rp c25_state 2) (AxInt 1%Z) (Some true) /\ snd (reduce 3 2 (AxInt 1%Z) (Some true) c25_state) = Ok true /\
  shape_now (fst (reduce 3 2 (AxInt 1%Z) (Some true) c25_state)) 2 = ([Some 2; Some 1]%Z, None, []).
Proof.
  split; [apply c25_sess|]. split; [vm_compute; discriminate|]. split; [reflexivity|]. split; [intros _ _; exists [1; -1]%Z; split; [auto|]; change (length (pre (rp c25_state 2))) with 2; intros a [<-|[<-|[]]]; cbn; lia|].
  split; [vm_compute; auto|]. split; [vm_compute; auto|]. split; [intros _ _; exists [1]%Z; split; [auto|]; intros a [<-|[]]; lia|]. vm_compute. auto.
Qed.
(** With both ranks unknown: [V1] over axis -1 against [V2, 5] *)
Example C25_done_example : sess c25_state /\ root (rp c25_state 3) <> None /\ root (rp c25_state 4) <> None /\ root (rp c25_state 3) <> root (rp c25_state 4) /\
  snd (reduce 3 4 (AxInt (-1)%Z) (Some false) c25_state) = Ok true /\
  shape_now (fst (reduce 3 4 (AxInt (-1)%Z) (Some false) c25_state)) 3 = ([], Some 2, [Some 5; None]%Z) /\ shape_now (fst (reduce 3 4 (AxInt (-1)%Z) (Some false) c25_state)) 4 = ([], Some 2, [Some 5]%Z).
Proof. split; [apply c25_sess|]. split; [vm_compute; discriminate|]. split; [vm_compute; discriminate|]. split; [vm_compute; discriminate|]. vm_compute. auto. Qed.
Example C25_all_example : sess c25_state /\ snd (reduce 0 1 AxNone (Some true) c25_state) = Ok true /\ shape_now (fst (reduce 0 1 AxNone (Some true) c25_state)) 1 = ([Some 1; Some 1; Some 1; Some 1]%Z, None, []) /\
  snd (reduce 3 1 AxNone (Some false) c25_state) = Ok true /\ shape_now (fst (reduce 3 1 AxNone (Some false) c25_state)) 1 = ([], None, []).
Proof. split; [apply c25_sess|]. vm_compute. auto. Qed.

(** ** Findings.  Axis 0 with only the output known: the new dimension of the input is put at the end. *)
Theorem C25_backward_axis_zero_refuted : exists s s' b rho sh, sess s /\ reduce 0 1 (AxInt 0%Z) (Some false) s = (s', Ok b) /\ allows s rho sh /\ reduces [0%Z] false (sh 0) (sh 1) /\
  shape_now s' 0 = ([Some 2; Some 3; None]%Z, None, []) /\ ~ exists rho', allows s' rho' sh.
Proof.
  exists (state [ODim (Some 2%Z); ODim (Some 3%Z); OVar; ORepr (mkshape [] (Some 0) []); ORepr (mkshape [0; 1] None [])]). eexists. exists true, (fun u => if u =? 0 then 2%Z else 3%Z), (fun q => if q =? 0 then [7; 2; 3]%Z else [2; 3]%Z).
  split; [apply reach_sess, state_reach|]. split; [vm_compute; reflexivity|]. split; [|split; [|split; [vm_compute; reflexivity|]]].
  - split; [split|].
    + intros u (L & _). match type of L with _ < ?n => let k := eval vm_compute in n in change (u < k) in L end. destruct u as [|[|u]]; [vm_compute; auto|vm_compute; auto|lia].
    + intros u v (Lu & _) (Lv & _) E. match type of Lu with _ < ?n => let k := eval vm_compute in n in change (u < k) in Lu end. match type of Lv with _ < ?n => let k := eval vm_compute in n in change (v < k) in Lv end. destruct u as [|[|u]], v as [|[|v]]; try lia; auto; vm_compute in E; discriminate.
    + exists (fun v => [7; 2; 3]%Z). intros q Hq _. match type of Hq with _ < ?n => let k := eval vm_compute in n in change (q < k) in Hq end. destruct q as [|[|q]]; [reflexivity|reflexivity|lia].
  - split; [split|reflexivity]; [intros a [<-|[]]; cbn; lia|repeat constructor; auto].
  - intros (rho' & [H _] & tau & D). specialize (D 0 ltac:(vm_compute; lia) Logic.I). vm_compute in D. assert (E := f_equal (@hd Z 0%Z) D). cbn in E.
    assert (H0 := H 0 ltac:(apply live_b_live; reflexivity)). vm_compute in H0. destruct H0 as [H0|[]]. congruence.
Qed.
(** A negative axis below minus the rank passes the check, and nothing is reduced. *)
Theorem C25_negative_axis_accepted_refuted : exists s s', sess s /\ shape_now s 0 = ([Some 2; Some 3]%Z, None, []) /\ reduce 0 1 (AxInt (-3)%Z) (Some false) s = (s', Ok true) /\
  shape_now s' 1 = ([Some 2; Some 3]%Z, None, []) /\ ~ axes_ok [(-3)%Z] 2.
Proof.
  exists (state [ODim (Some 2%Z); ODim (Some 3%Z); OVar; ORepr (mkshape [0; 1] None []); ORepr (mkshape [] (Some 0) [])]). eexists.
  split; [apply reach_sess, state_reach|]. split; [reflexivity|]. split; [vm_compute; reflexivity|]. split; [vm_compute; reflexivity|]. intros [H _]. specialize (H (-3)%Z (or_introl eq_refl)). cbn in H. lia.
Qed.
(** Valid arguments that are rejected when only the rank of the output is known: an axis still to be determined is not counted; with
    keepdim the number of axes is added to the rank *)
Theorem C25_unknown_axis_rejected_refuted : exists s rho sh, sess s /\ allows s rho sh /\ reduces_by (AxTup [None; Some 3%Z]) (Some false) (sh 0) (sh 1) /\
  snd (reduce 0 1 (AxTup [None; Some 3%Z]) (Some false) s) = Err ValueError.
Proof.
  exists (state [ODim (Some 2%Z); ODim (Some 2%Z); OVar; ORepr (mkshape [] (Some 0) []); ORepr (mkshape [0; 1] None [])]), (fun _ => 2%Z), (fun q => if q =? 0 then [2; 2; 2; 2]%Z else [2; 2]%Z).
  split; [apply reach_sess, state_reach|]. split; [|split; [|vm_compute; reflexivity]].
  - split; [split|].
    + intros u (L & _). match type of L with _ < ?n => let k := eval vm_compute in n in change (u < k) in L end. destruct u as [|[|u]]; [vm_compute; auto|vm_compute; auto|lia].
    + auto.
    + exists (fun v => [2; 2; 2; 2]%Z). intros q Hq _. match type of Hq with _ < ?n => let k := eval vm_compute in n in change (q < k) in Hq end. destruct q as [|[|q]]; [reflexivity|reflexivity|lia].
  - exists false. split; [auto|]. exists [0; 3]%Z. split; [repeat constructor|]. split; [split|reflexivity]; [intros a [<-|[<-|[]]]; cbn; lia|]. repeat constructor; cbn; intuition lia.
Qed.
Theorem C25_keepdim_rank_rejected_refuted : exists s rho sh, sess s /\ allows s rho sh /\ reduces [2; -5]%Z true (sh 0) (sh 1) /\
  snd (reduce 0 1 (AxTup [Some 2; Some (-5)]%Z) (Some true) s) = Err ValueError.
Proof.
  exists (state [ODim (Some 1%Z); OVar; ORepr (mkshape [] (Some 0) []); ORepr (mkshape [0; 0; 0; 0; 0] None [])]), (fun _ => 1%Z), (fun q => [1; 1; 1; 1; 1]%Z).
  split; [apply reach_sess, state_reach|]. split; [|split; [|vm_compute; reflexivity]].
  - split; [split|].
    + intros u (L & _). match type of L with _ < ?n => let k := eval vm_compute in n in change (u < k) in L end. destruct u as [|u]; [vm_compute; auto|lia].
    + auto.
    + exists (fun v => [1; 1; 1; 1; 1]%Z). intros q Hq _. match type of Hq with _ < ?n => let k := eval vm_compute in n in change (q < k) in Hq end. destruct q as [|[|q]]; [reflexivity|reflexivity|lia].
  - split; [split|reflexivity]; [intros a [<-|[<-|[]]]; cbn; lia|]. repeat constructor; cbn; intuition lia.
Qed.
(** An axis out of range of an output with keepdim is not reported as such. *)
Theorem C25_index_error_refuted : exists s, sess s /\ snd (reduce 0 1 (AxInt 2%Z) (Some true) s) = Err IndexError.
Proof. exists (state [ODim (Some 1%Z); OVar; ORepr (mkshape [] (Some 0) []); ORepr (mkshape [0; 0] None [])]). split; [apply reach_sess, state_reach|]. vm_compute. reflexivity. Qed.
(** With keepdim to be determined and both ranks known the rule reports that it is done although it has not looked at the shapes. *)
Theorem C25_done_too_early_refuted : exists s s' rho sh, sess s /\ reduce 0 1 (AxInt 0%Z) None s = (s', Ok true) /\ allows s' rho sh /\ ~ reduces_by (AxInt 0%Z) None (sh 0) (sh 1).
Proof.
  exists (state [ODim (Some 1%Z); ODim (Some 2%Z); ORepr (mkshape [0; 0] None []); ORepr (mkshape [1; 1] None [])]). eexists. exists (fun u => if u =? 0 then 1%Z else 2%Z), (fun q => if q =? 0 then [1; 1]%Z else [2; 2]%Z).
  split; [apply reach_sess, state_reach|]. split; [vm_compute; reflexivity|]. split.
  - split; [split|].
    + intros u (L & _). match type of L with _ < ?n => let k := eval vm_compute in n in change (u < k) in L end. destruct u as [|[|u]]; [vm_compute; auto|vm_compute; auto|lia].
    + intros u v (Lu & _) (Lv & _) E. match type of Lu with _ < ?n => let k := eval vm_compute in n in change (u < k) in Lu end. match type of Lv with _ < ?n => let k := eval vm_compute in n in change (v < k) in Lv end. destruct u as [|[|u]], v as [|[|v]]; try lia; auto; vm_compute in E; discriminate.
    + exists (fun v => []). intros q Hq _. match type of Hq with _ < ?n => let k := eval vm_compute in n in change (q < k) in Hq end. destruct q as [|[|q]]; [reflexivity|reflexivity|lia].
  - intros (keep & _ & _ & E). destruct keep; vm_compute in E; discriminate.
Qed.
Print Assumptions C25_sound.
Print Assumptions C25_forward.
Print Assumptions C25_concrete.
Print Assumptions C25_backward.
Print Assumptions C25_done.
Print Assumptions C25_all.
Print Assumptions C25_backward_axis_zero_refuted.
Print Assumptions C25_negative_axis_accepted_refuted.
Print Assumptions C25_unknown_axis_rejected_refuted.
Print Assumptions C25_keepdim_rank_rejected_refuted.
Print Assumptions C25_index_error_refuted.
Print Assumptions C25_done_too_early_refuted.
