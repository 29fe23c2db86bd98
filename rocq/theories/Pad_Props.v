(** * C63: pad, transpose and eye *)
From Coq Require Import List Arith Lia Bool ZArith.
From Verif Require Import PyBase Uniadic_Model Uniadic_Proofs Bcast_Proofs Shape_Model Shape_Proofs Shape_Proofs2 Shape_Proofs3 Shape_Props Reduce_Model
  Rule_Proofs Window_Model Window_Proofs Window_Props Arange_Model Arange_Proofs Arange_Props Reshape_Model Reshape_Proofs Reshape_Props Concat_Model Concat_Proofs Concat_Props
  Flat_Model Flat_Spec Flat_Proofs Flat_Proofs2 Flat_Proofs3 Flat_Props Pad_Model Pad_Spec Pad_Proofs Pad_Proofs2 Pad_Proofs3.
Import ListNotations.
Open Scope list_scope. Open Scope nat_scope. Open Scope shm_scope.

(** ** Sessions with the rules so far and those of C63 *)
Definition has_rank_now (s : shst) (q n : nat) : Prop := forall rho sh, allows s rho sh -> length (sh q) = n.
Inductive prule (s : shst) : shst -> Prop :=
| pr_old s' : flrule s s' -> prule s s'
| pr_pad qi qo ps s' r : qi < nrep s -> qo < nrep s -> pad_rule qi qo (Some ps) s = (s', Ok r) -> prule s s'
| pr_reverse qi qo axes s' b : qi < nrep s -> qo < nrep s -> reverse_rule qi qo axes s = (s', Ok b) -> prule s s'
| pr_eye qo N M s' r : qo < nrep s -> has_rank_now s qo 2 -> eye_rule qo N M s = (s', Ok r) -> prule s s'.
Lemma prule_inv s s' : sinv s -> prule s s' -> sinv s'.
Proof.
  intros I. destruct 1 as [s' W|qi qo ps s' [b r] Hi Ho E|qi qo axes s' b Hi Ho E|qo N M s' [[r N'] M'] Ho Rk E]; [eapply flrule_inv; eauto|..].
  - assert (M := pad_ok s qi qo ps I Hi Ho). rewrite E in M. destruct M as (ps' & _ & M & _). apply M.
  - destruct axes as [| |l]; cbn [reverse_rule] in E.
    + assert (M := reverse_all_ok s qi qo I Hi Ho). rewrite E in M. apply M.
    + unfold hret in E. injection E as <- _. auto.
    + assert (M := axes_ok s qi qo l I Hi Ho). rewrite E in M. apply M.
  - assert (X := eye_ok s qo N M I Ho Rk). rewrite E in X. apply X.
Qed.
Definition psess : shst -> Prop := runs prule.
Lemma psess_inv s : psess s -> sinv s.
Proof. apply runs_inv, prule_inv. Qed.
Lemma unknown_rank s q : sinv s -> q < nrep s -> (~ exists n, has_rank_now s q n) <-> root (rp s q) <> None.
Proof. intros I Hq. rewrite (rank_iff s q I Hq). tauto. Qed.

(** ** pad: for a padding whose parts may be unknown, no possible shapes are lost and none invented; the padding returned is what is known
    about a padding that is not negative; when the rule is finished the padding is known and the shapes fit.  It is finished if a shape and
    the padding are known, and if both shapes and one side of every padding are known.  An error means that no padding was possible. *)
Theorem C63_pad : forall s qi qo ps, psess s -> qi < nrep s -> qo < nrep s ->
  match pad_rule qi qo (Some ps) s with
  | (s', Ok (b, r)) => psess s' /\ exists ps', r = Some ps' /\ narrows (fun sh => exists p, pads_given ps p /\ pads_to p (sh qi) (sh qo)) s s' /\
      (forall p, pads_given ps' p -> pads_given ps p) /\
      (forall rho sh p, allows s' rho sh -> pads_given ps p -> not_negative p -> pads_to p (sh qi) (sh qo) -> pads_given ps' p) /\
      (b = true -> exists p, ps' = pads_exactly p /\ forall rho sh, allows s' rho sh -> pads_to p (sh qi) (sh qo)) /\
      (forall p, ps = pads_exactly p -> (exists x, determined s qi x \/ determined s qo x) -> b = true) /\
      (forall x y, determined s qi x -> determined s qo y -> Forall (fun g => exists a b, g = Some (a, b) /\ (a <> None \/ b <> None)) ps -> b = true)
  | (_, Err e) => e = ValueError /\ forall rho sh p, allows s rho sh -> pads_given ps p -> ~ pads_to p (sh qi) (sh qo)
  end.
Proof.
  intros s qi qo ps S Hi Ho. assert (I := psess_inv s S). assert (M := pad_ok s qi qo ps I Hi Ho). assert (K := fun s' r => pr_pad s qi qo ps s' r Hi Ho). destruct (pad_rule qi qo (Some ps) s) as [s' [[b r]|e]].
  - split; [eapply runs_rule; [exact S|eapply K; reflexivity]|]. destruct M as (ps' & M0 & M1 & M2). exists ps'. split; [auto|]. split; [apply sound_narrows; exact M1|exact M2].
  - destruct M as [-> M]. split; [auto|]. intros rho sh p A G T. apply (M rho sh A). exists p. auto.
Qed.
(** ** transpose without axes: finished once a rank is known; the output is the reversed input then, unless both ranks were known before
    and are different. *)
Theorem C63_transpose : forall s qi qo, psess s -> qi < nrep s -> qo < nrep s ->
  match reverse_rule qi qo AllAxes s with
  | (s', Ok r) => psess s' /\ narrows (fun sh => sh qo = rev (sh qi)) s s' /\ (r = true <-> (exists n, has_rank_now s qi n) \/ (exists n, has_rank_now s qo n)) /\
      (r = true -> forall rho sh, allows s' rho sh -> (~ exists n, has_rank_now s qi n) \/ (~ exists n, has_rank_now s qo n) \/ length (sh qo) = length (sh qi) -> sh qo = rev (sh qi))
  | (_, Err e) => e = ValueError /\ forall rho sh, allows s rho sh -> sh qo <> rev (sh qi)
  end.
Proof.
  intros s qi qo S Hi Ho. assert (I := psess_inv s S). assert (M := reverse_all_ok s qi qo I Hi Ho). assert (K := fun s' b => pr_reverse s qi qo AllAxes s' b Hi Ho). cbn [reverse_rule] in *. destruct (reverse_all qi qo s) as [s' [r|e]]; [|exact M].
  destruct M as (M1 & M2 & M3). split; [eapply runs_rule; [exact S|eapply K; reflexivity]|]. split; [apply sound_narrows; exact M1|]. split; [rewrite M2; unfold has_rank_now; rewrite <- (rank_iff s qi I Hi), <- (rank_iff s qo I Ho); tauto|].
  intros Er rho sh A C. apply (M3 Er rho sh A). rewrite (unknown_rank s qi I Hi), (unknown_rank s qo I Ho) in C. tauto.
Qed.
(** ** transpose with axes, some of which may be unknown: finished if every position is among the axes; then the output is the transposed
    input, if the shapes have as many dimensions as there are axes or an unknown rank, and do not share an unknown part.  An error when
    every position is among the axes means that no shapes were possible. *)
Theorem C63_axes : forall s qi qo gs, psess s -> qi < nrep s -> qo < nrep s ->
  match reverse_rule qi qo (TheseAxes gs) s with
  | (s', Ok r) => psess s' /\ narrows (fun sh => exists axes, axes_given gs axes /\ transposes axes (sh qi) (sh qo)) s s' /\
      (r = true <-> forall k, k < length gs -> In (Some (Z.of_nat k)) gs) /\
      (r = true -> root (rp s qi) = None \/ root (rp s qi) <> root (rp s qo) -> forall rho sh, allows s' rho sh ->
         (~ exists n, has_rank_now s qi n) \/ length (sh qi) = length gs -> (~ exists n, has_rank_now s qo n) \/ length (sh qo) = length gs -> exists axes, axes_given gs axes /\ transposes axes (sh qi) (sh qo))
  | (_, Err e) => e = ValueError /\ ((forall k, k < length gs -> In (Some (Z.of_nat k)) gs) -> forall rho sh axes, allows s rho sh -> axes_given gs axes -> ~ transposes axes (sh qi) (sh qo))
  end.
Proof.
  intros s qi qo gs S Hi Ho. assert (I := psess_inv s S). assert (M := axes_ok s qi qo gs I Hi Ho). assert (K := fun s' b => pr_reverse s qi qo (TheseAxes gs) s' b Hi Ho). cbn [reverse_rule] in *. destruct (reverse_axes qi qo gs s) as [s' [r|e]].
  - destruct M as (M1 & M2 & M3). split; [eapply runs_rule; [exact S|eapply K; reflexivity]|]. split; [apply sound_narrows; exact M1|]. split; [exact M2|]. intros Er Df rho sh A C1 C2. rewrite (unknown_rank s qi I Hi) in C1. rewrite (unknown_rank s qo I Ho) in C2. apply (M3 Er Df rho sh A C1 C2).
  - destruct M as [-> M]. split; [auto|]. intros H rho sh axes A G T. apply (M H rho sh A). exists axes. auto.
Qed.
(** ** eye: for an output with two dimensions *)
Theorem C63_eye : forall s qo N M, psess s -> qo < nrep s -> has_rank_now s qo 2 ->
  match eye_rule qo N M s with
  | (s', Ok (r, N', M')) => psess s' /\ narrows (fun sh => exists n m, sh qo = [n; m] /\ eye_sizes N M n m) s s' /\
      (forall n m, eye_sizes N' M' n m -> eye_sizes N M n m) /\
      (forall rho sh n m, allows s' rho sh -> sh qo = [n; m] -> eye_sizes N M n m -> eye_sizes N' M' n m) /\
      (r = true <-> (exists n, N' = Some n) /\ (exists m, M' = Some (Some m)) /\ exists y, determined s' qo y)
  | (_, Err e) => e = ValueError /\ forall rho sh n m, allows s rho sh -> sh qo = [n; m] -> ~ eye_sizes N M n m
  end.
Proof.
  intros s qo N M S Ho Rk. assert (I := psess_inv s S). assert (X := eye_ok s qo N M I Ho Rk). assert (K := fun s' r => pr_eye s qo N M s' r Ho Rk). destruct (eye_rule qo N M s) as [s' [[[r N'] M']|e]].
  - destruct X as (X1 & X2). split; [eapply runs_rule; [exact S|eapply K; reflexivity]|]. split; [apply sound_narrows; exact X1|exact X2].
  - destruct X as [-> X]. split; [auto|]. intros rho sh n m A E G. apply (X rho sh A). exists n, m. auto.
Qed.

(** ** Cases *)
(** representations: 0 (4, ?, 2); 1 (6, 9); 2 unknown; 3 (4, ...); 4 (..., ?) with the same unknown part; 5 (?, ?); 6 (2, 4); 7 (4, 2); 8 (4, 4, 4); 9 (4, 4) *)
Definition c63_state := state [ODim (Some 4%Z); ODim None; ODim (Some 2%Z); ODim (Some 6%Z); ODim (Some 9%Z); ODim None; ODim None; ODim None; OVar; OVar;
  ORepr (mkshape [0; 1; 2] None []); ORepr (mkshape [3; 4] None []); ORepr (mkshape [] (Some 0) []); ORepr (mkshape [0] (Some 1) []); ORepr (mkshape [] (Some 1) [5]);
  ORepr (mkshape [6; 7] None []); ORepr (mkshape [2; 0] None []); ORepr (mkshape [0; 2] None []); ORepr (mkshape [0; 0; 0] None []); ORepr (mkshape [0; 0] None [])].
Lemma c63_sess : psess c63_state.
Proof. apply reach_runs, state_reach. Qed.
Lemma c63_det q x : q < 10 -> root (rp c63_state q) = None -> values c63_state (pre (rp c63_state q)) = map Some x -> determined c63_state q x.
Proof. intros L R V. apply determined_values; [apply psess_inv, c63_sess|vm_compute in L |- *; lia|auto]. Qed.
Lemma c63_rank q : q < 10 -> root (rp c63_state q) = None -> has_rank_now c63_state q (length (pre (rp c63_state q))).
Proof. intros L R rho sh A. rewrite (plain_sh c63_state q rho sh (psess_inv _ c63_sess) ltac:(vm_compute in L |- *; lia) R A). apply map_length. Qed.
(** (2, 4) padded by ((1, 1), (0, 2)); (2, 4) to (6, 9) with one side known each; with the padding of a dimension unknown *)
Example C63_pad_example : psess c63_state /\ 6 < nrep c63_state /\ 2 < nrep c63_state /\ determined c63_state 6 [2; 4]%Z /\ determined c63_state 1 [6; 9]%Z /\
  snd (pad_rule 6 2 (Some (pads_exactly [(1, 1); (0, 2)]%Z)) c63_state) = Ok (true, Some (pads_exactly [(1, 1); (0, 2)]%Z)) /\ pads_to [(1, 1); (0, 2)]%Z [2; 4]%Z [4; 6]%Z /\
  shape_now (fst (pad_rule 6 2 (Some (pads_exactly [(1, 1); (0, 2)]%Z)) c63_state)) 2 = ([Some 4; Some 6]%Z, None, []) /\
  snd (pad_rule 6 1 (Some [Some (Some 1, None); Some (None, Some 2)]%Z) c63_state) = Ok (true, Some (pads_exactly [(1, 3); (3, 2)]%Z)) /\
  snd (pad_rule 6 7 (Some [None; Some (None, Some 0)]%Z) c63_state) = Ok (false, Some [None; Some (Some (-2), Some 0)]%Z) /\ snd (pad_rule 6 1 (Some (pads_exactly [(1, 1); (0, 2)]%Z)) c63_state) = Err ValueError.
Proof.
  split; [apply c63_sess|]. do 2 (split; [vm_compute; lia|]). do 2 (split; [apply c63_det; [lia|vm_compute; auto|vm_compute; auto]|]). split; [vm_compute; auto|]. split; [repeat constructor|]. vm_compute. auto.
Qed.
(** (4, ?, 2) reversed; (2, 4) is not (4, 2) reversed is *)
Example C63_transpose_example : snd (reverse_rule 0 2 AllAxes c63_state) = Ok true /\ shape_now (fst (reverse_rule 0 2 AllAxes c63_state)) 2 = ([Some 2; None; Some 4]%Z, None, []) /\
  snd (reverse_rule 6 7 AllAxes c63_state) = Ok true /\ snd (reverse_rule 6 1 AllAxes c63_state) = Err ValueError /\ snd (reverse_rule 2 3 AllAxes c63_state) = Ok false /\ has_rank_now c63_state 0 3.
Proof. do 5 (split; [vm_compute; auto|]). apply (c63_rank 0); [lia|vm_compute; auto]. Qed.
(** (4, ?, 2) with axes 2, 0, 1 *)
Example C63_axes_example : snd (reverse_rule 0 2 (TheseAxes [Some 2; Some 0; Some 1]%Z) c63_state) = Ok true /\ shape_now (fst (reverse_rule 0 2 (TheseAxes [Some 2; Some 0; Some 1]%Z) c63_state)) 2 = ([Some 2; Some 4; None]%Z, None, []) /\
  axes_given [Some 2; Some 0; Some 1]%Z [2; 0; 1]%Z /\ transposes [2; 0; 1]%Z [4; 7; 2]%Z [2; 4; 7]%Z /\ root (rp c63_state 0) <> root (rp c63_state 2) /\ snd (reverse_rule 6 1 (TheseAxes [Some 1; Some 0]%Z) c63_state) = Err ValueError.
Proof.
  do 2 (split; [vm_compute; auto|]). split; [repeat constructor|]. split; [|split; [vm_compute; discriminate|vm_compute; auto]]. split; [auto|]. split; [auto|]. split; [|repeat constructor; cbn; intuition discriminate]. intros [|[|[|k]]] a H; cbn in H; [injection H as <-; split; [cbn; lia|auto]..|destruct k; discriminate].
Qed.
(** three rows and five columns; a square matrix whose rows are known from the output *)
Example C63_eye_example : has_rank_now c63_state 5 2 /\ snd (eye_rule 5 (Some 3%Z) (Some (Some 5%Z)) c63_state) = Ok (true, Some 3%Z, Some (Some 5%Z)) /\ shape_now (fst (eye_rule 5 (Some 3%Z) (Some (Some 5%Z)) c63_state)) 5 = ([Some 3; Some 5]%Z, None, []) /\
  snd (eye_rule 1 None None c63_state) = Ok (true, Some 6%Z, Some (Some 9%Z)).
Proof. split; [apply (c63_rank 5); [lia|vm_compute; auto]|]. vm_compute. auto. Qed.

(** ** Findings *)
(** A padding inferred from the shapes may be negative, which pad does not allow; the rule is finished. *)
Theorem C63_pad_negative_refuted : exists s s' p, psess s /\ determined s 1 [6; 9]%Z /\ determined s 6 [2; 4]%Z /\ pad_rule 1 6 (Some [Some (Some 1, None); Some (None, Some 2)]%Z) s = (s', Ok (true, Some (pads_exactly p))) /\ p = [(1, -5); (-7, 2)]%Z /\
  forall p', pads_given [Some (Some 1, None); Some (None, Some 2)]%Z p' -> not_negative p' -> ~ pads_to p' [6; 9]%Z [2; 4]%Z.
Proof.
  exists c63_state. eexists _, [(1, -5); (-7, 2)]%Z. split; [apply c63_sess|]. do 2 (split; [apply c63_det; [lia|vm_compute; auto|vm_compute; auto]|]). split; [vm_compute; reflexivity|]. split; [auto|].
  intros p' _ Nn T. inversion T; subst. inversion Nn as [|? ? [H1 H2] _]; subst. cbn in H1, H2. lia.
Qed.
(** Known ranks that differ are not noticed by transpose without axes ... *)
Theorem C63_transpose_ranks_refuted : exists s s', psess s /\ determined s 8 [4; 4; 4]%Z /\ determined s 9 [4; 4]%Z /\ reverse_rule 8 9 AllAxes s = (s', Ok true).
Proof. exists c63_state. eexists. split; [apply c63_sess|]. do 2 (split; [apply c63_det; [lia|vm_compute; auto|vm_compute; auto]|]). vm_compute. reflexivity. Qed.
(** ... nor is a number of axes that is not the rank. *)
Theorem C63_axes_rank_refuted : exists s s', psess s /\ determined s 8 [4; 4; 4]%Z /\ reverse_rule 8 2 (TheseAxes [Some 1; Some 0]%Z) s = (s', Ok true) /\ shape_now s' 2 = ([Some 4; Some 4]%Z, None, []).
Proof. exists c63_state. eexists. split; [apply c63_sess|]. split; [apply c63_det; [lia|vm_compute; auto|vm_compute; auto]|]. split; [vm_compute; reflexivity|]. vm_compute. auto. Qed.
(** Axes counted from the end are refused if one position is not among the axes (-1, 0), and ignored for ever if two are not (-1, -2). *)
Theorem C63_axes_negative_refuted : exists s, psess s /\ determined s 6 [2; 4]%Z /\ determined s 7 [4; 2]%Z /\
  (exists axes, axes_given [Some (-1); Some 0]%Z axes /\ transposes axes [2; 4]%Z [4; 2]%Z) /\ snd (reverse_rule 6 7 (TheseAxes [Some (-1); Some 0]%Z) s) = Err ValueError /\
  (exists axes, axes_given [Some (-1); Some (-2)]%Z axes /\ transposes axes [2; 4]%Z [4; 2]%Z) /\ forall t qi qo, reverse_rule qi qo (TheseAxes [Some (-1); Some (-2)]%Z) t = (t, Ok false).
Proof.
  exists c63_state. split; [apply c63_sess|]. do 2 (split; [apply c63_det; [lia|vm_compute; auto|vm_compute; auto]|]).
  assert (T : transposes [1; 0]%Z [2; 4]%Z [4; 2]%Z). { split; [auto|]. split; [auto|]. split; [|repeat constructor; cbn; intuition discriminate]. intros [|[|k]] a H; cbn in H; [injection H as <-; split; [cbn; lia|auto]..|destruct k; discriminate]. }
  split; [exists [1; 0]%Z; split; [repeat constructor|auto]|]. split; [vm_compute; auto|]. split; [exists [1; 0]%Z; split; [repeat constructor|auto]|]. reflexivity.
Qed.
(** A single unknown among the axes is refused instead of inferred. *)
Theorem C63_axes_unknown_refuted : exists s, psess s /\ determined s 6 [2; 4]%Z /\ determined s 7 [4; 2]%Z /\ (exists axes, axes_given [Some 1; None]%Z axes /\ transposes axes [2; 4]%Z [4; 2]%Z) /\ snd (reverse_rule 6 7 (TheseAxes [Some 1; None]%Z) s) = Err ValueError.
Proof.
  exists c63_state. split; [apply c63_sess|]. do 2 (split; [apply c63_det; [lia|vm_compute; auto|vm_compute; auto]|]). split; [|vm_compute; auto]. exists [1; 0]%Z. split; [repeat constructor|]. split; [auto|]. split; [auto|]. split; [|repeat constructor; cbn; intuition discriminate]. intros [|[|k]] a H; cbn in H; [injection H as <-; split; [cbn; lia|auto]..|destruct k; discriminate].
Qed.
(** If input and output share an unknown part, the sizes in it are not compared: (4, ...) to (..., ?) with axes 2, 0, 1 may be (4, a, 6) to (a, 6, b). *)
Theorem C63_axes_shared_refuted : exists s s' rho sh a b, psess s /\ reverse_rule 3 4 (TheseAxes [Some 2; Some 0; Some 1]%Z) s = (s', Ok true) /\ allows s' rho sh /\ sh 3 = [4; a; 6]%Z /\ sh 4 = [a; 6; b]%Z /\ ~ transposes [2; 0; 1]%Z (sh 3) (sh 4).
Proof.
  assert (Q := C63_axes c63_state 3 4 [Some 2; Some 0; Some 1]%Z c63_sess ltac:(vm_compute; lia) ltac:(vm_compute; lia)). destruct (reverse_rule 3 4 (TheseAxes [Some 2; Some 0; Some 1]%Z) c63_state) as [s' r] eqn:E.
  assert (Er : r = Ok true) by (change r with (snd (s', r)); rewrite <- E; vm_compute; auto). subst r. destruct Q as (Q1 & _). assert (I' := psess_inv _ Q1). assert (Es : s' = fst (reverse_rule 3 4 (TheseAxes [Some 2; Some 0; Some 1]%Z) c63_state)) by (rewrite E; auto). clear E.
  destruct (sat_with (us s') 10 6%Z (s_inv _ I')) as (rho & Hs & E6); [rewrite Es; vm_compute; auto 15|rewrite Es; vm_compute; auto|].
  assert (V : forall u n, live (us s') u -> value (us s') u = Some n -> rho u = n) by (intros u n L V; eapply value_sat; [apply I'|exact L|exact V|auto]).
  assert (R0 : rho 0 = 4%Z) by (apply V; rewrite Es; vm_compute; auto 15).
  assert (S3 : den s' rho (fun _ => []) 3 = [4%Z; rho 9; 6%Z]). { unfold den, dshape. replace (rp s' 3) with (mkshape [0; 9; 10] None []) by (rewrite Es; vm_compute; auto). cbn. rewrite R0, E6. auto. }
  assert (S4 : den s' rho (fun _ => []) 4 = [rho 9; 6%Z; rho 5]). { unfold den, dshape. replace (rp s' 4) with (mkshape [9; 10; 5] None []) by (rewrite Es; vm_compute; auto). cbn. rewrite E6. auto. }
  exists c63_state, s', rho, (den s' rho (fun _ => [])), (rho 9), (rho 5). split; [apply c63_sess|]. split; [rewrite Es; vm_compute; auto|]. split; [apply allows_self; auto|]. split; [auto|]. split; [auto|]. rewrite S3, S4. intros (_ & _ & H & _). destruct (H 1 0%Z eq_refl) as [_ X]. cbn in X. discriminate.
Qed.
(** Arguments of eye that contradict a known output are not noticed; without the number of columns (the default) the matrix is never known to be square. *)
Theorem C63_eye_refuted : exists s s', psess s /\ determined s 1 [6; 9]%Z /\ eye_rule 1 (Some 3%Z) (Some (Some 3%Z)) s = (s', Ok (true, Some 3%Z, Some (Some 3%Z))) /\
  has_rank_now s 5 2 /\ shape_now (fst (eye_rule 5 (Some 3%Z) (Some None) s)) 5 = ([Some 3%Z; None], None, []) /\ forall t q N t' r N' M', eye_rule q N (Some None) t = (t', Ok (r, N', M')) -> r = false.
Proof.
  exists c63_state. eexists. split; [apply c63_sess|]. split; [apply c63_det; [lia|vm_compute; auto|vm_compute; auto]|]. split; [vm_compute; reflexivity|]. split; [apply (c63_rank 5); [lia|vm_compute; auto]|]. split; [vm_compute; auto|].
  intros t q N t' r N' M' E. unfold eye_rule in E. destruct (pre (rp t q)) as [|n [|m ?]]; [discriminate..|]. unfold hbind in E. destruct (match N, value (us t) n with Some z, None => _ | None, Some z => _ | _, _ => _ end) as [t1 [x|e]]; [|discriminate]. destruct (value (us t1) m); injection E as _ <- _ _; destruct x; auto.
Qed.
Print Assumptions C63_pad.
Print Assumptions C63_transpose.
Print Assumptions C63_axes.
Print Assumptions C63_eye.
Print Assumptions C63_pad_negative_refuted.
Print Assumptions C63_transpose_ranks_refuted.
Print Assumptions C63_axes_rank_refuted.
Print Assumptions C63_axes_negative_refuted.
Print Assumptions C63_axes_unknown_refuted.
Print Assumptions C63_axes_shared_refuted.
Print Assumptions C63_eye_refuted.
