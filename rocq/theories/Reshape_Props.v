(** * C28: reshape *)
From Coq Require Import List Arith Lia Bool ZArith.
From Verif Require Import PyBase Uniadic_Model Uniadic_Proofs Bcast_Proofs Shape_Model Shape_Proofs Shape_Proofs2 Shape_Proofs3 Shape_Props Reduce_Model
  Rule_Proofs Window_Model Window_Proofs Window_Props Arange_Model Arange_Proofs Arange_Props Reshape_Model Reshape_Proofs.
Import ListNotations.
Open Scope list_scope. Open Scope nat_scope. Open Scope shm_scope.

(** ** Sessions with the rules of C25 to C28 *)
Inductive rrule (s : shst) : shst -> Prop :=
| r_arange s' : arule s s' -> rrule s s'
| r_reshape qi qo sv s' b : qi < nrep s -> qo < nrep s -> ~ (In (Some (-1)%Z) sv /\ In None sv) -> reshape qi qo (Some sv) s = (s', Ok b) -> rrule s s'.
Definition both (s : shst) (qi qo : nat) : Prop := (exists x, determined s qi x) /\ (exists y, determined s qo y).
Lemma both_iff s qi qo : sinv s -> qi < nrep s -> qo < nrep s -> repr_known s qi && repr_known s qo = true <-> both s qi qo.
Proof. intros I Hi Hq. rewrite andb_true_iff, !repr_known_iff by auto. reflexivity. Qed.
Lemma rrule_inv s s' : sinv s -> rrule s s' -> sinv s'.
Proof.
  intros I. destruct 1 as [s' W|qi qo sv s' b Hi Hq Mix E]; [eapply arule_inv; eauto|]. assert (M := reshape_valued_ok s qi qo sv (fun _ => False) I Hi Hq Mix ltac:(intros; contradiction)). unfold reshape, hbind in E.
  destruct (reshape_valued qi qo sv s) as [s1 [[]|e]]; [|discriminate]. unfold hgets in E. injection E as <- _. apply M.
Qed.
Definition rsess : shst -> Prop := runs rrule.
Lemma rsess_inv s : rsess s -> sinv s.
Proof. apply runs_inv, rrule_inv. Qed.

(** ** The shape is given: whatever is known, no possible combination of shapes is lost and none invented; the output gets the rank and
    the sizes asked for; the result tells whether both shapes are now determined; an error means that no combination was possible. *)
Theorem C28_sound : forall s qi qo sv, rsess s -> qi < nrep s -> qo < nrep s -> ~ (In (Some (-1)%Z) sv /\ In None sv) ->
  match reshape qi qo (Some sv) s with
  | (s', Ok b) => rsess s' /\ narrows (fun sh => reshapes sv (sh qi) (sh qo) /\ ordinary (sh qi)) s s' /\ (forall rho sh, allows s' rho sh -> Forall2 wanted sv (sh qo)) /\
      (b = true <-> (exists x, determined s' qi x) /\ (exists y, determined s' qo y))
  | (_, Err e) => In e [ValueError; ZeroDivisionError; OverflowError] /\ forall rho sh, allows s rho sh -> ordinary (sh qi) -> ~ reshapes sv (sh qi) (sh qo)
  end.
Proof.
  intros s qi qo sv S Hi Hq Mix. assert (I := rsess_inv s S). assert (M := reshape_valued_ok s qi qo sv (fun sh => reshapes sv (sh qi) (sh qo) /\ ordinary (sh qi)) I Hi Hq Mix ltac:(auto)). assert (K := fun s' b => r_reshape s qi qo sv s' b Hi Hq Mix).
  unfold reshape, hbind, hgets in *. destruct (reshape_valued qi qo sv s) as [s' [[]|e]].
  - destruct M as (M1 & M2 & _). assert (N : nrep s' = nrep s) by apply M1. split; [eapply runs_rule; [exact S|eapply K; reflexivity]|]. split; [apply sound_narrows; auto|]. split; [auto|]. apply both_iff; [apply M1|lia|lia].
  - destruct M as [M1 M2]. split; [exact M1|]. intros rho sh A O H. apply (M2 rho sh A). auto.
Qed.

(** ** The input is known: the output becomes the only shape to which it reshapes, or there is none. *)
Lemma wanted_unique l y y' : one_free (map Some l) -> Forall2 wanted (map Some l) y -> Forall2 wanted (map Some l) y' -> volume y = volume y' -> volume y <> 0%Z -> y = y'.
Proof.
  intros O W W' E N. destruct (existsb is_free (map Some l)) eqn:F.
  - apply has_free in F. apply free_split in F as (a & b & Es & _). rewrite Es in *. apply one_free_rest in O as [Na Nb]. apply map_eq_app in Es as (la & lb' & -> & <- & Es). apply map_eq_cons in Es as (z & lb & -> & _ & <-).
    apply Forall2_app_inv_l in W as (y1 & y2 & W1 & W2 & ->). inversion W2 as [|? d ? y3 _ W3]; subst. apply wanted_all in W1, W3; auto. subst.
    apply Forall2_app_inv_l in W' as (y1 & y2 & W1' & W2' & ->). inversion W2' as [|? d' ? y3 _ W3']; subst. apply wanted_all in W1', W3'; auto. subst.
    rewrite !volume_app in *. change (volume la * (d * volume lb) = volume la * (d' * volume lb))%Z in E. change (volume la * (d * volume lb) <> 0)%Z in N. do 2 f_equal. clear - E N. assert (volume la <> 0)%Z by nia. assert (volume lb <> 0)%Z by nia. apply Z.mul_reg_l in E; [|auto]. apply Z.mul_reg_r in E; auto.
  - assert (Nf : ~ In (Some (-1)%Z) (map Some l)) by (intros H; apply has_free in H; congruence). rewrite (wanted_all l y), (wanted_all l y'); auto.
Qed.
Theorem C28_forward : forall s qi qo x l, rsess s -> qi < nrep s -> qo < nrep s -> determined s qi x -> x <> [] -> ordinary x -> one_free (map Some l) -> Forall (fun z => z = -1 \/ 0 < z)%Z l -> (Z.abs (volume l) < 2 ^ 1000)%Z ->
  match reshape qi qo (Some (map Some l)) s with
  | (s', Ok b) => b = true /\ exists y, determined s' qo y /\ reshapes (map Some l) x y /\ forall z, reshapes (map Some l) x z -> z = y
  | (_, Err e) => forall rho sh, allows s rho sh -> ~ reshapes (map Some l) x (sh qo)
  end.
Proof.
  intros s qi qo x l S Hi Hq D Nx O Of Pl Bl. assert (I := rsess_inv s S). assert (Mix : ~ (In (Some (-1)%Z) (map Some l) /\ In None (map Some l))). { intros [_ H]. apply in_map_iff in H as (z & X & _). discriminate. }
  assert (M := reshape_valued_ok s qi qo (map Some l) (fun sh => reshapes (map Some l) (sh qi) (sh qo) /\ ordinary (sh qi)) I Hi Hq Mix ltac:(auto)).
  assert (Px : (0 < volume x < 2 ^ 53)%Z) by (destruct O; split; [apply volume_pos; auto|auto]).
  unfold reshape, hbind, hgets in *. destruct (reshape_valued qi qo (map Some l) s) as [s' [[]|e]].
  - destruct M as (M1 & M2 & M3 & _). specialize (M3 x l D Nx Px eq_refl Of Bl). assert (N : nrep s' = nrep s) by apply M1. assert (I' : sinv s') by apply M1.
    destruct (sat_exists (us s') (s_inv _ I')) as (r0 & Hs0). assert (A0 := allows_self s' r0 (fun _ => []) Hs0). set (y := den s' r0 (fun _ => []) qo) in *. assert (Vy := M3 r0 _ A0). assert (Wy := M2 r0 _ A0). fold y in Vy, Wy.
    assert (Nz : volume y <> 0%Z) by (rewrite Vy; clear - Px; destruct Px; lia).
    assert (Dy : determined s' qo y). { intros rho sh A. symmetry. apply (wanted_unique l); auto; [apply (M2 rho sh A)|]. rewrite Vy. symmetry. apply (M3 rho sh A). }
    assert (Dx : determined s' qi x) by (intros rho sh A; apply (D rho); apply M1; auto). split; [apply both_iff; [auto|lia|lia|split; eauto]|]. exists y. split; [auto|]. split.
    + split; [auto|]. split; [auto|]. split; [|auto]. clear - Wy Of Pl Vy Px. destruct (existsb is_free (map Some l)) eqn:F.
      * apply has_free in F. apply free_split in F as (a & b & Es & _). rewrite Es in *. apply one_free_rest in Of as [Na Nb]. apply map_eq_app in Es as (la & lb' & -> & <- & Es). apply map_eq_cons in Es as (z & lb & -> & _ & <-).
        apply Forall2_app_inv_l in Wy as (y1 & y2 & W1 & W2 & Ey). inversion W2 as [|? d ? y3 _ W3]; subst. apply wanted_all in W1, W3; auto. subst. rewrite Ey in *.
        assert (Pa : Forall (fun d => 0 < d)%Z la) by (apply Forall_app in Pl as [P1 _]; clear - P1 Na; rewrite Forall_forall in *; intros z Hz; destruct (P1 z Hz) as [->|]; [exfalso; apply Na; apply in_map; auto|auto]).
        assert (Pb : Forall (fun d => 0 < d)%Z lb) by (apply Forall_app in Pl as [_ P2]; inversion P2 as [|? ? _ P3]; clear - P3 Nb; rewrite Forall_forall in *; intros w Hw; destruct (P3 w Hw) as [->|]; [exfalso; apply Nb; apply in_map; auto|auto]).
        assert (Va := volume_pos _ Pa). assert (Vb := volume_pos _ Pb). rewrite volume_app in Vy. change (volume la * (d * volume lb) = volume x)%Z in Vy. apply Forall_app. split; [eapply Forall_impl; [|exact Pa]; cbn; lia|]. constructor; [|eapply Forall_impl; [|exact Pb]; cbn; lia]. destruct Px as [Px _]. nia.
      * assert (Nf : ~ In (Some (-1)%Z) (map Some l)) by (intros H; apply has_free in H; congruence). rewrite (wanted_all l y) by auto. rewrite Forall_forall in *. intros z Hz. destruct (Pl z Hz) as [->|]; [exfalso; apply Nf; apply in_map; auto|lia].
    + intros z (_ & Wz & _ & Vz). symmetry. apply (wanted_unique l); auto. congruence.
  - intros rho sh A R. apply (proj2 M rho sh A). rewrite (D rho sh A). auto.
Qed.

(** ** The output is asked for completely and one dimension of the input is missing: it is found, if there is one. *)
Theorem C28_backward : forall s qi qo a b l, rsess s -> qi < nrep s -> qo < nrep s -> ~ In (-1)%Z l -> Forall (fun d => 0 < d)%Z (a ++ b) -> (volume (a ++ b) | volume l)%Z ->
  (forall rho sh, allows s rho sh -> exists d, sh qi = a ++ d :: b) -> (forall x, exists rho sh, allows s rho sh /\ sh qo = l /\ sh qi <> x) ->
  match reshape qi qo (Some (map Some l)) s with
  | (s', Ok r) => r = true /\ determined s' qo l /\ exists x, determined s' qi x /\ volume x = volume l
  | (_, Err e) => forall rho sh, allows s rho sh -> ordinary (sh qi) -> ~ reshapes (map Some l) (sh qi) (sh qo)
  end.
Proof.
  intros s qi qo a b l S Hi Hq Nf Pab Dv H Nd. assert (I := rsess_inv s S). assert (Mix : ~ (In (Some (-1)%Z) (map Some l) /\ In None (map Some l))). { intros [_ X]. apply in_map_iff in X as (z & X & _). discriminate. }
  assert (Nf' : ~ In (Some (-1)%Z) (map Some l)). { intros X. apply in_map_iff in X as (z & X & Hz). injection X as ->. auto. }
  assert (M := reshape_valued_ok s qi qo (map Some l) (fun sh => reshapes (map Some l) (sh qi) (sh qo) /\ ordinary (sh qi)) I Hi Hq Mix ltac:(auto)). unfold reshape, hbind, hgets in *. destruct (reshape_valued qi qo (map Some l) s) as [s' [[]|e]].
  - destruct M as (M1 & M2 & _ & M4). specialize (M4 a b l eq_refl Nf' Pab H Nd). assert (N : nrep s' = nrep s) by apply M1. assert (Do : determined s' qo l) by (intros rho sh A; apply wanted_all; [auto|apply (M2 rho sh A)]).
    split; [apply both_iff; [apply M1|lia|lia|split; eauto]|]. split; [auto|]. eexists. split; [exact M4|]. assert (Vp := volume_pos _ Pab). destruct Dv as (c & ->). rewrite Z.div_mul by lia. rewrite !volume_app. change (volume a * (c * volume b) = c * (volume a * volume b))%Z. ring.
  - intros rho sh A O R. apply (proj2 M rho sh A). auto.
Qed.

(** ** The shape is to be determined: nothing changes; known shapes of two or more dimensions are compared. *)
Theorem C28_unvalued : forall s qi qo, rsess s -> qi < nrep s -> qo < nrep s ->
  (~ ((exists x, determined s qi x) /\ (exists y, determined s qo y)) -> reshape qi qo None s = (s, Ok false)) /\
  (forall x y, determined s qi x -> determined s qo y -> 2 <= length x -> 2 <= length y -> reshape qi qo None s = (s, if (volume x =? volume y)%Z then Ok true else Err ValueError)).
Proof.
  intros s qi qo S Hi Hq. assert (I := rsess_inv s S). assert (B := both_iff s qi qo I Hi Hq). unfold reshape, hbind, hgets. split.
  - intros N. destruct (repr_known s qi && repr_known s qo) eqn:E; [exfalso; apply N; apply B; auto|]. rewrite andb_comm, E. rewrite E. auto.
  - intros x y Dx Dy Lx Ly. assert (E : repr_known s qi && repr_known s qo = true) by (apply B; split; eauto). rewrite andb_comm, E. apply determined_values in Dx as [_ Vx]; auto. apply determined_values in Dy as [_ Vy]; auto.
    assert (Pd : products_differ s (pre (rp s qi)) (pre (rp s qo)) = Ok (negb (volume x =? volume y)%Z)).
    { unfold products_differ. assert (Lx' : length (pre (rp s qi)) = length x) by (apply (f_equal (@length _)) in Vx; unfold values in Vx; rewrite !map_length in Vx; auto). assert (Ly' : length (pre (rp s qo)) = length y) by (apply (f_equal (@length _)) in Vy; unfold values in Vy; rewrite !map_length in Vy; auto).
      destruct (pre (rp s qi)) as [|u1 [|u2 l1]]; [cbn in Lx'; lia|cbn in Lx'; lia|]. destruct (pre (rp s qo)) as [|w1 [|w2 l2]]; [cbn in Ly'; lia|cbn in Ly'; lia|]. apply all_some_spec in Vx, Vy. rewrite Vx, Vy. auto. }
    rewrite Pd. destruct (volume x =? volume y)%Z; cbn [negb]; [rewrite E|]; auto.
Qed.

(** ** Cases *)
Definition c28_state := state [ODim (Some 2%Z); ODim (Some 3%Z); ODim (Some 4%Z); ODim None; ODim None; ODim (Some 0%Z); ODim (Some 6%Z); ODim (Some 6%Z); ODim (Some (2 ^ 53 + 1)%Z); OVar;
  ORepr (mkshape [0; 1; 2] None []); ORepr (mkshape [] (Some 0) []); ORepr (mkshape [0; 3; 2] None []); ORepr (mkshape [3; 4] None []); ORepr (mkshape [6] None []); ORepr (mkshape [7] None []); ORepr (mkshape [] None []);
  ORepr (mkshape [5; 0] None []); ORepr (mkshape [0; 3] None []); ORepr (mkshape [8] None []); ORepr (mkshape [0; 1] None [])].
Lemma c28_sess : rsess c28_state.
Proof. apply reach_runs, state_reach. Qed.
Lemma c28_det q x : q < 11 -> root (rp c28_state q) = None -> values c28_state (pre (rp c28_state q)) = map Some x -> determined c28_state q x.
Proof. intros L R V. apply determined_values; [apply rsess_inv, c28_sess|vm_compute in L |- *; lia|auto]. Qed.
Example C28_sound_example : rsess c28_state /\ nrep c28_state = 11 /\ snd (reshape 2 1 (Some [Some 4; None])%Z c28_state) = Ok false /\ shape_now (fst (reshape 2 1 (Some [Some 4; None])%Z c28_state)) 1 = ([Some 4%Z; None], None, []) /\
  reshapes [Some 4; None]%Z [2; 1; 4]%Z [4; 2]%Z /\ snd (reshape 2 0 (Some [Some 4; None])%Z c28_state) = Err ValueError.
Proof. split; [apply c28_sess|]. do 3 (split; [vm_compute; auto|]). split; [|vm_compute; auto]. split; [intros [|[|[|i]]] [|[|[|j]]]; cbn; congruence|]. split; [do 2 (constructor; [cbn; auto|]); constructor|]. split; [repeat (constructor; [lia|]); constructor|auto]. Qed.
Example C28_forward_example : determined c28_state 0 [2; 3; 4]%Z /\ ordinary [2; 3; 4]%Z /\ one_free (map Some [6; -1]%Z) /\ Forall (fun z => z = -1 \/ 0 < z)%Z [6; -1]%Z /\ (Z.abs (volume [6; -1]) < 2 ^ 1000)%Z /\
  snd (reshape 0 1 (Some [Some 6; Some (-1)])%Z c28_state) = Ok true /\ shape_now (fst (reshape 0 1 (Some [Some 6; Some (-1)])%Z c28_state)) 1 = ([Some 6%Z; Some 4%Z], None, []) /\
  snd (reshape 0 1 (Some [Some 5; Some (-1)])%Z c28_state) = Err ValueError.
Proof.
  split; [apply c28_det; [lia|vm_compute; auto|vm_compute; auto]|]. split; [split; [repeat (constructor; [lia|]); constructor|vm_compute; auto]|]. split; [intros [|[|[|i]]] [|[|[|j]]]; cbn; congruence|]. split; [repeat (constructor; [lia|]); constructor|]. split; [vm_compute; auto|]. vm_compute. auto.
Qed.
Example C28_backward_example : (forall rho sh, allows c28_state rho sh -> exists d, sh 2 = [2%Z] ++ d :: [4%Z]) /\ (forall x, exists rho sh, allows c28_state rho sh /\ sh 1 = [4; 4]%Z /\ sh 2 <> x) /\ (volume ([2] ++ [4]) | volume [4; 4])%Z /\
  snd (reshape 2 1 (Some [Some 4; Some 4])%Z c28_state) = Ok true /\ shape_now (fst (reshape 2 1 (Some [Some 4; Some 4])%Z c28_state)) 2 = ([Some 2%Z; Some 2%Z; Some 4%Z], None, []).
Proof.
  assert (I := rsess_inv _ c28_sess). assert (Hq : 2 < nrep c28_state) by (vm_compute; lia). assert (R : root (rp c28_state 2) = None) by (vm_compute; auto).
  assert (Lv : forall u, u < 9 -> live (us c28_state) u) by (intros u L; do 9 (destruct u as [|u]; [vm_compute; auto 12|]); lia).
  assert (V : forall rho, sat (us c28_state) rho -> rho 0 = 2%Z /\ rho 2 = 4%Z) by (intros rho Hs; split; (eapply value_sat; [apply I|apply Lv; lia|vm_compute; reflexivity|auto])).
  split; [|split; [|split; [exists 2%Z; reflexivity|vm_compute; auto]]].
  - intros rho sh A. rewrite (plain_sh _ _ rho sh I Hq R A). change (pre (rp c28_state 2)) with [0; 3; 2]. cbn [map app]. destruct (V rho (proj1 A)) as [-> ->]. exists (rho 3). auto.
  - intros x. destruct (sat_with (us c28_state) 3 (nth 1 x 0 + 1)%Z (s_inv _ I) (Lv 3 ltac:(lia))) as (rho & Hs & E); [vm_compute; auto|]. exists rho, (den c28_state rho (fun _ => [4; 4]%Z)). split; [apply allows_self; auto|]. split; [reflexivity|].
    change (den c28_state rho (fun _ => [4; 4]%Z) 2) with [rho 0; rho 3; rho 2]. intros X. apply (f_equal (fun l => nth 1 l 0%Z)) in X. cbn [nth] in X. destruct x as [|? [|? ?]]; cbn [nth] in *; lia.
Qed.
Example C28_unvalued_example : determined c28_state 0 [2; 3; 4]%Z /\ determined c28_state 10 [2; 3]%Z /\ snd (reshape 0 10 None c28_state) = Err ValueError /\ snd (reshape 0 0 None c28_state) = Ok true /\ snd (reshape 0 1 None c28_state) = Ok false.
Proof. split; [apply c28_det; [lia|vm_compute; auto|vm_compute; auto]|]. split; [apply c28_det; [lia|vm_compute; auto|vm_compute; auto]|]. vm_compute. auto. Qed.

(** ** Findings *)
(** The missing dimension of the input is found by integer division without a check: (2, ?, 4) is taken to reshape to (3, 5). *)
Theorem C28_floor_refuted : exists s s', rsess s /\ (reshape 2 1 (Some [Some 3; Some 5]) s)%Z = (s', Ok true) /\ shape_now s' 2 = ([Some 2%Z; Some 1%Z; Some 4%Z], None, []) /\ shape_now s' 1 = ([Some 3%Z; Some 5%Z], None, []) /\
  ~ reshapes [Some 3; Some 5]%Z [2; 1; 4]%Z [3; 5]%Z.
Proof. exists c28_state. eexists. split; [apply c28_sess|]. do 3 (split; [vm_compute; reflexivity|]). intros (_ & _ & _ & X); discriminate. Qed.
(** A dimension of the output that the rule itself determines can complete the input; the sizes are not compared then: (2, 3) to (3, 4). *)
Theorem C28_shared_refuted : exists s s', rsess s /\ (reshape 8 3 (Some [Some 3; Some 4]) s)%Z = (s', Ok true) /\ shape_now s' 8 = ([Some 2%Z; Some 3%Z], None, []) /\ shape_now s' 3 = ([Some 3%Z; Some 4%Z], None, []) /\ ~ reshapes [Some 3; Some 4]%Z [2; 3]%Z [3; 4]%Z.
Proof. exists c28_state. eexists. split; [apply c28_sess|]. do 3 (split; [vm_compute; reflexivity|]). intros (_ & _ & _ & X); discriminate. Qed.
(** Two free entries, or a free entry beside one that is not known, make the first free dimension negative. *)
Theorem C28_negative_refuted : exists s, rsess s /\
  shape_now (fst (reshape 0 1 (Some [Some (-1); Some (-1)])%Z s)) 1 = ([Some (-24)%Z; None], None, []) /\ snd (reshape 0 1 (Some [Some (-1); Some (-1)])%Z s) = Ok false /\
  shape_now (fst (reshape 0 1 (Some [None; Some (-1)])%Z s)) 1 = ([None; Some (-24)%Z], None, []) /\ snd (reshape 0 1 (Some [None; Some (-1)])%Z s) = Ok false /\ reshapes [None; Some (-1)]%Z [2; 3; 4]%Z [2; 12]%Z /\
  shape_now (fst (reshape 0 1 (Some [Some (-2); Some (-12)])%Z s)) 1 = ([Some (-2)%Z; Some (-12)%Z], None, []) /\ snd (reshape 0 1 (Some [Some (-2); Some (-12)])%Z s) = Ok true.
Proof.
  exists c28_state. split; [apply c28_sess|]. do 4 (split; [vm_compute; reflexivity|]). split; [|vm_compute; auto].
  split; [intros [|[|[|i]]] [|[|[|j]]]; cbn; congruence|]. split; [do 2 (constructor; [cbn; auto|]); constructor|]. split; [repeat (constructor; [lia|]); constructor|auto].
Qed.
(** Empty arrays cannot be reshaped to a given shape: ZeroDivisionError. *)
Theorem C28_empty_refuted : exists s, rsess s /\ determined s 7 [0; 2]%Z /\ reshapes [Some 0; Some 2]%Z [0; 2]%Z [0; 2]%Z /\ snd (reshape 7 7 (Some [Some 0; Some 2])%Z s) = Err ZeroDivisionError.
Proof.
  exists c28_state. split; [apply c28_sess|]. split; [apply c28_det; [lia|vm_compute; auto|vm_compute; auto]|]. split; [|vm_compute; auto].
  split; [intros [|[|[|i]]] [|[|[|j]]]; cbn; congruence|]. split; [do 2 (constructor; [cbn; auto|]); constructor|]. split; [repeat (constructor; [lia|]); constructor|auto].
Qed.
(** The size of a scalar is not compared. *)
Theorem C28_scalar_refuted : exists s, rsess s /\ determined s 6 [] /\ snd (reshape 6 1 (Some [Some 5])%Z s) = Ok true /\ ~ reshapes [Some 5]%Z [] [5]%Z.
Proof. exists c28_state. split; [apply c28_sess|]. split; [apply c28_det; [lia|vm_compute; auto|vm_compute; auto]|]. split; [vm_compute; auto|]. intros (_ & _ & _ & X); discriminate. Qed.
(** Sizes from 2^53 on are rounded: 2^53 + 1 elements reshape to (2^52, 2). *)
Theorem C28_large_refuted : exists s, rsess s /\ determined s 9 [2 ^ 53 + 1]%Z /\ snd (reshape 9 1 (Some [Some (-1); Some 2])%Z s) = Ok true /\ shape_now (fst (reshape 9 1 (Some [Some (-1); Some 2])%Z s)) 1 = ([Some (2 ^ 52)%Z; Some 2%Z], None, []).
Proof. exists c28_state. split; [apply c28_sess|]. split; [apply c28_det; [lia|vm_compute; auto|vm_compute; auto]|]. split; vm_compute; auto. Qed.
(** While the shape is to be determined: equal shapes of one dimension are rejected unless the dimension is the same, one dimension against
    several is an AttributeError, scalars are a TypeError. *)
Theorem C28_unvalued_refuted : exists s, rsess s /\ determined s 4 [6%Z] /\ determined s 5 [6%Z] /\ determined s 10 [2; 3]%Z /\ determined s 6 [] /\
  snd (reshape 4 5 None s) = Err ValueError /\ snd (reshape 4 10 None s) = Err AttributeError /\ snd (reshape 6 6 None s) = Err TypeError.
Proof. exists c28_state. split; [apply c28_sess|]. do 4 (split; [apply c28_det; [lia|vm_compute; auto|vm_compute; auto]|]). vm_compute. auto. Qed.
Print Assumptions C28_sound.
Print Assumptions C28_forward.
Print Assumptions C28_backward.
Print Assumptions C28_unvalued.
Print Assumptions C28_floor_refuted.
Print Assumptions C28_shared_refuted.
Print Assumptions C28_negative_refuted.
Print Assumptions C28_empty_refuted.
Print Assumptions C28_scalar_refuted.
Print Assumptions C28_large_refuted.
Print Assumptions C28_unvalued_refuted.
