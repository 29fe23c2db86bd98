(** * swap_axes: proofs *)
From Coq Require Import List Arith Lia Bool ZArith.
From Verif Require Import PyBase Uniadic_Model Uniadic_Proofs Uniadic_Props Bcast_Proofs Shape_Model Shape_Proofs Shape_Proofs2 Shape_Proofs3 Shape_Props Reduce_Model Reduce_Proofs Reduce_Proofs2
  Rule_Proofs Window_Proofs Arange_Model Arange_Proofs Reshape_Model Reshape_Proofs Concat_Model Concat_Proofs Flat_Model Flat_Proofs Flat_Proofs2 Pad_Proofs Swap_Model Swap_Spec.
Import ListNotations.
Open Scope list_scope. Open Scope nat_scope. Open Scope shm_scope.

Lemma at_position_iff z n k : at_position z n = Some k <-> axis_at n z k.
Proof.
  unfold at_position, axis_at. destruct (Z.leb_spec 0 z).
  - destruct (Z.ltb_spec z (Z.of_nat n)); split; intros E; [injection E as <-; lia|f_equal; lia|discriminate|lia].
  - destruct (Z.leb_spec 0 (z + Z.of_nat n)); split; intros E; [injection E as <-; lia|f_equal; lia|discriminate|lia].
Qed.
Lemma axis_fun n a i j : axis_at n a i -> axis_at n a j -> i = j.
Proof. unfold axis_at. lia. Qed.
Lemma swaps_rank a b x y : swaps a b x y -> length y = length x /\ (forall z, z = a \/ z = b -> - Z.of_nat (length x) <= z < Z.of_nat (length x))%Z.
Proof. intros (L & i & j & Ha & Hb & _). split; [auto|]. unfold axis_at in *. intros z [->| ->]; lia. Qed.
Lemma swaps_sym a b x y : swaps a b x y -> swaps a b y x.
Proof. intros (L & i & j & Ha & Hb & E1 & E2 & E). split; [auto|]. exists i, j. rewrite L. do 2 (split; [auto|]). split; [auto|]. split; [auto|]. intros k H1 H2. symmetry. auto. Qed.

(** ** Known ranks *)
Lemma pre_live' s q u : sinv s -> q < nrep s -> In u (pre (rp s q)) -> live (us s) u.
Proof. intros. eapply pre_live; eauto. Qed.
(** What the rule checks of known ranks: the two axes only *)
Definition agree_at (a b : Z) (x y : list Z) : Prop := exists i j i' j', axis_at (length x) a i /\ axis_at (length x) b j /\ axis_at (length y) a i' /\ axis_at (length y) b j' /\
  nth_error x i = nth_error y j' /\ nth_error x j = nth_error y i'.
Lemma item_ok l z k : axis_at (length l) z k -> item l z = Ok (nth k l 0).
Proof. intros H. unfold item. rewrite (proj2 (at_position_iff z (length l) k) H). auto. Qed.
Lemma nth_error_map_nth (rho : nat -> Z) l k : k < length l -> nth_error (map rho l) k = Some (rho (nth k l 0)).
Proof. intros H. rewrite nth_error_map, (nth_error_nth' l 0 H). auto. Qed.
Lemma known_ok s qi qo a b : sinv s -> qi < nrep s -> qo < nrep s -> root (rp s qi) = None -> root (rp s qo) = None -> length (pre (rp s qi)) = length (pre (rp s qo)) ->
  match swap_known qi qo a b s with
  | (s', Ok r) => r = true /\ sound_for (fun sh => swaps a b (sh qi) (sh qo)) s s' /\ forall rho sh, allows s' rho sh -> agree_at a b (sh qi) (sh qo)
  | (_, Err e) => e = ValueError /\ excludes (fun sh => swaps a b (sh qi) (sh qo)) s
  end.
Proof.
  intros I Hi Ho Ri Ro Len. unfold swap_known. assert (No : no_root (rp s qo) = true) by (apply no_root_iff; auto). assert (Ni : no_root (rp s qi) = true) by (apply no_root_iff; auto). rewrite No. cbv iota beta zeta.
  assert (Sh : forall rho sh, allows s rho sh -> sh qi = map rho (pre (rp s qi)) /\ sh qo = map rho (pre (rp s qo))) by (intros rho sh A; split; apply plain_sh; auto).
  destruct (at_position a (length (pre (rp s qo)))) as [i|] eqn:Ea; [destruct (at_position b (length (pre (rp s qo)))) as [j|] eqn:Eb|].
  2,3: split; [auto|]; intros rho sh A (L & i' & j' & Ha & Hb & _); destruct (Sh rho sh A) as [Si So]; rewrite Si, map_length, Len in Ha, Hb; apply at_position_iff in Ha, Hb; congruence.
  apply at_position_iff in Ea, Eb. rewrite Ni. assert (Ea' := Ea). assert (Eb' := Eb). rewrite <- Len in Ea', Eb'. rewrite (item_ok _ _ _ Ea), (item_ok _ _ _ Eb), (item_ok _ _ _ Ea'), (item_ok _ _ _ Eb').
  set (ui := nth i (pre (rp s qi)) 0). set (uj := nth j (pre (rp s qi)) 0). set (vi := nth i (pre (rp s qo)) 0). set (vj := nth j (pre (rp s qo)) 0).
  assert (Lui : live (us s) ui) by (eapply pre_live'; [auto|exact Hi|apply nth_In; apply Ea']). assert (Luj : live (us s) uj) by (eapply pre_live'; [auto|exact Hi|apply nth_In; apply Eb']).
  assert (Lvi : live (us s) vi) by (eapply pre_live'; [auto|exact Ho|apply nth_In; apply Ea]). assert (Lvj : live (us s) vj) by (eapply pre_live'; [auto|exact Ho|apply nth_In; apply Eb]).
  set (P := fun sh : nat -> list Z => swaps a b (sh qi) (sh qo)).
  assert (Eq : forall rho sh, allows s rho sh -> P sh -> rho ui = rho vj /\ rho uj = rho vi).
  { intros rho sh A (L & i' & j' & Ha & Hb & E1 & E2 & _). destruct (Sh rho sh A) as [Si So]. rewrite Si, map_length in Ha, Hb. rewrite <- (axis_fun _ _ _ _ Ea' Ha), <- (axis_fun _ _ _ _ Eb' Hb) in *. rewrite Si, So in E1, E2.
    rewrite !nth_error_map_nth in E1, E2 by (unfold axis_at in *; lia). injection E1 as E1. injection E2 as E2. auto. }
  assert (M1 := match_ok P s ui vj I Lui Lvj (fun rho sh A H => proj1 (Eq rho sh A H))). unfold hbind. destruct (lift (uni_match ui vj) s) as [s1 [x1|e1]]; [|exact M1]. destruct M1 as (S1 & R1 & X1).
  assert (I1 : sinv s1) by apply S1. assert (L1 : forall x, live (us s) x -> live (us s1) x) by apply S1. assert (B1 : forall rho sh, allows s1 rho sh -> allows s rho sh) by apply S1.
  assert (M2 := match_ok P s1 uj vi I1 (L1 _ Luj) (L1 _ Lvi) (fun rho sh A H => proj2 (Eq rho sh (B1 _ _ A) H))). destruct (lift (uni_match uj vi) s1) as [s2 [x2|e2]].
  - destruct M2 as (S2 & R2 & X2). unfold hret. split; [auto|]. split; [eapply sound_for_trans; eauto|]. intros rho sh A2. assert (A1 : allows s1 rho sh) by (apply S2; auto). destruct (Sh rho sh (B1 _ _ A1)) as [Si So].
    exists i, j, i, j. rewrite Si, So, !map_length. do 4 (split; [auto|]). rewrite !nth_error_map_nth by (unfold axis_at in *; lia). fold ui uj vi vj. rewrite (X1 rho (proj1 A1)), (X2 rho (proj1 A2)). auto.
  - destruct M2 as [-> M2]. split; [auto|]. eapply excludes_back; eauto.
Qed.

(** ** One axis *)
Lemma one_axis_ok s qi qo a (P : srel) : sinv s -> qi < nrep s -> qo < nrep s -> (forall sh, P sh -> - Z.of_nat (length (sh qi)) <= a < Z.of_nat (length (sh qi)))%Z ->
  match swap_one qi a s with
  | (s', Ok r) => r = false /\ sound_for P s s'
  | (_, Err e) => e = ValueError /\ excludes P s
  end.
Proof.
  intros I Hi Ho H. set (n := Z.to_nat (if (0 <=? a)%Z then a + 1 else Z.abs a)).
  assert (X := at_least P s qi n false I Hi). lapply X; [clear X; intros X|].
  - unfold swap_one. fold n. unfold hbind in *. destruct (new_dims None n s) as [s1 [l|e]]; [|exact X]. destruct (new_variadic s1) as [s2 [w|e]]; [|exact X]. destruct (inner_match qi (mkshape l (Some w) []) s2) as [s3 [[]|e]]; [|exact X]. unfold hret. auto.
  - intros rho sh _ Hp. specialize (H sh Hp). unfold n. destruct (Z.leb_spec 0 a); lia.
Qed.
