(** * Reductions of concrete shapes: specification and arithmetic *)
From Coq Require Import List Arith Lia Bool ZArith.
From Verif Require Import PyBase Uniadic_Model Shape_Model Shape_Proofs Reduce_Model.
Import ListNotations.
Open Scope list_scope. Open Scope Z_scope.

(** ** Specification *)
(** Negative axes count from the end. *)
Definition normed (R a : Z) : Z := if a <? 0 then a + R else a.
Definition axes_ok (axes : list Z) (R : Z) : Prop := (forall a, In a axes -> 0 <= normed R a < R) /\ NoDup (map (normed R) axes).
(** Positions [i], [i+1], ...: those in [red] disappear or become one. *)
Fixpoint without (red : list Z) (keep : bool) (i : Z) (x : list Z) : list Z :=
  match x with
  | [] => []
  | d :: x => (if existsb (Z.eqb i) red then if keep then [1] else [] else [d]) ++ without red keep (i + 1) x
  end.
Definition reduces (axes : list Z) (keep : bool) (x y : list Z) : Prop :=
  let R := Z.of_nat (length x) in axes_ok axes R /\ y = without (map (normed R) axes) keep 0 x.
(** What the arguments say, with unknown parts *)
Definition completes (l : list (option Z)) (axes : list Z) : Prop := Forall2 (fun o a => match o with Some z => a = z | None => True end) l axes.
Definition reduces_all (keep : bool) (x y : list Z) : Prop := y = if keep then map (fun _ => 1) x else [].
Definition reduces_by (axis : axisv) (kd : option bool) (x y : list Z) : Prop :=
  exists keep, (match kd with Some k => keep = k | None => True end) /\
  match axis with
  | AxInt a => reduces [a] keep x y
  | AxTup l => exists axes, completes l axes /\ reduces axes keep x y
  | AxNone => reduces_all keep x y
  | AxTBD => reduces_all keep x y \/ exists axes, reduces axes keep x y
  end.

(** Where only the rank of the output is known, the rule is right for the following arguments. *)
Definition fine (i o : shrepr) (axis : axisv) (kd : option bool) : Prop :=
  root i <> None -> root o = None ->
  match axes_of axis with
  | None => True
  | Some l => exists axes, l = map Some axes /\
      match kd with
      | Some false => forall a, In a axes -> a <> 0 /\ (- Z.of_nat (length (pre o) + length axes) <= a)
      | Some true => forall a, In a axes -> (0 < a)
      | None => forall a, In a axes -> (0 <= a)
      end
  end.

(** ** Lemmas *)
Lemma existsb_In i l : existsb (Z.eqb i) l = true <-> In i l.
Proof. rewrite existsb_exists. split; [intros (y & H & E); apply Z.eqb_eq in E; congruence|intros H; exists i; split; auto; apply Z.eqb_refl]. Qed.
Lemma existsb_notIn i l : existsb (Z.eqb i) l = false <-> ~ In i l.
Proof. rewrite <- existsb_In. destruct (existsb (Z.eqb i) l); intuition congruence. Qed.
Lemma without_keep_length red i x : length (without red true i x) = length x.
Proof. revert i. induction x as [|d x IH]; intros i; cbn; auto. destruct (existsb (Z.eqb i) red); cbn; rewrite IH; auto. Qed.
Lemma without_app red keep x : forall i y, without red keep i (x ++ y) = without red keep i x ++ without red keep (i + Z.of_nat (length x)) y.
Proof.
  induction x as [|d x IH]; intros i y; cbn [without app length]; [replace (i + Z.of_nat 0) with i by lia; auto|]. rewrite IH, <- app_assoc. do 3 f_equal. lia.
Qed.
Lemma without_none red keep x : forall i, (forall j, i <= j < i + Z.of_nat (length x) -> ~ In j red) -> without red keep i x = x.
Proof.
  induction x as [|d x IH]; intros i H; cbn [without]; auto. rewrite (proj2 (existsb_notIn i red)) by (apply H; cbn; lia). cbn. f_equal. apply IH. intros j Hj. apply H. cbn. lia.
Qed.
Lemma without_ext red red' keep x : forall i, (forall j, i <= j < i + Z.of_nat (length x) -> (In j red <-> In j red')) -> without red keep i x = without red' keep i x.
Proof.
  induction x as [|d x IH]; intros i H; cbn [without]; auto. assert (E : existsb (Z.eqb i) red = existsb (Z.eqb i) red').
  { assert (Hi := H i ltac:(cbn; lia)). rewrite <- !existsb_In in Hi. destruct (existsb (Z.eqb i) red), (existsb (Z.eqb i) red'); intuition congruence. }
  rewrite E, (IH (i + 1)); auto. intros j Hj. apply H. cbn. lia.
Qed.
Lemma without_shift red keep c x : forall i, without (map (fun a => a + c) red) keep (i + c) x = without red keep i x.
Proof.
  induction x as [|d x IH]; intros i; cbn [without]; auto. assert (E : existsb (Z.eqb (i + c)) (map (fun a => a + c) red) = existsb (Z.eqb i) red).
  { apply eq_true_iff_eq. rewrite !existsb_In, in_map_iff. split; [intros (y & E & H); replace i with y by lia; auto|intros H; exists i; auto]. }
  rewrite E. replace (i + c + 1) with ((i + 1) + c) by lia. rewrite IH. auto.
Qed.
(** Seen from the end *)
Lemma without_rev red keep x : forall i, rev (without red keep i x) = without (map (fun a => i + Z.of_nat (length x) - 1 - a) red) keep 0 (rev x).
Proof.
  induction x as [|d x IH]; intros i; cbn [without]; auto. rewrite rev_app_distr. cbn [rev length]. rewrite without_app, rev_length.
  rewrite IH. replace (i + 1 + Z.of_nat (length x) - 1) with (i + Z.of_nat (S (length x)) - 1) by lia. f_equal.
  cbn [without]. replace (existsb _ (map (fun a => i + Z.of_nat (S (length x)) - 1 - a) red)) with (existsb (Z.eqb i) red).
  - rewrite app_nil_r. destruct (existsb (Z.eqb i) red); [destruct keep|]; reflexivity.
  - apply eq_true_iff_eq. rewrite !existsb_In, in_map_iff. split; [intros H; exists i; split; [lia|auto]|intros (y & E & H); replace i with y by lia; auto].
Qed.

(** Number of removed dimensions *)
Fixpoint zseq (i : Z) (n : nat) : list Z := match n with O => [] | S n => i :: zseq (i + 1) n end.
Lemma In_zseq n : forall i j, In j (zseq i n) <-> i <= j < i + Z.of_nat n.
Proof. induction n as [|n IH]; intros i j; cbn [zseq In]; [lia|]. rewrite IH. lia. Qed.
Lemma NoDup_zseq n : forall i, NoDup (zseq i n).
Proof. induction n as [|n IH]; intros i; cbn; constructor; auto. rewrite In_zseq. lia. Qed.
Lemma zseq_length n : forall i, length (zseq i n) = n.
Proof. induction n; intros i; cbn; auto. Qed.
Lemma without_count red x : forall i, (length (without red false i x) + length (filter (fun j => existsb (Z.eqb j) red) (zseq i (length x))) = length x)%nat.
Proof.
  induction x as [|d x IH]; intros i; cbn [without length zseq filter]; auto. specialize (IH (i + 1)). destruct (existsb (Z.eqb i) red); cbn; lia.
Qed.
Lemma NoDup_filter' {A} (f : A -> bool) l : NoDup l -> NoDup (filter f l).
Proof. induction 1 as [|x l H ND IH]; cbn; [constructor|]. destruct (f x); auto. constructor; auto. rewrite filter_In. tauto. Qed.
Lemma without_length red x : NoDup red -> (forall a, In a red -> 0 <= a < Z.of_nat (length x)) -> (length (without red false 0 x) + length red = length x)%nat.
Proof.
  intros ND H. assert (C := without_count red x 0). set (f := filter _ _) in C. assert (F : forall j, In j f <-> In j red).
  { intros j. unfold f. rewrite filter_In, In_zseq, existsb_In. split; [tauto|]. intros Hj. split; [apply H in Hj; lia|auto]. }
  assert (L1 : (length f <= length red)%nat). { apply NoDup_incl_length; [apply NoDup_filter', NoDup_zseq|]. intros j. apply F. }
  assert (L2 : (length red <= length f)%nat). { apply NoDup_incl_length; auto. intros j. apply F. }
  lia.
Qed.
Lemma reduces_length axes keep x y : reduces axes keep x y -> (length y + (if keep then 0 else length axes) = length x)%nat.
Proof.
  intros [[H ND] ->]. destruct keep; [rewrite without_keep_length; lia|].
  assert (E := map_length (normed (Z.of_nat (length x))) axes). rewrite <- E. apply without_length; auto. intros a Ha. apply in_map_iff in Ha as (b & <- & Hb). auto.
Qed.
Lemma axes_ok_length axes R : axes_ok axes R -> Z.of_nat (length axes) <= Z.max 0 R.
Proof.
  intros [H ND]. rewrite <- (map_length (normed R)). assert (L : (length (map (normed R) axes) <= length (zseq 0 (Z.to_nat R)))%nat).
  { apply NoDup_incl_length; auto. intros j Hj. apply in_map_iff in Hj as (a & <- & Ha). rewrite In_zseq. apply H in Ha. lia. }
  rewrite zseq_length in L. lia.
Qed.
Lemma repeated_dup l : repeated l = true <-> ~ NoDup l.
Proof.
  induction l as [|z l IH]; cbn [repeated]; [split; [discriminate|intros H; destruct (H (NoDup_nil _))]|].
  rewrite orb_true_iff, IH. split.
  - intros [M|N] ND; inversion ND; subst; [apply mem_In in M; contradiction|auto].
  - intros H. destruct (mem z l) eqn:M; [auto|]. right. intros ND. apply H. constructor; auto. intros Hin. apply mem_In in Hin. congruence.
Qed.
Lemma not_repeated l : repeated l = false <-> NoDup l.
Proof.
  assert (H := repeated_dup l). destruct (repeated l); [split; [discriminate|intros N; exfalso; apply (proj1 H eq_refl); auto]|]. split; [intros _|auto].
  destruct l as [|z l]; [constructor|]. assert (D : {NoDup (z :: l)} + {~ NoDup (z :: l)}). { apply ListDec.NoDup_dec. apply Z.eq_dec. }
  destruct D as [D|D]; auto. apply H in D. discriminate.
Qed.
(** Maxima *)
Lemma zmax_spec d l : (forall a, In a l -> a <= zmax d l) /\ (l <> [] -> In (zmax d l) l) /\ (l = [] -> zmax d l = d).
Proof.
  destruct l as [|z l]; [split; [intros a []|]; split; [congruence|auto]|]. split; [|split; [|discriminate]]; cbn [zmax].
  - assert (G : forall l z a, In a (z :: l) -> a <= fold_left Z.max l z).
    { clear. induction l as [|y l IH]; intros z a [<-|Ha]; cbn; [lia|destruct Ha| |].
      - assert (X := IH (Z.max z y) (Z.max z y) (or_introl eq_refl)). lia.
      - destruct Ha as [<-|Ha]; [assert (X := IH (Z.max z y) (Z.max z y) (or_introl eq_refl)); lia|apply IH; right; auto]. }
    apply G.
  - intros _. revert z. induction l as [|y l IH]; intros z; cbn; [auto|]. destruct (IH (Z.max z y)) as [E|E]; [|auto].
    rewrite <- E. destruct (Z.max_dec z y) as [M|M]; rewrite M; auto.
Qed.
Lemma zmin_spec d l : (forall a, In a l -> zmin d l <= a) /\ (l <> [] -> In (zmin d l) l) /\ (l = [] -> zmin d l = d).
Proof.
  destruct l as [|z l]; [split; [intros a []|]; split; [congruence|auto]|]. split; [|split; [|discriminate]]; cbn [zmin].
  - assert (G : forall l z a, In a (z :: l) -> fold_left Z.min l z <= a).
    { clear. induction l as [|y l IH]; intros z a [<-|Ha]; cbn; [lia|destruct Ha| |].
      - assert (X := IH (Z.min z y) (Z.min z y) (or_introl eq_refl)). lia.
      - destruct Ha as [<-|Ha]; [assert (X := IH (Z.min z y) (Z.min z y) (or_introl eq_refl)); lia|apply IH; right; auto]. }
    apply G.
  - intros _. revert z. induction l as [|y l IH]; intros z; cbn; [auto|]. destruct (IH (Z.min z y)) as [E|E]; [|auto].
    rewrite <- E. destruct (Z.min_dec z y) as [M|M]; rewrite M; auto.
Qed.

Definition pos_of (axes : list Z) := filter (fun a => 0 <=? a) axes.
Definition neg_of (axes : list Z) := filter (fun a => a <? 0) axes.
Lemma In_pos a axes : In a (pos_of axes) <-> In a axes /\ 0 <= a.
Proof. unfold pos_of. rewrite filter_In, Z.leb_le. tauto. Qed.
Lemma In_neg a axes : In a (neg_of axes) <-> In a axes /\ a < 0.
Proof. unfold neg_of. rewrite filter_In, Z.ltb_lt. tauto. Qed.
Definition max_pos axes := zmax (-1) (pos_of axes) + 1.
Definition max_neg axes := Z.abs (zmin 0 (neg_of axes)).
Lemma max_pos_spec axes : 0 <= max_pos axes /\ (forall a, In a axes -> a < max_pos axes) /\ forall R, axes_ok axes R -> 0 <= R -> max_pos axes <= R.
Proof.
  unfold max_pos. destruct (zmax_spec (-1) (pos_of axes)) as (H1 & H2 & H3).
  assert (N : 0 <= zmax (-1) (pos_of axes) + 1). { destruct (pos_of axes) as [|z l] eqn:E; [rewrite H3; auto; lia|]. assert (X : In (zmax (-1) (z :: l)) (pos_of axes)) by (rewrite E; apply H2; discriminate). apply In_pos in X. lia. }
  split; [auto|]. split.
  - intros a Ha. destruct (Z.lt_ge_cases a 0); [lia|]. assert (X := H1 a (proj2 (In_pos a axes) (conj Ha H))). lia.
  - intros R [H _] HR. destruct (pos_of axes) as [|z l] eqn:E; [rewrite H3; auto; lia|]. assert (X : In (zmax (-1) (z :: l)) (pos_of axes)) by (rewrite E; apply H2; discriminate).
    apply In_pos in X as [X1 X2]. apply H in X1. unfold normed in X1. destruct (Z.ltb_spec (zmax (-1) (z :: l)) 0); lia.
Qed.
Lemma max_neg_spec axes : 0 <= max_neg axes /\ (forall a, In a axes -> - max_neg axes <= a) /\ forall R, axes_ok axes R -> 0 <= R -> max_neg axes <= R.
Proof.
  unfold max_neg. destruct (zmin_spec 0 (neg_of axes)) as (H1 & H2 & H3).
  assert (N : zmin 0 (neg_of axes) <= 0). { destruct (neg_of axes) as [|z l] eqn:E; [rewrite H3; auto; lia|]. assert (X : In (zmin 0 (z :: l)) (neg_of axes)) by (rewrite E; apply H2; discriminate). apply In_neg in X. lia. }
  split; [lia|]. split.
  - intros a Ha. destruct (Z.lt_ge_cases a 0); [|lia]. assert (X := H1 a (proj2 (In_neg a axes) (conj Ha H))). lia.
  - intros R [H _] HR. destruct (neg_of axes) as [|z l] eqn:E; [rewrite H3; auto; lia|]. assert (X : In (zmin 0 (z :: l)) (neg_of axes)) by (rewrite E; apply H2; discriminate).
    apply In_neg in X as [X1 X2]. apply H in X1. unfold normed in X1. destruct (Z.ltb_spec (zmin 0 (z :: l)) 0); lia.
Qed.

(** The minimal rank *)
Definition clash (axes : list Z) (r : Z) : bool := existsb (fun p => mem (p - r)%Z (neg_of axes)) (pos_of axes).
Lemma clash_spec axes r : clash axes r = true <-> exists p n, In p axes /\ 0 <= p /\ In n axes /\ n < 0 /\ p = n + r.
Proof.
  unfold clash. rewrite existsb_exists. split.
  - intros (p & Hp & M). apply mem_In in M. apply In_pos in Hp. apply In_neg in M. exists p, (p - r). intuition lia.
  - intros (p & n & H1 & H2 & H3 & H4 & E). exists p. split; [apply In_pos; auto|]. apply mem_In. apply In_neg. replace (p - r) with n by lia. auto.
Qed.
Lemma ok_no_clash axes R : axes_ok axes R -> clash axes R = false.
Proof.
  intros [H ND]. destruct (clash axes R) eqn:C; auto. apply clash_spec in C as (p & n & H1 & H2 & H3 & H4 & E). exfalso.
  assert (Np : normed R p = normed R n). { unfold normed. destruct (Z.ltb_spec p 0), (Z.ltb_spec n 0); lia. }
  assert (Inj : forall l, NoDup (map (normed R) l) -> forall a b, In a l -> In b l -> normed R a = normed R b -> a = b).
  { clear. induction l as [|z l IH]; intros ND a b Ha Hb Eab; [destruct Ha|]. cbn in ND. inversion ND as [|? ? N1 N2]; subst. destruct Ha as [<-|Ha], Hb as [<-|Hb]; auto.
    - exfalso. apply N1. rewrite Eab. apply in_map. auto.
    - exfalso. apply N1. rewrite <- Eab. apply in_map. auto. }
  assert (p = n) by (eapply Inj; eauto). lia.
Qed.
Lemma min_rank_le axes fuel : forall r R, r <= R -> clash axes R = false -> min_rank fuel (pos_of axes) (neg_of axes) r <= R.
Proof.
  induction fuel as [|fuel IH]; intros r R L C; cbn [min_rank]; auto. fold (clash axes r). destruct (clash axes r) eqn:E; auto. apply IH; auto.
  assert (r <> R) by (intros ->; congruence). lia.
Qed.
Lemma min_rank_ge axes fuel : forall r, r <= min_rank fuel (pos_of axes) (neg_of axes) r.
Proof. induction fuel as [|fuel IH]; intros r; cbn [min_rank]; [lia|]. destruct (existsb _ _); [|lia]. specialize (IH (r + 1)). lia. Qed.
Lemma min_rank_free axes fuel : forall r, max_pos axes + max_neg axes < r + Z.of_nat fuel -> clash axes (min_rank fuel (pos_of axes) (neg_of axes) r) = false.
Proof.
  destruct (max_pos_spec axes) as (_ & P & _). destruct (max_neg_spec axes) as (_ & N & _).
  induction fuel as [|fuel IH]; intros r H; cbn [min_rank].
  - destruct (clash axes r) eqn:C; auto. apply clash_spec in C as (p & n & H1 & H2 & H3 & H4 & E). apply P in H1. apply N in H3. lia.
  - fold (clash axes r). destruct (clash axes r) eqn:C; auto. apply IH. lia.
Qed.
Definition rank_needed (axes : list Z) : Z := min_rank (S (Z.to_nat (max_pos axes + max_neg axes))) (pos_of axes) (neg_of axes) (Z.max (max_pos axes) (max_neg axes)).
Lemma rank_needed_le axes R : axes_ok axes R -> 0 <= R -> rank_needed axes <= R.
Proof.
  intros H HR. apply min_rank_le; [|apply ok_no_clash; auto]. destruct (max_pos_spec axes) as (_ & _ & P). destruct (max_neg_spec axes) as (_ & _ & N). specialize (P R H HR). specialize (N R H HR). lia.
Qed.
Lemma rank_needed_ok axes : NoDup axes -> axes_ok axes (rank_needed axes).
Proof.
  intros ND. destruct (max_pos_spec axes) as (P0 & P & _). destruct (max_neg_spec axes) as (N0 & N & _).
  assert (G := min_rank_ge axes (S (Z.to_nat (max_pos axes + max_neg axes))) (Z.max (max_pos axes) (max_neg axes))).
  assert (F := min_rank_free axes (S (Z.to_nat (max_pos axes + max_neg axes))) (Z.max (max_pos axes) (max_neg axes)) ltac:(lia)). fold (rank_needed axes) in G, F.
  set (r := rank_needed axes) in *. clearbody r. split.
  - intros a Ha. assert (Pa := P a Ha). assert (Na := N a Ha). unfold normed. destruct (Z.ltb_spec a 0); lia.
  - clear P N. assert (K : forall a b, In a axes -> In b axes -> normed r a = normed r b -> a = b).
    { intros a b Ha Hb E. unfold normed in E. destruct (Z.ltb_spec a 0), (Z.ltb_spec b 0); try lia.
      - exfalso. assert (C : clash axes r = true) by (apply clash_spec; exists b, a; repeat split; auto; lia). congruence.
      - exfalso. assert (C : clash axes r = true) by (apply clash_spec; exists a, b; repeat split; auto; lia). congruence. }
    clear - ND K. induction ND as [|a l H ND IH]; cbn; constructor.
    + intros M. apply in_map_iff in M as (b & E & Hb). assert (b = a) by (apply K; [right; auto|left; auto|auto]). congruence.
    + apply IH. intros x y Hx Hy. apply K; right; auto.
Qed.
