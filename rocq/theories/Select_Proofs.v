(** * Proofs about selecting entries. *)
From Coq Require Import Reals List ZArith Lia Lra Permutation Sorted.
From Verif Require Import PyBase Corr_Spec Corr_Proofs Axis_Model Axis_Spec Axis_Proofs Move_Model Move_Spec Move_Proofs Move_Proofs2 Select_Model Select_Spec.
From Verif Require Index_Spec.
Import ListNotations.
Open Scope R_scope.
Open Scope list_scope.
Open Scope res_scope.

(** ** Sorted lists with the same members *)
Lemma sorted_same (le : nat -> nat -> Prop) (l m : list nat) :
  (forall a b, le a b -> ~ le b a) ->
  StronglySorted le l -> StronglySorted le m -> (forall k, In k l <-> In k m) -> l = m.
Proof.
  intros AS S. revert m. induction S as [|a l Sl IH Hl]; intros m Sm E.
  - destruct m as [|b m]; [easy|]. exfalso. apply (proj2 (E b)). now left.
  - assert (NI : forall k, le k k -> False) by (intros k H; apply (AS k k H H)).
    rewrite Forall_forall in Hl.
    destruct Sm as [|b m Sm Hm]; [exfalso; apply (proj1 (E a)); now left|]. rewrite Forall_forall in Hm.
    assert (a = b).
    { destruct (proj1 (E a) (or_introl eq_refl)) as [->|Ia]; [easy|]. destruct (proj2 (E b) (or_introl eq_refl)) as [->|Ib]; [easy|].
      exfalso. apply (AS a b); [now apply Hl|now apply Hm]. }
    subst b. f_equal. apply IH; [easy|]. intros k. split; intros Hk.
    + destruct (proj1 (E k) (or_intror Hk)) as [->|]; [|easy]. exfalso. apply (NI k). now apply Hl.
    + destruct (proj2 (E k) (or_intror Hk)) as [->|]; [|easy]. exfalso. apply (NI k). now apply Hm.
Qed.
Lemma filter_sorted (le : nat -> nat -> Prop) f l : StronglySorted le l -> StronglySorted le (filter f l).
Proof.
  induction 1 as [|a l _ IH H]; cbn; [constructor|]. destruct (f a); [|easy]. constructor; [easy|].
  rewrite Forall_forall in *. intros b Hb. apply filter_In in Hb. now apply H.
Qed.
Lemma seq_lt n : forall a, StronglySorted lt (seq a n).
Proof.
  induction n as [|n IH]; intros a; cbn; constructor; [apply IH|]. apply Forall_forall. intros b Hb. apply in_seq in Hb. lia.
Qed.
Lemma map_seq_sorted (le : nat -> nat -> Prop) (f : nat -> nat) n : (forall i j, (i < j < n)%nat -> le (f i) (f j)) -> StronglySorted le (map f (seq 0 n)).
Proof.
  intros H. assert (Q : forall m a, (a + m <= n)%nat -> StronglySorted le (map f (seq a m))).
  { induction m as [|m IH]; intros a L; cbn; constructor; [apply IH; lia|]. apply Forall_forall. intros b Hb. apply in_map_iff in Hb as (j & <- & Hj).
    apply in_seq in Hj. apply H. lia. }
  apply Q. lia.
Qed.
Lemma rev_sorted (le : nat -> nat -> Prop) l : StronglySorted le l -> StronglySorted (fun a b => le b a) (rev l).
Proof.
  induction 1 as [|a l _ IH H]; cbn; [constructor|].
  assert (Q : forall l' : list nat, StronglySorted (fun a b => le b a) l' -> Forall (le a) l' -> StronglySorted (fun a b => le b a) (l' ++ [a])).
  { induction 1 as [|b l' _ IHl Hb]; intros F; cbn; [repeat constructor|]. inversion F; subst. constructor; [now apply IHl|].
    rewrite Forall_forall in *. intros c Hc. apply in_app_or in Hc as [Hc|[<-|[] ] ]; [now apply Hb|easy]. }
  apply Q; [easy|]. rewrite Forall_forall in *. intros b Hb. apply H. now apply in_rev.
Qed.

(** ** Slices *)
Definition run (a c : Z) (len : nat) : list nat := map (fun j => Z.to_nat (a + Z.of_nat j * c)%Z) (seq 0 len).
Lemma div_count e k j : (0 < k)%Z -> (0 <= j)%Z -> (0 < e)%Z -> (j < (e - 1) / k + 1)%Z <-> (j * k < e)%Z.
Proof.
  intros K J E. split; intros H.
  - assert (j <= (e - 1) / k)%Z by lia. pose proof (Z.mul_div_le (e - 1) k K). nia.
  - assert (j <= (e - 1) / k)%Z; [|lia]. apply Z.div_le_lower_bound; lia.
Qed.
Lemma slice_ok (a b c : option Z) n st k len : slice_indices a b c (Z.of_nat n) = Ok (st, k, len) ->
  (k <> 0)%Z /\ c <> Some 0%Z /\ (forall j, (j < len)%nat -> 0 <= st + Z.of_nat j * k < Z.of_nat n)%Z /\ picked a b c n = run st k len.
Proof.
  unfold slice_indices. set (kk := match c with Some k0 => k0 | None => 1%Z end). destruct (Z.eqb_spec kk 0) as [|NK]; [easy|].
  intros E. assert (CN : c <> Some 0%Z) by (intros ->; now apply NK).
  destruct (Z.ltb_spec kk 0) as [K|K]; injection E as E1 E2 E3.
  - (* downwards *)
    set (stop := match b with Some b0 => clamp_bound (Z.of_nat n) (-1) (Z.of_nat n - 1) b0 | None => (-1)%Z end) in E3.
    rewrite E2 in *. rewrite E1 in *. subst k.
    assert (BS : (-1 <= stop)%Z) by (unfold stop, clamp_bound; destruct b as [z|]; [destruct (Z.ltb_spec z 0); lia|lia]).
    assert (BA : (st <= Z.of_nat n - 1)%Z) by (rewrite <- E1; unfold clamp_bound; destruct a as [z|]; [destruct (Z.ltb_spec z 0); lia|lia]).
    assert (BA1 : (-1 <= st)%Z) by (rewrite <- E1; unfold clamp_bound; destruct a as [z|]; [destruct (Z.ltb_spec z 0); lia|lia]).
    assert (HL : forall j, (j < len)%nat <-> (stop < st + Z.of_nat j * kk)%Z).
    { intros j. rewrite <- E3. destruct (Z.ltb_spec stop st) as [L|L].
      - pose proof (div_count (st - stop) (- kk) (Z.of_nat j) ltac:(lia) ltac:(lia) ltac:(lia)) as D. lia.
      - split; [lia|]. nia. }
    assert (RG : forall j, (j < len)%nat -> (0 <= st + Z.of_nat j * kk < Z.of_nat n)%Z).
    { intros j Hj. apply HL in Hj. nia. }
    split; [easy|]. split; [easy|]. split; [easy|]. unfold picked, run.
    assert (PC : picked a b c n = rev (filter (fun k => Index_Spec.taken a b c (Z.of_nat n) (Z.of_nat k)) (seq 0 n))).
    { unfold picked. destruct c as [c0|]; [|unfold kk in K; lia]. cbv zeta. unfold kk in K. destruct (Z.ltb_spec c0 0); [easy|lia]. }
    unfold picked in PC. rewrite PC. apply (sorted_same gt).
    + intros x y Hx Hy. lia.
    + apply (rev_sorted lt). apply filter_sorted, seq_lt.
    + apply map_seq_sorted. intros i j Hij. pose proof (RG i ltac:(lia)) as R1. pose proof (RG j ltac:(lia)) as R2. nia.
    + intros q. rewrite <- in_rev, filter_In, in_seq, in_map_iff.
      assert (TK : (q < n)%nat -> (Index_Spec.taken a b c (Z.of_nat n) (Z.of_nat q) = true <->
                    (Z.of_nat q <= st)%Z /\ (stop < Z.of_nat q)%Z /\ ((st - Z.of_nat q) mod (- kk) = 0)%Z)).
      { intros Hq. unfold Index_Spec.taken. fold kk. destruct (Z.ltb_spec 0 kk) as [|_]; [lia|].
        set (a' := match a with Some a0 => Z.min (Z.of_nat n - 1) (Index_Spec.from_end (Z.of_nat n) a0) | None => (Z.of_nat n - 1)%Z end).
        assert (EA : a' = st \/ (a' < 0)%Z /\ st = (-1)%Z).
        { unfold a'. rewrite <- E1. unfold Index_Spec.from_end, clamp_bound. destruct a as [z|]; [|now left]. destruct (Z.ltb_spec z 0); lia. }
        assert (EB : match b with Some b0 => (Index_Spec.from_end (Z.of_nat n) b0 <? Z.of_nat q)%Z | None => true end = true <-> (stop < Z.of_nat q)%Z \/ (Z.of_nat n <= Z.of_nat q)%Z).
        { unfold stop, Index_Spec.from_end, clamp_bound. destruct b as [z|]; [|split; [lia|easy] ]. destruct (Z.ltb_spec z 0); rewrite Z.ltb_lt; lia. }
        rewrite !Bool.andb_true_iff, EB, Z.leb_le, Z.eqb_eq. destruct EA as [->|[EA ->] ]; [|lia]. lia. }
      split.
      * intros [Hq T]. apply TK in T as (T1 & T2 & T3); [|lia]. apply Z.mod_divide in T3; [|lia]. destruct T3 as [j Hj].
        exists (Z.to_nat j). assert (0 <= j)%Z by nia. split; [rewrite Z2Nat.id by easy; lia|]. apply in_seq. split; [lia|]. cbn. apply HL. rewrite Z2Nat.id by easy. lia.
      * intros (j & <- & Hj). apply in_seq in Hj. pose proof (RG j ltac:(lia)) as R1. pose proof (proj1 (HL j) ltac:(lia)) as R2.
        split; [lia|]. apply TK; [lia|]. rewrite Z2Nat.id by lia. split; [nia|]. split; [easy|]. apply Z.mod_divide; [lia|]. exists (Z.of_nat j). lia.
  - (* upwards *)
    set (stop := match b with Some b0 => clamp_bound (Z.of_nat n) 0 (Z.of_nat n) b0 | None => Z.of_nat n end) in E3.
    rewrite E2 in *. rewrite E1 in *. subst k.
    assert (BS : (stop <= Z.of_nat n)%Z) by (unfold stop, clamp_bound; destruct b as [z|]; [destruct (Z.ltb_spec z 0); lia|lia]).
    assert (BA : (0 <= st)%Z) by (rewrite <- E1; unfold clamp_bound; destruct a as [z|]; [destruct (Z.ltb_spec z 0); lia|lia]).
    assert (HL : forall j, (j < len)%nat <-> (st + Z.of_nat j * kk < stop)%Z).
    { intros j. rewrite <- E3. destruct (Z.ltb_spec st stop) as [L|L].
      - pose proof (div_count (stop - st) kk (Z.of_nat j) ltac:(lia) ltac:(lia) ltac:(lia)) as D. lia.
      - split; [lia|]. nia. }
    assert (RG : forall j, (j < len)%nat -> (0 <= st + Z.of_nat j * kk < Z.of_nat n)%Z).
    { intros j Hj. apply HL in Hj. nia. }
    split; [easy|]. split; [easy|]. split; [easy|]. unfold run.
    assert (PC : picked a b c n = filter (fun k => Index_Spec.taken a b c (Z.of_nat n) (Z.of_nat k)) (seq 0 n)).
    { unfold picked. destruct c as [c0|]; [|easy]. cbv zeta. unfold kk in K. destruct (Z.ltb_spec c0 0); [lia|easy]. }
    rewrite PC. apply (sorted_same lt).
    + intros x y Hx Hy. lia.
    + apply filter_sorted, seq_lt.
    + apply map_seq_sorted. intros i j Hij. pose proof (RG i ltac:(lia)) as R1. pose proof (RG j ltac:(lia)) as R2. nia.
    + intros q. rewrite filter_In, in_seq, in_map_iff.
      assert (TK : (q < n)%nat -> (Index_Spec.taken a b c (Z.of_nat n) (Z.of_nat q) = true <->
                    (st <= Z.of_nat q)%Z /\ (Z.of_nat q < stop)%Z /\ ((Z.of_nat q - st) mod kk = 0)%Z)).
      { intros Hq. unfold Index_Spec.taken. fold kk. destruct (Z.ltb_spec 0 kk) as [_|]; [|lia].
        set (a' := match a with Some a0 => Z.max 0 (Index_Spec.from_end (Z.of_nat n) a0) | None => 0%Z end).
        assert (EA : a' = st \/ (Z.of_nat n < a')%Z /\ st = Z.of_nat n).
        { unfold a'. rewrite <- E1. unfold Index_Spec.from_end, clamp_bound. destruct a as [z|]; [|now left]. destruct (Z.ltb_spec z 0); lia. }
        assert (EB : match b with Some b0 => (Z.of_nat q <? Index_Spec.from_end (Z.of_nat n) b0)%Z | None => true end = true <-> (Z.of_nat q < stop)%Z \/ (Z.of_nat n <= Z.of_nat q)%Z).
        { unfold stop, Index_Spec.from_end, clamp_bound. destruct b as [z|]; [|split; [lia|easy] ]. destruct (Z.ltb_spec z 0); rewrite Z.ltb_lt; lia. }
        rewrite !Bool.andb_true_iff, EB, Z.leb_le, Z.eqb_eq. destruct EA as [->|[EA ->] ]; [|lia]. lia. }
      split.
      * intros [Hq T]. apply TK in T as (T1 & T2 & T3); [|lia]. apply Z.mod_divide in T3; [|lia]. destruct T3 as [j Hj].
        exists (Z.to_nat j). assert (0 <= j)%Z by nia. split; [rewrite Z2Nat.id by easy; lia|]. apply in_seq. split; [lia|]. cbn. apply HL. rewrite Z2Nat.id by easy. lia.
      * intros (j & <- & Hj). apply in_seq in Hj. pose proof (RG j ltac:(lia)) as R1. pose proof (proj1 (HL j) ltac:(lia)) as R2.
        split; [lia|]. apply TK; [lia|]. rewrite Z2Nat.id by lia. split; [nia|]. split; [easy|]. apply Z.mod_divide; [lia|]. exists (Z.of_nat j). lia.
Qed.
Lemma slice_some (a b c : option Z) n : c <> Some 0%Z -> exists q, slice_indices a b c n = Ok q.
Proof.
  intros N. unfold slice_indices. destruct (Z.eqb_spec (match c with Some k => k | None => 1%Z end) 0) as [E|_]; [|now eexists].
  destruct c as [c|]; [|easy]. now subst.
Qed.
Lemma run_length a c len : length (run a c len) = len.
Proof. unfold run. now rewrite map_length, seq_length. Qed.
Lemma run_nth a c len j : (j < len)%nat -> nth_error (run a c len) j = Some (Z.to_nat (a + Z.of_nat j * c)%Z).
Proof.
  intros H. unfold run. rewrite nth_error_map. rewrite (nth_error_nth' _ 0%nat) by (now rewrite seq_length). now rewrite seq_nth.
Qed.

(** ** Plans *)
Inductive good : list part -> list nat -> Prop :=
| good_nil : good [] []
| good_one k d ps s : (k < d)%nat -> good ps s -> good (POne k :: ps) (d :: s)
| good_run a c n d ps s : (c <> 0)%Z -> (forall j, (j < n)%nat -> 0 <= a + Z.of_nat j * c < Z.of_nat d)%Z -> good ps s -> good (PRun a c n :: ps) (d :: s)
| good_new ps s : good ps s -> good (PNew :: ps) s.
Lemma plan_good es : forall s ps, plan es s = Ok ps -> good ps s.
Proof.
  induction es as [|e es IH]; intros s ps; cbn [plan].
  - destruct s; [|easy]. intros E. injection E as <-. constructor.
  - destruct e as [z|a b c| |]; [..|easy].
    + destruct s as [|d s]; [easy|]. destruct (norm_axis d z) as [k|] eqn:E1; [|easy]. cbn [bind].
      destruct (plan es s) as [ps'|] eqn:E2; [|easy]. cbn [bind]. intros E. injection E as <-. constructor; [|now apply IH]. now apply (norm_axis_inv d z).
    + destruct s as [|d s]; [easy|]. destruct (slice_indices a b c (Z.of_nat d)) as [ [ [st k] len]|] eqn:E1; [|easy]. cbn [bind].
      destruct (plan es s) as [ps'|] eqn:E2; [|easy]. cbn [bind fst snd]. intros E. injection E as <-.
      destruct (slice_ok _ _ _ _ _ _ _ E1) as (H1 & _ & H2 & _). constructor; [easy|easy|now apply IH].
    + destruct (plan es s) as [ps'|] eqn:E2; [|easy]. cbn [bind]. intros E. injection E as <-. constructor. now apply IH.
Qed.
Lemma good_inside ps s : good ps s -> forall o, inside (part_shape ps) o -> inside s (part_index ps o).
Proof.
  induction 1 as [|k d ps s Hk _ IH|a c n d ps s Hc Hr _ IH|ps s _ IH]; intros o Ho; cbn [part_shape part_index] in *.
  - constructor.
  - constructor; [easy|now apply IH].
  - inversion Ho as [|d' j s' o' Hj Ho']; subst. cbn. constructor; [|now apply IH]. specialize (Hr j Hj). lia.
  - inversion Ho as [|d' j s' o' Hj Ho']; subst. cbn. now apply IH.
Qed.
Lemma good_inj ps s : good ps s -> forall o o', inside (part_shape ps) o -> inside (part_shape ps) o' ->
  part_index ps o = part_index ps o' -> o = o'.
Proof.
  induction 1 as [|k d ps s Hk _ IH|a c n d ps s Hc Hr _ IH|ps s _ IH]; intros o o' Ho Ho' E; cbn [part_shape part_index] in *.
  - inversion Ho. now inversion Ho'.
  - injection E as E. now apply IH.
  - inversion Ho as [|d1 j1 s1 o1 Hj1 Ho1]; subst. inversion Ho' as [|d2 j2 s2 o2 Hj2 Ho2]; subst. injection E as E1 E2.
    pose proof (Hr _ Hj1). pose proof (Hr _ Hj2). f_equal; [|now apply IH]. assert (Z.of_nat j1 * c = Z.of_nat j2 * c)%Z by lia. nia.
  - inversion Ho as [|d1 j1 s1 o1 Hj1 Ho1]; subst. inversion Ho' as [|d2 j2 s2 o2 Hj2 Ho2]; subst. f_equal; [lia|now apply IH].
Qed.

(** ** Plans and the specification *)
Definition meets (es : list item) (s : list nat) (ps : list part) : Prop :=
  gives es s (part_shape ps) /\ forall o, inside (part_shape ps) o -> takes es s o (part_index ps o).
Lemma names_det r z k k' : names r z k -> names r z k' -> k = k'.
Proof. unfold names. lia. Qed.
Lemma meets_int z k d es s ps : names d z k -> meets es s ps -> meets (IInt z :: es) (d :: s) (POne k :: ps).
Proof.
  intros N [H1 H2]. split; cbn [part_shape]; [now apply (gives_int z k)|]. intros o Ho. cbn [part_index]. constructor; [easy|now apply H2].
Qed.
Lemma meets_slice a b c st k len d es s ps : slice_indices a b c (Z.of_nat d) = Ok (st, k, len) -> meets es s ps ->
  meets (ISlice a b c :: es) (d :: s) (PRun st k len :: ps).
Proof.
  intros E [H1 H2]. destruct (slice_ok _ _ _ _ _ _ _ E) as (K & C & R & P). split; cbn [part_shape].
  - replace len with (length (picked a b c d)) by (now rewrite P, run_length). now constructor.
  - intros o Ho. inversion Ho as [|d1 j s1 o1 Hj Ho1]; subst. cbn [part_index]. constructor; [|now apply H2]. rewrite P. now apply run_nth.
Qed.
Lemma meets_new es s ps : meets es s ps -> meets (INew :: es) s (PNew :: ps).
Proof.
  intros [H1 H2]. split; cbn [part_shape]; [now constructor|]. intros o Ho. inversion Ho as [|d1 j s1 o1 Hj Ho1]; subst. cbn [part_index].
  replace j with 0%nat by lia. constructor. now apply H2.
Qed.
Definition whole (d : nat) : part := PRun 0 1 d.
Lemma slice_all d : slice_indices None None None (Z.of_nat d) = Ok (0%Z, 1%Z, d).
Proof.
  unfold slice_indices. change (1 =? 0)%Z with false. change (1 <? 0)%Z with false. cbv iota zeta. f_equal. f_equal.
  destruct (Z.ltb_spec 0 (Z.of_nat d)); [|lia]. rewrite Z.div_1_r. lia.
Qed.
Lemma part_shape_app m ps : part_shape (map whole m ++ ps) = m ++ part_shape ps.
Proof. induction m as [|d m IH]; cbn; congruence. Qed.
Lemma part_index_app m ps j o : inside m j -> part_index (map whole m ++ ps) (j ++ o) = j ++ part_index ps o.
Proof.
  intros H. induction H as [|d k m j Hk _ IH]; cbn; [easy|]. rewrite IH. f_equal. lia.
Qed.
Lemma meets_rest m es s ps : meets es s ps -> meets (IRest :: es) (m ++ s) (map whole m ++ ps).
Proof.
  intros [H1 H2]. split; [rewrite part_shape_app; now constructor|]. rewrite part_shape_app. intros o Ho.
  apply Forall2_app_inv_l in Ho as (j & o' & Hj & Ho & ->). rewrite part_index_app by easy. constructor; [easy|now apply H2].
Qed.
Lemma plan_rest m es s : plan (repeat (ISlice None None None) (length m) ++ es) (m ++ s) = let* ps := plan es s in Ok (map whole m ++ ps).
Proof.
  induction m as [|d m IH]; cbn [length repeat app plan map]; [now destruct (plan es s)|]. rewrite slice_all. cbn [bind]. rewrite IH.
  now destruct (plan es s).
Qed.

(** Without [...]. *)
Lemma plain_plan es : rests es = 0%nat -> forall s ps, plan es s = Ok ps -> meets es s ps /\ length (filter consumes es) = length s.
Proof.
  unfold rests. induction es as [|e es IH]; intros R s ps; cbn [plan].
  - destruct s; [|easy]. intros E. injection E as <-. split; [|easy]. split; [constructor|]. intros o Ho. inversion Ho. constructor.
  - destruct e as [z|a b c| |]; cbn in R; [..|easy].
    + destruct s as [|d s]; [easy|]. destruct (norm_axis d z) as [k|] eqn:E1; [|easy]. cbn [bind].
      destruct (plan es s) as [ps'|] eqn:E2; [|easy]. cbn [bind]. intros E. injection E as <-. destruct (IH R _ _ E2) as [M L].
      split; [|cbn; now rewrite L]. apply meets_int; [now apply norm_axis_inv|easy].
    + destruct s as [|d s]; [easy|]. destruct (slice_indices a b c (Z.of_nat d)) as [ [ [st k] len]|] eqn:E1; [|easy]. cbn [bind].
      destruct (plan es s) as [ps'|] eqn:E2; [|easy]. cbn [bind fst snd]. intros E. injection E as <-. destruct (IH R _ _ E2) as [M L].
      split; [|cbn; now rewrite L]. now apply meets_slice.
    + destruct (plan es s) as [ps'|] eqn:E2; [|easy]. cbn [bind]. intros E. injection E as <-. destruct (IH R _ _ E2) as [M L].
      split; [|easy]. now apply meets_new.
Qed.
Lemma plain_gives es s t : rests es = 0%nat -> gives es s t -> exists ps, plan es s = Ok ps /\ part_shape ps = t /\ length (filter consumes es) = length s.
Proof.
  unfold rests. intros R H. revert R. induction H as [|z k d es s t N _ IH|a b c d es s t C _ IH|es s t _ IH|m es s t _ IH]; intros R; cbn in R; [..|easy].
  - now exists [].
  - destruct (IH R) as (ps & E & S & L). exists (POne k :: ps). cbn. rewrite (norm_axis_names _ _ _ N). cbn [bind]. rewrite E. cbn. now rewrite L.
  - destruct (IH R) as (ps & E & S & L). destruct (slice_some a b c (Z.of_nat d) C) as [ [ [st k] len] Q].
    exists (PRun st k len :: ps). cbn [plan]. rewrite Q. cbn [bind]. rewrite E. cbn. rewrite L, S. split; [easy|]. split; [|easy]. f_equal.
    destruct (slice_ok _ _ _ _ _ _ _ Q) as (_ & _ & _ & P). now rewrite P, run_length.
  - destruct (IH R) as (ps & E & S & L). exists (PNew :: ps). cbn. rewrite E. cbn. now rewrite S.
Qed.
(** With one [...]. *)
Lemma fill_plan es : rests es = 1%nat -> forall s n ps, (n + length (filter consumes es) = length s)%nat ->
  plan (fill n es) s = Ok ps -> meets es s ps.
Proof.
  unfold rests. induction es as [|e es IH]; intros R s n ps L; cbn [fill]; [easy|].
  destruct e as [z|a b c| |]; cbn in R.
  - destruct s as [|d s]; cbn [plan]; [easy|]. destruct (norm_axis d z) as [k|] eqn:E1; [|easy]. cbn [bind].
    destruct (plan (fill n es) s) as [ps'|] eqn:E2; [|easy]. cbn [bind]. intros E. injection E as <-.
    apply meets_int; [now apply norm_axis_inv|]. apply (IH R s n); [cbn in L; lia|easy].
  - destruct s as [|d s]; cbn [plan]; [easy|]. destruct (slice_indices a b c (Z.of_nat d)) as [ [ [st k] len]|] eqn:E1; [|easy]. cbn [bind].
    destruct (plan (fill n es) s) as [ps'|] eqn:E2; [|easy]. cbn [bind fst snd]. intros E. injection E as <-.
    apply meets_slice; [easy|]. apply (IH R s n); [cbn in L; lia|easy].
  - cbn [plan]. destruct (plan (fill n es) s) as [ps'|] eqn:E2; [|easy]. cbn [bind]. intros E. injection E as <-.
    apply meets_new. now apply (IH R s n).
  - cbn in L. rewrite <- (firstn_skipn n s). set (m := firstn n s). assert (LM : n = length m) by (unfold m; rewrite firstn_length; lia).
    rewrite LM at 1. rewrite plan_rest. destruct (plan es (skipn n s)) as [ps'|] eqn:E2; [|easy]. cbn [bind]. intros E. injection E as <-.
    apply meets_rest. apply plain_plan; [unfold rests; lia|easy].
Qed.
Lemma fill_gives es s t : rests es = 1%nat -> gives es s t -> (length (filter consumes es) <= length s)%nat /\
  exists ps, plan (fill (length s - length (filter consumes es)) es) s = Ok ps /\ part_shape ps = t.
Proof.
  unfold rests. intros R H. revert R. induction H as [|z k d es s t N _ IH|a b c d es s t C _ IH|es s t _ IH|m es s t H _]; intros R; cbn in R; [easy|..].
  - destruct (IH R) as (L & ps & E & S). split; [cbn; lia|]. exists (POne k :: ps). cbn. rewrite (norm_axis_names _ _ _ N). cbn [bind]. now rewrite E.
  - destruct (IH R) as (L & ps & E & S). split; [cbn; lia|]. destruct (slice_some a b c (Z.of_nat d) C) as [ [ [st k] len] Q].
    exists (PRun st k len :: ps). cbn [fill filter consumes length Nat.sub plan]. rewrite Q. cbn [bind]. rewrite E. cbn. split; [easy|]. rewrite S. f_equal.
    destruct (slice_ok _ _ _ _ _ _ _ Q) as (_ & _ & _ & P). now rewrite P, run_length.
  - destruct (IH R) as (L & ps & E & S). split; [easy|]. exists (PNew :: ps). cbn. rewrite E. cbn. now rewrite S.
  - destruct (plain_gives es s t) as (ps & E & S & L); [unfold rests; lia|easy|]. cbn [filter consumes]. rewrite app_length, L. split; [lia|].
    exists (map whole m ++ ps). cbn [fill]. replace (length m + length s - length s)%nat with (length m) by lia. rewrite plan_rest, E. cbn.
    split; [easy|]. now rewrite part_shape_app, S.
Qed.
Lemma rests_filter es : rests es = length (filter is_rest es).
Proof. reflexivity. Qed.
Lemma existsb_filter {A} (f : A -> bool) l : existsb f l = negb (Nat.eqb (length (filter f l)) 0).
Proof. induction l as [|a l IH]; cbn; [easy|]. destruct (f a); cbn; [easy|apply IH]. Qed.
Lemma complete_once es : (rests es <= 1)%nat -> rests (complete es) = 1%nat.
Proof.
  intros R. unfold complete. destruct (Nat.eq_dec (rests es) 0) as [Z|N]; [|lia]. unfold rests in *. rewrite filter_app, app_length. cbn. lia.
Qed.
Lemma complete_consumes es : filter consumes (complete es) = filter consumes es.
Proof. unfold complete. destruct (Nat.eq_dec (rests es) 0); [|easy]. rewrite filter_app. cbn. apply app_nil_r. Qed.
Lemma index_plan_unfold s es : (rests es <= 1)%nat -> (length (filter consumes es) <= length s)%nat ->
  index_plan s es = plan (fill (length s - length (filter consumes (complete es))) (complete es)) s.
Proof.
  intros R L. unfold index_plan, complete_index. rewrite complete_consumes. rewrite <- rests_filter.
  destruct (Nat.ltb_spec 1 (rests es)); [lia|]. destruct (Nat.ltb_spec (length s) (length (filter consumes es))); [lia|]. cbn [bind].
  rewrite existsb_filter, <- rests_filter. unfold complete. destruct (Nat.eq_dec (rests es) 0) as [->|N]; [easy|].
  destruct (Nat.eqb_spec (rests es) 0); [easy|reflexivity].
Qed.
Lemma index_plan_ok s es t : (rests es <= 1)%nat -> gives (complete es) s t ->
  exists ps, index_plan s es = Ok ps /\ part_shape ps = t /\ good ps s /\ meets (complete es) s ps.
Proof.
  intros R H. pose proof (complete_once es R) as R1. destruct (fill_gives _ _ _ R1 H) as (L & ps & E & S).
  exists ps. rewrite index_plan_unfold by (try easy; now rewrite <- complete_consumes). split; [easy|]. split; [easy|]. split; [now apply plan_good in E|].
  apply (fill_plan _ R1 s (length s - length (filter consumes (complete es)))); [lia|easy].
Qed.
Lemma index_plan_inv s es ps : index_plan s es = Ok ps -> (rests es <= 1)%nat /\ gives (complete es) s (part_shape ps).
Proof.
  intros E. assert (R : (rests es <= 1)%nat /\ (length (filter consumes es) <= length s)%nat).
  { unfold index_plan, complete_index in E. rewrite <- rests_filter in E. destruct (Nat.ltb_spec 1 (rests es)); [easy|].
    destruct (Nat.ltb_spec (length s) (length (filter consumes es))); [easy|]. lia. }
  destruct R as [R L]. split; [easy|]. rewrite index_plan_unfold in E by easy.
  apply (fill_plan _ (complete_once es R) s _ ps) in E; [apply E|]. rewrite complete_consumes. lia.
Qed.
Lemma takes_det es : (rests es <= 1)%nat -> forall s o i i', takes es s o i -> takes es s o i' -> i = i'.
Proof.
  intros R s o i i' H. revert i'.
  assert (LEN : forall es s o i, takes es s o i -> length i = length s).
  { clear. induction 1 as [| | | |m j es s o i Hj _ IH]; cbn; try lia. rewrite !app_length, (inside_length _ _ Hj). lia. }
  induction H as [|z k d es s o i N H IH|a b c d j k es s o i N H IH|es s o i H IH|m j es s o i Hj H IH]; intros i' H'.
  - now inversion H'.
  - inversion H' as [|z1 k1 d1 es1 s1 o1 i1 N1 H1| | |]; subst. f_equal; [now apply (names_det d z)|now apply IH].
  - inversion H' as [| |a1 b1 c1 d1 j1 k1 es1 s1 o1 i1 N1 H1| |]; subst. f_equal; [congruence|now apply IH].
  - inversion H'; subst. now apply IH.
  - unfold rests in *. cbn in R. remember (IRest :: es) as es' eqn:E1. remember (m ++ s) as s' eqn:E2. remember (j ++ o) as o' eqn:E3.
    destruct H' as [| | | |m1 j1 es1 s1 o1 i1 Hj1 H1]; try easy. injection E1 as ->.
    assert (Q : length s1 = length s).
    { assert (CN : forall s o i, takes es s o i -> length s = length (filter consumes es)).
      { intros s2 o2 i2 H2. assert (R2 : length (filter (fun e => match e with IRest => true | _ => false end) es) = 0%nat) by lia.
        clear -H2 R2. induction H2; cbn in *; try lia. }
      rewrite (CN _ _ _ H1), (CN _ _ _ H). reflexivity. }
    assert (LM : length m1 = length m) by (apply (f_equal (@length nat)) in E2; rewrite !app_length in E2; lia).
    assert (ES : m1 = m /\ s1 = s) by (split; [apply (f_equal (firstn (length m))) in E2|apply (f_equal (skipn (length m))) in E2];
      rewrite ?firstn_app, ?skipn_app, <- ?LM, ?firstn_all, ?skipn_all, ?Nat.sub_diag in E2; cbn in E2; rewrite ?app_nil_r in E2; try easy;
      rewrite LM, ?firstn_all, ?skipn_all, ?Nat.sub_diag in E2; cbn in E2; now rewrite ?app_nil_r in E2).
    destruct ES as [-> ->].
    assert (LJ : length j1 = length j) by (now rewrite (inside_length _ _ Hj1), (inside_length _ _ Hj)).
    assert (EO : j1 = j /\ o1 = o) by (split; [apply (f_equal (firstn (length j))) in E3|apply (f_equal (skipn (length j))) in E3];
      rewrite ?firstn_app, ?skipn_app, <- ?LJ, ?firstn_all, ?skipn_all, ?Nat.sub_diag in E3; cbn in E3; rewrite ?app_nil_r in E3; try easy;
      rewrite LJ, ?firstn_all, ?skipn_all, ?Nat.sub_diag in E3; cbn in E3; now rewrite ?app_nil_r in E3).
    destruct EO as [-> ->]. f_equal. apply IH; [lia|easy].
Qed.

(** ** The gradient of taking entries, each at most once *)
Lemma assigned_gradient F (x g : arr) t from :
  (forall dx u, exists y, F (moved x dx u) = Ok y /\ forall o, inside t o -> at_ y o = at_ x (from o) + u * dx (from o)) ->
  (forall o, inside t o -> inside (shape x) (from o)) ->
  (forall o o', inside t o -> inside t o' -> from o = from o' -> o = o') ->
  shape g = t -> gradient_at F x g (assigned (shape x) t from g).
Proof.
  intros HF HI INJ Sg. apply (gather_gradient F x g _ t (fun o => Some (from o)) (fun _ => 0)); try easy.
  - intros o i Ho E. injection E as <-. now apply HI.
  - intros i Hi. cbn [assigned at_ opt_is]. destruct (find _ _) as [o|] eqn:E.
    + apply find_some in E as [E1 E2]. apply in_rev in E1. pose proof E1 as E1'. apply in_indices in E1'. rewrite (lsum_single _ o).
      * now rewrite E2.
      * apply nodup_indices.
      * easy.
      * intros o' Ho' N. apply in_indices in Ho'. destruct (index_eqb (from o') i) eqn:E3; [|easy]. exfalso. apply N.
        apply index_eqb_true in E2, E3. apply INJ; [easy|easy|congruence].
    + symmetry. apply lsum_zero. intros o Ho. rewrite in_rev in Ho. pose proof (find_none _ _ E o Ho) as E2. cbv beta in E2. now rewrite E2.
Qed.
