(** * Lemmas about sizes, squeezing, broadcasting and padding. *)
From Coq Require Import Reals List ZArith Lia Lra Permutation.
From Verif Require Import PyBase Deriv_Proofs Corr_Spec Corr_Proofs Axis_Model Axis_Spec Axis_Proofs Axis_Props Move_Model Move_Spec Move_Proofs.
Import ListNotations.
Open Scope R_scope.
Open Scope list_scope.
Open Scope res_scope.

(** ** Sizes with a missing one *)
Definition size_or_gap (z : Z) (d : nat) : Prop := (z = Z.of_nat d \/ z = -1)%Z.
Lemma known_cons z zs : known (z :: zs) = if (0 <=? z)%Z then Z.to_nat z :: known zs else known zs.
Proof. unfold known. cbn. now destruct (0 <=? z)%Z. Qed.
Lemma count_cons z zs : count_occ Z.eq_dec (z :: zs) (-1)%Z = ((if Z.eq_dec z (-1) then 1 else 0) + count_occ Z.eq_dec zs (-1)%Z)%nat.
Proof. cbn. now destruct (Z.eq_dec z (-1)). Qed.
Lemma gap_count zs : Forall (fun z => -1 <= z)%Z zs -> (length (known zs) + count_occ Z.eq_dec zs (-1)%Z = length zs)%nat.
Proof.
  induction 1 as [|z zs H _ IH]; [reflexivity|]. rewrite known_cons, count_cons. cbn [length].
  destruct (Z.leb_spec 0 z), (Z.eq_dec z (-1)); cbn [length]; lia.
Qed.
Lemma gap_lower zs t : Forall2 size_or_gap zs t -> Forall (fun z => -1 <= z)%Z zs.
Proof. induction 1 as [|z d zs t [E|E] _ IH]; constructor; try easy; lia. Qed.
Lemma no_gap zs t : Forall2 size_or_gap zs t -> count_occ Z.eq_dec zs (-1)%Z = 0%nat -> known zs = t /\ map Z.to_nat zs = t.
Proof.
  induction 1 as [|z d zs t H _ IH]; [easy|]. rewrite known_cons, count_cons. intros C.
  destruct (Z.eq_dec z (-1)); [lia|]. destruct IH as [I1 I2]; [lia|]. destruct H as [->|H]; [|easy].
  destruct (Z.leb_spec 0 (Z.of_nat d)); [|lia]. cbn [map]. rewrite I1, I2, Nat2Z.id. easy.
Qed.
Lemma one_gap zs t : Forall2 size_or_gap zs t -> count_occ Z.eq_dec zs (-1)%Z = 1%nat ->
  exists e, size t = (e * size (known zs))%nat /\ map (fun z => if (0 <=? z)%Z then Z.to_nat z else e) zs = t.
Proof.
  induction 1 as [|z d zs t H F IH]; [easy|]. rewrite known_cons, count_cons. intros C.
  destruct (Z.eq_dec z (-1)) as [->|N].
  - destruct (no_gap zs t F) as [I1 I2]; [lia|]. exists d. cbn [Z.leb Z.compare map]. rewrite I1. split; [reflexivity|].
    f_equal. rewrite <- I2. apply map_ext_in. intros z Hz.
    assert (Hm : ~ In (-1)%Z zs) by (apply (count_occ_not_In Z.eq_dec); lia).
    destruct (Z.leb_spec 0 z); [easy|]. exfalso. pose proof (gap_lower _ _ F) as L. rewrite Forall_forall in L. specialize (L z Hz).
    assert (z = -1)%Z as -> by lia. easy.
  - destruct IH as (e & I1 & I2); [lia|]. exists e. destruct H as [->|H]; [|easy].
    destruct (Z.leb_spec 0 (Z.of_nat d)); [|lia]. cbn [map]. destruct (Z.leb_spec 0 (Z.of_nat d)); [|lia]. rewrite Nat2Z.id, I2. split; [|easy].
    change (size (d :: t)) with (d * size t)%nat. change (size (d :: known zs)) with (d * size (known zs))%nat. rewrite I1. lia.
Qed.
Lemma known_zero zs : size (known zs) = 0%nat <-> In 0%Z zs.
Proof.
  induction zs as [|z zs IH]; [cbn; split; [lia|easy]|]. rewrite known_cons. cbn [In]. destruct (Z.leb_spec 0 z).
  - change (size (Z.to_nat z :: known zs)) with (Z.to_nat z * size (known zs))%nat. rewrite Nat.eq_mul_0, IH. split; intros [H1|H1]; try (now right); left; lia.
  - rewrite IH. split; [now right|]. intros [->|H1]; [lia|easy].
Qed.
Lemma resolve_ok n zs t : sizes_for n zs t -> resolve n zs = Ok t.
Proof.
  intros (F & V & C & Z). rewrite volume_size in V. pose proof (gap_count zs (gap_lower _ _ F)) as L. unfold resolve.
  destruct (count_occ Z.eq_dec zs (-1)%Z) as [|[|c]] eqn:E; [| |lia].
  - replace (length zs - length (known zs))%nat with 0%nat by lia. destruct (no_gap zs t F E) as [I1 I2].
    rewrite I1, I2, V, Nat.eqb_refl. reflexivity.
  - replace (length zs - length (known zs))%nat with 1%nat by lia. destruct (one_gap zs t F E) as (e & I1 & I2).
    assert (K : size (known zs) <> 0%nat).
    { intros K. apply known_zero in K. apply Z; [|easy]. apply (count_occ_In Z.eq_dec). lia. }
    destruct (Nat.eqb_spec (size (known zs)) 0); [easy|]. rewrite <- V, I1, Nat.mod_mul by easy. cbn [Nat.eqb].
    now rewrite Nat.div_mul, I2.
Qed.
Lemma resolve_inv n zs t : Forall (fun z => -1 <= z)%Z zs -> resolve n zs = Ok t -> sizes_for n zs t.
Proof.
  intros F E. pose proof (gap_count zs F) as L. unfold resolve in E. destruct (length zs - length (known zs))%nat as [|[|c]] eqn:D.
  - destruct (Nat.eqb_spec (size (known zs)) n) as [V|]; [|easy]. injection E as <-.
    assert (C : count_occ Z.eq_dec zs (-1)%Z = 0%nat) by lia.
    assert (N : ~ In (-1)%Z zs) by now apply (count_occ_not_In Z.eq_dec).
    assert (F2 : Forall2 size_or_gap zs (map Z.to_nat zs)).
    { clear -F N. induction F as [|z zs H _ IH]; cbn; constructor; [|apply IH; intros G; apply N; now right].
      left. assert (z <> -1)%Z by (intros ->; apply N; now left). lia. }
    split; [easy|]. rewrite volume_size. destruct (no_gap _ _ F2 C) as [I1 _]. rewrite <- I1 at 1. split; [easy|]. split; [lia|easy].
  - destruct (Nat.eqb_spec (size (known zs)) 0) as [|K]; [easy|]. destruct (Nat.eqb_spec (n mod size (known zs)) 0) as [M|]; [|easy]. injection E as <-.
    assert (C : count_occ Z.eq_dec zs (-1)%Z = 1%nat) by lia. set (e := (n / size (known zs))%nat).
    assert (F2 : forall e, Forall2 size_or_gap zs (map (fun z => if (0 <=? z)%Z then Z.to_nat z else e) zs)).
    { clear -F. intros e. induction F as [|z zs H _ IH]; cbn; constructor; [|easy]. destruct (Z.leb_spec 0 z); [left; lia|right; lia]. }
    split; [apply F2|]. rewrite volume_size. split.
    + assert (G : forall e zs, Forall (fun z => -1 <= z)%Z zs -> count_occ Z.eq_dec zs (-1)%Z = 1%nat ->
                size (map (fun z => if (0 <=? z)%Z then Z.to_nat z else e) zs) = (e * size (known zs))%nat).
      { clear. intros e zs F. induction F as [|z zs H F IH]; [easy|]. rewrite known_cons, count_cons. cbn [map]. intros C.
        destruct (Z.eq_dec z (-1)) as [->|N].
        - cbn [Z.leb Z.compare]. change (size (e :: map (fun z => if (0 <=? z)%Z then Z.to_nat z else e) zs)) with (e * size (map (fun z => if (0 <=? z)%Z then Z.to_nat z else e) zs))%nat.
          f_equal. f_equal. assert (M : ~ In (-1)%Z zs) by (apply (count_occ_not_In Z.eq_dec); lia). unfold known.
          clear -F M. induction F as [|z zs H _ IH]; cbn; [reflexivity|]. destruct (Z.leb_spec 0 z).
          + cbn. rewrite IH; [easy|]. intros G. apply M. now right.
          + exfalso. apply M. left. lia.
        - destruct (Z.leb_spec 0 z); [|lia]. change (size (Z.to_nat z :: known zs)) with (Z.to_nat z * size (known zs))%nat.
          change (size (Z.to_nat z :: map (fun z0 => if (0 <=? z0)%Z then Z.to_nat z0 else e) zs)) with (Z.to_nat z * size (map (fun z0 => if (0 <=? z0)%Z then Z.to_nat z0 else e) zs))%nat.
          rewrite IH by lia. lia. }
      rewrite (G e zs F C). unfold e. rewrite Nat.mul_comm. symmetry. apply (Nat.div_exact n _ K). easy.
    + split; [lia|]. intros _ H0. apply K. now apply known_zero.
  - destruct (length zs - length (known zs))%nat; easy.
Qed.

(** ** Flattening *)
Lemma clip_names r z k : names r z k -> clip r z = k.
Proof.
  intros [Hk [E|E] ]; subst z; unfold clip.
  - destruct (Z.ltb_spec (Z.of_nat k) 0); lia.
  - destruct (Z.ltb_spec (Z.of_nat k - Z.of_nat r) 0); lia.
Qed.
Lemma clip_after r z k : names r z k ->
  clip r ((let e1 := if orb (z =? -1)%Z (z =? Z.of_nat r)%Z then (Z.of_nat r + 1)%Z else z in
           if orb (e1 =? -1)%Z (e1 =? Z.of_nat r)%Z then (Z.of_nat r + 1)%Z else e1) + 1)%Z = S k.
Proof.
  intros [Hk [E|E] ]; subst z; cbv zeta.
  - destruct (Z.eqb_spec (Z.of_nat k) (-1)); [lia|]. destruct (Z.eqb_spec (Z.of_nat k) (Z.of_nat r)); [lia|]. cbn [orb].
    destruct (Z.eqb_spec (Z.of_nat k) (-1)); [lia|]. destruct (Z.eqb_spec (Z.of_nat k) (Z.of_nat r)); [lia|]. cbn [orb].
    unfold clip. destruct (Z.ltb_spec (Z.of_nat k + 1) 0); lia.
  - destruct (Z.eqb_spec (Z.of_nat k - Z.of_nat r) (-1)) as [E|E]; cbn [orb].
    + destruct (Z.eqb_spec (Z.of_nat r + 1) (-1)); [lia|]. destruct (Z.eqb_spec (Z.of_nat r + 1) (Z.of_nat r)); [lia|]. cbn [orb].
      unfold clip. destruct (Z.ltb_spec (Z.of_nat r + 1 + 1) 0); lia.
    + destruct (Z.eqb_spec (Z.of_nat k - Z.of_nat r) (Z.of_nat r)); [lia|]. cbn [orb].
      destruct (Z.eqb_spec (Z.of_nat k - Z.of_nat r) (-1)); [lia|]. destruct (Z.eqb_spec (Z.of_nat k - Z.of_nat r) (Z.of_nat r)); [lia|]. cbn [orb].
      unfold clip. destruct (Z.ltb_spec (Z.of_nat k - Z.of_nat r + 1) 0); lia.
Qed.

(** ** Squeezing *)
Lemma squeezed_filter s : squeezed s = filter (fun d => negb (Nat.eqb d 1)) s.
Proof. induction s as [|d s IH]; cbn; [reflexivity|]. destruct (Nat.eqb d 1); cbn; now rewrite IH. Qed.
Lemma squeezed_size s : size (squeezed s) = size s.
Proof.
  induction s as [|d s IH]; [reflexivity|]. cbn [squeezed]. destruct (Nat.eqb_spec d 1) as [->|].
  - cbn. fold (size s). lia.
  - change (size (d :: squeezed s)) with (d * size (squeezed s))%nat. now rewrite IH.
Qed.
Lemma unsqueeze_ok s : forall o, inside (squeezed s) o -> inside s (unsqueeze s o) /\ ravel s (unsqueeze s o) = ravel (squeezed s) o.
Proof.
  induction s as [|d s IH]; intros o H; cbn [squeezed unsqueeze] in *; [split; [constructor|now destruct o]|].
  destruct (Nat.eqb_spec d 1) as [->|N].
  - destruct (IH o H) as [I1 I2]. split; [constructor; [lia|easy]|]. cbn [ravel]. rewrite I2. lia.
  - inversion H as [|? k ? o' Hk Ho]; subst. destruct (IH o' Ho) as [I1 I2]. split; [now constructor|]. cbn [ravel]. now rewrite I2, squeezed_size.
Qed.

(** ** Broadcasting *)

(** Sizes [s] where those of [t] that are not equal are 1, the axes being in [A]. *)
Inductive drops (A : list nat) : nat -> list nat -> list nat -> Prop :=
| drops_nil k : drops A k [] []
| drops_cons k d e s t : (if is_in k A then d = 1%nat else d = e) -> drops A (S k) s t -> drops A k (d :: s) (e :: t).
Lemma drops_size A k s t : drops A k s t -> size (red_shape A false k t) = size s.
Proof.
  induction 1 as [|k d e s t H _ IH]; [reflexivity|]. cbn [red_shape]. destruct (is_in k A); subst.
  - rewrite IH. cbn. fold (size s). lia.
  - change (size (e :: red_shape A false (S k) t)) with (e * size (red_shape A false (S k) t))%nat. now rewrite IH.
Qed.
Lemma drops_ravel A k s t : drops A k s t -> forall i, inside s i ->
  inside (red_shape A false k t) (proj A false k i) /\ ravel (red_shape A false k t) (proj A false k i) = ravel s i.
Proof.
  induction 1 as [|k d e s t H D IH]; intros i Hi.
  - inversion Hi; subst. cbn. split; [constructor|easy].
  - inversion Hi as [|? x ? i' Hx Hi']; subst. destruct (IH i' Hi') as [I1 I2]. cbn [red_shape proj].
    destruct (is_in k A); subst.
    + split; [easy|]. cbn [ravel]. rewrite I2. assert (x = 0%nat) as -> by lia. lia.
    + split; [now constructor|]. cbn [ravel]. now rewrite I2, (drops_size _ _ _ _ D).
Qed.
Lemma drops_squash A k s t : drops A k s t -> forall o, inside t o ->
  inside s (squash s o) /\ proj A false k (squash s o) = proj A false k o.
Proof.
  induction 1 as [|k d e s t H D IH]; intros o Ho.
  - inversion Ho; subst. cbn. split; [constructor|easy].
  - inversion Ho as [|? x ? o' Hx Ho']; subst. destruct (IH o' Ho') as [I1 I2]. cbn [squash proj].
    destruct (is_in k A) eqn:E; subst.
    + split; [constructor; [cbn; lia|easy]|easy].
    + destruct (Nat.eqb_spec e 1) as [->|N]; cbn; (split; [constructor; [lia|easy]|f_equal; try easy; lia]).
Qed.
Lemma drops_inj A k s t : drops A k s t -> forall i j, inside s i -> inside s j -> proj A false k i = proj A false k j -> i = j.
Proof.
  induction 1 as [|k d e s t H D IH]; intros i j Hi Hj E.
  - inversion Hi; inversion Hj; easy.
  - inversion Hi as [|? x ? i' Hx Hi']; subst. inversion Hj as [|? y ? j' Hy Hj']; subst. cbn [proj] in E.
    destruct (is_in k A); subst.
    + f_equal; [lia|]. now apply IH.
    + injection E as -> E. f_equal. now apply IH.
Qed.
Lemma drops_same A k s t : drops A k s t -> forall o i, inside t o -> inside s i ->
  (proj A false k o = unravel (red_shape A false k t) (ravel s i) <-> squash s o = i).
Proof.
  intros D o i Ho Hi. destruct (drops_ravel A k s t D i Hi) as [R1 R2]. destruct (drops_squash A k s t D o Ho) as [S1 S2].
  rewrite <- R2, unravel_ravel by easy. rewrite <- S2. split; [|intros ->; easy]. now apply (drops_inj A k s t D).
Qed.

(** Axes missing in front are of size 1. *)
Definition ones (n : nat) : list nat := repeat 1%nat n.
Definition zeros (n : nat) : list nat := repeat 0%nat n.
Lemma ones_ravel n s i : ravel (ones n ++ s) (zeros n ++ i) = ravel s i.
Proof. induction n as [|n IH]; [reflexivity|]. cbn. fold (ones n) (zeros n). now rewrite IH. Qed.
Lemma ones_size n s : size (ones n ++ s) = size s.
Proof. induction n as [|n IH]; [reflexivity|]. cbn. fold (ones n) (size (ones n ++ s)). rewrite IH. lia. Qed.
Lemma ones_inside n s i : inside s i -> inside (ones n ++ s) (zeros n ++ i).
Proof. intros H. induction n as [|n IH]; cbn; [easy|]. constructor; [lia|easy]. Qed.
Lemma ones_inside_inv n s i : inside (ones n ++ s) (zeros n ++ i) -> inside s i.
Proof. induction n as [|n IH]; cbn; [easy|]. intros H. inversion H; subst. now apply IH. Qed.
Lemma ones_squash n s : forall o, length o = (n + length s)%nat -> squash (ones n ++ s) o = zeros n ++ squash s (skipn n o).
Proof.
  induction n as [|n IH]; intros o L; [reflexivity|]. destruct o as [|x o]; [easy|]. cbn in L. cbn. fold (ones n) (zeros n). rewrite IH by lia. easy.
Qed.

Definition gaps (k : nat) (s t : list nat) : list nat :=
  map fst (filter (fun p => match nth_error s (fst p - k) with Some d => negb (Nat.eqb d (snd p)) | None => true end) (combine (seq k (length t)) t)).
Lemma gaps_nil k t : gaps k [] t = seq k (length t).
Proof.
  unfold gaps. rewrite (filter_ext _ (fun _ => true)).
  2:{ intros [a b]. cbn. now destruct (a - k)%nat. }
  assert (G : forall (l : list (nat * nat)), filter (fun _ => true) l = l) by (induction l as [|a l IH]; cbn; [easy|now rewrite IH]).
  rewrite G. apply combine_fst. now rewrite seq_length.
Qed.
Lemma gaps_cons k d s e t : gaps k (d :: s) (e :: t) = if Nat.eqb d e then gaps (S k) s t else k :: gaps (S k) s t.
Proof.
  unfold gaps. cbn [length seq combine filter fst snd]. rewrite Nat.sub_diag. cbn [nth_error].
  rewrite (filter_ext_in (fun p => match nth_error (d :: s) (fst p - k) with Some d0 => negb (Nat.eqb d0 (snd p)) | None => true end)
            (fun p => match nth_error s (fst p - S k) with Some d0 => negb (Nat.eqb d0 (snd p)) | None => true end)).
  2:{ intros [a b] H. apply in_combine_l, in_seq in H. cbn [fst snd]. replace (a - k)%nat with (S (a - S k)) by lia. reflexivity. }
  destruct (Nat.eqb d e); reflexivity.
Qed.
Lemma bcast_axes_gaps s : forall k t, (length s <= length t)%nat -> bcast_axes k s t = map (fun j => (- Z.of_nat j - 1)%Z) (gaps k s t).
Proof.
  induction s as [|d s IH]; intros k t L.
  - rewrite gaps_nil. now destruct t.
  - destruct t as [|e t]; [cbn in L; lia|]. cbn in L. rewrite gaps_cons. cbn [bcast_axes]. rewrite IH by lia. now destruct (Nat.eqb d e).
Qed.
Lemma gaps_in s : forall k t j, (length s <= length t)%nat ->
  (In j (gaps k s t) <-> (k <= j < k + length t)%nat /\ (length s <= j - k \/ nth (j - k) s 0 <> nth (j - k) t 0)%nat).
Proof.
  induction s as [|d s IH]; intros k t j L.
  - rewrite gaps_nil, in_seq. cbn [length]. split; [intros H; split; [easy|left; lia]|easy].
  - destruct t as [|e t]; [cbn in L; lia|]. cbn in L. rewrite gaps_cons. cbn [length].
    assert (Q : In j (gaps (S k) s t) <-> (k < j < k + S (length t))%nat /\ (S (length s) <= j - k \/ nth (j - k) (d :: s) 0 <> nth (j - k) (e :: t) 0)%nat).
    { rewrite IH by lia. split.
      - intros [H1 H2]. split; [lia|]. replace (j - k)%nat with (S (j - S k)) by lia. cbn [nth]. destruct H2; [left; lia|now right].
      - intros [H1 H2]. split; [lia|]. replace (j - k)%nat with (S (j - S k)) in H2 by lia. cbn [nth] in H2. destruct H2; [left; lia|now right]. }
    destruct (Nat.eqb_spec d e) as [->|N]; [|cbn [In]]; rewrite Q.
    + split; [intros [H1 H2]; split; [lia|easy]|]. intros [H1 H2]. split; [|easy].
      destruct (Nat.eq_dec j k) as [->|]; [|lia]. rewrite Nat.sub_diag in H2. cbn in H2. lia.
    + split.
      * intros [<-|[H1 H2] ]; [rewrite Nat.sub_diag; cbn; split; [lia|now right]|]. split; [lia|easy].
      * intros [H1 H2]. destruct (Nat.eq_dec k j); [now left|right]. split; [lia|easy].
Qed.
Lemma gaps_nodup s : forall k t, NoDup (gaps k s t).
Proof.
  intros k t. unfold gaps.
  assert (G : forall (P : nat * nat -> bool) l, NoDup (map fst l) -> NoDup (map fst (filter P l))).
  { intros P l. induction l as [|a l IH]; cbn; intros N; [constructor|]. inversion N as [|? ? N1 N2]; subst.
    destruct (P a); cbn; [|now apply IH]. constructor; [|now apply IH]. intros H. apply N1.
    apply in_map_iff in H. destruct H as (b & <- & Hb). apply filter_In in Hb. apply in_map_iff. now exists b. }
  apply G. rewrite combine_fst by (now rewrite seq_length). apply seq_NoDup.
Qed.
Lemma drops_nth A s : forall t k, length s = length t ->
  (forall j, (j < length s)%nat -> if is_in (k + j) A then nth j s 0%nat = 1%nat else nth j s 0%nat = nth j t 0%nat) -> drops A k s t.
Proof.
  induction s as [|d s IH]; intros [|e t] k L H; cbn in L; try easy; constructor.
  - specialize (H 0%nat). rewrite Nat.add_0_r in H. cbn in H. apply H. lia.
  - apply IH; [lia|]. intros j Hj. specialize (H (S j)). replace (S k + j)%nat with (k + S j)%nat by lia. apply H. cbn. lia.
Qed.
Definition front_axes (n : nat) (js : list nat) : list nat := map (fun j => (n - 1 - j)%nat) js.
Lemma broadcast_axes s t : spreads s t ->
  let A := front_axes (length t) (gaps 0 (rev s) (rev t)) in
  axes_of (length t) (ATuple (bcast_axes 0 (rev s) (rev t))) A /\ drops A 0 (ones (length t - length s) ++ s) t.
Proof.
  intros [L H] A. set (n := length t) in *. set (m := length s) in *.
  assert (LR : (length (rev s) <= length (rev t))%nat) by (now rewrite !rev_length).
  assert (GI : forall j, In j (gaps 0 (rev s) (rev t)) <-> (j < n)%nat /\ (m <= j \/ nth j (rev s) 0 <> nth j (rev t) 0)%nat).
  { intros j. rewrite gaps_in by easy. rewrite !rev_length, Nat.sub_0_r. fold n m. split; intros [H1 H2]; (split; [lia|easy]). }
  split.
  - rewrite bcast_axes_gaps by easy. split.
    + subst A. unfold front_axes. assert (N : NoDup (gaps 0 (rev s) (rev t))) by apply gaps_nodup.
      assert (B : forall j, In j (gaps 0 (rev s) (rev t)) -> (j < n)%nat) by (intros j Hj; now apply GI).
      revert N B. generalize (gaps 0 (rev s) (rev t)). intros l N. induction N as [|j l Hj N IH]; cbn; intros B; constructor.
      * intros C. apply in_map_iff in C. destruct C as (k & E & Hk). apply Hj.
        assert (j < n)%nat by (apply B; now left). assert (k < n)%nat by (apply B; now right). assert (k = j) as <- by lia. easy.
      * apply IH. intros k Hk. apply B. now right.
    + subst A. unfold front_axes.
      assert (B : forall j, In j (gaps 0 (rev s) (rev t)) -> (j < n)%nat) by (intros j Hj; now apply GI).
      revert B. generalize (gaps 0 (rev s) (rev t)). intros l. induction l as [|j l IH]; cbn; intros B; constructor.
      * assert (j < n)%nat by (apply B; now left). split; [lia|]. right. lia.
      * apply IH. intros k Hk. apply B. now right.
  - apply drops_nth; [rewrite app_length; unfold ones; rewrite repeat_length; lia|].
    assert (LS : length (ones (n - m) ++ s) = n) by (rewrite app_length; unfold ones; rewrite repeat_length; lia). rewrite LS.
    intros k Hk. rewrite Nat.add_0_l.
    assert (NT : nth (n - 1 - k) (rev t) 0%nat = nth k t 0%nat). { rewrite rev_nth by (fold n; lia). f_equal. fold n. lia. }
    assert (NS : (n - m <= k)%nat -> nth (n - 1 - k) (rev s) 0%nat = nth (k - (n - m)) s 0%nat).
    { intros G. rewrite rev_nth by (fold m; lia). f_equal. fold m. lia. }
    assert (IA : is_in k A = true <-> (m <= n - 1 - k \/ nth (n - 1 - k) (rev s) 0 <> nth (n - 1 - k) (rev t) 0)%nat).
    { rewrite is_in_true. subst A. unfold front_axes. rewrite in_map_iff. split.
      - intros (j & E & Hj). apply GI in Hj. destruct Hj as [Hj1 Hj2]. assert (j = n - 1 - k)%nat as -> by lia. easy.
      - intros G. exists (n - 1 - k)%nat. split; [lia|]. apply GI. split; [lia|easy]. }
    destruct (Nat.lt_ge_cases k (n - m)) as [C|C].
    + rewrite app_nth1 by (unfold ones; rewrite repeat_length; easy).
      assert (E1 : nth k (ones (n - m)) 0%nat = 1%nat).
      { unfold ones. clear -C. revert k C. generalize (n - m)%nat. intros q. induction q as [|q IH]; intros k C; [lia|]. destruct k; cbn; [easy|]. apply IH. lia. }
      rewrite E1. rewrite (proj2 IA); [easy|]. left. lia.
    + rewrite app_nth2 by (unfold ones; rewrite repeat_length; easy). unfold ones. rewrite repeat_length.
      specialize (NS C). destruct (is_in k A).
      * pose proof (proj1 IA eq_refl) as E. rewrite <- NS. destruct E as [E|E]; [lia|]. destruct (H (n - 1 - k)%nat) as [H1|H1]; [lia|easy|easy].
      * rewrite <- NS, <- NT. destruct (Nat.eq_dec (nth (n - 1 - k) (rev s) 0%nat) (nth (n - 1 - k) (rev t) 0%nat)) as [E2|E2]; [easy|].
        exfalso. assert (false = true); [|easy]. apply IA. now right.
Qed.
Lemma fits_nth s : forall t, fits s t = true <-> length s = length t /\ forall k, (k < length s)%nat -> nth k s 0%nat = 1%nat \/ nth k s 0%nat = nth k t 0%nat.
Proof.
  induction s as [|d s IH]; intros [|e t]; cbn [fits length].
  - split; [|easy]. intros _. split; [easy|]. intros k Hk. lia.
  - split; [easy|]. intros [E _]. lia.
  - split; [easy|]. intros [E _]. lia.
  - rewrite Bool.andb_true_iff, Bool.orb_true_iff, !Nat.eqb_eq, IH. split.
    + intros [H1 [H2 H3] ]. split; [lia|]. intros [|k] Hk; cbn; [easy|]. apply H3. lia.
    + intros [H1 H2]. split; [apply (H2 0%nat); lia|]. split; [lia|]. intros k Hk. apply (H2 (S k)). lia.
Qed.
Lemma spreads_iff s t : broadcastable s t = true <-> spreads s t.
Proof.
  unfold broadcastable, spreads. rewrite Bool.andb_true_iff, Nat.leb_le, fits_nth.
  assert (G : (length s <= length t)%nat ->
    ((forall k, (k < length s)%nat -> nth k s 0%nat = 1%nat \/ nth k s 0%nat = nth k (skipn (length t - length s) t) 0%nat) <->
     (forall k, (k < length s)%nat -> nth k (rev s) 0%nat = 1%nat \/ nth k (rev s) 0%nat = nth k (rev t) 0%nat))).
  { intros L.
    assert (E : forall k, (k < length s)%nat -> nth (length s - 1 - k) (skipn (length t - length s) t) 0%nat = nth k (rev t) 0%nat).
    { intros k Hk. rewrite rev_nth by lia.
      assert (SK : forall a (l : list nat) b, nth b (skipn a l) 0%nat = nth (a + b) l 0%nat).
      { induction a as [|a IHa]; intros l b; [easy|]. destruct l as [|y l]; cbn; [now destruct b|]. apply IHa. }
      rewrite SK. f_equal. lia. }
    split; intros H k Hk.
    - rewrite rev_nth by lia. rewrite <- E by easy. replace (length s - S k)%nat with (length s - 1 - k)%nat by lia. apply H. lia.
    - specialize (H (length s - 1 - k)%nat). rewrite rev_nth in H by lia. rewrite <- E in H by lia.
      replace (length s - S (length s - 1 - k))%nat with k in H by lia. replace (length s - 1 - (length s - 1 - k))%nat with k in H by lia. apply H. lia. }
  split.
  - intros [L [_ H] ]. split; [easy|]. now apply G.
  - intros [L H]. split; [easy|]. rewrite skipn_length. split; [lia|]. now apply G.
Qed.
Lemma combine_rev {A B} (a : list A) (b : list B) : length a = length b -> combine (rev a) (rev b) = rev (combine a b).
Proof.
  revert b. induction a as [|x a IH]; intros [|y b] L; cbn in L; try easy. cbn [rev combine].
  assert (C : forall (l l' : list A) (m m' : list B), length l = length m -> combine (l ++ l') (m ++ m') = combine l m ++ combine l' m').
  { clear. induction l as [|u l IH]; intros l' [|v m] m' L; cbn in L; try easy. cbn. f_equal. apply IH. lia. }
  rewrite C by (rewrite !rev_length; lia). rewrite IH by lia. reflexivity.
Qed.
Lemma combine_front {A B} (a : list A) : forall (b c : list B), length a = length b -> combine a (b ++ c) = combine a b.
Proof. induction a as [|x a IH]; intros [|y b] c L; cbn in L; try easy. cbn. f_equal. apply IH. lia. Qed.
Lemma source_squash s o : (length s <= length o)%nat -> source s o = squash s (skipn (length o - length s) o).
Proof.
  intros L. unfold source.
  assert (E : combine (rev s) (rev o) = rev (combine s (skipn (length o - length s) o))).
  { rewrite <- combine_rev by (rewrite skipn_length; lia).
    rewrite <- (firstn_skipn (length o - length s) o) at 1. rewrite rev_app_distr. apply combine_front.
    rewrite !rev_length, skipn_length. lia. }
  rewrite E, map_rev, rev_involutive. generalize (skipn (length o - length s) o). clear. induction s as [|d s IH]; intros [|x o]; try easy.
  cbn [combine map squash fst snd]. rewrite IH. f_equal. destruct (Nat.eq_dec d 1), (Nat.eqb_spec d 1); easy.
Qed.

(** ** Padding *)
Definition widths (ps : list (nat * nat)) : list (Z * Z) := map (fun p => (Z.of_nat (fst p), Z.of_nat (snd p))) ps.
Lemma pad_index_iff ps : forall s o, length ps = length s -> inside (padded ps s) o -> forall i,
  (pad_index (widths ps) s o = Some i <-> inside s i /\ o = shifted_by ps i).
Proof.
  induction ps as [|[a b] ps IH]; intros [|d s] o L Ho i; cbn in L; try easy.
  - inversion Ho; subst. cbn. split.
    + intros E. injection E as <-. split; [constructor|reflexivity].
    + intros [H _]. now inversion H.
  - inversion Ho as [|? k ? o' Hk Ho']; subst. cbn [widths map fst snd pad_index] in *. rewrite Nat2Z.id.
    fold (widths ps). assert (L' : length ps = length s) by lia. specialize (IH s o' L' Ho').
    destruct (Nat.leb_spec a k), (Nat.ltb_spec k (a + d)); cbn [andb].
    + destruct (pad_index (widths ps) s o') as [i'|] eqn:E.
      * assert (Q : inside s i' /\ o' = shifted_by ps i') by now apply IH. destruct Q as [Q1 Q2]. split.
        -- intros F. injection F as <-. split; [constructor; [lia|easy]|]. rewrite Q2. unfold shifted_by. cbn. f_equal. lia.
        -- intros [Hi F]. inversion Hi as [|? j ? i2 Hj Hi2]; subst i. unfold shifted_by in F. cbn in F. injection F as F1 F2.
           fold (shifted_by ps i2) in F2. assert (W : Some i' = Some i2) by now apply IH. injection W as ->. f_equal. f_equal. lia.
      * split; [easy|]. intros [Hi F]. inversion Hi as [|? j ? i2 Hj Hi2]; subst i. unfold shifted_by in F. cbn in F. injection F as F1 F2.
        fold (shifted_by ps i2) in F2. assert (W : None = Some i2) by now apply IH. easy.
    + split; [easy|]. intros [Hi F]. inversion Hi as [|? j ? i2 Hj Hi2]; subst i. unfold shifted_by in F. cbn in F. injection F as F1 F2. lia.
    + split; [easy|]. intros [Hi F]. inversion Hi as [|? j ? i2 Hj Hi2]; subst i. unfold shifted_by in F. cbn in F. injection F as F1 F2. lia.
    + split; [easy|]. intros [Hi F]. inversion Hi as [|? j ? i2 Hj Hi2]; subst i. unfold shifted_by in F. cbn in F. injection F as F1 F2. lia.
Qed.
Lemma shifted_inside ps : forall s i, length ps = length s -> inside s i -> inside (padded ps s) (shifted_by ps i).
Proof.
  induction ps as [|[a b] ps IH]; intros [|d s] i L H; cbn in L; try easy; [constructor|].
  inversion H as [|? k ? i' Hk Hi]; subst. unfold padded, shifted_by. cbn. constructor; [lia|]. apply IH; [lia|easy].
Qed.
Lemma clip_nat e a : (a <= e)%nat -> clip e (Z.of_nat a) = a.
Proof. intros H. unfold clip. destruct (Z.ltb_spec (Z.of_nat a) 0); lia. Qed.
Lemma cut_shape_ok ps : forall s, length ps = length s -> cut_shape (widths ps) s (padded ps s) = s.
Proof.
  induction ps as [|[a b] ps IH]; intros [|d s] L; cbn in L; try easy. unfold padded. cbn [widths map combine cut_shape fst snd].
  fold (widths ps) (padded ps s). rewrite IH by lia. f_equal. rewrite <- Nat2Z.inj_add, !clip_nat by lia. lia.
Qed.
Lemma cut_index_ok ps : forall s i, length ps = length s -> length i = length s -> cut_index (widths ps) s (padded ps s) i = shifted_by ps i.
Proof.
  induction ps as [|[a b] ps IH]; intros [|d s] [|k i] L Li; cbn in L, Li; try easy. unfold padded, shifted_by. cbn [widths map combine cut_index fst snd].
  fold (widths ps) (padded ps s) (shifted_by ps i). rewrite IH by lia. f_equal. rewrite clip_nat by lia. lia.
Qed.
Lemma pad_ok (x : arr) ps : length ps = length (shape x) ->
  pad x (widths ps) = Ok (mka (padded ps (shape x)) (fun o => match pad_index (widths ps) (shape x) o with Some i => at_ x i | None => 0 end)).
Proof.
  intros L. unfold pad. assert (L2 : length (widths ps) = length (shape x)) by (unfold widths; now rewrite map_length).
  rewrite L2, Nat.eqb_refl. cbn [negb].
  assert (E : existsb (fun p : Z * Z => ((fst p <? 0)%Z || (snd p <? 0)%Z)%bool) (widths ps) = false).
  { clear. unfold widths. induction ps as [|[a b] ps IH]; cbn; [easy|]. destruct (Z.ltb_spec (Z.of_nat a) 0); [lia|]. destruct (Z.ltb_spec (Z.of_nat b) 0); [lia|]. easy. }
  rewrite E. f_equal. f_equal. generalize (shape x). clear. intros s. unfold padded, widths. revert s. induction ps as [|[a b] ps IH]; intros [|d s]; cbn; try easy. rewrite IH. f_equal. lia.
Qed.
