(** * Reducing in C memory. *)
From Coq Require Import Reals List ZArith Lia Lra Bool Permutation.
From Verif Require Import PyBase Corr_Proofs Axis_Model Axis_Spec Axis_Proofs Move_Model Move_Spec Move_Proofs Move_Proofs2 Attn_Proofs Carr_Model Carr_Spec Carr_Proofs Carr_Proofs2 Carr_Proofs4.
Import ListNotations.
Open Scope R_scope.
Open Scope list_scope.
Open Scope res_scope.

Definition axis_sizes (l : list (nat * nat)) : nat := fold_right (fun p a => (snd p * a)%nat) 1%nat l.
Definition kept_sizes (axes : option (list Z)) (l : list (nat * nat)) : nat :=
  fold_right (fun p a => if reduced axes (fst p) then a else (snd p * a)%nat) 1%nat l.
Lemma axis_sizes_pos l : (forall p, In p l -> (0 < snd p)%nat) -> (0 < axis_sizes l)%nat.
Proof.
  induction l as [|p l IH]; intros H; [cbn; lia|]. change (0 < snd p * axis_sizes l)%nat.
  assert (0 < snd p)%nat by (apply H; now left). assert (0 < axis_sizes l)%nat by (apply IH; intros q Hq; apply H; now right). nia.
Qed.
Lemma out_index_app axes os l : (forall p, In p l -> (0 < snd p)%nat /\ (reduced axes (fst p) = false -> rd os (fst p) = Ok (snd p))) ->
  forall k n temp stride, (0 < n)%nat -> (reduced axes k = false -> exists q, rd os k = Ok q) ->
  out_index axes os (l ++ [(k, n)]) temp stride =
    let* a := out_index axes os l temp stride in
    Ok (a + if reduced axes k then 0 else ((temp / axis_sizes l) mod n) * (stride * kept_sizes axes l))%nat.
Proof.
  induction l as [|[j m] l IH]; intros H k n temp stride Hn Hk.
  - cbn [app out_index axis_sizes kept_sizes fold_right]. destruct (Nat.eqb_spec n 0) as [E|_]; [lia|].
    destruct (reduced axes k) eqn:R; [reflexivity|]. destruct (Hk eq_refl) as (q & ->). cbn [bind]. rewrite Nat.div_1_r. f_equal. lia.
  - destruct (H (j, m) (or_introl eq_refl)) as [Hm Hj]. cbn [fst snd] in *.
    assert (HT : forall p, In p l -> (0 < snd p)%nat /\ (reduced axes (fst p) = false -> rd os (fst p) = Ok (snd p))) by (intros p Hp; apply H; now right).
    assert (Z : (0 < axis_sizes l)%nat) by (apply axis_sizes_pos; intros p Hp; now apply HT).
    cbn [app out_index]. destruct (Nat.eqb_spec m 0) as [E|_]; [lia|].
    change (axis_sizes ((j, m) :: l)) with (m * axis_sizes l)%nat. rewrite <- Nat.div_div by lia.
    change (kept_sizes axes ((j, m) :: l)) with (if reduced axes j then kept_sizes axes l else (m * kept_sizes axes l)%nat).
    destruct (reduced axes j) eqn:R.
    + rewrite (IH HT) by assumption. reflexivity.
    + rewrite (Hj eq_refl). cbn [bind]. rewrite (IH HT) by assumption.
      destruct (out_index axes os l (temp / m) (stride * m)) as [a|e]; [|reflexivity]. cbn [bind]. f_equal.
      destruct (reduced axes k); lia.
Qed.
Lemma axis_sizes_app l m : axis_sizes (l ++ m) = (axis_sizes l * axis_sizes m)%nat.
Proof.
  induction l as [|p l IH]; [symmetry; apply Nat.mul_1_l|]. change (snd p * axis_sizes (l ++ m) = snd p * axis_sizes l * axis_sizes m)%nat.
  rewrite IH. apply Nat.mul_assoc.
Qed.
Lemma kept_sizes_app axes l m : kept_sizes axes (l ++ m) = (kept_sizes axes l * kept_sizes axes m)%nat.
Proof.
  induction l as [|p l IH]; [symmetry; apply Nat.mul_1_l|].
  change (kept_sizes axes ((p :: l) ++ m)) with (if reduced axes (fst p) then kept_sizes axes (l ++ m) else (snd p * kept_sizes axes (l ++ m))%nat).
  change (kept_sizes axes (p :: l)) with (if reduced axes (fst p) then kept_sizes axes l else (snd p * kept_sizes axes l)%nat).
  destruct (reduced axes (fst p)); rewrite IH; lia.
Qed.
Lemma out_index_ok axes A keep os s : positive s -> forall k0 m,
  (forall j, (j < length s)%nat -> reduced axes (k0 + j) = is_in (k0 + j) A) ->
  (forall j, (j < length s)%nat -> is_in (k0 + j) A = false -> rd os (k0 + j) = Ok (nth j s 0%nat)) ->
  out_index axes os (rev (combine (seq k0 (length s)) s)) m 1 = Ok (ravel (red_shape A keep k0 s) (proj A keep k0 (coords s m))) /\
  kept_sizes axes (rev (combine (seq k0 (length s)) s)) = size (red_shape A keep k0 s) /\
  axis_sizes (rev (combine (seq k0 (length s)) s)) = size s.
Proof.
  induction s as [|d s IH]; intros P k0 m HR HO; [now cbn|]. destruct (positive_tail _ _ P) as [Ps Pd].
  destruct (IH Ps (S k0) m) as (I1 & I2 & I3).
  { intros j Hj. specialize (HR (S j)). cbn [length] in HR. replace (S k0 + j)%nat with (k0 + S j)%nat by lia. apply HR. lia. }
  { intros j Hj Q. specialize (HO (S j)). cbn [length nth] in HO. replace (S k0 + j)%nat with (k0 + S j)%nat in * by lia. apply HO; [lia|exact Q]. }
  pose proof (HR 0%nat ltac:(cbn; lia)) as R0. rewrite Nat.add_0_r in R0.
  pose proof (HO 0%nat ltac:(cbn; lia)) as O0. rewrite Nat.add_0_r in O0. cbn [nth] in O0.
  cbn [length seq combine rev].
  rewrite out_index_app, kept_sizes_app, axis_sizes_app, I1, I2, I3; [| | assumption| ].
  - cbn [bind coords red_shape proj]. rewrite R0. split; [|split].
    + f_equal. destruct (is_in k0 A); [destruct keep|]; cbn [ravel]; lia.
    + change (kept_sizes axes [(k0, d)]) with (if reduced axes k0 then 1%nat else (d * 1)%nat). rewrite R0.
      destruct (is_in k0 A); [destruct keep|]; rewrite ?size_cons; lia.
    + change (axis_sizes [(k0, d)]) with (d * 1)%nat. rewrite size_cons. lia.
  - intros [k n] Hp. apply in_rev in Hp. cbn [fst snd]. split; [apply in_combine_r in Hp; now apply Ps|].
    intros Q. apply (In_nth _ _ (0%nat, 0%nat)) in Hp. destruct Hp as (j & Hj & Ej). rewrite combine_length, seq_length, Nat.min_id in Hj.
    rewrite combine_nth in Ej by (now rewrite seq_length). rewrite seq_nth in Ej by assumption. 
    assert (EK : k = (k0 + S j)%nat) by (injection Ej; lia). assert (EN : n = nth j s 0%nat) by (injection Ej; congruence).
    clear Ej. subst k n. rewrite (HR (S j) ltac:(cbn; lia)) in Q. now apply (HO (S j) ltac:(cbn; lia)).
  - intros Q. exists d. apply O0. congruence.
Qed.

(** The conditions under which the output has the sizes that are read. *)
Definition readable (axes : option (list Z)) (A : list nat) (s os : list nat) : Prop :=
  forall k, (k < length s)%nat -> reduced axes k = is_in k A /\ (is_in k A = false -> rd os k = Ok (nth k s 0%nat)).
Lemma sum_c inp out x axes A keep : stores inp x -> buffer out (red_shape A keep 0 (shape x)) ->
  readable axes A (shape x) (red_shape A keep 0 (shape x)) ->
  writes (c_reduce_sum inp out axes) (red_shape A keep 0 (shape x)) (fun o => sum_into A keep (shape x) o (at_ x)).
Proof.
  intros (XS & XW & XD) BO RD. pose proof BO as (OS & OW & OD). set (s := shape x) in *. set (os := red_shape A keep 0 s) in *.
  rewrite volume_size in OD. unfold c_reduce_sum. rewrite (c_size_of _ _ OS), (c_size_of _ _ XS), OS.
  destruct (fill_loop (size os) (fun i d => wr d i 0) (fun _ => 0) (c_data out) OD) as (d1 & E1 & L1 & V1); [reflexivity|].
  rewrite E1. cbn [bind]. unfold c_ndim. rewrite XS.
  assert (PI : forall i, (i < size s)%nat -> inside os (proj A keep 0 (unravel s i))).
  { intros i Hi. apply proj_inside. now apply unravel_inside. }
  destruct (add_loop (size s) (fun i d => let* o := out_index axes os (rev (combine (seq 0 (length s)) s)) i 1 in
      let* x0 := rd (c_data inp) i in upd d o x0) (fun i => ravel os (proj A keep 0 (unravel s i))) (fun i => at_ x (unravel s i)) d1) as (d2 & E2 & L2 & V2).
  - intros i Hi. rewrite L1. apply ravel_lt. now apply PI.
  - intros i d Hi _. destruct (out_index_ok axes A keep os s ltac:(apply pos_size; lia) 0 i) as (I1 & _).
    { intros j Hj. now apply RD. } { intros j Hj Q. now apply RD. }
    rewrite I1. cbn [bind]. rewrite coords_small by assumption. rewrite XD, (rd_nth _ _ 0) by (rewrite entries_length; exact Hi).
    cbn [bind]. now rewrite entries_nth.
  - rewrite E2. cbn [bind]. apply writes_data; [exact BO|lia|]. intros m Hm. rewrite V2 by lia. rewrite V1 by assumption.
    destruct (unravel_inside os m Hm) as [J R]. set (o := unravel os m) in *. rewrite Rplus_0_l.
    unfold sum_into. rewrite sum_over_lsum, indices_unravel, lsum_map. apply lsum_ext. intros i Hi. apply in_range in Hi.
    rewrite place_proj. unfold same_place. destruct (list_eq_dec Nat.eq_dec (proj A keep 0 (unravel s i)) o) as [Q|Q].
    + rewrite Q, R. now rewrite Nat.eqb_refl.
    + destruct (Nat.eqb_spec (ravel os (proj A keep 0 (unravel s i))) m) as [Q'|_]; [|reflexivity]. exfalso. apply Q.
      apply (ravel_inj os); [now apply PI|exact J|]. now rewrite R.
Qed.
Lemma count_ok inp s axes A : c_shape inp = s -> front_axes axes A (length s) -> c_count inp axes = Ok (red_size A 0 s).
Proof.
  intros S F. unfold c_count. destruct axes as [zs|]; cbn [front_axes] in F.
  - destruct F as (ND & -> & I). rewrite S.
    rewrite red_size_product. rewrite (product_perm _ (map (fun k => nth k s 0%nat) A)).
    2:{ apply Permutation_map, axes_perm; assumption. }
    cut (forall n, each (map Z.of_nat A) (fun z n => let* d := rdz s z in Ok (n * d)%nat) n = Ok (n * product (map (fun k => nth k s 0%nat) A))%nat).
    { intros K. rewrite K. f_equal. lia. }
    clear - I. induction A as [|k A IH]; intros n; cbn [map each product fold_right]; [f_equal; lia|].
    unfold rdz at 1. destruct (Z.ltb_spec (Z.of_nat k) 0); [lia|]. rewrite Nat2Z.id, (rd_nth _ _ 0%nat) by (apply I; now left). cbn [bind].
    rewrite IH by (intros j Hj; apply I; now right). f_equal. unfold product. lia.
  - subst A. rewrite (c_size_of _ _ S), red_size_all. reflexivity.
Qed.
Lemma count_into_size A keep s o : inside (red_shape A keep 0 s) o -> count_into A keep s o = INR (red_size A 0 s).
Proof.
  intros H. unfold count_into, sum_into. rewrite sum_over_lsum, <- (group_size_sum A keep s 0 o H). apply lsum_ext. intros i _.
  rewrite place_proj. reflexivity.
Qed.
Lemma mean_c inp out x axes A keep kd : stores inp x -> front_axes axes A (length (shape x)) -> buffer out (red_shape A keep 0 (shape x)) ->
  readable axes A (shape x) (red_shape A keep 0 (shape x)) ->
  writes (c_reduce_mean out inp axes kd) (red_shape A keep 0 (shape x)) (fun o => sum_into A keep (shape x) o (at_ x) / count_into A keep (shape x) o).
Proof.
  intros HX F BO RD. unfold c_reduce_mean. rewrite (count_ok inp (shape x) axes A (stores_shape _ _ HX) F). cbn [bind].
  destruct (sum_c inp out x axes A keep HX BO RD) as (c & E & ST). rewrite E. cbn [bind]. pose proof (stores_buffer _ _ ST) as BC.
  destruct ST as (CS & CW & CD). cbn [shape] in *. set (os := red_shape A keep 0 (shape x)) in *. rewrite (c_size_of _ _ CS).
  destruct (fill_loop (size os) (fun i d => let* x0 := rd d i in wr d i (x0 / INR (red_size A 0 (shape x))))
    (fun m => sum_into A keep (shape x) (unravel os m) (at_ x) / INR (red_size A 0 (shape x))) (c_data c)) as (d & E2 & L2 & V2).
  - now rewrite CD, entries_length.
  - intros i d Hi L W. rewrite (rd_nth _ _ 0) by lia. cbn [bind]. rewrite W by lia. rewrite CD, entries_nth by exact Hi. reflexivity.
  - rewrite E2. cbn [bind]. apply writes_data; [exact BC|exact L2|]. intros m Hm. rewrite V2 by assumption. f_equal.
    rewrite count_into_size; [reflexivity|]. now apply unravel_inside.
Qed.

(** ** When the output is readable *)
Lemma reduced_front axes A r k : front_axes axes A r -> (k < r)%nat -> reduced axes k = is_in k A.
Proof.
  intros F Hk. destruct axes as [zs|]; cbn [front_axes reduced] in *.
  - destruct F as (ND & -> & I). unfold is_in. clear. induction A as [|a A IH]; [reflexivity|]. cbn [map existsb]. rewrite IH. f_equal.
    destruct (Z.eqb_spec (Z.of_nat k) (Z.of_nat a)), (Nat.eqb_spec k a); try reflexivity; lia.
  - subst A. symmetry. apply is_in_true. apply in_seq. lia.
Qed.
Lemma nth_red_keep A s : forall k j, (j < length s)%nat -> nth j (red_shape A true k s) 0%nat = if is_in (k + j) A then 1%nat else nth j s 0%nat.
Proof.
  induction s as [|d s IH]; intros k [|j] H; cbn [length] in H; try lia; cbn [red_shape].
  - rewrite Nat.add_0_r. now destruct (is_in k A).
  - rewrite <- Nat.add_succ_comm. destruct (is_in k A); cbn [nth]; apply IH; lia.
Qed.
Lemma readable_keep axes A s : front_axes axes A (length s) -> readable axes A s (red_shape A true 0 s).
Proof.
  intros F k Hk. split; [now apply (reduced_front axes A (length s))|]. intros Q.
  rewrite (rd_nth _ _ 0%nat) by (now rewrite red_keep_length). rewrite nth_red_keep by assumption. cbn [Nat.add]. now rewrite Q.
Qed.
Lemma red_trailing A m : forall s k0, (forall j, (j < length s)%nat -> (In (k0 + j)%nat A <-> (m <= k0 + j)%nat)) -> (k0 <= m)%nat ->
  red_shape A false k0 s = firstn (m - k0) s.
Proof.
  induction s as [|d s IH]; intros k0 H L; cbn [red_shape]; [now rewrite firstn_nil|].
  pose proof (H 0%nat ltac:(cbn; lia)) as H0. rewrite Nat.add_0_r in H0.
  assert (HT : forall j, (j < length s)%nat -> (In (S k0 + j)%nat A <-> (m <= S k0 + j)%nat)).
  { intros j Hj. specialize (H (S j) ltac:(cbn; lia)). now replace (S k0 + j)%nat with (k0 + S j)%nat by lia. }
  destruct (is_in k0 A) eqn:Q.
  - apply is_in_true in Q. apply H0 in Q. replace m with k0 in * by lia. rewrite Nat.sub_diag. cbn [firstn].
    clear - HT. assert (K : forall l k, (forall j, (j < length l)%nat -> In (k + j)%nat A) -> red_shape A false k l = []).
    { induction l as [|e l IH]; intros k H; [reflexivity|]. cbn [red_shape].
      rewrite (proj2 (is_in_true k A)) by (specialize (H 0%nat ltac:(cbn; lia)); now rewrite Nat.add_0_r in H).
      apply IH. intros j Hj. specialize (H (S j) ltac:(cbn; lia)). now replace (S k + j)%nat with (k + S j)%nat by lia. }
    apply K. intros j Hj. apply HT; [assumption|lia].
  - assert (k0 < m)%nat. { destruct (Nat.lt_ge_cases k0 m) as [|G]; [assumption|]. apply H0 in G. apply is_in_true in G. congruence. }
    replace (m - k0)%nat with (S (m - S k0)) by lia. cbn [firstn]. f_equal. apply IH; [exact HT|lia].
Qed.
Lemma nth_firstn_lt {A} (l : list A) n k d : (k < n)%nat -> nth k (firstn n l) d = nth k l d.
Proof. revert l k. induction n as [|n IH]; intros [|a l] [|k] H; try lia; cbn; try reflexivity. apply IH. lia. Qed.
Lemma readable_trailing axes A s : front_axes axes A (length s) -> trailing (length s) A -> readable axes A s (red_shape A false 0 s).
Proof.
  intros F (m & T) k Hk. split; [now apply (reduced_front axes A (length s))|]. intros Q.
  rewrite (red_trailing A m s 0) by (exact T || lia). rewrite Nat.sub_0_r.
  assert (k < m)%nat. { destruct (Nat.lt_ge_cases k m) as [|G]; [assumption|]. apply T in G; [|assumption]. apply is_in_true in G. congruence. }
  rewrite (rd_nth _ _ 0%nat) by (rewrite firstn_length; lia). now rewrite nth_firstn_lt.
Qed.

(** ** When it is not *)
Lemma out_index_undefined axes os l : (forall p, In p l -> (0 < snd p)%nat) ->
  forall k n, In (k, n) l -> reduced axes k = false -> (length os <= k)%nat -> forall temp stride, out_index axes os l temp stride = undefined.
Proof.
  induction l as [|[j m] l IH]; intros P k n I R L temp stride; [easy|].
  assert (Pm : (0 < m)%nat) by (apply (P (j, m)); now left).
  assert (PT : forall p, In p l -> (0 < snd p)%nat) by (intros p Hp; apply P; now right).
  cbn [out_index]. destruct (Nat.eqb_spec m 0) as [E|_]; [lia|]. destruct I as [E|I].
  - injection E as -> ->. rewrite R. now rewrite rd_out.
  - destruct (reduced axes j); [now apply (IH PT k n)|]. unfold rd. destruct (nth_error os j); [|reflexivity]. cbn [bind]. now rewrite (IH PT k n I R L).
Qed.
Lemma each_undefined {A B} (body : A -> B -> res B) a l s : body a s = undefined -> each (a :: l) body s = undefined.
Proof. intros H. cbn [each]. now rewrite H. Qed.
Lemma sum_undefined inp out axes s k : c_shape inp = s -> positive s -> (k < length s)%nat -> reduced axes k = false ->
  (length (c_shape out) <= k)%nat -> length (c_data out) = c_size out -> c_reduce_sum inp out axes = undefined.
Proof.
  intros S P Hk R L LD. unfold c_reduce_sum.
  destruct (fill_loop (c_size out) (fun i d => wr d i 0) (fun _ => 0) (c_data out) LD) as (d1 & E1 & _); [reflexivity|]. rewrite E1. cbn [bind].
  rewrite (c_size_of _ _ S). pose proof (size_pos _ P) as Z. unfold for_. destruct (size s) as [|n]; [lia|]. cbn [seq].
  rewrite each_undefined; [reflexivity|]. unfold c_ndim. rewrite S.
  rewrite (out_index_undefined axes (c_shape out) _) with (k := k) (n := nth k s 0%nat); [reflexivity| |  |assumption|assumption].
  - intros [a b] Hp. apply in_rev in Hp. apply in_combine_r in Hp. now apply P.
  - apply -> in_rev. assert (I : In (nth k (combine (seq 0 (length s)) s) (0%nat, 0%nat)) (combine (seq 0 (length s)) s)).
    { apply nth_In. rewrite combine_length, seq_length. lia. }
    rewrite combine_nth in I by (now rewrite seq_length). now rewrite seq_nth in I.
Qed.
