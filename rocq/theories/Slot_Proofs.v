(* Proofs about time slots. *)

From Coq Require Import List Arith ZArith Bool Lia Sorted Permutation.
From Verif Require Import PyBase Slot_Model Slot_Spec.
Import ListNotations.

Lemma mapM_ok : forall (A B : Type) (f : A -> res B) (g : A -> B) l,
  (forall x, In x l -> f x = Ok (g x)) -> mapM f l = Ok (map g l).
Proof.
  intros A B f g l H. induction l as [| x r IH]; [reflexivity |].
  cbn [mapM map]. rewrite (H x (or_introl eq_refl)). cbn [bind].
  rewrite IH by (intros y Hy; apply H; right; exact Hy). reflexivity.
Qed.

(* --------------------------------------------------------------- *)
(* Sorting *)

Lemma insert_perm : forall (A : Type) (le : A -> A -> bool) x l,
  Permutation (insert_by le x l) (x :: l).
Proof.
  intros A le x l. induction l as [| y r IH]; cbn [insert_by]; [apply Permutation_refl |].
  destruct (le x y); [apply Permutation_refl |].
  eapply Permutation_trans; [apply perm_skip; exact IH | apply perm_swap].
Qed.

Lemma sort_perm : forall (A : Type) (le : A -> A -> bool) l, Permutation (sort_by le l) l.
Proof.
  intros A le l. unfold sort_by. induction l as [| x r IH]; cbn [fold_right]; [constructor |].
  eapply Permutation_trans; [apply insert_perm | apply perm_skip; exact IH].
Qed.

Lemma insert_map : forall (A B : Type) (f : A -> B) (le : A -> A -> bool) (le' : B -> B -> bool) x l,
  (forall a b, le' (f a) (f b) = le a b) ->
  insert_by le' (f x) (map f l) = map f (insert_by le x l).
Proof.
  intros A B f le le' x l H. induction l as [| y r IH]; [reflexivity |].
  cbn [map insert_by]. rewrite H. destruct (le x y); [reflexivity |].
  cbn [map]. rewrite IH. reflexivity.
Qed.

Lemma sort_map : forall (A B : Type) (f : A -> B) (le : A -> A -> bool) (le' : B -> B -> bool) l,
  (forall a b, le' (f a) (f b) = le a b) ->
  sort_by le' (map f l) = map f (sort_by le l).
Proof.
  intros A B f le le' l H. unfold sort_by. induction l as [| x r IH]; [reflexivity |].
  cbn [map fold_right]. rewrite IH. apply insert_map. exact H.
Qed.

(* A sort of numbered entries: by key, equal keys by number. *)
Definition ranked {A : Type} (le : A -> A -> bool) (x y : nat * A) : Prop :=
  le (snd x) (snd y) = true /\ (le (snd y) (snd x) = true -> fst x < fst y).

Lemma insert_ranked : forall (A : Type) (le : A -> A -> bool),
  (forall a b, le a b = true \/ le b a = true) ->
  (forall a b c, le a b = true -> le b c = true -> le a c = true) ->
  forall x l,
  (forall y, In y l -> fst x < fst y) ->
  StronglySorted (ranked le) l ->
  StronglySorted (ranked le) (insert_by (fun a b => le (snd a) (snd b)) x l).
Proof.
  intros A le HT HR x l. induction l as [| y r IH]; intros H S; cbn [insert_by].
  - constructor; constructor.
  - assert (S' := S). apply StronglySorted_inv in S'. destruct S' as [SR F].
    destruct (le (snd x) (snd y)) eqn:E.
    + constructor; [exact S |]. rewrite Forall_forall in F |- *.
      intros z Hz. split; [| intros _; apply H; exact Hz].
      destruct Hz as [<- | Hz]; [exact E |]. destruct (F z Hz) as [Lz _].
      exact (HR _ _ _ E Lz).
    + constructor; [apply IH; [intros z Hz; apply H; right; exact Hz | exact SR] |].
      rewrite Forall_forall in F |- *. intros z Hz.
      apply (Permutation_in _ (insert_perm _ _ x r)) in Hz.
      destruct Hz as [<- | Hz]; [| exact (F z Hz)].
      split; [destruct (HT (snd x) (snd y)); [congruence | assumption] | congruence].
Qed.

Lemma sort_ranked : forall (A : Type) (le : A -> A -> bool),
  (forall a b, le a b = true \/ le b a = true) ->
  (forall a b c, le a b = true -> le b c = true -> le a c = true) ->
  forall l k,
  StronglySorted (ranked le)
    (sort_by (fun a b => le (snd a) (snd b)) (combine (seq k (length l)) l)).
Proof.
  intros A le HT HR l. unfold sort_by. induction l as [| x r IH]; intros k;
    cbn [length seq combine fold_right]; [constructor |].
  apply insert_ranked; [exact HT | exact HR | | apply IH].
  intros y Hy. apply (Permutation_in _ (sort_perm _ _ _)) in Hy.
  destruct y as [j y]. apply in_combine_l in Hy. apply in_seq in Hy. cbn [fst]. lia.
Qed.

Lemma sorted_map : forall (A B : Type) (R : A -> A -> Prop) (R' : B -> B -> Prop) (f : A -> B) l,
  (forall a b, R a b -> R' (f a) (f b)) -> StronglySorted R l -> StronglySorted R' (map f l).
Proof.
  intros A B R R' f l H S. induction S as [| x r S IH F]; [constructor |].
  cbn [map]. constructor; [exact IH |]. rewrite Forall_forall in F |- *.
  intros y Hy. apply in_map_iff in Hy. destruct Hy as [z [<- Hz]]. apply H, F, Hz.
Qed.

Lemma sorted_perm_eq : forall l l' : list nat,
  StronglySorted le l -> StronglySorted le l' -> Permutation l l' -> l = l'.
Proof.
  induction l as [| x r IH]; intros l' S S' P.
  - apply Permutation_nil in P. subst. reflexivity.
  - destruct l' as [| y r']; [apply Permutation_sym, Permutation_nil in P; discriminate P |].
    apply StronglySorted_inv in S. destruct S as [S F].
    apply StronglySorted_inv in S'. destruct S' as [S' F'].
    rewrite Forall_forall in F, F'.
    assert (E : x = y).
    { assert (I : In y (x :: r)) by (apply (Permutation_in _ (Permutation_sym P)); left; reflexivity).
      assert (I' : In x (y :: r')) by (apply (Permutation_in _ P); left; reflexivity).
      destruct I as [I | I]; [exact I |]. destruct I' as [I' | I']; [congruence |].
      apply F in I. apply F' in I'. lia. }
    subst y. f_equal. apply IH; [exact S | exact S' |].
    exact (Permutation_cons_inv P).
Qed.

Lemma seq_sorted : forall n k, StronglySorted le (seq k n).
Proof.
  induction n as [| n IH]; intros k; cbn [seq]; constructor; [apply IH |].
  apply Forall_forall. intros x Hx. apply in_seq in Hx. lia.
Qed.

Lemma map_fst_combine : forall (A B : Type) (l : list A) (m : list B),
  length l = length m -> map fst (combine l m) = l.
Proof.
  intros A B l. induction l as [| x r IH]; intros [| y m] H; try discriminate H; [reflexivity |].
  cbn [combine map fst]. f_equal. apply IH. injection H as H. exact H.
Qed.

Lemma map_snd_combine : forall (A B : Type) (l : list A) (m : list B),
  length l = length m -> map snd (combine l m) = m.
Proof.
  intros A B l. induction l as [| x r IH]; intros [| y m] H; try discriminate H; [reflexivity |].
  cbn [combine map snd]. f_equal. apply IH. injection H as H. exact H.
Qed.

Lemma combine_nth_error : forall (A : Type) (l : list A) k i x,
  In (i, x) (combine (seq k (length l)) l) -> k <= i /\ nth_error l (i - k) = Some x.
Proof.
  intros A l. induction l as [| y r IH]; intros k i x H; [destruct H |].
  cbn [length seq combine] in H. destruct H as [H | H].
  - injection H as <- <-. rewrite Nat.sub_diag. split; [lia | reflexivity].
  - apply IH in H. destruct H as [L E]. split; [lia |].
    replace (i - k) with (S (i - S k)) by lia. exact E.
Qed.

(* Positions ordered by index invert a permutation. *)
Lemma reverse_ok : forall inds n, Permutation inds (seq 0 n) ->
  map (fun p => nth_error inds p) (reverse_indices inds) = map Some (seq 0 n).
Proof.
  intros inds n P. unfold reverse_indices.
  set (c := combine (seq 0 (length inds)) inds).
  set (s := sort_by (fun x y : nat * nat => (snd x <=? snd y)) c).
  assert (E1 : map (fun p => nth_error inds p) (map fst s) = map Some (map snd s)).
  { rewrite !map_map. apply map_ext_in. intros [p j] H. cbn [fst snd].
    apply (Permutation_in _ (sort_perm _ _ c)) in H. apply combine_nth_error in H.
    destruct H as [_ H]. rewrite Nat.sub_0_r in H. exact H. }
  rewrite E1. f_equal. apply sorted_perm_eq.
  - assert (S := sort_ranked nat Nat.leb).
    assert (S1 := S (fun a b => match Nat.le_ge_cases a b with
                         | or_introl h => or_introl (proj2 (Nat.leb_le a b) h)
                         | or_intror h => or_intror (proj2 (Nat.leb_le b a) h) end)). clear S.
    assert (HT : forall a b c, (a <=? b) = true -> (b <=? c) = true -> (a <=? c) = true).
    { intros x y z Hx Hy. apply Nat.leb_le in Hx. apply Nat.leb_le in Hy. apply Nat.leb_le. lia. }
    specialize (S1 HT inds 0). apply (sorted_map _ _ (ranked Nat.leb) le snd) in S1; [exact S1 |].
    intros a b [H _]. apply Nat.leb_le. exact H.
  - apply seq_sorted.
  - eapply Permutation_trans; [| exact P].
    eapply Permutation_trans; [apply Permutation_map, sort_perm |].
    unfold c. rewrite map_snd_combine by apply seq_length. apply Permutation_refl.
Qed.

(* --------------------------------------------------------------- *)
(* Slots *)

Section Slots.
Variable V : Type.
Variable zero : V.

Definition descending (l : list (list (list V))) : Prop :=
  StronglySorted (fun a b => length b <= length a) l.

Lemma no_longer : forall i (a : list (list V)) l,
  Forall (fun b : list (list V) => length b <= length a) l ->
  (i <? length a) = false -> filter (fun s : list (list V) => i <? length s) l = [].
Proof.
  intros i a l F E. apply Nat.ltb_ge in E. induction F as [| b r H F IH]; [reflexivity |].
  cbn [filter]. replace (i <? length b) with false; [exact IH |].
  symmetry. apply Nat.ltb_ge. lia.
Qed.

Lemma desc_firstn : forall i l, descending l ->
  firstn (length (filter (fun s : list (list V) => i <? length s) l)) l = filter (fun s : list (list V) => i <? length s) l.
Proof.
  intros i l S. induction S as [| a r S IH F]; [reflexivity |].
  cbn [filter]. destruct (i <? length a) eqn:E.
  - cbn [length firstn]. rewrite IH. reflexivity.
  - rewrite (no_longer i a r F E). reflexivity.
Qed.

Lemma next_lengths : forall i (sd : list (list (list V))),
  filter (fun z => negb (z =? 0)%Z)
    (map (fun z => (z - 1)%Z)
       (map (fun s : list (list V) => (Z.of_nat (length s) - Z.of_nat i)%Z) (filter (fun s : list (list V) => i <? length s) sd)))
  = map (fun s : list (list V) => (Z.of_nat (length s) - Z.of_nat (S i))%Z) (filter (fun s : list (list V) => S i <? length s) sd).
Proof.
  intros i sd. induction sd as [| s r IH]; [reflexivity |].
  cbn [filter]. destruct (i <? length s) eqn:E1.
  - apply Nat.ltb_lt in E1. cbn [map filter]. rewrite IH.
    destruct (S i <? length s) eqn:E2.
    + apply Nat.ltb_lt in E2.
      replace (Z.of_nat (length s) - Z.of_nat i - 1 =? 0)%Z with false
        by (symmetry; apply Z.eqb_neq; lia).
      cbn [negb map]. f_equal. lia.
    + apply Nat.ltb_ge in E2.
      replace (Z.of_nat (length s) - Z.of_nat i - 1 =? 0)%Z with true
        by (symmetry; apply Z.eqb_eq; lia).
      reflexivity.
  - apply Nat.ltb_ge in E1. replace (S i <? length s) with false
      by (symmetry; apply Nat.ltb_ge; lia). exact IH.
Qed.

Lemma find_slots_ok : forall width M sd, descending sd -> forall m i,
  find_slots V m i (map (filled zero width M) sd)
    (map (fun s : list (list V) => (Z.of_nat (length s) - Z.of_nat i)%Z) (filter (fun s : list (list V) => i <? length s) sd))
  = map (fun j => (j, step j sd)) (seq i m).
Proof.
  intros width M sd S m. induction m as [| m IH]; intros i; [reflexivity |].
  cbn [find_slots seq map]. f_equal.
  - f_equal. rewrite map_length, firstn_map, (desc_firstn i sd S), map_map. unfold step.
    apply map_ext_in. intros s Hs. apply filter_In in Hs. destruct Hs as [_ Hs].
    apply Nat.ltb_lt in Hs. unfold filled. apply app_nth1. exact Hs.
  - rewrite next_lengths. apply IH.
Qed.

Lemma slot_entry : forall (g : list (list V) -> list V) (z : list V) i sd r,
  descending sd -> r < length sd ->
  nth r (map g (filter (fun s : list (list V) => i <? length s) sd)
         ++ repeat z (length sd - length (filter (fun s : list (list V) => i <? length s) sd))) []
  = if i <? length (nth r sd []) then g (nth r sd []) else z.
Proof.
  intros g z i sd r HS. revert r. induction HS as [| a l HS IH F]; intros r Hr;
    [cbn [length] in Hr; lia |].
  cbn [filter]. destruct (i <? length a) eqn:E.
  - cbn [map length app Nat.sub]. destruct r as [| r]; cbn [nth].
    + rewrite E. reflexivity.
    + apply IH. cbn [length] in Hr. lia.
  - rewrite (no_longer i a l F E). cbn [map app length]. rewrite Nat.sub_0_r.
    assert (EN : nth r (repeat z (S (length l))) [] = z).
    { cbn [length] in Hr. apply (repeat_spec (S (length l))).
      apply nth_In. rewrite repeat_length. exact Hr. }
    rewrite EN.
    assert (EL : (i <? length (nth r (a :: l) [])) = false).
    { apply Nat.ltb_ge. apply Nat.ltb_ge in E. destruct r as [| r]; cbn [nth]; [exact E |].
      cbn [length] in Hr. rewrite Forall_forall in F.
      assert (I : In (nth r l []) l) by (apply nth_In; lia).
      specialize (F _ I). cbv beta in F. lia. }
    rewrite EL. reflexivity.
Qed.

Lemma rows_filled : forall (f : list V -> list V) (z : list V) s n,
  length s <= n ->
  map (fun i => if i <? length s then f (nth i s []) else z) (seq 0 n)
  = map f s ++ repeat z (n - length s).
Proof.
  intros f z s n H. replace n with (length s + (n - length s)) at 1 by lia.
  rewrite seq_app, map_app. f_equal.
  - clear H. transitivity (map (fun i => f (nth i s [])) (seq 0 (length s))).
    + apply map_ext_in. intros i Hi. apply in_seq in Hi.
      replace (i <? length s) with true by (symmetry; apply Nat.ltb_lt; lia). reflexivity.
    + induction s as [| a s IH]; [reflexivity |].
      cbn [length seq map nth]. f_equal. rewrite <- seq_shift, map_map. exact IH.
  - cbn [plus]. generalize (n - length s) as k. intros k.
    assert (G : forall m, length s <= m ->
      map (fun i => if i <? length s then f (nth i s []) else z) (seq m k) = repeat z k).
    { induction k as [| k IH]; intros m Hm; [reflexivity |].
      cbn [seq map repeat]. rewrite IH by lia.
      replace (m <? length s) with false by (symmetry; apply Nat.ltb_ge; lia). reflexivity. }
    apply G. lia.
Qed.

Lemma chunks_ok : forall e (rows : list (list V)) fuel,
  0 < e -> (forall r, In r rows -> length r = e) -> length rows <= fuel ->
  chunks V fuel e (List.concat rows) = rows.
Proof.
  intros e rows. induction rows as [| r rs IH]; intros fuel He H Hf.
  - destruct fuel; reflexivity.
  - destruct fuel as [| fuel]; [cbn [length] in Hf; lia |].
    assert (L := H r (or_introl eq_refl)).
    cbn [List.concat chunks]. destruct r as [| x r]; [cbn [length] in L; lia |].
    change ((x :: r) ++ List.concat rs) with (x :: (r ++ List.concat rs)).
    cbv iota. change (x :: (r ++ List.concat rs)) with ((x :: r) ++ List.concat rs).
    rewrite firstn_app, skipn_app, L, Nat.sub_diag, <- L, firstn_all, skipn_all.
    rewrite firstn_O, app_nil_r, skipn_O. cbn [app]. f_equal.
    rewrite L. apply IH; [exact He | intros q Hq; apply H; right; exact Hq | cbn [length] in Hf; lia].
Qed.

Lemma concat_length_const : forall e (rows : list (list V)),
  (forall r, In r rows -> length r = e) -> length (List.concat rows) = length rows * e.
Proof.
  intros e rows H. induction rows as [| r rs IH]; [reflexivity |].
  cbn [List.concat length]. rewrite app_length, IH by (intros q Hq; apply H; right; exact Hq).
  rewrite (H r (or_introl eq_refl)). reflexivity.
Qed.

Lemma reshape_ok : forall e (rows : list (list V)),
  0 < e -> (forall r, In r rows -> length r = e) ->
  reshape_row V e (List.concat rows) = Ok rows.
Proof.
  intros e rows He H. unfold reshape_row. destruct e as [| e]; [lia |].
  rewrite (concat_length_const (S e) rows H), Nat.mod_mul by lia. cbn [Nat.eqb].
  f_equal. apply chunks_ok; [exact He | exact H | nia].
Qed.

Lemma find_slot_map : forall (g : nat -> list (list V)) n k i,
  find_slot V i (map (fun j => (j, g j)) (seq k n))
  = if (k <=? i) && (i <? k + n) then Some (g i) else None.
Proof.
  intros g n. induction n as [| n IH]; intros k i; cbn [seq map find_slot].
  - destruct (k <=? i) eqn:E1; [| reflexivity]. destruct (i <? k + 0) eqn:E2; [| reflexivity].
    apply Nat.leb_le in E1. apply Nat.ltb_lt in E2. lia.
  - destruct (Nat.eqb i k) eqn:E.
    + apply Nat.eqb_eq in E. subst k. rewrite Nat.leb_refl.
      replace (i <? i + S n) with true by (symmetry; apply Nat.ltb_lt; lia). reflexivity.
    + apply Nat.eqb_neq in E. rewrite IH.
      destruct (k <=? i) eqn:E1.
      * apply Nat.leb_le in E1. replace (S k <=? i) with true by (symmetry; apply Nat.leb_le; lia).
        replace (S k + n) with (k + S n) by lia. reflexivity.
      * apply Nat.leb_gt in E1. replace (S k <=? i) with false by (symmetry; apply Nat.leb_gt; lia).
        reflexivity.
Qed.

Lemma present_ok : forall (g : nat -> list (list V)) n m, n <= m ->
  flat_map (fun i => match find_slot V i (map (fun j => (j, g j)) (seq 0 n)) with
                     | Some s => [s] | None => [] end) (seq 0 m)
  = map g (seq 0 n).
Proof.
  intros g n m H. replace m with (n + (m - n)) by lia.
  rewrite seq_app, flat_map_app, <- (app_nil_r (map g (seq 0 n))). f_equal.
  - transitivity (flat_map (fun i => [g i]) (seq 0 n)).
    + rewrite !flat_map_concat_map. f_equal. apply map_ext_in. intros i Hi.
      apply in_seq in Hi. rewrite find_slot_map.
      replace (i <? 0 + n) with true by (symmetry; apply Nat.ltb_lt; lia). reflexivity.
    + generalize (seq 0 n) as l. induction l as [| x l IH]; [reflexivity |].
      cbn [flat_map map app]. rewrite IH. reflexivity.
  - assert (G : forall l, (forall i, In i l -> n <= i) ->
      flat_map (fun i => match find_slot V i (map (fun j => (j, g j)) (seq 0 n)) with
                         | Some s => [s] | None => [] end) l = []).
    { induction l as [| x l IH]; intros Hl; [reflexivity |].
      cbn [flat_map]. rewrite IH by (intros i Hi; apply Hl; right; exact Hi).
      rewrite find_slot_map.
      replace (x <? 0 + n) with false by (symmetry; apply Nat.ltb_ge; apply Hl; left; reflexivity).
      rewrite andb_false_r. reflexivity. }
    apply G. intros i Hi. apply in_seq in Hi. lia.
Qed.

Lemma unpack_rows : forall (f : list V -> list V) e n m sd,
  descending sd -> 0 < e -> 0 < n -> n <= m ->
  (forall s, In s sd -> length s <= n) ->
  (forall s r, In s sd -> In r s -> length (f r) = e) ->
  forall inds,
  unpack V zero e (map (fun j => (j, map f (step j sd))) (seq 0 n)) m (length sd) e inds
  = match inds with
    | None => Ok (map (fun s => filled zero e n (map f s)) sd)
    | Some l => mapM (take_row V (map (fun s => filled zero e n (map f s)) sd)) (reverse_indices l)
    end.
Proof.
  intros f e n m sd HS He Hn Hm HL Hf inds. unfold unpack.
  rewrite (present_ok (fun j => map f (step j sd)) n m Hm).
  set (z := repeat zero e).
  set (col := fun i => map (fun s => f (nth i s [])) (filter (fun s : list (list V) => i <? length s) sd)
                       ++ repeat z (length sd - length (filter (fun s : list (list V) => i <? length s) sd))).
  rewrite (mapM_ok _ _ _ (fun s => s ++ repeat z (length sd - length s))).
  2:{ intros s Hs. apply in_map_iff in Hs. destruct Hs as [i [<- _]].
      unfold pad_rows, step. rewrite !map_length.
      assert (L : length (filter (fun s : list (list V) => i <? length s) sd) <= length sd).
      { clear. induction sd as [| a l IH]; [apply le_n |]. cbn [filter].
        destruct (i <? length a); cbn [length]; lia. }
      replace (Z.of_nat (length sd) - Z.of_nat (length (filter (fun s : list (list V) => Nat.ltb i (length s)) sd)) <? 0)%Z
        with false by (symmetry; apply Z.ltb_ge; lia).
      f_equal. f_equal. f_equal. lia. }
  cbn [bind]. rewrite map_map.
  assert (EC : map (fun x => map f (step x sd) ++ repeat z (length sd - length (map f (step x sd))))
                 (seq 0 n) = map col (seq 0 n)).
  { apply map_ext. intros i. unfold col, step. rewrite !map_length, map_map. reflexivity. }
  rewrite EC.
  assert (ER : mapM (fun r => reshape_row V e (List.concat (map (fun s => nth r s []) (map col (seq 0 n)))))
                 (seq 0 (length sd))
             = Ok (map (fun r => filled zero e n (map f (nth r sd []))) (seq 0 (length sd)))).
  { apply mapM_ok. intros r Hr. apply in_seq in Hr. rewrite map_map.
    assert (I : In (nth r sd []) sd) by (apply nth_In; lia).
    assert (EQ : map (fun i => nth r (col i) []) (seq 0 n)
                 = filled zero e n (map f (nth r sd []))).
    { unfold filled. rewrite map_length. fold z.
      rewrite <- (rows_filled f z (nth r sd []) n (HL _ I)).
      apply map_ext. intros i. unfold col. apply slot_entry; [exact HS | lia]. }
    rewrite EQ. apply reshape_ok; [exact He |].
    intros q Hq. unfold filled in Hq. apply in_app_iff in Hq. destruct Hq as [Hq | Hq].
    - apply in_map_iff in Hq. destruct Hq as [p [<- Hp]]. exact (Hf _ p I Hp).
    - apply repeat_spec in Hq. subst q. apply repeat_length. }
  rewrite ER. cbn [bind].
  assert (EM : map (fun r => filled zero e n (map f (nth r sd []))) (seq 0 (length sd))
             = map (fun s => filled zero e n (map f s)) sd).
  { clear. assert (H : map (fun r => nth r sd []) (seq 0 (length sd)) = sd).
    { induction sd as [| a l IH]; [reflexivity |].
      cbn [length seq map nth]. f_equal. rewrite <- seq_shift, map_map. exact IH. }
    rewrite <- (map_map (fun r => nth r sd []) (fun s => filled zero e n (map f s))).
    rewrite H. reflexivity. }
  rewrite EM. destruct n as [| n]; [lia |]. cbn [seq map]. reflexivity.
Qed.

(* --------------------------------------------------------------- *)
(* Packing *)

Variable D : Type.
Variable seq_of : D -> list (list V).

Lemma longer_total : forall a b, longer V D seq_of a b = true \/ longer V D seq_of b a = true.
Proof.
  intros a b. unfold longer. destruct (Nat.le_ge_cases (length (seq_of b)) (length (seq_of a)));
    [left | right]; apply Nat.leb_le; lia.
Qed.

Lemma longer_trans : forall a b c,
  longer V D seq_of a b = true -> longer V D seq_of b c = true -> longer V D seq_of a c = true.
Proof.
  intros a b c. unfold longer. rewrite !Nat.leb_le. lia.
Qed.

Lemma map_combine_len : forall (data : list D),
  map (fun d => Z.of_nat (length (seq_of d))) data
  = map (fun p : nat * D => Z.of_nat (length (seq_of (snd p)))) (combine (seq 0 (length data)) data).
Proof.
  intros data.
  rewrite <- (map_map snd (fun d => Z.of_nat (length (seq_of d)))).
  rewrite map_snd_combine by apply seq_length. reflexivity.
Qed.

Lemma pack_ok : forall b width data lengths n,
  b <> Torch -> longest n (map seq_of data) ->
  (forall d, In d data -> seq_of d <> []) ->
  (lengths = None \/ lengths = Some (map (fun d => Z.of_nat (length (seq_of d))) data)) ->
  let pairs := sort_by (longer_pair V D seq_of) (combine (seq 0 (length data)) data) in
  pack V zero D seq_of b width data lengths false
  = Ok ({| indices := map fst pairs;
           slots := map (fun j => (j, step j (map seq_of (map snd pairs)))) (seq 0 n);
           data_sorted := map snd pairs |}, lengths)
  /\ StronglySorted (ranked (longer V D seq_of)) pairs
  /\ Permutation pairs (combine (seq 0 (length data)) data).
Proof.
  intros b width data lengths n Hb [HE HL] HN Hlen pairs.
  assert (SR : StronglySorted (ranked (longer V D seq_of)) pairs)
    by (apply sort_ranked; [exact longer_total | exact longer_trans]).
  assert (PP : Permutation pairs (combine (seq 0 (length data)) data)) by apply sort_perm.
  split; [| split; assumption].
  unfold pack.
  replace (match lengths with Some ls => ls
           | None => map (fun d => Z.of_nat (length (seq_of d))) data end)
    with (map (fun d => Z.of_nat (length (seq_of d))) data)
    by (destruct Hlen as [-> | ->]; reflexivity).
  rewrite map_combine_len.
  rewrite (sort_map _ _ (fun p : nat * D => Z.of_nat (length (seq_of (snd p))))
             (longer_pair V D seq_of) geZ).
  2:{ intros x y. unfold geZ, longer_pair, longer.
      destruct (length (seq_of (snd y)) <=? length (seq_of (snd x))) eqn:E.
      - apply Nat.leb_le in E. apply Z.leb_le. lia.
      - apply Nat.leb_gt in E. apply Z.leb_gt. lia. }
  fold pairs.
  assert (ID : forall p, In p pairs -> In (snd p) data).
  { intros [j d] Hp. apply (Permutation_in _ PP) in Hp. exact (in_combine_r _ _ _ _ Hp). }
  assert (DI : forall d, In d data -> exists p, In p pairs /\ snd p = d).
  { intros d Hd. rewrite <- (map_snd_combine _ _ (seq 0 (length data)) data) in Hd
      by apply seq_length.
    apply in_map_iff in Hd. destruct Hd as [p [E Hp]]. exists p. split; [| exact E].
    exact (Permutation_in _ (Permutation_sym PP) Hp). }
  assert (EH : exists t, map (fun p : nat * D => Z.of_nat (length (seq_of (snd p)))) pairs
                         = Z.of_nat n :: t).
  { clearbody pairs. destruct pairs as [| p0 ps].
    { exfalso. destruct HE as [s [Hs _]]. apply in_map_iff in Hs. destruct Hs as [d [_ Hd]].
      destruct (DI d Hd) as [p [[] _]]. }
    eexists. cbn [map]. f_equal. f_equal. apply Nat.le_antisymm.
    - apply HL. apply in_map. apply ID. left. reflexivity.
    - destruct HE as [s [Hs Es]]. apply in_map_iff in Hs. destruct Hs as [d [Ed Hd]].
      destruct (DI d Hd) as [p [Hp E]]. rewrite <- Es, <- Ed, <- E.
      destruct Hp as [<- | Hp]; [apply le_n |].
      apply StronglySorted_inv in SR. destruct SR as [_ F]. rewrite Forall_forall in F.
      destruct (F p Hp) as [L _]. unfold longer in L. apply Nat.leb_le in L. exact L. }
  destruct EH as [t EH].
  destruct (map (fun p : nat * D => Z.of_nat (length (seq_of (snd p)))) pairs) as [| m t'] eqn:EM;
    [discriminate EH |].
  injection EH as Hm Ht. subst m t'.
  rewrite (mapM_ok _ _ _ (fun p : nat * D => filled zero width n (seq_of (snd p)))).
  2:{ intros p Hp. assert (L : length (seq_of (snd p)) <= n) by (apply HL, in_map, ID, Hp).
      assert (PR : pad_rows V zero width (Z.of_nat n - Z.of_nat (length (seq_of (snd p)))) (seq_of (snd p))
                   = Ok (filled zero width n (seq_of (snd p)))).
      { unfold pad_rows, filled.
        replace (Z.of_nat n - Z.of_nat (length (seq_of (snd p))) <? 0)%Z with false
          by (symmetry; apply Z.ltb_ge; lia).
        f_equal. f_equal. f_equal. lia. }
      destruct b; cbn [pad_pack]; [exact PR | congruence | exact PR]. }
  cbn [bind].
  assert (ES : find_slots V (Z.to_nat (Z.of_nat n)) 0
                 (map (fun p : nat * D => filled zero width n (seq_of (snd p))) pairs)
                 (Z.of_nat n :: t)
             = map (fun j => (j, step j (map seq_of (map snd pairs)))) (seq 0 n)).
  { rewrite Nat2Z.id.
    rewrite <- (find_slots_ok width n (map seq_of (map snd pairs))).
    - rewrite !map_map. f_equal. rewrite <- EM.
      assert (EF : filter (fun s : list (list V) => 0 <? length s)
                     (map (fun x : nat * D => seq_of (snd x)) pairs)
                   = map (fun x : nat * D => seq_of (snd x)) pairs).
      { clear - ID HN. assert (G : forall p, In p pairs -> (0 <? length (seq_of (snd p))) = true).
        { intros p Hp. apply Nat.ltb_lt. assert (N := HN _ (ID p Hp)).
          destruct (seq_of (snd p)); [congruence | cbn [length]; lia]. }
        clear ID HN. induction pairs as [| p r IH]; [reflexivity |].
        cbn [map filter]. rewrite (G p (or_introl eq_refl)). f_equal. apply IH.
        intros q Hq. apply G. right. exact Hq. }
      rewrite EF, map_map. apply map_ext. intros p. lia.
    - unfold descending. rewrite map_map.
      apply (sorted_map _ _ (ranked (longer V D seq_of)) _ (fun p => seq_of (snd p))); [| exact SR].
      intros x y [L _]. unfold longer in L. apply Nat.leb_le in L. exact L. }
  rewrite ES. destruct Hlen as [-> | ->]; reflexivity.
Qed.

End Slots.
