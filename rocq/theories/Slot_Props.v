(* C68: sequences packed into time slots. *)

From Coq Require Import List Arith ZArith Bool Lia Sorted Permutation.
From Verif Require Import PyBase Slot_Model Slot_Spec Slot_Proofs.
Import ListNotations.

(* The lengths given are absent or those of the sequences. *)
Definition true_lengths {D V : Type} (seq_of : D -> list (list V)) (data : list D)
  (lengths : option (list Z)) : Prop :=
  lengths = None \/ lengths = Some (map (fun d => Z.of_nat (length (seq_of d))) data).

(* Packing data of any number of nonempty sequences: the indices are those of
   the samples returned; these are in descending order of length, equal lengths
   in the given order; there is one slot for every step of the longest
   sequence, and slot i has row i of exactly the sequences that have one.  The
   lengths of the caller are left alone. *)
Theorem C68_pack : forall (V : Type) (zero : V) (D : Type) (seq_of : D -> list (list V))
    (b : backend) (width n : nat) (data : list D) (lengths : option (list Z)),
  b <> Torch ->
  longest n (map seq_of data) ->
  (forall d, In d data -> seq_of d <> []) ->
  true_lengths seq_of data lengths ->
  exists p,
    pack V zero D seq_of b width data lengths false = Ok (p, lengths)
    /\ Permutation (indices p) (seq 0 (length data))
    /\ map (nth_error data) (indices p) = map Some (data_sorted p)
    /\ StronglySorted (fun x y : nat * D =>
         length (seq_of (snd y)) < length (seq_of (snd x))
         \/ (length (seq_of (snd y)) = length (seq_of (snd x)) /\ fst x < fst y))
         (combine (indices p) (data_sorted p))
    /\ slots p = map (fun i => (i, step i (map seq_of (data_sorted p)))) (seq 0 n).
Proof.
  intros V zero D seq_of b width n data lengths Hb HL HN Hlen.
  destruct (pack_ok V zero D seq_of b width data lengths n Hb HL HN Hlen) as [E [S P]].
  set (pairs := sort_by (longer_pair V D seq_of) (combine (seq 0 (length data)) data)) in *.
  eexists. split; [exact E |]. cbn [indices slots data_sorted].
  split; [| split; [| split]]; [| | | reflexivity].
  - eapply Permutation_trans; [apply Permutation_map; exact P |].
    rewrite map_fst_combine by apply seq_length. apply Permutation_refl.
  - rewrite !map_map. apply map_ext_in. intros [i d] Hp.
    apply (Permutation_in _ P) in Hp. apply combine_nth_error in Hp.
    destruct Hp as [_ Hp]. rewrite Nat.sub_0_r in Hp. exact Hp.
  - assert (EC : combine (map fst pairs) (map snd pairs) = pairs).
    { clear. induction pairs as [| [i d] r IH]; [reflexivity |].
      cbn [map combine fst snd]. rewrite IH. reflexivity. }
    rewrite EC. rewrite <- (map_id pairs).
    apply (sorted_map _ _ (ranked (longer V D seq_of)) _ (fun x => x)); [| exact S].
    intros x y [L I]. unfold longer in L, I. apply Nat.leb_le in L.
    destruct (Nat.eq_dec (length (seq_of (snd y))) (length (seq_of (snd x)))) as [Q | Q].
    + right. split; [exact Q |]. apply I. apply Nat.leb_le. lia.
    + left. lia.
Qed.

(* Unpacking what was computed from the slots row by row puts every row back
   where it came from: sample by sample in the original order, step by step,
   filled up with zeros.  With the identity it is the round trip. *)
Theorem C68_roundtrip : forall (V : Type) (zero : V) (D : Type) (seq_of : D -> list (list V))
    (b : backend) (width n m e : nat) (data : list D) (lengths after : option (list Z))
    (p : packed V D) (f : list V -> list V),
  b <> Torch ->
  longest n (map seq_of data) ->
  (forall d, In d data -> seq_of d <> []) ->
  true_lengths seq_of data lengths ->
  pack V zero D seq_of b width data lengths false = Ok (p, after) ->
  0 < e -> n <= m ->
  (forall d r, In d data -> In r (seq_of d) -> length (f r) = e) ->
  unpack V zero e (map (fun s => (fst s, map f (snd s))) (slots p)) m (length data) e
    (Some (indices p))
  = Ok (map (fun d => filled zero e n (map f (seq_of d))) data)
  /\ unpack V zero e (map (fun s => (fst s, map f (snd s))) (slots p)) m (length data) e None
  = Ok (map (fun d => filled zero e n (map f (seq_of d))) (data_sorted p)).
Proof.
  intros V zero D seq_of b width n m e data lengths after p f Hb HL HN Hlen HP He Hm Hf.
  destruct (pack_ok V zero D seq_of b width data lengths n Hb HL HN Hlen) as [E [S P]].
  set (pairs := sort_by (longer_pair V D seq_of) (combine (seq 0 (length data)) data)) in *.
  assert (Ep : p = {| indices := map fst pairs;
           slots := map (fun j => (j, step j (map seq_of (map snd pairs)))) (seq 0 n);
           data_sorted := map snd pairs |}) by congruence.
  subst p. cbn [indices slots data_sorted]. rewrite map_map. cbn [fst snd].
  assert (ID : forall q, In q pairs -> In (snd q) data).
  { intros [j d] Hp. apply (Permutation_in _ P) in Hp. exact (in_combine_r _ _ _ _ Hp). }
  assert (EL : length data = length (map seq_of (map snd pairs))).
  { rewrite !map_length, (Permutation_length P), combine_length, seq_length. lia. }
  assert (Hn : 0 < n).
  { destruct HL as [[s [Hs <-]] _]. apply in_map_iff in Hs. destruct Hs as [d [<- Hd]].
    specialize (HN d Hd). destruct (seq_of d); [congruence | cbn [length]; lia]. }
  assert (HD : descending V (map seq_of (map snd pairs))).
  { unfold descending. rewrite map_map.
    apply (sorted_map _ _ (ranked (longer V D seq_of)) _ (fun p => seq_of (snd p))); [| exact S].
    intros x y [L _]. unfold longer in L. apply Nat.leb_le in L. exact L. }
  assert (HB : forall s, In s (map seq_of (map snd pairs)) -> length s <= n).
  { intros s Hs. rewrite map_map in Hs. apply in_map_iff in Hs. destruct Hs as [q [<- Hq]].
    apply (proj2 HL). apply in_map. apply ID. exact Hq. }
  assert (HF : forall s r, In s (map seq_of (map snd pairs)) -> In r s -> length (f r) = e).
  { intros s r Hs. rewrite map_map in Hs. apply in_map_iff in Hs. destruct Hs as [q [<- Hq]].
    apply Hf. apply ID. exact Hq. }
  assert (U := unpack_rows V zero f e n m _ HD He Hn Hm HB HF).
  rewrite <- EL in U. split; [rewrite (U (Some (map fst pairs))) |].
  - set (G := fun d => filled zero e n (map f (seq_of d))).
    set (rows := map (fun s => filled zero e n (map f s)) (map seq_of (map snd pairs))).
    assert (PI : Permutation (map fst pairs) (seq 0 (length data))).
    { eapply Permutation_trans; [apply Permutation_map; exact P |].
      rewrite map_fst_combine by apply seq_length. apply Permutation_refl. }
    assert (R := reverse_ok (map fst pairs) (length data) PI).
    set (pick := fun o : option nat => match o with
        | Some j => match nth_error data j with Some d => G d | None => [] end
        | None => [] end).
    rewrite (mapM_ok _ _ _ (fun q => pick (nth_error (map fst pairs) q))).
    + f_equal.
      transitivity (map pick (map (fun q => nth_error (map fst pairs) q)
                                  (reverse_indices (map fst pairs))));
        [symmetry; apply map_map |].
      rewrite R, map_map.
      clear. cbn [pick]. induction data as [| d r IH]; [reflexivity |].
      cbn [length seq map nth_error]. f_equal. rewrite <- seq_shift, map_map. exact IH.
    + intros q Hq.
      assert (I : In (nth_error (map fst pairs) q) (map Some (seq 0 (length data)))).
      { rewrite <- R. apply in_map. exact Hq. }
      apply in_map_iff in I. destruct I as [j [Ej _]].
      rewrite nth_error_map in Ej. destruct (nth_error pairs q) as [[j' d] |] eqn:EQ;
        [| discriminate Ej]. cbn [option_map fst] in Ej. injection Ej as <-.
      assert (Ip := nth_error_In _ _ EQ). apply (Permutation_in _ P) in Ip.
      apply combine_nth_error in Ip. destruct Ip as [_ Ip]. rewrite Nat.sub_0_r in Ip.
      unfold take_row, rows. rewrite !map_map, !nth_error_map, EQ. cbn [option_map fst snd].
      cbn [pick]. rewrite Ip. reflexivity.
  - rewrite (U None), map_map. reflexivity.
Qed.

(* Examples: the hypotheses are met. *)
Definition text : list (list (list nat)) :=
  [[[1; 2]]; [[3; 4]; [5; 6]; [7; 8]]; [[9; 10]; [11; 12]]].

Example C68_pack_example :
  longest 3 (map (fun s => s) text)
  /\ (forall d, In d text -> d <> [])
  /\ pack nat 0 _ (fun s => s) Numpy 2 text None false
     = Ok ({| indices := [1; 2; 0];
              slots := [(0, [[3; 4]; [9; 10]; [1; 2]]); (1, [[5; 6]; [11; 12]]); (2, [[7; 8]])];
              data_sorted := [[[3; 4]; [5; 6]; [7; 8]]; [[9; 10]; [11; 12]]; [[1; 2]]] |}, None).
Proof.
  split; [split |].
  - exists [[3; 4]; [5; 6]; [7; 8]]. split; [cbn; auto | reflexivity].
  - intros s H. cbn in H. repeat destruct H as [<- | H]; cbn [length]; try lia; destruct H.
  - split; [| reflexivity].
    intros d H. cbn in H. repeat destruct H as [<- | H]; try discriminate; destruct H.
Qed.

Example C68_roundtrip_example :
  unpack nat 0 1 (map (fun s => (fst s, map (fun r => [list_sum r]) (snd s)))
     [(0, [[3; 4]; [9; 10]; [1; 2]]); (1, [[5; 6]; [11; 12]]); (2, [[7; 8]])]) 3 3 1
     (Some [1; 2; 0])
  = Ok [[[3]; [0]; [0]]; [[7]; [11]; [15]]; [[19]; [23]; [0]]].
Proof. reflexivity. Qed.

(* --------------------------------------------------------------- *)
(* Findings *)

(* With the PyTorch backend packing always raises. *)
Theorem C68_torch_refuted : forall (V : Type) (zero : V) (D : Type) (seq_of : D -> list (list V))
    (width : nat) (data : list D) (lengths : option (list Z)),
  data <> [] -> true_lengths seq_of data lengths ->
  pack V zero D seq_of Torch width data lengths true = Err RuntimeError
  /\ pack V zero D seq_of Torch width data lengths false = Err RuntimeError.
Proof.
  intros V zero D seq_of width data lengths HD Hlen.
  assert (G : forall (ps : list (nat * D)) m, ps <> [] ->
    mapM (fun p => pad_pack V zero Torch width m (seq_of (snd p))) ps = Err RuntimeError).
  { intros [| x r] m H; [congruence | reflexivity]. }
  assert (NS : forall (A : Type) (le : A -> A -> bool) l, l <> [] -> sort_by le l <> []).
  { intros A le l H E. assert (P := sort_perm A le l). rewrite E in P.
    apply Permutation_nil in P. congruence. }
  assert (NC : combine (seq 0 (length data)) data <> [])
    by (destruct data; [congruence | discriminate]).
  assert (NM : map (fun d => Z.of_nat (length (seq_of d))) data <> [])
    by (destruct data; [congruence | discriminate]).
  unfold pack.
  replace (match lengths with Some ls => ls
           | None => map (fun d => Z.of_nat (length (seq_of d))) data end)
    with (map (fun d => Z.of_nat (length (seq_of d))) data)
    by (destruct Hlen as [-> | ->]; reflexivity).
  split.
  - destruct (map (fun d => Z.of_nat (length (seq_of d))) data) as [| m t]; [congruence |].
    rewrite G by exact NC. reflexivity.
  - assert (N := NS _ geZ _ NM).
    destruct (sort_by geZ (map (fun d => Z.of_nat (length (seq_of d))) data)) as [| m t];
      [congruence |].
    rewrite G by (apply NS; exact NC). reflexivity.
Qed.

(* NumPy, lengths given for sorted data: the caller's array is changed, and
   packing a second time with it raises. *)
Theorem C68_lengths_refuted : forall (V : Type) (zero : V) (D : Type) (seq_of : D -> list (list V))
    (width : nat) (data : list D) (p : packed V D) (ls : list Z) (after : option (list Z)),
  (exists d r, data = d :: r /\ seq_of d <> []) ->
  true_lengths seq_of data (Some ls) ->
  pack V zero D seq_of Numpy width data (Some ls) true = Ok (p, after) ->
  after = Some (map (fun z => (z - 1)%Z) ls)
  /\ pack V zero D seq_of Numpy width data after true = Err ValueError.
Proof.
  intros V zero D seq_of width data p ls after [d [r [-> Hd]]] [T | T]; [discriminate T |].
  injection T as ->. intros H. unfold pack in H. cbn [map] in H.
  set (h := Z.of_nat (length (seq_of d))) in *.
  assert (Hh : (0 < h)%Z).
  { unfold h. destruct (seq_of d); [congruence | cbn [length]; lia]. }
  destruct (mapM _ _) as [padded | e] eqn:EM in H; [| discriminate H]. cbn [bind] in H.
  replace (0 <? h)%Z with true in H by (symmetry; apply Z.ltb_lt; exact Hh).
  injection H as _ <-. split; [reflexivity |].
  unfold pack. cbn [map length seq combine mapM snd pad_pack]. unfold pad_rows, row.
  assert (EB : (h - 1 - Z.of_nat (length (seq_of d)) <? 0)%Z = true)
    by (apply Z.ltb_lt; unfold h; lia).
  unfold row in EB.
  rewrite EB. reflexivity.
Qed.

Example C68_lengths_example :
  exists p, pack nat 0 _ (fun s => s) Numpy 1 [[[1]; [2]]; [[3]]] (Some [2; 1]%Z) true
            = Ok (p, Some [1; 0]%Z).
Proof. eexists. reflexivity. Qed.

(* An empty sequence is never removed: slots have rows of sequences that have
   ended. *)
Theorem C68_empty_refuted :
  exists p, pack nat 0 _ (fun s => s) Jax 1 [[[1]; [2]; [3]]; [[4]]; []] None false = Ok (p, None)
    /\ slots p = [(0, [[1]; [4]; [0]]); (1, [[2]; [0]]); (2, [[3]; [0]])].
Proof. eexists. split; reflexivity. Qed.

Print Assumptions C68_pack.
Print Assumptions C68_roundtrip.
Print Assumptions C68_torch_refuted.
Print Assumptions C68_lengths_refuted.
Print Assumptions C68_empty_refuted.
