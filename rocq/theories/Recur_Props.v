(* C71: recurrent models treat every sequence of a batch as if it were alone. *)

From Coq Require Import List Arith Bool Lia Permutation.
From Verif Require Import PyBase Recur_Model Recur_Spec Recur_Proofs.
Import ListNotations.

(* The encoder: given the time slots of sequences in descending order of length,
   output t has the outputs after t + 1 entries of the sequences that long, and
   the concatenated hidden states are the final states of all sequences, those of
   length 1, 2, ..., n - 2, n, n - 1 in this order. *)
Theorem C71_encoder : forall (X St : Type) (next : X -> St -> St) (out : St -> X)
  (data : list (list X * St)) n,
  descending (map fst data) -> (forall s, In s (map fst data) -> s <> []) ->
  longest n (map fst data) -> 2 <= n ->
  exists args,
    many_to_one X St next out (map snd data) (map (fun t => entries t (map fst data)) (seq 0 n))
    = Ok (map (fun t => map (fun p => out (final X St next (snd p) (firstn (S t) (fst p))))
                            (filter (fun p => t <? length (fst p)) data)) (seq 0 n), args) /\
    concat args = flat_map (fun k => map (fun p => final X St next (snd p) (fst p))
                                         (filter (fun p => length (fst p) =? k) data))
                           (seq 1 (n - 2) ++ [n; n - 1]) /\
    Permutation (concat args) (map (fun p => final X St next (snd p) (fst p)) data).
Proof.
  intros X St next out data n D N [_ M] L.
  destruct n as [|[|n]]; [lia | lia|].
  pose proof (many_spec X St (list X * St) next out fst snd data (S n) D N) as E.
  eexists. split; [exact E|].
  assert (A : map (st X St _ next fst snd (S n)) (alive X _ fst (S n) data)
              = map (fin X St _ next fst snd) (ended X _ fst (S (S n)) data)).
  { rewrite (alive_last X _ fst data (S n) M). apply st_ended. }
  rewrite A.
  assert (C : concat (map (fun k => map (fin X St _ next fst snd) (ended X _ fst k data)) (seq 1 n) ++
                [map (fin X St _ next fst snd) (ended X _ fst (S (S n)) data);
                 map (fin X St _ next fst snd) (ended X _ fst (S n) data)])
              = flat_map (fun k => map (fun p => final X St next (snd p) (fst p))
                                       (filter (fun p => length (fst p) =? k) data))
                         (seq 1 (S (S n) - 2) ++ [S (S n); S (S n) - 1])).
  { replace (S (S n) - 2) with n by lia. replace (S (S n) - 1) with (S n) by lia.
    rewrite concat_app, flat_map_app, flat_map_concat_map. reflexivity. }
  split; [exact C|]. rewrite C. replace (S (S n) - 2) with n by lia. replace (S (S n) - 1) with (S n) by lia.
  transitivity (flat_map (fun k => map (fun p => final X St next (snd p) (fst p))
                                       (filter (fun p => length (fst p) =? k) data)) (seq 1 (S (S n)))).
  - apply Permutation_flat_map. rewrite !seq_S. rewrite <- app_assoc. apply Permutation_app_head.
    cbn. apply perm_swap.
  - assert (G : forall ks, flat_map (fun k => map (fun p => final X St next (snd p) (fst p))
                                       (filter (fun p => length (fst p) =? k) data)) ks
                = map (fun p => final X St next (snd p) (fst p)) (flat_map (fun k => ended X _ fst k data) ks)).
    { induction ks as [|k ks IH]; [reflexivity|]. cbn [flat_map]. rewrite map_app, <- IH. reflexivity. }
    rewrite G. apply Permutation_map. apply (ended_perm X _ fst data (S (S n)) 0).
    intros s Hs. split; [|apply M; exact Hs]. specialize (N s Hs). destruct s; [congruence | cbn; lia].
Qed.

(* The decoder fed with its own outputs: output t has, for every target longer
   than t, the output of the state after t steps from the own input. *)
Theorem C71_decoder : forall (X St : Type) (next : X -> St -> St) (out : St -> X)
  (data : list (list X * (X * St))) n,
  descending (map fst data) -> (forall s, In s (map fst data) -> s <> []) -> 2 <= n ->
  one_to_many X St next out false (map (fun p => snd (snd p)) data) (map (fun p => fst (snd p)) data)
    (map (fun t => entries t (map fst data)) (seq 0 n))
  = Ok (map (fun t => map (fun p => out (free X St next out (snd (snd p)) (fst (snd p)) t))
                          (filter (fun p => t <? length (fst p)) data)) (seq 0 n)).
Proof.
  intros X St next out data n D N L. destruct n as [|[|n]]; [lia | lia|].
  apply (one_spec X St (list X * (X * St)) next out fst false
           (fun p => snd (snd p)) (fun p => fst (snd p))
           (fun t p => free X St next out (snd (snd p)) (fst (snd p)) t)); try assumption.
  - reflexivity.
  - intros t p x ->. reflexivity.
Qed.

(* With teacher forcing the state is that after the own input and the first t
   entries of the own target. *)
Theorem C71_forced : forall (X St : Type) (next : X -> St -> St) (out : St -> X)
  (data : list (list X * (X * St))) n,
  descending (map fst data) -> (forall s, In s (map fst data) -> s <> []) -> 2 <= n ->
  one_to_many X St next out true (map (fun p => snd (snd p)) data) (map (fun p => fst (snd p)) data)
    (map (fun t => entries t (map fst data)) (seq 0 n))
  = Ok (map (fun t => map (fun p => out (final X St next (snd (snd p)) (fst (snd p) :: firstn t (fst p))))
                          (filter (fun p => t <? length (fst p)) data)) (seq 0 n)).
Proof.
  intros X St next out data n D N L. destruct n as [|[|n]]; [lia | lia|].
  apply (one_spec X St (list X * (X * St)) next out fst true
           (fun p => snd (snd p)) (fun p => fst (snd p))
           (fun t p => final X St next (snd (snd p)) (fst (snd p) :: firstn t (fst p)))); try assumption.
  - reflexivity.
  - intros t p x Hx. rewrite (firstn_snoc X (fst p) t x Hx).
    change (fst (snd p) :: firstn t (fst p) ++ [x]) with ((fst (snd p) :: firstn t (fst p)) ++ [x]).
    apply final_snoc.
Qed.

(* An LSTM cell: hidden and cell states of every row from the row and its own
   states, and the hidden states of the rows after the input are passed on. *)
Theorem C71_lstm : forall (X H : Type) new_cell new_hidden (input : list X) (hs cs : list H),
  length input <= length hs -> length cs = length hs ->
  exists h c, lstm_cell X H new_cell new_hidden input hs cs = Ok (h, c, skipn (length input) hs) /\
    length h = length input /\ length c = length input /\
    forall i x hp cp, nth_error input i = Some x -> nth_error hs i = Some hp -> nth_error cs i = Some cp ->
      nth_error h i = Some (new_hidden x hp cp) /\ nth_error c i = Some (new_cell x hp cp).
Proof.
  intros X H nc nh input hs cs L E. unfold lstm_cell. cbv zeta.
  assert (Lh : length (firstn (length input) hs) = length input) by (rewrite firstn_length; lia).
  assert (Lc : length (firstn (length input) cs) = length input) by (rewrite firstn_length; lia).
  rewrite Lh, Lc, Nat.eqb_refl. cbn [andb].
  set (c := zip3 X H nc input _ _). set (h := zip3 X H nh input _ _).
  assert (Zc : length c = length input) by (apply zip3_length; assumption).
  assert (Zh : length h = length input) by (apply zip3_length; assumption).
  exists h, c. split.
  - rewrite <- Zc at 1 2. rewrite skipn_app, firstn_app, Nat.sub_diag, skipn_all, firstn_all, firstn_O, app_nil_r.
    reflexivity.
  - split; [exact Zh|]. split; [exact Zc|]. intros i x hp cp Hx Hh Hc.
    assert (Li : i < length input) by (apply nth_error_Some; rewrite Hx; discriminate).
    split; apply zip3_nth; try exact Hx; rewrite nth_error_firstn' by exact Li; assumption.
Qed.

(* FINDING.  Sequences of one step cannot be handled: the encoder concatenates
   nothing, its hidden states being lost, and the decoder refers to a variable
   not bound. *)
Theorem C71_single_refuted : forall (X St : Type) (next : X -> St -> St) (out : St -> X)
  (data : list (X * St)) teacher (targets : list (list X)),
  (exists outs, many_to_one X St next out (map snd data) [map fst data] = Ok (outs, [])) /\
  (length targets = 1 ->
     one_to_many X St next out teacher (map snd data) (map fst data) targets = Err NameError).
Proof.
  intros X St next out data teacher targets. split.
  - unfold many_to_one, cell. cbv zeta. rewrite !map_length.
    rewrite firstn_length, map_length, Nat.min_id, Nat.eqb_refl. eexists. reflexivity.
  - destruct targets as [|t [|u r]]; cbn; intros H; try discriminate; reflexivity.
Qed.

(* FINDING.  The rows of the concatenated hidden states are in an order of their
   own, neither that of the batch nor that of the lengths. *)
Theorem C71_order_refuted : forall (X St : Type) (next : X -> St -> St) (out : St -> X) (x : X) a b c,
  let data := [([x; x; x], a); ([x; x], b); ([x], c)] in
  exists outs args, many_to_one X St next out (map snd data) (map (fun t => entries t (map fst data)) (seq 0 3))
    = Ok (outs, args) /\
  concat args = [final X St next c [x]; final X St next a [x; x; x]; final X St next b [x; x]].
Proof. intros X St next out x a b c data. eexists. eexists. split; reflexivity. Qed.

(* FINDING.  When the sequences are not in descending order of length, entries
   are combined with states of other sequences without an error. *)
Theorem C71_unsorted_refuted : exists (data : list (list nat * list nat)) outs args,
  many_to_one nat (list nat) cons (fun s => hd 0 s) (map snd data) (map (fun t => entries t (map fst data)) (seq 0 2))
    = Ok (outs, args) /\
  In [2; 1] (concat args) /\
  map (fun p => final nat (list nat) cons (snd p) (fst p)) data = [[1]; [2; 3]].
Proof.
  exists [([1], []); ([3; 2], [])]. eexists. eexists. split; [reflexivity|]. split; [|reflexivity].
  cbn. auto.
Qed.

(* Sequences of lengths 3, 2, 2 and 1. *)
Example C71_encoder_ex :
  let data := [([1; 2; 3], [0]); ([4; 5], [0]); ([6; 7], [0]); ([8], [0])] in
  descending (map fst data) /\ (forall s, In s (map fst data) -> s <> []) /\ longest 3 (map fst data) /\
  many_to_one nat (list nat) cons (fun s => hd 0 s) (map snd data) [[1; 4; 6; 8]; [2; 5; 7]; [3]] =
    Ok ([[1; 4; 6; 8]; [2; 5; 7]; [3]], [[[8; 0]]; [[3; 2; 1; 0]]; [[5; 4; 0]; [7; 6; 0]]]).
Proof.
  cbn zeta. split; [|split; [|split; [|reflexivity]]].
  - cbn. repeat split; intros s H; repeat destruct H as [<-|H]; try contradiction; cbn; lia.
  - cbn. intros s H; repeat destruct H as [<-|H]; try contradiction; discriminate.
  - split; [exists [1; 2; 3]; split; [left; reflexivity | reflexivity]|].
    cbn. intros s H; repeat destruct H as [<-|H]; try contradiction; cbn; lia.
Qed.

Example C71_decoder_ex :
  one_to_many nat nat Nat.add S true [10; 20] [1; 2] [[5; 6]; [7]] = Ok [[12; 23]; [17]] /\
  one_to_many nat nat Nat.add S false [10; 20] [1; 2] [[5; 6]; [7]] = Ok [[12; 23]; [24]].
Proof. split; reflexivity. Qed.

Example C71_lstm_ex :
  lstm_cell nat nat (fun x h c => x + c) (fun x h c => x + h) [1; 2] [10; 20; 30] [100; 200; 300] =
    Ok ([11; 22], [101; 202], [30]).
Proof. reflexivity. Qed.

Print Assumptions C71_encoder.
Print Assumptions C71_decoder.
Print Assumptions C71_forced.
Print Assumptions C71_lstm.
Print Assumptions C71_single_refuted.
Print Assumptions C71_order_refuted.
Print Assumptions C71_unsorted_refuted.
