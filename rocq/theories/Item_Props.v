(** * Types of entries of lists and tuples: what users can rely on *)
From Coq Require Import List Bool String ZArith Lia.
From Verif Require Import PyBase Inter_Model Inter_Proofs Inter_Sound Inter_Step Inter_Main Inter_Full Inter_Props Item_Model Item_Spec Item_Proofs Item_Proofs2.
Import ListNotations.
Open Scope string_scope. Open Scope list_scope.

(** Facts proved for both kinds of supported types hold for all. *)
Lemma by_kind (K : Prop) a b : supported a b ->
  (forall P Q : string -> Prop, P "int" -> P "float" -> P "bool" -> P "range" -> P "None" -> Q "Tensor" -> Q "list" -> Q "tuple" -> (forall o, Q o -> In o ("tuple" :: singles)) -> (Q "Sequence" -> ~ P "tuple") ->
    Inter_Sound.wf P Q False a -> Inter_Sound.wf P Q False b -> K) -> K.
Proof.
  intros [[A B]|[A B]] H; [apply (H (fun _ => True) (fun o => In o ["list"; "tuple"; "Tensor"]))|apply (H (fun c => c <> "tuple") (fun o => In o ["list"; "tuple"; "Tensor"; "Sequence"]))]; auto; try discriminate; try (cbn; tauto); cbn; intros; intuition congruence.
Qed.
(** No possible input is lost: if [v] may be the input and [r = v[index]] the output, both remain possible. *)
Theorem C66_keeps out inp i v r : supported out inp -> covered inp i -> valid v -> full v -> full r -> has inp v -> has out r -> picks v i r ->
  exists inp' out' b, indexer_type out inp i = Ok (inp', out', b) /\ has inp' v /\ has out' r.
Proof. intros S. apply (by_kind _ _ _ S). intros P Q Pi Pf Pb Pr Pn Qt Ql Qu Qo Qs Wo Wi. exact (all_keeps P Q Pi Pf Pb Pr Qt Ql Qu Qo Qs out inp i v r Wo Wi). Qed.
(** Afterwards the output has the type of the entry or slice and still its own, and the input is not widened. *)
Theorem C66_result out inp i inp' out' b u : supported out inp -> indexer_type out inp i = Ok (inp', out', b) -> type_at inp i u ->
  (forall w, valid w -> has inp' w -> has inp w) /\ forall w, valid w -> has out' w -> has out w /\ has u w.
Proof.
  intros S E T. assert (Ni : i <> IOpen) by (destruct T; discriminate). apply (by_kind _ _ _ S). intros P Q Pi Pf Pb Pr Pn Qt Ql Qu Qo Qs Wo Wi. exact (all_result P Q Pi Pf Pb Pr Qt Ql Qu Qo out inp i inp' out' b u Pn Wo Wi Ni E T).
Qed.
(** An index outside a tuple of known length is reported. *)
Theorem C66_range out ts k : supported out (TGen "tuple" ts) -> ~ In TDots ts -> (forall p, ~ position (List.length ts) k p) -> exists e, indexer_type out (TGen "tuple" ts) (IAt k) = Err e.
Proof. intros S. apply (by_kind _ _ _ S). intros P Q Pi Pf Pb Pr Pn Qt Ql Qu Qo Qs Wo Wi. exact (out_of_range P Q Pi Pf Pb Pr Qt Ql Qu Qo out ts k Pn Wo Wi). Qed.
(** As long as the index is unknown: for tuples, entries and slices at every index remain possible ... *)
Theorem C66_open out ts l j r : supported out (TGen "tuple" ts) -> ts <> [] -> ~ In TTBD ts -> valid (VTuple l) -> full r -> has (TGen "tuple" ts) (VTuple l) -> has out r -> picks (VTuple l) j r ->
  exists out' b, indexer_type out (TGen "tuple" ts) IOpen = Ok (TGen "tuple" ts, out', b) /\ has out' r.
Proof. intros S. apply (by_kind _ _ _ S). intros P Q Pi Pf Pb Pr Pn Qt Ql Qu Qo Qs Wo Wi. exact (all_open P Q Pi Pf Pb Qt Qu Qo Qs out ts l j r Wo Wi). Qed.
(** ... and for lists, entries. *)
Theorem C66_open_list out t l j r : supported out (TGen "list" [t]) -> valid (VList l) -> full r -> has (TGen "list" [t]) (VList l) -> has out r -> picks (VList l) (IAt j) r ->
  exists out' b, indexer_type out (TGen "list" [t]) IOpen = Ok (TGen "list" [t], out', b) /\ has out' r.
Proof. intros S. apply (by_kind _ _ _ S). intros P Q Pi Pf Pb Pr Pn Qt Ql Qu Qo Qs Wo Wi. exact (all_open_list P Q Pi Pf Pb Qt Qo Qs out t l j r Wo Wi). Qed.

(** ** Concrete cases *)
Definition number := TUnion [int; float].
Definition scalar := TUnion [int; float; str; TGen "list" [int]; TGen "tuple" [number; TDots]].
Lemma number_wf : supported1 number. Proof. apply w_union; [discriminate| | |cbn; intuition discriminate]; repeat constructor. Qed.
Lemma tuple_wf : supported1 (TGen "tuple" [number; str; float]). Proof. apply w_tuple; [cbn; auto|]. constructor; [apply number_wf|]. repeat constructor. Qed.
Lemma scalar_wf : supported1 scalar.
Proof.
  apply w_union; [discriminate| | |cbn; intuition discriminate]; [|repeat constructor]. do 3 (apply Forall_cons; [constructor; exact I|]). apply Forall_cons; [apply w_single; [cbn; auto|cbn; auto|constructor; exact I|discriminate]|]. apply Forall_cons; [apply w_dots; [cbn; auto|apply number_wf]|constructor].
Qed.
Lemma scalar_tuple : supported scalar (TGen "tuple" [number; str; float]). Proof. left. split; [apply scalar_wf|apply tuple_wf]. Qed.
Definition triple : value := VTuple [VObj "int"; VObj "str"; VObj "float"].
Lemma triple_valid : valid triple. Proof. apply v_tuple. repeat constructor; cbn; intuition discriminate. Qed.
Lemma triple_full : full triple. Proof. apply f_tuple; repeat constructor. Qed.
Lemma triple_has : has (TGen "tuple" [number; str; float]) triple. Proof. cbn. left. intuition. Qed.
(** [t[-3]] of a triple *)
Example C66_keeps_meets : exists inp' out' b, indexer_type scalar (TGen "tuple" [number; str; float]) (IAt (-3)) = Ok (inp', out', b) /\ has inp' triple /\ has out' (VObj "int").
Proof.
  apply C66_keeps; [apply scalar_tuple|apply c_tuple; [cbn; intuition discriminate|discriminate]|apply triple_valid|apply triple_full|constructor|apply triple_has|cbn; auto|]. apply p_tuple with (p := 0); [split; cbn; lia|reflexivity].
Qed.
Example C66_keeps_value : indexer_type scalar (TGen "tuple" [number; str; float]) (IAt (-3)) = Ok (TGen "tuple" [number; str; float], number, false). Proof. reflexivity. Qed.
(** An entry known to be an integer *)
Example C66_result_meets : indexer_type int (TGen "tuple" [number; str; float]) (IAt 0) = Ok (TGen "tuple" [int; str; float], int, true) /\ supported int (TGen "tuple" [number; str; float]) /\ type_at (TGen "tuple" [number; str; float]) (IAt 0) number.
Proof. split; [reflexivity|]. split; [left; split; [constructor; exact I|apply tuple_wf]|]. apply t_tuple with (p := 0); [cbn; intuition discriminate|split; cbn; lia|reflexivity]. Qed.
Example C66_range_meets : (forall p, ~ position 3 3 p) /\ indexer_type scalar (TGen "tuple" [number; str; float]) (IAt 3) = Err IndexError. Proof. split; [intros p [L [E|E]]; lia|reflexivity]. Qed.
(** [t[::-2]] *)
Lemma back : reads 3 None None (Some (-2)%Z) [2; 0].
Proof.
  split; [discriminate|]. intros k p. cbn [first_of end_of]. change (-2 <? 0)%Z with true. cbn iota. destruct k as [|[|k]]; cbn [nth_error]; [| |assert (X : @nth_error nat [] k = None) by (destruct k; reflexivity); rewrite X]; (split; [intros E; try discriminate; injection E as <-; cbn; lia|intros [E L]; try (f_equal; lia); exfalso; lia]).
Qed.
Example C66_open_meets : exists out' b, indexer_type scalar (TGen "tuple" [number; str; float]) IOpen = Ok (TGen "tuple" [number; str; float], out', b) /\ has out' (VTuple [VObj "float"; VObj "int"]).
Proof.
  apply C66_open with (l := [VObj "int"; VObj "str"; VObj "float"]) (j := ISlice None None (Some (-2)%Z)); [apply scalar_tuple|discriminate|cbn; intuition discriminate|apply triple_valid|apply f_tuple; repeat constructor|apply triple_has|apply has_union; exists (TGen "tuple" [number; TDots]); split; [cbn; auto 10|apply has_tuple_dots; apply Forall_forall; intros x [<-|[<-|[]]]; cbn; auto]|].
  apply p_tuples with (ps := [2; 0]); [apply back|repeat constructor].
Qed.
Example C66_open_list_meets : exists out' b, indexer_type scalar (TGen "list" [int]) IOpen = Ok (TGen "list" [int], out', b) /\ has out' (VObj "int").
Proof.
  apply C66_open_list with (l := [VObj "int"]) (j := 0%Z); [left; split; [apply scalar_wf|apply w_single; [cbn; auto|cbn; auto|constructor; exact I|discriminate]]|apply v_list; repeat constructor; cbn; intuition discriminate|constructor|apply has_list; eexists; eexists; split; [reflexivity|]; split; [reflexivity|]; repeat constructor|cbn; auto|]. apply p_list with (p := 0); [split; cbn; lia|reflexivity].
Qed.

(** ** Findings *)
Lemma all_of l : reads (List.length l) None None None (seq 0 (@List.length value l)).
Proof.
  split; [discriminate|]. intros k p. cbn [first_of end_of]. change (1 <? 0)%Z with false. cbn iota. destruct (Nat.lt_ge_cases k (List.length l)) as [L|L].
  - rewrite nth_error_nth' with (d := 0) by (rewrite seq_length; auto). rewrite seq_nth by auto. split; [intros E; injection E as <-; lia|intros [E _]; f_equal; lia].
  - replace (nth_error (seq 0 (List.length l)) k) with (@None nat) by (symmetry; apply nth_error_None; rewrite seq_length; auto). split; [discriminate|lia].
Qed.
(** While the index of a list of integers is unknown, the output is declared an integer, for good: a slice, allowed before, is no integer. *)
Theorem C66_open_refuted : exists out' b, indexer_type scalar (TGen "list" [int]) IOpen = Ok (TGen "list" [int], out', b) /\ b = true /\
  has (TGen "list" [int]) (VList [VObj "int"]) /\ picks (VList [VObj "int"]) (ISlice None None None) (VList [VObj "int"]) /\ has scalar (VList [VObj "int"]) /\ ~ has out' (VList [VObj "int"]).
Proof.
  exists int, true. split; [reflexivity|]. split; [auto|]. split; [cbn; auto|]. split; [apply p_lists with (ps := [0]); [exact (all_of [VObj "int"])|repeat constructor]|]. split; [cbn; do 3 right; left; auto|]. cbn. discriminate.
Qed.
(** If the first entry of a tuple of numbers is an integer, all its entries are taken for integers. *)
Theorem C66_first_refuted : exists inp' out' b, indexer_type int (TGen "tuple" [number; TDots]) (IAt 0) = Ok (inp', out', b) /\
  has (TGen "tuple" [number; TDots]) (VTuple [VObj "int"; VObj "float"]) /\ picks (VTuple [VObj "int"; VObj "float"]) (IAt 0) (VObj "int") /\ ~ has inp' (VTuple [VObj "int"; VObj "float"]).
Proof.
  exists (TGen "tuple" [int; TDots]), int, true. split; [reflexivity|]. split; [apply has_tuple_dots; apply Forall_forall; intros x [<-|[<-|[]]]; cbn; auto|]. split; [apply p_tuple with (p := 0); [split; cbn; lia|reflexivity]|]. rewrite has_tuple_dots. intros F. inversion F as [|? ? _ F']; subst. inversion F' as [|? ? X _]; subst. discriminate.
Qed.
(** A union loses its tuples of known length, whatever the index. *)
Theorem C66_union_refuted : exists inp' out' b, indexer_type scalar (TUnion [TGen "tuple" [int; float]; TGen "list" [int]]) (IAt 1) = Ok (inp', out', b) /\
  has (TUnion [TGen "tuple" [int; float]; TGen "list" [int]]) (VTuple [VObj "int"; VObj "float"]) /\ picks (VTuple [VObj "int"; VObj "float"]) (IAt 1) (VObj "float") /\ has scalar (VObj "float") /\
  ~ has inp' (VTuple [VObj "int"; VObj "float"]) /\ ~ has out' (VObj "float").
Proof.
  exists (TGen "list" [int]), int, true. split; [reflexivity|]. split; [cbn; intuition|]. split; [apply p_tuple with (p := 1); [split; cbn; lia|reflexivity]|]. split; [cbn; auto|]. split; cbn; [intros [[X _]|[X _]]; discriminate|discriminate].
Qed.
(** Slicing a list or tuple of integers infers the right types, but applying the rule once more to them is a TypeError. *)
Theorem C66_twice_refuted : let inp := TUnion [TGen "list" [int]; TGen "tuple" [int; TDots]] in
  exists out' b, indexer_type scalar inp (ISlice None None None) = Ok (inp, out', b) /\ b = false /\ indexer_type out' inp (ISlice None None None) = Err TypeError /\
  has inp (VList [VObj "int"]) /\ has out' (VList [VObj "int"]) /\ picks (VList [VObj "int"]) (ISlice None None None) (VList [VObj "int"]).
Proof.
  eexists. exists false. split; [reflexivity|]. split; [auto|]. split; [reflexivity|]. split; [cbn; auto|]. split; [cbn; left; auto|]. apply p_lists with (ps := [0]); [exact (all_of [VObj "int"])|repeat constructor].
Qed.
(** An entry of a tuple of integers at a known index may still be a tuple for the inference, and the rule stays unfinished. *)
Theorem C66_known_refuted : exists inp' out', indexer_type scalar (TGen "tuple" [int; TDots]) (IAt 2) = Ok (inp', out', false) /\ has out' (VTuple [VObj "int"]) /\
  forall l r, has (TGen "tuple" [int; TDots]) (VTuple l) -> picks (VTuple l) (IAt 2) r -> r = VObj "int" \/ ~ valid r.
Proof.
  eexists. eexists. split; [reflexivity|]. split; [cbn; right; left; left; split; [auto|]; repeat constructor|]. intros l r H K. rewrite has_tuple_dots, Forall_forall in H. inversion K as [|l' i p x Po N| |]; subst. apply nth_error_In in N. specialize (H _ N). cbn in H. destruct r as [c| | | | |]; cbn in H; try discriminate. subst. auto.
Qed.
(** A negative index teaches nothing about the input, the same position from the front does. *)
Theorem C66_negative_refuted : position 2 (-2) 0 /\ position 2 0 0 /\ indexer_type int (TGen "tuple" [number; str]) (IAt 0) = Ok (TGen "tuple" [int; str], int, true) /\ indexer_type int (TGen "tuple" [number; str]) (IAt (-2)) = Ok (TGen "tuple" [number; str], int, true).
Proof. split; [split; cbn; lia|]. split; [split; cbn; lia|]. split; reflexivity. Qed.

Print Assumptions C66_keeps.
Print Assumptions C66_result.
Print Assumptions C66_range.
Print Assumptions C66_open.
Print Assumptions C66_open_list.
Print Assumptions C66_open_refuted.
Print Assumptions C66_first_refuted.
Print Assumptions C66_union_refuted.
Print Assumptions C66_twice_refuted.
Print Assumptions C66_known_refuted.
Print Assumptions C66_negative_refuted.
