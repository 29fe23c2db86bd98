(** * C44: keys of a flattened model. *)
From Coq Require Import String Ascii List Arith Lia Bool ZArith.
From Verif Require Import PyBase PyStrings Names_Model Names_Proofs FlatNames_Proofs.
Import ListNotations.
Open Scope string_scope.
Open Scope list_scope.
Open Scope nat_scope.

(** [proviso reserved xs cs] (FlatNames_Proofs) says: the keys of the model are distinct; a generated key whose origin
    occurs once among the external connections is not also a key chosen by the user; no key chosen by the user and no key
    origin has the form [o_i] for a key origin [o]; a key origin that is also the name of a primitive does not turn into another
    key, origin or numbered name when underscores are put in front.
    Then every hyper-edge gets a key and different hyper-edges get different keys, keys chosen by the user are
    kept, and no internal key is the name of a primitive. *)
Theorem C44_keys_distinct reserved xs cs : proviso reserved xs cs ->
  exists s, flat_names reserved xs cs = Ok s /\
    (forall e, In e (map x_edge xs) \/ In e (map fst cs) -> exists k, key_of s e = Some k) /\
    (forall e e' k, key_of s e = Some k -> key_of s e' = Some k -> e = e') /\
    (forall x, In x xs -> is_prefix "$" (x_key x) = false ->
       exists n, dget (x_key x) (external s) = Some n /\ dget n (store s) = Some (x_key x)) /\
    (forall e k, ~ In e (map x_edge xs) -> key_of s e = Some k -> ~ In k reserved).
Proof.
  intros P. destruct (flat_names_inv reserved xs cs P) as (s & E & R & He). exists s. split; auto.
  destruct R as [C T Td Ti Nm Al]. split; [|split; [|split]].
  - intros e I. apply He in I. unfold key_of. destruct (dget e (edges s)) as [n|] eqn:D; [|apply dget_None in D; contradiction].
    apply (c_edge _ _ _ C) in D. destruct D as (t & D). eauto.
  - unfold key_of. intros e e' k A B.
    destruct (dget e (edges s)) as [n|] eqn:D; [|discriminate]. destruct (dget e' (edges s)) as [n'|] eqn:D'; [|discriminate].
    apply (c_bij _ _ _ C) in A, B. rewrite A in B. injection B as <-. eapply (c_inj _ _ _ C); eauto.
  - intros x I A. apply Nm; auto.
  - unfold key_of. intros e k N A. destruct (dget e (edges s)) as [n|] eqn:D; [|discriminate]. eapply (c_int _ _ _ C); eauto.
Qed.

(** ** A case that meets the proviso *)
Definition ends_digit (s : string) : bool := match rev (chars s) with c :: _ => is_digit c | [] => false end.
Lemma suffixed_ends o i : ends_digit (suffixed o i) = true.
Proof.
  unfold ends_digit, suffixed. rewrite !chars_app, !rev_app_distr. pose proof (nat_to_string_digits i) as D. pose proof (nat_to_string_nonempty i) as N.
  destruct (rev (chars (nat_to_string i))) as [|c r] eqn:E.
  - exfalso. apply N. apply chars_inj. rewrite <- (rev_involutive (chars (nat_to_string i))), E. auto.
  - simpl. rewrite forallb_forall in D. apply D. apply in_rev. rewrite E. simpl. auto.
Qed.
Lemma underscored_ends n : forall b, b <> "" -> ends_digit (underscored n b) = ends_digit b.
Proof.
  induction n as [|n IH]; intros b N; simpl; auto. rewrite IH by discriminate. unfold ends_digit. simpl.
  destruct (rev (chars b)) as [|c r] eqn:E; auto.
Qed.
Lemma underscored_head n : forall b, exists r, underscored (S n) b = String "_" r.
Proof.
  induction n as [|n IH]; intros b; [exists b; auto|]. apply (IH ("_" ++ b)%string).
Qed.
Definition ex_reserved := ["shape"; "matrix_multiplication"; "add"].
Definition ex_xs := [mkx 0 "input" "input"; mkx 1 "$1" "weight"; mkx 2 "$2" "weight"; mkx 3 "$3" "bias"].
Definition ex_cs := [(0, "input"); (1, "weight"); (4, "output"); (2, "weight"); (5, "output"); (6, "shape"); (3, "bias"); (7, "axis")].
Lemma In_mem {A} `{EqDec A} (x : A) l : In x l -> mem x l = true.
Proof. apply mem_In. Qed.
Example C44_example_proviso : proviso ex_reserved ex_xs ex_cs.
Proof.
  assert (Sh : forall b, In b (key_origins ex_xs ex_cs) -> In b ex_reserved -> b = "shape").
  { intros b Ib Ir. apply In_mem in Ir. simpl in Ib. repeat (destruct Ib as [<-|Ib]; [reflexivity || discriminate Ir|]). destruct Ib. }
  assert (Us : forall t, In t (named_keys ex_xs ++ key_origins ex_xs ex_cs) -> is_prefix "_" t = false /\ ends_digit t = false).
  { intros t I. simpl in I. repeat (destruct I as [<-|I]; [split; reflexivity|]). destruct I. }
  constructor.
  - assert (X : forallb (fun k => Nat.eqb (count_occ string_dec (map x_key ex_xs) k) 1) (map x_key ex_xs) = true) by reflexivity.
    apply (NoDup_count_occ string_dec). intros x. rewrite forallb_forall in X.
    destruct (in_dec string_dec x (map x_key ex_xs)) as [I|N]; [|apply (count_occ_not_In string_dec) in N; rewrite N; auto].
    specialize (X _ I). apply Nat.eqb_eq in X. rewrite X. auto.
  - intros x I A Al N. apply In_mem in N. simpl in I. destruct I as [<-|[<-|[<-|[<-|[]]]]]; discriminate.
  - intros t o i I _ E. pose proof (suffixed_ends o i) as X. rewrite <- E, (proj2 (Us t I)) in X. discriminate X.
  - intros b n Ib Ir. rewrite (Sh b Ib Ir). split.
    + intros I. apply Us in I. destruct (underscored_head n "shape") as (r & E). rewrite E in I. destruct I as (I & _). discriminate I.
    + intros o i _ E. pose proof (suffixed_ends o i) as X. rewrite <- E, underscored_ends in X by discriminate. discriminate X.
  - intros b b' n n' Ib Ib' Ir Ir' _. rewrite (Sh b), (Sh b'); auto.
Qed.
Example C44_example : exists s, flat_names ex_reserved ex_xs ex_cs = Ok s /\
  map (key_of s) (seq 0 8) = [Some "input"; Some "weight_0"; Some "weight_1"; Some "bias"; Some "output_0"; Some "output_1"; Some "_shape"; Some "axis"].
Proof. eexists. split; [vm_compute; reflexivity|]. vm_compute; reflexivity. Qed.

(** ** Two different edges with one key *)
(** Two edges of origin [k] and one of origin [k_0]: rebasing shortens [k_0_0] to [k_0], which is taken. *)
Theorem C44_rebase_collision_refuted : exists s, flat_names [] [] [(0, "k"); (1, "k"); (2, "k_0")] = Ok s /\
  key_of s 0 = Some "k_0" /\ key_of s 2 = Some "k_0".
Proof. eexists. split; [vm_compute; reflexivity|]. split; vm_compute; reflexivity. Qed.
(** Generated external connections with origins [k], [k] and [k_0]. *)
Theorem C44_external_collision_refuted :
  exists s, flat_names [] [mkx 0 "$1" "k"; mkx 1 "$2" "k"; mkx 2 "$3" "k_0"] [] = Ok s /\ key_of s 0 = Some "k_0" /\ key_of s 2 = Some "k_0".
Proof. eexists. split; [vm_compute; reflexivity|]. split; vm_compute; reflexivity. Qed.
(** A key chosen by the user equal to the origin of a generated one. *)
Theorem C44_user_key_collision_refuted :
  exists s, flat_names [] [mkx 0 "weight" "input"; mkx 1 "$1" "weight"] [] = Ok s /\ key_of s 0 = Some "weight" /\ key_of s 1 = Some "weight".
Proof. eexists. split; [vm_compute; reflexivity|]. split; vm_compute; reflexivity. Qed.
(** A key origin that is a primitive's name and another origin equal to the escaped form. *)
Theorem C44_escape_collision_refuted :
  exists s, flat_names ["shape"] [] [(0, "_shape"); (1, "shape")] = Ok s /\ key_of s 0 = Some "_shape" /\ key_of s 1 = Some "_shape".
Proof. eexists. split; [vm_compute; reflexivity|]. split; vm_compute; reflexivity. Qed.
(** An external key may be the name of a primitive. *)
Theorem C44_external_reserved_refuted :
  exists s, flat_names ["add"] [mkx 0 "add" "input"] [(0, "input")] = Ok s /\ key_of s 0 = Some "add".
Proof. eexists. split; [vm_compute; reflexivity|]. vm_compute; reflexivity. Qed.

Print Assumptions C44_keys_distinct.
Print Assumptions C44_rebase_collision_refuted.
Print Assumptions C44_external_collision_refuted.
Print Assumptions C44_user_key_collision_refuted.
Print Assumptions C44_escape_collision_refuted.
Print Assumptions C44_external_reserved_refuted.
