(** * Proofs about the types of results *)
From Coq Require Import List Arith Lia Bool ZArith QArith Permutation.
From Verif Require Import PyBase Poly_Model Poly_Proofs Optype_Model Optype_Spec.
Import ListNotations.
Open Scope list_scope. Open Scope nat_scope. Open Scope res_scope.

(** ** Kinds *)
Definition known (a : atom) : Prop := match a with Other _ => False | _ => True end.
Lemma of_kind_iff a k : of_kind a k <-> known a /\ k = kind_of a.
Proof. unfold of_kind. destruct a; cbn; split; [intros [[= ->]|[=]]; auto|intros [_ ->]; auto|intros [[=]|[= ->]]; auto|intros [_ ->]; auto|intros [[=]|[=]]|tauto]. Qed.
Lemma kinds_iff ts ks : Forall2 of_kind ts ks <-> Forall known ts /\ ks = map kind_of ts.
Proof.
  revert ks. induction ts as [|t ts IH]; intros ks; split.
  - inversion 1. auto.
  - intros [_ ->]. constructor.
  - inversion 1 as [|? k ? ks' H1 H2]; subst. apply of_kind_iff in H1 as [H1 ->]. apply IH in H2 as [H2 ->]. auto.
  - intros [H ->]. inversion H; subst. cbn. constructor; [apply of_kind_iff; auto|apply IH; auto].
Qed.
Lemma largest_fun l ks k k' : largest l ks k -> largest l ks k' -> k = k'.
Proof.
  intros (A1 & A2 & A3) (B1 & B2 & B3). assert (rank k <= rank k') by (destruct A1 as [->|A1]; [auto|apply B3; auto]). assert (rank k' <= rank k) by (destruct B1 as [->|B1]; [auto|apply A3; auto]).
  destruct k, k'; cbn in *; auto; lia.
Qed.
Lemma largest_ext l ks ks' k : (forall j, In j ks <-> In j ks') -> largest l ks k -> largest l ks' k.
Proof. intros E (A1 & A2 & A3). split; [destruct A1 as [A1|A1]; [auto|right; apply E; auto]|]. split; [auto|]. intros j Hj. apply A3, E, Hj. Qed.
Definition kmax (a b : kind) : kind := match a, b with KFloat, _ | _, KFloat => KFloat | KInt, _ | _, KInt => KInt | _, _ => KBool end.
Lemma largest_nil l : largest l [] l.
Proof. split; [auto|]. split; [auto|]. intros j []. Qed.
Lemma largest_cons l a ks k : largest l ks k -> largest l (a :: ks) (kmax a k).
Proof.
  intros (A1 & A2 & A3). split; [|split].
  - assert (kmax a k = a \/ kmax a k = k) as [-> | ->] by (destruct a, k; cbn; auto); [right; left; auto|]. destruct A1; [auto|right; right; auto].
  - destruct a, k, l; cbn in *; lia.
  - intros j [<-|Hj]; [|specialize (A3 j Hj)]; [|destruct a, k, j; cbn in *; lia]. destruct a, k; cbn; lia.
Qed.
Lemma typed_fun o ks k k' : typed o ks k -> typed o ks k' -> k = k'.
Proof. intros H H'. inversion H; subst; inversion H'; subst; auto; try (eapply largest_fun; eauto); cbn in *; intuition congruence. Qed.
Lemma typed_perm o ks ks' k : typed o ks k -> Permutation ks ks' -> typed o ks' k.
Proof.
  intros H P. assert (E : forall j, In j ks <-> In j ks') by (intros j; split; [apply Permutation_in; auto|apply Permutation_in, Permutation_sym; auto]). assert (L := Permutation_length P).
  destruct H as [o a b k Ho M|a b|f a b|fb fz a b k M N|f a b Na Nb|ks k M|a b c k M|a]; revert ks' P E L; intros rs P E L.
  - destruct rs as [|x [|y [|]]]; cbn in L; try lia. apply ty_arith; [auto|]. eapply largest_ext; eauto.
  - destruct rs as [|x [|y [|]]]; cbn in L; try lia. apply ty_div.
  - destruct rs as [|x [|y [|]]]; cbn in L; try lia. apply ty_compare.
  - destruct rs as [|x [|y [|]]]; cbn in L; try lia. apply ty_bits; [|auto]. eapply largest_ext; eauto.
  - destruct rs as [|x [|y [|]]]; cbn in L; try lia. apply ty_shift; intros ->; [assert (X : In KFloat [a; b]) by (apply E; left; auto)|assert (X : In KFloat [a; b]) by (apply E; right; left; auto)]; destruct X as [X|[X|[]]]; congruence.
  - apply ty_sum. eapply largest_ext; eauto.
  - destruct rs as [|x [|y [|z [|]]]]; cbn in L; try lia. apply ty_distance. eapply largest_ext; eauto.
  - apply Permutation_length_1_inv in P. subst. apply ty_first.
Qed.
Lemma usable_typed o ks k : typed o ks k -> 1 <= length ks -> usable o (length ks).
Proof. intros H L. destruct H as [o a b k Ho M| | | | | | | ]; cbn; auto. cbn in Ho. intuition; subst; cbn; auto. Qed.

(** ** Samples *)
Definition knd (v : pyval) (k : kind) : Prop := type_of v = Scalar k.
Lemma sum_ok ks : forall v k, knd v k -> k <> KBool -> exists w, foldM py_add (map sample ks) v = Ok w /\ exists k', knd w k' /\ largest k ks k'.
Proof.
  induction ks as [|a ks IH]; intros v k Hv Nk; [exists v; split; [auto|]; exists k; split; [auto|apply largest_nil]|].
  assert (exists w, py_add v (sample a) = Ok w /\ knd w (kmax a k)) as (w & Ew & Hw) by (destruct v, k, a; cbn in Hv; try discriminate; try congruence; cbn; eexists; split; try reflexivity).
  cbn [map foldM]. rewrite Ew. cbn [bind]. assert (Nk' : kmax a k <> KBool) by (destruct a, k; cbn; congruence). destruct (IH w (kmax a k) Hw Nk') as (w' & E & k' & Hk' & M). exists w'. split; [auto|]. exists k'. split; [auto|].
  destruct M as (M1 & M2 & M3). split; [|split].
  - destruct M1 as [-> |M1]; [|right; right; auto]. assert (kmax a k = a \/ kmax a k = k) as [-> | ->] by (destruct a, k; cbn; auto); [right; left; auto|auto].
  - destruct a, k, k'; cbn in *; lia.
  - intros j [<-|Hj]; [destruct a, k, k'; cbn in *; lia|apply M3; auto].
Qed.
Lemma pair_largest l a b : largest l [a; b] (kmax a (kmax b l)).
Proof. apply largest_cons, largest_cons, largest_nil. Qed.
Lemma run_typed fpow o ks : usable o (length ks) -> Forall (accepts o) ks -> exists v k, run_op fpow o (map sample ks) = Ok v /\ knd v k /\ typed o ks k.
Proof.
  intros U A. assert (Pair : forall o, usable o (length ks) -> (forall n, usable o n -> n = 2) -> exists a b, ks = [a; b]).
  { intros o' U' H. specialize (H _ U'). destruct ks as [|a [|b [|]]]; cbn in H; try lia. eauto. }
  destruct o; try (assert (Hp : exists a b, ks = [a; b]) by (apply (Pair _ U); cbn; auto); destruct Hp as (a & b & ->)); try (destruct U; fail).
  - destruct ks as [|a [|]]; cbn in U; try lia. exists (sample a), a. split; [auto|]. split; [destruct a; reflexivity|apply ty_first].
  - exists (match kmax a b with KFloat => PFloat (match a with KBool => 1 | _ => 2 end + match b with KBool => 1 | _ => 2 end)%Q | _ => PInt (match a with KBool => 1 | _ => 2 end + match b with KBool => 1 | _ => 2 end)%Z end), (kmax a (kmax b KInt)).
    split; [destruct a, b; reflexivity|]. split; [destruct a, b; reflexivity|]. apply ty_arith; [cbn; auto 10|apply pair_largest].
  - exists (match kmax a b with KFloat => PFloat (match a with KBool => 1 | _ => 2 end - match b with KBool => 1 | _ => 2 end)%Q | _ => PInt (match a with KBool => 1 | _ => 2 end - match b with KBool => 1 | _ => 2 end)%Z end), (kmax a (kmax b KInt)).
    split; [destruct a, b; reflexivity|]. split; [destruct a, b; reflexivity|]. apply ty_arith; [cbn; auto 10|apply pair_largest].
  - exists (match kmax a b with KFloat => PFloat (match a with KBool => 1 | _ => 2 end * match b with KBool => 1 | _ => 2 end)%Q | _ => PInt (match a with KBool => 1 | _ => 2 end * match b with KBool => 1 | _ => 2 end)%Z end), (kmax a (kmax b KInt)).
    split; [destruct a, b; reflexivity|]. split; [destruct a, b; reflexivity|]. apply ty_arith; [cbn; auto 10|apply pair_largest].
  - destruct a, b; (eexists; exists KFloat; split; [reflexivity|]; split; [reflexivity|apply ty_div]).
  - assert (X : typed OFloorDiv [a; b] (kmax a (kmax b KInt))) by (apply ty_arith; [cbn; auto 10|apply pair_largest]). destruct a, b; (eexists; eexists; split; [reflexivity|]; split; [reflexivity|exact X]).
  - assert (X : typed OPow [a; b] (kmax a (kmax b KInt))) by (apply ty_arith; [cbn; auto 10|apply pair_largest]). destruct a, b; (eexists; eexists; split; [reflexivity|]; split; [reflexivity|exact X]).
  - destruct a, b; (eexists; exists KBool; split; [reflexivity|]; split; [reflexivity|apply ty_compare]).
  - inversion A as [|? ? A1 A']; subst. inversion A' as [|? ? A2 ?]; subst. cbn in A1, A2. assert (X : kmax a (kmax b KBool) <> KFloat -> typed (OBits fb fz) [a; b] (kmax a (kmax b KBool))) by (intros N; apply ty_bits; [apply pair_largest|auto]).
    destruct a, b; try congruence; (eexists; eexists; split; [reflexivity|]; split; [reflexivity|apply X; discriminate]).
  - inversion A as [|? ? A1 A']; subst. inversion A' as [|? ? A2 ?]; subst. cbn in A1, A2. destruct a, b; try congruence; (eexists; exists KInt; split; [reflexivity|]; split; [reflexivity|apply ty_shift; discriminate]).
  - destruct (sum_ok ks (PInt 0) KInt eq_refl ltac:(discriminate)) as (w & E & k & Hk & M). exists w, k. split; [exact E|]. split; [auto|]. apply ty_sum. auto.
  - destruct ks as [|a [|b [|c [|]]]]; cbn in U; try lia. assert (X : typed ODistance [a; b; c] (kmax a (kmax b (kmax c KInt)))) by (apply ty_distance; apply largest_cons, pair_largest).
    destruct a, b, c; (eexists; eexists; split; [reflexivity|]; split; [reflexivity|exact X]).
Qed.

(** ** The type of the output *)
Lemma has_tens ts : existsb is_tens ts = true <-> exists j, In (Tens j) ts.
Proof.
  rewrite existsb_exists. split; [intros (a & Ha & H); destruct a as [k|k|n]; try discriminate; exists k; auto|intros (j & Hj); exists (Tens j); auto].
Qed.
Lemma no_tens ts : existsb is_tens ts = false <-> forall j, ~ In (Tens j) ts.
Proof.
  split; [intros H j Hj; assert (existsb is_tens ts = true) by (apply has_tens; eauto); congruence|]. intros H. destruct (existsb is_tens ts) eqn:E; [|auto]. apply has_tens in E as (j & Hj). destruct (H j Hj).
Qed.
Lemma all_kbool ks : forallb is_kbool ks = true <-> forall j, In j ks -> j = KBool.
Proof. rewrite forallb_forall. split; intros H j Hj; specialize (H j Hj); destruct j; cbn in *; congruence. Qed.
Lemma some_kbool ks : forallb is_kbool ks = false -> exists j, In j ks /\ j <> KBool.
Proof. induction ks as [|k ks IH]; [discriminate|]. cbn. destruct k; cbn; [intros H; destruct (IH H) as (j & Hj & N); exists j; auto|exists KInt; split; [auto|discriminate]|exists KFloat; split; [auto|discriminate]]. Qed.
Lemma result_fun o bits ts t t' : result o bits ts t -> result o bits ts t' -> t = t'.
Proof.
  intros (ks & k & K & C & D) (ks' & k' & K' & C' & D'). apply kinds_iff in K as [_ ->]. apply kinds_iff in K' as [_ ->].
  assert (k = k') as <-.
  { destruct D as [(T & B & N & ->)|[D D1]], D' as [(T' & B' & N' & ->)|[D' D1']]; auto.
    - exfalso. destruct D' as [D'|[(j & Hj & Nj)|D']]; [destruct T as (j & Hj); exact (D' j Hj)|apply Nj, B, Hj|congruence].
    - exfalso. destruct D as [D|[(j & Hj & Nj)|D]]; [destruct T' as (j & Hj); exact (D j Hj)|apply Nj, B', Hj|congruence].
    - eapply typed_fun; eauto. }
  destruct C as [[(j & Hj) ->]|[C ->]], C' as [[(j' & Hj') ->]|[C' ->]]; auto; exfalso; [exact (C' j Hj)|exact (C j' Hj')].
Qed.
Lemma result_perm o bits ts ts' t : result o bits ts t -> Permutation ts ts' -> result o bits ts' t.
Proof.
  intros (ks & k & K & C & D) P. apply kinds_iff in K as [K ->]. assert (Pk := Permutation_map kind_of P). assert (P' := Permutation_sym P). assert (Pk' := Permutation_sym Pk).
  assert (T : (exists j, In (Tens j) ts) -> exists j, In (Tens j) ts') by (intros (j & Hj); exists j; eapply Permutation_in; eauto). assert (NT : (forall j, ~ In (Tens j) ts) -> forall j, ~ In (Tens j) ts') by (intros H j Hj; apply (H j); eapply Permutation_in; eauto).
  exists (map kind_of ts'), k. split; [apply kinds_iff; split; [eapply Permutation_Forall; eauto|auto]|]. split; [destruct C as [[C ->]|[C ->]]; auto|].
  destruct D as [(T1 & B & N & ->)|[D D1]].
  - left. split; [auto|]. split; [|auto]. intros j Hj. apply B. eapply Permutation_in; eauto.
  - right. split; [|eapply typed_perm; eauto]. destruct D as [D|[(j & Hj & Nj)|D]]; [auto| |auto]. right. left. exists j. split; [eapply Permutation_in; eauto|auto].
Qed.
Lemma out_type_ok fpow o bits ts : usable o (length ts) -> Forall known ts -> Forall (fun t => accepts o (kind_of t)) ts -> exists t, out_type fpow o bits ts = Ok t /\ result o bits ts t.
Proof.
  intros U K A. destruct (run_typed fpow o (map kind_of ts)) as (v & k & E & Hv & T); [rewrite map_length; auto|apply Forall_map; auto|]. rewrite map_map in E. unfold out_type. rewrite E. cbn [bind]. rewrite Hv. cbn [tensor_of].
  assert (Kd : Forall2 of_kind ts (map kind_of ts)) by (apply kinds_iff; auto).
  destruct (existsb is_tens ts) eqn:Ht.
  - assert (Te := proj1 (has_tens ts) Ht). destruct (forallb is_kbool (map kind_of ts)) eqn:Hb; cbn [andb].
    + destruct bits; cbn [negb].
      * exists (Tens k). split; [auto|]. exists (map kind_of ts), k. split; [auto|]. split; [auto|]. right. auto.
      * exists (Tens KBool). split; [auto|]. exists (map kind_of ts), KBool. split; [auto|]. split; [auto|]. left. split; [auto|]. split; [apply all_kbool; auto|auto].
    + exists (Tens k). split; [auto|]. exists (map kind_of ts), k. split; [auto|]. split; [auto|]. right. split; [|auto]. right. left. apply some_kbool; auto.
  - assert (Te := proj1 (no_tens ts) Ht). cbn [andb]. exists (Scalar k). split; [auto|]. exists (map kind_of ts), k. split; [auto|]. split; [auto|]. right. auto.
Qed.

(** ** Products, permutations and combinations *)
Lemma products_In {A} (ls : list (list A)) : forall c, In c (products ls) <-> Forall2 (fun x l => In x l) c ls.
Proof.
  induction ls as [|l ls IH]; intros c; cbn [products].
  - split; [intros [<-|[]]; constructor|inversion 1; left; auto].
  - rewrite in_flat_map. split.
    + intros (x & Hx & Hc). apply in_map_iff in Hc as (c' & <- & Hc'). constructor; [auto|apply IH; auto].
    + inversion 1 as [|x ? c' ? Hx Hc]; subst. exists x. split; [auto|]. apply in_map. apply IH. auto.
Qed.
Lemma products_NoDup {A} (ls : list (list A)) : Forall (@NoDup A) ls -> NoDup (products ls).
Proof.
  induction ls as [|l ls IH]; intros H; [constructor; [auto|constructor]|]. inversion H as [|? ? Hl Hls]; subst. specialize (IH Hls). cbn [products].
  clear H. induction l as [|x l IHl]; [constructor|]. inversion Hl as [|? ? Nx Nl]; subst. specialize (IHl Nl). cbn [flat_map].
  assert (D : forall z, In z (map (cons x) (products ls)) -> ~ In z (flat_map (fun y => map (cons y) (products ls)) l)).
  { intros z Hz Hz'. apply in_map_iff in Hz as (c & <- & _). apply in_flat_map in Hz' as (y & Hy & Hz'). apply in_map_iff in Hz' as (c' & [= <- _] & _). auto. }
  revert D. generalize (flat_map (fun y => map (cons y) (products ls)) l) IHl. intros rest Nr. assert (Nm : NoDup (map (cons x) (products ls))) by (apply FinFun.Injective_map_NoDup; [intros a b [= ->]; auto|auto]).
  revert Nm. generalize (map (cons x) (products ls)). intros m Nm. induction m as [|z m IHm]; intros D; [auto|]. inversion Nm; subst. cbn. constructor; [rewrite in_app_iff; intros [X|X]; [auto|apply (D z); [left; auto|auto]]|]. apply IHm; [auto|]. intros w Hw. apply D. right. auto.
Qed.
Lemma products_length {A} (ls : list (list A)) : length (products ls) = fold_right (fun l n => length l * n) 1 ls.
Proof.
  induction ls as [|l ls IH]; [auto|]. cbn [products fold_right]. rewrite <- IH. clear IH. induction l as [|x l IHl]; [auto|]. cbn [flat_map length Nat.mul]. rewrite app_length, map_length, IHl. auto.
Qed.
Lemma insertions_In {A} (x : A) l : forall p, In p (insertions x l) <-> exists l1 l2, l = l1 ++ l2 /\ p = l1 ++ x :: l2.
Proof.
  induction l as [|y l IH]; intros p; cbn [insertions].
  - split; [intros [<-|[]]; exists [], []; auto|]. intros (l1 & l2 & E & ->). symmetry in E. apply app_eq_nil in E as [-> ->]. left. auto.
  - split.
    + intros [<-|H]; [exists [], (y :: l); auto|]. apply in_map_iff in H as (p' & <- & H). apply IH in H as (l1 & l2 & -> & ->). exists (y :: l1), l2. auto.
    + intros (l1 & l2 & E & ->). destruct l1 as [|z l1]; [cbn in E; subst; left; auto|]. injection E as <- ->. right. cbn. apply in_map. apply IH. exists l1, l2. auto.
Qed.
Lemma perms_In {A} (l : list A) : forall p, In p (perms l) <-> Permutation l p.
Proof.
  induction l as [|x l IH]; intros p; cbn [perms].
  - split; [intros [<-|[]]; constructor|intros H; apply Permutation_nil in H; subst; left; auto].
  - rewrite in_flat_map. split.
    + intros (q & Hq & Hp). apply IH in Hq. apply insertions_In in Hp as (l1 & l2 & -> & ->). apply Permutation_cons_app. auto.
    + intros H. assert (Hx : In x p) by (eapply Permutation_in; [exact H|left; auto]). apply in_split in Hx as (l1 & l2 & ->). exists (l1 ++ l2). split; [apply IH; eapply Permutation_cons_app_inv; eauto|]. apply insertions_In. eauto.
Qed.
Lemma cwr_over {A} r : forall (l : list A) c, In c (cwr r l) -> length c = r /\ incl c l.
Proof.
  induction r as [|r IH]; intros l c.
  - intros [<-|[]]. split; [auto|intros x []].
  - induction l as [|x l IHl]; [intros []|]. rewrite cwr_step, in_app_iff. intros [H|H].
    + apply in_map_iff in H as (c' & <- & H). apply IH in H as [<- H]. split; [auto|]. intros y [<-|Hy]; [left; auto|apply H; auto].
    + apply IHl in H as [H1 H2]. split; [auto|]. intros y Hy. right. auto.
Qed.
Lemma cwr_repeat {A} (x : A) l m : forall c r, In c (cwr r l) -> In (repeat x m ++ c) (cwr (m + r) (x :: l)).
Proof.
  induction m as [|m IH]; intros c r H; cbn [repeat app Nat.add].
  - destruct r; [exact H|]. rewrite cwr_step, in_app_iff. auto.
  - rewrite cwr_step, in_app_iff. left. apply in_map. apply IH. auto.
Qed.
Lemma cwr_all {A} (D : forall x y : A, {x = y} + {x <> y}) (l : list A) : forall ts, incl ts l -> exists c, In c (cwr (length ts) l) /\ Permutation c ts.
Proof.
  induction l as [|x l IH]; intros ts H; [assert (ts = []) as -> by (destruct ts as [|t ts]; [auto|destruct (H t); left; auto]); exists []; split; [left; auto|constructor]|].
  assert (S : exists m rest, Permutation (repeat x m ++ rest) ts /\ incl rest l).
  { clear IH. induction ts as [|t ts IHt]; [exists 0, []; split; [constructor|intros y []]|]. destruct IHt as (m & rest & P & I); [intros y Hy; apply H; right; auto|].
    destruct (D t x) as [->|N]; [exists (S m), rest; split; [cbn; apply perm_skip; auto|auto]|]. exists m, (t :: rest). split; [apply Permutation_sym, Permutation_cons_app, Permutation_sym; auto|]. intros y [<-|Hy]; [destruct (H t ltac:(left; auto)) as [E|E]; [congruence|auto]|auto]. }
  destruct S as (m & rest & P & I). destruct (IH rest I) as (c & Hc & Pc). exists (repeat x m ++ c). split; [|eapply perm_trans; [apply Permutation_app_head; exact Pc|auto]].
  rewrite <- (Permutation_length P), app_length, repeat_length. apply cwr_repeat. auto.
Qed.
