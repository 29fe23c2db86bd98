(** * Indexing: slices, broadcasting, arrangement *)
From Coq Require Import List Arith Lia Bool ZArith.
From Verif Require Import PyBase Uniadic_Model Shape_Model Reduce_Model Concat_Model Index_Model Index_Spec.
Import ListNotations.
Open Scope list_scope. Open Scope nat_scope.

(** ** Slices *)
Definition cnt (p : Z -> bool) (n : nat) : Z := Z.of_nat (length (filter p (map Z.of_nat (seq 0 n)))).
Lemma cnt_S p n : cnt p (S n) = (cnt p n + (if p (Z.of_nat n) then 1 else 0))%Z.
Proof. unfold cnt. rewrite seq_S, map_app, filter_app, app_length. cbn [map filter plus]. destruct (p (Z.of_nat n)); cbn [length]; lia. Qed.
Lemma cnt_ext p q n : (forall i, i < n -> p (Z.of_nat i) = q (Z.of_nat i)) -> cnt p n = cnt q n.
Proof. induction n as [|n IH]; intros H; [auto|]. rewrite !cnt_S, (IH ltac:(intros; apply H; lia)), H by lia. auto. Qed.
Lemma cnt_cons p n : cnt p (S n) = ((if p 0%Z then 1 else 0) + cnt (fun i => p (i + 1)%Z) n)%Z.
Proof.
  induction n as [|n IH]; [rewrite cnt_S; cbn; destruct (p 0%Z); auto|]. rewrite cnt_S, IH, cnt_S. replace (Z.of_nat n + 1)%Z with (Z.of_nat (S n)) by lia. lia.
Qed.
Lemma cnt_mirror p n : cnt p n = cnt (fun i => p (Z.of_nat n - 1 - i)%Z) n.
Proof.
  revert p. induction n as [|n IH]; intros p; [auto|]. rewrite cnt_S, cnt_cons, IH. replace (Z.of_nat (S n) - 1 - 0)%Z with (Z.of_nat n) by lia. rewrite Z.add_comm. f_equal. apply cnt_ext. intros i Hi. f_equal. lia.
Qed.
Lemma cnt_steps k lo hi n : (0 < k)%Z -> (0 <= lo)%Z ->
  cnt (fun i => (lo <=? i) && (i <? hi) && ((i - lo) mod k =? 0))%Z n = (let h := Z.min (Z.of_nat n) hi in if (lo <? h)%Z then ((h - lo - 1) / k + 1)%Z else 0%Z).
Proof.
  intros K L. induction n as [|n IH].
  - cbn zeta. destruct (Z.ltb_spec lo (Z.min (Z.of_nat 0) hi)); [lia|auto].
  - rewrite cnt_S, IH. cbn zeta. destruct (Z.ltb_spec (Z.of_nat n) hi) as [H|H].
    + replace (Z.min (Z.of_nat (S n)) hi) with (Z.of_nat n + 1)%Z by lia. rewrite Z.min_l by lia. rewrite andb_true_r. destruct (Z.leb_spec lo (Z.of_nat n)) as [H1|H1].
      * destruct (Z.ltb_spec lo (Z.of_nat n + 1)); [|lia]. set (d := (Z.of_nat n - lo)%Z). replace (Z.of_nat n + 1 - lo - 1)%Z with d by lia. cbn [andb].
        destruct (Z.ltb_spec lo (Z.of_nat n)) as [H2|H2].
        -- replace (d - 1)%Z with (d + -1)%Z by lia. assert (D := Z.div_mod d k ltac:(lia)). assert (M := Z.mod_pos_bound d k K). destruct (Z.eqb_spec (d mod k) 0) as [E|E].
           ++ assert (X : ((d + -1) / k = d / k - 1)%Z). { symmetry. apply Z.div_unique with (r := (k - 1)%Z); lia. } rewrite X. lia.
           ++ assert (X : ((d + -1) / k = d / k)%Z). { symmetry. apply Z.div_unique with (r := (d mod k - 1)%Z); lia. } rewrite X. lia.
        -- assert (d = 0)%Z as -> by lia. rewrite Z.mod_0_l, Z.div_0_l by lia. cbn. auto.
      * destruct (Z.ltb_spec lo (Z.of_nat n)); [lia|]. destruct (Z.ltb_spec lo (Z.of_nat n + 1)); [lia|]. cbn. auto.
    + replace (Z.min (Z.of_nat (S n)) hi) with hi by lia. rewrite Z.min_r by lia. rewrite andb_false_r. cbn [andb]. lia.
Qed.
Lemma slice_len_ok a b c n : slice_len a b c n = if match c with Some k => (k =? 0)%Z | None => false end then Err ValueError else Ok (slice_size a b c n).
Proof.
  unfold slice_len. set (k := match c with Some k => k | None => 1%Z end). assert (Ek : match c with Some k => (k =? 0)%Z | None => false end = (k =? 0)%Z) by (unfold k; destruct c; auto). rewrite Ek. destruct (Z.eqb_spec k 0) as [E|E]; [auto|]. f_equal.
  unfold slice_size, positions. fold (cnt (taken a b c n) (Z.to_nat n)). set (N := Z.to_nat n).
  assert (En : Z.max 0 n = Z.of_nat N) by lia. rewrite En. unfold taken. fold k.
  destruct (Z.le_gt_cases n 0) as [Hn|Hn].
  { assert (N = 0) as -> by lia. unfold cnt. cbn [seq map filter length Z.of_nat]. unfold adjust. destruct a as [a|], b as [b|]; repeat match goal with |- context [(?x <? ?y)%Z] => destruct (Z.ltb_spec x y) | |- context [(?x <=? ?y)%Z] => destruct (Z.leb_spec x y) end; try lia; auto. }
  assert (Hn' : n = Z.of_nat N) by lia. unfold from_end.
  destruct (Z.ltb_spec k 0) as [K|K].
  - destruct (Z.ltb_spec 0 k); [lia|]. rewrite cnt_mirror.
    set (st := match a with Some a => Z.min (n - 1) (if (a <? 0)%Z then (n + a)%Z else a) | None => (n - 1)%Z end).
    set (hi := match b with Some b => (n - 1 - (if (b <? 0)%Z then n + b else b))%Z | None => n end).
    rewrite (cnt_ext _ (fun i => ((n - 1 - st) <=? i) && (i <? hi) && ((i - (n - 1 - st)) mod (- k) =? 0))%Z).
    2: { intros i Hi. fold st. f_equal; [f_equal|].
      - destruct (Z.leb_spec (Z.of_nat N - 1 - Z.of_nat i) st), (Z.leb_spec (n - 1 - st) (Z.of_nat i)); auto; lia.
      - unfold hi. destruct b as [b|]; [|symmetry; apply Z.ltb_lt; lia]. match goal with |- (?x <? ?y)%Z = (?z <? ?w)%Z => destruct (Z.ltb_spec x y), (Z.ltb_spec z w); auto; lia end.
      - f_equal. f_equal. lia. }
    rewrite cnt_steps by (unfold st; destruct a; lia). cbn zeta.
    set (i := match a with Some i => adjust k (Z.of_nat N) i | None => (Z.of_nat N - 1)%Z end). set (j := match b with Some j => adjust k (Z.of_nat N) j | None => (-1)%Z end).
    assert (Ei : i = Z.max (-1) st). { unfold i, st, adjust. destruct a as [a|]; [|lia]. repeat match goal with |- context [(?x <? ?y)%Z] => destruct (Z.ltb_spec x y) | |- context [(?x <=? ?y)%Z] => destruct (Z.leb_spec x y) end; lia. }
    assert (Ej : j = Z.max (-1) (Z.min (n - 1) (n - 1 - hi))). { unfold j, hi, adjust. destruct b as [b|]; [|lia]. repeat match goal with |- context [(?x <? ?y)%Z] => destruct (Z.ltb_spec x y) | |- context [(?x <=? ?y)%Z] => destruct (Z.leb_spec x y) end; lia. }
    assert (Hst : (st <= n - 1)%Z) by (unfold st; destruct a; lia). clearbody i j st hi.
    destruct (Z.ltb_spec j i), (Z.ltb_spec (n - 1 - st) (Z.min (Z.of_nat N) hi)); try lia. f_equal. f_equal. lia.
  - destruct (Z.ltb_spec 0 k); [|lia].
    set (st := match a with Some a => Z.max 0 (if (a <? 0)%Z then (n + a)%Z else a) | None => 0%Z end).
    set (hi := match b with Some b => (if (b <? 0)%Z then n + b else b)%Z | None => n end).
    rewrite (cnt_ext _ (fun i => (st <=? i) && (i <? hi) && ((i - st) mod k =? 0))%Z).
    2: { intros i Hi. fold st. f_equal. f_equal. unfold hi. destruct b as [b|]; [auto|symmetry; apply Z.ltb_lt; lia]. }
    rewrite cnt_steps by (unfold st; destruct a; lia). cbn zeta.
    set (i := match a with Some i => adjust k (Z.of_nat N) i | None => 0%Z end). set (j := match b with Some j => adjust k (Z.of_nat N) j | None => Z.of_nat N end).
    assert (Ei : i = Z.min n st). { unfold i, st, adjust. destruct a as [a|]; [|lia]. repeat match goal with |- context [(?x <? ?y)%Z] => destruct (Z.ltb_spec x y) | |- context [(?x <=? ?y)%Z] => destruct (Z.leb_spec x y) end; lia. }
    assert (Ej : j = Z.max 0 (Z.min n hi)). { unfold j, hi, adjust. destruct b as [b|]; [|lia]. repeat match goal with |- context [(?x <? ?y)%Z] => destruct (Z.ltb_spec x y) | |- context [(?x <=? ?y)%Z] => destruct (Z.leb_spec x y) end; lia. }
    assert (Hst : (0 <= st)%Z) by (unfold st; destruct a; lia). clearbody i j st hi.
    destruct (Z.ltb_spec i j), (Z.ltb_spec st (Z.min (Z.of_nat N) hi)); try lia. f_equal. f_equal. lia.
Qed.
Lemma slice_full n : (0 <= n)%Z -> slice_size None None None n = n.
Proof.
  intros H. assert (E := slice_len_ok None None None n). cbn [slice_len] in E. unfold slice_len in E. rewrite Z.max_r in E by auto. cbn in E. destruct (Z.ltb_spec 0 n) as [L|L]; injection E as <-; [rewrite Z.div_1_r; lia|lia].
Qed.

(** ** Broadcasting *)
Definition sz (k : nat) (x : list Z) : Z := nth k x 1%Z.
(** [broadcast] for reversed shapes *)
Definition bc (xs : list (list Z)) (b : list Z) : Prop :=
  length b = fold_right Nat.max 0 (map (@length Z) xs) /\
  forall k, (forall x, In x xs -> sz k x = 1%Z \/ sz k x = sz k b) /\ (sz k b = 1%Z \/ exists x, In x xs /\ sz k x = sz k b).
Lemma max_le (xs : list (list Z)) x : In x xs -> length x <= fold_right Nat.max 0 (map (@length Z) xs).
Proof. induction xs as [|y xs IH]; intros []; cbn; [subst; lia|]. apply IH in H. lia. Qed.
Lemma sz_past k x : length x <= k -> sz k x = 1%Z.
Proof. intros H. apply nth_overflow. auto. Qed.
Lemma broadcast_bc xs b : broadcast xs b <-> bc (map (@rev Z) xs) (rev b).
Proof.
  assert (El : map (@length Z) (map (@rev Z) xs) = map (@length Z) xs) by (rewrite map_map; apply map_ext; intros; apply rev_length).
  unfold broadcast, bc. rewrite rev_length, El. split; intros [L H]; (split; [auto|]).
  - intros k. destruct (le_lt_dec (length b) k) as [Hk|Hk].
    + assert (X : forall x, In x xs -> sz k (rev x) = 1%Z) by (intros x Hx; apply sz_past; rewrite rev_length; apply max_le in Hx; lia). split; [|left; apply sz_past; rewrite rev_length; auto]. intros x Hx. apply in_map_iff in Hx as (y & <- & Hy). left. auto.
    + destruct (H k Hk) as [H1 H2]. split; [intros x Hx; apply in_map_iff in Hx as (y & <- & Hy); apply (H1 y Hy)|]. destruct H2 as [H2|(x & Hx & H2)]; [auto|]. right. exists (rev x). split; [apply in_map; auto|auto].
  - intros k Hk. destruct (H k) as [H1 H2]. split; [intros x Hx; apply (H1 (rev x)); apply in_map; auto|]. destruct H2 as [H2|(x & Hx & H2)]; [auto|]. right. apply in_map_iff in Hx as (y & <- & Hy). eauto.
Qed.
Lemma bcast_rev_ok a : forall c, match bcast_rev a c with
  | Ok d => bc [a; c] d
  | Err e => e = ValueError /\ exists k, sz k a <> 1%Z /\ sz k c <> 1%Z /\ sz k a <> sz k c
  end.
Proof.
  assert (N : forall k, sz k [] = 1%Z) by (intros [|]; auto).
  induction a as [|x a IH]; intros c.
  - cbn [bcast_rev]. split; [cbn; lia|]. intros k. split; [|right; exists c; cbn; auto]. intros z [<-|[<-|[]]]; auto.
  - cbn [bcast_rev]. destruct c as [|y c].
    { split; [cbn; lia|]. intros k. split; [|right; exists (x :: a); cbn; auto]. intros z [<-|[<-|[]]]; auto. }
    specialize (IH c). destruct (bcast_rev a c) as [d|e].
    + destruct IH as [L H].
      assert (C : forall z, (z = x \/ z = y) -> (x = 1%Z \/ x = z) -> (y = 1%Z \/ y = z) -> bc [x :: a; y :: c] (z :: d)).
      { intros z Hz Hx Hy. split; [cbn in *; lia|]. intros [|k].
        - split; [intros w [<-|[<-|[]]]; cbn; auto|]. right. destruct Hz as [->| ->]; [exists (x :: a)|exists (y :: c)]; cbn; auto.
        - destruct (H k) as [H1 H2]. split; [intros w [<-|[<-|[]]]; cbn; apply H1; cbn; auto|]. destruct H2 as [H2|(w & [<-|[<-|[]]] & H2)]; [auto| |]; right; [exists (x :: a)|exists (y :: c)]; cbn; auto. }
      destruct (Z.eqb_spec x 1) as [->|X]; [apply C; auto|]. destruct (Z.eqb_spec y 1) as [->|Y]; [apply C; auto|]. destruct (Z.eqb_spec x y) as [->|XY]; [apply C; auto|]. cbn. split; [auto|]. exists 0. auto.
    + destruct IH as (-> & k & H). split; [auto|]. exists (S k). auto.
Qed.
Lemma bc_first a c d l b : bc [a; c] d -> (bc (d :: l) b <-> bc (a :: c :: l) b).
Proof.
  intros [L H]. cbn in L. split; intros [L' H']; (split; [cbn in *; lia|]); intros k; destruct (H k) as [H1 H2]; destruct (H' k) as [H3 H4].
  - split.
    + intros x [<-|[<-|Hx]]; [| |apply H3; right; auto]; (destruct (H3 d ltac:(left; auto)) as [E|E]).
      * destruct (H1 a ltac:(left; auto)); [auto|left; congruence].
      * destruct (H1 a ltac:(left; auto)); [auto|right; congruence].
      * destruct (H1 c ltac:(right; left; auto)); [auto|left; congruence].
      * destruct (H1 c ltac:(right; left; auto)); [auto|right; congruence].
    + destruct H4 as [H4|(x & [<-|Hx] & H4)]; [auto| |right; exists x; cbn; auto]. destruct H2 as [H2|(y & [<-|[<-|[]]] & H2)]; [left; congruence| |]; right; [exists a|exists c]; cbn; split; auto; congruence.
  - split.
    + intros x [<-|Hx]; [|apply H3; right; right; auto]. destruct H2 as [H2|(y & [<-|[<-|[]]] & H2)]; [auto| |]; rewrite <- H2; apply H3; cbn; auto.
    + destruct H4 as [H4|(x & [<-|[<-|Hx]] & H4)]; [auto| | |right; exists x; cbn; auto].
      * destruct (H1 a ltac:(left; auto)) as [E|E]; [left; congruence|]. right. exists d. split; [left; auto|congruence].
      * destruct (H1 c ltac:(right; left; auto)) as [E|E]; [left; congruence|]. right. exists d. split; [left; auto|congruence].
Qed.
Lemma bc_one a b : bc [a] b <-> b = a.
Proof.
  split.
  - intros [L H]. cbn in L. apply nth_ext with (d := 1%Z) (d' := 1%Z); [lia|]. intros k _. destruct (H k) as [H1 H2]. destruct (H1 a ltac:(left; auto)) as [E|E]; [|symmetry; exact E]. destruct H2 as [H2|(x & [<-|[]] & H2)]; unfold sz in *; congruence.
  - intros ->. split; [cbn; lia|]. intros k. split; [intros x [<-|[]]; auto|right; exists a; cbn; auto].
Qed.
Lemma bcast_all_ok l : forall acc, match bcast_all acc l with
  | Ok b => forall y, bc (acc :: map (@rev Z) l) y <-> y = rev b
  | Err e => e = ValueError /\ forall y, ~ bc (acc :: map (@rev Z) l) y
  end.
Proof.
  induction l as [|x l IH]; intros acc; cbn [bcast_all map].
  - intros y. rewrite rev_involutive. apply bc_one.
  - assert (R := bcast_rev_ok acc (rev x)). destruct (bcast_rev acc (rev x)) as [d|e].
    + specialize (IH d). destruct (bcast_all d l) as [b|e]; [intros y|split; [apply IH|intros y]]; rewrite <- (bc_first _ _ _ _ _ R); apply IH.
    + destruct R as (-> & k & R1 & R2 & R3). split; [auto|]. intros y [_ H]. destruct (H k) as [H1 _]. destruct (H1 acc ltac:(left; auto)); [auto|]. destruct (H1 (rev x) ltac:(right; left; auto)); [auto|]. congruence.
Qed.
Lemma bcast_shapes_ok l : match bcast_shapes l with
  | Ok b => forall y, broadcast l y <-> y = b
  | Err e => e = ValueError /\ forall y, ~ broadcast l y
  end.
Proof.
  destruct l as [|x l]; cbn [bcast_shapes].
  - intros y. unfold broadcast. cbn. split; [intros [L _]; destruct y; [auto|discriminate]|]. intros ->. split; [auto|]. cbn. intros; lia.
  - assert (A := bcast_all_ok l (rev x)). destruct (bcast_all (rev x) l) as [b|e].
    + intros y. rewrite broadcast_bc. cbn [map]. rewrite A. split; [intros E; apply (f_equal (@rev Z)) in E; rewrite !rev_involutive in E; auto|intros ->; auto].
    + split; [apply A|]. intros y. rewrite broadcast_bc. apply A.
Qed.
