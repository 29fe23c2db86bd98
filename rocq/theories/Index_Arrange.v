(** * Indexing: where the dimensions of the index tensors go *)
From Coq Require Import List Arith Lia Bool ZArith.
From Verif Require Import PyBase Uniadic_Model Shape_Model Reduce_Model Concat_Model Index_Model Index_Spec Index_Pure.
Import ListNotations.
Open Scope list_scope. Open Scope nat_scope.

(** ** The parts before and behind the ellipsis *)
Fixpoint front (es : list entry) : list entry := match es with [] => [] | EEllipsis :: _ => [] | e :: es => e :: front es end.
Fixpoint back (es : list entry) : list entry := match es with [] => [] | EEllipsis :: es => es | _ :: es => back es end.
Definition plain_entry (e : entry) : bool := match e with EEllipsis => false | _ => true end.
Lemma ellipses_cons e es : ellipses (e :: es) = (if plain_entry e then 0 else 1) + ellipses es.
Proof. unfold ellipses. cbn [filter]. destruct e; auto. Qed.
Lemma front_plain es : forallb plain_entry (front es) = true.
Proof. induction es as [|[] es IH]; cbn; auto. Qed.
Lemma no_ellipses es : ellipses es = 0 -> forallb plain_entry es = true.
Proof. induction es as [|e es IH]; [auto|]. rewrite ellipses_cons. cbn [forallb]. destruct (plain_entry e); cbn; [auto|lia]. Qed.
Lemma back_plain es : ellipses es <= 1 -> forallb plain_entry (back es) = true.
Proof.
  induction es as [|e es IH]; [auto|]. rewrite ellipses_cons. destruct e; cbn [plain_entry plus back]; auto. intros H. apply no_ellipses. lia.
Qed.
Lemma complete_split es : ellipses es <= 1 -> complete es = front es ++ EEllipsis :: back es.
Proof.
  intros H. unfold complete. destruct (Nat.eqb_spec (ellipses es) 0) as [E|E].
  - clear H. induction es as [|e es IH]; [auto|]. rewrite ellipses_cons in E. destruct e; cbn in *; try (rewrite IH by auto; auto). lia.
  - clear H. induction es as [|e es IH]; [exfalso; auto|]. rewrite ellipses_cons in E. destruct e; cbn in *; try (rewrite IH at 1 by auto; auto). auto.
Qed.
Lemma without_ellipsis es : forallb plain_entry es = true -> front es = es /\ back es = [].
Proof. induction es as [|e es IH]; [auto|]. cbn [forallb]. intros H. apply andb_true_iff in H as [H1 H2]. destruct (IH H2) as [E1 E2]. destruct e; cbn; try (rewrite E1); auto; discriminate. Qed.
Lemma with_ellipsis es : forallb plain_entry es = false -> es = front es ++ EEllipsis :: back es.
Proof. induction es as [|e es IH]; [discriminate|]. cbn [forallb]. destruct e; cbn [plain_entry andb front back app]; intros H; [f_equal; auto|f_equal; auto|f_equal; auto|f_equal; auto|auto]. Qed.

(** ** The dimensions taken and made by entries without ellipsis *)
Fixpoint fits (ok : Z -> Z -> Prop) (es : list entry) (x : list Z) : Prop :=
  match es with
  | [] => x = []
  | EInt i :: es => match x with d :: x => ok i d /\ fits ok es x | [] => False end
  | ETensor _ :: es => match x with d :: x => fits ok es x | [] => False end
  | ESlice _ _ c :: es => match x with d :: x => c <> Some 0%Z /\ fits ok es x | [] => False end
  | ENew :: es => fits ok es x
  | EEllipsis :: es => fits ok es x
  end.
Fixpoint toks (es : list entry) (x : list Z) : list token :=
  match es with
  | [] => []
  | EInt _ :: es | ETensor _ :: es => Adv :: toks es (tl x)
  | ESlice a b c :: es => Dim (slice_size a b c (hd 0%Z x)) :: toks es (tl x)
  | ENew :: es => Dim 1 :: toks es x
  | EEllipsis :: es => toks es x
  end.
Fixpoint kept (es : list entry) (x : list Z) : list Z :=
  match es with
  | [] => []
  | EInt _ :: es | ETensor _ :: es => kept es (tl x)
  | ESlice a b c :: es => slice_size a b c (hd 0%Z x) :: kept es (tl x)
  | ENew :: es => 1%Z :: kept es x
  | EEllipsis :: es => kept es x
  end.
Definition takes (e : entry) : nat := match e with EInt _ | ETensor _ | ESlice _ _ _ => 1 | _ => 0 end.
Definition gives (e : entry) : nat := match e with ENew | ESlice _ _ _ => 1 | _ => 0 end.
Definition width (es : list entry) : nat := fold_right (fun e n => takes e + n) 0 es.
Definition outs (es : list entry) : nat := fold_right (fun e n => gives e + n) 0 es.
Lemma fits_width ok es : forall x, fits ok es x -> length x = width es.
Proof. induction es as [|e es IH]; intros x H; [cbn in H; subst; auto|]. destruct e; cbn [fits width fold_right takes plus] in *; try (apply IH; auto; fail); destruct x as [|d x]; try contradiction; cbn [length]; f_equal; apply IH; tauto. Qed.
Lemma fits_any es : (forall a b c, In (ESlice a b c) es -> c <> Some 0%Z) -> forall x, length x = width es -> fits any es x.
Proof.
  intros H. induction es as [|e es IH]; intros x L; [destruct x; [reflexivity|discriminate]|]. assert (IH' := IH ltac:(intros a b c Hx; apply (H a b c); right; auto)).
  destruct e; cbn [fits width fold_right takes plus] in *; try (apply IH'; exact L); destruct x as [|d x]; try discriminate; cbn in L; injection L as L; [split; [exact Logic.I|]| |split; [eapply H; left; reflexivity|]]; apply IH'; exact L.
Qed.
Lemma fits_mono (ok ok' : Z -> Z -> Prop) es : (forall i d, ok i d -> ok' i d) -> forall x, fits ok es x -> fits ok' es x.
Proof. intros H. induction es as [|[] es IH]; intros [|d x]; cbn; auto; intros [H1 H2]; auto. Qed.
Lemma fits_steps ok es a b c : forall x, fits ok es x -> In (ESlice a b c) es -> c <> Some 0%Z.
Proof. induction es as [|e es IH]; intros x H; [intros []|]. intros [->|Hx]; [destruct x; cbn in H; [contradiction|apply H]|]. destruct e; cbn in H; try (eapply IH; eauto; fail); destruct x; try contradiction; eapply IH; eauto; apply H. Qed.
Lemma dims_toks es : forall x, dims (toks es x) = kept es x.
Proof. induction es as [|[] es IH]; intros x; cbn; rewrite ?IH; auto. Qed.
Lemma kept_length es : forall x, length (kept es x) = outs es.
Proof. induction es as [|[] es IH]; intros x; cbn; rewrite ?IH; auto. Qed.
Lemma kept_snoc es e : forall x y, length x = width es -> kept (es ++ [e]) (x ++ y) = kept es x ++ kept [e] y.
Proof.
  induction es as [|e' es IH]; intros x y L.
  - destruct x; [|discriminate]. cbn [app]. auto.
  - cbn [app]. destruct e'; cbn [kept width fold_right takes plus] in *; try (rewrite IH by auto; auto; fail); destruct x as [|d x]; try discriminate; cbn in L; injection L as L; cbn [app tl hd]; rewrite IH by auto; auto.
Qed.
Lemma width_app a b : width (a ++ b) = width a + width b.
Proof. unfold width. induction a as [|e a IH]; cbn; [auto|]. rewrite IH. lia. Qed.
Lemma outs_app a b : outs (a ++ b) = outs a + outs b.
Proof. unfold outs. induction a as [|e a IH]; cbn; [auto|]. rewrite IH. lia. Qed.

Lemma reads_fits ok es t : forall x, forallb plain_entry es = true -> (reads ok es x t <-> fits ok es x /\ t = toks es x).
Proof.
  revert t. induction es as [|e es IH]; intros t x P.
  - cbn. split; [intros H; inversion H; auto|]. intros [-> ->]. constructor.
  - cbn [forallb] in P. apply andb_true_iff in P as [P1 P2]. split.
    + intros H. inversion H; subst; try discriminate; match goal with R : reads _ _ _ _ |- _ => apply (IH _ _ P2) in R as [R ->] end; cbn; auto.
    + intros [F ->]. destruct e; try discriminate; cbn [fits toks] in *; try destruct x as [|d x]; try contradiction; cbn [tl hd]; try (constructor; try apply F; apply IH; auto; try apply F; split; auto; apply F).
Qed.
Lemma reads_split ok f b : forall x t, forallb plain_entry f = true -> forallb plain_entry b = true ->
  (reads ok (f ++ EEllipsis :: b) x t <-> exists p m q, x = p ++ m ++ q /\ fits ok f p /\ fits ok b q /\ t = toks f p ++ Cut :: map Dim m ++ toks b q).
Proof.
  induction f as [|e f IH]; intros x t Pf Pb.
  - cbn [app]. split.
    + intros H. inversion H as [| | | | |es rest y u R]; subst. apply reads_fits in R as [R ->]; [|auto]. exists [], rest, y. cbn. auto.
    + intros (p & m & q & -> & Hp & Hq & ->). cbn in Hp. subst p. cbn [app toks]. constructor. apply reads_fits; auto.
  - cbn [forallb] in Pf. apply andb_true_iff in Pf as [P1 P2]. cbn [app]. split.
    + intros H. inversion H; subst; try discriminate; match goal with R : reads _ _ _ _ |- _ => apply (IH _ _ P2 Pb) in R as (p & m & q & -> & Hp & Hq & ->) end.
      * eexists (d :: p), m, q. cbn. auto.
      * eexists (d :: p), m, q. cbn. auto.
      * eexists (d :: p), m, q. cbn. auto.
      * eexists p, m, q. cbn. auto.
    + intros (p & m & q & -> & Hp & Hq & ->). assert (H : forall p, fits ok f p -> reads ok (f ++ EEllipsis :: b) (p ++ m ++ q) (toks f p ++ Cut :: map Dim m ++ toks b q)) by (intros p' Hp'; apply IH; auto; exists p', m, q; auto).
      destruct e; try discriminate; cbn [fits toks] in *; [destruct p as [|d p]; [contradiction|]|destruct p as [|d p]; [contradiction|]|destruct p as [|d p]; [contradiction|]|]; cbn [tl hd app]; constructor; try (apply H; tauto); tauto.
Qed.

(** ** The position, computed from the tokens *)
Record mst := mkm { mc : nat; mp : nat; mn : nat }.
Definition mstep (t : token) (m : mst) : mst :=
  match t with
  | Adv => match mc m with 0 => mkm 1 (mn m) (mn m) | 2 => mkm 3 0 (mn m) | _ => m end
  | Dim _ => mkm (match mc m with 1 => 2 | c => c end) (mp m) (S (mn m))
  | Cut => mkm (match mc m with 1 => 2 | c => c end) (mp m) (mn m)
  end.
Definition mrun (l : list token) (m : mst) : mst := fold_left (fun m t => mstep t m) l m.
Definition m0 := mkm 0 0 0.
Lemma mrun_app a b m : mrun (a ++ b) m = mrun b (mrun a m).
Proof. apply fold_left_app. Qed.
Definition ins (p : nat) (b l : list Z) : list Z := firstn p l ++ b ++ skipn p l.
Definition noadv (l : list token) : Prop := existsb is_adv l = false.
Lemma dims_app a b : dims (a ++ b) = dims a ++ dims b.
Proof. induction a as [|[] a IH]; cbn; rewrite ?IH; auto. Qed.
Lemma dims_advs k : dims (repeat Adv k) = [].
Proof. induction k; auto. Qed.
Lemma before_noadv a t : noadv a -> before (a ++ Adv :: t) = a /\ from (a ++ Adv :: t) = Adv :: t.
Proof. unfold noadv. induction a as [|[] a IH]; cbn; intros H; try discriminate; auto; destruct (IH H) as [-> ->]; auto. Qed.
Lemma before_all a : noadv a -> before a = a /\ from a = [].
Proof. unfold noadv. induction a as [|[] a IH]; cbn; intros H; try discriminate; auto; destruct (IH H) as [-> ->]; auto. Qed.
Lemma past_noadv k b : noadv b -> past (repeat Adv k ++ b) = b.
Proof. intros H. induction k as [|k IH]; cbn; [|auto]. destruct b as [|[] b]; auto. discriminate. Qed.
Lemma noadv_app a b : noadv (a ++ b) <-> noadv a /\ noadv b.
Proof. unfold noadv. rewrite existsb_app. apply orb_false_iff. Qed.
Definition minv (t : list token) (m : mst) : Prop :=
  mn m = length (dims t) /\
  match mc m with
  | 0 => noadv t
  | 1 => exists a k, t = a ++ repeat Adv (S k) /\ noadv a /\ mp m = length (dims a)
  | 2 => exists a k b, t = a ++ repeat Adv (S k) ++ b /\ noadv a /\ noadv b /\ b <> [] /\ mp m = length (dims a)
  | _ => existsb is_adv (past (from t)) = true /\ mp m = 0
  end.
Lemma rep_snoc {A} (x : A) k : repeat x (S k) ++ [x] = repeat x (S (S k)).
Proof. induction k; cbn in *; [auto|f_equal; auto]. Qed.
Lemma past_app l u : existsb is_adv (past l) = true -> past (l ++ u) = past l ++ u.
Proof. induction l as [|[] l IH]; cbn; intros H; auto; discriminate. Qed.
Lemma from_app l u : from l <> [] -> from (l ++ u) = from l ++ u.
Proof. induction l as [|[] l IH]; cbn; intros H; auto; contradiction. Qed.
Lemma minv_step t m x : minv t m -> minv (t ++ [x]) (mstep x m).
Proof.
  intros [N H]. split.
  - rewrite dims_app, app_length. destruct x; cbn [mstep dims length]; [destruct (mc m) as [|[|[|]]]; cbn; lia|cbn; lia|cbn; lia].
  - destruct (mc m) as [|[|[|c]]] eqn:E.
    + destruct x; cbn [mstep]; rewrite ?E; cbn [mc mp].
      * exists t, 0. auto.
      * apply noadv_app. split; [auto|reflexivity].
      * apply noadv_app. split; [auto|reflexivity].
    + destruct H as (a & k & -> & Ha & Hp). destruct x; cbn [mstep]; rewrite ?E; cbn [mc mp].
      * exists a, (S k). rewrite <- app_assoc, rep_snoc. auto.
      * exists a, k, [Dim n]. rewrite <- app_assoc. split; [auto|]. split; [auto|]. split; [reflexivity|]. split; [discriminate|auto].
      * exists a, k, [Cut]. rewrite <- app_assoc. split; [auto|]. split; [auto|]. split; [reflexivity|]. split; [discriminate|auto].
    + destruct H as (a & k & b & -> & Ha & Hb & Nb & Hp). destruct x; cbn [mstep]; rewrite ?E; cbn [mc mp].
      * split; [|auto]. rewrite <- !app_assoc. cbn [repeat app]. destruct (before_noadv a (repeat Adv k ++ b ++ [Adv]) Ha) as [_ ->]. cbn [past].
        assert (X : past (repeat Adv k ++ b ++ [Adv]) = b ++ [Adv]). { clear - Hb Nb. induction k; cbn; [|auto]. destruct b as [|[] b]; auto; [contradiction|discriminate]. } rewrite X, existsb_app. cbn. apply orb_true_r.
      * exists a, k, (b ++ [Dim n]). rewrite <- !app_assoc. split; [auto|]. split; [auto|]. split; [apply noadv_app; split; [auto|reflexivity]|]. split; [destruct b; discriminate|auto].
      * exists a, k, (b ++ [Cut]). rewrite <- !app_assoc. split; [auto|]. split; [auto|]. split; [apply noadv_app; split; [auto|reflexivity]|]. split; [destruct b; discriminate|auto].
    + destruct H as [H Hp]. assert (F : from t <> []) by (intros Ef; rewrite Ef in H; discriminate).
      assert (Y : existsb is_adv (past (from (t ++ [x]))) = true) by (rewrite from_app, past_app, existsb_app, H by auto; auto).
      assert (X : mc (mstep x m) = S (S (S c))) by (destruct x; cbn [mstep]; rewrite E; auto).
      rewrite X. split; [exact Y|]. destruct x; cbn [mstep]; rewrite ?E; auto.
Qed.
Lemma mrun_inv t : minv t (mrun t m0).
Proof.
  assert (G : forall l t m, minv t m -> minv (t ++ l) (mrun l m)).
  { induction l as [|x l IH]; intros u m H; cbn; [rewrite app_nil_r; auto|]. replace (u ++ x :: l) with ((u ++ [x]) ++ l) by (rewrite <- app_assoc; auto). apply IH. apply minv_step. auto. }
  apply (G t [] m0). split; cbn; auto. reflexivity.
Qed.
Lemma ins_at a b c : ins (length a) b (a ++ c) = a ++ b ++ c.
Proof. unfold ins. rewrite firstn_app, firstn_all, Nat.sub_diag, skipn_app, skipn_all, Nat.sub_diag. cbn. rewrite app_nil_r. auto. Qed.
Lemma ins_nil p l : ins p [] l = l.
Proof. unfold ins. cbn. apply firstn_skipn. Qed.
Lemma arrange_ins b t : (noadv t -> b = []) -> arrange b t = ins (mp (mrun t m0)) b (dims t).
Proof.
  intros Hb. destruct (mrun_inv t) as [N H]. set (m := mrun t m0) in *. unfold arrange. destruct (mc m) as [|[|[|c]]].
  - rewrite (Hb H), ins_nil. destruct (before_all t H) as [-> ->]. cbn. rewrite app_nil_r. auto.
  - destruct H as (a & k & -> & Ha & ->). assert (Er : repeat Adv (S k) = Adv :: repeat Adv k ++ []) by (cbn; rewrite app_nil_r; auto). rewrite Er. destruct (before_noadv a (repeat Adv k ++ []) Ha) as [-> ->]. cbn [past]. rewrite past_noadv by reflexivity. cbn [existsb]. rewrite dims_app. cbn [dims]. rewrite dims_app, dims_advs. cbn [app dims]. rewrite ins_at. auto.
  - destruct H as (a & k & c & -> & Ha & Hc & _ & ->). cbn [repeat app]. destruct (before_noadv a (repeat Adv k ++ c) Ha) as [-> ->]. cbn [past]. rewrite past_noadv by auto. unfold noadv in Hc. rewrite Hc. rewrite dims_app. cbn [dims]. rewrite dims_app, dims_advs. cbn [app]. rewrite ins_at. auto.
  - destruct H as [-> ->]. unfold ins. cbn. auto.
Qed.

(** ** The same with the local variables of the loop *)
Record pst := mkp { pc : nat; pp : nat; pb : bool; ps : bool; lp : nat; ls : nat }.
Definition p0 := mkp 0 0 false false 0 0.
Definition penter (m : pst) : pst :=
  let m := if pc m =? 0 then mkp 1 (if ps m then ls m else lp m) (ps m) (ps m) (lp m) (ls m) else m in
  if pc m =? 2 then mkp 3 0 false (ps m) (lp m) (ls m) else m.
Definition pleave (m : pst) : pst := if pc m =? 1 then mkp 2 (pp m) (pb m) (ps m) (lp m) (ls m) else m.
Definition pout (m : pst) : pst := if ps m then mkp (pc m) (pp m) (pb m) (ps m) (lp m) (S (ls m)) else mkp (pc m) (pp m) (pb m) (ps m) (S (lp m)) (ls m).
Definition pstep (e : entry) (m : pst) : pst :=
  match e with
  | EInt _ | ETensor _ => penter m
  | EEllipsis => let m := pleave m in mkp (pc m) (pp m) (pb m) true (lp m) (ls m)
  | ENew | ESlice _ _ _ => pout (pleave m)
  end.
Definition prun (es : list entry) (m : pst) : pst := fold_left (fun m e => pstep e m) es m.
Lemma prun_app a b m : prun (a ++ b) m = prun b (prun a m).
Proof. apply fold_left_app. Qed.
(** Before the ellipsis, and behind it *)
Definition rel1 (m : mst) (p : pst) : Prop := mc m = pc p /\ mp m = pp p /\ mn m = lp p /\ pb p = false /\ ps p = false.
Definition rel2 (n0 : nat) (m : mst) (p : pst) : Prop := mc m = pc p /\ mp m = (if pb p then n0 + pp p else pp p) /\ mn m = n0 + ls p /\ ps p = true.
Lemma rel1_run es : forall x m p, forallb plain_entry es = true -> rel1 m p -> rel1 (mrun (toks es x) m) (prun es p) /\ ls (prun es p) = ls p.
Proof.
  induction es as [|e es IH]; intros x m p P H; [cbn; auto|]. cbn [forallb] in P. apply andb_true_iff in P as [P1 P2].
  assert (St : forall t y, rel1 (mstep t m) (pstep e p) -> ls (pstep e p) = ls p -> rel1 (mrun (t :: toks es y) m) (prun (e :: es) p) /\ ls (prun (e :: es) p) = ls p).
  { intros t y H1 H2. cbn [mrun prun fold_left]. fold (mrun (toks es y) (mstep t m)). fold (prun es (pstep e p)). rewrite <- H2. apply IH; auto. }
  destruct m as [c q n], p as [c' q' b' s' a' l']. destruct H as (H1 & H2 & H3 & H4 & H5). cbn in H1, H2, H3, H4, H5. subst.
  destruct e; try discriminate; cbn [toks]; apply St; cbn; unfold rel1, penter, pleave, pout; cbn; destruct c' as [|[|[|]]]; cbn; auto 6.
Qed.
Lemma rel2_run n0 es : forall x m p, forallb plain_entry es = true -> rel2 n0 m p -> rel2 n0 (mrun (toks es x) m) (prun es p).
Proof.
  induction es as [|e es IH]; intros x m p P H; [cbn; auto|]. cbn [forallb] in P. apply andb_true_iff in P as [P1 P2].
  assert (St : forall t y, rel2 n0 (mstep t m) (pstep e p) -> rel2 n0 (mrun (t :: toks es y) m) (prun (e :: es) p)).
  { intros t y H1. cbn [mrun prun fold_left]. fold (mrun (toks es y) (mstep t m)). fold (prun es (pstep e p)). apply IH; auto. }
  destruct m as [c q n], p as [c' q' b' s' a' l']. destruct H as (H1 & H2 & H3 & H4). cbn in H1, H2, H3, H4. subst.
  destruct e; try discriminate; cbn [toks]; apply St; cbn; unfold rel2, penter, pleave, pout; cbn; destruct c' as [|[|[|]]]; cbn; repeat (split; [auto|]); auto.
Qed.
Lemma mrun_dims l m : mrun (map Dim l) m = match l with [] => m | _ => mkm (match mc m with 1 => 2 | c => c end) (mp m) (mn m + length l) end.
Proof.
  revert m. induction l as [|x l IH]; intros m; [auto|]. cbn [map mrun fold_left]. fold (mrun (map Dim l) (mstep (Dim x) m)). rewrite IH. destruct l; cbn; [f_equal; lia|]. f_equal; [destruct (mc m) as [|[|]]; auto|lia].
Qed.
Lemma prun_outs es : forall m, ps m = false -> forallb plain_entry es = true -> lp (prun es m) = lp m + outs es.
Proof.
  induction es as [|e es IH]; intros m H P; [cbn; lia|]. cbn [forallb] in P. apply andb_true_iff in P as [P1 P2]. cbn [prun fold_left]. fold (prun es (pstep e m)). destruct m as [c q b s a l]. cbn in H. subst s.
  assert (X : ps (pstep e (mkp c q b false a l)) = false /\ lp (pstep e (mkp c q b false a l)) = a + gives e) by (destruct e; try discriminate; cbn; unfold penter, pleave, pout; cbn; destruct c as [|[|[|]]]; cbn; split; auto; lia).
  rewrite IH by (auto; apply X). destruct X as [_ ->]. unfold outs. cbn. lia.
Qed.
Definition has_tensor (es : list entry) : bool := existsb (fun e => match e with EInt _ | ETensor _ => true | _ => false end) es.
Theorem arranged es b p m q : ellipses es <= 1 -> (has_tensor es = false -> b = []) ->
  arrange b (toks (front es) p ++ Cut :: map Dim m ++ toks (back es) q) =
  let r := prun es p0 in
  if pb r then kept (front es) p ++ m ++ ins (pp r) b (kept (back es) q) else ins (pp r) b (kept (front es) p) ++ m ++ kept (back es) q.
Proof.
  intros He Hb. assert (Pf := front_plain es). assert (Pb := back_plain es He).
  assert (Tk : forall l x, forallb plain_entry l = true -> existsb is_adv (toks l x) = has_tensor l). { clear. induction l as [|[] l IH]; intros x P; cbn in *; auto; try discriminate. }
  assert (Ht : has_tensor es = has_tensor (front es) || has_tensor (back es)). { clear. induction es as [|[] es IH]; cbn; auto. }
  rewrite arrange_ins.
  2: { unfold noadv. rewrite existsb_app. cbn [existsb is_adv orb]. rewrite existsb_app, !Tk by auto. intros H. apply Hb. rewrite Ht. apply orb_false_iff in H as [H1 H2]. apply orb_false_iff in H2 as [_ H2]. rewrite H1, H2. auto. }
  rewrite dims_app. cbn [dims]. rewrite dims_app, !dims_toks. assert (Dm : dims (map Dim m) = m) by (clear; induction m; cbn; f_equal; auto). rewrite Dm.
  destruct (rel1_run (front es) p m0 p0 Pf ltac:(repeat split)) as [R1 R1']. assert (Lf := prun_outs (front es) p0 eq_refl Pf). cbn [lp p0 plus] in Lf.
  set (F := kept (front es) p). set (B := kept (back es) q). assert (LF : length F = lp (prun (front es) p0)) by (unfold F; rewrite kept_length; auto).
  assert (Small : pp (prun (front es) p0) <= length F).
  { assert (M := mrun_inv (toks (front es) p)). destruct R1 as (Q1 & Q2 & Q3 & _). rewrite LF, <- Q2, <- Q3. destruct M as [M1 M2]. rewrite M1. destruct (mrun (toks (front es) p) m0) as [c z n] eqn:Em. cbn in *. destruct c as [|[|[|c]]].
    - assert (Z : forall t k, noadv t -> mc k = 0 -> mp (mrun t k) = mp k). { clear. induction t as [|[] t IH]; intros k H1 H2; [auto|discriminate| |]; cbn [mrun fold_left]; fold (mrun t (mstep (Dim n) k)) || fold (mrun t (mstep Cut k)); (rewrite IH; [auto|auto|cbn; rewrite H2; auto]). }
      assert (E := Z (toks (front es) p) m0 M2 eq_refl). rewrite Em in E. cbn in E. lia.
    - destruct M2 as (a & k & -> & _ & ->). rewrite dims_app, app_length. lia.
    - destruct M2 as (a & k & c & -> & _ & _ & _ & ->). rewrite dims_app, app_length. lia.
    - lia. }
  assert (FrontCase : forall k c, k <= length F -> ins k b (F ++ c) = ins k b F ++ c).
  { intros k c Hk. unfold ins. rewrite firstn_app, skipn_app. replace (k - length F) with 0 by lia. cbn. rewrite app_nil_r, <- !app_assoc. auto. }
  rewrite mrun_app. destruct (forallb plain_entry es) eqn:Pe.
  - destruct (without_ellipsis es Pe) as [Ef Eb]. unfold F, B in *. rewrite Ef, Eb in *. cbn [toks kept app]. rewrite !app_nil_r. cbn [mrun fold_left]. fold (mrun (map Dim m) (mstep Cut (mrun (toks es p) m0))). rewrite mrun_dims.
    destruct R1 as (Q1 & Q2 & Q3 & Q4 & Q5). cbn zeta. rewrite Q4. set (mm := mstep Cut (mrun (toks es p) m0)). assert (Em : mp mm = pp (prun es p0)) by (unfold mm; cbn; auto).
    replace (mp match m with [] => mm | _ => _ end) with (pp (prun es p0)) by (destruct m; cbn; auto). apply FrontCase. auto.
  - assert (Es := with_ellipsis es Pe). assert (Er : prun es p0 = prun (back es) (pstep EEllipsis (prun (front es) p0))) by (rewrite Es at 1; rewrite prun_app; reflexivity).
    cbn [mrun fold_left]. fold (mrun (map Dim m ++ toks (back es) q) (mstep Cut (mrun (toks (front es) p) m0))). rewrite mrun_app. set (mm := mrun (map Dim m) (mstep Cut (mrun (toks (front es) p) m0))).
    assert (R2 : rel2 (length F + length m) mm (pstep EEllipsis (prun (front es) p0))).
    { unfold mm. rewrite mrun_dims. destruct R1 as (Q1 & Q2 & Q3 & Q4 & Q5). rewrite LF. destruct (prun (front es) p0) as [c z b' s' a' l']. destruct (mrun (toks (front es) p) m0) as [c1 z1 n1]. cbn in Q1, Q2, Q3, Q4, Q5, R1'. subst. unfold rel2. destruct m; cbn; unfold pleave; cbn; destruct c as [|[|[|]]]; cbn; repeat split; lia. }
    assert (R3 := rel2_run (length F + length m) (back es) q mm _ Pb R2). rewrite <- Er in R3. destruct R3 as (_ & Hp & _). cbn zeta. rewrite Hp. destruct (pb (prun es p0)) eqn:Epb.
    + unfold ins. rewrite !app_assoc. rewrite firstn_app, skipn_app. rewrite app_length. replace (length F + length m + pp (prun es p0) - (length F + length m)) with (pp (prun es p0)) by lia. rewrite firstn_all2 by (rewrite app_length; lia). rewrite skipn_all2 by (rewrite app_length; lia). cbn. rewrite <- !app_assoc. auto.
    + (* the position is in the front part *)
      assert (Sm : forall l k, forallb plain_entry l = true -> ps k = true -> (pb k = false -> pp k <= length F) -> pb (prun l k) = false -> pp (prun l k) <= length F).
      { clear. induction l as [|e l IH]; intros k P Hs Hk; [cbn; auto|]. cbn [forallb] in P. apply andb_true_iff in P as [P1 P2]. cbn [prun fold_left]. fold (prun l (pstep e k)). destruct k as [c z b' s' a' l']. cbn in Hs, Hk. subst s'. apply IH; auto.
        - destruct e; try discriminate; cbn; unfold penter, pleave, pout; cbn; destruct c as [|[|[|]]]; cbn; auto.
        - destruct e; try discriminate; cbn; unfold penter, pleave, pout; cbn; destruct c as [|[|[|]]]; cbn; auto; try discriminate; lia. }
      apply FrontCase. rewrite Er in Epb |- *. apply Sm; [auto|cbn; auto| |auto]. intros _. cbn. unfold pleave. destruct (pc (prun (front es) p0) =? 1); cbn; auto.
Qed.
