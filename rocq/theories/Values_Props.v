(** * C30, C31, C36: nested values *)
From Coq Require Import List Arith Lia Bool ZArith.
From Verif Require Import PyBase Values_Model.
Import ListNotations.
Open Scope list_scope. Open Scope nat_scope. Open Scope res_scope.

Section NvInd.
  Variable P : nv -> Prop.
  Hypothesis HL : forall l, (forall x, In x l -> P x) -> P (VList l).
  Hypothesis HT : forall l, (forall x, In x l -> P x) -> P (VTuple l).
  Hypothesis Hleaf : forall v, (forall l, v <> VList l) -> (forall l, v <> VTuple l) -> P v.
  Fixpoint nv_all (v : nv) : P v :=
    let go := fix go (l : list nv) : forall x, In x l -> P x :=
      match l with
      | [] => fun x H => match H with end
      | y :: l => fun x H => match H with or_introl E => eq_ind y P (nv_all y) x E | or_intror H => go l x H end
      end in
    match v as v return P v with
    | VList l => HL l (go l)
    | VTuple l => HT l (go l)
    | VBool b => Hleaf (VBool b) ltac:(discriminate) ltac:(discriminate)
    | VInt z => Hleaf (VInt z) ltac:(discriminate) ltac:(discriminate)
    | VFloat x => Hleaf (VFloat x) ltac:(discriminate) ltac:(discriminate)
    | VSub n => Hleaf (VSub n) ltac:(discriminate) ltac:(discriminate)
    | VOther n => Hleaf (VOther n) ltac:(discriminate) ltac:(discriminate)
    | VConst n => Hleaf (VConst n) ltac:(discriminate) ltac:(discriminate)
    | VRange n => Hleaf (VRange n) ltac:(discriminate) ltac:(discriminate)
    end.
End NvInd.

Ltac noc := exfalso; match goal with A : forall k, _ <> _ k |- _ => eapply A; reflexivity end.

(** ** C31 *)
(** [leaf v x]: the innermost part [x] occurs in [v]; an empty list or tuple is an innermost part. *)
Inductive leaf : nv -> nv -> Prop :=
| leaf_self v : (forall l, v <> VList l) -> (forall l, v <> VTuple l) -> leaf v v
| leaf_nil_list : leaf (VList []) (VList [])
| leaf_nil_tuple : leaf (VTuple []) (VTuple [])
| leaf_list l x y : In x l -> leaf x y -> leaf (VList l) y
| leaf_tuple l x y : In x l -> leaf x y -> leaf (VTuple l) y.
(** Parts that count as float: floats and empty containers. *)
Definition floaty (x : nv) : Prop := (exists n, x = VFloat n) \/ x = VList [] \/ x = VTuple [].
Definition number (x : nv) : Prop := floaty x \/ (exists z, x = VInt z) \/ (exists b, x = VBool b).
Definition dominant_spec (v : nv) (t : ty) : Prop :=
  (t = TFloat /\ exists x, leaf v x /\ floaty x) \/
  (t = TInt /\ (exists z, leaf v (VInt z)) /\ forall x, leaf v x -> ~ floaty x) \/
  (t = TBool /\ forall x, leaf v x -> exists b, x = VBool b).

(** The loop over the elements, named. *)
Fixpoint dom_loop (l : list nv) (cur : ty) : res ty :=
  match l with
  | [] => Ok cur
  | x :: l => let* t := find_dominant x in
              match t with
              | TFloat => dom_loop l TFloat
              | TInt => dom_loop l (match cur with TBool => TInt | _ => cur end)
              | TBool => dom_loop l cur
              | TOther n => Ok (TOther n)
              end
  end.
Lemma find_dominant_list l : find_dominant (VList l) = match l with [] => Ok TFloat | _ => dom_loop l TBool end.
Proof. destruct l; reflexivity. Qed.
Lemma find_dominant_tuple l : find_dominant (VTuple l) = match l with [] => Ok TFloat | _ => dom_loop l TBool end.
Proof. destruct l; reflexivity. Qed.

Lemma dominant_numbers t v : dominant_spec v t -> t = TBool \/ t = TInt \/ t = TFloat.
Proof. intros [[-> _]|[[-> _]|[-> _]]]; auto. Qed.
(** Combining what was seen before ([cur], from elements [seen]) with the rest. *)
Definition seen_spec (seen : list nv) (t : ty) : Prop :=
  (t = TFloat /\ exists v x, In v seen /\ leaf v x /\ floaty x) \/
  (t = TInt /\ (exists v z, In v seen /\ leaf v (VInt z)) /\ forall v x, In v seen -> leaf v x -> ~ floaty x) \/
  (t = TBool /\ forall v x, In v seen -> leaf v x -> exists b, x = VBool b).
Lemma bool_not_floaty x : (exists b, x = VBool b) -> ~ floaty x.
Proof. intros [b ->] [[n H]|[H|H]]; discriminate. Qed.
Ltac fin := let u := fresh in let x := fresh in let Hu := fresh in let Hx := fresh in
  intros u x Hu Hx; apply in_app_iff in Hu as [Hu|[<-|[]]]; eauto; apply bool_not_floaty; eauto.
Lemma seen_step seen v cur t : seen_spec seen cur -> dominant_spec v t ->
  seen_spec (seen ++ [v]) (match t with TFloat => TFloat | TInt => match cur with TBool => TInt | _ => cur end | _ => cur end).
Proof.
  assert (A : forall u, In u seen -> In u (seen ++ [v])) by (intros; apply in_app_iff; auto).
  assert (B : In v (seen ++ [v])) by (apply in_app_iff; right; left; auto).
  intros Hs [[-> (x & Hl & Hf)]|[[-> [[z Hz] Hn]]|[-> Hb]]].
  - left. split; auto. exists v, x. auto.
  - destruct Hs as [[-> (u & x & Hu & Hl & Hf)]|[[-> [(u & z' & Hu & Hl) Hn']]|[-> Hb']]].
    + left. split; auto. exists u, x. auto.
    + right; left. split; auto. split; [exists v, z; auto|]. fin.
    + right; left. split; auto. split; [exists v, z; auto|]. fin.
  - destruct Hs as [[-> (u & x & Hu & Hl & Hf)]|[[-> [(u & z' & Hu & Hl) Hn']]|[-> Hb']]].
    + left. split; auto. exists u, x. auto.
    + right; left. split; auto. split; [exists u, z'; auto|]. fin.
    + right; right. split; auto. fin.
Qed.
Lemma dom_loop_ok l : forall seen cur, (forall v, In v l -> exists t, find_dominant v = Ok t /\ dominant_spec v t) -> seen_spec seen cur ->
  exists t, dom_loop l cur = Ok t /\ seen_spec (seen ++ l) t.
Proof.
  induction l as [|v l IH]; intros seen cur H Hs; cbn [dom_loop]; [exists cur; rewrite app_nil_r; auto|].
  destruct (H v (or_introl eq_refl)) as (t & E & D). rewrite E. cbn [bind]. assert (St := seen_step _ _ _ _ Hs D).
  replace (seen ++ v :: l) with ((seen ++ [v]) ++ l) by (rewrite <- app_assoc; auto).
  assert (H' : forall u, In u l -> exists t, find_dominant u = Ok t /\ dominant_spec u t) by (intros u Hu; apply H; right; auto).
  destruct (dominant_numbers _ _ D) as [->|[->| ->]]; apply IH; auto.
Qed.

(** If all innermost parts are numbers, the result is their dominant type. *)
Theorem C31_dominant : forall v, (forall x, leaf v x -> number x) -> exists t, find_dominant v = Ok t /\ dominant_spec v t.
Proof.
  assert (Cont : forall (mk : list nv -> nv) l, (mk = VList \/ mk = VTuple) -> (forall x, In x l -> (forall y, leaf x y -> number y) -> exists t, find_dominant x = Ok t /\ dominant_spec x t) ->
    (forall x, leaf (mk l) x -> number x) -> exists t, find_dominant (mk l) = Ok t /\ dominant_spec (mk l) t).
  { intros mk l Hmk IH Hn.
    assert (Hl : forall x y, In x l -> leaf x y -> leaf (mk l) y) by (intros x y; destruct Hmk as [->| ->]; econstructor; eauto).
    assert (Cs : l = [] \/ match l with [] => Ok TFloat | _ => dom_loop l TBool end = dom_loop l TBool) by (destruct l; auto).
    destruct Cs as [->|Cs]; [exists TFloat; split; [destruct Hmk as [->| ->]; auto|]; left; split; auto; exists (mk []); destruct Hmk as [->| ->]; (split; [exact leaf_nil_list || exact leaf_nil_tuple|unfold floaty; auto])|].
    destruct (dom_loop_ok l [] TBool) as (t & E & Sp).
    { intros v Hv. apply IH; auto. intros y Hy. apply Hn. apply (Hl v y); auto. }
    { right; right. split; auto. intros v x []. }
    exists t. split; [destruct Hmk as [->| ->]; [rewrite find_dominant_list|rewrite find_dominant_tuple]; rewrite Cs; exact E|].
    assert (Inv : forall x, leaf (mk l) x -> exists v, In v l /\ leaf v x).
    { intros x H. destruct Hmk as [->| ->]; inversion H; subst; eauto; try discriminate Cs; exfalso; match goal with A : forall k, _ l <> _ k |- _ => apply (A l); reflexivity end. }
    cbn [app] in Sp. destruct Sp as [[-> (v & x & H1 & H2 & H3)]|[[-> [(v & z & H1 & H2) H3]]|[-> H3]]].
    - left. split; auto. exists x. split; auto. eapply Hl; eauto.
    - right; left. split; auto. split; [exists z; eapply Hl; eauto|]. intros x Hx. destruct (Inv x Hx) as (u & Hu & Hu'). eauto.
    - right; right. split; auto. intros x Hx. destruct (Inv x Hx) as (u & Hu & Hu'). eauto. }
  apply (nv_all (fun v => (forall x, leaf v x -> number x) -> exists t, find_dominant v = Ok t /\ dominant_spec v t)).
  - intros l IH. apply (Cont VList); auto.
  - intros l IH. apply (Cont VTuple); auto.
  - intros v H1 H2 Hn. assert (Lf : forall x, leaf v x -> x = v). { intros x Hx. inversion Hx; subst; auto; noc. }
    assert (Nv : number v) by (apply Hn; constructor; auto).
    destruct Nv as [[[n ->]|[->| ->]]|[[z ->]|[b ->]]]; cbn.
    + exists TFloat. split; auto. left. split; auto. exists (VFloat n). split; [constructor; discriminate|left; eauto].
    + exfalso. eapply H1; eauto.
    + exfalso. eapply H2; eauto.
    + exists TInt. split; auto. right; left. split; auto. split; [exists z; constructor; discriminate|]. intros x Hx. rewrite (Lf x Hx). intros [[n X]|[X|X]]; discriminate.
    + exists TBool. split; auto. right; right. split; auto. intros x Hx. rewrite (Lf x Hx). eauto.
Qed.

(** Values without instances of subclasses: an innermost part that is no number makes the call raise. *)
Theorem C31_raises : forall v, (forall n, ~ leaf v (VSub n)) -> (exists x, leaf v x /\ ~ number x) -> find_dominant v = Err ValueError.
Proof.
  assert (Dec : forall x, (forall n, x <> VSub n) -> (forall l, x <> VList l) -> (forall l, x <> VTuple l) -> number x \/ (~ number x /\ find_dominant x = Err ValueError)).
  { intros x H1 H2 H3. assert (X : forall n, number (VOther n) -> False) by (intros ? [[[? ?]|[?|?]]|[[? ?]|[? ?]]]; discriminate).
    assert (Y : forall n, number (VConst n) -> False) by (intros ? [[[? ?]|[?|?]]|[[? ?]|[? ?]]]; discriminate).
    assert (Z : forall n, number (VRange n) -> False) by (intros ? [[[? ?]|[?|?]]|[[? ?]|[? ?]]]; discriminate).
    destruct x as [b|z|f|n|n|c|r|l|l].
    - left. right; right. eauto.
    - left. right; left. eauto.
    - left. left. left. eauto.
    - exfalso. eapply H1; reflexivity.
    - right. split; [exact (X n)|reflexivity].
    - right. split; [exact (Y c)|reflexivity].
    - right. split; [exact (Z r)|reflexivity].
    - exfalso. eapply H2; reflexivity.
    - exfalso. eapply H3; reflexivity. }
  (* every value without subclass instances is either all numbers, or raises *)
  assert (Main : forall v, (forall n, ~ leaf v (VSub n)) -> (forall x, leaf v x -> number x) \/ find_dominant v = Err ValueError).
  { apply (nv_all (fun v => (forall n, ~ leaf v (VSub n)) -> (forall x, leaf v x -> number x) \/ find_dominant v = Err ValueError)).
    - intros l IH Hs. assert (Hl : forall x, In x l -> (forall y, leaf x y -> number y) \/ find_dominant x = Err ValueError).
      { intros x Hx. apply IH; auto. intros n H. apply (Hs n). econstructor; eauto. }
      rewrite find_dominant_list. clear IH Hs.
      assert (Cs : l = [] \/ match l with [] => Ok TFloat | _ => dom_loop l TBool end = dom_loop l TBool) by (destruct l; auto).
      destruct Cs as [->|Cs]; [left; intros x Hx; inversion Hx; subst; try (left; right; left; reflexivity); try contradiction; exfalso; match goal with A : forall k, _ [] <> _ k |- _ => apply (A []); reflexivity end|]. rewrite Cs.
      assert (Lp : (forall x, In x l -> forall y, leaf x y -> number y) \/ forall cur, dom_loop l cur = Err ValueError).
      { clear Cs. induction l as [|x l IHl]; [left; intros x []|]. destruct (Hl x (or_introl eq_refl)) as [Hx|Hx].
        - destruct IHl as [A|A]; [intros y Hy; apply Hl; right; auto| |].
          + left. intros y [<-|Hy]; eauto.
          + right. intros cur. cbn [dom_loop]. destruct (C31_dominant x Hx) as (t & -> & D). cbn [bind]. destruct (dominant_numbers _ _ D) as [->|[->| ->]]; apply A.
        - right. intros cur. cbn [dom_loop]. rewrite Hx. auto. }
      destruct Lp as [A|A]; [left|right; apply A]. intros x Hx. inversion Hx; subst; eauto; try discriminate Cs; noc.
    - intros l IH Hs. assert (Hl : forall x, In x l -> (forall y, leaf x y -> number y) \/ find_dominant x = Err ValueError).
      { intros x Hx. apply IH; auto. intros n H. apply (Hs n). econstructor; eauto. }
      rewrite find_dominant_tuple. clear IH Hs.
      assert (Cs : l = [] \/ match l with [] => Ok TFloat | _ => dom_loop l TBool end = dom_loop l TBool) by (destruct l; auto).
      destruct Cs as [->|Cs]; [left; intros x Hx; inversion Hx; subst; try (left; right; right; reflexivity); try contradiction; exfalso; match goal with A : forall k, _ [] <> _ k |- _ => apply (A []); reflexivity end|]. rewrite Cs.
      assert (Lp : (forall x, In x l -> forall y, leaf x y -> number y) \/ forall cur, dom_loop l cur = Err ValueError).
      { clear Cs. induction l as [|x l IHl]; [left; intros x []|]. destruct (Hl x (or_introl eq_refl)) as [Hx|Hx].
        - destruct IHl as [A|A]; [intros y Hy; apply Hl; right; auto| |].
          + left. intros y [<-|Hy]; eauto.
          + right. intros cur. cbn [dom_loop]. destruct (C31_dominant x Hx) as (t & -> & D). cbn [bind]. destruct (dominant_numbers _ _ D) as [->|[->| ->]]; apply A.
        - right. intros cur. cbn [dom_loop]. rewrite Hx. auto. }
      destruct Lp as [A|A]; [left|right; apply A]. intros x Hx. inversion Hx; subst; eauto; try discriminate Cs; noc.
    - intros v H1 H2 Hs. destruct (Dec v) as [H|[_ H]]; auto.
      + intros n ->. apply (Hs n). constructor; discriminate.
      + left. intros x Hx. inversion Hx; subst; auto; noc. }
  intros v Hs (x & Hx & Hn). destruct (Main v Hs) as [A|A]; auto. exfalso. apply Hn. auto.
Qed.
Example C31_example :
  find_dominant (VList [VTuple [VBool true; VInt 3]; VList [VInt 1]]) = Ok TInt /\
  find_dominant (VList [VInt 1; VTuple []]) = Ok TFloat /\
  find_dominant (VList [VBool true; VList [VOther 1]]) = Err ValueError.
Proof. repeat split. Qed.
(** Finding: an instance of a subclass of a number type (a numpy scalar) stops the scan: a float after it is ignored, and so is an
    object that is no number. *)
Theorem C31_subclass_refuted : ~ forall v, (exists x, leaf v x /\ ~ number x /\ forall n, x <> VSub n) -> exists e, find_dominant v = Err e.
Proof.
  intros H. destruct (H (VList [VSub 7; VOther 1])) as [e E]; [|discriminate]. exists (VOther 1). split; [|split; [|discriminate]].
  - apply (leaf_list _ (VOther 1)); [right; left; auto|constructor; discriminate].
  - intros [[[n ?]|[?|?]]|[[? ?]|[? ?]]]; discriminate.
Qed.

(** ** C30 *)
(** A scalar: neither sequence nor backend constant. *)
Definition scalar (v : nv) : Prop := match v with VBool _ | VInt _ | VFloat _ | VSub _ | VOther _ => True | _ => False end.
(** [rect v sh]: a rectangular nesting with extents [sh] (none of them zero). *)
Inductive rect : nv -> list nat -> Prop :=
| rect_scalar v : scalar v -> rect v []
| rect_range l : l <> [] -> rect (VRange l) [length l]
| rect_list l sh : l <> [] -> (forall x, In x l -> rect x sh) -> rect (VList l) (length l :: sh)
| rect_tuple l sh : l <> [] -> (forall x, In x l -> rect x sh) -> rect (VTuple l) (length l :: sh).
(** Ranges become lists, everything else is kept. *)
Inductive listed : nv -> nv -> Prop :=
| listed_scalar v : scalar v -> listed v v
| listed_range l : listed (VRange l) (VList (map VInt l))
| listed_list l l' : Forall2 listed l l' -> listed (VList l) (VList l')
| listed_tuple l l' : Forall2 listed l l' -> listed (VTuple l) (VTuple l').
(** The scalars in a value. *)
Inductive entry : nv -> nv -> Prop :=
| entry_scalar v : scalar v -> entry v v
| entry_range l z : In z l -> entry (VRange l) (VInt z)
| entry_list l x y : In x l -> entry x y -> entry (VList l) y
| entry_tuple l x y : In x l -> entry x y -> entry (VTuple l) y.
Definition entry_type_spec (v : nv) (t : ty) : Prop :=
  (t = TFloat /\ exists n, entry v (VFloat n)) \/
  (t = TInt /\ (exists z, entry v (VInt z)) /\ forall n, ~ entry v (VFloat n)) \/
  (t = TBool /\ (forall n, ~ entry v (VFloat n)) /\ forall z, ~ entry v (VInt z)).

Fixpoint process_loop (items : list nv) (sub : option (option (list nat))) (out : list nv) (dom : ty) : res (option (option (list nat)) * list nv * ty) :=
  match items with
  | [] => Ok (sub, out, dom)
  | x :: items =>
      let* r := process x in
      let '(sh, w, t) := r in
      match w with
      | VConst _ => Err AssertionError
      | _ => process_loop items (Some sh) (out ++ [w]) (dominate dom t)
      end
  end.
Definition container (mk : list nv -> nv) (l : list nv) : res (option (list nat) * nv * ty) :=
  if uniform l then
    let* r := process_loop l None [] TBool in
    let '(sub, out, dom) := r in
    match sub with None => Err NameError | Some sh => Ok (option_map (fun s => length l :: s) sh, mk out, dom) end
  else Err ValueError.
Lemma process_list l : process (VList l) = container VList l.
Proof. reflexivity. Qed.
Lemma process_tuple l : process (VTuple l) = container VTuple l.
Proof. reflexivity. Qed.

Lemma rect_len x sh : rect x sh -> item_len x = hd_error sh.
Proof. intros H. destruct H; cbn; auto. destruct v; cbn in *; auto; contradiction. Qed.
Lemma rect_uniform l sh : (forall x, In x l -> rect x sh) -> uniform l = true.
Proof.
  intros H. destruct l as [|x l]; auto. cbn. apply forallb_forall. intros y Hy. apply (proj2 (eqb_eq _ _)).
  rewrite (rect_len y sh), (rect_len x sh); auto; apply H; cbn; auto.
Qed.
Lemma listed_not_const v w b : listed v w -> w <> VConst b.
Proof. intros H. destruct H; try discriminate. destruct v; cbn in *; try discriminate; contradiction. Qed.
(** What one element contributes: for scalars their type, else the type by entries. *)
Definition elem_spec (v : nv) (t : ty) : Prop := (scalar v /\ t = type_of v) \/ entry_type_spec v t.
Definition run_spec (seen : list nv) (t : ty) : Prop :=
  (t = TFloat /\ exists v n, In v seen /\ entry v (VFloat n)) \/
  (t = TInt /\ (exists v z, In v seen /\ entry v (VInt z)) /\ forall v n, In v seen -> ~ entry v (VFloat n)) \/
  (t = TBool /\ (forall v n, In v seen -> ~ entry v (VFloat n)) /\ forall v z, In v seen -> ~ entry v (VInt z)).
Lemma elem_cases v t : elem_spec v t -> entry_type_spec v t \/ (exists n, t = TOther n /\ (forall n, ~ entry v (VFloat n)) /\ forall z, ~ entry v (VInt z)).
Proof.
  intros [[Hs ->]|H]; auto.
  assert (E : forall x, entry v x -> x = v). { intros x Hx. inversion Hx; subst; auto; contradiction. }
  destruct v; cbn in *; try contradiction.
  - left. right; right. split; auto. split; intros ? X; apply E in X; discriminate.
  - left. right; left. split; auto. split; [exists z; constructor; cbn; auto|]. intros ? X; apply E in X; discriminate.
  - left. left. split; auto. exists x. constructor. cbn. auto.
  - right. exists n. split; auto. split; intros ? X; apply E in X; discriminate.
  - right. exists n. split; auto. split; intros ? X; apply E in X; discriminate.
Qed.
Lemma run_step seen v dom t : run_spec seen dom -> elem_spec v t -> run_spec (seen ++ [v]) (dominate dom t).
Proof.
  assert (J : forall (Q : nv -> Prop), (forall u, In u seen -> Q u) -> Q v -> forall u, In u (seen ++ [v]) -> Q u).
  { intros Q H1 H2 u Hu. apply in_app_iff in Hu as [Hu|[<-|[]]]; auto. }
  assert (A : forall u, In u seen -> In u (seen ++ [v])) by (intros; apply in_app_iff; auto).
  assert (B : In v (seen ++ [v])) by (apply in_app_iff; right; left; auto).
  assert (JF : (forall u n, In u seen -> ~ entry u (VFloat n)) -> (forall n, ~ entry v (VFloat n)) -> forall u n, In u (seen ++ [v]) -> ~ entry u (VFloat n)).
  { intros H1 H2 u n. revert u. apply (J (fun u => ~ entry u (VFloat n))); auto. }
  assert (JI : (forall u n, In u seen -> ~ entry u (VInt n)) -> (forall n, ~ entry v (VInt n)) -> forall u n, In u (seen ++ [v]) -> ~ entry u (VInt n)).
  { intros H1 H2 u n. revert u. apply (J (fun u => ~ entry u (VInt n))); auto. }
  intros Hs He. destruct (elem_cases v t He) as [[[-> (n & Hn)]|[[-> [(z & Hz) Hn]]|[-> [Hn Hz]]]]|(k & -> & Hn & Hz)]; cbn [dominate].
  - left. split; auto. exists v, n. auto.
  - destruct Hs as [[-> (u & n & Hu & Hf)]|[[-> [(u & z' & Hu & Hi) Hf]]|[-> [Hf Hi]]]].
    + left. split; auto. exists u, n. auto.
    + right; left. split; auto. split; [exists v, z; auto|auto].
    + right; left. split; auto. split; [exists v, z; auto|auto].
  - destruct Hs as [[-> (u & n & Hu & Hf)]|[[-> [(u & z' & Hu & Hi) Hf]]|[-> [Hf Hi]]]].
    + left. split; auto. exists u, n. auto.
    + right; left. split; auto. split; [exists u, z'; auto|auto].
    + right; right. split; auto.
  - destruct Hs as [[-> (u & n & Hu & Hf)]|[[-> [(u & z' & Hu & Hi) Hf]]|[-> [Hf Hi]]]].
    + left. split; auto. exists u, n. auto.
    + right; left. split; auto. split; [exists u, z'; auto|auto].
    + right; right. split; auto.
Qed.
Lemma process_loop_ok sh l : forall seen out sub dom, (forall x, In x l -> exists w t, process x = Ok (Some sh, w, t) /\ listed x w /\ elem_spec x t) -> run_spec seen dom ->
  exists out' t, process_loop l sub out dom = Ok (match l with [] => sub | _ => Some (Some sh) end, out ++ out', t) /\ Forall2 listed l out' /\ run_spec (seen ++ l) t.
Proof.
  induction l as [|x l IH]; intros seen out sub dom H Hr; cbn [process_loop].
  - exists [], dom. rewrite !app_nil_r. auto.
  - destruct (H x (or_introl eq_refl)) as (w & t & E & L & T). rewrite E. cbn [bind].
    destruct (IH (seen ++ [x]) (out ++ [w]) (Some (Some sh)) (dominate dom t)) as (out' & t' & E' & F & R'); [intros y Hy; apply H; right; auto|apply run_step; auto|].
    exists (w :: out'), t'. split; [|split; [constructor; auto|rewrite <- app_assoc in R'; exact R']].
    rewrite <- app_assoc in E'. cbn [app] in E'.
    assert (G : match w with VConst _ => Err AssertionError | _ => process_loop l (Some (Some sh)) (out ++ [w]) (dominate dom t) end = process_loop l (Some (Some sh)) (out ++ [w]) (dominate dom t)).
    { destruct w; auto. exfalso. eapply listed_not_const; eauto. }
    rewrite G, E'. destruct l; auto.
Qed.

(** A rectangular nesting: its extents, its entries (ranges turned into lists), and the dominant type of the entries. *)
Theorem C30_rectangular : forall v sh, rect v sh -> exists w t, process v = Ok (Some sh, w, t) /\ listed v w /\
  (if match v with VList _ | VTuple _ | VRange _ => true | _ => false end then entry_type_spec v t else t = type_of v).
Proof.
  assert (Main : forall v sh, rect v sh -> exists w t, process v = Ok (Some sh, w, t) /\ listed v w /\
    (if match v with VList _ | VTuple _ | VRange _ => true | _ => false end then entry_type_spec v t else scalar v /\ t = type_of v)).
  { assert (Cont : forall mk l sh, (mk = VList \/ mk = VTuple) -> l <> [] -> (forall x, In x l -> rect x sh) ->
      (forall x, In x l -> exists w t, process x = Ok (Some sh, w, t) /\ listed x w /\ (if match x with VList _ | VTuple _ | VRange _ => true | _ => false end then entry_type_spec x t else scalar x /\ t = type_of x)) ->
      exists out t, container mk l = Ok (Some (length l :: sh), mk out, t) /\ Forall2 listed l out /\ run_spec l t).
    { intros mk l sh Hmk Hl Hr IH. unfold container. rewrite (rect_uniform l sh Hr).
      destruct (process_loop_ok sh l [] [] None TBool) as (out & t & E & F & R).
      { intros x Hx. destruct (IH x Hx) as (w & t & E & L & T). exists w, t. split; auto. split; auto. destruct x; cbn in T; (left; exact T) || (right; exact T). }
      { right; right. split; [auto|split; intros ? ? []]. }
      rewrite E. cbn [bind]. destruct l as [|x0 l0]; [congruence|]. exists out, t. cbn [option_map app]. auto. }
    induction 1 as [v Hs|l Hl|l sh Hl Hr IH|l sh Hl Hr IH].
    - exists v, (type_of v). destruct v; cbn in *; try contradiction; (split; [reflexivity|split; [constructor; cbn; auto|auto]]).
    - destruct l as [|z l]; [congruence|]. exists (VList (map VInt (z :: l))), TInt. split; [reflexivity|]. split; [constructor|].
      right; left. split; auto. split; [exists z; constructor; left; auto|]. intros n H. inversion H.
    - destruct (Cont VList l sh (or_introl eq_refl) Hl Hr IH) as (out & t & E & F & R). exists (VList out), t. rewrite process_list. split; [auto|]. split; [constructor; auto|].
      destruct R as [[-> (u & n & Hu & Hf)]|[[-> [(u & z' & Hu & Hi) Hf]]|[-> [Hf Hi]]]].
      + left. split; auto. exists n. econstructor; eauto.
      + right; left. split; auto. split; [exists z'; econstructor; eauto|]. intros n H. inversion H; subst; eapply Hf; eauto.
      + right; right. split; auto. split; intros n H; inversion H; subst; try contradiction; [eapply Hf; eauto|eapply Hi; eauto].
    - destruct (Cont VTuple l sh (or_intror eq_refl) Hl Hr IH) as (out & t & E & F & R). exists (VTuple out), t. rewrite process_tuple. split; [auto|]. split; [constructor; auto|].
      destruct R as [[-> (u & n & Hu & Hf)]|[[-> [(u & z' & Hu & Hi) Hf]]|[-> [Hf Hi]]]].
      + left. split; auto. exists n. econstructor; eauto.
      + right; left. split; auto. split; [exists z'; econstructor; eauto|]. intros n H. inversion H; subst; eapply Hf; eauto.
      + right; right. split; auto. split; intros n H; inversion H; subst; try contradiction; [eapply Hf; eauto|eapply Hi; eauto]. }
  intros v sh H. destruct (Main v sh H) as (w & t & E & L & T). exists w, t. split; auto. split; auto. destruct v; tauto.
Qed.
(** Two outermost items of different extent, or a scalar next to a sequence: rejected. *)
Definition extent (v : nv) : option nat := match v with VList l | VTuple l => Some (length l) | VRange l => Some (length l) | _ => None end.
Theorem C30_ragged_rejected : forall l x y, In x l -> In y l -> extent x <> extent y ->
  process (VList l) = Err ValueError /\ process (VTuple l) = Err ValueError.
Proof.
  intros l x y Hx Hy Hne. assert (Ex : forall v, extent v = item_len v) by (intros []; reflexivity). rewrite (Ex x), (Ex y) in Hne. assert (U : uniform l = false).
  { destruct l as [|a l]; [destruct Hx|]. cbn. destruct (forallb (fun y => eqb (item_len y) (item_len a)) l) eqn:F; auto. rewrite forallb_forall in F.
    assert (G : forall z, In z (a :: l) -> item_len z = item_len a). { intros z [<-|Hz]; auto. apply F in Hz. apply (proj1 (eqb_eq _ _)) in Hz. auto. }
    exfalso. apply Hne. exact (eq_trans (G x Hx) (eq_sym (G y Hy))). }
  rewrite process_list, process_tuple. unfold container. rewrite U. auto.
Qed.
Example C30_example :
  rect (VList [VTuple [VInt 1; VFloat 5]; VTuple [VBool true; VInt 2]]) [2; 2] /\
  process (VTuple [VRange [0; 1; 2]%Z; VList [VInt 3; VInt 4; VBool true]]) = Ok (Some [2; 3], VTuple [VList [VInt 0; VInt 1; VInt 2]; VList [VInt 3; VInt 4; VBool true]], TInt).
Proof.
  split; [|reflexivity]. apply (rect_list [VTuple [VInt 1; VFloat 5]; VTuple [VBool true; VInt 2]] [2]); [discriminate|]. intros x [<-|[<-|[]]].
  - apply (rect_tuple [VInt 1; VFloat 5] []); [discriminate|]. intros y [<-|[<-|[]]]; constructor; cbn; auto.
  - apply (rect_tuple [VBool true; VInt 2] []); [discriminate|]. intros y [<-|[<-|[]]]; constructor; cbn; auto.
Qed.
(** Finding: raggedness further inside is not noticed, the shape of the last item is reported. *)
Theorem C30_inner_ragged_refuted : ~ forall v sh w t, process v = Ok (Some sh, w, t) -> rect v sh.
Proof.
  intros H. set (v := VList [VList [VList [VInt 1]; VList [VInt 2]]; VList [VList [VInt 1; VInt 2]; VList [VInt 3; VInt 4]]]).
  assert (R : rect v [2; 2; 2]) by (eapply H; reflexivity). unfold v in R.
  inversion R as [| |? ? _ R'|]; subst. assert (R1 := R' _ (or_introl eq_refl)).
  inversion R1 as [| |? ? _ R1'|]; subst. assert (R2 := R1' _ (or_introl eq_refl)). inversion R2.
Qed.
(** Finding: an empty list is not accepted; the error is an unbound local variable. *)
Theorem C30_empty_refuted : ~ forall v, (exists sh w t, process v = Ok (Some sh, w, t)) \/ process v = Err ValueError \/ process v = Err AssertionError \/ (exists w t, process v = Ok (None, w, t)).
Proof.
  intros H. destruct (H (VList [])) as [(sh & w & t & E)|[E|[E|(w & t & E)]]]; discriminate.
Qed.

(** ** C36 *)
(** The nesting without the kinds of containers. *)
Inductive rose := Leaf (v : nv) | Node (l : list rose).
Fixpoint erase (v : nv) : rose := match v with VList l | VTuple l => Node (map erase l) | _ => Leaf v end.
(** [inside v x]: [x] is [v] or a part of it, at any depth. *)
Inductive inside : nv -> nv -> Prop :=
| inside_self v : inside v v
| inside_list l x y : In x l -> inside x y -> inside (VList l) y
| inside_tuple l x y : In x l -> inside x y -> inside (VTuple l) y.
Definition no_tuple (v : nv) : Prop := forall l, ~ inside v (VTuple l).
Definition no_list (v : nv) : Prop := forall l, ~ inside v (VList l).

(** Conversion keeps nesting and leaves, of every value, and doing it twice is doing it once. *)
Theorem C36_nesting_kept : forall v, erase (to_tuple v) = erase v /\ erase (to_list v) = erase v /\ to_tuple (to_tuple v) = to_tuple v /\ to_list (to_list v) = to_list v.
Proof.
  assert (T : forall v, to_tuple (to_tuple v) = to_tuple v) by (intros []; reflexivity).
  assert (L : forall v, to_list (to_list v) = to_list v) by (intros []; reflexivity).
  assert (E1 : forall v, erase (to_tuple v) = erase v).
  { apply (nv_all (fun v => erase (to_tuple v) = erase v)); auto.
    - intros l IH. cbn. f_equal. rewrite map_map. apply map_ext_in. auto.
    - intros v H1 H2. destruct v; auto; noc. }
  assert (E2 : forall v, erase (to_list v) = erase v).
  { apply (nv_all (fun v => erase (to_list v) = erase v)); auto.
    - intros l IH. cbn. f_equal. rewrite map_map. apply map_ext_in. auto.
    - intros v H1 H2. destruct v; auto; noc. }
  intros v. auto.
Qed.
(** On lists of lists, the result has no list at any depth, and converting back gives the original; likewise for tuples of tuples. *)
Theorem C36_round_trip : forall v,
  (no_tuple v -> no_list (to_tuple v) /\ to_list (to_tuple v) = v /\ to_tuple (to_list (to_tuple v)) = to_tuple v) /\
  (no_list v -> no_tuple (to_list v) /\ to_tuple (to_list v) = v /\ to_list (to_tuple (to_list v)) = to_list v).
Proof.
  assert (A : forall v, no_tuple v -> no_list (to_tuple v) /\ to_list (to_tuple v) = v).
  { apply (nv_all (fun v => no_tuple v -> no_list (to_tuple v) /\ to_list (to_tuple v) = v)).
    - intros l IH Hn. assert (Hx : forall x, In x l -> no_list (to_tuple x) /\ to_list (to_tuple x) = x).
      { intros x Hx. apply IH; auto. intros k Hk. apply (Hn k). econstructor; eauto. }
      split.
      + intros k Hk. cbn in Hk. inversion Hk as [|? ? ? Hi Hp|? ? ? Hi Hp]; subst. apply in_map_iff in Hi as (z & <- & Hz). apply (proj1 (Hx z Hz) k). auto.
      + cbn. f_equal. rewrite map_map. rewrite <- (map_id l) at 2. apply map_ext_in. intros x Hx'. apply Hx. auto.
    - intros l _ Hn. exfalso. apply (Hn l). constructor.
    - intros v H1 H2 _. assert (E : to_tuple v = v) by (destruct v; auto; noc). rewrite E. split; [|destruct v; auto; exfalso; eapply H2; eauto].
      intros k Hk. inversion Hk; subst; noc. }
  assert (B : forall v, no_list v -> no_tuple (to_list v) /\ to_tuple (to_list v) = v).
  { apply (nv_all (fun v => no_list v -> no_tuple (to_list v) /\ to_tuple (to_list v) = v)).
    - intros l _ Hn. exfalso. apply (Hn l). constructor.
    - intros l IH Hn. assert (Hx : forall x, In x l -> no_tuple (to_list x) /\ to_tuple (to_list x) = x).
      { intros x Hx. apply IH; auto. intros k Hk. apply (Hn k). econstructor; eauto. }
      split.
      + intros k Hk. cbn in Hk. inversion Hk as [|? ? ? Hi Hp|? ? ? Hi Hp]; subst. apply in_map_iff in Hi as (z & <- & Hz). apply (proj1 (Hx z Hz) k). auto.
      + cbn. f_equal. rewrite map_map. rewrite <- (map_id l) at 2. apply map_ext_in. intros x Hx'. apply Hx. auto.
    - intros v H1 H2 _. assert (E : to_list v = v) by (destruct v; auto; noc). rewrite E. split; [|destruct v; auto; exfalso; eapply H1; eauto].
      intros k Hk. inversion Hk; subst; noc. }
  intros v. split; intros H; [destruct (A v H) as [H1 H2]|destruct (B v H) as [H1 H2]]; split; auto; split; auto; rewrite H2; auto.
Qed.
Example C36_example : to_tuple (VList [VList [VInt 1; VInt 2]; VList []]) = VTuple [VTuple [VInt 1; VInt 2]; VTuple []] /\ no_tuple (VList [VList [VInt 1]]).
Proof.
  split; [reflexivity|]. intros l H. inversion H as [|? ? ? Hi Hp|]; subst. destruct Hi as [<-|[]].
  inversion Hp as [|? ? ? Hi' Hp'|]; subst. destruct Hi' as [<-|[]]. inversion Hp'.
Qed.
(** Finding: a tuple stops the conversion, a list inside it stays; and then converting there and back changes the value. *)
Theorem C36_mixed_refuted :
  (~ forall v, no_list (to_tuple v)) /\ (~ forall v, to_tuple (to_list (to_tuple v)) = to_tuple v).
Proof.
  split; intros H.
  - apply (H (VList [VTuple [VList []]]) []). cbn. apply (inside_tuple _ (VTuple [VList []])); [left; auto|]. apply (inside_tuple _ (VList [])); [left; auto|constructor].
  - specialize (H (VList [VTuple [VList []]])). discriminate.
Qed.

Print Assumptions C31_dominant.
Print Assumptions C31_raises.
Print Assumptions C31_subclass_refuted.
Print Assumptions C30_rectangular.
Print Assumptions C30_ragged_rejected.
Print Assumptions C30_inner_ragged_refuted.
Print Assumptions C30_empty_refuted.
Print Assumptions C36_nesting_kept.
Print Assumptions C36_round_trip.
Print Assumptions C36_mixed_refuted.
