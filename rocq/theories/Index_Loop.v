(** * Indexing: the loop over the entries *)
From Coq Require Import List Arith Lia Bool ZArith.
From Verif Require Import PyBase Uniadic_Model Uniadic_Proofs Uniadic_Props Bcast_Proofs Shape_Model Shape_Proofs Shape_Proofs2 Shape_Proofs3 Shape_Props Reduce_Model Reduce_Proofs Reduce_Proofs2
  Rule_Proofs Window_Proofs Arange_Model Arange_Proofs Reshape_Model Reshape_Proofs Concat_Model Concat_Proofs Index_Model Index_Spec Index_Pure Index_Arrange.
Import ListNotations.
Open Scope list_scope. Open Scope nat_scope. Open Scope shm_scope.

Notation slc := (nat * nat * (option Z * option Z * option Z))%type.
Definition full (a b c : option Z) : bool := match a, b, c with None, None, None => true | _, _, _ => false end.
Definition holds1 (rho : nat -> Z) (x : slc) : Prop := let '(o, i, (a, b, c)) := x in rho o = slice_size a b c (rho i) /\ (full a b c = true -> rho o = rho i).
Definition holds (rho : nat -> Z) (l : list slc) : Prop := Forall (holds1 rho) l.
Definition slc_live (u : ustate) (x : slc) : Prop := let '(o, i, _) := x in live u o /\ live u i.
Definition pview (l : loc) : pst := mkp (succ l) (rpos l) (rsuf l) (at_suf l) (length (opre l)) (length (osuf l)).
Definition shapes_of (es : list entry) : list (option (list Z)) := flat_map (fun e => match e with ETensor x => [x] | _ => [] end) es.
Definition nonneg (x : list Z) : Prop := Forall (fun d => 0 <= d)%Z x.

Record linv (u0 : ustate) (es : list entry) (l : loc) (u : ustate) : Prop := {
  l_grows : grows u0 u;
  l_live : forall x, In x (ipre l ++ isuf l ++ opre l ++ osuf l) -> live u x;
  l_slive : Forall (slc_live u) (slices l);
  l_suf : at_suf l = negb (forallb plain_entry es);
  l_pre : length (ipre l) = width (front es);
  l_end : length (isuf l) = width (back es);
  l_view : pview l = prun es p0;
  l_shapes : shapes l = shapes_of es;
  l_slices : forall o i a b c, In (o, i, (a, b, c)) (slices l) -> In (ESlice a b c) es /\ In i (ipre l ++ isuf l);
  l_sem : forall rho, sat u rho -> sat u0 rho /\ (holds rho (slices l) -> map rho (opre l) = kept (front es) (map rho (ipre l)) /\ map rho (osuf l) = kept (back es) (map rho (isuf l)));
  l_ext : forall rho p q, sat u0 rho -> length p = width (front es) -> length q = width (back es) -> nonneg p -> nonneg q ->
    exists rho', agrees u0 rho rho' /\ sat u rho' /\ map rho' (ipre l) = p /\ map rho' (isuf l) = q /\ holds rho' (slices l);
  l_all : forall a b c, In (ESlice a b c) es -> exists o i, In (o, i, (a, b, c)) (slices l) }.

Lemma front_snoc es e : front (es ++ [e]) = if forallb plain_entry es && plain_entry e then front es ++ [e] else front es.
Proof. induction es as [|[] es IH]; cbn [app front forallb plain_entry andb]; [destruct e; auto|..]; try (rewrite IH; destruct (forallb plain_entry es && plain_entry e); auto); auto. Qed.
Lemma back_snoc es e : back (es ++ [e]) = if forallb plain_entry es then [] else back es ++ [e].
Proof. induction es as [|[] es IH]; cbn [app back forallb plain_entry andb]; [destruct e; auto|..]; auto. Qed.
Lemma back_none es : forallb plain_entry es = true -> back es = [].
Proof. intros H. apply without_ellipsis. auto. Qed.
Lemma plain_snoc es e : forallb plain_entry (es ++ [e]) = forallb plain_entry es && plain_entry e.
Proof. rewrite forallb_app. cbn. rewrite andb_true_r. auto. Qed.
Lemma shapes_snoc es e : shapes_of (es ++ [e]) = shapes_of es ++ shapes_of [e].
Proof. unfold shapes_of. apply flat_map_app. Qed.
Lemma split_snoc {A} (p : list A) n k : length p = n + k -> exists a b, p = a ++ b /\ length a = n /\ length b = k.
Proof. intros H. exists (firstn n p), (skipn n p). rewrite firstn_skipn, firstn_length, skipn_length. split; [auto|lia]. Qed.
Lemma holds_agrees u rho rho' l : agrees u rho rho' -> Forall (slc_live u) l -> holds rho l -> holds rho' l.
Proof. intros A L H. unfold holds in *. rewrite Forall_forall in *. intros [[o i] [[a b] c]] Hx. specialize (L _ Hx). specialize (H _ Hx). cbn in *. rewrite !A by tauto. auto. Qed.
Lemma map_live u rho rho' l : agrees u rho rho' -> (forall x, In x l -> live u x) -> map rho' l = map rho l.
Proof. intros A L. apply map_ext_in. auto. Qed.

(** New dimensions for a plain entry *)
Lemma grow_side u0 es l u e ni no nsl u' l' : plain_entry e = true -> linv u0 es l u -> grows u u' -> (forall x, In x (ni ++ no) -> live u' x) -> Forall (slc_live u') nsl -> length ni = takes e ->
  (forall o i a b c, In (o, i, (a, b, c)) nsl -> e = ESlice a b c /\ In i ni) -> (forall a b c, e = ESlice a b c -> exists o i, In (o, i, (a, b, c)) nsl) ->
  (forall rho, sat u' rho -> sat u rho /\ (holds rho nsl -> map rho no = kept [e] (map rho ni))) ->
  (forall rho y, sat u rho -> length y = takes e -> nonneg y -> exists rho', agrees u rho rho' /\ sat u' rho' /\ map rho' ni = y /\ holds rho' nsl) ->
  at_suf l' = at_suf l -> ipre l' = (if at_suf l then ipre l else ipre l ++ ni) -> isuf l' = (if at_suf l then isuf l ++ ni else isuf l) ->
  opre l' = (if at_suf l then opre l else opre l ++ no) -> osuf l' = (if at_suf l then osuf l ++ no else osuf l) -> slices l' = slices l ++ nsl ->
  pview l' = pstep e (pview l) -> shapes l' = shapes l ++ shapes_of [e] -> linv u0 (es ++ [e]) l' u'.
Proof.
  intros Pe [G L SL SU IP IS V SH SS Sem Ext Al] G' L' SL' Ln Hs Hal Sem' Ext' Es Eip Eis Eop Eos Esl Ev Esh.
  assert (Lo : forall x, In x (ipre l ++ isuf l ++ opre l ++ osuf l) -> live u' x) by (intros x Hx; apply G'; auto).
  assert (Fs : forallb plain_entry (es ++ [e]) = forallb plain_entry es) by (rewrite plain_snoc, Pe; apply andb_true_r).
  assert (Ff : front (es ++ [e]) = if forallb plain_entry es then front es ++ [e] else front es) by (rewrite front_snoc, Pe, andb_true_r; auto).
  assert (Fb : back (es ++ [e]) = if forallb plain_entry es then back es else back es ++ [e]) by (rewrite back_snoc; destruct (forallb plain_entry es) eqn:E; [rewrite back_none; auto|auto]).
  assert (W1 : width [e] = takes e) by (unfold width; cbn; lia).
  assert (Nn : forall (rho : nat -> Z), length (map rho (ipre l)) = width (front es)) by (intros; rewrite map_length; auto).
  assert (Nn' : forall (rho : nat -> Z), length (map rho (isuf l)) = width (back es)) by (intros; rewrite map_length; auto).
  assert (Old : forall rho rho', agrees u rho rho' -> map rho' (ipre l) = map rho (ipre l) /\ map rho' (isuf l) = map rho (isuf l) /\ (holds rho (slices l) -> holds rho' (slices l))).
  { intros rho rho' A. split; [|split]; [apply (map_live u); auto; intros x Hx; apply L; rewrite !in_app_iff; auto|apply (map_live u); auto; intros x Hx; apply L; rewrite !in_app_iff; auto|apply (holds_agrees u); auto]. }
  constructor.
  - eapply grows_trans; eauto.
  - rewrite Eip, Eis, Eop, Eos. intros x Hx. destruct (at_suf l); rewrite !in_app_iff in Hx; assert (X : In x (ipre l ++ isuf l ++ opre l ++ osuf l) \/ In x (ni ++ no)) by (rewrite !in_app_iff; tauto); destruct X; auto.
  - rewrite Esl. apply Forall_app. split; [|auto]. eapply Forall_impl; [|exact SL]. intros [[o i] [[a b] c]] [H1 H2]. split; apply G'; auto.
  - rewrite Es, Fs. auto.
  - rewrite Eip, Ff, SU. destruct (forallb plain_entry es); cbn [negb]; [rewrite app_length, width_app, W1; lia|auto].
  - rewrite Eis, Fb, SU. destruct (forallb plain_entry es); cbn [negb]; [auto|rewrite app_length, width_app, W1; lia].
  - rewrite Ev, prun_app, V. reflexivity.
  - rewrite Esh, SH, shapes_snoc. auto.
  - rewrite Esl, Eip, Eis. intros o i a b c Hx. apply in_app_iff in Hx as [Hx|Hx]; [destruct (SS o i a b c Hx) as [H1 H2]|destruct (Hs o i a b c Hx) as [-> H2]]; (split; [rewrite in_app_iff; cbn; auto|]); destruct (at_suf l); rewrite !in_app_iff in *; tauto.
  - intros rho Hr. destruct (Sem' rho Hr) as [Hu K']. destruct (Sem rho Hu) as [H0 K]. split; [auto|]. rewrite Esl. intros H. apply Forall_app in H as [Ha Hb]. destruct (K Ha) as [K1 K2]. specialize (K' Hb). rewrite Eip, Eis, Eop, Eos, Ff, Fb, SU. destruct (forallb plain_entry es); cbn [negb]; rewrite !map_app, kept_snoc by auto; rewrite K1, K2, K'; auto.
  - intros rho p q Hr Lp Lq Np Nq. rewrite Ff in Lp. rewrite Fb in Lq. rewrite Eip, Eis, Esl, SU. destruct (forallb plain_entry es); cbn [negb].
    + rewrite width_app, W1 in Lp. destruct (split_snoc p _ _ Lp) as (p1 & p2 & -> & L1 & L2). apply Forall_app in Np as [Np1 Np2]. destruct (Ext rho p1 q Hr L1 Lq Np1 Nq) as (r1 & A1 & S1 & M1 & M2 & M3). destruct (Ext' r1 p2 S1 L2 Np2) as (r2 & A2 & S2 & M4 & M5). destruct (Old r1 r2 A2) as (O1 & O2 & O3).
      exists r2. split; [intros x Hx; rewrite A2 by (apply G; auto); apply A1; auto|]. split; [auto|]. rewrite map_app, O1, O2, M1, M2, M4. split; [auto|]. split; [auto|]. apply Forall_app. split; [apply O3; auto|auto].
    + rewrite width_app, W1 in Lq. destruct (split_snoc q _ _ Lq) as (p1 & p2 & -> & L1 & L2). apply Forall_app in Nq as [Np1 Np2]. destruct (Ext rho p p1 Hr Lp L1 Np Np1) as (r1 & A1 & S1 & M1 & M2 & M3). destruct (Ext' r1 p2 S1 L2 Np2) as (r2 & A2 & S2 & M4 & M5). destruct (Old r1 r2 A2) as (O1 & O2 & O3).
      exists r2. split; [intros x Hx; rewrite A2 by (apply G; auto); apply A1; auto|]. split; [auto|]. rewrite map_app, O1, O2, M1, M2, M4. split; [auto|]. split; [auto|]. apply Forall_app. split; [apply O3; auto|auto].
  - rewrite Esl. intros a b c Hx. apply in_app_iff in Hx as [Hx|[Hx|[]]]; [destruct (Al a b c Hx) as (o & i & H)|destruct (Hal a b c Hx) as (o & i & H)]; exists o, i; rewrite in_app_iff; auto.
Qed.
Lemma dim_ok v s : inv (us s) -> exists u', new_dim v s = (with_us s u', Ok (nu (us s))) /\ grows (us s) u' /\ live u' (nu (us s)) /\ ~ live (us s) (nu (us s)) /\ forall rho, sat u' rho <-> sat (us s) rho /\ fitsv v (rho (nu (us s))).
Proof. intros I. destruct (new_uniadic_ok (us s) v I) as (u' & E & H). exists u'. unfold new_dim, lift. rewrite E. auto. Qed.
Lemma upd_agrees u rho x (d : Z) : ~ live u x -> agrees u rho (upd rho x d).
Proof. intros N y Hy. apply upd_other. intros ->. contradiction. Qed.

(** The fields of the local variables *)
Definition same_lists (l l' : loc) : Prop := ipre l' = ipre l /\ isuf l' = isuf l /\ opre l' = opre l /\ osuf l' = osuf l /\ at_suf l' = at_suf l /\ slices l' = slices l /\ shapes l' = shapes l.
Lemma fld_enter l : same_lists l (enter l) /\ pview (enter l) = penter (pview l).
Proof. destruct l as [ip is op os sf [|[|[|n]]] rp rs sl sh]; (split; [repeat split|]); destruct sf; reflexivity. Qed.
Lemma fld_leave l : same_lists l (leave l) /\ pview (leave l) = pleave (pview l).
Proof. destruct l as [ip is op os sf [|[|[|n]]] rp rs sl sh]; (split; [repeat split|]); reflexivity. Qed.
Lemma fld_in u l : ipre (add_in u l) = (if at_suf l then ipre l else ipre l ++ [u]) /\ isuf (add_in u l) = (if at_suf l then isuf l ++ [u] else isuf l) /\ opre (add_in u l) = opre l /\ osuf (add_in u l) = osuf l /\
  at_suf (add_in u l) = at_suf l /\ slices (add_in u l) = slices l /\ shapes (add_in u l) = shapes l /\ pview (add_in u l) = pview l.
Proof. unfold add_in. destruct l as [ip is op os [|] c rp rs sl sh]; cbn; repeat split. Qed.
Lemma fld_out u l : ipre (add_out u l) = ipre l /\ isuf (add_out u l) = isuf l /\ opre (add_out u l) = (if at_suf l then opre l else opre l ++ [u]) /\ osuf (add_out u l) = (if at_suf l then osuf l ++ [u] else osuf l) /\
  at_suf (add_out u l) = at_suf l /\ slices (add_out u l) = slices l /\ shapes (add_out u l) = shapes l /\ pview (add_out u l) = pout (pview l).
Proof. unfold add_out, pview, pout. destruct l as [ip is op os [|] c rp rs sl sh]; cbn; repeat split; rewrite app_length, Nat.add_comm; reflexivity. Qed.
Lemma side_nil {A} (b : bool) (l : list A) : (if b then l else l ++ []) = l /\ (if b then l ++ [] else l) = l.
Proof. rewrite app_nil_r. destruct b; auto. Qed.

Lemma step_ok u0 es l s e : inv (us s) -> linv u0 es l (us s) -> exists u' l', step e l s = (with_us s u', Ok l') /\ linv u0 (es ++ [e]) l' u'.
Proof.
  intros I Li. assert (V := l_view _ _ _ _ Li).
  assert (Pe : forall x, pview (add_shape x l) = pview l) by reflexivity.
  destruct e as [i|y|a b c| |].
  - destruct (dim_ok None s I) as (u' & E & G & Lv & N & S). set (x := nu (us s)) in *. cbn [step]. unfold hbind, hret. rewrite E. exists u', (add_in x (enter l)). split; [auto|].
    apply (grow_side u0 es l (us s) (EInt i) [x] [] []); auto.
    + intros z [<-|[]]. auto.
    + intros o j a b c [].
    + discriminate.
    + intros rho Hr. split; [apply S; auto|]. intros _. reflexivity.
    + intros rho yy Hr Ly Nn. destruct yy as [|d [|]]; try discriminate. assert (A := upd_agrees (us s) rho x d N). exists (upd rho x d). split; [auto|]. split; [apply S; split; [eapply sat_agrees; eauto|exact Logic.I]|]. cbn. rewrite upd_same. split; [auto|constructor].
    + destruct (fld_enter l) as [(K1 & K2 & K3 & K4 & K5 & K6 & K7) K8]. destruct (fld_in x (enter l)) as (M1 & M2 & M3 & M4 & M5 & M6 & M7 & M8). rewrite ?M1, ?M2, ?M3, ?M4, ?M5, ?M6, ?M7, ?M8. rewrite ?K1, ?K2, ?K3, ?K4, ?K5, ?K6, ?K7, ?K8. rewrite ?app_nil_r. destruct (at_suf l); reflexivity.
    + destruct (fld_enter l) as [(K1 & K2 & K3 & K4 & K5 & K6 & K7) K8]. destruct (fld_in x (enter l)) as (M1 & M2 & M3 & M4 & M5 & M6 & M7 & M8). rewrite ?M1, ?M2, ?M3, ?M4, ?M5, ?M6, ?M7, ?M8. rewrite ?K1, ?K2, ?K3, ?K4, ?K5, ?K6, ?K7, ?K8. rewrite ?app_nil_r. destruct (at_suf l); reflexivity.
    + destruct (fld_enter l) as [(K1 & K2 & K3 & K4 & K5 & K6 & K7) K8]. destruct (fld_in x (enter l)) as (M1 & M2 & M3 & M4 & M5 & M6 & M7 & M8). rewrite ?M1, ?M2, ?M3, ?M4, ?M5, ?M6, ?M7, ?M8. rewrite ?K1, ?K2, ?K3, ?K4, ?K5, ?K6, ?K7, ?K8. rewrite ?app_nil_r. destruct (at_suf l); reflexivity.
    + destruct (fld_enter l) as [(K1 & K2 & K3 & K4 & K5 & K6 & K7) K8]. destruct (fld_in x (enter l)) as (M1 & M2 & M3 & M4 & M5 & M6 & M7 & M8). rewrite ?M1, ?M2, ?M3, ?M4, ?M5, ?M6, ?M7, ?M8. rewrite ?K1, ?K2, ?K3, ?K4, ?K5, ?K6, ?K7, ?K8. rewrite ?app_nil_r. destruct (at_suf l); reflexivity.
    + destruct (fld_enter l) as [(K1 & K2 & K3 & K4 & K5 & K6 & K7) K8]. destruct (fld_in x (enter l)) as (M1 & M2 & M3 & M4 & M5 & M6 & M7 & M8). rewrite ?M1, ?M2, ?M3, ?M4, ?M5, ?M6, ?M7, ?M8. rewrite ?K1, ?K2, ?K3, ?K4, ?K5, ?K6, ?K7, ?K8. rewrite ?app_nil_r. destruct (at_suf l); reflexivity.
    + destruct (fld_enter l) as [(K1 & K2 & K3 & K4 & K5 & K6 & K7) K8]. destruct (fld_in x (enter l)) as (M1 & M2 & M3 & M4 & M5 & M6 & M7 & M8). rewrite ?M1, ?M2, ?M3, ?M4, ?M5, ?M6, ?M7, ?M8. rewrite ?K1, ?K2, ?K3, ?K4, ?K5, ?K6, ?K7, ?K8. rewrite ?app_nil_r. destruct (at_suf l); reflexivity.
    + destruct (fld_enter l) as [(K1 & K2 & K3 & K4 & K5 & K6 & K7) K8]. destruct (fld_in x (enter l)) as (M1 & M2 & M3 & M4 & M5 & M6 & M7 & M8). rewrite ?M1, ?M2, ?M3, ?M4, ?M5, ?M6, ?M7, ?M8. rewrite ?K1, ?K2, ?K3, ?K4, ?K5, ?K6, ?K7, ?K8. rewrite ?app_nil_r. destruct (at_suf l); reflexivity.
    + destruct (fld_enter l) as [(K1 & K2 & K3 & K4 & K5 & K6 & K7) K8]. destruct (fld_in x (enter l)) as (M1 & M2 & M3 & M4 & M5 & M6 & M7 & M8). rewrite ?M1, ?M2, ?M3, ?M4, ?M5, ?M6, ?M7, ?M8. rewrite ?K1, ?K2, ?K3, ?K4, ?K5, ?K6, ?K7, ?K8. rewrite ?app_nil_r. destruct (at_suf l); reflexivity.
  - destruct (dim_ok None s I) as (u' & E & G & Lv & N & S). set (x := nu (us s)) in *. cbn [step]. unfold hbind, hret. rewrite E. exists u', (add_in x (add_shape y (enter l))). split; [auto|].
    apply (grow_side u0 es l (us s) (ETensor y) [x] [] []); auto.
    + intros z [<-|[]]. auto.
    + intros o j a b c [].
    + discriminate.
    + intros rho Hr. split; [apply S; auto|]. intros _. reflexivity.
    + intros rho yy Hr Ly Nn. destruct yy as [|d [|]]; try discriminate. assert (A := upd_agrees (us s) rho x d N). exists (upd rho x d). split; [auto|]. split; [apply S; split; [eapply sat_agrees; eauto|exact Logic.I]|]. cbn. rewrite upd_same. split; [auto|constructor].
    + destruct (fld_enter l) as [(K1 & K2 & K3 & K4 & K5 & K6 & K7) K8]. destruct (fld_in x (add_shape y (enter l))) as (M1 & M2 & M3 & M4 & M5 & M6 & M7 & M8). rewrite ?M1, ?M2, ?M3, ?M4, ?M5, ?M6, ?M7, ?M8; cbn [add_shape at_suf ipre isuf opre osuf slices]; try change (pview (add_shape y (enter l))) with (pview (enter l)); try change (shapes (add_shape y (enter l))) with (shapes (enter l) ++ [y]). rewrite ?K1, ?K2, ?K3, ?K4, ?K5, ?K6, ?K7, ?K8. rewrite ?app_nil_r. destruct (at_suf l); reflexivity.
    + destruct (fld_enter l) as [(K1 & K2 & K3 & K4 & K5 & K6 & K7) K8]. destruct (fld_in x (add_shape y (enter l))) as (M1 & M2 & M3 & M4 & M5 & M6 & M7 & M8). rewrite ?M1, ?M2, ?M3, ?M4, ?M5, ?M6, ?M7, ?M8; cbn [add_shape at_suf ipre isuf opre osuf slices]; try change (pview (add_shape y (enter l))) with (pview (enter l)); try change (shapes (add_shape y (enter l))) with (shapes (enter l) ++ [y]). rewrite ?K1, ?K2, ?K3, ?K4, ?K5, ?K6, ?K7, ?K8. rewrite ?app_nil_r. destruct (at_suf l); reflexivity.
    + destruct (fld_enter l) as [(K1 & K2 & K3 & K4 & K5 & K6 & K7) K8]. destruct (fld_in x (add_shape y (enter l))) as (M1 & M2 & M3 & M4 & M5 & M6 & M7 & M8). rewrite ?M1, ?M2, ?M3, ?M4, ?M5, ?M6, ?M7, ?M8; cbn [add_shape at_suf ipre isuf opre osuf slices]; try change (pview (add_shape y (enter l))) with (pview (enter l)); try change (shapes (add_shape y (enter l))) with (shapes (enter l) ++ [y]). rewrite ?K1, ?K2, ?K3, ?K4, ?K5, ?K6, ?K7, ?K8. rewrite ?app_nil_r. destruct (at_suf l); reflexivity.
    + destruct (fld_enter l) as [(K1 & K2 & K3 & K4 & K5 & K6 & K7) K8]. destruct (fld_in x (add_shape y (enter l))) as (M1 & M2 & M3 & M4 & M5 & M6 & M7 & M8). rewrite ?M1, ?M2, ?M3, ?M4, ?M5, ?M6, ?M7, ?M8; cbn [add_shape at_suf ipre isuf opre osuf slices]; try change (pview (add_shape y (enter l))) with (pview (enter l)); try change (shapes (add_shape y (enter l))) with (shapes (enter l) ++ [y]). rewrite ?K1, ?K2, ?K3, ?K4, ?K5, ?K6, ?K7, ?K8. rewrite ?app_nil_r. destruct (at_suf l); reflexivity.
    + destruct (fld_enter l) as [(K1 & K2 & K3 & K4 & K5 & K6 & K7) K8]. destruct (fld_in x (add_shape y (enter l))) as (M1 & M2 & M3 & M4 & M5 & M6 & M7 & M8). rewrite ?M1, ?M2, ?M3, ?M4, ?M5, ?M6, ?M7, ?M8; cbn [add_shape at_suf ipre isuf opre osuf slices]; try change (pview (add_shape y (enter l))) with (pview (enter l)); try change (shapes (add_shape y (enter l))) with (shapes (enter l) ++ [y]). rewrite ?K1, ?K2, ?K3, ?K4, ?K5, ?K6, ?K7, ?K8. rewrite ?app_nil_r. destruct (at_suf l); reflexivity.
    + destruct (fld_enter l) as [(K1 & K2 & K3 & K4 & K5 & K6 & K7) K8]. destruct (fld_in x (add_shape y (enter l))) as (M1 & M2 & M3 & M4 & M5 & M6 & M7 & M8). rewrite ?M1, ?M2, ?M3, ?M4, ?M5, ?M6, ?M7, ?M8; cbn [add_shape at_suf ipre isuf opre osuf slices]; try change (pview (add_shape y (enter l))) with (pview (enter l)); try change (shapes (add_shape y (enter l))) with (shapes (enter l) ++ [y]). rewrite ?K1, ?K2, ?K3, ?K4, ?K5, ?K6, ?K7, ?K8. rewrite ?app_nil_r. destruct (at_suf l); reflexivity.
    + destruct (fld_enter l) as [(K1 & K2 & K3 & K4 & K5 & K6 & K7) K8]. destruct (fld_in x (add_shape y (enter l))) as (M1 & M2 & M3 & M4 & M5 & M6 & M7 & M8). rewrite ?M1, ?M2, ?M3, ?M4, ?M5, ?M6, ?M7, ?M8; cbn [add_shape at_suf ipre isuf opre osuf slices]; try change (pview (add_shape y (enter l))) with (pview (enter l)); try change (shapes (add_shape y (enter l))) with (shapes (enter l) ++ [y]). rewrite ?K1, ?K2, ?K3, ?K4, ?K5, ?K6, ?K7, ?K8. rewrite ?app_nil_r. destruct (at_suf l); reflexivity.
    + destruct (fld_enter l) as [(K1 & K2 & K3 & K4 & K5 & K6 & K7) K8]. destruct (fld_in x (add_shape y (enter l))) as (M1 & M2 & M3 & M4 & M5 & M6 & M7 & M8). rewrite ?M1, ?M2, ?M3, ?M4, ?M5, ?M6, ?M7, ?M8; cbn [add_shape at_suf ipre isuf opre osuf slices]; try change (pview (add_shape y (enter l))) with (pview (enter l)); try change (shapes (add_shape y (enter l))) with (shapes (enter l) ++ [y]). rewrite ?K1, ?K2, ?K3, ?K4, ?K5, ?K6, ?K7, ?K8. rewrite ?app_nil_r. destruct (at_suf l); reflexivity.
  - destruct (dim_ok None s I) as (u1 & E1 & G1 & Lv1 & N1 & S1). set (o := nu (us s)) in *. assert (I1 : inv (us (with_us s u1))) by apply G1. destruct (dim_ok None (with_us s u1) I1) as (u2 & E2 & G2 & Lv2 & N2 & S2). cbn [us with_us] in *. set (i := nu u1) in *.
    cbn [step]. unfold hbind, hret. rewrite E1, E2. exists u2, (add_slice (o, i, (a, b, c)) (add_in i (add_out o (leave l)))). split; [auto|].
    assert (Lo : live u2 o) by (apply G2; auto). assert (Ne : o <> i) by (intros Eq; apply N2; rewrite <- Eq; auto).
    apply (grow_side u0 es l (us s) (ESlice a b c) [i] [o] [(o, i, (a, b, c))]); auto.
    + eapply grows_trans; eauto.
    + intros z [<-|[<-|[]]]; auto.
    + constructor; [cbn; auto|constructor].
    + intros o' i' a' b' c' [Eq|[]]. injection Eq as <- <- <- <- <-. split; [auto|left; auto].
    + intros a' b' c' Eq. injection Eq as <- <- <-. exists o, i. left. auto.
    + intros rho Hr. apply S2 in Hr as [Hr _]. split; [apply S1 in Hr; apply Hr|]. intros H. apply Forall_inv in H. cbn in H. cbn. f_equal. apply H.
    + intros rho yy Hr Ly Nn. destruct yy as [|d [|]]; try discriminate. apply Forall_inv in Nn. set (r1 := upd rho o (slice_size a b c d)). set (r2 := upd r1 i d). assert (A1 : agrees (us s) rho r1) by (apply upd_agrees; auto). assert (A2 : agrees u1 r1 r2) by (apply upd_agrees; auto).
      exists r2. split; [intros z Hz; rewrite A2 by (apply G1; auto); apply A1; auto|]. split; [apply S2; split; [eapply sat_agrees; [exact A2|]; apply S1; split; [eapply sat_agrees; eauto|exact Logic.I]|exact Logic.I]|].
      assert (Ei : r2 i = d) by apply upd_same. assert (Eo : r2 o = slice_size a b c d) by (unfold r2; rewrite upd_other by auto; apply upd_same). cbn [map]. rewrite Ei. split; [auto|]. constructor; [|constructor]. cbn. rewrite Ei, Eo. split; [auto|]. intros F. destruct a, b, c; try discriminate. apply slice_full. auto.
    + destruct (fld_leave l) as [(K1 & K2 & K3 & K4 & K5 & K6 & K7) K8]. destruct (fld_out o (leave l)) as (J1 & J2 & J3 & J4 & J5 & J6 & J7 & J8). destruct (fld_in i (add_out o (leave l))) as (M1 & M2 & M3 & M4 & M5 & M6 & M7 & M8). match goal with |- at_suf (add_slice ?z ?y) = _ => change (at_suf (add_slice z y)) with (at_suf y) end. rewrite ?M1, ?M2, ?M3, ?M4, ?M5, ?M6, ?M7, ?M8, ?J1, ?J2, ?J3, ?J4, ?J5, ?J6, ?J7, ?J8, ?K1, ?K2, ?K3, ?K4, ?K5, ?K6, ?K7, ?K8. rewrite ?app_nil_r. reflexivity.
    + destruct (fld_leave l) as [(K1 & K2 & K3 & K4 & K5 & K6 & K7) K8]. destruct (fld_out o (leave l)) as (J1 & J2 & J3 & J4 & J5 & J6 & J7 & J8). destruct (fld_in i (add_out o (leave l))) as (M1 & M2 & M3 & M4 & M5 & M6 & M7 & M8). match goal with |- ipre (add_slice ?z ?y) = _ => change (ipre (add_slice z y)) with (ipre y) end. rewrite ?M1, ?M2, ?M3, ?M4, ?M5, ?M6, ?M7, ?M8, ?J1, ?J2, ?J3, ?J4, ?J5, ?J6, ?J7, ?J8, ?K1, ?K2, ?K3, ?K4, ?K5, ?K6, ?K7, ?K8. rewrite ?app_nil_r. reflexivity.
    + destruct (fld_leave l) as [(K1 & K2 & K3 & K4 & K5 & K6 & K7) K8]. destruct (fld_out o (leave l)) as (J1 & J2 & J3 & J4 & J5 & J6 & J7 & J8). destruct (fld_in i (add_out o (leave l))) as (M1 & M2 & M3 & M4 & M5 & M6 & M7 & M8). match goal with |- isuf (add_slice ?z ?y) = _ => change (isuf (add_slice z y)) with (isuf y) end. rewrite ?M1, ?M2, ?M3, ?M4, ?M5, ?M6, ?M7, ?M8, ?J1, ?J2, ?J3, ?J4, ?J5, ?J6, ?J7, ?J8, ?K1, ?K2, ?K3, ?K4, ?K5, ?K6, ?K7, ?K8. rewrite ?app_nil_r. reflexivity.
    + destruct (fld_leave l) as [(K1 & K2 & K3 & K4 & K5 & K6 & K7) K8]. destruct (fld_out o (leave l)) as (J1 & J2 & J3 & J4 & J5 & J6 & J7 & J8). destruct (fld_in i (add_out o (leave l))) as (M1 & M2 & M3 & M4 & M5 & M6 & M7 & M8). match goal with |- opre (add_slice ?z ?y) = _ => change (opre (add_slice z y)) with (opre y) end. rewrite ?M1, ?M2, ?M3, ?M4, ?M5, ?M6, ?M7, ?M8, ?J1, ?J2, ?J3, ?J4, ?J5, ?J6, ?J7, ?J8, ?K1, ?K2, ?K3, ?K4, ?K5, ?K6, ?K7, ?K8. rewrite ?app_nil_r. reflexivity.
    + destruct (fld_leave l) as [(K1 & K2 & K3 & K4 & K5 & K6 & K7) K8]. destruct (fld_out o (leave l)) as (J1 & J2 & J3 & J4 & J5 & J6 & J7 & J8). destruct (fld_in i (add_out o (leave l))) as (M1 & M2 & M3 & M4 & M5 & M6 & M7 & M8). match goal with |- osuf (add_slice ?z ?y) = _ => change (osuf (add_slice z y)) with (osuf y) end. rewrite ?M1, ?M2, ?M3, ?M4, ?M5, ?M6, ?M7, ?M8, ?J1, ?J2, ?J3, ?J4, ?J5, ?J6, ?J7, ?J8, ?K1, ?K2, ?K3, ?K4, ?K5, ?K6, ?K7, ?K8. rewrite ?app_nil_r. reflexivity.
    + destruct (fld_leave l) as [(K1 & K2 & K3 & K4 & K5 & K6 & K7) K8]. destruct (fld_out o (leave l)) as (J1 & J2 & J3 & J4 & J5 & J6 & J7 & J8). destruct (fld_in i (add_out o (leave l))) as (M1 & M2 & M3 & M4 & M5 & M6 & M7 & M8). match goal with |- slices (add_slice ?z ?y) = _ => change (slices (add_slice z y)) with (slices y ++ [z]) end. rewrite ?M1, ?M2, ?M3, ?M4, ?M5, ?M6, ?M7, ?M8, ?J1, ?J2, ?J3, ?J4, ?J5, ?J6, ?J7, ?J8, ?K1, ?K2, ?K3, ?K4, ?K5, ?K6, ?K7, ?K8. rewrite ?app_nil_r. reflexivity.
    + destruct (fld_leave l) as [(K1 & K2 & K3 & K4 & K5 & K6 & K7) K8]. destruct (fld_out o (leave l)) as (J1 & J2 & J3 & J4 & J5 & J6 & J7 & J8). destruct (fld_in i (add_out o (leave l))) as (M1 & M2 & M3 & M4 & M5 & M6 & M7 & M8). match goal with |- pview (add_slice ?z ?y) = _ => change (pview (add_slice z y)) with (pview y) end. rewrite ?M1, ?M2, ?M3, ?M4, ?M5, ?M6, ?M7, ?M8, ?J1, ?J2, ?J3, ?J4, ?J5, ?J6, ?J7, ?J8, ?K1, ?K2, ?K3, ?K4, ?K5, ?K6, ?K7, ?K8. rewrite ?app_nil_r. reflexivity.
    + destruct (fld_leave l) as [(K1 & K2 & K3 & K4 & K5 & K6 & K7) K8]. destruct (fld_out o (leave l)) as (J1 & J2 & J3 & J4 & J5 & J6 & J7 & J8). destruct (fld_in i (add_out o (leave l))) as (M1 & M2 & M3 & M4 & M5 & M6 & M7 & M8). match goal with |- shapes (add_slice ?z ?y) = _ => change (shapes (add_slice z y)) with (shapes y) end. rewrite ?M1, ?M2, ?M3, ?M4, ?M5, ?M6, ?M7, ?M8, ?J1, ?J2, ?J3, ?J4, ?J5, ?J6, ?J7, ?J8, ?K1, ?K2, ?K3, ?K4, ?K5, ?K6, ?K7, ?K8. rewrite ?app_nil_r. reflexivity.
  - destruct (dim_ok (Some 1%Z) s I) as (u' & E & G & Lv & N & S). set (x := nu (us s)) in *. cbn [step]. unfold hbind, hret. rewrite E. exists u', (add_out x (leave l)). split; [auto|].
    apply (grow_side u0 es l (us s) ENew [] [x] []); auto.
    + intros z [<-|[]]. auto.
    + intros o j a b c [].
    + discriminate.
    + intros rho Hr. apply S in Hr as [Hr F]. split; [auto|]. intros _. cbn in *. congruence.
    + intros rho yy Hr Ly Nn. destruct yy; [|discriminate]. assert (A := upd_agrees (us s) rho x 1 N). exists (upd rho x 1%Z). split; [auto|]. split; [apply S; split; [eapply sat_agrees; eauto|cbn; rewrite upd_same; auto]|]. split; [auto|constructor].
    + destruct (fld_leave l) as [(K1 & K2 & K3 & K4 & K5 & K6 & K7) K8]. destruct (fld_out x (leave l)) as (M1 & M2 & M3 & M4 & M5 & M6 & M7 & M8). rewrite ?M1, ?M2, ?M3, ?M4, ?M5, ?M6, ?M7, ?M8, ?K1, ?K2, ?K3, ?K4, ?K5, ?K6, ?K7, ?K8. rewrite ?app_nil_r. destruct (at_suf l); reflexivity.
    + destruct (fld_leave l) as [(K1 & K2 & K3 & K4 & K5 & K6 & K7) K8]. destruct (fld_out x (leave l)) as (M1 & M2 & M3 & M4 & M5 & M6 & M7 & M8). rewrite ?M1, ?M2, ?M3, ?M4, ?M5, ?M6, ?M7, ?M8, ?K1, ?K2, ?K3, ?K4, ?K5, ?K6, ?K7, ?K8. rewrite ?app_nil_r. destruct (at_suf l); reflexivity.
    + destruct (fld_leave l) as [(K1 & K2 & K3 & K4 & K5 & K6 & K7) K8]. destruct (fld_out x (leave l)) as (M1 & M2 & M3 & M4 & M5 & M6 & M7 & M8). rewrite ?M1, ?M2, ?M3, ?M4, ?M5, ?M6, ?M7, ?M8, ?K1, ?K2, ?K3, ?K4, ?K5, ?K6, ?K7, ?K8. rewrite ?app_nil_r. destruct (at_suf l); reflexivity.
    + destruct (fld_leave l) as [(K1 & K2 & K3 & K4 & K5 & K6 & K7) K8]. destruct (fld_out x (leave l)) as (M1 & M2 & M3 & M4 & M5 & M6 & M7 & M8). rewrite ?M1, ?M2, ?M3, ?M4, ?M5, ?M6, ?M7, ?M8, ?K1, ?K2, ?K3, ?K4, ?K5, ?K6, ?K7, ?K8. rewrite ?app_nil_r. destruct (at_suf l); reflexivity.
    + destruct (fld_leave l) as [(K1 & K2 & K3 & K4 & K5 & K6 & K7) K8]. destruct (fld_out x (leave l)) as (M1 & M2 & M3 & M4 & M5 & M6 & M7 & M8). rewrite ?M1, ?M2, ?M3, ?M4, ?M5, ?M6, ?M7, ?M8, ?K1, ?K2, ?K3, ?K4, ?K5, ?K6, ?K7, ?K8. rewrite ?app_nil_r. destruct (at_suf l); reflexivity.
    + destruct (fld_leave l) as [(K1 & K2 & K3 & K4 & K5 & K6 & K7) K8]. destruct (fld_out x (leave l)) as (M1 & M2 & M3 & M4 & M5 & M6 & M7 & M8). rewrite ?M1, ?M2, ?M3, ?M4, ?M5, ?M6, ?M7, ?M8, ?K1, ?K2, ?K3, ?K4, ?K5, ?K6, ?K7, ?K8. rewrite ?app_nil_r. destruct (at_suf l); reflexivity.
    + destruct (fld_leave l) as [(K1 & K2 & K3 & K4 & K5 & K6 & K7) K8]. destruct (fld_out x (leave l)) as (M1 & M2 & M3 & M4 & M5 & M6 & M7 & M8). rewrite ?M1, ?M2, ?M3, ?M4, ?M5, ?M6, ?M7, ?M8, ?K1, ?K2, ?K3, ?K4, ?K5, ?K6, ?K7, ?K8. rewrite ?app_nil_r. destruct (at_suf l); reflexivity.
    + destruct (fld_leave l) as [(K1 & K2 & K3 & K4 & K5 & K6 & K7) K8]. destruct (fld_out x (leave l)) as (M1 & M2 & M3 & M4 & M5 & M6 & M7 & M8). rewrite ?M1, ?M2, ?M3, ?M4, ?M5, ?M6, ?M7, ?M8, ?K1, ?K2, ?K3, ?K4, ?K5, ?K6, ?K7, ?K8. rewrite ?app_nil_r. destruct (at_suf l); reflexivity.
  - cbn [step]. unfold hret. exists (us s), (to_suf (leave l)). split; [destruct s; reflexivity|].
    assert (Fl : ipre (to_suf (leave l)) = ipre l /\ isuf (to_suf (leave l)) = isuf l /\ opre (to_suf (leave l)) = opre l /\ osuf (to_suf (leave l)) = osuf l /\ slices (to_suf (leave l)) = slices l /\ shapes (to_suf (leave l)) = shapes l) by (unfold to_suf, leave, set_place; destruct (succ l =? 1); cbn; auto 8).
    destruct Fl as (F1 & F2 & F3 & F4 & F5 & F6). destruct Li as [G L SL SU IP IS _ SH SS Sem Ext Al].
    assert (Ef : front (es ++ [EEllipsis]) = front es) by (rewrite front_snoc; cbn; rewrite andb_false_r; auto).
    assert (Eb : forall x, kept (back (es ++ [EEllipsis])) x = kept (back es) x). { intros x. rewrite back_snoc. destruct (forallb plain_entry es) eqn:Ep; [rewrite back_none by auto; auto|]. generalize (back es) as r, x. induction r as [|[] r IH]; intros y; cbn [app kept]; rewrite ?IH; auto. }
    assert (Ew : width (back (es ++ [EEllipsis])) = width (back es)). { rewrite back_snoc. destruct (forallb plain_entry es) eqn:Ep; [rewrite back_none by auto; auto|]. rewrite width_app. unfold width at 2. cbn. lia. }
    constructor; rewrite ?F1, ?F2, ?F3, ?F4, ?F5, ?F6, ?Ef, ?Ew; auto.
    + rewrite plain_snoc. cbn. rewrite andb_false_r. reflexivity.
    + rewrite prun_app, <- V. unfold pview, to_suf, leave, set_place. cbn [prun fold_left pstep]. unfold pleave. destruct l as [ip is op os sf [|[|]] rp rs sl sh]; reflexivity.
    + rewrite shapes_snoc, SH. cbn. rewrite app_nil_r. auto.
    + intros o i a b c Hx. destruct (SS o i a b c Hx) as [H1 H2]. split; [rewrite in_app_iff; auto|auto].
    + intros rho Hr. rewrite Eb. apply Sem. auto.
    + intros a b c Hx. apply Al. apply in_app_iff in Hx as [Hx|[Hx|[]]]; [auto|discriminate].
Qed.
Lemma steps_ok u0 es' : forall es l s, inv (us s) -> linv u0 es l (us s) -> exists u' l', steps es' l s = (with_us s u', Ok l') /\ linv u0 (es ++ es') l' u'.
Proof.
  induction es' as [|e es' IH]; intros es l s I Li.
  - exists (us s), l. rewrite app_nil_r. split; [destruct s; reflexivity|auto].
  - destruct (step_ok u0 es l s e I Li) as (u1 & l1 & E1 & L1). assert (I1 : inv u1) by apply (l_grows _ _ _ _ L1). destruct (IH (es ++ [e]) l1 (with_us s u1) I1 L1) as (u2 & l2 & E2 & L2). exists u2, l2. cbn [steps]. unfold hbind. rewrite E1, E2. split; [destruct s; reflexivity|]. rewrite <- app_assoc in L2. auto.
Qed.
Lemma loop_ok es s : inv (us s) -> exists u' l', steps es loc0 s = (with_us s u', Ok l') /\ linv (us s) es l' u'.
Proof.
  intros I. apply (steps_ok (us s) es [] loc0 s I). split; try (cbn; auto; fail).
  - apply grows_refl. auto.
  - cbn. intros x [].
  - intros rho p q Hr Lp Lq _ _. destruct p; [|discriminate]. destruct q; [|discriminate]. exists rho. split; [intros x _; auto|]. split; [auto|]. split; [auto|]. split; [auto|constructor].
  - intros a b c [].
Qed.
