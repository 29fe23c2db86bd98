(** * Proofs about training models: the graph *)
From Coq Require Import List Bool String Arith Lia Permutation.
From Verif Require Import PyBase Train_Model Train_Spec.
Import ListNotations.
Open Scope string_scope. Open Scope list_scope.
(** ** Tables *)
Section Tab.
Context {B : backend} {A : Type} (f : @op B -> list A -> A) (dft : A).
Lemma tab_snoc : forall g n, tab f dft (g ++ [n]) = tab f dft g ++ [f (fst n) (map (fun c => nth c (tab f dft g) dft) (snd n))].
Proof. intros g n; unfold tab; rewrite fold_left_app; reflexivity. Qed.
Lemma tab_length : forall g, List.length (tab f dft g) = List.length g.
Proof. intros g; induction g as [|n g IH] using rev_ind; [reflexivity|]. rewrite tab_snoc, !app_length, IH; reflexivity. Qed.
Lemma tab_app : forall h g c x, nth_error (tab f dft g) c = Some x -> nth_error (tab f dft (g ++ h)) c = Some x.
Proof.
  intros h; induction h as [|n h IH] using rev_ind; intros g c x H; [rewrite app_nil_r; exact H|].
  rewrite app_assoc, tab_snoc, nth_error_app1; [apply IH, H|]. apply nth_error_Some. rewrite (IH _ _ _ H); discriminate.
Qed.
Lemma tab_last : forall g n l, Forall2 (fun c x => nth_error (tab f dft g) c = Some x) (snd n) l -> nth_error (tab f dft (g ++ [n])) (List.length g) = Some (f (fst n) l).
Proof.
  intros g n l H. rewrite tab_snoc, nth_error_app2; rewrite tab_length; [|lia]. rewrite Nat.sub_diag; cbn. f_equal; f_equal.
  induction H as [|c x cs xs H1 H2 IH]; [reflexivity|]. cbn; rewrite IH; f_equal. apply nth_error_nth; exact H1.
Qed.
End Tab.
Section Graph.
Context {B : backend}.
Variable value_of : string -> V B.
Notation graph := (@graph B).
(** A connection, its value and the inputs it depends on *)
Definition at_ (g : graph) (c : nat) (v : V B) (d : list string) : Prop := nth_error (values value_of g) c = Some v /\ nth_error (deps g) c = Some d.
Definition le (g h : graph) : Prop := exists x, h = g ++ x.
Lemma le_refl : forall g, le g g. Proof. intros g; exists []; rewrite app_nil_r; reflexivity. Qed.
Lemma le_trans : forall g h k, le g h -> le h k -> le g k.
Proof. intros g h k [x ->] [y ->]; exists (x ++ y); rewrite app_assoc; reflexivity. Qed.
Lemma le_length : forall g h, le g h -> List.length g <= List.length h.
Proof. intros g h [x ->]; rewrite app_length; lia. Qed.
Lemma le_nth : forall g h c n, le g h -> nth_error g c = Some n -> nth_error h c = Some n.
Proof. intros g h c n [x ->] H. rewrite nth_error_app1; [exact H|]. apply nth_error_Some; congruence. Qed.
Lemma at_le : forall g h c v d, le g h -> at_ g c v d -> at_ h c v d.
Proof. intros g h c v d [x ->] [H1 H2]; split; unfold values, deps in *; apply tab_app; assumption. Qed.
Lemma at_lt : forall g c v d, at_ g c v d -> c < List.length g.
Proof. intros g c v d [H _]. assert (c < List.length (values value_of g)) as L by (apply nth_error_Some; congruence). unfold values in L; rewrite tab_length in L; exact L. Qed.
Lemma at_fun : forall g c v d v' d', at_ g c v d -> at_ g c v' d' -> v = v' /\ d = d'.
Proof. intros g c v d v' d' [H1 H2] [H3 H4]; split; congruence. Qed.
Definition ats (g : graph) (cs : list nat) (r : list (V B * list string)) : Prop := Forall2 (fun c x => at_ g c (fst x) (snd x)) cs r.
Lemma ats_le : forall g h cs r, le g h -> ats g cs r -> ats h cs r.
Proof. intros g h cs r L H; induction H; constructor; [eapply at_le; eassumption|assumption]. Qed.
Definition dep_of (o : @op B) (ds : list (list string)) : list string := match o with Input k => [k] | _ => List.concat ds end.
Lemma emit_at : forall g o cs r, ats g cs r -> forall h c, emit g o cs = (h, c) -> le g h /\ c = List.length g /\ List.length h = S (List.length g) /\ at_ h c (calc value_of o (map fst r)) (dep_of o (map snd r)).
Proof.
  intros g o cs r H h c E. injection E as <- <-. split; [exists [(o, cs)]; reflexivity|]. split; [reflexivity|]. split; [rewrite app_length; cbn; lia|]. split; unfold values, deps.
  - apply (tab_last (calc value_of) (one B) g (o, cs)). induction H as [|c' x cs' r' H1 H2 IH]; cbn; constructor; [exact (proj1 H1)|exact IH].
  - apply (tab_last (fun o ds => match o with Input k => [k] | _ => List.concat ds end) [] g (o, cs)). induction H as [|c' x cs' r' H1 H2 IH]; cbn; constructor; [exact (proj2 H1)|exact IH].
Qed.
Lemma ats_one : forall g c v d, at_ g c v d -> ats g [c] [(v, d)].
Proof. intros; repeat constructor; [apply H|apply H]. Qed.
Lemma emit1_at : forall g o c0 v0 d0, at_ g c0 v0 d0 -> (forall k, o <> Input k) -> forall h c, emit g o [c0] = (h, c) -> le g h /\ c = List.length g /\ at_ h c (calc value_of o [v0]) d0.
Proof.
  intros g o c0 v0 d0 H N h c E. destruct (emit_at g o [c0] [(v0, d0)] (ats_one _ _ _ _ H) h c E) as (L & L1 & _ & A). split; [exact L|]. split; [exact L1|].
  replace d0 with (dep_of o (map snd [(v0, d0)])) at 1; [exact A|]. destruct o; cbn; try (apply app_nil_r). exfalso; eapply N; reflexivity.
Qed.
Lemma emit_all_at : forall o, (forall k, o <> Input k) -> forall cs g r, ats g cs r -> forall h ds, emit_all g o cs = (h, ds) -> le g h /\ ats h ds (map (fun x => (calc value_of o [fst x], snd x)) r).
Proof.
  intros o N cs; induction cs as [|c cs IH]; intros g r H h ds E; cbn [emit_all emit_sizes emit_reductions] in E.
  - injection E as <- <-. inversion H; subst. split; [apply le_refl|constructor].
  - inversion H as [|a x b r' H1 H2]; subst. destruct x as [v d]. destruct (emit g o [c]) as [g1 d1] eqn:E1.
    destruct (emit1_at g o c v d H1 N _ _ E1) as (L1 & _ & A1). destruct (emit_all g1 o cs) as [g2 ds2] eqn:E2. injection E as <- <-.
    destruct (IH g1 r' (ats_le _ _ _ _ L1 H2) _ _ E2) as (L2 & A2). split; [eapply le_trans; eassumption|]. constructor; [eapply at_le; eassumption|exact A2].
Qed.
(** ** The reduction sizes *)
Definition sized (g : graph) (l : list (nat * Axis B)) (fs : list (F B)) : Prop := Forall2 (fun x f => exists v d, at_ g (fst x) v d /\ f = fsize B v (snd x)) l fs.
Lemma sized_le : forall g h l fs, le g h -> sized g l fs -> sized h l fs.
Proof. intros g h l fs L H; induction H as [|x f l fs (v & d & H1 & H2) H3 IH]; constructor; [|exact IH]. exists v, d; split; [eapply at_le; eassumption|exact H2]. Qed.
Lemma emit_sizes_at : forall l g fs, sized g l fs -> forall h cs, emit_sizes g l = (h, cs) -> le g h /\ exists r, ats h cs r /\ map (fun x => flat B (fst x)) r = map (fun f => [f]) fs.
Proof.
  intros l; induction l as [|[c ax] l IH]; intros g fs H h cs E; cbn [emit_all emit_sizes emit_reductions] in E.
  - injection E as <- <-. inversion H; subst. split; [apply le_refl|]. exists []; split; [constructor|reflexivity].
  - inversion H as [|a f b fs' (v & d & H1 & H2) H3]; subst. cbn in H1. destruct (emit g (Size ax) [c]) as [g1 c1] eqn:E1. destruct (emit g1 AtLeast1d [c1]) as [g2 c2] eqn:E2.
    destruct (emit1_at g (Size ax) c v d H1 ltac:(discriminate) _ _ E1) as (L1 & _ & A1). destruct (emit1_at g1 AtLeast1d c1 _ d A1 ltac:(discriminate) _ _ E2) as (L2 & _ & A2).
    destruct (emit_sizes g2 l) as [g3 ds] eqn:E3. injection E as <- <-. pose proof (le_trans _ _ _ L1 L2) as L12.
    destruct (IH g2 fs' (sized_le _ _ _ _ L12 H3) _ _ E3) as (L3 & r & R1 & R2). split; [eapply le_trans; eassumption|].
    exists ((atleast_1d B (size B v ax), d) :: r). split; [constructor; [eapply at_le; [exact L3|exact A2]|exact R1]|]. cbn. rewrite flat_atleast_1d, flat_size, R2; reflexivity.
Qed.
Lemma concat_single : forall {A} (l : list A), List.concat (map (fun a => [a]) l) = l.
Proof. intros A l; induction l; cbn; [reflexivity|]; rewrite IHl; reflexivity. Qed.
Lemma add_reduce_sizes_at : forall g l fs, sized g l fs -> forall h c, add_reduce_sizes g l = (h, c) -> le g h /\ exists v d, at_ h c v d /\ flat B v = [product fs].
Proof.
  intros g l fs H h c E. unfold add_reduce_sizes in E. destruct (emit_sizes g l) as [g1 cs] eqn:E1. destruct (emit_sizes_at l g fs H _ _ E1) as (L1 & r & R1 & R2).
  destruct cs as [|c0 cs].
  - inversion R1; subst. destruct fs; [|discriminate]. destruct (emit_at g1 One [] [] (Forall2_nil _) _ _ E) as (L2 & _ & _ & A). split; [eapply le_trans; eassumption|].
    eexists _, _; split; [exact A|]. cbn. apply flat_one.
  - destruct (emit g1 Concat (c0 :: cs)) as [g2 c2] eqn:E2. destruct (emit_at g1 Concat _ _ R1 _ _ E2) as (L2 & _ & _ & A2). destruct (emit1_at g2 Prod c2 _ _ A2 ltac:(discriminate) _ _ E) as (L3 & _ & A3).
    split; [eapply le_trans; [exact L1|eapply le_trans; eassumption]|]. eexists _, _; split; [exact A3|]. cbn. rewrite flat_prod, flat_concat, map_map, R2, concat_single. reflexivity.
Qed.
Lemma emit_reductions_at : forall ll g fss, Forall2 (sized g) ll fss -> forall h cs, emit_reductions g ll = (h, cs) -> le g h /\ exists r, ats h cs r /\ map (fun x => flat B (fst x)) r = map (fun fs => [product fs]) fss.
Proof.
  intros ll; induction ll as [|l ll IH]; intros g fss H h cs E; cbn [emit_all emit_sizes emit_reductions] in E.
  - injection E as <- <-. inversion H; subst. split; [apply le_refl|]. exists []; split; [constructor|reflexivity].
  - inversion H as [|a fs b fss' H1 H2]; subst. destruct (add_reduce_sizes g l) as [g1 c1] eqn:E1. destruct (add_reduce_sizes_at _ _ _ H1 _ _ E1) as (L1 & v & d & A1 & V1).
    destruct (emit_reductions g1 ll) as [g2 cs2] eqn:E2. injection E as <- <-.
    assert (Forall2 (sized g1) ll fss') as H2' by (clear -H2 L1; induction H2; constructor; [eapply sized_le; eassumption|assumption]).
    destruct (IH g1 fss' H2' _ _ E2) as (L2 & r & R1 & R2). split; [eapply le_trans; eassumption|].
    exists ((v, d) :: r); split; [constructor; [eapply at_le; [exact L2|exact A1]|exact R1]|]. cbn; rewrite V1, R2; reflexivity.
Qed.
(** ** Maps of lists, as lists of pairs *)
End Graph.
Section Pairs.
Context {K A : Type} `{EqDec K}.
Definition pairs (m : list (K * list A)) : list (K * A) := flat_map (fun x => map (pair (fst x)) (snd x)) m.
Lemma getl_cons : forall k k' l (m : list (K * list A)), getl ((k', l) :: m) k = if eqb k k' then l else getl m k.
Proof. intros k k' l m; unfold getl; cbn; unfold eqb. destruct (eq_dec k k'); reflexivity. Qed.
Lemma pairs_split : forall (m : list (K * list A)) k, dwf m -> exists rest, Permutation (pairs m) (map (pair k) (getl m k) ++ rest) /\ (forall l, Permutation (pairs (dset k l m)) (map (pair k) l ++ rest)) /\ (forall x, In x rest -> fst x <> k).
Proof.
  intros m k; induction m as [|[k' l'] m IH]; intros W.
  - exists []. split; [constructor|]. split; [intros l; cbn; apply Permutation_refl|intros x []].
  - unfold dwf, dkeys in W; cbn in W; apply NoDup_cons_iff in W as [W1 W2]. destruct (IH W2) as (rest & P1 & P2 & P3). rewrite getl_cons. cbn [dset]; unfold eqb. destruct (eq_dec k k') as [E|E].
    + subst k'. exists (pairs m). split; [apply Permutation_refl|]. split; [intros l; apply Permutation_refl|].
      intros x HI Hx. apply in_flat_map in HI as (y & Y1 & Y2). apply in_map_iff in Y2 as (a & <- & _). cbn in Hx. apply W1. rewrite <- Hx. apply in_map; exact Y1.
    + exists (map (pair k') l' ++ rest). split; [|split].
      * cbn. rewrite P1. rewrite !app_assoc. apply Permutation_app_tail, Permutation_app_comm.
      * intros l. cbn. rewrite (P2 l). rewrite !app_assoc. apply Permutation_app_tail, Permutation_app_comm.
      * intros x HI Hx. apply in_app_or in HI as [HI|HI]; [|exact (P3 x HI Hx)]. apply in_map_iff in HI as (a & <- & _). cbn in Hx; subst k'. apply E; reflexivity.
Qed.
Lemma pairs_snoc : forall (m : list (K * list A)) k a, dwf m -> Permutation (pairs (dset k (getl m k ++ [a]) m)) (pairs m ++ [(k, a)]).
Proof.
  intros m k a W. destruct (pairs_split m k W) as (rest & P1 & P2 & _). rewrite P2, P1, map_app. cbn. rewrite <- !app_assoc. apply Permutation_app_head. apply Permutation_cons_append.
Qed.
Lemma in_getl : forall (m : list (K * list A)) k a, dwf m -> (In a (getl m k) <-> In (k, a) (pairs m)).
Proof.
  intros m k a W. destruct (pairs_split m k W) as (rest & P1 & _ & P3). split; intros HI.
  - eapply Permutation_in; [symmetry; exact P1|]. apply in_or_app; left; apply in_map; exact HI.
  - eapply Permutation_in in HI; [|exact P1]. apply in_app_or in HI as [HI|HI]; [apply in_map_iff in HI as (b & E & HI); injection E as ->; exact HI|]. exfalso; exact (P3 _ HI eq_refl).
Qed.
Lemma dset_fresh : forall {C} k (v : C) (d : list (K * C)), ~ In k (dkeys d) -> dset k v d = d ++ [(k, v)].
Proof.
  intros C k v d; induction d as [|[k' v'] d IH]; intros N; [reflexivity|]. cbn. destruct (eq_dec k k') as [E|E].
  - subst. exfalso; apply N; left; reflexivity.
  - rewrite IH; [reflexivity|]. intros HI; apply N; right; exact HI.
Qed.
End Pairs.
