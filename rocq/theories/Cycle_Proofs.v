(** * Proofs about the cycle check over whole extensions *)
From Coq Require Import String Ascii List Arith Lia Bool Relations Permutation.
From Verif Require Import PyBase PyStrings Logical_Model Logical_Proofs.
Import ListNotations.
Open Scope string_scope. Open Scope list_scope. Open Scope nat_scope.
Implicit Types (dm : depmap) (specs : list conn) (ins outs : list (conn * list conn)).

(** The edge that the check follows. *)
Definition fp dm (a b : conn) : Prop := exists m l, dget a dm = Some (m, l) /\ find (fun c => dmem c dm) l = Some b.
Lemma fp_dep dm a b : fp dm a b -> dep dm a b.
Proof. intros (m & l & H & F). exists m, l. split; auto. apply find_some in F as [F _]. auto. Qed.

Lemma look_fp_terminates dm target : acyclic (fun a b => fp dm a b /\ b <> target) -> dwf dm ->
  forall fuel p specs,
  NoDup p -> incl p (dkeys dm) -> length dm <= fuel + length p ->
  (forall x c, In x p -> find (fun c => dmem c dm) specs = Some c -> c <> target -> clos_trans _ (fun a b => fp dm a b /\ b <> target) x c) ->
  exists b, look_for_cyclic_connection fuel dm target specs = Ok b.
Proof.
  intros Hac Hwf. induction fuel as [|f IH]; intros p specs Hnd Hi Hlen Hp; cbn [look_for_cyclic_connection];
    destruct (mem target specs) eqn:E; eauto; destruct (find _ specs) as [c|] eqn:F; eauto;
    assert (F' := F); apply find_produced in F' as [Hc [[m l] Hd]];
    assert (Hct : c <> target) by (intros ->; apply mem_not_In in E; auto);
    assert (Hcp : ~ In c p) by (intros Hin; exact (Hac c (Hp c c Hin eq_refl Hct)));
    assert (Hck : In c (dkeys dm)) by (apply dget_In in Hd; apply in_map_iff; exists (c,(m,l)); auto).
  - exfalso. assert (L : length (c :: p) <= length (dkeys dm)).
    { apply NoDup_incl_length; [constructor; auto|]. intros y [->|Hy]; auto. }
    cbn in L. unfold dkeys in L. rewrite map_length in L. lia.
  - rewrite Hd. cbn [snd]. apply (IH (c :: p)).
    + constructor; auto.
    + intros y [->|Hy]; auto.
    + cbn; lia.
    + intros x y [<-|Hx] Hy Hyt.
      * apply t_step. split; auto. exists m, l; auto.
      * eapply t_trans; [apply Hp; [exact Hx | reflexivity | exact Hct]|]. apply t_step. split; auto. exists m, l; auto.
Qed.

Lemma look_fp_complete fuel dm target : forall specs, look_for_cyclic_connection fuel dm target specs = Ok false ->
  ~ In target specs /\ forall s, find (fun c => dmem c dm) specs = Some s -> ~ reach (fp dm) s target.
Proof.
  induction fuel as [|f IH]; intros specs; cbn [look_for_cyclic_connection];
    destruct (mem target specs) eqn:E; try discriminate; apply mem_not_In in E;
    destruct (find _ specs) as [c|] eqn:F; try discriminate; try (intros _; split; [auto | discriminate]).
  apply find_produced in F as [Hc [[m l] Hd]]. rewrite Hd. cbn [snd]. intros H.
  split; auto. intros s Hs Hr. injection Hs as <-. apply IH in H as [Hn Hs'].
  apply clos_rt_rt1n in Hr. inversion Hr as [|y z (m' & l' & Hd' & F') Hr']; subst; [auto|].
  rewrite Hd in Hd'. injection Hd' as <- <-. apply (Hs' y F'). now apply clos_rt1n_rt.
Qed.

Lemma dmem_dset o v dm c : dmem c (dset o v dm) = eqb c o || dmem c dm.
Proof. unfold dmem. rewrite dget_dset. unfold eqb. destruct (eq_dec c o); auto. Qed.

Lemma find_dset o v dm l b : b <> o -> find (fun c => dmem c (dset o v dm)) l = Some b -> find (fun c => dmem c dm) l = Some b.
Proof.
  intros Hb. induction l as [|x l IH]; cbn [find]; [discriminate|]. rewrite dmem_dset.
  destruct (eqb x o) eqn:E.
  - cbn [orb]. intros H. injection H as ->. apply (proj1 (eqb_eq _ _)) in E. congruence.
  - cbn [orb]. destruct (dmem x dm); auto.
Qed.

Lemma fp_avoid dm o m l : dget o dm = None -> acyclic (fp dm) -> acyclic (fun a b => fp (dset o (m, l) dm) a b /\ b <> o).
Proof.
  intros Hf Hac a Ha.
  assert (G : forall x y, clos_trans _ (fun a b => fp (dset o (m, l) dm) a b /\ b <> o) x y ->
              y <> o /\ (x <> o -> clos_trans _ (fp dm) x y)).
  { induction 1 as [x y [(m' & l' & Hd & F) Hy]|x y z H1 [Hy IH1] H2 [Hz IH2]].
    - split; auto. intros Hx. apply t_step. rewrite dget_dset_other in Hd by congruence.
      exists m', l'. split; auto. eapply find_dset; eauto.
    - split; auto. intros Hx. eapply t_trans; eauto. }
  destruct (G a a Ha) as [Hne Hc]. exact (Hac a (Hc Hne)).
Qed.

Lemma fp_add dm o m l : dget o dm = None -> acyclic (fp dm) -> ~ In o l ->
  (forall s, find (fun c => dmem c (dset o (m, l) dm)) l = Some s -> ~ reach (fp (dset o (m, l) dm)) s o) ->
  acyclic (fp (dset o (m, l) dm)).
Proof.
  intros Hf Hac Ho Hs.
  (* every step out of [o] leads to a place from which [o] is not reached *)
  assert (G : forall x y, clos_trans _ (fp (dset o (m, l) dm)) x y ->
     clos_trans _ (fun a b => fp (dset o (m, l) dm) a b /\ b <> o) x y \/ (reach (fp (dset o (m, l) dm)) x o /\ reach (fp (dset o (m, l) dm)) o y)).
  { induction 1 as [x y H|x y z H1 IH1 H2 IH2].
    - destruct (Nat.eq_dec y o) as [->|Hy].
      + right. split; [apply rt_step; auto | apply rt_refl].
      + left. apply t_step; auto.
    - destruct IH1 as [IH1|[A B]].
      + destruct IH2 as [IH2|[A B]].
        * left. eapply t_trans; eauto.
        * right. split; auto. eapply rt_trans; [apply t_to_rt; exact H1 | exact A].
      + right. split; auto. eapply rt_trans; [exact B | apply t_to_rt; exact H2]. }
  intros a Ha. destruct (G a a Ha) as [C|[A B]].
  - exact (fp_avoid dm o m l Hf Hac a C).
  - assert (Hoo : clos_trans _ (fp (dset o (m, l) dm)) o o).
    { apply rt_cases in B. apply rt_cases in A. destruct B as [<-|B]; [exact Ha|].
      destruct A as [->|A]; [exact Ha|]. eapply t_trans; eauto. }
    apply t_rt_first in Hoo as (s & (m' & l' & Hd & F) & Hr). rewrite dget_dset_same in Hd. injection Hd as <- <-.
    exact (Hs s F Hr).
Qed.

Lemma length_dset_le {K V} `{EqDec K} (k : K) (v : V) d : length (dset k v d) <= S (length d).
Proof. induction d as [|[k' v'] d IH]; cbn; [lia|]. destruct (eq_dec k k'); cbn; lia. Qed.

(** ** Whole extensions *)
Definition dag_of ins outs : list dag_item :=
  map (fun p => DInput (fst p) (snd p)) ins ++ map (fun p => DOutput (fst p) (snd p)) outs.
(** Every input reaches only outputs of the same model which list it; outputs are not produced yet (the multi-write
    check of [_add_connection]) and distinct. *)
Definition fits dm ins outs : Prop :=
  NoDup (map fst outs) /\ (forall o l, In (o, l) outs -> dget o dm = None) /\
  (forall i os o, In (i, os) ins -> In o os -> exists l, In (o, l) outs /\ In i l).
Definition ext_dep dm outs (a b : conn) : Prop := dep dm a b \/ exists l, In (a, l) outs /\ In b l.

Lemma look_inputs dm outs : forall ins fuel, fits dm ins outs ->
  foldM (add_item fuel 0) (map (fun p => DInput (fst p) (snd p)) ins) dm = Ok dm \/
  (foldM (add_item fuel 0) (map (fun p => DInput (fst p) (snd p)) ins) dm = Err KeyError /\ exists i l, In (i, l) outs /\ In i l).
Proof.
  induction ins as [|[i os] ins IH]; intros fuel (Hn & Hf & Hc); cbn [map foldM]; auto.
  cbn [fst snd add_item].
  assert (F : find (fun c => dmem c dm) os = None).
  { destruct (find (fun c => dmem c dm) os) as [c|] eqn:F; auto. apply find_produced in F as [Hin [e He]].
    destruct (Hc i os c (or_introl eq_refl) Hin) as (l & Hl & _). rewrite (Hf c l Hl) in He. discriminate. }
  assert (E : look_for_cyclic_connection fuel dm i os = Ok (mem i os)).
  { destruct fuel; cbn [look_for_cyclic_connection]; rewrite F; destruct (mem i os); auto. }
  rewrite E. cbn [bind]. destruct (mem i os) eqn:M.
  - right. split; auto. apply mem_In in M. destruct (Hc i os i (or_introl eq_refl) M) as (l & Hl & Hi). eauto.
  - cbn [bind]. apply IH. split; auto. split; auto. intros i' os' o Hin. apply Hc. right; auto.
Qed.
Lemma add_item_input fuel m m' dm c os : add_item fuel m dm (DInput c os) = add_item fuel m' dm (DInput c os).
Proof. reflexivity. Qed.
Lemma look_inputs' fuel m dm ins outs : fits dm ins outs ->
  foldM (add_item fuel m) (map (fun p => DInput (fst p) (snd p)) ins) dm = Ok dm \/
  (foldM (add_item fuel m) (map (fun p => DInput (fst p) (snd p)) ins) dm = Err KeyError /\ exists i l, In (i, l) outs /\ In i l).
Proof.
  intros H. assert (E : forall d, foldM (add_item fuel m) (map (fun p => DInput (fst p) (snd p)) ins) d =
                     foldM (add_item fuel 0) (map (fun p => DInput (fst p) (snd p)) ins) d).
  { clear H. induction ins as [|p ins IH]; intros d; cbn [map foldM]; auto. rewrite (add_item_input fuel m 0).
    destruct (add_item fuel 0 d _); cbn [bind]; auto. }
  rewrite E. now apply look_inputs.
Qed.

Lemma foldM_app_local {A B} (f : A -> B -> res A) l1 l2 a :
  foldM f (l1 ++ l2) a = bind (foldM f l1 a) (foldM f l2).
Proof. revert a. induction l1 as [|x l1 IH]; intros a; cbn; auto. destruct (f a x); cbn; auto. Qed.

(** Invariant carried through the outputs of one extension. *)
Lemma outputs_step fuel m : forall outs d,
  NoDup (map fst outs) -> (forall o l, In (o, l) outs -> dget o d = None) -> dwf d -> acyclic (fp d) ->
  length d + length outs <= fuel ->
  let r := foldM (add_item fuel m) (map (fun p => DOutput (fst p) (snd p)) outs) d in
  (r = Err KeyError /\ exists a, clos_trans _ (ext_dep d outs) a a) \/
  (exists d', r = Ok d' /\ dwf d' /\ acyclic (fp d') /\ length d' <= length d + length outs /\
     forall a b, dep d' a b <-> ext_dep d outs a b).
Proof.
  induction outs as [|[o l] outs IH]; intros d Hn Hf Hwf Hac Hl; cbn [map foldM].
  - right. exists d. split; auto. split; auto. split; auto. split; [cbn; lia|]. intros a b. split; [left; auto|]. intros [H|(l & [] & _)]; auto.
  - cbn [fst snd add_item]. cbn [map fst] in Hn. inversion Hn as [|? ? Hno Hn']; subst.
    assert (Ho : dget o d = None) by (eapply Hf; left; auto).
    cbn [length] in Hl.
    destruct (look_fp_terminates (dset o (m, l) d) o (fp_avoid d o m l Ho Hac) (dwf_dset _ _ _ Hwf) fuel [] l) as [b Hb].
    { constructor. } { intros x []. } { assert (L := length_dset_le o (m, l) d). cbn. lia. } { intros x c []. }
    rewrite Hb. cbn [bind]. destruct b.
    + left. cbn [bind]. split; auto. apply look_sound in Hb as (s & Hs & Hr). exists o.
      assert (Hm : forall x y, dep (dset o (m, l) d) x y -> ext_dep d ((o, l) :: outs) x y).
      { intros x y H. apply (dep_dset d o m l x y Ho) in H as [H|[-> H]]; [left; auto | right; exists l; cbn; auto]. }
      assert (H1 : ext_dep d ((o, l) :: outs) o s) by (right; exists l; cbn; auto).
      apply (rt_mono _ _ _ _ Hm) in Hr. eapply t_rt; [apply t_step; exact H1 | exact Hr].
    + cbn [bind]. apply look_fp_complete in Hb as [Hnot Hs].
      assert (Hac' := fp_add d o m l Ho Hac Hnot Hs).
      destruct (IH (dset o (m, l) d)) as [[E (a & Ha)]|(d' & E & A & B & C & D)]; auto.
      { intros o' l' Hin. rewrite dget_dset_other; [eapply Hf; right; eauto|].
        intros ->. apply Hno. apply in_map_iff. exists (o, l'). auto. }
      { now apply dwf_dset. }
      { assert (L := length_dset_le o (m, l) d). lia. }
      * left. split; auto. exists a. eapply t_mono; [|exact Ha]. intros x y [H|(l' & Hin & H)].
        -- apply (dep_dset d o m l x y Ho) in H as [H|[-> H]]; [left; auto | right; exists l; cbn; auto].
        -- right. exists l'. cbn. auto.
      * right. exists d'. split; auto. split; auto. split; auto.
        split; [assert (L := length_dset_le o (m, l) d); cbn; lia|].
        intros x y. rewrite D. unfold ext_dep. rewrite (dep_dset d o m l x y Ho). split.
        -- intros [[H|[-> H]]|(l' & Hin & H)]; auto; right; [exists l; cbn; auto | exists l'; cbn; auto].
        -- intros [H|(l' & [Hin|Hin] & H)]; auto; [injection Hin as <- <-; auto | right; eauto].
Qed.

Lemma add_general fuel m dm ins outs : fits dm ins outs -> dwf dm -> acyclic (fp dm) -> length dm + length outs <= fuel ->
  let r := add_model_dag fuel m (dag_of ins outs) dm in
  (r = Err KeyError /\ exists a, clos_trans _ (ext_dep dm outs) a a) \/
  (exists dm', r = Ok dm' /\ dwf dm' /\ acyclic (fp dm') /\ length dm' <= length dm + length outs /\
     forall a b, dep dm' a b <-> ext_dep dm outs a b).
Proof.
  intros Hfit Hwf Hac Hl. unfold add_model_dag, dag_of. rewrite foldM_app_local.
  destruct (look_inputs' fuel m dm ins outs Hfit) as [E|[E (i & l & Hin & Hi)]]; rewrite E; cbn [bind].
  - destruct Hfit as (Hn & Hf & _). apply outputs_step; auto.
  - left. split; auto. exists i. apply t_step. right. eauto.
Qed.

(** Completeness along chains. *)
Lemma outputs_chain fuel m : forall outs d,
  NoDup (map fst outs) -> (forall o l, In (o, l) outs -> dget o d = None) -> dwf d -> acyclic (dep d) ->
  (forall c l, ((exists m, dget c d = Some (m, l)) \/ In (c, l) outs) ->
     forall a b, In a l -> In b l -> (dmem a d = true \/ In a (map fst outs)) -> (dmem b d = true \/ In b (map fst outs)) -> a = b) ->
  forall d', foldM (add_item fuel m) (map (fun p => DOutput (fst p) (snd p)) outs) d = Ok d' -> acyclic (dep d').
Proof.
  induction outs as [|[o l] outs IH]; intros d Hn Hf Hwf Hac Hone d'; cbn [map foldM].
  - intros E; injection E as <-; auto.
  - cbn [fst snd add_item]. cbn [map fst] in Hn. inversion Hn as [|? ? Hno Hn']; subst.
    assert (Ho : dget o d = None) by (eapply Hf; left; auto).
    destruct (look_for_cyclic_connection fuel (dset o (m, l) d) o l) as [b|e] eqn:Hb; cbn [bind]; [|discriminate].
    destruct b; cbn [bind]; [discriminate|].
    assert (P : forall x, dmem x (dset o (m, l) d) = true -> dmem x d = true \/ In x (map fst ((o, l) :: outs))).
    { intros x. rewrite dmem_dset. destruct (eqb x o) eqn:E; cbn [orb]; auto. apply (proj1 (eqb_eq _ _)) in E. subst. right. left. auto. }
    apply IH; auto.
    + intros o' l' Hin. rewrite dget_dset_other; [eapply Hf; right; eauto|].
      intros ->. apply Hno. apply in_map_iff. exists (o, l'). auto.
    + now apply dwf_dset.
    + apply acyclic_add; auto. intros s Hs.
      refine (look_complete fuel _ o _ l _ Hb s Hs).
      * intros c mm ll Hd a b Ha Hb' Pa Pb. apply (Hone c ll); auto.
        rewrite dget_dset in Hd. destruct (eq_dec c o) as [->|]; [injection Hd as <- <-; right; left; auto | left; eauto].
      * intros a b Ha Hb' Pa Pb. apply (Hone o l); auto. right; left; auto.
    + intros c ll Hc a b Ha Hb' Pa Pb. apply (Hone c ll); auto.
      * destruct Hc as [(mm & Hd)|Hc]; [|right; right; auto].
        rewrite dget_dset in Hd. destruct (eq_dec c o) as [->|]; [injection Hd as <- <-; right; left; auto | left; eauto].
      * destruct Pa as [Pa|Pa]; [auto | right; right; auto].
      * destruct Pb as [Pb|Pb]; [auto | right; right; auto].
Qed.
