(** * Proofs about the dependency bookkeeping of logical models *)
From Coq Require Import String Ascii List Arith Lia Bool Relations Permutation.
From Verif Require Import PyBase PyStrings Logical_Model.
Import ListNotations.
Open Scope string_scope. Open Scope list_scope. Open Scope nat_scope.

Implicit Types (dm : depmap) (specs : list conn) (g : mgraph).

(** Specification: a produced connection depends directly on the connections its producer reads. *)
Definition dep (dm : depmap) (a b : conn) : Prop := exists m l, dget a dm = Some (m, l) /\ In b l.
Definition acyclic {A} (R : A -> A -> Prop) : Prop := forall a, ~ clos_trans A R a a.
Definition reach {A} (R : A -> A -> Prop) := clos_refl_trans A R.

Lemma rt_t {A} (R : A -> A -> Prop) a b c : clos_refl_trans A R a b -> clos_trans A R b c -> clos_trans A R a c.
Proof. intros H1; revert c; apply clos_rt_rt1n in H1; induction H1; intros; auto. eapply t_trans; [apply t_step; eauto | auto]. Qed.
Lemma t_rt {A} (R : A -> A -> Prop) a b c : clos_trans A R a b -> clos_refl_trans A R b c -> clos_trans A R a c.
Proof. intros H1 H2; revert a H1; apply clos_rt_rt1n in H2; induction H2; intros; auto. apply IHclos_refl_trans_1n. eapply t_trans; [eauto | apply t_step; auto]. Qed.
Lemma t_rt_first {A} (R : A -> A -> Prop) a b : clos_trans A R a b -> exists x, R a x /\ clos_refl_trans A R x b.
Proof.
  induction 1 as [a b H | a b c H1 [x [Hx Hr]] H2 _].
  - exists b. split; [exact H | apply rt_refl].
  - exists x. split; [exact Hx|]. eapply rt_trans; [exact Hr|]. apply clos_trans_t1n in H2.
    clear -H2. induction H2; [apply rt_step; auto | eapply rt_trans; [apply rt_step; eauto | auto]].
Qed.
Lemma t_to_rt {A} (R : A -> A -> Prop) a b : clos_trans A R a b -> clos_refl_trans A R a b.
Proof. induction 1; [apply rt_step; auto | eapply rt_trans; eauto]. Qed.
Lemma rt_cases {A} (R : A -> A -> Prop) a b : clos_refl_trans A R a b -> a = b \/ clos_trans A R a b.
Proof. induction 1 as [ | |a b c H1 [->|H1'] H2 [->|H2']]; auto using t_step. right. eapply t_trans; eauto. Qed.
Lemma rt_mono {A} (R S : A -> A -> Prop) a b : (forall x y, R x y -> S x y) -> clos_refl_trans A R a b -> clos_refl_trans A S a b.
Proof. intros H; induction 1; eauto using rt_step, rt_refl, rt_trans. Qed.
Lemma t_mono {A} (R S : A -> A -> Prop) a b : (forall x y, R x y -> S x y) -> clos_trans A R a b -> clos_trans A S a b.
Proof. intros H; induction 1; eauto using t_step, t_trans. Qed.

Lemma NoDup_app_iff_local {A} (l l' : list A) : NoDup l -> NoDup l' -> (forall x, In x l -> ~ In x l') -> NoDup (l ++ l').
Proof.
  induction 1 as [|x l Hx Hl IH]; cbn; auto. intros Hl' Hd. constructor.
  - rewrite in_app_iff. intros [H|H]; auto. exact (Hd x (or_introl eq_refl) H).
  - apply IH; auto.
Qed.

(** ** Cycle check *)
Lemma find_produced dm specs c : find (fun c => dmem c dm) specs = Some c ->
  In c specs /\ exists e, dget c dm = Some e.
Proof.
  intros H. apply find_some in H as [H1 H2]. split; auto. unfold dmem in H2. destruct (dget c dm) eqn:E; eauto; discriminate.
Qed.

Lemma look_sound fuel dm target specs :
  look_for_cyclic_connection fuel dm target specs = Ok true -> exists s, In s specs /\ reach (dep dm) s target.
Proof.
  revert specs. induction fuel as [|f IH]; intros specs; cbn [look_for_cyclic_connection].
  - destruct (mem target specs) eqn:E.
    + intros _. exists target. split; [now apply mem_In | apply rt_refl].
    + destruct (find _ specs); discriminate.
  - destruct (mem target specs) eqn:E.
    + intros _. exists target. split; [now apply mem_In | apply rt_refl].
    + destruct (find _ specs) as [c|] eqn:F; [|discriminate].
      apply find_produced in F as [Hc [[m l] Hd]]. rewrite Hd. cbn [snd]. intros H.
      apply IH in H as [s [Hs Hr]]. exists c. split; auto. eapply rt_trans; [apply rt_step|exact Hr].
      exists m, l. auto.
Qed.

Lemma look_terminates dm target : acyclic (fun a b => dep dm a b /\ b <> target) -> dwf dm ->
  forall fuel p specs,
  NoDup p -> incl p (dkeys dm) -> length dm <= fuel + length p ->
  (forall x y, In x p -> In y specs -> y <> target -> clos_trans _ (fun a b => dep dm a b /\ b <> target) x y) ->
  exists b, look_for_cyclic_connection fuel dm target specs = Ok b.
Proof.
  intros Hac Hwf. induction fuel as [|f IH]; intros p specs Hnd Hi Hlen Hp; cbn [look_for_cyclic_connection];
    destruct (mem target specs) eqn:E; eauto; destruct (find _ specs) as [c|] eqn:F; eauto;
    apply find_produced in F as [Hc [[m l] Hd]];
    assert (Hct : c <> target) by (intros ->; apply mem_not_In in E; auto);
    assert (Hcp : ~ In c p) by (intros Hin; exact (Hac c (Hp c c Hin Hc Hct)));
    assert (Hck : In c (dkeys dm)) by (apply dget_In in Hd; apply in_map_iff; exists (c,(m,l)); auto).
  - exfalso. assert (L : length (c :: p) <= length (dkeys dm)).
    { apply NoDup_incl_length; [constructor; auto|]. intros y [->|Hy]; auto. }
    cbn in L. unfold dkeys in L. rewrite map_length in L. lia.
  - rewrite Hd. cbn [snd]. apply (IH (c :: p)).
    + constructor; auto.
    + intros y [->|Hy]; auto.
    + cbn; lia.
    + intros x y [<-|Hx] Hy Hyt.
      * apply t_step. split; auto. exists m, l; auto.
      * eapply t_trans; [apply Hp; [exact Hx | exact Hc | exact Hct]|]. apply t_step. split; auto. exists m, l; auto.
Qed.

(** At most one connection of each dependency list is itself produced. *)
Definition one_produced (dm : depmap) (l : list conn) : Prop :=
  forall a b, In a l -> In b l -> dmem a dm = true -> dmem b dm = true -> a = b.

Lemma look_complete fuel dm target : (forall c m l, dget c dm = Some (m, l) -> one_produced dm l) ->
  forall specs, one_produced dm specs -> look_for_cyclic_connection fuel dm target specs = Ok false ->
  forall s, In s specs -> ~ reach (dep dm) s target.
Proof.
  intros Hone. induction fuel as [|f IH]; intros specs Hsp; cbn [look_for_cyclic_connection];
    destruct (mem target specs) eqn:E; try discriminate;
    apply mem_not_In in E;
    (destruct (find _ specs) as [c|] eqn:F; [|
      intros _ s Hs Hr; apply clos_rt_rt1n in Hr; inversion Hr as [|y z [m [l [Hd _]]] Hr']; subst; [auto|];
      eapply find_none in F; [|exact Hs]; unfold dmem in F; rewrite Hd in F; discriminate ]).
  - discriminate.
  - apply find_produced in F as [Hc [[m l] Hd]]. rewrite Hd. cbn [snd]. intros H s Hs Hr.
    apply clos_rt_rt1n in Hr. inversion Hr as [|y z [m' [l' [Hd' Hin]]] Hr']; subst; [auto|].
    assert (s = c). { apply Hsp; auto; unfold dmem; [rewrite Hd' | rewrite Hd]; auto. }
    subst s. rewrite Hd in Hd'. injection Hd' as <- <-. apply clos_rt1n_rt in Hr'.
    exact (IH l (Hone _ _ _ Hd) H _ Hin Hr').
Qed.

(** A map extended by one fresh producer. *)
Lemma dep_dset dm o m ins a b : dget o dm = None ->
  dep (dset o (m, ins) dm) a b <-> dep dm a b \/ (a = o /\ In b ins).
Proof.
  intros Hf. unfold dep. split.
  - intros (m' & l & H & Hin). rewrite dget_dset in H. destruct (eq_dec a o) as [->|Hne].
    + injection H as <- <-. auto.
    + left. eauto.
  - intros [(m' & l & H & Hin) | [-> Hin]].
    + exists m', l. split; auto. rewrite dget_dset. destruct (eq_dec a o) as [->|]; [congruence|auto].
    + exists m, ins. split; auto. rewrite dget_dset. destruct (eq_dec o o); [auto|congruence].
Qed.
Lemma cycle_through_new {A} (R : A -> A -> Prop) (o : A) (P : A -> Prop) :
  acyclic R -> forall a b, clos_trans A (fun x y => R x y \/ (x = o /\ P y)) a b ->
  clos_trans A R a b \/ (clos_refl_trans A R a o /\ exists y, P y /\ clos_refl_trans A (fun x y => R x y \/ (x = o /\ P y)) y b).
Proof.
  intros Hac. induction 1 as [a b [H|[-> H]]|a b c H1 IH1 H2 IH2].
  - left. apply t_step; auto.
  - right. split; [apply rt_refl|]. exists b. split; auto. apply rt_refl.
  - destruct IH1 as [IH1|[IH1 (y & Hy & Hr)]].
    + destruct IH2 as [IH2|[IH2 Hy]].
      * left. eapply t_trans; eauto.
      * right. split; [eapply rt_trans; [apply t_to_rt; eauto | auto] | auto].
    + right. split; auto. exists y. split; auto. eapply rt_trans; [exact Hr|]. apply t_to_rt. exact H2.
Qed.

(** Acyclicity is preserved by a fresh producer none of whose inputs leads back to it. *)
Lemma acyclic_add dm o m ins : dget o dm = None -> acyclic (dep dm) ->
  (forall s, In s ins -> ~ reach (dep (dset o (m, ins) dm)) s o) -> acyclic (dep (dset o (m, ins) dm)).
Proof.
  intros Hf Hac Hno a Ha.
  assert (Ha' : clos_trans _ (fun x y => dep dm x y \/ (x = o /\ In y ins)) a a).
  { revert Ha. apply t_mono. intros x y. apply dep_dset; auto. }
  apply (cycle_through_new _ o (fun y => In y ins) Hac) in Ha' as [Ha'|[Hao (y & Hy & Hr)]].
  - exact (Hac a Ha').
  - apply (Hno y Hy). eapply rt_trans.
    + eapply rt_mono; [|exact Hr]. intros u v H. apply dep_dset; auto.
    + eapply rt_mono; [|exact Hao]. intros u v H. apply dep_dset; auto.
Qed.
Lemma acyclic_add_inv dm o m ins : dget o dm = None -> acyclic (dep (dset o (m, ins) dm)) ->
  forall s, In s ins -> ~ reach (dep (dset o (m, ins) dm)) s o.
Proof.
  intros Hf Hac s Hs Hr. apply (Hac o). apply rt_cases in Hr.
  assert (clos_trans _ (dep (dset o (m, ins) dm)) o s) by (apply t_step; apply dep_dset; auto).
  destruct Hr as [->|Hr]; auto. eapply t_trans; eauto.
Qed.
(** Without the edges into the fresh connection the map is still acyclic. *)
Lemma acyclic_avoid dm o m ins : dget o dm = None -> acyclic (dep dm) ->
  acyclic (fun a b => dep (dset o (m, ins) dm) a b /\ b <> o).
Proof.
  intros Hf Hac a Ha.
  assert (G : forall x y, clos_trans _ (fun a b => dep (dset o (m, ins) dm) a b /\ b <> o) x y ->
              y <> o /\ (x <> o -> clos_trans _ (dep dm) x y)).
  { induction 1 as [x y [H Hy]|x y z H1 [Hy IH1] H2 [Hz IH2]].
    - split; auto. intros Hx. apply dep_dset in H as [H|[? _]]; auto; [apply t_step; auto | congruence].
    - split; auto. intros Hx. eapply t_trans; eauto. }
  destruct (G a a Ha) as [Hne Hc]. exact (Hac a (Hc Hne)).
Qed.

Lemma look_ok_ext dm o m ins fuel specs : dget o dm = None -> dwf dm -> acyclic (dep dm) -> length dm < fuel ->
  exists b, look_for_cyclic_connection fuel (dset o (m, ins) dm) o specs = Ok b.
Proof.
  intros Hf Hwf Hac Hl. apply (look_terminates _ _ (acyclic_avoid dm o m ins Hf Hac)) with (p := []).
  - now apply dwf_dset.
  - constructor.
  - intros x [].
  - assert (length (dset o (m, ins) dm) <= S (length dm)).
    { clear. induction dm as [|[k v] d IH]; cbn; [lia|]. destruct (eq_dec o k); cbn; lia. }
    cbn; lia.
  - intros x y [].
Qed.

(** ** Topological order *)
Definition edge (g : mgraph) (a b : model) : Prop := In b (children g a).

Definition unvisited (g : mgraph) (vis : list model) : list model := filter (fun k => negb (mem k vis)) (dkeys g).
Lemma unvisited_mono g v v' : incl v v' -> length (unvisited g v') <= length (unvisited g v).
Proof.
  intros Hi. unfold unvisited. induction (dkeys g) as [|k r IH]; cbn; auto.
  destruct (mem k v') eqn:E'; destruct (mem k v) eqn:E; cbn; try lia.
  apply mem_In in E. apply Hi in E. apply mem_In in E. congruence.
Qed.
Lemma unvisited_add g v n : In n (dkeys g) -> ~ In n v -> length (unvisited g (n :: v)) < length (unvisited g v).
Proof.
  intros Hin Hn. unfold unvisited. induction (dkeys g) as [|k r IH]; [destruct Hin|].
  assert (Hm : forall r, length (filter (fun k0 : model => negb (mem k0 (n :: v))) r) <= length (filter (fun k0 : model => negb (mem k0 v)) r)).
  { clear. induction r as [|k r IH]; cbn [filter]; auto. destruct (mem k v) eqn:E; cbn [negb].
    - assert (mem k (n :: v) = true) as -> by (apply mem_In; right; now apply mem_In). cbn [negb length]. auto.
    - destruct (mem k (n :: v)); cbn [negb length]; lia. }
  cbn [filter]. destruct (Nat.eq_dec k n) as [->|Hne].
  - assert (mem n (n :: v) = true) as -> by (apply mem_In; left; auto).
    assert (mem n v = false) as -> by (now apply mem_not_In). cbn [negb length]. specialize (Hm r). lia.
  - destruct Hin as [?|Hin]; [congruence|]. specialize (IH Hin).
    destruct (mem k v) eqn:E; cbn [negb].
    + assert (mem k (n :: v) = true) as -> by (apply mem_In; right; now apply mem_In). cbn [negb length]. auto.
    + destruct (mem k (n :: v)); cbn [negb length]; lia.
Qed.

(** Children come earlier, or the child leads back to the model. *)
Definition good (g : mgraph) (ord : list model) : Prop :=
  forall l1 x l2, ord = l1 ++ x :: l2 -> forall c, edge g x c -> In c l1 \/ reach (edge g) c x.
Lemma good_nil g : good g [].
Proof. intros [|] x l2 H; discriminate. Qed.
Lemma good_app g ord n : good g ord -> (forall c, edge g n c -> In c ord \/ reach (edge g) c n) -> good g (ord ++ [n]).
Proof.
  intros Hg Hn l1 x l2 E c Hc.
  destruct l2 as [|y l2 _] using rev_ind.
  - apply app_inj_tail in E as [-> ->]. auto.
  - rewrite app_comm_cons, app_assoc in E. apply app_inj_tail in E as [E ->]. eapply Hg; eauto.
Qed.

Section Dfs.
  Variable g : mgraph.
  Hypothesis closed : forall a b, edge g a b -> In b (dkeys g).

  Definition post (root : model -> Prop) (st st' : list model * list model) : Prop :=
    exists new, fst st' = fst st ++ new /\ NoDup new /\
      (forall x, In x (snd st') <-> In x (snd st) \/ In x new) /\
      (forall x, In x new -> ~ In x (snd st)) /\
      (forall x, In x new -> exists r, root r /\ reach (edge g) r x) /\
      (forall x c, In x new -> edge g x c -> In c (snd st')) /\
      good g (fst st').

  Lemma post_refl root st : good g (fst st) -> post root st st.
  Proof.
    intros H. exists []. rewrite app_nil_r. split; [auto|]. split; [constructor|]. split; [cbn; tauto|].
    split; [intros x []|]. split; [intros x []|]. split; [intros x c []|]. auto.
  Qed.

  Lemma post_trans (root : model -> Prop) st st1 st2 : post root st st1 -> post root st1 st2 -> post root st st2.
  Proof.
    intros (n1 & F1 & N1 & V1 & D1 & R1 & C1 & G1) (n2 & F2 & N2 & V2 & D2 & R2 & C2 & G2).
    exists (n1 ++ n2). split; [rewrite F2, F1, app_assoc; auto|].
    split; [|split; [|split; [|split; [|split; [|exact G2]]]]].
    - apply NoDup_app_iff_local; auto. intros x H1 H2. apply (D2 x H2). apply V1. auto.
    - intros x. rewrite V2, V1, in_app_iff. tauto.
    - intros x Hx Hs. apply in_app_or in Hx as [Hx|Hx]; [exact (D1 x Hx Hs)|]. apply (D2 x Hx). apply V1. auto.
    - intros x Hx. apply in_app_or in Hx as [Hx|Hx]; auto.
    - intros x c Hx Hc. apply in_app_or in Hx as [Hx|Hx].
      + apply V2. left. eauto.
      + eauto.
  Qed.

  (** Ancestors on the recursion stack lead to the node being visited. *)
  Definition pre (node : model -> Prop) (st : list model * list model) : Prop :=
    good g (fst st) /\ (forall v, In v (snd st) -> In v (fst st) \/ (forall n, node n -> reach (edge g) v n)).

  Lemma dfs_fold f
    (IH : forall st node, In node (dkeys g) -> ~ In node (snd st) -> length (unvisited g (snd st)) <= f ->
          pre (eq node) st -> exists st', reverse_dfs f g st node = Ok st' /\ post (eq node) st st' /\ In node (snd st')) :
    forall (n : model) cs st, (forall c, In c cs -> edge g n c) -> length (unvisited g (snd st)) <= f ->
      pre (edge g n) st -> 
      exists st', foldM (fun (st : list model * list model) child =>
                          if mem child (snd st) then Ok st else reverse_dfs f g st child) cs st = Ok st' /\
                  post (edge g n) st st' /\ (forall c, In c cs -> In c (snd st')).
  Proof.
    intros n. induction cs as [|c cs IHc]; intros st Hcs Hlen [Hg Hpre]; cbn [foldM].
    - exists st. split; auto. split; [apply post_refl; auto | intros c []].
    - assert (Hc : edge g n c) by (apply Hcs; left; auto).
      assert (S1 : exists st1, (if mem c (snd st) then Ok st else reverse_dfs f g st c) = Ok st1 /\ post (edge g n) st st1 /\ In c (snd st1)).
      { destruct (mem c (snd st)) eqn:E.
        - exists st. split; auto. split; [apply post_refl; auto | now apply mem_In].
        - destruct (IH st c) as (st1 & E1 & P1 & I1).
          + eapply closed; eauto.
          + now apply mem_not_In.
          + exact Hlen.
          + split; auto. intros v Hv. destruct (Hpre v Hv) as [H|H]; auto. right. intros m <-. auto.
          + exists st1. split; auto. split; auto.
            destruct P1 as (new & F & N & V & D & R & C & G). exists new. repeat (split; [assumption|]). split; auto.
            intros x Hx. destruct (R x Hx) as (r & <- & Hr). exists c. auto. }
      destruct S1 as (st1 & E1 & P1 & I1). rewrite E1. cbn [bind].
      assert (P1' := P1). destruct P1' as (new & F & N & V & D & R & C & G).
      destruct (IHc st1) as (st2 & E2 & P2 & I2).
      + intros x Hx. apply Hcs. right; auto.
      + etransitivity; [|exact Hlen]. apply unvisited_mono. intros x Hx. apply V. auto.
      + split; auto. intros v Hv. apply V in Hv as [Hv|Hv].
        * destruct (Hpre v Hv) as [H|H]; auto. left. rewrite F. apply in_or_app. auto.
        * left. rewrite F. apply in_or_app. auto.
      + exists st2. split; auto. split; [eapply post_trans; eauto|].
        intros x [<-|Hx]; auto. destruct P2 as (new2 & _ & _ & V2 & _). apply V2. auto.
  Qed.

  Lemma dfs_ok : forall f st node, In node (dkeys g) -> ~ In node (snd st) -> length (unvisited g (snd st)) <= f ->
          pre (eq node) st -> exists st', reverse_dfs f g st node = Ok st' /\ post (eq node) st st' /\ In node (snd st').
  Proof.
    induction f as [|f IH]; intros st node Hk Hn Hl [Hg Hpre].
    - exfalso. assert (L := unvisited_add g (snd st) node Hk Hn). lia.
    - cbn [reverse_dfs].
      destruct (dfs_fold f IH node (children g node) (fst st, node :: snd st)) as (st1 & E & P & I).
      + auto.
      + cbn [snd]. assert (L := unvisited_add g (snd st) node Hk Hn). lia.
      + split; auto. cbn [fst snd]. intros v [<-|Hv].
        * right. intros n Hn'. apply rt_step. exact Hn'.
        * destruct (Hpre v Hv) as [H|H]; auto. right. intros n Hn'. eapply rt_trans; [apply H; auto | apply rt_step; exact Hn'].
      + rewrite E. cbn [bind].
        destruct P as (new & F & N & V & D & R & C & G). cbn [fst snd] in *.
        exists (fst st1 ++ [node], snd st1). split; auto. split; [|cbn; apply V; left; left; auto].
        assert (Hnn : ~ In node new) by (intros H; apply (D _ H); left; auto).
        exists (new ++ [node]). cbn [fst snd]. split; [rewrite F, app_assoc; auto|].
        split; [apply NoDup_app_iff_local; auto; [repeat constructor; auto | intros x Hx [<-|[]]; auto]|].
        split; [intros x; rewrite V, in_app_iff; cbn; tauto|].
        split; [intros x Hx; apply in_app_or in Hx as [Hx|[<-|[]]]; auto; intros Hs; apply (D x Hx); right; auto|].
        split.
        { intros x Hx. exists node. split; auto. apply in_app_or in Hx as [Hx|[<-|[]]]; [|apply rt_refl].
          destruct (R x Hx) as (r & Hr & Hrx). eapply rt_trans; [apply rt_step; exact Hr | auto]. }
        split.
        { intros x c Hx Hc. apply in_app_or in Hx as [Hx|[<-|[]]]; eauto. }
        apply good_app; auto. intros c Hc. assert (Hv : In c (snd st1)) by (apply I; exact Hc).
        apply V in Hv as [[<-|Hv]|Hv].
        * right. apply rt_refl.
        * destruct (Hpre c Hv) as [H|H]; auto. left. rewrite F. apply in_or_app; auto.
        * left. rewrite F. apply in_or_app; auto.
  Qed.
End Dfs.

(** ** The graph *)
Lemma children_dset g p l m : children (dset p l g) m = if eq_dec m p then l else children g m.
Proof. unfold children. rewrite dget_dset. destruct (eq_dec m p); auto. Qed.
Lemma In_sadd_nat x y l : In x (sadd_nat y l) <-> In x l \/ x = y.
Proof.
  unfold sadd_nat. destruct (mem y l) eqn:E; [apply mem_In in E|rewrite in_app_iff; cbn]; intuition congruence.
Qed.
Lemma children_setdefault p g m : children (setdefault p g) m = children g m.
Proof.
  unfold setdefault, dmem, children. destruct (dget p g) eqn:E; auto. rewrite dget_dset.
  destruct (eq_dec m p) as [->|]; auto. rewrite E. auto.
Qed.
Lemma keys_setdefault p g m : dget m (setdefault p g) <> None <-> dget m g <> None \/ m = p.
Proof.
  unfold setdefault, dmem. destruct (dget p g) eqn:E.
  - split; auto. intros [H| ->]; congruence.
  - rewrite dget_dset. destruct (eq_dec m p); split; auto; try congruence. intros [H| ->]; congruence.
Qed.
Lemma wf_setdefault p g : dwf g -> dwf (setdefault p g).
Proof. intros H. unfold setdefault. destruct (dmem p g); auto. now apply dwf_dset. Qed.

Lemma inner_graph dm parent cs : forall g, dwf g -> dget parent g <> None ->
  let g' := fold_left (fun g c => match dget c dm with
                          | Some ce => dset parent (sadd_nat (fst ce) (children g parent)) g
                          | None => g end) cs g in
  dwf g' /\ (forall m, dget m g' <> None <-> dget m g <> None) /\
  (forall m x, edge g' m x <-> edge g m x \/ (m = parent /\ exists c e, In c cs /\ dget c dm = Some e /\ x = fst e)).
Proof.
  induction cs as [|c cs IH]; intros g Hwf Hp; cbn [fold_left].
  - split; auto. split; [tauto|]. intros m x. split; auto. intros [H|(_ & c & e & [] & _)]; auto.
  - destruct (dget c dm) as [ce|] eqn:E.
    + destruct (IH (dset parent (sadd_nat (fst ce) (children g parent)) g)) as (W & K & Ed).
      * now apply dwf_dset.
      * rewrite dget_dset_same. discriminate.
      * split; auto. split.
        { intros m. rewrite K, dget_dset. destruct (eq_dec m parent) as [->|]; [split; congruence | tauto]. }
        intros m x. rewrite Ed. unfold edge at 1. rewrite children_dset.
        destruct (eq_dec m parent) as [->|Hne].
        -- rewrite In_sadd_nat. split.
           ++ intros [[H|H]|(_ & c' & e & Hc & Hd & Hx)]; auto.
              ** right. split; auto. exists c, ce. cbn. auto.
              ** right. split; auto. exists c', e. cbn. auto.
           ++ intros [H|(_ & c' & e & [<-|Hc] & Hd & Hx)]; auto.
              ** left. right. congruence.
              ** right. split; auto. eauto.
        -- split; [intros [H|(? & _)]; [auto|congruence] | intros [H|(? & _)]; [auto|congruence]].
    + destruct (IH g Hwf Hp) as (W & K & Ed). split; auto. split; auto.
      intros m x. rewrite Ed. split; (intros [H|(Hm & c' & e & Hc & Hd & Hx)]; [auto|right; split; auto]).
      * exists c', e. cbn; auto.
      * destruct Hc as [<-|Hc]; [congruence|]. eauto.
Qed.

Lemma outer_graph dm : forall l g, dwf g ->
  let g' := fold_left (fun g (e : conn * (model * list conn)) =>
    let '(_, (parent, cs)) := e in
    fold_left (fun g c => match dget c dm with
                          | Some ce => dset parent (sadd_nat (fst ce) (children g parent)) g
                          | None => g
                          end) cs (setdefault parent g)) l g in
  dwf g' /\ (forall m, dget m g' <> None <-> dget m g <> None \/ exists o cs, In (o, (m, cs)) l) /\
  (forall m x, edge g' m x <-> edge g m x \/ exists o cs c e, In (o, (m, cs)) l /\ In c cs /\ dget c dm = Some e /\ x = fst e).
Proof.
  induction l as [|[o [p cs]] l IH]; intros g Hwf; cbn [fold_left].
  - split; auto. split.
    + intros m. split; auto. intros [H|(o & cs & [])]; auto.
    + intros m x. split; auto. intros [H|(o & cs & c & e & [] & _)]; auto.
  - destruct (inner_graph dm p cs (setdefault p g)) as (W & K & Ed).
    { now apply wf_setdefault. }
    { apply keys_setdefault. auto. }
    destruct (IH _ W) as (W' & K' & Ed'). split; [exact W'|]. split.
    + intros m. rewrite K', K, keys_setdefault. split.
      * intros [[H| ->]|(o' & cs' & Hin)]; auto; right; [exists o, cs; left; auto | exists o', cs'; right; auto].
      * intros [H|(o' & cs' & [Hin|Hin])]; auto; [injection Hin as _ <- _; auto | right; eauto].
    + intros m x. rewrite Ed', Ed. unfold edge at 1. rewrite children_setdefault. split.
      * intros [[H|(-> & c & e & Hc & Hd & Hx)]|(o' & cs' & c & e & Hin & Hc & Hd & Hx)]; auto.
        -- right. exists o, cs, c, e. cbn. auto.
        -- right. exists o', cs', c, e. cbn. auto.
      * intros [H|(o' & cs' & c & e & [Hin|Hin] & Hc & Hd & Hx)]; auto.
        -- injection Hin as <- <- <-. left. right. split; auto. eauto.
        -- right. exists o', cs', c, e. auto.
Qed.

(** [m] reads a connection that [x] produces. *)
Definition reads_from (dm : depmap) (m x : model) : Prop :=
  exists o cs c cs', dget o dm = Some (m, cs) /\ In c cs /\ dget c dm = Some (x, cs').
Definition produces (dm : depmap) (m : model) : Prop := exists o cs, dget o dm = Some (m, cs).

Lemma build_graph_spec dm : dwf dm -> dwf (build_graph dm) /\
  (forall m, In m (dkeys (build_graph dm)) <-> produces dm m) /\
  (forall m x, edge (build_graph dm) m x <-> reads_from dm m x).
Proof.
  intros Hwf. destruct (outer_graph dm dm [] (NoDup_nil _)) as (W & K & Ed).
  fold (build_graph dm) in W, K, Ed. split; auto. split.
  - intros m. rewrite <- dmem_In. unfold dmem. specialize (K m). cbn [dget] in K. unfold produces.
    assert (A : (exists o cs, dget o dm = Some (m, cs)) <-> (exists o cs, In (o, (m, cs)) dm)).
    { split; intros (o & cs & H); exists o, cs; [now apply dget_In | now apply In_dget]. }
    rewrite A. destruct (dget m (build_graph dm)) eqn:E.
    + split; auto. intros _. destruct K as [K _]. destruct K as [K|K]; [congruence|congruence|auto].
    + split; [discriminate|]. intros H. exfalso. apply K; auto.
  - intros m x. rewrite Ed. unfold edge at 1, children at 1. cbn [dget In]. unfold reads_from. split.
    + intros [[]|(o & cs & c & [x' cs'] & Hin & Hc & Hd & Hx)]. cbn in Hx. subst x'.
      exists o, cs, c, cs'. split; [now apply In_dget | auto].
    + intros (o & cs & c & cs' & Hd & Hc & Hd'). right. exists o, cs, c, (x, cs'). split; [now apply dget_In | auto].
Qed.

Lemma In_dkeys_children g a b : edge g a b -> In a (dkeys g).
Proof.
  unfold edge, children. destruct (dget a g) eqn:E; [|intros []]. intros _. apply dmem_In. unfold dmem. rewrite E. auto.
Qed.

Lemma topo_all g (closed : forall a b, edge g a b -> In b (dkeys g)) : forall ks st,
  incl ks (dkeys g) -> good g (fst st) -> (forall v, In v (snd st) <-> In v (fst st)) -> NoDup (fst st) ->
  (forall x c, In x (fst st) -> edge g x c -> In c (fst st)) ->
  incl (fst st) (dkeys g) ->
  exists st', foldM (fun (st : list model * list model) m =>
                if mem m (snd st) then Ok st else reverse_dfs (S (length g)) g st m) ks st = Ok st' /\
    good g (fst st') /\ NoDup (fst st') /\ incl (fst st) (fst st') /\ incl ks (fst st') /\ incl (fst st') (dkeys g).
Proof.
  induction ks as [|k ks IH]; intros st Hks Hg Hv Hnd Hcl Hincl; cbn [foldM].
  - exists st. repeat (split; auto); [intros x; auto | intros x []].
  - destruct (mem k (snd st)) eqn:E.
    + destruct (IH st) as (st' & E' & A & B & C & D & F); auto.
      { intros x Hx; apply Hks; right; auto. }
      exists st'. cbn [bind]. repeat (split; auto). intros x [<-|Hx]; auto. apply C. apply Hv. now apply mem_In.
    + assert (Hk : In k (dkeys g)) by (apply Hks; left; auto).
      destruct (dfs_ok g closed (S (length g)) st k) as (st1 & E1 & (new & Fn & N & V & Dj & R & C & G) & I1); auto.
      * now apply mem_not_In.
      * assert (length (unvisited g (snd st)) <= length (dkeys g)).
        { unfold unvisited. generalize (dkeys g). intros l. induction l as [|y l IHl]; cbn; auto. destruct (negb _); cbn; lia. }
        unfold dkeys in H. rewrite map_length in H. lia.
      * split; auto. intros v H. left. apply Hv; auto.
      * rewrite E1. cbn [bind].
        assert (Hv1 : forall v, In v (snd st1) <-> In v (fst st1)).
        { intros v. rewrite V, Fn, in_app_iff, Hv. tauto. }
        destruct (IH st1) as (st' & E' & A & B & C' & D & F).
        -- intros x Hx; apply Hks; right; auto.
        -- auto.
        -- auto.
        -- rewrite Fn. apply NoDup_app_iff_local; auto. intros x H1 H2. apply (Dj x H2). apply Hv; auto.
        -- intros x c Hx Hc. rewrite Fn in Hx. apply in_app_or in Hx as [Hx|Hx].
           ++ rewrite Fn. apply in_or_app. left. eauto.
           ++ apply Hv1. eauto.
        -- rewrite Fn. intros x Hx. apply in_app_or in Hx as [Hx|Hx]; auto.
           destruct (R x Hx) as (r & <- & Hr). apply clos_rt_rtn1 in Hr. inversion Hr; subst; auto. eauto.
        -- exists st'. split; auto. split; auto. split; auto. split.
           ++ intros x Hx. apply C'. rewrite Fn. apply in_or_app; auto.
           ++ split; auto. intros x [<-|Hx]; auto. apply C'. apply Hv1. auto.
Qed.

(** ** Traversal to the inputs *)
Lemma acyclic_acc dm : dwf dm -> acyclic (dep dm) -> forall k p c, NoDup p -> incl p (dkeys dm) -> length dm <= k + length p ->
  (forall x, In x p -> clos_trans _ (dep dm) x c) -> Acc (fun b a => dep dm a b) c.
Proof.
  intros Hwf Hac. induction k as [|k IH]; intros p c Hnd Hi Hl Hp; constructor; intros b Hb;
    (assert (Hcp : ~ In c p) by (intros H; exact (Hac c (Hp c H))));
    (assert (Hck : In c (dkeys dm)) by (destruct Hb as (m & l & Hd & _); apply dmem_In; unfold dmem; rewrite Hd; auto));
    assert (L : NoDup (c :: p)) by (constructor; auto);
    assert (I : incl (c :: p) (dkeys dm)) by (intros y [<-|Hy]; auto).
  - exfalso. assert (Q := NoDup_incl_length L I). cbn in Q. unfold dkeys in Q. rewrite map_length in Q. lia.
  - apply (IH (c :: p)); auto; [cbn; lia|]. intros x [<-|Hx]; [apply t_step; auto|].
    eapply t_trans; [apply Hp; exact Hx | apply t_step; auto].
Qed.

Definition sources (dm : depmap) (c : conn) : list conn := match dget c dm with Some e => snd e | None => [] end.
Lemma dep_sources dm a b : dep dm a b <-> In b (sources dm a).
Proof.
  unfold dep, sources. destruct (dget a dm) as [[m l]|]; cbn; split.
  - intros (m' & l' & E & H). injection E as <- <-; auto.
  - intros H. exists m, l; auto.
  - intros (m' & l' & E & _). discriminate.
  - intros [].
Qed.

(** The number of pops a connection can cause. *)
Inductive wt (dm : depmap) : conn -> nat -> Prop :=
| wt_intro c ws : wts dm (sources dm c) ws -> wt dm c (S (list_sum ws))
with wts (dm : depmap) : list conn -> list nat -> Prop :=
| wts_nil : wts dm [] []
| wts_cons c w l ws : wt dm c w -> wts dm l ws -> wts dm (c :: l) (w :: ws).

Lemma wt_exists dm c : Acc (fun b a => dep dm a b) c -> exists w, wt dm c w.
Proof.
  induction 1 as [c _ IH].
  assert (H : exists ws, wts dm (sources dm c) ws).
  { assert (Hs : incl (sources dm c) (sources dm c)) by (intros x; auto). revert Hs.
    generalize (sources dm c) at 1 3. intros l. induction l as [|b l IHl]; intros Hs.
    - exists []. constructor.
    - destruct IHl as [ws Hws]; [intros x Hx; apply Hs; right; auto|].
      destruct (IH b) as [w Hw]; [apply dep_sources; apply Hs; left; auto|]. exists (w :: ws). constructor; auto. }
  destruct H as [ws H]. exists (S (list_sum ws)). constructor; auto.
Qed.
Lemma wts_app dm l l' ws ws' : wts dm l ws -> wts dm l' ws' -> wts dm (l ++ l') (ws ++ ws').
Proof. induction 1; cbn; auto. intros. constructor; auto. Qed.
Lemma wts_app_inv dm l l' ws : wts dm (l ++ l') ws -> exists w1 w2, ws = w1 ++ w2 /\ wts dm l w1 /\ wts dm l' w2.
Proof.
  revert ws. induction l as [|c l IH]; intros ws H; cbn in H.
  - exists [], ws. repeat split; auto. constructor.
  - inversion H; subst. destruct (IH _ H4) as (w1 & w2 & -> & A & B). exists (w :: w1), w2. repeat split; auto. constructor; auto.
Qed.
Lemma wts_union dm l : forall stack ws ws', wts dm stack ws -> wts dm l ws' ->
  exists ws'', wts dm (fold_left (fun s x => sadd_nat x s) l stack) ws'' /\ list_sum ws'' <= list_sum ws + list_sum ws'.
Proof.
  induction l as [|x l IH]; intros stack ws ws' Hs Hl; inversion Hl; subst; cbn [fold_left].
  - exists ws. split; auto. cbn; lia.
  - unfold sadd_nat at 2. match goal with |- context [if ?b then stack else _] => destruct b end.
    + destruct (IH stack ws ws0 Hs H3) as (ws'' & A & B). exists ws''. split; auto. change (list_sum (w :: ws0)) with (w + list_sum ws0). lia.
    + destruct (IH (stack ++ [x]) (ws ++ [w]) ws0) as (ws'' & A & B); auto.
      { apply wts_app; auto. constructor; auto. constructor. }
      exists ws''. split; auto. rewrite list_sum_app in B. change (list_sum [w]) with (w + 0) in B. change (list_sum (w :: ws0)) with (w + list_sum ws0). lia.
Qed.
Lemma In_union l : forall s x, In x (fold_left (fun s x => sadd_nat x s) l s) <-> In x s \/ In x l.
Proof.
  induction l as [|y l IH]; intros s x; cbn [fold_left]; [cbn; tauto|].
  rewrite IH, In_sadd_nat. cbn. intuition congruence.
Qed.
Lemma NoDup_sadd_nat x l : NoDup l -> NoDup (sadd_nat x l).
Proof.
  intros H. unfold sadd_nat. destruct (mem x l) eqn:E; auto. apply NoDup_app_iff_local; auto.
  - repeat constructor; auto.
  - intros y Hy [<-|[]]. apply mem_not_In in E. auto.
Qed.

Lemma traverse_terminates dm is_input : forall fuel stack specs ws, wts dm stack ws -> list_sum ws <= fuel ->
  exists r, traverse_inputs fuel dm is_input stack specs = Ok r.
Proof.
  induction fuel as [|f IH]; intros stack specs ws Hw Hl; destruct stack as [|c0 st0]; cbn [traverse_inputs]; eauto.
  - inversion Hw; subst. inversion H1; subst. match type of Hl with list_sum (?a :: ?b) <= _ => change (list_sum (a :: b)) with (a + list_sum b) in Hl end. lia.
  - assert (Hne : c0 :: st0 <> []) by discriminate. revert Hne Hw. generalize (c0 :: st0). intros stack Hne Hw.
    assert (E := app_removelast_last 0 Hne). rewrite E in Hw.
    apply wts_app_inv in Hw as (w1 & w2 & -> & A & B). inversion B; subst. inversion H3; subst. inversion H1; subst.
    destruct (wts_union dm (sources dm (last stack 0)) _ _ _ A H) as (ws'' & C & D).
    unfold sources in C at 1. eapply IH; [exact C|]. rewrite list_sum_app in Hl. match type of Hl with context [list_sum [?a]] => change (list_sum [a]) with (a + 0) in Hl end. lia.
Qed.

Lemma traverse_correct dm is_input (from : conn -> Prop) : forall fuel stack specs r,
  NoDup specs ->
  (forall x, In x stack -> exists s, from s /\ reach (dep dm) s x) ->
  (forall x, In x specs -> is_input x = true /\ exists s, from s /\ reach (dep dm) s x) ->
  (forall s x, from s -> reach (dep dm) s x -> is_input x = true -> In x specs \/ exists t, In t stack /\ reach (dep dm) t x) ->
  traverse_inputs fuel dm is_input stack specs = Ok r ->
  NoDup r /\ forall x, In x r <-> is_input x = true /\ exists s, from s /\ reach (dep dm) s x.
Proof.
  assert (Base : forall specs : list conn, NoDup specs ->
     (forall x, In x specs -> is_input x = true /\ exists s, from s /\ reach (dep dm) s x) ->
     (forall s x, from s -> reach (dep dm) s x -> is_input x = true -> In x specs \/ exists t, In t [] /\ reach (dep dm) t x) ->
     NoDup specs /\ forall x, In x specs <-> is_input x = true /\ exists s, from s /\ reach (dep dm) s x).
  { intros specs Hn Hs Hc. split; auto. intros x; split; auto. intros [Hi (s & Hf & Hr)].
    destruct (Hc s x Hf Hr Hi) as [H|(t & [] & _)]; auto. }
  induction fuel as [|f IH]; intros stack specs r Hn Ht Hs Hc; destruct stack as [|c0 st0]; cbn [traverse_inputs];
    try discriminate; try (intros E; injection E as <-; apply Base; auto).
  assert (Hne : c0 :: st0 <> []) by discriminate. revert Hne Ht Hc. generalize (c0 :: st0). intros stack Hne Ht Hc.
  assert (E := app_removelast_last 0 Hne). revert E. generalize (last stack 0) as c. generalize (removelast stack) as rest. intros rest c E.
  fold (sources dm c). apply IH.
  - destruct (is_input c); auto. now apply NoDup_sadd_nat.
  - intros x Hx. apply In_union in Hx as [Hx|Hx].
    + apply Ht. rewrite E. apply in_or_app; auto.
    + destruct (Ht c) as (s & Hf & Hr); [rewrite E; apply in_or_app; right; left; auto|].
      exists s. split; auto. eapply rt_trans; [exact Hr|]. apply rt_step. now apply dep_sources.
  - intros x Hx. destruct (is_input c) eqn:Ic; auto. apply In_sadd_nat in Hx as [Hx| ->]; auto. split; auto.
    apply Ht. rewrite E. apply in_or_app; right; left; auto.
  - intros s x Hf Hr Hi. destruct (Hc s x Hf Hr Hi) as [H|(t & Htt & Htr)].
    + left. destruct (is_input c); auto. apply In_sadd_nat; auto.
    + rewrite E in Htt. apply in_app_or in Htt as [Htt|[<-|[]]].
      * right. exists t. split; auto. apply In_union; auto.
      * apply clos_rt_rt1n in Htr. inversion Htr as [Heq|y z Hy Hyz]; [subst x|].
        -- left. destruct (is_input c) eqn:Ic; [apply In_sadd_nat; auto | congruence].
        -- right. exists y. split; [apply In_union; right; now apply dep_sources | now apply clos_rt1n_rt].
Qed.
