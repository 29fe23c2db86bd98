(** * Proofs about training models: finalisation *)
From Coq Require Import List Bool String Arith Lia Permutation.
From Verif Require Import PyBase Train_Model Train_Spec Train_Proofs Train_Inv.
Import ListNotations.
Open Scope string_scope. Open Scope list_scope.
(** ** Sums *)
Section Sums.
Context {B : backend}.
Lemma total_app : forall a b : list (F B), total (a ++ b) = fadd B (total a) (total b).
Proof. intros a b; induction a as [|x a IH]; cbn; [rewrite fadd_zero; reflexivity|]. unfold total in *; rewrite IH. apply fadd_assoc. Qed.
Lemma total_perm : forall a b : list (F B), Permutation a b -> total a = total b.
Proof. intros a b P; induction P; unfold total in *; cbn; [reflexivity|rewrite IHP; reflexivity| |congruence]. rewrite !fadd_assoc, (fadd_comm B y x); reflexivity. Qed.
Lemma total_one : forall a : F B, total [a] = a.
Proof. intros a; cbn. rewrite fadd_comm. apply fadd_zero. Qed.
Lemma total_mul : forall (l : list (F B)) q, fmul B (total l) q = total (map (fun a => fmul B a q) l).
Proof. intros l q; induction l as [|a l IH]; cbn; [apply fmul_zero|]. unfold total in *. rewrite fmul_add, IH; reflexivity. Qed.
Lemma total_concat : forall l : list (list (F B)), total (List.concat l) = total (map total l).
Proof. intros l; induction l as [|a l IH]; [reflexivity|]. cbn [List.concat map]. rewrite total_app, IH; reflexivity. Qed.
Lemma total_terms : forall (fl : nat -> list (F B)) (rm : list (F B * list nat)),
  total (map (fun x => fmul B (total (List.concat (map fl (snd x)))) (fst x)) rm) = total (map (fun x => fmul B (total (fl (snd x))) (fst x)) (pairs rm)).
Proof.
  intros fl rm; induction rm as [|[q cs] rm IH]; [reflexivity|]. unfold pairs in *. cbn [flat_map map fst snd]. rewrite map_app, total_app. cbn [total fold_right]. change (fold_right (fadd B) (fzero B)) with (@total B). rewrite IH. f_equal.
  rewrite total_concat, total_mul, !map_map. reflexivity.
Qed.
End Sums.
(** ** Which reductions each regularisation sees *)
Section Events.
Lemma fold_flat_map : forall {A C D} (g : D -> C -> D) (f : A -> list C) l a, fold_left g (flat_map f l) a = fold_left (fun a x => fold_left g (f x) a) l a.
Proof. intros A C D g f l; induction l as [|x l IH]; intros a; cbn; [reflexivity|]. rewrite fold_left_app; apply IH. Qed.
Context {K A : Type} `{EqDec K}.
Definition add_ev (geo : list (K * list A)) (e : K * A) : list (K * list A) := dset (fst e) (getl geo (fst e) ++ [snd e]) geo.
Lemma getl_dset : forall (m : list (K * list A)) k k' l, getl (dset k l m) k' = if eq_dec k' k then l else getl m k'.
Proof.
  intros m k k' l. unfold getl. destruct (eq_dec k' k) as [->|N]; [rewrite dget_dset_same; reflexivity|]. rewrite dget_dset_other; [reflexivity|congruence].
Qed.
Lemma getl_events : forall E geo k, getl (fold_left add_ev E geo) k = getl geo k ++ map snd (filter (fun e => if eq_dec k (fst e) then true else false) E).
Proof.
  intros E; induction E as [|[i a] E IH]; intros geo k; cbn [fold_left filter map]; [rewrite app_nil_r; reflexivity|]. rewrite IH. unfold add_ev. cbn [fst snd]. rewrite getl_dset.
  destruct (eq_dec k i) as [->|N]; [|reflexivity]. cbn. rewrite <- app_assoc; reflexivity.
Qed.
Lemma events_wf : forall E geo, dwf geo -> dwf (fold_left add_ev E geo).
Proof. intros E; induction E as [|e E IH]; intros geo W; [exact W|]. cbn. apply IH, dwf_dset, W. Qed.
Lemma events_ne : forall E geo, Forall (fun x => snd x <> []) geo -> Forall (fun x => snd x <> []) (fold_left add_ev E geo).
Proof.
  intros E; induction E as [|e E IH]; intros geo W; [exact W|]. cbn. apply IH. clear IH. unfold add_ev. assert (getl geo (fst e) ++ [snd e] <> []) as N by (intros Habs; apply app_eq_nil in Habs as [_ Habs]; discriminate).
  revert N. generalize (getl geo (fst e) ++ [snd e]). intros l N. induction W as [|[k1 l1] m M1 M2 IH2]; cbn; [repeat constructor; exact N|]. destruct (eq_dec (fst e) k1); constructor; auto.
Qed.
Lemma events_item : forall E k l, In (k, l) (fold_left add_ev E []) -> l <> [] /\ l = map snd (filter (fun e => if eq_dec k (fst e) then true else false) E).
Proof.
  intros E k l HI. pose proof (events_ne E [] (Forall_nil _)) as N. rewrite Forall_forall in N. split; [exact (N _ HI)|].
  pose proof (getl_events E [] k) as G. change (getl (@nil (K * list A)) k) with (@nil A) in G. cbn [app] in G. rewrite <- G. unfold getl. erewrite In_dget; [reflexivity|apply events_wf; constructor|exact HI].
Qed.
Lemma events_in : forall E k, filter (fun e => if eq_dec k (fst e) then true else false) E <> [] -> exists l, In (k, l) (fold_left add_ev E []).
Proof.
  intros E k N. pose proof (getl_events E [] k) as G. change (getl (@nil (K * list A)) k) with (@nil A) in G. cbn [app] in G. unfold getl in G. destruct (dget k (fold_left add_ev E [])) as [l|] eqn:D; [exists l; apply dget_In; exact D|].
  exfalso; apply N. symmetry in G. apply map_eq_nil in G; exact G.
Qed.
End Events.
Section Final.
Context {B : backend}.
Variable value_of : string -> V B.
Variable accepts : list string -> @loss B -> bool.
Variable trainable : string -> bool.
Notation train := (@train B). Notation spec := (@spec B). Notation at_ := (at_ value_of). Notation sized := (sized value_of). Notation ats := (ats value_of). Notation rel := (rel value_of).
Definition events (s : train) : list ((nat * F B) * list (nat * Axis B)) :=
  flat_map (fun kv => flat_map (fun ki => if mem (fst ki) (nth (snd kv) (deps (nodes s)) []) then map (fun i => (i, getl (reduce_inputs s) (fst kv))) (snd ki) else []) (geomean_map s)) (loss_keys s).
Lemma geo_mappings_events : forall s, geo_mappings s = fold_left add_ev (events s) [].
Proof.
  intros s. unfold geo_mappings, events. rewrite fold_flat_map. generalize (@nil ((nat * F B) * list (list (nat * Axis B)))) as a. induction (loss_keys s) as [|kv L IH]; intros a; [reflexivity|]. cbn [fold_left]. rewrite IH. f_equal.
  rewrite fold_flat_map. clear IH. revert a. induction (geomean_map s) as [|ki G IH]; intros a; [reflexivity|]. cbn [fold_left]. rewrite IH. f_equal.
  destruct (mem (fst ki) (nth (snd kv) (deps (nodes s)) [])); [|reflexivity]. clear IH. revert a. induction (snd ki) as [|i J IH]; intros a; [reflexivity|]. cbn [map fold_left]. rewrite <- IH. reflexivity.
Qed.
Lemma inner_events : forall {K A C} (M : K -> bool) (x : C) (gm : list (K * list A)),
  flat_map (fun ki => if M (fst ki) then map (fun i => (i, x)) (snd ki) else []) gm = map (fun y => (snd y, x)) (filter (fun y => M (fst y)) (pairs gm)).
Proof.
  intros K A C M x gm; induction gm as [|[k l] gm IH]; [reflexivity|]. unfold pairs in *. cbn [flat_map fst snd]. rewrite IH, filter_app, map_app. f_equal. clear IH.
  induction l as [|a l IH]; cbn; [destruct (M k); reflexivity|]. destruct (M k); cbn; [f_equal; exact IH|exact IH].
Qed.
Lemma filter_filter : forall {A} (f g : A -> bool) l, filter f (filter g l) = filter g (filter f l).
Proof. intros A f g l; induction l as [|a l IH]; [reflexivity|]. cbn. destruct (f a) eqn:E1, (g a) eqn:E2; cbn; rewrite ?E1, ?E2, IH; reflexivity. Qed.
Lemma filter_map : forall {A C} (f : C -> bool) (h : A -> C) l, filter f (map h l) = map h (filter (fun a => f (h a)) l).
Proof. intros A C f h l; induction l as [|a l IH]; [reflexivity|]. cbn. destruct (f (h a)); cbn; rewrite IH; reflexivity. Qed.
Lemma filter_perm : forall {A} (f : A -> bool) l m, Permutation l m -> Permutation (filter f l) (filter f m).
Proof. intros A f l m P; induction P; cbn; [constructor|destruct (f x); [constructor|]; assumption|destruct (f x), (f y); try apply Permutation_refl; constructor|eapply Permutation_trans; eassumption]. Qed.
Definition info_of (x : F B * nat * string) : string * (nat * F B) := (snd x, (snd (fst x), fst (fst x))).
Lemma one_info : forall R q c k, NoDup (map (fun x : F B * nat * string => snd (fst x)) R) -> In (q, c, k) R -> filter (fun y => if eq_dec (c, q) (snd y) then true else false) (map info_of R) = [(k, (c, q))].
Proof.
  intros R q c k N HI; induction R as [|[[q1 c1] k1] R IH]; [destruct HI|]. cbn in N. apply NoDup_cons_iff in N as [N1 N2]. destruct HI as [E|HI].
  - injection E as -> -> ->. cbn [map filter info_of snd fst]. destruct (eq_dec (c, q) (c, q)) as [_|X]; [|congruence]. f_equal. clear IH N2.
    induction R as [|[[q2 c2] k2] R IH]; [reflexivity|]. cbn [map filter info_of snd fst]. destruct (eq_dec (c, q) (c2, q2)) as [X|_]; [injection X as -> ->; exfalso; apply N1; left; reflexivity|]. apply IH. intros HI; apply N1; right; exact HI.
  - cbn [map filter info_of snd fst]. destruct (eq_dec (c, q) (c1, q1)) as [X|_]; [|apply IH; assumption]. injection X as -> ->. exfalso; apply N1. change c1 with (snd (fst (q1, c1, k))). apply in_map with (f := fun x => snd (fst x)); exact HI.
Qed.
Lemma info_events : forall s R q c k, NoDup (map (fun x : F B * nat * string => snd (fst x)) R) -> Permutation (pairs (geomean_map s)) (map info_of R) -> In (q, c, k) R ->
  map snd (filter (fun e => if eq_dec (c, q) (fst e) then true else false) (events s)) = map (fun kv => getl (reduce_inputs s) (fst kv)) (filter (fun kv => mem k (nth (snd kv) (deps (nodes s)) [])) (loss_keys s)).
Proof.
  intros s R q c k N P HI. pose proof (filter_perm (fun y => if eq_dec (c, q) (snd y) then true else false) _ _ P) as P1. rewrite (one_info R q c k N HI) in P1. symmetry in P1. apply Permutation_length_1_inv in P1.
  unfold events. induction (loss_keys s) as [|kv L IH]; [reflexivity|]. cbn [flat_map]. rewrite filter_app, map_app, IH. rewrite (inner_events (fun k => mem k (nth (snd kv) (deps (nodes s)) [])) (getl (reduce_inputs s) (fst kv)) (geomean_map s)).
  rewrite filter_map. cbn [fst]. rewrite (filter_filter (fun a => if eq_dec (c, q) (snd a) then true else false)). rewrite P1. cbn [filter fst]. destruct (mem k _); reflexivity.
Qed.
(** ** One division *)
Lemma ats_length : forall g cs r, ats g cs r -> List.length cs = List.length r.
Proof. intros g cs r H; induction H; cbn; congruence. Qed.
Lemma flats_atleast : forall r : list (V B * list string), map (fun x => flat B (fst x)) (map (fun x => (calc value_of AtLeast1d [fst x], snd x)) r) = map (fun x => flat B (fst x)) r.
Proof. intros r; rewrite map_map. apply map_ext. intros x; cbn. apply flat_atleast_1d. Qed.
Lemma geo_step_at : forall g rm c q ll v d fss, at_ g c v d -> Forall2 (sized g) ll fss -> ll <> [] ->
  exists g' c' v' d', geo_step (g, rm) ((c, q), ll) = (g', dset q (remove_conn c (getl rm q) ++ [c']) rm) /\ le g g' /\ List.length g <= c' /\ at_ g' c' v' d' /\ flat B v' = map (fun a => fdiv B a (froot B (List.length ll) (product (map product fss)))) (flat B v).
Proof.
  intros g rm c q ll v d fss A H N. unfold geo_step. destruct (emit_reductions g ll) as [g1 outs] eqn:E1. destruct (emit_reductions_at value_of ll g fss H _ _ E1) as (L1 & r & R1 & R2).
  assert (List.length outs = List.length ll) as Len. { rewrite (ats_length _ _ _ R1). rewrite <- (map_length (fun x => flat B (fst x)) r), R2, map_length. symmetry; clear -H; induction H; cbn; congruence. }
  destruct outs as [|o outs]; [destruct ll; [congruence|discriminate]|]. set (os := o :: outs) in *. clearbody os.
  destruct (emit_all g1 AtLeast1d os) as [g2 os1] eqn:E2. destruct (emit_all_at value_of AtLeast1d ltac:(discriminate) os g1 r R1 _ _ E2) as (L2 & A2).
  destruct (emit g2 Concat os1) as [g3 cc] eqn:E3. destruct (emit_at value_of g2 Concat _ _ A2 _ _ E3) as (L3 & _ & _ & A3).
  destruct (emit g3 Prod [cc]) as [g4 pc] eqn:E4. destruct (emit1_at value_of g3 Prod cc _ _ A3 ltac:(discriminate) _ _ E4) as (L4 & _ & A4).
  cbn [calc dep_of] in A4. set (d4 := List.concat _) in A4. set (v4 := prod B _) in A4.
  assert (flat B v4 = [product (map product fss)]) as V4. { subst v4. rewrite flat_prod, flat_concat, map_map. rewrite <- (map_map (fun x => x) (fun x : V B * list string => flat B (fst x))), map_id, flats_atleast, R2, <- (map_map product (fun a => [a])), concat_single. reflexivity. }
  set (X := if Nat.ltb 1 (List.length os) then emit g4 (Root (List.length os)) [pc] else (g4, pc)). destruct X as [g5 p5] eqn:E5.
  assert (le g4 g5 /\ exists v5 d5, at_ g5 p5 v5 d5 /\ flat B v5 = [froot B (List.length ll) (product (map product fss))]) as (L5 & v5 & d5 & A5 & V5).
  { subst X. destruct (Nat.ltb 1 (List.length os)) eqn:EL.
    - destruct (emit1_at value_of g4 (Root (List.length os)) pc _ _ A4 ltac:(discriminate) _ _ E5) as (L5 & _ & A5). split; [exact L5|]. eexists _, _; split; [exact A5|]. cbn. rewrite flat_root, V4, Len; reflexivity.
    - injection E5 as <- <-. split; [apply le_refl|]. exists v4, d4; split; [exact A4|]. rewrite V4. apply Nat.ltb_ge in EL. rewrite Len in EL. assert (List.length ll = 1) as -> by (destruct ll; [congruence|cbn in *; lia]). rewrite froot_one; reflexivity. }
  pose proof (le_trans _ _ _ L1 (le_trans _ _ _ L2 (le_trans _ _ _ L3 (le_trans _ _ _ L4 L5)))) as L15.
  destruct (emit g5 Div [c; p5]) as [g6 dc] eqn:E6. assert (ats g5 [c; p5] [(v, d); (v5, d5)]) as A56 by (constructor; [apply (at_le _ _ _ _ _ _ L15 A)|constructor; [exact A5|constructor]]).
  destruct (emit_at value_of g5 Div _ _ A56 _ _ E6) as (L6 & Hd & _ & A6). exists g6, dc. eexists _, _. split; [reflexivity|]. split; [eapply le_trans; eassumption|]. split; [rewrite Hd; apply le_length; exact L15|]. split; [exact A6|].
  cbn. rewrite (flat_div B v v5 _ V5). reflexivity.
Qed.
Lemma remove_perm : forall c l, NoDup l -> In c l -> Permutation l (c :: remove_conn c l).
Proof.
  intros c l N HI; induction l as [|x l IH]; [destruct HI|]. apply NoDup_cons_iff in N as [N1 N2]. cbn. destruct HI as [->|HI].
  - rewrite Nat.eqb_refl. cbn. apply perm_skip. match goal with |- Permutation _ ?X => assert (X = l) as -> end; [|apply Permutation_refl]. clear -N1. induction l as [|y l IH]; [reflexivity|]. cbn. destruct (Nat.eqb c y) eqn:E; cbn; [apply Nat.eqb_eq in E; subst; exfalso; apply N1; left; reflexivity|]. f_equal; apply IH; intros HI; apply N1; right; exact HI.
  - destruct (Nat.eqb c x) eqn:E; [apply Nat.eqb_eq in E; subst; contradiction|]. cbn. rewrite perm_swap. apply perm_skip. apply IH; assumption.
Qed.
Lemma step_pairs : forall (rm : list (F B * list nat)) q c d, dwf rm -> NoDup (map snd (pairs rm)) -> In (q, c) (pairs rm) ->
  exists rest, Permutation (pairs rm) ((q, c) :: rest) /\ Permutation (pairs (dset q (remove_conn c (getl rm q) ++ [d]) rm)) ((q, d) :: rest).
Proof.
  intros rm q c d W N HI. destruct (pairs_split rm q W) as (rest & P1 & P2 & P3). apply (in_getl rm q c W) in HI.
  assert (NoDup (getl rm q)) as N1. { rewrite P1, map_app, map_map in N. cbn in N. rewrite map_id in N. clear -N. induction (getl rm q) as [|a l IH]; [constructor|]. cbn in N. apply NoDup_cons_iff in N as [N1 N2]. constructor; [intros X; apply N1, in_or_app; left; exact X|apply IH, N2]. }
  exists (map (pair q) (remove_conn c (getl rm q)) ++ rest). split.
  - rewrite P1. rewrite (remove_perm c _ N1 HI) at 1. reflexivity.
  - rewrite P2, map_app. cbn. rewrite <- app_assoc. cbn. symmetry. apply Permutation_middle.
Qed.
Lemma sized2_le : forall g h ll fss, le g h -> Forall2 (sized g) ll fss -> Forall2 (sized h) ll fss.
Proof. intros g h ll fss L H; induction H; constructor; [eapply sized_le; eassumption|assumption]. Qed.
Lemma sized_fun : forall g l f1 f2, sized g l f1 -> sized g l f2 -> f1 = f2.
Proof. intros g l f1 f2 H1; revert f2; induction H1 as [|x f l fs (v & d & A & ->) Q IH]; intros f2 H2; inversion H2 as [|x' f' l' fs' (v' & d' & A' & ->) Q']; subst; [reflexivity|]. destruct (at_fun _ _ _ _ _ _ _ A A') as [-> _]. f_equal; apply IH; exact Q'. Qed.
(** ** The loop *)
Lemma geo_loop : forall items g rm, dwf rm -> NoDup (map (fun x => fst (fst x)) items) -> NoDup (map snd (pairs rm)) -> (forall q c, In (q, c) (pairs rm) -> c < List.length g) ->
  (forall c q ll, In ((c, q), ll) items -> In (q, c) (pairs rm) /\ ll <> [] /\ exists v d fss, at_ g c v d /\ Forall2 (sized g) ll fss) ->
  exists g' rm' sub, fold_left geo_step items (g, rm) = (g', rm') /\ le g g' /\ map fst rm' = map fst rm /\ Permutation (pairs rm') (map (fun x => (fst x, sub (snd x))) (pairs rm)) /\
    (forall c, (forall q ll, ~ In ((c, q), ll) items) -> sub c = c) /\
    (forall c q ll v d fss, In ((c, q), ll) items -> at_ g c v d -> Forall2 (sized g) ll fss -> exists v' d', at_ g' (sub c) v' d' /\ flat B v' = map (fun a => fdiv B a (froot B (List.length ll) (product (map product fss)))) (flat B v)).
Proof.
  intros items; induction items as [|[[c q] ll] items IH]; intros g rm W N1 N2 Lt H.
  - exists g, rm, (fun x => x). split; [reflexivity|]. split; [apply le_refl|]. split; [reflexivity|]. split; [erewrite map_ext; [rewrite map_id; apply Permutation_refl|intros []; reflexivity]|]. split; [reflexivity|]. intros c q ll v d fss [].
  - cbn [map fst] in N1. apply NoDup_cons_iff in N1 as [N1 N1']. destruct (H c q ll (or_introl eq_refl)) as (HI & Hne & v & d & fss & A & Z). cbn [fold_left].
    destruct (geo_step_at g rm c q ll v d fss A Z Hne) as (g1 & c' & v' & d' & E1 & L1 & Hc' & A1 & V1). set (rm1 := dset q (remove_conn c (getl rm q) ++ [c']) rm) in *. match goal with |- context [geo_step ?a ?b] => assert (geo_step a b = (g1, rm1)) as E1' by exact E1; rewrite E1'; clear E1' end. destruct (step_pairs rm q c c' W N2 HI) as (rest & P1 & P2). fold rm1 in P2.
    assert (NoDup (c :: map snd rest)) as N3 by (rewrite P1 in N2; exact N2). apply NoDup_cons_iff in N3 as [N3 N3'].
    assert (forall x, In x rest -> snd x < List.length g) as Lr. { intros [q0 c0] Hx. apply (Lt q0). rewrite P1. right; exact Hx. }
    assert (dwf rm1) as W1 by (apply dwf_dset; exact W).
    assert (NoDup (map snd (pairs rm1))) as N4. { rewrite P2. cbn. constructor; [|exact N3']. intros X. apply in_map_iff in X as (x & X1 & X2). specialize (Lr x X2). lia. }
    assert (forall q0 c0, In (q0, c0) (pairs rm1) -> c0 < List.length g1) as Lt1. { intros q0 c0 X. rewrite P2 in X. destruct X as [X|X]; [injection X as <- <-; apply (at_lt _ _ _ _ _ A1)|]. specialize (Lr _ X). cbn in Lr. pose proof (le_length _ _ L1). lia. }
    destruct (IH g1 rm1 W1 N1' N4 Lt1) as (g2 & rm2 & sub & E2 & L2 & K2 & P3 & S1 & S2).
    { intros c0 q0 ll0 X. destruct (H c0 q0 ll0 (or_intror X)) as (Y1 & Y2 & v0 & d0 & fss0 & Y3 & Y4). split; [|split; [exact Y2|]].
      - rewrite P1 in Y1. rewrite P2. destruct Y1 as [Y1|Y1]; [|right; exact Y1]. injection Y1 as <- <-. exfalso; apply N1. apply in_map_iff. exists ((c, q), ll0). split; [reflexivity|exact X].
      - exists v0, d0, fss0; split; [eapply at_le; eassumption|eapply sized2_le; eassumption]. }
    exists g2, rm2, (fun x => if Nat.eqb x c then c' else sub x). split; [exact E2|]. split; [eapply le_trans; eassumption|].
    assert (sub c' = c') as Sc. { apply S1. intros q0 ll0 X. destruct (H c' q0 ll0 (or_intror X)) as (Y1 & _). specialize (Lt _ _ Y1). lia. }
    split; [|split; [|split]].
    + rewrite K2. unfold rm1. change (map fst (dset q (remove_conn c (getl rm q) ++ [c']) rm)) with (dkeys (dset q (remove_conn c (getl rm q) ++ [c']) rm)). rewrite dkeys_dset. assert (dmem q rm = true) as ->; [|reflexivity].
      apply dmem_In. assert (In (q, c) (pairs rm)) as X by exact HI. unfold pairs in X. apply in_flat_map in X as ([q0 l0] & X1 & X2). apply in_map_iff in X2 as (y & X2 & X3). injection X2 as -> ->. unfold dkeys. change q with (fst (q, l0)). apply in_map; exact X1.
    + rewrite P3, P2, P1. cbn [map fst snd]. rewrite Sc, Nat.eqb_refl. apply perm_skip. erewrite map_ext_in; [apply Permutation_refl|]. intros [q0 c0] X. cbn. destruct (Nat.eqb c0 c) eqn:E; [|reflexivity]. apply Nat.eqb_eq in E; subst c0. exfalso; apply N3. change c with (snd (q0, c)). apply in_map; exact X.
    + intros c0 X. destruct (Nat.eqb c0 c) eqn:E; [apply Nat.eqb_eq in E; subst c0; exfalso; exact (X q ll (or_introl eq_refl))|]. apply S1. intros q0 ll0 Y. exact (X q0 ll0 (or_intror Y)).
    + intros c0 q0 ll0 v0 d0 fss0 [X|X] Y1 Y2.
      * injection X as <- <- <-. rewrite Nat.eqb_refl. exists v', d'. split; [eapply at_le; [exact L2|exact A1]|]. destruct (at_fun _ _ _ _ _ _ _ A Y1) as [-> _]. assert (fss = fss0) as <-; [|exact V1].
        clear -Z Y2. revert fss0 Y2. induction Z as [|l f ll fss Q1 Q2 IH]; intros fss0 Y2; inversion Y2 as [|l' f' ll' fss' Q3 Q4]; subst; [reflexivity|]. f_equal; [eapply sized_fun; eassumption|apply IH; exact Q4].
      * destruct (Nat.eqb c0 c) eqn:E; [apply Nat.eqb_eq in E; subst c0; exfalso; apply N1; apply in_map_iff; exists ((c, q0), ll0); split; [reflexivity|exact X]|].
        exact (S2 c0 q0 ll0 v0 d0 fss0 X (at_le _ _ _ _ _ _ L1 Y1) (sized2_le _ _ _ _ L1 Y2)).
Qed.
End Final.
