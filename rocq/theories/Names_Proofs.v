(** * Lemmas on name generation. *)
From Coq Require Import String Ascii List Arith Lia Bool ZArith Permutation.
From Verif Require Import PyBase PyStrings Names_Model.
Import ListNotations.
Open Scope string_scope.
Open Scope list_scope.
Open Scope nat_scope.

Lemma z_suffixed_nat p z : (0 <= z)%Z -> z_suffixed p z = suffixed p (Z.to_nat z).
Proof. intros H. unfold z_suffixed, z_to_string, suffixed. destruct (z <? 0)%Z eqn:E; auto. apply Z.ltb_lt in E. lia. Qed.

Lemma bump_ok ty i ex : forall fuel c name, (-1 <= c + i)%Z -> length ex < fuel ->
  exists c' n, bump fuel ty i ex c name = Ok (c', n) /\ ~ In n ex /\ (c <= c')%Z /\
    ((c' = c /\ n = name) \/ ((c < c')%Z /\ n = z_suffixed ty (c' + i)%Z)).
Proof.
  intros fuel c name Hc Lf.
  assert (G : forall fuel c name, (-1 <= c + i)%Z ->
    (exists c' n, bump fuel ty i ex c name = Ok (c', n) /\ ~ In n ex /\ (c <= c')%Z /\
    ((c' = c /\ n = name) \/ ((c < c')%Z /\ n = z_suffixed ty (c' + i)%Z))) \/
    (forall k, k < fuel -> In (suffixed ty (Z.to_nat (c + 1 + i) + k)) ex)).
  { clear. induction fuel as [|f IH]; intros c name Hc.
    - right. intros. lia.
    - simpl. destruct (mem name ex) eqn:M.
      + destruct (IH (c + 1)%Z (z_suffixed ty (c + 1 + i)%Z)) as [(c' & n & E & Nn & Lc & Cs)|H]; [lia| |].
        * left. exists c', n. repeat split; auto; [lia|]. right. destruct Cs as [(-> & ->)|(L & ->)]; split; auto; lia.
        * destruct f as [|f'].
          { simpl. destruct (mem (z_suffixed ty (c + 1 + i)) ex) eqn:M2.
            - right. intros k Hk. replace k with 0 by lia. rewrite Nat.add_0_r, <- z_suffixed_nat by lia. apply mem_In; auto.
            - left. exists (c + 1)%Z, (z_suffixed ty (c + 1 + i)). repeat split; auto; [apply mem_not_In; auto|lia|]. right. split; auto; lia. }
          simpl. destruct (mem (z_suffixed ty (c + 1 + i)) ex) eqn:M2.
          2: { left. exists (c + 1)%Z, (z_suffixed ty (c + 1 + i)). repeat split; auto; [apply mem_not_In; auto|lia|]. right. split; auto; lia. }
          right. intros k Hk. destruct k as [|k].
          { rewrite Nat.add_0_r, <- z_suffixed_nat by lia. apply mem_In; auto. }
          replace (Z.to_nat (c + 1 + i) + S k) with (Z.to_nat (c + 1 + 1 + i) + k) by lia. apply H. lia.
      + left. exists c, name. repeat split; auto; [apply mem_not_In; auto|lia]. }
  destruct (G fuel c name Hc) as [H|H]; auto. exfalso.
  assert (Nd : NoDup (map (fun k => suffixed ty (Z.to_nat (c + 1 + i) + k)) (seq 0 fuel))).
  { apply FinFun.Injective_map_NoDup; [|apply seq_NoDup]. intros a b E. apply suffixed_inj in E. lia. }
  apply NoDup_incl_length with (l' := ex) in Nd.
  - rewrite map_length, seq_length in Nd. lia.
  - intros x I. apply in_map_iff in I. destruct I as (k & <- & I). apply in_seq in I. apply H. lia.
Qed.

Definition derived (ty n : string) : Prop := n = ty \/ exists k, n = suffixed ty k.

Lemma dset_fresh {K V} `{EqDec K} (k : K) (v : V) d : ~ In k (dkeys d) -> dset k v d = d ++ [(k, v)].
Proof.
  induction d as [|(k' & v') d IH]; simpl; auto. intros N. unfold eqb. destruct (eq_dec k k') as [->|]; [tauto|]. rewrite IH; auto.
Qed.

Lemma name_type_ok (single : bool) ty : forall ms i c mp ex,
  (0 <= i)%Z -> (if single then c = 0%Z /\ i = 0%Z /\ length ms <= 1 else (0 <= c)%Z) ->
  NoDup ms -> (forall m, In m ms -> ~ In m (dkeys (mp : dict nat string))) ->
  exists (new : dict nat string) ex', name_type single ty ms i c mp ex = Ok (mp ++ new, ex') /\ dkeys new = ms /\
    NoDup (dvals new) /\ (forall n, In n (dvals new) -> ~ In n ex /\ derived ty n) /\
    (forall n, In n ex' <-> In n ex \/ In n (dvals new)).
Proof.
  induction ms as [|m r IH]; intros i c mp ex Hi Hs Nd Nk.
  - exists [], ex. simpl. rewrite app_nil_r. repeat split; auto; try constructor; try tauto.
  - cbn [name_type]. inversion Nd; subst.
    set (c1 := if single then (c - 1)%Z else c). set (nm := if single then ty else z_suffixed ty (c1 + i)).
    destruct (bump_ok ty i ex (S (length ex)) c1 nm) as (c' & n & E & Nn & Lc & Cs); [unfold c1; destruct single; lia|lia|].
    rewrite E. cbn [bind].
    assert (Dn : derived ty n).
    { destruct Cs as [(-> & ->)|(L & ->)]; unfold nm, c1 in *; destruct single; unfold derived; auto; right;
        rewrite z_suffixed_nat by lia; eauto. }
    rewrite dset_fresh by (apply Nk; simpl; auto).
    destruct r as [|m2 r2].
    { exists [(m, n)], (sadd n ex). cbn [name_type]. split; auto. split; auto. simpl.
      split; [constructor; auto; constructor|]. split; [intros x [<-|[]]; auto|].
      intros x. rewrite In_sadd. split; [intros [->|]; auto|intros [|[->|[]]]; auto]. }
    destruct (IH (i + 1)%Z c' (mp ++ [(m, n)]) (sadd n ex)) as (new & ex' & E' & Kn & Nv & Dv & Ie); auto.
    + lia.
    + destruct single; [|unfold c1 in *; lia]. simpl in Hs.
      lia.
    + intros m' I. unfold dkeys. rewrite map_app, in_app_iff. intros [J|[J|[]]]; [apply (Nk m'); simpl; auto|simpl in J; subst; auto].
    + exists ((m, n) :: new), ex'. rewrite <- app_assoc in E'. simpl in E'. repeat split; auto.
      * simpl. rewrite Kn. auto.
      * simpl. constructor; auto. intros I. apply Dv in I. apply (proj1 I). apply In_sadd. auto.
      * simpl in H. destruct H as [<-|H]; auto. apply Dv in H. intros J. apply (proj1 H), In_sadd. auto.
      * simpl in H. destruct H as [<-|H]; auto. apply Dv, H.
      * intros J. apply Ie in J. rewrite In_sadd in J. simpl. destruct J as [[->|J]|J]; auto.
      * simpl. intros [J|[->|J]]; apply Ie; rewrite In_sadd; auto.
Qed.

Definition named (dag : list submodel) : list (nat * string) :=
  flat_map (fun m => match given_name m with Some n => [(sm_id m, n)] | None => [] end) dag.
Definition unnamed (dag : list submodel) : list nat :=
  flat_map (fun m => match given_name m with Some _ => [] | None => [sm_id m] end) dag.
Definition first_step (st : dict nat string * list string * dict string (list nat)) (m : submodel) :=
  let '(mapping, existing, types) := st in
  match given_name m with
  | Some n => (dset (sm_id m) n mapping, sadd n existing, types)
  | None => (mapping, existing,
             dset (sm_default m) (match dget (sm_default m) types with Some l => l | None => [] end ++ [sm_id m]) types)
  end.
Lemma perm_dset_snoc (k : string) (x : nat) (d : dict string (list nat)) : dwf d ->
  Permutation (flat_map snd (dset k (match dget k d with Some l => l | None => [] end ++ [x]) d)) (flat_map snd d ++ [x]).
Proof.
  unfold dwf. induction d as [|(k' & l) d IH]; simpl; intros W; auto. inversion W; subst.
  unfold eqb. destruct (eq_dec k k') as [->|]; simpl.
  - rewrite <- !app_assoc. apply Permutation_app_head, Permutation_app_comm.
  - rewrite <- app_assoc. apply Permutation_app_head, IH; auto.
Qed.
Lemma first_fold dag : NoDup (map sm_id dag) ->
  exists mp ex ty, fold_left first_step dag ([], [], []) = (mp, ex, ty) /\
    mp = named dag /\ (forall n, In n ex <-> In n (map snd (named dag))) /\
    dwf ty /\ Permutation (flat_map snd ty) (unnamed dag) /\
    (forall t ms i, In (t, ms) ty -> In i ms -> exists m, In m dag /\ sm_id m = i /\ given_name m = None /\ sm_default m = t).
Proof.
  induction dag as [|m r IH] using rev_ind; intros Nd.
  - exists [], [], []. simpl. repeat split; auto; try tauto. constructor.
  - rewrite map_app in Nd. simpl in Nd. pose proof (NoDup_remove _ _ _ Nd) as (Nd' & Nm). rewrite app_nil_r in *.
    destruct (IH Nd') as (mp & ex & ty & E & -> & Ie & W & Pm & Or).
    rewrite fold_left_app, E. cbn [fold_left first_step].
    assert (Kn : forall i, In i (dkeys (named r)) -> In i (map sm_id r)).
    { clear. intros i. unfold named, dkeys. rewrite in_map_iff. intros ((j & n) & <- & I). apply in_flat_map in I.
      destruct I as (m & Im & I). destruct (given_name m); simpl in I; [|tauto]. destruct I as [I|[]]. injection I as <- <-. simpl. apply in_map; auto. }
    unfold named, unnamed in *. rewrite !flat_map_app. cbn [flat_map]. rewrite !app_nil_r.
    destruct (given_name m) as [n|] eqn:G.
    + do 3 eexists. split; [reflexivity|]. split; [apply dset_fresh; auto|]. rewrite !app_nil_r. split; [|split; [auto|split; auto]].
      * intros x. rewrite In_sadd, Ie, map_app, in_app_iff. simpl. split; [intros [->|]; auto|intros [|[->|[]]]; auto].
      * intros t ms i I J. destruct (Or t ms i I J) as (m' & I' & R). exists m'. split; auto. apply in_app_iff; auto.
    + do 3 eexists. split; [reflexivity|]. rewrite !app_nil_r. split; auto. split; auto. split; [apply dwf_dset; auto|]. split.
      * etransitivity; [apply perm_dset_snoc; auto|]. apply Permutation_app_tail; auto.
      * intros t ms i I J. apply In_dget in I; [|apply dwf_dset; auto].
        rewrite dget_dset in I. destruct (eq_dec t (sm_default m)) as [->|Et].
        -- injection I as <-. apply in_app_iff in J. destruct J as [J|[<-|[]]].
           ++ destruct (dget (sm_default m) ty) as [l|] eqn:D; [|destruct J]. apply dget_In in D.
              destruct (Or _ _ _ D J) as (m' & I' & R). exists m'. split; auto. apply in_app_iff; auto.
           ++ exists m. split; [apply in_app_iff; simpl; auto|]. auto.
        -- apply dget_In in I. destruct (Or _ _ _ I J) as (m' & I' & R). exists m'. split; auto. apply in_app_iff; auto.
Qed.

Lemma types_fold : forall (types : dict string (list nat)) mp ex,
  NoDup (dkeys mp ++ flat_map snd types) ->
  exists (new : dict nat string) ex',
    foldM (fun (st : dict nat string * list string) tm =>
      let (ty, ms) := (tm : string * list nat) in
      name_type (Nat.eqb (length ms) 1) ty ms 0%Z 0%Z (fst st) (snd st)) types (mp, ex) = Ok (mp ++ new, ex') /\
    dkeys new = flat_map snd types /\ NoDup (dvals new) /\ (forall n, In n (dvals new) -> ~ In n ex) /\
    (forall i n, In (i, n) new -> exists ty ms, In (ty, ms) types /\ In i ms /\ derived ty n).
Proof.
  induction types as [|(ty & ms) r IH]; intros mp ex Nd.
  - exists [], ex. simpl. rewrite app_nil_r. repeat split; auto; try constructor; simpl; tauto.
  - cbn [foldM flat_map snd] in *. 
    assert (Ndm : NoDup ms /\ forall m, In m ms -> ~ In m (dkeys mp)).
    { rewrite app_assoc in Nd. assert (X : NoDup (dkeys mp ++ ms)).
      { clear -Nd. induction (flat_map snd r) as [|x l IHl] using rev_ind; [rewrite app_nil_r in Nd; auto|].
        rewrite app_assoc in Nd. apply NoDup_remove_1 in Nd. rewrite app_nil_r in Nd. auto. }
      clear Nd. induction (dkeys mp) as [|x l IHl]; simpl in X; [split; auto|]. inversion X; subst.
      destruct IHl as (A & B); auto. split; auto. intros m I [->|J]; [apply H1, in_app_iff; auto|apply (B m); auto]. }
    destruct Ndm as (Ndm & Dj).
    destruct (name_type_ok (length ms =? 1) ty ms 0%Z 0%Z mp ex) as (n1 & ex1 & E & Kn & Nv & Dv & Ie); auto; [lia| |].
    { destruct (length ms =? 1) eqn:L; [|lia]. apply Nat.eqb_eq in L. lia. }
    cbn [fst snd]. rewrite E. cbn [bind].
    destruct (IH (mp ++ n1) ex1) as (n2 & ex2 & E2 & K2 & Nv2 & D2 & O2).
    { unfold dkeys in *. rewrite map_app, Kn, <- app_assoc. auto. }
    exists (n1 ++ n2), ex2. split; [etransitivity; [exact E2|rewrite <- app_assoc; auto]|]. unfold dkeys, dvals in *. rewrite !map_app, Kn, K2. split; auto.
    split; [|split].
    + assert (Dd : forall n, In n (map snd n1) -> ~ In n (map snd n2)).
      { intros n A B. apply (D2 n B), Ie. auto. }
      clear -Nv Nv2 Dd. induction (map snd n1) as [|x l IHl]; simpl; auto. inversion Nv; subst. constructor.
      * rewrite in_app_iff. intros [|J]; [auto|]. apply (Dd x); simpl; auto.
      * apply IHl; auto. intros n I. apply Dd; simpl; auto.
    + intros n I. apply in_app_iff in I. destruct I as [I|I]; [apply Dv, I|]. intros J. apply (D2 n I), Ie. auto.
    + intros i n I. apply in_app_iff in I. destruct I as [I|I].
      * exists ty, ms. split; [simpl; auto|]. split; [rewrite <- Kn; apply in_map_iff; exists (i, n); auto|].
        apply (Dv n). apply in_map_iff. exists (i, n). auto.
      * destruct (O2 i n I) as (ty' & ms' & A & B). exists ty', ms'. split; simpl; auto.
Qed.

Lemma split_ids dag : Permutation (map fst (named dag) ++ unnamed dag) (map sm_id dag).
Proof.
  induction dag as [|m r IH]; simpl; auto. unfold named, unnamed in *. simpl. destruct (given_name m); simpl.
  - constructor. auto.
  - rewrite <- Permutation_middle. constructor. auto.
Qed.
Lemma NoDup_app_intro {A} (l l' : list A) : NoDup l -> NoDup l' -> (forall x, In x l -> ~ In x l') -> NoDup (l ++ l').
Proof.
  induction l as [|x l IH]; simpl; auto. intros Nd Nd' D. inversion Nd; subst. constructor.
  - rewrite in_app_iff. intros [|J]; auto. apply (D x); auto.
  - apply IH; auto.
Qed.

(** The main fact behind C12. *)
Lemma unique_names dag : NoDup (map sm_id dag) ->
  exists new, get_unique_submodel_names dag = Ok (named dag ++ new) /\
    Permutation (dkeys (named dag ++ new)) (map sm_id dag) /\
    NoDup (dvals new) /\ (forall n, In n (dvals new) -> ~ In n (dvals (named dag))) /\
    (forall i n, In (i, n) new -> exists m, In m dag /\ sm_id m = i /\ given_name m = None /\ derived (sm_default m) n).
Proof.
  intros Nd. destruct (first_fold dag Nd) as (mp & ex & ty & E & -> & Ie & W & Pm & Or).
  unfold get_unique_submodel_names. change (fold_left _ dag _) with (fold_left first_step dag ([], [], [])). rewrite E.
  destruct (types_fold ty (named dag) ex) as (new & ex' & F & Kn & Nv & Dv & O).
  { apply (Permutation_NoDup (l := map sm_id dag)); auto. rewrite <- split_ids. apply Permutation_app_head. symmetry. auto. }
  rewrite F. cbn [bind fst]. exists new. split; auto. split; [|split; auto; split].
  - unfold dkeys in *. rewrite map_app, Kn. rewrite <- split_ids. apply Permutation_app_head. auto.
  - intros n I J. apply (Dv n I), Ie. auto.
  - intros i n I. destruct (O i n I) as (t & ms & A & B & C). destruct (Or t ms i A B) as (m & X & Y & Z & <-). eauto.
Qed.

(** ** define_unique_names *)
Definition occ (b : string) (l : list string) : nat := count_occ string_dec l b.
Fixpoint numbered (before : list string) (ms : list submodel) : dict nat string :=
  match ms with
  | [] => []
  | m :: r => (sm_id m, suffixed (summary_base m) (occ (summary_base m) before)) :: numbered (before ++ [summary_base m]) r
  end.
Lemma numbered_app before a b : numbered before (a ++ b) = numbered before a ++ numbered (before ++ map summary_base a) b.
Proof.
  revert before. induction a as [|m a IH]; intros before; simpl; [rewrite app_nil_r; auto|]. rewrite IH, <- app_assoc. auto.
Qed.
Lemma numbered_keys before ms : dkeys (numbered before ms) = map sm_id ms.
Proof. revert before. induction ms; intros; simpl; auto. unfold dkeys in *. rewrite IHms. auto. Qed.
Definition sum_step (st : dict nat string * dict string submodel * dict string nat) (m : submodel) :=
  let '(names, single, count) := st in
  let name := summary_base m in
  let c := match dget name count with Some c => c | None => 0 end in
  let single := if Nat.eqb c 0 then dset name m single else ddel name single in
  (dset (sm_id m) (suffixed name c) names, single, dset name (c + 1) count).
Lemma occ_app b l r : occ b (l ++ r) = occ b l + occ b r.
Proof. apply count_occ_app. Qed.
Lemma occ_one b x : occ b [x] = if string_dec x b then 1 else 0.
Proof. unfold occ. simpl. destruct (string_dec x b); auto. Qed.

Lemma sum_fold ms : NoDup (map sm_id ms) ->
  exists single count, fold_left sum_step ms ([], [], []) = (numbered [] ms, single, count) /\ dwf single /\
    (forall b, match dget b count with Some c => c | None => 0 end = occ b (map summary_base ms)) /\
    (forall b m, dget b single = Some m <-> In m ms /\ summary_base m = b /\ occ b (map summary_base ms) = 1).
Proof.
  induction ms as [|m r IH] using rev_ind; intros Nd.
  - exists [], []. simpl. repeat split; auto; try constructor; try discriminate. intros (H & _). destruct H.
  - rewrite map_app in Nd. simpl in Nd. pose proof (NoDup_remove _ _ _ Nd) as (Nd' & Nm). rewrite app_nil_r in *.
    destruct (IH Nd') as (sg & ct & E & W & Hc & Hs). rewrite fold_left_app, E. cbn [fold_left sum_step].
    rewrite numbered_app, Hc. cbn [numbered app]. rewrite dset_fresh by (rewrite numbered_keys; auto).
    set (b0 := summary_base m) in *. set (c := occ b0 (map summary_base r)) in *.
    do 2 eexists. split; [reflexivity|]. split; [destruct (c =? 0); [apply dwf_dset|apply dwf_ddel]; auto|]. split.
    + intros b. rewrite map_app, occ_app. cbn [map]. rewrite occ_one. rewrite dget_dset. fold b0.
      destruct (eq_dec b b0) as [->|N].
      * destruct (string_dec b0 b0); [auto|congruence].
      * rewrite Hc. destruct (string_dec b0 b); [congruence|lia].
    + intros b x. rewrite map_app, occ_app. cbn [map]. rewrite occ_one. fold b0.
      destruct (string_dec b0 b) as [<-|N].
      * destruct (c =? 0) eqn:C0.
        -- apply Nat.eqb_eq in C0. rewrite dget_dset_same. fold c. rewrite C0. split.
           ++ intros H. injection H as <-. split; [apply in_app_iff; simpl; auto|]. auto.
           ++ intros (I & Eb & _). apply in_app_iff in I. destruct I as [I|[<-|[]]]; auto. exfalso.
              assert (J : In b0 (map summary_base r)) by (rewrite <- Eb; apply in_map; auto).
              apply (count_occ_In string_dec) in J. unfold c, occ in C0. lia.
        -- apply Nat.eqb_neq in C0. rewrite dget_ddel_same by auto. fold c. split; [discriminate|]. intros (_ & _ & H). lia.
      * assert (D : dget b (if c =? 0 then dset b0 m sg else ddel b0 sg) = dget b sg).
        { destruct (c =? 0); [apply dget_dset_other|apply dget_ddel_other]; auto. }
        rewrite D, Hs, Nat.add_0_r. rewrite in_app_iff. simpl. split; [tauto|]. intros ([I|[<-|[]]] & Eb & O); auto. contradiction.
Qed.

(** What each model is called. *)
Definition final_name (all before : list string) (b : string) : string :=
  if Nat.eqb (occ b all) 1 then b else suffixed b (occ b before).
Fixpoint final_names (all before : list string) (ms : list submodel) : dict nat string :=
  match ms with
  | [] => []
  | m :: r => (sm_id m, final_name all before (summary_base m)) :: final_names all (before ++ [summary_base m]) r
  end.
Lemma update_vals : forall (l : list submodel) (d : dict nat string), NoDup (map sm_id l) -> (forall m, In m l -> In (sm_id m) (dkeys d)) ->
  let d' := fold_left (fun names m => dset (sm_id m) (summary_base m) names) l d in
  dkeys d' = dkeys d /\
  forall i, dget i d' = match find (fun m => Nat.eqb (sm_id m) i) l with Some m => Some (summary_base m) | None => dget i d end.
Proof.
  induction l as [|m l IH]; intros d Nd Hk; simpl; auto. inversion Nd; subst.
  assert (Kd : dkeys (dset (sm_id m) (summary_base m) d) = dkeys d).
  { rewrite dkeys_dset. destruct (dmem (sm_id m) d) eqn:M; auto. apply dmem_false in M. apply dget_None in M.
    exfalso. apply M, Hk. simpl. auto. }
  destruct (IH (dset (sm_id m) (summary_base m) d) H2) as (K & G).
  { intros x I. rewrite Kd. apply Hk. simpl; auto. }
  split; [congruence|]. intros i. rewrite G.
  destruct (sm_id m =? i) eqn:Ei.
  - apply Nat.eqb_eq in Ei. subst i. rewrite dget_dset_same.
    destruct (find (fun x => sm_id x =? sm_id m) l) as [x|] eqn:Fx; auto. apply find_some in Fx. destruct Fx as (I & Ex).
    apply Nat.eqb_eq in Ex. exfalso. apply H1. rewrite <- Ex. apply in_map; auto.
  - apply Nat.eqb_neq in Ei. destruct (find _ l); auto. apply dget_dset_other. auto.
Qed.
Lemma dict_ext (d e : dict nat string) : NoDup (dkeys d) -> dkeys d = dkeys e -> (forall k, dget k d = dget k e) -> d = e.
Proof.
  revert e. induction d as [|(k & v) d IH]; intros [|(k' & v') e] Nd K G; simpl in K; try discriminate; auto.
  injection K as -> K. inversion Nd; subst. pose proof (G k') as Gk. simpl in Gk. destruct (eq_dec k' k') as [_|]; [|congruence]. injection Gk as ->. f_equal.
  apply IH; auto. intros k. specialize (G k). simpl in G. destruct (eq_dec k k') as [->|]; auto.
  rewrite (proj2 (dget_None k' d)), (proj2 (dget_None k' e)); auto. unfold dkeys in *. rewrite <- K; auto.
Qed.
Lemma final_keys all before ms : dkeys (final_names all before ms) = map sm_id ms.
Proof. revert before. induction ms; intros; simpl; auto. unfold dkeys in *. rewrite IHms. auto. Qed.
Lemma NoDup_map_In {A B} (f : A -> B) l x y : NoDup (map f l) -> In x l -> In y l -> f x = f y -> x = y.
Proof.
  induction l as [|z l IH]; simpl; [tauto|]. intros Nd Ix Iy E. inversion Nd; subst.
  destruct Ix as [->|Ix], Iy as [->|Iy]; auto.
  - exfalso. apply H1. rewrite E. apply in_map; auto.
  - exfalso. apply H1. rewrite <- E. apply in_map; auto.
Qed.
Lemma summary_names ms : NoDup (map sm_id ms) -> define_unique_names ms = final_names (map summary_base ms) [] ms.
Proof.
  intros Nd. destruct (sum_fold ms Nd) as (sg & ct & E & W & Hc & Hs).
  unfold define_unique_names. change (fold_left _ ms _) with (fold_left sum_step ms ([], [], [])). rewrite E.
  assert (Iv : forall m, In m (dvals sg) <-> In m ms /\ occ (summary_base m) (map summary_base ms) = 1).
  { intros m. unfold dvals. rewrite in_map_iff. split.
    - intros ((b & x) & <- & I). apply In_dget in I; auto. apply Hs in I. destruct I as (I & <- & O). auto.
    - intros (I & O). exists (summary_base m, m). split; auto. apply dget_In, Hs. auto. }
  assert (Nv : NoDup (map sm_id (dvals sg))).
  { unfold dvals. rewrite map_map.
    assert (X : forall x y, In x sg -> In y sg -> sm_id (snd x) = sm_id (snd y) -> x = y).
    { intros (b & x) (b' & y) I J Ei. simpl in Ei. apply In_dget in I; auto. apply In_dget in J; auto. apply Hs in I, J.
      destruct I as (I & <- & _), J as (J & <- & _). assert (x = y) by (eapply NoDup_map_In; eauto). subst. auto. }
    assert (Ns : NoDup sg). { clear -W. unfold dwf, dkeys in W. apply NoDup_map_inv in W. auto. }
    clear -X Ns. induction sg as [|x l IH]; simpl; [constructor|]. inversion Ns; subst. constructor.
    - rewrite in_map_iff. intros (y & Ey & I). apply H1. rewrite (X x y); simpl; auto.
    - apply IH; auto. intros a b I J. apply X; simpl; auto. }
  destruct (update_vals (dvals sg) (numbered [] ms) Nv) as (K & G).
  { intros m I. rewrite numbered_keys. apply in_map, Iv, I. }
  apply dict_ext.
  - rewrite K, numbered_keys. auto.
  - rewrite K, numbered_keys, final_keys. auto.
  - intros i. rewrite G. clear G K E Hc.
    assert (Fi : forall m, In m ms -> match find (fun x => sm_id x =? sm_id m) (dvals sg) with
                              | Some x => x = m /\ occ (summary_base m) (map summary_base ms) = 1
                              | None => occ (summary_base m) (map summary_base ms) <> 1 end).
    { intros m I. destruct (find (fun x => sm_id x =? sm_id m) (dvals sg)) as [x|] eqn:F.
      - apply find_some in F. destruct F as (J & Ex). apply Nat.eqb_eq in Ex. apply Iv in J.
        assert (x = m) by (apply (NoDup_map_In sm_id ms); auto; apply J). subst. split; auto. apply J.
      - intros O. assert (J : In m (dvals sg)) by (apply Iv; auto). apply (find_none _ _ F m) in J. rewrite Nat.eqb_refl in J. discriminate. }
    assert (Out : ~ In i (map sm_id ms) -> find (fun x => sm_id x =? i) (dvals sg) = None).
    { intros N. destruct (find (fun x => sm_id x =? i) (dvals sg)) as [x|] eqn:F; auto. apply find_some in F.
      destruct F as (J & Ex). apply Nat.eqb_eq in Ex. exfalso. apply N. rewrite <- Ex. apply in_map, Iv, J. }
    revert Out. set (all := map summary_base ms) in *.
    assert (Gen : forall l before, (forall m, In m l -> In m ms) ->
      (~ In i (map sm_id l) -> find (fun x => sm_id x =? i) (dvals sg) = None \/ True) ->
      (In i (map sm_id l) ->
      match find (fun m => sm_id m =? i) (dvals sg) with Some m => Some (summary_base m) | None => dget i (numbered before l) end =
      dget i (final_names all before l))).
    { induction l as [|m l IH]; intros before Sub _ I; [destruct I|]. simpl in I. cbn [numbered final_names dget].
      destruct (eq_dec i (sm_id m)) as [->|N].
      - unfold final_name. pose proof (Fi m (Sub m (or_introl eq_refl))) as F.
        destruct (find (fun x => sm_id x =? sm_id m) (dvals sg)) as [x|].
        + destruct F as (-> & ->). auto.
        + apply Nat.eqb_neq in F. rewrite F. auto.
      - destruct I as [I|I]; [congruence|]. apply IH; auto. intros x J. apply Sub. simpl; auto. }
    intros Out. destruct (in_dec Nat.eq_dec i (map sm_id ms)) as [I|N].
    + apply Gen; auto.
    + rewrite Out by auto. transitivity (@None string); [|symmetry]; apply dget_None; [rewrite numbered_keys|rewrite final_keys]; auto.
Qed.

Lemma final_vals all : forall ms before k x, nth_error ms k = Some x ->
  nth_error (dvals (final_names all before ms)) k = Some (final_name all (before ++ firstn k (map summary_base ms)) (summary_base x)).
Proof.
  induction ms as [|m r IH]; intros before [|k] x E; simpl in E; try discriminate.
  - injection E as ->. simpl. rewrite app_nil_r. auto.
  - simpl. unfold dvals in *. rewrite (IH _ k x E), <- app_assoc. auto.
Qed.
Lemma final_vals_length all ms before : length (dvals (final_names all before ms)) = length ms.
Proof. unfold dvals. rewrite map_length. rewrite <- (map_length fst). fold (dkeys (final_names all before ms)). rewrite final_keys, map_length. auto. Qed.
Lemma occ_firstn_lt (l : list string) : forall k b, nth_error l k = Some b -> occ b (firstn k l) < occ b l.
Proof.
  unfold occ. induction l as [|x l IH]; intros [|k] b E; simpl in E; try discriminate.
  - injection E as ->. simpl. destruct (string_dec b b); [lia|congruence].
  - simpl. specialize (IH k b E). destruct (string_dec x b); lia.
Qed.
Lemma occ_firstn_mono (l : list string) : forall j k b, nth_error l j = Some b -> j < k -> occ b (firstn j l) < occ b (firstn k l).
Proof.
  unfold occ. induction l as [|x l IH]; intros [|j] [|k] b E L; simpl in E; try discriminate; try lia.
  - injection E as ->. simpl. destruct (string_dec b b); [lia|congruence].
  - simpl. specialize (IH j k b E ltac:(lia)). destruct (string_dec x b); lia.
Qed.
Lemma occ_reached (l : list string) : forall b i, i < occ b l -> exists k, nth_error l k = Some b /\ occ b (firstn k l) = i.
Proof.
  unfold occ. induction l as [|x l IH]; intros b i L; simpl in L; [lia|].
  destruct (string_dec x b) as [->|N].
  - destruct i as [|i].
    + exists 0. simpl. auto.
    + destruct (IH b i) as (k & E & O); [lia|]. exists (S k). simpl. destruct (string_dec b b); [|congruence]. auto.
  - destruct (IH b i L) as (k & E & O). exists (S k). simpl. destruct (string_dec x b); [congruence|]. auto.
Qed.
