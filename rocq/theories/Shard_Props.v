(** * C32: proposed shardings *)
From Coq Require Import List Arith Lia Bool ZArith Permutation Sorting.Sorted.
From Verif Require Import PyBase Shard_Model.
Import ListNotations.
Open Scope list_scope. Open Scope nat_scope.

(** ** Specification *)
(** A factor fits a dimension: it divides a known size; dimensions of unknown size are not split. *)
Definition fits (d : sdim) (e : Z) : Prop := match d with Size d => (e | d)%Z | Open => e = 1%Z | Dots => False end.
Definition splitting (e : Z) : bool := negb (e =? 1)%Z.
(** The factors that split something are those of the mesh, in some order. *)
Definition shards (shape : list sdim) (mesh sh : list Z) : Prop := Forall2 fits shape sh /\ Permutation (filter splitting sh) (filter splitting mesh).
Definition devices (l : list Z) : Z := fold_right Z.mul 1%Z l.

Lemma devices_filter l : devices (filter splitting l) = devices l.
Proof. unfold devices. induction l as [|x l IH]; [auto|]. cbn [filter]. unfold splitting at 1. destruct (Z.eqb_spec x 1) as [->|]; cbn [negb fold_right]; rewrite IH; lia. Qed.
Lemma devices_perm l m : Permutation l m -> devices l = devices m.
Proof. unfold devices. induction 1; cbn [fold_right]; auto; [rewrite IHPermutation; auto|lia|congruence]. Qed.
Lemma shards_devices shape mesh sh : shards shape mesh sh -> length sh = length shape /\ devices sh = devices mesh.
Proof. intros [F P]. split; [clear P; induction F; cbn; auto|]. rewrite <- (devices_filter sh), <- (devices_filter mesh). apply devices_perm. auto. Qed.

(** ** Proofs *)
Definition free (m : Z) (d : sdim) (s : Z) : Prop := match d with Size d => (s <= 1)%Z -> ~ (m | d)%Z | _ => True end.
Lemma place_ok m shape : forall sh, (1 < m)%Z -> ~ In Dots shape -> length sh = length shape ->
  match place m shape sh with
  | Ok (Some sh') => exists a b s shape1 shape2 d, sh = a ++ s :: b /\ (s <= 1)%Z /\ sh' = a ++ m :: b /\ shape = shape1 ++ Size d :: shape2 /\ length shape1 = length a /\ (m | d)%Z
  | Ok None => Forall2 (free m) shape sh
  | Err _ => False
  end.
Proof.
  induction shape as [|d shape IH]; intros [|s sh] Hm Nd L; try discriminate; cbn [place]; [constructor|]. injection L as L. assert (Nd' : ~ In Dots shape) by (intros X; apply Nd; right; auto). specialize (IH sh Hm Nd' L).
  assert (Skip : free m d s -> match bind (place m shape sh) (fun r => Ok (option_map (cons s) r)) with
    | Ok (Some sh') => exists a b s0 shape1 shape2 d0, s :: sh = a ++ s0 :: b /\ (s0 <= 1)%Z /\ sh' = a ++ m :: b /\ d :: shape = shape1 ++ Size d0 :: shape2 /\ length shape1 = length a /\ (m | d0)%Z
    | Ok None => Forall2 (free m) (d :: shape) (s :: sh) | Err _ => False end).
  { intros Fr. destruct (place m shape sh) as [[sh'|]|e]; cbn [bind option_map]; [|constructor; auto|auto]. destruct IH as (a & b & s0 & s1 & s2 & d0 & -> & H1 & -> & -> & H2 & H3). exists (s :: a), b, s0, (d :: s1), s2, d0. cbn. do 4 (split; [auto|]). auto. }
  destruct d as [d| |]; [|apply Skip; exact Logic.I|exfalso; apply Nd; left; auto]. destruct (Z.ltb_spec 1 s) as [Hs|Hs]; [apply Skip; cbn; lia|]. destruct (Z.eqb_spec m 0); [lia|]. destruct (Z.eqb_spec (d mod m) 0) as [E|E].
  - exists [], sh, s, [], shape, d. do 5 (split; [auto|]). apply Z.mod_divide; auto.
  - apply Skip. intros _ X. apply E. apply Z.mod_divide; auto.
Qed.
Definition started (shape : list sdim) (done sh : list Z) : Prop := Forall2 fits shape sh /\ Forall (fun e => 1 <= e)%Z sh /\ Permutation (filter splitting sh) (filter splitting done).
Lemma started_place shape done sh m a b s shape1 shape2 d : started shape done sh -> (1 < m)%Z -> sh = a ++ s :: b -> (s <= 1)%Z -> shape = shape1 ++ Size d :: shape2 -> length shape1 = length a -> (m | d)%Z -> started shape (done ++ [m]) (a ++ m :: b).
Proof.
  intros (F & P & Pm) Hm -> Hs -> L D. apply Forall_app in P as [Pa Pb]. inversion Pb as [|? ? Ps Pb']; subst. assert (s = 1%Z) by lia. subst s. split; [|split].
  - apply Forall2_app_inv_l in F as (y1 & y2 & F1 & F2 & E). assert (Ly : length y1 = length a) by (rewrite <- L; clear - F1; induction F1; cbn; auto). assert (X : y1 = a /\ y2 = 1%Z :: b). { clear - E Ly. revert y1 Ly E. induction a as [|x a IH]; intros [|y y1] Ly E; try discriminate; [auto|]. cbn in E. injection E as -> E. injection Ly as Ly. destruct (IH y1 Ly E) as [-> ->]. auto. }
    destruct X as [-> ->]. inversion F2; subst. apply Forall2_app; [auto|]. constructor; auto.
  - apply Forall_app. split; [auto|]. constructor; [lia|auto].
  - rewrite !filter_app in *. cbn [filter] in *. assert (Sm : splitting m = true) by (unfold splitting; destruct (Z.eqb_spec m 1); [lia|auto]). rewrite Sm in *. change (splitting 1) with false in Pm. cbn [app] in *. eapply Permutation_trans; [apply Permutation_sym, Permutation_middle|]. eapply Permutation_trans; [|apply Permutation_cons_append]. constructor. auto.
Qed.
Lemma started_length shape done sh : started shape done sh -> length sh = length shape.
Proof. intros (F & _). induction F; cbn; auto. Qed.
Lemma assign_ok mesh shape : forall done sh, Forall (fun m => 1 <= m)%Z mesh -> ~ In Dots shape -> started shape done sh ->
  match assign mesh shape sh with
  | Ok (Some sh') => shards shape (done ++ mesh) sh'
  | Ok None => exists mesh1 m mesh2 sh', mesh = mesh1 ++ m :: mesh2 /\ (1 < m)%Z /\ started shape (done ++ mesh1) sh' /\ Forall2 (free m) shape sh'
  | Err _ => False
  end.
Proof.
  induction mesh as [|m mesh IH]; intros done sh Pm Nd St; cbn [assign]; [rewrite app_nil_r; split; apply St|]. inversion Pm as [|? ? P1 P2]; subst. destruct (Z.eqb_spec m 1) as [->|N1].
  - assert (St' : started shape (done ++ [1%Z]) sh). { destruct St as (F & P & Q). split; [auto|]. split; [auto|]. rewrite filter_app. cbn. rewrite app_nil_r. auto. } specialize (IH (done ++ [1%Z]) sh P2 Nd St'). destruct (assign mesh shape sh) as [[sh'|]|e]; [rewrite <- app_assoc in IH; auto| |auto].
    destruct IH as (m1 & m & m2 & sh' & -> & H1 & H2 & H3). exists (1%Z :: m1), m, m2, sh'. rewrite <- app_assoc in H2. auto.
  - assert (X := place_ok m shape sh ltac:(lia) Nd (started_length _ _ _ St)). destruct (place m shape sh) as [[sh'|]|e]; cbn [bind].
    + destruct X as (a & b & s & s1 & s2 & d & E1 & E2 & E3 & E4 & E5 & E6). assert (St' : started shape (done ++ [m]) sh') by (rewrite E3; eapply started_place; eauto; lia). specialize (IH (done ++ [m]) sh' P2 Nd St'). destruct (assign mesh shape sh') as [[sh2|]|e]; [rewrite <- app_assoc in IH; auto| |auto].
      destruct IH as (m1 & k & m2 & sh2 & -> & H1 & H2 & H3). exists (m :: m1), k, m2, sh2. rewrite <- app_assoc in H2. auto.
    + exists [], m, mesh, sh. rewrite app_nil_r. split; [auto|]. split; [lia|]. auto.
    + auto.
Qed.
Lemma started_init shape : ~ In Dots shape -> started shape [] (repeat 1%Z (length shape)).
Proof.
  induction shape as [|d shape IH]; intros Nd; [split; [constructor|split; constructor]|]. destruct IH as (F & P & Q); [intros X; apply Nd; right; auto|]. cbn [length repeat]. split; [|split].
  - constructor; [|auto]. destruct d; cbn; [apply Z.divide_1_l|auto|apply Nd; left; auto].
  - constructor; [lia|auto].
  - cbn. auto.
Qed.
Lemma count_le {A B} (R : A -> B -> Prop) (p : B -> bool) (q : A -> bool) l m : Forall2 R l m -> (forall x y, R x y -> p y = true -> q x = true) -> length (filter p m) <= length (filter q l).
Proof. intros F H. induction F as [|x y l m E _ IH]; cbn; [auto|]. specialize (H x y E). destruct (p y); [rewrite H by auto; cbn; lia|]. destruct (q x); cbn; lia. Qed.
Lemma filter_all {A} (p : A -> bool) l : (forall x, In x l -> p x = true) -> filter p l = l.
Proof. induction l as [|x l IH]; intros H; cbn; [auto|]. rewrite H by (left; auto). f_equal. apply IH. intros y Hy. apply H. right. auto. Qed.
Lemma filter_and {A} (p q : A -> bool) l : filter (fun x => p x && q x) l = filter q (filter p l).
Proof. induction l as [|x l IH]; cbn; [auto|]. destruct (p x); cbn; [destruct (q x); [f_equal|]|]; auto. Qed.
Lemma perm_filter {A} (p : A -> bool) l m : Permutation l m -> Permutation (filter p l) (filter p m).
Proof. induction 1; cbn; [constructor|destruct (p x); [constructor|]; auto|destruct (p x), (p y); try reflexivity; constructor|eapply Permutation_trans; eauto]. Qed.
Lemma stuck shape mesh1 m mesh2 sh v : (1 < m)%Z -> started shape mesh1 sh -> Forall2 (free m) shape sh -> StronglySorted (fun a b => (b | a)%Z) (filter splitting (mesh1 ++ m :: mesh2)) -> ~ shards shape (mesh1 ++ m :: mesh2) v.
Proof.
  intros Hm (F & P & Pm) Fr So [Fv Pv]. set (p := fun e => splitting e && (e mod m =? 0)%Z). set (q := fun d => match d with Size d => (d mod m =? 0)%Z | _ => false end). assert (Sm : splitting m = true) by (unfold splitting; destruct (Z.eqb_spec m 1); [lia|auto]).
  assert (Nm : m <> 0%Z) by lia.
  assert (Up : length (filter p v) <= length (filter q shape)). { apply (count_le fits); [auto|]. intros [d| |] y E H; cbn in *; [|subst y; cbn in H; discriminate|contradiction]. unfold p in H. apply andb_true_iff in H as [_ H]. apply Z.eqb_eq in H. apply Z.eqb_eq. apply Z.mod_divide in H; [|auto]. apply Z.mod_divide; [auto|]. eapply Z.divide_trans; eauto. }
  assert (Mid : length (filter q shape) <= length (filter splitting sh)). { clear - Fr Nm P. induction Fr as [|d s shape sh E _ IH]; cbn; [auto|]. inversion P as [|? ? P1 P2]; subst. specialize (IH P2). destruct d as [d| |]; cbn [q]; try (destruct (splitting s); cbn; lia). cbn in E. destruct (Z.eqb_spec (d mod m) 0) as [Z0|Z0]; [|destruct (splitting s); cbn; lia].
    assert (Ss : splitting s = true). { unfold splitting. destruct (Z.eqb_spec s 1) as [->|]; [|auto]. exfalso. apply E; [lia|]. apply Z.mod_divide; auto. } rewrite Ss. cbn. lia. }
  assert (Low : S (length (filter splitting sh)) <= length (filter p v)). { rewrite (Permutation_length Pm). unfold p. rewrite filter_and. rewrite (Permutation_length (perm_filter (fun e => (e mod m =? 0)%Z) _ _ Pv)). rewrite filter_app in *. cbn [filter] in *. rewrite Sm in *. rewrite filter_app. cbn [filter]. rewrite Z.mod_same, Z.eqb_refl by auto. rewrite app_length. cbn [length].
    rewrite (filter_all (fun e => (e mod m =? 0)%Z) (filter splitting mesh1)); [lia|]. intros x Hx. apply Z.eqb_eq. apply Z.mod_divide; [auto|]. clear - So Hx. induction (filter splitting mesh1) as [|y l IH]; [destruct Hx|]. cbn in So. inversion So as [|? ? S1 S2]; subst. destruct Hx as [->|Hx]; [|auto]. rewrite Forall_forall in S2. apply S2. apply in_app_iff. right. left. auto. }
  lia.
Qed.

(** ** Every proposal is a valid sharding for as many devices as the mesh has; given shardings are taken over unchanged; other keys are
    left without sharding. *)
Section Theorems.
Context {K : Type} `{EqDec K}.
Lemma propose_all_get (shapes : dict K (option (list sdim))) given mesh keys : forall d d', propose_all shapes given mesh keys d = Ok d' ->
  forall k, (In k keys -> exists r, propose_key shapes given mesh k = Ok r /\ dget k d' = Some r) /\ (~ In k keys -> dget k d' = dget k d).
Proof.
  induction keys as [|key keys IH]; intros d d' E k; cbn [propose_all] in E; [injection E as <-; split; [intros []|auto]|]. destruct (propose_key shapes given mesh key) as [r|e] eqn:Er; [|discriminate]. cbn [bind] in E. destruct (IH _ _ E k) as [IH1 IH2]. split.
  - intros [->|Hk]; [|auto]. destruct (in_dec eq_dec k keys) as [Hk|Hk]; [auto|]. exists r. split; [auto|]. rewrite IH2, dget_dset_same by auto. auto.
  - intros N. rewrite IH2, dget_dset_other; auto; intros X; apply N; [left; auto|right; auto].
Qed.
Lemma dupdate_get (e : list (K * option (list Z))) : NoDup (map fst e) -> forall d k, dget k (dupdate d e) = match dget k e with Some v => Some v | None => dget k d end.
Proof.
  induction e as [|[k0 v0] e IH]; intros N d k; [auto|]. inversion N as [|? ? N1 N2]; subst. change (dupdate d ((k0, v0) :: e)) with (dupdate (dset k0 v0 d) e). rewrite IH by auto. cbn [dget]. destruct (eq_dec k k0) as [->|Ne].
  - replace (dget k0 e) with (@None (option (list Z))); [apply dget_dset_same|]. symmetry. apply dget_None. auto.
  - destruct (dget k e); [auto|]. apply dget_dset_other. auto.
Qed.
Lemma given_get (given : dict K (list Z)) k : dget k (map (fun kv => (fst kv, Some (snd kv))) given) = option_map Some (dget k given).
Proof. induction given as [|[k0 v] given IH]; cbn; [auto|]. destruct (eq_dec k k0); auto. Qed.
Theorem C32_valid : forall (keys : list K) shapes mesh given, Forall (fun m => 1 <= m)%Z mesh -> dwf given -> (forall k, In k keys -> dget k shapes <> None) ->
  exists d, propose_shardings keys shapes (Some mesh) given = Ok d /\
  forall k, match dget k given, dget k d with
    | Some v, r => r = Some (Some v)
    | None, Some (Some sh) => In k keys /\ exists shape, dget k shapes = Some (Some shape) /\ length sh = length shape /\ Forall2 fits shape sh /\ devices sh = devices mesh /\ Permutation (filter splitting sh) (filter splitting mesh)
    | None, Some None => In k keys
    | None, None => ~ In k keys
    end.
Proof.
  intros keys shapes mesh given Pm Wg Hk. assert (Key : forall k, In k keys -> exists r, propose_key shapes given mesh k = Ok r /\ forall sh, r = Some sh -> exists shape, dget k shapes = Some (Some shape) /\ shards shape mesh sh).
  { intros k Hin. unfold propose_key. specialize (Hk k Hin). destruct (dget k shapes) as [[shape|]|] eqn:Es; [|exists None; split; [auto|discriminate]|congruence]. destruct (dmem k given || existsb is_dots shape) eqn:Ed; [exists None; split; [auto|discriminate]|]. apply orb_false_iff in Ed as [_ Ed].
    assert (Nd : ~ In Dots shape) by (intros X; assert (Y : existsb is_dots shape = true) by (apply existsb_exists; exists Dots; auto); congruence). assert (A := assign_ok mesh shape [] _ Pm Nd (started_init shape Nd)). destruct (assign mesh shape (repeat 1%Z (length shape))) as [[sh|]|e]; [|exists None; split; [auto|discriminate]|contradiction].
    exists (Some sh). split; [auto|]. intros sh' E. injection E as <-. exists shape. auto. }
  assert (All : forall l d0, (forall k, In k l -> In k keys) -> exists d, propose_all shapes given mesh l d0 = Ok d). { induction l as [|k l IH]; intros d0 Hl; [exists d0; auto|]. cbn [propose_all]. destruct (Key k) as (r & -> & _); [apply Hl; left; auto|]. cbn [bind]. apply IH. intros x Hx. apply Hl. right. auto. }
  destruct (All keys [] ltac:(auto)) as (d0 & E0). unfold propose_shardings. rewrite E0. cbn [bind]. eexists. split; [reflexivity|]. intros k. rewrite dupdate_get by (rewrite map_map; exact Wg). rewrite given_get. destruct (dget k given) as [v|] eqn:Eg; cbn [option_map]; [auto|].
  destruct (propose_all_get shapes given mesh keys [] d0 E0 k) as [G1 G2]. destruct (in_dec eq_dec k keys) as [Hin|Hin]; [|rewrite G2 by auto; auto]. destruct (G1 Hin) as (r & Er & ->). destruct r as [sh|]; [|auto]. split; [auto|]. destruct (Key k Hin) as (r' & Er' & Hr). rewrite Er in Er'. injection Er' as <-. destruct (Hr sh eq_refl) as (shape & Es & Sh). exists shape. split; [auto|]. destruct (shards_devices _ _ _ Sh) as [L D]. destruct Sh as [S1 S2]. auto.
Qed.

(** If each mesh entry divides the one before, a sharding is proposed whenever there is one. *)
Theorem C32_complete : forall (keys : list K) shapes mesh given d k shape sh, Forall (fun m => 1 <= m)%Z mesh -> StronglySorted (fun a b => (b | a)%Z) (filter splitting mesh) -> dwf given ->
  propose_shardings keys shapes (Some mesh) given = Ok d -> In k keys -> dget k given = None -> dget k shapes = Some (Some shape) -> Forall2 fits shape sh -> Permutation (filter splitting sh) (filter splitting mesh) ->
  exists sh', dget k d = Some (Some sh').
Proof.
  intros keys shapes mesh given d k shape sh Pm So Wg E Hin Eg Es F P. unfold propose_shardings in E. destruct (propose_all shapes given mesh keys []) as [d0|e] eqn:E0; [|discriminate]. cbn [bind] in E. injection E as <-. rewrite dupdate_get by (rewrite map_map; exact Wg). rewrite given_get, Eg. cbn [option_map].
  destruct (propose_all_get shapes given mesh keys [] d0 E0 k) as [G1 _]. destruct (G1 Hin) as (r & Er & ->). destruct r as [sh'|]; [eauto|]. exfalso. unfold propose_key in Er. rewrite Es in Er. unfold dmem in Er. rewrite Eg in Er. cbn [orb] in Er.
  assert (Nd : ~ In Dots shape). { intros X. clear - X F. induction F as [|d e shape sh E _ IH]; [destruct X|]. destruct X as [->|X]; [destruct E|auto]. } assert (Ed : existsb is_dots shape = false). { destruct (existsb is_dots shape) eqn:Y; [|auto]. apply existsb_exists in Y as (x & Hx & Y). destruct x; try discriminate. contradiction. }
  rewrite Ed in Er. assert (A := assign_ok mesh shape [] _ Pm Nd (started_init shape Nd)). rewrite Er in A. destruct A as (m1 & m & m2 & s' & -> & Hm & St & Fr). cbn [app] in St. eapply stuck; [exact Hm|exact St|exact Fr|exact So|]. split; [exact F|exact P].
Qed.
End Theorems.

(** ** Cases *)
Example C32_example : propose_shardings [1; 2; 3; 4] [(1, Some [Size 3%Z; Size 8%Z; Size 4%Z]); (2, Some [Dots; Size 8%Z]); (3, Some [Size 8%Z; Open]); (4, None)] (Some [4; 1; 2]%Z) [(3, [8; 1]%Z)] =
  Ok [(1, Some [1; 4; 2]%Z); (2, None); (3, Some [8; 1]%Z); (4, None)] /\ Forall (fun m => 1 <= m)%Z [4; 1; 2]%Z /\ StronglySorted (fun a b => (b | a)%Z) (filter splitting [4; 1; 2]%Z) /\ Forall2 fits [Size 3; Size 8; Size 4]%Z [1; 4; 2]%Z /\ dwf [(3, [8; 1]%Z)].
Proof.
  split; [vm_compute; auto|]. split; [repeat (constructor; [lia|]); constructor|]. split; [cbn; repeat constructor; exists 2%Z; auto|]. split; [|repeat constructor; intros []]. constructor; [exists 3%Z; auto|]. constructor; [exists 2%Z; auto|]. constructor; [exists 2%Z; auto|constructor].
Qed.
(** Finding: the greedy order misses valid shardings: (8, 2) on a mesh (2, 8) is given up, although (8, 2) splits it. *)
Theorem C32_order_refuted : propose_shardings [0] [(0, Some [Size 8%Z; Size 2%Z])] (Some [2; 8]%Z) [] = Ok [(0, None)] /\ shards [Size 8; Size 2]%Z [2; 8]%Z [8; 2]%Z.
Proof. split; [vm_compute; auto|]. split; [constructor; [exists 1%Z; auto|]; constructor; [exists 1%Z; auto|constructor]|]. cbn. apply perm_swap. Qed.
Print Assumptions C32_valid.
Print Assumptions C32_complete.
Print Assumptions C32_order_refuted.
