(** * Lemmas about broadcasting: aligning the output *)
From Coq Require Import List Arith Lia Bool ZArith.
From Verif Require Import PyBase Uniadic_Model Uniadic_Proofs Uniadic_Props Bcast_Model Bcast_Proofs Bcast_Props Shape_Model Shape_Proofs Shape_Proofs2 Shape_Proofs3 Shape_Props Reduce_Model Reduce_Proofs Reduce_Proofs2
  Rule_Proofs Arange_Proofs Window_Proofs Flat_Model Flat_Proofs2 Align_Model Align_Spec Align_Proofs.
Import ListNotations.
Open Scope list_scope. Open Scope nat_scope. Open Scope shm_scope.

(** ** Sizes counted from the end *)
Lemma size_front x k d : k < length x -> size_at x (length x - 1 - k) = nth k x d.
Proof. intros H. unfold size_at. rewrite rev_nth by lia. rewrite (nth_indep x 1%Z d) by lia. f_equal. lia. Qed.
Lemma size_beyond x i : length x <= i -> size_at x i = 1%Z.
Proof. intros H. unfold size_at. apply nth_overflow. rewrite rev_length. auto. Qed.
Lemma size_last a b i : i < length b -> size_at (a ++ b) i = size_at b i.
Proof. intros H. unfold size_at. rewrite rev_app_distr, app_nth1 by (rewrite rev_length; auto). auto. Qed.
Lemma size_before a b i : length b <= i -> size_at (a ++ b) i = size_at a (i - length b).
Proof. intros H. unfold size_at. rewrite rev_app_distr, app_nth2 by (rewrite rev_length; auto). rewrite rev_length. auto. Qed.
Lemma size_nth x i d : i < length x -> size_at x i = nth (length x - 1 - i) x d.
Proof. intros H. rewrite <- (size_front x (length x - 1 - i) d) by lia. f_equal. lia. Qed.
Lemma bcasts_sym x y z : bcasts x y z -> bcasts y x z.
Proof. intros [H1 H2]. split; [lia|]. intros i Hi. destruct (H2 i Hi) as [H|[[H3 H4]|[H3 H4]]]; [auto..|]. right. right. split; congruence. Qed.
Lemma bcasts_rel x y z : bcasts x y z -> forall i, bcast_rel (size_at x i) (size_at y i) (size_at z i).
Proof. intros [H1 H2] i. destruct (Nat.lt_ge_cases i (length z)) as [Lt|Ge]; [exact (H2 i Lt)|]. rewrite !size_beyond by lia. left. auto. Qed.
Lemma bcasts_big x y z i : bcasts x y z -> size_at x i <> 1%Z -> size_at z i = size_at x i.
Proof. intros H N. destruct (bcasts_rel x y z H i) as [[H1 _]|[[_ H1]|[_ H1]]]; [contradiction|auto..]. Qed.
Lemma bcasts_beyond x y z i : bcasts x y z -> length y <= i -> size_at z i = size_at x i.
Proof. intros H Ge. assert (R := bcasts_rel x y z H i). rewrite (size_beyond y i Ge) in R. destruct R as [[H1 H2]|[[_ H1]|[_ H1]]]; congruence. Qed.
Lemma bcasts_either x y z i : bcasts x y z -> size_at z i = size_at x i \/ size_at z i = size_at y i.
Proof. intros H. destruct (bcasts_rel x y z H i) as [[_ H1]|[[_ H1]|[_ H1]]]; auto. Qed.
Lemma bcasts_same x y z i : bcasts x y z -> size_at x i = size_at y i -> size_at z i = size_at x i.
Proof. intros H E. destruct (bcasts_rel x y z H i) as [[_ H1]|[[_ H1]|[_ H1]]]; congruence. Qed.
(** A list is known by its sizes from the end. *)
Lemma size_ext a b : length a = length b -> (forall i, i < length a -> size_at a i = size_at b i) -> a = b.
Proof.
  intros L H. rewrite <- (rev_involutive a), <- (rev_involutive b). f_equal. apply (nth_ext _ _ 1%Z 1%Z); [rewrite !rev_length; auto|]. intros n Hn. rewrite rev_length in Hn. apply (H n Hn).
Qed.
Lemma size_map (rho : nat -> Z) l k : k < length l -> size_at (map rho l) (length l - 1 - k) = rho (nth k l 0).
Proof. intros H. assert (X := size_front (map rho l) k (rho 0)). rewrite map_length in X. rewrite X by auto. apply map_nth. Qed.

(** ** Creating both sides of the output's new form *)
Lemma parts_ok {A} same known first l same' l' (k : list nat -> list nat -> shm A) s : sinv s -> (forall x, In x (l ++ l') -> live (us s) x) -> (forall f, first = Some f -> live (us s) f) ->
  exists u p x, (do p <- align_dims same known first 0 l; do x <- align_dims same' true None 0 l'; k p x) s = k p x (with_us s u) /\ length p = length l /\ length x = length l' /\
    grows (us s) u /\ (forall y, In y (p ++ x) -> live u y) /\ (forall rho, sat u rho -> sat (us s) rho) /\
    forall rho ys zs, sat (us s) rho -> length ys = length l -> length zs = length l' -> (forall k, k < length l -> may_be same known first k (nth k l 0) rho (nth k ys 0%Z)) ->
      (forall k, k < length l' -> may_be same' true None k (nth k l' 0) rho (nth k zs 0%Z)) -> exists rho', Reduce_Proofs.agrees (us s) rho rho' /\ sat u rho' /\ map rho' p = ys /\ map rho' x = zs.
Proof.
  intros I Lv Lf. destruct (align_dims_ok same known first l 0 s (s_inv _ I)) as (u1 & p & E1 & N1 & G1 & L1 & S1 & C1); [intros x Hx; apply Lv; apply in_app_iff; auto|auto|].
  destruct (align_dims_ok same' true None l' 0 (with_us s u1)) as (u2 & x & E2 & N2 & G2 & L2 & S2 & C2); [apply G1|intros y Hy; apply G1, Lv; apply in_app_iff; auto|discriminate|]. cbn [us with_us] in *.
  exists u2, p, x. split; [unfold hbind; rewrite E1, E2; auto|]. split; [auto|]. split; [auto|]. split; [eapply grows_trans; eauto|]. split; [intros y Hy; apply in_app_iff in Hy as [Hy|Hy]; [apply G2; auto|auto]|]. split; [auto|].
  intros rho ys zs Hs Ly Lz H1 H2. destruct (C1 rho ys Hs Ly H1) as (r1 & A1 & Hs1 & M1). destruct (C2 r1 zs Hs1 Lz) as (r2 & A2 & Hs2 & M2).
  { intros j Hj. specialize (H2 j Hj). unfold may_be in *. cbn [plus]. rewrite (A1 (nth j l' 0)) by (apply Lv, in_app_iff; right; apply nth_In; auto). destruct H2 as (X1 & X2 & _). split; [auto|]. split; [auto|]. discriminate. }
  exists r2. split; [intros y Hy; rewrite A2 by (apply G1; auto); auto|]. split; [auto|]. split; [|auto]. rewrite <- M1. apply map_ext_in. intros y Hy. apply A2. auto.
Qed.

(** ** The main step *)
Definition bc_rel (qo ql qr : nat) (sh : nat -> list Z) : Prop := bcasts (sh ql) (sh qr) (sh qo).
Lemma no_root_true r : no_root r = true -> root r = None.
Proof. unfold no_root. destruct (root r); [discriminate|auto]. Qed.
Lemma no_root_false r : no_root r = false -> root r <> None.
Proof. unfold no_root. destruct (root r); [discriminate|discriminate]. Qed.
Lemma hd_error_in {A} (l : list A) x : hd_error l = Some x -> In x l.
Proof. destruct l; [discriminate|]. intros [= ->]. left. auto. Qed.
Lemma nth_mid {A} (l : list A) d n k : n <= length l -> nth k (skipn n l) d = nth (n + k) l d.
Proof. revert n. induction l as [|x l IH]; intros [|n] H; cbn in *; auto; [lia|]. apply IH. lia. Qed.
Lemma nth_first {A} (l : list A) d n k : k < n -> nth k (firstn n l) d = nth k l d.
Proof. revert n k. induction l as [|x l IH]; intros [|n] [|k] H; cbn; auto; [lia|lia|]. apply IH. lia. Qed.
Lemma align_longer_ok (P : srel) s qo qL qS : sinv s -> qo < nrep s -> qL < nrep s -> qS < nrep s ->
  (forall sh, P sh -> bcasts (sh qL) (sh qS) (sh qo)) ->
  shlen (rp s qS) <= shlen (rp s qL) ->
  (root (rp s qo) <> None \/ (root (rp s qL) = None /\ root (rp s qS) = None)) ->
  (root (rp s qL) = None -> root (rp s qS) <> None -> pre (rp s qS) = []) ->
  (root (rp s qL) = root (rp s qS) -> root (rp s qL) <> None -> length (suf (rp s qL)) = length (suf (rp s qS))) ->
  match align_longer qo qL qS s with
  | (s', Ok _) => sound_for P s s' /\ (root (rp s qL) = None -> root (rp s qS) = None -> root (rp s' qo) = None) /\ (root (rp s qo) <> None -> root (rp s qL) <> None \/ root (rp s qS) <> None -> keeps s s')
  | (_, Err e) => e = ValueError /\ excludes P s
  end.
Proof.
  intros I Ho HL HS HP C0 C1 C2 C3. unfold align_longer. destruct (s_repr _ I qL HL) as (WL1 & WL2 & WL3). destruct (s_repr _ I qS HS) as (WS1 & WS2 & WS3).
  set (L := rp s qL) in *. set (S := rp s qS) in *. set (same := if (no_root S || eqb (root S) (root L))%bool then shlen L - shlen S else 0). set (known := (no_root (rp s qo) || no_root S || no_root L)%bool).
  set (keep := ((no_root S && (shlen S <=? length (suf L))) || (eqb (root S) (root L) && (length (suf L) =? length (suf S))))%bool).
  destruct (parts_ok same known (hd_error (pre S)) (pre L) (same - length (pre L)) (suf L) (fun p x => do v <- (if keep then hret (root L) else do w <- new_variadic; hret (Some w)); inner_match qo (if no_root L && negb (no_root S) then mkshape [] v p else mkshape p v x)) s I) as (u & p & x & E & Np & Nx & G & Lv & Sm & Cm).
  { intros y Hy. apply WL1. auto. } { intros f Hf. apply WS1. apply in_app_iff. left. apply hd_error_in. auto. }
  rewrite E. clear E.
  set (o := fun v => if (no_root L && negb (no_root S))%bool then mkshape [] v p else mkshape p v x).
  (* the parts of the output for given shapes *)
  assert (Main : forall rho tau sh, sat (us s) rho -> (forall y, y < nrep s -> den s rho tau y = sh y) -> P sh ->
    exists rho' mid, Reduce_Proofs.agrees (us s) rho rho' /\ sat u rho' /\
      (if (no_root L && negb (no_root S))%bool then sh qo = mid ++ map rho' p else sh qo = map rho' p ++ mid ++ map rho' x) /\
      (keep = true -> match root L with Some v => mid = tau v | None => mid = [] end)).
  { intros rho tau sh Hs D Hp. assert (B := HP sh Hp). assert (Dx : sh qL = dshape rho tau L) by (rewrite <- (D qL HL); auto). assert (Dy : sh qS = dshape rho tau S) by (rewrite <- (D qS HS); auto). clear D HP.
    set (a := sh qL) in *. set (b := sh qS) in *. set (z := sh qo) in *. clearbody a b z. unfold dshape in Dx, Dy. assert (Nz := proj1 B).
    assert (DxN : root L = None -> a = map rho (pre L)) by (intros R; rewrite Dx, R, (WL2 R); cbn; rewrite app_nil_r; auto). assert (DyN : root S = None -> b = map rho (pre S)) by (intros R; rewrite Dy, R, (WS2 R); cbn; rewrite app_nil_r; auto).
    destruct (root L) as [v|] eqn:RL.
    - (* the longer input is open *)
      assert (NL : no_root L = false) by (unfold no_root; rewrite RL; auto). rewrite NL. cbn [andb]. set (nL := length (pre L)) in *. set (mL := length (suf L)) in *.
      assert (La : length a = nL + (length (tau v) + mL)) by (rewrite Dx, !app_length, !map_length; auto).
      assert (Az : length a <= length z) by lia.
      (* positions of the longer input *)
      assert (PA : forall k, k < nL -> size_at a (length a - 1 - k) = rho (nth k (pre L) 0)).
      { intros k Hk. rewrite (size_front a k (rho 0)) by lia. rewrite Dx, app_nth1 by (rewrite map_length; auto). apply map_nth. }
      assert (PS : forall k, k < mL -> size_at a (mL - 1 - k) = rho (nth k (suf L) 0)).
      { intros k Hk. rewrite Dx, app_assoc, size_last by (rewrite map_length; fold mL; lia). apply size_map. auto. }
      assert (PM : forall i, i < length (tau v) -> size_at a (mL + i) = size_at (tau v) i).
      { intros i Hi. rewrite Dx, app_assoc, size_before by (rewrite map_length; fold mL; lia). rewrite map_length. fold mL. replace (mL + i - mL) with i by lia. apply size_last. auto. }
      set (ys := firstn nL z). set (mid := firstn (length z - nL - mL) (skipn nL z)). set (zs := skipn (length z - mL) z).
      assert (Ez : z = ys ++ mid ++ zs).
      { unfold ys, mid, zs. rewrite <- (firstn_skipn nL z) at 1. f_equal. rewrite <- (firstn_skipn (length z - nL - mL) (skipn nL z)) at 1. f_equal. rewrite skipn_skipn'. f_equal. lia. }
      assert (Ny : length ys = nL) by (unfold ys; rewrite firstn_length; lia). assert (Nzs : length zs = mL) by (unfold zs; rewrite skipn_length; lia).
      assert (QY : forall k, k < nL -> nth k ys 0%Z = size_at z (length z - 1 - k)).
      { intros k Hk. rewrite (size_front z k 0%Z) by lia. unfold ys. apply nth_first. auto. }
      assert (QZ : forall k, k < mL -> nth k zs 0%Z = size_at z (mL - 1 - k)).
      { intros k Hk. rewrite (size_nth z (mL - 1 - k) 0%Z) by lia. unfold zs. rewrite nth_mid by lia. f_equal. lia. }
      assert (Sfx : forall k, k < mL -> may_be (same - nL) true None k (nth k (suf L) 0) rho (nth k zs 0%Z)).
      { intros k Hk. rewrite QZ by auto. unfold may_be. rewrite <- (PS k Hk). split; [|split; [intros _ Nk; apply (bcasts_big a b); auto|discriminate]]. intros Lt. apply (bcasts_beyond a b); [auto|].
        unfold same in Lt. destruct (root S) as [v'|] eqn:RS; unfold no_root in Lt; rewrite RS in Lt; cbn [orb] in Lt.
        - try rewrite RL in Lt. destruct (eqb (Some v') (Some v)) eqn:Ev; [|lia]. apply (proj1 (eqb_eq _ _)) in Ev. assert (X := C3 ltac:(congruence) ltac:(discriminate)). unfold shlen in Lt. fold nL mL in Lt, X. lia.
        - rewrite (DyN eq_refl), map_length. unfold shlen in Lt. rewrite (WS2 eq_refl) in Lt. cbn [length] in Lt. fold nL mL in Lt. lia. }
      assert (Pfx : forall k, k < nL -> may_be same known (hd_error (pre S)) k (nth k (pre L) 0) rho (nth k ys 0%Z)).
      { intros k Hk. rewrite QY by auto. unfold shlen in C0. fold nL mL in C0. destruct (root S) as [v'|] eqn:RS.
        - (* both open *)
          assert (Ro : root (rp s qo) <> None) by (destruct C1 as [|[X _]]; [auto|discriminate]). assert (Kn : known = false). { unfold known, no_root. rewrite ?RL, ?RS. destruct (root (rp s qo)); [auto|congruence]. }
          rewrite Kn. assert (Lb : length b = length (pre S) + (length (tau v') + length (suf S))) by (rewrite Dy, !app_length, !map_length; auto).
          assert (Hf : forall f, hd_error (pre S) = Some f -> 0 < length (pre S) /\ size_at b (length b - 1) = rho f).
          { intros f Ef. destruct (pre S) as [|f' r] eqn:Ep; [discriminate|]. injection Ef as ->. split; [cbn; lia|]. cbn [length] in Lb. assert (X := size_front b 0 0%Z ltac:(lia)). rewrite Nat.sub_0_r in X. rewrite X, Dy. auto. }
          split; [|split; [discriminate|]].
          + intros Lt. assert (Ev : v' = v /\ same = nL + mL - (length (pre S) + length (suf S))). { unfold same, no_root in Lt |- *. rewrite ?RL, ?RS in Lt |- *. cbn [orb] in Lt |- *. destruct (eqb (Some v') (Some v)) eqn:Ev; [|lia]. apply (proj1 (eqb_eq _ _)) in Ev. split; [congruence|auto]. }
            destruct Ev as [-> Es]. assert (X := C3 ltac:(congruence) ltac:(discriminate)). fold mL in X. assert (Nza : length z = length a) by lia. rewrite Nza. rewrite <- (PA k Hk). apply (bcasts_beyond a b); [auto|]. lia.
          + intros -> Es f Ef. destruct (Hf f Ef) as [Pp Ef']. rewrite Nat.sub_0_r. destruct (Nat.lt_trichotomy (length a) (length b)) as [Lt|[Eq|Gt]].
            * right. replace (length z) with (length b) by lia. rewrite <- Ef'. apply (bcasts_beyond b a); [apply bcasts_sym; auto|lia].
            * assert (X := PA 0 Hk). rewrite Nat.sub_0_r in X. replace (length z) with (length a) by lia. rewrite <- X, <- Ef', <- Eq. apply (bcasts_either a b); auto.
            * left. assert (X := PA 0 Hk). rewrite Nat.sub_0_r in X. replace (length z) with (length a) by lia. rewrite <- X. apply (bcasts_beyond a b); [auto|lia].
        - (* the shorter input is closed *)
          assert (Lb : length b = length (pre S)) by (rewrite (DyN eq_refl), map_length; auto). rewrite (WS2 eq_refl) in C0. cbn [length] in C0. assert (Nza : length z = length a) by lia. rewrite Nza.
          assert (Es : same = nL + mL - length (pre S)). { unfold same, no_root, shlen. rewrite RS. cbn [orb]. rewrite (WS2 eq_refl). cbn [length]. fold nL mL. lia. }
          unfold may_be. rewrite <- (PA k Hk). split; [intros Lt; apply (bcasts_beyond a b); [auto|lia]|]. split; [intros _ Nk; apply (bcasts_big a b); auto|]. intros -> Es0 f Ef. rewrite Nat.sub_0_r.
          destruct (Nat.lt_ge_cases (length b) (length a)) as [Lt|Ge]; [left; apply (bcasts_beyond a b); [auto|lia]|].
          assert (Ef' : size_at b (length b - 1) = rho f). { destruct (pre S) as [|f' r] eqn:Ep; [discriminate|]. injection Ef as ->. cbn [length] in Lb. assert (X := size_front b 0 0%Z ltac:(lia)). rewrite Nat.sub_0_r in X. rewrite X, Dy. auto. }
          replace (length a) with (length b) by lia. rewrite <- Ef'. apply (bcasts_either a b); auto. }
      destruct (Cm rho ys zs Hs Ny Nzs Pfx Sfx) as (rho' & A & Hu & M1 & M2). exists rho', mid. split; [auto|]. split; [auto|]. split; [rewrite M1, M2; auto|].
      intros Kp. apply size_ext; unfold keep, no_root in Kp.
      + assert (Nm : length mid = length z - nL - mL) by (unfold mid; rewrite firstn_length, skipn_length; lia). rewrite Nm. destruct (root S) as [v'|] eqn:RS; cbn [andb orb] in Kp.
        * apply andb_prop in Kp as [Kp Ks]. apply (proj1 (eqb_eq _ _)) in Kp. apply Nat.eqb_eq in Ks. injection Kp as ->. assert (Lb : length b = length (pre S) + (length (tau v) + length (suf S))) by (rewrite Dy, !app_length, !map_length; auto). unfold shlen in C0. fold nL mL in C0. lia.
        * assert (Lb : length b = length (pre S)) by (rewrite (DyN eq_refl), map_length; auto). unfold shlen in C0. rewrite (WS2 eq_refl) in C0. cbn [length] in C0. fold nL mL in C0. lia.
      + intros i Hi. assert (Nm : length mid = length z - nL - mL) by (unfold mid; rewrite firstn_length, skipn_length; lia).
        assert (Ezi : size_at mid i = size_at z (mL + i)). { rewrite Ez, app_assoc, size_before by lia. rewrite Nzs. replace (mL + i - mL) with i by lia. rewrite size_last by auto. auto. } rewrite Ezi.
        assert (Ti : i < length (tau v) \/ length (tau v) <= i) by lia. destruct (root S) as [v'|] eqn:RS; cbn [andb orb] in Kp.
        * apply andb_prop in Kp as [Kp Ks]. apply (proj1 (eqb_eq _ _)) in Kp. apply Nat.eqb_eq in Ks. injection Kp as ->. assert (Lb : length b = length (pre S) + (length (tau v) + length (suf S))) by (rewrite Dy, !app_length, !map_length; auto).
          unfold shlen in C0. fold nL mL in C0, Ks. assert (Lt : i < length (tau v)) by lia. rewrite <- (PM i Lt). apply (bcasts_same a b); [auto|]. rewrite (PM i Lt), Dy, app_assoc, size_before by (rewrite map_length; lia). rewrite map_length. replace (mL + i - length (suf S)) with i by lia. symmetry. apply size_last. auto.
        * assert (Lb : length b = length (pre S)) by (rewrite (DyN eq_refl), map_length; auto). unfold shlen in C0, Kp. rewrite (WS2 eq_refl) in C0, Kp. cbn [length] in C0, Kp. fold nL mL in C0, Kp. assert (Lt : i < length (tau v)) by lia. rewrite <- (PM i Lt). apply (bcasts_beyond a b); [auto|].
          cbn [eqb] in Kp. apply orb_prop in Kp as [Kp|Kp]; [apply Nat.leb_le in Kp; lia|apply andb_prop in Kp as [Kp _]; apply (proj1 (eqb_eq _ _)) in Kp; discriminate].
    - (* the longer input is closed *)
      assert (NL : no_root L = true) by (unfold no_root; rewrite RL; auto). rewrite NL. cbn [andb]. set (nL := length (pre L)) in *. assert (La : length a = nL) by (rewrite (DxN eq_refl), map_length; auto). assert (SL := WL2 eq_refl).
      assert (PA : forall k, k < nL -> size_at a (nL - 1 - k) = rho (nth k (pre L) 0)) by (intros k Hk; rewrite (DxN eq_refl); apply size_map; auto).
      set (ys := skipn (length z - nL) z). assert (Ny : length ys = nL) by (unfold ys; rewrite skipn_length; lia).
      assert (QY : forall k, k < nL -> nth k ys 0%Z = size_at z (nL - 1 - k)). { intros k Hk. rewrite (size_nth z (nL - 1 - k) 0%Z) by lia. unfold ys. rewrite nth_mid by lia. f_equal. lia. }
      unfold shlen in C0. rewrite SL in C0. cbn [length] in C0. fold nL in C0.
      assert (Pfx : forall k, k < nL -> may_be same known (hd_error (pre S)) k (nth k (pre L) 0) rho (nth k ys 0%Z)).
      { intros k Hk. rewrite QY by auto. unfold may_be. rewrite <- (PA k Hk). destruct (root S) as [v'|] eqn:RS.
        - assert (Es : same = 0). { unfold same, no_root. rewrite ?RS, ?RL. cbn [orb]. destruct (eqb (Some v') None) eqn:Ev; [apply (proj1 (eqb_eq _ _)) in Ev; discriminate|auto]. } rewrite Es, (C2 eq_refl ltac:(discriminate)). split; [lia|]. split; [intros _ Nk; apply (bcasts_big a b); auto|]. discriminate.
        - assert (Lb : length b = length (pre S)) by (rewrite (DyN eq_refl), map_length; auto). rewrite (WS2 eq_refl) in C0. cbn [length] in C0.
          assert (Es : same = nL - length (pre S)). { unfold same, no_root, shlen. rewrite RS. cbn [orb]. rewrite (WS2 eq_refl), SL. cbn [length]. fold nL. lia. }
          split; [intros Lt; apply (bcasts_beyond a b); [auto|lia]|]. split; [intros _ Nk; apply (bcasts_big a b); auto|]. intros -> Es0 f Ef. rewrite Nat.sub_0_r.
          assert (Ef' : size_at b (length b - 1) = rho f). { destruct (pre S) as [|f' r] eqn:Ep; [discriminate|]. injection Ef as ->. cbn [length] in Lb. assert (X := size_front b 0 0%Z ltac:(lia)). rewrite Nat.sub_0_r in X. rewrite X, Dy. auto. }
          replace nL with (length b) by lia. rewrite <- Ef'. apply (bcasts_either a b); auto. }
      destruct (Cm rho ys [] Hs Ny ltac:(rewrite SL; auto) Pfx) as (rho' & A & Hu & M1 & M2); [rewrite SL; cbn; lia|].
      destruct (root S) as [v'|] eqn:RS; unfold no_root; rewrite RS; cbn [negb].
      + exists rho', (firstn (length z - nL) z). split; [auto|]. split; [auto|]. split; [rewrite M1; unfold ys; symmetry; apply firstn_skipn|]. unfold keep, no_root. rewrite ?RS, ?RL. cbn [andb orb]. destruct (eqb (Some v') None) eqn:Ev; [apply (proj1 (eqb_eq _ _)) in Ev; discriminate|discriminate].
      + assert (Lb : length b = length (pre S)) by (rewrite (DyN eq_refl), map_length; auto). rewrite (WS2 eq_refl) in C0. cbn [length] in C0. assert (Nza : length z = nL) by lia. exists rho', []. split; [auto|]. split; [auto|]. split; [|auto]. rewrite M1, M2. cbn. rewrite app_nil_r. unfold ys. rewrite Nza, Nat.sub_diag. auto. }
  assert (Pl : forall y, In y (pre (o (root L)) ++ suf (o (root L))) -> In y (p ++ x)). { intros y. unfold o. destruct (no_root L && negb (no_root S))%bool; cbn [pre suf]; [intros Hy; apply in_app_iff; left; exact Hy|auto]. }
  assert (Pl' : forall w y, In y (pre (o (Some w)) ++ suf (o (Some w))) -> In y (p ++ x)). { intros w y. unfold o. destruct (no_root L && negb (no_root S))%bool; cbn [pre suf]; [intros Hy; apply in_app_iff; left; exact Hy|auto]. }
  assert (NK : keep = true -> (no_root L && negb (no_root S))%bool = true -> False).
  { intros Kp Eb. apply andb_prop in Eb as [El Eb]. apply negb_true_iff in Eb. unfold keep in Kp. rewrite Eb in Kp. cbn [andb orb] in Kp. apply andb_prop in Kp as [Kp _]. apply (proj1 (eqb_eq _ _)) in Kp. apply (no_root_false S Eb). rewrite Kp. apply no_root_true. auto. }
  destruct keep eqn:Kp.
  - change ((do v <- hret (root L); inner_match qo (if no_root L && negb (no_root S) then mkshape [] v p else mkshape p v x)) (with_us s u)) with (inner_match qo (o (root L)) (with_us s u)).
    assert (Bn : born s (with_us s u)) by (apply born_us; auto). assert (M := rule_step P s (with_us s u) qo (o (root L)) I Bn Ho).
    lapply M; [clear M; intros M|]. 2: { split; [intros y Hy; cbn; apply Lv, Pl, Hy|]. split.
      - intros Hr. unfold o in *. destruct (root L) eqn:RL; [destruct (no_root L && negb (no_root S))%bool; discriminate|]. destruct (no_root L && negb (no_root S))%bool eqn:Eb.
        + exfalso. apply NK; auto.
        + cbn. destruct x; [auto|]. rewrite (WL2 eq_refl) in Nx. discriminate.
      - intros v Hv. apply WL3. unfold o in Hv. destruct (no_root L && negb (no_root S))%bool; exact Hv. }
    lapply M; [clear M; intros M|exact Sm]. lapply M; [clear M; intros M|].
    2: { intros rho tau sh Hs D Hp. destruct (Main rho tau sh Hs D Hp) as (rho' & mid & A & Hu & E & K). exists rho', tau. split; [auto|]. split; [auto|]. split; [auto|]. specialize (K eq_refl). unfold o, dshape. destruct (root L) as [v|] eqn:RL.
      - subst mid. unfold no_root in E |- *. rewrite RL in E |- *. cbn [andb] in *. exact E.
      - subst mid. destruct (no_root L && negb (no_root S))%bool eqn:Eb; cbn [root pre suf] in *.
        2: exact E.
        exfalso. apply NK; auto. }
    assert (Kps : root (rp s qo) <> None -> root L <> None -> keeps s (fst (inner_match qo (o (root L)) (with_us s u)))).
    { intros R1 R2. eapply keeps_trans; [apply (keeps_us s u)|]. destruct (root L) as [v|] eqn:RL; [|congruence]. apply (keeps_inner qo (o (Some v)) v); [exact R1|]. unfold o. destruct (no_root L && negb (no_root S))%bool; auto. }
    destruct (inner_match qo (o (root L)) (with_us s u)) as [s' [[]|e]]; [|exact M]. destruct M as (M1 & _ & M2). split; [exact M1|]. split.
    + intros R1 R2. assert (Oe : o (root L) = mkshape p None x). { unfold o, no_root. rewrite R1, R2. auto. } assert (Nc : ~ crossing (rp s qo) (o (root L))). { rewrite Oe. intros (_ & Cv & _). apply Cv. reflexivity. }
      assert (Rk : rank (length p + length x) s' qo). { intros rho sh A. destruct (M2 Nc rho sh A) as (tau & _ & _ & E). rewrite E, Oe. unfold dshape. cbn [pre root suf rval app]. rewrite app_length, !map_length. auto. }
      apply (rank_plain _ s' qo (proj1 M1) ltac:(rewrite (proj1 (proj2 M1)); auto) Rk).
    + intros R1 R2. apply Kps; [auto|]. destruct R2 as [R2|R2]; [auto|]. intros R3. apply NK; [auto|]. unfold no_root. rewrite R3. destruct (root S); [auto|congruence].
  - assert (E : (do v <- (do w <- new_variadic; hret (Some w)); inner_match qo (if no_root L && negb (no_root S) then mkshape [] v p else mkshape p v x)) (with_us s u) = inner_match qo (o (Some (nvar s))) (fst (new_variadic (with_us s u)))) by reflexivity. rewrite E. clear E.
    set (s1 := fst (new_variadic (with_us s u))). assert (Bn : born s s1). { assert (B0 : born s (with_us s u)) by (apply born_us; auto). destruct (born_var (with_us s u) (proj1 B0)) as (sv & Ev & Bv & _). assert (X : s1 = sv) by (unfold s1; rewrite Ev; auto). rewrite X. eapply born_trans; eauto. }
    assert (M := rule_step P s s1 qo (o (Some (nvar s))) I Bn Ho).
    lapply M; [clear M; intros M|]. 2: { split; [intros y Hy; cbn; apply Lv, (Pl' (nvar s)), Hy|]. split; [unfold o; destruct (no_root L && negb (no_root S))%bool; discriminate|]. intros v Hv. assert (v = nvar s) as -> by (unfold o in Hv; destruct (no_root L && negb (no_root S))%bool; injection Hv as <-; auto). cbn. lia. }
    lapply M; [clear M; intros M|exact Sm]. lapply M; [clear M; intros M|].
    2: { intros rho tau sh Hs D Hp. destruct (Main rho tau sh Hs D Hp) as (rho' & mid & A & Hu & E & K). exists rho', (upd tau (nvar s) mid). split; [auto|]. split; [intros y Hy; apply upd_other; lia|]. split; [auto|]. unfold o, dshape. destruct (no_root L && negb (no_root S))%bool; cbn [root pre suf]; cbn [rval]; rewrite upd_same; exact E. }
    assert (Kps : root (rp s qo) <> None -> keeps s (fst (inner_match qo (o (Some (nvar s))) s1))).
    { intros R1. eapply keeps_trans; [apply (keeps_us s u)|]. eapply keeps_trans; [apply keeps_var|]. fold s1. apply (keeps_inner qo (o (Some (nvar s))) (nvar s)); [exact R1|]. unfold o. destruct (no_root L && negb (no_root S))%bool; auto. }
    destruct (inner_match qo (o (Some (nvar s))) s1) as [s' [[]|e]]; [|exact M]. split; [apply M|]. split; [|intros R1 _; apply Kps; auto].
    intros R1 R2. exfalso. unfold keep, no_root, shlen in Kp. rewrite R1, R2, (WL2 R1), (WS2 R2) in Kp. cbn in Kp. rewrite orb_true_r in Kp. discriminate.
Qed.
