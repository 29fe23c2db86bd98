(** * C58: polynomial features. *)
From Coq Require Import Reals List ZArith Bool Lia Lra.
From Verif Require Import PyBase Deriv_Proofs Corr_Spec Corr_Proofs Pool_Proofs Axis_Model Axis_Spec Axis_Proofs Select_Props Attn_Proofs Poly_Model Poly_Spec Poly_Proofs.
Import ListNotations.
Open Scope R_scope.
Open Scope list_scope.
Open Scope res_scope.

Lemma sum_over_two n m f : sum_over [n; m] f = lsum (seq 0 n) (fun i => lsum (seq 0 m) (fun j => f [i; j])).
Proof. cbn [sum_over]. rewrite sum_to_lsum. apply lsum_ext. intros i _. now rewrite sum_to_lsum. Qed.
Lemma lsum_mapped {A B} (h : A -> B) L f : lsum (map h L) f = lsum L (fun a => f (h a)).
Proof. now rewrite <- !np_sum_lsum, map_map. Qed.
Lemma features_ok x n dims degree : shape x = [n; dims] -> (1 <= dims)%nat -> (1 <= degree)%nat ->
  exists y, polynomial_features x (Z.of_nat degree) = Ok y /\ shape y = [n; length (powers dims degree)] /\
    forall i c, at_ y [i; c] = np_prod (map (fun m => data x i m ^ nth m (nth c (powers dims degree) []) 0%nat) (seq 0 (dims + 1))).
Proof.
  intros SX D K. unfold polynomial_features. rewrite SX. destruct (Z.ltb_spec (Z.of_nat degree) 0); [lia|]. rewrite Nat2Z.id.
  pose proof (powers_length dims degree) as L. destruct (powers dims degree) as [|p ps] eqn:E; [|eexists; now split].
  exfalso. cbn [length] in L. rewrite Nat.mul_1_l in L.
  assert (IN : In (1%nat :: repeat 0%nat (dims - 1)) (map (@tl nat) (powers dims degree))).
  { apply (proj1 (proj1 (powers_monomials dims degree))). cbn [length]. rewrite repeat_length, total_cons.
    assert (Z : forall m, total (repeat 0%nat m) = 0%nat) by (now induction m). rewrite Z. lia. }
  now rewrite E in IN.
Qed.
Theorem C58_columns x n dims degree : shape x = [n; dims] -> (1 <= dims)%nat -> (1 <= degree)%nat ->
  exists cols y, all_monomials dims degree cols /\ polynomial_features x (Z.of_nat degree) = Ok y /\ shape y = [n; length cols] /\
    ((length cols + 1) * (fact degree * fact dims) = fact (dims + degree))%nat /\
    forall i c e, (i < n)%nat -> nth_error cols c = Some e -> at_ y [i; c] = monomial (fun j => at_ x [i; j]) e.
Proof.
  intros SX D K. destruct (features_ok x n dims degree SX D K) as (y & E & SY & H).
  exists (map (@tl nat) (powers dims degree)), y. split; [apply powers_monomials|]. split; [easy|]. rewrite map_length. split; [easy|].
  split; [apply powers_length|]. intros i c e _ Hc. rewrite nth_error_map in Hc. destruct (nth_error (powers dims degree) c) as [p|] eqn:Ep; [|easy].
  injection Hc as <-. destruct (proj2 (powers_monomials dims degree) p (nth_error_In _ _ Ep)) as (k & e & -> & L & _). cbn [tl].
  rewrite H, (nth_error_nth _ _ _ Ep). now rewrite (monomial_prod dims (data x i) k e).
Qed.
Theorem C58_columns_only x degree y : polynomial_features x degree = Ok y ->
  exists n dims, shape x = [n; dims] /\ (1 <= dims)%nat /\ (1 <= degree)%Z.
Proof.
  unfold polynomial_features. destruct (shape x) as [|n [|dims [|? ?] ] ]; try easy. destruct (Z.ltb_spec degree 0); [easy|].
  destruct (powers dims (Z.to_nat degree)) as [|p ps] eqn:E; [easy|]. intros _. exists n, dims. split; [easy|].
  destruct (proj2 (powers_monomials dims (Z.to_nat degree)) p) as (k & e & -> & L & T); [rewrite E; now left|].
  assert (P : (1 <= total e <= Z.to_nat degree)%nat).
  { apply (proj1 (proj1 (powers_monomials dims (Z.to_nat degree)))). rewrite E. now left. }
  split; [|lia]. destruct e as [|a e]; [cbn in P; lia|]. cbn in L. lia.
Qed.

(** ** Gradient *)
Lemma prod_one (L : list nat) j a (f : nat -> R) : NoDup L -> In j L ->
  np_prod (map (fun m => if Nat.eqb m j then a * f m else f m) L) = a * np_prod (map f L).
Proof.
  intros N. induction N as [|b L H N IH]; intros I; [easy|]. cbn [map np_prod]. destruct (Nat.eqb_spec b j) as [->|NE].
  - rewrite (np_prod_ext L (fun m => if Nat.eqb m j then a * f m else f m) f); [ring|]. intros m Hm. destruct (Nat.eqb_spec m j); [congruence|easy].
  - destruct I as [I|I]; [congruence|]. rewrite IH by easy. ring.
Qed.
Lemma column_dl x dx dims p i : derivable_pt_lim
   (fun t => np_prod (map (fun m => data (moved x dx t) i m ^ nth m p 0%nat) (seq 0 (dims + 1)))) 0
   (lsum (seq 0 dims) (fun j => partial_column x dims p i j * dx [i; j])).
Proof.
  pose (dd m := match m with O => 0 | S j => dx [i; j] end).
  pose (f m := fun t => data (moved x dx t) i m ^ nth m p 0%nat).
  pose (h m := INR (nth m p 0%nat) * data x i m ^ (nth m p 0%nat - 1) * dd m).
  assert (M0 : forall m, data (moved x dx 0) i m = data x i m) by (intros [|m]; cbn; ring).
  eapply dl_eq; [apply (dl_prod_gen (seq 0 (dims + 1)) f h)|].
  - apply seq_NoDup.
  - intros m _. unfold f, h. apply (dl_ext _ (fun t => (data x i m + t * dd m) ^ nth m p 0%nat)).
    { intros t. f_equal. destruct m; cbn; ring. }
    eapply dl_eq; [apply (derivable_pt_lim_comp (fun t => data x i m + t * dd m) (fun y => y ^ nth m p 0%nat))|].
    + apply (dl_of_affine _ (data x i m) (dd m)). intros; ring.
    + apply derivable_pt_lim_pow.
    + rewrite Nat.sub_1_r. rewrite Rmult_0_l, Rplus_0_r. reflexivity.
  - rewrite Nat.add_1_r.
    pose (Q j := np_prod (map (fun m => data x i m ^ (nth m p 0%nat - (if Nat.eqb m j then 1 else 0))) (seq 0 (S dims)))).
    rewrite (lsum_ext (seq 0 (S dims)) _ (fun j => INR (nth j p 0%nat) * dd j * Q j)).
    2:{ intros j Hj. unfold Q. rewrite <- (prod_one (seq 0 (S dims)) j) by (try apply seq_NoDup; easy).
        apply np_prod_ext. intros m _. unfold h, f. rewrite M0. destruct (Nat.eqb_spec m j) as [->|]; [ring|]. now rewrite Nat.sub_0_r. }
    change (seq 0 (S dims)) with (0%nat :: seq 1 dims). rewrite lsum_cons, <- (seq_shift dims 0), lsum_mapped.
    change (dd 0%nat) with 0. rewrite Rmult_0_r, Rmult_0_l, Rplus_0_l.
    apply lsum_ext. intros j Hj. unfold partial_column. rewrite Nat.add_1_r. fold (Q (S j)). change (dd (S j)) with (dx [i; j]).
    destruct (Nat.ltb_spec 0 (nth (S j) p 0%nat)) as [P|P]; [ring|].
    assert (E : nth (S j) p 0%nat = 0%nat) by lia. rewrite E. cbn [INR]. ring.
Qed.
Theorem C58_gradient x y degree g : polynomial_features x degree = Ok y -> shape g = shape y ->
  exists G, polynomial_features_grad g x degree = Ok G /\ gradient_at (fun x' => polynomial_features x' degree) x g G.
Proof.
  intros E SG. destruct (C58_columns_only _ _ _ E) as (n & dims & SX & D & K).
  rewrite <- (Z2Nat.id degree) in * by lia. assert (K' : (1 <= Z.to_nat degree)%nat) by lia. set (k := Z.to_nat degree) in *. clearbody k. clear K.
  destruct (features_ok x n dims k SX D K') as (y' & E' & SY & _). rewrite E in E'. injection E' as <-. rewrite SY in SG.
  unfold polynomial_features_grad. rewrite SX, SG, Nat2Z.id, !Nat.eqb_refl. cbn [andb]. eexists. split; [reflexivity|]. split; [easy|]. intros dx.
  set (K := length (powers dims k)) in *.
  apply (dl_ext _ (fun t => lsum (seq 0 n) (fun i => lsum (seq 0 K) (fun c => at_ g [i; c] *
     np_prod (map (fun m => data (moved x dx t) i m ^ nth m (nth c (powers dims k) []) 0%nat) (seq 0 (dims + 1))))))).
  { intros t. destruct (features_ok (moved x dx t) n dims k SX D K') as (z & Ez & Sz & Hz). rewrite Ez. cbn [weighted]. rewrite SG, sum_over_two.
    apply lsum_ext. intros i _. apply lsum_ext. intros c _. now rewrite Hz. }
  eapply dl_eq; [apply (dl_lsum (seq 0 n) (fun i t => lsum (seq 0 K) (fun c => at_ g [i; c] *
     np_prod (map (fun m => data (moved x dx t) i m ^ nth m (nth c (powers dims k) []) 0%nat) (seq 0 (dims + 1)))))
     (fun i => lsum (seq 0 K) (fun c => at_ g [i; c] * lsum (seq 0 dims) (fun j => partial_column x dims (nth c (powers dims k) []) i j * dx [i; j]))))|].
  - intros i _. apply (dl_lsum (seq 0 K) (fun c t => at_ g [i; c] *
     np_prod (map (fun m => data (moved x dx t) i m ^ nth m (nth c (powers dims k) []) 0%nat) (seq 0 (dims + 1))))). intros c _.
    apply dl_scal, column_dl.
  - rewrite SX, sum_over_two. apply lsum_ext. intros i _. cbn [at_].
    rewrite (lsum_ext (seq 0 K) _ (fun c => lsum (seq 0 dims) (fun j => at_ g [i; c] * (partial_column x dims (nth c (powers dims k) []) i j * dx [i; j])))).
    2:{ intros c _. now rewrite lsum_scal. }
    rewrite lsum_swap. apply lsum_ext. intros j _. rewrite np_sum_lsum. rewrite <- lsum_scal_r. apply lsum_ext. intros c _. ring.
Qed.

(** ** Shape rule *)
Open Scope Z_scope.
Lemma float_exact q : 0 <= q <= 2 ^ 53 -> float_int q = Ok q.
Proof.
  intros H. unfold float_int. destruct (Z.eq_dec q (2 ^ 53)) as [->|N]; [reflexivity|].
  assert (L : Z.log2 q - 52 <= 0).
  { destruct (Z.eq_dec q 0) as [->|]; [easy|]. assert (Z.log2 q < 53) by (apply Z.log2_lt_pow2; lia). lia. }
  apply Z.leb_le in L. cbv zeta. now rewrite L.
Qed.
Lemma float_big q : 2 ^ 53 < q -> float_int q = Err OverflowError \/ exists z, float_int q = Ok z /\ 2 ^ 53 <= z.
Proof.
  intros H. unfold float_int. cbv zeta. set (e := Z.log2 q - 52).
  assert (L : 53 <= Z.log2 q) by (apply Z.log2_le_pow2; lia).
  assert (L1 : 2 ^ Z.log2 q <= q) by (apply Z.log2_spec; lia).
  assert (E1 : 1 <= e) by (unfold e; lia).
  assert (P : 2 ^ Z.log2 q = 2 ^ 52 * 2 ^ e) by (rewrite <- Z.pow_add_r by lia; f_equal; unfold e; lia).
  assert (Q : 0 < 2 ^ e) by (apply Z.pow_pos_nonneg; lia).
  assert (Q2 : 2 <= 2 ^ e) by (change 2 with (2 ^ 1) at 1; apply Z.pow_le_mono_r; lia).
  destruct (Z.leb_spec e 0); [lia|]. set (m' := if _ || _ then _ else _). destruct (Z.leb_spec (2 ^ 1024) (m' * 2 ^ e)); [now left|right].
  eexists. split; [reflexivity|]. assert (M : 2 ^ 52 <= q / 2 ^ e) by (apply Z.div_le_lower_bound; lia).
  assert (M' : 2 ^ 52 <= m') by (unfold m'; destruct (_ || _); lia). change (2 ^ 53) with (2 ^ 52 * 2). apply Z.mul_le_mono_nonneg; lia.
Qed.
(** The number of monomials, with the constant one. *)
Definition cnt (k d : nat) : nat := (length (powers d k) + 1)%nat.
Lemma cnt_fact k d : (cnt k d * (fact k * fact d) = fact (d + k))%nat.
Proof. apply powers_length. Qed.
Lemma cnt_step k d : (cnt k (S d) * S d = cnt k d * (S d + k))%nat.
Proof.
  pose proof (cnt_fact k d) as A. pose proof (cnt_fact k (S d)) as B. change (S d + k)%nat with (S (d + k)) in *.
  change (fact (S d)) with (S d * fact d)%nat in B. change (fact (S (d + k))) with (S (d + k) * fact (d + k))%nat in B. rewrite <- A in B.
  pose proof (lt_O_fact k). pose proof (lt_O_fact d).
  apply (Nat.mul_cancel_l _ _ (fact k * fact d)); [nia|]. lia.
Qed.
Lemma cnt_grows k d : (1 <= k)%nat -> (cnt k d < cnt k (S d))%nat.
Proof. intros K. pose proof (cnt_step k d). assert (1 <= cnt k d)%nat by (unfold cnt; lia). nia. Qed.
Lemma cnt_mono k d j : (1 <= k)%nat -> (cnt k d + j <= cnt k (d + j))%nat.
Proof. intros K. induction j as [|j IH]; [rewrite !Nat.add_0_r; lia|]. replace (d + S j)%nat with (S (d + j)) by lia. pose proof (cnt_grows k (d + j) K). lia. Qed.
Lemma quotient k d : Z.of_nat (fact (d + k)) / Z.of_nat (fact d) = Z.of_nat (cnt k d * fact k).
Proof.
  rewrite <- (cnt_fact k d). pose proof (lt_O_fact d). rewrite Nat.mul_assoc, Nat2Z.inj_mul. apply Z.div_mul. lia.
Qed.
Lemma factorial_nat n : factorial (Z.of_nat n) = Ok (Z.of_nat (fact n)).
Proof. unfold factorial. destruct (Z.ltb_spec (Z.of_nat n) 0); [lia|]. now rewrite Nat2Z.id. Qed.
Lemma find_step fuel k t d : find_dim (S fuel) (Z.of_nat k) t (Z.of_nat d) =
  let* value := float_int (Z.of_nat (cnt k d * fact k)) in
  if value <? t then find_dim fuel (Z.of_nat k) t (Z.of_nat (S d)) else if t <? value then Err ValueError else Ok (Z.of_nat d).
Proof.
  cbn [find_dim]. rewrite <- Nat2Z.inj_add, !factorial_nat. cbn [bind]. unfold int_div. pose proof (lt_O_fact d).
  destruct (Z.eqb_spec (Z.of_nat (fact d)) 0); [lia|]. rewrite quotient. replace (Z.of_nat d + 1) with (Z.of_nat (S d)) by lia. reflexivity.
Qed.
Lemma find_hit k t D : (1 <= k)%nat -> Z.of_nat (cnt k D * fact k) = t -> t < 2 ^ 53 ->
  forall j d fuel, (d + j = D)%nat -> (j < fuel)%nat -> find_dim fuel (Z.of_nat k) t (Z.of_nat d) = Ok (Z.of_nat D).
Proof.
  intros K E T. pose proof (lt_O_fact k) as F. induction j as [|j IH]; intros d [|fuel] Ed Hf; try lia; rewrite find_step.
  - replace d with D by lia. rewrite E, float_exact by lia. cbn [bind]. destruct (Z.ltb_spec t t); [lia|easy].
  - pose proof (cnt_mono k d (S j) K) as M. rewrite Ed in M.
    assert (L : Z.of_nat (cnt k d * fact k) < t) by nia.
    rewrite float_exact by lia. cbn [bind]. apply Z.ltb_lt in L. rewrite L. apply IH; lia.
Qed.
Lemma find_miss k t : (1 <= k)%nat -> t < 2 ^ 53 ->
  forall j d fuel, (forall d', (d <= d')%nat -> Z.of_nat (cnt k d' * fact k) <> t) -> t < Z.of_nat (cnt k (d + j) * fact k) -> (j < fuel)%nat ->
  find_dim fuel (Z.of_nat k) t (Z.of_nat d) = Err ValueError \/ find_dim fuel (Z.of_nat k) t (Z.of_nat d) = Err OverflowError.
Proof.
  intros K T. induction j as [|j IH]; intros d [|fuel] NE H Hf; try lia; rewrite find_step.
  all: assert (UP : t < Z.of_nat (cnt k d * fact k) ->
      (let* value := float_int (Z.of_nat (cnt k d * fact k)) in
       if value <? t then find_dim fuel (Z.of_nat k) t (Z.of_nat (S d)) else if t <? value then Err ValueError else Ok (Z.of_nat d)) = Err ValueError \/
      (let* value := float_int (Z.of_nat (cnt k d * fact k)) in
       if value <? t then find_dim fuel (Z.of_nat k) t (Z.of_nat (S d)) else if t <? value then Err ValueError else Ok (Z.of_nat d)) = Err OverflowError)
    by (intros U; destruct (Z.le_gt_cases (Z.of_nat (cnt k d * fact k)) (2 ^ 53)) as [B|B];
        [rewrite float_exact by lia; cbn [bind]; left; destruct (Z.ltb_spec (Z.of_nat (cnt k d * fact k)) t); [lia|]; destruct (Z.ltb_spec t (Z.of_nat (cnt k d * fact k))); [easy|lia]
        |destruct (float_big _ B) as [E|(z & E & Hz)]; rewrite E; cbn [bind]; [now right|left]; destruct (Z.ltb_spec z t); [lia|]; destruct (Z.ltb_spec t z); [easy|lia] ]).
  - rewrite Nat.add_0_r in H. now apply UP.
  - destruct (Z.lt_trichotomy (Z.of_nat (cnt k d * fact k)) t) as [L|[L|L] ]; [|now destruct (NE d)|now apply UP].
    rewrite float_exact by lia. cbn [bind]. pose proof (proj2 (Z.ltb_lt _ _) L) as L'. rewrite L'. apply IH; [intros; apply NE; lia| |lia].
    now replace (S d + j)%nat with (d + S j)%nat by lia.
Qed.
Theorem C58_rule_forward x y n dims degree c : polynomial_features x degree = Ok y -> shape x = [n; dims]%nat -> shape y = [n; c]%nat ->
  Z.of_nat c < 2 ^ 53 -> forall fuel,
  polynomial_features_rule fuel (Some (Z.of_nat dims)) None (Some degree) = Ok (true, Some (Z.of_nat dims), Some (Z.of_nat c)) /\
  forall o, polynomial_features_rule fuel (Some (Z.of_nat dims)) (Some o) (Some degree) =
            if Z.eq_dec o (Z.of_nat c) then Ok (true, Some (Z.of_nat dims), Some (Z.of_nat c)) else Err ValueError.
Proof.
  intros E SX SY B fuel. destruct (C58_columns_only _ _ _ E) as (n' & dims' & SX' & D & K).
  rewrite SX in SX'. injection SX' as <- <-. rewrite <- (Z2Nat.id degree) in * by lia. assert (K' : (1 <= Z.to_nat degree)%nat) by lia. set (k := Z.to_nat degree) in *. clearbody k.
  destruct (features_ok x n dims k SX D K') as (y' & E' & SY' & _). rewrite E in E'. injection E' as <-. rewrite SY in SY'. injection SY' as ->.
  assert (Q : int_div (Z.of_nat (fact (dims + k))) (Z.of_nat (fact k) * Z.of_nat (fact dims)) = Ok (Z.of_nat (length (powers dims k)) + 1)).
  { unfold int_div. pose proof (lt_O_fact k). pose proof (lt_O_fact dims). destruct (Z.eqb_spec (Z.of_nat (fact k) * Z.of_nat (fact dims)) 0); [nia|].
    rewrite <- (powers_length dims k), <- Nat2Z.inj_mul, (Nat2Z.inj_mul (_ + 1)), Z.div_mul by nia. rewrite float_exact by lia. f_equal. lia. }
  unfold polynomial_features_rule. rewrite <- Nat2Z.inj_add, !factorial_nat. cbn [bind]. rewrite Q. cbn [bind].
  replace (Z.of_nat (length (powers dims k)) + 1 - 1) with (Z.of_nat (length (powers dims k))) by lia. split; [reflexivity|].
  intros o. cbn [set_dim]. destruct (Z.eqb_spec o (Z.of_nat (length (powers dims k)))); destruct (Z.eq_dec o (Z.of_nat (length (powers dims k)))); easy.
Qed.
Theorem C58_rule_backward degree o : (1 <= degree)%nat -> (Z.of_nat o + 1) * Z.of_nat (fact degree) < 2 ^ 53 ->
  exists enough, forall fuel, (enough <= fuel)%nat ->
    (forall d, (1 <= d)%nat -> ((o + 1) * (fact degree * fact d) = fact (d + degree))%nat ->
       polynomial_features_rule fuel None (Some (Z.of_nat o)) (Some (Z.of_nat degree)) = Ok (true, Some (Z.of_nat d), Some (Z.of_nat o))) /\
    ((forall d, (1 <= d)%nat -> ((o + 1) * (fact degree * fact d) <> fact (d + degree))%nat) ->
       exists e, polynomial_features_rule fuel None (Some (Z.of_nat o)) (Some (Z.of_nat degree)) = Err e /\ e <> OutOfFuel).
Proof.
  intros K T. exists (S (S o)). intros fuel Hf.
  assert (EQ : forall d, cnt degree d = (o + 1)%nat <-> ((o + 1) * (fact degree * fact d) = fact (d + degree))%nat).
  { intros d. rewrite <- (cnt_fact degree d). pose proof (lt_O_fact degree). pose proof (lt_O_fact d). split; [now intros ->|].
    intros Q. apply Nat.mul_cancel_r in Q; [easy|nia]. }
  assert (TT : (Z.of_nat o + 1) * Z.of_nat (fact degree) = Z.of_nat ((o + 1) * fact degree)) by lia.
  unfold polynomial_features_rule. rewrite factorial_nat. cbn [bind]. rewrite TT in *. change 1 with (Z.of_nat 1). split.
  - intros d D Q. apply EQ in Q. rewrite (find_hit degree _ d K) with (j := (d - 1)%nat); [reflexivity|now rewrite Q|easy|lia|].
    pose proof (cnt_mono degree 0 d K) as M. cbn [Nat.add] in M. assert (1 <= cnt degree 0)%nat by (unfold cnt; lia). lia.
  - intros N. pose proof (lt_O_fact degree) as F.
    destruct (find_miss degree (Z.of_nat ((o + 1) * fact degree)) K T (S o) 1 fuel) as [E|E].
    + intros d' D Q. apply (N d' D), EQ. apply Nat2Z.inj in Q. now apply Nat.mul_cancel_r in Q; [|lia].
    + pose proof (cnt_mono degree 1 (S o) K). assert (1 <= cnt degree 1)%nat by (unfold cnt; lia). nia.
    + lia.
    + rewrite E. now eexists.
    + rewrite E. now eexists.
Qed.
(** With degree 0 and a known output the search for the input size does not end. *)
Theorem C58_degree_zero_refuted : forall o fuel, 0 < o -> polynomial_features_rule fuel None (Some o) (Some 0) = Err OutOfFuel.
Proof.
  intros o fuel O. unfold polynomial_features_rule. cbn [bind]. change (factorial 0) with (Ok 1). cbn [bind].
  assert (H : forall fuel d, find_dim fuel 0 ((o + 1) * 1) (Z.of_nat d) = Err OutOfFuel).
  { clear fuel. induction fuel as [|fuel IH]; intros d; [reflexivity|]. change 0 with (Z.of_nat 0). rewrite find_step.
    assert (C : (cnt 0 d * fact 0 = 1)%nat) by (unfold cnt; rewrite powers_vecs; reflexivity). rewrite C.
    rewrite float_exact by lia. cbn [bind]. destruct (Z.ltb_spec (Z.of_nat 1) ((o + 1) * 1)); [|lia]. apply IH. }
  specialize (H fuel 1%nat). change (Z.of_nat 1) with 1 in H. now rewrite H.
Qed.

(** ** The hypotheses are met *)
Example C58_case : exists x, shape x = [3; 2]%nat /\ (1 <= 2)%nat.
Proof. exists (mka [3; 2]%nat (fun _ => 1%R)). split; [easy|lia]. Qed.
Example C58_columns_case : map (@tl nat) (powers 2 2) = [[1; 0]; [0; 1]; [2; 0]; [1; 1]; [0; 2]]%nat.
Proof. reflexivity. Qed.
Example C58_rule_case : polynomial_features_rule 10 (Some 2) None (Some 3) = Ok (true, Some 2, Some 9) /\
  polynomial_features_rule 10 None (Some 9) (Some 3) = Ok (true, Some 2, Some 9) /\
  polynomial_features_rule 10 None (Some 8) (Some 3) = Err ValueError /\ (8 + 1) * Z.of_nat (fact 3) < 2 ^ 53.
Proof. repeat split; vm_compute; reflexivity. Qed.
Print Assumptions C58_columns.
Print Assumptions C58_columns_only.
Print Assumptions C58_gradient.
Print Assumptions C58_rule_forward.
Print Assumptions C58_rule_backward.
Print Assumptions C58_degree_zero_refuted.
