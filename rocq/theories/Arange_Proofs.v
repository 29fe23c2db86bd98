(** * arange: specification and proofs *)
From Coq Require Import List Arith Lia Bool ZArith.
From Verif Require Import PyBase Uniadic_Model Uniadic_Proofs Uniadic_Props Bcast_Proofs Shape_Model Shape_Proofs Shape_Proofs2 Shape_Proofs3 Shape_Props Reduce_Model Reduce_Proofs Reduce_Proofs2
  Rule_Proofs Window_Proofs Arange_Model.
Import ListNotations.
Open Scope list_scope. Open Scope nat_scope. Open Scope shm_scope.

(** ** Specification *)
(** Element number [k] of the range lies before [stop] in the direction of [step]. *)
Definition before (start stop step k : Z) : Prop := (0 <= k)%Z /\ ((0 < step /\ start + k * step < stop) \/ (step < 0 /\ stop < start + k * step))%Z.
(** The range has [n] elements. *)
Definition elements (start stop step n : Z) : Prop := exists l, NoDup l /\ n = Z.of_nat (length l) /\ forall k, In k l <-> before start stop step k.
(** [stop] does not lie behind [start]. *)
Definition toward (start stop step : Z) : Prop := (0 < step /\ start <= stop \/ step < 0 /\ stop <= start)%Z.

(** ** The arithmetic *)
Definition cdiv (a b : Z) : Z := ((a + b - 1) / b)%Z.
Lemma cdiv_le a b k : (0 < b -> cdiv a b <= k <-> a <= k * b)%Z.
Proof.
  intros Hb. unfold cdiv. split; intros H.
  - assert (X := Z.mul_div_le (a + b - 1) b Hb). assert (Y := Z.mod_pos_bound (a + b - 1) b Hb). assert (Z0 := Z.div_mod (a + b - 1) b ltac:(lia)). nia.
  - assert (X : ((a + b - 1) / b < k + 1)%Z); [|lia]. apply Z.div_lt_upper_bound; nia.
Qed.
Lemma cdiv_unique a b n : (0 < b -> (n - 1) * b < a -> a <= n * b -> cdiv a b = n)%Z.
Proof. intros Hb H1 H2. assert (cdiv a b <= n)%Z by (apply cdiv_le; auto). assert (~ (cdiv a b <= n - 1)%Z); [|lia]. rewrite cdiv_le by auto. lia. Qed.
Lemma elements_cdiv start stop step : (0 < step -> start <= stop -> elements start stop step (cdiv (stop - start) step))%Z.
Proof.
  intros Hs Hd. exists (zseq (cdiv (stop - start) step)). split; [apply zseq_NoDup|]. assert (P : (0 <= cdiv (stop - start) step)%Z). { assert (~ (cdiv (stop - start) step <= -1)%Z); [|lia]. rewrite cdiv_le by auto. lia. }
  split; [rewrite zseq_length; lia|]. intros k. rewrite zseq_In. unfold before. assert (X := cdiv_le (stop - start) step k Hs). split; [intros [K0 K1]; split; [auto|left; split; [auto|]]|intros [K0 [[_ K]|[K _]]]; [split; [auto|]|lia]].
  - assert (~ (stop - start <= k * step)%Z); [rewrite <- X; lia|lia].
  - assert (~ (cdiv (stop - start) step <= k)%Z); [rewrite X; lia|lia].
Qed.
Lemma elements_neg start stop step n : elements start stop step n <-> elements (- start) (- stop) (- step) n.
Proof. unfold elements, before. split; intros (l & N & E & H); exists l; (split; [auto|split; [auto|]]); intros k; rewrite H; split; (intros [K C]; split; [auto|]; lia). Qed.
Lemma elements_fun start stop step n m : elements start stop step n -> elements start stop step m -> n = m.
Proof. intros (l & N & -> & H) (l' & N' & -> & H'). f_equal. apply Nat.le_antisymm; apply NoDup_incl_length; auto; intros x Hx; [apply H', H|apply H, H']; auto. Qed.
Lemma elements_iff start stop step n : toward start stop step -> elements start stop step n <-> n = cdiv (Z.abs (start - stop)) (Z.abs step).
Proof.
  intros T. assert (E : elements start stop step (cdiv (Z.abs (start - stop)) (Z.abs step))).
  { destruct T as [[S D]|[S D]].
    - replace (Z.abs (start - stop)) with (stop - start)%Z by lia. rewrite Z.abs_eq by lia. apply elements_cdiv; auto.
    - apply elements_neg. replace (Z.abs (start - stop)) with (- stop - - start)%Z by lia. rewrite Z.abs_neq by lia. apply elements_cdiv; lia. }
  split; [intros E'; eapply elements_fun; eauto|intros ->; auto].
Qed.

(** ** The length of a quotient *)
Lemma length_of_ceil v : (0 <= length_of v)%Z /\ forall k, (length_of v <= k <-> Z.abs (fm v) * 2 ^ Z.max (fe v) 0 <= k * 2 ^ Z.max (- fe v) 0)%Z.
Proof.
  destruct v as [m e]. unfold length_of, integral, to_int; cbn [fm fe]. destruct (Z.leb_spec 0 e) as [He|He].
  - rewrite Z.max_l, Z.max_r by lia. assert (P : (0 <= 2 ^ e)%Z) by (apply Z.pow_nonneg; lia). rewrite Z.abs_mul, (Z.abs_eq (2 ^ e)) by auto. split; [lia|]. intros k. change (2 ^ 0)%Z with 1%Z. lia.
  - rewrite Z.max_r, Z.max_l by lia. change (2 ^ 0)%Z with 1%Z. set (D := (2 ^ - e)%Z). assert (P : (0 < D)%Z) by (apply Z.pow_pos_nonneg; lia).
    assert (Q : Z.abs (Z.quot m D) = (Z.abs m / D)%Z). { rewrite <- Z.quot_div_nonneg by lia. rewrite <- (Z.abs_eq D) at 2 by lia. symmetry. apply Z.quot_abs. lia. }
    assert (R : (Z.rem m D =? 0)%Z = (Z.abs m mod D =? 0)%Z).
    { rewrite <- Z.rem_mod_nonneg by lia. destruct (Z.eqb_spec (Z.rem m D) 0) as [X|X]; symmetry; [apply Z.eqb_eq|apply Z.eqb_neq]; assert (Y := Z.rem_abs_l m D ltac:(lia)); lia. }
    rewrite R, Q. assert (Z0 := Z.div_mod (Z.abs m) D ltac:(lia)). assert (M := Z.mod_pos_bound (Z.abs m) D P). assert (N : (0 <= Z.abs m / D)%Z) by (apply Z.div_pos; lia).
    destruct (Z.eqb_spec (Z.abs m mod D) 0) as [X|X]; (split; [lia|]; intros k; split; nia).
Qed.
Lemma length_of_div A B q e s : (0 < B)%Z -> (0 <= A)%Z -> (s = 1 \/ s = -1)%Z -> (0 <= q)%Z -> (e <= 0)%Z ->
  (cdiv A B * 2 ^ (- e) >= q)%Z -> ((cdiv A B - 1) * 2 ^ (- e) < q)%Z -> length_of (mkdouble (s * q) e) = cdiv A B.
Proof.
  intros HB HA Hs Hq He H1 H2. destruct (length_of_ceil (mkdouble (s * q) e)) as [P H]. cbn [fm fe] in H. rewrite Z.max_r, Z.max_l in H by lia. assert (Aq : Z.abs (s * q) = q) by (destruct Hs; subst s; lia). rewrite Aq in H. change (2 ^ 0)%Z with 1%Z in H.
  assert (X := proj2 (H (cdiv A B)) ltac:(lia)). assert (Y : ~ (length_of (mkdouble (s * q) e) <= cdiv A B - 1)%Z) by (rewrite H; lia). lia.
Qed.
Lemma exponent_ok A B K : (K = 2 ^ 52)%Z -> (0 < A)%Z -> (0 < B)%Z -> (Z.log2 A < 53)%Z -> (Z.log2 B < 1000)%Z -> (exponent A B <= 0)%Z /\ (A * 2 ^ (- exponent A B) >= B * K)%Z.
Proof.
  intros EK HA HB UA UB. unfold exponent. set (k := (Z.log2 A - Z.log2 B)%Z). assert (LA := Z.log2_spec A HA). assert (LB := Z.log2_spec B HB). assert (NA := Z.log2_nonneg A). assert (NB := Z.log2_nonneg B).
  assert (PK : (0 < K)%Z) by (rewrite EK; reflexivity).
  destruct (if (0 <=? k)%Z then _ else _) eqn:C.
  - rewrite Z.max_l by (clear EK; lia). split; [clear EK; lia|]. replace (- (k - 52))%Z with (52 - k)%Z by (clear EK; lia). destruct (Z.leb_spec 0 k) as [D|D].
    + apply Z.leb_le in C. assert (X : (K = 2 ^ k * 2 ^ (52 - k))%Z) by (rewrite EK, <- Z.pow_add_r by (clear EK; lia); f_equal; clear EK; lia). clear EK. rewrite X. assert (0 < 2 ^ (52 - k))%Z by (apply Z.pow_pos_nonneg; lia). nia.
    + apply Z.leb_le in C. replace (52 - k)%Z with (- k + 52)%Z by (clear EK; lia). rewrite Z.pow_add_r, <- EK by (clear EK; lia). clear EK. nia.
  - rewrite Z.max_l by (clear EK; lia). split; [clear EK; lia|]. replace (- (k - 53))%Z with (53 - k)%Z by (clear EK; lia).
    assert (X : (2 ^ Z.log2 A * 2 ^ (53 - k) = 2 ^ Z.succ (Z.log2 B) * K)%Z) by (rewrite EK, <- !Z.pow_add_r by (clear EK; lia); f_equal; clear EK; lia). clear EK.
    assert (0 < 2 ^ (53 - k))%Z by (apply Z.pow_pos_nonneg; lia). nia.
Qed.
Lemma no_overflow q : (Z.log2 q < 54)%Z -> (0 <= q)%Z -> (2 ^ 1024 <=? q)%Z = false.
Proof. intros H Hq. apply Z.leb_gt. destruct (Z.eq_dec q 0) as [->|N]; [reflexivity|]. apply Z.log2_lt_pow2; lia. Qed.
Lemma round_quot_near n d : (0 <= n)%Z -> (0 < d)%Z -> (Z.abs (2 * (round_quot n d * d - n)) <= d)%Z.
Proof.
  intros Hn Hd. unfold round_quot. assert (Z0 := Z.div_mod n d ltac:(lia)). assert (M := Z.mod_pos_bound n d Hd). destruct (Z.ltb_spec d (2 * (n mod d))) as [C|C]; cbn [orb]; [nia|].
  destruct (Z.eqb_spec (2 * (n mod d)) d) as [E|E]; cbn [andb]; [destruct (Z.odd _); nia|nia].
Qed.
Lemma true_div_form a b : (b <> 0)%Z -> (a <> 0)%Z -> (Z.abs a < 2 ^ 53)%Z -> (Z.abs b < 2 ^ 1000)%Z -> exists q e, true_div a b = Ok (mkdouble (Z.sgn a * Z.sgn b * q) e) /\
  (e <= 0)%Z /\ (0 <= q)%Z /\ (Z.abs (2 * (q * Z.abs b - Z.abs a * 2 ^ (- e))) <= Z.abs b)%Z /\ (Z.abs b < 2 * 2 ^ (- e))%Z.
Proof.
  intros Hb Na Ha Hb'. unfold true_div. destruct (Z.eqb_spec b 0) as [|_]; [contradiction|]. destruct (Z.eqb_spec a 0) as [|_]; [contradiction|].
  set (A := Z.abs a) in *. set (B := Z.abs b) in *. assert (HB : (0 < B)%Z) by (clear Ha Hb'; lia). assert (HA : (0 < A)%Z) by (clear Ha Hb'; lia).
  assert (UA : (Z.log2 A < 53)%Z) by (apply Z.log2_lt_pow2; auto). assert (UB : (Z.log2 B < 1000)%Z) by (apply Z.log2_lt_pow2; auto). clear Hb'.
  assert (EK : exists K, (K = 2 ^ 52 /\ 2 ^ 53 = 2 * K)%Z) by (exists (2 ^ 52)%Z; split; reflexivity). destruct EK as (K & EK & E2K). rewrite E2K in Ha. clear E2K.
  destruct (exponent_ok A B K EK HA HB UA UB) as [E1 E2]. clear EK. set (e := exponent A B) in *. clearbody e.
  assert (Q : (if (0 <=? e)%Z then round_quot A (B * 2 ^ e) else round_quot (A * 2 ^ - e) B) = round_quot (A * 2 ^ - e) B).
  { destruct (Z.leb_spec 0 e); [|auto]. assert (e = 0%Z) as -> by lia. change (2 ^ - 0)%Z with 1%Z. change (2 ^ 0)%Z with 1%Z. rewrite !Z.mul_1_r. auto. }
  rewrite Q. set (q := round_quot (A * 2 ^ - e) B). exists q, e. set (F := (2 ^ - e)%Z) in *. assert (PF : (0 < F)%Z) by (apply Z.pow_pos_nonneg; lia).
  assert (R := round_quot_near (A * F) B ltac:(nia) HB). fold q in R. assert (F2 : (B < 2 * F)%Z) by nia. assert (Qp : (0 <= q)%Z) by nia.
  assert (O : (0 <=? e)%Z && (2 ^ 1024 <=? q * 2 ^ e)%Z = false).
  { destruct (Z.leb_spec 0 e); cbn [andb]; [|auto]. assert (e = 0%Z) as -> by lia. change (2 ^ 0)%Z with 1%Z. rewrite Z.mul_1_r. assert (F = 1%Z) by reflexivity. assert (q <= A)%Z by nia. apply no_overflow; [|auto]. assert (X := Z.log2_le_mono q A ltac:(auto)). clear - X UA. lia. }
  rewrite O. auto.
Qed.
Lemma true_div_len a b : (b <> 0)%Z -> (Z.abs a < 2 ^ 53)%Z -> (Z.abs b < 2 ^ 1000)%Z -> exists v, true_div a b = Ok v /\ length_of v = cdiv (Z.abs a) (Z.abs b).
Proof.
  intros Hb Ha Hb'. destruct (Z.eq_dec a 0) as [->|Na].
  { exists (mkdouble 0 0). unfold true_div. destruct (Z.eqb_spec b 0) as [|_]; [contradiction|]. split; [auto|]. change (length_of (mkdouble 0 0)) with 0%Z. change (Z.abs 0) with 0%Z. symmetry. clear Ha Hb'. apply cdiv_unique; lia. }
  destruct (true_div_form a b Hb Na Ha Hb') as (q & e & Ev & E1 & Qp & R & F2). clear Ha Hb'. rewrite Ev. eexists. split; [reflexivity|]. set (A := Z.abs a) in *. set (B := Z.abs b) in *. assert (HB : (0 < B)%Z) by lia. assert (HA : (0 < A)%Z) by lia.
  set (F := (2 ^ - e)%Z) in *. assert (PF : (0 < F)%Z) by (apply Z.pow_pos_nonneg; lia).
  assert (H2 := proj1 (cdiv_le A B (cdiv A B) HB) ltac:(lia)). assert (H1 : ~ (A <= (cdiv A B - 1) * B)%Z) by (rewrite <- cdiv_le by auto; lia). set (c := cdiv A B) in *.
  apply length_of_div; auto; try (clear - Na Hb HA E1; lia).
  fold F. fold c.
  - assert (~ (q > c * F)%Z); [|lia]. intros X. assert (q >= c * F + 1)%Z by lia. nia.
  - fold F. fold c. assert (~ (q <= (c - 1) * F)%Z); [|lia]. intros X. nia.
Qed.
(** The rounded quotient is an integer only if the exact one is. *)
Lemma true_div_exact a b : (b <> 0)%Z -> (Z.abs a < 2 ^ 53)%Z -> (Z.abs b < 2 ^ 1000)%Z ->
  exists v, true_div a b = Ok v /\ (integral v = true <-> (b | a)%Z) /\ ((b | a)%Z -> to_int v = (a / b)%Z).
Proof.
  intros Hb Ha Hb'. destruct (Z.eq_dec a 0) as [->|Na].
  { exists (mkdouble 0 0). unfold true_div. destruct (Z.eqb_spec b 0) as [|_]; [contradiction|]. split; [auto|]. rewrite Z.div_0_l by auto. split; [split; [intros _; apply Z.divide_0_r|auto]|auto]. }
  destruct (true_div_form a b Hb Na Ha Hb') as (q & e & Ev & E1 & Qp & R & F2). clear Ha Hb'. rewrite Ev. eexists. split; [reflexivity|]. clear Ev. unfold integral, to_int. cbn [fm fe].
  set (F := (2 ^ - e)%Z) in *. assert (PF : (0 < F)%Z) by (apply Z.pow_pos_nonneg; lia). set (s := (Z.sgn a * Z.sgn b)%Z). assert (Ss : (s = 1 \/ s = -1)%Z) by (unfold s; lia).
  assert (D1 : forall c, (a = c * b -> q = Z.abs c * F)%Z).
  { intros c ->. rewrite Z.abs_mul in R. assert (HB : (0 < Z.abs b)%Z) by lia. assert (Z.abs (2 * (q - Z.abs c * F)) * Z.abs b <= 1 * Z.abs b)%Z; [|nia]. rewrite <- (Z.abs_involutive b) at 1. rewrite <- Z.abs_mul. replace (2 * (q - Z.abs c * F) * Z.abs b)%Z with (2 * (q * Z.abs b - Z.abs c * Z.abs b * F))%Z by ring. lia. }
  assert (D2 : forall c, (q = c * F -> Z.abs a = c * Z.abs b)%Z).
  { intros c ->. assert (Z.abs (2 * (c * Z.abs b - Z.abs a)) * F < 2 * F)%Z; [|nia]. rewrite <- (Z.abs_eq F) at 1 by lia. rewrite <- Z.abs_mul. replace (2 * (c * Z.abs b - Z.abs a) * F)%Z with (2 * (c * F * Z.abs b - Z.abs a * F))%Z by ring. lia. }
  assert (D3 : (b | a)%Z <-> (F | q)%Z).
  { split; [intros (c & E); exists (Z.abs c); auto|]. intros (c & E). apply D2 in E. apply Z.divide_abs_r, Z.divide_abs_l. exists c. auto. }
  assert (Se : forall c, (a = c * b -> s * Z.abs c = c)%Z). { intros c ->. unfold s. rewrite Z.sgn_mul. destruct (Z.sgn_spec b) as [[X ->]|[[X ->]|[X ->]]], (Z.sgn_spec c) as [[Y ->]|[[Y ->]|[Y ->]]]; lia. }
  destruct (Z.leb_spec 0 e) as [L|L].
  - assert (e = 0%Z) by lia. subst e. change F with 1%Z in *. change (2 ^ 0)%Z with 1%Z. split; [split; [intros _; apply D3, Z.divide_1_l|auto]|]. intros (c & E). rewrite Z.mul_1_r, (D1 c E), Z.mul_1_r, (Se c E), E, Z.div_mul by auto. auto.
  - split.
    + rewrite Z.eqb_eq, Z.rem_divide by lia. rewrite D3. destruct Ss as [->| ->]; [rewrite Z.mul_1_l; tauto|]. split; intros H; [|apply Z.divide_mul_r; auto]. replace q with (-1 * (-1 * q))%Z by lia. apply Z.divide_mul_r. auto.
    + intros (c & E). rewrite (D1 c E), Z.mul_assoc, Z.quot_mul, (Se c E), E, Z.div_mul by (auto; lia). auto.
Qed.

(** ** The rule *)
Definition arange_shape (start stop step : Z) (x : list Z) : Prop :=
  toward start stop step /\ exists n, elements start stop step n /\ ((0 < n)%Z /\ x = [n] \/ n = 0%Z /\ x = []).
Lemma checked_ok a b c : (Z.abs (a - b) < 2 ^ 53)%Z -> (Z.abs c < 2 ^ 1000)%Z ->
  match checked_len a b c with
  | Ok n => toward a b c /\ elements a b c n /\ (0 <= n)%Z
  | Err e => (e = ValueError \/ e = ZeroDivisionError /\ c = 0%Z) /\ ~ toward a b c
  end.
Proof.
  intros Ha Hc. unfold checked_len, toward. destruct (Z.ltb_spec b a) as [L1|L1], (Z.ltb_spec 0 c) as [P|P]; cbn [andb]; try (split; [left; auto|clear Ha Hc; lia]);
  (destruct (Z.ltb_spec a b) as [L2|L2], (Z.ltb_spec c 0) as [N|N]; cbn [andb]; try (split; [left; auto|clear Ha Hc; lia]));
  (unfold arange_len; destruct (Z.eq_dec c 0) as [->|Nc]; [unfold true_div; cbn; split; [right; auto|clear Ha Hc; lia]|];
   destruct (true_div_len (a - b) c Nc Ha Hc) as (v & E & L); rewrite E, L; clear Ha Hc; split; [lia|]; split; [apply elements_iff; [unfold toward; lia|auto]|]; rewrite <- L; apply length_of_ceil).
Qed.
Lemma update_rp l1 : forall l2 s, rp (fst (update_uniadics l1 l2 s)) = rp s.
Proof.
  induction l1 as [|a l1 IH]; intros [|b l2] s; auto. cbn [update_uniadics]. unfold hbind, lift. destruct (uni_match a b (us s)) as [u [x|e]]; [|auto]. apply (IH l2 (with_us s u)).
Qed.
(** The three steps by which a variadic is replaced by a list are the unification with this list. *)
Lemma by_match q l s : root (rp s q) <> None ->
  (do _ <- update_uniadics (pre (rp s q)) l; do _ <- (fun s => update_uniadics (reversed (rp s q)) (rev l) s); remove_variadic q l) s = inner_match q (mkshape l None []) s.
Proof.
  intros R. unfold inner_match. cbn [root pre suf]. destruct (root (rp s q)) as [v|] eqn:Rv; [|congruence]. unfold hbind. assert (E1 := update_rp (pre (rp s q)) l s).
  destruct (update_uniadics (pre (rp s q)) l s) as [s1 [[]|e]]; [|auto]. cbn in E1. rewrite E1. assert (E2 := update_rp (reversed (rp s q)) (rev l) s1).
  destruct (update_uniadics (reversed (rp s q)) (rev l) s1) as [s2 [[]|e]]; [|auto]. cbn in E2. unfold remove_variadic. rewrite E2, E1, Rv. unfold hraise. destruct (length l <? _); auto.
Qed.
Lemma arange_ok s qo a b c (P : (nat -> list Z) -> Prop) : sinv s -> qo < nrep s -> (Z.abs (a - b) < 2 ^ 53)%Z -> (Z.abs c < 2 ^ 1000)%Z ->
  (forall rho sh, allows s rho sh -> P sh -> arange_shape a b c (sh qo)) ->
  match arange qo (Some a) (Some b) (Some c) s with
  | (s', Ok r) => r = true /\ toward a b c /\ sound_for P s s' /\ (root (rp s qo) = None -> forall rho sh, allows s' rho sh -> arange_shape a b c (sh qo)) /\
      (forall n rho sh, elements a b c n -> allows s' rho sh -> length (sh qo) = if (n =? 0)%Z then 0 else 1)
  | (_, Err e) => (e = ValueError \/ e = ZeroDivisionError /\ c = 0%Z) /\ excludes P s
  end.
Proof.
  intros I Hq Ha Hc HP. unfold arange. assert (Ck := checked_ok a b c Ha Hc). destruct (checked_len a b c) as [n|e].
  2: { split; [apply Ck|]. intros rho sh A Hp. apply (proj2 Ck). apply (HP rho sh A Hp). }
  destruct Ck as (T & El & Pn). clear Ha Hc. assert (Sh : forall rho tau sh, sat (us s) rho -> (forall x, x < nrep s -> den s rho tau x = sh x) -> P sh -> sh qo = if (n =? 0)%Z then [] else [n]).
  { intros rho tau sh Hs D Hp. destruct (HP rho sh) as (_ & m & Em & C); [apply allows_den; eauto|auto|]. rewrite (elements_fun _ _ _ _ _ Em El) in C. destruct C as [[C ->]|[-> ->]]; [|auto]. destruct (Z.eqb_spec n 0); [lia|auto]. }
  assert (Ex : forall x, x = (if (n =? 0)%Z then [] else [n]) -> arange_shape a b c x).
  { intros x ->. split; [auto|]. exists n. split; [auto|]. destruct (Z.eqb_spec n 0) as [->|]; [right; auto|left; split; [lia|auto]]. }
  assert (Lx : forall x m, elements a b c m -> x = (if (n =? 0)%Z then [] else [n]) -> length x = if (m =? 0)%Z then 0 else 1).
  { intros x m Em ->. rewrite (elements_fun _ _ _ _ _ Em El). destruct (n =? 0)%Z; auto. }
  destruct (root (rp s qo)) as [v|] eqn:Rv.
  - assert (Long : forall (rho : nat -> Z) tau sh, (forall x, x < nrep s -> den s rho tau x = sh x) -> shlen (rp s qo) <= length (sh qo)) by (intros rho tau sh D; rewrite <- D, den_length by auto; lia).
    destruct (Nat.leb_spec (shlen (rp s qo)) 1) as [L|L].
    2: { split; [left; auto|]. intros rho sh A Hp. apply allows_den in A as (Hs & tau & D). assert (X := Sh rho tau sh Hs D Hp). assert (Y := Long rho tau sh D). rewrite X in Y. destruct (n =? 0)%Z; cbn in Y; lia. }
    destruct (Z.ltb_spec 0 n) as [N|N].
    + assert (M := match_list P _ (do u <- new_dim None; hret [u]) s qo I Hq (makes_dim None s (s_inv _ I))). lapply M; [clear M; intros M|].
      2: { intros rho tau sh Hs D Hp. rewrite (Sh rho tau sh Hs D Hp). destruct (Z.eqb_spec n 0); [lia|]. exists n. split; [auto|exact Logic.I]. }
      revert M. unfold hbind. destruct (new_dim None s) as [s1 [u|e]] eqn:En; unfold hret.
      * assert (R1 : rp s1 = rp s). { unfold new_dim, lift in En. destruct (new_uniadic _ _) as [u' r]. injection En as <- _. auto. }
        assert (B := by_match qo [u] s1). rewrite R1, Rv in B. specialize (B ltac:(discriminate)). unfold hbind in B. cbn [rev app] in B. rewrite <- B. clear B.
        destruct (update_uniadics (pre (rp s qo)) [u] s1) as [s2 [[]|e]]; [|intros [-> M]; auto].
        destruct (update_uniadics (reversed (rp s2 qo)) [u] s2) as [s3 [[]|e]]; [|intros [-> M]; auto]. destruct (remove_variadic qo [u] s3) as [s4 [[]|e]]; [|intros [-> M]; auto].
        intros [M1 M2]. do 2 (split; [auto|]). split; [auto|]. split; [discriminate|]. intros m rho sh Em A. destruct (M2 rho sh A) as (y & -> & _). rewrite (elements_fun _ _ _ _ _ Em El). destruct (Z.eqb_spec n 0); [lia|auto].
      * intros [-> M]. auto.
    + assert (n = 0%Z) as -> by lia. destruct (Nat.eqb_spec (shlen (rp s qo)) 1) as [L1|L1]; cbn [negb].
      * split; [left; auto|]. intros rho sh A Hp. apply allows_den in A as (Hs & tau & D). assert (X := Sh rho tau sh Hs D Hp). assert (Y := Long rho tau sh D). rewrite X in Y. cbn in Y. lia.
      * assert (M := match_list P _ (hret []) s qo I Hq (makes_old [] s (s_inv _ I) ltac:(intros x []))). lapply M; [clear M; intros M|].
        2: { intros rho tau sh Hs D Hp. rewrite (Sh rho tau sh Hs D Hp). auto. }
        unfold hbind, hret in M |- *. assert (B := by_match qo [] s). rewrite Rv in B. specialize (B ltac:(discriminate)). unfold hbind in B. assert (Nu : forall l t, update_uniadics l [] t = (t, Ok tt)) by (intros [|? ?] t; auto).
        cbn [rev] in B. rewrite !Nu in B. rewrite <- B in M. clear B. destruct (remove_variadic qo [] s) as [s4 [[]|e]]; [|destruct M as [-> M]; auto]. destruct M as [M1 M2]. do 2 (split; [auto|]). split; [auto|]. split; [discriminate|].
        intros m rho sh Em A. apply Lx; auto. apply (M2 rho sh A).
  - assert (Sf : suf (rp s qo) = []). { destruct (s_repr _ I qo Hq) as (_ & W & _). auto. } assert (Dn := fun rho tau => den_plain_suffix s rho tau qo I Hq Rv). assert (Ls : shlen (rp s qo) = length (pre (rp s qo))) by (unfold shlen; rewrite Sf; cbn; lia). rewrite Ls.
    destruct (Nat.eqb_spec (length (pre (rp s qo))) (if (n =? 0)%Z then 0 else 1)) as [L|L]; cbn [negb].
    2: { split; [left; auto|]. intros rho sh A Hp. apply allows_den in A as (Hs & tau & D). assert (X := Sh rho tau sh Hs D Hp). rewrite <- D, Dn in X by auto. apply L. rewrite <- (map_length rho), X. destruct (n =? 0)%Z; auto. }
    destruct (Z.eqb_spec n 0) as [->|N]; cbn [negb] in *.
    + destruct (pre (rp s qo)) as [|u l] eqn:Ep; [|discriminate]. do 2 (split; [auto|]). split; [apply sound_for_refl; auto|]. split; intros; [apply Ex|apply Lx; auto]; match goal with A : allows s ?r ?x |- _ => apply allows_den in A as (Hs & tau & D); rewrite <- D, Dn by auto end; auto.
    + destruct (pre (rp s qo)) as [|u [|w l]] eqn:Ep; try discriminate. destruct (Z.ltb_spec 0 n); [|lia]. unfold hbind, hret.
      assert (Lu : live (us s) u). { destruct (s_repr _ I qo Hq) as (W & _). apply W. rewrite Ep. left; auto. }
      assert (X := on_dims P (update_possible_values u (Some [n])) _ s I (update_imposes (us s) u (Some [n]) (s_inv _ I) Lu ltac:(cbn; repeat constructor; auto))). lapply X; [clear X; intros X|].
      2: { intros rho tau sh Hs D Hp. assert (Y := Sh rho tau sh Hs D Hp). rewrite <- D, Dn in Y by auto. cbn in Y. cbn. left. congruence. }
      destruct (lift (update_possible_values u (Some [n])) s) as [s' [x|e]]; [|destruct X as [-> X]; auto]. destruct X as (X1 & X2 & X3 & X4).
      assert (Fin : forall rho sh, allows s' rho sh -> sh qo = [n]). { intros rho sh A. destruct (X4 rho sh A) as [Y|[]]. apply X1 in A. apply allows_den in A as (Hs & tau & D). rewrite <- D, Dn by auto. cbn. congruence. }
      do 2 (split; [auto|]). split; [auto|]. split; [intros _ rho sh A; apply Ex; apply (Fin rho); auto|intros m rho sh Em A; apply Lx; auto; apply (Fin rho); auto].
Qed.
