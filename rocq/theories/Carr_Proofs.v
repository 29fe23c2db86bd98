(** * Lemmas on memory, positions in memory and loops. *)
From Coq Require Import Reals List ZArith Lia Lra Bool.
From Verif Require Import PyBase Corr_Proofs Axis_Model Axis_Spec Axis_Proofs Move_Model Move_Spec Move_Proofs Move_Proofs2 Attn_Proofs Carr_Model Carr_Spec.
Import ListNotations.
Open Scope R_scope.
Open Scope list_scope.
Open Scope res_scope.

(** ** Memory *)
Lemma rd_nth {A} (l : list A) i d : (i < length l)%nat -> rd l i = Ok (nth i l d).
Proof. intros H. unfold rd. now rewrite (nth_error_nth' l d H). Qed.
Lemma rd_out {A} (l : list A) i : (length l <= i)%nat -> rd l i = undefined.
Proof. intros H. unfold rd. now rewrite (proj2 (nth_error_None l i) H). Qed.
Lemma wr_ok {A} (l : list A) i v d : (i < length l)%nat -> exists l', wr l i v = Ok l' /\ length l' = length l /\
  forall j, nth j l' d = if Nat.eqb j i then v else nth j l d.
Proof.
  intros H. unfold wr. rewrite (proj2 (Nat.ltb_lt _ _) H). eexists. split; [reflexivity|]. split.
  - rewrite app_length, firstn_length. cbn [length]. rewrite skipn_length. lia.
  - intros j. assert (LF : length (firstn i l) = i) by (rewrite firstn_length; lia).
    destruct (Nat.eqb_spec j i) as [->|N].
    + rewrite app_nth2 by lia. now rewrite LF, Nat.sub_diag.
    + destruct (Nat.lt_ge_cases j i) as [Q|Q].
      * rewrite app_nth1 by lia. rewrite <- (firstn_skipn i l) at 2. now rewrite app_nth1 by lia.
      * rewrite app_nth2 by lia. rewrite LF. replace (j - i)%nat with (S (j - S i)) by lia. cbn [nth].
        rewrite <- (firstn_skipn (S i) l) at 2. rewrite app_nth2 by (rewrite firstn_length; lia).
        rewrite firstn_length. f_equal. lia.
Qed.

(** ** Loops *)
Lemma each_inv {A B} (is : list A) (body : A -> B -> res B) (P : list A -> B -> Prop) : forall done s,
  P done s ->
  (forall pre i post s, done ++ is = pre ++ i :: post -> P pre s -> exists s', body i s = Ok s' /\ P (pre ++ [i]) s') ->
  exists s', each is body s = Ok s' /\ P (done ++ is) s'.
Proof.
  induction is as [|i is IH]; intros done s P0 H; cbn [each].
  - exists s. now rewrite app_nil_r.
  - destruct (H done i is s eq_refl P0) as (s1 & E1 & P1). rewrite E1. cbn [bind].
    destruct (IH (done ++ [i]) s1 P1) as (s2 & E2 & P2).
    { intros pre j post s' Eq. apply (H pre j post s'). rewrite <- Eq, <- app_assoc. reflexivity. }
    exists s2. split; [exact E2|]. now rewrite <- app_assoc in P2.
Qed.
Lemma for_inv {B} n (body : nat -> B -> res B) (P : nat -> B -> Prop) s : P 0%nat s ->
  (forall i s, (i < n)%nat -> P i s -> exists s', body i s = Ok s' /\ P (S i) s') ->
  exists s', for_ n body s = Ok s' /\ P n s'.
Proof.
  intros P0 H. unfold for_.
  cut (forall m k s, (k + m = n)%nat -> P k s -> exists s', each (seq k m) body s = Ok s' /\ P n s').
  { intros K. apply (K n 0%nat s); [lia|assumption]. }
  clear s P0. induction m as [|m IH]; intros k s Q Pk; cbn [seq each].
  - exists s. split; [reflexivity|]. now replace n with k by lia.
  - destruct (H k s) as (s1 & E1 & P1); [lia|assumption|]. rewrite E1. cbn [bind].
    destruct (IH (S k) s1) as (s2 & E2 & P2); [lia|assumption|]. now exists s2.
Qed.
(** A loop that assigns every entry in turn; the assigned value may depend on the entries from there on. *)
Lemma fill_loop n body (v : nat -> R) d0 : length d0 = n ->
  (forall i d, (i < n)%nat -> length d = n -> (forall j, (i <= j)%nat -> nth j d 0 = nth j d0 0) -> body i d = wr d i (v i)) ->
  exists d, for_ n body d0 = Ok d /\ length d = n /\ forall j, (j < n)%nat -> nth j d 0 = v j.
Proof.
  intros L H.
  destruct (for_inv n body (fun i d => length d = n /\ (forall j, (j < i)%nat -> nth j d 0 = v j) /\ (forall j, (i <= j)%nat -> nth j d 0 = nth j d0 0)) d0)
    as (d & E & LD & V & _).
  - split; [exact L|]. split; [lia|reflexivity].
  - intros i d Hi (LD & V & W). rewrite (H i d Hi LD W).
    destruct (wr_ok d i (v i) 0) as (d' & E & L' & N); [lia|]. exists d'. split; [exact E|].
    split; [lia|]. split.
    + intros j Hj. rewrite N. destruct (Nat.eqb_spec j i) as [->|Q]; [reflexivity|]. apply V. lia.
    + intros j Hj. rewrite N. destruct (Nat.eqb_spec j i) as [->|Q]; [lia|]. apply W. lia.
  - now exists d.
Qed.
(** A loop that assigns entries at different places. *)
Lemma scatter_loop {A} (z : A) n body (p : nat -> nat) (v : nat -> A) d0 :
  (forall i, (i < n)%nat -> (p i < length d0)%nat) -> (forall i j, (i < n)%nat -> (j < n)%nat -> p i = p j -> i = j) ->
  (forall i d, (i < n)%nat -> length d = length d0 -> body i d = wr d (p i) (v i)) ->
  exists d, for_ n body d0 = Ok d /\ length d = length d0 /\ (forall i, (i < n)%nat -> nth (p i) d z = v i) /\
    forall j, (forall i, (i < n)%nat -> p i <> j) -> nth j d z = nth j d0 z.
Proof.
  intros HP IJ H.
  destruct (for_inv n body (fun i d => length d = length d0 /\ (forall k, (k < i)%nat -> nth (p k) d z = v k) /\
    (forall j, (forall k, (k < i)%nat -> p k <> j) -> nth j d z = nth j d0 z)) d0)
    as (d & E & LD & V & W).
  - split; [reflexivity|]. split; [lia|reflexivity].
  - intros i d Hi (LD & V & W). rewrite (H i d Hi LD).
    destruct (wr_ok d (p i) (v i) z) as (d' & E & L' & N); [rewrite LD; now apply HP|]. exists d'. split; [exact E|].
    split; [lia|]. split.
    + intros k Hk. rewrite N. destruct (Nat.eqb_spec (p k) (p i)) as [Q|Q].
      * now rewrite (IJ k i ltac:(lia) Hi Q).
      * apply V. destruct (Nat.eq_dec k i) as [->|]; [congruence|lia].
    + intros j Hj. rewrite N. destruct (Nat.eqb_spec j (p i)) as [->|Q]; [exfalso; now apply (Hj i ltac:(lia))|].
      apply W. intros k Hk. apply Hj. lia.
  - now exists d.
Qed.
(** A loop that adds to entries. *)
Lemma add_loop n body (p : nat -> nat) (v : nat -> R) d0 :
  (forall i, (i < n)%nat -> (p i < length d0)%nat) ->
  (forall i d, (i < n)%nat -> length d = length d0 -> body i d = upd d (p i) (v i)) ->
  exists d, for_ n body d0 = Ok d /\ length d = length d0 /\
    forall j, (j < length d0)%nat -> nth j d 0 = nth j d0 0 + lsum (seq 0 n) (fun i => if Nat.eqb (p i) j then v i else 0).
Proof.
  intros HP H.
  destruct (for_inv n body (fun i d => length d = length d0 /\
    forall j, (j < length d0)%nat -> nth j d 0 = nth j d0 0 + lsum (seq 0 i) (fun i => if Nat.eqb (p i) j then v i else 0)) d0)
    as (d & E & LD & V).
  - split; [reflexivity|]. intros j _. unfold lsum. cbn. ring.
  - intros i d Hi (LD & V). rewrite (H i d Hi LD). unfold upd.
    assert (Hp : (p i < length d)%nat) by (rewrite LD; now apply HP). rewrite (rd_nth _ _ 0 Hp). cbn [bind].
    destruct (wr_ok d (p i) (nth (p i) d 0 + v i) 0 Hp) as (d' & E & L' & N). exists d'. split; [exact E|].
    split; [lia|]. intros j Hj. rewrite N, seq_S, lsum_app, lsum_one. cbn [Nat.add].
    destruct (Nat.eqb_spec j (p i)) as [->|Q].
    + rewrite Nat.eqb_refl, V by assumption. ring.
    + destruct (Nat.eqb_spec (p i) j) as [Q'|Q']; [congruence|]. rewrite V by assumption. ring.
  - now exists d.
Qed.

(** ** Positions *)
Definition dot (i st : list nat) : nat := fold_right (fun p a => (fst p * snd p + a)%nat) 0%nat (combine i st).
Fixpoint coords (s : list nat) (m : nat) : list nat :=
  match s with [] => [] | d :: r => ((m / size r) mod d)%nat :: coords r m end.
Lemma size_cons d r : size (d :: r) = (d * size r)%nat.
Proof. reflexivity. Qed.
Lemma size_pos s : positive s -> (0 < size s)%nat.
Proof.
  induction s as [|d s IH]; intros H; [cbn; lia|]. rewrite size_cons.
  assert (0 < d)%nat by (apply H; now left). assert (0 < size s)%nat by (apply IH; intros e He; apply H; now right). nia.
Qed.
Lemma pos_size s : (0 < size s)%nat -> positive s.
Proof.
  induction s as [|d s IH]; intros H e; [easy|]. rewrite size_cons in H. intros [<-|He]; [nia|]. apply IH; [nia|assumption].
Qed.
Lemma positive_tail d s : positive (d :: s) -> positive s /\ (0 < d)%nat.
Proof. intros H. split; [intros e He; apply H; now right|apply H; now left]. Qed.
Lemma coords_unravel s : positive s -> forall m, coords s m = unravel s (m mod size s).
Proof.
  induction s as [|d s IH]; intros P m; [reflexivity|]. destruct (positive_tail _ _ P) as [Ps Pd].
  pose proof (size_pos _ Ps) as Z. cbn [coords unravel]. rewrite size_cons, (Nat.mul_comm d), Nat.mod_mul_r by lia.
  assert (Q : (m mod size s < size s)%nat) by (apply Nat.mod_upper_bound; lia). f_equal.
  - rewrite (Nat.mul_comm (size s)), Nat.div_add by lia. rewrite (Nat.div_small _ _ Q). reflexivity.
  - rewrite (Nat.mul_comm (size s)), Nat.mod_add by lia. rewrite Nat.mod_mod by lia. now rewrite IH.
Qed.
Lemma coords_small s m : (m < size s)%nat -> coords s m = unravel s m.
Proof. intros H. rewrite coords_unravel by (apply pos_size; lia). now rewrite Nat.mod_small. Qed.
Lemma coords_length s m : length (coords s m) = length s.
Proof. induction s; cbn; congruence. Qed.

Definition sizes_in (l : list (nat * nat)) : nat := fold_right (fun p a => (fst p * a)%nat) 1%nat l.
Lemma loc_from_app l : (forall p, In p l -> (0 < fst p)%nat) -> forall idx n w, (0 < n)%nat ->
  loc_from idx (l ++ [(n, w)]) = let* a := loc_from idx l in Ok (a + ((idx / sizes_in l) mod n) * w)%nat.
Proof.
  induction l as [|[m v] l IH]; intros H idx n w Hn.
  - cbn [app loc_from sizes_in fold_right]. destruct (Nat.eqb_spec n 0) as [E|_]; [lia|]. cbn [bind].
    rewrite Nat.div_1_r. f_equal. lia.
  - assert (Hm : (0 < m)%nat) by (apply (H (m, v)); now left). cbn [app loc_from].
    destruct (Nat.eqb_spec m 0) as [E|_]; [lia|]. rewrite IH; [|intros p Hp; apply H; now right|assumption].
    destruct (loc_from (idx / m) l) as [a|e]; [|reflexivity]. cbn [bind sizes_in fold_right fst]. fold (sizes_in l).
    rewrite Nat.div_div; [|lia|].
    + f_equal. lia.
    + assert (Z : (0 < sizes_in l)%nat); [|lia]. clear - H. induction l as [|p l IH]; cbn; [lia|].
      assert (0 < fst p)%nat by (apply H; cbn; tauto). fold (sizes_in l).
      assert (0 < sizes_in l)%nat; [|nia]. apply IH. intros q [<-|Hq]; apply H; cbn; tauto.
Qed.
Lemma sizes_in_app l m : sizes_in (l ++ m) = (sizes_in l * sizes_in m)%nat.
Proof.
  induction l as [|p l IH]; [symmetry; apply Nat.mul_1_l|]. change (fst p * sizes_in (l ++ m) = fst p * sizes_in l * sizes_in m)%nat.
  rewrite IH. apply Nat.mul_assoc.
Qed.
Lemma loc_coords s : positive s -> forall st idx, length st = length s ->
  loc_from idx (rev (combine s st)) = Ok (dot (coords s idx) st) /\ sizes_in (rev (combine s st)) = size s.
Proof.
  induction s as [|d s IH]; intros P [|w st] idx L; try easy. destruct (positive_tail _ _ P) as [Ps Pd].
  destruct (IH Ps st idx ltac:(cbn in L; lia)) as [I1 I2]. cbn [combine rev]. split.
  - rewrite loc_from_app; [|intros p Hp|assumption].
    + rewrite I1, I2. cbn [bind coords]. unfold dot. cbn [combine fold_right fst snd]. f_equal. lia.
    + apply in_rev in Hp. destruct p as [a b]. apply in_combine_l in Hp. now apply Ps.
  - rewrite sizes_in_app, I2, size_cons. cbn. lia.
Qed.
Lemma combine_firstn_all {A B} (l : list A) (m : list B) n : length l = n -> firstn n (combine l m) = combine l m.
Proof. intros H. apply firstn_all2. rewrite combine_length. lia. Qed.
Lemma loc_ok s st idx n : positive s -> length st = length s -> n = length s -> loc idx s st n = Ok (dot (coords s idx) st).
Proof. intros P L ->. unfold loc. rewrite combine_firstn_all by reflexivity. now apply loc_coords. Qed.

Lemma dot_cons k i w a : dot (k :: i) (w :: a) = (k * w + dot i a)%nat.
Proof. reflexivity. Qed.
Lemma row_major_length s : length (row_major s) = length s.
Proof. induction s; cbn; congruence. Qed.
Lemma dot_ravel s i : length i = length s -> dot i (row_major s) = ravel s i.
Proof.
  revert i. induction s as [|d s IH]; intros [|k i] L; try easy. cbn [row_major ravel]. rewrite dot_cons, IH by (cbn in L; lia). now rewrite volume_size.
Qed.
Lemma dot_zero i n : dot i (repeat 0%nat n) = 0%nat.
Proof. revert i. induction n as [|n IH]; intros [|k i]; try reflexivity. cbn [repeat]. rewrite dot_cons, IH. lia. Qed.
Lemma dot_app i j a b : length i = length a -> dot (i ++ j) (a ++ b) = (dot i a + dot j b)%nat.
Proof.
  revert a. induction i as [|k i IH]; intros [|w a] L; [reflexivity|easy|easy|]. cbn [app]. rewrite !dot_cons, IH by (cbn in L; lia). lia.
Qed.
Lemma dot_bstrides s : forall t i, fits s t = true -> inside t i -> dot i (bstrides t s (row_major s)) = ravel s (squash s i).
Proof.
  induction s as [|d s IH]; intros [|e t] i F I; try easy.
  - inversion I; subst. reflexivity.
  - inversion I as [|a k b i' K I']; subst. cbn [fits] in F. apply andb_true_iff in F. destruct F as [F1 F2].
    cbn [row_major bstrides squash ravel]. rewrite dot_cons, (IH t i' F2 I'), volume_size. f_equal.
    apply orb_true_iff in F1. rewrite !Nat.eqb_eq in F1.
    destruct (Nat.eqb_spec e 1) as [E|E]; destruct (Nat.eqb_spec d 1) as [D|D]; cbn [orb]; subst; try lia.
Qed.
Lemma bstrides_length s : forall t st, length s = length t -> length st = length t -> length (bstrides s t st) = length t.
Proof. induction s as [|n s IH]; intros [|m t] [|w st] L L'; try easy. cbn in *. f_equal. apply IH; lia. Qed.
Lemma inside_skipn n : forall t i, inside t i -> inside (skipn n t) (skipn n i).
Proof. induction n as [|n IH]; intros t i H; [exact H|]. inversion H; subst; [constructor|]. now apply IH. Qed.
(** Where broadcasting reads. *)
Lemma loc_broadcast (c : carr) s t m : c_shape c = s -> c_strides c = row_major s -> spreads s t -> (m < size t)%nat ->
  loc m t (broadcast_stride c t) (length t) = Ok (ravel s (source s (unravel t m))).
Proof.
  intros ES EW SP Hm. pose proof (proj2 (spreads_iff s t) SP) as B. unfold broadcastable in B.
  apply andb_true_iff in B. destruct B as [BL BF]. apply Nat.leb_le in BL.
  destruct (unravel_inside t m Hm) as [I _]. pose proof (inside_length _ _ I) as LI.
  assert (P : positive t) by (apply pos_size; lia).
  assert (EB : broadcast_stride c t = repeat 0%nat (length t - length s) ++ bstrides (skipn (length t - length s) t) s (row_major s)).
  { unfold broadcast_stride, c_ndim. rewrite ES, EW. destruct (Nat.ltb_spec (length t) (length s)); [lia|reflexivity]. }
  rewrite EB, loc_ok; [|assumption| |reflexivity].
  - rewrite coords_small by assumption. f_equal. rewrite source_squash by lia. rewrite LI.
    set (n := (length t - length s)%nat). rewrite <- (firstn_skipn n (unravel t m)) at 1.
    rewrite dot_app by (rewrite firstn_length, repeat_length; lia). rewrite dot_zero. cbn [Nat.add].
    apply dot_bstrides; [exact BF|]. now apply inside_skipn.
  - rewrite app_length, repeat_length, bstrides_length; rewrite ?skipn_length, ?row_major_length; lia.
Qed.
Lemma source_inside s t i : spreads s t -> inside t i -> inside s (source s i).
Proof.
  intros SP I. pose proof (proj2 (spreads_iff s t) SP) as B. unfold broadcastable in B.
  apply andb_true_iff in B. destruct B as [BL BF]. apply Nat.leb_le in BL. pose proof (inside_length _ _ I) as LI.
  rewrite source_squash by lia. rewrite LI. pose proof (inside_skipn (length t - length s) t i I) as J. revert BF J.
  generalize (skipn (length t - length s) i). generalize (skipn (length t - length s) t). clear.
  induction s as [|d s IH]; intros [|e t] j F J; try easy; inversion J as [|a k b j' K J']; subst; cbn [squash]; [constructor|].
  cbn [fits] in F. apply andb_true_iff in F. destruct F as [F1 F2]. constructor; [|now apply (IH t)].
  apply orb_true_iff in F1. rewrite !Nat.eqb_eq in F1. destruct (Nat.eqb_spec d 1); lia.
Qed.

(** ** Entries in memory *)
Lemma indices_order s : indices s = c_order s.
Proof. induction s as [|d s IH]; [reflexivity|]. cbn [indices c_order]. now rewrite flat_map_concat_map, IH. Qed.
Lemma indices_unravel s : indices s = map (unravel s) (seq 0 (size s)).
Proof. now rewrite indices_order, c_order_unravel. Qed.
Lemma entries_length x : length (entries x) = size (shape x).
Proof. unfold entries. now rewrite c_order_unravel, !map_length, seq_length. Qed.
Lemma entries_nth x m : (m < size (shape x))%nat -> nth m (entries x) 0 = at_ x (unravel (shape x) m).
Proof.
  intros H. unfold entries. rewrite c_order_unravel, map_map.
  rewrite (nth_map_any _ _ 0 0%nat) by (now rewrite seq_length). now rewrite seq_nth.
Qed.
Lemma entries_at x i : inside (shape x) i -> nth (ravel (shape x) i) (entries x) 0 = at_ x i.
Proof. intros H. rewrite entries_nth by (now apply ravel_lt). now rewrite unravel_ravel. Qed.
Lemma rd_entries x i : inside (shape x) i -> rd (entries x) (ravel (shape x) i) = Ok (at_ x i).
Proof. intros H. rewrite (rd_nth _ _ 0) by (rewrite entries_length; now apply ravel_lt). now rewrite entries_at. Qed.
Lemma data_entries d s f : length d = size s -> (forall m, (m < size s)%nat -> nth m d 0 = f (unravel s m)) -> d = entries (mka s f).
Proof.
  intros L H. apply (nth_ext d _ 0 0); [now rewrite entries_length|]. intros m Hm. rewrite L in Hm.
  rewrite entries_nth by assumption. now apply H.
Qed.
Lemma stores_shape c x : stores c x -> c_shape c = shape x.
Proof. now intros (H & _). Qed.
Lemma c_size_of c s : c_shape c = s -> c_size c = size s.
Proof. unfold c_size, size. now intros ->. Qed.
Lemma stores_buffer c x : stores c x -> buffer c (shape x).
Proof. intros (A & B & C). split; [exact A|]. split; [exact B|]. rewrite C, volume_size. apply entries_length. Qed.
Lemma writes_data out s d f : buffer out s -> length d = size s -> (forall m, (m < size s)%nat -> nth m d 0 = f (unravel s m)) ->
  writes (Ok (with_data out d)) s f.
Proof.
  intros (A & B & C) L H. exists (with_data out d). split; [reflexivity|]. split; [exact A|]. split; [exact B|].
  cbn [with_data c_data]. now apply data_entries.
Qed.
Lemma writes_ext r s f g : (forall i, inside s i -> f i = g i) -> writes r s f -> writes r s g.
Proof.
  intros H (c & E & A & B & C). exists c. split; [exact E|]. split; [exact A|]. split; [exact B|]. rewrite C.
  apply data_entries; [now rewrite entries_length|]. intros m Hm. rewrite entries_nth by assumption. cbn [at_ shape].
  apply H. now apply unravel_inside.
Qed.

(** ** The iterator over two arrays *)
Lemma iterator_ok l r x y out t op : stores l x -> stores r y -> buffer out t -> spreads (shape x) t -> spreads (shape y) t ->
  writes (binary_array_iterator l (Some r) out op) t (fun o => op (at_ x (source (shape x) o)) (at_ y (source (shape y) o))).
Proof.
  intros (XS & XW & XD) (YS & YW & YD) BO SX SY. pose proof BO as (OS & OW & OD). unfold binary_array_iterator.
  rewrite OS. unfold c_ndim. rewrite OS, (c_size_of _ _ OS). rewrite volume_size in OD.
  destruct (fill_loop (size t) (fun i d =>
    let* li := loc i t (broadcast_stride l t) (length t) in
    let* ri := loc i t (broadcast_stride r t) (length t) in
    let* x := rd (c_data l) li in let* y := rd (c_data r) ri in wr d i (op x y))
    (fun m => op (at_ x (source (shape x) (unravel t m))) (at_ y (source (shape y) (unravel t m)))) (c_data out) OD) as (d & E & L & V).
  - intros i d Hi Ld _. rewrite (loc_broadcast l (shape x) t i XS XW SX Hi), (loc_broadcast r (shape y) t i YS YW SY Hi). cbn [bind].
    destruct (unravel_inside t i Hi) as [I _].
    rewrite XD, rd_entries by (now apply (source_inside _ t)). cbn [bind].
    rewrite YD, rd_entries by (now apply (source_inside _ t)). reflexivity.
  - rewrite E. cbn [bind]. now apply writes_data.
Qed.
(** The same into the right operand. *)
Lemma iterator_self l x out y op : stores l x -> stores out y -> spreads (shape x) (shape y) ->
  writes (binary_array_iterator l None out op) (shape y) (fun o => op (at_ x (source (shape x) o)) (at_ y o)).
Proof.
  intros (XS & XW & XD) SO SX. pose proof (stores_buffer _ _ SO) as BO. destruct SO as (YS & YW & YD).
  set (t := shape y) in *. unfold binary_array_iterator. rewrite YS. unfold c_ndim. rewrite YS, (c_size_of _ _ YS).
  assert (OD : length (c_data out) = size t) by (now rewrite YD, entries_length).
  assert (ST : spreads t t) by (split; [lia|]; intros; now right).
  destruct (fill_loop (size t) (fun i d =>
    let* li := loc i t (broadcast_stride l t) (length t) in
    let* ri := loc i t (broadcast_stride out t) (length t) in
    let* x := rd (c_data l) li in let* y := rd d ri in wr d i (op x y))
    (fun m => op (at_ x (source (shape x) (unravel t m))) (at_ y (unravel t m))) (c_data out) OD) as (d & E & L & V).
  - intros i d Hi Ld W. rewrite (loc_broadcast l (shape x) t i XS XW SX Hi), (loc_broadcast out t t i YS YW ST Hi). cbn [bind].
    destruct (unravel_inside t i Hi) as [I R].
    rewrite XD, rd_entries by (now apply (source_inside _ t)). cbn [bind].
    rewrite source_self by assumption. rewrite R, (rd_nth _ _ 0) by lia. cbn [bind]. rewrite W by lia.
    rewrite YD. unfold t in Hi |- *. now rewrite entries_nth.
  - rewrite E. cbn [bind]. now apply writes_data.
Qed.
