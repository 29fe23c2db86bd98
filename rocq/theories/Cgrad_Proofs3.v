(** * Gradients of the product of matrices, and of transposing. *)
From Coq Require Import Reals List ZArith Lia Lra Bool Permutation.
From Verif Require Import PyBase Deriv_Proofs Corr_Proofs Pool_Proofs Axis_Model Axis_Spec Axis_Proofs Move_Model Move_Spec Move_Proofs Move_Proofs2 Attn_Proofs Select_Spec Carr_Model Carr_Spec Carr_Proofs Carr_Proofs2 Carr_Proofs3 Carr_Proofs4 Carr_Proofs5 Cgrad_Model Cgrad_Spec Cgrad_Proofs Cgrad_Proofs2.
Import ListNotations.
Open Scope R_scope.
Open Scope list_scope.
Open Scope res_scope.

Lemma leading_self b : leading b b.
Proof. exists [], 0%nat, b. repeat split. cbn; lia. Qed.
Lemma loc_leading bx c b bi : leading bx b -> (bi < size b)%nat ->
  loc bi (bx ++ c) (row_major (bx ++ c)) (length bx) = Ok (ravel bx (source bx (unravel b bi)) * volume c)%nat.
Proof.
  intros L H. destruct (leading_position bx b bi 0 L H) as [E P]. cbn [repeat app] in E, P. rewrite loc_batch by exact P. now rewrite E.
Qed.
(** Reading entry [i, j] of the matrix of batch number [bi]. *)
Lemma rd_matrix c x bx b n m bi i j : stores c x -> shape x = bx ++ [n; m] -> leading bx b -> (bi < size b)%nat -> (i < n)%nat -> (j < m)%nat ->
  rd (c_data c) (ravel bx (source bx (unravel b bi)) * volume [n; m] + i * m + j * 1)%nat = Ok (at_ x (source bx (unravel b bi) ++ [i; j])).
Proof.
  intros (XS & XW & XD) SX L Hb Hi Hj. destruct (unravel_inside b bi Hb) as [J _]. pose proof (source_inside bx b _ (leading_spreads _ _ L) J) as JX.
  cbn [volume]. rewrite !Nat.mul_1_r, <- (ravel_two bx n m) by (now apply inside_length). rewrite <- SX, XD, rd_entries; [reflexivity|]. rewrite SX. now apply inside_two_app.
Qed.
Definition into_left (bx b : list nat) (e : list nat) : list nat := source bx (firstn (length b) e) ++ skipn (length b) e.
Lemma firstn_two (o : list nat) i k (b : list nat) : length o = length b -> firstn (length b) (o ++ [i; k]) = o.
Proof. intros <-. rewrite firstn_app, firstn_all, Nat.sub_diag. cbn [firstn]. apply app_nil_r. Qed.
Lemma skipn_two (o : list nat) i k (b : list nat) : length o = length b -> skipn (length b) (o ++ [i; k]) = [i; k].
Proof. intros <-. rewrite skipn_app, skipn_all, Nat.sub_diag. reflexivity. Qed.
Lemma nth_two (o : list nat) i k (b : list nat) : length o = length b -> nth (length b) (o ++ [i; k]) 0%nat = i /\ nth (S (length b)) (o ++ [i; k]) 0%nat = k.
Proof. intros <-. rewrite !app_nth2 by lia. rewrite Nat.sub_diag. replace (S (length o) - length o)%nat with 1%nat by lia. now split. Qed.
Lemma into_left_two bx b o i k : length o = length b -> into_left bx b (o ++ [i; k]) = source bx o ++ [i; k].
Proof. intros L. unfold into_left. now rewrite firstn_two, skipn_two. Qed.
Lemma into_left_inside bx b n m e : leading bx b -> inside (b ++ [n; m]) e -> inside (bx ++ [n; m]) (into_left bx b e).
Proof.
  intros L I. destruct (inside_two_inv b n m e I) as (o & i & k & -> & Jo & Hi & Hk). rewrite into_left_two by (now apply inside_length).
  apply inside_two_app; [|exact Hi|exact Hk]. apply (source_inside _ b); [now apply leading_spreads|exact Jo].
Qed.
Lemma sum_matrices_running b n m (f : list nat -> nat -> nat -> R) (F : list nat -> R) :
  (forall o i k, inside b o -> F (o ++ [i; k]) = f o i k) ->
  lsum (indices (b ++ [n; m])) F = lsum (seq 0 (size b)) (fun bi => lsum (seq 0 n) (fun i => lsum (seq 0 m) (fun k => f (unravel b bi) i k))).
Proof.
  intros H. rewrite lsum_matrices. rewrite indices_unravel, lsum_map. apply lsum_ext. intros bi Hb. apply in_range in Hb.
  apply lsum_ext. intros i _. apply lsum_ext. intros k _. apply H. now apply unravel_inside.
Qed.
Definition vl (b by_ : list nat) (p : nat) (g y : arr) (e : list nat) : R :=
  let o := firstn (length b) e in let i := nth (length b) e 0%nat in let k := nth (S (length b)) e 0%nat in
  lsum (seq 0 p) (fun j => at_ g (o ++ [i; j]) * at_ y (source by_ o ++ [k; j])).
Definition vr (b bx : list nat) (n : nat) (g x : arr) (e : list nat) : R :=
  let o := firstn (length b) e in let k := nth (length b) e 0%nat in let j := nth (S (length b)) e 0%nat in
  lsum (seq 0 n) (fun i => at_ x (source bx o ++ [i; k]) * at_ g (o ++ [i; j])).
Lemma vl_two b by_ p g y o i k : length o = length b -> vl b by_ p g y (o ++ [i; k]) = lsum (seq 0 p) (fun j => at_ g (o ++ [i; j]) * at_ y (source by_ o ++ [k; j])).
Proof. intros L. unfold vl. destruct (nth_two o i k b L) as [-> ->]. now rewrite firstn_two. Qed.
Lemma vr_two b bx n g x o k j : length o = length b -> vr b bx n g x (o ++ [k; j]) = lsum (seq 0 n) (fun i => at_ x (source bx o ++ [i; k]) * at_ g (o ++ [i; j])).
Proof. intros L. unfold vr. destruct (nth_two o k j b L) as [-> ->]. now rewrite firstn_two. Qed.

(** What the loops add. *)
Lemma left_loops gr r g y b bx by_ n m p : stores gr g -> stores r y -> shape g = b ++ [n; p] -> shape y = by_ ++ [m; p] -> leading bx b -> leading by_ b ->
  let s := bx ++ [n; m] in
  adding (size s) (for_ (size b) (fun bi d => for_ n (fun i d => for_ m (fun k d =>
    let* s := for_ p (fun j s =>
      let* g0 := rd (c_data gr) (ravel b (source b (unravel b bi)) * volume [n; p] + i * p + j * 1)%nat in
      let* y0 := rd (c_data r) (ravel by_ (source by_ (unravel b bi)) * volume [m; p] + k * p + j * 1)%nat in
      Ok (s + g0 * y0)) 0 in
    upd d (ravel bx (source bx (unravel b bi)) * volume [n; m] + i * m + k * 1)%nat s) d) d))
  (fun j => lsum (indices (b ++ [n; m])) (fun e => if Nat.eqb (ravel s (into_left bx b e)) j then vl b by_ p g y e else 0)).
Proof.
  intros HG HY SG SY LX LY s.
  apply (adding_change _ _ (fun j => lsum (seq 0 (size b)) (fun bi => lsum (seq 0 n) (fun i => lsum (seq 0 m) (fun k =>
    if Nat.eqb (ravel s (source bx (unravel b bi) ++ [i; k])) j then lsum (seq 0 p) (fun j => at_ g (unravel b bi ++ [i; j]) * at_ y (source by_ (unravel b bi) ++ [k; j])) else 0))))).
  { intros j _. symmetry. apply (sum_matrices_running b n m (fun o i k => if Nat.eqb (ravel s (source bx o ++ [i; k])) j then lsum (seq 0 p) (fun j => at_ g (o ++ [i; j]) * at_ y (source by_ o ++ [k; j])) else 0)).
    intros o i k I. pose proof (inside_length _ _ I) as LI. now rewrite into_left_two, vl_two. }
  apply adding_for. intros bi Hb. apply adding_for. intros i Hi. apply adding_for. intros k Hk.
  destruct (unravel_inside b bi Hb) as [J _]. pose proof (source_inside bx b _ (leading_spreads _ _ LX) J) as JX.
  apply (adding_ext _ _ (fun d => upd d (ravel s (source bx (unravel b bi) ++ [i; k])) (lsum (seq 0 p) (fun j => at_ g (unravel b bi ++ [i; j]) * at_ y (source by_ (unravel b bi) ++ [k; j]))))
    (fun j => if Nat.eqb (ravel s (source bx (unravel b bi) ++ [i; k])) j then lsum (seq 0 p) (fun j => at_ g (unravel b bi ++ [i; j]) * at_ y (source by_ (unravel b bi) ++ [k; j])) else 0)); [|reflexivity|].
  - intros d. rewrite (for_ext p _ (fun j s => let* v := Ok (at_ g (unravel b bi ++ [i; j]) * at_ y (source by_ (unravel b bi) ++ [k; j])) in Ok (s + v))).
    + rewrite (sum_loop p _ (fun j => at_ g (unravel b bi ++ [i; j]) * at_ y (source by_ (unravel b bi) ++ [k; j]))) by reflexivity. cbn [bind].
      unfold s. rewrite ravel_two by (now apply inside_length). f_equal. cbn [volume]. lia.
    + intros j s0 Hj. rewrite (rd_matrix gr g b b n p bi i j HG SG (leading_self b) Hb Hi Hj). cbn [bind].
      rewrite (rd_matrix r y by_ b m p bi k j HY SY LY Hb Hk Hj). cbn [bind]. now rewrite source_self.
  - apply adding_upd. apply ravel_lt. now apply inside_two_app.
Qed.
Lemma right_loops gr l g x b bx by_ n m p : stores gr g -> stores l x -> shape g = b ++ [n; p] -> shape x = bx ++ [n; m] -> leading bx b -> leading by_ b ->
  let s := by_ ++ [m; p] in
  adding (size s) (for_ (size b) (fun bi d => for_ p (fun j d => for_ m (fun k d =>
    let* s := for_ n (fun i s =>
      let* g0 := rd (c_data gr) (ravel b (source b (unravel b bi)) * volume [n; p] + i * p + j * 1)%nat in
      let* x0 := rd (c_data l) (ravel bx (source bx (unravel b bi)) * volume [n; m] + i * m + k * 1)%nat in
      Ok (s + x0 * g0)) 0 in
    upd d (ravel by_ (source by_ (unravel b bi)) * volume [m; p] + k * p + j * 1)%nat s) d) d))
  (fun j => lsum (indices (b ++ [m; p])) (fun e => if Nat.eqb (ravel s (into_left by_ b e)) j then vr b bx n g x e else 0)).
Proof.
  intros HG HX SG SX LX LY s.
  apply (adding_change _ _ (fun q => lsum (seq 0 (size b)) (fun bi => lsum (seq 0 p) (fun j => lsum (seq 0 m) (fun k =>
    if Nat.eqb (ravel s (source by_ (unravel b bi) ++ [k; j])) q then lsum (seq 0 n) (fun i => at_ x (source bx (unravel b bi) ++ [i; k]) * at_ g (unravel b bi ++ [i; j])) else 0))))).
  { intros q _. symmetry. rewrite (sum_matrices_running b m p (fun o k j => if Nat.eqb (ravel s (source by_ o ++ [k; j])) q then lsum (seq 0 n) (fun i => at_ x (source bx o ++ [i; k]) * at_ g (o ++ [i; j])) else 0)).
    - apply lsum_ext. intros bi _. apply (lsum_swap (seq 0 m) (seq 0 p)).
    - intros o k j I. pose proof (inside_length _ _ I) as LI. now rewrite into_left_two, vr_two. }
  apply adding_for. intros bi Hb. apply adding_for. intros j Hj. apply adding_for. intros k Hk.
  destruct (unravel_inside b bi Hb) as [J _]. pose proof (source_inside by_ b _ (leading_spreads _ _ LY) J) as JY.
  apply (adding_ext _ _ (fun d => upd d (ravel s (source by_ (unravel b bi) ++ [k; j])) (lsum (seq 0 n) (fun i => at_ x (source bx (unravel b bi) ++ [i; k]) * at_ g (unravel b bi ++ [i; j]))))
    (fun q => if Nat.eqb (ravel s (source by_ (unravel b bi) ++ [k; j])) q then lsum (seq 0 n) (fun i => at_ x (source bx (unravel b bi) ++ [i; k]) * at_ g (unravel b bi ++ [i; j])) else 0)); [|reflexivity|].
  - intros d. rewrite (for_ext n _ (fun i s => let* v := Ok (at_ x (source bx (unravel b bi) ++ [i; k]) * at_ g (unravel b bi ++ [i; j])) in Ok (s + v))).
    + rewrite (sum_loop n _ (fun i => at_ x (source bx (unravel b bi) ++ [i; k]) * at_ g (unravel b bi ++ [i; j]))) by reflexivity. cbn [bind].
      unfold s. rewrite ravel_two by (now apply inside_length). f_equal. cbn [volume]. lia.
    + intros i s0 Hi. rewrite (rd_matrix gr g b b n p bi i j HG SG (leading_self b) Hb Hi Hj). cbn [bind].
      rewrite (rd_matrix l x bx b n m bi i k HX SX LX Hb Hi Hk). cbn [bind]. rewrite (source_self b) by exact J; reflexivity.
  - apply adding_upd. apply ravel_lt. now apply inside_two_app.
Qed.
Lemma into_zero s T q v acc body : (forall e, inside T e -> inside s (q e)) -> buffer acc s ->
  adding (size s) body (fun j => lsum (indices T) (fun e => if Nat.eqb (ravel s (q e)) j then v e else 0)) ->
  writes (let* d := for_ (size s) (fun i d => wr d i 0) (c_data acc) in let* d := body d in Ok (with_data acc d)) s (gathered T q v).
Proof.
  intros I (AS & AW & AD) A. rewrite volume_size in AD.
  destruct (fill_loop (size s) (fun i d => wr d i 0) (fun _ => 0) (c_data acc) AD) as (z & E & L & V); [reflexivity|]. rewrite E. cbn [bind].
  apply (writes_ext _ _ (fun i => at_ (mka s (fun _ => 0)) i + gathered T q v i)); [intros i _; cbn [at_]; ring|].
  apply (adding_writes s T q v body (with_data acc z) (mka s (fun _ => 0)) I); [|reflexivity|exact A].
  split; [exact AS|]. split; [exact AW|]. cbn [with_data c_data]. now apply data_entries.
Qed.
Lemma fold_mul_size s : fold_right Nat.mul 1%nat s = size s.
Proof. reflexivity. Qed.

Lemma matmul_grad_c gr l r g x y b bx by_ n m p : stores gr g -> stores l x -> stores r y ->
  shape g = b ++ [n; p] -> shape x = bx ++ [n; m] -> shape y = by_ ++ [m; p] -> leading bx b -> leading by_ b ->
  sets_gradient (c_matmul_grad gr true l r) (fun x => product_at b bx by_ m x y) (shape g) x g /\
  sets_gradient (c_matmul_grad gr false l r) (product_at b bx by_ m x) (shape g) y g.
Proof.
  intros HG HX HY SG SX SY LX LY. pose proof HG as (GS & GW & GD). pose proof HX as (XS & XW & XD). pose proof HY as (YS & YW & YD).
  assert (RUN : forall first acc, c_matmul_grad gr first l r acc =
    (let* d := for_ (c_size acc) (fun i d => wr d i 0) (c_data acc) in
     let* d := for_ (size b) (fun bi d => if first then
        for_ n (fun i d => for_ m (fun k d =>
          let* s := for_ p (fun j s =>
            let* g0 := rd (c_data gr) (ravel b (source b (unravel b bi)) * volume [n; p] + i * p + j * 1)%nat in
            let* y0 := rd (c_data r) (ravel by_ (source by_ (unravel b bi)) * volume [m; p] + k * p + j * 1)%nat in
            Ok (s + g0 * y0)) 0 in
          upd d (ravel bx (source bx (unravel b bi)) * volume [n; m] + i * m + k * 1)%nat s) d) d
       else
        for_ p (fun j d => for_ m (fun k d =>
          let* s := for_ n (fun i s =>
            let* g0 := rd (c_data gr) (ravel b (source b (unravel b bi)) * volume [n; p] + i * p + j * 1)%nat in
            let* x0 := rd (c_data l) (ravel bx (source bx (unravel b bi)) * volume [n; m] + i * m + k * 1)%nat in
            Ok (s + x0 * g0)) 0 in
          upd d (ravel by_ (source by_ (unravel b bi)) * volume [m; p] + k * p + j * 1)%nat s) d) d) d in
     Ok (with_data acc d))).
  { intros first acc. unfold c_matmul_grad, c_ndim. rewrite GS, XS, YS, GW, XW, YW, SG, SX, SY, !app_length. cbn [length].
    replace (length bx + 2 - 2)%nat with (length bx) by lia. replace (length by_ + 2 - 2)%nat with (length by_) by lia. replace (length b + 2 - 2)%nat with (length b) by lia.
    replace (length bx + 2 - 1)%nat with (S (length bx)) by lia. replace (length by_ + 2 - 1)%nat with (S (length by_)) by lia. replace (length b + 2 - 1)%nat with (S (length b)) by lia.
    destruct (Nat.ltb_spec (length bx + 2) 2); [lia|]. destruct (Nat.ltb_spec (length by_ + 2) 2); [lia|]. destruct (Nat.ltb_spec (length b + 2) 2); [lia|]. cbn [orb].
    destruct (rd_app_two bx n m _ eq_refl) as [-> ->]. destruct (rd_app_two by_ m p _ eq_refl) as [-> ->].
    destruct (row_two bx n m _ eq_refl) as [-> ->]. destruct (row_two by_ m p _ eq_refl) as [-> ->]. destruct (row_two b n p _ eq_refl) as [-> ->].
    cbn [bind]. rewrite Nat.eqb_refl. cbn [negb].
    destruct (for_ (c_size acc) (fun i d => wr d i 0) (c_data acc)) as [z|e]; [|reflexivity]. cbn [bind].
    rewrite firstn_app, firstn_all, Nat.sub_diag. cbn [firstn]. rewrite app_nil_r, fold_mul_size.
    match goal with |- bind ?a _ = bind ?c _ => assert (E : a = c); [|now rewrite E] end.
    apply for_ext. intros bi d Hb. rewrite (loc_leading bx [n; m] b bi LX Hb), (loc_leading by_ [m; p] b bi LY Hb), (loc_leading b [n; p] b bi (leading_self b) Hb).
    cbn [bind]. reflexivity. }
  split.
  - apply (sets_of_entries _ _ _ _ _ (b ++ [n; m]) (into_left bx b) (vl b by_ p g y)).
    + intros e. rewrite SX. now apply into_left_inside.
    + intros acc BA. rewrite RUN. rewrite SX in *. pose proof BA as (AS & _). rewrite (c_size_of _ _ AS).
      apply (into_zero (bx ++ [n; m]) (b ++ [n; m]) (into_left bx b) (vl b by_ p g y) acc); [intros e; now apply into_left_inside|exact BA|].
      now apply left_loops.
    + intros dx. set (P := fun f q => let o := firstn (length b) q in let i := nth (length b) q 0%nat in let j := nth (S (length b)) q 0%nat in
        sum_to m (fun k => f (source bx o ++ [i; k]) * at_ y (source by_ o ++ [k; j]))).
      apply (dl_of_affine _ (sum_over (shape g) (fun q => at_ g q * P (at_ x) q))). intros h. rewrite !sum_over_lsum.
      rewrite (lsum_ext (indices (shape g)) _ (fun q => at_ g q * P (at_ x) q + h * (at_ g q * P dx q))).
      * rewrite lsum_plus, lsum_scal. f_equal. f_equal. rewrite SG, !lsum_matrices. apply lsum_ext. intros o Ho. apply in_indices in Ho. pose proof (inside_length _ _ Ho) as LO.
        apply lsum_ext. intros i _.
        rewrite (lsum_ext (seq 0 p) _ (fun j => lsum (seq 0 m) (fun k => at_ g (o ++ [i; j]) * at_ y (source by_ o ++ [k; j]) * dx (source bx o ++ [i; k])))).
        -- rewrite lsum_swap. apply lsum_ext. intros k _. rewrite vl_two, into_left_two by exact LO. now rewrite <- lsum_scal_r.
        -- intros j _. unfold P. destruct (nth_two o i j b LO) as [-> ->]. rewrite firstn_two by exact LO. rewrite sum_to_lsum, <- lsum_scal. apply lsum_ext. intros k _. ring.
      * intros q _. unfold product_at, P. cbn [moved at_]. cbn zeta. rewrite !sum_to_lsum.
        set (o := firstn (length b) q). set (i := nth (length b) q 0%nat). set (j := nth (S (length b)) q 0%nat).
        rewrite (lsum_ext (seq 0 m) (fun k => (at_ x (source bx o ++ [i; k]) + h * dx (source bx o ++ [i; k])) * at_ y (source by_ o ++ [k; j]))
          (fun k => at_ x (source bx o ++ [i; k]) * at_ y (source by_ o ++ [k; j]) + h * (dx (source bx o ++ [i; k]) * at_ y (source by_ o ++ [k; j])))) by (intros k _; ring).
        rewrite lsum_plus, lsum_scal. ring.
  - apply (sets_of_entries _ _ _ _ _ (b ++ [m; p]) (into_left by_ b) (vr b bx n g x)).
    + intros e. rewrite SY. now apply into_left_inside.
    + intros acc BA. rewrite RUN. rewrite SY in *. pose proof BA as (AS & _). rewrite (c_size_of _ _ AS).
      apply (into_zero (by_ ++ [m; p]) (b ++ [m; p]) (into_left by_ b) (vr b bx n g x) acc); [intros e; now apply into_left_inside|exact BA|].
      now apply right_loops.
    + intros dx. set (P := fun f q => let o := firstn (length b) q in let i := nth (length b) q 0%nat in let j := nth (S (length b)) q 0%nat in
        sum_to m (fun k => at_ x (source bx o ++ [i; k]) * f (source by_ o ++ [k; j]))).
      apply (dl_of_affine _ (sum_over (shape g) (fun q => at_ g q * P (at_ y) q))). intros h. rewrite !sum_over_lsum.
      rewrite (lsum_ext (indices (shape g)) _ (fun q => at_ g q * P (at_ y) q + h * (at_ g q * P dx q))).
      * rewrite lsum_plus, lsum_scal. f_equal. f_equal. rewrite SG, !lsum_matrices. apply lsum_ext. intros o Ho. apply in_indices in Ho. pose proof (inside_length _ _ Ho) as LO.
        transitivity (lsum (seq 0 n) (fun i => lsum (seq 0 p) (fun j => lsum (seq 0 m) (fun k => at_ x (source bx o ++ [i; k]) * at_ g (o ++ [i; j]) * dx (source by_ o ++ [k; j]))))).
        -- apply lsum_ext. intros i _. apply lsum_ext. intros j _. unfold P. destruct (nth_two o i j b LO) as [-> ->]. rewrite firstn_two by exact LO.
           rewrite sum_to_lsum, <- lsum_scal. apply lsum_ext. intros k _. ring.
        -- transitivity (lsum (seq 0 n) (fun i => lsum (seq 0 m) (fun k => lsum (seq 0 p) (fun j => at_ x (source bx o ++ [i; k]) * at_ g (o ++ [i; j]) * dx (source by_ o ++ [k; j]))))).
           { apply lsum_ext. intros i _. apply lsum_swap. }
           rewrite lsum_swap. apply lsum_ext. intros k _. rewrite lsum_swap. apply lsum_ext. intros j _. rewrite vr_two, into_left_two by exact LO. now rewrite <- lsum_scal_r.
      * intros q _. unfold product_at, P. cbn [moved at_]. cbn zeta. rewrite !sum_to_lsum.
        set (o := firstn (length b) q). set (i := nth (length b) q 0%nat). set (j := nth (S (length b)) q 0%nat).
        rewrite (lsum_ext (seq 0 m) (fun k => at_ x (source bx o ++ [i; k]) * (at_ y (source by_ o ++ [k; j]) + h * dx (source by_ o ++ [k; j])))
          (fun k => at_ x (source bx o ++ [i; k]) * at_ y (source by_ o ++ [k; j]) + h * (at_ x (source bx o ++ [i; k]) * dx (source by_ o ++ [k; j])))) by (intros k _; ring).
        rewrite lsum_plus, lsum_scal. ring.
Qed.
Lemma transpose_grad_c gr g x m n rest : stores gr g -> shape x = [m; n] -> shape g = [n; m] ->
  sets_gradient (c_transpose_grad gr None rest) (fun x o => at_ x (rev o)) (shape g) x g.
Proof.
  intros HG SX SG. apply (sets_of_entries _ _ _ _ _ [n; m] (@rev nat) (at_ g)).
  - intros e I. rewrite SX. inversion I as [|a i l1 l2 I1 I2]; subst. inversion I2 as [|b j l3 l4 I3 I4]; subst. inversion I4; subst. cbn. now repeat constructor.
  - intros acc BA. rewrite SX in *. cbn [c_transpose_grad].
    apply (writes_ext _ _ (fun o => at_ g (rev o))); [|now apply transpose_plain_ok].
    intros o I. unfold gathered. inversion I as [|a i l1 l2 I1 I2]; subst. inversion I2 as [|b j l3 l4 I3 I4]; subst. inversion I4; subst. cbn [rev app].
    rewrite (lsum_single (indices [n; m]) [j; i]).
    + cbn [rev app]. now rewrite same_refl.
    + apply nodup_indices.
    + apply in_indices. now repeat constructor.
    + intros e _ N. destruct (same_place (rev e) [i; j]) eqn:Q; [|reflexivity]. apply same_iff in Q. exfalso. apply N. rewrite <- (rev_involutive e), Q. reflexivity.
  - intros dx. rewrite SG. apply dl_sum_over. intros o _. cbn [moved at_]. apply (dl_of_affine _ (at_ g o * at_ x (rev o))). intros h. ring.
Qed.
