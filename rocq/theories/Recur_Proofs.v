From Coq Require Import List Arith Bool Lia Permutation.
From Verif Require Import PyBase Recur_Model Recur_Spec.
Import ListNotations.

Section P.
  Variables X St P : Type.
  Variable next : X -> St -> St.
  Variable out : St -> X.
  Variable sq : P -> list X.

  Definition alive (t : nat) (ps : list P) : list P := filter (fun p => t <? length (sq p)) ps.
  Definition ended (k : nat) (ps : list P) : list P := filter (fun p => length (sq p) =? k) ps.
  Definition ent (t : nat) (p : P) : list X :=
    match nth_error (sq p) t with Some x => [x] | None => [] end.

  Lemma alive_none : forall t ps, (forall s, In s (map sq ps) -> length s <= t) -> alive t ps = [].
  Proof.
    intros t ps H. induction ps as [|p r IH]; [reflexivity|]. unfold alive in *. cbn [filter].
    destruct (Nat.ltb_spec t (length (sq p))) as [L|L].
    - specialize (H (sq p) (or_introl eq_refl)). lia.
    - apply IH. intros s Hs. apply H. right. exact Hs.
  Qed.

  Lemma alive_split : forall t ps, descending (map sq ps) -> alive t ps = alive (S t) ps ++ ended (S t) ps.
  Proof.
    intros t ps H. induction ps as [|p r IH]; [reflexivity|]. destruct H as [H1 H2]. specialize (IH H2).
    unfold alive, ended in *. cbn [filter].
    destruct (Nat.ltb_spec t (length (sq p))) as [L|L]; destruct (Nat.ltb_spec (S t) (length (sq p))) as [M|M];
      destruct (Nat.eqb_spec (length (sq p)) (S t)) as [E|E]; try lia.
    - rewrite IH. reflexivity.
    - assert (N : filter (fun p0 => S t <? length (sq p0)) r = []).
      { apply alive_none. intros s Hs. specialize (H1 s Hs). lia. }
      rewrite IH, N. reflexivity.
    - exact IH.
  Qed.

  Lemma entries_alive : forall t ps, entries t (map sq ps) = flat_map (ent t) (alive t ps).
  Proof.
    intros t ps. unfold entries. induction ps as [|p r IH]; [reflexivity|]. cbn [map flat_map].
    unfold alive in *. cbn [filter]. destruct (Nat.ltb_spec t (length (sq p))) as [L|L].
    - cbn [flat_map]. rewrite IH. reflexivity.
    - rewrite (proj2 (nth_error_None (sq p) t) L). exact IH.
  Qed.

  Lemma flat_single : forall (g : P -> list X) l, (forall p, In p l -> length (g p) = 1) ->
    length (flat_map g l) = length l.
  Proof.
    intros g l H. induction l as [|p r IH]; [reflexivity|]. cbn. rewrite app_length, IH.
    - rewrite (H p (or_introl eq_refl)). reflexivity.
    - intros q Hq. apply H. right. exact Hq.
  Qed.

  Lemma zip_flat : forall (g : P -> list X) f f' l,
    (forall p, In p l -> exists x, g p = [x] /\ f' p = next x (f p)) ->
    zip_with X St next (flat_map g l) (map f l) = map f' l.
  Proof.
    intros g f f' l H. induction l as [|p r IH]; [reflexivity|]. cbn.
    destruct (H p (or_introl eq_refl)) as [x [E1 E2]]. rewrite E1. cbn. rewrite E2. f_equal.
    apply IH. intros q Hq. apply H. right. exact Hq.
  Qed.

  Lemma cell_flat : forall (g : P -> list X) f f' l m,
    (forall p, In p l -> exists x, g p = [x] /\ f' p = next x (f p)) ->
    cell X St next (flat_map g l) (map f (l ++ m)) = Ok (map f' l, map f m).
  Proof.
    intros g f f' l m H. unfold cell. cbv zeta.
    assert (E : length (flat_map g l) = length (map f l)).
    { rewrite map_length. apply flat_single. intros p Hp. destruct (H p Hp) as [x [-> _]]. reflexivity. }
    rewrite map_app, E, firstn_app, Nat.sub_diag, firstn_all, firstn_O, app_nil_r, Nat.eqb_refl.
    rewrite skipn_app, Nat.sub_diag, skipn_all. cbn [skipn app].
    rewrite (zip_flat g f f' l H). reflexivity.
  Qed.

  Lemma in_alive : forall t p ps, In p (alive t ps) -> exists x, nth_error (sq p) t = Some x.
  Proof.
    intros t p ps H. apply filter_In in H. destruct H as [_ H]. apply Nat.ltb_lt in H.
    destruct (nth_error (sq p) t) as [x|] eqn:E; [exists x; reflexivity|]. apply nth_error_None in E. lia.
  Qed.

  Lemma firstn_snoc : forall (l : list X) t x, nth_error l t = Some x -> firstn (S t) l = firstn t l ++ [x].
  Proof.
    induction l as [|y r IH]; intros [|t] x H; cbn in H; try discriminate.
    - injection H as ->. reflexivity.
    - change (y :: firstn (S t) r = y :: (firstn t r ++ [x])). rewrite (IH t x H). reflexivity.
  Qed.

  Lemma final_snoc : forall s l x, final X St next s (l ++ [x]) = next x (final X St next s l).
  Proof. intros s l x. unfold final. rewrite fold_left_app. reflexivity. Qed.

  (* The encoder. *)
  Section Enc.
    Variable ini : P -> St.
    Definition st (t : nat) (p : P) : St := final X St next (ini p) (firstn (S t) (sq p)).
    Definition fin (p : P) : St := final X St next (ini p) (sq p).

    Lemma st_ended : forall t ps, map (st t) (ended (S t) ps) = map fin (ended (S t) ps).
    Proof.
      intros t ps. apply map_ext_in. intros p Hp. apply filter_In in Hp. destruct Hp as [_ Hp].
      apply Nat.eqb_eq in Hp. unfold st, fin. rewrite <- Hp, firstn_all. reflexivity.
    Qed.

    Lemma many_loop_spec : forall ps, descending (map sq ps) -> forall m t,
      many_loop X St next out (map (st t) (alive t ps)) (map (fun u => entries u (map sq ps)) (seq (S t) m))
      = Ok (map (fun u => map (fun p => out (st u p)) (alive u ps)) (seq (S t) m),
            match m with
            | 0 => []
            | S m' => map (fun k => map fin (ended k ps)) (seq (S t) m') ++
                      [map (st (t + m)) (alive (t + m) ps); map fin (ended (t + m) ps)]
            end).
    Proof.
      intros ps D m. induction m as [|m IH]; intros t; [reflexivity|].
      cbn [seq map many_loop]. rewrite entries_alive, (alive_split t ps D).
      rewrite (cell_flat (ent (S t)) (st t) (st (S t))).
      - rewrite IH. rewrite map_map, st_ended. f_equal. f_equal.
        destruct m as [|m]; cbn [seq map].
        + replace (t + 1) with (S t) by lia. reflexivity.
        + replace (S t + S m) with (t + S (S m)) by lia. reflexivity.
      - intros p Hp. destruct (in_alive (S t) p ps Hp) as [x Hx]. exists x.
        unfold ent. rewrite Hx. split; [reflexivity|]. unfold st.
        rewrite (firstn_snoc (sq p) (S t) x Hx), final_snoc. reflexivity.
    Qed.

    Lemma alive_zero : forall ps, (forall s, In s (map sq ps) -> s <> []) -> alive 0 ps = ps.
    Proof.
      intros ps H. induction ps as [|p r IH]; [reflexivity|]. unfold alive in *. cbn [filter].
      destruct (Nat.ltb_spec 0 (length (sq p))) as [L|L].
      - f_equal. apply IH. intros s Hs. apply H. right. exact Hs.
      - exfalso. apply (H (sq p) (or_introl eq_refl)). apply length_zero_iff_nil. lia.
    Qed.

    Lemma many_spec : forall ps n, descending (map sq ps) -> (forall s, In s (map sq ps) -> s <> []) ->
      many_to_one X St next out (map ini ps) (map (fun u => entries u (map sq ps)) (seq 0 (S n)))
      = Ok (map (fun u => map (fun p => out (st u p)) (alive u ps)) (seq 0 (S n)),
            match n with
            | 0 => []
            | S m' => map (fun k => map fin (ended k ps)) (seq 1 m') ++
                      [map (st n) (alive n ps); map fin (ended n ps)]
            end).
    Proof.
      intros ps n D N. unfold many_to_one. cbn [seq map].
      rewrite entries_alive, (alive_zero ps N).
      replace (map ini ps) with (map ini (ps ++ [])) by (rewrite app_nil_r; reflexivity).
      rewrite (cell_flat (ent 0) ini (st 0)).
      - pose proof (many_loop_spec ps D n 0) as L. rewrite (alive_zero ps N) in L.
        rewrite L. rewrite map_map. rewrite ?(alive_zero ps N). reflexivity.
      - intros p Hp. rewrite <- (alive_zero ps N) in Hp. destruct (in_alive 0 p ps Hp) as [x Hx]. exists x.
        unfold ent. rewrite Hx. split; [reflexivity|]. unfold st. rewrite (firstn_snoc (sq p) 0 x Hx). reflexivity.
    Qed.

    Lemma alive_last : forall ps n, (forall s, In s (map sq ps) -> length s <= S n) ->
      alive n ps = ended (S n) ps.
    Proof.
      intros ps n H. apply filter_ext_in. intros p Hp.
      specialize (H (sq p) (in_map sq ps p Hp)).
      destruct (Nat.ltb_spec n (length (sq p))), (Nat.eqb_spec (length (sq p)) (S n)); lia || reflexivity.
    Qed.

    Lemma ended_perm : forall ps m t,
      (forall s, In s (map sq ps) -> t < length s /\ length s <= t + m) ->
      Permutation (flat_map (fun k => ended k ps) (seq (S t) m)) ps.
    Proof.
      intros ps m. induction m as [|m IH] in ps |- *; intros t H.
      - destruct ps as [|p r]; [constructor|]. specialize (H (sq p) (or_introl eq_refl)). lia.
      - cbn [seq flat_map].
        set (rest := filter (fun p => negb (length (sq p) =? S t)) ps).
        assert (E : flat_map (fun k => ended k ps) (seq (S (S t)) m) = flat_map (fun k => ended k rest) (seq (S (S t)) m)).
        { assert (G : forall ks, (forall k, In k ks -> k <> S t) ->
            flat_map (fun k => ended k ps) ks = flat_map (fun k => ended k rest) ks).
          { induction ks as [|k ks IHk]; intros Hk; [reflexivity|]. cbn [flat_map]. f_equal.
            - unfold ended, rest. clear - Hk. specialize (Hk k (or_introl eq_refl)).
              induction ps as [|p r IHr]; [reflexivity|]. cbn [filter].
              destruct (Nat.eqb_spec (length (sq p)) (S t)) as [A|A]; cbn [negb].
              + destruct (Nat.eqb_spec (length (sq p)) k); [lia | exact IHr].
              + cbn [filter]. rewrite IHr. reflexivity.
            - apply IHk. intros k' Hk'. apply Hk. right. exact Hk'. }
          apply G. intros k Hk. apply in_seq in Hk. lia. }
        rewrite E, (IH rest (S t)).
        + unfold rest, ended. clear. induction ps as [|p r IHr]; [constructor|]. cbn [filter].
          destruct (length (sq p) =? S t); cbn [negb].
          * cbn [app]. constructor. exact IHr.
          * rewrite <- Permutation_middle. constructor. exact IHr.
        + intros s Hs. apply in_map_iff in Hs. destruct Hs as [p [<- Hp]]. apply filter_In in Hp.
          destruct Hp as [Hp Hl]. specialize (H (sq p) (in_map sq ps p Hp)).
          destruct (Nat.eqb_spec (length (sq p)) (S t)); [discriminate | lia].
    Qed.
  End Enc.

  (* The decoder: any states following the inputs chosen. *)
  Section Dec.
    Variable teacher : bool.
    Variable ini : P -> St.
    Variable first : P -> X.
    Variable sd : nat -> P -> St.
    Hypothesis sd_0 : forall p, sd 0 p = next (first p) (ini p).
    Hypothesis sd_S : forall t p x,
      (if teacher then nth_error (sq p) t = Some x else x = out (sd t p)) -> sd (S t) p = next x (sd t p).

    Lemma one_loop_spec : forall ps, descending (map sq ps) -> forall m t,
      one_loop X St next out teacher (map (sd t) (alive t ps)) (entries t (map sq ps))
        (map (fun u => entries u (map sq ps)) (seq (S t) m))
      = Ok (map (fun u => map (fun p => out (sd u p)) (alive u ps)) (seq (S t) m)).
    Proof.
      intros ps D m. induction m as [|m IH]; intros t; [reflexivity|].
      cbn [seq map one_loop].
      assert (L : length (entries (S t) (map sq ps)) = length (alive (S t) ps)).
      { rewrite entries_alive. apply flat_single. intros p Hp. destruct (in_alive _ _ _ Hp) as [x Hx].
        unfold ent. rewrite Hx. reflexivity. }
      rewrite L.
      set (g := fun p => if teacher then ent t p else [out (sd t p)]).
      assert (A : forall p, In p (alive (S t) ps) -> In p (alive t ps)).
      { intros p Hp. rewrite (alive_split t ps D). apply in_or_app. left. exact Hp. }
      assert (G : forall p, In p (alive (S t) ps) -> exists x, g p = [x] /\ sd (S t) p = next x (sd t p)).
      { intros p Hp. destruct (in_alive t p ps (A p Hp)) as [x Hx]. unfold g, ent. destruct teacher eqn:Et.
        - exists x. rewrite Hx. split; [reflexivity|]. apply sd_S. exact Hx.
        - exists (out (sd t p)). split; [reflexivity|]. apply sd_S. reflexivity. }
      assert (F : firstn (length (alive (S t) ps)) (if teacher then entries t (map sq ps) else map out (map (sd t) (alive t ps)))
                  = flat_map g (alive (S t) ps)).
      { assert (E : (if teacher then entries t (map sq ps) else map out (map (sd t) (alive t ps))) = flat_map g (alive t ps)).
        { unfold g. destruct teacher; [apply entries_alive|]. rewrite map_map. generalize (alive t ps). intros l.
          induction l as [|p r IHl]; [reflexivity|]. cbn. rewrite IHl. reflexivity. }
        rewrite E, (alive_split t ps D), flat_map_app.
        assert (LG : length (flat_map g (alive (S t) ps)) = length (alive (S t) ps)).
        { apply flat_single. intros p Hp. destruct (G p Hp) as [x [-> _]]. reflexivity. }
        rewrite <- LG at 1. rewrite firstn_app, Nat.sub_diag, firstn_all, firstn_O, app_nil_r. reflexivity. }
      rewrite F. rewrite (alive_split t ps D) at 1. rewrite (cell_flat g (sd t) (sd (S t)) _ _ G).
      rewrite IH, map_map. reflexivity.
    Qed.

    Lemma one_spec : forall ps n, descending (map sq ps) -> (forall s, In s (map sq ps) -> s <> []) ->
      one_to_many X St next out teacher (map ini ps) (map first ps)
        (map (fun u => entries u (map sq ps)) (seq 0 (S (S n))))
      = Ok (map (fun u => map (fun p => out (sd u p)) (alive u ps)) (seq 0 (S (S n)))).
    Proof.
      intros ps n D N. unfold one_to_many. cbn [seq map].
      replace (map first ps) with (flat_map (fun p => [first p]) ps)
        by (clear; induction ps as [|p r IH]; cbn; [reflexivity | rewrite IH; reflexivity]).
      replace (map ini ps) with (map ini (ps ++ [])) by (rewrite app_nil_r; reflexivity).
      rewrite (cell_flat (fun p => [first p]) ini (sd 0)).
      - pose proof (one_loop_spec ps D (S n) 0) as L. rewrite (alive_zero ps N) in L. cbn [seq map] in L.
        rewrite L. rewrite map_map. rewrite ?(alive_zero ps N). reflexivity.
      - intros p Hp. exists (first p). split; [reflexivity | apply sd_0].
    Qed.
  End Dec.
End P.

(* LSTM cells. *)
Lemma zip3_length : forall X H f (a : list X) (b c : list H), length b = length a -> length c = length a ->
  length (zip3 X H f a b c) = length a.
Proof.
  intros X H f a. induction a as [|x a IH]; intros [|h b] [|k c] Hb Hc; cbn in *; try discriminate; try reflexivity.
  f_equal. apply IH; congruence.
Qed.

Lemma zip3_nth : forall X H f (a : list X) (b c : list H) i x h k,
  nth_error a i = Some x -> nth_error b i = Some h -> nth_error c i = Some k ->
  nth_error (zip3 X H f a b c) i = Some (f x h k).
Proof.
  intros X H f a. induction a as [|y a IH]; intros [|h' b] [|k' c] [|i] x h k Ha Hb Hc; cbn in *; try discriminate.
  - congruence.
  - apply IH; assumption.
Qed.

Lemma nth_error_firstn' : forall (A : Type) n (l : list A) i, i < n -> nth_error (firstn n l) i = nth_error l i.
Proof.
  intros A n. induction n as [|n IH]; intros [|x l] [|i] H; cbn; try lia; try reflexivity.
  apply IH. lia.
Qed.
