(** * C37: the converters infer what they compute *)
From Coq Require Import List Bool ZArith Lia.
From Verif Require Import PyBase Convert_Model Convert_Proofs.
Import ListNotations.
Open Scope list_scope.

(** ** Values of the declared types *)
Definition int_value (v : value) : Prop := exists z, v = VInt z.
Definition pair_value (v : value) : Prop := exists a b, v = VTup [VInt a; VInt b].
Definition pad_1d (v : value) : Prop := v = VValid \/ v = VSame \/ int_value v \/ pair_value v.
Definition pad_2d (v : value) : Prop := pad_1d v \/ exists a b c d, v = VTup [VTup [VInt a; VInt b]; VTup [VInt c; VInt d]].
Definition kernel_2d (v : value) : Prop := int_value v \/ pair_value v.
(** What a padding means for the window operations: top, bottom, left, right *)
Definition amounts (v : value) : option (Z * Z * Z * Z) :=
  match v with VTup [VInt a; VInt b] => Some (a, a, b, b) | VTup [VTup [VInt a; VInt b]; VTup [VInt c; VInt d]] => Some (a, b, c, d) | _ => None end.
Definition same_padding (v w : value) : Prop := amounts v <> None /\ amounts v = amounts w.

Lemma amounts_known r : amounts r <> None -> known r.
Proof.
  intros X. destruct r as [| | | | |l|l]; cbn in X; try congruence. destruct l as [|a l]; [congruence|]. destruct a as [|z| | | |la|la]; try congruence.
  - destruct l as [|b l]; [congruence|]. destruct b; try congruence. destruct l; [cbn; auto|congruence].
  - destruct la as [|x la]; [congruence|]. destruct x; try congruence. destruct la as [|x la]; [congruence|]. destruct x; try congruence. destruct la; [|congruence].
    destruct l as [|b l]; [congruence|]. destruct b as [| | | | |lb|lb]; try congruence. destruct lb as [|x lb]; [congruence|]. destruct x; try congruence. destruct lb as [|x lb]; [congruence|]. destruct x; try congruence. destruct lb; [|congruence]. destruct l; [cbn; auto 8|congruence].
Qed.
(** C37, one dimension.  Let the input and the kernel size have the declared types, whatever is known of them.  If the constraint succeeds then:
    the value the converter returns is not excluded; nothing known of the output is forgotten; if input and kernel size are known, the output is
    what the converter returns; so is every output it makes known.  If it raises RuntimeError, so does the converter; otherwise it raises
    ValueError, and the converter returns something else than what is known of the output. *)
Theorem C37_padding_1d out inp ker i k : completes (val inp) i -> completes (val ker) k -> pad_1d i -> int_value k ->
  match padding_1d_constraint out inp ker with
  | Ok (status, out') =>
      (forall r, padding_converter_1d i k = Ok r -> completes (val out) r -> completes (val out') r) /\
      (forall o, completes (val out') o -> completes (val out) o) /\
      (known (val inp) -> known (val ker) -> padding_converter_1d i k = Ok (val out') /\ status = true) /\
      (val out = TBD -> known (val out') -> padding_converter_1d i k = Ok (val out'))
  | Err RuntimeError => padding_converter_1d i k = Err RuntimeError
  | Err e => e = ValueError /\ exists r, padding_converter_1d i k = Ok r /\ ~ completes (val out) r
  end.
Proof.
  intros Ci Ck Pi Pk. unfold padding_1d_constraint.
  assert (St : forall v r, completes v r -> padding_converter_1d i k = Ok r -> (known (val inp) -> known (val ker) -> known v) ->
    match (let* o := set_value out v in Ok (is_valued o, o))%res with
    | Ok (status, out') =>
      (forall r, padding_converter_1d i k = Ok r -> completes (val out) r -> completes (val out') r) /\
      (forall o, completes (val out') o -> completes (val out) o) /\
      (known (val inp) -> known (val ker) -> padding_converter_1d i k = Ok (val out') /\ status = true) /\
      (val out = TBD -> known (val out') -> padding_converter_1d i k = Ok (val out'))
    | Err RuntimeError => padding_converter_1d i k = Err RuntimeError
    | Err e => e = ValueError /\ exists r, padding_converter_1d i k = Ok r /\ ~ completes (val out) r
    end).
  { intros v r C E K. pose proof (set_value_spec out v) as S. destruct (set_value out v) as [e'|x]; cbn [bind].
    - destruct S as (In & M & Kv & T). split; [intros r' E' X; assert (r' = r) by congruence; subst; apply M; auto|]. split; [intros o X; apply M; auto|]. split.
      + intros K1 K2. specialize (K K1 K2). rewrite (Kv K). split; [rewrite E; f_equal; apply known_completes; auto|]. unfold is_valued. rewrite In, Kv by auto. apply valued_known. auto.
      + intros Eo Ko. rewrite (T Eo) in *. rewrite E. f_equal. apply known_completes; auto.
    - destruct S as [-> N]. split; [auto|]. exists r. split; [auto|]. intros X. apply (N r). auto. }
  destruct (val inp) as [|p| | | |l|l] eqn:Ei.
  - cbn [bind]. split; [auto|]. split; [auto|]. split; [intros []|]. intros ->. intros [].
  - inversion Ci; subst. apply (St _ (pair (VInt p) (VInt p))); [|reflexivity|intros; cbn; auto]. apply completes_self. cbn. auto.
  - inversion Ci; subst. apply (St _ (pair (VInt 0) (VInt 0))); [|reflexivity|intros; cbn; auto]. apply completes_self. cbn. auto.
  - inversion Ci; subst. destruct Pk as [z ->]. destruct (val ker) as [|z'| | | |l|l] eqn:Ek; inversion Ck; subst.
    + cbn [bind]. split; [auto|]. split; [auto|]. split; [intros _ []|]. intros ->. intros [].
    + destruct (even z) eqn:Ez; [cbn [bind padding_converter_1d]; rewrite Ez; auto|]. apply (St _ (pair (VInt (z / 2)) (VInt (z / 2)))); [|cbn [padding_converter_1d]; rewrite Ez; auto|intros; cbn; auto]. apply completes_self. cbn. auto.
  - inversion Ci; subst. destruct Pi as [X|[X|[[? X]|[? [? X]]]]]; discriminate.
  - inversion Ci as [| | | | |? m Cm|]; subst. destruct Pi as [X|[X|[[? X]|[a [b X]]]]]; try discriminate. injection X as ->. inversion Cm as [|v w l' m' C1 C2]; subst. inversion C2 as [|v2 w2 l2 m2 C3 C4]; subst. inversion C4; subst.
    assert (Nv : is_seq v || is_seq v2 = false) by (inversion C1; inversion C3; subst; auto). rewrite Nv. apply (St _ (VTup [VInt a; VInt b])); [constructor; auto|reflexivity|auto].
  - inversion Ci; subst. destruct Pi as [X|[X|[[? X]|[? [? X]]]]]; discriminate.
Qed.

(** C37, two dimensions.  The inferred output has the same meaning, see [amounts], as what the converter returns.  The remaining error is
    a TypeError, when the padding is SAME and nothing is known of the kernel size. *)
Theorem C37_padding_2d out inp ker i k : completes (val inp) i -> completes (val ker) k -> pad_2d i -> kernel_2d k ->
  match padding_2d_constraint out inp ker with
  | Ok (status, out') =>
      (val out = TBD -> forall r, padding_converter_2d i k = Ok r -> exists o, completes (val out') o /\ same_padding o r) /\
      (forall o, completes (val out') o -> completes (val out) o) /\
      (known (val inp) -> known (val ker) -> exists r, padding_converter_2d i k = Ok r /\ same_padding (val out') r /\ status = true) /\
      (val out = TBD -> known (val out') -> exists r, padding_converter_2d i k = Ok r /\ same_padding (val out') r)
  | Err RuntimeError => padding_converter_2d i k = Err RuntimeError
  | Err ValueError => val out <> TBD
  | Err e => e = TypeError /\ val inp = VSame /\ val ker = TBD
  end.
Proof.
  intros Ci Ck Pi Pk. unfold padding_2d_constraint.
  (* the output is set to v, completed by o, which means what the converter returns, if it returns anything *)
  assert (St : forall v o, completes v o -> (forall r, padding_converter_2d i k = Ok r -> same_padding o r) -> (known v -> exists r, padding_converter_2d i k = Ok r) -> (known (val inp) -> known (val ker) -> known v) ->
    match (let* o := set_value out v in Ok (is_valued o, o))%res with
    | Ok (status, out') =>
      (val out = TBD -> forall r, padding_converter_2d i k = Ok r -> exists o, completes (val out') o /\ same_padding o r) /\
      (forall o, completes (val out') o -> completes (val out) o) /\
      (known (val inp) -> known (val ker) -> exists r, padding_converter_2d i k = Ok r /\ same_padding (val out') r /\ status = true) /\
      (val out = TBD -> known (val out') -> exists r, padding_converter_2d i k = Ok r /\ same_padding (val out') r)
    | Err RuntimeError => padding_converter_2d i k = Err RuntimeError
    | Err ValueError => val out <> TBD
    | Err e => e = TypeError /\ val inp = VSame /\ val ker = TBD
    end).
  { intros v o C Sm Ex K. pose proof (set_value_spec out v) as S. destruct (set_value out v) as [e'|x]; cbn [bind].
    - destruct S as (In & M & Kv & T). split; [intros Eo r E; exists o; rewrite (T Eo); auto|]. split; [intros o' X; apply M; auto|]. split.
      + intros K1 K2. specialize (K K1 K2). destruct (Ex K) as [r E]. exists r. rewrite (Kv K). rewrite (known_completes v o K C) in Sm. split; [auto|]. split; [auto|]. unfold is_valued. rewrite In, Kv by auto. apply valued_known. auto.
      + intros Eo Ko. rewrite (T Eo) in *. destruct (Ex Ko) as [r E]. exists r. rewrite (known_completes v o Ko C) in Sm. auto.
    - destruct S as [-> N]. intros Eo. apply (N o). split; [auto|]. rewrite Eo. constructor. eapply completes_known; eauto. }
  assert (Skip : forall out2, val out2 = val out -> (~ known (val inp) \/ ~ known (val ker)) -> (forall r, padding_converter_2d i k = Ok r -> same_padding r r) ->
    match (let* o := Ok out2 in Ok (is_valued o, o))%res with
    | Ok (status, out') =>
      (val out = TBD -> forall r, padding_converter_2d i k = Ok r -> exists o, completes (val out') o /\ same_padding o r) /\
      (forall o, completes (val out') o -> completes (val out) o) /\
      (known (val inp) -> known (val ker) -> exists r, padding_converter_2d i k = Ok r /\ same_padding (val out') r /\ status = true) /\
      (val out = TBD -> known (val out') -> exists r, padding_converter_2d i k = Ok r /\ same_padding (val out') r)
    | Err RuntimeError => padding_converter_2d i k = Err RuntimeError
    | Err ValueError => val out <> TBD
    | Err e => e = TypeError /\ val inp = VSame /\ val ker = TBD
    end).
  { intros out2 E2 N Sr. cbn [bind]. rewrite E2. split; [|split; [auto|split; [tauto|]]].
    - intros Eo r E. exists r. split; [|auto]. rewrite Eo. constructor. specialize (Sr r E). destruct Sr as [Sr _]. apply amounts_known; auto.
    - intros ->. intros []. }
  assert (Rr : forall r, padding_converter_2d i k = Ok r -> same_padding r r).
  { intros r E. unfold same_padding. split; [|auto]. destruct Pi as [[->|[->|[[z ->]|[a [b ->]]]]]|(a & b & c & d & ->)]; cbn in E; try (injection E as <-; discriminate). destruct Pk as [[z ->]|[a [b ->]]]; cbn in E.
    - destruct (even z); [discriminate|]. injection E as <-. discriminate.
    - destruct (even a); [discriminate|]. cbn in E. destruct (even b); [discriminate|]. injection E as <-. discriminate. }
  destruct (val inp) as [|p| | | |l|l] eqn:Ei.
  - apply (Skip (Edge (val out) false)); [auto|left; intros []|auto].
  - inversion Ci; subst. apply (St _ (pair (VInt p) (VInt p))); [apply completes_self; cbn; auto| |cbn; eauto|cbn; auto]. intros r E. cbn in E. injection E as <-. split; [discriminate|auto].
  - inversion Ci; subst. apply (St _ (pair (VInt 0) (VInt 0))); [apply completes_self; cbn; auto| |cbn; eauto|cbn; auto]. intros r E. cbn in E. injection E as <-. split; [discriminate|auto].
  - inversion Ci; subst. destruct Pk as [[z ->]|[a [b ->]]].
    + destruct (val ker) as [|z'| | | |l|l] eqn:Ek; inversion Ck; subst; [cbn; auto|]. cbn [isinst_pair]. destruct (even z) eqn:Ez; [cbn; rewrite Ez; auto|]. apply (St _ (pair (pair (VInt (z / 2)) (VInt (z / 2))) (pair (VInt (z / 2)) (VInt (z / 2))))); [apply completes_self; cbn; auto 8| |cbn; rewrite Ez; eauto|cbn; auto 8]. intros r E. cbn in E. rewrite Ez in E. injection E as <-. split; [discriminate|auto].
    + destruct (val ker) as [|z'| | | |l|l] eqn:Ek; inversion Ck as [| | | | |? m Cl|]; subst; [cbn; auto|]. inversion Cl as [|h ? l1 ? C1 C2]; subst. inversion C2 as [|w ? l2 ? C3 C4]; subst. inversion C4; subst.
      assert (Ip : isinst_pair (VTup [h; w]) = true) by (cbn; inversion C1; inversion C3; subst; auto). rewrite Ip. destruct (is_even h || is_even w) eqn:Ev.
      * cbn [bind]. cbn [padding_converter_2d mod2 bind]. apply orb_true_iff in Ev. inversion C1; inversion C3; subst; cbn in Ev; destruct Ev as [Ev|Ev]; try discriminate; rewrite ?Ev; auto; destruct (even a); auto; cbn [bind]; rewrite ?Ev; auto.
      * assert (Hh : completes (half h) (VInt (a / 2))) by (inversion C1; subst; cbn; constructor; cbn; auto). assert (Hw : completes (half w) (VInt (b / 2))) by (inversion C3; subst; cbn; constructor; cbn; auto).
        apply (St _ (pair (pair (VInt (a / 2)) (VInt (a / 2))) (pair (VInt (b / 2)) (VInt (b / 2))))).
        -- repeat (constructor; auto).
        -- intros r E. cbn in E. destruct (even a); [discriminate|]. cbn in E. destruct (even b); [discriminate|]. injection E as <-. split; [discriminate|auto].
        -- intros K. apply orb_false_iff in Ev. cbn in K. cbn [padding_converter_2d mod2 bind]. inversion C1; inversion C3; subst; cbn in K, Ev; try tauto. destruct Ev as [-> ->]. cbn. eauto.
        -- intros _ K. cbn in K. inversion C1; inversion C3; subst; cbn in K |- *; tauto.
  - inversion Ci; subst. destruct Pi as [[X|[X|[[? X]|[? [? X]]]]]|(? & ? & ? & ? & X)]; discriminate.
  - destruct (isinst_pairs (VTup l)) eqn:Ip.
    + apply (St _ i); [rewrite <- Ei in *; auto| | |auto].
      * intros r E. destruct Pi as [[->|[->|[[z ->]|[a [b ->]]]]]|(a & b & c & d & ->)]; try (inversion Ci; fail); cbn in E; injection E as <-; split; discriminate || auto.
      * intros _. destruct Pi as [[->|[->|[[z ->]|[a [b ->]]]]]|(a & b & c & d & ->)]; try (inversion Ci; fail); cbn; eauto.
    + destruct (isinst_pair (VTup l)) eqn:Iq.
      * destruct l as [|a [|b [|? l]]]; try discriminate. inversion Ci as [| | | | |? m Cm|]; subst. inversion Cm as [|? a' ? ? C1 C2]; subst. inversion C2 as [|? b' ? ? C3 C4]; subst. inversion C4; subst.
        assert (Int : exists x y, a' = VInt x /\ b' = VInt y). { destruct Pi as [[X|[X|[[? X]|[x [y X]]]]]|(x1 & x2 & x3 & x4 & X)]; try discriminate; [injection X as -> ->; eauto|]. injection X as -> ->. exfalso. inversion C1; subst; [|cbn in Iq; discriminate]. inversion C3; subst; [cbn in Ip; discriminate|cbn in Iq; discriminate]. }
        destruct Int as (x & y & -> & ->). apply (St _ (pair (pair (VInt x) (VInt x)) (pair (VInt y) (VInt y)))).
        -- repeat (constructor; auto).
        -- intros r E. cbn in E. injection E as <-. split; [discriminate|auto].
        -- cbn. eauto.
        -- cbn. tauto.
      * exfalso. inversion Ci as [| | | | |? m Cm|]; subst. destruct Pi as [[X|[X|[[? X]|[x [y X]]]]]|(x1 & x2 & x3 & x4 & X)]; try discriminate; injection X as ->; inversion Cm as [|? a' ? ? C1 C2]; subst; inversion C2 as [|? b' ? ? C3 C4]; subst; inversion C4; subst.
        -- inversion C1; inversion C3; subst; cbn in Iq; discriminate.
        -- assert (P1 : forall v p q, completes v (VTup [VInt p; VInt q]) -> isinst_pair v = true). { clear. intros v p q C. inversion C as [| | | | |? m Cm|]; subst; auto. inversion Cm as [|? a' ? ? C1 C2]; subst; inversion C2 as [|? b' ? ? C3 C4]; subst; inversion C4; subst. cbn. inversion C1; inversion C3; subst; auto. }
           cbn [isinst_pairs] in Ip. rewrite (P1 _ _ _ C1), (P1 _ _ _ C3) in Ip. discriminate.
  - inversion Ci; subst. destruct Pi as [[X|[X|[[? X]|[? [? X]]]]]|(? & ? & ? & ? & X)]; discriminate.
Qed.

(** C37, strides.  If the stride is not known at all, assume that it is not None (see the finding below).  The output is never None (its type).  What the converter returns is
    consistent with the state after the constraint if it was before; only then the constraint raises; known outputs are those it computes. *)
Theorem C37_stride out inp ker i k : completes (val inp) i -> completes (val ker) k -> (val inp = TBD -> i <> VNone) -> val out <> VNone ->
  match stride_constraint out inp ker with
  | Ok (status, (out', inp', ker')) =>
      (completes (val out) (stride_converter i k) -> completes (val out') (stride_converter i k) /\ completes (val inp') i /\ completes (val ker') k) /\
      ((forall o, completes (val out') o -> completes (val out) o) /\ (forall o, completes (val inp') o -> completes (val inp) o) /\ (forall o, completes (val ker') o -> completes (val ker) o)) /\
      (known (val inp) -> known (val ker) -> val out' = stride_converter i k) /\
      (status = true -> forall i' k', completes (val inp') i' -> completes (val ker') k' -> stride_converter i' k' = val out')
  | Err e => e = ValueError /\ ~ completes (val out) (stride_converter i k)
  end.
Proof.
  intros Ci Ck Nn No. unfold stride_constraint.
  assert (D : val inp = VNone \/ val inp <> VNone) by (destruct (val inp); auto; right; discriminate). destruct D as [Ei|Ei].
  - rewrite Ei in *. inversion Ci; subst. cbn [stride_converter]. pose proof (set_value_spec out (val ker)) as S. destruct (set_value out (val ker)) as [out'|x]; cbn [bind]; [|destruct S as [-> N]; split; [auto|]; intros X; apply (N k); auto].
    destruct S as (In & M & Kv & T). pose proof (set_value_spec ker (val out')) as S'. destruct (set_value ker (val out')) as [ker'|x]; cbn [bind].
    + destruct S' as (In' & M' & Kv' & T'). split; [|split; [split; [|split]|split]].
      * intros X. assert (Y : completes (val out') k) by (apply M; auto). split; [auto|]. split; [rewrite Ei; constructor|]. apply M'. auto.
      * intros o Ho. apply M. auto.
      * intros o Ho. rewrite <- Ei. auto.
      * intros o Ho. apply M'. auto.
      * intros _ Kk. rewrite (Kv Kk). symmetry. apply known_completes; auto.
      * intros St i' k' Hi Hk. rewrite Ei in Hi. inversion Hi; subst. cbn [stride_converter]. apply andb_true_iff in St as [S1 S2]. unfold is_valued in S1. rewrite In in S1. cbn in S1. apply valued_known in S1. rewrite (Kv' S1) in Hk. apply known_completes; auto.
    + destruct S' as [-> N]. split; [auto|]. intros X. apply (N k). split; [|auto]. apply M. auto.
  - assert (Ni : i <> VNone). { intros ->. inversion Ci; subst; [|congruence]. apply Nn; auto. } assert (Es : forall j, j <> VNone -> stride_converter j k = j) by (intros []; cbn; congruence). rewrite (Es i Ni).
    assert (Eq : match val inp with
      | VNone => (let* o := set_value out (val ker) in let* ke := set_value ker (val o) in Ok (is_valued o && is_valued ke, (o, inp, ke)))
      | v => (let* o := set_value out v in let* p := set_value inp (val o) in Ok (is_valued o && is_valued p, (o, p, ker))) end%res = (let* o := set_value out (val inp) in let* p := set_value inp (val o) in Ok (is_valued o && is_valued p, (o, p, ker)))%res) by (destruct (val inp); auto; congruence).
    rewrite Eq. clear Eq. pose proof (set_value_spec out (val inp)) as S. destruct (set_value out (val inp)) as [out'|x]; cbn [bind]; [|destruct S as [-> N]; split; [auto|]; intros X; apply (N i); auto].
    destruct S as (In & M & Kv & T). pose proof (set_value_spec inp (val out')) as S'. destruct (set_value inp (val out')) as [inp'|x]; cbn [bind].
    + destruct S' as (In' & M' & Kv' & T'). split; [|split; [split; [|split]|split]].
      * intros X. assert (Y : completes (val out') i) by (apply M; auto). split; [auto|]. split; [|auto]. apply M'. auto.
      * intros o Ho. apply M. auto.
      * intros o Ho. apply M'. auto.
      * auto.
      * intros Kk _. rewrite (Kv Kk). symmetry. apply known_completes; auto.
      * intros St i' k' Hi Hk. apply andb_true_iff in St as [S1 S2]. unfold is_valued in S1. rewrite In in S1. cbn in S1. apply valued_known in S1. rewrite (Kv' S1) in Hi. assert (i' = val out') by (apply known_completes; auto). subst i'. destruct (val out') eqn:Eo; auto. exfalso. assert (Y : completes VNone VNone) by constructor. apply M in Y. destruct Y as [Y1 Y2]. inversion Y1 as [? ? E1| | | |E1 | |]; [|congruence]. inversion Y2 as [? ? E2| | | |E2 | |]; [|congruence]. specialize (T (eq_sym E2)). congruence.
    + destruct S' as [-> N]. split; [auto|]. intros X. apply (N i). split; [|auto]. apply M. auto.
Qed.

(** C37, tuples. *)
Theorem C37_tuple out inp i : completes (val inp) i ->
  match tuple_converter_constraint out inp with
  | Ok (status, out') =>
      (completes (val out) (tuple_converter i) -> completes (val out') (tuple_converter i)) /\
      (forall o, completes (val out') o -> completes (val out) o) /\
      (known (val inp) -> int_value i \/ (exists l, i = VTup l) -> val out' = tuple_converter i /\ status = true) /\
      (val out = TBD -> known (val out') -> val out' = tuple_converter i)
  | Err e => e = ValueError /\ ~ completes (val out) (tuple_converter i)
  end.
Proof.
  intros Ci. unfold tuple_converter_constraint.
  assert (St : forall v, completes v (tuple_converter i) -> (known (val inp) -> known v) ->
    match (let* o := set_value out v in Ok (is_valued o, o))%res with
    | Ok (status, out') =>
      (completes (val out) (tuple_converter i) -> completes (val out') (tuple_converter i)) /\
      (forall o, completes (val out') o -> completes (val out) o) /\
      (known (val inp) -> int_value i \/ (exists l, i = VTup l) -> val out' = tuple_converter i /\ status = true) /\
      (val out = TBD -> known (val out') -> val out' = tuple_converter i)
    | Err e => e = ValueError /\ ~ completes (val out) (tuple_converter i)
    end).
  { intros v C K. pose proof (set_value_spec out v) as S. destruct (set_value out v) as [e'|x]; cbn [bind].
    - destruct S as (In & M & Kv & T). split; [intros X; apply M; auto|]. split; [intros o X; apply M; auto|]. split.
      + intros K1 _. specialize (K K1). rewrite (Kv K). split; [symmetry; apply known_completes; auto|]. unfold is_valued. rewrite In, Kv by auto. apply valued_known. auto.
      + intros Eo Ko. rewrite (T Eo) in *. symmetry. apply known_completes; auto.
    - destruct S as [-> N]. split; [auto|]. intros X. apply (N (tuple_converter i)). auto. }
  destruct (val inp) as [|p| | | |l|l] eqn:Ei.
  - cbn [bind]. split; [auto|]. split; [auto|]. split; [intros []|]. intros ->. intros [].
  - inversion Ci; subst. apply St; [|cbn; auto]. cbn [tuple_converter]. apply completes_self. cbn. auto.
  - inversion Ci; subst. cbn [bind]. split; [auto|]. split; [auto|]. split; [intros _ [[? X]|[? X]]; discriminate|]. intros ->. intros [].
  - inversion Ci; subst. cbn [bind]. split; [auto|]. split; [auto|]. split; [intros _ [[? X]|[? X]]; discriminate|]. intros ->. intros [].
  - inversion Ci; subst. cbn [bind]. split; [auto|]. split; [auto|]. split; [intros _ [[? X]|[? X]]; discriminate|]. intros ->. intros [].
  - inversion Ci; subst. apply St; auto.
  - inversion Ci; subst. cbn [bind]. split; [auto|]. split; [auto|]. split; [intros _ [[? X]|[? X]]; discriminate|]. intros ->. intros [].
Qed.

(** ** Findings *)
Definition unknown : edge := Edge TBD true.
(** In two dimensions the inferred value is not the one the converter returns, only one of the same meaning. *)
Theorem C37_literal_refuted : ~ forall i k status out, pad_2d i -> pair_value k -> padding_2d_constraint unknown (Edge i false) (Edge k false) = Ok (status, out) -> padding_converter_2d i k = Ok (val out).
Proof. intros X. specialize (X VSame (VTup [VInt 3; VInt 5]) _ _ ltac:(left; right; left; auto) ltac:(eexists; eexists; eauto) ltac:(vm_compute; reflexivity)). vm_compute in X. discriminate. Qed.
(** SAME padding with a kernel size not yet known is refused, in two dimensions, though it can be converted once the kernel size is known. *)
Theorem C37_same_refuted : ~ forall k r, pair_value k -> padding_converter_2d VSame k = Ok r -> exists x, padding_2d_constraint unknown (Edge VSame false) unknown = Ok x.
Proof. intros X. destruct (X (VTup [VInt 3; VInt 3]) _ ltac:(eexists; eexists; eauto) ltac:(vm_compute; reflexivity)) as [x Y]. vm_compute in Y. discriminate. Qed.
(** If the stride is not known yet but the output is, the stride is set to the output, although it may be None, for the kernel size. *)
Theorem C37_stride_refuted : ~ forall out inp ker i k status out' inp' ker', completes (val inp) i -> completes (val ker) k -> completes (val out) (stride_converter i k) ->
  stride_constraint out inp ker = Ok (status, (out', inp', ker')) -> completes (val inp') i.
Proof.
  intros X. specialize (X (Edge (VInt 2) false) unknown (Edge (VInt 2) false) VNone (VInt 2) _ _ _ _ ltac:(constructor; exact Logic.I) ltac:(constructor) ltac:(constructor) ltac:(vm_compute; reflexivity)). vm_compute in X. inversion X.
Qed.
(** Padding and None are passed on by the tuple converter, but never inferred. *)
Theorem C37_tuple_refuted : ~ forall i, known i -> exists status out, tuple_converter_constraint unknown (Edge i false) = Ok (status, out) /\ val out = tuple_converter i.
Proof. intros X. destruct (X VSame Logic.I) as (s & o & E & V). vm_compute in E. injection E as <- <-. discriminate. Qed.
(** ** Examples *)
Example C37_1d_example : padding_1d_constraint unknown (Edge VSame false) (Edge (VInt 5) false) = Ok (true, Edge (VTup [VInt 2; VInt 2]) false) /\ padding_converter_1d VSame (VInt 5) = Ok (VTup [VInt 2; VInt 2]) /\
  padding_1d_constraint (Edge (VTup [VInt 1; TBD]) false) (Edge (VTup [TBD; VInt 4]) false) unknown = Ok (true, Edge (VTup [VInt 1; VInt 4]) false).
Proof. split; [|split]; vm_compute; reflexivity. Qed.
Example C37_2d_example : padding_2d_constraint unknown (Edge VSame false) (Edge (VTup [VInt 3; TBD]) false) = Ok (false, Edge (VTup [VTup [VInt 1; VInt 1]; VTup [TBD; TBD]]) false) /\
  padding_2d_constraint unknown (Edge VSame false) (Edge (VTup [VInt 3; VInt 4]) false) = Err RuntimeError /\ padding_converter_2d VSame (VTup [VInt 3; VInt 4]) = Err RuntimeError /\
  padding_2d_constraint (Edge (VTup [TBD; TBD]) false) (Edge (VTup [VInt 1; VInt 2]) false) unknown = Ok (true, Edge (VTup [VTup [VInt 1; VInt 1]; VTup [VInt 2; VInt 2]]) false).
Proof. split; [|split; [|split]]; vm_compute; reflexivity. Qed.
Example C37_stride_example : stride_constraint (Edge (VTup [TBD; VInt 3]) false) (Edge VNone false) (Edge (VTup [VInt 2; TBD]) false) = Ok (true, (Edge (VTup [VInt 2; VInt 3]) false, Edge VNone false, Edge (VTup [VInt 2; VInt 3]) false)).
Proof. vm_compute; reflexivity. Qed.
Example C37_hypotheses_example : completes (VTup [TBD; VInt 4]) (VTup [VInt 1; VInt 4]) /\ pad_1d (VTup [VInt 1; VInt 4]) /\ kernel_2d (VInt 5) /\ pad_2d (VTup [VTup [VInt 1; VInt 2]; VTup [VInt 3; VInt 4]]).
Proof. split; [repeat constructor|]. split; [right; right; right; eexists; eexists; eauto|]. split; [left; eexists; eauto|]. right. eauto 6. Qed.

Print Assumptions C37_padding_1d.
Print Assumptions C37_padding_2d.
Print Assumptions C37_stride.
Print Assumptions C37_tuple.
Print Assumptions C37_literal_refuted.
Print Assumptions C37_same_refuted.
Print Assumptions C37_stride_refuted.
Print Assumptions C37_tuple_refuted.
