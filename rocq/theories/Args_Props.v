(** * C33: prepared arguments bind the parameters like the full call *)
From Coq Require Import List Arith Lia Bool ZArith.
From Verif Require Import PyBase Args_Model.
Import ListNotations.
Open Scope list_scope.

Section Spec.
Context {K V T : Type} `{EqDec K} `{EqDec T}.
Variables (pyeq : V -> V -> res bool) (type_of : V -> T) (cachey : K -> bool).

(** ** Specification *)
(** A function, the inputs of a primitive and the values given separately that belong together *)
Record matching (f : func K V) (inputs : dict K K) (auto : list K) (extra : dict K V) : Prop := {
  m_names : NoDup (pos f ++ kwonly f ++ match vararg f with Some n => [n] | None => [] end);
  m_inputs : dwf inputs;
  m_pos : forall p, In p (pos f) -> dget p inputs <> None;
  m_kw : forall k, In k (kwonly f) -> ~ In k auto -> dget k inputs <> None;
  m_auto : forall a, In a auto -> ~ In a (pos f) /\ vararg f <> Some a /\ dget a inputs = None /\ kw_default f a = None;
  m_extra : dwf extra /\ forall k, In k (dkeys extra) <-> In k auto /\ In k (kwonly f);
  m_defaults : length (defaults f) <= length (pos f);
  m_kwdefaults : match kwdefaults f with Some d => dwf d /\ forall k, In k (dkeys d) -> In k (kwonly f) | None => True end;
  m_var : forall n, vararg f = Some n -> cachey n = false /\ forall n o k, In (n, o) inputs -> ~ In n (pos f) -> ~ In n (kwonly f) -> In k (kwonly f) -> dget k inputs <> Some o
}.
(** The inputs that are no parameters go to the variadic one, in order. *)
Definition remaining (f : func K V) (inputs : dict K K) : list K := map snd (filter (fun no => negb (mem (fst no) (pos f ++ kwonly f))) inputs).
(** Parameters get the values of their inputs; where arguments were reduced, a parameter may have got its default instead, if == found it equal. *)
Record as_given (f : func K V) (inputs : dict K K) (extra : dict K V) (reduce : bool) (env : K -> V) (b : binding K V) : Prop := {
  g_pos_names : map fst (bound_pos b) = pos f;
  g_pos : forall p v, In (p, v) (bound_pos b) -> exists o, dget p inputs = Some o /\ (v = env o \/ reduce = true /\ cachey p = true /\ pos_default f p = Some v /\ pyeq (env o) v = Ok true);
  g_var : bound_var b = match vararg f with Some _ => map env (remaining f inputs) | None => [] end;
  g_kw_names : map fst (bound_kw b) = kwonly f;
  g_kw : forall k v, In (k, v) (bound_kw b) -> match dget k extra with
    | Some w => v = w
    | None => exists o, dget k inputs = Some o /\ (v = env o \/ reduce = true /\ kw_default f k = Some v /\ pyeq v (env o) = Ok true /\ type_of v = type_of (env o))
    end
}.

(** ** Proofs *)
Lemma filter_all' {A} (p : A -> bool) l : (forall x, In x l -> p x = true) -> filter p l = l.
Proof. induction l as [|x l IH]; intros E; cbn; [auto|]. rewrite E by (left; auto). f_equal. apply IH. intros y Hy. apply E. right. auto. Qed.
Lemma filter_filter {A} (p q : A -> bool) l : filter q (filter p l) = filter (fun x => p x && q x) l.
Proof. induction l as [|x l IH]; cbn; [auto|]. destruct (p x); cbn; [destruct (q x); rewrite IH; auto|auto]. Qed.
Lemma ddel_filter {A} k (d : dict K A) : dwf d -> ddel k d = filter (fun kv => negb (eqb (fst kv) k)) d.
Proof.
  induction d as [|[k' v] d IH]; intros W; cbn; [auto|]. unfold dwf in W. cbn in W. inversion W as [|? ? W1 W2]; subst. destruct (eq_dec k k') as [->|N].
  - rewrite eqb_refl. cbn [negb]. symmetry. apply filter_all'. intros [k v'] Hin. cbn. apply negb_true_iff. apply eqb_neq. intros ->. apply W1. apply in_map_iff. exists (k', v'). auto.
  - replace (eqb k' k) with false by (symmetry; apply eqb_neq; auto). cbn [negb]. f_equal. auto.
Qed.
Lemma dwf_filter {A} (p : K * A -> bool) (d : dict K A) : dwf d -> dwf (filter p d).
Proof. unfold dwf, dkeys. induction d as [|[k v] d IH]; cbn; intros W; [constructor|]. inversion W as [|? ? W1 W2]; subst. destruct (p (k, v)); cbn; [constructor; [|auto]|auto]. intros X. apply W1. apply in_map_iff in X as (y & E & Hy). apply filter_In in Hy as [Hy _]. apply in_map_iff. exists y. auto. Qed.
Definition value (inputs : dict K K) (p : K) : K := match dget p inputs with Some o => o | None => p end.
(** The positional part *)
Lemma reorganize_spec data local kwvals defs reduce va : (match va with [] => True | [(n, true)] => cachey n = false | _ => False end) ->
  forall ps inputs r, NoDup ps -> dwf inputs -> reorganize pyeq cachey data local kwvals defs reduce (map (fun n => (n, false)) ps ++ va) inputs = Ok r ->
  exists ps1 ps2, ps = ps1 ++ ps2 /\ (forall p, In p ps -> dget p inputs <> None) /\
    r = map (fun p => (p, [value inputs p])) ps1 ++ map (fun nv => (fst nv, filter (fun o => negb (mem o kwvals)) (dvals (filter (fun no => negb (mem (fst no) ps)) inputs)))) va /\
    (ps2 = [] \/ exists p d v, ps2 = [p] /\ va = [] /\ reduce = true /\ cachey p = true /\ defs <> [] /\ dget (value inputs p) data = Some v /\ last defs d = last defs v /\ pyeq v (last defs d) = Ok true).
Proof.
  intros Va. induction ps as [|p ps IH]; intros inputs r N W E.
  - exists [], []. split; [auto|]. split; [intros p []|]. cbn [map app] in E. destruct va as [|[n [|]] [|]]; try contradiction; cbn [reorganize] in E.
    + injection E as <-. auto.
    + rewrite Va in E. cbn [bind] in E. injection E as <-. split; [|auto]. cbn. rewrite (filter_all' (fun _ => true)) by auto. auto.
  - cbn [map app reorganize] in E. inversion N as [|? ? N1 N2]; subst. destruct (dget p inputs) as [o|] eqn:Eo; [|destruct (cachey p); [discriminate|destruct (negb (dmem p local)); discriminate]].
    assert (Del : dwf (ddel p inputs)) by (apply dwf_ddel; auto).
    assert (Ok1 : forall r', reorganize pyeq cachey data local kwvals defs reduce (map (fun n => (n, false)) ps ++ va) (ddel p inputs) = Ok r' -> r = (p, [o]) :: r' -> exists ps1 ps2, p :: ps = ps1 ++ ps2 /\ (forall q, In q (p :: ps) -> dget q inputs <> None) /\
      r = map (fun p => (p, [value inputs p])) ps1 ++ map (fun nv => (fst nv, filter (fun o => negb (mem o kwvals)) (dvals (filter (fun no => negb (mem (fst no) (p :: ps))) inputs)))) va /\
      (ps2 = [] \/ exists p d v, ps2 = [p] /\ va = [] /\ reduce = true /\ cachey p = true /\ defs <> [] /\ dget (value inputs p) data = Some v /\ last defs d = last defs v /\ pyeq v (last defs d) = Ok true)).
    { intros r' Er ->. destruct (IH (ddel p inputs) r' N2 Del Er) as (ps1 & ps2 & -> & D & -> & Sk). assert (Vq : forall q, In q (ps1 ++ ps2) -> value (ddel p inputs) q = value inputs q) by (intros q Hq; unfold value; rewrite dget_ddel_other by congruence; auto).
      exists (p :: ps1), ps2. split; [auto|]. split; [intros q [<-|Hq]; [congruence|]; rewrite <- (dget_ddel_other q p) by congruence; auto|]. split.
      - cbn [map app]. f_equal; [unfold value; rewrite Eo; auto|]. f_equal; [apply map_ext_in; intros q Hq; rewrite Vq; [auto|apply in_app_iff; auto]|]. apply map_ext. intros nv. f_equal. f_equal. f_equal. rewrite (ddel_filter p inputs W), filter_filter. apply filter_ext. intros [n x]. cbn [fst]. unfold mem. cbn [existsb]. rewrite negb_orb. auto.
      - destruct Sk as [->|(q & d & v & -> & S1 & S2 & S3 & S4 & S5 & S6)]; [auto|]. right. exists q, d, v. do 5 (split; [auto|]). rewrite <- (Vq q) by (apply in_app_iff; right; left; auto). auto. }
    destruct (cachey p) eqn:Ec.
    + match type of E with bind ?X _ = _ => destruct X as [skip|e] eqn:Es end; [|discriminate]. cbn [bind] in E. destruct skip.
      * destruct (reduce && is_nil (map (fun n => (n, false)) ps ++ va)) eqn:Er; [|discriminate]. apply andb_true_iff in Er as [-> Er]. destruct ps as [|p' ps]; [|discriminate]. destruct va as [|x va]; [|discriminate]. destruct defs as [|d0 defs]; [discriminate|]. destruct (dget o data) as [v|] eqn:Ed; [|discriminate]. cbn in E. injection E as <-.
        exists [], [p]. split; [auto|]. split; [intros q [<-|[]]; congruence|]. split; [auto|]. right. exists p, v, v. do 4 (split; [auto|]). split; [discriminate|]. split; [unfold value; rewrite Eo; auto|]. auto.
      * destruct (reorganize _ _ _ _ _ _ _ _ (ddel p inputs)) as [r'|e] eqn:Er; [|discriminate]. cbn [bind] in E. injection E as <-. eapply Ok1; eauto.
    + destruct (negb (dmem p local)); [discriminate|]. destruct (reorganize _ _ _ _ _ _ _ _ (ddel p inputs)) as [r'|e] eqn:Er; [|discriminate]. cbn [bind] in E. injection E as <-. eapply Ok1; eauto.
Qed.
(** The keyword part *)
Lemma lookup_all_spec (inputs : dict K K) (keys : list K) : forall acc, (forall k, In k keys -> dget k inputs <> None) -> dwf acc -> exists d, lookup_all inputs keys acc = Ok d /\ dwf d /\ forall k, dget k d = if mem k keys then dget k inputs else dget k acc.
Proof.
  induction keys as [|k keys IH]; intros acc D W; cbn [lookup_all]; [exists acc; auto|]. destruct (dget k inputs) as [o|] eqn:Eo; [|exfalso; apply (D k); [left|]; auto]. destruct (IH (dset k o acc)) as (d & E & Wd & G); [intros q Hq; apply D; right; auto|apply dwf_dset; auto|]. exists d. split; [auto|]. split; [auto|]. intros q. rewrite G. unfold mem. cbn [existsb]. fold (mem q keys). destruct (eqb q k) eqn:Eq.
  - apply (proj1 (eqb_eq _ _)) in Eq. subst q. cbn [orb]. rewrite dget_dset_same. destruct (mem k keys); auto.
  - apply (proj1 (eqb_neq _ _)) in Eq. cbn [orb]. rewrite dget_dset_other by auto. auto.
Qed.
Definition kw_state (data : dict K V) (inputs : dict K K) (keys : list K) (defs : K -> option V) (kwd removed : dict K K) : Prop :=
  dwf kwd /\ dwf removed /\ (forall k, ~ In k keys -> dget k kwd = None /\ dget k removed = None) /\
  forall k, In k keys -> dget k kwd = dget k inputs /\ dget k removed = None \/ dget k kwd = None /\ dget k removed = dget k inputs /\ exists o d v, dget k inputs = Some o /\ defs k = Some d /\ dget o data = Some v /\ pyeq d v = Ok true /\ type_of d = type_of v.
Lemma reduce_spec data inputs keys defs : (forall k, In k keys -> dget k inputs <> None) -> forall kwdefs kwd removed, NoDup (map fst kwdefs) -> (forall k v, In (k, v) kwdefs -> In k keys /\ defs k = Some v /\ dget k kwd = dget k inputs) -> kw_state data inputs keys defs kwd removed ->
  exists kwd' removed', reduce_kwargs pyeq type_of data kwdefs (kwd, removed) = Ok (kwd', removed') /\ kw_state data inputs keys defs kwd' removed'.
Proof.
  intros D. induction kwdefs as [|[k v] kwdefs IH]; intros kwd removed N Dk St; cbn [reduce_kwargs]; [exists kwd, removed; auto|]. cbn in N. inversion N as [|? ? N1 N2]; subst. destruct (Dk k v (or_introl eq_refl)) as (Ik & Ev & Ek). assert (Dk' : forall k0 v0, In (k0, v0) kwdefs -> In k0 keys /\ defs k0 = Some v0 /\ dget k0 kwd = dget k0 inputs) by (intros k0 v0 Hk; apply Dk; right; auto).
  unfold reduce_kwarg. rewrite Ek. destruct (dget k inputs) as [o|] eqn:Eo; [|exfalso; apply (D k Ik); auto]. destruct (dget o data) as [w|] eqn:Ew; cbn [bind]; [|auto]. destruct (pyeq v w) as [[|]|e] eqn:Ep; cbn [bind]; [|auto|auto]. destruct (eqb (type_of v) (type_of w)) eqn:Et; cbn [bind]; [|auto]. apply (proj1 (eqb_eq _ _)) in Et.
  apply IH; [auto| |].
  - intros k0 v0 Hk. destruct (Dk' k0 v0 Hk) as (A & B & C). split; [auto|]. split; [auto|]. rewrite dget_ddel_other; [auto|]. intros ->. apply N1. apply in_map_iff. exists (k, v0). auto.
  - destruct St as (W1 & W2 & Out & Ins). split; [apply dwf_ddel; auto|]. split; [apply dwf_dset; auto|]. split.
    + intros q Nq. destruct (Out q Nq) as [A B]. rewrite dget_ddel_other, dget_dset_other by congruence. auto.
    + intros q Iq. destruct (eq_dec q k) as [->|Nq].
      * right. split; [apply dget_ddel_same; auto|]. split; [rewrite dget_dset_same; auto|]. exists o, v, w. auto.
      * rewrite dget_ddel_other, dget_dset_other by auto. auto.
Qed.
Lemma last_default (f : func K V) ps p d : NoDup (pos f) -> pos f = ps ++ [p] -> length (defaults f) <= length (pos f) -> defaults f <> [] -> pos_default f p = Some (last (defaults f) d).
Proof.
  intros N E L Nd. unfold pos_default. set (m := length (pos f) - length (defaults f)). assert (Lm : m <= length ps). { unfold m. rewrite E, app_length. cbn. destruct (defaults f); [congruence|]. cbn. lia. }
  assert (Es : skipn m (pos f) = skipn m ps ++ [p]). { rewrite E, skipn_app. replace (m - length ps) with 0 by lia. auto. } rewrite Es. destruct (exists_last Nd) as (ds & x & Ed). rewrite Ed. rewrite last_last.
  assert (Ll : length (skipn m ps) = length ds). { rewrite skipn_length. unfold m. rewrite E, Ed, !app_length. cbn. rewrite E, Ed, !app_length in L. cbn in L. lia. }
  assert (Np : ~ In p (skipn m ps)). { intros X. rewrite E in N. apply NoDup_remove_2 in N. apply N. rewrite app_nil_r. rewrite <- (firstn_skipn m ps). apply in_app_iff. auto. }
  clear - Ll Np. revert ds Ll. induction (skipn m ps) as [|q l IH]; intros [|y ds] Ll; try discriminate; cbn.
  - destruct (eq_dec p p); [auto|congruence].
  - destruct (eq_dec p q) as [->|]; [exfalso; apply Np; left; auto|]. apply IH; [intros X; apply Np; right; auto|auto].
Qed.
Lemma bind_rest_spec (kwargs : dict K V) default names : (forall n, In n names -> dget n kwargs <> None \/ default n <> None) -> exists r, bind_rest kwargs default names = Ok r /\ map fst r = names /\ forall n v, In (n, v) r -> dget n kwargs = Some v \/ dget n kwargs = None /\ default n = Some v.
Proof.
  induction names as [|n names IH]; intros D; cbn [bind_rest]; [exists []; split; [auto|]; split; [auto|intros n v []]|]. destruct IH as (r & E & F & G); [intros q Hq; apply D; right; auto|]. destruct (dget n kwargs) as [v|] eqn:Ek.
  - rewrite E. cbn [bind]. exists ((n, v) :: r). split; [auto|]. split; [cbn; congruence|]. intros q w [X|X]; [injection X as <- <-; auto|auto].
  - destruct (default n) as [v|] eqn:Ed; [|exfalso; destruct (D n (or_introl eq_refl)); auto]. rewrite E. cbn [bind]. exists ((n, v) :: r). split; [auto|]. split; [cbn; congruence|]. intros q w [X|X]; [injection X as <- <-; auto|auto].
Qed.
Lemma NoDup_app_l {A} (l m : list A) : NoDup (l ++ m) -> NoDup l.
Proof. induction l as [|x l IH]; cbn; intros N; [constructor|]. inversion N as [|? ? N1 N2]; subst. constructor; [|auto]. intros X. apply N1. apply in_app_iff. auto. Qed.
Lemma NoDup_app_r {A} (l m : list A) : NoDup (l ++ m) -> NoDup m.
Proof. induction l as [|x l IH]; cbn; intros N; [auto|]. inversion N; auto. Qed.
Lemma NoDup_app_disj {A} (l m : list A) x : NoDup (l ++ m) -> In x l -> ~ In x m.
Proof. induction l as [|y l IH]; cbn; intros N Hx; [destruct Hx|]. inversion N as [|? ? N1 N2]; subst. destruct Hx as [->|Hx]; [intros X; apply N1; apply in_app_iff; auto|auto]. Qed.
Lemma dget_keywords (env : K -> V) kwargs extra k : dget k (keywords env kwargs extra) = match dget k kwargs with Some o => Some (env o) | None => dget k extra end.
Proof. unfold keywords. induction kwargs as [|[k' o] kwargs IH]; cbn; [auto|]. destruct (eq_dec k k'); auto. Qed.
Lemma create_spec data f inputs auto extra reduce : matching f inputs auto extra ->
  exists kwd removed, create_kwarg_dict pyeq type_of data (filter (fun n => negb (mem n auto)) (kwonly f)) f inputs reduce = Ok (kwd, removed) /\ kw_state data inputs (filter (fun n => negb (mem n auto)) (kwonly f)) (fun k => if reduce then kw_default f k else None) kwd removed.
Proof.
  intros M. set (keys := filter (fun n => negb (mem n auto)) (kwonly f)). assert (Ik : forall k, In k keys <-> In k (kwonly f) /\ ~ In k auto) by (intros k; unfold keys; rewrite filter_In, negb_true_iff, mem_not_In; tauto).
  assert (D : forall k, In k keys -> dget k inputs <> None) by (intros k X; apply Ik in X as [A B]; apply (m_kw _ _ _ _ M); auto). unfold create_kwarg_dict. fold keys. destruct (lookup_all_spec inputs keys [] D) as (kwd & -> & Wk & Gk); [constructor|]. cbn [bind].
  assert (St : kw_state data inputs keys (fun k => if reduce then kw_default f k else None) kwd []). { split; [auto|]. split; [constructor|]. split; intros k X; rewrite Gk; destruct (mem_spec k keys); try contradiction; auto. }
  destruct (kwdefaults f) as [kwdefs|] eqn:Ekd; [|exists kwd, []; auto]. destruct reduce; [|exists kwd, []; auto]. assert (Mk := m_kwdefaults _ _ _ _ M). rewrite Ekd in Mk. destruct Mk as [Wd Sub]. destruct (reduce_spec data inputs keys (kw_default f) D kwdefs kwd []) as (kwd' & removed' & E & St'); [exact Wd| |exact St|eauto].
  intros k v Hk. assert (Gd : kw_default f k = Some v) by (unfold kw_default; rewrite Ekd; apply In_dget; auto). assert (I : In k keys). { apply Ik. split; [apply Sub; apply in_map_iff; exists (k, v); auto|]. intros X. destruct (m_auto _ _ _ _ M k X) as (_ & _ & _ & X'). congruence. } split; [auto|]. split; [auto|]. rewrite Gk. destruct (mem_spec k keys); [auto|contradiction].
Qed.
Lemma arg_keys_auto f inputs auto extra : matching f inputs auto extra -> let va := match vararg f with Some n => [(n, true)] | None => [] end in filter (fun nv => negb (mem (fst nv) auto)) (map (fun n => (n, false)) (pos f) ++ va) = map (fun n => (n, false)) (pos f) ++ va.
Proof.
  intros M va. apply filter_all'. intros [n b] Hn. cbn. apply negb_true_iff. apply mem_not_In. intros X. destruct (m_auto _ _ _ _ M n X) as (A & B & _). apply in_app_iff in Hn as [Hn|Hn]; [apply in_map_iff in Hn as (n' & E & Hn); injection E as -> _; auto|]. unfold va in Hn. destruct (vararg f) as [n'|]; [|destruct Hn]. destruct Hn as [E|[]]. injection E as -> _. congruence.
Qed.
Lemma binding_spec f inputs auto extra data env reduce args kwargs : matching f inputs auto extra -> (forall o v, dget o data = Some v -> env o = v) -> prepare pyeq type_of cachey data f inputs auto reduce = Ok (args, kwargs) ->
  exists b, call f (positional env args) (keywords env kwargs extra) = Ok b /\ as_given f inputs extra reduce env b.
Proof.
  intros M Env E. unfold prepare in E. cbn zeta in E. rewrite (arg_keys_auto f inputs auto extra M) in E. destruct (create_spec data f inputs auto extra reduce M) as (kwd & removed & Ec & St). rewrite Ec in E. cbn [bind fst snd] in E. set (keys := filter (fun n => negb (mem n auto)) (kwonly f)) in *.
  assert (Ik : forall k, In k keys <-> In k (kwonly f) /\ ~ In k auto) by (intros k; unfold keys; rewrite filter_In, negb_true_iff, mem_not_In; tauto).
  set (va := match vararg f with Some n => [(n, true)] | None => [] end) in *. destruct (reorganize _ _ _ _ _ _ _ _ inputs) as [r|e] eqn:Er; [|discriminate]. cbn [bind] in E. injection E as <- <-.
  assert (Np : NoDup (pos f)) by (eapply NoDup_app_l, M). assert (Va : match va with [] => True | [(n, true)] => cachey n = false | _ => False end) by (unfold va; destruct (vararg f) as [n|] eqn:En; [apply (m_var _ _ _ _ M n En)|auto]).
  destruct (reorganize_spec data inputs (dvals kwd ++ dvals removed) (defaults f) reduce va Va (pos f) inputs r Np (m_inputs _ _ _ _ M) Er) as (ps1 & ps2 & Ep & _ & Rr & Sk). subst r. destruct St as (Wk & Wr & Out & Ins).
  set (rest := filter (fun o => negb (mem o (dvals kwd ++ dvals removed))) (dvals (filter (fun no => negb (mem (fst no) (pos f))) inputs))) in *.
  assert (Rest : vararg f <> None -> rest = remaining f inputs). { intros Nv. destruct (vararg f) as [n|] eqn:En; [|congruence]. destruct (m_var _ _ _ _ M n En) as [_ Sh]. assert (Im : forall o, In o (dvals kwd ++ dvals removed) <-> exists k, In k keys /\ dget k inputs = Some o).
    { intros o. rewrite in_app_iff. unfold dvals. rewrite !in_map_iff. split.
      - intros [([k o'] & E' & X)|([k o'] & E' & X)]; cbn in E'; subst o'; apply In_dget in X; auto; (destruct (in_dec eq_dec k keys) as [I|I]; [|destruct (Out k I) as [A B]; congruence]); exists k; split; auto; destruct (Ins k I) as [(A & B)|(A & B & _)]; congruence.
      - intros (k & I & G). destruct (Ins k I) as [(A & _)|(_ & A & _)]; rewrite G in A; apply dget_In in A; [left|right]; exists (k, o); auto. }
    unfold rest, remaining, dvals. clear - Im Sh Ik M. assert (Sub : forall no, In no inputs -> In no inputs) by auto. revert Sub. generalize inputs at 1 3 4. intros l. induction l as [|[m o] l IH]; intros Sub; cbn [filter map]; [auto|]. cbn [fst]. specialize (IH ltac:(intros x Hx; apply Sub; right; auto)).
    assert (Eq : mem m (pos f ++ kwonly f) = mem m (pos f) || mem m (kwonly f)) by (unfold mem; apply existsb_app). rewrite Eq. destruct (mem_spec m (pos f)) as [P|P]; cbn [negb orb]; [auto|]. cbn [map snd filter]. assert (Hi : In (m, o) inputs) by (apply Sub; left; auto). destruct (mem_spec m (kwonly f)) as [Q|Q]; cbn [negb].
    - replace (mem o (dvals kwd ++ dvals removed)) with true; [auto|]. symmetry. apply mem_In. apply Im. exists m. assert (G := In_dget m o inputs (m_inputs _ _ _ _ M) Hi). split; [|auto]. apply Ik. split; [auto|]. intros X. destruct (m_auto _ _ _ _ M m X) as (_ & _ & X' & _). congruence.
    - replace (mem o (dvals kwd ++ dvals removed)) with false; [cbn [negb map snd]; f_equal; auto|]. symmetry. apply mem_not_In. intros X. apply Im in X as (k & I & G). apply Ik in I as [I _]. exact (Sh m o k Hi P Q I G). }
  assert (Args : positional env (map (fun p => (p, [value inputs p])) ps1 ++ map (fun nv => (fst nv, rest)) va) = map (fun p => env (value inputs p)) ps1 ++ match vararg f with Some _ => map env rest | None => [] end).
  { unfold positional. rewrite map_app, concat_app, map_app. f_equal; [clear; induction ps1 as [|p ps1 IH]; cbn; [auto|f_equal; auto]|]. unfold va. destruct (vararg f); cbn; [rewrite app_nil_r|]; auto. }
  rewrite Args. clear Args. set (vals := match vararg f with Some _ => map env rest | None => [] end).
  assert (Open : skipn (length (map (fun p => env (value inputs p)) ps1 ++ vals)) (pos f) = ps2). { rewrite app_length, map_length. rewrite Ep. destruct Sk as [->|(p & d & v & -> & Sv & _)]; [rewrite app_nil_r; apply skipn_all2; lia|]. unfold vals. unfold va in Sv. destruct (vararg f); [discriminate|]. cbn [length]. rewrite Nat.add_0_r. rewrite skipn_app, skipn_all, Nat.sub_diag. auto. }
  assert (Sp : combine (pos f) (map (fun p => env (value inputs p)) ps1 ++ vals) = map (fun p => (p, env (value inputs p))) ps1 /\ skipn (length (pos f)) (map (fun p => env (value inputs p)) ps1 ++ vals) = vals).
  { assert (Cmb : forall l ps (ws : list V), combine (ps ++ l) (map (fun p => env (value inputs p)) ps ++ ws) = map (fun p => (p, env (value inputs p))) ps ++ combine l ws) by (intros l ps ws; induction ps as [|p ps IH]; cbn; [auto|f_equal; auto]).
    rewrite Ep. rewrite Cmb. destruct Sk as [->|(p & d & v & -> & Sv & _)].
    - cbn [combine]. rewrite !app_nil_r. split; [auto|]. rewrite skipn_app, map_length, Nat.sub_diag, skipn_all2 by (rewrite map_length; auto). auto.
    - unfold vals. unfold va in Sv. destruct (vararg f); [discriminate|]. cbn [combine]. rewrite !app_nil_r. split; [auto|]. apply skipn_all2. rewrite map_length, app_length. lia. }
  destruct Sp as [Sp1 Sp2]. unfold call.
  assert (Few : match vararg f, length (pos f) <? length (map (fun p => env (value inputs p)) ps1 ++ vals) with None, true => False | _, _ => True end). { destruct (vararg f) eqn:Ev; [exact Logic.I|]. unfold vals. rewrite app_nil_r, map_length, Ep, app_length. destruct (Nat.ltb_spec (length ps1 + length ps2) (length ps1)); [lia|exact Logic.I]. }
  rewrite Open. assert (Kn : forallb (fun kv => mem (fst kv) ps2 || mem (fst kv) (kwonly f)) (keywords env kwd extra) = true). { apply forallb_forall. intros [k v] X. cbn. apply orb_true_iff. right. apply mem_In. unfold keywords in X. apply in_app_iff in X as [X|X].
    - apply in_map_iff in X as ([k' o] & E' & X). injection E' as <- <-. cbn in *. destruct (in_dec eq_dec k' keys) as [I|I]; [apply Ik in I; tauto|]. destruct (Out k' I) as [A _]. apply In_dget in X; [|auto]. congruence.
    - destruct (m_extra _ _ _ _ M) as [_ X']. apply X'. apply in_map_iff. exists (k, v). auto. }
  rewrite Kn. cbn [negb].
  assert (Pkw : forall p, In p (pos f) -> dget p (keywords env kwd extra) = None). { intros p Hp. rewrite dget_keywords. assert (Nk : ~ In p (kwonly f)) by (intros X; apply (NoDup_app_disj _ _ p (m_names _ _ _ _ M) Hp); apply in_app_iff; auto). assert (I : ~ In p keys) by (intros X; apply Ik in X; tauto). destruct (Out p I) as [-> _]. apply dget_None. intros X. apply (m_extra _ _ _ _ M) in X. tauto. }
  destruct (bind_rest_spec (keywords env kwd extra) (pos_default f) ps2) as (rp & Erp & Frp & Grp).
  { intros p Hp. right. destruct Sk as [->|(q & d & v & -> & Sv & Sr & Sc & Sd & _)]; [destruct Hp|]. destruct Hp as [<-|[]]. rewrite (last_default f ps1 q d Np Ep (m_defaults _ _ _ _ M) Sd). discriminate. }
  destruct (bind_rest_spec (keywords env kwd extra) (kw_default f) (kwonly f)) as (rk & Erk & Frk & Grk).
  { intros k Hk. rewrite dget_keywords. destruct (in_dec eq_dec k keys) as [I|I].
    - destruct (Ins k I) as [(-> & _)|(_ & _ & o & d & v & _ & Hd & _)]; [left; apply Ik in I as [A B]; assert (X := m_kw _ _ _ _ M k A B); destruct (dget k inputs); congruence|]. right. destruct reduce; congruence.
    - left. destruct (Out k I) as [-> _]. assert (Ia : In k auto) by (destruct (in_dec eq_dec k auto) as [|N]; [auto|exfalso; apply I; apply Ik; auto]). intros X. apply dget_None in X. apply X. apply (m_extra _ _ _ _ M). auto. }
  rewrite Erp, Erk. cbn [bind]. exists {| bound_pos := map (fun p => (p, env (value inputs p))) ps1 ++ rp; bound_var := vals; bound_kw := rk |}. split; [rewrite Sp1, Sp2; destruct (vararg f), (length (pos f) <? length (map (fun p => env (value inputs p)) ps1 ++ vals)); auto; contradiction|].
  assert (Some_o : forall p, In p (pos f) -> dget p inputs = Some (value inputs p)) by (intros p Hp; assert (X := m_pos _ _ _ _ M p Hp); unfold value; destruct (dget p inputs); congruence).
  constructor; cbn [bound_pos bound_var bound_kw].
  - rewrite map_app, map_map, Frp, Ep. cbn. rewrite map_id. auto.
  - intros p v X. apply in_app_iff in X as [X|X].
    + apply in_map_iff in X as (p' & E' & X). injection E' as <- <-. exists (value inputs p'). split; [apply Some_o; rewrite Ep; apply in_app_iff; auto|auto].
    + assert (Hp2 : In p ps2) by (rewrite <- Frp; apply in_map_iff; exists (p, v); auto). assert (Hp : In p (pos f)) by (rewrite Ep; apply in_app_iff; auto). exists (value inputs p). split; [auto|]. right. destruct Sk as [->|(q & d & w & -> & Sv & Sr & Sc & Sd & Sw & Sl & Se)]; [destruct Hp2|]. destruct Hp2 as [<-|[]]. destruct (Grp q v X) as [Y|[_ Y]]; [rewrite Pkw in Y by auto; discriminate|].
      do 2 (split; [auto|]). split; [auto|]. rewrite (last_default f ps1 q d Np Ep (m_defaults _ _ _ _ M) Sd) in Y. injection Y as <-. rewrite (Env _ _ Sw). auto.
  - unfold vals. destruct (vararg f) eqn:Ev; [rewrite Rest by congruence; auto|auto].
  - auto.
  - intros k v X. assert (Hk : In k (kwonly f)) by (rewrite <- Frk; apply in_map_iff; exists (k, v); auto). assert (Y := Grk k v X). rewrite dget_keywords in Y. destruct (dget k extra) as [w|] eqn:Ee.
    + assert (Ia : In k auto /\ In k (kwonly f)) by (apply (m_extra _ _ _ _ M); apply dmem_In; unfold dmem; rewrite Ee; auto). assert (I : ~ In k keys) by (intros Z; apply Ik in Z; tauto). destruct (Out k I) as [A _]. rewrite A in Y. destruct Y as [Y|[Y _]]; congruence.
    + assert (I : In k keys). { apply Ik. split; [auto|]. intros Z. assert (Z' : In k (dkeys extra)) by (apply (m_extra _ _ _ _ M); auto). apply dget_None in Ee. contradiction. }
      destruct (Ins k I) as [(A & _)|(A & _ & o & d & w & Go & Gd & Gw & Gp & Gt)].
      * rewrite A in Y. apply Ik in I as [I1 I2]. assert (X' := m_kw _ _ _ _ M k I1 I2). destruct (dget k inputs) as [o|]; [|congruence]. exists o. split; [auto|]. left. destruct Y as [Y|[Y _]]; congruence.
      * exists o. split; [auto|]. right. rewrite A in Y. destruct Y as [Y|[_ Y]]; [congruence|]. destruct reduce; [|discriminate]. rewrite Gd in Y. injection Y as <-. rewrite (Env _ _ Gw). auto.
Qed.
End Spec.

(** ** The prepared call binds every parameter as given, up to defaults that compare equal *)
Section Theorems.
Context {K V T : Type} `{EqDec K} `{EqDec T}.
Variables (pyeq : V -> V -> res bool) (type_of : V -> T) (cachey : K -> bool).
Theorem C33_binding : forall f inputs auto extra data (env : K -> V) reduce args kwargs, matching cachey f inputs auto extra -> (forall o v, dget o data = Some v -> env o = v) ->
  prepare pyeq type_of cachey data f inputs auto reduce = Ok (args, kwargs) -> exists b, call f (positional env args) (keywords env kwargs extra) = Ok b /\ as_given pyeq type_of cachey f inputs extra reduce env b.
Proof. intros. eapply binding_spec; eauto. Qed.
(** Exactly as given if nothing is reduced, or if comparing equal means being equal. *)
Theorem C33_exact : forall f inputs auto extra data (env : K -> V) reduce args kwargs, matching cachey f inputs auto extra -> (forall o v, dget o data = Some v -> env o = v) ->
  reduce = false \/ (forall d v, In d (defaults f) -> pyeq v d = Ok true -> d = v) /\ (forall k d v, kw_default f k = Some d -> pyeq d v = Ok true -> type_of d = type_of v -> d = v) ->
  prepare pyeq type_of cachey data f inputs auto reduce = Ok (args, kwargs) -> exists b, call f (positional env args) (keywords env kwargs extra) = Ok b /\
    map fst (bound_pos b) = pos f /\ (forall p v, In (p, v) (bound_pos b) -> option_map env (dget p inputs) = Some v) /\
    bound_var b = match vararg f with Some _ => map env (remaining f inputs) | None => [] end /\
    map fst (bound_kw b) = kwonly f /\ forall k v, In (k, v) (bound_kw b) -> match dget k extra with Some w => Some w | None => option_map env (dget k inputs) end = Some v.
Proof.
  intros f inputs auto extra data env reduce args kwargs M Env Ex E. destruct (binding_spec pyeq type_of cachey f inputs auto extra data env reduce args kwargs M Env E) as (b & Eb & G). exists b. split; [auto|]. destruct G as [G1 G2 G3 G4 G5]. do 1 (split; [auto|]). split; [|split; [auto|split; [auto|]]].
  - intros p v X. destruct (G2 p v X) as (o & -> & [->|(R & _ & D & Q)]); [auto|]. destruct Ex as [Ex|[Ex _]]; [congruence|]. cbn. f_equal. symmetry. apply Ex; [|auto]. unfold pos_default in D. apply dget_In in D. apply in_combine_r in D. auto.
  - intros k v X. specialize (G5 k v X). destruct (dget k extra) as [w|]; [congruence|]. destruct G5 as (o & -> & [->|(R & D & Q & Ty)]); [auto|]. destruct Ex as [Ex|[_ Ex]]; [congruence|]. cbn. f_equal. symmetry. eapply Ex; eauto.
Qed.
(** Matching functions are never refused, unless a cache value cannot be compared. *)
Theorem C33_prepared : forall f inputs auto extra data reduce, matching cachey f inputs auto extra -> (forall v w, reduce = true -> exists r, pyeq v w = Ok r) -> exists args kwargs, prepare pyeq type_of cachey data f inputs auto reduce = Ok (args, kwargs).
Proof.
  intros f inputs auto extra data reduce M Cmp. unfold prepare. cbn zeta. rewrite (arg_keys_auto cachey f inputs auto extra M). destruct (create_spec pyeq type_of cachey data f inputs auto extra reduce M) as (kwd & removed & -> & _). cbn [bind fst snd].
  assert (R : forall kwvals va, match va with [] => True | [(n, true)] => cachey n = false | _ => False end -> forall ps cur, NoDup ps -> (forall p, In p ps -> dget p cur <> None) -> (forall p, In p ps -> dget p inputs <> None) -> exists r, reorganize pyeq cachey data inputs kwvals (defaults f) reduce (map (fun n => (n, false)) ps ++ va) cur = Ok r).
  { intros kwvals va Va. induction ps as [|p ps IH]; intros cur N D D'; cbn [map app].
    - destruct va as [|[n [|]] [|]]; try contradiction; cbn [reorganize]; [eauto|]. rewrite Va. cbn [bind]. eauto.
    - inversion N as [|? ? N1 N2]; subst. assert (IH' : exists r, reorganize pyeq cachey data inputs kwvals (defaults f) reduce (map (fun n => (n, false)) ps ++ va) (ddel p cur) = Ok r) by (apply IH; [auto|intros q Hq; rewrite dget_ddel_other by congruence; apply D; right; auto|intros q Hq; apply D'; right; auto]). destruct IH' as (r & Er).
      cbn [reorganize]. destruct (dget p cur) as [o|] eqn:Eo; [|exfalso; apply (D p); [left|]; auto]. assert (Dl : dmem p inputs = true) by (unfold dmem; assert (X := D' p (or_introl eq_refl)); destruct (dget p inputs); congruence). rewrite Dl, Er. cbn [negb bind]. destruct (cachey p); [|eauto].
      match goal with |- exists _, bind ?X _ = _ => assert (Sk : exists b, X = Ok b) end. { destruct (reduce && is_nil (map (fun n => (n, false)) ps ++ va)) eqn:Eb; [|eauto]. apply andb_true_iff in Eb as [Eb _]. destruct (defaults f); [eauto|]. destruct (dget o data); [|eauto]. apply Cmp. auto. }
      destruct Sk as ([|] & ->); cbn [bind]; [|eauto]. apply IH; [auto|intros q Hq; apply D; right; auto|intros q Hq; apply D'; right; auto]. }
  match goal with |- context[reorganize _ _ _ _ ?kv _ _ _ _] => destruct (R kv (match vararg f with Some n => [(n, true)] | None => [] end)) with (ps := pos f) (cur := inputs) as (r & ->) end.
  - destruct (vararg f) as [n|] eqn:En; [apply (m_var _ _ _ _ _ M n En)|auto].
  - eapply NoDup_app_l, M.
  - apply (m_pos _ _ _ _ _ M).
  - apply (m_pos _ _ _ _ _ M).
  - cbn [bind]. eauto.
Qed.
End Theorems.

(** ** Cases: Python integers, booleans, None and tuples *)
Inductive pyval := PInt (z : Z) | PBool (b : bool) | PNone | PTuple (l : list pyval).
Definition as_number (v : pyval) : option Z := match v with PInt z => Some z | PBool b => Some (if b then 1 else 0)%Z | _ => None end.
(** int and bool compare as numbers; tuples compare elementwise *)
Fixpoint py_equal (a b : pyval) {struct a} : bool :=
  match a, b with
  | PNone, PNone => true
  | PTuple l, PTuple m => (fix go l m := match l, m with [], [] => true | x :: l, y :: m => py_equal x y && go l m | _, _ => false end) l m
  | a, b => match as_number a, as_number b with Some x, Some y => Z.eqb x y | _, _ => false end
  end.
Definition py_type (v : pyval) : nat := match v with PInt _ => 0 | PBool _ => 1 | PNone => 2 | PTuple _ => 3 end.
(** A function (a, b, *rest, axis = 0, flag = None): names 0, 1, 2, 3, 4; keys from 10 on *)
Definition sample : func nat pyval := {| pos := [0; 1]; defaults := []; vararg := Some 2; kwonly := [3; 4]; kwdefaults := Some [(3, PInt 0); (4, PNone)] |}.
Definition sample_env (o : nat) : pyval := match o with 13 => PInt 0 | 14 => PInt 4 | o => PInt (Z.of_nat o) end.
Example C33_example : matching (fun _ => false) sample [(0, 10); (3, 13); (5, 15); (1, 10); (6, 15); (4, 14)] [] [] /\
  prepare (fun a b => Ok (py_equal a b)) py_type (fun _ => false) [(13, PInt 0); (14, PInt 4)] sample [(0, 10); (3, 13); (5, 15); (1, 10); (6, 15); (4, 14)] [] true = Ok ([(0, [10]); (1, [10]); (2, [15; 15])], [(4, 14)]) /\
  call sample (positional sample_env [(0, [10]); (1, [10]); (2, [15; 15])]) (keywords sample_env [(4, 14)] []) = Ok {| bound_pos := [(0, PInt 10); (1, PInt 10)]; bound_var := [PInt 15; PInt 15]; bound_kw := [(3, PInt 0); (4, PInt 4)] |}.
Proof.
  split; [|vm_compute; auto]. constructor; cbn.
  - repeat constructor; cbn; lia.
  - repeat constructor; cbn; lia.
  - intros p [<-|[<-|[]]]; discriminate.
  - intros k [<-|[<-|[]]] _; discriminate.
  - intros a [].
  - split; [constructor|]. intros k. tauto.
  - lia.
  - split; [repeat constructor; cbn; lia|auto].
  - intros n _. split; [auto|]. intros m o k [E|[E|[E|[E|[E|[E|[]]]]]]] P Q R; injection E as <- <-; try (exfalso; lia); destruct R as [<-|[<-|[]]]; cbn; discriminate.
Qed.
(** A function of an array library: (n, *, dtype = None, device), and a numpy one (x, cache = None): names 0, 1, 2 *)
Example C33_device_example : let f : func nat pyval := {| pos := [0]; defaults := []; vararg := None; kwonly := [1; 2]; kwdefaults := Some [(1, PNone)] |} in
  matching (fun _ => false) f [(0, 10); (1, 11)] [2; 3] [(2, PInt 7)] /\
  prepare (fun a b => Ok (py_equal a b)) py_type (fun _ => false) [(11, PNone)] f [(0, 10); (1, 11)] [2; 3] true = Ok ([(0, [10])], []) /\
  call f [PInt 5] [(2, PInt 7)] = Ok {| bound_pos := [(0, PInt 5)]; bound_var := []; bound_kw := [(1, PNone); (2, PInt 7)] |}.
Proof.
  cbn zeta. split; [|vm_compute; auto]. constructor; cbn.
  - repeat constructor; cbn; lia.
  - repeat constructor; cbn; lia.
  - intros p [<-|[]]; discriminate.
  - intros k [<-|[<-|[]]] N; [discriminate|exfalso; apply N; auto].
  - intros a [<-|[<-|[]]]; cbn; repeat split; auto; try discriminate; lia.
  - split; [repeat constructor; cbn; lia|]. intros k. lia.
  - lia.
  - split; [repeat constructor; cbn; lia|]. intros k. tauto.
  - intros n E. discriminate.
Qed.
Example C33_cache_example : let f : func nat pyval := {| pos := [0; 1]; defaults := [PNone]; vararg := None; kwonly := []; kwdefaults := None |} in
  prepare (fun a b => Ok (py_equal a b)) py_type (Nat.eqb 1) [(11, PNone)] f [(0, 10); (1, 11)] [] true = Ok ([(0, [10])], []) /\
  prepare (fun a b => Ok (py_equal a b)) py_type (Nat.eqb 1) [(11, PNone)] f [(0, 10); (1, 11)] [] false = Ok ([(0, [10]); (1, [11])], []) /\
  call f [PInt 5] [] = Ok {| bound_pos := [(0, PInt 5); (1, PNone)]; bound_var := []; bound_kw := [] |}.
Proof. vm_compute. auto. Qed.

(** Findings.  A keyword value is dropped if it equals the default as a container, though its elements are others: (True, 0) is replaced by
    the default (1, 0). *)
Theorem C33_container_refuted : let f : func nat pyval := {| pos := []; defaults := []; vararg := None; kwonly := [0]; kwdefaults := Some [(0, PTuple [PInt 1; PInt 0])] |} in
  prepare (fun a b => Ok (py_equal a b)) py_type (fun _ => false) [(10, PTuple [PBool true; PInt 0])] f [(0, 10)] [] true = Ok ([], []) /\
  call f [] [] = Ok {| bound_pos := []; bound_var := []; bound_kw := [(0, PTuple [PInt 1; PInt 0])] |}.
Proof. vm_compute. auto. Qed.
(** A variadic input that shares its connection with a keyword parameter is lost. *)
Theorem C33_shared_refuted : let f : func nat pyval := {| pos := []; defaults := []; vararg := Some 0; kwonly := [1]; kwdefaults := None |} in
  prepare (fun a b => Ok (py_equal a b)) py_type (fun _ => false) [] f [(5, 10); (6, 11); (1, 10)] [] true = Ok ([(0, [11])], [(1, 10)]).
Proof. vm_compute. auto. Qed.
(** Inputs the function has no parameter for are left out without any error, while parameters without input raise one. *)
Theorem C33_ignored_refuted : let f : func nat pyval := {| pos := [0]; defaults := []; vararg := None; kwonly := []; kwdefaults := None |} in
  prepare (fun a b => Ok (py_equal a b)) py_type (fun _ => false) [] f [(0, 10); (1, 11)] [] true = Ok ([(0, [10])], []) /\
  prepare (fun a b => Ok (py_equal a b)) py_type (fun _ => false) [] f [(1, 11)] [] true = Err RuntimeError.
Proof. vm_compute. auto. Qed.
Print Assumptions C33_binding.
Print Assumptions C33_exact.
Print Assumptions C33_prepared.
Print Assumptions C33_container_refuted.
Print Assumptions C33_shared_refuted.
Print Assumptions C33_ignored_refuted.
