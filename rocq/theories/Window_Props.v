(** * C26: pooling and convolutions *)
From Coq Require Import List Arith Lia Bool ZArith.
From Verif Require Import PyBase Uniadic_Model Uniadic_Proofs Bcast_Proofs Shape_Model Shape_Proofs Shape_Proofs2 Shape_Proofs3 Shape_Props Reduce_Model Reduce_Spec Reduce_Proofs2 Reduce_Proofs6
  Rule_Proofs Window_Model Window_Proofs.
Import ListNotations.
Open Scope list_scope. Open Scope nat_scope. Open Scope shm_scope.

(** ** The length of an axis is the number of positions of the window; it is rejected exactly when there is none. *)
Theorem C26_length : forall input stride padding dilation kernel, (1 <= stride)%Z -> (1 <= dilation)%Z -> (1 <= kernel)%Z ->
  (forall n, window_len input stride padding dilation kernel = Ok n <-> windows input padding stride dilation kernel n) /\
  (forall e, window_len input stride padding dilation kernel = Err e <-> e = ValueError /\ forall pos, ~ fits (input + padding) stride dilation kernel pos).
Proof.
  intros i s p d k Hs Hd Hk. assert (W := window_len_ok i p s d k Hs Hd Hk). destruct (window_len i s p d k) as [n|e].
  - split; [|split; [discriminate|intros [-> H]; exfalso; destruct (windows_pos _ _ _ _ _ _ W) as (_ & _ & _ & _ & pos & F); apply (H pos F)]]. intros m. split; [congruence|]. intros W'. f_equal. eapply windows_fun; eauto.
  - destruct W as [-> W]. split; [|split; [intros X; injection X as <-; auto|intros [-> _]; auto]]. intros m. split; [discriminate|]. intros W'. exfalso. destruct (windows_pos _ _ _ _ _ _ W') as (_ & _ & _ & _ & pos & F). apply (W pos F).
Qed.

(** ** Sessions *)
Inductive wrule (s : shst) : shst -> Prop :=
| w_reduce qi qo axis kd s' b : qi < nrep s -> qo < nrep s -> fine (rp s qi) (rp s qo) axis kd -> reduce qi qo axis kd s = (s', Ok b) -> wrule s s'
| w_pool1 qi qo st pad d k s' b : qi < nrep s -> qo < nrep s -> roomy 1 (rp s qo) -> window_1d qi qo st pad d k s = (s', Ok b) -> wrule s s'
| w_pool2 qi qo st pad d k s' b : qi < nrep s -> qo < nrep s -> window_2d qi qo st pad d k s = (s', Ok b) -> wrule s s'
| w_conv1 qi qo qk st pad d s' b : qi < nrep s -> qo < nrep s -> qk < nrep s -> rank 3 s qo -> rank 3 s qk -> conv_1d qi qo qk st pad d s = (s', Ok b) -> wrule s s'
| w_conv2 qi qo qk st pad d g s' b : qi < nrep s -> qo < nrep s -> qk < nrep s -> rank 4 s qi -> rank 4 s qo -> rank 4 s qk -> conv_2d qi qo qk st pad d g s = (s', Ok b) -> wrule s s'.
Lemma wrule_inv s s' : sinv s -> wrule s s' -> sinv s'.
Proof.
  intros I. destruct 1 as [qi qo axis kd s' b Hi Ho F E|qi qo st pad d k s' b Hi Ho R E|qi qo st pad d k s' b Hi Ho E|qi qo qk st pad d s' b Hi Ho Hk R1 R2 E|qi qo qk st pad d g s' b Hi Ho Hk R0 R1 R2 E].
  - assert (M := reduce_ok s qi qo axis kd I Hi Ho F). rewrite E in M. apply M.
  - assert (M := window_1d_ok s qi qo st pad d k (fun _ => False) I Hi Ho ltac:(intros; contradiction) R). rewrite E in M. apply M.
  - assert (M := window_2d_ok s qi qo st pad d k (fun _ => False) I Hi Ho ltac:(intros; contradiction)). rewrite E in M. apply M.
  - assert (M := conv_1d_ok s qi qo qk st pad d (fun _ => False) I Hi Ho Hk R1 R2 ltac:(intros; contradiction)). rewrite E in M. apply M.
  - assert (M := conv_2d_ok s qi qo qk st pad d g (fun _ => False) I Hi Ho Hk R0 R1 R2 ltac:(intros; contradiction)). rewrite E in M. apply M.
Qed.
Definition wsess : shst -> Prop := runs wrule.
Lemma wsess_inv s : wsess s -> sinv s.
Proof. apply runs_inv, wrule_inv. Qed.
Lemma reach_wsess s : reach s -> wsess s.
Proof. apply reach_runs. Qed.

(** The total padding is known to be [p]. *)
Definition padding_known (pad : padv) (p : Z) : Prop := forall z, pads pad z <-> z = p.
Lemma padding_known_sum pad p : padding_known pad p -> pad_sum pad = Some p.
Proof.
  intros H. destruct (pad_sum pad) as [q|] eqn:E; [f_equal; apply H, (pad_sum_ok _ _ _ E); auto|]. exfalso. destruct pad as [|x|[a|] [b|]]; cbn in E; try discriminate; unfold padding_known in H; cbn in H.
  - assert (X := proj1 (H (p + 1)%Z) Logic.I). lia.
  - assert (X := proj1 (H (p + 1)%Z)). lapply X; [lia|]. exists a, (p + 1 - a)%Z. do 2 (split; [auto|]). lia.
  - assert (X := proj1 (H (p + 1)%Z)). lapply X; [lia|]. exists (p + 1 - b)%Z, b. do 2 (split; [auto|]). lia.
  - assert (X := proj1 (H (p + 1)%Z)). lapply X; [lia|]. exists (p + 1)%Z, 0%Z. do 2 (split; [auto|]). lia.
Qed.
Lemma from_end_0 s q i : sinv s -> q < nrep s -> from_end 0 s q i -> last_val s q = Some i.
Proof. intros I Hq F. apply (proj1 (from_end_value 0 s q i I Hq)) in F as (u & E & V). unfold last_val. destruct (reversed (rp s q)); [discriminate|]. injection E as <-. auto. Qed.
Lemma from_end_1 s q i : sinv s -> q < nrep s -> from_end 1 s q i -> last2_val s q = Some i.
Proof. intros I Hq F. apply (proj1 (from_end_value 1 s q i I Hq)) in F as (u & E & V). unfold last2_val. destruct (reversed (rp s q)) as [|? [|? ?]]; try discriminate. injection E as <-. auto. Qed.

(** ** Pooling over one axis.  Whatever is known about the arguments, every combination in which the length of the output is a number of
    positions stays possible; when the length of the input and the arguments are known, the length of the output is the number of
    positions; the rule reports that it is done exactly when the length of the output is determined. *)
Theorem C26_pool_1d : forall s qi qo stride pad dilation kernel, wsess s -> qi < nrep s -> qo < nrep s ->
  root (rp s qo) = None \/ pre (rp s qo) = [] \/ 1 <= length (suf (rp s qo)) ->
  match window_1d qi qo stride pad dilation kernel s with
  | (s', Ok b) => wsess s' /\ narrows (fun sh => slides_1d stride pad dilation kernel (sh qi) (sh qo)) s s' /\
      (b = true <-> exists n, from_end 0 s' qo n) /\
      (forall i st p d k, stride = Some st -> padding_known pad p -> dilation = Some d -> kernel = Some k -> from_end 0 s qi i -> (1 <= st)%Z -> (1 <= d)%Z -> (1 <= k)%Z ->
         exists n, windows i p st d k n /\ from_end 0 s' qo n)
  | (_, Err e) => (e = ValueError \/ e = ZeroDivisionError) /\ forall rho sh, allows s rho sh -> ~ slides_1d stride pad dilation kernel (sh qi) (sh qo)
  end.
Proof.
  intros s qi qo st pad d k S Hi Ho R. assert (I := wsess_inv s S). assert (M := window_1d_ok s qi qo st pad d k (fun sh => slides_1d st pad d k (sh qi) (sh qo)) I Hi Ho ltac:(auto) R). assert (K := w_pool1 s qi qo st pad d k).
  destruct (window_1d qi qo st pad d k s) as [s' [b|e]]; [|exact M]. destruct M as (M1 & _ & M2 & M3). split; [eapply runs_rule; [exact S|eapply K; eauto]|]. split; [apply sound_narrows; auto|]. split; [auto|].
  intros i st' p d' k' E1 E2 E3 E4 E5. apply M3; auto; [apply padding_known_sum; auto|apply from_end_0; auto].
Qed.
(** ** Pooling over two axes, each by itself *)
Theorem C26_pool_2d : forall s qi qo stride pad dilation kernel, wsess s -> qi < nrep s -> qo < nrep s ->
  match window_2d qi qo stride pad dilation kernel s with
  | (s', Ok b) => wsess s' /\ narrows (fun sh => slides_2d stride pad dilation kernel (sh qi) (sh qo)) s s' /\
      (b = true <-> (exists m, from_end 1 s' qo m) /\ (exists n, from_end 0 s' qo n)) /\
      (root (rp s qo) = None \/ pre (rp s qo) = [] \/ 2 <= length (suf (rp s qo)) ->
        (forall i st p d k, fst stride = Some st -> padding_known (fst pad) p -> fst dilation = Some d -> fst kernel = Some k -> from_end 1 s qi i -> (1 <= st)%Z -> (1 <= d)%Z -> (1 <= k)%Z ->
           exists n, windows i p st d k n /\ from_end 1 s' qo n) /\
        (forall i st p d k, snd stride = Some st -> padding_known (snd pad) p -> snd dilation = Some d -> snd kernel = Some k -> from_end 0 s qi i -> (1 <= st)%Z -> (1 <= d)%Z -> (1 <= k)%Z ->
           exists n, windows i p st d k n /\ from_end 0 s' qo n))
  | (_, Err e) => (e = ValueError \/ e = ZeroDivisionError) /\ forall rho sh, allows s rho sh -> ~ slides_2d stride pad dilation kernel (sh qi) (sh qo)
  end.
Proof.
  intros s qi qo st pad d k S Hi Ho. assert (I := wsess_inv s S). assert (M := window_2d_ok s qi qo st pad d k (fun sh => slides_2d st pad d k (sh qi) (sh qo)) I Hi Ho ltac:(auto)). assert (K := w_pool2 s qi qo st pad d k).
  destruct (window_2d qi qo st pad d k s) as [s' [b|e]]; [|exact M]. destruct M as (M1 & M2 & M3). split; [eapply runs_rule; [exact S|eapply K; eauto]|]. split; [apply sound_narrows; auto|]. split; [auto|].
  intros R. destruct (M3 R) as [A B]. split; intros i st' p d' k' E1 E2 E3 E4 E5; [apply A|apply B]; auto using padding_known_sum, from_end_0, from_end_1.
Qed.
(** ** Convolutions (the shapes have rank 3 or 4 by their declaration) *)
Theorem C26_conv_1d : forall s qi qo qk stride pad dilation, wsess s -> qi < nrep s -> qo < nrep s -> qk < nrep s -> rank 3 s qo -> rank 3 s qk ->
  match conv_1d qi qo qk stride pad dilation s with
  | (s', Ok b) => wsess s' /\ narrows (fun sh => convolves_1d stride pad dilation (sh qi) (sh qo) (sh qk)) s s' /\
      (b = true <-> exists n, from_end 0 s' qo n) /\
      (forall i st p d k, stride = Some st -> padding_known pad p -> dilation = Some d -> from_end 0 s qk k -> from_end 0 s qi i -> (1 <= st)%Z -> (1 <= d)%Z -> (1 <= k)%Z ->
         exists n, windows i p st d k n /\ from_end 0 s' qo n)
  | (_, Err e) => (e = ValueError \/ e = ZeroDivisionError) /\ forall rho sh, allows s rho sh -> ~ convolves_1d stride pad dilation (sh qi) (sh qo) (sh qk)
  end.
Proof.
  intros s qi qo qk st pad d S Hi Ho Hk R1 R2. assert (I := wsess_inv s S). assert (M := conv_1d_ok s qi qo qk st pad d (fun sh => convolves_1d st pad d (sh qi) (sh qo) (sh qk)) I Hi Ho Hk R1 R2 ltac:(auto)). assert (K := w_conv1 s qi qo qk st pad d).
  destruct (conv_1d qi qo qk st pad d s) as [s' [b|e]]; [|exact M]. destruct M as (M1 & M2 & M3). split; [eapply runs_rule; [exact S|eapply K; eauto]|]. split; [apply sound_narrows; auto|]. split; [auto|].
  intros i st' p d' k' E1 E2 E3 E4 E5. apply M3; auto. apply padding_known_sum; auto.
Qed.
(** In two dimensions the channels of the kernel are those of the input divided by the number of groups (rounded down: see the finding),
    once the groups are 1 or the channels of input and output are known. *)
Theorem C26_conv_2d : forall s qi qo qk stride pad dilation groups, wsess s -> qi < nrep s -> qo < nrep s -> qk < nrep s -> rank 4 s qi -> rank 4 s qo -> rank 4 s qk ->
  let enough := groups = Some 1%Z \/ groups <> None /\ (exists c, at_index 1 s qi c) /\ exists o, at_index 1 s qo o in
  match conv_2d qi qo qk stride pad dilation groups s with
  | (s', Ok b) => wsess s' /\ narrows (fun sh => convolves_2d stride pad dilation groups (sh qi) (sh qo) (sh qk)) s s' /\
      (b = true <-> enough /\ (exists m, from_end 1 s' qo m) /\ (exists n, from_end 0 s' qo n)) /\
      (enough -> forall rho sh, allows s' rho sh -> divided groups (sh qi) (sh qo) (sh qk)) /\
      (forall i st p d k, fst stride = Some st -> padding_known (fst pad) p -> fst dilation = Some d -> from_end 1 s qk k -> from_end 1 s qi i -> (1 <= st)%Z -> (1 <= d)%Z -> (1 <= k)%Z ->
         exists n, windows i p st d k n /\ from_end 1 s' qo n) /\
      (forall i st p d k, snd stride = Some st -> padding_known (snd pad) p -> snd dilation = Some d -> from_end 0 s qk k -> from_end 0 s qi i -> (1 <= st)%Z -> (1 <= d)%Z -> (1 <= k)%Z ->
         exists n, windows i p st d k n /\ from_end 0 s' qo n)
  | (_, Err e) => (e = ValueError \/ e = ZeroDivisionError) /\ forall rho sh, allows s rho sh -> ~ convolves_2d stride pad dilation groups (sh qi) (sh qo) (sh qk)
  end.
Proof.
  intros s qi qo qk st pad d g S Hi Ho Hk R0 R1 R2 enough. assert (I := wsess_inv s S). assert (M := conv_2d_ok s qi qo qk st pad d g (fun sh => convolves_2d st pad d g (sh qi) (sh qo) (sh qk)) I Hi Ho Hk R0 R1 R2 ltac:(auto)). assert (K := w_conv2 s qi qo qk st pad d g). fold enough in M.
  destruct (conv_2d qi qo qk st pad d g s) as [s' [b|e]]; [|exact M]. destruct M as (M1 & M2 & M3 & M4 & M5). split; [eapply runs_rule; [exact S|eapply K; eauto]|]. split; [apply sound_narrows; auto|]. do 2 (split; [auto|]).
  split; intros i st' p d' k' E1 E2 E3 E4 E5; [apply M4|apply M5]; auto using padding_known_sum.
Qed.

(** ** Cases *)
Lemma rank_of s q n : sinv s -> q < nrep s -> root (rp s q) = None -> length (pre (rp s q)) = n -> rank n s q.
Proof. intros I Hq R L rho sh A. apply allows_den in A as (Hs & tau & D). rewrite <- D, den_plain_suffix, map_length by auto. auto. Qed.
Lemma at_index_of s q k u n : sinv s -> q < nrep s -> nth_error (pre (rp s q)) k = Some u -> value (us s) u = Some n -> at_index k s q n.
Proof.
  intros I Hq E V rho sh A. apply allows_den in A as (Hs & tau & D). rewrite <- D by auto. unfold den, dshape. rewrite nth_error_app1; [|rewrite map_length; apply nth_error_Some; congruence]. rewrite (map_nth_error rho k _ E). f_equal.
  eapply value_sat; [apply I| |exact V|auto]. destruct (s_repr _ I q Hq) as (W & _). apply W, in_app_iff. left. eapply nth_error_In; eauto.
Qed.
(** Pooling [N, ..., 10] to [N, ..., W] (dimensions 0 N, 1 length 10, 2 W) *)
Definition c26_pool := state [ODim None; ODim (Some 10%Z); ODim None; OVar; ORepr (mkshape [0] (Some 0) [1]); ORepr (mkshape [0] (Some 0) [2])].
Example C26_length_example : window_len 10 2 2 3 3 = Ok 3%Z /\ windows 10 2 2 3 3 3 /\ window_len 4 1 0 2 3 = Err ValueError.
Proof. split; [reflexivity|]. split; [|reflexivity]. apply (proj1 (C26_length 10 2 2 3 3 ltac:(lia) ltac:(lia) ltac:(lia)) 3%Z). reflexivity. Qed.
Example C26_pool_1d_example : wsess c26_pool /\ nrep c26_pool = 2 /\ 1 <= length (suf (rp c26_pool 1)) /\ from_end 0 c26_pool 0 10%Z /\ padding_known (PPair (Some 1) (Some 1))%Z 2%Z /\
  snd (window_1d 0 1 (Some 2%Z) (PPair (Some 1) (Some 1))%Z (Some 3%Z) (Some 3%Z) c26_pool) = Ok true /\
  shape_now (fst (window_1d 0 1 (Some 2%Z) (PPair (Some 1) (Some 1))%Z (Some 3%Z) (Some 3%Z) c26_pool)) 1 = ([None], Some 0, [Some 3%Z]) /\
  snd (window_1d 0 1 (Some 2%Z) (PPair None (Some 1))%Z (Some 3%Z) (Some 3%Z) c26_pool) = Ok false /\
  snd (window_1d 0 1 (Some 2%Z) (PInt 0) (Some 6%Z) (Some 3%Z) c26_pool) = Err ValueError.
Proof.
  assert (S : wsess c26_pool) by apply reach_wsess, state_reach. split; [exact S|]. split; [vm_compute; auto|]. split; [vm_compute; auto|].
  split; [apply from_end_value; [apply wsess_inv; exact S|vm_compute; auto|]; exists 1; vm_compute; auto|]. split; [intros z; apply pad_sum_ok; reflexivity|]. vm_compute. auto.
Qed.
(** Pooling [N, ..., H, 10] to [N, ..., H', W'] with H unknown, then known *)
Definition c26_pool2 := state [ODim None; ODim None; ODim (Some 10%Z); ODim None; ODim None; OVar; ODim (Some 7%Z);
  ORepr (mkshape [0] (Some 0) [1; 2]); ORepr (mkshape [0] (Some 0) [3; 4]); ORepr (mkshape [0] (Some 0) [5; 2])].
Example C26_pool_2d_example : wsess c26_pool2 /\ nrep c26_pool2 = 3 /\ 2 <= length (suf (rp c26_pool2 1)) /\ from_end 0 c26_pool2 0 10%Z /\ from_end 1 c26_pool2 2 7%Z /\
  snd (window_2d 0 1 (Some 1, Some 2)%Z (PInt 0, PInt 1) (Some 1, Some 1)%Z (Some 2, Some 3)%Z c26_pool2) = Ok false /\
  shape_now (fst (window_2d 0 1 (Some 1, Some 2)%Z (PInt 0, PInt 1) (Some 1, Some 1)%Z (Some 2, Some 3)%Z c26_pool2)) 1 = ([None], Some 0, [None; Some 5%Z]) /\
  snd (window_2d 2 1 (Some 1, Some 2)%Z (PInt 0, PInt 1) (Some 1, Some 1)%Z (Some 2, Some 3)%Z c26_pool2) = Ok true /\
  shape_now (fst (window_2d 2 1 (Some 1, Some 2)%Z (PInt 0, PInt 1) (Some 1, Some 1)%Z (Some 2, Some 3)%Z c26_pool2)) 1 = ([None], Some 0, [Some 6; Some 5]%Z).
Proof.
  assert (S : wsess c26_pool2) by apply reach_wsess, state_reach. split; [exact S|]. split; [vm_compute; auto|]. split; [vm_compute; auto|].
  split; [apply from_end_value; [apply wsess_inv; exact S|vm_compute; auto|]; exists 2; vm_compute; auto|]. split; [apply from_end_value; [apply wsess_inv; exact S|vm_compute; auto|]; exists 5; vm_compute; auto|]. vm_compute. auto.
Qed.
(** Convolution of [N, C, 10] with [O, C, 3] *)
Definition c26_conv1 := state [ODim None; ODim None; ODim (Some 10%Z); ODim None; ODim None; ODim (Some 3%Z);
  ORepr (mkshape [0; 1; 2] None []); ORepr (mkshape [0; 3; 4] None []); ORepr (mkshape [3; 1; 5] None [])].
Example C26_conv_1d_example : wsess c26_conv1 /\ nrep c26_conv1 = 3 /\ rank 3 c26_conv1 1 /\ rank 3 c26_conv1 2 /\ from_end 0 c26_conv1 0 10%Z /\ from_end 0 c26_conv1 2 3%Z /\
  snd (conv_1d 0 1 2 (Some 1%Z) (PInt 1) (Some 2%Z) c26_conv1) = Ok true /\ shape_now (fst (conv_1d 0 1 2 (Some 1%Z) (PInt 1) (Some 2%Z) c26_conv1)) 1 = ([None; None; Some 8%Z], None, []) /\
  snd (conv_1d 0 1 2 (Some 1%Z) (PInt 1) (Some 6%Z) c26_conv1) = Err ValueError.
Proof.
  assert (S : wsess c26_conv1) by apply reach_wsess, state_reach. assert (I := wsess_inv _ S). split; [exact S|]. split; [vm_compute; auto|]. split; [apply rank_of; [exact I|vm_compute; auto..]|]. split; [apply rank_of; [exact I|vm_compute; auto..]|].
  split; [apply from_end_value; [exact I|vm_compute; auto|]; exists 2; vm_compute; auto|]. split; [apply from_end_value; [exact I|vm_compute; auto|]; exists 5; vm_compute; auto|]. vm_compute. auto.
Qed.
(** Convolution of [N, 6, 10, 8] with [4, K, 3, 2] in two groups *)
Definition c26_conv2 := state [ODim None; ODim (Some 6%Z); ODim (Some 10%Z); ODim (Some 8%Z); ODim (Some 4%Z); ODim None; ODim None; ODim None; ODim (Some 3%Z); ODim (Some 2%Z);
  ORepr (mkshape [0; 1; 2; 3] None []); ORepr (mkshape [0; 4; 5; 6] None []); ORepr (mkshape [4; 7; 8; 9] None [])].
Example C26_conv_2d_example : wsess c26_conv2 /\ nrep c26_conv2 = 3 /\ rank 4 c26_conv2 0 /\ rank 4 c26_conv2 1 /\ rank 4 c26_conv2 2 /\ at_index 1 c26_conv2 0 6%Z /\ at_index 1 c26_conv2 1 4%Z /\
  from_end 1 c26_conv2 2 3%Z /\ from_end 0 c26_conv2 2 2%Z /\
  snd (conv_2d 0 1 2 (Some 1, Some 2)%Z (PInt 1, PInt 0) (Some 1, Some 1)%Z (Some 2%Z) c26_conv2) = Ok true /\
  shape_now (fst (conv_2d 0 1 2 (Some 1, Some 2)%Z (PInt 1, PInt 0) (Some 1, Some 1)%Z (Some 2%Z) c26_conv2)) 1 = ([None; Some 4; Some 10; Some 4]%Z, None, []) /\
  shape_now (fst (conv_2d 0 1 2 (Some 1, Some 2)%Z (PInt 1, PInt 0) (Some 1, Some 1)%Z (Some 2%Z) c26_conv2)) 2 = ([Some 4; Some 3; Some 3; Some 2]%Z, None, []) /\
  snd (conv_2d 0 1 2 (Some 1, Some 2)%Z (PInt 1, PInt 0) (Some 1, Some 1)%Z (Some 3%Z) c26_conv2) = Err ValueError.
Proof.
  assert (S : wsess c26_conv2) by apply reach_wsess, state_reach. assert (I := wsess_inv _ S). split; [exact S|]. split; [vm_compute; auto|]. do 3 (split; [apply rank_of; [exact I|vm_compute; auto..]|]).
  split; [apply (at_index_of _ 0 1 1); [exact I|vm_compute; auto..]|]. split; [apply (at_index_of _ 1 1 4); [exact I|vm_compute; auto..]|].
  split; [apply from_end_value; [exact I|vm_compute; auto|]; exists 8; vm_compute; auto|]. split; [apply from_end_value; [exact I|vm_compute; auto|]; exists 9; vm_compute; auto|]. vm_compute. auto 8.
Qed.

(** ** Findings *)
(** Five input channels in two groups are accepted (with a kernel of two channels), although groups must divide the input channels. *)
Definition c26_odd := state [ODim (Some 1%Z); ODim (Some 5%Z); ODim (Some 4%Z); ORepr (mkshape [0; 1; 2; 2] None []); ORepr (mkshape [0; 2; 2; 2] None []); ODim None; ORepr (mkshape [2; 3; 0; 0] None [])].
Theorem C26_channels_not_divisible_refuted : exists s s', wsess s /\ conv_2d 0 1 2 (Some 1, Some 1)%Z (PInt 0, PInt 0) (Some 1, Some 1)%Z (Some 2%Z) s = (s', Ok true) /\
  shape_now s' 0 = ([Some 1; Some 5; Some 4; Some 4]%Z, None, []) /\ shape_now s' 2 = ([Some 4; Some 2; Some 1; Some 1]%Z, None, []) /\
  forall rho sh, allows s rho sh -> ~ convolves_2d (Some 1, Some 1)%Z (PInt 0, PInt 0) (Some 1, Some 1)%Z (Some 2%Z) (sh 0) (sh 1) (sh 2).
Proof.
  exists c26_odd. eexists. assert (S : wsess c26_odd) by apply reach_wsess, state_reach. split; [exact S|]. split; [vm_compute; reflexivity|]. split; [vm_compute; reflexivity|]. split; [vm_compute; reflexivity|].
  intros rho sh A ((g & Eg & _ & c & o & k & E1 & _ & _ & E4 & _) & _). assert (X := at_index_of c26_odd 0 1 1 5%Z (wsess_inv _ S) ltac:(vm_compute; auto) ltac:(vm_compute; auto) ltac:(vm_compute; auto) rho sh A). rewrite E1 in X. injection X as ->. cbn in Eg. subst g. lia.
Qed.
(** A stride of zero ends in a ZeroDivisionError; with a negative stride a length is inferred although the window does not even fit. *)
Theorem C26_stride_zero_refuted : exists s, wsess s /\ snd (window_1d 0 1 (Some 0%Z) (PInt 0) (Some 1%Z) (Some 3%Z) s) = Err ZeroDivisionError.
Proof. exists c26_pool. split; [apply reach_wsess, state_reach|]. vm_compute. auto. Qed.
Theorem C26_negative_stride_refuted : exists s s', wsess s /\ window_1d 0 1 (Some (-1)%Z) (PInt 0) (Some 1%Z) (Some 12%Z) s = (s', Ok true) /\ shape_now s' 1 = ([None], Some 0, [Some 3%Z]).
Proof. exists c26_pool. eexists. split; [apply reach_wsess, state_reach|]. split; vm_compute; reflexivity. Qed.
(** An output of which only the first dimension is known: the report whether the rule is done raises an IndexError when the stride is still to be determined. *)
Theorem C26_status_index_error_refuted : exists s, wsess s /\ snd (window_1d 0 1 None (PInt 0) (Some 1%Z) (Some 3%Z) s) = Err IndexError.
Proof. exists (state [ODim None; OVar; ORepr (mkshape [] (Some 0) [0]); ORepr (mkshape [0] (Some 0) [])]). split; [apply reach_wsess, state_reach|]. vm_compute. auto. Qed.
Print Assumptions C26_length.
Print Assumptions C26_pool_1d.
Print Assumptions C26_pool_2d.
Print Assumptions C26_conv_1d.
Print Assumptions C26_conv_2d.
Print Assumptions C26_channels_not_divisible_refuted.
Print Assumptions C26_stride_zero_refuted.
Print Assumptions C26_negative_stride_refuted.
Print Assumptions C26_status_index_error_refuted.
