(** * Reductions: what the steps of the rule do *)
From Coq Require Import List Arith Lia Bool ZArith.
From Verif Require Import PyBase Uniadic_Model Uniadic_Proofs Uniadic_Props Bcast_Proofs Shape_Model Shape_Proofs Shape_Proofs2 Shape_Proofs3 Shape_Props Reduce_Model Reduce_Spec.
Import ListNotations.
Open Scope list_scope. Open Scope nat_scope. Open Scope shm_scope.

(** ** Creating dimensions *)
Definition agrees (u : ustate) (rho rho' : nat -> Z) : Prop := forall x, live u x -> rho' x = rho x.
Definition makes (m : shm (list nat)) (s : shst) (spec : (nat -> Z) -> list Z -> Prop) : Prop :=
  exists u' L, m s = (with_us s u', Ok L) /\ grows (us s) u' /\ (forall x, In x L -> live u' x) /\
    (forall rho, sat u' rho -> sat (us s) rho /\ spec rho (map rho L)) /\
    (forall rho ys, sat (us s) rho -> spec rho ys -> exists rho', agrees (us s) rho rho' /\ sat u' rho' /\ map rho' L = ys).
Lemma grows_trans a b c : grows a b -> grows b c -> grows a c.
Proof. intros [I1 H1] [I2 H2]. split; auto. Qed.
Lemma grows_refl a : inv a -> grows a a.
Proof. split; auto. Qed.
Lemma sat_agrees u rho rho' : agrees u rho rho' -> sat u rho -> sat u rho'.
Proof. intros A H. eapply sat_ext; [|exact H]. intros x Hx. symmetry. auto. Qed.
Lemma makes_dim v s : inv (us s) -> makes (do x <- new_dim v; hret [x]) s (fun _ ys => exists y, ys = [y] /\ fitsv v y).
Proof.
  intros I. destruct (new_uniadic_ok (us s) v I) as (u' & E & G & L & N & S). exists u', [nu (us s)]. unfold new_dim, hbind, lift, hret. rewrite E.
  split; [auto|]. split; [auto|]. split; [intros x [<-|[]]; auto|]. split.
  - intros rho Hs. apply S in Hs as [Hs F]. split; auto. exists (rho (nu (us s))). auto.
  - intros rho ys Hs (y & -> & F). exists (upd rho (nu (us s)) y). assert (A : agrees (us s) rho (upd rho (nu (us s)) y)). { intros x Hx. apply upd_other. intros ->. contradiction. }
    split; [auto|]. split; [|cbn; rewrite upd_same; auto]. apply S. split; [eapply sat_agrees; eauto|rewrite upd_same; auto].
Qed.
Lemma makes_old l s : inv (us s) -> (forall x, In x l -> live (us s) x) -> makes (hret l) s (fun rho ys => ys = map rho l).
Proof.
  intros I H. exists (us s), l. split; [destruct s; reflexivity|]. split; [apply grows_refl; auto|]. split; [auto|]. split; [auto|].
  intros rho ys Hs ->. exists rho. split; [intros x Hx; auto|auto].
Qed.
Lemma makes_app (m1 m2 : shm (list nat)) s spec1 spec2 : makes m1 s spec1 -> (forall u', grows (us s) u' -> makes m2 (with_us s u') spec2) ->
  (forall rho rho' ys, agrees (us s) rho rho' -> spec2 rho ys -> spec2 rho' ys) ->
  makes (do a <- m1; do b <- m2; hret (a ++ b)) s (fun rho ys => exists y1 y2, ys = y1 ++ y2 /\ spec1 rho y1 /\ spec2 rho y2).
Proof.
  intros (u1 & L1 & E1 & G1 & V1 & S1 & C1) H2 Ext. destruct (H2 u1 G1) as (u2 & L2 & E2 & G2 & V2 & S2 & C2). cbn [us with_us] in *.
  exists u2, (L1 ++ L2). split; [unfold hbind, hret; rewrite E1, E2; auto|]. split; [eapply grows_trans; eauto|].
  split; [intros x Hx; apply in_app_iff in Hx as [Hx|Hx]; [apply G2, V1; auto|auto]|]. split.
  - intros rho Hs. destruct (S2 rho Hs) as [Hs1 P2]. destruct (S1 rho Hs1) as [Hs0 P1]. split; auto. exists (map rho L1), (map rho L2). rewrite map_app. auto.
  - intros rho ys Hs (y1 & y2 & -> & P1 & P2). destruct (C1 rho y1 Hs P1) as (rho1 & A1 & Hs1 & M1). destruct (C2 rho1 y2 Hs1 (Ext _ _ _ A1 P2)) as (rho2 & A2 & Hs2 & M2).
    exists rho2. split; [intros x Hx; rewrite A2 by (apply G1; auto); auto|]. split; [auto|]. rewrite map_app, M2. f_equal. rewrite <- M1. apply map_ext_in. intros x Hx. apply A2. apply V1; auto.
Qed.
Lemma makes_iff m s (spec spec' : (nat -> Z) -> list Z -> Prop) : makes m s spec -> (forall rho ys, spec rho ys <-> spec' rho ys) -> makes m s spec'.
Proof.
  intros (u' & L & E & G & V & S & C) H. exists u', L. do 3 (split; [auto|]). split; [intros rho Hs; rewrite <- H; auto|]. intros rho ys Hs P. apply C; auto. apply H; auto.
Qed.

(** One side of the output: reduced positions give nothing or one, positions below the limit stay, the others are free. *)
Fixpoint sidespec (keep : bool) (axes : list Z) (limit idx : Z) (xs ys : list Z) : Prop :=
  match xs with
  | [] => ys = []
  | x :: xs => if mem idx axes then if keep then exists y, ys = 1%Z :: y /\ sidespec keep axes limit (idx + 1) xs y else sidespec keep axes limit (idx + 1) xs ys
               else exists z y, ys = z :: y /\ ((idx < limit)%Z -> z = x) /\ sidespec keep axes limit (idx + 1) xs y
  end.
Lemma map_agrees u rho rho' l : agrees u rho rho' -> (forall x, In x l -> live u x) -> map rho' l = map rho l.
Proof. intros A H. apply map_ext_in. auto. Qed.
Lemma out_side_ok keep axes limit l : forall idx s, inv (us s) -> (forall x, In x l -> live (us s) x) ->
  makes (out_side keep axes limit idx l) s (fun rho ys => sidespec keep axes limit idx (map rho l) ys).
Proof.
  induction l as [|u l IH]; intros idx s I H; cbn [out_side].
  - eapply makes_iff; [apply makes_old; auto|]. cbn. tauto.
  - set (m1 := if mem idx axes then _ else _). set (spec1 := fun (rho : nat -> Z) ys => if mem idx axes then if keep then ys = [1%Z] else ys = [] else exists z, ys = [z] /\ ((idx < limit)%Z -> z = rho u)).
    assert (M1 : makes m1 s spec1).
    { unfold m1, spec1. destruct (mem idx axes); [destruct keep|].
      - eapply makes_iff; [apply makes_dim; auto|]. intros rho ys. cbn. split; [intros (y & -> & ->); auto|intros ->; exists 1%Z; auto].
      - eapply makes_iff; [apply makes_old; [auto|intros x []]|]. cbn. tauto.
      - destruct (Z.ltb_spec idx limit) as [Lt|Ge].
        + eapply makes_iff; [apply makes_old; [auto|intros x [<-|[]]; apply H; left; auto]|]. intros rho ys. cbn. split; [intros ->; exists (rho u); auto|]. intros (z & -> & E). rewrite E; auto.
        + eapply makes_iff; [apply (makes_dim None); auto|]. intros rho ys. cbn. split; [intros (y & -> & _); exists y; split; [auto|lia]|intros (z & -> & _); exists z; auto]. }
    eapply makes_iff.
    + apply (makes_app m1 (out_side keep axes limit (idx + 1)%Z l) s spec1 (fun rho ys => sidespec keep axes limit (idx + 1) (map rho l) ys)); [auto| |].
      * intros u' G. apply IH; [apply G|]. intros x Hx. apply G, H. right; auto.
      * intros rho rho' ys A. rewrite (map_agrees (us s) rho rho' l A); auto. intros x Hx. apply H. right; auto.
    + intros rho ys. cbn [map sidespec]. unfold spec1. destruct (mem idx axes); [destruct keep|]; split.
      * intros (y1 & y2 & -> & -> & S2). exists y2. auto.
      * intros (y & -> & S2). exists [1%Z], y. auto.
      * intros (y1 & y2 & -> & -> & S2). auto.
      * intros S2. exists [], ys. auto.
      * intros (y1 & y2 & -> & (z & -> & Z) & S2). exists z, y2. auto.
      * intros (z & y & -> & Z & S2). exists [z], y. split; [auto|]. split; [exists z; auto|auto].
Qed.
Lemma keep_or_one_ok keep axes l : forall idx s, inv (us s) -> (forall x, In x l -> live (us s) x) ->
  makes (keep_or_one keep axes idx l) s (fun rho ys => ys = without axes keep idx (map rho l)).
Proof.
  induction l as [|u l IH]; intros idx s I H; cbn [keep_or_one].
  - eapply makes_iff; [apply makes_old; auto|]. cbn. tauto.
  - set (m1 := if mem idx axes then _ else _). set (spec1 := fun (rho : nat -> Z) ys => ys = if existsb (Z.eqb idx) axes then if keep then [1%Z] else [] else [rho u]).
    assert (Em : mem idx axes = existsb (Z.eqb idx) axes). { apply eq_true_iff_eq. rewrite mem_In, existsb_In. tauto. }
    assert (M1 : makes m1 s spec1).
    { unfold m1, spec1. rewrite Em. destruct (existsb (Z.eqb idx) axes); [destruct keep|].
      - eapply makes_iff; [apply makes_dim; auto|]. intros rho ys. cbn. split; [intros (y & -> & ->); auto|intros ->; exists 1%Z; auto].
      - eapply makes_iff; [apply makes_old; [auto|intros x []]|]. cbn. tauto.
      - eapply makes_iff; [apply makes_old; [auto|intros x [<-|[]]; apply H; left; auto]|]. cbn. tauto. }
    eapply makes_iff.
    + apply (makes_app m1 (keep_or_one keep axes (idx + 1)%Z l) s spec1 (fun rho ys => ys = without axes keep (idx + 1) (map rho l))); [auto| |].
      * intros u' G. apply IH; [apply G|]. intros x Hx. apply G, H. right; auto.
      * intros rho rho' ys A. rewrite (map_agrees (us s) rho rho' l A); auto. intros x Hx. apply H. right; auto.
    + intros rho ys. cbn [map without]. unfold spec1. split; [intros (y1 & y2 & -> & -> & ->); auto|intros ->; eexists; eexists; eauto].
Qed.
Lemma new_dims_ok v n : forall s, inv (us s) -> makes (new_dims v n) s (fun _ ys => length ys = n /\ Forall (fitsv v) ys).
Proof.
  induction n as [|n IH]; intros s I; cbn [new_dims].
  - eapply makes_iff; [apply makes_old; [auto|intros x []]|]. intros rho ys. cbn. split; [intros ->; auto|]. intros [H _]. destruct ys; [auto|discriminate].
  - assert (M : makes (do a <- (do x <- new_dim v; hret [x]); do b <- new_dims v n; hret (a ++ b)) s (fun rho ys => exists y1 y2, ys = y1 ++ y2 /\ (exists y, y1 = [y] /\ fitsv v y) /\ (length y2 = n /\ Forall (fitsv v) y2))).
    { apply (makes_app _ _ s (fun _ ys => exists y, ys = [y] /\ fitsv v y) (fun _ ys => length ys = n /\ Forall (fitsv v) ys)); [apply makes_dim; auto| |auto]. intros u' G. apply IH. apply G. }
    destruct M as (u' & L & E & R). exists u', L. split.
    + rewrite <- E. unfold hbind, hret. destruct (new_dim v s) as [s1 [x|e]]; [|reflexivity]. destruct (new_dims v n s1) as [s2 [l|e]]; reflexivity.
    + destruct R as (G & V & S & C). do 2 (split; [auto|]). split.
      * intros rho Hs. destruct (S rho Hs) as [Hs0 (y1 & y2 & -> & (y & -> & F) & Len & F2)]. split; auto. split; [cbn; auto|]. constructor; auto.
      * intros rho ys Hs [Len F]. apply C; auto. destruct ys as [|y ys]; [discriminate|]. inversion F; subst. exists [y], ys. cbn in Len. split; [auto|]. split; [exists y; auto|]. auto.
Qed.
Lemma extend_ok n mp : forall P S s, inv (us s) -> exists u' Np Ns, extend n mp P S s = (with_us s u', Ok (P ++ Np, S ++ Ns)) /\ grows (us s) u' /\ NoDup (Np ++ Ns) /\
  (forall x, In x (Np ++ Ns) -> live u' x /\ ~ live (us s) x) /\ length Np + length Ns = n /\ forall rho, sat u' rho <-> sat (us s) rho.
Proof.
  induction n as [|n IH]; intros P S s I; cbn [extend].
  - exists (us s), [], []. rewrite !app_nil_r. split; [destruct s; reflexivity|]. split; [apply grows_refl; auto|]. split; [constructor|]. split; [intros x []|]. split; [auto|tauto].
  - destruct (new_uniadic_ok (us s) None I) as (u1 & E & G & L & N & S1). unfold hbind at 1, new_dim, lift. rewrite E.
    assert (K : forall P' S', exists u' Np Ns, extend n mp P' S' (with_us s u1) = (with_us s u', Ok (P' ++ Np, S' ++ Ns)) /\ grows u1 u' /\ NoDup (Np ++ Ns) /\ (forall x, In x (Np ++ Ns) -> live u' x /\ ~ live u1 x) /\ length Np + length Ns = n /\ forall rho, sat u' rho <-> sat u1 rho).
    { intros P' S'. destruct (IH P' S' (with_us s u1)) as (u' & Np & Ns & E' & R); [apply G|]. exists u', Np, Ns. auto. }
    destruct (Z.of_nat (length P) <? mp)%Z.
    + destruct (K (P ++ [nu (us s)]) S) as (u' & Np & Ns & E' & G' & ND & Fr & Len & Sat). exists u', (nu (us s) :: Np), Ns. rewrite E', <- app_assoc. split; [auto|]. split; [eapply grows_trans; eauto|].
      split; [cbn; constructor; auto; intros H; apply (proj2 (Fr _ H)); auto|]. split.
      * intros x [<-|Hx]; [split; [apply G'; auto|auto]|]. destruct (Fr x Hx) as [F1 F2]. split; [auto|]. intros H. apply F2, G, H.
      * split; [cbn; lia|]. intros rho. rewrite Sat, S1. cbn. tauto.
    + destruct (K P (S ++ [nu (us s)])) as (u' & Np & Ns & E' & G' & ND & Fr & Len & Sat). exists u', Np, (nu (us s) :: Ns). rewrite E', <- app_assoc. split; [auto|]. split; [eapply grows_trans; eauto|].
      split; [apply (proj2 (NoDup_Add (Add_app (nu (us s)) Np Ns))); split; [auto|]; intros H; apply (proj2 (Fr _ H)); auto|]. split.
      * intros x Hx. apply in_app_iff in Hx as [Hx|[<-|Hx]]; [| split; [apply G'; auto|auto] |]; (destruct (Fr x) as [F1 F2]; [apply in_app_iff; auto|]; split; [auto|]; intros H; apply F2, G, H).
      * split; [cbn; lia|]. intros rho. rewrite Sat, S1. cbn. tauto.
Qed.
