(** Shared pointers to GPU memory: every legal step keeps the invariant. *)
From Coq Require Import Permutation.
From Verif Require Import Prelude PoolM PtrM PtrS PtrP DevPtrM DevPtrS DevPtrP.

Ltac gsimpl := cbn [remove_var g_var g_int g_blk g_cur gdevs gcur gblk gint gvar forget gto graw gfrom gdead].
Lemma unset_inv n s st G v : ginv n s st G -> aget (gvar st) v = None ->
  ginv n (GSpec (aset (gto s) v Unset) (graw s) (gfrom s) (gdead s)) (g_var st (aset (gvar st) v (DPtr None None None))) G.
Proof.
  intros I E. pose proof I as I0. destruct I0. constructor; gsimpl; auto using nodup_aset.
  - intros w. rewrite !aget_aset. destruct (v =? w)%nat; [reflexivity|apply gi_to].
  - intros w P F. rewrite aget_aset in F. destruct (v =? w)%nat; [injection F as <-; left; reflexivity|eauto].
  - intros rc dv p F. rewrite (cntv_aset _ _ _ _ E). cbn. eauto.
Qed.
(** A new group: its pointer is null, a raw block, or a block just allocated. *)
Lemma group_inv n s st G v p rc dv k raw : ginv n s st G -> aget (gvar st) v = None -> fresh_ints st rc dv -> 0 <= k < n ->
  (forall b, p = Some b -> In b (graw s) /\ (forall k', aget (gfrom s) b = Some k' -> k' = k)) ->
  (forall b, In b raw <-> In b (graw s) /\ p <> Some b) ->
  ginv n (GSpec (aset (gto s) v (match p with None => Null | Some b => Block b end)) raw (gfrom s) (gdead s))
    (g_var (g_int st (aset (aset (gint st) rc 1) dv k)) (aset (gvar st) v (DPtr p (Some rc) (Some dv)))) (aset G rc (dv, p)).
Proof.
  intros I E (NE & F1 & F2) K P R. pose proof I as I0. destruct I0.
  assert (X1 : forall r d q, aget G r = Some (d, q) -> r <> rc /\ r <> dv /\ d <> rc /\ d <> dv).
  { intros r d q A. destruct (gi_rc _ _ _ A) as [B _]. destruct (gi_dv _ _ _ A) as (kk & C & _). repeat split; intros ->; congruence. }
  assert (GN : aget G rc = None). { destruct (aget G rc) as [[d q]|] eqn:A; [|reflexivity]. destruct (X1 _ _ _ A) as [B _]. congruence. }
  assert (C0 : cntv (gvar st) rc = 0%nat).
  { apply cntv_zero; [|assumption]. intros w Q A. destruct (gi_var w Q A) as [->|(r & d & q & -> & B)]; cbn; [discriminate|].
    intros X. injection X as ->. congruence. }
  constructor; gsimpl; auto using nodup_aset.
  - intros w'. rewrite !aget_aset. destruct (v =? w')%nat; [destruct p; reflexivity|apply gi_to].
  - rewrite (len_new G) by exact GN. rewrite (len_new (aset (gint st) rc 1)) by (rewrite aget_aset; destruct (Nat.eqb_spec rc dv); [congruence|exact F2]). rewrite (len_new (gint st)) by exact F1. lia.
  - intros w Q A. rewrite aget_aset in A. destruct (v =? w)%nat.
    + injection A as <-. right. exists rc, dv, p. split; [reflexivity|]. rewrite aget_aset, Nat.eqb_refl. reflexivity.
    + destruct (gi_var w Q A) as [->|(r & d & q & -> & B)]; [left; reflexivity|]. right. exists r, d, q. split; [reflexivity|].
      rewrite aget_aset. destruct (Nat.eqb_spec rc r); [congruence|exact B].
  - intros r d q A. rewrite aget_aset in A. rewrite !aget_aset, (cntv_aset _ _ _ _ E). cbn [drc one_if]. destruct (Nat.eqb_spec rc r) as [<-|N].
    + injection A as <- <-. destruct (Nat.eqb_spec dv rc); [congruence|]. rewrite C0. split; [reflexivity|lia].
    + destruct (X1 _ _ _ A) as (_ & B & _). destruct (Nat.eqb_spec dv r); [congruence|]. apply (gi_rc _ _ _ A).
  - intros r d q A. rewrite aget_aset in A. destruct (Nat.eqb_spec rc r) as [<-|N].
    + injection A as <- <-. exists k. rewrite aget_aset, Nat.eqb_refl. split; [reflexivity|]. split; [exact K|]. intros b k' -> Q. apply (P b eq_refl), Q.
    + destruct (gi_dv _ _ _ A) as (k2 & B & C). exists k2. split; [|exact C]. destruct (X1 _ _ _ A) as (_ & _ & B3 & B4).
      rewrite !aget_aset. destruct (Nat.eqb_spec dv d); [congruence|]. destruct (Nat.eqb_spec rc d); [congruence|exact B].
  - intros r1 d1 p1 r2 d2 p2 A1 A2. rewrite aget_aset in A1, A2. destruct (Nat.eqb_spec rc r1) as [<-|N1]; destruct (Nat.eqb_spec rc r2) as [<-|N2].
    + injection A1 as <- <-. injection A2 as <- <-. auto.
    + injection A1 as <- <-. destruct (X1 _ _ _ A2) as (Y1 & Y2 & Y3 & Y4). split; [congruence|]. split; [congruence|].
      intros Q NN. destruct p as [b|]; [|congruence]. subst p2. exfalso. exact (gi_own _ _ _ A2 (proj1 (P b eq_refl))).
    + injection A2 as <- <-. destruct (X1 _ _ _ A1) as (Y1 & Y2 & Y3 & Y4). split; [congruence|]. split; [congruence|].
      intros Q NN. destruct p as [b|]; [|congruence]. subst p1. exfalso. exact (gi_own _ _ _ A1 (proj1 (P b eq_refl))).
    + apply (gi_sep _ _ _ _ _ _ A1 A2).
  - intros r d b A J. apply R in J as [J1 J2]. rewrite aget_aset in A. destruct (Nat.eqb_spec rc r) as [<-|N].
    + congruence.
    + exact (gi_own _ _ _ A J1).
  - intros b. rewrite (gi_blk b), R. split.
    + intros [J|(r & d & A)].
      * destruct p as [c|]; [|left; split; [exact J|discriminate]]. destruct (Nat.eq_dec c b) as [->|N]; [|left; split; [exact J|congruence]].
        right. exists rc, dv. rewrite aget_aset, Nat.eqb_refl. reflexivity.
      * right. exists r, d. rewrite aget_aset. destruct (Nat.eqb_spec rc r); [congruence|exact A].
    + intros [[J _]|(r & d & A)]; [left; exact J|]. rewrite aget_aset in A. destruct (Nat.eqb_spec rc r) as [<-|N].
      * injection A as <- ->. left. apply (P b eq_refl).
      * right. exists r, d. exact A.
Qed.
(** One more pointer in a group. *)
Lemma join_inv n s st G v w rc dv p : ginv n s st G -> aget (gvar st) v = None -> aget (gvar st) w = Some (DPtr p (Some rc) (Some dv)) ->
  exists c, aget (gint st) rc = Some c /\
  ginv n (GSpec (aset (gto s) v (match p with None => Null | Some b => Block b end)) (graw s) (gfrom s) (gdead s))
    (g_var (g_int st (aset (gint st) rc (c + 1))) (aset (gvar st) v (DPtr p (Some rc) (Some dv)))) G.
Proof.
  intros I E W. pose proof I as I0. destruct I0. destruct (gi_var w _ W) as [X|(r & d & q & X & Eg)]; [discriminate|]. injection X as <- <- <-.
  destruct (gi_rc _ _ _ Eg) as [Ec Cp]. eexists. split; [exact Ec|]. constructor; gsimpl; auto using nodup_aset.
  - intros w'. rewrite !aget_aset. destruct (v =? w')%nat; [destruct p; reflexivity|apply gi_to].
  - rewrite (len_old _ _ _ _ gi_ni Ec). exact gi_len.
  - intros x Q A. rewrite aget_aset in A. destruct (v =? x)%nat; [|eauto]. injection A as <-. right. exists rc, dv, p. auto.
  - intros r d q A. rewrite aget_aset, (cntv_aset _ _ _ _ E). cbn [drc one_if]. destruct (Nat.eqb_spec rc r) as [<-|].
    + split; [f_equal; lia|lia].
    + apply (gi_rc _ _ _ A).
  - intros r d q A. destruct (gi_dv _ _ _ A) as (k & B & C). exists k. split; [|exact C]. rewrite aget_aset.
    destruct (Nat.eqb_spec rc d) as [X|]; [|exact B]. exfalso. apply (gi_sep _ _ _ _ _ _ A Eg). auto.
Qed.
(** Two ints that nobody knows. *)
Lemma leak_inv n s st G rc dv k : ginv n s st G -> fresh_ints st rc dv ->
  ginv n (GSpec (gto s) (graw s) (gfrom s) (S (gdead s))) (g_int st (aset (aset (gint st) rc 1) dv k)) G.
Proof.
  intros I (NE & F1 & F2). pose proof I as I0. destruct I0. constructor; gsimpl; auto using nodup_aset.
  - rewrite (len_new (aset (gint st) rc 1)) by (rewrite aget_aset; destruct (Nat.eqb_spec rc dv); [congruence|exact F2]). rewrite (len_new (gint st)) by exact F1. lia.
  - intros r d q A. destruct (gi_rc _ _ _ A) as [B C]. split; [|exact C]. rewrite !aget_aset.
    destruct (Nat.eqb_spec dv r); [congruence|]. destruct (Nat.eqb_spec rc r); [congruence|exact B].
  - intros r d q A. destruct (gi_dv _ _ _ A) as (k2 & B & C). exists k2. split; [|exact C]. rewrite !aget_aset.
    destruct (Nat.eqb_spec dv d); [congruence|]. destruct (Nat.eqb_spec rc d); [congruence|exact B].
Qed.
(** A raw block. *)
Lemma malloc_inv n s st G b k m : ginv n s st G -> 0 <= k < n -> aget (gblk st) b = None ->
  (forall c, aget m c = if (b =? c)%nat then (if aget m b then Some k else None) else aget (gfrom s) c) ->
  (forall k', aget m b = Some k' -> k' = k) ->
  ginv n (GSpec (gto s) (b :: graw s) m (gdead s)) (g_blk (g_cur st k) (aset (gblk st) b k)) G.
Proof.
  intros I K E M MB. pose proof I as I0. destruct I0.
  assert (NB : ~ In b (graw s) /\ forall r d, aget G r <> Some (d, Some b)).
  { split; [intros J|intros r d J]; apply (proj2 (gi_blk b)) in E; auto; right; eauto. }
  destruct NB as [NB1 NB2]. constructor; gsimpl; auto.
  - intros r d p A. destruct (gi_dv _ _ _ A) as (k2 & B & C & D). exists k2. split; [exact B|]. split; [exact C|]. intros c k' -> J.
    rewrite M in J. destruct (Nat.eqb_spec b c) as [<-|]; [destruct (NB2 _ _ A)|]. exact (D c k' eq_refl J).
  - intros r d c A [<-|J]; [exact (NB2 _ _ A)|exact (gi_own _ _ _ A J)].
  - intros c. rewrite aget_aset. destruct (Nat.eqb_spec b c) as [<-|N].
    + split; [intros _; left; left; reflexivity|discriminate].
    + rewrite (gi_blk c). cbn. intuition congruence.
  - intros c k1 k2 A J. rewrite aget_aset in A. destruct (Nat.eqb_spec b c) as [<-|N].
    + injection A as <-. symmetry. apply MB, J.
    + rewrite M in J. destruct (Nat.eqb_spec b c); [congruence|]. exact (gi_from _ _ _ A J).
Qed.
Lemma device_inv n s st G k : ginv n s st G -> 0 <= k < n -> ginv n s (g_cur st k) G.
Proof. intros I K. destruct I. constructor; gsimpl; auto. Qed.
