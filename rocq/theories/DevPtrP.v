(** Proofs about shared pointers to GPU memory. *)
From Coq Require Import Permutation.
From Verif Require Import Prelude PoolM PtrM PtrS PtrP DevPtrM DevPtrS.

Lemma aset_adel {A} (m : amap A) k v : aset (adel m k) k v = aset m k v.
Proof. unfold aset. rewrite adel_adel. reflexivity. Qed.
Lemma len_adel {A} (m : amap A) k v : NoDup (map fst m) -> aget m k = Some v -> length m = S (length (adel m k)).
Proof. intros N E. rewrite (Permutation_length (adel_perm m k v N E)) at 1. reflexivity. Qed.
Lemma len_new {A} (m : amap A) k v : aget m k = None -> length (aset m k v) = S (length m).
Proof. intros E. unfold aset. rewrite adel_none by exact E. reflexivity. Qed.
Lemma len_old {A} (m : amap A) k v w : NoDup (map fst m) -> aget m k = Some w -> length (aset m k v) = length m.
Proof. intros N E. unfold aset. cbn. symmetry. eapply len_adel; eassumption. Qed.
Lemma aset_map {A B} (g : A -> B) (m : amap A) k v : aset (map (fun e => (fst e, g (snd e))) m) k (g v) = map (fun e => (fst e, g (snd e))) (aset m k v).
Proof. unfold aset. cbn. rewrite adel_map. reflexivity. Qed.

(** Number of pointers with counter rc. *)
Definition has_rc (rc : nat) (e : nat * dptr) : bool := match drc (snd e) with Some d => (d =? rc)%nat | None => false end.
Definition cntv (vs : amap dptr) (rc : nat) : nat := length (filter (has_rc rc) vs).
Definition one_if (o : option nat) (rc : nat) : nat := match o with Some d => if (d =? rc)%nat then 1%nat else 0%nat | None => 0%nat end.
Lemma cntv_adel vs v P rc : NoDup (map fst vs) -> aget vs v = Some P -> cntv vs rc = (one_if (drc P) rc + cntv (adel vs v) rc)%nat.
Proof.
  intros N E. unfold cntv. rewrite (filter_perm_length _ _ _ (adel_perm _ _ _ N E)). cbn [filter]. unfold has_rc at 1, one_if. cbn [snd].
  destruct (drc P) as [d|]; [destruct (d =? rc)%nat|]; reflexivity.
Qed.
Lemma cntv_aset vs v P rc : aget vs v = None -> cntv (aset vs v P) rc = (one_if (drc P) rc + cntv vs rc)%nat.
Proof.
  intros E. unfold cntv, aset. rewrite (adel_none _ _ E). cbn [filter]. unfold has_rc at 1, one_if. cbn [snd].
  destruct (drc P) as [d|]; [destruct (d =? rc)%nat|]; reflexivity.
Qed.
Lemma cntv_zero vs rc : (forall v P, aget vs v = Some P -> drc P <> Some rc) -> NoDup (map fst vs) -> cntv vs rc = 0%nat.
Proof.
  intros H N. unfold cntv. destruct (filter (has_rc rc) vs) as [|[v P] l] eqn:E; [reflexivity|].
  assert (I : In (v, P) (filter (has_rc rc) vs)) by (rewrite E; left; reflexivity).
  apply filter_In in I as [I U]. exfalso. apply (H v P (in_aget _ _ _ N I)). unfold has_rc in U. cbn in U.
  destruct (drc P) as [d|]; [|discriminate]. apply Nat.eqb_eq in U. congruence.
Qed.

(** What a pointer refers to. *)
Definition meaning (P : dptr) : refers :=
  match drc P, dp P with None, _ => Unset | Some _, None => Null | Some _, Some b => Block b end.
(** The invariant: [G] lists the counters in use, each with the address of its
    device number and the pointer they stand for. *)
Definition groups := amap (nat * option nat).
Record ginv (n : Z) (s : gspec) (st : gmem) (G : groups) : Prop := {
  gi_devs : gdevs st = n;
  gi_cur : 0 <= gcur st < n;
  gi_nv : NoDup (map fst (gvar st));
  gi_ni : NoDup (map fst (gint st));
  gi_nG : NoDup (map fst G);
  gi_nt : NoDup (map fst (gto s));
  gi_to : forall v, aget (gto s) v = option_map meaning (aget (gvar st) v);
  gi_len : length (gint st) = (2 * length G + 2 * gdead s)%nat;
  gi_var : forall v P, aget (gvar st) v = Some P ->
    P = DPtr None None None \/ exists rc dv p, P = DPtr p (Some rc) (Some dv) /\ aget G rc = Some (dv, p);
  gi_rc : forall rc dv p, aget G rc = Some (dv, p) ->
    aget (gint st) rc = Some (Z.of_nat (cntv (gvar st) rc)) /\ (0 < cntv (gvar st) rc)%nat;
  gi_dv : forall rc dv p, aget G rc = Some (dv, p) -> exists k, aget (gint st) dv = Some k /\ 0 <= k < n /\
    forall b k', p = Some b -> aget (gfrom s) b = Some k' -> k' = k;
  gi_sep : forall rc dv p rc' dv' p', aget G rc = Some (dv, p) -> aget G rc' = Some (dv', p') ->
    dv <> rc' /\ (dv = dv' -> rc = rc') /\ (p = p' -> p <> None -> rc = rc');
  gi_own : forall rc dv b, aget G rc = Some (dv, Some b) -> ~ In b (graw s);
  gi_blk : forall b, aget (gblk st) b <> None <-> In b (graw s) \/ exists rc dv, aget G rc = Some (dv, Some b);
  gi_from : forall b k k', aget (gblk st) b = Some k -> aget (gfrom s) b = Some k' -> k = k'
}.

Lemma target_meaning n s st G v : ginv n s st G -> gtarget s v = option_map meaning (aget (gvar st) v).
Proof. intros I. apply (gi_to _ _ _ _ I). Qed.

(** Giving up a share. *)
Definition remove_var (st : gmem) (v : nat) := g_var st (adel (gvar st) v).
Definition forget (s : gspec) (v : nat) := GSpec (adel (gto s) v) (graw s) (gfrom s) (gdead s).
Lemma give_up_inv n s st G v P : ginv n s st G -> aget (gvar st) v = Some P ->
  exists st1 P1 G1, give_up st P = Ok (st1, P1) /\ gvar st1 = gvar st /\ ginv n (forget s v) (remove_var st1 v) G1.
Proof.
  intros I E. pose proof (gi_var _ _ _ _ I v P E) as V.
  assert (TO : forall w, aget (adel (gto s) v) w = option_map meaning (aget (adel (gvar st) v) w)).
  { intros w. rewrite !aget_adel. destruct (v =? w)%nat; [reflexivity|apply I]. }
  destruct V as [->|(rc & dv & p & -> & Eg)].
  - exists st, (DPtr None None None), G. split; [reflexivity|]. split; [reflexivity|]. destruct I.
    assert (C : forall rc, cntv (adel (gvar st) v) rc = cntv (gvar st) rc).
    { intros rc. rewrite (cntv_adel (gvar st) v _ rc gi_nv0 E). reflexivity. }
    constructor; cbn [remove_var g_var gdevs gcur gblk gint gvar forget gto graw gfrom gdead]; auto using nodup_adel.
    + intros w Q F. rewrite aget_adel in F. destruct (v =? w)%nat; [discriminate|eauto].
    + intros rc dv p F. rewrite C. eauto.
  - destruct (gi_rc _ _ _ _ I rc dv p Eg) as [Ec Cp]. destruct (gi_dv _ _ _ _ I rc dv p Eg) as (k & Ek & Kr & Kf).
    pose proof (gi_nv _ _ _ _ I) as NV. pose proof (cntv_adel (gvar st) v _ rc NV E) as CA. cbn [drc one_if] in CA. rewrite Nat.eqb_refl in CA.
    assert (NE : dv <> rc) by (apply (gi_sep _ _ _ _ I rc dv p rc dv p Eg Eg)).
    assert (CO : forall rc', rc' <> rc -> cntv (gvar st) rc' = cntv (adel (gvar st) v) rc').
    { intros rc' N. rewrite (cntv_adel (gvar st) v _ rc' NV E). cbn [drc one_if]. destruct (Nat.eqb_spec rc rc'); [congruence|reflexivity]. }
    unfold give_up. cbn [drc ddev dp]. rewrite Ec. destruct (Z.eqb_spec (Z.of_nat (cntv (gvar st) rc) - 1) 0) as [Z1|Z1].
    + (* the last share *)
      cbn [g_int gint]. rewrite aget_adel, aget_aset. destruct (Nat.eqb_spec rc dv) as [X|_]; [congruence|]. rewrite Ek.
      unfold cuda_free, cuda_set_device. cbn [g_int gdevs]. rewrite (gi_devs _ _ _ _ I).
      destruct (Z.leb_spec 0 k); [|lia]. destruct (Z.ltb_spec k n); [|lia]. cbn [andb obind g_cur gblk].
      assert (LEN : length (gint st) = S (S (length (adel (adel (aset (gint st) rc (Z.of_nat (cntv (gvar st) rc) - 1)) rc) dv)))).
      { rewrite adel_aset. rewrite (len_adel _ rc _ (gi_ni _ _ _ _ I) Ec). f_equal. apply (len_adel _ dv k).
        - apply nodup_adel, I.
        - rewrite aget_adel. destruct (Nat.eqb_spec rc dv); [congruence|exact Ek]. }
      assert (D0 : cntv (adel (gvar st) v) rc = 0%nat) by lia.
      assert (FV : forall w Q, aget (adel (gvar st) v) w = Some Q -> Q = DPtr None None None \/
        exists rc' dv' p', Q = DPtr p' (Some rc') (Some dv') /\ aget (adel G rc) rc' = Some (dv', p')).
      { intros w Q F. pose proof F as F0. rewrite aget_adel in F. destruct (v =? w)%nat eqn:VW; [discriminate|].
        destruct (gi_var _ _ _ _ I w Q F) as [->|(rc' & dv' & p' & -> & G')]; [left; reflexivity|]. right. exists rc', dv', p'. split; [reflexivity|].
        rewrite aget_adel. destruct (Nat.eqb_spec rc rc') as [->|]; [|exact G'].
        rewrite (cntv_adel (adel (gvar st) v) w _ rc' (nodup_adel _ _ NV) F0) in D0. cbn [drc one_if] in D0. rewrite Nat.eqb_refl in D0. discriminate. }
      assert (GI : forall a z, aget (gint st) a = Some z -> a <> rc -> a <> dv ->
        aget (adel (adel (aset (gint st) rc (Z.of_nat (cntv (gvar st) rc) - 1)) rc) dv) a = Some z).
      { intros a z A N1 N2. rewrite !aget_adel, aget_aset. destruct (Nat.eqb_spec dv a); [congruence|]. destruct (Nat.eqb_spec rc a); [congruence|exact A]. }
      assert (LG : length G = S (length (adel G rc))) by (eapply len_adel; [apply I|exact Eg]).
      assert (M : forall B, (B = gblk st /\ p = None \/ exists b, p = Some b /\ B = adel (gblk st) b) ->
        ginv n (forget s v) (remove_var (GMem (gdevs st) k B (adel (adel (aset (gint st) rc (Z.of_nat (cntv (gvar st) rc) - 1)) rc) dv) (gvar st)) v) (adel G rc)).
      { intros B HB. constructor; cbn [remove_var g_var gdevs gcur gblk gint gvar forget gto graw gfrom gdead].
        - apply I.
        - exact Kr.
        - apply nodup_adel, I.
        - apply nodup_adel, nodup_adel, nodup_aset, I.
        - apply nodup_adel, I.
        - apply nodup_adel, I.
        - exact TO.
        - pose proof (gi_len _ _ _ _ I). lia.
        - exact FV.
        - intros rc' dv' p' F. rewrite aget_adel in F. destruct (Nat.eqb_spec rc rc') as [|N]; [discriminate|].
          destruct (gi_rc _ _ _ _ I _ _ _ F) as [A B']. rewrite <- CO by congruence. split; [|exact B']. apply GI; [exact A|congruence|].
          intros ->. apply (gi_sep _ _ _ _ I _ _ _ _ _ _ Eg F). reflexivity.
        - intros rc' dv' p' F. rewrite aget_adel in F. destruct (Nat.eqb_spec rc rc') as [|N]; [discriminate|].
          destruct (gi_dv _ _ _ _ I _ _ _ F) as (k2 & A & B'). exists k2. split; [|exact B'].
          destruct (gi_sep _ _ _ _ I _ _ _ _ _ _ F Eg) as (S1 & S2 & _). apply GI; [exact A|exact S1|]. intros X. apply N. symmetry. exact (S2 X).
        - intros r1 d1 p1 r2 d2 p2 F1 F2. rewrite aget_adel in F1, F2. destruct (rc =? r1)%nat; [discriminate|]. destruct (rc =? r2)%nat; [discriminate|].
          apply (gi_sep _ _ _ _ I _ _ _ _ _ _ F1 F2).
        - intros r1 d1 b F. rewrite aget_adel in F. destruct (rc =? r1)%nat; [discriminate|]. apply (gi_own _ _ _ _ I _ _ _ F).
        - intros b. destruct HB as [[-> ->]|(b0 & -> & ->)].
          + rewrite (gi_blk _ _ _ _ I b). apply or_iff_compat_l. split; intros (r & d & F); exists r, d.
            * rewrite aget_adel. destruct (Nat.eqb_spec rc r) as [<-|]; [rewrite Eg in F; discriminate|exact F].
            * rewrite aget_adel in F. destruct (rc =? r)%nat; [discriminate|exact F].
          + rewrite aget_adel. destruct (Nat.eqb_spec b0 b) as [<-|N].
            * split; [congruence|]. intros [R|(r & d & F)]; exfalso; [exact (gi_own _ _ _ _ I _ _ _ Eg R)|].
              rewrite aget_adel in F. destruct (Nat.eqb_spec rc r) as [|NR]; [discriminate|]. apply NR.
              destruct (gi_sep _ _ _ _ I _ _ _ _ _ _ Eg F) as (_ & _ & S3). apply S3; [reflexivity|discriminate].
            * rewrite (gi_blk _ _ _ _ I b). apply or_iff_compat_l. split; intros (r & d & F); exists r, d.
              -- rewrite aget_adel. destruct (Nat.eqb_spec rc r) as [<-|]; [rewrite Eg in F; congruence|exact F].
              -- rewrite aget_adel in F. destruct (rc =? r)%nat; [discriminate|exact F].
        - intros b k1 k2 F1 F2. apply (gi_from _ _ _ _ I b); [|exact F2]. destruct HB as [[-> _]|(b0 & _ & ->)]; [exact F1|].
          rewrite aget_adel in F1. destruct (b0 =? b)%nat; [discriminate|exact F1]. }
      destruct p as [b|].
      * destruct (aget (gblk st) b) as [kb|] eqn:Eb.
        2:{ exfalso. apply (proj2 (gi_blk _ _ _ _ I b)); [|exact Eb]. right. exists rc, dv. exact Eg. }
        cbn [g_int g_blk g_cur gdevs gcur gblk gint gvar].
        rewrite Eb. cbn [obind g_int g_blk g_cur gdevs gcur gblk gint gvar].
        eexists _, _, (adel G rc). split; [reflexivity|]. split; [reflexivity|]. apply M. right. exists b. auto.
      * cbn [obind g_int g_blk g_cur gdevs gcur gblk gint gvar].
        eexists _, _, (adel G rc). split; [reflexivity|]. split; [reflexivity|]. apply M. left. auto.
    + (* others remain *)
      eexists _, _, G. split; [reflexivity|]. split; [reflexivity|].
      constructor; cbn [remove_var g_var g_int gdevs gcur gblk gint gvar forget gto graw gfrom gdead].
      * apply I.
      * apply I.
      * apply nodup_adel, I.
      * apply nodup_aset, I.
      * apply I.
      * apply nodup_adel, I.
      * exact TO.
      * rewrite (len_old _ _ _ _ (gi_ni _ _ _ _ I) Ec). apply I.
      * intros w Q F. rewrite aget_adel in F. destruct (v =? w)%nat; [discriminate|]. apply (gi_var _ _ _ _ I w Q F).
      * intros rc' dv' p' F. destruct (gi_rc _ _ _ _ I _ _ _ F) as [A B']. rewrite aget_aset. destruct (Nat.eqb_spec rc rc') as [<-|N].
        -- split; [f_equal; lia|lia].
        -- rewrite <- CO by congruence. auto.
      * intros rc' dv' p' F. destruct (gi_dv _ _ _ _ I _ _ _ F) as (k2 & A & B'). exists k2. split; [|exact B'].
        rewrite aget_aset. destruct (Nat.eqb_spec rc dv') as [X|]; [|exact A].
        exfalso. apply (gi_sep _ _ _ _ I _ _ _ _ _ _ F Eg). auto.
      * apply (gi_sep _ _ _ _ I).
      * apply (gi_own _ _ _ _ I).
      * apply (gi_blk _ _ _ _ I).
      * apply (gi_from _ _ _ _ I).
Qed.
