(** Shared pointers to GPU memory: legal programs. *)
From Coq Require Import Permutation.
From Verif Require Import Prelude PoolM PtrM PtrS PtrP DevPtrM DevPtrS DevPtrP DevPtrQ.

Lemma aset_aset {A} (m : amap A) k v w : aset (aset m k v) k w = aset m k w.
Proof. unfold aset at 1. rewrite adel_aset. reflexivity. Qed.
Lemma in_drop b c l : In c (drop b l) <-> In c l /\ b <> c.
Proof. unfold drop. rewrite filter_In. destruct (Nat.eqb_spec c b); cbn; intuition congruence. Qed.
Lemma same_opt_iff a b : same_opt a b = true <-> a = b.
Proof. destruct a, b; cbn; try (split; congruence). rewrite Nat.eqb_eq. split; congruence. Qed.
Lemma dptr_eqb_iff P Q : dptr_eqb P Q = true <-> dp P = dp Q /\ ddev P = ddev Q.
Proof. unfold dptr_eqb. rewrite andb_true_iff, !same_opt_iff. reflexivity. Qed.

(** Two pointers are equal iff they are of one group, or neither was ever set. *)
Lemma eqb_same n s st G v w P Q : ginv n s st G -> aget (gvar st) v = Some P -> aget (gvar st) w = Some Q ->
  dptr_eqb P Q = true -> P = Q.
Proof.
  intros I EP EQ E. apply dptr_eqb_iff in E as [E1 E2].
  destruct (gi_var _ _ _ _ I _ _ EP) as [->|(r & d & p & -> & A)]; destruct (gi_var _ _ _ _ I _ _ EQ) as [->|(r2 & d2 & p2 & -> & B)]; cbn in *; try discriminate; [reflexivity|].
  subst p2. injection E2 as <-. f_equal. f_equal. destruct (gi_sep _ _ _ _ I _ _ _ _ _ _ A B) as (_ & S & _). apply S. reflexivity.
Qed.
Lemma scope_get n s st G v : ginv n s st G -> g_in_scope s v -> exists P, aget (gvar st) v = Some P.
Proof. intros I S. unfold g_in_scope in S. rewrite (target_meaning _ _ _ _ v I) in S. destruct (aget (gvar st) v) as [P|]; [eauto|destruct S; reflexivity]. Qed.
Lemma unused_get n s st G v : ginv n s st G -> g_unused s v -> aget (gvar st) v = None.
Proof. intros I S. unfold g_unused in S. rewrite (target_meaning _ _ _ _ v I) in S. destruct (aget (gvar st) v); [discriminate|reflexivity]. Qed.
(** The invariant only looks at what is in the variables. *)
Lemma inv_to n s st G to' : ginv n s st G -> NoDup (map fst to') -> (forall v, aget to' v = aget (gto s) v) -> ginv n (GSpec to' (graw s) (gfrom s) (gdead s)) st G.
Proof. intros I N E. destruct I. constructor; gsimpl; auto. intros v. rewrite E. apply gi_to. Qed.

(** What assigning a void* does. *)
Lemma assign_raw_inv n s st G v x rc dv : ginv n s st G -> g_in_scope s v -> fresh_ints_after st v rc dv ->
  exists st1 G1, assign_raw st v x rc dv = Ok (g_var (g_int st1 (aset (aset (gint st1) rc 1) dv (gcur st1))) (aset (gvar st) v (DPtr x (Some rc) (Some dv)))) /\
    gvar st1 = gvar st /\ ginv n (forget s v) (remove_var st1 v) G1 /\ fresh_ints st1 rc dv.
Proof.
  intros I S F. destruct (scope_get _ _ _ _ _ I S) as (P & EP). destruct (give_up_inv _ _ _ _ _ _ I EP) as (st1 & P1 & G1 & E & V & I1).
  exists st1, G1. unfold assign_raw. rewrite EP, E. cbn [obind fst]. rewrite V. split; [reflexivity|]. split; [reflexivity|]. split; [exact I1|].
  exact (F P st1 P1 EP E).
Qed.
Lemma removed_none st v : aget (gvar (remove_var st v)) v = None.
Proof. cbn. rewrite aget_adel, Nat.eqb_refl. reflexivity. Qed.

(** Every legal step is possible and keeps the invariant.  [gfrom_ok]: what a raw
    block given to a pointer must satisfy never fails, because raw blocks are not
    listed there. *)
Definition raw_ok (s : gspec) : Prop := forall b, In b (graw s) -> aget (gfrom s) b = None.
Theorem step_inv n s st G o : ginv n s st G -> raw_ok s -> glegal s st o ->
  exists st' G', gstep st o = Ok st' /\ ginv n (gspec_step s o) st' G' /\ raw_ok (gspec_step s o).
Proof.
  intros I RO L. destruct o as [b k|v b rc dv k|v|v w|v w|v x rc dv|v rc dv|v rc dv|k]; cbn [glegal] in L; cbn [gstep gspec_step].
  - (* GMalloc *)
    destruct L as [V E]. unfold valid_device in V. pose proof (gi_devs _ _ _ _ I) as D. unfold raw_error, cuda_malloc, cuda_set_device.
    destruct (Z.leb_spec (gdevs st) k); [lia|]. destruct (Z.ltb_spec k (gdevs st)); [|lia]. destruct (Z.leb_spec 0 k); [|lia]. cbn [andb obind].
    eexists _, G. split; [reflexivity|]. split.
    + apply (malloc_inv n s st G b k _ I); [lia|exact E| |].
      * intros c. rewrite !aget_adel, Nat.eqb_refl. destruct (b =? c)%nat; reflexivity.
      * rewrite aget_adel, Nat.eqb_refl. discriminate.
    + intros c J. cbn in *. rewrite aget_adel. destruct (Nat.eqb_spec b c); [reflexivity|]. apply RO. destruct J; [congruence|assumption].
  - (* GShared *)
    destruct L as (U & V & E & F). unfold valid_device in V. pose proof (gi_devs _ _ _ _ I) as D. unfold shared_error, cuda_malloc, cuda_set_device.
    destruct (Z.ltb_spec (gdevs st) k); [lia|]. destruct (Z.ltb_spec k (gdevs st)); [|lia]. destruct (Z.leb_spec 0 k); [|lia]. cbn [andb obind].
    assert (I1 : ginv n (GSpec (gto s) (b :: graw s) (aset (gfrom s) b k) (gdead s)) (g_blk (g_cur st k) (aset (gblk st) b k)) G).
    { apply (malloc_inv n s st G b k _ I); [lia|exact E| |].
      - intros c. rewrite !aget_aset, Nat.eqb_refl. destruct (b =? c)%nat; reflexivity.
      - rewrite aget_aset, Nat.eqb_refl. intros k' X. congruence. }
    assert (NB : ~ In b (graw s)) by (intros J; apply (proj2 (gi_blk _ _ _ _ I b)); auto).
    eexists _, _. split; [reflexivity|]. split.
    + apply (group_inv _ _ _ _ v (Some b) rc dv k (graw s) I1).
      * exact (unused_get _ _ _ _ _ I U).
      * exact F.
      * lia.
      * intros c X. injection X as <-. split; [left; reflexivity|]. cbn. rewrite aget_aset, Nat.eqb_refl. intros k' X. congruence.
      * intros c. cbn. split; [intros J; split; [right; exact J|congruence]|]. intros [[->|J] N]; [congruence|exact J].
    + intros c J. cbn in *. rewrite aget_aset. destruct (Nat.eqb_spec b c); [congruence|]. apply RO, J.
  - (* GDefault *)
    eexists _, G. split; [reflexivity|]. split; [|exact RO]. apply unset_inv; [exact I|]. exact (unused_get _ _ _ _ _ I L).
  - (* GCopy *)
    destruct L as [U W]. pose proof (unused_get _ _ _ _ _ I U) as EV. destruct (scope_get _ _ _ _ _ I W) as (Q & EQ).
    assert (NE : v <> w) by congruence. unfold assign_ptr. gsimpl. rewrite !aget_aset, Nat.eqb_refl. destruct (Nat.eqb_spec v w); [congruence|]. rewrite EQ.
    rewrite (target_meaning _ _ _ _ w I), EQ. cbn [option_map].
    destruct (gi_var _ _ _ _ I _ _ EQ) as [->|(rc & dv & p & -> & Eg)].
    + cbn. eexists _, G. split; [reflexivity|]. split; [|exact RO]. apply unset_inv; assumption.
    + replace (dptr_eqb _ _) with false by (symmetry; apply andb_false_r). unfold give_up. cbn [drc obind fst]. gsimpl.
      destruct (join_inv _ _ _ _ v w _ _ _ I EV EQ) as (c & Ec & J). rewrite Ec. rewrite aset_aset. eexists _, G. split; [reflexivity|]. split; [|exact RO].
      destruct p; exact J.
  - (* GAssign *)
    destruct L as (V & W & NU). destruct (scope_get _ _ _ _ _ I V) as (P & EP). destruct (scope_get _ _ _ _ _ I W) as (Q & EQ).
    unfold assign_ptr. rewrite EP, EQ. rewrite (target_meaning _ _ _ _ w I), (target_meaning _ _ _ _ v I), EP, EQ in *. cbn [option_map] in *.
    destruct (dptr_eqb P Q) eqn:B.
    + pose proof (eqb_same _ _ _ _ _ _ _ _ I EP EQ B) as <-. eexists _, G. split; [reflexivity|]. split; [|exact RO]. apply inv_to; [exact I|apply nodup_aset, I|].
      intros x. rewrite aget_aset. destruct (Nat.eqb_spec v x) as [<-|]; [|reflexivity]. rewrite (gi_to _ _ _ _ I), EP. reflexivity.
    + destruct (gi_var _ _ _ _ I _ _ EQ) as [->|(rc & dv & p & -> & Eg)].
      { exfalso. assert (X : Some (meaning P) = Some Unset) by (apply NU; reflexivity).
        destruct (gi_var _ _ _ _ I _ _ EP) as [->|(r & d & q & -> & _)]; [discriminate B|]. destruct q; discriminate X. }
      assert (NE : v <> w). { intros <-. rewrite EP in EQ. injection EQ as ->. rewrite (proj2 (dptr_eqb_iff _ _)) in B; [discriminate|auto]. }
      destruct (give_up_inv _ _ _ _ _ _ I EP) as (st1 & P1 & G1 & E & GV & I1). rewrite E. cbn [obind fst drc].
      assert (EQ1 : aget (gvar (remove_var st1 v)) w = Some (DPtr p (Some rc) (Some dv))).
      { cbn. rewrite GV, aget_adel. destruct (Nat.eqb_spec v w); [congruence|exact EQ]. }
      destruct (join_inv _ _ _ _ v w _ _ _ I1 (removed_none _ _) EQ1) as (c & Ec & J). cbn in Ec. rewrite Ec.
      eexists _, G1. split; [reflexivity|]. split; [|exact RO]. cbn in J. rewrite !aset_adel in J. destruct p; exact J.
  - (* GAssignRaw *)
    destruct L as (V & F & X). destruct (assign_raw_inv _ _ _ _ _ x rc dv I V F) as (st1 & G1 & E & GV & I1 & F1). rewrite E.
    eexists _, (aset G1 rc (dv, x)). split; [reflexivity|]. destruct x as [b|].
    + assert (J : ginv n (GSpec (aset (adel (gto s) v) v (Block b)) (drop b (graw s)) (gfrom s) (gdead s))
        (g_var (g_int (remove_var st1 v) (aset (aset (gint st1) rc 1) dv (gcur st1))) (aset (adel (gvar st1) v) v (DPtr (Some b) (Some rc) (Some dv)))) (aset G1 rc (dv, Some b))).
      { apply (group_inv _ _ _ _ v (Some b) rc dv (gcur st1) (drop b (graw s)) I1 (removed_none _ _) F1 (gi_cur _ _ _ _ I1)).
        - intros c Y. injection Y as <-. split; [exact X|]. cbn. rewrite (RO b X). discriminate.
        - intros c. rewrite in_drop. cbn. intuition congruence. }
      rewrite !aset_adel, GV in J. split; [exact J|]. intros c Y. cbn in *. apply in_drop in Y as [Y _]. apply RO, Y.
    + assert (J : ginv n (GSpec (aset (adel (gto s) v) v Null) (graw s) (gfrom s) (gdead s))
        (g_var (g_int (remove_var st1 v) (aset (aset (gint st1) rc 1) dv (gcur st1))) (aset (adel (gvar st1) v) v (DPtr None (Some rc) (Some dv)))) (aset G1 rc (dv, None))).
      { apply (group_inv _ _ _ _ v None rc dv (gcur st1) (graw s) I1 (removed_none _ _) F1 (gi_cur _ _ _ _ I1)).
        - discriminate.
        - intros c. cbn. intuition congruence. }
      rewrite !aset_adel, GV in J. split; [exact J|exact RO].
  - (* GDetach *)
    destruct L as (V & F). destruct (assign_raw_inv _ _ _ _ _ None rc dv I V F) as (st1 & G1 & E & GV & I1 & F1). rewrite E.
    eexists _, (aset G1 rc (dv, None)). split; [reflexivity|].
    assert (J : ginv n (GSpec (aset (adel (gto s) v) v Null) (graw s) (gfrom s) (gdead s))
      (g_var (g_int (remove_var st1 v) (aset (aset (gint st1) rc 1) dv (gcur st1))) (aset (adel (gvar st1) v) v (DPtr None (Some rc) (Some dv)))) (aset G1 rc (dv, None))).
    { apply (group_inv _ _ _ _ v None rc dv (gcur st1) (graw s) I1 (removed_none _ _) F1 (gi_cur _ _ _ _ I1)).
      - discriminate.
      - intros c. cbn. intuition congruence. }
    rewrite !aset_adel, GV in J. split; [exact J|exact RO].
  - (* GDestroy *)
    destruct L as (V & F). destruct (assign_raw_inv _ _ _ _ _ None rc dv I V F) as (st1 & G1 & E & GV & I1 & F1). rewrite E. cbn [obind].
    eexists _, G1. split; [reflexivity|]. split; [|exact RO].
    pose proof (leak_inv _ _ _ _ rc dv (gcur st1) I1 F1) as J. unfold remove_var in J. rewrite GV in J. gsimpl. rewrite adel_aset. exact J.
  - (* GSetDevice *)
    unfold valid_device in L. unfold cuda_set_device. destruct (Z.leb_spec 0 k); [|lia]. destruct (Z.ltb_spec k (gdevs st)); [|lia]. cbn.
    eexists _, G. split; [reflexivity|]. split; [|exact RO]. apply device_inv; [exact I|]. rewrite <- (gi_devs _ _ _ _ I). lia.
Qed.
Theorem program_inv n s st : gprogram n s st -> exists G, ginv n s st G /\ raw_ok s.
Proof.
  induction 1 as [cur C|s st o st' _ (G & I & R) L E].
  - exists []. split; [|intros b []]. constructor; cbn; auto using NoDup_nil; try discriminate. intros b. split; [congruence|]. intros [[]|(r & d & X)]. discriminate.
  - destruct (step_inv _ _ _ _ _ I R L) as (st2 & G2 & E2 & I2 & R2). rewrite E in E2. injection E2 as <-. exists G2. auto.
Qed.
