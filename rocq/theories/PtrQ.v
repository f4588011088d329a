(** More proofs about field handles: observations and misuse. *)
From Coq Require Import Permutation.
From Verif Require Import Prelude PoolM PoolS PoolP PtrM PtrS PtrP.

Lemma program_inv s st : program s st -> sinv s st.
Proof.
  intros H. induction H as [|s st o st' H IH L E].
  - split; [exact inv_start|]. split; [|reflexivity]. split; [|discriminate]. exists world_new. split; [constructor|]. split; reflexivity.
  - destruct (step_ok s st o IH L) as (st2 & E2 & I2). rewrite E in E2. injection E2 as ->. exact I2.
Qed.

Lemma never_fails s st o : program s st -> legal s st o -> exists st', hstep st o = Ok st'.
Proof. intros H L. destruct (step_ok s st o (program_inv _ _ H) L) as (st' & E & _). eauto. Qed.

Lemma live_iff s st : program s st -> forall f, aget (mfld st) f <> None <-> In f (sraw s) \/ exists h, target s h = Some f.
Proof.
  intros H f. pose proof (program_inv _ _ H) as SI. pose proof SI as (I & P & T). split.
  - intros N. destruct (aget (mfld st) f) as [x|] eqn:E; [|congruence].
    destruct (e_own _ _ _ _ I _ _ E) as [R|(h & K & Eh & F)]; [auto|]. right. exists h. rewrite (target_get _ _ _ SI), Eh. exact F.
  - intros [R|(h & E)].
    + destruct (e_raw _ _ _ _ I _ R) as (x & E & _). congruence.
    + rewrite (target_get _ _ _ SI) in E. destruct (aget (mhs st) h) as [K|] eqn:Eh; [|discriminate].
      destruct (e_live _ _ _ _ I _ _ _ Eh E) as (x & Ex & _). congruence.
Qed.

Lemma counts_agree s st h K f c : sinv s st -> aget (mhs st) h = Some K -> hf K = Some f -> hc K = Some c ->
  handles_of s f = cnt_of (mhs st) c.
Proof.
  intros (I & P & T) Eh F C. unfold handles_of, cnt_of. rewrite T. unfold targets.
  assert (G : forall l, (forall k L, In (k, L) l -> aget (mhs st) k = Some L) ->
    length (filter (fun e : nat * option nat => match snd e with Some g => (g =? f)%nat | None => false end)
       (map (fun e : nat * handle => (fst e, hf (snd e))) l)) = length (filter (uses c) l)).
  { induction l as [|[k L] l IH]; intros A; [reflexivity|]. cbn [map filter fst snd]. specialize (IH (fun k0 L0 J => A k0 L0 (or_intror J))).
    unfold uses at 1. cbn [snd]. pose proof (A k L (or_introl eq_refl)) as Ek.
    assert (X : match hf L with Some g => (g =? f)%nat | None => false end = match hc L with Some d => (d =? c)%nat | None => false end).
    { destruct (hf L) as [g|] eqn:FL.
      - destruct (Nat.eqb_spec g f) as [->|N].
        + rewrite (e_uniq _ _ _ _ I _ _ _ _ _ Ek Eh FL F), C, Nat.eqb_refl. reflexivity.
        + destruct (hc L) as [d|] eqn:CL; [|reflexivity]. destruct (Nat.eqb_spec d c) as [->|]; [|reflexivity].
          pose proof (e_same _ _ _ _ I _ _ _ _ _ Ek Eh CL C). congruence.
      - destruct (hc L) as [d|] eqn:CL; [|reflexivity]. destruct (Nat.eqb_spec d c) as [->|]; [|reflexivity].
        pose proof (e_same _ _ _ _ I _ _ _ _ _ Ek Eh CL C). congruence. }
    rewrite X. destruct (match hc L with Some d => (d =? c)%nat | None => false end); cbn [length]; rewrite IH; reflexivity. }
  apply G. intros k L J. apply in_aget; [exact (n_h _ _ _ _ I)|exact J].
Qed.

Lemma handle_facts s st h f : sinv s st -> target s h = Some f ->
  exists K c x, aget (mhs st) h = Some K /\ hf K = Some f /\ hc K = Some c /\
    aget (mcnt st) c = Some (Z.of_nat (handles_of s f)) /\ aget (mfld st) f = Some x /\ hst K = negb (fbuilt x || fuser x).
Proof.
  intros SI E. pose proof SI as (I & P & T). rewrite (target_get _ _ _ SI) in E. destruct (aget (mhs st) h) as [K|] eqn:Eh; [|discriminate].
  destruct (hc K) as [c|] eqn:C; [|rewrite (e_null _ _ _ _ I _ _ Eh C) in E; discriminate].
  destruct (e_live _ _ _ _ I _ _ _ Eh E) as (x & Ex & Sx & _).
  exists K, c, x. split; [reflexivity|]. split; [exact E|]. split; [exact C|]. split; [|auto].
  destruct (aget (mcnt st) c) as [n|] eqn:En; [|destruct (e_cnt _ _ _ _ I _ _ _ Eh C En)].
  destruct (e_val _ _ _ _ I _ _ En) as [V _]. rewrite (counts_agree _ _ _ _ _ _ SI Eh E C). congruence.
Qed.

Lemma observe s st h f : program s st -> target s h = Some f ->
  isnull st h = Ok false /\ use_count st h = Ok (Z.of_nat (handles_of s f)) /\
  exists x, aget (mfld st) f = Some x /\ deref st h = Ok x.
Proof.
  intros H E. destruct (handle_facts s st h f (program_inv _ _ H) E) as (K & c & x & Eh & F & C & N & Ex & _).
  destruct K as [f0 c0 s0]. cbn in F, C. subst. unfold isnull, use_count, deref. rewrite Eh. cbn [hf]. rewrite N, Ex. eauto.
Qed.
Lemma observe_null s st h : program s st -> in_scope s h -> target s h = None -> isnull st h = Ok true.
Proof.
  intros H Sc E. pose proof (program_inv _ _ H) as SI. destruct (scope_get _ _ _ SI Sc) as [K Eh].
  rewrite (target_get _ _ _ SI), Eh in E. unfold isnull. rewrite Eh, E. reflexivity.
Qed.

(** Number of live fields whose memory comes from the pool. *)
Definition pooled (fld : amap hfield) : nat := length (filter (fun e => negb (fuser (snd e))) fld).
Lemma pool_matches s st : program s st ->
  pool_active (mpool st) = Z.of_nat (pooled (mfld st)) /\
  forall f1 x1 f2 x2, aget (mfld st) f1 = Some x1 -> aget (mfld st) f2 = Some x2 ->
    fuser x1 = false -> fuser x2 = false -> fblock x1 = fblock x2 -> f1 = f2.
Proof.
  intros H. destruct (program_inv _ _ H) as (I & ((w & Hw & <- & P) & _) & T).
  destruct (accounting w Hw) as (A & _ & N & _). split.
  - rewrite A, (Permutation_length P). unfold own_blocks, pooled. rewrite map_length. reflexivity.
  - assert (ND : NoDup (own_blocks (mfld st))).
    { eapply Permutation_NoDup; [exact P|]. revert N. clear. induction (wout w) as [|a l IH]; cbn; [constructor|].
      intros N. apply NoDup_cons_iff in N as [N1 N2]. constructor; [|auto]. intros J. apply N1, in_app_iff. auto. }
    intros f1 x1 f2 x2 E1 E2 U1 U2 Eb. destruct (Nat.eq_dec f1 f2) as [|Nf]; [assumption|]. exfalso.
    pose proof (own_perm _ _ (adel_perm _ _ _ (n_f _ _ _ _ I) E1)) as Po.
    unfold own_blocks at 2 in Po. cbn [filter snd] in Po. rewrite U1 in Po. cbn [negb map snd] in Po. fold (own_blocks (adel (mfld st) f1)) in Po.
    pose proof (Permutation_NoDup Po ND) as N3. apply NoDup_cons_iff in N3 as [N3 _]. apply N3. rewrite Eb.
    unfold own_blocks. apply (in_map (fun e => fblock (snd e)) _ (f2, x2)). apply filter_In. cbn. rewrite U2. split; [|reflexivity].
    apply aget_in. rewrite aget_adel. destruct (Nat.eqb_spec f1 f2); [contradiction|exact E2].
Qed.

Lemma all_given_back s st : program s st -> sraw s = [] -> (forall h, target s h = None) ->
  mfld st = [] /\ pool_active (mpool st) = 0.
Proof.
  intros H R T. assert (E : mfld st = []).
  { destruct (mfld st) as [|[f x] l] eqn:E; [reflexivity|]. exfalso.
    destruct (proj1 (live_iff s st H f)) as [C|(h & C)].
    - rewrite E, aget_cons, Nat.eqb_refl. discriminate.
    - rewrite R in C. destruct C.
    - rewrite T in C. discriminate. }
  split; [exact E|]. rewrite (proj1 (pool_matches s st H)), E. reflexivity.
Qed.

(** Copying a null handle. *)
Lemma null_copy st h g G : aget (mhs st) g = Some G -> hc G = None -> hstep st (OCopy h g) = UB.
Proof. intros E C. cbn [hstep]. rewrite E, C. reflexivity. Qed.
Lemma null_copy_prog : exists s st, program s st /\ in_scope s 0 /\ target s 0 = None /\ unused s 1 /\ hstep st (OCopy 1 0) = UB.
Proof.
  exists (spec_step hspec_new (ODefault 0)). eexists. split; [eapply p_step; [exact p_start|reflexivity|reflexivity]|].
  split; [discriminate|]. split; [reflexivity|]. split; reflexivity.
Qed.

(** Self-assignment. *)
Lemma sole_self s st h : program s st -> in_scope s h -> target s h <> None -> ~ shared s h -> hstep st (OAssign h h) = UB.
Proof.
  intros H Sc Tn Ns. pose proof (program_inv _ _ H) as SI. destruct (scope_get _ _ _ SI Sc) as [K Eh]. cbn [hstep]. rewrite Eh.
  destruct (release_ok s st h K SI Eh) as (st1 & H1 & Er & Hs & _ & _ & D1 & D). rewrite Er. cbn [obind].
  assert (F1 : hf H1 = None).
  { destruct (hf H1) as [f|] eqn:F1; [|reflexivity]. destruct D as (-> & h' & Nh & Eh'); [congruence|].
    destruct Ns. exists h'. rewrite !(target_get _ _ _ SI), Eh, Eh'. split; [exact Nh|]. split; [congruence|reflexivity]. }
  assert (Fk : hf K <> None) by (rewrite (target_get _ _ _ SI), Eh in Tn; exact Tn).
  destruct D1 as [->| ->]; [|contradiction].
  cbn [mhs set_hs]. rewrite aget_aset, Nat.eqb_refl. reflexivity.
Qed.

Definition same_mem (st st' : mem) : Prop :=
  mpool st = mpool st' /\ (forall k, aget (mfld st) k = aget (mfld st') k) /\
  (forall k, aget (mcnt st) k = aget (mcnt st') k) /\ (forall k, aget (mhs st) k = aget (mhs st') k).
Lemma shared_count s st h f : sinv s st -> target s h = Some f -> shared s h -> 2 <= Z.of_nat (handles_of s f).
Proof.
  intros SI E (h' & Nh & _ & Te). rewrite E in Te. pose proof SI as (I & _ & _).
  destruct (handle_facts s st h f SI E) as (K & c & x & Eh & F & C & N & _).
  destruct (handle_facts s st h' f SI Te) as (K' & c' & x' & Eh' & F' & C' & _).
  rewrite (counts_agree _ _ _ _ _ _ SI Eh F C), (cnt_adel _ h K c (n_h _ _ _ _ I) Eh), C, Nat.eqb_refl.
  assert (0 < cnt_of (adel (mhs st) h) c)%nat; [|lia].
  apply (cnt_has _ h' K'); [apply nodup_adel, (n_h _ _ _ _ I)| |].
  - rewrite aget_adel. destruct (Nat.eqb_spec h h'); [congruence|exact Eh'].
  - rewrite <- C. symmetry. eapply (e_uniq _ _ _ _ I); eauto.
Qed.
Lemma shared_self s st h : program s st -> shared s h -> exists st', hstep st (OAssign h h) = Ok st' /\ same_mem st st'.
Proof.
  intros H Sh. pose proof (program_inv _ _ H) as SI. destruct (target s h) as [f|] eqn:T; [|destruct Sh as (h' & _ & A & B); congruence].
  pose proof (shared_count s st h f SI T Sh) as L. destruct (handle_facts s st h f SI T) as (K & c & x & Eh & F & C & N & _).
  cbn [hstep]. rewrite Eh. unfold release. rewrite C, N. destruct (Z.eqb_spec (Z.of_nat (handles_of s f) - 1) 0); [lia|].
  cbn [obind mhs set_hs set_cnt]. rewrite aget_aset, Nat.eqb_refl, C. cbn [count_up mcnt set_hs set_cnt]. rewrite aget_aset, Nat.eqb_refl.
  cbn [obind]. eexists. split; [reflexivity|]. unfold same_mem. cbn [mhs mcnt mfld mpool set_hs set_cnt].
  split; [reflexivity|]. split; [reflexivity|]. split; intros k; rewrite !aget_aset.
  - destruct (Nat.eqb_spec c k) as [<-|]; [|reflexivity]. rewrite N. f_equal. cbn. lia.
  - destruct (Nat.eqb_spec h k) as [<-|]; [exact Eh|reflexivity].
Qed.

(** detach(). *)
Lemma detach_sole s st h : program s st -> in_scope s h -> ~ shared s h ->
  exists st1 st2, hstep st (ODetach h) = Ok st1 /\ isnull st1 h = Ok true /\
    (forall f, target s h = Some f -> aget (mfld st1) f = None) /\
    hstep st1 (ODestroy h) = Ok st2 /\ mpool st2 = mpool st1 /\ mfld st2 = mfld st1 /\ mcnt st2 = mcnt st1.
Proof.
  intros H Sc Ns. assert (L : legal s st (ODetach h)) by (split; assumption).
  destruct (step_ok s st _ (program_inv _ _ H) L) as (st1 & E1 & SI1).
  pose proof (p_step _ _ _ _ H L E1) as H1. exists st1.
  assert (Sc1 : in_scope (spec_step s (ODetach h)) h) by (unfold in_scope; cbn [spec_step starget]; rewrite aget_aset, Nat.eqb_refl; discriminate).
  assert (T1 : target (spec_step s (ODetach h)) h = None) by (unfold target; cbn [spec_step starget]; rewrite aget_aset, Nat.eqb_refl; reflexivity).
  destruct (scope_get _ _ _ SI1 Sc1) as [K1 Ek1].
  pose proof (program_inv _ _ H) as SI. destruct (scope_get _ _ _ SI Sc) as [K Eh].
  assert (C1 : hc K1 = None).
  { pose proof E1 as E1'. cbn [hstep] in E1'. rewrite Eh in E1'.
    destruct (release_ok s st h K SI Eh) as (st0 & K0 & Er & _ & _ & _ & _ & D). rewrite Er in E1'. cbn [obind] in E1'.
    injection E1' as E1'. rewrite <- E1' in Ek1. cbn [mhs set_hs] in Ek1. rewrite aget_aset, Nat.eqb_refl in Ek1. injection Ek1 as <-.
    (* the counter was released *)
    destruct (hc K0) as [c0|] eqn:C0; [|reflexivity]. exfalso.
    destruct (target s h) as [f|] eqn:T.
    - destruct (handle_facts s st h f SI T) as (K' & c & x & Eh' & F & C & N & Ex & Sx). rewrite Eh in Eh'. injection Eh' as <-.
      assert (F0 : hf K0 = None).
      { destruct (hf K0) as [f0|] eqn:F0; [|reflexivity]. destruct D as (-> & h' & Nh & Eh'); [congruence|].
        destruct Ns. exists h'. rewrite !(target_get _ _ _ SI), Eh, Eh'. split; [exact Nh|]. split; [congruence|reflexivity]. }
      revert Er. unfold release. rewrite C, N. destruct (Z.eqb_spec (Z.of_nat (handles_of s f) - 1) 0).
      + destruct (if hst K then _ else _) as [?| |]; [|discriminate|discriminate]. cbn [obind]. destruct (delete_field _ _); [|discriminate|discriminate].
        cbn [obind]. intros X. injection X as _ X. rewrite <- X in C0. discriminate.
      + intros X. injection X as _ X. congruence.
    - rewrite (target_get _ _ _ SI), Eh in T. revert Er. unfold release. destruct (hc K) as [c|] eqn:C.
      + destruct SI as (I & _ & _). destruct (e_st _ _ _ _ I _ _ _ Eh C T) as [Sf Sole].
        destruct (aget (mcnt st) c) as [n|] eqn:En; [|discriminate]. destruct (e_val _ _ _ _ I _ _ En) as [V P0].
        destruct (Z.eqb_spec (n - 1) 0).
        * rewrite Sf, T. cbn [obind delete_field]. intros X. injection X as _ X. rewrite <- X in C0. discriminate.
        * exfalso. pose proof (cnt_adel _ h K c (n_h _ _ _ _ I) Eh) as A. rewrite C, Nat.eqb_refl in A.
          destruct (cnt_pos (adel (mhs st) h) c (nodup_adel _ _ (n_h _ _ _ _ I))) as (k & L1 & Ek & Ck); [lia|].
          rewrite aget_adel in Ek. destruct (Nat.eqb_spec h k) as [|Nk]; [discriminate|]. destruct Nk. symmetry. eapply Sole; eauto.
      + intros X. injection X as _ X. congruence. }
  cbn [hstep]. rewrite Ek1. unfold release. rewrite C1. cbn [obind]. eexists. split; [exact E1|].
  split; [exact (observe_null _ _ _ H1 Sc1 T1)|]. split.
  - intros f Tf. destruct (aget (mfld st1) f) eqn:Ef; [|reflexivity]. exfalso.
    destruct (proj1 (live_iff _ _ H1 f)) as [R|(h' & T')]; [congruence| |].
    + cbn [spec_step sraw] in R. destruct (handle_facts s st h f SI Tf) as (K' & c & x & Eh' & F & _).
      destruct SI as (I & _ & _). destruct (e_live _ _ _ _ I _ _ _ Eh' F) as (_ & _ & _ & Nr). contradiction.
    + unfold target in T'. cbn [spec_step starget] in T'. rewrite aget_aset in T'. destruct (Nat.eqb_spec h h') as [Eq|Nh]; [discriminate T'|].
      destruct Ns. exists h'. change (target s h' = Some f) in T'. rewrite T', Tf. split; [auto|]. split; [discriminate|reflexivity].
  - split; [reflexivity|]. split; [reflexivity|]. split; reflexivity.
Qed.

(** Two handles share a field; one is detached and then goes out of scope: the
    other one is left dangling. *)
Lemma detach_shared s st h h' f : program s st -> h' <> h -> target s h = Some f -> target s h' = Some f -> handles_of s f = 2%nat ->
  exists st1 st2, hstep st (ODetach h) = Ok st1 /\ hstep st1 (ODestroy h) = Ok st2 /\ aget (mhs st2) h' = aget (mhs st) h' /\ deref st2 h' = UB.
Proof.
  intros H Nh T T' N2. pose proof (program_inv _ _ H) as SI. pose proof SI as (I & P & _).
  destruct (handle_facts s st h f SI T) as (K & c & x & Eh & F & C & N & Ex & Sx). rewrite N2 in N. change (Z.of_nat 2) with 2 in N.
  destruct (handle_facts s st h' f SI T') as (K' & c' & x' & Eh' & F' & C' & _).
  assert (K' = K). { eapply (e_same _ _ _ _ I _ _ _ _ c' Eh' Eh C'). rewrite <- C'. eapply (e_uniq _ _ _ _ I); eauto. } subst K'.
  set (st1 := set_hs (set_cnt st (aset (mcnt st) c 1)) (aset (mhs st) h K)).
  assert (Fin : exists p' H1, release st1 K = Ok (Mem p' (adel (mfld st) f) (adel (aset (aset (mcnt st) c 1) c 0) c) (aset (mhs st) h K), H1)).
  { unfold release. rewrite C. unfold st1 at 1. cbn [mcnt set_hs set_cnt]. rewrite aget_aset, Nat.eqb_refl. change (1 - 1) with 0. change (0 =? 0) with true. cbn iota.
    rewrite Sx, F. destruct (fbuilt x) eqn:B, (fuser x) eqn:U; cbn [orb negb].
    - destruct P as [_ KK]. specialize (KK _ _ Ex). rewrite B, U in KK. discriminate.
    - destruct (pinv_put _ _ _ _ (n_f _ _ _ _ I) P Ex U) as (p' & Ep & Pp). exists p'.
      cbn [obind delete_field mfld mpool set_cnt set_hs st1]. rewrite Ex, B, Ep. cbn. eauto.
    - exists (mpool st). cbn [obind delete_field mfld mpool set_cnt set_hs st1]. rewrite Ex, B. cbn. eauto.
    - destruct (pinv_put _ _ _ _ (n_f _ _ _ _ I) P Ex U) as (p' & Ep & Pp). exists p'.
      unfold restore_field. cbn [mfld mpool set_cnt set_hs st1]. rewrite Ex, Ep. cbn [obind delete_field mfld mpool set_pool set_cnt set_hs st1]. rewrite Ex, B. cbn. eauto. }
  destruct Fin as (p' & H1 & Ef). exists st1. eexists. cbn [hstep]. rewrite Eh. split; [|split].
  - unfold release. rewrite C, N. reflexivity.
  - unfold st1 at 1. cbn [mhs set_hs]. rewrite aget_aset, Nat.eqb_refl, Ef. cbn [obind]. reflexivity.
  - unfold deref. cbn [mhs set_hs mfld]. rewrite aget_adel, aget_aset. destruct (Nat.eqb_spec h h'); [congruence|]. rewrite Eh'. split; [reflexivity|].
    destruct K as [f0 c0 s0]. cbn in F. subst f0. rewrite aget_adel, Nat.eqb_refl. reflexivity.
Qed.
