(** Proofs about the memory of masks: the pool with its two memories. *)
From Coq Require Import Permutation Sorted.
From Verif Require Import Prelude WindowM WindowS MaskM MaskS ConsumerM MaskLifeM PoolP.
From Verif Require PoolM.

Lemma mtype_eqb_eq a b : mtype_eqb a b = true <-> a = b.
Proof. destruct a, b; cbn; split; congruence. Qed.
Lemma mtype_eqb_refl a : mtype_eqb a a = true.
Proof. destruct a; reflexivity. Qed.

(** ** One queue *)
Lemma pool_get_facts m fsm pad high a n : StronglySorted Z.lt (keys m) -> 0 <= pad -> 0 <= n ->
  exists m' pad' k, StronglySorted Z.lt (keys m') /\ 0 <= pad' /\ n <= k /\
    (forall k0 q, In (k0, q) m -> exists q', In (k0, q') m') /\ (exists q', In (k, q') m') /\
    ((exists high', PoolM.pool_get (PoolM.Pool m fsm pad high) a n = (a, Some k, PoolM.Pool m' ((a, k) :: fsm) pad' high') /\
       queued m' = queued m /\ (forall k0 q p, In (k0, q) m' -> In p q -> In (k0, q) m)) \/
     (exists t, PoolM.pool_get (PoolM.Pool m fsm pad high) a n = (t, None, PoolM.Pool m' fsm pad' high) /\
       Permutation (t :: queued m') (queued m) /\ (exists q, In (k, t :: q) m) /\
       (forall k0 q p, In (k0, q) m' -> In p q -> exists q', In (k0, q') m /\ In p q'))).
Proof.
  intros S Hp Hn. unfold PoolM.pool_get; cbn [PoolM.ppad PoolM.pfqm PoolM.pfsm PoolM.phigh].
  set (pad' := if pad =? 0 then Z.quot n 10 else pad).
  assert (Hpad : 0 <= pad') by (unfold pad'; destruct (pad =? 0); [apply Z.quot_pos; lia|exact Hp]).
  destruct (PoolM.lower_bound m (n + pad')) as [[k [|t q]]|] eqn:L.
  - apply lb_some in L as (L1 & L2). exists m, pad', k. split; [exact S|]. split; [exact Hpad|]. split; [lia|].
    split; [eauto|]. split; [eauto|]. left. exists (high + 1). split; [reflexivity|]. split; [reflexivity|]. auto.
  - apply lb_some in L as (L1 & L2). exists (PoolM.set_queue m k q), pad', k. rewrite set_keys.
    assert (K : forall k0 q0, In (k0, q0) m -> exists q', In (k0, q') (PoolM.set_queue m k q)).
    { intros k0 q0 I. apply (in_map fst) in I. change (In k0 (keys m)) in I. rewrite <- (set_keys m k q) in I. unfold keys in I.
      apply in_map_iff in I as ([k1 q1] & E & J). cbn in E; subst. eauto. }
    split; [exact S|]. split; [exact Hpad|]. split; [lia|]. split; [exact K|]. split; [eapply K; eauto|].
    right. exists t. split; [reflexivity|]. split; [apply set_queued_pop; assumption|]. split; [eauto|].
    intros k0 q0 p I J. apply (set_in _ _ _ _ _ S) in I as [(-> & ->)|(_ & I)]; [|eauto]. exists (t :: q). split; [exact L1|right; exact J].
  - pose proof (lb_none _ _ L) as L1. exists (m ++ [(n + pad', [])]), pad', (n + pad').
    split; [apply sorted_snoc; assumption|]. split; [exact Hpad|]. split; [lia|].
    split; [intros k0 q I; exists q; apply in_app_iff; auto|]. split; [exists []; apply in_app_iff; right; left; reflexivity|].
    left. exists (high + 1). split; [reflexivity|]. split; [rewrite queued_app; cbn; apply app_nil_r|].
    intros k0 q p I J. apply in_app_iff in I as [I|[E|[]]]; [exact I|]. injection E as <- <-. destruct J.
Qed.
Lemma pool_put_facts m fsm pad high a k : StronglySorted Z.lt (keys m) -> NoDup (map fst fsm) -> In (a, k) fsm ->
  (exists q, In (k, q) m) ->
  exists m', PoolM.pool_put (PoolM.Pool m fsm pad high) a = Ok (PoolM.Pool m' fsm pad high) /\
    StronglySorted Z.lt (keys m') /\ Permutation (queued m') (a :: queued m) /\
    (forall k0 q, In (k0, q) m -> exists q', In (k0, q') m') /\
    (forall k0 q p, In (k0, q) m' -> In p q -> (p = a /\ k0 = k) \/ exists q', In (k0, q') m /\ In p q').
Proof.
  intros S N I (q & J). unfold PoolM.pool_put; cbn [PoolM.ppad PoolM.pfqm PoolM.pfsm PoolM.phigh].
  rewrite (fsm_size _ _ _ N I), (lb_key _ _ _ S J).
  assert (Ex : existsb (fun e => (fst e =? a)%nat) fsm = true) by (apply existsb_exists; exists (a, k); split; [exact I|apply Nat.eqb_refl]).
  rewrite Ex. eexists. split; [reflexivity|]. split; [rewrite set_keys; exact S|]. split; [apply set_queued_push; assumption|]. split.
  - intros k0 q0 I0. apply (in_map fst) in I0. change (In k0 (keys m)) in I0. rewrite <- (set_keys m k (a :: q)) in I0. unfold keys in I0.
    apply in_map_iff in I0 as ([k1 q1] & E & K). cbn in E; subst. eauto.
  - intros k0 q0 p I0 J0. apply (set_in _ _ _ _ _ S) in I0 as [(-> & ->)|(_ & I0)]; [|eauto].
    destruct J0 as [<-|J0]; [auto|]. right. exists q. auto.
Qed.

(** ** Memory: the blocks that are out, with their memory *)
Definition queue_ok (m : list (Z * list nat)) (fsm : list (nat * Z)) (h : nat -> option wblock) (t : mtype) : Prop :=
  StronglySorted Z.lt (keys m) /\
  (forall k q p, In (k, q) m -> In p q -> In (p, k) fsm /\ exists b, h p = Some b /\ b_at b = t) /\
  (forall p k b, In (p, k) fsm -> h p = Some b -> b_at b = t -> exists q, In (k, q) m).
Record mem_ok (s : mstate) (out : list (mtype * nat)) : Prop := {
  mo_cpu : queue_ok (mp_cpu (s_pool s)) (mp_fsm (s_pool s)) (s_heap s) LOCAL_RAM;
  mo_gpu : queue_ok (mp_gpu (s_pool s)) (mp_fsm (s_pool s)) (s_heap s) EXTERNAL_CUDA_GPU;
  mo_nodup : NoDup (map fst (mp_fsm (s_pool s)));
  mo_perm : Permutation (map snd out ++ queued (mp_cpu (s_pool s)) ++ queued (mp_gpu (s_pool s))) (map fst (mp_fsm (s_pool s)));
  mo_out : forall t a, In (t, a) out -> exists b, s_heap s a = Some b /\ b_at b = t;
  mo_len : forall p k, In (p, k) (mp_fsm (s_pool s)) -> exists b, s_heap s p = Some b /\ length (b_words b) = Z.to_nat k;
  mo_next : forall p, In p (map fst (mp_fsm (s_pool s))) -> (p < s_next s)%nat;
  mo_pad : 0 <= mp_pad (s_pool s)
}.
Lemma mem_ok_new : mem_ok no_memory [].
Proof.
  constructor; cbn; try (split; [constructor|split]; cbn; intros; contradiction); try (constructor); try (intros; contradiction); lia.
Qed.
Lemma mem_ok_perm s o o' : Permutation o o' -> mem_ok s o -> mem_ok s o'.
Proof.
  intros P [A B C D E F G H]. constructor; auto.
  - rewrite <- D. apply Permutation_app_tail, Permutation_map. symmetry. exact P.
  - intros t a I. apply E. eapply Permutation_in; [symmetry; exact P|exact I].
Qed.
Lemma mem_ok_fresh s o : mem_ok s o -> ~ In (s_next s) (map fst (mp_fsm (s_pool s))).
Proof. intros M I. pose proof (mo_next _ _ M _ I). lia. Qed.
Lemma mem_ok_out_fsm s o t a : mem_ok s o -> In (t, a) o -> In a (map fst (mp_fsm (s_pool s))).
Proof.
  intros M I. eapply Permutation_in; [exact (mo_perm _ _ M)|]. apply in_app_iff. left. apply (in_map snd) in I. exact I.
Qed.
Lemma mem_ok_out_nodup s o : mem_ok s o -> NoDup (map snd o).
Proof.
  intros M. pose proof (mo_nodup _ _ M) as N. eapply Permutation_NoDup in N; [|symmetry; exact (mo_perm _ _ M)].
  revert N. generalize (queued (mp_cpu (s_pool s)) ++ queued (mp_gpu (s_pool s))) as r. generalize (map snd o) as l.
  induction l as [|x l IH]; intros r N; [constructor|]. cbn in N. apply NoDup_cons_iff in N as (N1 & N2).
  constructor; [intros I; apply N1, in_app_iff; auto|eauto].
Qed.

Section Proofs.
Variable cuda : bool.
Variable junk : nat -> nat -> Z.

Definition supported (t : mtype) : Prop := t = LOCAL_RAM \/ (t = EXTERNAL_CUDA_GPU /\ cuda = true).

Lemma queue_ok_grow m fsm h t a k b : queue_ok m fsm h t -> ~ In a (map fst fsm) ->
  (b_at b = t -> exists q, In (k, q) m) ->
  queue_ok m ((a, k) :: fsm) (fun x => if Nat.eqb x a then Some b else h x) t.
Proof.
  intros (S & Q1 & Q2) Fr B. split; [exact S|]. split.
  - intros k0 q p I J. destruct (Q1 k0 q p I J) as (F & b0 & H & T). split; [right; exact F|]. exists b0.
    destruct (Nat.eqb_spec p a) as [->|]; [|auto]. destruct Fr. exact (in_map fst _ _ F).
  - intros p k0 b0 [E|I] H T.
    + injection E as <- <-. rewrite Nat.eqb_refl in H. injection H as <-. auto.
    + destruct (Nat.eqb_spec p a) as [->|]; [destruct Fr; exact (in_map fst _ _ I)|]. eapply Q2; eauto.
Qed.

Lemma mget_ok s o t n : mem_ok s o -> supported t -> 0 <= n ->
  exists a s', mget cuda junk s t n = (Some a, s') /\ mem_ok s' ((t, a) :: o) /\ ~ In a (map snd o) /\
    (exists b, s_heap s' a = Some b /\ (Z.to_nat n <= length (b_words b))%nat) /\
    (forall p, In p (map snd o) -> s_heap s' p = s_heap s p).
Proof.
  intros M T Hn. pose proof (mem_ok_fresh _ _ M) as Fr. destruct M as [C G N P O L X Pd].
  assert (Fo : forall p, In p (map snd o) -> In p (map fst (mp_fsm (s_pool s)))).
  { intros p I. eapply Permutation_in; [exact P|]. apply in_app_iff. auto. }
  destruct T as [->|(-> & ->)]; cbn [mget].
  - destruct C as (S & C1 & C2).
    destruct (pool_get_facts _ (mp_fsm (s_pool s)) _ (mp_chigh (s_pool s)) (s_next s) n S Pd Hn) as (m' & pad' & k & S' & Hp' & Hk & K1 & K2 & [(high' & E & Q & Q1)|(tt & E & Pq & Iq & Q1)]);
      unfold cpu_side; rewrite E.
    + exists (s_next s). eexists. split; [reflexivity|]. split; [|split; [|split]].
      * constructor; cbn [s_pool s_next s_heap with_cpu mp_cpu mp_gpu mp_fsm mp_pad PoolM.pfqm PoolM.pfsm PoolM.ppad].
        -- apply queue_ok_grow; [|exact Fr|intros _; exact K2]. split; [exact S'|]. split.
           ++ intros k0 q p I J. eapply C1; [eapply Q1; eauto|exact J].
           ++ intros p k0 b I H T. destruct (C2 p k0 b I H T) as (q & J). eapply K1; eauto.
        -- apply queue_ok_grow; [exact G|exact Fr|]. cbn. discriminate.
        -- cbn. constructor; assumption.
        -- cbn [map fst snd app]. constructor. rewrite Q. exact P.
        -- intros t a [E1|I]; unfold heap_set.
           ++ injection E1 as <- <-. rewrite Nat.eqb_refl. eexists. split; reflexivity.
           ++ destruct (Nat.eqb_spec a (s_next s)) as [->|]; [|apply O; exact I].
              destruct Fr. apply Fo. apply (in_map snd) in I. exact I.
        -- unfold heap_set. intros p k0 [E1|I].
           ++ injection E1 as <- <-. rewrite Nat.eqb_refl. eexists. split; [reflexivity|]. cbn. rewrite map_length, seq_length. reflexivity.
           ++ destruct (Nat.eqb_spec p (s_next s)) as [->|]; [destruct Fr; exact (in_map fst _ _ I)|]. apply L. exact I.
        -- cbn [map fst]. intros p [<-|I]; [lia|]. specialize (X p I). lia.
        -- exact Hp'.
      * intros I. apply Fr, Fo, I.
      * cbn. unfold heap_set. rewrite Nat.eqb_refl. eexists. split; [reflexivity|]. cbn. rewrite map_length, seq_length. lia.
      * intros p I. cbn. unfold heap_set. destruct (Nat.eqb_spec p (s_next s)) as [->|]; [destruct Fr; auto|reflexivity].
    + exists tt. eexists. split; [reflexivity|]. destruct Iq as (q0 & Iq).
      destruct (C1 k (tt :: q0) tt Iq (or_introl eq_refl)) as (Ft & bt & Ht & Tt).
      assert (P' : Permutation (map snd ((LOCAL_RAM, tt) :: o) ++ queued m' ++ queued (mp_gpu (s_pool s))) (map fst (mp_fsm (s_pool s)))).
      { rewrite <- P. cbn [map snd app]. rewrite <- Pq. cbn [app]. rewrite Permutation_middle. reflexivity. }
      split; [|split; [|split]].
      * constructor; cbn [s_pool s_next s_heap with_cpu mp_cpu mp_gpu mp_fsm mp_pad PoolM.pfqm PoolM.pfsm PoolM.ppad]; auto.
        -- split; [exact S'|]. split.
           ++ intros k0 q p I J. destruct (Q1 k0 q p I J) as (q' & I' & J'). eapply C1; eauto.
           ++ intros p k0 b I H T. destruct (C2 p k0 b I H T) as (q & J). eapply K1; eauto.
        -- intros t a [E1|I]; [injection E1 as <- <-; eauto|apply O; exact I].
      * pose proof N as N2. eapply Permutation_NoDup in N2; [|symmetry; exact P']. cbn in N2. apply NoDup_cons_iff in N2 as (N2 & _).
        intros I. apply N2, in_app_iff. auto.
      * cbn. destruct (L tt k Ft) as (b & Hb & Lb). exists b. split; [exact Hb|]. rewrite Lb. lia.
      * intros p I. reflexivity.
  - destruct G as (S & C1 & C2).
    destruct (pool_get_facts _ (mp_fsm (s_pool s)) _ (mp_ghigh (s_pool s)) (s_next s) n S Pd Hn) as (m' & pad' & k & S' & Hp' & Hk & K1 & K2 & [(high' & E & Q & Q1)|(tt & E & Pq & Iq & Q1)]);
      unfold gpu_side; rewrite E.
    + exists (s_next s). eexists. split; [reflexivity|]. split; [|split; [|split]].
      * constructor; cbn [s_pool s_next s_heap with_gpu mp_cpu mp_gpu mp_fsm mp_pad PoolM.pfqm PoolM.pfsm PoolM.ppad].
        -- apply queue_ok_grow; [exact C|exact Fr|]. cbn. discriminate.
        -- apply queue_ok_grow; [|exact Fr|intros _; exact K2]. split; [exact S'|]. split.
           ++ intros k0 q p I J. eapply C1; [eapply Q1; eauto|exact J].
           ++ intros p k0 b I H T. destruct (C2 p k0 b I H T) as (q & J). eapply K1; eauto.
        -- cbn. constructor; assumption.
        -- cbn [map fst snd app]. constructor. rewrite Q. exact P.
        -- intros t a [E1|I]; unfold heap_set.
           ++ injection E1 as <- <-. rewrite Nat.eqb_refl. eexists. split; reflexivity.
           ++ destruct (Nat.eqb_spec a (s_next s)) as [->|]; [|apply O; exact I].
              destruct Fr. apply Fo. apply (in_map snd) in I. exact I.
        -- unfold heap_set. intros p k0 [E1|I].
           ++ injection E1 as <- <-. rewrite Nat.eqb_refl. eexists. split; [reflexivity|]. cbn. rewrite map_length, seq_length. reflexivity.
           ++ destruct (Nat.eqb_spec p (s_next s)) as [->|]; [destruct Fr; exact (in_map fst _ _ I)|]. apply L. exact I.
        -- cbn [map fst]. intros p [<-|I]; [lia|]. specialize (X p I). lia.
        -- exact Hp'.
      * intros I. apply Fr, Fo, I.
      * cbn. unfold heap_set. rewrite Nat.eqb_refl. eexists. split; [reflexivity|]. cbn. rewrite map_length, seq_length. lia.
      * intros p I. cbn. unfold heap_set. destruct (Nat.eqb_spec p (s_next s)) as [->|]; [destruct Fr; auto|reflexivity].
    + exists tt. eexists. split; [reflexivity|]. destruct Iq as (q0 & Iq).
      destruct (C1 k (tt :: q0) tt Iq (or_introl eq_refl)) as (Ft & bt & Ht & Tt).
      assert (P' : Permutation (map snd ((EXTERNAL_CUDA_GPU, tt) :: o) ++ queued (mp_cpu (s_pool s)) ++ queued m') (map fst (mp_fsm (s_pool s)))).
      { rewrite <- P. cbn [map snd app]. rewrite <- Pq. rewrite !app_assoc. rewrite <- Permutation_middle. reflexivity. }
      split; [|split; [|split]].
      * constructor; cbn [s_pool s_next s_heap with_gpu mp_cpu mp_gpu mp_fsm mp_pad PoolM.pfqm PoolM.pfsm PoolM.ppad]; auto.
        -- split; [exact S'|]. split.
           ++ intros k0 q p I J. destruct (Q1 k0 q p I J) as (q' & I' & J'). eapply C1; eauto.
           ++ intros p k0 b I H T. destruct (C2 p k0 b I H T) as (q & J). eapply K1; eauto.
        -- intros t a [E1|I]; [injection E1 as <- <-; eauto|apply O; exact I].
      * pose proof N as N2. eapply Permutation_NoDup in N2; [|symmetry; exact P']. cbn in N2. apply NoDup_cons_iff in N2 as (N2 & _).
        intros I. apply N2, in_app_iff. auto.
      * cbn. destruct (L tt k Ft) as (b & Hb & Lb). exists b. split; [exact Hb|]. rewrite Lb. lia.
      * intros p I. reflexivity.
Qed.

Lemma mput_ok s o t a : mem_ok s ((t, a) :: o) -> t <> OTHER_MEMORY ->
  exists s', mput s t a = Some s' /\ mem_ok s' o /\ s_heap s' = s_heap s.
Proof.
  intros M T. pose proof (mem_ok_out_fsm _ _ t a M (or_introl eq_refl)) as If. destruct M as [C G N P O L X Pd].
  apply in_map_iff in If as ([a' k] & E & If). cbn in E; subst a'.
  destruct (O t a (or_introl eq_refl)) as (b & Hb & Tb).
  destruct t; [| |congruence]; cbn [mput].
  - destruct C as (S & C1 & C2). destruct (C2 a k b If Hb Tb) as (q & Iq).
    destruct (pool_put_facts _ _ (mp_pad (s_pool s)) (mp_chigh (s_pool s)) a k S N If (ex_intro _ q Iq)) as (m' & E & S' & Pq & K1 & K2).
    unfold cpu_side. rewrite E. eexists. split; [reflexivity|]. split; [|reflexivity].
    constructor; cbn [s_pool s_next s_heap with_cpu mp_cpu mp_gpu mp_fsm mp_pad PoolM.pfqm PoolM.pfsm PoolM.ppad]; auto.
    + split; [exact S'|]. split.
      * intros k0 q0 p I J. destruct (K2 k0 q0 p I J) as [(-> & ->)|(q' & I' & J')]; [eauto|eapply C1; eauto].
      * intros p k0 b0 I H T0. destruct (C2 p k0 b0 I H T0) as (q1 & J). eapply K1; eauto.
    + rewrite <- P, Pq. cbn [map snd app]. rewrite <- Permutation_middle. reflexivity.
    + intros t0 a0 I. apply O. right. exact I.
  - destruct G as (S & C1 & C2). destruct (C2 a k b If Hb Tb) as (q & Iq).
    destruct (pool_put_facts _ _ (mp_pad (s_pool s)) (mp_ghigh (s_pool s)) a k S N If (ex_intro _ q Iq)) as (m' & E & S' & Pq & K1 & K2).
    unfold gpu_side. rewrite E. eexists. split; [reflexivity|]. split; [|reflexivity].
    constructor; cbn [s_pool s_next s_heap with_gpu mp_cpu mp_gpu mp_fsm mp_pad PoolM.pfqm PoolM.pfsm PoolM.ppad]; auto.
    + split; [exact S'|]. split.
      * intros k0 q0 p I J. destruct (K2 k0 q0 p I J) as [(-> & ->)|(q' & I' & J')]; [eauto|eapply C1; eauto].
      * intros p k0 b0 I H T0. destruct (C2 p k0 b0 I H T0) as (q1 & J). eapply K1; eauto.
    + rewrite <- P, Pq. cbn [map snd app]. rewrite !app_assoc. rewrite <- Permutation_middle. reflexivity.
    + intros t0 a0 I. apply O. right. exact I.
Qed.

Lemma mput_all_ok s l o : mem_ok s (map (fun e => (EXTERNAL_CUDA_GPU, snd e)) l ++ o) ->
  exists s', mput_all s l = Some s' /\ mem_ok s' o /\ s_heap s' = s_heap s.
Proof.
  revert s. induction l as [|e l IH]; intros s M; cbn [map app mput_all] in *; [eauto|].
  destruct (mput_ok s _ EXTERNAL_CUDA_GPU (snd e) M) as (s' & E & M' & H); [discriminate|]. rewrite E.
  destruct (IH s' M') as (s2 & E2 & M2 & H2). exists s2. rewrite H2. auto.
Qed.

End Proofs.

(** ** Contents *)
(** The first words of block a. *)
Definition content (s : mstate) (a : nat) (l : list Z) : Prop :=
  exists b, s_heap s a = Some b /\ firstn (length l) (b_words b) = l.
Lemma content_heap s s' a l : s_heap s' a = s_heap s a -> content s a l -> content s' a l.
Proof. intros E (b & H & F). exists b. rewrite E. auto. Qed.
Lemma firstn_le_length (A : Type) (l x : list A) : firstn (length l) x = l -> (length l <= length x)%nat.
Proof. intros E. rewrite <- E at 1. rewrite firstn_length. lia. Qed.
Lemma load_content s o t a l : mem_ok s o -> In (t, a) o -> content s a l -> load s t a (length l) = Some l.
Proof.
  intros M I (b & H & F). destruct (mo_out _ _ M _ _ I) as (b' & H' & T). rewrite H in H'. injection H' as <-.
  unfold load. rewrite H, T, mtype_eqb_refl. cbn [andb].
  rewrite (proj2 (Nat.leb_le _ _) (firstn_le_length _ _ _ F)), F. reflexivity.
Qed.
Lemma store_ok s o t a l : mem_ok s o -> In (t, a) o ->
  (exists b, s_heap s a = Some b /\ (length l <= length (b_words b))%nat) ->
  exists s', store s t a l = Some s' /\ mem_ok s' o /\ content s' a l /\
    (forall p, p <> a -> s_heap s' p = s_heap s p) /\
    (exists b, s_heap s' a = Some b /\ (length l <= length (b_words b))%nat) /\
    (content s a l -> forall p, s_heap s' p = s_heap s p).
Proof.
  intros M I (b & H & Le). destruct (mo_out _ _ M _ _ I) as (b' & H' & T). rewrite H in H'. injection H' as <-.
  unfold store. rewrite H, T, mtype_eqb_refl, (proj2 (Nat.leb_le _ _) Le). cbn [andb].
  set (nb := WBlock t (l ++ skipn (length l) (b_words b))).
  assert (Ln : length (b_words nb) = length (b_words b)) by (cbn; rewrite app_length, skipn_length; lia).
  eexists. split; [reflexivity|].
  assert (At : forall p b0, s_heap s p = Some b0 -> exists b1, heap_set s a nb p = Some b1 /\ b_at b1 = b_at b0 /\ length (b_words b1) = length (b_words b0)).
  { intros p b0 H0. unfold heap_set. destruct (Nat.eqb_spec p a) as [->|]; [|eauto]. rewrite H in H0. injection H0 as <-. exists nb. auto. }
  assert (Ab : forall p b1, heap_set s a nb p = Some b1 -> exists b0, s_heap s p = Some b0 /\ b_at b0 = b_at b1).
  { intros p b1. unfold heap_set. destruct (Nat.eqb_spec p a) as [->|]; [|eauto]. intros E. injection E as <-. exists b. auto. }
  assert (Qo : forall m t0, queue_ok m (mp_fsm (s_pool s)) (s_heap s) t0 -> queue_ok m (mp_fsm (s_pool s)) (heap_set s a nb) t0).
  { intros m t0 (S & Q1 & Q2). split; [exact S|]. split.
    - intros k q p I1 J. destruct (Q1 k q p I1 J) as (F & b0 & H0 & T0). split; [exact F|]. destruct (At p b0 H0) as (b1 & H1 & T1 & _). exists b1. split; congruence.
    - intros p k b1 F H1 T1. destruct (Ab p b1 H1) as (b0 & H0 & T0). eapply Q2; eauto. congruence. }
  split; [|split; [|split; [|split]]].
  - destruct M as [C G N P O L X Pd]. constructor; cbn [s_pool s_next s_heap]; auto.
    + intros t0 a0 I0. destruct (O t0 a0 I0) as (b0 & H0 & T0). destruct (At _ _ H0) as (b1 & H1 & T1 & _). exists b1. split; congruence.
    + intros p k I0. destruct (L p k I0) as (b0 & H0 & L0). destruct (At _ _ H0) as (b1 & H1 & _ & L1). exists b1. split; congruence.
  - exists nb. cbn. unfold heap_set. rewrite Nat.eqb_refl. split; [reflexivity|]. rewrite firstn_app, Nat.sub_diag, firstn_all. cbn. apply app_nil_r.
  - intros p Np. cbn. unfold heap_set. destruct (Nat.eqb_spec p a); [contradiction|reflexivity].
  - exists nb. cbn. unfold heap_set. rewrite Nat.eqb_refl. split; [reflexivity|]. fold (b_words nb). change (length (l ++ skipn (length l) (b_words b))) with (length (b_words nb)). lia.
  - intros (b0 & H0 & F0) p. rewrite H in H0. injection H0 as <-. cbn. unfold heap_set. destruct (Nat.eqb_spec p a) as [->|]; [|reflexivity].
    rewrite H. f_equal. unfold nb. rewrite <- F0 at 1. rewrite firstn_skipn. destruct b; cbn in *. congruence.
Qed.
