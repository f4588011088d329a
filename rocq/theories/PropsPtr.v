(** Property theorems about field handles: C25, C26.
    [program s st]: a legal program has led to memory [st]; [target s h] is the
    field handle variable [h] should refer to, [sraw s] the fields made with
    new that no handle owns yet. *)
From Verif Require Import Prelude PoolM PoolS PtrM PtrS PtrP PtrQ.

(** C25.  Legal programs never touch or free dead memory. *)
Theorem C25_never_fails : forall s st o, program s st -> legal s st o -> exists st', hstep st o = Ok st'.
Proof. exact never_fails. Qed.
Print Assumptions C25_never_fails.

(** A field is alive exactly as long as a handle refers to it (or it has not
    been given to a handle). *)
Theorem C25_alive : forall s st, program s st ->
  forall f, aget (mfld st) f <> None <-> In f (sraw s) \/ exists h, target s h = Some f.
Proof. exact live_iff. Qed.
Print Assumptions C25_alive.

(** What a handle shows: the right field, and the number of handles sharing it. *)
Theorem C25_observe : forall s st h f, program s st -> target s h = Some f ->
  isnull st h = Ok false /\ use_count st h = Ok (Z.of_nat (handles_of s f)) /\
  exists x, aget (mfld st) f = Some x /\ deref st h = Ok x.
Proof. exact observe. Qed.
Print Assumptions C25_observe.
Theorem C25_observe_null : forall s st h, program s st -> in_scope s h -> target s h = None -> isnull st h = Ok true.
Proof. exact observe_null. Qed.
Print Assumptions C25_observe_null.

(** The memory of the live pool-backed fields is exactly what the pool has handed
    out: no block is shared by two fields, and none is lost or given back twice. *)
Theorem C25_memory : forall s st, program s st ->
  pool_active (mpool st) = Z.of_nat (pooled (mfld st)) /\
  forall f1 x1 f2 x2, aget (mfld st) f1 = Some x1 -> aget (mfld st) f2 = Some x2 ->
    fuser x1 = false -> fuser x2 = false -> fblock x1 = fblock x2 -> f1 = f2.
Proof. exact pool_matches. Qed.
Print Assumptions C25_memory.
Theorem C25_all_given_back : forall s st, program s st -> sraw s = [] -> (forall h, target s h = None) ->
  mfld st = [] /\ pool_active (mpool st) = 0.
Proof. exact all_given_back. Qed.
Print Assumptions C25_all_given_back.

(** The limit of C25: copying a null handle dereferences NULL. *)
Theorem C25_null_copy_refuted :
  exists s st, program s st /\ in_scope s 0 /\ target s 0 = None /\ unused s 1 /\ hstep st (OCopy 1 0) = UB.
Proof. exact null_copy_prog. Qed.
Print Assumptions C25_null_copy_refuted.

(** C26.  Self-assignment of a handle that shares its field has no effect ... *)
Theorem C26_self_assign_shared : forall s st h, program s st -> shared s h ->
  exists st', hstep st (OAssign h h) = Ok st' /\ same_mem st st'.
Proof. exact shared_self. Qed.
Print Assumptions C26_self_assign_shared.
(** ... but the only owner destroys its field and then dereferences NULL. *)
Theorem C26_self_assign_refuted : forall s st h, program s st -> in_scope s h -> target s h <> None -> ~ shared s h ->
  hstep st (OAssign h h) = UB.
Proof. exact sole_self. Qed.
Print Assumptions C26_self_assign_refuted.

(** detach() on the only owner gives the field back, once: the destructor does
    nothing more. *)
Theorem C26_detach_sole : forall s st h, program s st -> in_scope s h -> ~ shared s h ->
  exists st1 st2, hstep st (ODetach h) = Ok st1 /\ isnull st1 h = Ok true /\
    (forall f, target s h = Some f -> aget (mfld st1) f = None) /\
    hstep st1 (ODestroy h) = Ok st2 /\ mpool st2 = mpool st1 /\ mfld st2 = mfld st1 /\ mcnt st2 = mcnt st1.
Proof. exact detach_sole. Qed.
Print Assumptions C26_detach_sole.
(** detach() on one of two owners gives up both shares: once the detached handle
    goes out of scope the other one dangles. *)
Theorem C26_detach_shared_refuted : forall s st h h' f, program s st -> h' <> h ->
  target s h = Some f -> target s h' = Some f -> handles_of s f = 2%nat ->
  exists st1 st2, hstep st (ODetach h) = Ok st1 /\ hstep st1 (ODestroy h) = Ok st2 /\
    aget (mhs st2) h' = aget (mhs st) h' /\ deref st2 h' = UB.
Proof. exact detach_shared. Qed.
Print Assumptions C26_detach_shared_refuted.

(** A program with a store field (shared by handles 0 and 1), and a user's field
    owned by handle 2. *)
Definition hp1 := OStore 0 100 200 300 40.
Definition hp2 := OCopy 1 0.
Definition hp3 := ONewField 101 301 20.
Definition hp4 := OWrap 2 (Some 101%nat) 201.
Definition hs4 : hspec := spec_step (spec_step (spec_step (spec_step hspec_new hp1) hp2) hp3) hp4.
Definition hm4 : mem := match hrun mem_new [hp1; hp2; hp3; hp4] with Ok st => st | _ => mem_new end.
Lemma hprog4 : program hs4 hm4.
Proof.
  unfold hs4. eapply p_step; [eapply p_step; [eapply p_step; [eapply p_step; [exact p_start| |reflexivity]| |reflexivity]| |reflexivity]| |reflexivity].
  - cbn. unfold unused, fresh_field, fresh_counter, fresh_block. cbn. intuition (try lia; reflexivity).
  - split; [reflexivity|]. discriminate.
  - cbn. unfold fresh_field, fresh_block. cbn. split; [reflexivity|]. split; [intros [E|[]]; discriminate|lia].
  - cbn. unfold unused, fresh_counter. cbn. auto.
Qed.
Example C25_hyps_met :
  program hs4 hm4 /\ target hs4 1 = Some 100%nat /\ target hs4 2 = Some 101%nat /\ handles_of hs4 100 = 2%nat /\
  use_count hm4 0 = Ok 2 /\ pool_active (mpool hm4) = 2 /\
  legal hs4 hm4 (OAssign 0 2) /\ legal hs4 hm4 (ODestroy 1).
Proof.
  split; [exact hprog4|]. do 5 (split; [reflexivity|]). split; [|discriminate].
  split; [discriminate|]. split; [discriminate|]. discriminate.
Qed.
Example C26_hyps_met :
  program hs4 hm4 /\ shared hs4 0 /\ in_scope hs4 2 /\ target hs4 2 <> None /\ ~ shared hs4 2 /\
  target hs4 0 = Some 100%nat /\ target hs4 1 = Some 100%nat /\ handles_of hs4 100 = 2%nat.
Proof.
  split; [exact hprog4|]. split. { exists 1%nat. split; [discriminate|]. split; [discriminate|reflexivity]. }
  split; [discriminate|]. split; [discriminate|]. split; [|auto].
  intros (h' & N & _ & E). cbn in E. destruct h' as [|[|[|h']]]; cbn in E; try discriminate; congruence.
Qed.
(** After everything is destroyed nothing is left. *)
Definition hs8 := spec_step (spec_step (spec_step (spec_step hs4 (OAssign 0 2)) (ODestroy 1)) (ODestroy 0)) (ODestroy 2).
Definition after (st : mem) (o : hop) : mem := match hstep st o with Ok st' => st' | _ => mem_new end.
Lemma after_ok st o : (match hstep st o with Ok _ => true | _ => false end) = true -> hstep st o = Ok (after st o).
Proof. unfold after. destruct (hstep st o); [reflexivity|discriminate|discriminate]. Qed.
Definition hm8 : mem := after (after (after (after hm4 (OAssign 0 2)) (ODestroy 1)) (ODestroy 0)) (ODestroy 2).
Example C25_all_given_back_hyps_met : program hs8 hm8 /\ sraw hs8 = [] /\ (forall h, target hs8 h = None).
Proof.
  split; [|split; [reflexivity|intros h; reflexivity]].
  unfold hs8, hm8.
  eapply p_step; [eapply p_step; [eapply p_step; [eapply p_step; [exact hprog4| |]| |]| |]| |]; try (apply after_ok; vm_compute; reflexivity).
  - apply C25_hyps_met.
  - discriminate.
  - discriminate.
  - discriminate.
Qed.
