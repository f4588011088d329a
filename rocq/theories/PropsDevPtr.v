(** C68: shared pointers to GPU memory (CUDASharedPointer).
    [gprogram n s st]: a legal program on a machine with n devices has led to
    memory st; [gtarget s v] is what pointer variable v should refer to, [graw s]
    the blocks from get_raw_pointer that no pointer owns yet, [gfrom s] the
    devices get_shared_pointer was asked for, [gdead s] how many pointers have
    gone out of scope. *)
From Verif Require Import Prelude PoolM PtrM DevPtrM DevPtrS DevPtrP DevPtrQ DevPtrR DevPtrE.

(** Legal programs never free a block twice, use dead memory, or throw. *)
Theorem C68_never_fails : forall n s st o, gprogram n s st -> glegal s st o -> exists st', gstep st o = Ok st'.
Proof. exact g_never_fails. Qed.
Print Assumptions C68_never_fails.
(** A block is allocated exactly as long as a pointer refers to it (or it has not
    been given to a pointer). *)
Theorem C68_allocated : forall n s st, gprogram n s st ->
  forall b, aget (gblk st) b <> None <-> In b (graw s) \/ exists v, gtarget s v = Some (Block b).
Proof. exact g_allocated. Qed.
Print Assumptions C68_allocated.
Theorem C68_observe : forall n s st v b, gprogram n s st -> gtarget s v = Some (Block b) ->
  g_isnull st v = Ok false /\ g_arrow st v = Ok (Some b) /\ g_refcount st v = Ok (Z.of_nat (pointers_to s b)) /\
  exists k, g_deviceID st v = Ok k /\ 0 <= k < n.
Proof. exact g_observe. Qed.
Print Assumptions C68_observe.
(** A null pointer; asking one that was never set for its count or device
    dereferences NULL. *)
Theorem C68_observe_null : forall n s st v, gprogram n s st -> (gtarget s v = Some Null \/ gtarget s v = Some Unset) ->
  g_isnull st v = Ok true /\ g_arrow st v = Ok None /\ (gtarget s v = Some Unset -> g_refcount st v = UB /\ g_deviceID st v = UB) /\
  (gtarget s v = Some Null -> exists m k, g_refcount st v = Ok m /\ 1 <= m /\ g_deviceID st v = Ok k /\ 0 <= k < n).
Proof. exact g_observe_null. Qed.
Print Assumptions C68_observe_null.
(** The device of a block from get_shared_pointer is the one asked for ... *)
Theorem C68_device : forall n s st v b k, gprogram n s st -> gtarget s v = Some (Block b) -> aget (gfrom s) b = Some k ->
  g_deviceID st v = Ok k /\ aget (gblk st) b = Some k.
Proof. exact g_device. Qed.
Print Assumptions C68_device.
(** ... but a raw block may be recorded with a device it is not on: the thread's
    current one, which freeing the pointer's old block has just changed. *)
Theorem C68_raw_device_refuted : exists s st v b k k', gprogram 2 s st /\ gtarget s v = Some (Block b) /\
  aget (gblk st) b = Some k /\ g_deviceID st v = Ok k' /\ k' <> k.
Proof. exact wrong_device. Qed.
Print Assumptions C68_raw_device_refuted.
Theorem C68_raw_device : forall n s st v b c rc dv k st', gprogram n s st -> glegal s st (GAssignRaw v (Some b) rc dv) ->
  gtarget s v = Some (Block c) -> g_deviceID st v = Ok k -> gstep st (GAssignRaw v (Some b) rc dv) = Ok st' ->
  g_deviceID st' v = Ok (gcur st') /\ gcur st' = if (pointers_to s c =? 1)%nat then k else gcur st.
Proof. exact g_raw_device. Qed.
Print Assumptions C68_raw_device.
(** Assigning a pointer to itself or to one it shares its block with changes
    nothing. *)
Theorem C68_same : forall n s st v w, gprogram n s st -> g_in_scope s v ->
  (v = w \/ exists b, gtarget s v = Some (Block b) /\ gtarget s w = Some (Block b)) -> gstep st (GAssign v w) = Ok st.
Proof. exact g_same. Qed.
Print Assumptions C68_same.
(** When all pointers are gone only unowned raw blocks are allocated, but every
    pointer that went out of scope has left two ints on the host heap. *)
Theorem C68_left_over : forall n s st, gprogram n s st -> (2 * gdead s <= length (gint st))%nat /\
  ((forall v, gtarget s v = None) -> length (gint st) = (2 * gdead s)%nat /\ forall b, aget (gblk st) b <> None <-> In b (graw s)).
Proof. exact g_left_over. Qed.
Print Assumptions C68_left_over.
(** The limits: assigning from a pointer that was never set dereferences NULL, and
    a raw block given to two pointers is freed twice. *)
Theorem C68_unset_refuted : forall n s st v w, gprogram n s st -> g_in_scope s v -> gtarget s v <> Some Unset -> gtarget s w = Some Unset ->
  gstep st (GAssign v w) = UB.
Proof. exact g_unset_assign. Qed.
Print Assumptions C68_unset_refuted.
Theorem C68_twice_refuted : exists st, grun (gmem_new 2 0) twice = Ok st /\ g_arrow st 1 = Ok (Some 50%nat) /\ g_refcount st 1 = Ok 1 /\
  aget (gblk st) 50 = None /\ gstep st (GDestroy 1 106 107) = Throw.
Proof. exact given_twice. Qed.
Print Assumptions C68_twice_refuted.
(** A device number that does not exist is an exception from both functions; only
    get_raw_pointer reports the first such number as a range error. *)
Theorem C68_no_device : forall st v b rc dv k, gdevs st <= k -> gstep st (GShared v b rc dv k) = Throw /\ gstep st (GMalloc b k) = Throw /\
  raw_error (gdevs st) k = Some RangeError /\ (shared_error (gdevs st) k = Some RangeError <-> k <> gdevs st).
Proof. exact g_no_device. Qed.
Print Assumptions C68_no_device.

Example C68_hyps_met : gprogram 2 gs7 gm7 /\ gtarget gs7 0 = Some (Block 50) /\ gtarget gs7 1 = Some (Block 50) /\ pointers_to gs7 50 = 2%nat /\
  aget (gfrom gs7) 50 = Some 1 /\ gtarget gs7 2 = Some (Block 51) /\ gtarget gs7 3 = Some Unset /\ glegal gs7 gm7 (GAssign 0 2) /\
  glegal gs7 gm7 (GDestroy 2 104 105) /\ glegal gs7 gm7 (GMalloc 52 0).
Proof.
  split; [exact gprog7|]. do 6 (split; [reflexivity|]). split; [split; [discriminate|]; split; discriminate|]. split.
  - split; [discriminate|]. run_fresh.
  - split; [unfold valid_device; cbn; lia|reflexivity].
Qed.
(** All of them destroyed: a program that ends with eight ints too many. *)
Definition gend : list gop := [GDestroy 0 104 105; GDestroy 1 106 107; GDestroy 2 108 109; GDestroy 3 110 111].
Example C68_left_over_hyps_met : exists st, gprogram 2 (fold_left gspec_step gend gs7) st /\
  (forall v, gtarget (fold_left gspec_step gend gs7) v = None) /\ gdead (fold_left gspec_step gend gs7) = 4%nat /\ length (gint st) = 8%nat.
Proof.
  set (st := match grun gm7 gend with Ok st => st | _ => gmem_new 0 0 end). exists st. split; [|split; [intros v; reflexivity|split; vm_compute; reflexivity]].
  apply (run_program 2 gend gs7 gm7 st gprog7); [|vm_compute; reflexivity]. unfold gend. cbn [legal_run].
  split; [split; [discriminate|run_fresh]|]. run_step. split; [split; [discriminate|run_fresh]|]. run_step.
  split; [split; [discriminate|run_fresh]|]. run_step. split; [split; [discriminate|run_fresh]|]. run_step. exact Logic.I.
Qed.
