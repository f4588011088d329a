(** C84: the lifetime of a thread pool. *)
From Verif Require Import Prelude ShutM LifeM LifeS LifeP LifeT.

(** Whoever uses a handle, a controller or the core through a worker finds the
    core alive: no call touches a destroyed pool or frees one twice. *)
Theorem C84_safe : forall pol w o, lhistory pol w -> lallowed w o -> exists st, lstep pol (lw_st w) o = Ok st.
Proof. exact safe. Qed.
Print Assumptions C84_safe.

(** The shutdown policy runs once, when the last handle goes. *)
Theorem C84_once : forall pol w, lhistory pol w ->
  shut_calls (lw_st w) = (if Nat.eqb (lw_h w) 0 then 1 else 0) /\ (l_phase (lw_st w) = NotCalled <-> (0 < lw_h w)%nat).
Proof. exact once. Qed.
Print Assumptions C84_once.

(** With a waiting policy no worker is at work once the destructor of the last
    handle has returned, then or later, whatever is asked of a controller. *)
Theorem C84_returned : forall pol w, lhistory pol w -> pol <> Immediately -> l_phase (lw_st w) = Returned ->
  forall x, In x (l_ws (lw_st w)) -> w_thr x <> Running.
Proof. exact returned. Qed.
Print Assumptions C84_returned.

(** The core is destroyed at most once, namely when the last handle, controller
    and worker's thread are gone and the last handle's destructor has returned; with
    the policy that does not wait only if no worker was at work when the last handle
    went. *)
Theorem C84_freed : forall pol w, lhistory pol w ->
  (core_freed (lw_st w) = 0 \/ core_freed (lw_st w) = 1) /\
  (core_freed (lw_st w) = 1 <-> all_gone w /\ (pol = Immediately -> lw_left w = false)).
Proof. exact freed. Qed.
Print Assumptions C84_freed.

(** With a waiting policy, outside shutdown() a worker is held exactly by its
    thread, so it is destroyed when the thread has ended. *)
Theorem C84_workers : forall pol w x, lhistory pol w -> pol <> Immediately -> l_phase (lw_st w) = NotCalled \/ l_phase (lw_st w) = Returned ->
  In x (l_ws (lw_st w)) -> w_rc x = match w_thr x with Exited => 0 | _ => 1 end.
Proof. exact workers. Qed.
Print Assumptions C84_workers.

(** When the program has dropped all handles and controllers, the threads of the
    pool can always finish and thereby destroy it, *)
Theorem C84_reclaimed : forall pol w, lhistory pol w -> pol <> Immediately -> lw_h w = 0%nat -> lw_c w = 0%nat ->
  exists n w', own_steps pol n w w' /\ core_freed (lw_st w') = 1.
Proof. exact reclaimed. Qed.
Print Assumptions C84_reclaimed.
(** and unless they are through one of them can go on, but not for ever. *)
Theorem C84_goes_on : forall pol w, lhistory pol w -> lw_h w = 0%nat ->
  (l_phase (lw_st w) = Returned /\ forall x, In x (l_ws (lw_st w)) -> w_thr x = Exited) \/ exists o, own o /\ lallowed w o.
Proof. exact own_next. Qed.
Print Assumptions C84_goes_on.
Theorem C84_ends : forall pol w w' n, own_steps pol n w w' -> (n <= 2 * length (l_ws (lw_st w)) + 3)%nat.
Proof. exact no_longer. Qed.
Print Assumptions C84_ends.

(** With the policy that does not wait, a pool can outlive everybody: all is gone
    and the core was never destroyed (it and the worker hold each other). *)
Theorem C84_leak_refuted : ~ forall w, lhistory Immediately w -> all_gone w -> core_freed (lw_st w) = 1.
Proof. intros H. pose proof (H _ leak_hist (proj1 (proj2 leak))) as E. discriminate E. Qed.
Print Assumptions C84_leak_refuted.

(** While a worker is busy with its task a waiting shutdown() does not return,
    whatever else happens; so a task that destroys the last handle of its own pool
    waits for ever. *)
Theorem C84_self : forall pol i w w', pol <> Immediately -> busy_run pol i w w' -> thr (lw_st w) i = Some Running ->
  l_phase (lw_st w) <> Returned -> l_phase (lw_st w') <> Returned.
Proof. exact self_wait. Qed.
Print Assumptions C84_self.

Example C84_hyps_met : lhistory WaitAll late_w /\ lallowed late_w CDrop /\ lallowed late_w Resize /\
  l_phase (lw_st late_w) = Returned /\ core_freed (lw_st late_w) = 0 /\ l_ws (lw_st late_w) <> [] /\
  (exists st, lstep WaitAll (lw_st late_w) CDrop = Ok st /\ core_freed st = 1 /\ all_gone (lnext late_w CDrop st)) /\
  lhistory WaitAll busy_w /\ thr (lw_st busy_w) 0 = Some Running /\ l_phase (lw_st busy_w) = Called /\ lw_h busy_w = 0%nat /\
  lhistory Immediately leak_w /\ all_gone leak_w.
Proof.
  refine (conj late_hist (conj _ (conj _ (conj eq_refl (conj eq_refl (conj _ (conj _ (conj busy_hist (conj eq_refl (conj eq_refl (conj eq_refl (conj leak_hist (proj1 (proj2 leak)))))))))))))).
  - cbn; lia.
  - cbn; lia.
  - discriminate.
  - eexists. split; [reflexivity|]. split; [reflexivity|]. repeat split. intros x [<-|[]]. reflexivity.
Qed.
