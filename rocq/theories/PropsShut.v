(** Destroying a thread pool: the properties. *)
From Verif Require Import Prelude TPoolM TPoolS ShutM ShutS ShutP ShutQ ShutE.

(** When the destructor of a pool that waits (for all or for the active tasks)
    has returned, whatever workers and other threads did meanwhile, every task
    scheduled before it began has come to an end or was removed by clear(), and
    there is no worker. *)
Theorem C63_done : forall k p a tr s,
  p <> Immediately -> treach (pool_new k) a -> srun (shutdown p a) tr s -> over s ->
  contained (gsched a) (settled (spool s)) /\ no_workers (spool s).
Proof. exact shutdown_done. Qed.
Print Assumptions C63_done.
(** wait_for_all_tasks: unless another thread calls clear() meanwhile, every one of
    these tasks has run, except those removed before the destruction began. *)
Theorem C63_all_run : forall k a tr s,
  treach (pool_new k) a -> srun (shutdown WaitAll a) tr s -> over s -> ~ In (SPool LClear) tr ->
  contained (gsched a) (gdone (spool s) ++ gfail (spool s) ++ gclear a).
Proof. exact shutdown_all_run. Qed.
Print Assumptions C63_all_run.
(** There never is a worker again, whoever still calls the core. *)
Theorem C63_no_workers_stay : forall k p a tr s st,
  p <> Immediately -> treach (pool_new k) a -> srun (shutdown p a) tr s -> over s ->
  treach (spool s) st -> no_workers st.
Proof. exact shutdown_stays. Qed.
Print Assumptions C63_no_workers_stay.
(** After the destructor's clear() no task starts, if none is scheduled. *)
Theorem C63_no_start : forall p a tr1 tr2 s,
  srun (shutdown p a) (tr1 ++ SCall KClear :: tr2) s -> Forall no_schedule tr2 -> Forall no_start tr2.
Proof. exact shutdown_no_start. Qed.
Print Assumptions C63_no_start.
(** If every task comes to an end and no other thread calls the pool, the
    destructor returns, on every schedule: runs end, and only when it has returned
    and the workers are gone.  wait_for_all_tasks needs a worker and a limit of
    active workers of at least 1, a pool never shrunk, and a replacement for a
    worker whose task throws. *)
Theorem C63_returns : forall k p a s, treach (pool_new k) a ->
  (p = WaitAll -> path calm (pool_new k) a /\ 1 <= plimit a /\ 1 <= pcount a) ->
  let R := own (match p with WaitAll => true | _ => false end) in
  ends R (shutdown p a) /\ (steps R (shutdown p a) s -> stuck R s -> over s /\ no_workers (spool s)).
Proof. exact shutdown_returns. Qed.
Print Assumptions C63_returns.

(** Why the statements say what they say: the destructor of a pool that has a
    queued task and no worker never returns. *)
Theorem C63_hang_refuted : exists a s,
  path calm (pool_new Fifo) a /\ pq a <> [] /\ pcount a = 0 /\ steps (own true) (shutdown WaitAll a) s /\
  stuck (own true) s /\ ~ over s.
Proof. exact hangs. Qed.
Print Assumptions C63_hang_refuted.
(** A task that another thread schedules during the destruction may be left in
    the queue for ever. *)
Theorem C63_late_task_refuted : exists tr s,
  srun (shutdown WaitAll one_queued) tr s /\ over s /\ In (SPool (LSchedule t3)) tr /\ pq (spool s) = [t3] /\
  forall st, treach (spool s) st -> no_workers st.
Proof. exact late_task. Qed.
Print Assumptions C63_late_task_refuted.

(** A pool with one worker and one queued task; it runs, or is thrown away. *)
Example C63_hyps_met :
  path calm (pool_new Fifo) one_queued /\ treach (pool_new Fifo) one_queued /\ 1 <= plimit one_queued /\ 1 <= pcount one_queued /\
  (exists tr s, srun (shutdown WaitAll one_queued) tr s /\ over s /\ ~ In (SPool LClear) tr /\ gdone (spool s) = [t1] /\ pw (spool s) = [WGone]) /\
  (exists tr1 tr2 s, srun (shutdown WaitActive one_queued) (tr1 ++ SCall KClear :: tr2) s /\ Forall no_schedule tr2 /\ over s /\
     gclear (spool s) = [t1] /\ gstart (spool s) = [] /\ pw (spool s) = [WGone]).
Proof.
  split; [exact one_queued_calm|]. split; [exact one_queued_reach|]. split; [cbn; lia|]. split; [cbn; lia|].
  split; [exact full_run|exact active_run].
Qed.
