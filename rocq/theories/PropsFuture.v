(** C53: futures.  An execution of any number of threads calling the members of
    one future, and of its task, is a list of events in the order they happen. *)
From Verif Require Import Prelude FutureM FutureS FutureP FutureQ FutureE.

(** get() returns the value that the function has returned. *)
Theorem C53_result : forall (V : Type) fn progs (log : list (event V)) s l1 i o l2,
  fsteps (fnew fn progs) log s -> log = l1 ++ EEnd i Get (AVal o) :: l2 -> exists v, o = Some v /\ In (EReturn v) l1.
Proof. exact @get_value. Qed.
Print Assumptions C53_result.

(** All threads get the same value. *)
Theorem C53_agree : forall (V : Type) fn progs (log : list (event V)) s i o j p,
  fsteps (fnew fn progs) log s -> In (EEnd i Get (AVal o)) log -> In (EEnd j Get (AVal p)) log -> o = p.
Proof. exact @gets_agree. Qed.
Print Assumptions C53_agree.

(** The function is called at most once. *)
Theorem C53_once : forall (V : Type) fn progs (log : list (event V)) s,
  fsteps (fnew fn progs) log s -> once invoked log.
Proof. exact @once_invoked. Qed.
Print Assumptions C53_once.

(** A call says that the value is there only after the function has returned, and
    afterwards ready() never says that it is not. *)
Theorem C53_ready : forall (V : Type) fn progs (log : list (event V)) s l1 e l2,
  fsteps (fnew fn progs) log s -> log = l1 ++ e :: l2 -> reports_ready e ->
  never reports_unready l2 /\ exists v, In (EReturn v) l1.
Proof. exact @ready_stable. Qed.
Print Assumptions C53_ready.

(** Cancelled before the function returns: the value never becomes available. *)
Theorem C53_cancel_before_return : forall (V : Type) fn progs (log : list (event V)) s l1 e l2,
  fsteps (fnew fn progs) log s -> log = l1 ++ e :: l2 -> reports_cancelled e -> never returned l1 ->
  never reports_ready log.
Proof. exact @cancel_blocks. Qed.
Print Assumptions C53_cancel_before_return.

(** Cancelled before a worker takes the task: the function is not called either. *)
Theorem C53_cancel_before_start : forall (V : Type) fn progs (log : list (event V)) s l1 e l2,
  fsteps (fnew fn progs) log s -> log = l1 ++ e :: l2 -> reports_cancelled e -> never started l1 ->
  never invoked log /\ never reports_ready log.
Proof. exact @cancel_bars. Qed.
Print Assumptions C53_cancel_before_start.

(** is_cancelled() says whether a cancel() has succeeded. *)
Theorem C53_is_cancelled : forall (V : Type) fn progs (log : list (event V)) s l1 i b l2,
  fsteps (fnew fn progs) log s -> log = l1 ++ EEnd i IsCancelled (ABool b) :: l2 ->
  b = true <-> exists e, In e l1 /\ reports_cancelled e.
Proof. exact @is_cancelled_exact. Qed.
Print Assumptions C53_is_cancelled.

(** The member that the constructor does not initialise is never read before it is written. *)
Theorem C53_initialised : forall (V : Type) fn progs (log : list (event V)) s,
  fsteps (fnew fn progs) log s -> ~ In EUninit log.
Proof. exact @no_uninit. Qed.
Print Assumptions C53_initialised.

(** Once a call has said that the value is there, all calls of all threads return. *)
Theorem C53_all_return : forall (V : Type) fn progs (log : list (event V)) s e,
  fsteps (fnew fn progs) log s -> In e log -> reports_ready e -> all_return s.
Proof. exact @reported_all_return. Qed.
Print Assumptions C53_all_return.

(** When the function has returned and nothing was cancelled, the task needs
    nobody's help to make all calls return. *)
Theorem C53_delivered : forall (V : Type) fn progs (log : list (event V)) s v,
  fsteps (fnew fn progs) log s -> In (EReturn v) log -> never reports_cancelled log ->
  exists s', task_alone s [] s' /\ all_return s'.
Proof. exact @returned_all_return. Qed.
Print Assumptions C53_delivered.

(** When all is over, threads are left asleep only in the waiting calls and only
    if there was no function, it threw, the task was cleared from the pool, or the
    future was cancelled. *)
Theorem C53_quiet : forall (V : Type) fn progs (log : list (event V)) s,
  fsteps (fnew fn progs) log s -> quiet s ->
  (forall c, In c (fclients s) -> ctodo c = []) \/
  ((forall c, In c (fclients s) -> ctodo c = [] \/ asleep_in_wait c) /\
   (fn = false \/ In EThrow log \/ In EDrop log \/ exists e, In e log /\ reports_cancelled e)).
Proof. exact @quiet_left. Qed.
Print Assumptions C53_quiet.

(** The hypotheses of the theorems are met (those about cancel() by the executions below). *)
Example C53_hyps_met : exists s : fut Z, fsteps (fnew true [[Get]; [Ready; IsCancelled; Cancel]])
  [EStart; EInvoke; EReturn 7; EEnd 0 Get (AVal (Some 7)); EEnd 1 Ready (ABool true); EEnd 1 IsCancelled (ABool false); EEnd 1 Cancel (ABool false)] s
  /\ quiet s.
Proof. exact normal. Qed.

(** A thread that waits is not released by cancel(). *)
Theorem C53_cancel_releases_refuted : exists s : fut Z, fsteps (fnew true [[Wait]; [Cancel]]) [EEnd 1 Cancel (ABool true); EStart] s /\
  quiet s /\ fclients s = [Client PSleep [Wait]; Client PAt []].
Proof. exact cancelled_waiter. Qed.
Print Assumptions C53_cancel_releases_refuted.

(** Nor by an exception in the function. *)
Theorem C53_throw_releases_refuted : exists s : fut Z, fsteps (fnew true [[Get]]) [EStart; EInvoke; EThrow] s /\
  quiet s /\ fclients s = [Client PSleep [Get]].
Proof. exact thrown_waiter. Qed.
Print Assumptions C53_throw_releases_refuted.

(** After cancel() has said yes the value may still come. *)
Theorem C53_cancel_value_refuted : exists s : fut Z, fsteps (fnew true [[Cancel; IsCancelled; Get]])
  [EStart; EInvoke; EReturn 7; EEnd 0 Cancel (ABool true); EEnd 0 IsCancelled (ABool true); EEnd 0 Get (AVal (Some 7))] s.
Proof. exact cancelled_value. Qed.
Print Assumptions C53_cancel_value_refuted.

(** After cancel() has said yes the function may still be called. *)
Theorem C53_cancel_invoke_refuted : exists s : fut Z, fsteps (fnew true [[Cancel]; [Wait]])
  [EStart; EEnd 0 Cancel (ABool true); EInvoke; EReturn 7] s.
Proof. exact cancelled_invoked. Qed.
Print Assumptions C53_cancel_invoke_refuted.

(** timed_wait() may say no after ready() has said yes. *)
Theorem C53_timed_refuted : exists s : fut Z, fsteps (fnew true [[Timed]; [Ready]])
  [EStart; EInvoke; EReturn 7; EEnd 1 Ready (ABool true); EEnd 0 Timed (ABool false)] s.
Proof. exact timed_late. Qed.
Print Assumptions C53_timed_refuted.
