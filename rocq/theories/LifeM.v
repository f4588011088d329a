(** Model of the lifetime of a thread pool: handles (thread_pool objects) that are
    copied and destroyed, size controllers, workers, and the shared pointers that
    tie them to the core.  A shared pointer is a count in the object it points to;
    the object is destroyed when the count becomes 0 (boost::shared_ptr).  What the
    pool does with tasks is in TPoolM.v and ShutM.v. *)
From Verif Require Import Prelude ShutM.

(** A worker's thread runs; has returned from worker_destructed or
    worker_died_unexpectedly (worker_thread.hpp:68, 81); has ended, and with it the copy of the worker's pointer
    in the thread's function (98). *)
Inductive tstate := Running | Ended | Exited.
Record worker := Worker { w_thr : tstate; w_rc : Z }.
(** The destroying thread has not called shutdown(); is in it, before it has set
    m_terminate_all_workers; after that, waiting; has returned from it. *)
Inductive phase := NotCalled | Called | Flagged | Returned.
(** The counts of the core and of m_shutdown_controller (pool.hpp:75-76), how often
    the core was destroyed and shutdown() called; m_terminate_all_workers and
    m_terminated_workers (pool_core.hpp:118-119); all workers there ever were. *)
Record life := Life { core_rc : Z; core_freed : Z; ctl_rc : Z; shut_calls : Z; l_phase : phase; l_flag : bool; l_term : list nat; l_ws : list worker }.

(** pool.hpp:93-98: the core is held by m_core and by the function bound in the
    controller. *)
Definition life_new : life := Life 2 0 1 0 NotCalled false [] [].

Fixpoint upd_w (i : nat) (g : worker -> worker) (l : list worker) : list worker :=
  match l, i with
  | [], _ => []
  | w :: r, O => g w :: r
  | w :: r, S j => w :: upd_w j g r
  end.
Definition with_core (st : life) (rc freed : Z) : life :=
  Life rc freed (ctl_rc st) (shut_calls st) (l_phase st) (l_flag st) (l_term st) (l_ws st).
Definition with_ctl (st : life) (rc calls : Z) : life :=
  Life (core_rc st) (core_freed st) rc calls (l_phase st) (l_flag st) (l_term st) (l_ws st).
Definition with_phase (st : life) (p : phase) : life :=
  Life (core_rc st) (core_freed st) (ctl_rc st) (shut_calls st) p (l_flag st) (l_term st) (l_ws st).
Definition with_flag (st : life) : life :=
  Life (core_rc st) (core_freed st) (ctl_rc st) (shut_calls st) (l_phase st) true (l_term st) (l_ws st).
Definition with_ws (st : life) (term : list nat) (ws : list worker) : life :=
  Life (core_rc st) (core_freed st) (ctl_rc st) (shut_calls st) (l_phase st) (l_flag st) term ws.
Definition lower (w : worker) : worker := Worker (w_thr w) (w_rc w - 1).
Definition raise (w : worker) : worker := Worker (w_thr w) (w_rc w + 1).

(** A call on the core *)
Definition use_core (st : life) : outcome life := if core_freed st =? 0 then Ok st else UB.
(** A pointer to the core goes.  The destructor of the core (pool_core.hpp:142-144)
    drops the workers of m_terminated_workers; one that thereby dies would drop a
    pointer to the core in turn. *)
Definition release_core (st : life) : outcome life :=
  if core_freed st =? 0 then
    if core_rc st =? 1 then
      match l_term st with [] => Ok (with_core st 0 (core_freed st + 1)) | _ => UB end
    else Ok (with_core st (core_rc st - 1) (core_freed st))
  else UB.
(** A pointer to worker i goes; the worker's m_pool (worker_thread.hpp:51) goes
    with it. *)
Definition release_worker (st : life) (i : nat) : outcome life :=
  match nth_error (l_ws st) i with
  | None => UB
  | Some w =>
      let st1 := with_ws st (l_term st) (upd_w i lower (l_ws st)) in
      if w_rc w =? 1 then release_core st1 else Ok st1
  end.
Fixpoint release_workers (st : life) (l : list nat) : outcome life :=
  match l with [] => Ok st | i :: r => do st1 <- release_worker st i; release_workers st1 r end.

(** Copying and destroying handles and controllers; resize() to one more worker
    through either; a worker returns from worker_destructed, or from
    worker_died_unexpectedly when a task has thrown, and its thread ends;
    shutdown() sets m_terminate_all_workers, and ends its waiting. *)
Inductive lop := HCopy | HDrop | CGet | CCopy | CDrop | Resize | WEnd (i : nat) | WDie (i : nat) | WExit (i : nat) | SFlag | SJoin.

(** pool_core.hpp:313-345, worker_thread.hpp:93-100 *)
Definition add_worker (st : life) : outcome life :=
  do st1 <- use_core st;
  if l_flag st1 then Ok st1
  else Ok (with_ws (with_core st1 (core_rc st1 + 1) (core_freed st1)) (l_term st1) (l_ws st1 ++ [Worker Running 1])).
(** pool_core.hpp:373-384 *)
Definition worker_end (st : life) (i : nat) : outcome life :=
  do st1 <- use_core st;
  let ws := upd_w i (fun w => Worker Ended (w_rc w)) (l_ws st1) in
  if l_flag st1 then Ok (with_ws st1 (l_term st1 ++ [i]) (upd_w i raise ws)) else Ok (with_ws st1 (l_term st1) ws).

Section Policy.
Variable pol : policy.
(** After shutdown(): the bound function goes with the controller, then the m_core
    of the handle (members are destroyed in reverse order). *)
Definition after_shutdown (st : life) : outcome life :=
  do st1 <- release_core (with_phase st Returned); release_core st1.

Definition lstep (st : life) (o : lop) : outcome life :=
  match o with
  | HCopy =>                                    (* the implicit copy constructor *)
      do st1 <- use_core st; Ok (with_ctl (with_core st1 (core_rc st1 + 1) (core_freed st1)) (ctl_rc st1 + 1) (shut_calls st1))
  | HDrop =>                                    (* the implicit destructor; pool.hpp:95, shutdown_policies.hpp:35-80 *)
      if ctl_rc st =? 1 then
        do st1 <- use_core (with_ctl st 0 (shut_calls st + 1));
        match pol with
        | Immediately => after_shutdown (with_flag st1)
        | _ => Ok (with_phase st1 Called)
        end
      else release_core (with_ctl st (ctl_rc st - 1) (shut_calls st))
  | CGet | CCopy =>                             (* pool_core.hpp:150-152, size_policies.hpp:48-54 *)
      do st1 <- use_core st; Ok (with_core st1 (core_rc st1 + 1) (core_freed st1))
  | CDrop => release_core st
  | Resize => add_worker st
  | WEnd i => worker_end st i                   (* worker_thread.hpp:81 *)
  | WDie i => do st1 <- worker_end st i; add_worker st1   (* worker_thread.hpp:66-69, pool_core.hpp:355-371, size_policies.hpp:102-104 *)
  | WExit i =>
      release_worker (with_ws st (l_term st) (upd_w i (fun w => Worker Exited (w_rc w)) (l_ws st))) i
  | SFlag =>                                    (* pool_core.hpp:286 *)
      do st1 <- use_core st; Ok (with_phase (with_flag st1) Flagged)
  | SJoin =>                                    (* pool_core.hpp:291-305 *)
      do st1 <- use_core st;
      do st2 <- release_workers (with_ws st1 [] (l_ws st1)) (l_term st1);
      after_shutdown st2
  end.
End Policy.
