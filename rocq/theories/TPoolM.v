(** Model of the thread pool (threadpool/threadpool/detail/pool_core.hpp and
    worker_thread.hpp) as a transition system over any number of workers and
    client threads.  m_monitor is held over each critical section, so a step is
    one critical section (from taking m_monitor to releasing it, by returning or
    by waiting on a condition).  resize_active (349-352) takes no lock; its two
    reads of m_worker_count and its write are one step here. *)
From Verif Require Import Prelude.

(** A task: an identity and its priority (task_adaptors.hpp:47-91); fifo and lifo
    pools ignore the priority. *)
Definition task := (nat * Z)%type.
(** scheduling_policies.hpp: fifo_scheduler 45-106, lifo_scheduler 118-178,
    prio_scheduler 193-256 *)
Inductive skind := Fifo | Lifo | Prio.
(** top() and pop() of a queue listed in the order scheduled.  priority_queue
    does not say which of several equal priorities is on top. *)
Inductive takes : skind -> list task -> task -> list task -> Prop :=
| takes_fifo t q : takes Fifo (t :: q) t q
| takes_lifo t q : takes Lifo (q ++ [t]) t q
| takes_prio t q1 q2 : (forall u, In u (q1 ++ q2) -> snd u <= snd t) -> takes Prio (q1 ++ t :: q2) t (q1 ++ q2).

(** A worker: about to call execute_task (worker_thread.hpp:78); waiting for the
    task event (pool_core.hpp:413); woken from it; running a task (422-426);
    execute_task returned false and worker_destructed not yet called; gone. *)
Inductive wkr := WEnter | WWait | WWoken | WRun (t : task) | WExit | WGone.
(** What a client thread waits for: wait(threshold) (229-248) or
    terminate_all_workers(true) (291-296). *)
Inductive cgoal := CWait (threshold : Z) | CTerm.
(** A client blocked on the idle event, or woken from it. *)
Inductive client := CAsleep (g : cgoal) | CWoken (g : cgoal) | CBack (g : cgoal).

(** m_scheduler, m_worker_count, m_target_worker_count, m_active_worker_count,
    m_target_active_worker_count, m_terminate_all_workers, workers, clients; the
    last fields only record: tasks scheduled and started (in order), finished,
    ended by an exception, removed by clear(). *)
Record pool := Pool {
  pkind : skind; pq : list task; pcount : Z; ptarget : Z; pactive : Z; plimit : Z; pterm : bool;
  pw : list wkr; pc : list client;
  gsched : list task; gstart : list task; gdone : list task; gfail : list task; gclear : list task }.
(** pool_core.hpp:128-139 *)
Definition pool_new (k : skind) : pool := Pool k [] 0 0 0 0 false [] [] [] [] [] [] [].

(** notify_all on the idle event and on the task event *)
Definition cwake (c : client) : client := match c with CAsleep g => CWoken g | _ => c end.
Definition wwake (w : wkr) : wkr := match w with WWait => WWoken | _ => w end.
Definition waiting (w : wkr) : bool := match w with WWait => true | _ => false end.

(** schedule 180-192: notify_one wakes any one waiting worker, if there is one *)
Inductive notify1 : list wkr -> list wkr -> Prop :=
| n1_some l1 l2 : notify1 (l1 ++ WWait :: l2) (l1 ++ WWoken :: l2)
| n1_none l : existsb waiting l = false -> notify1 l l.
(** the loop condition of execute_task 402 *)
Definition must_wait (st : pool) : bool :=
  match pq st with [] => true | _ => false end || (plimit st <? pactive st).
(** the condition under which the client's loop ends: 236, 243, 293 *)
Definition may_return (st : pool) (g : cgoal) : bool :=
  match g with
  | CWait k => if k =? 0 then (pactive st =? 0) && match pq st with [] => true | _ => false end
               else negb (k <? pactive st + Z.of_nat (length (pq st)))
  | CTerm => negb (0 <? pcount st)
  end.

Definition with_workers (st : pool) (ws : list wkr) : pool :=
  Pool (pkind st) (pq st) (pcount st) (ptarget st) (pactive st) (plimit st) (pterm st) ws (pc st) (gsched st) (gstart st) (gdone st) (gfail st) (gclear st).
Definition with_clients (st : pool) (cs : list client) : pool :=
  Pool (pkind st) (pq st) (pcount st) (ptarget st) (pactive st) (plimit st) (pterm st) (pw st) cs (gsched st) (gstart st) (gdone st) (gfail st) (gclear st).
Definition with_active (st : pool) (a : Z) : pool :=
  Pool (pkind st) (pq st) (pcount st) (ptarget st) a (plimit st) (pterm st) (pw st) (pc st) (gsched st) (gstart st) (gdone st) (gfail st) (gclear st).

(** execute_task 402-413: go to sleep: --m_active_worker_count, notify_all on the
    idle event, wait *)
Definition sleep (st : pool) (l1 l2 : list wkr) : pool :=
  with_clients (with_workers (with_active st (pactive st - 1)) (l1 ++ WWait :: l2)) (map cwake (pc st)).
(** execute_task 418-426: take a task and call it *)
Definition take (st : pool) (l1 l2 : list wkr) (t : task) (q : list task) : pool :=
  Pool (pkind st) q (pcount st) (ptarget st) (pactive st) (plimit st) (pterm st) (l1 ++ WRun t :: l2) (pc st)
    (gsched st) (gstart st ++ [t]) (gdone st) (gfail st) (gclear st).
(** resize 313-342.  Creating a thread may fail (334): [k] workers are made. *)
Definition grow (st : pool) (n k : Z) : pool :=
  Pool (pkind st) (pq st) (pcount st + k) n (pactive st + k) (plimit st) (pterm st) (pw st ++ repeat WEnter (Z.to_nat k)) (pc st)
    (gsched st) (gstart st) (gdone st) (gfail st) (gclear st).
Inductive resize : pool -> Z -> pool -> Prop :=
| rz_term st n : pterm st = true -> resize st n st
| rz_grow st n k : pterm st = false -> pcount st <= n -> 0 <= k -> pcount st + k <= n -> resize st n (grow st n k)
| rz_shrink st n : pterm st = false -> n < pcount st ->
    resize st n (Pool (pkind st) (pq st) (pcount st) n (pactive st) (plimit st) (pterm st) (map wwake (pw st)) (pc st)
                   (gsched st) (gstart st) (gdone st) (gfail st) (gclear st)).

(** Labels: which call or which part of a worker a step is. *)
Inductive label := LWorker | LStart (t : task) | LDone (t : task) | LDied (t : task) | LClient | LSchedule (t : task) | LClear
  | LResize (n : Z) | LActive (n : Z) | LTerminate | LSpurious.

Inductive tstep : label -> pool -> pool -> Prop :=
(** execute_task entered 390-416 *)
| ts_enter_exit st l1 l2 : pw st = l1 ++ WEnter :: l2 -> ptarget st < pcount st ->
    tstep LWorker st (with_workers st (l1 ++ WExit :: l2))
| ts_enter_sleep st l1 l2 : pw st = l1 ++ WEnter :: l2 -> pcount st <= ptarget st -> must_wait st = true ->
    tstep LWorker st (sleep st l1 l2)
| ts_enter_take st l1 l2 t q : pw st = l1 ++ WEnter :: l2 -> pcount st <= ptarget st -> must_wait st = false ->
    takes (pkind st) (pq st) t q -> tstep (LStart t) st (take st l1 l2 t q)
(** execute_task after the wait 413: ++m_active_worker_count and around the loop.
    The count of workers is looked at only when there is nothing to take. *)
| ts_woken_exit st l1 l2 : pw st = l1 ++ WWoken :: l2 ->
    must_wait (with_active st (pactive st + 1)) = true -> ptarget st < pcount st ->
    tstep LWorker st (with_workers (with_active st (pactive st + 1)) (l1 ++ WExit :: l2))
| ts_woken_sleep st l1 l2 : pw st = l1 ++ WWoken :: l2 ->
    must_wait (with_active st (pactive st + 1)) = true -> pcount st <= ptarget st ->
    tstep LWorker st (sleep (with_active st (pactive st + 1)) l1 l2)
| ts_woken_take st l1 l2 t q : pw st = l1 ++ WWoken :: l2 ->
    must_wait (with_active st (pactive st + 1)) = false ->
    takes (pkind st) (pq st) t q -> tstep (LStart t) st (take (with_active st (pactive st + 1)) l1 l2 t q)
(** the task returns 423-428 *)
| ts_done st l1 t l2 : pw st = l1 ++ WRun t :: l2 ->
    tstep (LDone t) st (Pool (pkind st) (pq st) (pcount st) (ptarget st) (pactive st) (plimit st) (pterm st) (l1 ++ WEnter :: l2) (pc st)
                   (gsched st) (gstart st) (gdone st ++ [t]) (gfail st) (gclear st))
(** the task throws: worker_died_unexpectedly 355-371, size_policies.hpp:101-103.
    (Where the exception leaves the thread function without unwinding, the
    process ends instead.) *)
| ts_died st l1 t l2 st' : pw st = l1 ++ WRun t :: l2 ->
    let st1 := Pool (pkind st) (pq st) (pcount st - 1) (ptarget st) (pactive st - 1) (plimit st) (pterm st) (l1 ++ WGone :: l2) (map cwake (pc st))
                   (gsched st) (gstart st) (gdone st) (gfail st ++ [t]) (gclear st) in
    (if pterm st then st' = st1 else resize st1 (pcount st1 + 1) st') ->
    tstep (LDied t) st st'
(** worker_destructed 373-384 *)
| ts_destructed st l1 l2 : pw st = l1 ++ WExit :: l2 ->
    tstep LWorker st (Pool (pkind st) (pq st) (pcount st - 1) (ptarget st) (pactive st - 1) (plimit st) (pterm st) (l1 ++ WGone :: l2) (map cwake (pc st))
                   (gsched st) (gstart st) (gdone st) (gfail st) (gclear st))
(** a client calls wait(threshold), and goes on when woken up *)
| ts_wait_call st k : 0 <= k ->
    tstep LClient st (with_clients st (pc st ++ [if may_return st (CWait k) then CBack (CWait k) else CAsleep (CWait k)]))
| ts_client st c1 g c2 : pc st = c1 ++ CWoken g :: c2 ->
    tstep LClient st (with_clients st (c1 ++ (if may_return st g then CBack g else CAsleep g) :: c2))
(** schedule 180-192 *)
| ts_schedule st t ws : notify1 (pw st) ws ->
    tstep (LSchedule t) st (Pool (pkind st) (pq st ++ [t]) (pcount st) (ptarget st) (pactive st) (plimit st) (pterm st) ws (pc st)
                   (gsched st ++ [t]) (gstart st) (gdone st) (gfail st) (gclear st))
(** clear 211-214 *)
| ts_clear st :
    tstep LClear st (Pool (pkind st) [] (pcount st) (ptarget st) (pactive st) (plimit st) (pterm st) (pw st) (pc st)
                   (gsched st) (gstart st) (gdone st) (gfail st) (gclear st ++ pq st))
| ts_resize st n st' : 0 <= n -> resize st n st' -> tstep (LResize n) st st'
(** resize_active 349-352 *)
| ts_active st n : 0 <= n ->
    tstep (LActive n) st (Pool (pkind st) (pq st) (pcount st) (ptarget st) (pactive st) (if n <? pcount st then n else pcount st) (pterm st) (pw st) (pc st)
                   (gsched st) (gstart st) (gdone st) (gfail st) (gclear st))
(** terminate_all_workers 282-306 *)
| ts_terminate st (wait : bool) :
    tstep LTerminate st (let st1 := Pool (pkind st) (pq st) (pcount st) 0 (pactive st) (plimit st) true (map wwake (pw st)) (pc st)
                   (gsched st) (gstart st) (gdone st) (gfail st) (gclear st) in
                   if wait then with_clients st1 (pc st ++ [if may_return st1 CTerm then CBack CTerm else CAsleep CTerm]) else st1)
(** wake-ups without notification *)
| ts_spurious_worker st l1 l2 : pw st = l1 ++ WWait :: l2 -> tstep LSpurious st (with_workers st (l1 ++ WWoken :: l2))
| ts_spurious_client st c1 g c2 : pc st = c1 ++ CAsleep g :: c2 -> tstep LSpurious st (with_clients st (c1 ++ CWoken g :: c2)).

Inductive treach (a : pool) : pool -> Prop :=
| tr_0 : treach a a
| tr_step l b c : treach a b -> tstep l b c -> treach a c.
(** thread_pool(n) (pool.hpp:99-104, size_policies.hpp:88-91) *)
Inductive pool_init (k : skind) (n : Z) : pool -> Prop :=
| pi st : resize (pool_new k) n st -> pool_init k n
    (Pool k (pq st) (pcount st) (ptarget st) (pactive st) (if n <? pcount st then n else pcount st) (pterm st) (pw st) (pc st)
                   (gsched st) (gstart st) (gdone st) (gfail st) (gclear st)).
