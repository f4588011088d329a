(** Model of several threads that make assignments and share one thread pool:
    the pool of TPoolM, the calling threads, and the partition jobs the pool
    runs, interleaved one critical section or one memory access at a time.  A
    calling thread may itself be a task of the same pool. *)
From Verif Require Import Prelude WindowM GhostM FieldM MaskM NeboM ParM TPoolM.

Section Share.
Variable V : Type.
Variable vadd vmul : V -> V -> V.
Notation heap := (heap V).
Notation job := (prog V unit).

(** One assignment call: f <<= e ([aug] true) or interior_assign, on the thread
    pool or on the calling thread. *)
Record asg := Asg { apar : bool; aug : bool; adst : field; arhs : expr V }.
(** NeboLhs.h:123-134 cpu_assign.  The thread pool is asked whether to use it at
    the time of the call (SpatialOpsTools.h:52-54); here [apar] is any value.
    A phase yields the jobs to be scheduled: on the pool those of
    thread_parallel_assign (NeboLhs.h:172-218), on the calling thread none are
    left after sequential_assign (136-162). *)
Definition phase (fuel : nat) (a : asg) : prog V (list job) :=
  if apar a then thread_parallel_jobs V vadd vmul fuel (aug a) (adst a) (arhs a)
  else let* _ := sequential_assign V vadd vmul fuel (aug a) (adst a) (arhs a) in Ret [].

(** Where a calling thread runs: a thread of its own, or a task of the pool that
    has not been scheduled yet or that has a number. *)
Inductive host := Own | Unsubmitted | Hosted (id : nat).
(** What a calling thread is doing: between two assignments; before the loop that
    schedules the jobs; in thread_parallel_assign, with the jobs to be scheduled
    (NeboLhs.h:208-218), its semaphore (180), and the waits to be made (220). *)
Inductive stage := Between | Preparing (p : prog V (list job)) | Parallel (todo : list job) (sem : Z) (waits : nat).
(** [cnum]: assignments begun; [cleft]: those to be made. *)
Record caller := Caller { chost : host; cstage : stage; cnum : nat; cleft : list (prog V (list job)) }.
(** A task of the pool: a job of the owner's [num]-th assignment, [None] once it
    has posted (NeboLhs.h:402-414), or a calling thread. *)
Inductive entry := EJob (owner num : nat) (j : option job) | EHost (owner : nat).
(** Task number i is entry i; priority 0 (pool.hpp:190, fifo pools ignore it). *)
Record sys := Sys { spool : pool; sheap : heap; scall : list caller; stab : list entry }.

Definition set_nth {A} (l : list A) (i : nat) (x : A) : list A := firstn i l ++ x :: skipn (S i) l.
Definition with_caller (st : sys) (c : nat) (k : caller) : sys := Sys (spool st) (sheap st) (set_nth (scall st) c k) (stab st).
Definition with_entry (st : sys) (i : nat) (e : entry) : sys := Sys (spool st) (sheap st) (scall st) (set_nth (stab st) i e).
Definition with_heap (st : sys) (h : heap) : sys := Sys (spool st) h (scall st) (stab st).
Definition task_of (i : nat) : task := (i, 0).
(** A worker is executing task i. *)
Definition runs_task (st : sys) (i : nat) : Prop := In (WRun (task_of i)) (pw (spool st)).
(** May a thread with this host move? *)
Definition moves (st : sys) (k : host) : Prop :=
  match k with Own => True | Unsubmitted => False | Hosted i => runs_task st i end.
(** A calling thread has made all its assignments. *)
Definition all_made (k : caller) : Prop := cstage k = Between /\ cleft k = [].
(** The function of task e has returned. *)
Definition finished (st : sys) (e : entry) : Prop :=
  match e with
  | EJob _ _ j => j = None
  | EHost c => exists k, nth_error (scall st) c = Some k /\ all_made k
  end.
(** The function of task e throws. *)
Definition throws (st : sys) (e : entry) : Prop :=
  match e with
  | EJob _ _ j => j = Some PThrow
  | EHost c => exists k, nth_error (scall st) c = Some k /\ cstage k = Preparing PThrow
  end.

(** Steps of calling threads and jobs, and of the pool. *)
Inductive act := AIn | APool (l : label).
(** Pool steps that do not concern a particular task's function. *)
Definition free (l : label) : bool := match l with LSchedule _ | LDone _ | LDied _ => false | _ => true end.

Inductive hstep : act -> sys -> sys -> Prop :=
(** a calling thread begins its next assignment, NeboLhs.h:123 *)
| hs_begin st c k n p r : nth_error (scall st) c = Some (Caller k Between n (p :: r)) -> moves st k ->
    hstep AIn st (with_caller st c (Caller k (Preparing p) (S n) r))
(** it loads or stores one element itself *)
| hs_load st c k n b i f r : nth_error (scall st) c = Some (Caller k (Preparing (Load b i f)) n r) -> moves st k ->
    bcells (sheap st b) i = true ->
    hstep AIn st (with_caller st c (Caller k (Preparing (f (bdata (sheap st b) i))) n r))
| hs_store st c k n b i v p r : nth_error (scall st) c = Some (Caller k (Preparing (Store b i v p)) n r) -> moves st k ->
    bcells (sheap st b) i = true ->
    hstep AIn st (with_heap (with_caller st c (Caller k (Preparing p) n r)) (upd (sheap st) b i v))
(** NeboLhs.h:180, 208: the semaphore is made, the loop is entered *)
| hs_ready st c k n jobs r : nth_error (scall st) c = Some (Caller k (Preparing (Ret jobs)) n r) -> moves st k ->
    hstep AIn st (with_caller st c (Caller k (Parallel jobs 0 (length jobs)) n r))
(** NeboLhs.h:209-215 ThreadPoolFIFO::self().schedule(job) *)
| hs_schedule st c k n j t s w r q : nth_error (scall st) c = Some (Caller k (Parallel (j :: t) s w) n r) -> moves st k ->
    tstep (LSchedule (task_of (length (stab st)))) (spool st) q ->
    hstep (APool (LSchedule (task_of (length (stab st))))) st
      (Sys q (sheap st) (set_nth (scall st) c (Caller k (Parallel t s w) n r)) (stab st ++ [EJob c n (Some j)]))
(** NeboLhs.h:220 semaphore.wait() returns *)
| hs_wait st c k n s w r : nth_error (scall st) c = Some (Caller k (Parallel [] s (S w)) n r) -> moves st k -> 0 < s ->
    hstep AIn st (with_caller st c (Caller k (Parallel [] (s - 1) w) n r))
(** NeboLhs.h:221-226: the assignment returns, the semaphore is gone *)
| hs_return st c k n s r : nth_error (scall st) c = Some (Caller k (Parallel [] s 0) n r) -> moves st k ->
    hstep AIn st (with_caller st c (Caller k Between n r))
(** some thread schedules a calling thread on the pool, pool.hpp:132-134 *)
| hs_submit st c g n r q : nth_error (scall st) c = Some (Caller Unsubmitted g n r) ->
    tstep (LSchedule (task_of (length (stab st)))) (spool st) q ->
    hstep (APool (LSchedule (task_of (length (stab st))))) st
      (Sys q (sheap st) (set_nth (scall st) c (Caller (Hosted (length (stab st))) g n r)) (stab st ++ [EHost c]))
(** a job that some worker runs loads or stores one element, or posts
    (NeboLhs.h:402-414) to the semaphore of its assignment *)
| hs_job_load st i o n b x f : nth_error (stab st) i = Some (EJob o n (Some (Load b x f))) -> runs_task st i ->
    bcells (sheap st b) x = true ->
    hstep AIn st (with_entry st i (EJob o n (Some (f (bdata (sheap st b) x)))))
| hs_job_store st i o n b x v p : nth_error (stab st) i = Some (EJob o n (Some (Store b x v p))) -> runs_task st i ->
    bcells (sheap st b) x = true ->
    hstep AIn st (with_heap (with_entry st i (EJob o n (Some p))) (upd (sheap st) b x v))
| hs_post st i o n k t s w r : nth_error (stab st) i = Some (EJob o n (Some (Ret tt))) -> runs_task st i ->
    nth_error (scall st) o = Some (Caller k (Parallel t s w) n r) ->
    hstep AIn st (with_entry (with_caller st o (Caller k (Parallel t (s + 1) w) n r)) i (EJob o n None))
(** pool_core.hpp:422-429: the task's function returns to the worker, or throws *)
| hs_done st i e q : nth_error (stab st) i = Some e -> finished st e -> tstep (LDone (task_of i)) (spool st) q ->
    hstep (APool (LDone (task_of i))) st (Sys q (sheap st) (scall st) (stab st))
| hs_died st i e q : nth_error (stab st) i = Some e -> throws st e -> tstep (LDied (task_of i)) (spool st) q ->
    hstep (APool (LDied (task_of i))) st (Sys q (sheap st) (scall st) (stab st))
(** the pool by itself, and calls of its other functions by any thread *)
| hs_pool st l q : free l = true -> tstep l (spool st) q ->
    hstep (APool l) st (Sys q (sheap st) (scall st) (stab st)).

(** The calling threads at the beginning. *)
Definition share_start (fuel : nat) (q : pool) (h : heap) (cs : list (bool * list asg)) : sys :=
  Sys q h (map (fun c => Caller (if fst c : bool then Unsubmitted else Own) Between 0 (map (phase fuel) (snd c))) cs) [].
End Share.
Arguments Asg {V}. Arguments apar {V}. Arguments aug {V}. Arguments adst {V}. Arguments arhs {V}.
Arguments Between {V}. Arguments Preparing {V}. Arguments Parallel {V}.
Arguments Caller {V}. Arguments chost {V}. Arguments cstage {V}. Arguments cnum {V}. Arguments cleft {V}.
Arguments EJob {V}. Arguments EHost {V}.
Arguments Sys {V}. Arguments spool {V}. Arguments sheap {V}. Arguments scall {V}. Arguments stab {V}.
Arguments with_caller {V}. Arguments with_entry {V}. Arguments with_heap {V}. Arguments runs_task {V}. Arguments moves {V}.
Arguments all_made {V}. Arguments finished {V}. Arguments throws {V}. Arguments hstep {V}. Arguments phase {V}. Arguments share_start {V}.
