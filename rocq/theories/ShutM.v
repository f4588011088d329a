(** Model of the end of a thread pool: when the last handle of a pool is destroyed,
    its deleter calls shutdown() of the core (pool.hpp:99-104), which calls the
    shutdown policy (pool_core.hpp:170-172).  The thread that does so makes a few
    calls, between which and during which the workers and other threads go on. *)
From Verif Require Import Prelude TPoolM.

(** shutdown_policies.hpp: wait_for_all_tasks 35-44, wait_for_active_tasks 53-62,
    immediately 72-80.  The pools of the library use the first (pool.hpp:190-209). *)
Inductive policy := WaitAll | WaitActive | Immediately.
(** wait(), clear(), terminate_all_workers(b) *)
Inductive call := KWait | KClear | KTerm (join : bool).
Definition shutdown_calls (p : policy) : list call :=
  match p with
  | WaitAll => [KWait; KTerm true]
  | WaitActive => [KClear; KWait; KTerm true]
  | Immediately => [KClear; KTerm false]
  end.

(** The pool, the calls still to make, and the client entry of the pool that
    stands for the call in which the destroying thread is. *)
Record sys := Sys { spool : pool; stodo : list call; sin : option nat }.

(** What a call does before it waits (TPoolM: ts_wait_call, ts_clear, ts_terminate). *)
Definition entered (st : pool) (g : cgoal) : pool :=
  with_clients st (pc st ++ [if may_return st g then CBack g else CAsleep g]).
Definition do_call (st : pool) (c : call) : pool * option nat :=
  match c with
  | KWait => (entered st (CWait 0), Some (length (pc st)))
  | KClear =>
      (Pool (pkind st) [] (pcount st) (ptarget st) (pactive st) (plimit st) (pterm st) (pw st) (pc st)
         (gsched st) (gstart st) (gdone st) (gfail st) (gclear st ++ pq st), None)
  | KTerm join =>
      let st1 := Pool (pkind st) (pq st) (pcount st) 0 (pactive st) (plimit st) true (map wwake (pw st)) (pc st)
                   (gsched st) (gstart st) (gdone st) (gfail st) (gclear st) in
      if join then (entered st1 CTerm, Some (length (pc st))) else (st1, None)
  end.

(** Joining the threads (pool_core.hpp:298-304) is not a step: a worker that has
    called worker_destructed takes no lock any more. *)
Inductive slabel := SPool (l : label) | SCall (c : call) | SReturn.
Inductive sstep : slabel -> sys -> sys -> Prop :=
| ss_pool l st st' k i : tstep l st st' -> sstep (SPool l) (Sys st k i) (Sys st' k i)
| ss_call c st k : sstep (SCall c) (Sys st (c :: k) None) (Sys (fst (do_call st c)) k (snd (do_call st c)))
| ss_return st k i g : nth_error (pc st) i = Some (CBack g) -> sstep SReturn (Sys st k (Some i)) (Sys st k None).

(** The destruction begins. *)
Definition shutdown (p : policy) (st : pool) : sys := Sys st (shutdown_calls p) None.
Inductive srun (a : sys) : list slabel -> sys -> Prop :=
| sr_0 : srun a [] a
| sr_step tr l b c : srun a tr b -> sstep l b c -> srun a (tr ++ [l]) c.
