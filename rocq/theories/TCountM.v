(** Model of the thread counts of the library: ThreadPool.cpp and
    SpatialOpsTools.h:51-73, for the pools of either kind.  The map of the resource
    manager is keyed by the address of a pool and never loses an entry, so the
    entry of one pool is modelled.  All calls hold ExecutionMutex
    (ThreadPool.cpp:27-33); worker and client steps of the pool (TPoolM) come in
    between.  N is NTHREADS. *)
From Verif Require Import Prelude TPoolM.

(** The entry of the pool in resourceMap_, init_ (ThreadPool.cpp:151, 187), the
    threads that have seen init_ unset and not yet inserted, those that have
    inserted and not yet set it, and the pool. *)
Record mgr := Mgr { mrec : option Z; minit : bool; msaw : nat; mins : nat; mpool : pool }.

(** What happens; calls with argument and result. *)
Inductive mlabel :=
| MSelf | MPool (l : label)
| MSetHard (n r : Z) | MGetHard (r : Z) | MSetSoft (n r : Z) | MGetSoft (r : Z).

(** Nobody calls the size controller of the pool but the resource manager. *)
Definition sized (l : label) : bool := match l with LResize _ | LActive _ => true | _ => false end.

Definition with_pool (m : mgr) (p : pool) : mgr := Mgr (mrec m) (minit m) (msaw m) (mins m) p.
Definition with_rec (m : mgr) (r : option Z) : mgr := Mgr r (minit m) (msaw m) (mins m) (mpool m).

(** ThreadPoolResourceManager::resize, ThreadPool.cpp:74-96 *)
Inductive rm_resize : mgr -> Z -> mgr -> Z -> Prop :=
| rr_none m n : mrec m = None -> rm_resize m n m (-1)
| rr_same m n : mrec m = Some n -> rm_resize m n m n
| rr_new m n v p' : mrec m = Some v -> v <> n -> tstep (LResize (if n <? 1 then 1 else n)) (mpool m) p' ->
    rm_resize m n (with_pool (with_rec m (Some (if n <? 1 then 1 else n))) p') (if n <? 1 then 1 else n).
(** resize_active, ThreadPool.cpp:98-113 *)
Inductive rm_resize_active : mgr -> Z -> mgr -> Z -> Prop :=
| ra_none m n : mrec m = None -> rm_resize_active m n m (-1)
| ra_some m n v p' : mrec m = Some v -> tstep (LActive (Z.max 1 n)) (mpool m) p' ->
    rm_resize_active m n (with_pool m p') n.
(** get_worker_count, get_max_active_worker_count, ThreadPool.cpp:115-144 *)
Definition rm_count (m : mgr) : Z := match mrec m with None => -1 | Some _ => pcount (mpool m) end.
Definition rm_active (m : mgr) : Z := match mrec m with None => -1 | Some _ => plimit (mpool m) end.

Inductive mstep (N : Z) : mlabel -> mgr -> mgr -> Prop :=
(** self, ThreadPool.cpp:171-180, 193-203: init_ is read without a lock;
    insert (42-57) keeps an entry that is there; init_ is set.  The calls below
    come after self() has returned, so after this thread has seen init_ set or
    has set it. *)
| ms_saw m : minit m = false -> mstep N MSelf m (Mgr (mrec m) false (S (msaw m)) (mins m) (mpool m))
| ms_insert m k : msaw m = S k ->
    mstep N MSelf m (Mgr (match mrec m with None => Some (if N <? 1 then 1 else N) | Some v => Some v end) (minit m) k (S (mins m)) (mpool m))
| ms_init m k : mins m = S k -> mstep N MSelf m (Mgr (mrec m) true (msaw m) k (mpool m))
| ms_pool m l p' : sized l = false -> tstep l (mpool m) p' -> mstep N (MPool l) m (with_pool m p')
(** ThreadPool.cpp:157-169, 205-217 (set_pool_capacity, get_pool_capacity,
    resize_pool, get_pool_size); SpatialOpsTools.h:57-73 *)
| ms_set_hard m n m' r : minit m = true -> rm_resize m n m' r -> mstep N (MSetHard n r) m m'
| ms_get_hard m : minit m = true -> mstep N (MGetHard (rm_count m)) m m
| ms_set_soft m n m' r : minit m = true -> rm_resize_active m n m' r -> mstep N (MSetSoft n r) m m'
| ms_get_soft m : minit m = true -> mstep N (MGetSoft (rm_active m)) m m.

(** The static pool is built with N threads (ThreadPool.cpp:173, 196). *)
Inductive mstart (k : skind) (N : Z) : mgr -> Prop :=
| mst p : pool_init k N p -> mstart k N (Mgr None false 0 0 p).
(** Runs with what happened, latest last. *)
Inductive mrun (N : Z) (a : mgr) : list mlabel -> mgr -> Prop :=
| mr_0 : mrun N a [] a
| mr_step tr l b c : mrun N a tr b -> mstep N l b c -> mrun N a (tr ++ [l]) c.
