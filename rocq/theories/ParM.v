(** Model of a thread-parallel assignment: the calling thread and the
    partition jobs, interleaved one memory access at a time. *)
From Verif Require Import Prelude WindowM GhostM FieldM MaskM NeboM.

Section Par.
Variable V : Type.
Notation heap := (heap V).
Notation job := (prog V unit).

(** NeboLhs.h:172-226.  [ptodo]: jobs the calling thread has still to schedule
    (208-218); [plive]: scheduled jobs, [None] once a job has posted the
    semaphore (402-414); [psem]: the semaphore's count (180); [pwaits]: calls of
    semaphore.wait() still to be made (220).  A scheduled job may run at any
    time: the number of worker threads only removes interleavings. *)
Record par := Par {
  pheap : heap; ptodo : list job; plive : list (option job); psem : Z; pwaits : nat }.

Definition par_start (h : heap) (jobs : list job) : par := Par h jobs [] 0 (length jobs).

Definition set_live (st : par) (i : nat) (j : option job) : list (option job) :=
  firstn i (plive st) ++ j :: skipn (S i) (plive st).

Inductive pstep : par -> par -> Prop :=
(** NeboLhs.h:209-215: hand the next job to the pool *)
| ps_schedule h j t l s w : pstep (Par h (j :: t) l s w) (Par h t (l ++ [Some j]) s w)
(** a job loads or stores one element *)
| ps_load st i b c k : nth_error (plive st) i = Some (Some (Load b c k)) ->
    bcells (pheap st b) c = true ->
    pstep st (Par (pheap st) (ptodo st) (set_live st i (Some (k (bdata (pheap st b) c)))) (psem st) (pwaits st))
| ps_store st i b c v k : nth_error (plive st) i = Some (Some (Store b c v k)) ->
    bcells (pheap st b) c = true ->
    pstep st (Par (upd (pheap st) b c v) (ptodo st) (set_live st i (Some k)) (psem st) (pwaits st))
(** NeboLhs.h:413, Semaphore.h:29-33: a finished job posts *)
| ps_post st i : nth_error (plive st) i = Some (Some (Ret tt)) ->
    pstep st (Par (pheap st) (ptodo st) (set_live st i None) (psem st + 1) (pwaits st))
(** NeboLhs.h:220, Semaphore.h:38-44: wait() returns once the count is positive *)
| ps_wait h l s w : 0 < s -> pstep (Par h [] l s (S w)) (Par h [] l (s - 1) w).

(** The calling thread has returned from the assignment. *)
Definition returned (st : par) : Prop := ptodo st = [] /\ pwaits st = 0%nat.

Inductive psteps : nat -> par -> par -> Prop :=
| psteps_0 st : psteps 0 st st
| psteps_S n a b c : psteps n a b -> pstep b c -> psteps (S n) a c.
Definition reachable (a b : par) : Prop := exists n, psteps n a b.

(** A job that cannot continue: an exception (the worker never posts), or
    undefined behaviour, or (model only) too little fuel. *)
Definition stuck_job (h : heap) (j : job) : Prop :=
  match j with
  | Ret _ => False
  | PThrow | PUB | PFuel => True
  | Load b c _ | Store b c _ _ => bcells (h b) c = false
  end.
End Par.
Arguments Par {V}. Arguments pheap {V}. Arguments ptodo {V}. Arguments plive {V}.
Arguments psem {V}. Arguments pwaits {V}. Arguments par_start {V}. Arguments pstep {V}.
Arguments returned {V}. Arguments psteps {V}. Arguments reachable {V}. Arguments stuck_job {V}. Arguments set_live {V}.
