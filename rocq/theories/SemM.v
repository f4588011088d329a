(** Model of the counting semaphore used by any number of threads. *)
From Verif Require Import Prelude.

(** What a thread does with the semaphore, in order. *)
Inductive sop := SPost | SWait.

(** Where a thread is.  [TAt os]: outside, the calls [os] still to be made; the
    other states are inside post() (Semaphore.h:29-33) or wait() (38-44), with
    the rest of the script. *)
Inductive thr :=
| TAt (os : list sop)
| TPost2 (os : list sop)  (* post: holds the mutex, before ++val_ *)
| TPost3 (os : list sop)  (* post: before notify_one *)
| TPost4 (os : list sop)  (* post: before the lock is released *)
| TWait2 (os : list sop)  (* wait: holds the mutex, before testing val_ <= 0 *)
| TWait3 (os : list sop)  (* wait: test was false, before --val_ *)
| TWait4 (os : list sop)  (* wait: before the lock is released *)
| TSleep (os : list sop)  (* wait: blocked in cond_.wait, mutex released *)
| TWoken (os : list sop). (* wait: woken up, wants the mutex back *)

(** val_, mut_ and the threads.  [sposted] and [sreturned] are not in the code:
    they count the calls of post() and wait() that have returned. *)
Record sem := Sem {
  sval : Z; slocked : bool; sthr : list thr; sposted : Z; sreturned : Z }.
(** Semaphore.h:26 *)
Definition sem_start (initial : Z) (scripts : list (list sop)) : sem :=
  Sem initial false (map TAt scripts) 0 0.

(** One sleeping thread is woken. *)
Inductive wake : list thr -> list thr -> Prop :=
| wake_one l1 os l2 : wake (l1 ++ TSleep os :: l2) (l1 ++ TWoken os :: l2).
Definition asleep (t : thr) : bool := match t with TSleep _ => true | _ => false end.

(** One step of one thread.  The mutex is a lock; wait() on the condition
    variable releases it and goes to sleep in one step. *)
Inductive sstep : sem -> sem -> Prop :=
| ss_post_lock v l1 os l2 p r :
    sstep (Sem v false (l1 ++ TAt (SPost :: os) :: l2) p r) (Sem v true (l1 ++ TPost2 os :: l2) p r)
| ss_post_inc v b l1 os l2 p r :
    sstep (Sem v b (l1 ++ TPost2 os :: l2) p r) (Sem (v + 1) b (l1 ++ TPost3 os :: l2) p r)
| ss_notify v b l1 os l2 p r m : wake (l1 ++ TPost4 os :: l2) m ->
    sstep (Sem v b (l1 ++ TPost3 os :: l2) p r) (Sem v b m p r)
| ss_notify_none v b l1 os l2 p r : existsb asleep (l1 ++ l2) = false ->
    sstep (Sem v b (l1 ++ TPost3 os :: l2) p r) (Sem v b (l1 ++ TPost4 os :: l2) p r)
| ss_post_unlock v b l1 os l2 p r :
    sstep (Sem v b (l1 ++ TPost4 os :: l2) p r) (Sem v false (l1 ++ TAt os :: l2) (p + 1) r)
| ss_wait_lock v l1 os l2 p r :
    sstep (Sem v false (l1 ++ TAt (SWait :: os) :: l2) p r) (Sem v true (l1 ++ TWait2 os :: l2) p r)
| ss_wait_pass v b l1 os l2 p r : 0 < v ->
    sstep (Sem v b (l1 ++ TWait2 os :: l2) p r) (Sem v b (l1 ++ TWait3 os :: l2) p r)
| ss_wait_sleep v b l1 os l2 p r : v <= 0 ->
    sstep (Sem v b (l1 ++ TWait2 os :: l2) p r) (Sem v false (l1 ++ TSleep os :: l2) p r)
| ss_wait_dec v b l1 os l2 p r :
    sstep (Sem v b (l1 ++ TWait3 os :: l2) p r) (Sem (v - 1) b (l1 ++ TWait4 os :: l2) p r)
| ss_wait_unlock v b l1 os l2 p r :
    sstep (Sem v b (l1 ++ TWait4 os :: l2) p r) (Sem v false (l1 ++ TAt os :: l2) p (r + 1))
| ss_relock v l1 os l2 p r :
    sstep (Sem v false (l1 ++ TWoken os :: l2) p r) (Sem v true (l1 ++ TWait2 os :: l2) p r).

(** Condition variables may also wake up without a notification. *)
Inductive spurious : sem -> sem -> Prop :=
| spur v b l m p r : wake l m -> spurious (Sem v b l p r) (Sem v b m p r).

Inductive sreach (st : sem) : sem -> Prop :=
| sr_0 : sreach st st
| sr_step a b : sreach st a -> sstep a b -> sreach st b
| sr_spur a b : sreach st a -> spurious a b -> sreach st b.
(** n steps without spurious wake-ups *)
Inductive ssteps : nat -> sem -> sem -> Prop :=
| ssteps_0 st : ssteps 0 st st
| ssteps_S n a b c : sstep a b -> ssteps n b c -> ssteps (S n) a c.
