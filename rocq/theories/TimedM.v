(** Model of the thread pool's wait with a time limit, wait(timestamp, threshold)
    (pool_core.hpp:257-277, pool.hpp:171-173).  It runs the same loop over the same
    event as wait(threshold), so a thread in it has an entry among the clients of
    the pool (TPoolM); here the clock, the time limits and the answers are added. *)
From Verif Require Import Prelude TPoolM.

(** In the loop; timed_wait has returned false and the thread is about to take
    m_monitor again (264, 271); the call has returned. *)
Inductive tstat := TmIn | TmExpired | TmAnswer (b : bool).
(** A call: its client entry, its threshold, its timestamp, and where it is. *)
Record timer := Timer { tmid : nat; tmk : Z; tmlim : Z; tmst : tstat }.
Record tsys := TSys { tpool : pool; tnow : Z; tms : list timer }.

Definition tput (ts : list timer) (i : nat) (t : timer) : list timer := firstn i ts ++ t :: skipn (S i) ts.
Definition tset (s : tsys) (i : nat) (t : timer) (x : tstat) : tsys :=
  TSys (tpool s) (tnow s) (tput (tms s) i (Timer (tmid t) (tmk t) (tmlim t) x)).

Inductive tmlabel := TmPool (l : label) | TmTick | TmCall | TmExpire (i : nat) | TmReturn (i : nat).
Inductive tmstep : tmlabel -> tsys -> tsys -> Prop :=
(** anything the pool and the other threads do, and the test of the loop's
    condition by a thread in the timed wait (262, 269) after it was woken *)
| tm_pool l st st' now ts : tstep l st st' -> tmstep (TmPool l) (TSys st now ts) (TSys st' now ts)
(** time goes by *)
| tm_tick st now now' ts : now <= now' -> tmstep TmTick (TSys st now ts) (TSys st now' ts)
(** the call and its first test 259-262, 269 *)
| tm_call st k lim now ts : 0 <= k ->
    tmstep TmCall (TSys st now ts)
      (TSys (with_clients st (pc st ++ [if may_return st (CWait k) then CBack (CWait k) else CAsleep (CWait k)])) now
         (ts ++ [Timer (length (pc st)) k lim TmIn]))
(** timed_wait gives up: not before the timestamp, and also when the thread has
    just been woken and has not run yet (POSIX allows both) *)
| tm_expire s i t g : nth_error (tms s) i = Some t -> tmst t = TmIn -> tmlim t <= tnow s ->
    nth_error (pc (tpool s)) (tmid t) = Some (CAsleep g) \/ nth_error (pc (tpool s)) (tmid t) = Some (CWoken g) ->
    tmstep (TmExpire i) s (tset s i t TmExpired)
(** return false 264, 271: the condition is not looked at again *)
| tm_false s i t : nth_error (tms s) i = Some t -> tmst t = TmExpired ->
    tmstep (TmReturn i) s (tset s i t (TmAnswer false))
(** return true 276 *)
| tm_true s i t g : nth_error (tms s) i = Some t -> tmst t = TmIn -> nth_error (pc (tpool s)) (tmid t) = Some (CBack g) ->
    tmstep (TmReturn i) s (tset s i t (TmAnswer true)).

(** Nobody is in a timed wait, the clock shows [now]. *)
Definition tsys_new (k : skind) (now : Z) : tsys := TSys (pool_new k) now [].
