(** What the events of a future say, for stating C53.  Nothing here looks inside
    the future. *)
From Verif Require Import Prelude FutureM.

Section FutureS.
Context {V : Type}.
(** The call returned because the value is there (cancel: too late to cancel). *)
Definition reports_ready (e : event V) : Prop :=
  match e with
  | EEnd _ Ready (ABool true) | EEnd _ Wait _ | EEnd _ Get _ | EEnd _ Timed (ABool true) | EEnd _ Cancel (ABool false) => True
  | _ => False
  end.
(** ready() said no. *)
Definition reports_unready (e : event V) : Prop := match e with EEnd _ Ready (ABool false) => True | _ => False end.
(** cancel() said that the future is cancelled. *)
Definition reports_cancelled (e : event V) : Prop := match e with EEnd _ Cancel (ABool true) => True | _ => False end.
(** The events of the task's function. *)
Definition invoked (e : event V) : Prop := match e with EInvoke => True | _ => False end.
Definition returned (e : event V) : Prop := match e with EReturn _ => True | _ => False end.
Definition started (e : event V) : Prop := match e with EStart => True | _ => False end.

(** No event of the log is a [P]; [P] at most once. *)
Definition never (P : event V -> Prop) (log : list (event V)) : Prop := forall e, In e log -> ~ P e.
Definition once (P : event V -> Prop) (log : list (event V)) : Prop :=
  forall l1 e l2, log = l1 ++ e :: l2 -> P e -> never P l1 /\ never P l2.

(** Executions of the task alone, and executions of [n] steps of anybody. *)
Inductive task_alone : fut V -> list (event V) -> fut V -> Prop :=
| ta_nil s : task_alone s [] s
| ta_cons s es s' es' s'' : tstep s es s' -> task_alone s' es' s'' -> task_alone s (es ++ es') s''.
Inductive runs : nat -> fut V -> fut V -> Prop :=
| runs_0 s : runs 0 s s
| runs_S n s es s' s'' : fstep s es s' -> runs n s' s'' -> runs (S n) s s''.

(** Every execution from here ends, and where it ends all threads have returned
    from all their calls. *)
Definition all_return (s : fut V) : Prop :=
  (exists N, forall n s', runs n s s' -> (n <= N)%nat) /\
  (forall n s', runs n s s' -> (forall es s'', ~ fstep s' es s'') -> forall c, In c (fclients s') -> ctodo c = []).

(** Nothing is left to happen but a wait waking up for no reason or timing out. *)
Definition quiet (s : fut V) : Prop :=
  (forall es s', ~ tstep s es s') /\
  (forall l1 c l2 c' b rs, fclients s = l1 ++ c :: l2 -> ~ cstep s c c' b rs).
(** A thread asleep in a wait() or get(), or in a timed_wait(). *)
Definition asleep_in_wait (c : client) : Prop :=
  exists k rest, c = Client PSleep (k :: rest) /\ waits k = true.
End FutureS.
