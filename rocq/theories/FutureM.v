(** Model of a future (threadpool/threadpool/future.hpp, detail/future.hpp): one
    future_impl, the task that schedule() put into a pool, and any number of
    threads calling the future's members.  The members ready, cancel and
    is_cancelled take no lock, so every read and write of a shared variable outside
    m_monitor is a step of its own; so are the writes of set_value inside it, which
    those members can see.  Memory is sequentially consistent (the variables are
    volatile, not atomic: C++11 would call these races undefined). *)
From Verif Require Import Prelude.

Section Future.
Context {V : Type}.

(** future.hpp:66-99 *)
Inductive call := Ready | IsCancelled | Wait | Get | Timed | Cancel.
(** [AVal None]: m_result as the constructor left it, without a value *)
Inductive answer := ABool (b : bool) | AUnit | AVal (o : option V).
(** What can be observed.  Of the task: taken from the queue by a worker; its
    function called; returned; ended by an exception; the task removed from the
    queue by the pool's clear().  Of thread [i]: a call has returned; an
    uninitialised m_executing was read. *)
Inductive event :=
| EStart | EInvoke | EReturn (v : V) | EThrow | EDrop
| EEnd (i : nat) (c : call) (a : answer) | EUninit.

(** Where the task is: in the queue, or gone from it; operator() 191-204: before the test 196, before
    the call 199, in the function, before set_value's lock 112; in set_value
    before the writes 115 and 116 and the notification 117; before 201; over *)
Inductive stage := SQueued | SDropped | SChecking | SCalling | SRunning | SSetting (v : V)
  | SStore (v : V) | SPublish | SNotify | SClosing | SOver.
(** Where a thread is in its current call: before the call or before
    taking m_monitor in it; waiting for m_condition_ready; woken; the time-out has
    passed; wait() is over and m_result not read yet (98-106); in cancel()
    133-144 after m_ready was true; before the write 137 *)
Inductive pc := PAt | PSleep | PAwake | PTimedOut | PRead | PSeenReady | PMark.
Record client := Client { cpc : pc; ctodo : list call }.

(** m_ready, m_result, m_is_cancelled, m_executing (45-52), whether m_monitor is held by the task,
    whether the task has a function (193), the task, the threads *)
Record fut := Fut { fready : bool; fresult : option V; fcancel : bool; fexec : option bool; fheld : bool;
                    ffn : bool; fstage : stage; fclients : list client }.
(** detail/future.hpp:59-63 (m_executing is not initialised) and schedule
    (future.hpp:106-124); [progs]: the calls each thread makes *)
Definition fnew (fn : bool) (progs : list (list call)) : fut :=
  Fut false None false None false fn SQueued (map (Client PAt) progs).

Definition at_stage (s : fut) (st : stage) : fut :=
  Fut (fready s) (fresult s) (fcancel s) (fexec s) (fheld s) (ffn s) st (fclients s).
Definition with_exec (s : fut) (b : bool) (st : stage) : fut :=
  Fut (fready s) (fresult s) (fcancel s) (Some b) (fheld s) (ffn s) st (fclients s).
Definition with_held (s : fut) (b : bool) (st : stage) : fut :=
  Fut (fready s) (fresult s) (fcancel s) (fexec s) b (ffn s) st (fclients s).
Definition with_clients (s : fut) (cs : list client) : fut :=
  Fut (fready s) (fresult s) (fcancel s) (fexec s) (fheld s) (ffn s) (fstage s) cs.
(** notify_all *)
Definition woken (c : client) : client := match cpc c with PSleep => Client PAwake (ctodo c) | _ => c end.

(** The task's steps. *)
Inductive tstep : fut -> list event -> fut -> Prop :=
(** clear() of the pool, pool_core.hpp:211-214 *)
| t_drop s : fstage s = SQueued -> tstep s [EDrop] (at_stage s SDropped)
(** 191-195: without a function nothing is done *)
| t_start_empty s : fstage s = SQueued -> ffn s = false -> tstep s [EStart] (at_stage s SOver)
| t_start s : fstage s = SQueued -> ffn s = true -> tstep s [EStart] (with_exec s true SChecking)
(** 196 *)
| t_check s : fstage s = SChecking -> tstep s [] (at_stage s (if fcancel s then SClosing else SCalling))
(** 199 *)
| t_invoke s : fstage s = SCalling -> tstep s [EInvoke] (at_stage s SRunning)
| t_return s v : fstage s = SRunning -> tstep s [EReturn v] (at_stage s (SSetting v))
(** an exception leaves operator(), which has no handler (198, 201) *)
| t_throw s : fstage s = SRunning -> tstep s [EThrow] (at_stage s SOver)
(** set_value 110-119 *)
| t_lock s v : fstage s = SSetting v -> fheld s = false ->
    tstep s [] (if negb (fready s) && negb (fcancel s) then with_held s true (SStore v) else at_stage s SClosing)
| t_store s v : fstage s = SStore v ->
    tstep s [] (Fut (fready s) (Some v) (fcancel s) (fexec s) (fheld s) (ffn s) SPublish (fclients s))
| t_publish s : fstage s = SPublish ->
    tstep s [] (Fut true (fresult s) (fcancel s) (fexec s) (fheld s) (ffn s) SNotify (fclients s))
| t_notify s : fstage s = SNotify ->
    tstep s [] (with_clients (with_held s false SClosing) (map woken (fclients s)))
(** 201 *)
| t_close s : fstage s = SClosing -> tstep s [] (with_exec s false SOver).

(** What a wait() (70-79), timed_wait() (82-93) or get() (96-107) does next
    once it holds m_monitor: m_ready is tested. *)
Definition proceed (ready : bool) (c : call) (rest : list call) : client * list answer :=
  if ready then match c with
                | Get => (Client PRead (c :: rest), [])
                | Timed => (Client PAt rest, [ABool true])
                | _ => (Client PAt rest, [AUnit])
                end
  else (Client PSleep (c :: rest), []).
Definition waits (c : call) : bool := match c with Wait | Get | Timed => true | _ => false end.

(** One step of a thread, that makes the future [s] into the future with the
    given m_is_cancelled. *)
Inductive cstep (s : fut) : client -> client -> bool -> list (call * answer) -> Prop :=
(** 65-68, 147-150 *)
| c_ready rest : cstep s (Client PAt (Ready :: rest)) (Client PAt rest) (fcancel s) [(Ready, ABool (fready s))]
| c_is_cancelled rest : cstep s (Client PAt (IsCancelled :: rest)) (Client PAt rest) (fcancel s) [(IsCancelled, ABool (fcancel s))]
(** 70-107 *)
| c_wait p c rest : waits c = true -> p = PAt \/ p = PAwake -> fheld s = false ->
    cstep s (Client p (c :: rest)) (fst (proceed (fready s) c rest)) (fcancel s)
      (map (pair c) (snd (proceed (fready s) c rest)))
| c_timed_out rest : fheld s = false ->
    cstep s (Client PTimedOut (Timed :: rest)) (Client PAt rest) (fcancel s) [(Timed, ABool false)]
| c_read rest : cstep s (Client PRead (Get :: rest)) (Client PAt rest) (fcancel s) [(Get, AVal (fresult s))]
(** cancel 133-144 *)
| c_cancel rest : cstep s (Client PAt (Cancel :: rest)) (Client (if fready s then PSeenReady else PMark) (Cancel :: rest)) (fcancel s) []
| c_cancel_exec rest b : fexec s = Some b -> b = true ->
    cstep s (Client PSeenReady (Cancel :: rest)) (Client PMark (Cancel :: rest)) (fcancel s) []
| c_cancel_false rest b : fexec s = Some b -> b = false ->
    cstep s (Client PSeenReady (Cancel :: rest)) (Client PAt rest) (fcancel s) [(Cancel, ABool false)]
| c_cancel_mark rest : cstep s (Client PMark (Cancel :: rest)) (Client PAt rest) true [(Cancel, ABool true)].

Definition with_client (s : fut) (l1 : list client) (c : client) (l2 : list client) (b : bool) : fut :=
  Fut (fready s) (fresult s) b (fexec s) (fheld s) (ffn s) (fstage s) (l1 ++ c :: l2).

(** Steps of the whole system.  [f_wake] and [f_timeout] are what a condition
    variable may do by itself: wake up for no reason, and reach the time given. *)
Inductive fstep : fut -> list event -> fut -> Prop :=
| f_task s es s' : tstep s es s' -> fstep s es s'
| f_client s l1 c l2 c' b rs : fclients s = l1 ++ c :: l2 -> cstep s c c' b rs ->
    fstep s (map (fun r => EEnd (length l1) (fst r) (snd r)) rs) (with_client s l1 c' l2 b)
| f_uninit s l1 rest l2 : fclients s = l1 ++ Client PSeenReady (Cancel :: rest) :: l2 -> fexec s = None ->
    fstep s [EUninit] (with_client s l1 (Client PMark (Cancel :: rest)) l2 (fcancel s))
| f_wake s l1 l2 todo : fclients s = l1 ++ Client PSleep todo :: l2 ->
    fstep s [] (with_client s l1 (Client PAwake todo) l2 (fcancel s))
| f_timeout s l1 l2 rest : fclients s = l1 ++ Client PSleep (Timed :: rest) :: l2 ->
    fstep s [] (with_client s l1 (Client PTimedOut (Timed :: rest)) l2 (fcancel s)).

Inductive fsteps : fut -> list event -> fut -> Prop :=
| fs_nil s : fsteps s [] s
| fs_cons s es s' es' s'' : fstep s es s' -> fsteps s' es' s'' -> fsteps s (es ++ es') s''.
End Future.
Arguments event : clear implicits.
Arguments answer : clear implicits.
Arguments fut : clear implicits.
Arguments stage : clear implicits.
