(** Property theorems about the thread pool: C30-C33, C46. *)
From Coq Require Import Permutation.
From Verif Require Import Prelude TPoolM TPoolS TPoolP TPoolQ TPoolR TPoolT.

(** Whatever happened so far ([tr]) except clear(): each task scheduled is, as
    often as it was scheduled, either queued, or being run, or has returned, or
    has thrown; each one started is being run, has returned or has thrown. *)
Theorem C30_places : forall k tr st, run (pool_new k) tr st -> ~ In LClear tr ->
  Permutation (scheduled tr) (pq st ++ running st ++ returned tr ++ threw tr) /\
  Permutation (started tr) (running st ++ returned tr ++ threw tr).
Proof. exact task_places. Qed.
Print Assumptions C30_places.
(** Different tasks are started at most once each (also with clear()). *)
Theorem C30_once : forall k tr st, run (pool_new k) tr st -> NoDup (scheduled tr) -> NoDup (started tr).
Proof. exact started_once. Qed.
Print Assumptions C30_once.
(** FIFO: tasks are started in the order scheduled, none overtaken; with clear()
    some may be left out. *)
Theorem C30_fifo : forall tr st, run (pool_new Fifo) tr st ->
  subseq (started tr ++ pq st) (scheduled tr) /\ (~ In LClear tr -> scheduled tr = started tr ++ pq st).
Proof. exact fifo_order. Qed.
Print Assumptions C30_fifo.
(** Priority pool: a task is never started while one of higher priority waits. *)
Theorem C30_prio : forall tr st t st', run (pool_new Prio) tr st -> tstep (LStart t) st st' ->
  forall u, In u (pq st') -> snd u <= snd t.
Proof. exact prio_order. Qed.
Print Assumptions C30_prio.
(** LIFO: the task started is the last of the queue, and every task still waiting
    was scheduled before it.  In every pool the queue keeps the order of scheduling. *)
Theorem C30_lifo : forall tr st t st', run (pool_new Lifo) tr st -> tstep (LStart t) st st' ->
  pq st = pq st' ++ [t] /\ forall u, In u (pq st') -> exists a b c, scheduled tr = a ++ u :: b ++ t :: c.
Proof. exact lifo_order. Qed.
Print Assumptions C30_lifo.
Theorem C30_queue : forall k tr st, run (pool_new k) tr st -> subseq (pq st) (scheduled tr).
Proof. exact queue_order. Qed.
Print Assumptions C30_queue.
Example C30_lifo_hyps_met : exists tr st st', run (pool_new Lifo) tr st /\ scheduled tr = [(1%nat, 0); (2%nat, 0)] /\
  tstep (LStart (2%nat, 0)) st st' /\ pq st' = [(1%nat, 0)].
Proof. exact (lifo_example (2%nat, 0) (1%nat, 0)). Qed.

(** A task is started only when, with it, no more tasks run than the limit says. *)
Theorem C31_start : forall k st t st', treach (pool_new k) st -> tstep (LStart t) st st' ->
  zlength (running st') <= plimit st'.
Proof. exact start_limit. Qed.
Print Assumptions C31_start.
(** So the limit holds at every moment while it is not lowered. *)
Theorem C31_limit : forall k st, path not_lowered (pool_new k) st -> zlength (running st) <= plimit st.
Proof. exact limit_kept. Qed.
Print Assumptions C31_limit.

(** With a limit of at least one and no shrinking: while a task is queued some
    worker runs a task or is about to look for one. *)
Theorem C32_awake : forall k n a st, 0 <= n -> pool_init k n a -> path limit_positive a st ->
  pq st <> [] -> 1 <= pcount st -> exists w, In w (pw st) /\ awake w = true.
Proof. exact awake_while_queued. Qed.
Print Assumptions C32_awake.
(** When moreover the limit is raised only while nothing is queued, no capacity
    is wasted: the workers running or about to look for work are as many as the
    limit, the workers there are, or the tasks there are, whichever is least. *)
Theorem C32_work_conserved : forall k st, path calm (pool_new k) st ->
  Z.min (plimit st) (Z.min (pcount st) (zlength (pq st) + zlength (running st))) <= num awake (pw st).
Proof. exact work_conserved. Qed.
Print Assumptions C32_work_conserved.
(** If no new call comes, the pool comes to rest within a bounded number of
    steps, and at rest every task scheduled has been run (or removed). *)
Theorem C32_drains : forall k st, path calm (pool_new k) st -> 1 <= plimit st -> 1 <= pcount st ->
  (exists bound : nat, forall n b, isteps n st b -> (n <= bound)%nat) /\
  (at_rest st -> pq st = [] /\ running st = [] /\ Permutation (gsched st) (gdone st ++ gfail st ++ gclear st)).
Proof. intros k st Pa L C. split; [apply comes_to_rest|exact (rest_means_done k st Pa L C)]. Qed.
Print Assumptions C32_drains.

(** Once all workers wait or are gone there are at most as many as asked for. *)
Theorem C33_at_most : forall k st, treach (pool_new k) st -> 0 <= ptarget st ->
  (forall w, In w (pw st) -> quiet w = true) -> pcount st <= ptarget st.
Proof. exact at_most. Qed.
Print Assumptions C33_at_most.
(** Exactly as many, if no worker decides to exit while another is exiting. *)
Theorem C33_serial_exact : forall k a st, treach (pool_new k) a -> ptarget a <= pcount a -> num exiting (pw a) = 0 -> 0 <= ptarget a ->
  path serial_exit a st -> (forall w, In w (pw st) -> quiet w = true) -> pcount st = ptarget a.
Proof. exact serial_exact. Qed.
Print Assumptions C33_serial_exact.

(** wait(n) returns at a moment when at most n tasks are queued or running;
    terminate_all_workers(true) when no worker is left. *)
Theorem C46_returned : forall k st l st' i g, treach (pool_new k) st -> tstep l st st' ->
  nth_error (pc st') i = Some (CBack g) -> nth_error (pc st) i <> Some (CBack g) ->
  match g with CWait n => zlength (pq st) + zlength (running st) <= n | CTerm => pcount st <= 0 end.
Proof. exact wait_returned. Qed.
Print Assumptions C46_returned.
(** A thread asleep in wait(0) waits for something: a worker is active or a task
    queued (unless tasks were cleared with no worker active). *)
Theorem C46_sleepers : forall k st, path clear_while_active (pool_new k) st ->
  (In (CAsleep (CWait 0)) (pc st) -> pactive st <> 0 \/ pq st <> []) /\ (In (CAsleep CTerm) (pc st) -> 0 < pcount st).
Proof. exact sleepers_wait. Qed.
Print Assumptions C46_sleepers.
(** When the pool is at rest nobody is left asleep in wait(0). *)
Theorem C46_rest : forall k st, path (fun l b c => calm l b c /\ clear_while_active l b c) (pool_new k) st ->
  1 <= plimit st -> 1 <= pcount st -> at_rest st -> ~ In (CAsleep (CWait 0)) (pc st).
Proof. exact rest_no_sleeper. Qed.
Print Assumptions C46_rest.
(** After terminate_all_workers the pool comes to rest within a bounded number
    of steps; then no worker is left, and nobody is asleep in
    terminate_all_workers(true). *)
Theorem C46_terminates : forall k st, treach (pool_new k) st -> pterm st = true ->
  (exists bound : nat, forall n b, isteps n st b -> (n <= bound)%nat) /\
  (at_rest st -> (forall w, In w (pw st) -> w = WGone) /\ ~ In (CAsleep CTerm) (pc st)).
Proof. exact terminates. Qed.
Print Assumptions C46_terminates.

(** ** Concrete runs *)
Ltac norm_state R := match type of R with
  | path _ _ ?b => let b' := eval cbv in b in change b with b' in R
  | treach _ ?b => let b' := eval cbv in b in change b with b' in R
  | run _ ?tr ?b => let b' := eval cbv in b in change b with b' in R; let tr' := eval cbv in tr in change tr with tr' in R end.
Ltac cond := cbn; try exact Logic.I; repeat (split; [try exact Logic.I; try lia; try reflexivity; try (intros _; reflexivity); try (intros; lia)|]); try exact Logic.I; try lia; try reflexivity; try (intros; discriminate); try (intros; reflexivity); try (intros; lia).
Ltac grows k := eapply (rz_grow _ _ k); [reflexivity|cbn; lia|lia|cbn; lia].
Ltac prefer := fail.
Ltac side := first [solve [prefer]|reflexivity|solve [cbn; lia]|solve [apply n1_none; reflexivity]|exact (n1_some [] _)|exact (n1_some [_] _)
  |exact (takes_fifo _ _)|solve [apply (takes_prio _ [] []); intros u []]|solve [apply (takes_prio _ [_] []); intros u [<-|[]]; cbn; lia]
  |solve [apply rz_shrink; [reflexivity|cbn; lia]]|solve [grows 2]|solve [grows 1]].
Ltac stepped b s k := let l := fresh in let c := fresh in let X := fresh in
  evar (l : label); evar (c : pool); assert (X : tstep l b c); [subst l c; eapply s; side|subst l c; k X].
Tactic Notation "pgo" hyp(R) uconstr(s) := match type of R with path ?P ?a ?b => stepped b s ltac:(fun X =>
  let Y := fresh in pose proof (pa_step P a _ b _ R X) as Y; clear R X; assert (R := Y ltac:(unfold not_lowered, calm, not_shrunk, limit_positive, clear_while_active, serial_exit; cond)); clear Y; norm_state R) end.
Tactic Notation "rgo" hyp(R) uconstr(s) := match type of R with run ?a ?tr ?b => stepped b s ltac:(fun X =>
  let Y := fresh in pose proof (run_step a tr _ b _ R X) as Y; clear R X; rename Y into R; norm_state R) end.
Tactic Notation "tgo" hyp(R) uconstr(s) := match type of R with treach ?a ?b => stepped b s ltac:(fun X =>
  let Y := fresh in pose proof (tr_step a _ b _ R X) as Y; clear R X; rename Y into R; norm_state R) end.
Definition t1 : task := (1%nat, 5). Definition t2 : task := (2%nat, 7).

(** A pool of two workers limited to one; two tasks; a client in wait(0). *)
Example C31_C32_C46_hyps_met : exists st, path (fun l b c => not_lowered l b c /\ calm l b c /\ clear_while_active l b c) (pool_new Fifo) st /\
  1 <= plimit st /\ 1 <= pcount st /\ pq st = [t2] /\ running st = [t1] /\ In (CAsleep (CWait 0)) (pc st) /\ In WWait (pw st).
Proof.
  pose proof (pa_0 (fun l b c => not_lowered l b c /\ calm l b c /\ clear_while_active l b c) (pool_new Fifo)) as R.
  pgo R (ts_resize _ 2).
  pgo R (ts_active _ 1).
  pgo R (ts_enter_sleep _ [WEnter] []).
  pgo R (ts_schedule _ t1 [WEnter; WWoken]).
  pgo R (ts_schedule _ t2 [WEnter; WWoken]).
  pgo R (ts_enter_take _ [] [WWoken] t1 [t2]).
  pgo R (ts_woken_sleep _ [WRun t1] []).
  pgo R (ts_wait_call _ 0).
  eexists. split; [exact R|]. cbn. repeat split; try lia; auto.
Qed.
(** At rest after one task. *)
Example C30_C32_C46_rest : exists tr st, run (pool_new Prio) tr st /\ started tr = [t2; t1] /\ returned tr = [t2; t1] /\
  scheduled tr = [t1; t2] /\ at_rest st /\ pc st = [CBack (CWait 0)].
Proof.
  pose proof (run_0 (pool_new Prio)) as R.
  rgo R (ts_resize _ 1).
  rgo R (ts_active _ 1).
  rgo R (ts_schedule _ t1).
  rgo R (ts_schedule _ t2).
  rgo R (ts_enter_take _ [] [] t2 [t1]).
  rgo R (ts_done _ [] t2 []).
  rgo R (ts_enter_take _ [] [] t1 []).
  rgo R (ts_wait_call _ 0).
  rgo R (ts_done _ [] t1 []).
  rgo R (ts_enter_sleep _ [] []).
  rgo R (ts_client _ [] (CWait 0) []).
  eexists _, _. split; [exact R|]. repeat split; try reflexivity.
  intros l st' I St. inversion St; subst; try discriminate I; cbn in *; match goal with E : [_] = ?l ++ _ :: _ |- _ => destruct l as [|? []]; discriminate E end.
Qed.
(** Raising the limit wakes nobody: a worker that may run sleeps with work queued. *)
Theorem C32_raised_limit_refuted : exists st, path not_shrunk (pool_new Fifo) st /\ path not_lowered (pool_new Fifo) st /\
  pq st <> [] /\ zlength (running st) < Z.min (plimit st) (pcount st) /\ num awake (pw st) = zlength (running st).
Proof.
  assert (R : path (fun l b c => not_shrunk l b c /\ not_lowered l b c) (pool_new Fifo) (pool_new Fifo)) by constructor.
  pgo R (ts_resize _ 2).
  pgo R (ts_active _ 1).
  pgo R (ts_enter_sleep _ [WEnter] []).
  pgo R (ts_schedule _ t1 [WEnter; WWoken]).
  pgo R (ts_schedule _ t2 [WEnter; WWoken]).
  pgo R (ts_enter_take _ [] [WWoken] t1 [t2]).
  pgo R (ts_woken_sleep _ [WRun t1] []).
  pgo R (ts_active _ 2).
  eexists. split; [|split]; [refine (path_weaken _ _ _ _ _ R); tauto ..|].
  cbn. repeat split; try lia; discriminate.
Qed.
Print Assumptions C32_raised_limit_refuted.
Ltac prefer ::= cbn; grows 0.
(** A task throws and no thread can be made to replace its worker: the pool
    sleeps with work queued although it has a worker. *)
Theorem C32_unreplaced_refuted : exists st, path not_lowered (pool_new Fifo) st /\ 1 <= plimit st /\ 1 <= pcount st /\ ptarget st = 2 /\
  pq st <> [] /\ (forall w, In w (pw st) -> quiet w = true).
Proof.
  assert (R : path not_lowered (pool_new Fifo) (pool_new Fifo)) by constructor.
  pgo R (ts_resize _ 2 (grow (pool_new Fifo) 2 2)).
  pgo R (ts_active _ 1).
  pgo R (ts_enter_sleep _ [WEnter] []).
  pgo R (ts_schedule _ t1 [WEnter; WWoken]).
  pgo R (ts_schedule _ t2 [WEnter; WWoken]).
  pgo R (ts_enter_take _ [] [WWoken] t1 [t2]).
  pgo R (ts_woken_sleep _ [WRun t1] []).
  pgo R (ts_died _ [] t1 [WWait]).
  eexists. split; [exact R|]. cbn. repeat split; try lia; try discriminate. intros w [<-|[<-|[]]]; reflexivity.
Qed.
Print Assumptions C32_unreplaced_refuted.
Ltac prefer ::= fail.
(** Shrinking from two workers to one can end with none: both see the old count
    and exit. *)
Theorem C33_exact_refuted : exists a st, treach (pool_new Fifo) a /\ treach a st /\ pcount a = 2 /\ ptarget a = 1 /\
  (forall w, In w (pw st) -> quiet w = true) /\ ptarget st = 1 /\ pcount st = 0.
Proof.
  pose proof (tr_0 (pool_new Fifo)) as R.
  tgo R (ts_resize _ 2).
  tgo R (ts_active _ 2).
  tgo R (ts_enter_sleep _ [WEnter] []).
  tgo R (ts_enter_sleep _ [] [WWait]).
  tgo R (ts_resize _ 1).
  match type of R with treach _ ?b => pose proof (tr_0 b) as Q end.
  tgo Q (ts_woken_exit _ [] [WWoken]).
  tgo Q (ts_woken_exit _ [WExit] []).
  tgo Q (ts_destructed _ [] [WExit]).
  tgo Q (ts_destructed _ [WGone] []).
  eexists _, _. split; [exact R|]. split; [exact Q|]. cbn. repeat split; try lia. intros w [<-|[<-|[]]]; reflexivity.
Qed.
Print Assumptions C33_exact_refuted.
(** The same shrinking with the exits one after the other leaves one. *)
Example C33_hyps_met : exists a st, treach (pool_new Fifo) a /\ ptarget a = 1 /\ pcount a = 2 /\ num exiting (pw a) = 0 /\ path serial_exit a st /\
  (forall w, In w (pw st) -> quiet w = true) /\ pcount st = 1.
Proof.
  pose proof (tr_0 (pool_new Fifo)) as R.
  tgo R (ts_resize _ 2).
  tgo R (ts_active _ 2).
  tgo R (ts_enter_sleep _ [WEnter] []).
  tgo R (ts_enter_sleep _ [] [WWait]).
  tgo R (ts_resize _ 1).
  match type of R with treach _ ?b => pose proof (pa_0 serial_exit b) as Q end.
  pgo Q (ts_woken_exit _ [] [WWoken]).
  pgo Q (ts_destructed _ [] [WWoken]).
  pgo Q (ts_woken_sleep _ [WGone] []).
  eexists _, _. split; [exact R|]. do 3 (split; [reflexivity|]). split; [exact Q|]. split; [|reflexivity]. intros w [<-|[<-|[]]]; reflexivity.
Qed.
(** wait(2) sleeps on although no more than two tasks are queued or running:
    starting a task notifies nobody. *)
Theorem C46_threshold_refuted : exists st, path calm (pool_new Fifo) st /\ In (CAsleep (CWait 2)) (pc st) /\ zlength (pq st) + zlength (running st) <= 2 /\
  pactive st = zlength (running st).
Proof.
  pose proof (pa_0 calm (pool_new Fifo)) as R.
  pgo R (ts_resize _ 1).
  pgo R (ts_active _ 1).
  pgo R (ts_schedule _ t1).
  pgo R (ts_schedule _ t2).
  pgo R (ts_wait_call _ 2).
  pgo R (ts_enter_take _ [] [] t1 [t2]).
  eexists. split; [exact R|]. cbn. repeat split; try lia; auto.
Qed.
Print Assumptions C46_threshold_refuted.
(** clear() wakes no one who waits for the queue to be empty. *)
Theorem C46_clear_refuted : exists st, treach (pool_new Fifo) st /\ In (CAsleep (CWait 0)) (pc st) /\ pq st = [] /\ pactive st = 0 /\ at_rest st.
Proof.
  pose proof (tr_0 (pool_new Fifo)) as R.
  tgo R (ts_schedule _ t1).
  tgo R (ts_wait_call _ 0).
  tgo R (ts_clear _).
  eexists. split; [exact R|]. cbn. repeat split; auto.
  intros l st' I St. inversion St; subst; try discriminate I; cbn in *; match goal with E : [] = ?l ++ _ :: _ |- _ => destruct l; discriminate E end.
Qed.
Print Assumptions C46_clear_refuted.
(** A pool of two workers, one running and one asleep, that is being terminated. *)
Example C46_terminates_hyps_met : exists st, treach (pool_new Fifo) st /\ pterm st = true /\ pc st = [CAsleep CTerm] /\ pw st = [WWoken; WRun t1].
Proof.
  pose proof (tr_0 (pool_new Fifo)) as R.
  tgo R (ts_resize _ 2).
  tgo R (ts_active _ 2).
  tgo R (ts_enter_sleep _ [] [WEnter]).
  tgo R (ts_schedule _ t1 [WWoken; WEnter]).
  tgo R (ts_enter_take _ [WWoken] [] t1 []).
  tgo R (ts_woken_sleep _ [] [WRun t1]).
  tgo R (ts_terminate _ true).
  eexists. split; [exact R|]. auto.
Qed.
(** Terminating a pool leaves a caller of wait() asleep for ever if a task is
    still queued: the worker exits without taking it. *)
Theorem C46_terminated_wait_refuted : exists st, treach (pool_new Fifo) st /\ pterm st = true /\ pq st = [t1] /\
  at_rest st /\ pw st = [WGone] /\ pc st = [CAsleep (CWait 0)].
Proof.
  pose proof (tr_0 (pool_new Fifo)) as R.
  tgo R (ts_resize _ 1).
  tgo R (ts_active _ 1).
  tgo R (ts_schedule _ t1).
  tgo R (ts_wait_call _ 0).
  tgo R (ts_terminate _ false).
  tgo R (ts_enter_exit _ [] []).
  tgo R (ts_destructed _ [] []).
  tgo R (ts_client _ [] (CWait 0) []).
  eexists. split; [exact R|]. repeat split.
  intros l st' I St. inversion St; subst; try discriminate I; cbn in *; match goal with E : [_] = ?l ++ _ :: _ |- _ => destruct l as [|? []]; discriminate E end.
Qed.
Print Assumptions C46_terminated_wait_refuted.
