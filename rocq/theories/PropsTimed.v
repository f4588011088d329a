(** C79: waiting for the pool with a time limit. *)
From Verif Require Import Prelude TPoolM TPoolS TimedM TimedS TimedP.

(** A call that answers true was, at some moment while it was under way, right:
    no more than the threshold's number of tasks were queued or being run. *)
Theorem C79_true : forall k now s i n lim, tmreach (tsys_new k now) s -> answered s i n lim true ->
  exists b, tmreach (tsys_new k now) b /\ tmreach b s /\ under_way b i /\ tasks b <= n.
Proof. exact timed_true. Qed.
Print Assumptions C79_true.
(** A call answers false only when its time is up. *)
Theorem C79_false : forall k now s i n lim, tmreach (tsys_new k now) s -> answered s i n lim false ->
  exists b, tmreach (tsys_new k now) b /\ tmreach b s /\ under_way b i /\ lim <= tnow b.
Proof. exact timed_false. Qed.
Print Assumptions C79_false.
(** Once its time is up, the calling thread can always go on, whatever the pool
    does, and after at most three steps of its own it has its answer. *)
Theorem C79_returns : forall k now s i t, tmreach (tsys_new k now) s -> nth_error (tms s) i = Some t -> tmlim t <= tnow s ->
  (under_way s i -> exists b, by_caller i s b) /\ (forall m b, callers i m s b -> (m <= 3)%nat).
Proof. intros k now s i t R E L. split; [intros U; exact (timed_goes_on k now s i t R E U L)|intros m b; exact (timed_ends i m s b)]. Qed.
Print Assumptions C79_returns.
(** A call made when no worker is active and nothing is queued (or, with a
    threshold of at least one, when active workers and queued tasks are within
    it) answers true, also when its time was up before it began. *)
Theorem C79_at_once : forall k now a b s i n lim x, tmreach (tsys_new k now) a -> tmstep TmCall a b -> i = length (tms a) ->
  (n = 0 -> pactive (tpool a) = 0 /\ pq (tpool a) = []) -> pactive (tpool a) + zlength (pq (tpool a)) <= n ->
  tmreach b s -> answered s i n lim x -> x = true.
Proof. exact timed_at_once. Qed.
Print Assumptions C79_at_once.
(** While a call with threshold 0 sleeps, a worker is active or a task queued
    (unless tasks were cleared with no worker active): when the time runs out on
    a sleeper, the pool is indeed not done. *)
Theorem C79_sleeper : forall k now a i t, tmpath clear_while_active (tsys_new k now) a ->
  nth_error (tms a) i = Some t -> tmst t = TmIn -> tmk t = 0 -> (exists g, nth_error (pc (tpool a)) (tmid t) = Some (CAsleep g)) ->
  pactive (tpool a) <> 0 \/ pq (tpool a) <> [].
Proof. exact timed_sleeper. Qed.
Print Assumptions C79_sleeper.

(** ** Concrete runs *)
Definition t1 : task := (1%nat, 0).
Ltac norm R := match type of R with tmreach _ ?b => let b' := eval cbv in b in change b with b' in R | tmpath _ _ ?b => let b' := eval cbv in b in change b with b' in R end.
Ltac tm := first [reflexivity|cbn; lia|apply n1_none; reflexivity|exact (n1_some [] _)|left; reflexivity|right; reflexivity|
  apply takes_fifo|eapply (rz_grow _ _ 1); [reflexivity|cbn; lia|lia|cbn; lia]].
Tactic Notation "pl" hyp(R) uconstr(c) := eapply tmr_step in R; [|eapply tm_pool; eapply c; tm]; norm R.
Tactic Notation "tmx" hyp(R) uconstr(c) := eapply tmr_step in R; [|eapply c; tm]; norm R.

(** The answer may be false although the pool was done well before the time limit
    and remained so: clear() wakes nobody. *)
Theorem C79_done_refuted : exists b s, tmreach (tsys_new Fifo 0) b /\ tmreach b s /\ under_way b 0 /\ tasks b = 0 /\ pactive (tpool b) = 0 /\ tnow b = 0 /\
  gsched (tpool s) = gsched (tpool b) /\ tasks s = 0 /\ answered s 0 0 5 false.
Proof.
  pose proof (tmr_0 (tsys_new Fifo 0)) as R.
  pl R (ts_schedule _ t1).
  tmx R (tm_call _ 0 5).
  pl R (ts_clear _).
  match type of R with tmreach _ ?b => exists b; pose proof (tmr_0 b) as Q end.
  tmx Q (tm_tick _ _ 5).
  tmx Q (tm_expire _ 0).
  tmx Q (tm_false _ 0).
  eexists. split; [exact R|]. split; [exact Q|]. split; [eexists; split; [reflexivity|auto]|]. repeat split. eexists. repeat split.
Qed.
Print Assumptions C79_done_refuted.
(** The answer may be false although the pool has become done: the last task
    returns and its worker goes to sleep between the end of the time limit and the
    moment the caller runs again. *)
Theorem C79_race_refuted : exists s s', tmpath clear_while_active (tsys_new Fifo 0) s /\ tasks s = 0 /\ pactive (tpool s) = 0 /\
  under_way s 0 /\ tmstep (TmReturn 0) s s' /\ answered s' 0 0 5 false.
Proof.
  pose proof (tmp_0 clear_while_active (tsys_new Fifo 0)) as R.
  eapply tmp_step in R; [|eapply tm_pool, (ts_resize _ 1); tm|intros l E; injection E as <-; discriminate]. norm R.
  eapply tmp_step in R; [|eapply tm_pool, (ts_active _ 1); tm|intros l E; injection E as <-; discriminate]. norm R.
  eapply tmp_step in R; [|eapply tm_pool, (ts_schedule _ t1); tm|intros l E; injection E as <-; discriminate]. norm R.
  eapply tmp_step in R; [|eapply (tm_call _ 0 5); tm|discriminate]. norm R.
  eapply tmp_step in R; [|eapply tm_pool, (ts_enter_take _ [] [] t1 []); tm|intros l E; injection E as <-; discriminate]. norm R.
  eapply tmp_step in R; [|eapply (tm_tick _ _ 5); tm|discriminate]. norm R.
  eapply tmp_step in R; [|eapply (tm_expire _ 0); tm|discriminate]. norm R.
  eapply tmp_step in R; [|eapply tm_pool, (ts_done _ [] t1 []); tm|intros l E; injection E as <-; discriminate]. norm R.
  eapply tmp_step in R; [|eapply tm_pool, (ts_enter_sleep _ [] []); tm|intros l E; injection E as <-; discriminate]. norm R.
  do 2 eexists. split; [exact R|]. repeat split; [eexists; split; [reflexivity|auto]|eapply (tm_false _ 0); reflexivity|].
  eexists. repeat split.
Qed.
Print Assumptions C79_race_refuted.
(** A call that answers true: with threshold 1, the second of two tasks still to
    be run; and one under way whose time is up. *)
Example C79_hyps_met : exists s, tmreach (tsys_new Fifo 0) s /\ answered s 0 1 5 true /\ tasks s = 1 /\ under_way s 1 /\
  (exists t, nth_error (tms s) 1 = Some t /\ tmlim t = 3 /\ tnow s = 4) /\ answered s 2 0 2 false.
Proof.
  pose proof (tmr_0 (tsys_new Fifo 0)) as R.
  pl R (ts_resize _ 1).
  pl R (ts_active _ 1).
  pl R (ts_schedule _ t1).
  pl R (ts_schedule _ (2%nat, 0)).
  tmx R (tm_call _ 1 5).
  tmx R (tm_call _ 0 3).
  tmx R (tm_call _ 0 2).
  pl R (ts_enter_take _ [] [] t1 [(2%nat, 0)]).
  pl R (ts_done _ [] t1 []).
  pl R (ts_active _ 0).
  pl R (ts_enter_sleep _ [] []).
  pl R (ts_client _ [] (CWait 1) [CWoken (CWait 0); CWoken (CWait 0)]).
  tmx R (tm_true _ 0).
  tmx R (tm_tick _ _ 4).
  tmx R (tm_expire _ 2).
  tmx R (tm_false _ 2).
  eexists. split; [exact R|]. split; [eexists; repeat split|]. split; [reflexivity|]. split; [eexists; split; [reflexivity|auto]|].
  split; [eexists; repeat split|eexists; repeat split].
Qed.
(** A call on a pool at rest whose time was up before it began. *)
Example C79_at_once_met : exists a b s, tmreach (tsys_new Fifo 9) a /\ tmstep TmCall a b /\ tmreach b s /\ answered s 0 0 5 true /\ pactive (tpool a) = 0 /\ pq (tpool a) = [].
Proof.
  exists (tsys_new Fifo 9). do 2 eexists. split; [apply tmr_0|]. split; [apply (tm_call _ 0 5); lia|]. split.
  { eapply tmr_step; [apply tmr_0|]. eapply (tm_true _ 0); reflexivity. }
  repeat split. eexists. repeat split.
Qed.
(** A sleeper with threshold 0 whose time is up. *)
Example C79_sleeper_met : exists a t, tmpath clear_while_active (tsys_new Fifo 7) a /\ nth_error (tms a) 0 = Some t /\ tmst t = TmIn /\ tmk t = 0 /\
  tmlim t <= tnow a /\ exists g, nth_error (pc (tpool a)) (tmid t) = Some (CAsleep g).
Proof.
  pose proof (tmp_0 clear_while_active (tsys_new Fifo 7)) as R.
  eapply tmp_step in R; [|eapply tm_pool, (ts_schedule _ t1); tm|intros l E; injection E as <-; discriminate]. norm R.
  eapply tmp_step in R; [|eapply (tm_call _ 0 5); tm|discriminate]. norm R.
  do 2 eexists. split; [exact R|]. split; [reflexivity|]. repeat split; [cbn; lia|]. eexists. reflexivity.
Qed.
