(** Property theorems about the semaphore: C28. *)
From Verif Require Import Prelude SemM SemS SemP.

(** Waits that have returned never exceed initial value + posts that have
    returned (so the last waiter may rely on every post() it waited for being
    over), and the count never goes below zero. *)
Theorem C28_count : forall init scripts st, 0 <= init -> sreach (sem_start init scripts) st ->
  sreturned st <= init + sposted st /\ 0 <= sval st.
Proof. exact returned_bound. Qed.
Print Assumptions C28_count.
(** With nobody inside, the count is exact. *)
Theorem C28_exact : forall init scripts st, 0 <= init -> sreach (sem_start init scripts) st -> slocked st = false ->
  sreturned st + sval st = init + sposted st.
Proof. exact exact_count. Qed.
Print Assumptions C28_exact.
(** The count is never touched by two threads at once. *)
Theorem C28_exclusive : forall init scripts st l1 t l2 u l3, 0 <= init -> sreach (sem_start init scripts) st ->
  sthr st = l1 ++ t :: l2 ++ u :: l3 -> holds t = true -> holds u = true -> False.
Proof. exact mutual_exclusion. Qed.
Print Assumptions C28_exclusive.
(** A unit available while a thread sleeps: someone is awake on the way to it. *)
Theorem C28_no_lost_wakeup : forall init scripts st os, 0 <= init -> sreach (sem_start init scripts) st ->
  In (TSleep os) (sthr st) -> 0 < sval st -> exists t, In t (sthr st) /\ on_its_way t.
Proof. exact no_lost_wakeup. Qed.
Print Assumptions C28_no_lost_wakeup.
(** When nothing can move any more, every unfinished thread sleeps in wait()
    and every unit ever provided has been taken. *)
Theorem C28_stuck : forall init scripts st, 0 <= init -> sreach (sem_start init scripts) st -> stuck st ->
  (forall t, In t (sthr st) -> finished t \/ asleep t = true) /\
  (forall t, In t (sthr st) -> ~ finished t -> sreturned st = init + sposted st).
Proof. intros init scripts st H R K. split; [exact (proj1 (stuck_asleep _ _ _ H R K))|]. intros t. exact (stuck_all_used _ _ _ t H R K). Qed.
Print Assumptions C28_stuck.
(** With enough posts, none of them behind a wait of the same thread, everyone
    finishes: from every reachable state the number of further steps (spurious
    wake-ups apart) is bounded, and when nothing can move all calls are over. *)
Theorem C28_finish : forall init scripts st, 0 <= init -> forallb posts_first scripts = true ->
  total_waits scripts <= init + total_posts scripts ->
  sreach (sem_start init scripts) st ->
  (exists bound : nat, forall n st', ssteps n st st' -> (n <= bound)%nat) /\
  (forall n st', ssteps n st st' -> stuck st' -> Forall finished (sthr st')).
Proof. exact finish. Qed.
Print Assumptions C28_finish.
(** Once as many waits have returned as there are units, no thread is inside
    post() or will call it: the semaphore may be destroyed, as the assigning
    thread does. *)
Theorem C28_lifetime : forall init scripts st, 0 <= init -> sreach (sem_start init scripts) st ->
  sreturned st = init + total_posts scripts ->
  forall t, In t (sthr st) -> inside_post t = false /\ count_ops SPost (pending t) = 0.
Proof. exact last_wait. Qed.
Print Assumptions C28_lifetime.

(** Two posters and a thread that waits three times, one unit at the start: the
    waiter takes it, goes to sleep, one post wakes it up. *)
Definition c28_scripts := [[SWait; SWait; SWait]; [SPost]; [SPost]].
Example C28_hyps_met : forallb posts_first c28_scripts = true /\ total_waits c28_scripts <= 1 + total_posts c28_scripts /\
  exists st, sreach (sem_start 1 c28_scripts) st /\ In (TSleep [SWait]) (sthr st) /\ sval st = 1 /\ sreturned st = 1.
Proof.
  split; [reflexivity|]. split; [cbn; lia|].
  pose proof (sr_0 (sem_start 1 c28_scripts)) as R. set (s0 := sem_start 1 c28_scripts) in R at 1.
  pose proof (sr_step s0 _ _ R (ss_wait_lock 1 [] [SWait; SWait] [TAt [SPost]; TAt [SPost]] 0 0)) as R1.
  pose proof (sr_step s0 _ _ R1 (ss_wait_pass 1 true [] _ _ 0 0 ltac:(lia))) as R2.
  pose proof (sr_step s0 _ _ R2 (ss_wait_dec 1 true [] _ _ 0 0)) as R3.
  pose proof (sr_step s0 _ _ R3 (ss_wait_unlock 0 true [] _ _ 0 0)) as R4.
  pose proof (sr_step s0 _ _ R4 (ss_wait_lock 0 [] [SWait] _ 0 1)) as R5.
  pose proof (sr_step s0 _ _ R5 (ss_wait_sleep 0 true [] _ _ 0 1 ltac:(lia))) as R6.
  pose proof (sr_step s0 _ _ R6 (ss_post_lock 0 [TSleep [SWait]] [] [TAt [SPost]] 0 1)) as R7.
  pose proof (sr_step s0 _ _ R7 (ss_post_inc 0 true [TSleep [SWait]] [] [TAt [SPost]] 0 1)) as R8.
  eexists. split; [exact R8|]. split; [left; reflexivity|]. split; reflexivity.
Qed.
(** One poster, one waiter, to the end. *)
Example C28_lifetime_hyps_met : exists st, sreach (sem_start 0 [[SWait]; [SPost]]) st /\ sreturned st = 0 + total_posts [[SWait]; [SPost]].
Proof.
  pose proof (sr_0 (sem_start 0 [[SWait]; [SPost]])) as R. set (s0 := sem_start 0 [[SWait]; [SPost]]) in R at 1.
  pose proof (sr_step s0 _ _ R (ss_post_lock 0 [TAt [SWait]] [] [] 0 0)) as R1.
  pose proof (sr_step s0 _ _ R1 (ss_post_inc 0 true [TAt [SWait]] [] [] 0 0)) as R2.
  pose proof (sr_step s0 _ _ R2 (ss_notify_none 1 true [TAt [SWait]] [] [] 0 0 eq_refl)) as R3.
  pose proof (sr_step s0 _ _ R3 (ss_post_unlock 1 true [TAt [SWait]] [] [] 0 0)) as R4.
  pose proof (sr_step s0 _ _ R4 (ss_wait_lock 1 [] [] [TAt []] 1 0)) as R5.
  pose proof (sr_step s0 _ _ R5 (ss_wait_pass 1 true [] [] [TAt []] 1 0 ltac:(lia))) as R6.
  pose proof (sr_step s0 _ _ R6 (ss_wait_dec 1 true [] [] [TAt []] 1 0)) as R7.
  pose proof (sr_step s0 _ _ R7 (ss_wait_unlock 0 true [] [] [TAt []] 1 0)) as R8.
  eexists. split; [exact R8|reflexivity].
Qed.
(** A thread that posts only after waiting can deadlock with itself. *)
Example C28_posts_first_needed : exists st, sreach (sem_start 0 [[SWait; SPost]]) st /\ stuck st /\ ~ Forall finished (sthr st).
Proof.
  exists (Sem 0 false [TSleep [SPost]] 0 0). split; [|split].
  - eapply sr_step; [|apply (ss_wait_sleep 0 true [] _ []); lia]. eapply sr_step; [|apply (ss_wait_lock 0 [] _ [])]. apply sr_0.
  - intros st' S'. inversion S'; match goal with H : ?l ++ _ :: _ = [_] |- _ => destruct l as [|? [|]]; discriminate H end.
  - intros F. inversion F as [|x y E]. discriminate E.
Qed.
