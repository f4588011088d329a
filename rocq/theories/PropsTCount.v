(** C56: the thread counts of the library.  Runs interleave the calls with all
    steps of the pool and of its clients. *)
From Verif Require Import Prelude TPoolM TPoolS TCountM TCountS TCountP TCountE.

(** set_hard_thread_count(n) returns n, or 1 if n is less; it never reports that
    the pool does not exist, whoever called first. *)
Theorem C56_hard_result : forall k N s tr a n r b, mstart k N s -> mrun N s tr a -> mstep N (MSetHard n r) a b -> r = Z.max 1 n.
Proof. exact hard_result. Qed.
Print Assumptions C56_hard_result.

(** get_hard_thread_count returns the number of workers that have not ended. *)
Theorem C56_hard_counts : forall k N s tr a r b, 0 <= N -> mstart k N s -> mrun N s tr a -> mstep N (MGetHard r) a b ->
  r = num (fun w => match w with WGone => false | _ => true end) (pw (mpool a)) /\ mpool b = mpool a.
Proof. exact hard_counts. Qed.
Print Assumptions C56_hard_counts.

(** As long as nobody asks for fewer threads, it is at every moment the number
    asked for last. *)
Theorem C56_hard_exact : forall k N s tr a r b, 1 <= N -> mstart k N s -> pcount (mpool s) = N -> made N s tr a ->
  undisturbed tr -> only_more N tr -> mstep N (MGetHard r) a b -> r = asked N tr.
Proof. exact hard_exact. Qed.
Print Assumptions C56_hard_exact.

(** After shrinking it is at most that number, once all workers are at rest. *)
Theorem C56_hard_at_most : forall k N s tr a r b, 1 <= N -> mstart k N s -> mrun N s tr a -> undisturbed tr ->
  (forall w, In w (pw (mpool a)) -> quiet w = true) -> mstep N (MGetHard r) a b -> r <= asked N tr.
Proof. exact hard_at_most. Qed.
Print Assumptions C56_hard_at_most.

(** set_soft_thread_count(n) returns n; from then on, until the next such call,
    get_soft_thread_count returns n, at least 1 and at most the number of
    workers there were at that call. *)
Theorem C56_soft : forall k N s tr a n r b tr' c r' c', mstart k N s -> mrun N s tr a -> mstep N (MSetSoft n r) a b ->
  mrun N b tr' c -> soft_untouched tr' -> mstep N (MGetSoft r') c c' ->
  r = n /\ r' = Z.min (Z.max 1 n) (pcount (mpool a)).
Proof. exact soft_ok. Qed.
Print Assumptions C56_soft.

(** After asking for one of two threads there may be none; then asking for one
    again does nothing and no task is ever started. *)
Theorem C56_starved_refuted : exists s tr a, mstart Fifo 2 s /\ pcount (mpool s) = 2 /\ mrun 2 s tr a /\ undisturbed tr /\ asked 2 tr = 1 /\
  forall tr' b, mrun 2 a tr' b -> (forall n r, In (MSetHard n r) tr' -> n = 1) ->
    (forall t, ~ In (MPool (LStart t)) tr') /\ (forall r, In (MGetHard r) tr' -> r = 0).
Proof. exact starved. Qed.
Print Assumptions C56_starved_refuted.

(** When a task throws while the pool shrinks, the old number of threads comes
    back, and asking again for the smaller number changes nothing. *)
Theorem C56_throw_refuted : exists s tr a, mstart Fifo 2 s /\ pcount (mpool s) = 2 /\ made 2 s (tr ++ [MSetHard 1 1]) a /\ asked 2 tr = 1 /\
  ~ In (MPool LTerminate) tr /\ (forall w, In w (pw (mpool a)) -> quiet w = true) /\ mstep 2 (MGetHard 2) a a.
Proof. exact after_throw. Qed.
Print Assumptions C56_throw_refuted.

(** The soft count can stay above the hard one. *)
Theorem C56_soft_above_refuted : exists s tr a, mstart Fifo 2 s /\ mrun 2 s tr a /\ undisturbed tr /\
  (forall w, In w (pw (mpool a)) -> quiet w = true) /\ mstep 2 (MGetHard 1) a a /\ mstep 2 (MGetSoft 2) a a.
Proof. exact soft_above. Qed.
Print Assumptions C56_soft_above_refuted.

(** set_soft_thread_count(4), which returns 4, then set_hard_thread_count(4):
    the soft count is that of the two threads there were before. *)
Theorem C56_soft_late_refuted : exists s tr a, mstart Fifo 2 s /\ pcount (mpool s) = 2 /\ made 2 s (tr ++ [MSetSoft 4 4; MSetHard 4 4]) a /\ undisturbed tr /\
  only_more 2 (tr ++ [MSetSoft 4 4; MSetHard 4 4]) /\ mstep 2 (MGetHard 4) a a /\ mstep 2 (MGetSoft 2) a a.
Proof. exact soft_late. Qed.
Print Assumptions C56_soft_late_refuted.

(** The cases above, one with tasks running, meet the hypotheses of the theorems:
    C56_soft_late_refuted those of C56_hard_exact and C56_hard_counts,
    C56_soft_above_refuted those of C56_hard_at_most.  For the others: *)
Example C56_hyps_met : exists s tr a, mstart Fifo 2 s /\ mrun 2 s (tr ++ [MSetSoft 0 0]) a /\ mstep 2 (MGetSoft 1) a a.
Proof. exact soft_zero. Qed.
