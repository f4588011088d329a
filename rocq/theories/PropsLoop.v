(** C74: tasks that loop *)
From Verif Require Import Prelude LoopM LoopS LoopP.

(** What can be observed of a looped task is exactly what LoopS describes. *)
Theorem C74_histories : forall i t0 l, 0 <= i < 2 ^ 32 ->
  (exists st, lrun (loop_make true i) (t0, LStart) l st) <-> history (i * 10 ^ 6) t0 l.
Proof. exact (fun i t0 l H => loop_histories i H t0 l). Qed.
Print Assumptions C74_histories.

(** i milliseconds pass before the first call and between a return and every later
    call; nothing is called after false, and nothing happens after an exception. *)
Theorem C74_breaks : forall i t0 l st, 0 <= i < 2 ^ 32 -> lrun (loop_make true i) (t0, LStart) l st ->
  (forall u, In (Called u) l -> t0 + i * 10 ^ 6 <= u) /\
  (forall a t r b u, l = a ++ Returned t r :: b -> In (Called u) b -> r = true /\ t + i * 10 ^ 6 <= u) /\
  (forall a t b, l = a ++ Threw t :: b -> b = []).
Proof. exact loop_breaks. Qed.
Print Assumptions C74_breaks.

(** A task that ended called the function once more than it returned true. *)
Theorem C74_count : forall i t0 l tf st, 0 <= i < 2 ^ 32 ->
  lrun (loop_make true i) (t0, LStart) (l ++ [Finished tf]) st ->
  call_count (l ++ [Finished tf]) = S (true_count (l ++ [Finished tf])).
Proof. exact loop_count. Qed.
Print Assumptions C74_count.

(** After true the next call can come at any time from i milliseconds on. *)
Theorem C74_goes_on : forall i t0 l t, 0 <= i < 2 ^ 32 ->
  (exists st, lrun (loop_make true i) (t0, LStart) (l ++ [Returned t true]) st) ->
  forall t1, t + i * 10 ^ 6 <= t1 ->
  exists m st, lrun (loop_make true i) (t0, LStart) (l ++ [Returned t true] ++ m ++ [Called t1]) st /\ call_count m = 0%nat.
Proof. exact loop_goes_on. Qed.
Print Assumptions C74_goes_on.

(** An empty function is not called: the task ends at once. *)
Theorem C74_empty : forall i t0,
  (forall l st, lrun (loop_make false i) (t0, LStart) l st -> l = [] \/ exists t, t0 <= t /\ l = [Finished t]) /\
  exists st, lrun (loop_make false i) (t0, LStart) [Finished t0] st.
Proof. exact (fun i t0 => conj (empty_history i t0) (empty_ends i t0)). Qed.
Print Assumptions C74_empty.

Example C74_hyps_met : exists st, lrun (loop_make true 1500) (999999999, LStart)
  [Slept 2500000000; Called 2500000000; Returned 2600000000 true; Slept 4100000000; Called 4100000001; Returned 4100000002 false; Finished 4100000002] st.
Proof. exact loop_example. Qed.
