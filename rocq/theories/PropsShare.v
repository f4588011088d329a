(** Several threads that make assignments on one thread pool: C59. *)
From Verif Require Import Prelude WindowM WindowS GhostM FieldM FieldS MaskM NeboM NeboS NeboE ParM ParS TPoolM TPoolS ShareM ShareS ShareU ShareV ShareW ShareE.

(** C59.  [cs]: the threads; each makes the assignments of its list one after the
    other, and runs on a thread of its own (false) or as a task of the pool
    (true).  [q]: any state of the pool. *)
Theorem C59_shared_pool : forall V (vadd vmul : V -> V -> V) (dim : asg V -> ivec) (h0 : heap V) (cs : list (bool * list (asg V))),
  (forall c a, In c cs -> In a (snd c) -> asg_ok dim h0 a) -> independent cs ->
  forall q, exists N, forall fuel, (N <= fuel)%nat -> forall st, hpath any_step (share_start vadd vmul fuel q h0 cs) st ->
  no_share_failure st /\ share_race_free st /\
  (forall c x k, nth_error cs c = Some x -> nth_error (scall st) c = Some k -> cstage k = Between ->
     exists h', in_order vadd vmul dim h0 (firstn (cnum k) (snd x)) h' /\
     forall a b i, In a (snd x) -> In b (blocks a) -> bdata (sheap st b) i = bdata (h' b) i) /\
  (forall b i, bcells (sheap st b) i = bcells (h0 b) i) /\
  (forall b i, (forall x a, In x cs -> In a (snd x) -> fbuf (adst a) <> b) -> bdata (sheap st b) i = bdata (h0 b) i).
Proof. exact share_safe. Qed.
Print Assumptions C59_shared_pool.

(** When all have returned, memory is what making all assignments one thread
    after the other gives. *)
Theorem C59_as_if_in_turn : forall V (vadd vmul : V -> V -> V) (dim : asg V -> ivec) (h0 : heap V) (cs : list (bool * list (asg V))),
  (forall c a, In c cs -> In a (snd c) -> asg_ok dim h0 a) -> independent cs ->
  forall q, exists N, forall fuel, (N <= fuel)%nat -> forall st, hpath any_step (share_start vadd vmul fuel q h0 cs) st ->
  all_returned st -> exists h', in_order vadd vmul dim h0 (concat (map snd cs)) h' /\ same_heap (sheap st) h'.
Proof. exact share_result. Qed.
Print Assumptions C59_as_if_in_turn.

(** Left alone, the threads, the jobs and the workers come to rest. *)
Theorem C59_comes_to_rest : forall V (vadd vmul : V -> V -> V) (dim : asg V -> ivec) (h0 : heap V) (cs : list (bool * list (asg V))),
  (forall c a, In c cs -> In a (snd c) -> asg_ok dim h0 a) -> independent cs ->
  forall q, exists N, forall fuel, (N <= fuel)%nat -> forall st, hpath any_step (share_start vadd vmul fuel q h0 cs) st ->
  exists bound, forall n st', histeps n st st' -> (n <= bound)%nat.
Proof. exact share_bounded. Qed.
Print Assumptions C59_comes_to_rest.

(** At rest every assignment has returned, if fewer threads run on the pool than
    the pool has workers and lets run. *)
Theorem C59_returns : forall V (vadd vmul : V -> V -> V) (dim : asg V -> ivec) (h0 : heap V) (cs : list (bool * list (asg V))),
  (forall c a, In c cs -> In a (snd c) -> asg_ok dim h0 a) -> independent cs ->
  forall kd q, path calm (pool_new kd) q -> gsched q = [] ->
  exists N, forall fuel, (N <= fuel)%nat -> forall st, hpath calm_step (share_start vadd vmul fuel q h0 cs) st -> halted st ->
  1 <= plimit (spool st) -> 1 <= pcount (spool st) -> on_pool cs < Z.min (plimit (spool st)) (pcount (spool st)) -> all_returned st.
Proof. exact share_returns. Qed.
Print Assumptions C59_returns.

(** Without that condition they may wait for ever: an assignment made by the only
    worker of the pool, whatever it assigns. *)
Theorem C59_nested_refuted : forall V (vadd vmul : V -> V -> V) (dim : asg V -> ivec) kd (h : heap V) a,
  asg_ok dim h a -> apar a = true -> exists N, forall fuel, (N <= fuel)%nat ->
  exists st, hpath calm_step (share_start vadd vmul fuel (lone kd) h [(true, [a])]) st /\ halted st /\ ~ all_returned st.
Proof. exact lone_deadlock. Qed.
Print Assumptions C59_nested_refuted.

Example C59_hyps_met :
  (forall c a, In c xthreads -> In a (snd c) -> asg_ok xpatch xheap a) /\ independent xthreads /\
  path calm (pool_new Fifo) (two Fifo) /\ gsched (two Fifo) = [] /\ on_pool xthreads = 1 /\
  1 <= plimit (two Fifo) /\ 1 <= pcount (two Fifo) /\ on_pool xthreads < Z.min (plimit (two Fifo)) (pcount (two Fifo)) /\
  path calm (pool_new Fifo) (lone Fifo) /\
  match NeboM.run (phase Z.add Z.mul 100 (Asg true true xf xe)) xheap with RDone _ jobs => length jobs = 4%nat | _ => False end.
Proof.
  split; [exact xthreads_ok|]. split; [exact xthreads_independent|]. split; [apply two_path|]. split; [reflexivity|]. split; [reflexivity|].
  split; [cbn; lia|]. split; [cbn; lia|]. split; [reflexivity|]. split; [apply lone_path|]. vm_compute; reflexivity.
Qed.
