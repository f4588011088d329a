(** C76, and the pool without threads of C31: property theorems only. *)
From Coq Require Import Lia Arith Permutation.
From Verif Require Import Prelude TPoolM TPoolS TPoolQ SortM SortS SortP SortQ SortR SortE.
Local Open Scope nat_scope.

(** A pool made without threads, whose limit is not set afterwards, never starts
    a task, whatever resize is asked for. *)
Theorem C31_zero_pool : forall k a st, pool_init k 0 a -> path (fun l _ _ => forall n, l <> LActive n) a st ->
  plimit st = 0%Z /\ gstart st = [].
Proof. exact zero_pool. Qed.
Print Assumptions C31_zero_pool.

(** In no interleaving does a merge start outside the array, on halves that are
    not in order, or in the range of another one that is still at work. *)
Theorem C76_safe : forall A content e (init : nat -> A) n m x, (0 <= n)%Z -> (0 <= m)%Z -> prog_start A e n m init x ->
  ~ sreach A content e x Undefined.
Proof. exact sort_safe. Qed.
Print Assumptions C76_safe.
(** When main has left its loop the 2^e elements are sorted, elements that compare
    equal in their former order; no job is at work; nothing else was written. *)
Theorem C76_sorted : forall A content e (init : nat -> A) n m x y, (0 <= n)%Z -> (0 <= m)%Z -> prog_start A e n m init x ->
  sreach A content e x (Fine y) -> s_main y = MDone ->
  sorts content (map init (seq 0 (2 ^ e))) (map (s_data y) (seq 0 (2 ^ e))) /\ s_live y = [] /\
  (forall i, 2 ^ e <= i -> s_data y i = init i).
Proof. exact sort_sorted. Qed.
Print Assumptions C76_sorted.
(** With a thread made by the constructor and no shrinking: when nothing can
    happen any more, main has left its loop. *)
Theorem C76_ends : forall A content e (init : nat -> A) n m s0 y, (0 <= n)%Z -> (n <= m)%Z -> prog_start A e n m init (Fine s0) ->
  (1 <= plimit (s_pool s0))%Z -> sreach A content e (Fine s0) (Fine y) -> (forall z, ~ sstep A content e true (Fine y) z) ->
  s_main y = MDone.
Proof. exact sort_ends. Qed.
Print Assumptions C76_ends.
(** And it comes to that: a run without end has wake-ups without notification, or
    writes of merges that do not finish, again and again. *)
Theorem C76_finite : forall A content e (f : nat -> state A) (o : nat -> bool), (forall k, sstep A content e (o k) (f k) (f (S k))) ->
  forall k, ~ (forall k', k <= k' -> o k' = true).
Proof. exact sort_finite. Qed.
Print Assumptions C76_finite.
(** As written - a pool made without threads, then resize(5) - the program never
    gets past its first wait(): no merge is ever started. *)
Theorem C76_as_written_refuted : forall A content e (init : nat -> A) m x y, 1 <= e -> (0 <= m)%Z -> prog_start A e 0 m init x ->
  sreach A content e x y ->
  exists s, y = Fine s /\ (s_main s = MWait 1 \/ exists p, s_main s = MSched 1 p) /\ s_data s = init /\ s_live s = [] /\
    gstart (s_pool s) = [].
Proof. exact sort_hangs. Qed.
Print Assumptions C76_as_written_refuted.

Example C76_hyps_met :
  prog_start _ 1 1 1 two (Fine s0) /\ plimit (s_pool s0) = 1%Z /\ sreach _ fst 1 (Fine s0) (Fine s6) /\ s_main s6 = MDone /\
  (forall z, ~ sstep _ fst 1 true (Fine s6) z) /\
  map two (seq 0 2) = [(3%Z, 0); (1%Z, 1)] /\ map (s_data s6) (seq 0 2) = [(1%Z, 1); (3%Z, 0)] /\
  ~ sorts fst (map two (seq 0 2)) (map two (seq 0 2)) /\
  prog_start _ 7 0 5 two (Fine (Sys (hung 5) two [] [] (MSched 1 0))) /\
  pool_init Fifo 0 (hung 0) /\ path (fun l _ _ => forall n, l <> LActive n) (hung 0) (hung 5).
Proof.
  split; [exact start0|]. split; [reflexivity|]. split; [exact run0|]. split; [reflexivity|]. split; [exact stuck6|].
  split; [reflexivity|]. split; [reflexivity|]. split.
  - intros [H _]. specialize (H 0 1 (3%Z, 0) (1%Z, 1) (le_n _) eq_refl eq_refl). cbn in H. lia.
  - split; [exact start_hung|]. split.
    + refine (pi Fifo 0 (grow (pool_new Fifo) 0 0) _). apply (rz_grow (pool_new Fifo) 0 0); cbn; try reflexivity; lia.
    + eapply pa_step; [apply pa_0|apply (ts_resize (hung 0) 5 (hung 5)); [lia|]|intros n; discriminate].
      apply (rz_grow (hung 0) 5 5); cbn; try reflexivity; lia.
Qed.
