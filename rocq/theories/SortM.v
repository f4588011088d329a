(** Model of the program threadpool/example/mergesort/mergesort.cpp: the main
    thread, the thread pool (TPoolM) and the array they share.  Elements are of
    any type with an integer content, compared as class image does (57-82).
    Printing and timing are left out; int and unsigned do not overflow (exponent
    below 31). *)
From Verif Require Import Prelude TPoolM.
Local Open Scope nat_scope.

Section Sort.
Variable A : Type.
Variable content : A -> Z.

(** image::operator<, 66-77 *)
Definition less (a b : A) : bool := (content a <? content b)%Z.

(** The result of std::inplace_merge by its documentation: the elements of both
    ranges in order, of equivalent ones those of the first range first. *)
Fixpoint merge (l1 : list A) : list A -> list A :=
  match l1 with
  | [] => fun l2 => l2
  | a :: l1' => fix go l2 := match l2 with
                             | [] => a :: l1'
                             | b :: l2' => if less b a then b :: go l2' else a :: merge l1' l2
                             end
  end.
(** The precondition of std::inplace_merge on each range: no element is less than
    the one before it. *)
Fixpoint in_order (l : list A) : bool :=
  match l with a :: ((b :: _) as l') => negb (less b a) && in_order l' | _ => true end.

(** n elements of the array from position p, and putting them there *)
Definition part (d : nat -> A) (p n : nat) : list A := map d (seq p n).
Definition put (d : nat -> A) (p : nat) (l : list A) : nat -> A :=
  fun i => if (p <=? i) && (i <? p + length l) then nth (i - p) l (d i) else d i.

(** A merge_job, 84-118: m_position and m_length *)
Record job := Job { j_pos : nat; j_len : nat }.
(** the ranges of two jobs have a position in common *)
Definition overlap (a b : job) : bool := (j_pos a <? j_pos b + j_len b) && (j_pos b <? j_pos a + j_len a).
(** What run, 96-112, needs: its range inside the array of n elements, its halves
    in order, and nobody else at work in it. *)
Definition job_ok (n : nat) (d : nat -> A) (others : list job) (j : job) : bool :=
  (j_pos j + j_len j <=? n) && in_order (part d (j_pos j) (j_len j / 2)) &&
  in_order (part d (j_pos j + j_len j / 2) (j_len j - j_len j / 2)) && negb (existsb (overlap j) others).
Definition merged (j : job) (l : list A) : list A := merge (firstn (j_len j / 2) l) (skipn (j_len j / 2) l).

(** Where main is: in the inner loop 162-169 at a partition, about to schedule;
    in wait() 170; past the outer loop 156-171. *)
Inductive mpc := MSched (step partition : nat) | MWait (step : nat) | MDone.
(** The start of a round of the outer loop *)
Definition round (exponent step : nat) : mpc := if step <=? exponent then MSched step 0 else MDone.

(** The pool; the array; the jobs behind the tasks (task i is the i-th scheduled);
    the jobs running, with the contents of their range when they started; main. *)
Record sys := Sys { s_pool : pool; s_data : nat -> A; s_jobs : list job; s_live : list (task * job * list A); s_main : mpc }.
Inductive state := Fine (s : sys) | Undefined.

Definition live_jobs (l : list (task * job * list A)) : list job := map (fun x => snd (fst x)) l.

(** [st] is the pool after "pool tp(n)" and "tp.size_controller().resize(m)",
    152-153; the program has n = 0 and m = 5. *)
Definition pool_made (n m : Z) (st : pool) : Prop := exists a, pool_init Fifo n a /\ resize a m st.
(** 134-156 *)
Inductive prog_start (exponent : nat) (n m : Z) (d : nat -> A) : state -> Prop :=
| ps st : pool_made n m st -> prog_start exponent n m d (Fine (Sys st d [] [] (round exponent 1))).

(** One step; false: a wake-up without notification or a write in the course of
    std::inplace_merge, true: all others. *)
Inductive sstep (exponent : nat) : bool -> state -> state -> Prop :=
(** 161-169 *)
| ss_schedule P P' d js lv step p : p < 2 ^ exponent / 2 ^ step -> tstep (LSchedule (length js, 0%Z)) P P' ->
    sstep exponent true (Fine (Sys P d js lv (MSched step p))) (Fine (Sys P' d (js ++ [Job (p * 2 ^ step) (2 ^ step)]) lv (MSched step (S p))))
(** 170: main is the only client, its wait of step s is number s - 1 *)
| ss_wait P P' d js lv step p : 2 ^ exponent / 2 ^ step <= p -> tstep LClient P P' -> length (pc P') = S (length (pc P)) ->
    In (nth (length (pc P)) (pc P') (CBack CTerm)) [CAsleep (CWait 0); CBack (CWait 0)] ->
    sstep exponent true (Fine (Sys P d js lv (MSched step p))) (Fine (Sys P' d js lv (MWait step)))
| ss_next P d js lv step : nth_error (pc P) (step - 1) = Some (CBack (CWait 0)) ->
    sstep exponent true (Fine (Sys P d js lv (MWait step))) (Fine (Sys P d js lv (round exponent (S step))))
(** the pool by itself: workers look for tasks, fall asleep, leave; main is woken *)
| ss_pool P P' d js lv m l (o : bool) : (if o then l = LWorker \/ l = LClient else l = LSpurious) -> tstep l P P' -> length (pc P') = length (pc P) ->
    sstep exponent o (Fine (Sys P d js lv m)) (Fine (Sys P' d js lv m))
(** a worker starts a job; it works in its range, in which there may be anything
    in between; it is done *)
| ss_start P P' d js lv m t j : tstep (LStart t) P P' -> nth_error js (fst t) = Some j ->
    sstep exponent true (Fine (Sys P d js lv m))
      (if job_ok (2 ^ exponent) d (live_jobs lv) j then Fine (Sys P' d js (lv ++ [(t, j, part d (j_pos j) (j_len j))]) m) else Undefined)
| ss_write P d js lv m t j l i a : In (t, j, l) lv -> j_pos j <= i < j_pos j + j_len j ->
    sstep exponent false (Fine (Sys P d js lv m)) (Fine (Sys P (put d i [a]) js lv m))
| ss_done P P' d js lv1 lv2 m t j l : tstep (LDone t) P P' ->
    sstep exponent true (Fine (Sys P d js (lv1 ++ (t, j, l) :: lv2) m)) (Fine (Sys P' (put d (j_pos j) (merged j l)) js (lv1 ++ lv2) m)).

Inductive sreach (exponent : nat) (a : state) : state -> Prop :=
| sr_0 : sreach exponent a a
| sr_step o b c : sreach exponent a b -> sstep exponent o b c -> sreach exponent a c.
End Sort.
Arguments Fine {A}. Arguments Undefined {A}. Arguments Sys {A}.
Arguments s_pool {A}. Arguments s_data {A}. Arguments s_jobs {A}. Arguments s_live {A}. Arguments s_main {A}.
