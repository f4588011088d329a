(** Specification vocabulary for the thread pool. *)
From Verif Require Import Prelude TPoolM.

(** Tasks being run at this moment. *)
Definition running (st : pool) : list task := flat_map (fun w => match w with WRun t => [t] | _ => [] end) (pw st).
Definition zlength {A} (l : list A) : Z := Z.of_nat (length l).
Definition num (p : wkr -> bool) (ws : list wkr) : Z := zlength (filter p ws).
(** Workers that run a task or are about to look for one. *)
Definition awake (w : wkr) : bool := match w with WEnter | WWoken | WRun _ => true | _ => false end.
(** Workers on their way out. *)
Definition exiting (w : wkr) : bool := match w with WExit => true | _ => false end.
(** No worker will move unless something happens: each is waiting or gone. *)
Definition quiet (w : wkr) : bool := match w with WWait | WGone => true | _ => false end.

(** Paths all of whose steps satisfy [P label before after]. *)
Inductive path (P : label -> pool -> pool -> Prop) (a : pool) : pool -> Prop :=
| pa_0 : path P a a
| pa_step l b c : path P a b -> tstep l b c -> P l b c -> path P a c.

(** [subseq a b]: a arises from b by leaving elements out. *)
Inductive subseq {A} : list A -> list A -> Prop :=
| sub_nil : subseq [] []
| sub_keep x a b : subseq a b -> subseq (x :: a) (x :: b)
| sub_skip x a b : subseq a b -> subseq a (x :: b).

(** The active limit is not lowered. *)
Definition not_lowered (_ : label) (b c : pool) : Prop := plimit b <= plimit c.
(** The pool is not shrunk or terminated, and a worker that died is replaced. *)
Definition not_shrunk (l : label) (b c : pool) : Prop :=
  match l with LResize n => pcount b <= n | LTerminate => False | LDied _ => pcount c = pcount b | _ => True end.
(** In addition, the limit is raised only while no task is pending. *)
Definition calm (l : label) (b c : pool) : Prop := not_shrunk l b c /\ (plimit b < plimit c -> pq b = []).
(** In addition to [not_shrunk], the limit is at least one. *)
Definition limit_positive (l : label) (b c : pool) : Prop := not_shrunk l b c /\ 1 <= plimit c.
(** Tasks are removed only while some worker is active. *)
Definition clear_while_active (l : label) (b c : pool) : Prop := l = LClear -> 0 < pactive b.
(** Steps the pool makes by itself, with the tasks it runs coming to an end. *)
Definition internal (l : label) : bool :=
  match l with LWorker | LStart _ | LDone _ => true | _ => false end.
(** Between the decision of one worker to exit and its end no other worker
    decides to exit; nobody dies and nobody resizes. *)
Definition serial_exit (l : label) (b c : pool) : Prop :=
  num exiting (pw c) <= 1 /\ match l with LResize _ | LTerminate | LDied _ => False | _ => True end.

(** Runs with the list of what happened, latest last. *)
Inductive run (a : pool) : list label -> pool -> Prop :=
| run_0 : run a [] a
| run_step tr l b c : run a tr b -> tstep l b c -> run a (tr ++ [l]) c.
Definition scheduled (tr : list label) : list task := flat_map (fun l => match l with LSchedule t => [t] | _ => [] end) tr.
Definition started (tr : list label) : list task := flat_map (fun l => match l with LStart t => [t] | _ => [] end) tr.
Definition returned (tr : list label) : list task := flat_map (fun l => match l with LDone t => [t] | _ => [] end) tr.
Definition threw (tr : list label) : list task := flat_map (fun l => match l with LDied t => [t] | _ => [] end) tr.
(** Nothing inside the pool can move. *)
Definition at_rest (st : pool) : Prop := forall l st', internal l = true -> ~ tstep l st st'.
(** n steps the pool makes by itself *)
Inductive isteps : nat -> pool -> pool -> Prop :=
| is_0 st : isteps 0 st st
| is_S n l a b c : internal l = true -> tstep l a b -> isteps n b c -> isteps (S n) a c.
