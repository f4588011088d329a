(** Specification vocabulary for destroying a thread pool. *)
From Coq Require Import Permutation.
From Verif Require Import Prelude TPoolM TPoolS ShutM.

(** The destructor has returned. *)
Definition over (s : sys) : Prop := stodo s = [] /\ sin s = None.
(** No worker thread exists any more. *)
Definition no_workers (st : pool) : Prop := forall w, In w (pw st) -> w = WGone.
(** The tasks that came to an end, by returning or by an exception, and those
    removed by clear(). *)
Definition settled (st : pool) : list task := gdone st ++ gfail st ++ gclear st.
(** Every element of a is in b, as often. *)
Definition contained {A} (a b : list A) : Prop := exists r, Permutation (a ++ r) b.
(** Nobody but the pool itself and the destroying thread does anything: workers
    move, tasks return or throw, sleeping threads that were woken go on, the
    destructor calls and returns.  [replaced]: the worker of a task that throws
    is replaced by a new one. *)
Inductive own (replaced : bool) : sys -> sys -> Prop :=
| own_pool l a b : internal l = true -> sstep (SPool l) a b -> own replaced a b
| own_died t a b : sstep (SPool (LDied t)) a b -> (replaced = true -> pcount (spool b) = pcount (spool a)) -> own replaced a b
| own_woken st c1 g c2 k i : pc st = c1 ++ CWoken g :: c2 ->
    own replaced (Sys st k i) (Sys (with_clients st (c1 ++ (if may_return st g then CBack g else CAsleep g) :: c2)) k i)
| own_call c a b : sstep (SCall c) a b -> own replaced a b
| own_return a b : sstep SReturn a b -> own replaced a b.
Inductive steps (R : sys -> sys -> Prop) (a : sys) : sys -> Prop :=
| sp_0 : steps R a a
| sp_S b c : steps R a b -> R b c -> steps R a c.
(** R goes on for ever from no state that a leads to. *)
Definition ends (R : sys -> sys -> Prop) (a : sys) : Prop := Acc (fun c b => R b c) a.
Definition stuck (R : sys -> sys -> Prop) (a : sys) : Prop := forall b, ~ R a b.
(** What a step is not. *)
Definition no_schedule (l : slabel) : Prop := match l with SPool (LSchedule _) => False | _ => True end.
Definition no_start (l : slabel) : Prop := match l with SPool (LStart _) => False | _ => True end.
