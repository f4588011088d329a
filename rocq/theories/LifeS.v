(** Specification of the lifetime of a thread pool: who holds what. *)
From Verif Require Import Prelude ShutM LifeM.

(** The program beside the model: how many handles and controllers it has, and
    whether a worker's thread was still at work when the last handle went. *)
Record lworld := LWorld { lw_st : life; lw_h : nat; lw_c : nat; lw_left : bool }.
Definition lworld_new : lworld := LWorld life_new 1 0 false.

(** Is a worker at work? *)
Definition at_work (st : life) : bool := existsb (fun w => match w_thr w with Running => true | _ => false end) (l_ws st).
Definition thr (st : life) (i : nat) : option tstate := option_map w_thr (nth_error (l_ws st) i).

(** Who may do what: nobody uses a handle or controller they do not have; the
    thread in shutdown() waits until no worker is at work and the threads of the
    workers it joins have ended (pool_core.hpp:293-303). *)
Definition lallowed (w : lworld) (o : lop) : Prop :=
  match o with
  | HCopy | HDrop | CGet => (0 < lw_h w)%nat
  | CCopy | CDrop => (0 < lw_c w)%nat
  | Resize => (0 < lw_h w + lw_c w)%nat
  | WEnd i | WDie i => thr (lw_st w) i = Some Running
  | WExit i => thr (lw_st w) i = Some Ended
  | SFlag => l_phase (lw_st w) = Called
  | SJoin => l_phase (lw_st w) = Flagged /\ at_work (lw_st w) = false /\ forall i, In i (l_term (lw_st w)) -> thr (lw_st w) i = Some Exited
  end.
Definition lnext (w : lworld) (o : lop) (st : life) : lworld :=
  match o with
  | HCopy => LWorld st (S (lw_h w)) (lw_c w) (lw_left w)
  | HDrop => LWorld st (Nat.pred (lw_h w)) (lw_c w) (if Nat.eqb (lw_h w) 1 then at_work (lw_st w) else lw_left w)
  | CGet | CCopy => LWorld st (lw_h w) (S (lw_c w)) (lw_left w)
  | CDrop => LWorld st (lw_h w) (Nat.pred (lw_c w)) (lw_left w)
  | _ => LWorld st (lw_h w) (lw_c w) (lw_left w)
  end.
Inductive lhistory (pol : policy) : lworld -> Prop :=
| lh_new : lhistory pol lworld_new
| lh_step w o st : lhistory pol w -> lallowed w o -> lstep pol (lw_st w) o = Ok st -> lhistory pol (lnext w o st).

(** Nothing is left that could use the pool: no handle, no controller, no thread
    of a worker, and the destructor of the last handle has returned. *)
Definition all_gone (w : lworld) : Prop :=
  lw_h w = 0%nat /\ lw_c w = 0%nat /\ l_phase (lw_st w) = Returned /\ forall x, In x (l_ws (lw_st w)) -> w_thr x = Exited.

(** Steps of the workers' threads and of the thread in shutdown(), and runs of n of them *)
Definition own (o : lop) : Prop := match o with WEnd _ | WExit _ | SFlag | SJoin => True | _ => False end.
Inductive own_steps (pol : policy) : nat -> lworld -> lworld -> Prop :=
| os_done w : own_steps pol 0 w w
| os_step n w o st w' : lallowed w o -> own o -> lstep pol (lw_st w) o = Ok st -> own_steps pol n (lnext w o st) w' -> own_steps pol (S n) w w'.

(** Runs in which worker i does not get done with its task *)
Inductive busy_run (pol : policy) (i : nat) : lworld -> lworld -> Prop :=
| br_done w : busy_run pol i w w
| br_step w o st w' : lallowed w o -> o <> WEnd i -> o <> WDie i -> lstep pol (lw_st w) o = Ok st -> busy_run pol i (lnext w o st) w' -> busy_run pol i w w'.
