(** Specification vocabulary for threads that share the pool. *)
From Verif Require Import Prelude WindowM GhostM FieldM MaskM NeboM NeboS ParM ParS TPoolM TPoolS ShareM.

Section ShareS.
Variable V : Type.
Variable vadd vmul : V -> V -> V.
Notation heap := (heap V).
Notation asg := (asg V).
Notation sys := (sys V).
(** the patch each assignment works on *)
Variable dim : asg -> ivec.

(** An assignment that is correct by itself (the conditions of C11, C12 and C15). *)
Definition asg_ok (h : heap) (a : asg) : Prop :=
  operands_ok V (dim a) h (arhs a) /\ destination_ok V (dim a) h (adst a) /\ alias_ok V (adst a) (arhs a) /\
  (apar a = true -> 0 < fparts (adst a)) /\
  if aug a then covers_extra V (adst a) (arhs a) /\ exists p, region V (dim a) (adst a) (arhs a) p
  else forall p, interior_cell (dim a) (adst a) p -> expr_known V (dim a) (arhs a) p.
(** Where it assigns. *)
Definition arange (a : asg) : ivec -> Prop :=
  if aug a then region V (dim a) (adst a) (arhs a) else interior_cell (dim a) (adst a).
(** The assignments of l, made one after the other, lead from memory h to h'. *)
Inductive in_order : heap -> list asg -> heap -> Prop :=
| io_nil h : in_order h [] h
| io_cons h a l h1 h2 : assigned V h h1 (adst a) (arange a) (denote V vadd vmul h (arhs a)) ->
    in_order h1 l h2 -> in_order h (a :: l) h2.

(** Blocks of memory an assignment uses: that of its destination, and those of
    the fields it reads. *)
Definition source_blocks (a : asg) : list nat :=
  map (fun g => fbuf (fst g)) (reads V (arhs a) iv_zero) ++ map fbuf (singles V (arhs a)).
Definition blocks (a : asg) : list nat := fbuf (adst a) :: source_blocks a.
(** No thread assigns to memory that another thread uses. *)
Definition independent (cs : list (bool * list asg)) : Prop := forall i j ci cj a b, i <> j ->
  nth_error cs i = Some ci -> nth_error cs j = Some cj -> In a (snd ci) -> In b (snd cj) -> ~ In (fbuf (adst a)) (blocks b).

(** Runs all of whose steps satisfy [P]. *)
Inductive hpath (P : act -> sys -> sys -> Prop) (a : sys) : sys -> Prop :=
| hp_0 : hpath P a a
| hp_step l b c : hpath P a b -> hstep l b c -> P l b c -> hpath P a c.
Definition any_step (_ : act) (_ _ : sys) : Prop := True.
(** The pool is not shrunk or terminated, its limit is raised only while no task
    is pending (TPoolS), and pending tasks are not removed. *)
Definition calm_step (l : act) (a b : sys) : Prop :=
  match l with APool l => calm l (spool a) (spool b) /\ l <> LClear | AIn => True end.
(** Steps of the calling threads, the jobs and the workers, as opposed to calls
    from outside and wake-ups without notification. *)
Definition inside (l : act) : bool :=
  match l with AIn => true | APool l => match l with LWorker | LStart _ | LDone _ | LSchedule _ => true | _ => false end end.
Definition halted (st : sys) : Prop := forall l st', inside l = true -> ~ hstep l st st'.
Inductive histeps : nat -> sys -> sys -> Prop :=
| hi_0 st : histeps 0 st st
| hi_S n l a b c : inside l = true -> hstep l a b -> histeps n b c -> histeps (S n) a c.

(** A program that cannot go on. *)
Definition stuck {R} (h : heap) (p : prog V R) : Prop :=
  match p with
  | Ret _ => False
  | PThrow | PUB | PFuel => True
  | Load b c _ | Store b c _ _ => bcells (h b) c = false
  end.
(** No calling thread and no job fails, and the semaphore a job will post to
    exists until it has done so. *)
Definition no_share_failure (st : sys) : Prop :=
  (forall c k p, nth_error (scall st) c = Some k -> cstage k = Preparing p -> ~ stuck (sheap st) p) /\
  (forall i o n j, nth_error (stab st) i = Some (EJob o n (Some j)) ->
     ~ stuck (sheap st) j /\
     exists k t s w r, nth_error (scall st) o = Some (Caller k (Parallel t s w) n r)).
(** The next memory access of a program, and of a calling thread or a task. *)
Definition naccess {R} (p : prog V R) : option access :=
  match p with
  | Load b c _ => Some (ALoad b c)
  | Store b c _ _ => Some (AStore b c)
  | _ => None
  end.
Inductive agent := ByCaller (c : nat) | ByJob (i : nat).
Definition accesses_next (st : sys) (a : agent) : option access :=
  match a with
  | ByCaller c => match nth_error (scall st) c with Some k => match cstage k with Preparing p => naccess p | _ => None end | None => None end
  | ByJob i => match nth_error (stab st) i with Some (EJob _ _ (Some j)) => naccess j | _ => None end
  end.
Definition share_race_free (st : sys) : Prop := forall a b x y, a <> b ->
  accesses_next st a = Some x -> accesses_next st b = Some y -> ~ races x y.
(** Every thread has made all its assignments. *)
Definition all_returned (st : sys) : Prop := forall k, In k (scall st) -> all_made k.
(** Number of calling threads that run on the pool. *)
Definition on_pool (cs : list (bool * list asg)) : Z := zlength (filter fst cs).
End ShareS.
Arguments in_order {V}. Arguments hpath {V}. Arguments any_step {V}. Arguments calm_step {V}. Arguments halted {V}. Arguments histeps {V}.
Arguments no_share_failure {V}. Arguments share_race_free {V}. Arguments all_returned {V}. Arguments independent {V}. Arguments on_pool {V}.
Arguments stuck {V R}. Arguments naccess {V R}. Arguments accesses_next {V}. Arguments blocks {V}. Arguments asg_ok {V}. Arguments arange {V}.
