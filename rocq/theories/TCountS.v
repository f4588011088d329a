(** Specification vocabulary for the thread counts. *)
From Verif Require Import Prelude TPoolM TPoolS TCountM.

(** The hard thread count asked for last; NTHREADS if nobody asked. *)
Definition asked (N : Z) (tr : list mlabel) : Z :=
  fold_left (fun v l => match l with MSetHard n _ => Z.max 1 n | _ => v end) tr N.
(** Nobody asks for fewer than asked for before. *)
Definition only_more (N : Z) (tr : list mlabel) : Prop :=
  forall tr1 n r tr2, tr = tr1 ++ MSetHard n r :: tr2 -> asked N tr1 <= Z.max 1 n.
(** No task throws and the pool is not shut down. *)
Definition undisturbed (tr : list mlabel) : Prop :=
  ~ In (MPool LTerminate) tr /\ forall t, ~ In (MPool (LDied t)) tr.
(** Nobody sets the soft thread count. *)
Definition soft_untouched (tr : list mlabel) : Prop := forall n r, ~ In (MSetSoft n r) tr.
(** Threads can be made: after a request there are as many workers as before or
    as asked for. *)
Inductive made (N : Z) (a : mgr) : list mlabel -> mgr -> Prop :=
| md_0 : made N a [] a
| md_step tr l b c : made N a tr b -> mstep N l b c ->
    (forall n r, l = MSetHard n r -> mpool c = mpool b \/ Z.max 1 n <= pcount (mpool c)) ->
    made N a (tr ++ [l]) c.
