(** What may be observed of a looped task with a break of d nanoseconds, any
    prefix of it included.  Independent of the program. *)
From Verif Require Import Prelude LoopM.

(** the function is called, not before t *)
Inductive calls (d : Z) : Z -> list event -> Prop :=
| c_nil t : calls d t []
| c_call t t1 l : t <= t1 -> inside d t1 l -> calls d t (Called t1 :: l)
(** the function was called at t *)
with inside (d : Z) : Z -> list event -> Prop :=
| i_nil t : inside d t []
| i_throw t t1 : t <= t1 -> inside d t [Threw t1]
| i_false t t1 : t <= t1 -> inside d t [Returned t1 false]
| i_finish t t1 t2 : t <= t1 -> t1 <= t2 -> inside d t [Returned t1 false; Finished t2]
| i_true t t1 l : t <= t1 -> between d t1 l -> inside d t (Returned t1 true :: l)
(** a break that begins at t: asleep for d at least, or letting others run *)
with between (d : Z) : Z -> list event -> Prop :=
| b_nil t : between d t []
| b_sleep t t1 l : 0 < d -> t + d <= t1 -> calls d t1 l -> between d t (Slept t1 :: l)
| b_yield t t1 l : d = 0 -> t <= t1 -> calls d t1 l -> between d t (Yielded t1 :: l).
(** a break comes before the first call as well, unless it is zero *)
Definition history (d t0 : Z) (l : list event) : Prop := if d =? 0 then calls d t0 l else between d t0 l.

Definition call_count (l : list event) : nat := length (filter (fun e => match e with Called _ => true | _ => false end) l).
Definition true_count (l : list event) : nat := length (filter (fun e => match e with Returned _ true => true | _ => false end) l).
