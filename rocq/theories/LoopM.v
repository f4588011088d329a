(** Model of looped_task_func (threadpool/threadpool/task_adaptors.hpp:97-161), a
    task that calls a function again and again with breaks.  Time is the clock
    read by xtime_get, in nanoseconds; it never goes back.  Interruption of the
    thread is left out. *)
From Verif Require Import Prelude.

(** unsigned int, and conversion to the signed 32 bits that int_fast32_t (the type
    of xtime's nsec) has at least *)
Definition u32 (x : Z) : Z := x mod 2 ^ 32.
Definition s32 (x : Z) : Z := (x + 2 ^ 31) mod 2 ^ 32 - 2 ^ 31.

(** m_function (only whether it is empty), m_break_s, m_break_ns: 100-102 *)
Record loop := Loop { l_fun : bool; l_s : Z; l_ns : Z }.
(** 112-117 *)
Definition loop_make (nonempty : bool) (interval : Z) : loop :=
  let s := u32 (interval / 1000) in
  Loop nonempty s (u32 (u32 (u32 (interval - u32 (s * 1000)) * 1000) * 1000)).
(** the condition in 125 and 140 *)
Definition breaks (L : loop) : bool := (0 <? l_s L) || (0 <? l_ns L).

(** xtime_get: seconds and nanoseconds; then 133-134 and 148-149 *)
Definition wakeup (L : loop) (now : Z) : Z * Z := (now / 10 ^ 9 + l_s L, s32 (now mod 10 ^ 9 + l_ns L)).
(** the instant an xtime stands for *)
Definition instant (x : Z * Z) : Z := fst x * 10 ^ 9 + snd x.

(** What can be observed, with the time of it. *)
Inductive event := Called (t : Z) | Returned (t : Z) (r : bool) | Threw (t : Z) | Slept (t : Z) | Yielded (t : Z) | Finished (t : Z).

(** Where operator() is: at its start (121); about to read the clock (127 or 142);
    asleep (135, 150); about to call the function (138); inside it; about to yield
    (154); at its end (158); left. *)
Inductive lpc := LStart | LRead | LSleep (x : Z * Z) | LCall | LInside | LYield | LEnd | LLeft.

Inductive lstep (L : loop) : Z * lpc -> list event -> Z * lpc -> Prop :=
| l_tick t t' p : t <= t' -> lstep L (t, p) [] (t', p)
| l_empty t : l_fun L = false -> lstep L (t, LStart) [] (t, LEnd)
| l_start t : l_fun L = true -> lstep L (t, LStart) [] (t, if breaks L then LRead else LCall)
| l_read t : lstep L (t, LRead) [] (t, LSleep (wakeup L t))
| l_wake t x : instant x <= t -> lstep L (t, LSleep x) [Slept t] (t, LCall)
| l_call t : lstep L (t, LCall) [Called t] (t, LInside)
| l_true t : lstep L (t, LInside) [Returned t true] (t, if breaks L then LRead else LYield)
| l_false t : lstep L (t, LInside) [Returned t false] (t, LEnd)
| l_throw t : lstep L (t, LInside) [Threw t] (t, LLeft)
| l_yield t : lstep L (t, LYield) [Yielded t] (t, LCall)
| l_end t : lstep L (t, LEnd) [Finished t] (t, LLeft).

(** An execution of operator() from a state, with what was observed. *)
Inductive lrun (L : loop) : Z * lpc -> list event -> Z * lpc -> Prop :=
| lr_nil st : lrun L st [] st
| lr_cons st e st' es st'' : lstep L st e st' -> lrun L st' es st'' -> lrun L st (e ++ es) st''.
