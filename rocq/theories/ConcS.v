(** Specification vocabulary for threads that use scratch fields. *)
From Coq Require Import Sorting.Permutation.
From Verif Require Import Prelude PoolM PoolS PtrM ConcM.

(** Programs that use memory through the field store only. *)
Definition store_op (o : cop) : Prop :=
  match o with SGet n => 0 <= n | HCopy _ | HDrop _ => True | FNew _ | FDel _ => False end.
(** Threads with these programs; [w]: what has been done with the pool before. *)
Definition conc_start (w : world) (progs : list (list cop)) : cstate :=
  CState (Shared false (wpool w) [] (wmem w)) (map (fun p => Thr [] [] p PIdle) progs).

(** The number of the handle that a thread is destroying. *)
Definition dropping (t : thr) : option nat :=
  match tpc t with
  | PLoad false k | PStore false k _ | PTest k | PLock (CRestore k) | PIn (CRestore k) _ | PDelete k => Some k
  | _ => None
  end.
(** The handles a thread can use. *)
Definition handles (t : thr) : list hdl :=
  match dropping t with Some k => remove_nth (thdl t) k | None => thdl t end.
(** A thread is executing code of the pool. *)
Definition in_pool (t : thr) : Prop := exists j q, tpc t = PIn j q.
(** A thread has come to the end of its program. *)
Definition ended (t : thr) : Prop := tpc t = PIdle /\ tops t = [].
(** The arrays of some handles, each once. *)
Definition arrays (l : list hdl) : list nat := nodup Nat.eq_dec (map hblk l).
(** n steps *)
Inductive csteps : nat -> cstate -> cstate -> Prop :=
| csteps_0 st : csteps 0 st st
| csteps_S n a b c : cstep a (Ok b) -> csteps n b c -> csteps (S n) a c.
(** The arrays a thread holds: those of its handles, except the one it has just
    given back. *)
Definition held (t : thr) : list nat :=
  arrays (match tpc t with PDelete k => remove_nth (thdl t) k | _ => thdl t end).
(** The handles on one counter. *)
Definition sharing (l : list hdl) (c : nat) : Z :=
  Z.of_nat (length (filter (fun H => (hcnt H =? c)%nat) l)).
(** One thread made a scratch field and a copy of the handle, and gave the copy to
    another thread; both drop theirs.  [more]: programs of further threads. *)
Definition given (w : world) (b c : nat) (n : Z) (more : list (list cop)) : cstate :=
  CState (Shared false (wpool w) [(c, 2)] (wmem w))
         ([Thr [Hdl b c n] [] [HDrop 0] PIdle; Thr [Hdl b c n] [] [HDrop 0] PIdle] ++ map (fun p => Thr [] [] p PIdle) more).
(** What a program should leave: its handles in order, each with the number of the
    scratch field (counted in the order in which they were obtained) and the number
    of points. *)
Fixpoint leaves (next : nat) (l : list (nat * Z)) (p : list cop) : list (nat * Z) :=
  match p with
  | [] => l
  | SGet n :: r => leaves (S next) (l ++ [(next, n)]) r
  | HCopy k :: r => leaves next (match nth_error l k with Some x => l ++ [x] | None => l end) r
  | HDrop k :: r => leaves next (remove_nth l k) r
  | _ :: r => leaves next l r
  end.
