(** Specification of the memory pool: a world with the truth about memory. *)
From Verif Require Import Prelude PoolM.

(** [wout]: blocks handed out and not yet put back; [wmem]: all blocks obtained
    from new, with the size they were allocated with; [wpeak k]: the largest
    number of blocks of size k that were ever handed out at the same time. *)
Record world := World {
  wpool : pool; wout : list nat; wmem : list (nat * Z); wpeak : Z -> nat }.
Definition world_new : world := World pool_new [] [] (fun _ => 0%nat).

Definition size_of (mem : list (nat * Z)) (p : nat) : Z :=
  match find (fun e => (fst e =? p)%nat) mem with Some (_, k) => k | None => -1 end.
(** number of blocks of size k among ps *)
Definition count_size (mem : list (nat * Z)) (ps : list nat) (k : Z) : nat :=
  length (filter (fun p => size_of mem p =? k) ps).

Definition do_get (w : world) (a : nat) (n : Z) : nat * world :=
  let '(p, alloc, pl) := pool_get (wpool w) a n in
  let mem := match alloc with Some k => (a, k) :: wmem w | None => wmem w end in
  let out := p :: wout w in
  (p, World pl out mem (fun k => Nat.max (wpeak w k) (count_size mem out k))).

(** Remove one occurrence. *)
Fixpoint remove1 (p : nat) (l : list nat) : list nat :=
  match l with [] => [] | x :: r => if (x =? p)%nat then r else x :: remove1 p r end.
Definition do_put (w : world) (p : nat) : outcome world :=
  do pl <- pool_put (wpool w) p;
  Ok (World pl (remove1 p (wout w)) (wmem w) (wpeak w)).

(** Legal histories: new returns addresses of no existing block, only blocks
    that are handed out are put back, sizes are not negative. *)
Inductive history : world -> Prop :=
| h_new : history world_new
| h_get w a n : history w -> ~ In a (map fst (wmem w)) -> 0 <= n -> history (snd (do_get w a n))
| h_put w p w' : history w -> In p (wout w) -> do_put w p = Ok w' -> history w'.
