(** Model of the memory pool (LOCAL_RAM; one instantiation Pool<T>). *)
From Verif Require Import Prelude.

(** MemoryPool.h:36-46: cpufqm_ (a std::map from size to a stack of blocks,
    here a list ordered by size), fsm_ (size of a block), pad_, cpuhighWater_.
    Blocks are named by numbers; sizes are [Z] (no size_t overflow). *)
Record pool := Pool {
  pfqm : list (Z * list nat);
  pfsm : list (nat * Z);
  ppad : Z;
  phigh : Z
}.
(** MemoryPool.cpp:42-52 *)
Definition pool_new : pool := Pool [] [] 0 0.

(** std::map::lower_bound: the first entry whose key is at least n. *)
Fixpoint lower_bound (m : list (Z * list nat)) (n : Z) : option (Z * list nat) :=
  match m with
  | [] => None
  | (k, q) :: rest => if n <=? k then Some (k, q) else lower_bound rest n
  end.
(** Replace the stack stored under an existing key. *)
Fixpoint set_queue (m : list (Z * list nat)) (key : Z) (q : list nat) : list (Z * list nat) :=
  match m with
  | [] => []
  | (k, q0) :: rest => if k =? key then (k, q) :: rest else (k, q0) :: set_queue rest key q
  end.

(** MemoryPool.cpp:113-168 (get, LOCAL_RAM).  [a] is the address new T[n] would
    return.  The result is the block, the size passed to new (if it was called)
    and the pool.  The insertion at 126-128 happens when no key is >= n, so the
    new entry comes last. *)
Definition pool_get (st : pool) (a : nat) (n0 : Z) : nat * option Z * pool :=
  let pad := if ppad st =? 0 then Z.quot n0 10 else ppad st in
  let n := n0 + pad in
  let '(m, n, fq) :=
    match lower_bound (pfqm st) n with
    | None => (pfqm st ++ [(n, [])], n, [])
    | Some (k, q) => (pfqm st, k, q)
    end in
  match fq with
  | [] => (a, Some n, Pool m ((a, n) :: pfsm st) pad (phigh st + 1))
  | t :: q => (t, None, Pool (set_queue m n q) (pfsm st) pad (phigh st))
  end.

(** fsm_[t]: a missing entry is created with size 0 (latest entry first). *)
Fixpoint fsm_get (fsm : list (nat * Z)) (t : nat) : Z :=
  match fsm with
  | [] => 0
  | (u, n) :: rest => if (u =? t)%nat then n else fsm_get rest t
  end.
(** MemoryPool.cpp:203-221 (put, LOCAL_RAM).  Dereferencing end() (no bucket is
    large enough) is undefined behaviour; the assertion at 218 is debug only. *)
Definition pool_put (st : pool) (t : nat) : outcome pool :=
  let n := fsm_get (pfsm st) t in
  let fsm := if existsb (fun e => (fst e =? t)%nat) (pfsm st) then pfsm st else (t, 0) :: pfsm st in
  match lower_bound (pfqm st) n with
  | None => UB
  | Some (k, q) => Ok (Pool (set_queue (pfqm st) k (t :: q)) fsm (ppad st) (phigh st))
  end.

(** MemoryPool.cpp:242-250 (active), MemoryPool.h:58 (total).  active is a
    size_t: a negative difference would wrap. *)
Definition pool_queued (st : pool) : Z :=
  fold_left (fun n e => n + Z.of_nat (length (snd e))) (pfqm st) 0.
Definition pool_active (st : pool) : Z := phigh st - pool_queued st.
Definition pool_total (st : pool) : Z := phigh st.

(** MemoryPool.cpp:54-90 (destructor): the blocks passed to delete[], in order. *)
Definition pool_destroy (st : pool) : list nat := flat_map snd (pfqm st).
