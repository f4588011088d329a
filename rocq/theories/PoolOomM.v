(** Model of the memory pool when allocations fail, for CPU and GPU memory.
    PoolM.v has the CPU half, with an allocator that always succeeds. *)
From Verif Require Import Prelude PoolM.

(** how a block is to be freed *)
Inductive release_by := ByDelete | ByFreeHost | ByCudaFree.
(** The blocks of one kind of memory: cpufqm_ and cpuhighWater_, or gpufqm_ and
    gpuhighWater_ (MemoryPool.h:43-46). *)
Record bank := Bank { bk_fqm : list (Z * list nat); bk_high : Z }.
(** The pool: both banks ([true] is the GPU's), and fsm_, pad_ and pinned_, which
    they share. *)
Record pool2 := Pool2 { p2_bank : bool -> bank; p2_fsm : list (nat * Z); p2_pad : Z; p2_pinned : bool }.
(** MemoryPool.cpp:42-52 *)
Definition pool2_new : pool2 := Pool2 (fun _ => Bank [] 0) [] 0 true.
(** [f], but [x] at [d] *)
Definition on {A} (f : bool -> A) (d : bool) (x : A) : bool -> A := fun e => if Bool.eqb e d then x else f e.

Section Cuda.
(** ENABLE_CUDA *)
Variable cuda : bool.

(** The system's answer to a request for k elements: an address, and how such a
    block must be freed; None if it has no memory.  CPU memory, without CUDA
    (MemoryPool.cpp:154): new T[k].  With CUDA (142-151): cudaMallocHost, and
    new T[k] if that fails.  GPU memory (183): get_raw_pointer. *)
Definition system := Z -> option (nat * release_by).

(** MemoryPool.cpp:113-201, get: the block (None: an exception left the function),
    the number of elements the system was asked for, and the pool.  When new
    throws std::bad_alloc it is not caught (157 catches std::runtime_error);
    neither is what get_raw_pointer throws.  By then the entry of the map
    (127, 174) and the count (134, 181) have been made, the entry of fsm_ has not.
    Without CUDA there is no GPU memory: 192-199, after 119. *)
Definition get2 (st : pool2) (d : bool) (sys : system) (n0 : Z) : option nat * option Z * pool2 :=
  let pad := if p2_pad st =? 0 then Z.quot n0 10 else p2_pad st in
  let n := n0 + pad in
  if d && negb cuda then (None, None, Pool2 (p2_bank st) (p2_fsm st) pad (p2_pinned st)) else
  let B := p2_bank st d in
  let '(m, n, fq) :=
    match lower_bound (bk_fqm B) n with
    | None => (bk_fqm B ++ [(n, [])], n, [])
    | Some (k, q) => (bk_fqm B, k, q)
    end in
  match fq with
  | [] =>
      let banks := on (p2_bank st) d (Bank m (bk_high B + 1)) in
      match sys n with
      | Some (a, how) =>
          let pinned := if negb d && cuda then p2_pinned st && match how with ByFreeHost => true | _ => false end else p2_pinned st in
          (Some a, Some n, Pool2 banks ((a, n) :: p2_fsm st) pad pinned)
      | None => (None, Some n, Pool2 banks (p2_fsm st) pad (p2_pinned st))
      end
  | t :: q => (Some t, None, Pool2 (on (p2_bank st) d (Bank (set_queue m n q) (bk_high B))) (p2_fsm st) pad (p2_pinned st))
  end.

(** MemoryPool.cpp:203-240, put *)
Definition put2 (st : pool2) (d : bool) (t : nat) : outcome pool2 :=
  if d && negb cuda then Throw else
  let n := fsm_get (p2_fsm st) t in
  let fsm := if existsb (fun e => (fst e =? t)%nat) (p2_fsm st) then p2_fsm st else (t, 0) :: p2_fsm st in
  let B := p2_bank st d in
  match lower_bound (bk_fqm B) n with
  | None => UB
  | Some (k, q) => Ok (Pool2 (on (p2_bank st) d (Bank (set_queue (bk_fqm B) k (t :: q)) (bk_high B))) fsm (p2_pad st) (p2_pinned st))
  end.

(** MemoryPool.cpp:242-250, active (CPU blocks only), MemoryPool.h:58, total *)
Definition active2 (st : pool2) : Z :=
  bk_high (p2_bank st false) - fold_left (fun n e => n + Z.of_nat (length (snd e))) (bk_fqm (p2_bank st false)) 0.
Definition total2 (st : pool2) : Z := bk_high (p2_bank st false).

(** MemoryPool.cpp:54-90, the destructor: what is freed, and how.  All CPU blocks
    are freed the way pinned_ says. *)
Definition destroy2 (st : pool2) : list (nat * release_by) :=
  let cpu := if cuda then if p2_pinned st then ByFreeHost else ByDelete else ByDelete in
  map (fun p => (p, cpu)) (flat_map snd (bk_fqm (p2_bank st false))) ++
  map (fun p => (p, ByCudaFree)) (flat_map snd (bk_fqm (p2_bank st true))).
End Cuda.
