(** Model of assignment on a GPU: the choice of the device, the kernel launch
    and the threads of the kernel, interleaved one memory access at a time. *)
From Verif Require Import Prelude WindowM GhostM FieldM MaskM NeboM.

Section Gpu.
Variable V : Type.
Variable vadd vmul : V -> V -> V.
Notation expr := (expr V). Notation bexpr := (bexpr V).

(** ** GPUWalk trees *)
(** - [GConst]: NeboScalar (NeboRhs.h:140-160), and a single value once start
      has read it
    - [GSingle b]: NeboConstSingleValueField before start (NeboRhs.h:502-531)
    - [GField b cur xlen step]: NeboConstField (NeboRhs.h:314-345): the element
      index current_ points at, xLength_ and step_
    - [GOp1], [GOp2]: NeboOperators.h (e.g. 168-200); [GCond]: NeboClause and
      NeboCond (NeboCond.h:205-235, 428-458)
    - [BGMask words off bit blk xlen step]: NeboMask (NeboMask.h:162-222)
    NeboStencil, NeboSumStencil and NeboMaskShift (NeboStencils.h:832-855,
    1040-1062, 1237-1262) only forward to their argument, so they have no node.
    [b] names the block of memory that holds the values on the device of the
    assignment.  Indices are unbounded integers here. *)
Inductive gwalk :=
| GConst (v : V)
| GSingle (b : nat)
| GField (b : nat) (cur xlen step : Z)
| GOp1 (op : V -> V) (a : gwalk)
| GOp2 (op : V -> V -> V) (a b : gwalk)
| GCond (c : bgwalk) (e o : gwalk)
with bgwalk :=
| BGConst (b : bool)
| BGMask (words : list Z) (off bit blk xlen step : Z)
| BGCmp (c : V -> V -> bool) (a b : gwalk)
| BGAnd (a b : bgwalk) | BGOr (a b : bgwalk) | BGNot (a : bgwalk).

(** NeboRhs.h:322-325, NeboMask.h:172-174, NeboLhs.h:468-471: index of the
    first element of a window *)
Definition gpu_first (w : window) : Z :=
  ix (woff w) + ix (wglob w) * (iy (woff w) + iy (wglob w) * iz (woff w)).

(** Constructors of the GPUWalk leaves: NeboRhs.h:321-328, NeboMask.h:168-179 *)
Definition gpu_leaf (f : field) : gwalk :=
  let w := fwin f in
  GField (fbuf f) (gpu_first w) (ix (wglob w)) (ix (wglob w) * iy (wglob w)).
Definition gpu_mask_leaf (m : mask) : bgwalk :=
  let w := fwin (mgeo m) in
  BGMask (mwords m) (gpu_first w) 0 0 (ix (wglob w)) (ix (wglob w) * iy (wglob w)).

(** gpu_init: NeboRhs.h:77-82, 236-245, 430-435; NeboMask.h:84-93;
    NeboOperators.h (e.g. 89-101); NeboCond.h:116-128, 335-347;
    NeboStencils.h:245-269 and 520-535 (sum of products, shift + point),
    385-403 and 614-627 (plain sum), 1159-1167 (mask shift).
    That every leaf has a copy on the device is checked before
    ([gpu_ready] below), so field_values and mask_values do not throw. *)
Fixpoint gpu_init (e : expr) (minus plus shift : ivec) : gwalk :=
  match e with
  | EScalar _ v => GConst v
  | EField _ f => gpu_leaf (resize_ghost_and_shift_window f minus (iv_sub plus (has_extra (fbc f))) shift)
  | ESingle _ f => GSingle (fbuf f)
  | EOp1 _ op a => GOp1 op (gpu_init a minus plus shift)
  | EOp2 _ op a b => GOp2 op (gpu_init a minus plus shift) (gpu_init b minus plus shift)
  | ECond _ c x o =>
      GCond (gpu_binit c minus plus shift) (gpu_init x minus plus shift) (gpu_init o minus plus shift)
  | EStencil _ p0 c0 rest a =>
      fold_left (fun earlier pc =>
                   GOp2 vadd earlier (GOp2 vmul (gpu_init a minus plus (iv_add shift (fst pc))) (GConst (snd pc))))
                rest (GOp2 vmul (gpu_init a minus plus (iv_add shift p0)) (GConst c0))
  | ESumStencil _ p0 rest a =>
      fold_left (fun earlier p => GOp2 vadd earlier (gpu_init a minus plus (iv_add shift p)))
                rest (gpu_init a minus plus (iv_add shift p0))
  end
with gpu_binit (e : bexpr) (minus plus shift : ivec) : bgwalk :=
  match e with
  | BScalar _ b => BGConst b
  | BMask _ m =>
      gpu_mask_leaf (mask_resize_ghost_and_shift_window m minus (iv_sub plus (has_extra (fbc (mgeo m)))) shift)
  | BCmp _ c a b => BGCmp c (gpu_init a minus plus shift) (gpu_init b minus plus shift)
  | BAnd _ a b => BGAnd (gpu_binit a minus plus shift) (gpu_binit b minus plus shift)
  | BOr _ a b => BGOr (gpu_binit a minus plus shift) (gpu_binit b minus plus shift)
  | BNot _ a => BGNot (gpu_binit a minus plus shift)
  | BShift _ p a => gpu_binit a minus plus (iv_add shift p)
  end.

(** start(x, y) of every node.  A single value is loaded here (NeboRhs.h:521),
    by every thread.  Fields: NeboRhs.h:330-332.  Masks: NeboMask.h:181-185
    with update_positions (NeboMask.h:198-207, the same code as in BitField.h).
    Other nodes: all operands.  Forming a pointer outside a block is not
    counted as an access. *)
Fixpoint gstart (x y : Z) (w : gwalk) : prog V gwalk :=
  match w with
  | GConst v => Ret (GConst v)
  | GSingle b => Load b 0 (fun v => Ret (GConst v))
  | GField b cur xlen step => Ret (GField b (cur + (x + y * xlen)) xlen step)
  | GOp1 op a => let* a' := gstart x y a in Ret (GOp1 op a')
  | GOp2 op a b => let* a' := gstart x y a in let* b' := gstart x y b in Ret (GOp2 op a' b')
  | GCond c e o =>
      let* c' := bgstart x y c in let* e' := gstart x y e in let* o' := gstart x y o in Ret (GCond c' e' o')
  end
with bgstart (x y : Z) (w : bgwalk) : prog V bgwalk :=
  match w with
  | BGConst b => Ret (BGConst b)
  | BGMask words off bit blk xlen step =>
      let '(bit', blk') := update_positions (off + x + y * xlen) blk in
      Ret (BGMask words off bit' blk' xlen step)
  | BGCmp c a b => let* a' := gstart x y a in let* b' := gstart x y b in Ret (BGCmp c a' b')
  | BGAnd a b => let* a' := bgstart x y a in let* b' := bgstart x y b in Ret (BGAnd a' b')
  | BGOr a b => let* a' := bgstart x y a in let* b' := bgstart x y b in Ret (BGOr a' b')
  | BGNot a => let* a' := bgstart x y a in Ret (BGNot a')
  end.

(** next of every node: NeboRhs.h:334, 523; NeboMask.h:187-191 *)
Fixpoint gnext (w : gwalk) : gwalk :=
  match w with
  | GConst v => GConst v
  | GSingle b => GSingle b
  | GField b cur xlen step => GField b (cur + step) xlen step
  | GOp1 op a => GOp1 op (gnext a)
  | GOp2 op a b => GOp2 op (gnext a) (gnext b)
  | GCond c e o => GCond (bgnext c) (gnext e) (gnext o)
  end
with bgnext (w : bgwalk) : bgwalk :=
  match w with
  | BGConst b => BGConst b
  | BGMask words off bit blk xlen step =>
      let '(bit', blk') := update_positions (bit + step) blk in
      BGMask words off bit' blk' xlen step
  | BGCmp c a b => BGCmp c (gnext a) (gnext b)
  | BGAnd a b => BGAnd (bgnext a) (bgnext b)
  | BGOr a b => BGOr (bgnext a) (bgnext b)
  | BGNot a => BGNot (bgnext a)
  end.

(** NeboMask.h:193-195 (eval); blocks outside the array are undefined behaviour *)
Definition gmask_eval (words : list Z) (bit blk : Z) : outcome bool :=
  do word <- word_get words blk;
  do m <- one_shl bit;
  Ok (negb (Z.land word m =? 0)).

(** eval of every node: NeboRhs.h:336, 525; NeboCond.h (clause_.check() ?
    clause_.eval() : otherwise_.eval()); && and || evaluate the right operand
    only if needed.  A single value not yet read holds 0.0 in the code
    (NeboRhs.h:518); eval is never called before start, and the model makes it
    undefined behaviour. *)
Fixpoint geval (w : gwalk) : prog V V :=
  match w with
  | GConst v => Ret v
  | GSingle _ => PUB
  | GField b cur _ _ => Load b cur (fun v => Ret v)
  | GOp1 op a => let* x := geval a in Ret (op x)
  | GOp2 op a b => let* x := geval a in let* y := geval b in Ret (op x y)
  | GCond c e o => let* t := bgeval c in if t : bool then geval e else geval o
  end
with bgeval (w : bgwalk) : prog V bool :=
  match w with
  | BGConst b => Ret b
  | BGMask words _ bit blk _ _ => lift (gmask_eval words bit blk)
  | BGCmp c a b => let* x := geval a in let* y := geval b in Ret (c x y)
  | BGAnd a b => let* x := bgeval a in if x : bool then bgeval b else Ret false
  | BGOr a b => let* x := bgeval a in if x : bool then Ret true else bgeval b
  | BGNot a => let* x := bgeval a in Ret (negb x)
  end.

(** ** The left-hand side on the device *)
(** NeboLhs.h:512-528: members of NeboField<GPUWalk> *)
Record gpu_lhs := GLhs { lbuf : nat; lcur : Z; lxlen : Z; lext : ivec; lstep : Z }.
(** NeboLhs.h:468-481 (constructor, run on the host).  field_values
    (SpatialField.h:802-851) throws for a read-only field. *)
Definition gpu_lhs_make (f : field) : outcome gpu_lhs :=
  let w := fwin f in
  if freadonly f then Throw
  else Ok (GLhs (fbuf f) (gpu_first w) (ix (wglob w)) (wext w) (ix (wglob w) * iy (wglob w))).

(** NeboLhs.h:492-499: while(!at_end()) { if(valid()) { ref() = rhs.eval(); }
    next(); rhs.next(); }, with 513-522 (next, at_end, ref) *)
Fixpoint gpu_loop (fuel : nat) (l : gpu_lhs) (valid : bool) (cur location : Z) (rhs : gwalk) : prog V unit :=
  if iz (lext l) <=? location then Ret tt
  else match fuel with
       | O => PFuel
       | S n =>
           let rest := gpu_loop n l valid (cur + lstep l) (location + 1) (gnext rhs) in
           if valid then let* v := geval rhs in Store (lbuf l) cur v rest else rest
       end.

(** NeboLhs.h:483-500 (assign) with 505-509 (start): one thread of the kernel,
    at global position (x, y) *)
Definition gpu_thread (fuel : nat) (l : gpu_lhs) (rhs : gwalk) (x y : Z) : prog V unit :=
  let valid := (x <? ix (lext l)) && (0 <=? x) && (y <? iy (lext l)) && (0 <=? y) in
  let cur := if valid then lcur l + (x + y * lxlen l) else lcur l in
  let* rhs' := gstart x y rhs in
  gpu_loop fuel l valid cur 0 rhs'.

(** ** The launch *)
(** NeboLhs.h:260 *)
Definition block_dim : Z := 16.
(** NeboLhs.h:262-266: gDimX, gDimY *)
Definition grid_dim (extent : Z) : Z :=
  Z.quot extent block_dim + (if 0 <? Z.rem extent block_dim then 1 else 0).
(** NeboLhs.h:484-486: positions of all threads, blockIdx * blockDim + threadIdx *)
Definition thread_ids (gx gy : Z) : list (Z * Z) :=
  flat_map (fun by_ => flat_map (fun bx => flat_map (fun ty => map (fun tx =>
    (bx * block_dim + tx, by_ * block_dim + ty)) (zrange block_dim)) (zrange block_dim)) (zrange gx)) (zrange gy).

(** NeboLhs.h:238-317 (gpu_assign), 333-339 (gpu_init): the threads of the
    launched kernel.  The extents are those of the window before the valid
    ghosts are reset (256, 258 come before 288).  The kernel is launched
    asynchronously; CUDA errors are not modelled. *)
Definition gpu_threads (fuel : nat) (useGhost : bool) (f : field) (rhs : expr) : outcome (list (prog V unit)) :=
  do gs <- assign_ghosts V useGhost f rhs;
  let '(rg, lg) := gs in
  let extent0 := ix (wext (fwin f)) in
  let extent1 := iy (wext (fwin f)) in
  do l <- gpu_lhs_make (reset_valid_ghosts f (mk_ghost (gminus lg) (gplus lg)));
  let r := gpu_init rhs (gminus rg) (gplus rg) iv_zero in
  Ok (map (fun xy => gpu_thread fuel l r (fst xy) (snd xy)) (thread_ids (grid_dim extent0) (grid_dim extent1))).

(** ** Which device computes *)
(** SpatialField.h: memory_device_type and device_index *)
Inductive place := LocalRam | CudaGpu (device : Z) | OtherDevice.
Section Dispatch.
(** find_consumer of fields and masks (SpatialField.h:1031-1080, BitField.h) *)
Variable has : field -> place -> bool.
Variable mhas : mask -> place -> bool.

(** gpu_ready and cpu_ready: leaves NeboRhs.h:73-75, 227-233, 421-427,
    NeboMask.h:76-82; other nodes: && of the operands *)
Fixpoint ready (e : expr) (d : place) : bool :=
  match e with
  | EScalar _ _ => true
  | EField _ f | ESingle _ f => has f d
  | EOp1 _ _ a => ready a d
  | EOp2 _ _ a b => ready a d && ready b d
  | ECond _ c x o => (bready c d && ready x d) && ready o d
  | EStencil _ _ _ _ a | ESumStencil _ _ _ a => ready a d
  end
with bready (e : bexpr) (d : place) : bool :=
  match e with
  | BScalar _ _ => true
  | BMask _ m => mhas m d
  | BCmp _ _ a b => ready a d && ready b d
  | BAnd _ a b | BOr _ a b => bready a d && bready b d
  | BNot _ a => bready a d
  | BShift _ _ a => bready a d
  end.

(** NeboLhs.h:66-118 (assign, compiled for CUDA): where the assignment runs *)
Definition gpu_dispatch (home : place) (e : expr) : outcome place :=
  match home with
  | CudaGpu d => if ready e (CudaGpu d) then Ok (CudaGpu d) else Throw
  | LocalRam => if ready e LocalRam then Ok LocalRam else Throw
  | OtherDevice => Throw
  end.
End Dispatch.

(** ** Running a kernel *)
Record kernel := Kern { kheap : heap V; kthreads : list (prog V unit) }.
Definition set_thread (st : kernel) (i : nat) (p : prog V unit) : list (prog V unit) :=
  firstn i (kthreads st) ++ p :: skipn (S i) (kthreads st).
(** Any thread makes the next access: no order between threads is assumed
    (warps and blocks only remove interleavings). *)
Inductive kstep : kernel -> kernel -> Prop :=
| ks_load st i b c k : nth_error (kthreads st) i = Some (Load b c k) -> bcells (kheap st b) c = true ->
    kstep st (Kern (kheap st) (set_thread st i (k (bdata (kheap st b) c))))
| ks_store st i b c v k : nth_error (kthreads st) i = Some (Store b c v k) -> bcells (kheap st b) c = true ->
    kstep st (Kern (upd (kheap st) b c v) (set_thread st i k)).
Inductive ksteps : nat -> kernel -> kernel -> Prop :=
| ksteps_0 st : ksteps 0 st st
| ksteps_S n a b c : ksteps n a b -> kstep b c -> ksteps (S n) a c.
Definition kreach (a b : kernel) : Prop := exists n, ksteps n a b.
(** All threads have finished. *)
Definition kdone (st : kernel) : Prop := forall i p, nth_error (kthreads st) i = Some p -> p = Ret tt.
End Gpu.
Arguments GConst {V}. Arguments GSingle {V}. Arguments GField {V}. Arguments GOp1 {V}. Arguments GOp2 {V}. Arguments GCond {V}.
Arguments BGConst {V}. Arguments BGMask {V}. Arguments BGCmp {V}. Arguments BGAnd {V}. Arguments BGOr {V}. Arguments BGNot {V}.
Arguments gpu_leaf {V}. Arguments gpu_mask_leaf {V}. Arguments gstart {V}. Arguments bgstart {V}. Arguments gnext {V}. Arguments bgnext {V}.
Arguments geval {V}. Arguments bgeval {V}. Arguments gpu_loop {V}. Arguments gpu_thread {V}.
Arguments Kern {V}. Arguments kheap {V}. Arguments kthreads {V}. Arguments set_thread {V}. Arguments kstep {V}. Arguments ksteps {V}.
Arguments kreach {V}. Arguments kdone {V}.
