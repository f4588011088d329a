# SpatialOps: formal model and proofs in Rocq (Coq 8.16.1)

Status of this file: written before the proofs; the plan per property comes
first, the findings, trusted base and assumptions sections are kept current as
the development grows.

## Approach

The C++ sources in /repo are read as text.  Each modelled function becomes a
small, total, executable Gallina function whose comment cites the file and
lines it models.  Integers are `Z` (C++ `int` without overflow: all theorems
are about runs in which no `int`/`size_t` operation overflows; the bit masks
are the exception, there 32-bit words are modelled exactly, and C58 shows that
below 2^31 points the index arithmetic does not overflow).  C++ `/` and `%`
are `Z.quot`/`Z.rem` (truncation); division by zero, out-of-bounds loads and
stores, NULL dereference, use after free and double free are the distinct
outcome `UB`, a thrown exception is the distinct outcome `Throw`.  Loops that
the code terminates by a run-time test (iterator equality) are modelled with
explicit fuel; running out of fuel is a distinct outcome excluded by the
theorems.  The model is of the release build (`NDEBUG`); where the debug build
has assertions we prove that they hold as part of the property.  `double`
arithmetic is either left abstract (any type of values and any operations: the
memory/order properties hold for every choice, including IEEE doubles) or, for
the numerical-consistency properties, replaced by exact rational arithmetic
(`Qc`) or, for the analytic functions, by the reals; or, where rounding
is the point (C61, C62, C65-C67, C69-C73, C75), modelled as IEEE doubles.  CUDA code paths are not
modelled except where stated.

Layers (file naming: `M` = model, `S` = independent specification,
`P` = proofs, `Props*` = property theorems only):

| area | repo code | model file |
|---|---|---|
| index arithmetic, windows, iterators | IntVec.h, MemoryWindow.h/.cpp | WindowM.v |
| ghosts, boundary info, field windows | GhostData, BoundaryCellInfo, FVTools, SpatialField | GhostM.v, FieldM.v |
| Nebo expressions and assignment | NeboBasic, NeboLhs, NeboRhs, NeboOperators, NeboCond, NeboMask, NeboStencils, NeboReductions, NeboAssignment | NeboM.v, ParM.v |
| masks | BitField.h, SpatialMask.h | MaskM.v |
| memory pool, field handles, operator DB | MemoryPool, SpatialFieldStore, OperatorDatabase | PoolM.v, PtrM.v, OpDBM.v |
| threads | Semaphore.h, threadpool/*, ThreadPool.cpp | SemM.v, TPoolM.v |
| stencil numerics, BCs | NeboStencilBuilder, StencilBuilder.cpp, FVStaggeredBCOp, IndexTriplet, locations | StencilM.v, BCM.v |
| loops over fields, element access, copying | SpatialField.h operators, reset_values | IterM.v, AccessM.v |
| consumer copies (CPU/GPU) of a field | SpatialField.h constructors, add/find/has/remove_consumers, field_values, destructor | ConsumerM.v |
| futures | threadpool/future.hpp, threadpool/detail/future.hpp | FutureM.v |
| scratch fields | SpatialFieldStore.h get, get_from_window; FVStaggeredLocationTypes.h BCExtra | StoreM.v |
| analytic functions | FieldFunctions.h | FuncM.v |
| thread counts | ThreadPool.cpp, SpatialOpsTools.h | TCountM.v |
| GPU assignment | NeboLhs.h, NeboRhs.h, NeboMask.h, NeboStencils.h (CUDA parts) | GpuM.v |
| machine integers | IntVec.h, MemoryWindow.h/.cpp, BitField.h, SpatialField.h; the sequential assignment | OverM.v, OvAsgM.v |
| operators and functions on fields | NeboOperators.h and NeboAssignment.h: every overload and every eval(), as tables read from the headers by tools/optab.py | OpM.v, OpTabM.v |
| callers sharing the pool | NeboLhs.h, pool_core.hpp, Semaphore.h together | ShareM.v |
| threads using scratch fields | SpatialFieldStore.h, MemoryPool.cpp, SpatialField.h, one memory access at a time | ConcM.v |
| staggered operators with doubles | StencilBuilder.cpp, NeboStencilBuilder.h over Flocq's binary64 | RoundM.v |
| reductions of fields of doubles | NeboReductions.h over Flocq's binary64 | RedM.v |
| waiting for a thread pool with a time limit | pool_core.hpp:257-277 over the transition system of TPoolM.v; Boost's timed_wait from its documentation | TimedM.v |
| elements of fields on CPU and GPU | SpatialField.h:267-345 (begin, interior_begin), 763-786 (reset_values), 1146-1245 (end, interior_end), 1249-1418 (operator(), operator[]), 1424-1520 (operator=), over the memory and consumers of ConsumerM.v; release build; a CUDA transfer is an exact copy of a block | DevFldM.v |
| raw memory on GPUs | CudaMemoryAllocator.cu:28-200, 258-316, 343-403, 419-421 (wrappers, CUDADeviceManager, CUDADeviceInterface without the shared pointers); the CUDA calls by their documentation | GpuRawM.v |
| memory pool, CPU and GPU, with failing allocations | MemoryPool.cpp:42-90, 113-250, MemoryPool.h:43-58 (the system's allocators are any function; without the internal allocations of the maps) | PoolOomM.v |
| single-value fields | SpatialField.h:498-523, 534-712 (the check), NeboAssignment.h:80-176; their use in expressions is in NeboM.v | SingleM.v |
| lifetime of a thread pool | threadpool/pool.hpp:75-76, 93-107, detail/pool_core.hpp:119, 142-152, 172, 282-384, detail/worker_thread.hpp:51-52, 66-100, size_policies.hpp:48-54, 102-104, shutdown_policies.hpp | LifeM.v |
| vectors of three ints | structured/Numeric3Vec.h:84-146, IntVec.h:67-71 | Vec3M.v |
| destroying a thread pool | shutdown_policies.hpp, pool.hpp:99-104, pool_core.hpp over the transition system of TPoolM.v; not the joins of finished threads (pool_core.hpp:298-304) | ShutM.v |
| fields with ghosts declared in one-cell directions | no new code: FieldM.v and NeboM.v with such fields | ThinS.v |
| the heat equation program | test/heatEqn/tools.h, the loop of test/heatEqn/main.cpp | HeatM.v |
| comparing fields of doubles | FieldComparisons.h over Flocq's binary64, without the *_ulp functions | Cmp64M.v |
| comparing doubles by units in the last place | the *_ulp functions of FieldComparisons.h; boost::math::float_distance by its documentation | UlpM.v |
| shared pointers to GPU memory | CUDASharedPointer and the allocating functions of CUDADeviceInterface; the CUDA calls by their documentation | DevPtrM.v |
| particle operators in double precision | constructors and both apply_to_field of ParticleOperators.h on doubles, without the debug-build range check | Part64M.v |
| grid coordinates in double precision | Grid.cpp on doubles, release build | Grid64M.v |
| Lagrange interpolation in double precision | structured/onedim/LagrangePoly.cpp on doubles | Lag64M.v |
| boundary conditions in double precision | FVStaggeredBCOp.h, NeboStencilBuilder.h on doubles | BC64M.v |
| write_matlab | WriteMatlab.h on doubles; the standard library's std::scientific, precision 14 | MatlabM.v |
| looped tasks | task_adaptors.hpp, looped_task_func, with its clock | LoopM.v |
| analytic functions in doubles | FieldFunctions.h, the four functions, evaluate, dx, d2x | Func64M.v |
| merge sort example | threadpool/example/mergesort/mergesort.cpp on the thread pool | SortM.v |
| conditional-expression builders | NeboCond.h | CondM.v |
| 1-D Lagrange, particles, grid, comparisons, point ops | onedim/LagrangePoly, ParticleOperators, Grid, FieldComparisons, PointOperators | LagrangeM.v, ParticleM.v, GridM.v, CompareM.v, PointM.v |

## Plan per property

* C01 index bijection: direct arithmetic proof on `ijk_to_flat`/`flat_to_ijk` (quot/rem).
* C02 window addressing: injectivity from C01; refutation of the sanity check by witness.
* C03 refine: 1-D lemma on `loc*std + min loc nextra` tiling, lifted to 3-D.
* C04/C05 iterators: closed form "iterator at position c" (`iter_at w c`), every operation moves closed forms to closed forms; visited list = specification enumeration by induction.
* C06 empty windows: refutation (division by zero outcome).
* C07/C08 ghosts: algebra by cases.
* C09/C10 field windows: arithmetic; invariant over lists of resets, copies and views (ViewS/ViewP).
* C11-C14 Nebo assignment: expression AST, walk state with one iterator per leaf as in the code, loop with fuel; theorem relates the final heap to the denotational value of the expression at each grid point, with frame.
* C15/C16 parallel assignment: small-step interleaving semantics of jobs with separate read and write steps; confluence to the sequential result.
* C17 reductions: fold over enumeration (NeboH: the interior variants; NeboI: expressions without fields).
* C18 cond: builder data structure vs first-true specification.
* C19 valid-ghost record: refutation (the assignment works on a copy).
* C20/C21 masks: 32-bit words with `Z.lor`/`Z.testbit`; iterator closed form.
* C22-C24 pool: invariant over operation lists; refutations for misuse.
* C25/C26 handles: heap of counters/fields, invariant count = number of handles; refutations for detach/self-assignment.
* C27 operator DB: refinement to a finite map keyed by type and id.
* C28/C29 semaphore: interleaving transition system with condition-variable wait set; invariants.
* C30-C33 thread pool: transition system of pool_core with explicit waiting/woken/active workers; invariants; refutation of exact shrinking.
* C34-C37 stencil numerics in `Qc`; stencil points as index arithmetic on location offsets; CatalogS says which operators exist and StencilR proves that exactly those are registered, and what the 2D and 1D boxes average.
* C38/C39 boundary conditions on top of the Nebo model/`Qc` (BCM, BCS, BCP, BCQ, BCR, PropsBC): in-place sweep invariant; refutations for chained masks, ghost cells in point lists and NO_SIDE.
* C47 in-place assignment (NeboG): the walk equals a fold over the points in memory order.
* C48 BoundaryCondition sets the cells of its points (BCQ).
* C40/C41 Lagrange: index window arithmetic; polynomial identity by root counting over `Qc`.
* C42 particles: overlap weights over `Qc`.
* C43 grid coordinates over `Qc`.
* C44 comparisons, C45 point operators.
* C49 element access, C50 copying and resetting (AccessM, AccessP): on the memory model with values of any type.
* C51 interior iteration on views (InteriorS, InteriorP): induction over the list of view operations.
* C52 consumer copies on other devices (ConsumerM/S/P/Q/E): refinement of one object to a small specification machine; ownership invariant over all histories of several objects; refutations for shallow copies, devices other than the first, and failed requests.
* C53 futures (FutureM/S/P/Q/E): interleaving transition system with every unlocked access a step; invariant over the event log; termination measure once the value is there; refutations for cancel, exceptions and timed_wait.
* C54 scratch fields (StoreM, StoreS, StoreP): window arithmetic for all pairs of locations; memory from the pool invariant of C22.
* C55 analytic functions (FuncM, FuncS, FuncP): Nebo assignment over the standard library's real numbers, derivatives as `derivable_pt_lim`; refutation for the Gaussian's dx.
* C56 thread counts (TCountM/S/P/E): the resource manager on top of the pool's transition system; invariant: map entry = target of the pool; refutations by concrete runs.
* C57 GPU assignment (GpuM/S/P/Q/B/E): every thread is a program over the heap; columns write disjoint cells, so any interleaving is the sequential result (disjoint_parallel of C15); refutations for reduced valid ghosts and self-assigned single values.
* C58 machine integers (OverM/S/P/Q): the index functions again with int (overflow is UB) and wrapping size_t; every intermediate result is bounded by the number of allocated points; iterators by the closed form of C05; the bound is exact. OvAsgM/S/P/Q/R/T repeat the whole sequential assignment of NeboM with such integers; a non-empty region bounds every ghost number, shift and reach by the block sizes, so with at most 2^28 points per block every step gives what NeboM gives, and C11 carries over.
* C59 callers sharing the pool (ShareM/S/P/Q/R/T/U/V/W/E): the pool of C32 runs the jobs of C15 for any number of calling threads, which may be tasks of the pool themselves; an invariant says how far each assignment is, a measure bounds the steps, work conservation of the pool shows that a waiting caller has a job running; independent scripts commute with one another.
* C60 threads using scratch fields (ConcM/S/P/Q/R/T/U/E): every read and write of pool, counter and mutex is a step; the holder of the mutex is shown to be part-way through one get or put of PoolM, so that at each unlock the pool is again one of a history of C22; counters count the handles of one thread; a rank bounds the steps; a second invariant follows each program through a sequential reading of it (`leaves`); schedules refute the statement for ordinary fields and for handles shared between threads.
* C61 operators in double precision (RoundM/S/P/Q/R/T/U/V/E): the registration table is generic in the type of values, so it is instantiated with Flocq's binary64; scaling by 1/2 and 1/4 is exact, averages of four rest on RN(RN(3M/4) + M/4) = M, sums on the relative error of each addition; counterexamples by computation in the kernel.
* C62 reductions of doubles (RedM/S/P/Q/E): the reduction is a left fold over the cells in memory order (C17); the relative error of each addition by induction on the list; the square root by |sqrt S - sqrt T| <= c sqrt T; maxima through an order on doubles. `std::pow(x, 2.0)` is a parameter with an accuracy hypothesis that x * x meets.
* C63 destroying a pool (ShutM/S/P/Q/E): the destroying thread is a sequence of calls interleaved with the transition system of C30-C33; safety by an invariant over the phase of the destructor, termination by a measure (well-founded runs), and no stuck state but the final one.
* C64 patches one cell thick (ThinS/P/Q/R/E): a field is related to the same field with the ghost counts it really has; the assignment program (and the jobs, folds and reductions) of the two are shown equal, so C11, C15 and C17 apply. Interior variants are refuted by witnesses.
* C65 heat equation (HeatM/S/P/Q/R/T/D/U/E): every assignment of the program is discharged by C11 through C64 (the patch may be thin), generically in the type of values; the step and the loop by composition, the loop by induction on the passes; conservation by telescoping sums, signs by monotonicity of rounding. Heat64S/P/Q: error bounds by counting roundings (`off_by`), over the exact balance in the reals.
* C66 comparing doubles (Cmp64M/S/P/Q/E): the loops of C44 with the tests in double arithmetic; a pair passes iff the rounded quotient does not exceed the tolerance, and the relative errors of the difference, the denominator and the quotient bound the real one. Special values by cases.
* C67 ulp comparisons (UlpM/S/P/E): the numbering of the finite doubles is shown to be an increasing bijection onto an interval, so that differences of numbers count the doubles passed; the loops of C44 with a test that may throw.
* C68 shared GPU pointers (DevPtrM/S/P/Q/R/E): invariant over legal programs that groups the pointers by counter; each counter equals the size of its group, device addresses and counters are disjoint, blocks belong to one group; two ints per destroyed pointer are unaccounted for.
* C69 particles in doubles (Part64M/S/P/Q/R/T/E): the loops place a list of pieces (memory part, any doubles); each end of a piece is within delta + 2^-50 B of the real one, by induction over the cells; pieces follow each other, so their lengths telescope to the particle; errors of products, quotients and sums on top.
* C70 grid coordinates in doubles (Grid64M/S/P/Q/R/E): the loop of C43 for any value type (memory part); the product and the sum each round once, half a spacing is exact, so the error is at most (2|k|+2) half-ulps of the spacing; order because that is far below half a cell for indices of an int; the coordinates form a mesh of C69 and pass the constructor's test.
* C71 Lagrange in doubles (Lag64M/S/A/P/Q/R/T/U/E): the window of C40 with comparisons of doubles; each factor, product and sum is within powers of 1 + 2u of the exact one (u = 2^-53) as long as nothing leaves the normal range, which the bounds on distances ensure; the exact weights reproduce polynomials over R by root counting; at a table point one weight is exactly 1 and the others exactly 0.
* C72 boundary conditions in doubles (BC64M/S/P/Q/R/T/E): the memory proofs of C38 and C39 over doubles; a nonzero difference of ordinary numbers is a multiple of a power of two far from underflow, so every step has a relative error; Sterbenz for the exact interpolant; for zero flux the quotient is at least as close to P/c as the inner value, and reflecting about a P that is no power of two rounds back to P.
* C73 write_matlab (MatlabM/S/P/Q/R/E): the spec is a small reader of number lists; the text is shown to be read back as one literal per cell by induction over the loop, and each literal is compared with the double over R. Taken as given: opening and writing the file succeed, the library rounds the last digit to nearest, ties to even (as glibc does), NaN has no sign, and ends of lines separate the entries of the list.
* C74 looped tasks (LoopM/S/P): a transition system with a clock; the spec describes the observable histories, and the model is shown to have exactly these (induction both ways). Taken as given: the clock is exact and never goes back, sleep returns when the clock has reached its argument, threads are not interrupted.
* C75 analytic functions in doubles (Func64M/S/R/Q/T/P/U/E): the assignment is Nebo's (NeboM) at type double; the numbers by the standard model of rounding (each operation exact times 1+e), Lipschitz bounds from the mean value theorem, and monotonicity of rounding. Taken as given: the accuracy of the C library (a hypothesis, met by a correctly rounding one). The second derivative of GaussianFunction (Func64U) is bounded within 2^200 standard deviations, beyond which a product can overflow; its first derivative is wrong already in real arithmetic (C55).
* C76 merge sort example (SortM/S/P/Q/R/E): main, the pool of TPoolM and the array as one transition system, intermediate contents of a running merge arbitrary. Invariant: during round s the blocks not yet merged hold their sorted halves, the merged ones are sorted, live jobs have different blocks. End: lexicographic measure, and the pool theorems of C32 and C46 for the last state. std::inplace_merge is its documentation (a stable merge of two sorted ranges); comparison is a pure function; printing, timing and the pool's destruction are left out.
* C77 operators (OpM/OpTabM/S/P/Q/E): the 378 overloads, 28 node types and 16 assignment overloads are tables extracted from the headers, with the parameter types, the node built, the order and wrapping of its operands and the expression returned by eval() in each of the three modes. Overload resolution is by the argument types alone (the more specialised template wins). One lemma per arity computes every combination of operator and argument types in the kernel; formulas of any depth by induction. That the node types differ in nothing but their names and eval() was checked by the same reading of the header and is assumed in the translation to NeboM's trees.
* C78 memory of masks (MaskLifeM/S/P/Q/R/T/E): the pool of C21 with its CPU and GPU queues and the shared size table, blocks with a memory and words, mask objects as records of pointers; the spec has no memory. Invariant: queued, owned and leaked blocks are disjoint and are all blocks; every pointer of a living mask is owned by it or by the living mask it is a copy of, and its words are the bits of the points; every action keeps it (refinement), then histories by induction. Taken as given: whole-array transfers happen at once, peer access between GPUs works, fresh memory holds anything.
* C79 waiting with a time limit (TimedM/S/P): the transition system of TPoolM with a clock and the calls of wait(timestamp, threshold), each of which has an entry among the pool's clients. Invariant: every call keeps its entry with its threshold; an entry that is back, or an answer true, has a moment behind it at which the condition held; an expired call has one at which its time was up. A measure bounds the caller's own steps.
* C80 fields on devices as arrays (DevFldM/S/P/Q/R/T): the relation between object and expectation of C52, one for each field, with a frame lemma (a call touches only the blocks of its object and new ones) so that it holds for all fields at once; iterator loops by C05's description of the positions, each write by C52's write of a whole array. The values of new fields by induction over the positions of the window.
* C81 raw GPU memory (GpuRawM/S/P/T): an invariant between the state and what the calls so far and their answers say (current device, homes of the blocks, bytes last written, memory taken, figures at the last update), by induction over programs; the rules for the caller imply that the next call is defined.
* C82 memory exhaustion in the pool (PoolOomM/S/P/T): an invariant between the pool and the history (blocks obtained, handed out, sizes asked for, requests that failed) by induction over histories; the limits by concrete histories that the code goes wrong on.
* C83 single-value fields (SingleM/S/P/T): each assignment by C11 on the patch of one cell, programs by induction; replacing single-value fields by constants changes neither the cells read nor the region nor the values (mutual induction over expressions), so both assignments have the same effect.
* C84 lifetime of a thread pool (LifeM/S/P/T): explicit reference counts; invariant: the count of the core is the handles, controllers and live workers plus the references of the shutdown function and of a handle being destroyed, the count of a worker its thread plus its place in the list of ended workers; by induction over histories. Progress by a measure on threads and shutdown phases.
* C85 integer vectors (Vec3M/S/P): 32-bit arithmetic with undefined overflow; compound assignment reads its argument again for each component; the spec acts on all components at once. Each statement has an effect exactly if the model does not go undefined; programs by induction.

No property is planned as "not applicable".

## Trusted base

* Coq 8.16.1's kernel, including its virtual machine (`vm_compute` is used in
  examples and in some finite case analyses; `native_compute` is not used).
* `Print Assumptions` stands under every theorem in `Props*.v`.  All but
  the following print "Closed under the global context" (525 theorems in all, 411 of them closed):
  * The `C55_*` theorems are about real numbers and rest on the axioms of the standard
    library's `Reals`, and on nothing else:
    `ClassicalDedekindReals.sig_forall_dec`, `ClassicalDedekindReals.sig_not_dec`
    and `FunctionalExtensionality.functional_extensionality_dep`.
  * The theorems about double precision use Flocq, which rests on the same three and on the
    standard library's `Classical_Prop.classic`: all of `C61_*`, `C62_*`, `C66_*`, `C69_*`,
    `C70_*`, `C75_*`; `C67_*` but C67_different_windows (closed); `C71_*`; `C72_*` but
    C72_op_side and C72_get_coef (closed); `C73_*` but C73_throws (closed); C65_double,
    C65_insulated64_refuted, C65_hot_to_cold64, C65_error64 and C65_insulated_error64.
  * C67_verdict, C67_order_decides and C71_weights rest on `sig_forall_dec` and
    `functional_extensionality_dep` only.

  There are no axioms of our own.  (Loading parts of the standard
  library makes visible its sealed modules `Under_rel` of `Coq.ssr.ssrunder` and
  `RbaseSymbolsImpl`, `RinvImpl` of `Coq.Reals.Rdefinitions`, whose fields are
  defined there, and the axiom `Classical_Prop.classic`; no theorem depends on
  `Under_rel`, and only the theorems of the second group on `classic`.)
* The reading of the C++ code into the model.  This is not verified by a tool.
  Each definition names the lines it models and what it leaves out.  The
  model was tested by editing it the way a bug would and checking that the
  property theorems notice (seeded/LOG.jsonl).
* The specifications (`*S.v` and the statements in `Props*.v`).

### What is modelled

* Sequential C++ on local (CPU) memory, release build.  Memory is a map from
  blocks to arrays of cells; reading or writing outside a block, or reading a
  freed one, is `UB`.
* Integers are unbounded, except 32-bit mask words, OverM and OvAsgM (C58), which
  repeat the index arithmetic and the sequential assignment with 32-bit int and
  64-bit size_t and show the results agree below 2^31 (assignments: up to 2^28)
  points.
* Values are either an arbitrary type with arbitrary operations (C11-C17, C47,
  C49, C50), exact rationals (C34-C45, C48), real numbers (C55) or IEEE doubles
  (C61, C62, C65-C67, C69-C73, C75).
* Threads: sequentially consistent interleavings, one step per critical
  section or per shared access outside one.  Condition variables may wake
  spuriously, `notify_one` may wake any waiter.
* `std::vector`, `std::map`, `std::priority_queue`/`std::queue`,
  `std::lower_bound`, `std::copy` and `boost::shared_ptr` are replaced by their
  documented behaviour.

### What is not modelled

* CUDA beyond the shared pointers of DevPtrM, the raw memory of GpuRawM, the assignment kernel (GpuM: threads interleave freely, a block
  `fbuf` stands for the device copy, pointers may be formed anywhere but only
  used inside a block, no `int` overflow) and the transfers of ConsumerM
  (whole arrays): streams and their order, CUDA errors, NEBO_GPU_TEST (which
  also copies the cells it did not assign back from the device).
* Floating-point rounding, NaN and infinities outside RoundM, RedM, HeatM, Cmp64M, UlpM, Part64M, Grid64M, Lag64M, BC64M, Func64M and MatlabM (except where a division
  by zero decides a comparison: C42, C44); overflow of `int`/`size_t` outside OverM.
  These round to nearest even after every operation, have one NaN, and do
  not model extended precision, flush-to-zero or fused operations (C61_fused_refuted
  shows what fusing changes).
* C++ compile-time machinery: overload resolution, SFINAE and template type
  checks.  Template parameters become data; a combination that does not
  compile is `None` or does not exist in the model.
* ShareM (C59) counts a semaphore wait as one step (C28 has its loop) and takes
  the jobs of an assignment as made before the first is scheduled.
* ConcM (C60) gives the field object and its counter one lifetime, does not model
  moves of handles between threads, and takes memory as sequentially consistent.
* Memory exhaustion and exceptions thrown by allocation (but for the blocks of the memory pool, C82, and raw
  GPU memory, C81), stack depth.
* Debug assertions, except where a property is about them (C49).
* The weak memory model of C++: races are shown as interleavings.
* The file system, other output than write_matlab, the profiling/timing code, the build system, the
  examples (but for the heat equation and the merge sort) and the tests of the repository.

## Findings

Places where the code does not do what its documentation or a user would
expect.  Those with a theorem carry its name; the others are observations made
while reading.

* Fields and windows
  * Iterating a window with no cells in x or y divides by zero (C06).
  * `it += -1` from `begin()` and similar negative moves go wrong (C05).
  * The sanity check of a memory window accepts windows that stick out (C02).
  * A window view records all ghosts of its parent as valid, whatever the
    parent's valid ghosts and the window are (C10_views).
  * `operator()(ijk)` asserts in debug builds that the index lies in the window
    *in global coordinates*: valid elements of views are rejected
    (C49_debug_view_refuted).
  * `operator=` copies the whole block, also cells outside the window (C50).
  * Infinite ghost counts do not commute with addition, and infinite minus
    finite keeps the flag (C07).
* Assignment
  * `NeboField` holds the left-hand side by value: the valid-ghost record of
    the user's field does not follow the assignment, against SpatialField.h
    444-448 (C19).
  * Thread-parallel assignment to a read-only field never returns
    (C15_readonly_never_returns).
  * `set_partition_count` accepts 0 and negative values; then nothing is
    assigned and the call returns (C15_zero_partitions).
  * `interior_assign` does not check that the right-hand side has the ghosts
    the stencils need; `<<=` with too few ghosts and no boundary gives negative
    ghost counts silently.
  * The `*_interior` reductions use `GhostData(0)`, so the extra layer that
    `interior_assign` writes at a boundary is left out (C17_interior_extra_refuted).
  * A reduction over an expression with no field never terminates
    (C17_no_field_refuted).
  * A reduction over a stencil expression does not compile
    (`reduce_init` calls a function that does not exist).
  * Assigning a field from its own neighbours uses values that were already
    overwritten (C47).
* Masks and conditions
  * In a direction with one global point, coordinates are ignored by mask
    lookups (C20).
  * `cond()`: whether the result is a field expression is known only where all
    clauses are known (CondM).
* Pool, handles, database
  * The pool does not notice a block put back twice or a foreign block (C24).
  * `SpatFldPtr::detach` on a shared handle gives up two shares; assigning a
    sole owner to itself uses freed memory; copying a null handle dereferences
    it (C26).
  * The class comment says a wrapped field is not owned; it is deleted.
  * Registering the same operator pointer twice deletes it twice (C27).
  * `SpatialFieldStore::get` builds a field with no cells or two in a
    direction with one cell and a boundary (C54_one_cell_refuted), and one with
    too small an interior from a prototype with reduced valid ghosts
    (C54_reduced_refuted).
* Analytic functions
  * `GaussianFunction::dx` lacks the amplitude, squares x-x0 and adds y0
    (C55_gaussian_dx_refuted); the documentation of the class has the wrong
    sign in the exponent.
  * The declaration of the `GaussianFunction` constructor on a field names its
    arguments stddev, mean, xo, yo; the definition uses them as amplitude,
    stddev, xo, yo.
  * `HyperTanFunction` has no derivatives; in a release build `dx` and `d2x`
    silently do nothing (C55_hypertan_dx_refuted).
  * The constructors on a patch cannot be used: `FieldSetter::set` assigns to a
    constant parameter.
* Consumers
  * A failed `add_consumer` leaves the field read-only, without CUDA for ever
    (C52_unlocked_refuted).
  * A shallow copy made before `add_consumer` still writes, so the consumer is
    stale (C52_copy_stale_refuted); one made after keeps a pointer that
    `remove_consumers` frees (C52_copy_dangling_refuted).
  * The copy made for any GPU is allocated on the first one
    (C52_device_refuted); `has_consumers` looks only at the first one.
  * `begin() const` of a read-only GPU field without CPU copy does not throw, and its element is
    read through a NULL pointer; `end() const` throws (C80_null_begin_refuted).
  * A field built on a GPU from an array gets as many elements as its block has, from the start of the
    block: with a window smaller than the block that is behind the end of the array, and not what the
    CPU does (C80_new_part_refuted, C80_new_values_refuted).
  * `update_memory_statistics` selects no device in its loop over the devices: all get the figures of the
    current one (C81_statistics_refuted).  An allocation that fails leaves its device selected.
  * A `get` of the memory pool that fails has already counted the block and made the size: active() and
    total() stay too large (C82_active_refuted), and smaller requests without a size of their own then ask for
    the large one and fail although there is memory (C82_blocked_refuted).  Its `catch(std::runtime_error&)`
    does not catch std::bad_alloc, so the exception leaves `get`.
  * `pinned_` is one flag for the whole pool: after one fallback to ordinary memory the destructor passes all
    CPU blocks to delete[], pinned ones too (C82_pinned_refuted).
  * CudaMemoryAllocator.h declares CudaSetDevice(int) and CudaMemcpy with size and device exchanged; both are
    other overloads than the ones defined, and are called nowhere (read, not modelled).
  * `SingleValueCheck` (SpatialField.h:498-523) joins its conditions with `&&`: it rejects a single-value
    field only if all three extents are above 1, or all six ghost counts above 0 (C83_check,
    C83_wide_refuted); with ghosts in one direction `interior_assign` is undefined (C83_ghosts_refuted).
  * In an expression a single-value field means the first element of its block, not of its window
    (C83_view_refuted).
  * Dividing an IntVec with a negative component by an unsigned number (size_t) converts the component to
    unsigned first: IntVec(-3,4,6) / size_t(2) starts with -2 (C85_unsigned_div_refuted).  `sum()` can overflow
    although the sum is an int (C85_sum_refuted).
* Threads
  * With the shutdown policy `immediately`, workers at work when the last handle goes enter the core's list
    of ended workers afterwards, and nobody clears it: core and worker hold each other for ever
    (C84_leak_refuted).
  * A task that destroys the last handle of its own pool waits for itself (C84_self).
  * `schedule(Pool&, shared_ptr)` in pool_adaptors.hpp uses `pool->` on a reference and compiles for no pool object (read, not modelled).
  * A task that throws kills its worker, and the pool is not told in every
    case: a wake-up is lost (C32_unreplaced_refuted).
  * Raising the active limit wakes nobody (C32_raised_limit_refuted).
  * Shrinking can end more workers than asked for (C33_exact_refuted); the
    death of a worker cancels a pending shrink.
  * `wait(k)` with k>0 and `clear()` can miss wake-ups (C46); terminating a pool leaves callers of
    wait() asleep for ever if tasks are still queued (C46_terminated_wait_refuted).
  * `wait(timestamp, k)` returns false without looking at the condition again, so false does not mean
    that there are tasks left, as pool_core.hpp:255 says (C79_done_refuted, C79_race_refuted).
  * `resize_active` changes the limit without the lock and returns the value
    it was given, not the one in force.
  * An assignment made inside a task of the pool that runs its jobs (ThreadPoolFIFO)
    waits while occupying a worker: with as many such tasks as workers nothing
    moves any more (C59_nested_refuted).
  * The memory pool has no lock of its own. The field store takes a mutex around it,
    but the constructor and destructor of ordinary fields do not: fields made by two
    threads at the same time may share memory (C60_ordinary_fields_refuted).
  * The reference count of scratch fields is a plain int: copies of one handle dropped
    by two threads leak the memory, free it twice or use it after deletion
    (C60_shared_handle_refuted).
  * The box filter does not reproduce constants in double precision: the mean of 27
    times 1/3 is less than 1/3 (C61_filter_constant_refuted).
  * `nebo_max` and `nebo_min` ignore NaN except in the first cell, where it hides all
    other cells (C62_max_nan_refuted, C62_max_number_refuted).
  * `nebo_norm` squares without scaling: norms of very small or large fields come out
    0 or infinite (C62_norm_underflow_refuted, C62_norm_overflow_refuted).
  * The destructor of a thread pool without workers hangs if a task is queued
    (C63_hang_refuted); a task scheduled while the pool is destroyed may be lost although
    `schedule` returned true (C63_late_task_refuted).
  * On a patch with one cell in some direction and ghosts declared there, `interior_assign`
    and the interior reductions process the wrong cells or leave the block
    (C64_interior_refuted, C64_interior_outside_refuted): they take the window apart by the
    declared ghost counts although the window has no ghost layers in that direction.
  * Conservation of heat does not survive rounding: on two insulated cells the gains do not
    cancel in doubles (C65_insulated64_refuted).
  * With a non-zero tolerance the comparison functions call a field of NaN equal to any field
    (C66_nan_refuted), and a NaN tolerance makes all fields equal (C66_nan_tolerance); a
    relative comparison does not notice an infinite first field (C66_infinite_refuted), and its
    default absolute tolerance is infinite when the norm overflows (C66_overflow_refuted).
  * The ulp comparison of a field with itself throws if the field holds a NaN or infinity
    (C67_reflexive_refuted), and whether it throws or answers false depends on the order of
    the cells (C67_order_decides). Boost's function is modelled by its documentation.
  * `~CUDASharedPointer` detaches by assigning NULL, which allocates a new counter and device
    number: two ints leak per destroyed pointer (C68_left_over). Assigning from a pointer that
    was never set increments *NULL (C68_unset_refuted), and a raw pointer is recorded with the
    thread's current device, not its own (C68_raw_device_refuted); `get_shared_pointer` tests
    `K > device_count` where `get_raw_pointer` tests `>=` (C68_no_device).
  * Particle operators with real doubles: conservation holds only up to rounding
    (C69_exact_conservation_refuted), a particle smaller than the spacing of doubles at its
    position is lost (C69_tiny_refuted), an accepted mesh can give a cell a negative part of a
    positive value (C69_negative_refuted), and the constructor's test accepts NaN
    (C69_nan_refuted).
  * Grid coordinates with real doubles: the last face can miss the end of the domain
    (C70_end_refuted), steps differ from spacing() (C70_even_refuted), 0 points give NaN
    (C70_no_points).
  * Lagrange interpolation with real doubles: a constant table can give a value above it and a
    nonzero derivative (C71_constant_refuted), and a table spread over too many magnitudes gives
    NaN at its own points (C71_spread_refuted).
  * Boundary conditions with real doubles: with cells of length 93 holding 186 an imposed zero flux
    leaves a nonzero gradient (C72_zero_flux_refuted), a value of 2^-60 imposed next to a cell
    holding 2 is lost (C72_interpolant_refuted), and a zero coefficient gives NaN without an
    exception (C72_zero_coefficient_refuted).
  * A pool made without threads and enlarged by `size_controller().resize(n)` runs nothing: the
    number of workers allowed to be active stays 0 until `resize_active` is called
    (C31_zero_pool). So the merge sort example never gets past its first wait()
    (C76_as_written_refuted), and the same pattern is in the tutorial (lines 140-153, 181-191,
    204-215) and in the test compile_all.cpp (96-113, 119-122).
  * A view of the active window of a field with fewer valid ghosts counts all ghosts as valid, so
    its next reset_valid_ghosts moves the window into the interior (C10_reduced_view_refuted).
  * write_matlab: 15 digits do not tell a double from the next (C73_roundtrip_refuted), and a field
    with ghosts only is read past its end because the first value is written before the loop tests
    for the end (C73_empty_refuted).
  * Comparisons between single-value fields cannot be combined with &&, || or ! (no overload takes
    NeboBooleanSingleValueExpression, C77_combine_refuted), and max and min of fields lose a NaN in
    the first argument and keep one in the second (C77_max_min_nan), unlike std::max.
  * Masks share their words with copies without counting them: a copy that outlives its original, or
    keeps consumers the original removed, shows the bits of whatever mask gets the block next
    (C78_copy_outlives_refuted, C78_removed_under_copy_refuted).
  * `~BitField` puts the block of a mask made on a GPU back as LOCAL_RAM (BitField.h:445): undefined,
    or a GPU block in the CPU queue (C78_gpu_destroy_refuted, C78_gpu_block_on_cpu_refuted).  Making
    such a mask with points throws after allocating and the block is lost (C78_throw_leaks_refuted).
  * `has_consumers` of a mask in RAM looks at GPU 0 only (C78_has_consumers_refuted), and
    `find_consumer` of a mask in RAM throws for another RAM index.
  * `glob_npts()` and `local_npts()` return `size_t` but multiply `int`s, so a
    field of 2^31 points (16 GB) is undefined behaviour (C58_large_refuted).
  * A mask iterator keeps its position as a 32-bit flat index, and the step from the
    last cell of a view to end() adds the y and z strides of the whole block, so it
    overflows for views of large masks of fewer than 2^31 points
    (C58_mask_steps_refuted).
  * `gpu_assign` sizes its grid by the window the destination has before its
    valid ghosts are reset, so after `reset_valid_ghosts` to fewer ghosts some
    columns may get no thread (C57_gpu_reduced_refuted).
  * On a GPU `f <<= f + 1` for a single value f is a data race: threads outside
    the window read the operand too (C57_gpu_single_refuted).
  * `set_hard_thread_count` leaves early when the number is the one it last
    recorded, so it does not repair a pool that shrank to nothing
    (C56_starved_refuted) or grew back after an exception (C56_throw_refuted).
  * `set_soft_thread_count` returns its argument, not the limit in force; the
    limit is cut to the workers of the moment and does not follow later changes
    (C56_soft_above_refuted, C56_soft_late_refuted).  With no worker at the
    moment the limit becomes 0.
  * With NTHREADS = 0 the pool has no worker but the record says 1.
  * `future::cancel` and a throwing task leave threads in `wait` or `get`
    asleep for ever (C53_cancel_releases_refuted, C53_throw_releases_refuted);
    a successful `cancel` may be followed by the call of the function and by
    the value (C53_cancel_value_refuted, C53_cancel_invoke_refuted);
    `timed_wait` may answer false when the value is there (C53_timed_refuted).
    `m_executing` is not initialised, but is never read before it is written
    (C53_initialised).
* Numerics
  * `BoundaryConditionOp` treats `NO_SIDE` as minus for one point and as plus
    for lists; flat indices for lists are taken on the interior window and
    read on the whole block; four-point operators are not supported; one
    coefficient is also returned for index 1 (C38_get_coef).
  * Boundary masks whose points feed each other are order dependent (C38).
  * Lagrange interpolation of order 0, or of an order not below the number of
    entries, reads outside the table; `begin()-1` is formed (C40).
  * The relative comparison is not symmetric, a negative error combines badly
    with the default tolerance (C44).
  * Point operators count positions on the window and index the block: wrong
    on views (C45).
  * Particle operators ignore the mesh origin, truncate towards zero for a left
    edge between -dx and 0, lose particles of size 0 or below, accept every
    decreasing mesh, and read outside the mesh for particles outside (C42).
  * `Grid::set_coord` is off by one spacing per hidden layer on fields with
    reduced valid ghosts and on views (C43_reduced_refuted).
