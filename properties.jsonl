{"id": "C01", "title": "Flat and ijk indices are inverse bijections", "statement": "For every 3-D layout with positive dimensions, converting an in-range (i,j,k) to its flat index gives a value in [0, nx*ny*nz), converting back gives the same (i,j,k), converting any flat index in range to (i,j,k) gives an in-range triple that converts back to it, and flat indices increase in x-fastest, then y, then z order.", "quantifier": "all positive dimension triples, all in-range triples, all in-range flat indices", "why_tests_cant": "The dimensions are unbounded; a test fixes a few grids and cannot exclude a collision on another shape.", "anchors": ["spatialops/structured/IntVec.h: ijk_to_flat", "spatialops/structured/IntVec.h: flat_to_ijk", "spatialops/structured/MemoryWindow.h: MemoryWindow::ijk_index_from_global, ijk_index_from_local"]}
{"id": "C02", "title": "A memory window addresses distinct in-bounds cells", "statement": "If a window fits inside its global block (offset + extent <= global size in every direction), then flat_index maps the local points of the window injectively into [0, glob_npts). The constructor's own sanity check does not establish that precondition: it accepts exactly the windows with positive global sizes, non-negative offsets and extents no larger than the block, some of which address points outside the block. Two windows compare equal exactly when sizes, offsets and extents agree.", "quantifier": "all windows, all pairs of local points", "why_tests_cant": "Injectivity over all shapes/offsets is a universal statement; a test checks sampled windows only.", "anchors": ["spatialops/structured/MemoryWindow.h: MemoryWindow::flat_index", "spatialops/structured/MemoryWindow.cpp: MemoryWindow::sanity_check"]}
{"id": "C03", "title": "Refining a window partitions it exactly", "statement": "For every window and every split with 0 < split <= extent in each direction, the sub-windows produced by refine for the locations of the split cover every point of the window exactly once, contain nothing else, are all non-empty, and their extents differ by at most one in each direction.", "quantifier": "all windows, all split patterns, all locations, all points", "why_tests_cant": "Coverage/disjointness must hold for every remainder extent % split; a test samples some.", "anchors": ["spatialops/structured/MemoryWindow.cpp: MemoryWindow::refine"]}
{"id": "C04", "title": "Forward iteration visits each window cell exactly once, in order, and stops", "statement": "Starting from begin() and incrementing until equal to end(), a field iterator (const or not) over any non-empty window that fits its block reaches end() after exactly extent-x*extent-y*extent-z increments and not before, dereferences exactly the flat indices of the window's points, once each, x fastest, reports the right location(), passes the debug dereference checks on every visit, and never leaves the block before end().", "quantifier": "all non-empty windows that fit their block", "why_tests_cant": "Termination is by pointer equality and the strides depend on the window/global dims; only a proof covers all of them.", "anchors": ["spatialops/structured/MemoryWindow.h: FieldIterator, ConstFieldIterator (constructor, operator++, operator*, operator==)", "spatialops/structured/SpatialField.h: begin, end"]}
{"id": "C05", "title": "Iterator random access agrees with stepping", "statement": "For an iterator at position c of a non-empty fitting window and any n with 0 <= c+n <= number of points: it+n (or it -= -n) is the iterator reached by |n| single steps; -- undoes ++ and conversely; (it+n)-it = n; it[n] is *(it+n); and <, <=, ==, >, >= order iterators exactly by position.", "quantifier": "all non-empty fitting windows, all positions, all displacements staying in [0, npts]", "why_tests_cant": "The += fast path/slow path split and C's truncating division give different code paths per (position, displacement).", "anchors": ["spatialops/structured/MemoryWindow.h: FieldIterator::operator+=, operator--, operator-, operator[], comparisons", "spatialops/structured/MemoryWindow.h: ConstFieldIterator"]}
{"id": "C06", "title": "Iterating an empty window does nothing", "statement": "A user expects begin()==end() for a window with no points. In the code end() is begin()+0, which divides by the zero x-extent (or zero xy-extent), so the call is undefined instead.", "quantifier": "all windows with a zero extent in x or y", "why_tests_cant": "The failing case is undefined behaviour; a test build may not include it and a passing run proves nothing.", "anchors": ["spatialops/structured/MemoryWindow.h: FieldIterator::operator+=", "spatialops/structured/SpatialField.h: end"]}
{"id": "C07", "title": "Ghost-count algebra", "statement": "On ghost counts: min is commutative, associative, idempotent and a lower bound of both; adding finite counts is commutative and associative and subtracting the same finite counts undoes adding; an infinite count (used for scalars) absorbs addition on either side and is neutral for min against counts of at most 9001; subtracting an infinite count is rejected. Replacing the counts of one side keeps the other side; two counts compare equal exactly when all six numbers agree.", "quantifier": "all ghost count triples", "why_tests_cant": "Algebraic laws range over all counts.", "anchors": ["spatialops/structured/GhostData.cpp: GhostData::operator+=, operator-=, min, operator==", "spatialops/structured/GhostData.h: GhostData"]}
{"id": "C08", "title": "point_to_ghost is the exact ghost requirement of an offset", "statement": "For every offset p and every interior size n>0, ghost counts g satisfy point_to_ghost(p) <= g in a direction iff reading every interior cell shifted by p stays inside the interior grown by g.", "quantifier": "all offsets, all ghost counts, all sizes", "why_tests_cant": "Universal over sizes and offsets.", "anchors": ["spatialops/structured/GhostData.cpp: point_to_ghost"]}
{"id": "C09", "title": "Interior and ghosted windows of a field", "statement": "For a field built on the window obtained from local dimensions, ghost counts and boundary information, the interior window has exactly the local dimensions plus the boundary extra cells, starts after the minus ghosts, lies in the full window, and the full window has exactly minus+plus ghost layers around it; in a direction with a single cell no ghosts or extras are stored. BoundaryCellInfo's num_extra() and has_extra() report the location's extra cells in exactly the directions flagged as having a boundary, and none elsewhere.", "quantifier": "all local dimensions, ghost counts and boundary flags", "why_tests_cant": "Universal over sizes; degenerate directions are special-cased in the code.", "anchors": ["spatialops/structured/FVTools.h: get_dim_with_ghost, get_window_with_ghost", "spatialops/structured/SpatialField.h: SpatialField constructor, window_without_ghost, window_with_ghost"]}
{"id": "C10", "title": "Resetting valid ghosts keeps the active window in step", "statement": "After any history of reset_valid_ghosts calls the active window is the interior grown by the currently valid ghosts: the last call alone determines it, restoring the initial counts restores the initial window, and the window stays inside the allocated block as long as the requested counts do not exceed the field's ghosts. Copies and partition counts change neither, and a view of the whole field starts with all ghosts valid again; a view of the reduced window of a field does so too, and is then out of step. This needs more than one cell in every direction: in a direction with a single cell ghosts are counted but not stored, and dropping them makes the window's extent negative.", "quantifier": "all histories of calls, all ghost counts", "why_tests_cant": "Stateful, unbounded histories.", "anchors": ["spatialops/structured/SpatialField.h: reset_valid_ghosts, reshape"]}
{"id": "C11", "title": "Field assignment computes the expression pointwise and changes nothing else", "statement": "For `f <<= e`, where the fields read by e do not share storage with f (or do so only unshifted through the same window geometry), every cell of f in the valid region afterwards holds the value of e at that point computed from the memory before the assignment; every other cell of f and all other fields are unchanged; the assignment terminates and reads and writes only in-bounds cells.", "quantifier": "all fields, shapes, ghost counts, boundary flags and all expressions built from scalars, fields, operators, conditionals, masks and (nested) stencils", "why_tests_cant": "The expression language and grid sizes are infinite.", "anchors": ["spatialops/NeboLhs.h: NeboField<Initial>::sequential_assign, NeboField<SeqWalk>::assign", "spatialops/NeboRhs.h: NeboConstField, NeboScalar", "spatialops/NeboOperators.h", "spatialops/NeboStencils.h", "spatialops/NeboCond.h", "spatialops/NeboBasic.h: calculate_valid_ghost, resize_ghost", "spatialops/NeboAssignment.h: operator<<="]}
{"id": "C12", "title": "Stencils only read cells that exist", "statement": "When the ghost counts computed for an assignment are non-negative, every read performed by any (nested) stencil or shifted mask during that assignment lands inside the allocated block of the field being read, and inside its valid region.", "quantifier": "all expressions with nested stencils, all fields and shapes", "why_tests_cant": "Depth of nesting and shapes are unbounded; out-of-bounds reads often go unnoticed at run time.", "anchors": ["spatialops/NeboStencils.h: NeboStencilPointCollection::possible_ghosts, ConstructExpr, NeboStencil, NeboSumStencil, NeboMaskShift", "spatialops/NeboBasic.h: calculate_valid_ghost"]}
{"id": "C13", "title": "Left and right sides of an assignment walk equal windows", "statement": "In an assignment between fields on the same patch, whatever their ghost counts and boundary extras, the window walked on the left-hand side and the window walked for every field on the right-hand side have the same extents, so the k-th cell written is computed from the k-th cell of each operand, which is the cell at the same (shifted) grid point.", "quantifier": "all pairs of fields on one patch, all ghost counts, boundary extras, shifts", "why_tests_cant": "Universal over sizes and ghost combinations.", "anchors": ["spatialops/NeboBasic.h: calculate_valid_ghost, calculate_valid_lhs_ghost, resize_ghost_and_shift_window", "spatialops/NeboLhs.h: init", "spatialops/NeboRhs.h: NeboConstField::init"]}
{"id": "C14", "title": "interior_assign writes exactly the interior", "statement": "interior_assign writes every cell of the interior window (including boundary extra cells), and no ghost cell, with the expression's value. It does not check that the operands have the ghosts a stencil needs: with too few source ghosts a release build reads cells outside the source's window.", "quantifier": "all fields, expressions, ghost counts", "why_tests_cant": "Universal; the failing case is a silent out-of-window read.", "anchors": ["spatialops/NeboAssignment.h: interior_assign", "spatialops/NeboBasic.h: calculate_valid_ghost"]}
{"id": "C15", "title": "Thread-parallel assignment equals sequential assignment", "statement": "For every positive partition count and every interleaving of the reads and writes of the partition jobs, a thread-parallel `f <<= e` (e not reading f shifted) ends with exactly the memory the sequential assignment produces, and no two jobs write the same cell. With a partition count of zero (or negative) the call silently assigns nothing.", "quantifier": "all interleavings, all partition counts, all fields and expressions", "why_tests_cant": "Schedules cannot be enumerated by tests.", "anchors": ["spatialops/NeboLhs.h: thread_parallel_assign, NeboField<Resize>::assign", "spatialops/NeboBasic.h: nebo_find_partition, nebo_partition_count, nebo_next_partition", "spatialops/structured/SpatialField.h: set_partition_count"]}
{"id": "C16", "title": "Partition enumeration visits each location once", "statement": "Starting from (0,0,0) and stepping nebo_next_partition as many times as nebo_partition_count says, every location of the split is produced exactly once; and the split chosen for a positive thread count never exceeds the window's extents.", "quantifier": "all split patterns, extents and thread counts", "why_tests_cant": "Universal over splits.", "anchors": ["spatialops/NeboBasic.h: nebo_next_partition, nebo_partition_count, nebo_find_partition"]}
{"id": "C17", "title": "Reductions fold over every valid cell exactly once, in order", "statement": "nebo_fold returns the left fold of the procedure over the expression's values at all cells of the valid window in memory order; nebo_max/nebo_min return a value attained by some cell that bounds all cells; nebo_sum is the sum. The interior variants do the same over the patch's own cells (not the extra boundary cells, which interior assignment does write). An expression without any field or mask cannot be reduced: the call never returns.", "quantifier": "all fields, expressions, procedures", "why_tests_cant": "Universal over sizes, values and procedures.", "anchors": ["spatialops/NeboReductions.h: nebo_fold, nebo_reduce, nebo_fold_interior, nebo_max, nebo_min, nebo_sum"]}
{"id": "C18", "title": "Conditional expressions take the first true clause", "statement": "cond(c1,e1)(c2,e2)...(e) evaluates at every point to the expression of the first clause whose condition holds there, else to the final expression; for any number and mixture of clauses.", "quantifier": "all clause lists, all points", "why_tests_cant": "Clause lists are unbounded; the builder stores them reversed and converts between kinds.", "anchors": ["spatialops/NeboCond.h: NeboCond, NeboClause, CondBuilder"]}
{"id": "C19", "title": "The valid-ghost record follows assignments", "statement": "get_valid_ghost_data() is documented to record how assignments change the number of valid ghost cells of a field. A user relies on `a <<= e; b <<= a` not treating ghost cells of a that were not assigned as valid. In the code the assignment resets a copy, so the caller's record does not change and can call unassigned cells valid; it is right afterwards when the expression covers every cell it calls valid, and resetting it to the counts used by the assignment makes it describe exactly the assigned cells.", "quantifier": "all assignments", "why_tests_cant": "A statement about all later reads after any assignment.", "anchors": ["spatialops/structured/SpatialField.h: get_valid_ghost_data, reset_valid_ghosts", "spatialops/NeboLhs.h: NeboField<Initial>"]}
{"id": "C20", "title": "Masks contain exactly the points they were built from", "statement": "A mask built from a list of points of its window reports true at a local point iff the point is in the list, for every window shape, number of points and word boundary; duplicates and order are irrelevant.", "quantifier": "all windows, all lists of in-window points, all query points", "why_tests_cant": "Bit packing must be right at every word boundary and size.", "anchors": ["spatialops/structured/BitField.h: BitField::add_point, find_position, operator()", "spatialops/structured/SpatialMask.h: SpatialMask"]}
{"id": "C21", "title": "Mask iterators agree with point queries", "statement": "The k-th value produced by iterating a mask (by ++, or by jumping with +=, or stepping back with --) is the value the mask reports at the k-th point of the window.", "quantifier": "all masks, window shapes, positions, jumps", "why_tests_cant": "Position arithmetic across 32-bit words and rows, for all shapes.", "anchors": ["spatialops/structured/BitField.h: ConstMaskIterator"]}
{"id": "C22", "title": "Memory pool hands out exclusive, large enough blocks", "statement": "Over any sequence of get/put calls where each put returns a block currently handed out, every block returned by get is at least as large as requested and is different from every block currently handed out.", "quantifier": "all get/put histories and sizes", "why_tests_cant": "Unbounded histories with size-bucket reuse.", "anchors": ["spatialops/structured/MemoryPool.cpp: Pool::get, Pool::put"]}
{"id": "C23", "title": "Memory pool accounting", "statement": "Over the same histories, active() equals the number of blocks currently handed out and total() the number of blocks ever allocated, which never exceeds the peak need by bucket; nothing is leaked: every allocated block is either handed out or reusable.", "quantifier": "all get/put histories", "why_tests_cant": "Unbounded histories.", "anchors": ["spatialops/structured/MemoryPool.cpp: Pool::active, Pool::total, Pool::get, Pool::put"]}
{"id": "C24", "title": "Memory pool misuse is not detected", "statement": "A block put back twice, or a pointer the pool never issued, is not rejected: the pool then hands the same block to two owners, or a foreign block that is smaller than requested.", "quantifier": "exists a history", "why_tests_cant": "A negative result about undetected misuse; tests show only the absence of a crash.", "anchors": ["spatialops/structured/MemoryPool.cpp: Pool::put"]}
{"id": "C25", "title": "Field handles share and free exactly once", "statement": "For every history of creating, copying, assigning and destroying field handles (SpatFldPtr), the field is alive as long as a handle to it exists and is given back exactly once, when the last handle goes away.", "quantifier": "all histories of handle operations over any number of handles and fields", "why_tests_cant": "Unbounded histories and aliasing.", "anchors": ["spatialops/structured/SpatialFieldStore.h: SpatFldPtr, SpatialFieldStore::get, restore_field"]}
{"id": "C26", "title": "Detaching and self-assigning handles", "statement": "detach() of the only handle to a field gives the field back exactly once, and the handle's destruction afterwards does nothing; assigning a handle to itself has no effect when another handle shares the field. In the other two cases a user's expectation fails: a detached handle that shared its field keeps pointing to it and gives up a second share when destroyed, and assigning a sole owner to itself uses freed memory.", "quantifier": "all histories including detach and self-assignment", "why_tests_cant": "Unbounded histories.", "anchors": ["spatialops/structured/SpatialFieldStore.h: SpatFldPtr::detach, SpatFldPtr::operator="]}
{"id": "C27", "title": "Operator database is a typed registry", "statement": "After any history of registrations, retrieving an operator by type (and id) returns the one registered under that type (and id); a type without a registration, or an ambiguous request, is reported as an error; retrieval never changes the contents.", "quantifier": "all registration histories and queries", "why_tests_cant": "Unbounded histories.", "anchors": ["spatialops/OperatorDatabase.h: OperatorDatabase::register_new_operator, retrieve_operator"]}
{"id": "C28", "title": "Semaphore counts correctly under every interleaving", "statement": "For every number of posters and waiters and every interleaving (including spurious wake-ups), the number of waits that have returned never exceeds initial value + posts completed; and a waiter never sleeps forever while a unit is available: whenever the count is positive and some thread is waiting, a wake-up is in flight or another thread is about to take it. Once as many waits have returned as there were units (initial value plus all posts that will ever be made), no thread is inside post() or will still call it, so the waiter may destroy the semaphore.", "quantifier": "all interleavings of any number of threads", "why_tests_cant": "Schedules cannot be enumerated.", "anchors": ["spatialops/Semaphore.h: Semaphore::post, wait"]}
{"id": "C29", "title": "The assigning thread resumes only after all partition jobs finished", "statement": "In a thread-parallel assignment the caller returns from its waits only when every scheduled partition job has finished all its writes and posted.", "quantifier": "all interleavings", "why_tests_cant": "Schedules cannot be enumerated.", "anchors": ["spatialops/NeboLhs.h: thread_parallel_assign", "spatialops/Semaphore.h"]}
{"id": "C30", "title": "Thread pool runs every task at most once, in the order its queue prescribes, and loses none", "statement": "For every interleaving of schedule, resize and worker steps, every scheduled task is at every moment in exactly one of: waiting in the queue, being run by one worker, finished; and a FIFO pool starts tasks in the order scheduled, a LIFO pool the latest scheduled of those waiting, a priority pool none while one of higher priority waits.", "quantifier": "all interleavings, all task sequences", "why_tests_cant": "Schedules cannot be enumerated.", "anchors": ["spatialops/threadpool/threadpool/detail/pool_core.hpp: schedule, execute_task", "spatialops/threadpool/threadpool/scheduling_policies.hpp: fifo_scheduler"]}
{"id": "C31", "title": "Active worker limit", "statement": "While the active limit is not lowered, the number of tasks running simultaneously never exceeds it. Only the constructor and resize_active set the limit: a pool made without threads starts no task, however it is resized, until resize_active is called.", "quantifier": "all interleavings", "why_tests_cant": "Schedules cannot be enumerated.", "anchors": ["spatialops/threadpool/threadpool/detail/pool_core.hpp: execute_task, resize_active", "spatialops/ThreadPool.cpp: resize_pool"]}
{"id": "C32", "title": "No lost wake-up in the pool", "statement": "As long as the pool has a worker, the active limit is at least one and the pool is not being shrunk, a pending task always has an awake worker that will pick up a task: the pool never sleeps with work queued.", "quantifier": "all interleavings", "why_tests_cant": "Liveness-type invariant over all schedules.", "anchors": ["spatialops/threadpool/threadpool/detail/pool_core.hpp: execute_task, schedule, resize"]}
{"id": "C33", "title": "Shrinking the pool leaves the requested number of workers", "statement": "After resize(n) with fewer workers than before, at most n workers remain once all have come to rest; exactly n remain if no worker decides to exit while another is exiting. (The expectation that always exactly n remain is false: several workers may see the old count and exit together, down to none.)", "quantifier": "all interleavings", "why_tests_cant": "Needs a particular interleaving of worker exits.", "anchors": ["spatialops/threadpool/threadpool/detail/pool_core.hpp: resize, execute_task, worker_destructed", "spatialops/threadpool/threadpool/detail/worker_thread.hpp: run"]}
{"id": "C34", "title": "Two-point and four-point stencils straddle the destination", "statement": "For every source/destination pair of staggered locations that differ in one (two) directions, the two (four) stencil points are exactly the source cells adjacent to the destination location, symmetric around it.", "quantifier": "all pairs of staggered location offsets", "why_tests_cant": "Claim about all type pairs.", "anchors": ["spatialops/NeboStencilBuilder.h: Stencil2Collection, Stencil4Collection, FDStencilCollection", "spatialops/structured/FVStaggeredLocationTypes.h", "spatialops/structured/IndexTriplet.h"]}
{"id": "C35", "title": "Interpolation, gradient and divergence are consistent", "statement": "A fixed, complete catalogue of operators is registered (interpolation, gradient and divergence between each volume, its faces and the other volumes where they are defined), each exactly once. In exact arithmetic, the interpolants reproduce every field that is linear in the coordinates at the destination location, gradients return its exact slope, gradients of a constant are zero; all operators are linear in the field.", "quantifier": "all linear fields, all spacings, all points", "why_tests_cant": "Universal over fields and spacings.", "anchors": ["spatialops/structured/stencil/StencilBuilder.cpp: build_stencils", "spatialops/NeboStencilBuilder.h"]}
{"id": "C36", "title": "Divergence telescopes", "statement": "In exact arithmetic the sum of the divergence of a face field over a row of cells equals (flux out of the last face minus flux into the first face)/dx: interior fluxes cancel.", "quantifier": "all face fields and row lengths", "why_tests_cant": "Universal over lengths and values.", "anchors": ["spatialops/structured/stencil/StencilBuilder.cpp: build_stencils", "spatialops/NeboStencilBuilder.h: Stencil2Collection"]}
{"id": "C37", "title": "Box filter averages", "statement": "The box filter is the mean of the 27 cells around each cell (the two- and one-dimensional boxes: of the 9 or 3 cells around it in their directions); it reproduces constants, is linear, and its result lies between the smallest and largest of the values it averages.", "quantifier": "all fields", "why_tests_cant": "Universal over values.", "anchors": ["spatialops/NeboStencilBuilder.h: NeboAverageStencilBuilder, BoxFilter3DStencilCollection"]}
{"id": "C38", "title": "Boundary-condition operators make the operator equal the prescribed value", "statement": "After applying a boundary-condition operator for a two-point operator op and values gamma (a scalar, a field or an expression) on a mask, op(phi) equals gamma at every masked point whose cell is assigned, and phi changes only at the cells adjacent to masked points on the chosen side. This needs that no cell used as source for one masked point is overwritten later in the same sweep for another one; without that it is false (two neighbouring masked faces on the minus side). The single-point BoundaryConditionOp makes op(phi) equal the value at its point and changes only the one cell on its side. Coefficients are accessed by number; a number past the end is refused, except that a collection of one coefficient also answers to number 1.", "quantifier": "all masks, fields, values, coefficients (non-zero destination coefficient)", "why_tests_cant": "Universal over masks and values; aliasing of phi on both sides.", "anchors": ["spatialops/NeboStencilBuilder.h: NeboBoundaryConditionBuilder", "spatialops/structured/stencil/FVStaggeredBCOp.h: BoundaryConditionOp"]}
{"id": "C39", "title": "Boundary-condition operator on a list of points acts on those points", "statement": "BoundaryConditionOp built from a list of points has the same effect as the single-point operators applied in order, provided the side is MINUS_SIDE or PLUS_SIDE, the window given to it numbers exactly the interior cells (no offset) and both cells of each point are interior. Otherwise it is false: given the field's own interior window on a field with ghosts, the list operator changes an interior cell instead of the ghost cell; with NO_SIDE the two forms act on opposite sides.", "quantifier": "all lists of points, windows, fields", "why_tests_cant": "Index conversions over all windows.", "anchors": ["spatialops/structured/stencil/FVStaggeredBCOp.h: BoundaryConditionOp (both constructors), operator()"]}
{"id": "C40", "title": "Lagrange interpolation uses table entries only", "statement": "For a strictly increasing table with at least order+1 points, order at least 1, interpolation and differentiation at any x both use the same order+1 consecutive table entries: they include the two entries bracketing x when x lies inside the table, and are the first (last) ones when it lies below (above). With fewer points the calls read outside the table, and order 0 never yields a value.", "quantifier": "all tables, orders and evaluation points, inside or outside the table", "why_tests_cant": "Boundary handling for all tables and positions.", "anchors": ["spatialops/structured/onedim/LagrangePoly.cpp: get_bounds, LagrangeCoefficients::get_interp_coefs_indices, get_derivative_coefs_indices"]}
{"id": "C41", "title": "Lagrange interpolation and differentiation are exact on polynomials", "statement": "In exact arithmetic, for tables with strictly increasing abscissae sampled from a polynomial of degree at most the order, the interpolant returns the polynomial's value and the derivative its derivative at any x; coefficients sum to one (zero); at a table point the interpolant returns the tabulated value whatever the data; for order at least one.", "quantifier": "all polynomials, tables, orders >= 1, evaluation points", "why_tests_cant": "Universal over polynomials and tables.", "anchors": ["spatialops/structured/onedim/LagrangePoly.cpp: LagrangeCoefficients, LagrangeInterpolant::value, LagrangeDerivative::value"]}
{"id": "C42", "title": "Particle/cell transfer conserves and interpolates", "statement": "Whenever a particle-to-cell call returns, the cell values add up to the sum of the values of the particles with positive size, on any mesh. On a uniform mesh whose first cell ends at coordinate 0, with all positive-size particles between 0 and the upper edge of the last cell, the call returns and every cell holds the sum over the particles of value times the fraction of the particle inside the cell; cell-to-particle returns the mean of the cells weighted by those fractions, which add up to one; a constant field is reproduced exactly by every particle with positive size on any mesh. Construction from increasing coordinates succeeds iff the mesh is uniform to one part in a million. Limits: particles of size zero or less deposit nothing and receive 0; the mesh origin is ignored; the left edge is truncated towards zero, so a particle inside the first ghost cell goes to the next cell; a particle outside the mesh is an out-of-bounds access in a release build; decreasing coordinates are always accepted.", "quantifier": "all particle positions, sizes, values, numbers of particles, grid spacings and numbers of cells", "why_tests_cant": "Universal over positions, sizes and meshes; tests place a few particles.", "anchors": ["spatialops/particles/ParticleOperators.h: ParticleToCell, CellToParticle"]}
{"id": "C43", "title": "Grid coordinates match cell locations", "statement": "set_coord on a field all of whose ghost cells are valid assigns to every cell, including ghost and extra boundary cells, the coordinate of that cell's location (index times spacing, plus half a spacing unless the field is staggered in that direction) and changes nothing else; neighbours along the direction differ by exactly one spacing and neighbours across it are equal; a read-only field is refused. On a field whose valid ghost cells have been reduced, every coordinate is off by one spacing per layer removed on the lower side.", "quantifier": "all grids, spacings, directions, field locations, patch sizes, ghost counts, boundary flags and histories of valid-ghost resets", "why_tests_cant": "Universal over sizes, locations and ghost counts; tests check a few grids with the default ghosts.", "anchors": ["spatialops/structured/Grid.cpp: Grid::set_coord, shift"]}
{"id": "C44", "title": "Field comparison functions", "statement": "field_equal with zero error is exact equality of all values (hence symmetric and reflexive); the absolute comparison holds iff every pair of values differs by at most |error| and is symmetric; the relative comparison holds iff every pair differs by at most |error| times (magnitude of the first value plus the absolute tolerance), and is not symmetric; the ulp comparison holds iff every pair is at most ulps doubles apart; each not-equal is the negation; the scalar versions agree; fields with different windows are rejected. The default absolute tolerance scales with the signed error, so a negative error can make unequal values compare equal.", "quantifier": "all fields and tolerances", "why_tests_cant": "Universal over values.", "anchors": ["spatialops/structured/FieldComparisons.h: field_equal, field_equal_abs, field_not_equal"]}
{"id": "C45", "title": "Point gather and scatter are inverse", "statement": "For fields covering their whole block, an operator built from a field of marks acts on exactly the non-zero cells in iteration order: FieldToPoint copies their values to the points, PointToField writes the points' values to them and to nothing else; for any list of distinct positions gathering after scattering returns the scattered values, and scattering a gather leaves the field unchanged. More points than positions is out-of-bounds access, and on a view of part of a block the positions do not denote the marked cells.", "quantifier": "all fields, marked sets", "why_tests_cant": "Universal.", "anchors": ["spatialops/pointfield/PointOperators.h: PointToField, FieldToPoint"]}
{"id": "C46", "title": "Waiting for the pool", "statement": "wait(n) returns only at a moment when at most n tasks are queued or running (n = 0: everything scheduled is over); a thread in wait(0) is never left asleep once the pool is idle. For n > 0 the second half fails, and it fails after clear() on a pool without active workers, and on a terminated pool with tasks left in the queue. After terminate_all_workers the pool comes to rest in bounded time with no worker left and nobody asleep in terminate_all_workers(true).", "quantifier": "all interleavings of any number of workers and clients", "why_tests_cant": "Schedules cannot be enumerated.", "anchors": ["spatialops/threadpool/threadpool/detail/pool_core.hpp: wait, clear, execute_task, worker_destructed"]}
{"id": "C47", "title": "Assigning a field from its own neighbours", "statement": "When the right-hand side of <<= reads the destination field itself at other cells, the (sequential) assignment behaves as if the assigned points were processed one after the other in memory order, each reading the values already written; it is not a simultaneous update.", "quantifier": "all expressions, fields and memory contents satisfying the ghost requirements", "why_tests_cant": "All expressions and aliasing patterns; tests show single cases.", "anchors": ["spatialops/NeboAssignment.h: operator <<=", "spatialops/NeboLhs.h: NeboField SeqWalk assign"]}
{"id": "C48", "title": "Setting boundary values directly", "statement": "Applying a BoundaryCondition to a field (one point or a list with the field's interior window) sets exactly the cells at those points, ghost points included, to the value and changes nothing else.", "quantifier": "all fields, point lists inside the field's block, values", "why_tests_cant": "Index arithmetic over all windows.", "anchors": ["spatialops/structured/FVStaggeredBCTools.h: BoundaryCondition", "spatialops/structured/MemoryWindow.h: flat_index"]}
{"id": "C49", "title": "Element access denotes the field's own elements", "statement": "f(i,j,k) denotes the element with these indices counted in the field's own window, that is the value at that place in iteration order, also on a view of part of a block; writing through it changes exactly that element; f[i] on a field covering its block is the i-th value in iteration order; writing access to a read-only field is refused. In a debug build every access the assertions let through is right, and on a window starting at the block's origin they let through exactly the field's elements, but on every other view they reject the field's first element.", "quantifier": "all windows, indices, values and memory contents", "why_tests_cant": "Universal over windows and indices; tests use a few windows.", "anchors": ["spatialops/structured/SpatialField.h: SpatialField::operator(), SpatialField::operator[]"]}
{"id": "C50", "title": "Copying and resetting whole fields", "statement": "f = other leaves both fields with other's values and changes nothing but f's block, of which every element is copied, also outside f's window; it is refused when f is read-only or the windows differ, and does nothing when both share storage. reset_values(array) gives the field the array's values in iteration order, reset_values() sets all its values to zero, and neither changes anything outside the field's window; read-only fields are refused.", "quantifier": "all fields, windows, arrays and memory contents", "why_tests_cant": "Universal over windows and values.", "anchors": ["spatialops/structured/SpatialField.h: SpatialField::operator=, SpatialField::reset_values"]}
{"id": "C51", "title": "Interior iteration on views", "statement": "However a field object was reached from a freshly built field by taking window views, resetting valid ghosts, setting partition counts and copying, interior iteration is refused exactly when one of the windows taken misses a cell of the original field's interior; otherwise it visits the original field's interior cells, each once and in x-fastest order, and they all belong to the view.", "quantifier": "all fields with a non-empty interior, all histories of views", "why_tests_cant": "Universal over windows and unbounded histories of views.", "anchors": ["spatialops/structured/SpatialField.h: SpatialField::SpatialField(const MemoryWindow&, const SpatialField&), SpatialField::interior_begin, SpatialField::interior_end"]}
{"id": "C52", "title": "Consumer copies agree with the field", "statement": "After any sequence of calls on one field object, reading it in any memory where it is available (where it lives, or any place added with add_consumer since the last remove_consumers) gives the values written last, and reads elsewhere throw; while consumers exist, writes are refused; with CUDA, removing the consumers frees the copies and makes the field writable again. For any set of fields and shallow copies, no block is returned twice and all blocks are returned when the objects are gone. Not true: a shallow copy made earlier can still write (the consumer is then stale), a shallow copy made later keeps a pointer to freed consumer memory, without CUDA a failed add_consumer makes the field read-only for ever, consumer memory for any GPU is allocated on GPU 0, and has_consumers looks only at GPU 0.", "quantifier": "all homes, storage modes, call sequences on one object; all histories of objects, copies and calls", "why_tests_cant": "Stale data depends on the interleaving of copies, additions, removals and writes; tests on a machine without a GPU cannot reach these paths at all", "anchors": ["spatialops/structured/SpatialField.h: add_consumer, find_consumer, has_consumers, remove_consumers, field_values, SpatialField (copy), ~SpatialField", "spatialops/structured/MemoryPool.cpp: Pool::get, Pool::put"]}
{"id": "C53", "title": "Futures deliver the task's result", "statement": "For every interleaving of one task with any number of threads calling ready, is_cancelled, wait, get, timed_wait and cancel: the function is called at most once; get returns the value the function returned, the same for all; once a call says the value is there, ready never says otherwise and all calls return; if cancel succeeds before a worker takes the task the function is not called, and if before the function returns the value never becomes available; is_cancelled is true exactly after a successful cancel; the uninitialised flag is never read; and at the end threads stay asleep only in waiting calls, and only if there was no function, it threw, the task was cleared from the pool or the future was cancelled. Not true: that cancel or an exception releases waiting threads; that after a successful cancel no value comes or the function is not called; that timed_wait answers true once ready has.", "quantifier": "all interleavings, numbers of threads and call sequences, results, exceptions and clear()", "why_tests_cant": "The races lie between unlocked reads and writes of the flags; tests see only a few schedules", "anchors": ["spatialops/threadpool/threadpool/future.hpp: future, schedule", "spatialops/threadpool/threadpool/detail/future.hpp: future_impl, future_impl_task_func"]}
{"id": "C54", "title": "Scratch fields match the field they are modelled after", "statement": "SpatialFieldStore::get<FieldT>(f) for a field f built on a patch returns what one would build for FieldT on that patch (same ghost counts and boundaries, window with FieldT's own extra boundary cells), in a block handed out to nobody else and large enough, for every pair of field types. Of the same type as any view f it is a contiguous writable field of f's extent. On a patch with more than one cell in each direction a field has as many points as the patch has cells, and one more in a direction with a boundary if its type is a volume or (normal to that direction) face type whose points lie half a cell below the cell centres. Not true: in a direction with one cell and a boundary, types with different extra cells give a field with zero or two cells instead of one; modelled after a field with reduced valid ghosts the interior is too small by the removed layers.", "quantifier": "all pairs of field types, patches, ghost counts, boundary flags, views and pool histories", "why_tests_cant": "Universal over sizes, type pairs and histories", "anchors": ["spatialops/structured/SpatialFieldStore.h: SpatialFieldStore::get, SpatialFieldStore::get_from_window", "spatialops/structured/FVStaggeredLocationTypes.h", "spatialops/structured/BoundaryCellInfo.h: build"]}
{"id": "C55", "title": "Analytic functions fill fields with the function and its derivatives", "statement": "Given a coordinate field, LinearFunction1D, SinFunction, GaussianFunction and HyperTanFunction set every cell of the destination at which the coordinates are valid, ghost cells included, to the documented function (m x + b, a sin(b x) + c, y0 + a exp(-(x-x0)^2/(2 sigma^2)), A/4 (1+tanh((x-L1)/w)) (1-tanh((x-L2)/w))) of the coordinate there, and change nothing else. dx and d2x of the linear and the sine function, and d2x of the Gaussian, do the same with the first and second derivative of that function. dx of the Gaussian does not: for every choice of parameters with sigma nonzero there is a coordinate at which it stores a wrong value. dx and d2x of the hyperbolic tangent leave the field as it was.", "quantifier": "All parameters, patch sizes, ghost configurations, coordinate values and memory contents, with double replaced by the real numbers", "why_tests_cant": "A claim about derivatives at every real coordinate and all real parameters", "anchors": ["spatialops/FieldFunctions.h: LinearFunction1D, SinFunction, GaussianFunction, HyperTanFunction"]}
{"id": "C56", "title": "Thread counts are what was asked for", "statement": "Calls of set_hard_thread_count, get_hard_thread_count, set_soft_thread_count and get_soft_thread_count never fail for lack of a pool, whichever thread comes first. set_hard_thread_count(n) returns n, or 1 if n<1; get_hard_thread_count returns the number of workers that have not ended. While nobody asks for fewer threads, no task throws and threads can be created, it equals the number asked for last at every moment; after shrinking it is at most that number once all workers are idle. set_soft_thread_count(n) returns n, and get_soft_thread_count then returns max(1,n) or the number of workers at that call, whichever is less, until the next such call. It is false that asking for a number of threads gives that number: shrinking to one can leave none, and then asking for one again does nothing and no task is ever run; a task that throws while the pool shrinks brings the old number back; the soft count may stay above the hard one, or below the value that was returned.", "quantifier": "All interleavings of calls from any number of threads with all steps of the pool's workers, all NTHREADS, all arguments", "why_tests_cant": "Depends on the schedule of workers and callers; unboundedly many histories", "anchors": ["spatialops/ThreadPool.cpp: ThreadPoolResourceManager, ThreadPoolFIFO, ThreadPool", "spatialops/SpatialOpsTools.h: set_hard_thread_count, get_hard_thread_count, set_soft_thread_count, get_soft_thread_count"]}
{"id": "C57", "title": "Assigning on a GPU gives what assigning on the CPU gives", "statement": "For a field whose device is a CUDA GPU, f <<= e runs there if every field, mask and single value of e has a copy there, and otherwise throws; f on the CPU likewise. Under every interleaving of the GPU's threads the kernel finishes without failure or data race, every point the operands determine gets the value of e at that point, nothing else changes, and memory is what the CPU assignment leaves; the same for interior_assign. This assumes that e does not read f as a single value and, for f <<= e, that the points lie within the valid ghosts of f. In general the columns assigned are only as many as f's valid window holds in x and y, rounded up to multiples of 16: it is false that every point is assigned when the valid ghosts were reduced before. Nothing is launched for a read-only field.", "quantifier": "All patch sizes, ghosts, boundary flags, field contents, expressions with stencils, conditions and masks; all interleavings of all threads of the kernel", "why_tests_cant": "Every thread interleaving on every size; no GPU test compares all of them, and missed columns only appear at sizes just below multiples of 16", "anchors": ["spatialops/NeboLhs.h: NeboField, gpu_assign, gpu_assign_kernel", "spatialops/NeboRhs.h: gpu_init, start, next, eval", "spatialops/NeboMask.h", "spatialops/NeboStencils.h"]}
{"id": "C58", "title": "No integer overflow in fields of fewer than 2^31 points", "statement": "For a memory window that fits its allocation of at most 2^31-1 points, computing with the machine's 32-bit int and 64-bit size_t gives what unbounded integers give, with no overflow on the way: glob_npts, local_npts, flat_index, flat/ijk conversion, splitting, the bytes requested by a field, the positions and number of blocks of masks, and begin(), end(), every sequence of ++, --, +=, -= of iterators that stays between begin() and end(), their differences and the loop over all cells. The bound is exact: for 2^31 points or more glob_npts() is undefined behaviour, although its result is a 64-bit size_t. A whole assignment (<<= or interior_assign: ghost computations, shifted operands, mask iterators, the loop) has no overflow either and stores the values of the expression (as in C11), if no field or mask in it has more than 2^28 points. For mask iterators some bound below 2^31-1 is needed: the step from the last cell of a small view to end() overflows for a mask of 32767 x 32767 x 2 points.", "quantifier": "All windows whose allocation has 1 to 2^31-1 points; all cells, splits and sequences of iterator operations; all assignments whose fields and masks have at most 2^28 points", "why_tests_cant": "Overflow shows at sizes of gigabytes, for some aspect ratios only; tests use small patches", "anchors": ["spatialops/structured/MemoryWindow.h: glob_npts, local_npts, flat_index, ijk_index_from_local, FieldIterator, ConstFieldIterator", "spatialops/structured/MemoryWindow.cpp: refine", "spatialops/structured/IntVec.h", "spatialops/structured/BitField.h: find_position, NEBO_ROUND_TO_INT", "spatialops/structured/SpatialField.h: allocatedBytes_, end"]}
{"id": "C59", "title": "Threads that share the thread pool get the results of their own assignments", "statement": "Several threads make assignments (<<= or interior_assign, on the pool or not), each one after the other, while they share one thread pool; some may themselves be tasks of that pool. If no thread assigns memory that another uses, then under every interleaving of threads, jobs and workers, whatever other calls the pool receives: nothing fails, no two accesses race, a semaphore exists as long as a job may post to it, each thread sees between two assignments exactly the results of its own assignments so far, memory nobody assigns is unchanged, and when all have returned memory is what running the threads one after the other gives. Left alone the system comes to rest; if the pool is not shrunk or cleared and fewer of the threads run on it than it has workers and lets run, then every assignment has returned by then. Without the last condition a deadlock is possible: an assignment made by a pool's only worker never returns.", "quantifier": "All numbers of threads, all lists of valid assignments, all pools and their histories, all interleavings", "why_tests_cant": "Needs particular interleavings of several callers, workers and jobs; a wrong result or deadlock depends on timing", "anchors": ["spatialops/NeboLhs.h: thread_parallel_assign, thread_parallel_assign_kernel, cpu_assign", "spatialops/threadpool/threadpool/detail/pool_core.hpp: schedule, execute_task", "spatialops/Semaphore.h", "spatialops/SpatialOpsTools.h: is_thread_parallel", "spatialops/ThreadPool.h: ThreadPoolFIFO"]}
{"id": "C60", "title": "Scratch fields of different threads never share memory", "statement": "Several threads obtain scratch fields from the field store, copy the handles and drop them, each handle and its copies staying in one thread. Under every interleaving of their memory accesses, whatever was done with the pool before: nothing is undefined, the memory of a scratch field is used by no other handle except its copies in the same thread and by nobody who held memory before, it is large enough, only one thread at a time is inside the pool, the reference count a thread reads between two operations is the number of its copies, and the pool is always one that the same calls made one after the other could leave. There is no deadlock, every run ends, each thread ends with the handles its program leaves undropped, and when all handles have been dropped everything has been given back. This is false as soon as one thread builds ordinary fields at the same time (their constructor and destructor use the pool without the mutex): two fields may get the same memory. It is also false if copies of one handle are dropped by two threads: the count is not atomic, so the memory may leak, be given back twice and then be handed out twice, or the count be used after it was deleted.", "quantifier": "All numbers of threads, all programs of such operations, all earlier histories of the pool, all interleavings of single memory accesses", "why_tests_cant": "A race shows only under particular interleavings of a few instructions", "anchors": ["spatialops/structured/SpatialFieldStore.h: get_from_window, restore_field, SpatFldPtr, detach, get_mutex", "spatialops/structured/MemoryPool.cpp: Pool::get, Pool::put", "spatialops/structured/SpatialField.h: SpatialField, ~SpatialField"]}
{"id": "C61", "title": "Staggered operators in double precision", "statement": "The registered operators, computed with IEEE doubles rounded to nearest after every operation, on values of magnitude 0 or at least 2^-1020. Interpolation never overflows and stays between the least and greatest value it reads, reproduces a constant exactly (also an infinity or NaN), gives a double nearest to the average of two cells, and is within 2^-51 M of the average of four cells if these are at most M in magnitude. A gradient or divergence of a constant is exactly +0, and it never has the opposite sign of the difference, as long as the products value/dx do not overflow; if these also are 0 or at least 2^-1020 in magnitude, dx is at most 2^1020 and the result is finite, its error is at most 2^-51 (|x|+|y|)/dx for the two values x, y. The box filter does not overflow for values up to M, 2^-1000 <= M <= 2^1018, and is within 2^-48 M of the mean. A NaN in a cell that is read makes the result NaN. Applying an operator to a field in memory stores exactly these values. Without the conditions this is false: the smallest double everywhere interpolates to 0; the box filter of the constant 1/3 is below 1/3; a gradient of a large constant can be NaN; and if the compiler fuses a product with the sum, the gradient of a constant can be non-zero.", "quantifier": "All 131 registered operators, all numbers of cells and domain lengths, all operand values", "why_tests_cant": "Rounding errors show only for particular bit patterns; there are 2^64 values per cell", "anchors": ["spatialops/structured/stencil/StencilBuilder.cpp: build_stencils", "spatialops/NeboStencilBuilder.h: apply_to_field, operator()", "spatialops/NeboStencils.h: eval"]}
{"id": "C62", "title": "Reductions of fields of doubles", "statement": "Over IEEE doubles, with or without the ghost cells. The sum of N cells is within N 2^-52 times the sum of the magnitudes of the exact sum (N <= 2^52, magnitudes adding up to at most 2^1022); it is exact when the cells hold integers whose magnitudes add up to at most 2^53; and it is NaN if any cell is. The norm is within (N+2) 2^-52 of the exact norm, relatively, if N <= 2^51, every cell is 0 or between 2^-500 and 2^500 in magnitude and the squares add up to at most 2^1020, for every std::pow(x, 2.0) accurate to one unit in the last place; it is NaN if any cell is. If the first cell in memory order is not NaN, the maximum and minimum are values of cells and bound every cell that is not NaN; if the first cell is NaN, both are NaN. So a maximum does not report a NaN elsewhere, and one NaN in the first cell hides all other cells; and the norm of a field that is 2^-600 everywhere is 0, of one that is 2^600 everywhere infinite.", "quantifier": "All patches, expressions, memory contents and cells, both with and without ghost cells", "why_tests_cant": "Rounding errors and NaN positions: 2^64 values per cell, any number of cells", "anchors": ["spatialops/NeboReductions.h: nebo_sum, nebo_max, nebo_min, nebo_norm and the _interior variants", "spatialops/NeboOperators.h: PowFcn"]}
{"id": "C63", "title": "Destroying a thread pool", "statement": "When the last handle of a thread pool is destroyed under a policy that waits (wait_for_all_tasks, which all pools of the library use, or wait_for_active_tasks), then once the destructor has returned, every task scheduled before it began has returned, thrown or been removed by clear(), there is no worker thread, and there never is one again, whatever the workers, tasks and other threads did meanwhile and do later. Under wait_for_all_tasks nothing is removed unless another thread calls clear(): all these tasks have run. Under wait_for_active_tasks and immediately no task starts after the destructor's clear(), if none is scheduled. If all running tasks come to an end and no other thread calls the pool, the destructor returns on every schedule; under wait_for_all_tasks this needs at least one worker and a limit of active workers of at least one, a pool never shrunk, and a replacement for the worker of a task that throws: the destructor of a pool that has a queued task and no worker never returns. A task that another thread schedules during the destruction may be left in the queue for ever, though schedule() returned true.", "quantifier": "All pools (fifo, lifo, prio), histories of the pool before, shutdown policies, numbers of workers and tasks, and interleavings of the destructor with workers and other threads", "why_tests_cant": "Interleavings of a destructor with any number of workers, tasks and callers; absence of deadlock", "anchors": ["spatialops/threadpool/threadpool/shutdown_policies.hpp: wait_for_all_tasks, wait_for_active_tasks, immediately", "spatialops/threadpool/threadpool/pool.hpp: thread_pool", "spatialops/threadpool/threadpool/detail/pool_core.hpp: shutdown, wait, clear, terminate_all_workers, worker_destructed"]}
{"id": "C64", "title": "Patches that are one cell thick", "statement": "On a patch with a single cell in some directions, fields may be built with the ghost counts used everywhere else: they store no ghost layer in those directions, and assignments, assignments split among threads, folds and reductions behave as if the fields had been built with no ghosts there. All fields and masks of an expression must declare the same ghost counts in those directions, have no extra cells there, keep these counts when valid ghosts are reset, and no stencil may shift across the plane. interior_assign and the interior reductions are not usable on such fields: they leave interior cells unassigned and overwrite ghost cells, or access memory outside the blocks. A stencil across the plane may make an assignment return normally without assigning anything.", "quantifier": "All patches, thin directions, ghost counts declared in them (below GHOST_MAX), boundary flags, histories of valid-ghost resets, expressions with masks, conditions and stencils, memory contents, partition counts and schedules", "why_tests_cant": "All ghost counts, patch shapes, expressions and schedules", "anchors": ["spatialops/structured/FVTools.h: get_dim_with_ghost", "spatialops/structured/SpatialField.h: SpatialField, reset_valid_ghosts", "spatialops/NeboBasic.h: calculate_valid_ghost, resize_ghost", "spatialops/NeboLhs.h: NeboField", "spatialops/NeboAssignment.h: operator<<=, interior_assign", "test/heatEqn/main.cpp: main"]}
{"id": "C65", "title": "Assembling a diffusion equation from operators and scratch fields", "statement": "The heat equation program (gradient, interpolant, divergence operators, fields from the scratch store, one assignment after another), on a patch with cell fields, face fields and ghost counts as that program builds them, always ends, stays inside its blocks and changes only the right-hand side, the fluxes and the scratch fields. Whatever those held before, and however often the loop runs, every face flux is minus the mean conductivity times the temperature difference over the spacing and every cell of the right-hand side is the net inflow over rhoCp, over the directions with more than one cell. In exact arithmetic the heat gained by the patch equals what crosses its sides, which is nothing when the ghost cells repeat the outermost cells; in doubles it may differ, but for lengths, temperatures, conductivities and heat capacities of moderate magnitude (0 or 2^-100 to 2^100) nothing overflows, a flux is within 2^-49 M/dx and the right-hand side within 2^-47 M/rhoCp times the sum of 1/dx^2 of its exact value (M: largest temperature times largest conductivity around it), and the heat created in an insulated patch is at most that times rhoCp per cell. With non-negative conductivity and positive rhoCp a cell at least as hot as its neighbours does not warm up and one at most as hot does not cool down, in exact arithmetic and in doubles where the result is finite. For quadratic temperature and linear conductivity the right-hand side is exact.", "quantifier": "All patches (thin directions included), domain lengths, boundary flags, ghost counts of at least one in every wide direction, memory contents, scratch blocks and numbers of passes", "why_tests_cant": "All patches, contents, scratch blocks and pass counts; conservation is about all temperatures at once", "anchors": ["test/heatEqn/tools.h: calculate_flux, calculate_rhs", "test/heatEqn/main.cpp: main", "spatialops/structured/stencil/StencilBuilder.cpp: build_stencils", "spatialops/structured/SpatialFieldStore.h: get", "spatialops/NeboAssignment.h: operator<<="]}
{"id": "C66", "title": "Comparing fields of doubles", "statement": "On fields of doubles, field_equal and field_equal_abs with tolerance zero hold iff all pairs are equal as C++ compares doubles (NaN equals nothing, 0 equals -0). field_equal_abs with another finite tolerance holds for fields whose finite values differ by at most the tolerance and only for fields whose finite values differ by at most the tolerance times 1 + 2^-52; the relative comparison does the same up to a factor of 1 +- 2^-50 as long as nothing overflows and the tolerance is not subnormal. The absolute comparison is symmetric for all doubles; with a non-zero tolerance every field equals itself. Comparing with a number is comparing with a constant field. Not noticed: NaN in either field (with a non-zero tolerance), an infinity with itself, an infinity in the first field of a relative comparison, everything when the tolerance is NaN, and everything in the default relative comparison when the norm of the first field overflows.", "quantifier": "All fields, double values (NaN, infinities, signed zeros and subnormals included) and tolerances", "why_tests_cant": "All pairs of doubles and tolerances; tests use a few ordinary values", "anchors": ["spatialops/structured/FieldComparisons.h: field_equal, field_not_equal, field_equal_abs, field_not_equal_abs"]}
{"id": "C67", "title": "Comparing fields of doubles by units in the last place", "statement": "field_equal_ulp on fields of doubles with equal windows looks at the pairs of values in order and stops at the first pair that is not within the given number of doubles: the answer is then false, or an exception if one of the two is infinite or NaN; without such a pair the answer is true. The distance is the number of doubles passed from one value to the other, which is unique and does not depend on the order, across zero and across powers of two included; zero ulps means the same number (0 and -0 are the same), one ulp means that no double lies between. The comparison is symmetric; the negated function negates, and comparing with a number is comparing with a constant field. Fields with different windows: exception. A field holding a NaN is not equal to itself (exception), and whether a NaN is noticed depends on the order of the cells.", "quantifier": "All fields, double values (NaN, infinities, signed zeros and subnormals included) and unsigned distances", "why_tests_cant": "All pairs among 2^64 doubles and all distances; tests use a few neighbours of a few values", "anchors": ["spatialops/structured/FieldComparisons.h: field_equal_ulp, field_not_equal_ulp"]}
{"id": "C68", "title": "Shared pointers to GPU memory", "statement": "Over all legal histories of getting, copying, assigning, detaching and destroying CUDASharedPointers (a raw block is given to one pointer only; a pointer that was never set is assigned only to such pointers) no block is freed twice and no dead memory is used: a device block is allocated exactly as long as some pointer refers to it; get_refcount is the number of pointers that do; the device of a block from get_shared_pointer is the one asked for; assigning a pointer to itself or to one it shares with changes nothing. Limits: every pointer that goes out of scope leaks two ints on the host heap; assigning from a pointer that was never set, or asking it for its count or device, dereferences NULL; a raw block is recorded with the thread's current device, which freeing the pointer's previous block has just changed; the first device number that does not exist is a range error from get_raw_pointer but not from get_shared_pointer.", "quantifier": "All legal histories of pointer operations, numbers of devices and pointers, and addresses returned by the allocators", "why_tests_cant": "All interleavings of copies, assignments and destructions; tests follow one", "anchors": ["spatialops/structured/ExternalAllocators.h: CUDASharedPointer, CUDADeviceInterface", "spatialops/structured/CudaMemoryAllocator.cu: CUDASharedPointer, CudaMalloc, CudaFree, get_shared_pointer, get_raw_pointer"]}
{"id": "C69", "title": "Particle operators in double precision", "statement": "With IEEE double arithmetic as it runs, on a mesh of N cells of width dx (total length B = N dx, ordinary magnitudes) whose coordinates are those of an even mesh starting just below 0 up to delta, and for particles inside it that are at least 4(delta + 2^-50 B) in size: ParticleToCell ends, writes only the result, and each cell receives each particle's value times the part of the particle in the cell up to 4(delta + 2^-50 B)/size plus 2^-51 per particle, relative to the values; the cells add up to the values of the particles up to a few rounding errors and 2^-51 B/size, whatever delta. CellToParticle likewise yields the mean weighted with the same parts, and reproduces a constant. For any doubles the calls stay inside their fields if each particle's first index is representable and its right end is reached inside the mesh. The constructor accepts exactly the coordinates whose spacings pass its test; if they are numbers, delta is at most the distance of the first from -dx/2 plus N 2^-19 dx. Limits: conservation is not exact, particles smaller than the spacing of doubles vanish, accepted meshes can give a cell a negative part, NaN coordinates are accepted, and a NaN position is undefined behaviour.", "quantifier": "All meshes, numbers of particles, positions, sizes and values (any doubles for safety, ordinary magnitudes for the error bounds)", "why_tests_cant": "Rounding decides the first cell, the loop's end and every part, and goes wrong at cell edges that tests with integers never reach", "anchors": ["spatialops/particles/ParticleOperators.h: ParticleToCell, CellToParticle"]}
{"id": "C70", "title": "Grid coordinates in double precision", "statement": "With IEEE double arithmetic as it runs, on a domain of length between 2^-300 and 2^300 with fewer than 2^31 points, Grid::set_coord ends, writes only the given field, and gives every cell of it, ghost cells included, the position of its centre or face up to 2^-51 of the distance from the origin plus one cell width; coordinates strictly increase along their direction and are the same double across it. Fields of different locations agree: what lies lower gets the smaller coordinate, the same place the same double, the lower boundary exactly 0 and the points next to it exactly plus and minus half the spacing. For doubles of any magnitude the value is spacing * index + shift * spacing in machine arithmetic. The x coordinates of the centres of a line of cells with one ghost cell below 0 form a mesh the particle operators accept, with spacing() as their dx and delta at most 2^-51 of its length. Limits: the last face need not lie at the length of the domain, neighbouring coordinates need not differ by exactly spacing(), with 0 points the coordinates are NaN or infinite, and on domains of subnormal length they can all be 0.", "quantifier": "All grids, fields (with all ghost cells valid), locations, directions and cells whose indices fit in an int; any doubles for the formula, ordinary lengths for the bounds", "why_tests_cant": "Rounding of the spacing is multiplied by the index, so that the error and the order of coordinates depend on the number of cells and its divisors", "anchors": ["spatialops/structured/Grid.cpp: Grid, spacing, set_coord, shift", "spatialops/particles/ParticleOperators.h: ParticleToCell"]}
{"id": "C71", "title": "Lagrange interpolation in double precision", "statement": "With IEEE double arithmetic as it runs, interpolation and differentiation of order n >= 1 on a strictly increasing table of more than n finite doubles read only entries of the table, for any x including NaN and infinities: the same n+1 consecutive ones in both calls, around x when x is inside, else the first or last. If distances between the points used and x are of ordinary magnitude, the value is finite and is that of the exact interpolant through those points up to 2^-48 n times the sum of the magnitudes of its terms, and the derivative likewise up to 2^-47 n; samples of a polynomial of degree at most n give that polynomial and its derivative within these bounds. At a point of the table the value stored there is returned without any error. Limits: not even constants are reproduced exactly between the points, tables spread over too many magnitudes give NaN even at a point of the table, and an order of 0 or not below the number of entries is undefined.", "quantifier": "All tables, values, orders and arguments; for the bounds, distances a..b with (2b/a)^n and powers of a and b in range, and values 0 or between 2^-100 and 2^100", "why_tests_cant": "The error depends on the spacing of the whole window, and divisions, products and the search each round or compare differently for every table", "anchors": ["spatialops/structured/onedim/LagrangePoly.cpp: LagrangeCoefficients, get_bounds, get_interp_coefs_indices, get_derivative_coefs_indices, LagrangeInterpolant::value, LagrangeDerivative::value"]}
{"id": "C72", "title": "Boundary conditions in double precision", "statement": "With IEEE double arithmetic as it runs, applying a boundary condition (Nebo form with a mask and a scalar, field or expression, or BoundaryConditionOp on a point or a list) changes only the cells on the chosen side of the given points, and each of them holds the rounded solution (gamma - src*srcCoef)/destCoef. For values 0 or of ordinary magnitude and a nonzero coefficient the operator applied afterwards gives gamma up to 2^-50 times (|gamma| + |srcCoef*src|); through the interpolant up to 2^-51 |gamma| + 2^-53 |src|, and exactly when gamma or src is 0 or src is between once and four times gamma. A zero-flux condition through the gradient or divergence is met exactly when the coefficient is a power of two or the rounded product of coefficient and inner value is not one. Limits: otherwise neither is met exactly, gamma can be lost entirely next to a much larger value, and a zero coefficient gives NaN unnoticed.", "quantifier": "All fields, masks, points, sides, coefficients and values (the bounds: values 0 or between 2^-200 and 2^200)", "why_tests_cant": "Four roundings per cell depend on the bits of every value, and the exceptional cases are single values out of 2^64", "anchors": ["spatialops/structured/stencil/FVStaggeredBCOp.h: BoundaryConditionOp", "spatialops/NeboStencilBuilder.h: NeboBoundaryConditionBuilder", "spatialops/structured/stencil/StencilBuilder.cpp: build_stencils"]}
{"id": "C73", "title": "Files written by write_matlab", "statement": "write_matlab(field, prefix, includeGhost) leaves the field unchanged and writes a file load_<prefix>.m that defines a function load_<prefix>() returning one literal per value, in memory order (x fastest): all cells of the window with ghosts, or exactly the interior ones. Infinities, NaN and signed zeros appear as such; any other number appears with its sign, 15 significant digits and a relative error of at most 5e-15, and a number that is the double nearest to a decimal of 15 digits appears as exactly that decimal. On a view that cuts into the interior the call without ghosts throws. Limits: distinct doubles can give the same file, and a field without interior cells is read past its end.", "quantifier": "All fields with at least one cell, all contents including subnormals, infinities and NaN, all prefixes, both settings of includeGhost", "why_tests_cant": "Every one of 2^64 values must be formatted right, and the text must be readable for any number of cells", "anchors": ["spatialops/WriteMatlab.h: write_matlab"]}
{"id": "C74", "title": "Looped tasks keep their interval", "statement": "A looped_task_func with an interval of i milliseconds (any unsigned int) calls its function until it returns false or throws: at least i ms pass between the start and the first call and between each return and the next call, and no longer break is imposed; a finished task has called the function once more than it returned true; nothing is called after false and nothing follows an exception. With i = 0 it does not sleep but yields between calls. An empty function is never called. The 32-bit arithmetic of the break and of the wake-up time never overflows.", "quantifier": "All intervals, clock readings, sequences of results, schedules and lengths of execution", "why_tests_cant": "Overflow shows only for some intervals at some clock readings, and the loop is unbounded", "anchors": ["spatialops/threadpool/threadpool/task_adaptors.hpp: looped_task_func"]}
{"id": "C75", "title": "Analytic functions in double precision stay close, symmetric and bounded", "statement": "In IEEE-754 double precision, for coordinates and parameters that are zero or between 2^-200 and 2^200 in magnitude, and a C library whose sin, cos, exp and tanh stay in range with an absolute error of at most eps: the field functions write finite values within stated bounds of the documented functions (LinearFunction1D, SinFunction with both derivatives, GaussianFunction, HyperTanFunction). The line is monotone as its slope says and exact on integers up to 2^53, its derivatives are exact; the Gaussian is exactly symmetric about its mean, never rises away from it, never crosses its base and peaks at the rounded a + yo; its second derivative is exactly symmetric too and, within 2^200 standard deviations of the mean, within a stated bound of the true one; HyperTanFunction never exceeds its amplitude and keeps its sign.", "quantifier": "All parameters, coordinates, fields, patches and libraries meeting the stated bounds", "why_tests_cant": "Rounding errors depend on every bit of every parameter; symmetry and monotonicity are claims about all pairs of coordinates", "anchors": ["spatialops/FieldFunctions.h: LinearFunction1D, SinFunction, GaussianFunction, HyperTanFunction"]}
{"id": "C76", "title": "The merge sort example sorts in every schedule, but as written never starts", "statement": "The example program (rounds of merge jobs scheduled on a pool, wait() after each round) for an array of 2^e elements: in no interleaving of main, workers and jobs does a merge start out of range, on unsorted halves, or overlapping another; when main leaves its loop the array is sorted stably and nothing else was written. If the pool was given at least one thread when it was made and is not shrunk, main does leave its loop (every run without spurious wake-ups and unfinished merges is finite, and ends there). As written - pool tp; then resize(5) - it never gets past the first wait(): resize does not raise the number of workers allowed to be active, which is 0.", "quantifier": "All exponents, initial arrays, element types, numbers of threads, thread creation failures and interleavings", "why_tests_cant": "Races and lost wake-ups depend on the schedule; that the program hangs for ever is a claim about all runs; sortedness must hold for all arrays", "anchors": ["spatialops/threadpool/example/mergesort/mergesort.cpp: main, merge_job", "spatialops/threadpool/threadpool/detail/pool_core.hpp: resize, resize_active, execute_task, wait", "spatialops/threadpool/threadpool/size_policies.hpp: dynamic_resize_policy"]}
{"id": "C77", "title": "Operators and functions on fields compute the formula as written", "statement": "For every formula built from numbers, fields, single-value fields and expressions with + - * / (binary and unary), pow, max, min, sin, cos, tan, exp, tanh, abs, sqrt, log, log10, erf, erfc, the comparisons, &&, || and !: the program compiles exactly if no operator has plain numbers only and no comparison of single values alone is an operand of &&, || or !; the expression it builds has at every grid point the value of the formula there, operands in the order written; f <<= formula and interior_assign store these values (conditions and region as in C11, C14); a single-value field takes formulas without fields only. No call is ambiguous, and every node computes the same in assignments, GPU kernels and reductions. max(a,b) is a where a > b, else b (min likewise), so over doubles max(NaN,x) = x but max(x,NaN) = NaN.", "quantifier": "All formulas of any depth, all mixtures of argument types for each of the 378 overloads, all element types and element functions, all fields, masks and grid points", "why_tests_cant": "The overloads are 378 generated functions and formulas nest without bound; a swapped operand shows only for asymmetric values in that one overload", "anchors": ["spatialops/NeboOperators.h: all overloads and node types", "spatialops/NeboOperators.h.fmr: build-binary-interface, build-unary-interface", "spatialops/NeboAssignment.h: operator<<=, interior_assign"]}
{"id": "C78", "title": "Masks, their copies and their copies on GPUs show the points they were made from", "statement": "In a program that copies masks, sends them to GPUs or back to the CPU (add_consumer), takes them back (remove_consumers) and destroys them in any order, where a mask is destroyed or takes its consumers back only when no copy of it is left and no mask made on a GPU is destroyed: no call is undefined; every bit read, through operator() or through mask_values on any device the mask is available on, says whether the point is among those the mask (or the one it is a copy of) was made from, whatever other masks were made, destroyed or moved in between; find_consumer and has_consumers reply as specified (has_consumers looks at GPU 0 only); and when all masks are gone the pool has every block back once, in the queue of its own memory. Limits, each with its witness: a copy that outlives its original shows the points of the next mask of that size; consumers removed under a copy likewise; destroying a mask made on a GPU is undefined (its block goes to the CPU queue); making one with points there throws and loses the block.", "quantifier": "All histories of any length over any number of masks, windows, point lists and devices, with and without CUDA, all contents of uninitialised memory", "why_tests_cant": "Stale pointers show only when the pool hands the block out again, which depends on the whole history of allocations", "anchors": ["spatialops/structured/BitField.h: BitField, ~BitField, add_consumer, find_consumer, has_consumers, remove_consumers, mask_values, operator()", "spatialops/structured/SpatialMask.h: SpatialMask", "spatialops/structured/MemoryPool.cpp: Pool::get, Pool::put"]}
{"id": "C79", "title": "Waiting for the pool with a time limit", "statement": "A call wait(timestamp, threshold) on a thread pool that answers true was right at some moment while it was under way: no more than threshold tasks were queued or being run. It answers false only after the timestamp has been reached. Once that time is up the calling thread can always go on, whatever the pool and the other threads do, and it returns within three steps of its own. A call made when the condition already holds answers true, also with a timestamp in the past. While a call with threshold 0 sleeps some worker is active or some task queued, unless tasks were cleared with no worker active. The documented 'false otherwise' does not hold: the answer may be false although the pool was done well before the timestamp (tasks removed with clear) or has become done by the time the call returns.", "quantifier": "All histories of the pool with any number of workers, tasks and calling threads, all thresholds, timestamps and readings of the clock, all schedules", "why_tests_cant": "Which answer is given depends on where the time-out falls among the steps of the workers and of other threads; tests see a few schedules", "anchors": ["spatialops/threadpool/threadpool/detail/pool_core.hpp: pool_core::wait(xtime const&, size_t)", "spatialops/threadpool/threadpool/pool.hpp: thread_pool::wait"]}
{"id": "C80", "title": "Fields on CPU and GPU can be read, written and assigned as arrays, whichever device they live on", "statement": "For any number of fields made on the CPU or on GPUs and any history of calls on them (consumers added and removed, whole arrays read and written through field_values, elements read and written with iterators, interior iterators, f(i,j,k) and f[i], fields assigned to one another): every const read on the CPU that is not refused gives the elements the field has now, in iteration order, even if it lives on a GPU, and it is refused exactly if the field neither lives on the CPU nor has a copy there; element writes are refused exactly if the field lives on a GPU or has consumers, and otherwise change the elements named and no others; f = g is refused exactly if f has consumers or the windows differ, and otherwise works between all pairs of devices, gives f the values of g and changes no other field. A new field built from an array has the array's values in iteration order on CPU and GPU if its window is the whole block, and zeros without an array. Limits: with a smaller window the GPU constructor reads behind the array and gives the field other elements than on the CPU; *f.begin() on a read-only GPU field without CPU copy goes through a NULL pointer where f.end() throws.", "quantifier": "All histories of any length over any number of fields (no shallow copies), all devices, windows inside their block, element types and values, with and without CUDA; all arrays and block contents for construction", "why_tests_cant": "Whether a CPU copy is stale, or a write reaches the wrong memory, depends on the whole history of consumers and assignments, and on every pair of devices", "anchors": ["spatialops/structured/SpatialField.h: begin, end, interior_begin, interior_end, operator(), operator[], operator=, reset_values, add_consumer, remove_consumers, field_values"]}
{"id": "C81", "title": "Raw memory on GPUs keeps its bytes, is accounted for, and its statistics are those of the current device", "statement": "For every program of allocations, releases, memsets, copies to, from and between devices and statistics calls in one thread, where no more bytes are named than the block has, with its device: no call is undefined; a copy from a block gives at every byte the value last written there since the block was allocated, whatever was done to other blocks and devices; a request for memory is granted only on an existing device with enough free memory, and refused only without the device or the memory or when CUDA declines; a refused call changes no block and no figure (it may change the current device); and when all blocks are released no memory is taken. Device numbers that do not exist are refused. After update_memory_statistics() every device number shows the figures of the device that was current at that moment: right with one device, but with several the figures for the others are wrong. Before the first update all figures are 0.", "quantifier": "All programs of any length, numbers of devices, memory sizes, blocks, bytes, uses of the memory by others and failures of cudaMalloc", "why_tests_cant": "Which device is current, what is free and what a byte holds depend on the whole history; the wrong figures need several devices", "anchors": ["spatialops/structured/CudaMemoryAllocator.cu: CUDADeviceInterface::get_raw_pointer, release, memset, memcpy_to, memcpy_from, memcpy_peer; CUDADeviceManager::update_memory_statistics, get_memory_statistics", "spatialops/structured/ExternalAllocators.h: CUDADeviceInterface, CUDAMemStats"]}
{"id": "C82", "title": "The memory pool when memory runs out: blocks stay sound, but counts and later requests suffer", "statement": "In every history of requests and returns of CPU and GPU memory, with failures of the system anywhere: a request for n elements is rounded up to the smallest size asked for before that holds n plus the padding (or to n plus the padding if there is none), gets an idle block of that size if there is one and otherwise a new block from the system, and fails only if the system does not have that much; a failed request hands out, takes back and loses no block. No block is handed out twice, CPU and GPU blocks are not mixed up, every block handed out can be put back, a request repeated after its block was put back succeeds without the system, and the destructor frees every idle block once. Without CUDA a request for GPU memory is refused. Limits: active() and total() count failed CPU requests for ever, so active() is too large; a size that was asked for and never given makes smaller requests fail that the system could serve; and with CUDA, after one request for pinned memory was met with ordinary memory, the destructor passes pinned memory to delete[] (otherwise each block is freed the way it must be).", "quantifier": "All histories of any length, sizes, orders of puts, CPU and GPU blocks, with and without CUDA, and every answer of the system at every request", "why_tests_cant": "Which requests fail, and what the pool looks like afterwards, depends on the whole history and on where memory runs out, which tests cannot arrange", "anchors": ["spatialops/structured/MemoryPool.cpp: Pool::get, put, active, ~Pool", "spatialops/structured/MemoryPool.h: Pool::total"]}
{"id": "C83", "title": "Single-value fields act as variables", "statement": "Single-value fields of one cell without ghosts behave as plain variables: for every program of assignments s <<= e between such fields with memory of their own (e made of constants, single-value fields, functions and cond), the values afterwards are those of the same program with plain variables, and no other memory changes. In an assignment to any field of a patch, a single-value field in the expression acts as the number it holds when the assignment begins, with any stencils, masks and conditions around it. *s.begin(), *s.interior_begin() and s(0,0,0) name this number, and iterating visits it alone. In debug builds the constructors refuse a single-value field exactly if all three extents are above 1 or all six ghost counts are above 0, so they accept fields that are no single value: several elements (an expression uses the first); ghosts, for which interior_assign is undefined; and a view of one element further on in a block, where s <<= 7 sets that element but expressions go on using the first element of the block.", "quantifier": "All programs of any length over any number of fields, all expressions, element types and functions; all windows and ghost counts for the check", "why_tests_cant": "The equivalence is about all programs and expressions; the accepted but broken fields need unusual windows", "anchors": ["spatialops/structured/SpatialField.h: SingleValueCheck, SpatialField constructors", "spatialops/NeboRhs.h: NeboConstSingleValueField", "spatialops/NeboAssignment.h: operator<<= for single-value fields, interior_assign", "spatialops/structured/FVStaggeredFieldTypes.h: SingleValueField"]}
{"id": "C84", "title": "A thread pool lives exactly as long as it is needed", "statement": "For every history of copying and destroying handles (pool objects), obtaining, copying and destroying size controllers, resizing through either, and workers ending or dying of an exception: no call touches a destroyed pool, and none destroys it twice. The shutdown policy runs once, when the last handle goes. With a policy that waits, no worker is at work once the destructor of the last handle has returned, and none ever again, whatever is asked of a controller; a worker's object is gone when its thread has ended. The pool is destroyed exactly when the last handle, controller and worker's thread are gone and the last handle's destructor has returned; once the program has dropped all handles and controllers, the pool's threads never block one another: one of them can always go on, they are done after finitely many steps, and the pool is then destroyed (if tasks end without throwing, and if the last handle is not destroyed by a task of the pool). With the policy that does not wait the pool is destroyed under the same conditions only if no worker was at work when the last handle went; otherwise pool and worker hold each other for ever. A waiting shutdown does not return while a worker is busy with a task, so a task that destroys the last handle of its own pool waits for ever.", "quantifier": "All histories of any length, any number of handles, controllers and workers, the three shutdown policies, all orders in which threads end", "why_tests_cant": "Which reference is the last depends on the order in which handles, controllers and threads go; a use after free or a leak shows only in some schedules", "anchors": ["spatialops/threadpool/threadpool/pool.hpp: thread_pool", "spatialops/threadpool/threadpool/detail/pool_core.hpp: size_controller, shutdown, terminate_all_workers, resize, worker_destructed", "spatialops/threadpool/threadpool/detail/worker_thread.hpp: run, create_and_attach", "spatialops/threadpool/threadpool/size_policies.hpp: resize_controller", "spatialops/threadpool/threadpool/shutdown_policies.hpp"]}
{"id": "C85", "title": "Integer vectors compute componentwise", "statement": "For every program of constructions, v = a op b, v = a op number (+, -, *, / of IntVecs; +, *, / with an int), v += a and v -= a, in which the vectors may be the same (v += v, v = v / v): if every component computed fits in an int, the program has the effect of the same program on vectors of integers (division rounds towards zero) and changes no vector but the one named; otherwise, and on division by zero, it is undefined. With an unsigned int or size_t, + and * give the right vector, also from negative components, whenever its components fit, and / does if no component is negative; with a negative component / gives a wrong vector. == holds for equal vectors only and != is its opposite; min(v,w) is the largest vector below both. sum() is the sum if the first two components added fit in an int, and undefined otherwise even if the sum fits.", "quantifier": "All programs of any length over any number of vectors, all components and numbers, all ways in which the names coincide", "why_tests_cant": "Whether a component overflows or a vector is read after it was half written depends on all values and on every way of aliasing; tests take a few", "anchors": ["spatialops/structured/Numeric3Vec.h: Numeric3Vec operators +, -, *, /, +=, -=, ==, !=, sum", "spatialops/structured/IntVec.h: IntVec, min"]}
