(** Model of Nebo expressions, assignment and reductions (CPU back end). *)
From Verif Require Import Prelude WindowM GhostM FieldM MaskM.

(** ** Memory and programs *)
Section Mem.
Variable V : Type.

(** A block of memory: which element indices may be accessed (for a block of n
    elements: 0..n-1) and what they hold. *)
Record block := Block { bcells : Z -> bool; bdata : Z -> V }.
Definition heap := nat -> block.
Definition upd (h : heap) (b : nat) (i : Z) (v : V) : heap :=
  fun c => if Nat.eqb c b
           then Block (bcells (h c)) (fun j => if j =? i then v else bdata (h c) j)
           else h c.

(** What a thread does to memory, one load or store at a time.  [PFuel]: a
    loop ran longer than the fuel it was given. *)
Inductive prog (R : Type) :=
| Ret (r : R) | PThrow | PUB | PFuel
| Load (b : nat) (i : Z) (k : V -> prog R)
| Store (b : nat) (i : Z) (v : V) (k : prog R).
Arguments Ret {R}. Arguments PThrow {R}. Arguments PUB {R}. Arguments PFuel {R}.
Arguments Load {R}. Arguments Store {R}.

Fixpoint pbind {A B} (p : prog A) (f : A -> prog B) : prog B :=
  match p with
  | Ret r => f r
  | PThrow => PThrow | PUB => PUB | PFuel => PFuel
  | Load b i k => Load b i (fun v => pbind (k v) f)
  | Store b i v k => Store b i v (pbind k f)
  end.
Definition lift {A} (o : outcome A) : prog A :=
  match o with Ok a => Ret a | Throw => PThrow | UB => PUB end.

Inductive result (R : Type) := RDone (h : heap) (r : R) | RThrow | RUB | RFuel.
Arguments RDone {R}. Arguments RThrow {R}. Arguments RUB {R}. Arguments RFuel {R}.

(** Running alone.  Accesses outside the block are undefined behaviour. *)
Fixpoint run {R} (p : prog R) (h : heap) : result R :=
  match p with
  | Ret r => RDone h r
  | PThrow => RThrow | PUB => RUB | PFuel => RFuel
  | Load b i k => if bcells (h b) i then run (k (bdata (h b) i)) h else RUB
  | Store b i v k => if bcells (h b) i then run k (upd h b i v) else RUB
  end.
End Mem.
Arguments Block {V}. Arguments bcells {V}. Arguments bdata {V}. Arguments upd {V}.
Arguments Ret {V R}. Arguments PThrow {V R}. Arguments PUB {V R}. Arguments PFuel {V R}.
Arguments Load {V R}. Arguments Store {V R}. Arguments pbind {V A B}. Arguments lift {V A}.
Arguments RDone {V R}. Arguments RThrow {V R}. Arguments RUB {V R}. Arguments RFuel {V R}.
Arguments run {V R}.

Declare Scope prog_scope.
Notation "'let*' x := e 'in' f" := (pbind e (fun x => f))
  (at level 200, x name, e at level 100, f at level 200) : prog_scope.
Open Scope prog_scope.

Section Nebo.
Variable V : Type.
Variable vadd vmul : V -> V -> V.   (* + and * of the element type *)

(** ** Expressions in Initial mode *)
(** - [EScalar]: NeboScalar (NeboRhs.h:29-179)
    - [EField]: NeboConstField (NeboRhs.h:180-370)
    - [ESingle]: NeboConstSingleValueField (NeboRhs.h:372-557)
    - [EOp1], [EOp2]: unary and binary operators (NeboOperators.h.fmr:30-190);
      the element function is a parameter.
    - [ECond c e o]: NeboCond with NeboClause c e and otherwise o (NeboCond.h:48-480)
    - [EStencil p0 c0 rest a]: NeboStencil (NeboStencils.h:660-877), points and
      coefficients in the order they were added to the collection
    - [ESumStencil]: NeboSumStencil (NeboStencils.h:879-1084)
    - [BScalar]: NeboScalar bool; [BMask]: NeboMask (NeboMask.h:31-247)
    - [BCmp]: comparison operators; [BAnd], [BOr], [BNot]: C++ &&, ||, !
    - [BShift]: NeboMaskShift (NeboStencils.h:1086-1279) *)
Inductive expr :=
| EScalar (v : V)
| EField (f : field)
| ESingle (f : field)
| EOp1 (op : V -> V) (a : expr)
| EOp2 (op : V -> V -> V) (a b : expr)
| ECond (c : bexpr) (e o : expr)
| EStencil (p0 : ivec) (c0 : V) (rest : list (ivec * V)) (a : expr)
| ESumStencil (p0 : ivec) (rest : list ivec) (a : expr)
with bexpr :=
| BScalar (b : bool)
| BMask (m : mask)
| BCmp (c : V -> V -> bool) (a b : expr)
| BAnd (a b : bexpr) | BOr (a b : bexpr) | BNot (a : bexpr)
| BShift (p : ivec) (a : bexpr).

(** NeboRhs.h:206-208, NeboMask.h:54-56: valid ghosts plus extra cells *)
Definition leaf_ghosts (f : field) : ghost :=
  g_add (fvalid f) (point_to_ghost (has_extra (fbc f))).

(** possible_ghosts of every node: NeboRhs.h:54-56, 206-208, 403-405;
    NeboOperators.h.fmr (min of the operands); NeboCond.h:87-89, 306-308 (min);
    NeboStencils.h:165-170 (min over the points of ghosts - point_to_ghost),
    470-474 (first point), 1087-1092, 1134-1136 (mask shift). *)
Fixpoint possible_ghosts (e : expr) : outcome ghost :=
  match e with
  | EScalar _ | ESingle _ => Ok (ghost_n GHOST_MAX)
  | EField f => Ok (leaf_ghosts f)
  | EOp1 _ a => possible_ghosts a
  | EOp2 _ a b => do ga <- possible_ghosts a; do gb <- possible_ghosts b; Ok (g_min ga gb)
  | ECond c x o =>
      do gc <- bpossible_ghosts c; do gx <- possible_ghosts x; do go <- possible_ghosts o;
      Ok (g_min (g_min gc gx) go)
  | EStencil p0 _ rest a =>
      do g <- possible_ghosts a;
      fold_left (fun acc pc => do earlier <- acc; do gp <- g_sub g (point_to_ghost (fst pc));
                               Ok (g_min gp earlier))
                rest (g_sub g (point_to_ghost p0))
  | ESumStencil p0 rest a =>
      do g <- possible_ghosts a;
      fold_left (fun acc p => do earlier <- acc; do gp <- g_sub g (point_to_ghost p);
                              Ok (g_min gp earlier))
                rest (g_sub g (point_to_ghost p0))
  end
with bpossible_ghosts (e : bexpr) : outcome ghost :=
  match e with
  | BScalar _ => Ok (ghost_n GHOST_MAX)
  | BMask m => Ok (leaf_ghosts (mgeo m))
  | BCmp _ a b => do ga <- possible_ghosts a; do gb <- possible_ghosts b; Ok (g_min ga gb)
  | BAnd a b | BOr a b => do ga <- bpossible_ghosts a; do gb <- bpossible_ghosts b; Ok (g_min ga gb)
  | BNot a => bpossible_ghosts a
  | BShift p a => do g <- bpossible_ghosts a; g_sub g (point_to_ghost p)
  end.

(** ** Walking mode *)
(** The SeqWalk and Reduction trees.  [WField b it e]: iterator (NeboRhs.h:296-312)
    and, in Reduction mode, its end (NeboRhs.h:348-370); same for masks.
    NeboStencil's walking mode (NeboStencils.h:820-840) only forwards to the
    sum of products built by its point collection, so it has no node here. *)
Inductive walk :=
| WConst (v : V)
| WField (b : nat) (it : iter) (e : option iter)
| WOp1 (op : V -> V) (a : walk)
| WOp2 (op : V -> V -> V) (a b : walk)
| WCond (c : bwalk) (e o : walk)
with bwalk :=
| BWConst (b : bool)
| BWMask (words : list Z) (it : miter) (e : option miter)
| BWCmp (c : V -> V -> bool) (a b : walk)
| BWAnd (a b : bwalk) | BWOr (a b : bwalk) | BWNot (a : bwalk).

(** eval of every node.  && and || evaluate the right operand only if needed. *)
Fixpoint eval (w : walk) : prog V V :=
  match w with
  | WConst v => Ret v
  | WField b it _ => Load b (icur it) (fun v => Ret v)
  | WOp1 op a => let* x := eval a in Ret (op x)
  | WOp2 op a b => let* x := eval a in let* y := eval b in Ret (op x y)
  | WCond c e o => let* t := beval c in if t : bool then eval e else eval o
  end
with beval (w : bwalk) : prog V bool :=
  match w with
  | BWConst b => Ret b
  | BWMask words it _ => lift (mit_deref words it)
  | BWCmp c a b => let* x := eval a in let* y := eval b in Ret (c x y)
  | BWAnd a b => let* x := beval a in if x : bool then beval b else Ret false
  | BWOr a b => let* x := beval a in if x : bool then Ret true else beval b
  | BWNot a => let* x := beval a in Ret (negb x)
  end.

(** next of every node: all operands advance *)
Fixpoint next (w : walk) : walk :=
  match w with
  | WConst v => WConst v
  | WField b it e => WField b (it_incr it) e
  | WOp1 op a => WOp1 op (next a)
  | WOp2 op a b => WOp2 op (next a) (next b)
  | WCond c e o => WCond (bnext c) (next e) (next o)
  end
with bnext (w : bwalk) : bwalk :=
  match w with
  | BWConst b => BWConst b
  | BWMask words it e => BWMask words (mit_incr it) e
  | BWCmp c a b => BWCmp c (next a) (next b)
  | BWAnd a b => BWAnd (bnext a) (bnext b)
  | BWOr a b => BWOr (bnext a) (bnext b)
  | BWNot a => BWNot (bnext a)
  end.

(** at_end in Reduction mode (NeboRhs.h:150-152, 360-362; NeboMask.h:230-232;
    NeboOperators.h.fmr: or of the operands; NeboCond.h:464-466, 246-248) *)
Fixpoint at_end (w : walk) : bool :=
  match w with
  | WConst _ => false
  | WField _ it e => match e with Some e => it_eqb it e | None => false end
  | WOp1 _ a => at_end a
  | WOp2 _ a b => at_end a || at_end b
  | WCond c e o => (bat_end c || at_end e) || at_end o
  end
with bat_end (w : bwalk) : bool :=
  match w with
  | BWConst _ => false
  | BWMask _ it e => match e with Some e => mit_eqb it e | None => false end
  | BWCmp _ a b => at_end a || at_end b
  | BWAnd a b | BWOr a b => bat_end a || bat_end b
  | BWNot a => bat_end a
  end.

(** The end iterator is only made in Reduction mode. *)
Definition end_if (red : bool) (w : window) : outcome (option iter) :=
  if red then do e <- it_end 0 w; Ok (Some e) else Ok None.
Definition mend_if (red : bool) (w : window) : outcome (option miter) :=
  if red then do e <- mit_end w; Ok (Some e) else Ok None.

(** Walking leaf over the window of [f] *)
Definition walk_field (red : bool) (f : field) : prog V walk :=
  let* e := lift (end_if red (fwin f)) in Ret (WField (fbuf f) (it_begin 0 (fwin f)) e).
Definition walk_mask (red : bool) (m : mask) : prog V bwalk :=
  let* e := lift (mend_if red (fwin (mgeo m))) in
  Ret (BWMask (mwords m) (mit_begin (fwin (mgeo m))) e).
(** NeboRhs.h:410: the value is read when the walk is set up. *)
Definition walk_single (f : field) : prog V walk :=
  Load (fbuf f) 0 (fun v => Ret (WConst v)).

(** init (red = false): NeboRhs.h:58-62, 210-217, 407-411; NeboMask.h:58-65;
    NeboOperators.h.fmr; NeboCond.h:91-96, 310-315; NeboStencils.h:187-205 and
    484-495 (sum of products, shift + point), 343-355 and 586-594 (plain sum),
    1138-1142 (mask shift).
    reduce_init (red = true): NeboRhs.h:258-266 etc.  For stencils the code of
    reduce_init (NeboStencils.h:761-769, 976-983) names a function
    in_reduce_construct that does not exist, so reductions of stencil
    expressions do not compile; the model uses in_rd_construct (289-307). *)
Fixpoint init (red : bool) (e : expr) (minus plus shift : ivec) : prog V walk :=
  match e with
  | EScalar v => Ret (WConst v)
  | EField f =>
      walk_field red (resize_ghost_and_shift_window f minus (iv_sub plus (has_extra (fbc f))) shift)
  | ESingle f => walk_single f
  | EOp1 op a => let* x := init red a minus plus shift in Ret (WOp1 op x)
  | EOp2 op a b =>
      let* x := init red a minus plus shift in
      let* y := init red b minus plus shift in Ret (WOp2 op x y)
  | ECond c x o =>
      let* t := binit red c minus plus shift in
      let* u := init red x minus plus shift in
      let* v := init red o minus plus shift in Ret (WCond t u v)
  | EStencil p0 c0 rest a =>
      fold_left (fun acc pc =>
                   let* earlier := acc in
                   let* x := init red a minus plus (iv_add shift (fst pc)) in
                   Ret (WOp2 vadd earlier (WOp2 vmul x (WConst (snd pc)))))
                rest
                (let* x := init red a minus plus (iv_add shift p0) in Ret (WOp2 vmul x (WConst c0)))
  | ESumStencil p0 rest a =>
      fold_left (fun acc p =>
                   let* earlier := acc in
                   let* x := init red a minus plus (iv_add shift p) in
                   Ret (WOp2 vadd earlier x))
                rest (init red a minus plus (iv_add shift p0))
  end
with binit (red : bool) (e : bexpr) (minus plus shift : ivec) : prog V bwalk :=
  match e with
  | BScalar b => Ret (BWConst b)
  | BMask m =>
      walk_mask red (mask_resize_ghost_and_shift_window m minus
                       (iv_sub plus (has_extra (fbc (mgeo m)))) shift)
  | BCmp c a b =>
      let* x := init red a minus plus shift in
      let* y := init red b minus plus shift in Ret (BWCmp c x y)
  | BAnd a b =>
      let* x := binit red a minus plus shift in
      let* y := binit red b minus plus shift in Ret (BWAnd x y)
  | BOr a b =>
      let* x := binit red a minus plus shift in
      let* y := binit red b minus plus shift in Ret (BWOr x y)
  | BNot a => let* x := binit red a minus plus shift in Ret (BWNot x)
  | BShift p a => binit red a minus plus (iv_add shift p)
  end.

(** ** Ghost bookkeeping of an assignment *)
(** NeboBasic.h:62-108 (calculate_valid_ghost) *)
Definition calculate_valid_ghost (useGhost : bool) (lhs : ghost) (bc : bcinfo) (rhs : ghost) : outcome ghost :=
  let has_bc v := negb (v =? 0) in
  if has_bc (ix (bc_is bc)) && (ix (gplus rhs) <? ix (has_extra bc)) then Throw
  else if has_bc (iy (bc_is bc)) && (iy (gplus rhs) <? iy (has_extra bc)) then Throw
  else if has_bc (iz (bc_is bc)) && (iz (gplus rhs) <? iz (has_extra bc)) then Throw
  else
    let lhs_w_extra := g_add lhs (point_to_ghost (has_extra bc)) in
    Ok (if useGhost then g_min lhs_w_extra rhs else mk_ghost iv_zero (has_extra bc)).

(** NeboBasic.h:110-117 (calculate_valid_lhs_ghost) *)
Definition calculate_valid_lhs_ghost (g : ghost) (bc : bcinfo) : outcome ghost :=
  g_sub g (point_to_ghost (has_extra bc)).

(** NeboLhs.h:143-149, 184-190: right-hand and left-hand ghosts *)
Definition assign_ghosts (useGhost : bool) (f : field) (rhs : expr) : outcome (ghost * ghost) :=
  do pg <- possible_ghosts rhs;
  do rg <- calculate_valid_ghost useGhost (fghosts f) (fbc f) pg;
  do lg <- calculate_valid_lhs_ghost rg (fbc f);
  Ok (rg, lg).

(** ** Sequential assignment *)
(** NeboLhs.h:441-444: while(!at_end()) { ref() = rhs.eval(); next(); rhs.next(); } *)
Fixpoint assign_loop (fuel : nat) (b : nat) (it e : iter) (rhs : walk) : prog V unit :=
  if it_eqb it e then Ret tt
  else match fuel with
       | O => PFuel
       | S n => let* v := eval rhs in
                Store b (icur it) v (assign_loop n b (it_incr it) e (next rhs))
       end.

(** NeboLhs.h:437-439 (SeqWalk constructor: begin and end of the field), then assign *)
Definition assign_walk (fuel : nat) (f : field) (rhs : walk) : prog V unit :=
  let* it := lift (field_begin f) in
  let* e := lift (field_end f) in
  assign_loop fuel (fbuf f) it e rhs.

(** NeboLhs.h:136-162 (sequential_assign), 164-169 (init).  NeboField holds a
    copy of the left-hand field (NeboLhs.h:58-60), so the valid-ghost reset
    does not reach the caller's field object. *)
Definition sequential_assign (fuel : nat) (useGhost : bool) (f : field) (rhs : expr) : prog V unit :=
  let* gs := lift (assign_ghosts useGhost f rhs) in
  let '(rg, lg) := gs in
  let* w := init false rhs (gminus rg) (gplus rg) iv_zero in
  assign_walk fuel (reset_valid_ghosts f (mk_ghost (gminus lg) (gplus lg))) w.

(** NeboAssignment.h:28-78 (operator<<=) and interior_assign (NeboAssignment.h:
    182-240), without threads.  The result pairs the program with the field
    object the caller sees afterwards. *)
Definition nebo_assign (fuel : nat) (f : field) (rhs : expr) : prog V unit * field :=
  (sequential_assign fuel true f rhs, f).
Definition interior_assign (fuel : nat) (f : field) (rhs : expr) : prog V unit * field :=
  (sequential_assign fuel false f rhs, f).

(** ** Partitioning *)
(** NeboBasic.h:158-170 (nebo_find_partition) *)
Definition find_partition (extent : ivec) (thread_count : Z) : ivec :=
  if thread_count <=? iz extent then IV 1 1 thread_count
  else if thread_count <=? iy extent then IV 1 thread_count 1
  else if thread_count <=? ix extent then IV thread_count 1 1
  else IV 1 1 1.
(** NeboBasic.h:172-174 *)
Definition partition_count (split : ivec) : Z := ix split * iy split * iz split.
(** NeboBasic.h:176-191 *)
Definition next_partition (current split : ivec) : ivec :=
  if iz current <? iz split - 1 then IV (ix current) (iy current) (1 + iz current)
  else if iy current <? iy split - 1 then IV (ix current) (1 + iy current) 0
  else IV (1 + ix current) 0 0.

(** resize of every node (NeboRhs.h:220-223, 415-418 [the single value is read
    here]; NeboMask.h:68-71; other nodes: all operands).  The Resize-mode tree
    has the shape of the Initial-mode tree, so the same type is used. *)
Fixpoint resize (e : expr) (minus plus : ivec) : prog V expr :=
  match e with
  | EScalar v => Ret (EScalar v)
  | EField f => Ret (EField (resize_ghost f minus (iv_sub plus (has_extra (fbc f)))))
  | ESingle f => Load (fbuf f) 0 (fun v => Ret (EScalar v))
  | EOp1 op a => let* x := resize a minus plus in Ret (EOp1 op x)
  | EOp2 op a b => let* x := resize a minus plus in let* y := resize b minus plus in Ret (EOp2 op x y)
  | ECond c x o =>
      let* t := bresize c minus plus in let* u := resize x minus plus in
      let* v := resize o minus plus in Ret (ECond t u v)
  | EStencil p0 c0 rest a => let* x := resize a minus plus in Ret (EStencil p0 c0 rest x)
  | ESumStencil p0 rest a => let* x := resize a minus plus in Ret (ESumStencil p0 rest x)
  end
with bresize (e : bexpr) (minus plus : ivec) : prog V bexpr :=
  match e with
  | BScalar b => Ret (BScalar b)
  | BMask m => Ret (BMask (mask_resize_ghost m minus (iv_sub plus (has_extra (fbc (mgeo m))))))
  | BCmp c a b => let* x := resize a minus plus in let* y := resize b minus plus in Ret (BCmp c x y)
  | BAnd a b => let* x := bresize a minus plus in let* y := bresize b minus plus in Ret (BAnd x y)
  | BOr a b => let* x := bresize a minus plus in let* y := bresize b minus plus in Ret (BOr x y)
  | BNot a => let* x := bresize a minus plus in Ret (BNot x)
  | BShift p a => let* x := bresize a minus plus in Ret (BShift p x)
  end.

(** init of the Resize-mode nodes: NeboRhs.h:281-288 (fields: refine, then
    shift), NeboMask.h:129-136, NeboStencils.h:207-225 and 497-508 (sum of
    products), 357-370 and 596-604 (plain sum); single values are scalars by now. *)
Fixpoint rinit (e : expr) (shift split location : ivec) : prog V walk :=
  match e with
  | EScalar v => Ret (WConst v)
  | EField f =>
      let* w := lift (refine (fwin f) split location) in
      walk_field false (shift_window (field_window w f) shift)
  | ESingle f => walk_single f
  | EOp1 op a => let* x := rinit a shift split location in Ret (WOp1 op x)
  | EOp2 op a b =>
      let* x := rinit a shift split location in
      let* y := rinit b shift split location in Ret (WOp2 op x y)
  | ECond c x o =>
      let* t := brinit c shift split location in
      let* u := rinit x shift split location in
      let* v := rinit o shift split location in Ret (WCond t u v)
  | EStencil p0 c0 rest a =>
      fold_left (fun acc pc =>
                   let* earlier := acc in
                   let* x := rinit a (iv_add shift (fst pc)) split location in
                   Ret (WOp2 vadd earlier (WOp2 vmul x (WConst (snd pc)))))
                rest
                (let* x := rinit a (iv_add shift p0) split location in Ret (WOp2 vmul x (WConst c0)))
  | ESumStencil p0 rest a =>
      fold_left (fun acc p =>
                   let* earlier := acc in
                   let* x := rinit a (iv_add shift p) split location in
                   Ret (WOp2 vadd earlier x))
                rest (rinit a (iv_add shift p0) split location)
  end
with brinit (e : bexpr) (shift split location : ivec) : prog V bwalk :=
  match e with
  | BScalar b => Ret (BWConst b)
  | BMask m =>
      let* w := lift (refine (fwin (mgeo m)) split location) in
      walk_mask false (mask_shift_window (mask_window w m) shift)
  | BCmp c a b =>
      let* x := rinit a shift split location in
      let* y := rinit b shift split location in Ret (BWCmp c x y)
  | BAnd a b =>
      let* x := brinit a shift split location in
      let* y := brinit b shift split location in Ret (BWAnd x y)
  | BOr a b =>
      let* x := brinit a shift split location in
      let* y := brinit b shift split location in Ret (BWOr x y)
  | BNot a => let* x := brinit a shift split location in Ret (BWNot x)
  | BShift p a => brinit a (iv_add shift p) split location
  end.

(** NeboLhs.h:402-424 (NeboField<Resize>::assign and init): one partition job,
    up to (not including) semaphore->post(). *)
Definition partition_job (fuel : nat) (lhs : field) (rhs : expr) (split location : ivec) : prog V unit :=
  let* w := rinit rhs iv_zero split location in
  let* win := lift (refine (fwin lhs) split location) in
  assign_walk fuel (field_window win lhs) w.

(** The jobs scheduled by the loop at NeboLhs.h:208-218. *)
Fixpoint schedule_jobs (n : nat) (fuel : nat) (lhs : field) (rhs : expr) (split location : ivec)
  : list (prog V unit) :=
  match n with
  | O => []
  | S n => partition_job fuel lhs rhs split location
           :: schedule_jobs n fuel lhs rhs split (next_partition location split)
  end.

(** NeboLhs.h:172-218 (thread_parallel_assign up to the waits), 228-234 (resize) *)
Definition thread_parallel_jobs (fuel : nat) (useGhost : bool) (f : field) (rhs : expr)
  : prog V (list (prog V unit)) :=
  let* gs := lift (assign_ghosts useGhost f rhs) in
  let '(rg, lg) := gs in
  let split := find_partition (wext (fwin (resize_ghost f (gminus lg) (gplus lg)))) (fparts f) in
  let new_lhs := reset_valid_ghosts f (mk_ghost (gminus lg) (gplus lg)) in
  let* new_rhs := resize rhs (gminus rg) (gplus rg) in
  Ret (schedule_jobs (Z.to_nat (partition_count split)) fuel new_lhs new_rhs split iv_zero).

(** ** Reductions *)
(** NeboReductions.h:66-71: while(!expr.at_end()) { result = proc(result, expr.eval()); expr.next(); } *)
Fixpoint fold_loop {R} (fuel : nat) (proc : R -> V -> R) (acc : R) (w : walk) : prog V R :=
  if at_end w then Ret acc
  else match fuel with
       | O => PFuel
       | S n => let* v := eval w in fold_loop n proc (proc acc v) (next w)
       end.
(** NeboReductions.h:53-74 (nebo_fold), 92-119 (nebo_fold_interior) *)
Definition fold_with {R} (fuel : nat) (g : ghost) (proc : R -> V -> R) (init_v : R) (e : expr) : prog V R :=
  let* w := init true e (gminus g) (gplus g) iv_zero in
  fold_loop fuel proc init_v w.
Definition nebo_fold {R} (fuel : nat) (proc : R -> V -> R) (init_v : R) (e : expr) : prog V R :=
  let* g := lift (possible_ghosts e) in fold_with fuel g proc init_v e.
Definition nebo_fold_interior {R} (fuel : nat) (proc : R -> V -> R) (init_v : R) (e : expr) : prog V R :=
  fold_with fuel (ghost_n 0) proc init_v e.
(** NeboReductions.h:137-172 (nebo_reduce), 193-229 (nebo_reduce_interior):
    the first value is read without checking at_end. *)
Definition reduce_with (fuel : nat) (g : ghost) (proc : V -> V -> V) (e : expr) : prog V V :=
  let* w := init true e (gminus g) (gplus g) iv_zero in
  let* v := eval w in
  fold_loop fuel proc v (next w).
Definition nebo_reduce (fuel : nat) (proc : V -> V -> V) (e : expr) : prog V V :=
  let* g := lift (possible_ghosts e) in reduce_with fuel g proc e.
Definition nebo_reduce_interior (fuel : nat) (proc : V -> V -> V) (e : expr) : prog V V :=
  reduce_with fuel (ghost_n 0) proc e.

(** std::max(a, b) is (a < b) ? b : a and std::min(a, b) is (b < a) ? b : a;
    [ltb] is < of the element type. *)
Definition std_max (ltb : V -> V -> bool) (a b : V) : V := if ltb a b then b else a.
Definition std_min (ltb : V -> V -> bool) (a b : V) : V := if ltb b a then b else a.
(** NeboReductions.h:366-420 (max, min), 424-454 (sum), 458-483 (norm) *)
Definition nebo_max (fuel : nat) (ltb : V -> V -> bool) (e : expr) : prog V V := nebo_reduce fuel (std_max ltb) e.
Definition nebo_min (fuel : nat) (ltb : V -> V -> bool) (e : expr) : prog V V := nebo_reduce fuel (std_min ltb) e.
Definition nebo_sum (fuel : nat) (e : expr) : prog V V := nebo_reduce fuel vadd e.
Definition nebo_norm (fuel : nat) (vsqrt vsquare : V -> V) (e : expr) : prog V V :=
  let* s := nebo_sum fuel (EOp1 vsquare e) in Ret (vsqrt s).
Definition nebo_max_interior (fuel : nat) (ltb : V -> V -> bool) (e : expr) : prog V V := nebo_reduce_interior fuel (std_max ltb) e.
Definition nebo_min_interior (fuel : nat) (ltb : V -> V -> bool) (e : expr) : prog V V := nebo_reduce_interior fuel (std_min ltb) e.
Definition nebo_sum_interior (fuel : nat) (e : expr) : prog V V := nebo_reduce_interior fuel vadd e.
Definition nebo_norm_interior (fuel : nat) (vsqrt vsquare : V -> V) (e : expr) : prog V V :=
  let* s := nebo_sum_interior fuel (EOp1 vsquare e) in Ret (vsqrt s).
End Nebo.
