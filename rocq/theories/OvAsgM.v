(** The whole sequential assignment with the machine's integers: every sum,
    difference and product that the code computes on ints between the ghost
    counts of the operands and the last step of the loop.  Same functions as in
    GhostM, FieldM, MaskM and NeboM. *)
From Verif Require Import Prelude WindowM GhostM FieldM MaskM NeboM OverM.

(** Numeric3Vec.h:93-107 (+, -) and the compound forms: three int operations *)
Definition iv_add32 (a b : ivec) : outcome ivec :=
  do x <- iadd (ix a) (ix b); do y <- iadd (iy a) (iy b); do z <- iadd (iz a) (iz b); Ok (IV x y z).
Definition iv_sub32 (a b : ivec) : outcome ivec :=
  do x <- isub (ix a) (ix b); do y <- isub (iy a) (iy b); do z <- isub (iz a) (iz b); Ok (IV x y z).

(** GhostData.cpp:153-163 (operator-=), 165-178 (operator+=) *)
Definition g_sub32 (a b : ghost) : outcome ghost :=
  if ginf b then Throw
  else do m <- iv_sub32 (gminus a) (gminus b);
       do p <- iv_sub32 (gplus a) (gplus b);
       Ok (Ghost m p (ginf a)).
Definition g_add32 (a b : ghost) : outcome ghost :=
  if ginf a then Ok a
  else if ginf b then Ok b
  else do m <- iv_add32 (gminus a) (gminus b);
       do p <- iv_add32 (gplus a) (gplus b);
       Ok (Ghost m p (ginf a)).

(** GhostData.cpp:199-208 (point_to_ghost) *)
Definition neg_part32 (v : Z) : outcome Z := if v <? 0 then ineg v else Ok 0.
Definition point_to_ghost32 (p : ivec) : outcome ghost :=
  do x <- neg_part32 (ix p); do y <- neg_part32 (iy p); do z <- neg_part32 (iz p);
  Ok (mk_ghost (IV x y z) (IV (pos_part (ix p)) (pos_part (iy p)) (pos_part (iz p)))).

(** SpatialField.h:682-696: the comparisons are on size_t *)
Definition cuts_interior32 (w wi : window) : bool :=
  let u v := u64 v in
  (u (ix (woff wi)) <? u (ix (woff w))) || (u (iy (woff wi)) <? u (iy (woff w))) || (u (iz (woff wi)) <? u (iz (woff w)))
  || (u (u (ix (wext w)) + u (ix (woff w))) <? u (u (ix (woff wi)) + u (ix (wext wi))))
  || (u (u (iy (wext w)) + u (iy (woff w))) <? u (u (iy (woff wi)) + u (iy (wext wi))))
  || (u (u (iz (wext w)) + u (iz (woff w))) <? u (u (iz (woff wi)) + u (iz (wext wi)))).
(** SpatialField.h:658-712 *)
Definition field_window32 (w : window) (f : field) : field :=
  Field w (fint f) (fbc f) (fghosts f) (fghosts f) (fbuf f) (freadonly f)
        (if cuts_interior32 w (fint f) then true else fdisint f) (fparts f).

(** SpatialField.h:461-467 (reset_valid_ghosts) *)
Definition reset_valid_ghosts32 (f : field) (g : ghost) : outcome field :=
  do diff <- iv_sub32 (gminus (fvalid f)) (gminus g);
  do off <- iv_add32 (woff (fwin f)) diff;
  do e1 <- iv_sub32 (wext (fwin f)) diff;
  do e2 <- iv_sub32 e1 (gplus (fvalid f));
  do e3 <- iv_add32 e2 (gplus g);
  Ok (Field (Win (wglob (fwin f)) off e3) (fint f) (fbc f) (fghosts f) g (fbuf f) (freadonly f) (fdisint f) (fparts f)).

(** SpatialField.h:479-487 (reshape), BitField.h (the same for masks) *)
Definition reshape32 (f : field) (extentModify shift : ivec) : outcome field :=
  do off <- iv_add32 (woff (fwin f)) shift;
  do ext <- iv_add32 (wext (fwin f)) extentModify;
  Ok (field_window32 (Win (wglob (fwin f)) off ext) f).

(** NeboBasic.h:119-133 (resize_ghost), 135-139 (shift_window), 141-150 *)
Definition resize_ghost32 (f : field) (minus plus : ivec) : outcome field :=
  let oldMinus := gminus (fvalid f) in
  let oldPlus := gplus (fvalid f) in
  do offsetChange <- iv_sub32 oldMinus minus;
  do a <- iv_add32 minus plus;
  do b <- iv_sub32 a oldMinus;
  do extentChange <- iv_sub32 b oldPlus;
  reshape32 f extentChange offsetChange.
Definition shift_window32 (f : field) (shift : ivec) : outcome field := reshape32 f iv_zero shift.
Definition resize_ghost_and_shift_window32 (f : field) (minus plus shift : ivec) : outcome field :=
  do g <- resize_ghost32 f minus plus; shift_window32 g shift.

(** BitField.h:49-71 (constructor of the mask iterator): size_t, then int *)
Definition mit_make32 (w : window) : outcome miter :=
  do n <- glob_npts32 w;
  let gx := u64 (ix (wglob w)) in let gy := u64 (iy (wglob w)) in
  let ex := u64 (ix (wext w)) in let ey := u64 (iy (wext w)) in let ez := u64 (iz (wext w)) in
  let flat := u64 (u64 (ix (woff w)) + u64 (gx * u64 (u64 (iy (woff w)) + u64 (gy * u64 (iz (woff w)))))) in
  Ok (MIter (to_int (Z.rem flat INT_BIT)) (to_int (Z.quot flat INT_BIT)) 0 (round_to_int32 n) 0 0 0
        (to_int (u64 (gx - ex))) (to_int (u64 (u64 (gy - ey) * gx)))
        (to_int ex) (to_int ey) (to_int ez) (to_int (u64 (ex * ey)))).
(** BitField.h:209-216 (update_positions) *)
Definition update_positions32 (bit blk : Z) : outcome (Z * Z) :=
  if (bit <? 0) || (INT_BIT <=? bit) then
    do a <- imul blk INT_BIT; do flat <- iadd a bit;
    do q <- idiv flat INT_BIT; do r <- imod flat INT_BIT; Ok (r, q)
  else Ok (bit, blk).
Definition mit_with32 (m : miter) (bit cnt xi yi zi : Z) : outcome miter :=
  do p <- update_positions32 bit (mblk m);
  Ok (MIter (fst p) (snd p) cnt (msize m) xi yi zi (mystep m) (mzstep m) (mxe m) (mye m) (mze m) (mxye m)).
(** BitField.h:114-132 (operator++) *)
Definition mit_incr32 (m : miter) : outcome miter :=
  do bit <- iadd (mbit m) 1;
  do cnt <- iadd (mcnt m) 1;
  do xi <- iadd (mxi m) 1;
  if xi =? mxe m then
    do bit <- iadd bit (mystep m);
    do yi <- iadd (myi m) 1;
    if yi =? mye m then
      do bit <- iadd bit (mzstep m);
      do zi <- iadd (mzi m) 1;
      mit_with32 m bit cnt 0 0 zi
    else mit_with32 m bit cnt 0 yi (mzi m)
  else mit_with32 m bit cnt xi (myi m) (mzi m).

Section Nebo32.
Variable V : Type.
Variable vadd vmul : V -> V -> V.
Notation expr := (expr V). Notation bexpr := (bexpr V).
Notation walk := (walk V). Notation bwalk := (bwalk V).

(** NeboRhs.h:206-208, NeboMask.h:54-56 *)
Definition leaf_ghosts32 (f : field) : outcome ghost :=
  do p <- point_to_ghost32 (has_extra (fbc f)); g_add32 (fvalid f) p.
(** ghosts - point_to_ghost(point) *)
Definition g_shift32 (g : ghost) (p : ivec) : outcome ghost :=
  do q <- point_to_ghost32 p; g_sub32 g q.

(** possible_ghosts: as in NeboM *)
Fixpoint possible_ghosts32 (e : expr) : outcome ghost :=
  match e with
  | EScalar _ _ | ESingle _ _ => Ok (ghost_n GHOST_MAX)
  | EField _ f => leaf_ghosts32 f
  | EOp1 _ _ a => possible_ghosts32 a
  | EOp2 _ _ a b => do ga <- possible_ghosts32 a; do gb <- possible_ghosts32 b; Ok (g_min ga gb)
  | ECond _ c x o =>
      do gc <- bpossible_ghosts32 c; do gx <- possible_ghosts32 x; do go <- possible_ghosts32 o;
      Ok (g_min (g_min gc gx) go)
  | EStencil _ p0 _ rest a =>
      do g <- possible_ghosts32 a;
      fold_left (fun acc pc => do earlier <- acc; do gp <- g_shift32 g (fst pc); Ok (g_min gp earlier))
                rest (g_shift32 g p0)
  | ESumStencil _ p0 rest a =>
      do g <- possible_ghosts32 a;
      fold_left (fun acc p => do earlier <- acc; do gp <- g_shift32 g p; Ok (g_min gp earlier))
                rest (g_shift32 g p0)
  end
with bpossible_ghosts32 (e : bexpr) : outcome ghost :=
  match e with
  | BScalar _ _ => Ok (ghost_n GHOST_MAX)
  | BMask _ m => leaf_ghosts32 (mgeo m)
  | BCmp _ _ a b => do ga <- possible_ghosts32 a; do gb <- possible_ghosts32 b; Ok (g_min ga gb)
  | BAnd _ a b | BOr _ a b => do ga <- bpossible_ghosts32 a; do gb <- bpossible_ghosts32 b; Ok (g_min ga gb)
  | BNot _ a => bpossible_ghosts32 a
  | BShift _ p a => do g <- bpossible_ghosts32 a; g_shift32 g p
  end.

(** next of every node *)
Fixpoint next32 (w : walk) : outcome walk :=
  match w with
  | WConst _ v => Ok (WConst V v)
  | WField _ b it e => do i <- it_incr32 it; Ok (WField V b i e)
  | WOp1 _ op a => do x <- next32 a; Ok (WOp1 V op x)
  | WOp2 _ op a b => do x <- next32 a; do y <- next32 b; Ok (WOp2 V op x y)
  | WCond _ c e o => do t <- bnext32 c; do x <- next32 e; do y <- next32 o; Ok (WCond V t x y)
  end
with bnext32 (w : bwalk) : outcome bwalk :=
  match w with
  | BWConst _ b => Ok (BWConst V b)
  | BWMask _ words it e => do i <- mit_incr32 it; Ok (BWMask V words i e)
  | BWCmp _ c a b => do x <- next32 a; do y <- next32 b; Ok (BWCmp V c x y)
  | BWAnd _ a b => do x <- bnext32 a; do y <- bnext32 b; Ok (BWAnd V x y)
  | BWOr _ a b => do x <- bnext32 a; do y <- bnext32 b; Ok (BWOr V x y)
  | BWNot _ a => do x <- bnext32 a; Ok (BWNot V x)
  end.

(** init: as in NeboM with red = false; the shift of a stencil point is added
    to the shift so far (NeboStencils.h:187-205, 484-495, 343-355, 586-594,
    1138-1142), the extra cells of a leaf are taken off the plus ghosts
    (NeboRhs.h:210-217, NeboMask.h:58-65). *)
Fixpoint init32 (e : expr) (minus plus shift : ivec) : prog V walk :=
  match e with
  | EScalar _ v => Ret (WConst V v)
  | EField _ f =>
      let* p := lift (iv_sub32 plus (has_extra (fbc f))) in
      let* g := lift (resize_ghost_and_shift_window32 f minus p shift) in
      Ret (WField V (fbuf g) (it_make32 0 (fwin g)) None)
  | ESingle _ f => walk_single V f
  | EOp1 _ op a => let* x := init32 a minus plus shift in Ret (WOp1 V op x)
  | EOp2 _ op a b =>
      let* x := init32 a minus plus shift in
      let* y := init32 b minus plus shift in Ret (WOp2 V op x y)
  | ECond _ c x o =>
      let* t := binit32 c minus plus shift in
      let* u := init32 x minus plus shift in
      let* v := init32 o minus plus shift in Ret (WCond V t u v)
  | EStencil _ p0 c0 rest a =>
      fold_left (fun acc pc =>
                   let* earlier := acc in
                   let* x := (let* s := lift (iv_add32 shift (fst pc)) in init32 a minus plus s) in
                   Ret (WOp2 V vadd earlier (WOp2 V vmul x (WConst V (snd pc)))))
                rest
                (let* x := (let* s := lift (iv_add32 shift p0) in init32 a minus plus s) in
                 Ret (WOp2 V vmul x (WConst V c0)))
  | ESumStencil _ p0 rest a =>
      fold_left (fun acc p =>
                   let* earlier := acc in
                   let* x := (let* s := lift (iv_add32 shift p) in init32 a minus plus s) in
                   Ret (WOp2 V vadd earlier x))
                rest (let* s := lift (iv_add32 shift p0) in init32 a minus plus s)
  end
with binit32 (e : bexpr) (minus plus shift : ivec) : prog V bwalk :=
  match e with
  | BScalar _ b => Ret (BWConst V b)
  | BMask _ m =>
      let* p := lift (iv_sub32 plus (has_extra (fbc (mgeo m)))) in
      let* g := lift (resize_ghost_and_shift_window32 (mgeo m) minus p shift) in
      let* it := lift (mit_make32 (fwin g)) in
      Ret (BWMask V (mwords m) it None)
  | BCmp _ c a b =>
      let* x := init32 a minus plus shift in
      let* y := init32 b minus plus shift in Ret (BWCmp V c x y)
  | BAnd _ a b =>
      let* x := binit32 a minus plus shift in
      let* y := binit32 b minus plus shift in Ret (BWAnd V x y)
  | BOr _ a b =>
      let* x := binit32 a minus plus shift in
      let* y := binit32 b minus plus shift in Ret (BWOr V x y)
  | BNot _ a => let* x := binit32 a minus plus shift in Ret (BWNot V x)
  | BShift _ p a => let* s := lift (iv_add32 shift p) in binit32 a minus plus s
  end.

(** NeboBasic.h:62-108 (calculate_valid_ghost), 110-117 *)
Definition calculate_valid_ghost32 (useGhost : bool) (lhs : ghost) (bc : bcinfo) (rhs : ghost) : outcome ghost :=
  let has_bc v := negb (v =? 0) in
  if has_bc (ix (bc_is bc)) && (ix (gplus rhs) <? ix (has_extra bc)) then Throw
  else if has_bc (iy (bc_is bc)) && (iy (gplus rhs) <? iy (has_extra bc)) then Throw
  else if has_bc (iz (bc_is bc)) && (iz (gplus rhs) <? iz (has_extra bc)) then Throw
  else
    do p <- point_to_ghost32 (has_extra bc);
    do lhs_w_extra <- g_add32 lhs p;
    Ok (if useGhost then g_min lhs_w_extra rhs else mk_ghost iv_zero (has_extra bc)).

(** NeboLhs.h:143-149, 184-190 *)
Definition assign_ghosts32 (useGhost : bool) (f : field) (rhs : expr) : outcome (ghost * ghost) :=
  do pg <- possible_ghosts32 rhs;
  do rg <- calculate_valid_ghost32 useGhost (fghosts f) (fbc f) pg;
  do lg <- g_shift32 rg (has_extra (fbc f));
  Ok (rg, lg).

(** NeboLhs.h:441-444 *)
Fixpoint assign_loop32 (fuel : nat) (b : nat) (it e : iter) (rhs : walk) : prog V unit :=
  if it_eqb it e then Ret tt
  else match fuel with
       | O => PFuel
       | S n => let* v := eval V rhs in
                Store b (icur it) v
                  (let* it' := lift (it_incr32 it) in
                   let* rhs' := lift (next32 rhs) in
                   assign_loop32 n b it' e rhs')
       end.

(** NeboLhs.h:437-439; SpatialField.h:279-297 (begin), 1168-1186 (end) *)
Definition assign_walk32 (fuel : nat) (f : field) (rhs : walk) : prog V unit :=
  let* it := lift (if freadonly f then Throw else Ok (it_make32 0 (fwin f))) in
  let* e := lift (it_end32 0 (fwin f)) in
  assign_loop32 fuel (fbuf f) it e rhs.

(** NeboLhs.h:136-169 *)
Definition sequential_assign32 (fuel : nat) (useGhost : bool) (f : field) (rhs : expr) : prog V unit :=
  let* gs := lift (assign_ghosts32 useGhost f rhs) in
  let '(rg, lg) := gs in
  let* w := init32 rhs (gminus rg) (gplus rg) iv_zero in
  let* f' := lift (reset_valid_ghosts32 f (mk_ghost (gminus lg) (gplus lg))) in
  assign_walk32 fuel f' w.
End Nebo32.
