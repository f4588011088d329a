(** Index arithmetic with the machine's integers: int is 32 bits and overflow is
    undefined behaviour, size_t is 64 bits and wraps.  The same functions as in
    WindowM. *)
From Verif Require Import Prelude WindowM.

Definition INT_MAX : Z := 2 ^ 31 - 1.
Definition is_int (z : Z) : bool := (- 2 ^ 31 <=? z) && (z <=? INT_MAX).
(** the result of an operation on int operands *)
Definition i32 (z : Z) : outcome Z := if is_int z then Ok z else UB.
Definition iadd (a b : Z) : outcome Z := i32 (a + b).
Definition isub (a b : Z) : outcome Z := i32 (a - b).
Definition imul (a b : Z) : outcome Z := i32 (a * b).
Definition ineg (a : Z) : outcome Z := i32 (- a).
(** / and % on int; INT_MIN / -1 overflows *)
Definition idiv (a b : Z) : outcome Z := if b =? 0 then UB else i32 (Z.quot a b).
Definition imod (a b : Z) : outcome Z := if b =? 0 then UB else do _ <- i32 (Z.quot a b); Ok (Z.rem a b).
(** conversion to size_t, and operations on size_t *)
Definition u64 (z : Z) : Z := z mod 2 ^ 64.
(** conversion of a size_t to int keeps the low 32 bits (implementation-defined;
    what every compiler for these platforms does) *)
Definition to_int (z : Z) : Z := (z + 2 ^ 31) mod 2 ^ 32 - 2 ^ 31.

(** IntVec.h:49-53 *)
Definition ijk_to_flat32 (dim loc : ivec) : outcome Z :=
  do a <- imul (iy loc) (ix dim);
  do b <- imul (iz loc) (ix dim);
  do c <- imul b (iy dim);
  do d <- iadd (ix loc) a;
  iadd d c.
(** IntVec.h:61-65 *)
Definition flat_to_ijk32 (dim : ivec) (pt : Z) : outcome ivec :=
  do x <- imod pt (ix dim);
  do q <- idiv pt (ix dim);
  do y <- imod q (iy dim);
  do a <- imul (ix dim) (iy dim);
  do z <- idiv pt a;
  Ok (IV x y z).

(** MemoryWindow.h:173: an int product, then converted to size_t *)
Definition glob_npts32 (w : window) : outcome Z :=
  do a <- imul (ix (wglob w)) (iy (wglob w));
  do b <- imul a (iz (wglob w));
  Ok (u64 b).
(** MemoryWindow.h:179 *)
Definition local_npts32 (w : window) : outcome Z :=
  do a <- imul (ix (wext w)) (iy (wext w));
  do b <- imul a (iz (wext w));
  Ok (u64 b).
(** SpatialField.h:597 (sizeof(T) * window.glob_npts()) *)
Definition allocated_bytes32 (size_of : Z) (w : window) : outcome Z :=
  do n <- glob_npts32 w; Ok (u64 (size_of * n)).

(** MemoryWindow.h:139-149 *)
Definition flat_index32 (w : window) (loc : ivec) : outcome Z :=
  do x <- (if 1 <? ix (wglob w) then iadd (ix loc) (ix (woff w)) else Ok 0);
  do y <- (if 1 <? iy (wglob w) then iadd (iy loc) (iy (woff w)) else Ok 0);
  do z <- (if 1 <? iz (wglob w) then iadd (iz loc) (iz (woff w)) else Ok 0);
  ijk_to_flat32 (wglob w) (IV x y z).

(** MemoryWindow.cpp:102-130 *)
Definition refine_off32 (off ext split loc : Z) : outcome Z :=
  do nextra <- imod ext split;
  do std <- idiv ext split;
  do a <- imul std loc;
  do b <- iadd off a;
  iadd b (if loc <? nextra then loc else nextra).
Definition refine_ext32 (ext split loc : Z) : outcome Z :=
  do nextra <- imod ext split;
  do std <- idiv ext split;
  iadd std (if loc <? nextra then 1 else 0).
Definition refine32 (w : window) (split loc : ivec) : outcome window :=
  do ox <- refine_off32 (ix (woff w)) (ix (wext w)) (ix split) (ix loc);
  do oy <- refine_off32 (iy (woff w)) (iy (wext w)) (iy split) (iy loc);
  do oz <- refine_off32 (iz (woff w)) (iz (wext w)) (iz split) (iz loc);
  do ex <- refine_ext32 (ix (wext w)) (ix split) (ix loc);
  do ey <- refine_ext32 (iy (wext w)) (iy split) (iy loc);
  do ez <- refine_ext32 (iz (wext w)) (iz split) (iz loc);
  Ok (Win (wglob w) (IV ox oy oz) (IV ex ey ez)).

(** MemoryWindow.h:241-255, 421-435: glob_dim, offset and extent are size_t; the
    pointer is moved by three size_t amounts, the other members are int. *)
Definition it_make32 (base : Z) (w : window) : iter :=
  let gx := u64 (ix (wglob w)) in let gy := u64 (iy (wglob w)) in
  let ex := u64 (ix (wext w)) in let ey := u64 (iy (wext w)) in let ez := u64 (iz (wext w)) in
  Iter (base + u64 (ix (woff w)) + u64 (u64 (iy (woff w)) * gx) + u64 (u64 (u64 (iz (woff w)) * gx) * gy))
       0 0 0 0
       (to_int (u64 (gx - ex)))
       (to_int (u64 (u64 (gy - ey) * gx)))
       (to_int ex) (to_int ey) (to_int ez)
       (to_int (u64 (ex * ey))).

(** MemoryWindow.h:310-325, 478-493.  Pointers are as wide as needed. *)
Definition it_incr32 (it : iter) : outcome iter :=
  let cur := icur it + 1 in
  do cnt <- iadd (icnt it) 1;
  do xi <- iadd (ixi it) 1;
  if xi =? ixe it then
    let cur := cur + iystep it in
    do yi <- iadd (iyi it) 1;
    if yi =? iye it then
      do zi <- iadd (izi it) 1;
      Ok (Iter (cur + izstep it) cnt 0 0 zi (iystep it) (izstep it) (ixe it) (iye it) (ize it) (ixye it))
    else
      Ok (Iter cur cnt 0 yi (izi it) (iystep it) (izstep it) (ixe it) (iye it) (ize it) (ixye it))
  else
    Ok (Iter cur cnt xi (iyi it) (izi it) (iystep it) (izstep it) (ixe it) (iye it) (ize it) (ixye it)).

(** MemoryWindow.h:329-344, 497-512 *)
Definition it_decr32 (it : iter) : outcome iter :=
  let cur := icur it - 1 in
  do cnt <- isub (icnt it) 1;
  do xi <- isub (ixi it) 1;
  if xi =? -1 then
    let cur := cur - iystep it in
    do xi <- isub (ixe it) 1;
    do yi <- isub (iyi it) 1;
    if yi =? -1 then
      do yi <- isub (iye it) 1;
      do zi <- isub (izi it) 1;
      Ok (Iter (cur - izstep it) cnt xi yi zi (iystep it) (izstep it) (ixe it) (iye it) (ize it) (ixye it))
    else
      Ok (Iter cur cnt xi yi (izi it) (iystep it) (izstep it) (ixe it) (iye it) (ize it) (ixye it))
  else
    Ok (Iter cur cnt xi (iyi it) (izi it) (iystep it) (izstep it) (ixe it) (iye it) (ize it) (ixye it)).

(** MemoryWindow.h:348-369, 516-539.  && evaluates its right side only if needed. *)
Definition it_advance32 (it : iter) (change : Z) : outcome iter :=
  do forw <- (if 0 <? change then do r <- isub (ixe it) (ixi it); Ok (change <? r) else Ok false);
  do small <- (if forw : bool then Ok true else
               if change <? 0 then do m <- ineg change; Ok (m <? ixi it) else Ok false);
  if small : bool then
    do xi <- iadd (ixi it) change;
    do cnt <- iadd (icnt it) change;
    Ok (Iter (icur it + change) cnt xi (iyi it) (izi it) (iystep it) (izstep it) (ixe it) (iye it) (ize it) (ixye it))
  else
    do cnt <- iadd (icnt it) change;
    do qy1 <- idiv cnt (ixe it);
    do qy0 <- idiv (icnt it) (ixe it);
    do dy <- isub qy1 qy0;
    do sy <- imul (iystep it) dy;
    do qz1 <- idiv cnt (ixye it);
    do qz0 <- idiv (icnt it) (ixye it);
    do dz <- isub qz1 qz0;
    do sz <- imul (izstep it) dz;
    do s1 <- iadd change sy;
    do s2 <- iadd s1 sz;
    do xi <- imod cnt (ixe it);
    do ry <- imod cnt (ixye it);
    do yi <- idiv ry (ixe it);
    do zi <- idiv cnt (ixye it);
    Ok (Iter (icur it + s2) cnt xi yi zi (iystep it) (izstep it) (ixe it) (iye it) (ize it) (ixye it)).
(** MemoryWindow.h:370, 374 *)
Definition it_retreat32 (it : iter) (change : Z) : outcome iter :=
  do m <- ineg change; it_advance32 it m.
(** MemoryWindow.h:377 *)
Definition it_diff32 (a b : iter) : outcome Z := isub (icnt a) (icnt b).

(** SpatialField.h:1146-1186: the size_t product of the extents, converted to int *)
Definition it_end32 (base : Z) (w : window) : outcome iter :=
  it_advance32 (it_make32 base w) (to_int (u64 (u64 (u64 (ix (wext w)) * u64 (iy (wext w))) * u64 (iz (wext w))))).

(** while( it != end ){ use *it; ++it; }: the positions visited *)
Fixpoint it_loop32 (fuel : nat) (it e : iter) : outcome (option (list iter)) :=
  if it_eqb it e then Ok (Some []) else
  match fuel with
  | O => Ok None
  | S k => do n <- it_incr32 it; do r <- it_loop32 k n e; Ok (option_map (cons it) r)
  end.

(** BitField.h:299-319 (find_position, debug assertions omitted), 321, 323 *)
Definition find_position32 (w : window) (p : ivec) : outcome Z :=
  do xIndex <- iadd (ix (woff w)) (ix p);
  do yIndex <- iadd (iy (woff w)) (iy p);
  do zIndex <- iadd (iz (woff w)) (iz p);
  do a <- imul (iy (wglob w)) zIndex;
  do b <- iadd yIndex a;
  do c <- imul (ix (wglob w)) b;
  iadd xIndex c.
(** BitField.h:28: size_t arithmetic converted to int *)
Definition round_to_int32 (size : Z) : Z := to_int (Z.quot (u64 (size + 32 - 1)) 32).
