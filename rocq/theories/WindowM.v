(** Model of index arithmetic, memory windows and field iterators.
    Integers are unbounded [Z]; overflow is not modelled. *)
From Verif Require Import Prelude.

(** spatialops/structured/Numeric3Vec.h:45-56 (class Numeric3Vec, instance int:
    IntVec.h:41). *)
Record ivec := IV { ix : Z; iy : Z; iz : Z }.

(** Numeric3Vec.h:93-107, componentwise +, -, *. *)
Definition iv_add (a b : ivec) := IV (ix a + ix b) (iy a + iy b) (iz a + iz b).
Definition iv_sub (a b : ivec) := IV (ix a - ix b) (iy a - iy b) (iz a - iz b).
Definition iv_mul (a b : ivec) := IV (ix a * ix b) (iy a * iy b) (iz a * iz b).
Definition iv_zero := IV 0 0 0.
(** Numeric3Vec.h:84-86 *)
Definition iv_eqb (a b : ivec) : bool := (ix a =? ix b) && (iy a =? iy b) && (iz a =? iz b).
(** IntVec.h:67-71 *)
Definition iv_min (a b : ivec) : ivec :=
  IV (if ix a <? ix b then ix a else ix b)
     (if iy a <? iy b then iy a else iy b)
     (if iz a <? iz b then iz a else iz b).

(** IntVec.h:49-53 (ijk_to_flat).  The assertions 0 <= loc < dim are debug
    only; they are preconditions of the theorems. *)
Definition ijk_to_flat (dim loc : ivec) : Z :=
  ix loc + iy loc * ix dim + iz loc * ix dim * iy dim.

(** IntVec.h:61-65 (flat_to_ijk): C++ / and %. *)
Definition flat_to_ijk (dim : ivec) (pt : Z) : outcome ivec :=
  do x <- cmod pt (ix dim);
  do q <- cdiv pt (ix dim);
  do y <- cmod q (iy dim);
  do z <- cdiv pt (ix dim * iy dim);
  Ok (IV x y z).

(** MemoryWindow.h:65-71 *)
Record window := Win { wglob : ivec; woff : ivec; wext : ivec }.

(** MemoryWindow.cpp:68-74: window covering the whole block. *)
Definition win_full (npts : ivec) : window := Win npts iv_zero npts.

(** MemoryWindow.cpp:31-32, 139-146 (sanity_check). *)
Definition iv_positive (v : ivec) : bool := (0 <? ix v) && (0 <? iy v) && (0 <? iz v).
Definition iv_ge_zero (v : ivec) : bool := (0 <=? ix v) && (0 <=? iy v) && (0 <=? iz v).
Definition sanity_check (w : window) : bool :=
  iv_positive (wglob w) && iv_ge_zero (woff w) && iv_ge_zero (wext w)
  && iv_ge_zero (iv_sub (wglob w) (wext w)).

(** MemoryWindow.h:173-179 *)
Definition glob_npts (w : window) : Z := ix (wglob w) * iy (wglob w) * iz (wglob w).
Definition local_npts (w : window) : Z := ix (wext w) * iy (wext w) * iz (wext w).

(** MemoryWindow.h:139-149 (flat_index) *)
Definition flat_index (w : window) (loc : ivec) : Z :=
  ijk_to_flat (wglob w)
    (IV (if 1 <? ix (wglob w) then ix loc + ix (woff w) else 0)
        (if 1 <? iy (wglob w) then iy loc + iy (woff w) else 0)
        (if 1 <? iz (wglob w) then iz loc + iz (woff w) else 0)).

(** MemoryWindow.h:156-158, 165-167 *)
Definition ijk_index_from_global (w : window) (loc : Z) : outcome ivec := flat_to_ijk (wglob w) loc.
Definition ijk_index_from_local (w : window) (loc : Z) : outcome ivec := flat_to_ijk (wext w) loc.

(** MemoryWindow.h:192-196 (operator==) *)
Definition win_eqb (a b : window) : bool :=
  iv_eqb (wglob a) (wglob b) && iv_eqb (wext a) (wext b) && iv_eqb (woff a) (woff b).

(** MemoryWindow.cpp:102-130 (refine), one direction at a time; the C++ code
    repeats the same expression for the three directions. *)
Definition refine_off1 (off ext split loc : Z) : outcome Z :=
  do nextra <- cmod ext split;
  do std <- cdiv ext split;
  Ok (off + std * loc + (if loc <? nextra then loc else nextra)).
Definition refine_ext1 (ext split loc : Z) : outcome Z :=
  do nextra <- cmod ext split;
  do std <- cdiv ext split;
  Ok (std + (if loc <? nextra then 1 else 0)).
Definition refine (w : window) (split loc : ivec) : outcome window :=
  do ox <- refine_off1 (ix (woff w)) (ix (wext w)) (ix split) (ix loc);
  do oy <- refine_off1 (iy (woff w)) (iy (wext w)) (iy split) (iy loc);
  do oz <- refine_off1 (iz (woff w)) (iz (wext w)) (iz split) (iz loc);
  do ex <- refine_ext1 (ix (wext w)) (ix split) (ix loc);
  do ey <- refine_ext1 (iy (wext w)) (iy split) (iy loc);
  do ez <- refine_ext1 (iz (wext w)) (iz split) (iz loc);
  Ok (Win (wglob w) (IV ox oy oz) (IV ex ey ez)).

(** MemoryWindow.h:392-403: the fields of FieldIterator.  ConstFieldIterator
    (562-573) has the same fields and the same arithmetic, so one model serves
    both.  [icur] is the pointer, as an element index relative to the block
    base passed to the constructor. *)
Record iter := Iter {
  icur : Z; icnt : Z; ixi : Z; iyi : Z; izi : Z;
  iystep : Z; izstep : Z; ixe : Z; iye : Z; ize : Z; ixye : Z }.

(** MemoryWindow.h:241-255, 421-435 (constructor) *)
Definition it_make (base : Z) (w : window) : iter :=
  Iter (base + ix (woff w) + iy (woff w) * ix (wglob w)
        + iz (woff w) * ix (wglob w) * iy (wglob w))
       0 0 0 0
       (ix (wglob w) - ix (wext w))
       ((iy (wglob w) - iy (wext w)) * ix (wglob w))
       (ix (wext w)) (iy (wext w)) (iz (wext w))
       (ix (wext w) * iy (wext w)).

(** MemoryWindow.h:310-325, 478-493 (operator++) *)
Definition it_incr (it : iter) : iter :=
  let cur := icur it + 1 in
  let cnt := icnt it + 1 in
  let xi := ixi it + 1 in
  if xi =? ixe it then
    let cur := cur + iystep it in
    let yi := iyi it + 1 in
    if yi =? iye it then
      Iter (cur + izstep it) cnt 0 0 (izi it + 1) (iystep it) (izstep it) (ixe it) (iye it) (ize it) (ixye it)
    else
      Iter cur cnt 0 yi (izi it) (iystep it) (izstep it) (ixe it) (iye it) (ize it) (ixye it)
  else
    Iter cur cnt xi (iyi it) (izi it) (iystep it) (izstep it) (ixe it) (iye it) (ize it) (ixye it).

(** MemoryWindow.h:329-344, 497-512 (operator--) *)
Definition it_decr (it : iter) : iter :=
  let cur := icur it - 1 in
  let cnt := icnt it - 1 in
  let xi := ixi it - 1 in
  if xi =? -1 then
    let cur := cur - iystep it in
    let yi := iyi it - 1 in
    if yi =? -1 then
      Iter (cur - izstep it) cnt (ixe it - 1) (iye it - 1) (izi it - 1) (iystep it) (izstep it) (ixe it) (iye it) (ize it) (ixye it)
    else
      Iter cur cnt (ixe it - 1) yi (izi it) (iystep it) (izstep it) (ixe it) (iye it) (ize it) (ixye it)
  else
    Iter cur cnt xi (iyi it) (izi it) (iystep it) (izstep it) (ixe it) (iye it) (ize it) (ixye it).

(** MemoryWindow.h:348-369, 516-539 (operator+=) *)
Definition it_advance (it : iter) (change : Z) : outcome iter :=
  if ((0 <? change) && (change <? ixe it - ixi it)) || ((change <? 0) && (- change <? ixi it))
  then Ok (Iter (icur it + change) (icnt it + change) (ixi it + change) (iyi it) (izi it)
                (iystep it) (izstep it) (ixe it) (iye it) (ize it) (ixye it))
  else
    do qy1 <- cdiv (icnt it + change) (ixe it);
    do qy0 <- cdiv (icnt it) (ixe it);
    do qz1 <- cdiv (icnt it + change) (ixye it);
    do qz0 <- cdiv (icnt it) (ixye it);
    let cnt := icnt it + change in
    do xi <- cmod cnt (ixe it);
    do ry <- cmod cnt (ixye it);
    do yi <- cdiv ry (ixe it);
    do zi <- cdiv cnt (ixye it);
    Ok (Iter (icur it + (change + iystep it * (qy1 - qy0) + izstep it * (qz1 - qz0)))
             cnt xi yi zi (iystep it) (izstep it) (ixe it) (iye it) (ize it) (ixye it)).

(** MemoryWindow.h:370, 374 (operator-=, operator-(int)) *)
Definition it_retreat (it : iter) (change : Z) : outcome iter := it_advance it (- change).

(** MemoryWindow.h:377 (iterator difference) *)
Definition it_diff (a b : iter) : Z := icnt a - icnt b.

(** MemoryWindow.h:383-388 (comparisons are on the pointer) *)
Definition it_eqb (a b : iter) : bool := icur a =? icur b.
Definition it_ltb (a b : iter) : bool := icur a <? icur b.
Definition it_leb (a b : iter) : bool := icur a <=? icur b.
Definition it_gtb (a b : iter) : bool := icur b <? icur a.
Definition it_geb (a b : iter) : bool := icur b <=? icur a.

(** MemoryWindow.h:390 *)
Definition it_location (it : iter) : ivec := IV (ixi it) (iyi it) (izi it).

(** MemoryWindow.h:259-279: the debug-build checks made by operator*. *)
Definition it_deref_ok (it : iter) : bool :=
  (icnt it =? ixi it + iyi it * ixe it + izi it * ixye it)
  && negb ((ixe it <=? ixi it) || (iye it <=? iyi it) || (ize it <=? izi it)
           || (ixi it <? 0) || (iyi it <? 0) || (izi it <? 0)).

(** MemoryWindow.h:380, 550 (operator[]): advance a copy and dereference it;
    the result is the address of the element.  A debug build makes the checks
    of operator* and throws if they fail. *)
Definition it_index (debug : bool) (it : iter) (change : Z) : outcome Z :=
  do j <- it_advance it change;
  if debug && negb (it_deref_ok j) then Throw else Ok (icur j).

(** SpatialField.h:267-297 (begin on local memory) and 1146-1186 (end):
    end is begin advanced by the product of the extents. *)
Definition it_begin (base : Z) (w : window) : iter := it_make base w.
Definition it_end (base : Z) (w : window) : outcome iter :=
  it_advance (it_make base w) (ix (wext w) * iy (wext w) * iz (wext w)).

(** The loop every user writes (and NeboLhs.h:441-444, NeboReductions.h:70-74
    contain): while( it != end ){ use *it; ++it; }.  Returns the iterators at
    which the body ran; [None] if [fuel] rounds did not suffice. *)
Fixpoint it_loop (fuel : nat) (it e : iter) : option (list iter) :=
  if it_eqb it e then Some [] else
  match fuel with
  | O => None
  | S k => option_map (cons it) (it_loop k (it_incr it) e)
  end.
