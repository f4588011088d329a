(** Model of bit-packed masks. *)
From Verif Require Import Prelude WindowM GhostM FieldM.

(** BitField.h:26: bits per block (unsigned int of 4 bytes). *)
Definition INT_BIT : Z := 32.

(** BitField.h:28 (NEBO_ROUND_TO_INT) *)
Definition round_to_int (size : Z) : Z := Z.quot (size + INT_BIT - 1) INT_BIT.

(** Access to the block array; outside the array is undefined behaviour. *)
Definition word_get (words : list Z) (blk : Z) : outcome Z :=
  if (0 <=? blk) && (blk <? Z.of_nat (length words)) then Ok (nth (Z.to_nat blk) words 0) else UB.
Fixpoint list_set (l : list Z) (n : nat) (v : Z) : list Z :=
  match l, n with
  | [], _ => []
  | _ :: t, O => v :: t
  | h :: t, S k => h :: list_set t k v
  end.
Definition word_set (words : list Z) (blk v : Z) : outcome (list Z) :=
  if (0 <=? blk) && (blk <? Z.of_nat (length words)) then Ok (list_set words (Z.to_nat blk) v) else UB.

(** 1 << bit, undefined for a bit position outside [0,32).
    (Bit 31 sets the sign bit of an int; its conversion to unsigned int is
    modelled as 2^31, which is what the implementation does.) *)
Definition one_shl (bit : Z) : outcome Z :=
  if (0 <=? bit) && (bit <? INT_BIT) then Ok (Z.shiftl 1 bit) else UB.

(** BitField.h:299-319 (find_position): debug assertions omitted *)
Definition find_position (w : window) (p : ivec) : Z :=
  let xIndex := ix (woff w) + ix p in
  let yIndex := iy (woff w) + iy p in
  let zIndex := iz (woff w) + iz p in
  xIndex + ix (wglob w) * (yIndex + iy (wglob w) * zIndex).

(** BitField.h:321, 323 (find_block, find_bit_position) *)
Definition find_block (flat : Z) : Z := Z.quot flat INT_BIT.
Definition find_bit (flat : Z) : Z := Z.rem flat INT_BIT.

(** BitField.h:325-340 (add_point, LOCAL_RAM) *)
Definition add_point (w : window) (words : list Z) (p : ivec) : outcome (list Z) :=
  let position := find_position w p in
  do old <- word_get words (find_block position);
  do m <- one_shl (find_bit position);
  word_set words (find_block position) (Z.lor old m).

(** BitField.h:342-346 (add_points) *)
Fixpoint add_points (w : window) (words : list Z) (ps : list ivec) : outcome (list Z) :=
  match ps with
  | [] => Ok words
  | p :: rest => do words' <- add_point w words p; add_points w words' rest
  end.

(** BitField.h:358-401 (constructor): size_ blocks, reset_values (278-297), add_points. *)
Definition bitfield_make (w : window) (ps : list ivec) : outcome (list Z) :=
  add_points w (repeat 0 (Z.to_nat (round_to_int (glob_npts w)))) ps.

(** BitField.h:465-480 (operator()) *)
Definition bitfield_query (w : window) (words : list Z) (p : ivec) : outcome bool :=
  let position := find_position w p in
  do blk <- word_get words (find_block position);
  do m <- one_shl (find_bit position);
  Ok (negb (Z.land blk m =? 0)).

(** SpatialMask.h:84-94: window, interior window, boundary info, ghosts and
    valid ghosts have the same meaning as in SpatialField, so the geometry is
    stored as a [field] (its buffer, read-only, interior and partition entries
    are not used for masks); [mwords] are the blocks of the BitField. *)
Record mask := Mask { mgeo : field; mwords : list Z }.

(** SpatialMask.h:118-131 (constructor from a prototype field): the BitField is
    built on the interior window, so points are relative to the first interior
    cell. *)
Definition mask_make (prototype : field) (ps : list ivec) : outcome mask :=
  do words <- bitfield_make (fint prototype) ps;
  Ok (Mask prototype words).

(** SpatialMask.h:189 (operator()) *)
Definition mask_query (m : mask) (p : ivec) : outcome bool :=
  bitfield_query (fint (mgeo m)) (mwords m) p.

(** SpatialMask.h:150-170 (constructor from a window) and 255-262 (reshape);
    NeboBasic.h:119-150 instantiated with masks. *)
Definition mask_window (w : window) (m : mask) : mask := Mask (field_window w (mgeo m)) (mwords m).
Definition mask_resize_ghost (m : mask) (minus plus : ivec) : mask :=
  Mask (resize_ghost (mgeo m) minus plus) (mwords m).
Definition mask_shift_window (m : mask) (shift : ivec) : mask :=
  Mask (shift_window (mgeo m) shift) (mwords m).
Definition mask_resize_ghost_and_shift_window (m : mask) (minus plus shift : ivec) : mask :=
  mask_shift_window (mask_resize_ghost m minus plus) shift.

(** BitField.h:218-231: members of ConstMaskIterator (bitField_ is kept
    separately). *)
Record miter := MIter {
  mbit : Z; mblk : Z; mcnt : Z; msize : Z; mxi : Z; myi : Z; mzi : Z;
  mystep : Z; mzstep : Z; mxe : Z; mye : Z; mze : Z; mxye : Z }.

(** BitField.h:49-71 (constructor) *)
Definition mit_make (w : window) : miter :=
  let flat := ix (woff w) + ix (wglob w) * (iy (woff w) + iy (wglob w) * iz (woff w)) in
  MIter (Z.rem flat INT_BIT) (Z.quot flat INT_BIT) 0 (round_to_int (glob_npts w)) 0 0 0
        (ix (wglob w) - ix (wext w)) ((iy (wglob w) - iy (wext w)) * ix (wglob w))
        (ix (wext w)) (iy (wext w)) (iz (wext w)) (ix (wext w) * iy (wext w)).

(** BitField.h:209-216 (update_positions) *)
Definition update_positions (bit blk : Z) : Z * Z :=
  if (bit <? 0) || (INT_BIT <=? bit) then
    let flat := blk * INT_BIT + bit in (Z.rem flat INT_BIT, Z.quot flat INT_BIT)
  else (bit, blk).

Definition mit_with (m : miter) (bit cnt xi yi zi : Z) : miter :=
  let '(bit', blk') := update_positions bit (mblk m) in
  MIter bit' blk' cnt (msize m) xi yi zi (mystep m) (mzstep m) (mxe m) (mye m) (mze m) (mxye m).

(** BitField.h:114-132 (operator++) *)
Definition mit_incr (m : miter) : miter :=
  let bit := mbit m + 1 in
  let cnt := mcnt m + 1 in
  let xi := mxi m + 1 in
  if xi =? mxe m then
    let bit := bit + mystep m in
    let yi := myi m + 1 in
    if yi =? mye m then mit_with m (bit + mzstep m) cnt 0 0 (mzi m + 1)
    else mit_with m bit cnt 0 yi (mzi m)
  else mit_with m bit cnt xi (myi m) (mzi m).

(** BitField.h:138-157 (operator--) *)
Definition mit_decr (m : miter) : miter :=
  let bit := mbit m - 1 in
  let cnt := mcnt m - 1 in
  let xi := mxi m - 1 in
  if xi =? -1 then
    let bit := bit - mystep m in
    let yi := myi m - 1 in
    if yi =? -1 then mit_with m (bit - mzstep m) cnt (mxe m - 1) (mye m - 1) (mzi m - 1)
    else mit_with m bit cnt (mxe m - 1) yi (mzi m)
  else mit_with m bit cnt xi (myi m) (mzi m).

(** BitField.h:162-185 (operator+=) *)
Definition mit_advance (m : miter) (change : Z) : outcome miter :=
  if ((0 <? change) && (change <? mxe m - mxi m)) || ((change <? 0) && (- change <? mxi m))
  then Ok (mit_with m (mbit m + change) (mcnt m + change) (mxi m + change) (myi m) (mzi m))
  else
    let new_count := mcnt m + change in
    let old_count := mcnt m in
    do qy1 <- cdiv new_count (mxe m);
    do qy0 <- cdiv old_count (mxe m);
    do qz1 <- cdiv new_count (mxye m);
    do qz0 <- cdiv old_count (mxye m);
    do xi <- cmod new_count (mxe m);
    do ry <- cmod new_count (mxye m);
    do yi <- cdiv ry (mxe m);
    do zi <- cdiv new_count (mxye m);
    Ok (mit_with m (mbit m + (change + mystep m * (qy1 - qy0) + mzstep m * (qz1 - qz0)))
                 new_count xi yi zi).

(** BitField.h:74-112 (operator* ), release build *)
Definition mit_deref (words : list Z) (m : miter) : outcome bool :=
  do blk <- word_get words (mblk m);
  do b <- one_shl (mbit m);
  Ok (negb (Z.land blk b =? 0)).

(** BitField.h:75-110: the debug-build checks of operator* *)
Definition mit_deref_ok (m : miter) : bool :=
  negb ((mbit m <? 0) || (INT_BIT <=? mbit m))
  && negb ((mblk m <? 0) || (msize m <=? mblk m))
  && (mcnt m =? mxi m + myi m * mxe m + mzi m * mxye m)
  && negb ((mxe m <=? mxi m) || (mye m <=? myi m) || (mze m <=? mzi m)
           || (mxi m <? 0) || (myi m <? 0) || (mzi m <? 0)).

(** BitField.h:200-201 (operator==), iterators over the same mask *)
Definition mit_eqb (a b : miter) : bool := mcnt a =? mcnt b.

(** BitField.h:486-512 (begin, end): end is begin advanced by the product of
    the extents of the window. *)
Definition mit_begin (w : window) : miter := mit_make w.
Definition mit_end (w : window) : outcome miter :=
  mit_advance (mit_make w) (ix (wext w) * iy (wext w) * iz (wext w)).
