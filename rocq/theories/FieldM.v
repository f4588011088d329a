(** Model of the window bookkeeping of SpatialField. *)
From Verif Require Import Prelude WindowM GhostM.

(** FVTools.h:73-81 (get_dim_with_ghost) *)
Definition get_dim_with_ghost (n minus plus bc : Z) : Z :=
  if 1 <? n then n + minus + plus + bc else 1.

(** FVTools.h:100-108 (get_window_with_ghost) *)
Definition get_window_with_ghost (dim : ivec) (g : ghost) (bc : bcinfo) : window :=
  win_full
    (IV (get_dim_with_ghost (ix dim) (ix (gminus g)) (ix (gplus g)) (ix (has_extra bc)))
        (get_dim_with_ghost (iy dim) (iy (gminus g)) (iy (gplus g)) (iy (has_extra bc)))
        (get_dim_with_ghost (iz dim) (iz (gminus g)) (iz (gplus g)) (iz (has_extra bc)))).

(** SpatialField.h:125-150: the members that matter on the CPU.  [fbuf] names
    the memory block fieldValues_ points to. *)
Record field := Field {
  fwin : window;       (* fieldWindow_ *)
  fint : window;       (* interiorFieldWindow_ *)
  fbc : bcinfo;        (* bcInfo_ *)
  fghosts : ghost;     (* ghosts_ *)
  fvalid : ghost;      (* validGhosts_ *)
  fbuf : nat;          (* fieldValues_ *)
  freadonly : bool;    (* readOnly_ *)
  fdisint : bool;      (* disableInterior_ *)
  fparts : Z           (* partitionCount_ *)
}.

(** SpatialField.h:585-594: interior window, one direction *)
Definition int_off1 (off ext gm : Z) : Z := if 1 <? ext then off + gm else off.
Definition int_ext1 (ext gm gp : Z) : Z := if 1 <? ext then ext - (gm + gp) else ext.
Definition interior_window (w : window) (g : ghost) : window :=
  Win (wglob w)
    (IV (int_off1 (ix (woff w)) (ix (wext w)) (ix (gminus g)))
        (int_off1 (iy (woff w)) (iy (wext w)) (iy (gminus g)))
        (int_off1 (iz (woff w)) (iz (wext w)) (iz (gminus g))))
    (IV (int_ext1 (ix (wext w)) (ix (gminus g)) (ix (gplus g)))
        (int_ext1 (iy (wext w)) (iy (gminus g)) (iy (gplus g)))
        (int_ext1 (iz (wext w)) (iz (gminus g)) (iz (gplus g)))).

(** SpatialField.h:534-627 (constructor, LOCAL_RAM).  [buf] is the block
    obtained from the pool or passed by the caller; [nthreads] is NTHREADS. *)
Definition field_make (w : window) (bc : bcinfo) (g : ghost) (buf : nat) (nthreads : Z) : field :=
  Field w (interior_window w g) bc g g buf false false nthreads.

(** SpatialField.h:631-654 (copy constructor): shares storage. *)
Definition field_copy (f : field) : field := f.

(** SpatialField.h:682-696: does the window cut into the interior? *)
Definition cuts_interior (w wi : window) : bool :=
  (ix (woff wi) <? ix (woff w)) || (iy (woff wi) <? iy (woff w)) || (iz (woff wi) <? iz (woff w))
  || (ix (wext w) + ix (woff w) <? ix (woff wi) + ix (wext wi))
  || (iy (wext w) + iy (woff w) <? iy (woff wi) + iy (wext wi))
  || (iz (wext w) + iz (woff w) <? iz (woff wi) + iz (wext wi)).

(** SpatialField.h:658-712 (constructor from a window and a field).  The valid
    ghosts are reset to ALL ghosts of the parent.  Debug assertions omitted. *)
Definition field_window (w : window) (f : field) : field :=
  Field w (fint f) (fbc f) (fghosts f) (fghosts f) (fbuf f) (freadonly f)
        (if cuts_interior w (fint f) then true else fdisint f) (fparts f).

(** SpatialField.h:409-414 (set_partition_count) *)
Definition set_partition_count (f : field) (n : Z) : field :=
  Field (fwin f) (fint f) (fbc f) (fghosts f) (fvalid f) (fbuf f) (freadonly f) (fdisint f) n.

(** SpatialField.h:461-467 (reset_valid_ghosts) *)
Definition reset_valid_ghosts (f : field) (g : ghost) : field :=
  let diff := iv_sub (gminus (fvalid f)) (gminus g) in
  Field (Win (wglob (fwin f)) (iv_add (woff (fwin f)) diff)
             (iv_add (iv_sub (iv_sub (wext (fwin f)) diff) (gplus (fvalid f))) (gplus g)))
        (fint f) (fbc f) (fghosts f) g (fbuf f) (freadonly f) (fdisint f) (fparts f).

(** SpatialField.h:479-487 (reshape) *)
Definition reshape (f : field) (extentModify shift : ivec) : field :=
  field_window (Win (wglob (fwin f)) (iv_add (woff (fwin f)) shift)
                    (iv_add (wext (fwin f)) extentModify)) f.

(** NeboBasic.h:119-133 (resize_ghost) *)
Definition resize_ghost (f : field) (minus plus : ivec) : field :=
  let oldMinus := gminus (fvalid f) in
  let oldPlus := gplus (fvalid f) in
  let offsetChange := iv_sub oldMinus minus in
  let extentChange := iv_sub (iv_sub (iv_add minus plus) oldMinus) oldPlus in
  reshape f extentChange offsetChange.

(** NeboBasic.h:135-139 (shift_window) *)
Definition shift_window (f : field) (shift : ivec) : field := reshape f iv_zero shift.

(** NeboBasic.h:141-150 (resize_ghost_and_shift_window) *)
Definition resize_ghost_and_shift_window (f : field) (minus plus shift : ivec) : field :=
  shift_window (resize_ghost f minus plus) shift.

(** SpatialField.h:279-297 (begin), 1168-1186 (end), 322-348 (interior_begin),
    1214-1245 (interior_end): non-const iterator access on local memory. *)
Definition field_begin (f : field) : outcome iter :=
  if freadonly f then Throw else Ok (it_begin 0 (fwin f)).
Definition field_end (f : field) : outcome iter :=
  it_end 0 (fwin f).
Definition field_interior_begin (f : field) : outcome iter :=
  if freadonly f || fdisint f then Throw else Ok (it_begin 0 (fint f)).
Definition field_interior_end (f : field) : outcome iter :=
  if freadonly f || fdisint f then Throw else it_end 0 (fint f).
(** const versions: SpatialField.h:267-277 (begin), 1146-1163 (end), 302-320
    (interior_begin), 1190-1209 (interior_end), local memory *)
Definition field_cbegin (f : field) : outcome iter := Ok (it_begin 0 (fwin f)).
Definition field_cend (f : field) : outcome iter := it_end 0 (fwin f).
Definition field_interior_cbegin (f : field) : outcome iter :=
  if fdisint f then Throw else Ok (it_begin 0 (fint f)).
Definition field_interior_cend (f : field) : outcome iter :=
  if fdisint f then Throw else it_end 0 (fint f).
