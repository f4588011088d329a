(** Model of structured/Grid.cpp in double precision (IEEE-754 binary64, rounding
    to nearest even after every operation). *)
From Verif Require Import Prelude WindowM GhostM FieldM MaskM NeboM StencilM GridM RoundM.
Open Scope Z_scope.

(** Grid.h:39-41: npts_, length_, spacing_ *)
Record grid64 := MkGrid64 { g64_npts : ivec; g64_length : list dbl; g64_spacing : list dbl }.

(** Grid.cpp:38-47 (constructor, release build) *)
Definition make_grid64 (npts : ivec) (length : list dbl) : outcome grid64 :=
  do lx <- vec_at length 0; do ly <- vec_at length 1; do lz <- vec_at length 2;
  Ok (MkGrid64 npts length
        [ddiv lx (dlit (ix npts) 0); ddiv ly (dlit (iy npts) 0); ddiv lz (dlit (iz npts) 0)]).

(** Grid.cpp:56-60 (spacing) *)
Definition grid64_spacing (g : grid64) (d : dir) : outcome dbl := vec_at (g64_spacing g) (get_dir d).

(** Grid.cpp:30-36 (shift) *)
Definition shift64 (d : dir) (l : loc) : dbl := dmul d_half (dlit (1 + iv_at (offset l) d) 0).

(** Grid.cpp:64-90 (set_coord).  The difference of indices is an int: undefined
    behaviour if it does not fit. *)
Definition set_coord64 (g : grid64) (d : dir) (l : loc) (f : field) : prog dbl unit :=
  let* sp := lift (grid64_spacing g d) in
  let off := dmul (shift64 d l) sp in
  let* it := lift (field_begin f) in
  let hi := wext (fwin f) in
  let ixOffset := iv_at (woff (fint f)) d in
  let* _ := for_range (Z.to_nat (iz hi)) 0 it (fun z it =>
    for_range (Z.to_nat (iy hi)) 0 it (fun y it =>
      for_range (Z.to_nat (ix hi)) 0 it (fun x it =>
        let k := iv_at (IV x y z) d - ixOffset in
        if (- 2 ^ 31 <=? k) && (k <? 2 ^ 31) then
          Store (fbuf f) (icur it) (dadd (dmul sp (dlit k 0)) off) (Ret (it_incr it))
        else PUB))) in
  Ret tt.
