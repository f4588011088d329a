(** Model of structured/Grid.cpp.  Doubles are exact rationals (Qc). *)
From Verif Require Import Prelude WindowM GhostM FieldM MaskM NeboM StencilM.

(** Grid.h:39-41: npts_, length_, spacing_ *)
Record grid := MkGrid { gr_npts : ivec; gr_length : list Qc; gr_spacing : list Qc }.

(** std::vector::operator[] *)
Definition vec_at {A} (l : list A) (i : nat) : outcome A :=
  match nth_error l i with Some x => Ok x | None => UB end.

(** Grid.cpp:38-47 (constructor, release build).  Division by zero points gives
    0 here; the real result is an infinity or NaN. *)
Definition make_grid (npts : ivec) (length : list Qc) : outcome grid :=
  do lx <- vec_at length 0; do ly <- vec_at length 1; do lz <- vec_at length 2;
  Ok (MkGrid npts length [(lx / qc_of (ix npts))%Qc; (ly / qc_of (iy npts))%Qc; (lz / qc_of (iz npts))%Qc]).

(** Grid.cpp:49-52 (get_dir) *)
Definition get_dir (d : dir) : nat := match d with XDIR => 0 | YDIR => 1 | ZDIR => 2 end.
(** operator[] of IntVec *)
Definition iv_at (v : ivec) (d : dir) : Z := match d with XDIR => ix v | YDIR => iy v | ZDIR => iz v end.

(** Grid.cpp:56-60 (spacing) *)
Definition grid_spacing_of (g : grid) (d : dir) : outcome Qc := vec_at (gr_spacing g) (get_dir d).

(** Grid.cpp:30-36 (shift).  IndexStagger (IndexTriplet.h) is the component of the location's offset. *)
Definition shift (d : dir) (l : loc) : Qc := (half * qc_of (1 + iv_at (offset l) d))%Qc.

(** for( i=lo; i<hi; ++i ) body, with n = hi-lo rounds (none if negative) *)
Fixpoint for_range {V S} (n : nat) (i : Z) (s : S) (body : Z -> S -> prog V S) : prog V S :=
  match n with
  | O => Ret s
  | Datatypes.S n => let* s' := body i s in for_range n (i + 1) s' body
  end.

(** Grid.cpp:64-90 (set_coord) *)
Definition set_coord (g : grid) (d : dir) (l : loc) (f : field) : prog Qc unit :=
  let* sp := lift (grid_spacing_of g d) in
  let off := (shift d l * sp)%Qc in
  let* it := lift (field_begin f) in
  let hi := wext (fwin f) in
  let ixOffset := iv_at (woff (fint f)) d in
  let* _ := for_range (Z.to_nat (iz hi)) 0 it (fun z it =>
    for_range (Z.to_nat (iy hi)) 0 it (fun y it =>
      for_range (Z.to_nat (ix hi)) 0 it (fun x it =>
        Store (fbuf f) (icur it) (sp * qc_of (iv_at (IV x y z) d - ixOffset) + off)%Qc
          (Ret (it_incr it))))) in
  Ret tt.
