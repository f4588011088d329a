(** Model of SpatialFieldStore::get: scratch fields modelled after another field,
    perhaps of another type.  CPU fields; a build without CUDA. *)
From Verif Require Import Prelude WindowM GhostM FieldM PoolM StencilM.

(** Location::BCExtra, FVStaggeredLocationTypes.h:66-69, 84-87, 102-105, 120-123.
    (SingleValue, particle and point fields have no extra cells either: as SVol.) *)
Definition bc_extra (l : loc) : ivec :=
  match l with
  | SVol | XSurfX | YSurfY | ZSurfZ => IV 0 0 0
  | SSurfX | XVol | YSurfX | ZSurfX => IV 1 0 0
  | SSurfY | YVol | XSurfY | ZSurfY => IV 0 1 0
  | SSurfZ | ZVol | XSurfZ | YSurfZ => IV 0 0 1
  end.
(** BoundaryCellInfo.h:86-90 (build<FieldT>(IntVec)); 127 (has_bc()) is [bc_is] *)
Definition bc_build (l : loc) (flags : ivec) : bcinfo :=
  bc_make (negb (ix flags =? 0)) (negb (iy flags =? 0)) (negb (iz flags =? 0)) (bc_extra l).

(** MemoryTypes.h:37-43 as far as it matters here *)
Inductive memtype := UNKNOWN | LOCAL_RAM | EXTERNAL_CUDA_GPU.

(** SpatialFieldStore.h:443-493 (get_from_window): [a] is the address new would
    return.  The debug build also zeroes the block and asserts sanity_check. *)
Definition get_from_window (st : pool) (a : nat) (w : window) (bc : bcinfo) (g : ghost) (mt : memtype) (nthreads : Z)
  : outcome (field * pool) :=
  let mw := Win (wext w) iv_zero (wext w) in
  match mt with
  | LOCAL_RAM => let '(b, _, st') := pool_get st a (glob_npts mw) in Ok (field_make mw bc g b nthreads, st')
  | _ => Throw
  end.

(** SpatialFieldStore.h:240-263 (get<FieldT,ProtoT>).  [lf], [lp]: the locations of FieldT
    and ProtoT.  The prototype lives in LOCAL_RAM. *)
Definition get_window (lf lp : loc) (f : field) : window :=
  let ws := fwin f in
  let bc := bc_build lf (bc_is (fbc f)) in
  let inc := iv_mul (bc_is bc) (iv_sub (bc_extra lf) (bc_extra lp)) in
  Win (iv_add (wglob ws) inc) (woff ws) (iv_add (wext ws) inc).
Definition store_get (st : pool) (a : nat) (lf lp : loc) (f : field) (mt : memtype) (nthreads : Z)
  : outcome (field * pool) :=
  let mt := match mt with UNKNOWN => LOCAL_RAM | _ => mt end in
  get_from_window st a (get_window lf lp f) (bc_build lf (bc_is (fbc f))) (fghosts f) mt nthreads.
