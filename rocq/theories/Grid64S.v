(** Specification of grid coordinates in double precision. *)
From Coq Require Import Reals.
From Verif Require Import Prelude WindowM GhostM FieldM MaskM NeboM NeboS StencilM StencilS RoundM RoundS.
Open Scope R_scope.

(** The length of the domain and the number of cells in direction d are ordinary. *)
Definition domain64 (npts : ivec) (Lx Ly Lz : dbl) (d : dir) : Prop :=
  let L := match d with XDIR => Lx | YDIR => Ly | ZDIR => Lz end in
  finite L /\ powerRZ 2 (-300) <= val L <= powerRZ 2 300 /\ (1 <= comp d npts < 2 ^ 31)%Z.
(** The exact width of a cell. *)
Definition width (npts : ivec) (Lx Ly Lz : dbl) (d : dir) : R :=
  val (match d with XDIR => Lx | YDIR => Ly | ZDIR => Lz end) / IZR (comp d npts).
(** Where cell p of a field at location l lies in direction d, counted in half
    cells from the lower end of the domain: 2p+1 for centres, 2p for faces. *)
Definition half_cells (l : loc) (p : ivec) (d : dir) : Z := comp d (place (offset l) p).
(** The coordinate in machine arithmetic: spacing * index + shift * spacing, with
    shift 1/2 for centres and 0 for faces. *)
Definition coord64 (npts : ivec) (Lx Ly Lz : dbl) (l : loc) (p : ivec) (d : dir) : dbl :=
  let s := spacing64 npts Lx Ly Lz d in
  dadd (dmul s (dlit (comp d p) 0)) (dmul (if (comp d (offset l) =? -1)%Z then dlit 0 0 else dlit 1 (-1)) s).
(** Every index of the field, ghosts included, fits in an int. *)
Definition int_indices (f : field) : Prop := forall d, (comp d (wext (fwin f)) < 2 ^ 31)%Z.
