(** Vocabulary for C54. *)
From Verif Require Import Prelude WindowM WindowS GhostM FieldM FieldS PoolM PoolS StencilM StoreM.

(** A field of the type with location [l] as a user builds it on a patch of
    [dim] cells with physical boundaries on the plus sides given by the flags. *)
Definition built (l : loc) (dim : ivec) (bx by_ bz : bool) (g : ghost) (buf : nat) (nt : Z) : field :=
  patch_field dim bx by_ bz (bc_extra l) g buf nt.
(** In a direction with one cell: no boundary there, or the two types have equally many extra cells. *)
Definition plain1 (n : Z) (b : bool) (ef ep : Z) : Prop := 1 < n \/ b = false \/ ef = ep.
Definition plain (dim : ivec) (bx by_ bz : bool) (lf lp : loc) : Prop :=
  plain1 (ix dim) bx (ix (bc_extra lf)) (ix (bc_extra lp)) /\
  plain1 (iy dim) by_ (iy (bc_extra lf)) (iy (bc_extra lp)) /\
  plain1 (iz dim) bz (iz (bc_extra lf)) (iz (bc_extra lp)).

(** The volume types, and the face types normal to direction d. *)
Definition is_volume (l : loc) : Prop := l = SVol \/ l = XVol \/ l = YVol \/ l = ZVol.
Definition is_face (d : dir) (l : loc) : Prop :=
  exists v, is_volume v /\ match d with XDIR => x_face v | YDIR => y_face v | ZDIR => z_face v end = Some l.
(** Points of l lie half a cell below the points of SVol in direction d, and l
    is a volume type or has faces normal to d: such fields have one point more
    than the patch has cells where the patch ends at a boundary in d. *)
Definition ends_on_boundary (d : dir) (l : loc) : Prop :=
  match d with XDIR => ix (offset l) | YDIR => iy (offset l) | ZDIR => iz (offset l) end = -1 /\ (is_volume l \/ is_face d l).
