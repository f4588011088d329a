(** Specification for element access. *)
From Verif Require Import Prelude WindowM GhostM FieldM NeboM.

(** How many elements of a box come before element p (x fastest). *)
Definition rank (e p : ivec) : Z := ix p + ix e * (iy p + iy e * iz p).
(** All elements of the field's block exist. *)
Definition block_exists {V} (h : heap V) (f : field) : Prop :=
  forall i, 0 <= i < glob_npts (fwin f) -> bcells (h (fbuf f)) i = true.
