(** Specification for boundary-condition operators. *)
From Verif Require Import Prelude WindowM WindowS GhostM FieldM FieldS MaskM NeboM NeboS StencilM StencilS BCM.

(** The cell of phi next to gamma's point g on one side: half a spacing below
    (minus) or above in the directions in which the two locations differ. *)
Definition next_to (minus : bool) (gam phi g p : ivec) : Prop :=
  forall d, comp d (place phi p) =
    comp d (place gam g) + (if comp d gam =? comp d phi then 0 else if minus then -1 else 1).

(** What a two-point operator with these points and coefficients returns at g. *)
Definition two_point (h : heap Qc) (phi : field) (p0 p1 : ivec) (c0 c1 : Qc) (g : ivec) : Qc :=
  (c0 * value Qc h phi (iv_add g p0) + c1 * value Qc h phi (iv_add g p1))%Qc.

(** Two heaps differ at most in the cells in C. *)
Definition only_changed (h h' : heap Qc) (C : nat -> Z -> Prop) : Prop :=
  (forall b i, bcells (h' b) i = bcells (h b) i) /\
  (forall b i, ~ C b i -> bdata (h' b) i = bdata (h b) i).

(** A field's ghosts are counts below the library's "infinite" limit. *)
Definition finite_ghosts (f : field) : Prop :=
  let e := has_extra (fbc f) in
  iv_le iv_zero e /\ g_nonneg (fghosts f) /\
  iv_le (gminus (fghosts f)) (IV (GHOST_MAX - 1) (GHOST_MAX - 1) (GHOST_MAX - 1)) /\
  iv_le (iv_add (gplus (fghosts f)) e) (IV (GHOST_MAX - 1) (GHOST_MAX - 1) (GHOST_MAX - 1)) /\
  ginf (fghosts f) = false.

(** Grid point p (0-based on the interior) lies inside f's block. *)
Definition in_block (f : field) (p : ivec) : Prop := in_box (wglob (fint f)) (iv_add (woff (fint f)) p).
(** The whole block of f exists in memory. *)
Definition block_exists (h : heap Qc) (f : field) : Prop :=
  forall p, in_block f p -> bcells (h (fbuf f)) (cell f p) = true.
