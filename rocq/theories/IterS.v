(** Specification: the contents of a field, as a list in iteration order (x
    fastest). *)
From Verif Require Import Prelude WindowM WindowS GhostM FieldM MaskM NeboM.

(** Block elements covered by the field's active window, in order. *)
Definition cells_of (f : field) : list Z := map (addr (fwin f)) (box_points (wext (fwin f))).
Definition contents {V} (h : heap V) (f : field) : list V := map (bdata (h (fbuf f))) (cells_of f).
(** The field has at least one cell and all its cells exist. *)
Definition live {V} (h : heap V) (f : field) : Prop :=
  pos_dims (wext (fwin f)) /\ fits (fwin f) /\ forall i, In i (cells_of f) -> bcells (h (fbuf f)) i = true.
(** The window is the whole block. *)
Definition whole_block (f : field) : Prop := woff (fwin f) = iv_zero /\ wext (fwin f) = wglob (fwin f).
(** The heaps differ at most in the given elements, and allow the same accesses. *)
Definition differs_only {V} (h h' : heap V) (P : nat -> Z -> Prop) : Prop :=
  (forall b i, bcells (h' b) i = bcells (h b) i) /\ (forall b i, ~ P b i -> bdata (h' b) i = bdata (h b) i).
