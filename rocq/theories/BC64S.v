(** Specification for boundary-condition operators in double precision. *)
From Coq Require Import Reals.
From Verif Require Import Prelude WindowM WindowS GhostM FieldM FieldS MaskM NeboM NeboS StencilM StencilS BCM BCS RoundM RoundS HeatM.
Open Scope R_scope.

(** What the operator with points p0, p1 and coefficients c0, c1 returns at g when
    applied to phi. *)
Definition applied (h : heap dbl) (phi : field) (p0 p1 : ivec) (c0 c1 : dbl) (g : ivec) : dbl :=
  denote dbl dadd dmul h (apply_op64 (StencilOp (p0, [p1]) (c0, [c1])) (EField dbl phi)) g.

(** NeboStencilBuilder.h:484-487: gamma = dest * destCoef + src * srcCoef is solved
    as dest = (gamma - src * srcCoef) / destCoef.  The cell at g + D holds this, in
    machine arithmetic, for the cell at g + S. *)
Definition solved (h : heap dbl) (phi : field) (D S : ivec) (cd cs gamma : dbl) (g : ivec) : Prop :=
  value dbl h phi (iv_add g D) = ddiv (dsub gamma (dmul (value dbl h phi (iv_add g S)) cs)) cd.

(** Two heaps differ at most in the cells in C. *)
Definition only_changed64 (h h' : heap dbl) (C : nat -> Z -> Prop) : Prop :=
  (forall b i, bcells (h' b) i = bcells (h b) i) /\
  (forall b i, ~ C b i -> bdata (h' b) i = bdata (h b) i).
(** The whole block of f exists in memory. *)
Definition block_exists64 (h : heap dbl) (f : field) : Prop :=
  forall p, in_block f p -> bcells (h (fbuf f)) (cell f p) = true.

(** Zero or of ordinary magnitude. *)
Definition usual (x : dbl) : Prop :=
  finite x /\ (val x = 0 \/ powerRZ 2 (-200) <= Rabs (val x)) /\ Rabs (val x) <= powerRZ 2 200.
(** Plus or minus a power of two. *)
Definition power_of_two (r : R) : Prop := exists k : Z, Rabs r = powerRZ 2 k.
