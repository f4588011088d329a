(** Specification for assignments with machine integers. *)
From Verif Require Import Prelude WindowM GhostM FieldM MaskM NeboM NeboS OvAsgM.

(** Every field and mask the expression reads has at most 2^28 points (2 GB of
    doubles), ghost cells included. *)
Definition small_operands (V : Type) (e : expr V) : Prop :=
  (forall g s, In (g, s) (reads V e iv_zero) -> glob_npts (fwin g) <= 2 ^ 28) /\
  (forall k s, In (k, s) (masks V e iv_zero) -> glob_npts (fwin (mgeo k)) <= 2 ^ 28).

(** ++ applied k times to a mask iterator. *)
Fixpoint mit_steps32 (k : nat) (m : miter) : outcome miter :=
  match k with O => Ok m | S k => do n <- mit_incr32 m; mit_steps32 k n end.
