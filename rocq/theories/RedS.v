(** Specification vocabulary for reductions of fields of doubles. *)
From Coq Require Import Reals.
From Verif Require Import Prelude WindowM WindowS GhostM FieldM FieldS MaskM NeboM NeboS RoundM RoundS RedM.
Open Scope R_scope.

(** The cells a reduction covers: those of the patch, or all where the expression
    is known. *)
Definition covered (interior : bool) (n : ivec) (e : expr dbl) (p : ivec) : Prop :=
  if interior then in_box n p else expr_known dbl n e p.
(** The reduction is defined: operands are fields of the patch, there is a field
    among them, and the expression is known where it is needed. *)
Definition reducible (interior : bool) (n : ivec) (h : heap dbl) (e : expr dbl) : Prop :=
  operands_ok dbl n h e /\ has_leaf dbl e = true /\
  (if interior then pos_dims n /\ forall p, in_box n p -> expr_known dbl n e p else exists p, expr_known dbl n e p).
(** l lists each cell with P once. *)
Definition each_once (P : ivec -> Prop) (l : list ivec) : Prop := NoDup l /\ forall p, In p l <-> P p.
(** f computes r: with enough steps it ends, leaves memory alone and returns r. *)
Definition returns (f : nat -> prog dbl dbl) (h : heap dbl) (r : dbl) : Prop :=
  exists N, forall fuel, (N <= fuel)%nat -> run (f fuel) h = RDone h r.
(** The first covered cell in memory order. *)
Definition first_cell (P : ivec -> Prop) (p : ivec) : Prop := P p /\ forall q, P q -> q = p \/ before p q.
(** Positive infinity. *)
Definition infinity : dbl := B754_infinity false.
(** pow(x, 2) is right to within 2^-52 (one unit in the last place) where the
    square neither overflows nor underflows, and keeps NaN. *)
Definition square_ok (pow2 : dbl -> dbl) : Prop :=
  pow2 NaN = NaN /\
  forall x, finite x -> val x = 0 \/ powerRZ 2 (-500) <= Rabs (val x) -> Rabs (val x) <= powerRZ 2 511 ->
    finite (pow2 x) /\ Rabs (val (pow2 x) - val x * val x) <= powerRZ 2 (-52) * (val x * val x).
