(** Specification vocabulary for comparing fields of doubles. *)
From Coq Require Import Reals.
From Verif Require Import Prelude WindowM GhostM FieldM MaskM NeboM RoundM RoundS.
Open Scope R_scope.

(** x == y: neither is NaN, and they are the same double or both zero. *)
Definition same (x y : dbl) : Prop := x <> NaN /\ y <> NaN /\ (x = y \/ (finite x /\ finite y /\ val x = 0 /\ val y = 0)).
(** +0 or -0 *)
Definition is_zero (x : dbl) : Prop := finite x /\ val x = 0.
(** At most t apart, as real numbers. *)
Definition apart_at_most (t : R) (x y : dbl) : Prop := finite x /\ finite y /\ Rabs (val x - val y) <= t.
(** The pairs a comparison with a tolerance lets pass whatever the tolerance is:
    a NaN with anything, an infinity with itself. *)
Definition unnoticed (x y : dbl) : Prop := x = NaN \/ y = NaN \/ (x = y /\ ~ finite x).
(** f ends with enough steps, leaves memory alone and returns r. *)
Definition says (f : nat -> prog dbl bool) (h : heap dbl) (r : bool) : Prop :=
  exists N, forall fuel, (N <= fuel)%nat -> run (f fuel) h = RDone h r.
