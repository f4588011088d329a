(** Specification of the analytic field functions. *)
From Coq Require Import Reals.
From Verif Require Import Prelude WindowM WindowS GhostM FieldM FieldS MaskM NeboM NeboS BCS.
Open Scope R_scope.

(** The functions in the documentation, FieldFunctions.h:266-273, 300-308 (with
    the minus sign a Gaussian needs and the documentation lacks), 339-353. *)
Definition line (m b t : R) : R := m * t + b.
Definition wave (a b c t : R) : R := a * sin (b * t) + c.
Definition bell (a sigma x0 y0 t : R) : R := y0 + a * exp (- ((t - x0) ^ 2 / (2 * sigma ^ 2))).
Definition step (A w l1 l2 t : R) : R := A / 4 * (1 + tanh ((t - l1) / w)) * (1 - tanh ((t - l2) / w)).

(** g is the derivative of f everywhere. *)
Definition derivative (f g : R -> R) : Prop := forall t, derivable_pt_lim f t (g t).

(** Coordinates x and destination f are fields of the patch, possibly the same
    one; ghosts are counts; where f touches the boundary x reaches its extra
    cells. *)
Definition coordinates (n : ivec) (h : heap R) (x f : field) : Prop :=
  operands_ok R n h (EField R x) /\ destination_ok R n h f /\ alias_ok R f (EField R x) /\
  covers_extra R f (EField R x) /\ finite_ghosts f.

(** The cells of f at which x is valid, ghost cells included. *)
Definition shared (n : ivec) (x f : field) (p : ivec) : Prop := any_cell n f p /\ valid_cell n x p.

(** The program ends and leaves v p in cell p of f for every p of the region,
    and everything else unchanged. *)
Definition stores (body : nat -> field -> prog R unit) (h : heap R) (f : field) (region : ivec -> Prop) (v : ivec -> R) : Prop :=
  exists N, forall fuel, (N <= fuel)%nat -> exists h', run (body fuel f) h = RDone h' tt /\ assigned R h h' f region v.
