(** Specification of the analytic field functions in double precision. *)
From Coq Require Import Reals.
From Verif Require Import Prelude WindowM WindowS GhostM FieldM FieldS MaskM NeboM NeboS BCS RoundM RoundS BC64S Func64M.
Open Scope R_scope.

(** Coordinates x and destination f are fields of the patch, as in FuncS. *)
Definition coordinates64 (n : ivec) (h : heap dbl) (x f : field) : Prop :=
  operands_ok dbl n h (EField dbl x) /\ destination_ok dbl n h f /\ alias_ok dbl f (EField dbl x) /\
  covers_extra dbl f (EField dbl x) /\ finite_ghosts f.

(** The program ends and leaves v p in cell p of f for every p of the region,
    and everything else unchanged. *)
Definition stores64 (body : nat -> field -> prog dbl unit) (h : heap dbl) (f : field) (region : ivec -> Prop) (v : ivec -> dbl) : Prop :=
  exists N, forall fuel, (N <= fuel)%nat -> exists h', run (body fuel f) h = RDone h' tt /\ assigned dbl h h' f region v.

(** A mathematical library with an absolute error of at most eps, which does not
    leave the range of the functions; exp is monotone, and exact at zero. *)
Record good_libm (M : libm) (eps : R) : Prop := GoodLibm {
  g_sin : forall x, finite x -> finite (l_sin M x) /\ Rabs (val (l_sin M x)) <= 1 /\ Rabs (val (l_sin M x) - sin (val x)) <= eps;
  g_cos : forall x, finite x -> finite (l_cos M x) /\ Rabs (val (l_cos M x)) <= 1 /\ Rabs (val (l_cos M x) - cos (val x)) <= eps;
  g_exp : forall x, finite x -> val x <= 0 -> finite (l_exp M x) /\ 0 <= val (l_exp M x) <= 1 /\ Rabs (val (l_exp M x) - exp (val x)) <= eps;
  g_exp_mono : forall x y, finite x -> finite y -> val x <= val y -> val y <= 0 -> val (l_exp M x) <= val (l_exp M y);
  g_exp_zero : forall x, finite x -> val x = 0 -> l_exp M x = d_one;
  g_tanh : forall x, finite x -> finite (l_tanh M x) /\ Rabs (val (l_tanh M x)) <= 1 /\ Rabs (val (l_tanh M x) - tanh (val x)) <= eps }.

(** The unit roundoff. *)
Definition ur : R := powerRZ 2 (-53).
