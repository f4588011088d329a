(** Specification for the rounding error of C65: the heat equation over the reals. *)
From Coq Require Import Reals.
From Verif Require Import Prelude WindowM NeboM StencilM StencilS RoundM RoundS HeatS.
Open Scope R_scope.

(** 0, or between 2^-100 and 2^100 in magnitude. *)
Definition moderate (x : dbl) : Prop :=
  finite x /\ (val x = 0 \/ powerRZ 2 (-100) <= Rabs (val x) <= powerRZ 2 100).
(** The length of the patch in a direction; length over number of cells. *)
Definition len (Lx Ly Lz : dbl) (d : dir) : dbl := match d with XDIR => Lx | YDIR => Ly | ZDIR => Lz end.
Definition spacingR (n : ivec) (Lx Ly Lz : dbl) (d : dir) : R := val (len Lx Ly Lz d) / IZR (comp d n).
(** Moderate, and at most M in magnitude. *)
Definition bounded_by (x : dbl) (M : R) : Prop := moderate x /\ Rabs (val x) <= M.
Section Real.
Variable dx : dir -> R.
Variable T K C : ivec -> dbl.
(** [heat_flux] and [heating] of HeatS, over the reals. *)
Definition heat_fluxR (d : dir) (p : ivec) : R :=
  - ((val (K (step d (-1) p)) + val (K p)) / 2) * ((val (T p) - val (T (step d (-1) p))) / dx d).
Definition heatingR (n : ivec) (p : ivec) : R :=
  rsum (map (fun d => (heat_fluxR d p - heat_fluxR d (step d 1 p)) / dx d) (wide_dirs n)) / val (C p).
End Real.
