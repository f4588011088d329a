(** Specification vocabulary for operators in double precision. *)
From Coq Require Import Reals.
From Flocq Require Import Core.
From Verif Require Import Prelude WindowM GhostM FieldM FieldS MaskM NeboM NeboS StencilM StencilS RoundM.
Open Scope R_scope.

(** Neither infinite nor NaN; the real number it stands for; NaN. *)
Definition finite (x : dbl) : Prop := is_finite x = true.
Definition val (x : dbl) : R := B2R x.
Definition NaN : dbl := B754_nan.
Definition zero : dbl := B754_zero false.
(** Zero or at least 2^-1020 in magnitude (the smallest positive normal number is 2^-1022). *)
Definition not_tiny (r : R) : Prop := r = 0 \/ powerRZ 2 (-1020) <= Rabs r.
(** x <= y as C++ compares doubles: false if one is NaN. *)
Definition dle (x y : dbl) : Prop := Bleb x y = true.
(** r is a double nearest to the real number v. *)
Definition nearest (r : dbl) (v : R) : Prop := forall z : dbl, finite z -> Rabs (val r - v) <= Rabs (val z - v).

(** The spacing build_stencils computes, and its reciprocal or half of that. *)
Definition spacing64 (n : ivec) (Lx Ly Lz : dbl) (d : dir) : dbl :=
  match d with
  | XDIR => ddiv Lx (dlit (ix n) 0)
  | YDIR => ddiv Ly (dlit (iy n) 0)
  | ZDIR => ddiv Lz (dlit (iz n) 0)
  end.
Definition reciprocal (n : ivec) (Lx Ly Lz : dbl) (t : optag) (d : dir) : dbl :=
  ddiv (match t with GradientD _ => d_half | _ => d_one end) (spacing64 n Lx Ly Lz d).
(** Operators that interpolate (the box filter is not one). *)
Definition interpolates (t : optag) : Prop :=
  match t with Interpolant | InterpolantD _ => True | _ => False end.
(** The number of cells in a direction is an unsigned int, and not 0. *)
Definition counts_ok (n : ivec) : Prop := forall d, (1 <= comp d n < 2 ^ 32)%Z.
(** The two cells an operator with two points combines, in order along its direction. *)
Definition two_cells (t : optag) (s d : loc) (p q1 q2 : ivec) : Prop :=
  match t with
  | InterpolantD e | GradientD e => q1 = step e (-1) p /\ q2 = step e 1 p
  | _ => differ (offset s) (offset d) = 1%Z /\ adjacent (offset s) (offset d) p q1 /\ adjacent (offset s) (offset d) p q2 /\
         exists e, (comp e q1 < comp e q2)%Z
  end.
(** The cells an operator reads. *)
Definition read_cell (t : optag) (s d : loc) (p q : ivec) : Prop :=
  match t with
  | InterpolantD e | GradientD e => q = step e (-1) p \/ q = step e 1 p
  | Filter => near p q
  | _ => adjacent (offset s) (offset d) p q
  end.
Notation den64 h a q := (denote dbl dadd dmul h a q).
(** Sums of real numbers. *)
Fixpoint rsum (l : list R) : R := match l with [] => 0 | x :: l => x + rsum l end.
(** The finite-difference gradient divides by twice the spacing. *)
Definition factor (t : optag) : R := match t with GradientD _ => / 2 | _ => 1 end.
(** a * b + c with one rounding, as a compiler may compute a product followed by a
    sum where the processor can. *)
Definition fused (a b c : dbl) : dbl := @Bfma 53 1024 d_prec d_emax mode_NE a b c.
