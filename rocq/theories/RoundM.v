(** The staggered operators in double precision: IEEE-754 binary64 with rounding
    to nearest, ties to even, after every operation.  A compiler that keeps more
    digits or fuses a product and a sum is not modelled here (C61 shows what
    fusing changes).  All NaNs are one value. *)
From Flocq Require Import Core.
From Flocq Require Export BinarySingleNaN.
From Verif Require Import Prelude WindowM GhostM FieldM MaskM NeboM StencilM.
Open Scope Z_scope.

(** double *)
Definition dbl := binary_float 53 1024.
Definition d_prec : FLX.Prec_gt_0 53 := eq_refl.
Definition d_emax : Prec_lt_emax 53 1024 := eq_refl.
Definition dadd : dbl -> dbl -> dbl := @Bplus 53 1024 d_prec d_emax mode_NE.
Definition dmul : dbl -> dbl -> dbl := @Bmult 53 1024 d_prec d_emax mode_NE.
Definition ddiv : dbl -> dbl -> dbl := @Bdiv 53 1024 d_prec d_emax mode_NE.
Definition dopp : dbl -> dbl := Bopp.
(** The literal m * 2^e; the conversion of an integer is [dlit m 0]. *)
Definition dlit (m e : Z) : dbl := binary_normalize 53 1024 d_prec d_emax mode_NE m e false.

(** StencilBuilder.cpp:63-71: 0.5, -1.0/dx, 1.0/dx, 0.25, -0.5/dx, 0.5/dx *)
Definition d_one : dbl := dlit 1 0.
Definition d_half : dbl := dlit 1 (-1).
Definition d_quarter : dbl := dlit 1 (-2).
Definition make_coefs64 (dx : dir -> dbl) : stencil_coefs dbl :=
  SC (two_point_coefs d_half d_half)
     (fun d => two_point_coefs (ddiv (dopp d_one) (dx d)) (ddiv d_one (dx d)))
     (four_point_coefs d_quarter d_quarter d_quarter d_quarter)
     (fun d => two_point_coefs (ddiv (dopp d_half) (dx d)) (ddiv d_half (dx d))).

(** StencilBuilder.cpp:51-198.  Lx/nx converts nx to double (58-60). *)
Definition build_stencils64 (n : ivec) (Lx Ly Lz : dbl) : list (optag * loc * loc * builder dbl) :=
  let dx d := match d with
              | XDIR => ddiv Lx (dlit (ix n) 0)
              | YDIR => ddiv Ly (dlit (iy n) 0)
              | ZDIR => ddiv Lz (dlit (iz n) 0)
              end in
  registered (make_coefs64 dx).

(** operator(): NeboStencilBuilder.h:115-129, 264-278, 337-355, as in StencilM *)
Definition apply_op64 (b : builder dbl) (a : expr dbl) : expr dbl :=
  match b with
  | StencilOp (p0, ps) (c0, cs) => EStencil dbl p0 c0 (combine ps cs) a
  | SumOp (p0, ps) => ESumStencil dbl p0 ps a
  | AverageOp (p0, ps) =>
      EOp2 dbl dmul (ESumStencil dbl p0 ps a)
           (EScalar dbl (ddiv d_one (dlit (points_length (p0, ps)) 0)))
  end.
(** apply_to_field: NeboStencilBuilder.h:107-109, 256-258, 329-331 *)
Definition apply_to_field64 (fuel : nat) (b : builder dbl) (src dest : field) : prog dbl unit :=
  fst (nebo_assign dbl dadd dmul fuel dest (apply_op64 b (EField dbl src))).
