(** Model of the staggered stencil operators: field locations, the compile-time
    construction of stencil points, the operator types and the operators that
    build_stencils registers.  Coefficients and field values are exact
    rationals ([Qc]); RoundM has the same operators in double precision. *)
From Coq Require Export QArith.
From Coq Require Export Qcanon.
From Verif Require Import Prelude WindowM GhostM FieldM MaskM NeboM.
Open Scope Z_scope.

(** ** Locations *)
(** FVStaggeredLocationTypes.h:66-69, 84-87, 102-105, 120-123 *)
Inductive loc :=
| SVol | SSurfX | SSurfY | SSurfZ
| XVol | XSurfX | XSurfY | XSurfZ
| YVol | YSurfX | YSurfY | YSurfZ
| ZVol | ZSurfX | ZSurfY | ZSurfZ.

(** Location::Offset, the same lines *)
Definition offset (l : loc) : ivec :=
  match l with
  | SVol   => IV 0 0 0       | SSurfX => IV (-1) 0 0
  | SSurfY => IV 0 (-1) 0    | SSurfZ => IV 0 0 (-1)
  | XVol   => IV (-1) 0 0    | XSurfX => IV 0 0 0
  | XSurfY => IV (-1) (-1) 0 | XSurfZ => IV (-1) 0 (-1)
  | YVol   => IV 0 (-1) 0    | YSurfX => IV (-1) (-1) 0
  | YSurfY => IV 0 0 0       | YSurfZ => IV 0 (-1) (-1)
  | ZVol   => IV 0 0 (-1)    | ZSurfX => IV (-1) 0 (-1)
  | ZSurfY => IV 0 (-1) (-1) | ZSurfZ => IV 0 0 0
  end.

(** FVStaggeredFieldTypes.h:154-180 (FaceTypes) *)
Definition x_face (vol : loc) : option loc :=
  match vol with
  | SVol => Some SSurfX | XVol => Some XSurfX | YVol => Some YSurfX | ZVol => Some ZSurfX
  | _ => None
  end.
Definition y_face (vol : loc) : option loc :=
  match vol with
  | SVol => Some SSurfY | XVol => Some XSurfY | YVol => Some YSurfY | ZVol => Some ZSurfY
  | _ => None
  end.
Definition z_face (vol : loc) : option loc :=
  match vol with
  | SVol => Some SSurfZ | XVol => Some XSurfZ | YVol => Some YSurfZ | ZVol => Some ZSurfZ
  | _ => None
  end.

(** XDIR, YDIR, ZDIR (SpatialOpsDefs.h) *)
Inductive dir := XDIR | YDIR | ZDIR.

(** ** Index triplets *)
(** IndexTriplet.h:156 (Negate) *)
Definition it_negate (a : ivec) : ivec := IV (- ix a) (- iy a) (- iz a).
(** IndexTriplet.h:193-198 (UnitTriplet) *)
Definition unit_triplet (d : dir) : ivec :=
  match d with XDIR => IV 1 0 0 | YDIR => IV 0 1 0 | ZDIR => IV 0 0 1 end.
(** IndexTriplet.h:86, 97 (LThan, GThan) *)
Definition lthan (a b : Z) : Z := if a <? b then 1 else 0.
Definition gthan (a b : Z) : Z := if a >? b then 1 else 0.
(** IndexTriplet.h:267-273, 288-294, 309-315 (Add, Subtract, Multiply) are
    [iv_add], [iv_sub], [iv_mul]; 329-335 (LessThan), 350-357 (GreaterThan) *)
Definition less_than (a b : ivec) : ivec :=
  IV (lthan (ix a) (ix b)) (lthan (iy a) (iy b)) (lthan (iz a) (iz b)).
Definition greater_than (a b : ivec) : ivec :=
  IV (gthan (ix a) (ix b)) (gthan (iy a) (iy b)) (gthan (iz a) (iz b)).

(** ** Stencil points *)
(** A NeboStencilPointCollection: the first point and the points added to it. *)
Definition points := (ivec * list ivec)%type.

(** NeboStencilBuilder.h:135-148 (Stencil2Collection); src and dst are offsets *)
Definition stencil2 (src dst : ivec) : points :=
  (it_negate (greater_than src dst), [less_than src dst]).

(** NeboStencilBuilder.h:150-205 (Stencil4Collection) *)
Definition stencil4 (src dst : ivec) : points :=
  let first := if negb (ix src =? ix dst) then unit_triplet XDIR else unit_triplet YDIR in
  let second := if negb (iz src =? iz dst) then unit_triplet ZDIR else unit_triplet YDIR in
  let lo1 := it_negate (greater_than (iv_mul src first) (iv_mul dst first)) in
  let hi1 := less_than (iv_mul src first) (iv_mul dst first) in
  let lo2 := it_negate (greater_than (iv_mul src second) (iv_mul dst second)) in
  let hi2 := less_than (iv_mul src second) (iv_mul dst second) in
  (iv_add lo1 lo2, [iv_add hi1 lo2; iv_add lo1 hi2; iv_add hi1 hi2]).

(** NeboStencilBuilder.h:207-214 (FDStencilCollection) *)
Definition fd_stencil (d : dir) : points := (it_negate (unit_triplet d), [unit_triplet d]).

(** NeboStencilBuilder.h:281-283 (NullStencilCollection) *)
Definition null_stencil : points := (IV 0 0 0, []).

(** NeboStencilBuilder.h:358-369 (BoxFilter3DStencilCollection) *)
Definition box3d : points :=
  (IV (-1) (-1) (-1),          [IV 0 (-1) (-1); IV 1 (-1) (-1);
   IV (-1) 0 (-1);              IV 0 0 (-1);    IV 1 0 (-1);
   IV (-1) 1 (-1);              IV 0 1 (-1);    IV 1 1 (-1);
   IV (-1) (-1) 0;              IV 0 (-1) 0;    IV 1 (-1) 0;
   IV (-1) 0 0;                 IV 0 0 0;       IV 1 0 0;
   IV (-1) 1 0;                 IV 0 1 0;       IV 1 1 0;
   IV (-1) (-1) 1;              IV 0 (-1) 1;    IV 1 (-1) 1;
   IV (-1) 0 1;                 IV 0 0 1;       IV 1 0 1;
   IV (-1) 1 1;                 IV 0 1 1;       IV 1 1 1]).
(** NeboStencilBuilder.h:371-405 (2D and 1D box filters) *)
Definition box2d_xy : points :=
  (IV (-1) (-1) 0, [IV 0 (-1) 0; IV 1 (-1) 0; IV (-1) 0 0; IV 0 0 0; IV 1 0 0;
                    IV (-1) 1 0; IV 0 1 0; IV 1 1 0]).
Definition box2d_xz : points :=
  (IV (-1) 0 (-1), [IV 0 0 (-1); IV 1 0 (-1); IV (-1) 0 0; IV 0 0 0; IV 1 0 0;
                    IV (-1) 0 1; IV 0 0 1; IV 1 0 1]).
Definition box2d_yz : points :=
  (IV 0 (-1) (-1), [IV 0 0 (-1); IV 0 1 (-1); IV 0 (-1) 0; IV 0 0 0; IV 0 1 0;
                    IV 0 (-1) 1; IV 0 0 1; IV 0 1 1]).
Definition box1d_x : points := (IV (-1) 0 0, [IV 0 0 0; IV 1 0 0]).
Definition box1d_y : points := (IV 0 (-1) 0, [IV 0 0 0; IV 0 1 0]).
Definition box1d_z : points := (IV 0 0 (-1), [IV 0 0 0; IV 0 0 1]).

(** ** Operators *)
(** A NeboStencilCoefCollection (NeboStencils.h:29-123): first coefficient and
    the ones added to it.  NeboStencils.h:125-147. *)
Definition coefs (V : Type) := (V * list V)%type.
Definition two_point_coefs {V} (c1 c2 : V) : coefs V := (c1, [c2]).
Definition four_point_coefs {V} (c1 c2 c3 c4 : V) : coefs V := (c1, [c2; c3; c4]).

(** The operator objects: NeboStencilBuilder.h:66-133 (NeboStencilBuilder),
    224-279 (NeboSumStencilBuilder), 293-356 (NeboAverageStencilBuilder). *)
Inductive builder (V : Type) :=
| StencilOp (pts : points) (cs : coefs V)
| SumOp (pts : points)
| AverageOp (pts : points).
Arguments StencilOp {V}. Arguments SumOp {V}. Arguments AverageOp {V}.

Definition qc_of (z : Z) : Qc := Q2Qc (inject_Z z).
Definition points_length (pts : points) : Z := Z.of_nat (S (length (snd pts))).

(** operator(): NeboStencilBuilder.h:115-129, 264-278 and 337-355.  The k-th
    coefficient belongs to the k-th point (NeboStencils.h:187-205, 484-495). *)
Definition apply_op (b : builder Qc) (a : expr Qc) : expr Qc :=
  match b with
  | StencilOp (p0, ps) (c0, cs) => EStencil Qc p0 c0 (combine ps cs) a
  | SumOp (p0, ps) => ESumStencil Qc p0 ps a
  | AverageOp (p0, ps) =>
      EOp2 Qc Qcmult (ESumStencil Qc p0 ps a)
           (EScalar Qc (1 / qc_of (points_length (p0, ps)))%Qc)
  end.

(** apply_to_field: NeboStencilBuilder.h:107-109, 256-258, 329-331 *)
Definition apply_to_field (fuel : nat) (b : builder Qc) (src dest : field) : prog Qc unit :=
  fst (nebo_assign Qc Qcplus Qcmult fuel dest (apply_op b (EField Qc src))).

(** Operator type tags: SpatialOpsDefs.h:75-133 *)
Inductive optag :=
| Interpolant | Gradient | Divergence | Filter
| InterpolantD (d : dir) | GradientD (d : dir).

(** How the points of an operator are made: OP_BUILDER with Stencil2Collection,
    Stencil4Collection; NULL_OP_BUILDER; AVE_OP_BUILDER; FD_OP_BUILDER
    (FVStaggeredOperatorTypes.h:111-119, 192-199, 237-243, 251-258). *)
Inductive style := Two | Four | Null | Box | FD (d : dir).

(** FVStaggeredOperatorTypes.h:121-133 (BASIC_OPTYPE_BUILDER, one volume) *)
Definition basic_optypes (vol : loc) : list (style * optag * loc * loc) :=
  match x_face vol, y_face vol, z_face vol with
  | Some xf, Some yf, Some zf =>
      [(Two, Interpolant, vol, xf); (Two, Interpolant, vol, yf); (Two, Interpolant, vol, zf);
       (Two, Interpolant, xf, vol); (Two, Interpolant, yf, vol); (Two, Interpolant, zf, vol);
       (Two, Gradient, vol, xf); (Two, Gradient, vol, yf); (Two, Gradient, vol, zf);
       (Two, Divergence, xf, vol); (Two, Divergence, yf, vol); (Two, Divergence, zf, vol)]
  | _, _, _ => []
  end.

(** FVStaggeredOperatorTypes.h:251-271 *)
Definition fd_optypes (vol : loc) : list (style * optag * loc * loc) :=
  [(FD XDIR, InterpolantD XDIR, vol, vol); (FD YDIR, InterpolantD YDIR, vol, vol);
   (FD ZDIR, InterpolantD ZDIR, vol, vol);
   (FD XDIR, GradientD XDIR, vol, vol); (FD YDIR, GradientD YDIR, vol, vol);
   (FD ZDIR, GradientD ZDIR, vol, vol)].

(** All specialisations of OperatorTypeBuilder: FVStaggeredOperatorTypes.h:
    66-71 (no-op interpolant, listed for the volume fields it is registered
    for), 153-156, 159-188, 201-211, 213-235, 248-251, 268-273. *)
Definition optypes : list (style * optag * loc * loc) :=
  [(Null, Interpolant, SVol, SVol); (Null, Interpolant, XVol, XVol);
   (Null, Interpolant, YVol, YVol); (Null, Interpolant, ZVol, ZVol)] ++
  basic_optypes SVol ++ basic_optypes XVol ++ basic_optypes YVol ++ basic_optypes ZVol ++
  [(Two, Interpolant, XVol, YSurfX); (Two, Gradient, XVol, YSurfX);
   (Two, Interpolant, XVol, ZSurfX); (Two, Gradient, XVol, ZSurfX);
   (Two, Interpolant, YVol, XSurfY); (Two, Gradient, YVol, XSurfY);
   (Two, Interpolant, YVol, ZSurfY); (Two, Gradient, YVol, ZSurfY);
   (Two, Interpolant, ZVol, XSurfZ); (Two, Gradient, ZVol, XSurfZ);
   (Two, Interpolant, ZVol, YSurfZ); (Two, Gradient, ZVol, YSurfZ);
   (Two, Interpolant, SVol, XVol); (Two, Gradient, SVol, XVol);
   (Two, Interpolant, SVol, YVol); (Two, Gradient, SVol, YVol);
   (Two, Interpolant, SVol, ZVol); (Two, Gradient, SVol, ZVol);
   (Two, Interpolant, XVol, SVol); (Two, Gradient, XVol, SVol);
   (Two, Interpolant, YVol, SVol); (Two, Gradient, YVol, SVol);
   (Two, Interpolant, ZVol, SVol); (Two, Gradient, ZVol, SVol)] ++
  [(Null, Interpolant, XVol, SSurfX); (Null, Interpolant, YVol, SSurfY); (Null, Interpolant, ZVol, SSurfZ);
   (Null, Interpolant, SVol, XSurfX); (Null, Interpolant, SVol, YSurfY); (Null, Interpolant, SVol, ZSurfZ);
   (Null, Interpolant, XSurfX, SVol); (Null, Interpolant, YSurfY, SVol); (Null, Interpolant, ZSurfZ, SVol)] ++
  [(Four, Interpolant, SVol, XSurfY); (Four, Interpolant, SVol, XSurfZ);
   (Four, Interpolant, SVol, YSurfX); (Four, Interpolant, SVol, YSurfZ);
   (Four, Interpolant, SVol, ZSurfX); (Four, Interpolant, SVol, ZSurfY);
   (Four, Interpolant, XSurfY, SVol); (Four, Interpolant, XSurfZ, SVol);
   (Four, Interpolant, YSurfX, SVol); (Four, Interpolant, YSurfZ, SVol);
   (Four, Interpolant, ZSurfX, SVol); (Four, Interpolant, ZSurfY, SVol);
   (Four, Interpolant, XVol, YVol); (Four, Interpolant, XVol, ZVol);
   (Four, Interpolant, YVol, XVol); (Four, Interpolant, YVol, ZVol);
   (Four, Interpolant, ZVol, XVol); (Four, Interpolant, ZVol, YVol)] ++
  [(Box, Filter, SVol, SVol); (Box, Filter, XVol, XVol); (Box, Filter, YVol, YVol); (Box, Filter, ZVol, ZVol)] ++
  fd_optypes SVol ++ fd_optypes XVol ++ fd_optypes YVol ++ fd_optypes ZVol.

(** C++ template selection: the specialisation for a tag and two field types. *)
Scheme Equality for loc.
Scheme Equality for dir.
Scheme Equality for optag.
Definition find_optype (t : optag) (src dst : loc) : option style :=
  match find (fun e => let '(_, t', s', d') := e in optag_beq t t' && loc_beq src s' && loc_beq dst d') optypes with
  | Some (sty, _, _, _) => Some sty
  | None => None
  end.

(** The constructor arguments: coefficients, or none. *)
Inductive args (V : Type) := With (c : coefs V) | Without.
Arguments With {V}. Arguments Without {V}.
(** OperatorTypeBuilder<t,src,dst>::type( args ); None: does not compile. *)
Definition new_operator {V} (t : optag) (src dst : loc) (a : args V) : option (builder V) :=
  match find_optype t src dst, a with
  | Some Two, With c => Some (StencilOp (stencil2 (offset src) (offset dst)) c)
  | Some Four, With c => Some (StencilOp (stencil4 (offset src) (offset dst)) c)
  | Some (FD d), With c => Some (StencilOp (fd_stencil d) c)
  | Some Null, Without => Some (SumOp null_stencil)
  | Some Box, Without => Some (AverageOp box3d)
  | _, _ => None
  end.

(** ** build_stencils: StencilBuilder.cpp:32-198 *)
Record stencil_coefs (V : Type) := SC { coefHalf : coefs V; coefD : dir -> coefs V; coefQuarter : coefs V; coefHalfD : dir -> coefs V }.
Arguments SC {V}. Arguments coefHalf {V}. Arguments coefD {V}. Arguments coefQuarter {V}. Arguments coefHalfD {V}.

(** StencilBuilder.cpp:63-71 *)
Definition half : Qc := Q2Qc (1 # 2).
Definition quarter : Qc := Q2Qc (1 # 4).
Definition make_coefs (dx : dir -> Qc) : stencil_coefs Qc :=
  SC (two_point_coefs half half)
     (fun d => two_point_coefs (- (1) / dx d)%Qc (1 / dx d)%Qc)
     (four_point_coefs quarter quarter quarter quarter)
     (fun d => two_point_coefs (- half / dx d)%Qc (half / dx d)%Qc).

(** REG_BASIC_OP_TYPES: StencilBuilder.cpp:32-47 *)
Definition reg_basic {V} (c : stencil_coefs V) (vol : loc) : list (optag * loc * loc * args V) :=
  match x_face vol, y_face vol, z_face vol with
  | Some xf, Some yf, Some zf =>
      [(Interpolant, vol, xf, With (coefHalf c)); (Interpolant, vol, yf, With (coefHalf c));
       (Interpolant, vol, zf, With (coefHalf c));
       (Interpolant, xf, vol, With (coefHalf c)); (Interpolant, yf, vol, With (coefHalf c));
       (Interpolant, zf, vol, With (coefHalf c));
       (Gradient, vol, xf, With (coefD c XDIR)); (Gradient, vol, yf, With (coefD c YDIR));
       (Gradient, vol, zf, With (coefD c ZDIR));
       (Divergence, xf, vol, With (coefD c XDIR)); (Divergence, yf, vol, With (coefD c YDIR));
       (Divergence, zf, vol, With (coefD c ZDIR))]
  | _, _, _ => []
  end.
(** StencilBuilder.cpp:169-197, one volume field *)
Definition reg_fd {V} (c : stencil_coefs V) (vol : loc) : list (optag * loc * loc * args V) :=
  [(InterpolantD XDIR, vol, vol, With (coefHalf c)); (InterpolantD YDIR, vol, vol, With (coefHalf c));
   (InterpolantD ZDIR, vol, vol, With (coefHalf c));
   (GradientD XDIR, vol, vol, With (coefHalfD c XDIR)); (GradientD YDIR, vol, vol, With (coefHalfD c YDIR));
   (GradientD ZDIR, vol, vol, With (coefHalfD c ZDIR))].

(** StencilBuilder.cpp:76-197, in the order of registration *)
Definition registrations {V} (c : stencil_coefs V) : list (optag * loc * loc * args V) :=
  let h := With (coefHalf c) in let q := With (coefQuarter c) in
  let gx := With (coefD c XDIR) in let gy := With (coefD c YDIR) in let gz := With (coefD c ZDIR) in
  reg_basic c SVol ++ reg_basic c XVol ++ reg_basic c YVol ++ reg_basic c ZVol ++
  [(Interpolant, XVol, YSurfX, h); (Gradient, XVol, YSurfX, gy);
   (Interpolant, XVol, ZSurfX, h); (Gradient, XVol, ZSurfX, gz);
   (Interpolant, YVol, XSurfY, h); (Gradient, YVol, XSurfY, gx);
   (Interpolant, YVol, ZSurfY, h); (Gradient, YVol, ZSurfY, gz);
   (Interpolant, ZVol, XSurfZ, h); (Gradient, ZVol, XSurfZ, gx);
   (Interpolant, ZVol, YSurfZ, h); (Gradient, ZVol, YSurfZ, gy);
   (Interpolant, SVol, XVol, h); (Gradient, SVol, XVol, gx);
   (Interpolant, SVol, YVol, h); (Gradient, SVol, YVol, gy);
   (Interpolant, SVol, ZVol, h); (Gradient, SVol, ZVol, gz);
   (Interpolant, XVol, SVol, h); (Gradient, XVol, SVol, gx);
   (Interpolant, YVol, SVol, h); (Gradient, YVol, SVol, gy);
   (Interpolant, ZVol, SVol, h); (Gradient, ZVol, SVol, gz)] ++
  map (fun sd => (Interpolant, fst sd, snd sd, Without))
    [(SVol, SVol); (XVol, XVol); (YVol, YVol); (ZVol, ZVol);
     (XVol, SSurfX); (YVol, SSurfY); (ZVol, SSurfZ);
     (SVol, XSurfX); (SVol, YSurfY); (SVol, ZSurfZ);
     (XSurfX, SVol); (YSurfY, SVol); (ZSurfZ, SVol)] ++
  map (fun sd => (Interpolant, fst sd, snd sd, q))
    [(SVol, XSurfY); (SVol, XSurfZ); (SVol, YSurfX); (SVol, YSurfZ); (SVol, ZSurfX); (SVol, ZSurfY);
     (XSurfY, SVol); (XSurfZ, SVol); (YSurfX, SVol); (YSurfZ, SVol); (ZSurfX, SVol); (ZSurfY, SVol);
     (XVol, YVol); (XVol, ZVol); (YVol, XVol); (YVol, ZVol); (ZVol, XVol); (ZVol, YVol)] ++
  map (fun l => (Filter, l, l, Without)) [SVol; XVol; YVol; ZVol] ++
  reg_fd c SVol ++ reg_fd c XVol ++ reg_fd c YVol ++ reg_fd c ZVol.

(** The operators put into the database, with their types.  Registration itself
    is modelled in OpDBM. *)
Definition registered {V} (c : stencil_coefs V) : list (optag * loc * loc * builder V) :=
  flat_map (fun r => let '(t, s, d, a) := r in
                     match new_operator t s d a with Some b => [(t, s, d, b)] | None => [] end)
           (registrations c).
(** build_stencils( nx, ny, nz, Lx, Ly, Lz, opdb ) *)
Definition build_stencils (n : ivec) (Lx Ly Lz : Qc) : list (optag * loc * loc * builder Qc) :=
  let dx d := match d with
              | XDIR => (Lx / qc_of (ix n))%Qc
              | YDIR => (Ly / qc_of (iy n))%Qc
              | ZDIR => (Lz / qc_of (iz n))%Qc
              end in
  registered (make_coefs dx).

(** ** Shifted masks: NeboStencilBuilder.h:407-470 *)
Definition mask_minus_point (src dst : ivec) : ivec := less_than src dst.
Definition mask_plus_point (src dst : ivec) : ivec := it_negate (greater_than src dst).
Definition mask_minus (src dst : loc) (m : mask) : bexpr Qc :=
  BShift Qc (mask_minus_point (offset src) (offset dst)) (BMask Qc m).
Definition mask_plus (src dst : loc) (m : mask) : bexpr Qc :=
  BShift Qc (mask_plus_point (offset src) (offset dst)) (BMask Qc m).
