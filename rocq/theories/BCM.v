(** Model of the boundary-condition operators.  Values and coefficients are
    exact rationals, as in StencilM. *)
From Verif Require Import Prelude WindowM GhostM FieldM MaskM NeboM StencilM.

(** ** NeboBoundaryConditionBuilder *)
(** NeboStencilBuilder.h:488-508: the template parameters DestPnt, SrcPnt,
    PhiFieldT, GammaFieldT (only their locations matter) and the coefficients. *)
Record bc_builder := BCB {
  b_dest : ivec; b_src : ivec; b_phi : loc; b_gamma : loc; b_destcoef : Qc; b_srccoef : Qc }.

(** NeboStencilBuilder.h:496-497 (ShiftedGammaPoint, ShiftedSrcPoint) *)
Definition shifted_gamma (b : bc_builder) : ivec := iv_sub (IV 0 0 0) (b_dest b).
Definition shifted_src (b : bc_builder) : ivec := iv_sub (b_src b) (b_dest b).

(** NeboStencilBuilder.h:519-530: the expression assigned to phi.  gammaShift_
    and phiShift_ (500-501) are one-point sum stencils. *)
Definition bc_mask (b : bc_builder) (m : mask) (minus : bool) : bexpr Qc :=
  if minus then mask_minus (b_gamma b) (b_phi b) m else mask_plus (b_gamma b) (b_phi b) m.
Definition bc_value (b : bc_builder) (phi : field) (gamma : expr Qc) : expr Qc :=
  EOp2 Qc Qcdiv
    (EOp2 Qc Qcminus (ESumStencil Qc (shifted_gamma b) [] gamma)
       (EOp2 Qc Qcmult (ESumStencil Qc (shifted_src b) [] (EField Qc phi)) (EScalar Qc (b_srccoef b))))
    (EScalar Qc (b_destcoef b)).
Definition bc_expr (b : bc_builder) (m : mask) (phi : field) (gamma : expr Qc) (minus : bool) : expr Qc :=
  ECond Qc (bc_mask b m minus) (bc_value b phi gamma) (EField Qc phi).

(** NeboStencilBuilder.h:519-530 (operator() with an expression), 538-545
    (field: wrap it), 552-559 (scalar: wrap it) *)
Definition bc_apply (fuel : nat) (b : bc_builder) (m : mask) (phi : field) (gamma : expr Qc) (minus : bool)
  : prog Qc unit :=
  fst (nebo_assign Qc Qcplus Qcmult fuel phi (bc_expr b m phi gamma minus)).
Definition bc_apply_field (fuel : nat) (b : bc_builder) (m : mask) (phi gamma : field) (minus : bool) :=
  bc_apply fuel b m phi (EField Qc gamma) minus.
Definition bc_apply_scalar (fuel : nat) (b : bc_builder) (m : mask) (phi : field) (gamma : Qc) (minus : bool) :=
  bc_apply fuel b m phi (EScalar Qc gamma) minus.

(** ** BoundaryConditionOp *)
(** FVStaggeredBCOp.h:41-45 *)
Inductive side := MINUS_SIDE | PLUS_SIDE | NO_SIDE.

(** FVStaggeredBCOp.h:76-77: S1Shift, the last but one point of the stencil,
    and S2Shift, the last (a collection nests its points last to first,
    NeboStencils.h:149-163). *)
Definition bc_shifts (pts : points) : option (ivec * ivec) :=
  match rev (fst pts :: snd pts) with s2 :: s1 :: _ => Some (s1, s2) | _ => None end.

(** NeboStencils.h:45-67, 92-113 (get_coef).  With a single coefficient index 1
    is accepted too and returns that coefficient. *)
Definition get_coef (c : coefs Qc) (i : nat) : outcome Qc :=
  match nth_error (fst c :: snd c) i with
  | Some x => Ok x
  | None => if andb (Nat.eqb i 1) (Nat.eqb (length (snd c)) 0) then Ok (fst c) else Throw
  end.

(** The object: FVStaggeredBCOp.h:79-85.  [bc_points] holds (apoint_, bpoint_)
    for a single point, the flat indices otherwise. *)
Inductive bc_where := Single (a b : ivec) | Many (flat : list (Z * Z)).
Record bc_op := BCOp { o_ca : Qc; o_cb : Qc; o_where : bc_where; o_val : Qc }.

Definition minus_like (s : side) : bool := match s with PLUS_SIDE => false | _ => true end.
Definition is_minus (s : side) : bool := match s with MINUS_SIDE => true | _ => false end.

(** FVStaggeredBCOp.h:165-184 (constructor for one point).  Fails to compile
    ([UB] never happens; [Throw] only from get_coef) when the stencil has fewer
    than two points: modelled as None. *)
Definition bc_single (pts : points) (c : coefs Qc) (p : ivec) (s : side) (v : Qc) : option (outcome bc_op) :=
  match bc_shifts pts with
  | None => None
  | Some (s1, s2) => Some (
      do ca <- get_coef c (if minus_like s then 0 else 1)%nat;
      do cb <- get_coef c (if minus_like s then 1 else 0)%nat;
      Ok (BCOp ca cb (Single (iv_add p (if minus_like s then s1 else s2))
                             (iv_add p (if minus_like s then s2 else s1))) v))
  end.

(** FVStaggeredBCOp.h:188-212 (constructor for a list).  Note that NO_SIDE is
    treated like PLUS_SIDE here and like MINUS_SIDE above. *)
Definition bc_list (pts : points) (c : coefs Qc) (w : window) (ps : list ivec) (s : side) (v : Qc)
  : option (outcome bc_op) :=
  match bc_shifts pts with
  | None => None
  | Some (s1, s2) => Some (
      do ca <- get_coef c (if is_minus s then 0 else 1)%nat;
      do cb <- get_coef c (if is_minus s then 1 else 0)%nat;
      Ok (BCOp ca cb
           (Many (map (fun p => (flat_index w (iv_add p (if is_minus s then s1 else s2)),
                                 flat_index w (iv_add p (if is_minus s then s2 else s1)))) ps)) v))
  end.

(** FVStaggeredBCOp.h:225-231, 237-241: fa <<= (bc - cb*fb)/ca on windows of one cell *)
Definition one_cell (f : field) (p : ivec) : field :=
  field_window (Win (wglob (fint f)) (iv_add (woff (fint f)) p) (IV 1 1 1)) f.
Definition set_one (fuel : nat) (ca cb v : Qc) (a b : ivec) (f : field) : prog Qc unit :=
  fst (nebo_assign Qc Qcplus Qcmult fuel (one_cell f a)
         (EOp2 Qc Qcdiv
            (EOp2 Qc Qcminus (EScalar Qc v) (EOp2 Qc Qcmult (EScalar Qc cb) (EField Qc (one_cell f b))))
            (EScalar Qc ca))).

(** FVStaggeredBCOp.h:216-244 (operator()) *)
Fixpoint set_many (fuel : nat) (ca cb v : Qc) (l : list (Z * Z)) (f : field) : prog Qc unit :=
  match l with
  | [] => Ret tt
  | (fa, fb) :: l =>
      let* a := lift (ijk_index_from_local (fint f) fa) in
      let* b := lift (ijk_index_from_local (fint f) fb) in
      let* _ := set_one fuel ca cb v a b f in
      set_many fuel ca cb v l f
  end.
Definition bc_run (fuel : nat) (o : bc_op) (f : field) : prog Qc unit :=
  match o_where o with
  | Single a b => set_one fuel (o_ca o) (o_cb o) (o_val o) a b f
  | Many l => set_many fuel (o_ca o) (o_cb o) (o_val o) l f
  end.

(** ** BoundaryCondition: setting values directly *)
(** SpatialField.h:1363-1380 (operator[] on local memory) *)
Definition store_at {V} (f : field) (i : Z) (v : V) : prog V unit :=
  if freadonly f then PThrow else Store (fbuf f) i v (Ret tt).

(** FVStaggeredBCTools.h:146-153, 180-183 (one point, 0-based on the interior).
    The conversion of the index to unsigned int is not modelled. *)
Definition bcond_single {V} (p : ivec) (v : V) (f : field) : prog V unit :=
  store_at f (flat_index (fint f) p) v.
(** FVStaggeredBCTools.h:157-171, 184-191 (a list, flat indices from the given window) *)
Definition bcond_list {V} (w : window) (ps : list ivec) (v : V) (f : field) : prog V unit :=
  fold_left (fun acc p => let* _ := acc in store_at f (flat_index w p) v) ps (Ret tt).
