(** Model of the boundary-condition operators in double precision (IEEE-754
    binary64, rounding to nearest even after every operation).  As BCM, whose
    points, sides and one-cell windows are reused. *)
From Verif Require Import Prelude WindowM GhostM FieldM MaskM NeboM StencilM BCM RoundM HeatM.

(** ** NeboBoundaryConditionBuilder *)
(** NeboStencilBuilder.h:488-508: the template parameters DestPnt, SrcPnt,
    PhiFieldT, GammaFieldT (only their locations matter) and the coefficients. *)
Record bc_builder64 := BCB64 {
  b_dest64 : ivec; b_src64 : ivec; b_phi64 : loc; b_gamma64 : loc; b_destcoef64 : dbl; b_srccoef64 : dbl }.

(** NeboStencilBuilder.h:496-497 (ShiftedGammaPoint, ShiftedSrcPoint) *)
Definition shifted_gamma64 (b : bc_builder64) : ivec := iv_sub (IV 0 0 0) (b_dest64 b).
Definition shifted_src64 (b : bc_builder64) : ivec := iv_sub (b_src64 b) (b_dest64 b).

(** NeboStencilBuilder.h:407-470 (shifted masks), 519-530: the expression assigned to phi.  gammaShift_
    and phiShift_ (500-501) are one-point sum stencils. *)
Definition bc_mask64 (b : bc_builder64) (m : mask) (minus : bool) : bexpr dbl :=
  BShift dbl ((if minus then mask_minus_point else mask_plus_point) (offset (b_gamma64 b)) (offset (b_phi64 b))) (BMask dbl m).
Definition bc_value64 (b : bc_builder64) (phi : field) (gamma : expr dbl) : expr dbl :=
  EOp2 dbl ddiv
    (EOp2 dbl dsub (ESumStencil dbl (shifted_gamma64 b) [] gamma)
       (EOp2 dbl dmul (ESumStencil dbl (shifted_src64 b) [] (EField dbl phi)) (EScalar dbl (b_srccoef64 b))))
    (EScalar dbl (b_destcoef64 b)).
Definition bc_expr64 (b : bc_builder64) (m : mask) (phi : field) (gamma : expr dbl) (minus : bool) : expr dbl :=
  ECond dbl (bc_mask64 b m minus) (bc_value64 b phi gamma) (EField dbl phi).

(** NeboStencilBuilder.h:519-530 (operator() with an expression), 538-545
    (field: wrap it), 552-559 (scalar: wrap it) *)
Definition bc_apply64 (fuel : nat) (b : bc_builder64) (m : mask) (phi : field) (gamma : expr dbl) (minus : bool)
  : prog dbl unit :=
  fst (nebo_assign dbl dadd dmul fuel phi (bc_expr64 b m phi gamma minus)).
Definition bc_apply_field64 (fuel : nat) (b : bc_builder64) (m : mask) (phi gamma : field) (minus : bool) :=
  bc_apply64 fuel b m phi (EField dbl gamma) minus.
Definition bc_apply_scalar64 (fuel : nat) (b : bc_builder64) (m : mask) (phi : field) (gamma : dbl) (minus : bool) :=
  bc_apply64 fuel b m phi (EScalar dbl gamma) minus.

(** ** BoundaryConditionOp *)
(** NeboStencils.h:45-67, 92-113 (get_coef).  With a single coefficient index 1
    is accepted too and returns that coefficient. *)
Definition get_coef64 (c : coefs dbl) (i : nat) : outcome dbl :=
  match nth_error (fst c :: snd c) i with
  | Some x => Ok x
  | None => if andb (Nat.eqb i 1) (Nat.eqb (length (snd c)) 0) then Ok (fst c) else Throw
  end.

(** The object: FVStaggeredBCOp.h:79-85.  [bc_points] holds (apoint_, bpoint_)
    for a single point, the flat indices otherwise. *)
Record bc_op64 := BCOp64 { o_ca64 : dbl; o_cb64 : dbl; o_where64 : bc_where; o_val64 : dbl }.

(** FVStaggeredBCOp.h:165-184 (constructor for one point).  Fails to compile
    ([UB] never happens; [Throw] only from get_coef) when the stencil has fewer
    than two points: modelled as None. *)
Definition bc_single64 (pts : points) (c : coefs dbl) (p : ivec) (s : side) (v : dbl) : option (outcome bc_op64) :=
  match bc_shifts pts with
  | None => None
  | Some (s1, s2) => Some (
      do ca <- get_coef64 c (if minus_like s then 0 else 1)%nat;
      do cb <- get_coef64 c (if minus_like s then 1 else 0)%nat;
      Ok (BCOp64 ca cb (Single (iv_add p (if minus_like s then s1 else s2))
                             (iv_add p (if minus_like s then s2 else s1))) v))
  end.

(** FVStaggeredBCOp.h:188-212 (constructor for a list).  Note that NO_SIDE is
    treated like PLUS_SIDE here and like MINUS_SIDE above. *)
Definition bc_list64 (pts : points) (c : coefs dbl) (w : window) (ps : list ivec) (s : side) (v : dbl)
  : option (outcome bc_op64) :=
  match bc_shifts pts with
  | None => None
  | Some (s1, s2) => Some (
      do ca <- get_coef64 c (if is_minus s then 0 else 1)%nat;
      do cb <- get_coef64 c (if is_minus s then 1 else 0)%nat;
      Ok (BCOp64 ca cb
           (Many (map (fun p => (flat_index w (iv_add p (if is_minus s then s1 else s2)),
                                 flat_index w (iv_add p (if is_minus s then s2 else s1)))) ps)) v))
  end.

(** FVStaggeredBCOp.h:225-231, 237-241: fa <<= (bc - cb*fb)/ca on windows of one cell *)
Definition set_one64 (fuel : nat) (ca cb v : dbl) (a b : ivec) (f : field) : prog dbl unit :=
  fst (nebo_assign dbl dadd dmul fuel (one_cell f a)
         (EOp2 dbl ddiv
            (EOp2 dbl dsub (EScalar dbl v) (EOp2 dbl dmul (EScalar dbl cb) (EField dbl (one_cell f b))))
            (EScalar dbl ca))).

(** FVStaggeredBCOp.h:216-244 (operator()) *)
Fixpoint set_many64 (fuel : nat) (ca cb v : dbl) (l : list (Z * Z)) (f : field) : prog dbl unit :=
  match l with
  | [] => Ret tt
  | (fa, fb) :: l =>
      let* a := lift (ijk_index_from_local (fint f) fa) in
      let* b := lift (ijk_index_from_local (fint f) fb) in
      let* _ := set_one64 fuel ca cb v a b f in
      set_many64 fuel ca cb v l f
  end.
Definition bc_run64 (fuel : nat) (o : bc_op64) (f : field) : prog dbl unit :=
  match o_where64 o with
  | Single a b => set_one64 fuel (o_ca64 o) (o_cb64 o) (o_val64 o) a b f
  | Many l => set_many64 fuel (o_ca64 o) (o_cb64 o) (o_val64 o) l f
  end.

