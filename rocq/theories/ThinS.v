(** Vocabulary for C64: fields on patches with a single cell in some
    directions, built with ghost cells in all directions (GhostData(1) on an
    n x m x 1 patch, as test/heatEqn/main.cpp:112-136 does when run with
    nz = 1).  Such fields store just the one cell in those directions. *)
From Verif Require Import Prelude WindowM WindowS GhostM FieldM FieldS MaskM NeboM NeboS.

(** A vector with its entries in one-cell directions set to zero. *)
Definition drop1 (n v : Z) : Z := if 1 <? n then v else 0.
Definition drop (n v : ivec) : ivec := IV (drop1 (ix n) (ix v)) (drop1 (iy n) (iy v)) (drop1 (iz n) (iz v)).

(** The ghost counts a field really has on a patch of n cells: none in
    directions with one cell; and the field described by these counts.  Only
    the numbers change: storage, windows and contents are those of f. *)
Definition real_ghosts (n : ivec) (g : ghost) : ghost := Ghost (drop n (gminus g)) (drop n (gplus g)) (ginf g).
Definition real_field (n : ivec) (f : field) : field :=
  Field (fwin f) (fint f) (fbc f) (real_ghosts n (fghosts f)) (real_ghosts n (fvalid f)) (fbuf f)
        (freadonly f) (fdisint f) (fparts f).
Definition real_mask (n : ivec) (m : mask) : mask := Mask (real_field n (mgeo m)) (mwords m).

(** In directions with one cell the ghost counts are [a] below and [b] above. *)
Definition declares1 (n a v : Z) : Prop := n = 1 -> v = a /\ v < GHOST_MAX.
Definition declares (n a b : ivec) (g : ghost) : Prop :=
  declares1 (ix n) (ix a) (ix (gminus g)) /\ declares1 (iy n) (iy a) (iy (gminus g)) /\ declares1 (iz n) (iz a) (iz (gminus g)) /\
  declares1 (ix n) (ix b) (ix (gplus g)) /\ declares1 (iy n) (iy b) (iy (gplus g)) /\ declares1 (iz n) (iz b) (iz (gplus g)).
(** No extra cells in directions with one cell. *)
Definition no_thin_extra (n : ivec) (bx by_ bz : bool) (extra : ivec) : Prop :=
  (ix n = 1 -> bx = true -> ix extra = 0) /\ (iy n = 1 -> by_ = true -> iy extra = 0) /\ (iz n = 1 -> bz = true -> iz extra = 0).

(** Fields a user builds on the patch, whatever ghost counts are declared in
    one-cell directions (the same ones for all fields); valid ghosts are reset
    in the other directions only. *)
Inductive thin_field (n a b : ivec) : field -> Prop :=
| tf_make bx by_ bz extra g buf nt :
    iv_le (IV 1 1 1) n -> iv_le iv_zero extra -> g_nonneg g -> ginf g = false ->
    declares n a b g -> no_thin_extra n bx by_ bz extra ->
    thin_field n a b (patch_field n bx by_ bz extra g buf nt)
| tf_reset f g : thin_field n a b f -> g_nonneg g -> g_le g (fghosts f) -> ginf g = false -> declares n a b g ->
    thin_field n a b (reset_valid_ghosts f g)
| tf_parts f k : thin_field n a b f -> thin_field n a b (set_partition_count f k).

(** A stencil point that does not leave the plane of the patch. *)
Definition in_plane (n p : ivec) : Prop := drop n p = p.

Section Spec.
Variable V : Type.
(** The expression with its fields described by their real ghost counts. *)
Fixpoint real_expr (n : ivec) (e : expr V) : expr V :=
  match e with
  | EScalar _ v => EScalar V v
  | EField _ f => EField V (real_field n f)
  | ESingle _ f => ESingle V f
  | EOp1 _ op a => EOp1 V op (real_expr n a)
  | EOp2 _ op a b => EOp2 V op (real_expr n a) (real_expr n b)
  | ECond _ c x o => ECond V (real_bexpr n c) (real_expr n x) (real_expr n o)
  | EStencil _ p0 c0 rest a => EStencil V p0 c0 rest (real_expr n a)
  | ESumStencil _ p0 rest a => ESumStencil V p0 rest (real_expr n a)
  end
with real_bexpr (n : ivec) (e : bexpr V) : bexpr V :=
  match e with
  | BScalar _ b => BScalar V b
  | BMask _ m => BMask V (real_mask n m)
  | BCmp _ c a b => BCmp V c (real_expr n a) (real_expr n b)
  | BAnd _ a b => BAnd V (real_bexpr n a) (real_bexpr n b)
  | BOr _ a b => BOr V (real_bexpr n a) (real_bexpr n b)
  | BNot _ a => BNot V (real_bexpr n a)
  | BShift _ p a => BShift V p (real_bexpr n a)
  end.

(** Every field and mask of the expression is one of the above and no stencil
    leaves the plane. *)
Fixpoint thin_expr (n a b : ivec) (e : expr V) : Prop :=
  match e with
  | EScalar _ _ | ESingle _ _ => True
  | EField _ f => thin_field n a b f
  | EOp1 _ _ x => thin_expr n a b x
  | EOp2 _ _ x y => thin_expr n a b x /\ thin_expr n a b y
  | ECond _ c x o => thin_bexpr n a b c /\ thin_expr n a b x /\ thin_expr n a b o
  | EStencil _ p0 _ rest x => in_plane n p0 /\ (forall pc, In pc rest -> in_plane n (fst pc)) /\ thin_expr n a b x
  | ESumStencil _ p0 rest x => in_plane n p0 /\ (forall p, In p rest -> in_plane n p) /\ thin_expr n a b x
  end
with thin_bexpr (n a b : ivec) (e : bexpr V) : Prop :=
  match e with
  | BScalar _ _ => True
  | BMask _ m => thin_field n a b (mgeo m)
  | BCmp _ _ x y => thin_expr n a b x /\ thin_expr n a b y
  | BAnd _ x y | BOr _ x y => thin_bexpr n a b x /\ thin_bexpr n a b y
  | BNot _ x => thin_bexpr n a b x
  | BShift _ p x => in_plane n p /\ thin_bexpr n a b x
  end.

(** Memory: the valid cells of the fields read exist, masks are as long as
    their constructor makes them, single values exist. *)
Definition thin_operands (n a b : ivec) (h : heap V) (e : expr V) : Prop :=
  thin_expr n a b e /\
  (forall f s, In (f, s) (reads V e iv_zero) -> forall p, valid_cell n (real_field n f) p ->
     bcells (h (fbuf f)) (cell f p) = true) /\
  (forall m s, In (m, s) (masks V e iv_zero) ->
     Z.of_nat (length (mwords m)) = round_to_int (glob_npts (fint (mgeo m)))) /\
  (forall f, In f (singles V e) -> bcells (h (fbuf f)) 0 = true).
Definition thin_destination (n a b : ivec) (h : heap V) (f : field) : Prop :=
  thin_field n a b f /\ forall p, any_cell n (real_field n f) p -> bcells (h (fbuf f)) (cell f p) = true.
End Spec.
