(** Specification of Nebo: what an expression means at a grid point, which
    cells it needs, and which fields belong to a patch.  Grid points are
    counted from the first interior cell of the patch. *)
From Verif Require Import Prelude WindowM WindowS GhostM FieldM FieldS MaskM NeboM.

(** Point p lies in the half-open box [lo, hi). *)
Definition in_region (lo hi p : ivec) : Prop :=
  ix lo <= ix p < ix hi /\ iy lo <= iy p < iy hi /\ iz lo <= iz p < iz hi.
Definition iv_neg (v : ivec) : ivec := IV (- ix v) (- iy v) (- iz v).

(** Address of grid point p in the block of field f. *)
Definition cell (f : field) (p : ivec) : Z := addr (fint f) p.

(** The box of grid points that lie [g] layers around the n interior points;
    the first [e] layers above are boundary extra cells. *)
Definition reach (n e : ivec) (g : ghost) (p : ivec) : Prop :=
  in_region (iv_neg (gminus g)) (iv_add (iv_add n e) (gplus g)) p.

(** Field f describes values on the patch with n cells: its interior is the
    patch plus the extra boundary cells, its active window is the interior
    grown by the valid ghosts, and all its ghost cells fit into its block.
    Its ghost counts are not the library's "infinite" ones. *)
Definition on_patch (n : ivec) (f : field) : Prop :=
  let e := has_extra (fbc f) in
  pos_dims n /\ iv_le iv_zero e /\
  wext (fint f) = iv_add n e /\
  fwin f = grown (fint f) (gminus (fvalid f)) (gplus (fvalid f)) /\
  g_nonneg (fvalid f) /\ g_le (fvalid f) (fghosts f) /\
  ginf (fvalid f) = false /\ ginf (fghosts f) = false /\
  fits (grown (fint f) (gminus (fghosts f)) (gplus (fghosts f))).

(** Cells of f whose values are valid; all cells of f. *)
Definition valid_cell (n : ivec) (f : field) (p : ivec) : Prop := reach n (has_extra (fbc f)) (fvalid f) p.
Definition any_cell (n : ivec) (f : field) (p : ivec) : Prop := reach n (has_extra (fbc f)) (fghosts f) p.
(** Interior cells of f, boundary extra cells included. *)
Definition interior_cell (n : ivec) (f : field) (p : ivec) : Prop :=
  in_region iv_zero (iv_add n (has_extra (fbc f))) p.

(** Directions in which the patch has a single cell have no ghosts and no
    extra cells. *)
Definition regular1 (n gm gp e : Z) : Prop := 1 < n \/ (n = 1 /\ gm = 0 /\ gp = 0 /\ e = 0).
Definition regular (dim : ivec) (bx by_ bz : bool) (extra : ivec) (g : ghost) : Prop :=
  regular1 (ix dim) (ix (gminus g)) (ix (gplus g)) (if bx then ix extra else 0) /\
  regular1 (iy dim) (iy (gminus g)) (iy (gplus g)) (if by_ then iy extra else 0) /\
  regular1 (iz dim) (iz (gminus g)) (iz (gplus g)) (if bz then iz extra else 0).

(** Fields a user can build on a patch: constructed with ghosts and boundary
    flags, then any history of valid-ghost resets and partition settings. *)
Inductive user_field (dim : ivec) : field -> Prop :=
| uf_make bx by_ bz extra g buf nt :
    iv_le (IV 1 1 1) dim -> iv_le iv_zero extra -> g_nonneg g -> ginf g = false ->
    regular dim bx by_ bz extra g ->
    user_field dim (patch_field dim bx by_ bz extra g buf nt)
| uf_reset f g : user_field dim f -> g_nonneg g -> g_le g (fghosts f) -> ginf g = false ->
    user_field dim (reset_valid_ghosts f g)
| uf_parts f n : user_field dim f -> user_field dim (set_partition_count f n).

Section Spec.
Variable V : Type.
Variable vadd vmul : V -> V -> V.
Notation expr := (expr V). Notation bexpr := (bexpr V). Notation heap := (heap V).

(** Value of field f at grid point p. *)
Definition value (h : heap) (f : field) (p : ivec) : V := bdata (h (fbuf f)) (cell f p).
(** Does the mask hold at grid point p? *)
Definition holds (m : mask) (p : ivec) : bool :=
  match mask_query m p with Ok b => b | _ => false end.

(** Value of an expression at a grid point. *)
Fixpoint denote (h : heap) (e : expr) (p : ivec) : V :=
  match e with
  | EScalar _ v => v
  | EField _ f => value h f p
  | ESingle _ f => bdata (h (fbuf f)) 0
  | EOp1 _ op a => op (denote h a p)
  | EOp2 _ op a b => op (denote h a p) (denote h b p)
  | ECond _ c x o => if bdenote h c p then denote h x p else denote h o p
  | EStencil _ p0 c0 rest a =>
      fold_left (fun acc pc => vadd acc (vmul (denote h a (iv_add p (fst pc))) (snd pc)))
                rest (vmul (denote h a (iv_add p p0)) c0)
  | ESumStencil _ p0 rest a =>
      fold_left (fun acc q => vadd acc (denote h a (iv_add p q))) rest (denote h a (iv_add p p0))
  end
with bdenote (h : heap) (e : bexpr) (p : ivec) : bool :=
  match e with
  | BScalar _ b => b
  | BMask _ m => holds m p
  | BCmp _ c a b => c (denote h a p) (denote h b p)
  | BAnd _ a b => bdenote h a p && bdenote h b p
  | BOr _ a b => bdenote h a p || bdenote h b p
  | BNot _ a => negb (bdenote h a p)
  | BShift _ q a => bdenote h a (iv_add p q)
  end.

(** The fields an expression reads, with the total shift at which it reads
    them; the same for masks; and the single-value fields. *)
Fixpoint reads (e : expr) (s : ivec) : list (field * ivec) :=
  match e with
  | EScalar _ _ | ESingle _ _ => []
  | EField _ f => [(f, s)]
  | EOp1 _ _ a => reads a s
  | EOp2 _ _ a b => reads a s ++ reads b s
  | ECond _ c x o => breads c s ++ reads x s ++ reads o s
  | EStencil _ p0 _ rest a => reads a (iv_add s p0) ++ flat_map (fun pc => reads a (iv_add s (fst pc))) rest
  | ESumStencil _ p0 rest a => reads a (iv_add s p0) ++ flat_map (fun p => reads a (iv_add s p)) rest
  end
with breads (e : bexpr) (s : ivec) : list (field * ivec) :=
  match e with
  | BScalar _ _ | BMask _ _ => []
  | BCmp _ _ a b => reads a s ++ reads b s
  | BAnd _ a b | BOr _ a b => breads a s ++ breads b s
  | BNot _ a => breads a s
  | BShift _ p a => breads a (iv_add s p)
  end.
Fixpoint masks (e : expr) (s : ivec) : list (mask * ivec) :=
  match e with
  | EScalar _ _ | ESingle _ _ | EField _ _ => []
  | EOp1 _ _ a => masks a s
  | EOp2 _ _ a b => masks a s ++ masks b s
  | ECond _ c x o => bmasks c s ++ masks x s ++ masks o s
  | EStencil _ p0 _ rest a => masks a (iv_add s p0) ++ flat_map (fun pc => masks a (iv_add s (fst pc))) rest
  | ESumStencil _ p0 rest a => masks a (iv_add s p0) ++ flat_map (fun p => masks a (iv_add s p)) rest
  end
with bmasks (e : bexpr) (s : ivec) : list (mask * ivec) :=
  match e with
  | BScalar _ _ => []
  | BMask _ m => [(m, s)]
  | BCmp _ _ a b => masks a s ++ masks b s
  | BAnd _ a b | BOr _ a b => bmasks a s ++ bmasks b s
  | BNot _ a => bmasks a s
  | BShift _ p a => bmasks a (iv_add s p)
  end.
Fixpoint singles (e : expr) : list field :=
  match e with
  | EScalar _ _ | EField _ _ => []
  | ESingle _ f => [f]
  | EOp1 _ _ a => singles a
  | EOp2 _ _ a b => singles a ++ singles b
  | ECond _ c x o => bsingles c ++ singles x ++ singles o
  | EStencil _ _ _ _ a | ESumStencil _ _ _ a => singles a
  end
with bsingles (e : bexpr) : list field :=
  match e with
  | BScalar _ _ | BMask _ _ => []
  | BCmp _ _ a b => singles a ++ singles b
  | BAnd _ a b | BOr _ a b => bsingles a ++ bsingles b
  | BNot _ a => bsingles a
  | BShift _ _ a => bsingles a
  end.

(** The operands of an expression with the layers of cells that the stencils
    around them consume below and above: nested stencils add up. *)
Inductive leaf := LConst | LField (f : field).
Definition below (p : ivec) : ivec := IV (Z.max 0 (- ix p)) (Z.max 0 (- iy p)) (Z.max 0 (- iz p)).
Definition above (p : ivec) : ivec := IV (Z.max 0 (ix p)) (Z.max 0 (iy p)) (Z.max 0 (iz p)).
Fixpoint demands (e : expr) (m u : ivec) : list (leaf * ivec * ivec) :=
  match e with
  | EScalar _ _ | ESingle _ _ => [(LConst, m, u)]
  | EField _ f => [(LField f, m, u)]
  | EOp1 _ _ a => demands a m u
  | EOp2 _ _ a b => demands a m u ++ demands b m u
  | ECond _ c x o => bdemands c m u ++ demands x m u ++ demands o m u
  | EStencil _ p0 _ rest a =>
      flat_map (fun p => demands a (iv_add m (below p)) (iv_add u (above p))) (p0 :: map fst rest)
  | ESumStencil _ p0 rest a =>
      flat_map (fun p => demands a (iv_add m (below p)) (iv_add u (above p))) (p0 :: rest)
  end
with bdemands (e : bexpr) (m u : ivec) : list (leaf * ivec * ivec) :=
  match e with
  | BScalar _ _ => [(LConst, m, u)]
  | BMask _ k => [(LField (mgeo k), m, u)]
  | BCmp _ _ a b => demands a m u ++ demands b m u
  | BAnd _ a b | BOr _ a b => bdemands a m u ++ bdemands b m u
  | BNot _ a => bdemands a m u
  | BShift _ p a => bdemands a (iv_add m (below p)) (iv_add u (above p))
  end.

(** Layers around the patch on which an operand is known: for a field its
    valid ghosts and extra cells; constants count as known on GHOST_MAX layers. *)
Definition layers (l : leaf) : ivec * ivec :=
  match l with
  | LConst => (IV GHOST_MAX GHOST_MAX GHOST_MAX, IV GHOST_MAX GHOST_MAX GHOST_MAX)
  | LField f => (gminus (fvalid f), iv_add (has_extra (fbc f)) (gplus (fvalid f)))
  end.
Definition known (n : ivec) (l : leaf) (q : ivec) : Prop :=
  in_region (iv_neg (fst (layers l))) (iv_add n (snd (layers l))) q.

(** The expression can be evaluated at p: every operand is known on the whole
    block of cells that its stencils span around p. *)
Definition expr_known (n : ivec) (e : expr) (p : ivec) : Prop :=
  forall l m u, In (l, m, u) (demands e iv_zero iv_zero) ->
  forall q, iv_le (iv_sub p m) q -> iv_le q (iv_add p u) -> known n l q.

(** The points assigned by f <<= e. *)
Definition region (n : ivec) (f : field) (e : expr) (p : ivec) : Prop :=
  any_cell n f p /\ expr_known n e p.

(** In directions where f touches the domain boundary the expression reaches
    the extra cells of f. *)
Definition covers_extra (f : field) (e : expr) : Prop :=
  forall l m u, In (l, m, u) (demands e iv_zero iv_zero) ->
  (ix (bc_is (fbc f)) <> 0 -> ix (has_extra (fbc f)) + ix u <= ix (snd (layers l))) /\
  (iy (bc_is (fbc f)) <> 0 -> iy (has_extra (fbc f)) + iy u <= iy (snd (layers l))) /\
  (iz (bc_is (fbc f)) <> 0 -> iz (has_extra (fbc f)) + iz u <= iz (snd (layers l))).

(** A mask as built by its constructor on a field of the patch. *)
Definition mask_on_patch (n : ivec) (m : mask) : Prop :=
  on_patch n (mgeo m) /\ Z.of_nat (length (mwords m)) = round_to_int (glob_npts (fint (mgeo m))).

(** All operands live on the patch and their valid cells exist in memory. *)
Definition operands_ok (n : ivec) (h : heap) (e : expr) : Prop :=
  (forall f s, In (f, s) (reads e iv_zero) ->
     on_patch n f /\ forall p, valid_cell n f p -> bcells (h (fbuf f)) (cell f p) = true) /\
  (forall m s, In (m, s) (masks e iv_zero) -> mask_on_patch n m) /\
  (forall f, In f (singles e) -> bcells (h (fbuf f)) 0 = true).

(** The destination is on the patch, writable, and its cells exist. *)
Definition destination_ok (n : ivec) (h : heap) (f : field) : Prop :=
  on_patch n f /\ freadonly f = false /\
  forall p, any_cell n f p -> bcells (h (fbuf f)) (cell f p) = true.

(** Operands do not share storage with the destination, or they are the same
    cells read without shift. *)
Definition alias_ok (f : field) (e : expr) : Prop :=
  forall g s, In (g, s) (reads e iv_zero) -> fbuf g <> fbuf f \/ (s = iv_zero /\ fint g = fint f).

(** [h'] is [h] with the cells of f at the points of R set to value e. *)
Definition assigned (h h' : heap) (f : field) (R : ivec -> Prop) (val : ivec -> V) : Prop :=
  (forall b i, bcells (h' b) i = bcells (h b) i) /\
  (forall p, R p -> value h' f p = val p) /\
  (forall b i, (b <> fbuf f \/ forall p, R p -> i <> cell f p) -> bdata (h' b) i = bdata (h b) i).

(** Assigning e to f at the points of l one after the other: each point sees
    the values stored at the points before it. *)
Definition in_turn (f : field) (e : expr) (l : list ivec) (h : heap) : heap :=
  fold_left (fun h p => upd h (fbuf f) (cell f p) (denote h e p)) l h.

(** Memory accesses of a program, in order. *)
Inductive access := ALoad (b : nat) (i : Z) | AStore (b : nat) (i : Z).
Fixpoint accesses {R} (p : prog V R) (h : heap) : list access :=
  match p with
  | Load b i k => ALoad b i :: accesses (k (bdata (h b) i)) h
  | Store b i v k => AStore b i :: accesses k (upd h b i v)
  | _ => []
  end.

(** Does the expression contain a field or a mask? *)
Fixpoint has_leaf (e : expr) : bool :=
  match e with
  | EScalar _ _ | ESingle _ _ => false
  | EField _ _ => true
  | EOp1 _ _ a => has_leaf a
  | EOp2 _ _ a b => has_leaf a || has_leaf b
  | ECond _ c x o => (bhas_leaf c || has_leaf x) || has_leaf o
  | EStencil _ _ _ _ a | ESumStencil _ _ _ a => has_leaf a
  end
with bhas_leaf (e : bexpr) : bool :=
  match e with
  | BScalar _ _ => false
  | BMask _ _ => true
  | BCmp _ _ a b => has_leaf a || has_leaf b
  | BAnd _ a b | BOr _ a b => bhas_leaf a || bhas_leaf b
  | BNot _ a => bhas_leaf a
  | BShift _ _ a => bhas_leaf a
  end.

(** [l] lists the points of R in memory order (x fastest), each once. *)
Definition lists_in_order (R : ivec -> Prop) (l : list ivec) : Prop :=
  (forall p, In p l <-> R p) /\
  forall i j p q, (i < j)%nat -> nth_error l i = Some p -> nth_error l j = Some q -> before p q.

(** The element type's < behaves like a strict (weak) order; for floating
    point this excludes NaN. *)
Definition strict_order (ltb : V -> V -> bool) : Prop :=
  (forall a b, ltb a b = true -> ltb b a = false) /\
  (forall a b c, ltb a b = false -> ltb b c = false -> ltb a c = false).
End Spec.
