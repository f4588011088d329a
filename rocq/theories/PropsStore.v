(** C54: scratch fields from SpatialFieldStore::get. *)
From Verif Require Import Prelude WindowM WindowS GhostM FieldM FieldS PoolM PoolS StencilM StoreM StoreS StoreP PropsPool.

(** Modelled after a field of another type on the same patch, the scratch field
    is what the user would build on the patch for its own type. *)
Theorem C54_same_as_built : forall st a lf lp dim bx by_ bz g buf nt0 mt nt, mt <> EXTERNAL_CUDA_GPU ->
  iv_le (IV 1 1 1) dim -> plain dim bx by_ bz lf lp ->
  exists b st', store_get st a lf lp (built lp dim bx by_ bz g buf nt0) mt nt = Ok (built lf dim bx by_ bz g b nt, st').
Proof. exact same_as_built. Qed.
Print Assumptions C54_same_as_built.

(** Modelled after any field object of the same type, views included, it has
    the same extent, is a whole block, has all ghost cells valid and is writable. *)
Theorem C54_same_type : forall st a l f mt nt, mt <> EXTERNAL_CUDA_GPU ->
  exists r st', store_get st a l l f mt nt = Ok (r, st') /\ fwin r = win_full (wext (fwin f)) /\ fghosts r = fghosts f /\
    fvalid r = fghosts f /\ freadonly r = false.
Proof. exact same_type. Qed.
Print Assumptions C54_same_type.

(** How many points a field has in each direction: the cells of the patch, and
    one more at a boundary for points that lie half a cell below. *)
Theorem C54_boundary_points : forall l dim bx by_ bz g buf nt, full_3d dim -> g_nonneg g ->
  let e := wext (fint (built l dim bx by_ bz g buf nt)) in
  (ends_on_boundary XDIR l /\ bx = true -> ix e = ix dim + 1) /\ (~ (ends_on_boundary XDIR l /\ bx = true) -> ix e = ix dim) /\
  (ends_on_boundary YDIR l /\ by_ = true -> iy e = iy dim + 1) /\ (~ (ends_on_boundary YDIR l /\ by_ = true) -> iy e = iy dim) /\
  (ends_on_boundary ZDIR l /\ bz = true -> iz e = iz dim + 1) /\ (~ (ends_on_boundary ZDIR l /\ bz = true) -> iz e = iz dim).
Proof. exact boundary_points. Qed.
Print Assumptions C54_boundary_points.

(** Its block is handed out to nobody else and holds all its points. *)
Theorem C54_own_block : forall w a lf lp f mt nt, history w -> ~ In a (map fst (wmem w)) -> mt <> EXTERNAL_CUDA_GPU ->
  iv_le (IV 1 1 1) (wext (fwin f)) ->
  exists r st', store_get (wpool w) a lf lp f mt nt = Ok (r, st') /\
    ~ In (fbuf r) (wout w) /\
    exists k, In (fbuf r, k) (wmem (snd (do_get w a (glob_npts (fwin r))))) /\ glob_npts (fwin r) <= k.
Proof. exact own_block. Qed.
Print Assumptions C54_own_block.

(** In a direction with one cell and a boundary it has no cells, or two, when the
    types differ in their extra cells there. *)
Theorem C54_one_cell_refuted : forall st a lf lp dim by_ bz g buf nt0 mt nt, mt <> EXTERNAL_CUDA_GPU -> ix dim = 1 ->
  ix (bc_extra lf) <> ix (bc_extra lp) ->
  exists r st', store_get st a lf lp (built lp dim true by_ bz g buf nt0) mt nt = Ok (r, st') /\
    ix (wext (fwin (built lf dim true by_ bz g buf nt))) = 1 /\
    ix (wext (fwin r)) = (if ix (bc_extra lp) =? 0 then 2 else 0).
Proof. exact degenerate. Qed.
Print Assumptions C54_one_cell_refuted.

(** Modelled after a field whose valid ghost cells were reduced, its interior is
    too small by the layers removed. *)
Theorem C54_reduced_refuted : forall st a l dim bx by_ bz g g' buf nt0 mt nt, mt <> EXTERNAL_CUDA_GPU -> 1 < ix dim ->
  0 <= ix (gminus g') <= ix (gminus g) -> 0 <= ix (gplus g') <= ix (gplus g) ->
  exists r st', store_get st a l l (reset_valid_ghosts (built l dim bx by_ bz g buf nt0) g') mt nt = Ok (r, st') /\
    ix (wext (fint r)) = ix (wext (fint (built l dim bx by_ bz g buf nt0)))
                         - (ix (gminus g) - ix (gminus g')) - (ix (gplus g) - ix (gplus g')).
Proof. exact reduced. Qed.
Print Assumptions C54_reduced_refuted.

(** A face field from a volume field with boundaries on a plane patch; a pool with
    blocks in use. *)
Example C54_hyps_met :
  plain (IV 5 4 1) true true false SSurfX SVol /\ iv_le (IV 1 1 1) (IV 5 4 1) /\
  history pool_w2 /\ ~ In 40%nat (map fst (wmem pool_w2)) /\ wout pool_w2 <> [] /\
  ix (wext (fwin (built SSurfX (IV 5 4 1) true true false (ghost_n 1) 0 4))) = 8 /\
  iv_le (IV 1 1 1) (wext (fwin (built SVol (IV 5 4 1) true true false (ghost_n 1) 0 4))).
Proof.
  split; [unfold plain, plain1; cbn; lia|]. split; [unfold iv_le; cbn; lia|].
  split; [exact pool_h2|]. split; [cbn; intuition discriminate|]. split; [discriminate|].
  split; [reflexivity|]. unfold iv_le. cbn. lia.
Qed.
Example C54_refuted_hyps_met :
  ix (bc_extra SVol) <> ix (bc_extra SSurfX) /\ 0 <= ix (gminus (ghost_n 0)) <= ix (gminus (ghost_n 2)).
Proof. cbn. lia. Qed.
Example C54_boundary_hyps_met : full_3d (IV 5 4 3) /\ g_nonneg (ghost_n 1) /\ ends_on_boundary XDIR SSurfX /\ ends_on_boundary XDIR XVol.
Proof.
  split; [unfold full_3d; cbn; lia|]. split; [unfold g_nonneg, iv_le; cbn; lia|].
  split; (split; [reflexivity|]); [right; exists SVol; split; [left|]; reflexivity|left; right; left; reflexivity].
Qed.
