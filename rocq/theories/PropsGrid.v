(** Property theorems about grid coordinates: C43.  [coord s l p] are the
    coordinates of cell p of a field at location l on a grid of spacing s. *)
From Verif Require Import Prelude WindowM WindowS GhostM FieldM FieldS MaskM NeboM NeboS StencilM StencilS IterM IterS GridM GridP.

(** A field all of whose ghost cells are valid: every cell, ghosts included,
    gets its coordinate, and nothing else changes. *)
Theorem C43_coords : forall n h f d l npts lx ly lz rest g,
  user_field n f -> fvalid f = fghosts f -> freadonly f = false -> (forall p, any_cell n f p -> bcells (h (fbuf f)) (cell f p) = true) ->
  make_grid npts (lx :: ly :: lz :: rest) = Ok g ->
  exists h', run (set_coord g d l f) h = RDone h' tt /\
    (forall p, any_cell n f p -> value Qc h' f p = coord (grid_spacing npts lx ly lz) l p d) /\
    differs_only h h' (fun b i => b = fbuf f /\ exists p, any_cell n f p /\ i = cell f p).
Proof. exact set_coord_exact. Qed.
Print Assumptions C43_coords.
(** After ghost cells were declared invalid, the coordinates are off by one
    spacing for each layer removed on the lower side ... *)
Theorem C43_reduced : forall n h f d l npts lx ly lz rest g,
  user_field n f -> freadonly f = false -> (forall p, valid_cell n f p -> bcells (h (fbuf f)) (cell f p) = true) ->
  make_grid npts (lx :: ly :: lz :: rest) = Ok g ->
  let s := grid_spacing npts lx ly lz in
  let hidden := comp d (gminus (fghosts f)) - comp d (gminus (fvalid f)) in
  exists h', run (set_coord g d l f) h = RDone h' tt /\
    (forall p, valid_cell n f p -> value Qc h' f p = (coord s l p d - s d * qc_of hidden)%Qc) /\
    differs_only h h' (fun b i => b = fbuf f /\ exists p, valid_cell n f p /\ i = cell f p).
Proof. exact set_coord_user. Qed.
Print Assumptions C43_reduced.
(** ... hence wrong in every cell. *)
Theorem C43_reduced_refuted : forall n h f d l npts lx ly lz rest g,
  user_field n f -> freadonly f = false -> (forall p, valid_cell n f p -> bcells (h (fbuf f)) (cell f p) = true) ->
  make_grid npts (lx :: ly :: lz :: rest) = Ok g -> grid_spacing npts lx ly lz d <> 0%Qc ->
  comp d (gminus (fvalid f)) <> comp d (gminus (fghosts f)) ->
  exists h', run (set_coord g d l f) h = RDone h' tt /\
    forall p, valid_cell n f p -> value Qc h' f p <> coord (grid_spacing npts lx ly lz) l p d.
Proof. exact set_coord_wrong. Qed.
Print Assumptions C43_reduced_refuted.
(** Neighbours along the direction differ by one spacing, across it they agree
    (whatever the valid ghosts). *)
Theorem C43_neighbours : forall n h f d e l npts lx ly lz rest g p,
  user_field n f -> freadonly f = false -> (forall p, valid_cell n f p -> bcells (h (fbuf f)) (cell f p) = true) ->
  make_grid npts (lx :: ly :: lz :: rest) = Ok g -> valid_cell n f p -> valid_cell n f (step e 1 p) ->
  exists h', run (set_coord g d l f) h = RDone h' tt /\
    (d = e -> value Qc h' f (step e 1 p) = (value Qc h' f p + grid_spacing npts lx ly lz d)%Qc) /\
    (d <> e -> value Qc h' f (step e 1 p) = value Qc h' f p).
Proof. exact set_coord_neighbours. Qed.
Print Assumptions C43_neighbours.
(** On cell-centred fields the first interior coordinate is half a spacing, on
    fields staggered in this direction 0. *)
Theorem C43_stagger : forall s l d,
  (comp d (offset l) = 0 -> coord s l iv_zero d = (s d * half)%Qc) /\ (comp d (offset l) = -1 -> coord s l iv_zero d = 0%Qc).
Proof. exact coord_origin. Qed.
Print Assumptions C43_stagger.
Theorem C43_readonly : forall h f d l npts lx ly lz rest g, make_grid npts (lx :: ly :: lz :: rest) = Ok g -> freadonly f = true ->
  run (set_coord g d l f) h = RThrow.
Proof. exact set_coord_ro. Qed.
Print Assumptions C43_readonly.

(** A 2x3x1 patch with one ghost layer in x and y, one extra cell in y. *)
Definition c43_field : field := patch_field (IV 2 3 1) false true false (IV 0 1 0) (mk_ghost (IV 1 1 0) (IV 1 1 0)) 0 1.
Definition c43_heap : heap Qc := fun b => Block (fun i => (0 <=? i) && (i <? 24)) (fun _ => 0%Qc).
Example C43_hyps_met : user_field (IV 2 3 1) c43_field /\ fvalid c43_field = fghosts c43_field /\ freadonly c43_field = false /\
  (forall p, any_cell (IV 2 3 1) c43_field p -> bcells (c43_heap (fbuf c43_field)) (cell c43_field p) = true) /\
  any_cell (IV 2 3 1) c43_field (IV (-1) 4 0) /\
  user_field (IV 2 3 1) (reset_valid_ghosts c43_field (ghost_n 0)) /\
  comp XDIR (gminus (fvalid (reset_valid_ghosts c43_field (ghost_n 0)))) <> comp XDIR (gminus (fghosts c43_field)) /\
  exists g, make_grid (IV 2 3 1) [1%Qc; qc_of 6; 1%Qc] = Ok g /\ grid_spacing_of g YDIR = Ok (qc_of 6 / qc_of 3)%Qc.
Proof.
  assert (U : user_field (IV 2 3 1) c43_field).
  { apply uf_make; try (cbv; repeat split; discriminate || reflexivity); cbv; intuition discriminate || lia. }
  split; [exact U|]. split; [reflexivity|]. split; [reflexivity|]. split; [|split; [|split; [|split]]].
  - intros [a b c] H. unfold any_cell, reach, in_region in H. cbn in H. change (((0 <=? (1 + a) + 4 * ((1 + b) + 6 * (0 + c))) && ((1 + a) + 4 * ((1 + b) + 6 * (0 + c)) <? 24)) = true). lia.
  - unfold any_cell, reach, in_region. cbn. lia.
  - apply uf_reset; [exact U| | |reflexivity]; cbv; repeat split; discriminate.
  - discriminate.
  - eexists. split; reflexivity.
Qed.
