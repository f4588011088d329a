(** Property theorems about grid coordinates in double precision: C70.
    [half_cells l p d] is the position of cell p of a field at location l in units of
    half a cell; [width] is the exact width of a cell, [spacing64] its double. *)
From Coq Require Import Reals.
From Flocq Require Import Core.
From Verif Require Import Prelude WindowM WindowS GhostM FieldM FieldS MaskM NeboM NeboS StencilM StencilS IterM IterS GridM RoundM RoundS RedM HeatM Cmp64M Part64M Part64S Grid64M Grid64S Grid64P Grid64R Grid64E.
Local Open Scope R_scope.

(** For a domain of ordinary size every cell, ghosts included, gets its position up
    to 2^-51 of the distance from the origin plus one cell; positions increase along
    the direction and are the same double across it; nothing else changes. *)
Theorem C70_positions : forall n h f d l npts lx ly lz rest g,
  user_field n f -> fvalid f = fghosts f -> int_indices f -> freadonly f = false -> (forall p, any_cell n f p -> bcells (h (fbuf f)) (cell f p) = true) ->
  make_grid64 npts (lx :: ly :: lz :: rest) = Ok g -> domain64 npts lx ly lz d ->
  let w := width npts lx ly lz d in
  exists h', run (set_coord64 g d l f) h = RDone h' tt /\
    (forall p, any_cell n f p -> finite (value dbl h' f p) /\
       Rabs (val (value dbl h' f p) - IZR (half_cells l p d) / 2 * w) <= powerRZ 2 (-51) * (IZR (Z.abs (comp d p)) + 1) * w) /\
    (forall p q, any_cell n f p -> any_cell n f q ->
       ((comp d p < comp d q)%Z -> val (value dbl h' f p) < val (value dbl h' f q)) /\
       (comp d p = comp d q -> value dbl h' f p = value dbl h' f q)) /\
    differs_only h h' (fun b i => b = fbuf f /\ exists p, any_cell n f p /\ i = cell f p).
Proof. exact set_coord_positions. Qed.
Print Assumptions C70_positions.
Example C70_hyps_met : user_field (IV 49 1 1) line /\ user_field (IV 49 1 1) faces /\ int_indices line /\ int_indices faces /\
  (forall p, any_cell (IV 49 1 1) line p -> bcells (line_heap (fbuf line)) (cell line p) = true) /\
  (forall p, any_cell (IV 49 1 1) faces p -> bcells (line_heap (fbuf faces)) (cell faces p) = true) /\
  domain64 (IV 49 1 1) d_one d_one d_one XDIR /\
  make_grid64 (IV 49 1 1) [d_one; d_one; d_one] = Ok unit_grid /\ whole_block line /\ fvalid line = fghosts line /\ fvalid faces = fghosts faces /\
  freadonly line = false /\ freadonly faces = false /\ iy (wext (fwin line)) = 1%Z /\ iz (wext (fwin line)) = 1%Z /\ ix (gminus (fghosts line)) = 1%Z.
Proof.
  split; [exact line_user|]. split; [exact faces_user|]. split; [apply line_ints|]. split; [apply line_ints|]. split; [exact line_cells|]. split; [exact faces_cells|].
  split; [exact unit_domain|]. exact line_set.
Qed.

(** For doubles of any magnitude, infinities and NaN included, the value is the one
    formula [coord64] of the domain, the location and the cell, and the call ends. *)
Theorem C70_values : forall n h f d l npts lx ly lz rest g,
  user_field n f -> fvalid f = fghosts f -> int_indices f -> freadonly f = false -> (forall p, any_cell n f p -> bcells (h (fbuf f)) (cell f p) = true) ->
  make_grid64 npts (lx :: ly :: lz :: rest) = Ok g ->
  exists h', run (set_coord64 g d l f) h = RDone h' tt /\
    (forall p, any_cell n f p -> value dbl h' f p = coord64 npts lx ly lz l p d) /\
    differs_only h h' (fun b i => b = fbuf f /\ exists p, any_cell n f p /\ i = cell f p).
Proof. exact set_coord64_ok. Qed.
Print Assumptions C70_values.
(** Hence fields of different locations agree: what lies lower gets the smaller
    coordinate, and the same place the same coordinate ... *)
Theorem C70_order : forall npts lx ly lz l l' p q d, domain64 npts lx ly lz d -> (Z.abs (comp d p) <= 2 ^ 31)%Z -> (Z.abs (comp d q) <= 2 ^ 31)%Z ->
  (half_cells l p d < half_cells l' q d)%Z -> val (coord64 npts lx ly lz l p d) < val (coord64 npts lx ly lz l' q d).
Proof. exact coord_order. Qed.
Print Assumptions C70_order.
Theorem C70_same_place : forall npts lx ly lz l l' p q d, half_cells l p d = half_cells l' q d -> coord64 npts lx ly lz l p d = coord64 npts lx ly lz l' q d.
Proof. exact coord_equal. Qed.
Print Assumptions C70_same_place.
(** ... and at the origin they are exact: 0 on the boundary, half a spacing above
    and below. *)
Theorem C70_origin : forall npts lx ly lz l p d, domain64 npts lx ly lz d ->
  let s := spacing64 npts lx ly lz d in
  (half_cells l p d = 0%Z -> coord64 npts lx ly lz l p d = zero) /\
  (half_cells l p d = 1%Z -> val (coord64 npts lx ly lz l p d) = val s / 2) /\
  (half_cells l p d = (-1)%Z -> val (coord64 npts lx ly lz l p d) = - (val s / 2)).
Proof. exact coord_first. Qed.
Print Assumptions C70_origin.
(** The x coordinates of the centres of a line of cells with one ghost cell below 0
    are a mesh as the particle operators (C69) need it, and their constructors
    accept it. *)
Theorem C70_mesh : forall n h f l npts lx ly lz rest g,
  user_field n f -> fvalid f = fghosts f -> int_indices f -> freadonly f = false -> (forall p, any_cell n f p -> bcells (h (fbuf f)) (cell f p) = true) ->
  make_grid64 npts (lx :: ly :: lz :: rest) = Ok g -> domain64 npts lx ly lz XDIR ->
  comp XDIR (offset l) = 0%Z -> whole_block f -> iy (wext (fwin f)) = 1%Z -> iz (wext (fwin f)) = 1%Z -> ix (gminus (fghosts f)) = 1%Z ->
  let dx := spacing64 npts lx ly lz XDIR in
  exists h', run (set_coord64 g XDIR l f) h = RDone h' tt /\
    mesh64 (powerRZ 2 (-51) * INR (length (contents h' f)) * val dx) dx (contents h' f) /\
    exists K, forall fuel, (K <= fuel)%nat -> run (particle_op64 fuel f) h' = RDone h' dx.
Proof. exact grid_mesh. Qed.
Print Assumptions C70_mesh.

(** Limits.  The far end is not exact: with 49 cells on length 1 the last face is at
    1 - 2^-53. *)
Theorem C70_end_refuted : exists h', run (set_coord64 unit_grid XDIR SSurfX faces) line_heap = RDone h' tt /\
  value dbl h' faces (IV 49 0 0) = dlit 9007199254740991 (-53) /\ half_cells SSurfX (IV 49 0 0) XDIR = (2 * 49)%Z.
Proof. exact end_missed. Qed.
Print Assumptions C70_end_refuted.
(** Neighbouring coordinates do not differ by exactly the spacing: 0.10000000000000003
    and 0.1 on ten cells. *)
Theorem C70_even_refuted : coord64 (IV 10 1 1) d_one d_one d_one SVol (IV 2 0 0) XDIR = dlit 1 (-2) /\
  dsub (coord64 (IV 10 1 1) d_one d_one d_one SVol (IV 3 0 0) XDIR) (dlit 1 (-2)) = dlit 1801439850948199 (-54) /\
  spacing64 (IV 10 1 1) d_one d_one d_one XDIR = dlit 7205759403792794 (-56).
Proof. exact uneven. Qed.
Print Assumptions C70_even_refuted.
(** Without points in a direction the coordinates are NaN or infinite; on a domain of
    the smallest positive length with two cells all are 0. *)
Theorem C70_no_points : coord64 (IV 0 1 1) d_one d_one d_one SVol (IV 0 0 0) XDIR = NaN /\ coord64 (IV 0 1 1) d_one d_one d_one SVol (IV 1 0 0) XDIR = B754_infinity false.
Proof. exact no_points. Qed.
Print Assumptions C70_no_points.
Theorem C70_tiny_refuted : val (dlit 1 (-1074)) <> 0 /\ coord64 (IV 2 1 1) (dlit 1 (-1074)) d_one d_one SVol (IV 0 0 0) XDIR = zero /\
  coord64 (IV 2 1 1) (dlit 1 (-1074)) d_one d_one SVol (IV 1 0 0) XDIR = zero.
Proof. exact all_zero. Qed.
Print Assumptions C70_tiny_refuted.
