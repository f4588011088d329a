(** Property theorems about the particle operators: C42.  [particles] lists
    (position, size, value) of all particles; [covered dx p k] is the length
    of particle p inside cell k = [(k-1) dx, k dx]. *)
From Verif Require Import Prelude WindowM WindowS GhostM FieldM FieldS MaskM NeboM NeboS StencilM LagrangeM BCM BCS IterM IterS CompareM PointP ParticleM ParticleS ParticleP ParticleQ ParticleE.

(** Conservation, on any mesh whatever: if the call returns, the cell values add
    up to the values of the particles that have a positive size. *)
Theorem C42_conserves : forall n h mesh pcoord psize src dest dx,
  live h pcoord -> live h psize -> live h src -> fwin psize = fwin pcoord -> fwin src = fwin pcoord ->
  destination_ok Qc n h dest -> finite_ghosts dest -> live h dest -> (forall i, bcells (h (fbuf dest)) i = true -> In i (cells_of dest)) ->
  fbuf pcoord <> fbuf dest -> fbuf psize <> fbuf dest -> fbuf src <> fbuf dest ->
  exists N, forall fuel, (N <= fuel)%nat -> forall h', run (particle_to_cell fuel dx mesh pcoord psize src dest) h = RDone h' tt ->
    qsum (contents h' dest) = qsum (map (fun p => if Qclt_le_dec 0 (p_size p) then p_value p else 0%Qc) (particles h pcoord psize src)) /\
    differs_only h h' (fun b i => b = fbuf dest).
Proof. exact particle_to_cell_conserves. Qed.
Print Assumptions C42_conserves.
(** On a uniform mesh whose first cell lies just below 0, with all particles
    between 0 and the last cell's upper edge, the call returns and each cell
    receives each particle's value in proportion to the part inside the cell. *)
Theorem C42_deposit : forall n h mesh pcoord psize src dest dx,
  (0 < dx)%Qc -> live h mesh -> whole_block mesh -> contents h mesh = map (centre dx) (zrange (local_npts (fwin mesh))) ->
  live h pcoord -> live h psize -> live h src -> fwin psize = fwin pcoord -> fwin src = fwin pcoord ->
  destination_ok Qc n h dest -> finite_ghosts dest -> live h dest -> fwin dest = fwin mesh ->
  fbuf mesh <> fbuf dest -> fbuf pcoord <> fbuf dest -> fbuf psize <> fbuf dest -> fbuf src <> fbuf dest ->
  (forall p, In p (particles h pcoord psize src) -> (0 < p_size p)%Qc ->
     (0 <= p_left p)%Qc /\ (p_right p <= qc_of (local_npts (fwin mesh) - 1) * dx)%Qc) ->
  exists N, forall fuel, (N <= fuel)%nat -> exists h', run (particle_to_cell fuel dx mesh pcoord psize src dest) h = RDone h' tt /\
    contents h' dest = map (fun k => qsum (map (fun p => p_value p * covered dx p k / p_size p)%Qc (particles h pcoord psize src))) (zrange (local_npts (fwin mesh))) /\
    differs_only h h' (fun b i => b = fbuf dest).
Proof. exact particle_to_cell_exact. Qed.
Print Assumptions C42_deposit.
(** The other direction, under the same conditions: the mean of the cells
    weighted with the parts of the particle they contain; the weights add up to
    one. *)
Theorem C42_interpolate : forall h mesh pcoord psize src dest dx,
  (0 < dx)%Qc -> live h mesh -> whole_block mesh -> contents h mesh = map (centre dx) (zrange (local_npts (fwin mesh))) ->
  live h pcoord -> live h psize -> live h src -> live h dest -> fwin psize = fwin pcoord -> fwin dest = fwin pcoord -> fwin src = fwin mesh ->
  freadonly dest = false ->
  fbuf mesh <> fbuf dest -> fbuf pcoord <> fbuf dest -> fbuf psize <> fbuf dest -> fbuf src <> fbuf dest ->
  (forall p, In p (particles h pcoord psize pcoord) -> (0 < p_size p)%Qc ->
     (0 <= p_left p)%Qc /\ (p_right p <= qc_of (local_npts (fwin mesh) - 1) * dx)%Qc) ->
  exists N, forall fuel, (N <= fuel)%nat -> exists h', run (cell_to_particle fuel dx mesh pcoord psize src dest) h = RDone h' tt /\
    contents h' dest = map (fun p => qsum (map (fun sk => fst sk * covered dx p (snd sk) / p_size p)%Qc
                                             (combine (contents h src) (zrange (local_npts (fwin mesh)))))) (particles h pcoord psize pcoord) /\
    differs_only h h' (fun b i => b = fbuf dest).
Proof. exact cell_to_particle_exact. Qed.
Print Assumptions C42_interpolate.
Theorem C42_weights : forall dx p n, (0 < dx)%Qc -> (0 < p_size p)%Qc -> (- dx <= p_left p)%Qc -> (p_right p <= qc_of (n - 1) * dx)%Qc -> 0 <= n ->
  qsum (map (covered dx p) (zrange n)) = p_size p.
Proof. exact covered_sum. Qed.
Print Assumptions C42_weights.
(** A constant field is reproduced, on any mesh, by every particle with a
    positive size; the others get 0. *)
Theorem C42_constants : forall h mesh pcoord psize src dest dx c,
  live h pcoord -> live h psize -> live h dest -> fwin psize = fwin pcoord -> fwin dest = fwin pcoord -> freadonly dest = false ->
  fbuf pcoord <> fbuf dest -> fbuf psize <> fbuf dest -> fbuf src <> fbuf dest ->
  (forall i, bcells (h (fbuf src)) i = true -> bdata (h (fbuf src)) i = c) ->
  forall fuel h', run (cell_to_particle fuel dx mesh pcoord psize src dest) h = RDone h' tt ->
    contents h' dest = map (fun s => if Qclt_le_dec 0 s then c else 0%Qc) (contents h psize) /\ differs_only h h' (fun b i => b = fbuf dest).
Proof. exact cell_to_particle_const. Qed.
Print Assumptions C42_constants.
(** Construction: for increasing coordinates, accepted iff uniform up to one
    part in a million ... *)
Theorem C42_construct : forall h mesh m0 m1, live h mesh -> whole_block mesh ->
  nth_error (contents h mesh) 0 = Some m0 -> nth_error (contents h mesh) 1 = Some m1 -> (m0 < m1)%Qc ->
  exists N, forall fuel, (N <= fuel)%nat -> exists b : bool, run (particle_op fuel mesh) h = (if b then RDone h (m1 - m0)%Qc else RThrow) /\
    (b = true <-> uniform (1 / qc_of 1000000) (m1 - m0) (contents h mesh)).
Proof. exact ctor_ok. Qed.
Print Assumptions C42_construct.
(** ... but with the first two coordinates decreasing every mesh is accepted. *)
Theorem C42_construct_decreasing_refuted : forall h mesh m0 m1, live h mesh -> whole_block mesh ->
  nth_error (contents h mesh) 0 = Some m0 -> nth_error (contents h mesh) 1 = Some m1 -> (m1 < m0)%Qc ->
  exists N, forall fuel, (N <= fuel)%nat -> run (particle_op fuel mesh) h = RDone h (m1 - m0)%Qc.
Proof. exact ctor_decreasing. Qed.
Print Assumptions C42_construct_decreasing_refuted.

(** Limits.  A particle lying inside the first (ghost) cell [-1,0] is put into the
    next cell, because the index is truncated towards zero. *)
Theorem C42_ghost_cell_refuted : exists h', run (particle_to_cell 20 1 (pfull 0) (ppts 1) (ppts 2) (ppts 3) (pfull 4)) (eheap (q (-1) 2) (q (-1) 4) half (qc_of 8)) = RDone h' tt /\
  contents h' (pfull 4) = [0%Qc; qc_of 8; 0%Qc; 0%Qc] /\
  map (fun k => covered 1 (q (-1) 4, half, qc_of 8) k) (zrange 4) = [half; 0%Qc; 0%Qc; 0%Qc].
Proof. exact e_ghost. Qed.
Print Assumptions C42_ghost_cell_refuted.
(** The mesh origin is ignored: on the accepted mesh 1/2, 3/2, 5/2, 7/2 a particle
    of size 1/2 at 1/2, inside the first cell, is put into the second. *)
Theorem C42_origin_refuted : exists h1 h', run (particle_op 20 (pfull 0)) (eheap half half half (qc_of 8)) = RDone h1 1%Qc /\
  run (particle_to_cell 20 1 (pfull 0) (ppts 1) (ppts 2) (ppts 3) (pfull 4)) (eheap half half half (qc_of 8)) = RDone h' tt /\
  contents h' (pfull 4) = [0%Qc; qc_of 8; 0%Qc; 0%Qc].
Proof. exact e_origin. Qed.
Print Assumptions C42_origin_refuted.
(** A particle reaching beyond the last cell reads past the coordinates. *)
Theorem C42_outside_refuted : run (particle_to_cell 20 1 (pfull 0) (ppts 1) (ppts 2) (ppts 3) (pfull 4)) (eheap (q (-1) 2) (qc_of 3) 1 (qc_of 8)) = RUB.
Proof. exact e_outside. Qed.
Print Assumptions C42_outside_refuted.

Example C42_hyps_met : let h := eheap (q (-1) 2) 1 1 (qc_of 8) in
  live h (pfull 0) /\ live h (ppts 1) /\ live h (ppts 2) /\ live h (ppts 3) /\ live h (pfull 4) /\
  destination_ok Qc (IV 4 1 1) h (pfull 4) /\ finite_ghosts (pfull 4) /\ (forall i, bcells (h 4%nat) i = true -> In i (cells_of (pfull 4))) /\
  whole_block (pfull 0) /\ contents h (pfull 0) = map (centre 1%Qc) (zrange 4) /\
  particles h (ppts 1) (ppts 2) (ppts 3) = [(1, 1, qc_of 8)%Qc] /\
  (0 <= p_left (1, 1, qc_of 8))%Qc /\ (p_right (1, 1, qc_of 8) <= qc_of (4 - 1) * 1)%Qc /\
  map (fun k => covered 1 (1, 1, qc_of 8)%Qc k) (zrange 4) = [0%Qc; half; half; 0%Qc].
Proof.
  cbv zeta. destruct (e_live (q (-1) 2) 1 1 (qc_of 8)) as (A & B & C & D & E). destruct (e_dest (q (-1) 2) 1 1 (qc_of 8)) as (F & G & H).
  destruct e_good as (I & J & K). repeat (split; [assumption|]). split; [split; reflexivity|]. repeat (split; [assumption|]).
  split; [cbv; discriminate|]. split; [cbv; discriminate|]. exact K.
Qed.
