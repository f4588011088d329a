(** Property theorems about the particle operators in double precision: C69.
    [particles64] lists (position, size, value) of all particles; [share w p k]
    is the part of particle p inside cell k = [(k-1) w, k w]; [blur] is the
    uncertainty of a position. *)
From Coq Require Import Reals.
From Flocq Require Import Core.
From Verif Require Import Prelude WindowM GhostM FieldM MaskM NeboM IterM IterS RoundM RoundS RedM HeatM Cmp64M PointP Part64M Part64S Part64T Part64E.
Local Open Scope R_scope.

(** Each cell receives each particle's value in proportion to the part inside
    the cell, up to an error proportional to the uncertainty of positions relative
    to the size of the particle, plus one of rounding per particle. *)
Theorem C69_deposit : forall n h mesh pcoord psize src dest dx delta,
  deposit_fields n h mesh pcoord psize src dest -> mesh64 delta dx (contents h mesh) ->
  let B := INR (length (contents h mesh)) * val dx in
  let ps := particles64 h pcoord psize src in
  (forall p, In p ps -> inside delta B (mesh_top (val dx) (contents h mesh)) p /\ ordinary (amount p)) ->
  INR (length ps) <= powerRZ 2 50 -> rsum (map (fun p => Rabs (val (amount p))) ps) <= powerRZ 2 400 ->
  leaves (fun fuel => particle_to_cell64 fuel dx mesh pcoord psize src dest) h dest (fun cells =>
    length cells = length (contents h mesh) /\
    (forall k c, nth_error cells k = Some c -> finite c /\
       Rabs (val c - rsum (map (fun p => val (amount p) * share (val dx) p (Z.of_nat k)) ps))
         <= rsum (map (fun p => Rabs (val (amount p)) * (4 * blur delta B / val (size p) + INR (length ps) * powerRZ 2 (-51))) ps)) /\
    (* conservation: the error does not contain the inaccuracy of the mesh *)
    Rabs (rsum (map val cells) - rsum (map (fun p => val (amount p)) ps))
      <= powerRZ 2 (-51) * rsum (map (fun p => Rabs (val (amount p)) *
           (B / val (size p) + (INR (length ps) + 2) * (1 + 2 * INR (length (contents h mesh)) * blur delta B / val (size p)))) ps)).
Proof. exact deposit_value. Qed.
Print Assumptions C69_deposit.
(** The other direction: the mean of the cells weighted with the same shares, and
    for a field of one value that value. *)
Theorem C69_collect : forall h mesh pcoord psize src dest dx delta,
  collect_fields h mesh pcoord psize src dest -> mesh64 delta dx (contents h mesh) -> Forall ordinary (contents h src) ->
  let Nc := INR (length (contents h mesh)) in
  let B := Nc * val dx in
  let ps := particles64 h pcoord psize pcoord in
  (forall p, In p ps -> inside delta B (mesh_top (val dx) (contents h mesh)) p) ->
  leaves (fun fuel => cell_to_particle64 fuel dx mesh pcoord psize src dest) h dest (fun out =>
    length out = length ps /\
    forall j p r, nth_error ps j = Some p -> nth_error out j = Some r -> finite r /\
      Rabs (val r - rsum (map (fun ka => val (snd ka) * share (val dx) p (fst ka)) (combine (zrange (Z.of_nat (length (contents h mesh)))) (contents h src))))
        <= (4 * blur delta B / val (size p) + Nc * powerRZ 2 (-51)) * rsum (map (fun a => Rabs (val a)) (contents h src)) /\
      forall c, (forall a, In a (contents h src) -> a = c) ->
        Rabs (val r - val c) <= powerRZ 2 (-51) * Rabs (val c) * (B / val (size p) + (Nc + 2) * (1 + 2 * Nc * blur delta B / val (size p)))).
Proof. exact collect_value. Qed.
Print Assumptions C69_collect.
Example C69_hyps_met :
  deposit_fields (IV 4 1 1) good (pfull 0) (ppts 1) (ppts 2) (ppts 3) (pfull 4) /\ collect_fields good (pfull 0) (ppts 1) (ppts 2) (pfull 5) (ppts 6) /\
  (mesh64 0 d_one (contents good (pfull 0)) /\
  (forall p, In p (particles64 good (ppts 1) (ppts 2) (ppts 3)) -> inside 0 (INR (length (contents good (pfull 0))) * val d_one) (mesh_top (val d_one) (contents good (pfull 0))) p /\ ordinary (amount p)) /\
  INR (length (particles64 good (ppts 1) (ppts 2) (ppts 3))) <= powerRZ 2 50 /\ rsum (map (fun p => Rabs (val (amount p))) (particles64 good (ppts 1) (ppts 2) (ppts 3))) <= powerRZ 2 400 /\
  (forall p, In p (particles64 good (ppts 1) (ppts 2) (ppts 1)) -> inside 0 (INR (length (contents good (pfull 0))) * val d_one) (mesh_top (val d_one) (contents good (pfull 0))) p) /\
  Forall ordinary (contents good (pfull 5))) /\
  map (share (val d_one) (dlit 5 (-2), d_one, dlit 8 0)) [0; 1; 2; 3]%Z = [0; / 4; 3 / 4; 0] /\
  (exists h', run (particle_to_cell64 20 d_one (pfull 0) (ppts 1) (ppts 2) (ppts 3) (pfull 4)) good = RDone h' tt /\ contents h' (pfull 4) = [d_zero; dlit 2 0; dlit 6 0; d_zero]) /\
  (exists h', run (cell_to_particle64 20 d_one (pfull 0) (ppts 1) (ppts 2) (pfull 5) (ppts 6)) good = RDone h' tt /\ contents h' (ppts 6) = [dlit 11 (-2)]).
Proof.
  split; [apply e64_fields|]. split; [apply e64_fields|]. split; [exact good_hyps|]. split; [exact good_shares|]. split; [exact good_deposit|exact good_collect].
Qed.

(** For doubles of any magnitude, infinities and NaN included: if each particle's
    first index can be computed and its right end is reached inside the mesh, the
    calls end and touch no memory but the result's. *)
Theorem C69_safe_deposit : forall n h mesh pcoord psize src dest dx, deposit_fields n h mesh pcoord psize src dest ->
  (forall p, In p (particles64 h pcoord psize src) -> reached dx (contents h mesh) p) ->
  leaves (fun fuel => particle_to_cell64 fuel dx mesh pcoord psize src dest) h dest (fun cells => length cells = length (contents h mesh)).
Proof. exact deposit_safe. Qed.
Print Assumptions C69_safe_deposit.
Theorem C69_safe_collect : forall h mesh pcoord psize src dest dx, collect_fields h mesh pcoord psize src dest ->
  (forall p, In p (particles64 h pcoord psize pcoord) -> reached dx (contents h mesh) p) ->
  leaves (fun fuel => cell_to_particle64 fuel dx mesh pcoord psize src dest) h dest (fun out => length out = length (particles64 h pcoord psize pcoord)).
Proof. exact collect_safe. Qed.
Print Assumptions C69_safe_collect.
(** Particles as in C69_deposit are such. *)
Theorem C69_inside_reached : forall dx m N delta, mesh64 delta dx (map m (zrange N)) -> forall p,
  inside delta (IZR N * val dx) (mesh_top (val dx) (map m (zrange N))) p -> reached dx (map m (zrange N)) p.
Proof. exact inside_reached. Qed.
Print Assumptions C69_inside_reached.

(** Construction: the spacing is the difference of the first two coordinates; any
    coordinates are accepted whose spacings pass the test ... *)
Theorem C69_construct : forall h mesh m0 m1, live h mesh -> whole_block mesh ->
  nth_error (contents h mesh) 0 = Some m0 -> nth_error (contents h mesh) 1 = Some m1 ->
  let dx := dsub m1 m0 in
  exists N, forall fuel, (N <= fuel)%nat -> exists b : bool, run (particle_op64 fuel mesh) h = (if b then RDone h dx else RThrow) /\
    (b = true <-> even64 dx (contents h mesh)).
Proof. exact ctor64_run. Qed.
Print Assumptions C69_construct.
(** ... and such coordinates, if they are numbers of ordinary size, are those of an
    even mesh up to N * 2^-19 cells and the distance of the first from -dx/2. *)
Theorem C69_accepted : forall dx coords m0, finite dx -> bpow radix2 (-400) <= val dx <= bpow radix2 400 ->
  (forall c, In c coords -> finite c /\ Rabs (val c) <= bpow radix2 400) ->
  nth_error coords 0 = Some m0 -> even64 dx coords ->
  centred (Rabs (val m0 + val dx / 2) + INR (length coords) * powerRZ 2 (-19) * val dx) (val dx) coords.
Proof. exact even_centred. Qed.
Print Assumptions C69_accepted.

(** Limits.  Conservation is not exact: 0.9999999999999999 of 1 arrives. *)
Theorem C69_exact_conservation_refuted : (exists h', run (particle_op64 20 (pfull 0)) short = RDone h' tenth) /\
  exists h', run (particle_to_cell64 20 tenth (pfull 0) (ppts 1) (ppts 2) (ppts 3) (pfull 4)) short = RDone h' tt /\
  contents h' (pfull 4) = [d_zero; d_zero; dlit 9007199254740991 (-53); d_zero].
Proof. exact short_sum. Qed.
Print Assumptions C69_exact_conservation_refuted.
(** A particle of size 2^-60 at 1 leaves nothing, and collects 0 from ones. *)
Theorem C69_tiny_refuted : (exists h', run (particle_to_cell64 20 d_one (pfull 0) (ppts 1) (ppts 2) (ppts 3) (pfull 4)) tiny = RDone h' tt /\
  contents h' (pfull 4) = [d_zero; d_zero; d_zero; d_zero]) /\
  exists h', run (cell_to_particle64 20 d_one (pfull 0) (ppts 1) (ppts 2) (pfull 5) (ppts 6)) tiny = RDone h' tt /\ contents h' (ppts 6) = [d_zero].
Proof. exact tiny_lost. Qed.
Print Assumptions C69_tiny_refuted.
(** On the accepted mesh -0.5, 0.5, 1.5 - 2^-30, 2.5 a particle of value 1 puts -2^-30
    into a cell, and more than 1 into the next. *)
Theorem C69_negative_refuted : (exists h', run (particle_op64 20 (pfull 0)) bent = RDone h' d_one) /\
  exists h', run (particle_to_cell64 20 d_one (pfull 0) (ppts 1) (ppts 2) (ppts 3) (pfull 4)) bent = RDone h' tt /\
  contents h' (pfull 4) = [d_zero; d_zero; dlit (-1) (-30); dlit 1073741825 (-30)].
Proof. exact bent_negative. Qed.
Print Assumptions C69_negative_refuted.
(** A mesh with a NaN coordinate is accepted; a NaN position is undefined behaviour. *)
Theorem C69_nan_refuted : (exists h', run (particle_op64 20 (pfull 0)) odd = RDone h' d_one) /\
  run (particle_to_cell64 20 d_one (pfull 0) (ppts 1) (ppts 2) (ppts 3) (pfull 4)) odd = RUB.
Proof. exact odd_accepted. Qed.
Print Assumptions C69_nan_refuted.
