(** Property theorems: C61. *)
From Coq Require Import Reals.
From Verif Require Import Prelude WindowM GhostM FieldM FieldS MaskM NeboM NeboS NeboE StencilM StencilS RoundM RoundS RoundR RoundU RoundV RoundE.
Open Scope R_scope.

(** C61.  The registered operators computed with doubles.  [a] is what the operator
    is applied to; [den64 h a q] is its value at q.

    Interpolation stays between the bounds of the values it reads and does not overflow. *)
Theorem C61_bounds : forall n Lx Ly Lz t s d b h a p lo hi,
  In (t, s, d, b) (build_stencils64 n Lx Ly Lz) -> interpolates t ->
  (forall q, read_cell t s d p q -> finite (den64 h a q) /\ not_tiny (val (den64 h a q)) /\ lo <= val (den64 h a q) <= hi) ->
  finite (den64 h (apply_op64 b a) p) /\ lo <= val (den64 h (apply_op64 b a) p) <= hi.
Proof. exact interp_bounds. Qed.
Print Assumptions C61_bounds.

(** Equal values, also infinite ones and NaN, are interpolated to exactly that value. *)
Theorem C61_constant : forall n Lx Ly Lz t s d b h a p k,
  In (t, s, d, b) (build_stencils64 n Lx Ly Lz) -> interpolates t -> (finite k -> not_tiny (val k)) ->
  (forall q, read_cell t s d p q -> den64 h a q = k) -> den64 h (apply_op64 b a) p = k.
Proof. exact interp_constant. Qed.
Print Assumptions C61_constant.

(** Between two cells no double is closer to the average. *)
Theorem C61_nearest : forall n Lx Ly Lz t s d b h a p q1 q2,
  In (t, s, d, b) (build_stencils64 n Lx Ly Lz) -> interpolates t -> two_cells t s d p q1 q2 ->
  (forall q, read_cell t s d p q -> finite (den64 h a q) /\ not_tiny (val (den64 h a q))) ->
  nearest (den64 h (apply_op64 b a) p) ((val (den64 h a q1) + val (den64 h a q2)) / 2).
Proof. exact interp_nearest. Qed.
Print Assumptions C61_nearest.

(** Between four cells. *)
Theorem C61_four_cells : forall n Lx Ly Lz t s d b h a p q1 q2 q3 q4 M,
  In (t, s, d, b) (build_stencils64 n Lx Ly Lz) -> interpolates t ->
  NoDup [q1; q2; q3; q4] -> (forall q, read_cell t s d p q <-> In q [q1; q2; q3; q4]) ->
  (forall q, read_cell t s d p q -> finite (den64 h a q) /\ not_tiny (val (den64 h a q)) /\ Rabs (val (den64 h a q)) <= M) ->
  M <= powerRZ 2 1022 ->
  Rabs (val (den64 h (apply_op64 b a) p) -
        (val (den64 h a q1) + val (den64 h a q2) + val (den64 h a q3) + val (den64 h a q4)) / 4) <= powerRZ 2 (-51) * M.
Proof. exact four_accuracy. Qed.
Print Assumptions C61_four_cells.

(** The derivative of a constant is +0, exactly. *)
Theorem C61_derivative_constant : forall n Lx Ly Lz t s d b e h a p k,
  In (t, s, d, b) (build_stencils64 n Lx Ly Lz) -> differentiates t s d e ->
  finite (dmul k (reciprocal n Lx Ly Lz t e)) ->
  (forall q, read_cell t s d p q -> den64 h a q = k) -> den64 h (apply_op64 b a) p = zero.
Proof. exact diff_constant. Qed.
Print Assumptions C61_derivative_constant.

(** The derivative of values that do not decrease along its direction is not
    negative, and the other way round; also where the sum overflows. *)
Theorem C61_derivative_sign : forall n Lx Ly Lz t s d b e h a p,
  In (t, s, d, b) (build_stencils64 n Lx Ly Lz) -> differentiates t s d e -> counts_ok n ->
  finite Lx -> finite Ly -> finite Lz -> 0 < val Lx -> 0 < val Ly -> 0 < val Lz ->
  (forall q, read_cell t s d p q -> finite (dmul (den64 h a q) (reciprocal n Lx Ly Lz t e))) ->
  ((forall q q', read_cell t s d p q -> read_cell t s d p q' -> (comp e q < comp e q')%Z -> val (den64 h a q) <= val (den64 h a q')) ->
   dle zero (den64 h (apply_op64 b a) p)) /\
  ((forall q q', read_cell t s d p q -> read_cell t s d p q' -> (comp e q < comp e q')%Z -> val (den64 h a q') <= val (den64 h a q)) ->
   dle (den64 h (apply_op64 b a) p) zero).
Proof. exact diff_sign. Qed.
Print Assumptions C61_derivative_sign.

(** The error of the derivative, relative to the values it subtracts. *)
Theorem C61_derivative_error : forall n Lx Ly Lz t s d b e h a p q1 q2,
  In (t, s, d, b) (build_stencils64 n Lx Ly Lz) -> differentiates t s d e -> two_cells t s d p q1 q2 ->
  finite (spacing64 n Lx Ly Lz e) -> 0 < Rabs (val (spacing64 n Lx Ly Lz e)) <= powerRZ 2 1020 ->
  (forall q, read_cell t s d p q -> finite (dmul (den64 h a q) (reciprocal n Lx Ly Lz t e)) /\
     (val (den64 h a q) = 0 \/ powerRZ 2 (-1020) <= Rabs (val (dmul (den64 h a q) (reciprocal n Lx Ly Lz t e))))) ->
  finite (den64 h (apply_op64 b a) p) ->
  Rabs (val (den64 h (apply_op64 b a) p) - (val (den64 h a q2) - val (den64 h a q1)) * factor t / val (spacing64 n Lx Ly Lz e))
    <= powerRZ 2 (-51) * (Rabs (val (den64 h a q1)) + Rabs (val (den64 h a q2))) * factor t / Rabs (val (spacing64 n Lx Ly Lz e)).
Proof. exact diff_accuracy. Qed.
Print Assumptions C61_derivative_error.

(** The error of the box filter; l lists the 27 cells around p in any order. *)
Theorem C61_filter_error : forall n Lx Ly Lz s d b h a p l M,
  In (Filter, s, d, b) (build_stencils64 n Lx Ly Lz) -> NoDup l -> (forall q, In q l <-> near p q) ->
  (forall q, near p q -> finite (den64 h a q) /\ Rabs (val (den64 h a q)) <= M) ->
  powerRZ 2 (-1000) <= M <= powerRZ 2 1018 ->
  finite (den64 h (apply_op64 b a) p) /\
  Rabs (val (den64 h (apply_op64 b a) p) - rsum (map (fun q => val (den64 h a q)) l) / 27) <= powerRZ 2 (-48) * M.
Proof. exact filter_accuracy. Qed.
Print Assumptions C61_filter_error.

(** A NaN in a cell an operator reads is never lost. *)
Theorem C61_nan : forall n Lx Ly Lz t s d b h a p q,
  In (t, s, d, b) (build_stencils64 n Lx Ly Lz) -> read_cell t s d p q -> den64 h a q = NaN ->
  den64 h (apply_op64 b a) p = NaN.
Proof. exact op_nan. Qed.
Print Assumptions C61_nan.

(** Applying an operator to a field in memory stores these values in the cells of
    [region] and changes nothing else; only valid cells are read for them. *)
Theorem C61_in_memory : forall b np h src dst,
  on_patch np src -> (forall p, valid_cell np src p -> bcells (h (fbuf src)) (cell src p) = true) ->
  destination_ok dbl np h dst -> fbuf src <> fbuf dst -> covers_extra dbl dst (apply_op64 b (EField dbl src)) ->
  (exists p, region dbl np dst (apply_op64 b (EField dbl src)) p) ->
  exists N, forall fuel, (N <= fuel)%nat -> exists h',
    run (apply_to_field64 fuel b src dst) h = RDone h' tt /\
    assigned dbl h h' dst (region dbl np dst (apply_op64 b (EField dbl src))) (denote dbl dadd dmul h (apply_op64 b (EField dbl src))).
Proof. exact memory64. Qed.
Print Assumptions C61_in_memory.
Theorem C61_reads_valid : forall n Lx Ly Lz t s d b np src dst p q,
  In (t, s, d, b) (build_stencils64 n Lx Ly Lz) -> region dbl np dst (apply_op64 b (EField dbl src)) p ->
  read_cell t s d p q -> valid_cell np src q.
Proof. exact region_reads. Qed.
Print Assumptions C61_reads_valid.
(** So an interpolated field lies between the bounds of the source. *)
Theorem C61_field_bounds : forall n Lx Ly Lz t s d b np h src dst lo hi,
  In (t, s, d, b) (build_stencils64 n Lx Ly Lz) -> interpolates t ->
  on_patch np src -> (forall p, valid_cell np src p -> bcells (h (fbuf src)) (cell src p) = true) ->
  destination_ok dbl np h dst -> fbuf src <> fbuf dst -> covers_extra dbl dst (apply_op64 b (EField dbl src)) ->
  (exists p, region dbl np dst (apply_op64 b (EField dbl src)) p) ->
  (forall q, valid_cell np src q -> finite (value dbl h src q) /\ not_tiny (val (value dbl h src q)) /\ lo <= val (value dbl h src q) <= hi) ->
  exists N, forall fuel, (N <= fuel)%nat -> exists h',
    run (apply_to_field64 fuel b src dst) h = RDone h' tt /\
    forall p, region dbl np dst (apply_op64 b (EField dbl src)) p ->
      finite (value dbl h' dst p) /\ lo <= val (value dbl h' dst p) <= hi.
Proof. exact memory_bounds. Qed.
Print Assumptions C61_field_bounds.

(** Why the statements say what they say.  Tiny values: the smallest positive
    number everywhere is interpolated to zero. *)
Theorem C61_tiny_refuted : forall n Lx Ly Lz h p, exists b,
  In (Interpolant, SVol, SSurfX, b) (build_stencils64 n Lx Ly Lz) /\
  finite least /\ 0 < val least /\ den64 h (apply_op64 b (EScalar dbl least)) p = zero.
Proof. exact tiny_lost. Qed.
Print Assumptions C61_tiny_refuted.
(** The box filter does not keep constants, nor bounds. *)
Theorem C61_filter_constant_refuted : forall n Lx Ly Lz h p, exists b,
  In (Filter, SVol, SVol, b) (build_stencils64 n Lx Ly Lz) /\ finite third /\ not_tiny (val third) /\
  finite (den64 h (apply_op64 b (EScalar dbl third)) p) /\ val (den64 h (apply_op64 b (EScalar dbl third)) p) < val third.
Proof. exact filter_lowers. Qed.
Print Assumptions C61_filter_constant_refuted.
(** The derivative of a finite constant is NaN where the products overflow. *)
Theorem C61_overflow_refuted : forall h p, exists n b,
  In (Gradient, SVol, SSurfX, b) (build_stencils64 n d_one d_one d_one) /\ counts_ok n /\
  finite huge /\ finite (reciprocal n d_one d_one d_one Gradient XDIR) /\
  den64 h (apply_op64 b (EScalar dbl huge)) p = NaN.
Proof. exact grad_overflows. Qed.
Print Assumptions C61_overflow_refuted.
(** If the second product is fused with the sum, the derivative of a constant is
    not zero. *)
Theorem C61_fused_refuted : exists n k, counts_ok n /\ finite k /\
  let r := reciprocal n d_one d_one d_one Gradient XDIR in
  finite (dmul k r) /\ dadd (dmul k (dopp r)) (dmul k r) = zero /\ val (fused k r (dmul k (dopp r))) < 0.
Proof. exact fused_grad. Qed.
Print Assumptions C61_fused_refuted.

Example C61_hyps_met :
  (exists b, In (Interpolant, SVol, SSurfX, b) (build_stencils64 n3 d_one d_one d_one) /\ interpolates Interpolant /\
     on_patch xdim xs /\ (forall p, valid_cell xdim xs p -> bcells (heap64 (fbuf xs)) (cell xs p) = true) /\
     destination_ok dbl xdim heap64 xf /\ fbuf xs <> fbuf xf /\ covers_extra dbl xf (apply_op64 b (EField dbl xs)) /\
     region dbl xdim xf (apply_op64 b (EField dbl xs)) (IV 3 1 0)) /\
  (forall q, finite (value dbl heap64 xs q) /\ not_tiny (val (value dbl heap64 xs q)) /\ 1 <= val (value dbl heap64 xs q) <= 3) /\
  (exists b, In (Gradient, SVol, SSurfX, b) (build_stencils64 n3 d_one d_one d_one) /\ differentiates Gradient SVol SSurfX XDIR /\
     counts_ok n3 /\ finite s3 /\ 0 < Rabs (val s3) <= powerRZ 2 1020) /\
  (forall q, finite (dmul (value dbl heap64 xs q) r3) /\
     (val (value dbl heap64 xs q) = 0 \/ powerRZ 2 (-1020) <= Rabs (val (dmul (value dbl heap64 xs q) r3)))) /\
  (two_cells Gradient SVol SSurfX (IV 3 1 0) (IV 2 1 0) (IV 3 1 0) /\ two_cells Interpolant SVol SSurfX (IV 3 1 0) (IV 2 1 0) (IV 3 1 0)) /\
  (exists b, In (Interpolant, XVol, YVol, b) (build_stencils64 n3 d_one d_one d_one)) /\
  (NoDup [IV 5 4 5; IV 6 4 5; IV 5 5 5; IV 6 5 5] /\
   forall q, read_cell Interpolant XVol YVol (IV 5 5 5) q <-> In q [IV 5 4 5; IV 6 4 5; IV 5 5 5; IV 6 5 5]) /\
  (exists b, In (Filter, SVol, SVol, b) (build_stencils64 n3 d_one d_one d_one)) /\ powerRZ 2 (-1000) <= 3 <= powerRZ 2 1018.
Proof.
  split; [eexists; split; [apply in_interp|split; [exact I|eapply memory_met; reflexivity]]|].
  split; [exact heap64_values|].
  split; [eexists; split; [apply in_grad|split; [discriminate|split; [exact met_counts|exact met_spacing]]]|].
  split; [exact met_products|]. split; [exact met_two|]. split; [eexists; apply in_four|]. split; [exact met_four|].
  split; [eexists; apply in_filter|exact met_filter].
Qed.
