(** Reductions of fields of doubles: the properties. *)
From Coq Require Import Reals.
From Verif Require Import Prelude WindowM WindowS GhostM FieldM FieldS MaskM NeboM NeboS NeboE RoundM RoundS RoundE RedM RedS RedP RedQ RedE.
Open Scope R_scope.

(** The computed sum of N cells is within N 2^-52 (sum of magnitudes) of the sum. *)
Theorem C62_sum_error : forall interior n h e l,
  reducible interior n h e -> each_once (covered interior n e) l ->
  (forall p, covered interior n e p -> finite (den64 h e p)) -> INR (length l) <= powerRZ 2 52 ->
  rsum (map (fun p => Rabs (val (den64 h e p))) l) <= powerRZ 2 1022 ->
  exists r, returns (fun fuel => sum64 interior fuel e) h r /\ finite r /\
    Rabs (val r - rsum (map (fun p => val (den64 h e p)) l))
      <= INR (length l) * powerRZ 2 (-52) * rsum (map (fun p => Rabs (val (den64 h e p))) l).
Proof. exact sum_correct. Qed.
Print Assumptions C62_sum_error.
(** Cells that hold integers: the sum is exact while the magnitudes add up to at
    most 2^53. *)
Theorem C62_sum_exact : forall interior n h e l (z : ivec -> Z),
  reducible interior n h e -> each_once (covered interior n e) l ->
  (forall p, covered interior n e p -> finite (den64 h e p) /\ val (den64 h e p) = IZR (z p)) ->
  (fold_right (fun p s => Z.abs (z p) + s) 0 l <= 2 ^ 53)%Z ->
  exists r, returns (fun fuel => sum64 interior fuel e) h r /\ finite r /\ val r = IZR (fold_right (fun p s => z p + s) 0 l)%Z.
Proof. exact sum_exact. Qed.
Print Assumptions C62_sum_exact.
(** A NaN in any covered cell makes the sum NaN. *)
Theorem C62_sum_nan : forall interior n h e p,
  reducible interior n h e -> covered interior n e p -> den64 h e p = NaN -> returns (fun fuel => sum64 interior fuel e) h NaN.
Proof. exact sum_nan. Qed.
Print Assumptions C62_sum_nan.

(** If the first cell is not NaN, the largest and smallest value are values of
    cells, and bound every cell that is not NaN. *)
Theorem C62_max_min : forall interior n h e p,
  reducible interior n h e -> first_cell (covered interior n e) p -> den64 h e p <> NaN ->
  exists hi lo, returns (fun fuel => max64 interior fuel e) h hi /\ returns (fun fuel => min64 interior fuel e) h lo /\
    (exists q, covered interior n e q /\ den64 h e q = hi) /\ (exists q, covered interior n e q /\ den64 h e q = lo) /\
    hi <> NaN /\ lo <> NaN /\
    forall q, covered interior n e q -> den64 h e q <> NaN -> dle lo (den64 h e q) /\ dle (den64 h e q) hi.
Proof. exact max_min_first. Qed.
Print Assumptions C62_max_min.
(** If the first cell is NaN, so are both, whatever the other cells hold. *)
Theorem C62_max_min_nan : forall interior n h e p,
  reducible interior n h e -> first_cell (covered interior n e) p -> den64 h e p = NaN ->
  returns (fun fuel => max64 interior fuel e) h NaN /\ returns (fun fuel => min64 interior fuel e) h NaN.
Proof. exact max_min_nan. Qed.
Print Assumptions C62_max_min_nan.

(** The computed norm of N cells is within (N + 2) 2^-52 of the norm, relatively,
    for every pow(x, 2) that is right to within one unit in the last place. *)
Theorem C62_norm_error : forall pow2, square_ok pow2 -> forall interior n h e l,
  reducible interior n h e -> each_once (covered interior n e) l ->
  (forall p, covered interior n e p -> finite (den64 h e p) /\
     (val (den64 h e p) = 0 \/ powerRZ 2 (-500) <= Rabs (val (den64 h e p))) /\ Rabs (val (den64 h e p)) <= powerRZ 2 500) ->
  INR (length l) <= powerRZ 2 51 -> rsum (map (fun p => val (den64 h e p) * val (den64 h e p)) l) <= powerRZ 2 1020 ->
  exists r, returns (fun fuel => norm64 pow2 interior fuel e) h r /\ finite r /\
    let exact := sqrt (rsum (map (fun p => val (den64 h e p) * val (den64 h e p)) l)) in
    Rabs (val r - exact) <= (INR (length l) + 2) * powerRZ 2 (-52) * exact.
Proof. exact norm_correct. Qed.
Print Assumptions C62_norm_error.
Theorem C62_norm_nan : forall pow2, square_ok pow2 -> forall interior n h e p,
  reducible interior n h e -> covered interior n e p -> den64 h e p = NaN ->
  returns (fun fuel => norm64 pow2 interior fuel e) h NaN.
Proof. exact norm_nan. Qed.
Print Assumptions C62_norm_nan.

(** Why the statements say what they say.  The largest value of a field that has
    a NaN need not be NaN. *)
Theorem C62_max_nan_refuted : forall interior, exists n h e p hi,
  reducible interior n h e /\ covered interior n e p /\ den64 h e p = NaN /\
  returns (fun fuel => max64 interior fuel e) h hi /\ hi <> NaN.
Proof. exact max_skips_nan. Qed.
Print Assumptions C62_max_nan_refuted.
(** It may be NaN although all cells but one hold the same number. *)
Theorem C62_max_number_refuted : forall interior, exists n h e p,
  reducible interior n h e /\ covered interior n e p /\ den64 h e p = NaN /\
  (forall q, covered interior n e q -> q <> p -> den64 h e q = d_one) /\
  returns (fun fuel => max64 interior fuel e) h NaN /\ returns (fun fuel => min64 interior fuel e) h NaN.
Proof. exact max_hidden. Qed.
Print Assumptions C62_max_number_refuted.
(** The norm of a field that is 2^-600 everywhere is 0, of one that is 2^600
    everywhere infinite. *)
Theorem C62_norm_underflow_refuted : exists pow2, square_ok pow2 /\ forall interior, exists n h e, reducible interior n h e /\
  (forall p, finite (den64 h e p) /\ val (den64 h e p) = powerRZ 2 (-600)) /\
  returns (fun fuel => norm64 pow2 interior fuel e) h zero.
Proof. exact norm_underflow. Qed.
Print Assumptions C62_norm_underflow_refuted.
Theorem C62_norm_overflow_refuted : exists pow2, square_ok pow2 /\ forall interior, exists n h e, reducible interior n h e /\
  (forall p, finite (den64 h e p) /\ val (den64 h e p) = powerRZ 2 600) /\
  returns (fun fuel => norm64 pow2 interior fuel e) h infinity.
Proof. exact norm_overflow. Qed.
Print Assumptions C62_norm_overflow_refuted.

(** A field of 3 x 2 x 1 cells with two ghost layers in x and y, holding ones and
    threes; the product of a double with itself as pow; a NaN in the first cell or in another. *)
Example C62_hyps_met : square_ok (fun x => dmul x x) /\ forall interior,
  reducible interior xdim heap64 (EField dbl xs) /\ each_once (covered interior xdim (EField dbl xs)) (ex_cells interior) /\
  (forall p, finite (den64 heap64 (EField dbl xs) p) /\
     (val (den64 heap64 (EField dbl xs) p) = 0 \/ powerRZ 2 (-500) <= Rabs (val (den64 heap64 (EField dbl xs) p))) /\
     Rabs (val (den64 heap64 (EField dbl xs) p)) <= 3) /\
  (forall p, val (den64 heap64 (EField dbl xs) p) = IZR (if Z.even (cell xs p) then 1 else 3)) /\
  (INR (length (ex_cells interior)) <= powerRZ 2 51 /\
   rsum (map (fun p => Rabs (val (den64 heap64 (EField dbl xs) p))) (ex_cells interior)) <= powerRZ 2 1022 /\
   rsum (map (fun p => val (den64 heap64 (EField dbl xs) p) * val (den64 heap64 (EField dbl xs) p)) (ex_cells interior)) <= powerRZ 2 1020 /\
   (fold_right (fun p s => Z.abs (if Z.even (cell xs p) then 1 else 3) + s) 0 (ex_cells interior) <= 2 ^ 53)%Z) /\
  first_cell (covered interior xdim (EField dbl xs)) (ex_first interior) /\
  (forall k, reducible interior xdim (heap_nan k) (EField dbl xs)) /\
  (forall k p, cell xs p = k -> den64 (heap_nan k) (EField dbl xs) p = NaN).
Proof.
  split; [exact dmul_square|]. intros i. split; [exact (ex_reducible i _)|]. split; [exact (ex_once i)|]. split; [exact ex_values|].
  split; [exact ex_ints|]. split; [exact (ex_bounds i)|]. split; [exact (ex_first_cell i)|]. split; [intros k; exact (ex_reducible i _)|exact nan_cell].
Qed.
