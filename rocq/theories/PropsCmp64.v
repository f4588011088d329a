(** C66: comparing fields of doubles.  [contents h f] lists the values of f in
    iteration order; [says p h r]: p ends, leaves memory alone and returns r. *)
From Coq Require Import Reals.
From Verif Require Import Prelude WindowM GhostM FieldM FieldS MaskM NeboM NeboS NeboE IterM IterS RoundM RoundS RoundE RedM RedS HeatM CompareM Cmp64M Cmp64S Cmp64P Cmp64Q Cmp64E.
Open Scope R_scope.

(** Tolerance zero (of either sign): equality of all values as C++ defines it. *)
Theorem C66_exact : forall h f1 f2, live h f1 -> live h f2 -> fwin f1 = fwin f2 -> forall error error_abs, is_zero error -> exists b,
  says (fun fuel => equal64 fuel f1 f2 error error_abs) h b /\ says (fun fuel => not_equal64 fuel f1 f2 error error_abs) h (negb b) /\
  says (fun fuel => equal_abs64 fuel f1 f2 error) h b /\ says (fun fuel => not_equal_abs64 fuel f1 f2 error) h (negb b) /\
  (b = true <-> Forall2 same (contents h f1) (contents h f2)).
Proof. exact exact64. Qed.
Print Assumptions C66_exact.
(** Absolute tolerance: right up to one rounding; NaN and equal infinities pass. *)
Theorem C66_absolute : forall h f1 f2, live h f1 -> live h f2 -> fwin f1 = fwin f2 -> forall error, finite error -> ~ is_zero error -> exists b,
  says (fun fuel => equal_abs64 fuel f1 f2 error) h b /\ says (fun fuel => not_equal_abs64 fuel f1 f2 error) h (negb b) /\
  (b = true -> Forall2 (fun x y => unnoticed x y \/ apart_at_most (Rabs (val error) * (1 + powerRZ 2 (-52))) x y) (contents h f1) (contents h f2)) /\
  (Forall2 (fun x y => unnoticed x y \/ apart_at_most (Rabs (val error)) x y) (contents h f1) (contents h f2) -> b = true).
Proof. exact absolute64. Qed.
Print Assumptions C66_absolute.
(** Relative tolerance: right up to a factor of 1 +- 2^-50, unless the tolerance is
    subnormal or the denominator overflows. *)
Theorem C66_relative : forall h f1 f2, live h f1 -> live h f2 -> fwin f1 = fwin f2 -> forall error error_abs,
  finite error -> ~ is_zero error -> finite error_abs -> 0 <= val error_abs -> exists b,
  says (fun fuel => equal64 fuel f1 f2 error error_abs) h b /\ says (fun fuel => not_equal64 fuel f1 f2 error error_abs) h (negb b) /\
  (b = true -> powerRZ 2 (-1022) <= Rabs (val error) -> Forall (fun x => finite x -> Rabs (val x) + val error_abs <= powerRZ 2 1023) (contents h f1) ->
   Forall2 (fun x y => ~ finite x \/ y = NaN \/ apart_at_most (Rabs (val error) * (1 + powerRZ 2 (-50)) * (Rabs (val x) + val error_abs)) x y)
     (contents h f1) (contents h f2)) /\
  (Forall2 (fun x y => ~ finite x \/ y = NaN \/
       apart_at_most (Rabs (val error) * (1 - powerRZ 2 (-50)) * (Rabs (val x) + val error_abs)) x y /\ Rabs (val x - val y) <= powerRZ 2 1023)
     (contents h f1) (contents h f2) -> b = true).
Proof. exact relative64. Qed.
Print Assumptions C66_relative.
(** For all doubles and tolerances, NaN and infinities included. *)
Theorem C66_symmetric : forall h f1 f2 error, live h f1 -> live h f2 -> fwin f1 = fwin f2 -> exists b,
  says (fun fuel => equal_abs64 fuel f1 f2 error) h b /\ says (fun fuel => equal_abs64 fuel f2 f1 error) h b.
Proof. exact symmetric64. Qed.
Print Assumptions C66_symmetric.
Theorem C66_reflexive : forall h f error error_abs, live h f -> ~ is_zero error ->
  says (fun fuel => equal64 fuel f f error error_abs) h true /\ says (fun fuel => equal_abs64 fuel f f error) h true.
Proof. exact self64. Qed.
Print Assumptions C66_reflexive.
(** Comparing with a number is comparing with a field holding that number. *)
Theorem C66_scalar : forall h d f1 error error_abs, live h f1 -> exists b c,
  says (fun fuel => scalar_equal64 fuel d f1 error error_abs) h b /\ says (fun fuel => scalar_equal_abs64 fuel d f1 error) h c /\
  forall f2, live h f2 -> fwin f2 = fwin f1 -> Forall (eq d) (contents h f2) ->
    says (fun fuel => equal64 fuel f2 f1 error error_abs) h b /\ says (fun fuel => equal_abs64 fuel f2 f1 error) h c.
Proof. exact scalar64. Qed.
Print Assumptions C66_scalar.
(** The default absolute tolerance: computed norm times error times 10^-6. *)
Theorem C66_default : forall h pow2 f1 error r, ~ is_zero error -> returns (fun fuel => norm64 pow2 false fuel (EField dbl f1)) h r ->
  exists N, forall fuel, (N <= fuel)%nat -> forall f2 d,
    let a := dmul (dmul r error) d_micro in
    run (equal_default64 fuel pow2 f1 f2 error) h = run (equal64 fuel f1 f2 error a) h /\
    run (not_equal_default64 fuel pow2 f1 f2 error) h = run (not_equal64 fuel f1 f2 error a) h /\
    run (scalar_equal_default64 fuel pow2 d f1 error) h = run (scalar_equal64 fuel d f1 error a) h.
Proof. exact default64. Qed.
Print Assumptions C66_default.
(** With tolerance zero it is not used, and the norm not computed. *)
Theorem C66_default_exact : forall h pow2 f1 error, is_zero error -> forall fuel f2 d,
  run (equal_default64 fuel pow2 f1 f2 error) h = run (equal64 fuel f1 f2 error zero) h /\
  run (not_equal_default64 fuel pow2 f1 f2 error) h = run (not_equal64 fuel f1 f2 error zero) h /\
  run (scalar_equal_default64 fuel pow2 d f1 error) h = run (scalar_equal64 fuel d f1 error zero) h.
Proof. exact default_exact64. Qed.
Print Assumptions C66_default_exact.
(** A NaN as tolerance makes all fields equal. *)
Theorem C66_nan_tolerance : forall h f1 f2, live h f1 -> live h f2 -> fwin f1 = fwin f2 -> forall error_abs,
  says (fun fuel => equal64 fuel f1 f2 NaN error_abs) h true /\ says (fun fuel => equal_abs64 fuel f1 f2 NaN) h true.
Proof. exact nan_tolerance. Qed.
Print Assumptions C66_nan_tolerance.

(** "Equal within a tolerance means close" is false without the exceptions named:
    a field of NaN passes every tolerance (but without one differs from itself), *)
Theorem C66_nan_refuted : exists h f1 f2, live h f1 /\ live h f2 /\ fwin f1 = fwin f2 /\ contents h f1 = repeat NaN 42 /\ contents h f2 = repeat d_one 42 /\
  (forall error error_abs, ~ is_zero error -> finite error_abs -> says (fun fuel => equal64 fuel f1 f2 error error_abs) h true /\ says (fun fuel => equal_abs64 fuel f1 f2 error) h true) /\
  says (fun fuel => equal_abs64 fuel f1 f1 zero) h false.
Proof. exact nan_equal. Qed.
Print Assumptions C66_nan_refuted.
(** an infinite first field passes every relative tolerance, *)
Theorem C66_infinite_refuted : exists h f1 f2, live h f1 /\ live h f2 /\ fwin f1 = fwin f2 /\ contents h f1 = repeat infinity 42 /\ contents h f2 = repeat d_one 42 /\
  (forall error error_abs, ~ is_zero error -> finite error_abs -> says (fun fuel => equal64 fuel f1 f2 error error_abs) h true) /\
  says (fun fuel => equal64 fuel f2 f1 (dlit 1 (-6)) zero) h false.
Proof. exact infinite_equal. Qed.
Print Assumptions C66_infinite_refuted.
(** with the default absolute tolerance a field of 2^600 equals a field of ones
    within 1/64, because the norm overflows, *)
Theorem C66_overflow_refuted : exists pow2, square_ok pow2 /\ exists h f1 f2, live h f1 /\ live h f2 /\ fwin f1 = fwin f2 /\
  Forall (fun x => finite x /\ val x = powerRZ 2 600) (contents h f1) /\ Forall (fun x => finite x /\ val x = 1) (contents h f2) /\
  says (fun fuel => equal_default64 fuel pow2 f1 f2 (dlit 1 (-6))) h true.
Proof. exact overflow_equal. Qed.
Print Assumptions C66_overflow_refuted.
(** and a difference just above the tolerance may be rounded to it. *)
Theorem C66_rounding_refuted : exists h f1 f2 error, live h f1 /\ live h f2 /\ fwin f1 = fwin f2 /\ finite error /\ ~ is_zero error /\
  (exists x y, In x (contents h f1) /\ In y (contents h f2) /\ finite x /\ finite y /\ Rabs (val error) < Rabs (val x - val y)) /\
  says (fun fuel => equal_abs64 fuel f1 f2 error) h true.
Proof. exact rounds_to_tolerance. Qed.
Print Assumptions C66_rounding_refuted.

(** Two fields of 42 cells, ones and one halves, tolerance one half; both answers occur. *)
Example C66_hyps_met :
  let h := heap2 d_one d_half in live h xs /\ live h xs2 /\ fwin xs = fwin xs2 /\
  contents h xs = repeat d_one 42 /\ contents h xs2 = repeat d_half 42 /\
  finite d_half /\ ~ is_zero d_half /\ powerRZ 2 (-1022) <= Rabs (val d_half) /\ is_zero zero /\ finite zero /\ 0 <= val zero /\
  says (fun fuel => equal64 fuel xs xs2 d_half zero) h true /\ says (fun fuel => equal64 fuel xs xs2 d_quarter zero) h false /\
  returns (fun fuel => norm64 (fun x => dmul x x) false fuel (EField dbl xs)) (heap2 infinity d_half) infinity.
Proof.
  cbv zeta. split; [apply live2; cbn; auto|]. split; [apply live2; cbn; auto|]. split; [reflexivity|].
  split; [apply contents2|]. split; [apply contents2|]. split; [apply one_tolerance|]. split; [apply one_tolerance|]. split; [apply one_tolerance|].
  split; [split; reflexivity|]. split; [reflexivity|]. split; [apply Rle_refl|].
  split; [apply all2; vm_compute; reflexivity|]. split; [apply all2; vm_compute; reflexivity|].
  apply (norm2 (fun x => dmul x x) infinity d_half infinity); vm_compute; reflexivity.
Qed.
