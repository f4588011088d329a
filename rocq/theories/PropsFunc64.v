(** C75: fields filled from analytic functions in double precision. *)
From Coq Require Import Reals.
From Verif Require Import Prelude WindowM WindowS GhostM FieldM FieldS MaskM NeboM NeboS NeboE RoundM RoundS BCS BC64S FuncS FuncP Func64M Func64S Func64R Func64Q Func64T Func64P Func64U Func64E.
Open Scope R_scope.

(** LinearFunction1D: close to the line, monotone as the line is, exact on
    integers below 2^53; the derivatives are exact. *)
Theorem C75_linear : forall M n h x f m b, coordinates64 n h x f ->
  (exists v : dbl -> dbl, stores64 (evaluate64 M (linear_function64 m b) x) h f (shared n x f) (fun p => v (value dbl h x p)) /\
    (usual m -> usual b ->
      (forall t, usual t -> finite (v t) /\
        Rabs (val (v t) - line (val m) (val b) (val t)) <= ur * (3 * Rabs (val m * val t) + Rabs (val b))) /\
      (forall s t, usual s -> usual t -> val s <= val t ->
        (0 <= val m -> val (v s) <= val (v t)) /\ (val m <= 0 -> val (v t) <= val (v s))) /\
      (forall t i j k, usual t -> val m = IZR i -> val b = IZR j -> val t = IZR k ->
        (Z.abs (i * k) <= 2 ^ 53)%Z -> (Z.abs (i * k + j) <= 2 ^ 53)%Z -> val (v t) = IZR (i * k + j)))) /\
  stores64 (dx64 M (linear_function64 m b) x) h f (any_cell n f) (fun _ => m) /\
  stores64 (d2x64 M (linear_function64 m b) x) h f (any_cell n f) (fun _ => zero).
Proof. exact linear64_ok. Qed.
Print Assumptions C75_linear.

(** SinFunction and its derivatives. *)
Theorem C75_sin : forall M eps n h x f a b c, good_libm M eps -> coordinates64 n h x f ->
  exists v v1 v2 : dbl -> dbl, exists g1 g2,
    stores64 (evaluate64 M (sin_function64 a b c) x) h f (shared n x f) (fun p => v (value dbl h x p)) /\
    stores64 (dx64 M (sin_function64 a b c) x) h f (shared n x f) (fun p => v1 (value dbl h x p)) /\
    stores64 (d2x64 M (sin_function64 a b c) x) h f (shared n x f) (fun p => v2 (value dbl h x p)) /\
    derivative (wave (val a) (val b) (val c)) g1 /\ derivative g1 g2 /\
    (usual a -> usual b -> usual c -> forall t, usual t ->
      (finite (v t) /\ Rabs (val (v t)) <= (1 + ur) * (Rabs (val a) + Rabs (val c)) /\
       Rabs (val (v t) - wave (val a) (val b) (val c) (val t))
         <= Rabs (val a) * (eps + ur * Rabs (val b * val t)) + ur * (3 * Rabs (val a) + Rabs (val c))) /\
      (finite (v1 t) /\ Rabs (val (v1 t) - g1 (val t)) <= Rabs (val a * val b) * ((1 + 3 * ur) * (eps + ur * Rabs (val b * val t)) + 6 * ur)) /\
      (finite (v2 t) /\ Rabs (val (v2 t) - g2 (val t)) <= Rabs (val a * val b * val b) * ((1 + 3 * ur) * (eps + ur * Rabs (val b * val t)) + 6 * ur))).
Proof. exact sin64_ok. Qed.
Print Assumptions C75_sin.

(** GaussianFunction: close to the bell, exactly symmetric, never rising away
    from the mean, its top where the coordinate is the mean, and never outside
    base and top. *)
Theorem C75_gaussian : forall M eps n h x f a sg x0 y0, good_libm M eps -> coordinates64 n h x f ->
  exists v : dbl -> dbl, stores64 (evaluate64 M (gaussian_function64 a sg x0 y0) x) h f (shared n x f) (fun p => v (value dbl h x p)) /\
    (usual a -> usual sg -> val sg <> 0 -> usual x0 -> usual y0 ->
      (forall t, usual t -> finite (v t) /\
        Rabs (val (v t) - bell (val a) (val sg) (val x0) (val y0) (val t)) <= Rabs (val a) * (eps + 11 * ur) + ur * Rabs (val y0)) /\
      (forall s t, usual s -> usual t -> val s - val x0 = val x0 - val t -> v s = v t) /\
      (forall s t, usual s -> usual t -> Rabs (val t - val x0) <= Rabs (val s - val x0) ->
        (0 <= val a -> val (v s) <= val (v t)) /\ (val a <= 0 -> val (v t) <= val (v s))) /\
      (forall t, usual t -> (0 <= val a -> val y0 <= val (v t)) /\ (val a <= 0 -> val (v t) <= val y0)) /\
      (forall t, usual t -> val t = val x0 -> v t = dadd a y0)).
Proof. exact gaussian64_ok. Qed.
Print Assumptions C75_gaussian.

(** Its second derivative: exactly symmetric, and within 2^200 deviations of the
    mean close to the second derivative of the bell. *)
Theorem C75_gaussian_d2x : forall M eps n h x f a sg x0 y0, good_libm M eps -> coordinates64 n h x f ->
  exists v2 : dbl -> dbl, stores64 (d2x64 M (gaussian_function64 a sg x0 y0) x) h f (shared n x f) (fun p => v2 (value dbl h x p)) /\
    (usual a -> usual sg -> val sg <> 0 -> usual x0 ->
      (forall s t, usual s -> usual t -> val s - val x0 = val x0 - val t -> v2 s = v2 t) /\
      exists g1 g2, derivative (bell (val a) (val sg) (val x0) (val y0)) g1 /\ derivative g1 g2 /\
        forall t, usual t -> Rabs (val t - val x0) <= powerRZ 2 200 * Rabs (val sg) -> finite (v2 t) /\
          Rabs (val (v2 t) - g2 (val t)) <= Rabs (val a) / val sg ^ 2 * (1 + ((val t - val x0) / val sg) ^ 2) * (eps + 27 * ur)).
Proof. exact gaussian64_d2x_ok. Qed.
Print Assumptions C75_gaussian_d2x.

(** HyperTanFunction: close to the two steps, no larger than the amplitude and
    of its sign. *)
Theorem C75_hypertan : forall M eps n h x f A w l1 l2, good_libm M eps -> coordinates64 n h x f ->
  exists v : dbl -> dbl, stores64 (evaluate64 M (hypertan_function64 A w l1 l2) x) h f (shared n x f) (fun p => v (value dbl h x p)) /\
    (usual A -> usual w -> val w <> 0 -> usual l1 -> usual l2 -> forall t, usual t ->
      finite (v t) /\ Rabs (val (v t)) <= Rabs (val A) /\ 0 <= val A * val (v t) /\
      Rabs (val (v t) - step (val A) (val w) (val l1) (val l2) (val t)) <= Rabs (val A) * (eps + 14 * ur)).
Proof. exact hypertan64_ok. Qed.
Print Assumptions C75_hypertan.

(** A correctly rounding library is a good one; coordinates as in C55_hyps_met. *)
Example C75_hyps_met : good_libm rounded_libm (2 * ur) /\
  coordinates64 xdim (dheap (dlit 7 0)) xt xf /\ shared xdim xt xf (IV 3 (-1) 0) /\ shared xdim xt xf (IV 1 1 0) /\
  value dbl (dheap (dlit 7 0)) xt (IV 1 1 0) = dlit 7 0 /\
  usual (dlit 7 0) /\ usual (dlit (-3) 0) /\ val (dlit 7 0) = 7 /\ val (dlit 7 0) <> 0 /\
  Rabs (val (dlit 7 0) - val (dlit (-3) 0)) <= powerRZ 2 200 * Rabs (val (dlit 7 0)).
Proof. exact func64_hyps. Qed.
