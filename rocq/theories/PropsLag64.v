(** Property theorems about Lagrange interpolation in double precision: C71. *)
From Coq Require Import Reals.
From Verif Require Import Prelude StencilM RoundM RoundS RedM HeatM Cmp64M Lag64M Lag64S Lag64P Lag64A Lag64U Lag64E.
Open Scope R_scope.

(** C71.  For a strictly increasing table of finite doubles and any x, even NaN or
    infinite, both calls use the same order+1 consecutive entries lo .. lo+order;
    all lie in the table, they bracket x if the table does, and are the first
    (last) ones if x is not above the first entry (is above the last one). *)
Theorem C71_window : forall xs x n, increasing64 xs -> (1 <= n)%nat -> (n < length xs)%nat ->
  exists lo cs ds,
    interp_coefs64 xs x (Z.of_nat n) = Ok (cs, map Z.of_nat (seq lo (S n))) /\
    deriv_coefs64 xs x (Z.of_nat n) = Ok (ds, map Z.of_nat (seq lo (S n))) /\
    length cs = S n /\ length ds = S n /\ (lo + n < length xs)%nat /\
    (forall j a b, nth_error xs j = Some a -> nth_error xs (S j) = Some b -> dltb a x = true -> dltb b x = false ->
       (lo <= j)%nat /\ (j + 1 <= lo + n)%nat) /\
    (forall a, nth_error xs 0 = Some a -> dltb a x = false -> lo = 0%nat) /\
    (forall a, nth_error xs (length xs - 1) = Some a -> dltb a x = true -> (lo + n = length xs - 1)%nat).
Proof. exact window_spec. Qed.
Print Assumptions C71_window.

(** The weights of the specification are the right ones: they reproduce every
    polynomial of degree below the number of points, and its derivative. *)
Theorem C71_weights : forall w p x, NoDup w -> (length p <= length w)%nat ->
  blend (weight w x) w (map (poly p) w) = poly p x /\ blend (dweight w x) w (map (poly p) w) = poly (dpoly p) x.
Proof. exact weights_exact. Qed.
Print Assumptions C71_weights.

(** The interpolated value is finite and is the exact interpolant through the
    entries used, up to 2^-48 times the order times the sum of the magnitudes of
    the terms. *)
Theorem C71_value : forall xs ys x n, increasing64 xs -> length ys = length xs -> (1 <= n)%nat -> (n < length xs)%nat -> finite x ->
  exists lo cs, interp_coefs64 xs x (Z.of_nat n) = Ok (cs, map Z.of_nat (seq lo (S n))) /\ (lo + n < length xs)%nat /\
  (let w := map val (part lo (S n) xs) in let v := map val (part lo (S n) ys) in
   forall a b, spaced a b (val x :: w) -> ratios_ok a b n -> Forall plain (part lo (S n) ys) ->
   exists r, interp_value64 xs ys x (Z.of_nat n) = Ok r /\ finite r /\
     Rabs (val r - blend (weight w (val x)) w v) <= powerRZ 2 (-48) * INR n * blend (fun xk => Rabs (weight w (val x) xk)) w (map Rabs v)).
Proof. exact value_ok. Qed.
Print Assumptions C71_value.

(** The derivative likewise. *)
Theorem C71_derivative : forall xs ys x n, increasing64 xs -> length ys = length xs -> (1 <= n)%nat -> (n < length xs)%nat -> finite x ->
  exists lo ds, deriv_coefs64 xs x (Z.of_nat n) = Ok (ds, map Z.of_nat (seq lo (S n))) /\ (lo + n < length xs)%nat /\
  (let w := map val (part lo (S n) xs) in let v := map val (part lo (S n) ys) in
   forall a b, spaced a b (val x :: w) -> products_ok a b n -> Forall plain (part lo (S n) ys) ->
   exists r, deriv_value64 xs ys x (Z.of_nat n) = Ok r /\ finite r /\
     Rabs (val r - blend (dweight w (val x)) w v) <= powerRZ 2 (-47) * INR n * blend (dsize w (val x)) w (map Rabs v)).
Proof. exact deriv_ok. Qed.
Print Assumptions C71_derivative.

(** Values of a polynomial of degree at most the order, each right up to e: the
    value and the derivative are those of the polynomial, up to rounding and to
    what the errors of the samples contribute. *)
Theorem C71_polynomial : forall xs ys x n p e, increasing64 xs -> length ys = length xs -> (1 <= n)%nat -> (n < length xs)%nat -> finite x ->
  (length p <= S n)%nat ->
  (forall i xi yi, nth_error xs i = Some xi -> nth_error ys i = Some yi -> Rabs (val yi - poly p (val xi)) <= e) ->
  exists lo cs, interp_coefs64 xs x (Z.of_nat n) = Ok (cs, map Z.of_nat (seq lo (S n))) /\ (lo + n < length xs)%nat /\
  (let w := map val (part lo (S n) xs) in let v := map val (part lo (S n) ys) in
   forall a b, spaced a b (val x :: w) -> ratios_ok a b n -> Forall plain (part lo (S n) ys) ->
   exists r, interp_value64 xs ys x (Z.of_nat n) = Ok r /\ finite r /\
     Rabs (val r - poly p (val x)) <=
       powerRZ 2 (-48) * INR n * blend (fun xk => Rabs (weight w (val x) xk)) w (map Rabs v) + e * suml (fun xk => Rabs (weight w (val x) xk)) w).
Proof. exact poly_value. Qed.
Print Assumptions C71_polynomial.
Theorem C71_slope : forall xs ys x n p e, increasing64 xs -> length ys = length xs -> (1 <= n)%nat -> (n < length xs)%nat -> finite x ->
  (length p <= S n)%nat ->
  (forall i xi yi, nth_error xs i = Some xi -> nth_error ys i = Some yi -> Rabs (val yi - poly p (val xi)) <= e) ->
  exists lo ds, deriv_coefs64 xs x (Z.of_nat n) = Ok (ds, map Z.of_nat (seq lo (S n))) /\ (lo + n < length xs)%nat /\
  (let w := map val (part lo (S n) xs) in let v := map val (part lo (S n) ys) in
   forall a b, spaced a b (val x :: w) -> products_ok a b n -> Forall plain (part lo (S n) ys) ->
   exists r, deriv_value64 xs ys x (Z.of_nat n) = Ok r /\ finite r /\
     Rabs (val r - poly (dpoly p) (val x)) <=
       powerRZ 2 (-47) * INR n * blend (dsize w (val x)) w (map Rabs v) + e * suml (fun xk => Rabs (dweight w (val x) xk)) w).
Proof. exact poly_deriv. Qed.
Print Assumptions C71_slope.

(** At a point of the table the value stored there is returned without error,
    whatever the finite values. *)
Theorem C71_table_points : forall xs ys x n j xj yj, increasing64 xs -> length ys = length xs -> (1 <= n)%nat -> (n < length xs)%nat -> finite x ->
  nth_error xs j = Some xj -> nth_error ys j = Some yj -> val x = val xj ->
  exists lo cs, interp_coefs64 xs x (Z.of_nat n) = Ok (cs, map Z.of_nat (seq lo (S n))) /\ (lo <= j <= lo + n)%nat /\ (lo + n < length xs)%nat /\
  (forall a b, spaced a b (map val (part lo (S n) xs)) -> ratios_ok a b n -> Forall finite (part lo (S n) ys) ->
   exists r, interp_value64 xs ys x (Z.of_nat n) = Ok r /\ finite r /\ val r = val yj).
Proof. exact table_point. Qed.
Print Assumptions C71_table_points.

(** Too few entries, or order 0: undefined. *)
Theorem C71_short_table_refuted : forall xs x order, (0 <= order)%Z -> (Z.of_nat (length xs) <= order)%Z ->
  interp_coefs64 xs x order = UB /\ deriv_coefs64 xs x order = UB.
Proof. exact short_table. Qed.
Print Assumptions C71_short_table_refuted.
Theorem C71_order_zero_refuted : forall xs ys x, Forall finite xs -> interp_value64 xs ys x 0 = UB /\ deriv_value64 xs ys x 0 = UB.
Proof. exact order_zero. Qed.
Print Assumptions C71_order_zero_refuted.

(** Not even constants are reproduced exactly: with the table 0 1 6 of ones, at 2
    the value is above 1 and the derivative above 0. *)
Theorem C71_constant_refuted : exists r d,
  interp_value64 (ints [0; 1; 6]%Z) (ints [1; 1; 1]%Z) (dlit 2 0) 2 = Ok r /\
  deriv_value64 (ints [0; 1; 6]%Z) (ints [1; 1; 1]%Z) (dlit 2 0) 2 = Ok d /\ dltb d_one r = true /\ dltb d_zero d = true.
Proof. exact ones_case. Qed.
Print Assumptions C71_constant_refuted.
(** Points at too different distances: with the table 0 2^-600 2^500 of ones the
    value at the last point is NaN. *)
Theorem C71_spread_refuted : increasing64 wide /\ interp_value64 wide (ints [1; 1; 1]%Z) (dlit 1 500) 2 = Ok NaN.
Proof. exact (conj wide_increasing wide_case). Qed.
Print Assumptions C71_spread_refuted.

(** The table 0 1 3 4 7 with the values of 1 + 2 x + 3 x^2, order 2, x = 7/2: all
    distances in the whole table are in range. *)
Example C71_hyps_met : increasing64 tab64 /\ length dat64 = length tab64 /\ (1 <= 2)%nat /\ (2 < length tab64)%nat /\ finite half7 /\
  spaced (/ 2) 7 (val half7 :: map val tab64) /\ ratios_ok (/ 2) 7 2 /\ products_ok (/ 2) 7 2 /\ Forall plain dat64 /\
  (forall i xi yi, nth_error tab64 i = Some xi -> nth_error dat64 i = Some yi -> Rabs (val yi - poly [1; 2; 3] (val xi)) <= 0).
Proof.
  split; [exact tab_increasing|]. split; [reflexivity|]. split; [repeat constructor|]. split; [repeat constructor|]. split; [reflexivity|].
  split; [exact tab_spaced|]. destruct tab_ranges as (A & B). split; [exact A|]. split; [exact B|]. split; [exact dat_plain|exact dat_samples].
Qed.
(** 179/4 and 23, here exactly *)
Example C71_case : interp_value64 tab64 dat64 half7 2 = Ok (dlit 179 (-2)) /\ deriv_value64 tab64 dat64 half7 2 = Ok (dlit 23 0).
Proof. exact tab_case. Qed.
