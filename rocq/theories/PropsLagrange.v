(** Property theorems about Lagrange interpolation and differentiation: C40, C41. *)
From Verif Require Import Prelude StencilM StencilP BCE LagrangeM LagrangeS LagrangeP LagrangeQ.

(** C40.  Interpolation and differentiation use the same order+1 consecutive
    entries lo .. lo+order; all lie in the table, they bracket x if the table
    does, and are the first (last) ones if x lies outside it. *)
Theorem C40_window : forall xs x order, increasing xs -> 1 <= order -> order + 1 <= Z.of_nat (length xs) ->
  exists lo cs ds,
    interp_coefs xs x order = Ok (cs, map (fun i => lo + Z.of_nat i) (seq 0 (Z.to_nat (order + 1)))) /\
    deriv_coefs xs x order = Ok (ds, map (fun i => lo + Z.of_nat i) (seq 0 (Z.to_nat (order + 1)))) /\
    Z.of_nat (length cs) = order + 1 /\ Z.of_nat (length ds) = order + 1 /\
    0 <= lo /\ lo + order < Z.of_nat (length xs) /\
    (forall j a b, nth_error xs j = Some a -> nth_error xs (S j) = Some b -> (a < x)%Qc -> (x <= b)%Qc ->
       lo <= Z.of_nat j /\ Z.of_nat j + 1 <= lo + order) /\
    (forall a, nth_error xs 0 = Some a -> (x <= a)%Qc -> lo = 0) /\
    (forall a, nth_error xs (length xs - 1) = Some a -> (a < x)%Qc -> lo + order = Z.of_nat (length xs) - 1).
Proof. exact window_spec. Qed.
Print Assumptions C40_window.

(** With too few entries the table is read out of bounds, and order 0 never works. *)
Theorem C40_short_table_refuted : forall xs x order, 0 <= order -> Z.of_nat (length xs) <= order ->
  interp_coefs xs x order = UB /\ deriv_coefs xs x order = UB.
Proof. exact short_table. Qed.
Print Assumptions C40_short_table_refuted.
Theorem C40_order_zero_refuted : forall xs ys x, interp_value xs ys x 0 = UB /\ deriv_value xs ys x 0 = UB.
Proof. exact order_zero. Qed.
Print Assumptions C40_order_zero_refuted.

(** C41.  Exact for every polynomial of degree at most the order. *)
Theorem C41_exact : forall xs p x order, increasing xs -> 1 <= order -> order + 1 <= Z.of_nat (length xs) ->
  Z.of_nat (length p) <= order + 1 ->
  interp_value xs (map (poly p) xs) x order = Ok (poly p x) /\
  deriv_value xs (map (poly p) xs) x order = Ok (poly (dpoly p) x).
Proof. exact value_exact. Qed.
Print Assumptions C41_exact.
Theorem C41_coefficients : forall xs x order, increasing xs -> 1 <= order -> order + 1 <= Z.of_nat (length xs) ->
  exists cs ds ix, interp_coefs xs x order = Ok (cs, ix) /\ deriv_coefs xs x order = Ok (ds, ix) /\
    total cs = 1%Qc /\ total ds = 0%Qc.
Proof. exact coefs_sum. Qed.
Print Assumptions C41_coefficients.
(** Arbitrary data are reproduced at the table's own points. *)
Theorem C41_table_points : forall xs ys j xj yj order, increasing xs -> length ys = length xs ->
  1 <= order -> order + 1 <= Z.of_nat (length xs) ->
  nth_error xs j = Some xj -> nth_error ys j = Some yj -> interp_value xs ys xj order = Ok yj.
Proof. exact value_node. Qed.
Print Assumptions C41_table_points.

(** A non-uniform table 0 1 3 4 7, a quadratic, x between 3 and 4. *)
Definition ltab : list Qc := map qc_of [0; 1; 3; 4; 7].
Example C40_hyps_met : increasing ltab /\ 1 <= 2 /\ 2 + 1 <= Z.of_nat (length ltab).
Proof.
  split; [|cbn; lia].
  repeat (apply increasing_cons; [repeat constructor|]). intros i j a b _ A. destruct i; discriminate.
Qed.
Example C41_case : interp_value ltab (map (poly [qc_of 1; qc_of 2; qc_of 3]) ltab) (qc_of 7 / qc_of 2)%Qc 2 = Ok (qc_of 179 / qc_of 4)%Qc /\
  deriv_value ltab (map (poly [qc_of 1; qc_of 2; qc_of 3]) ltab) (qc_of 7 / qc_of 2)%Qc 2 = Ok (qc_of 23).
Proof.
  destruct C40_hyps_met as (A & B & C).
  destruct (C41_exact ltab [qc_of 1; qc_of 2; qc_of 3] (qc_of 7 / qc_of 2)%Qc 2 A B C ltac:(cbn; lia)) as (-> & ->).
  split; f_equal; apply Qc_is_canon; reflexivity.
Qed.
