(** C67: comparing fields by units in the last place.  [doubles_apart n x y]: going
    from x to y passes n doubles; [verdict close l1 l2 r]: r is true if all pairs
    are close, and otherwise decided by the first pair that is not: false, or
    None (an exception) if one of the two is infinite or NaN. *)
From Coq Require Import Reals.
From Verif Require Import Prelude WindowM GhostM FieldM FieldS MaskM NeboM NeboS NeboE IterM IterS RoundM RoundS CompareM UlpM UlpS UlpP UlpE.
Open Scope Z_scope.

Theorem C67_compare : forall h f1 f2 ulps, live h f1 -> live h f2 -> fwin f1 = fwin f2 -> 0 <= ulps ->
  exists r, verdict (ulp_close ulps) (contents h f1) (contents h f2) r /\
    ends_with (fun fuel => equal_ulp64 fuel f1 f2 ulps) h r /\ ends_with (fun fuel => not_equal_ulp64 fuel f1 f2 ulps) h (option_map negb r).
Proof. exact equal_ulp_ok. Qed.
Print Assumptions C67_compare.
Theorem C67_different_windows : forall h f1 f2 ulps fuel, fwin f1 <> fwin f2 -> run (equal_ulp64 fuel f1 f2 ulps) h = RThrow.
Proof. exact equal_ulp_throws. Qed.
Print Assumptions C67_different_windows.
(** With a number: as with a field that holds it everywhere. *)
Theorem C67_scalar : forall h d f1 ulps, live h f1 -> 0 <= ulps ->
  exists r, verdict (ulp_close ulps) (repeat d (length (contents h f1))) (contents h f1) r /\
    ends_with (fun fuel => scalar_equal_ulp64 fuel d f1 ulps) h r /\ ends_with (fun fuel => scalar_not_equal_ulp64 fuel d f1 ulps) h (option_map negb r).
Proof. exact scalar_ulp_ok. Qed.
Print Assumptions C67_scalar.
(** There is only one verdict; when it is true, and when an exception. *)
Theorem C67_verdict : forall ulps l1 l2, 0 <= ulps ->
  (forall r r', verdict (ulp_close ulps) l1 l2 r -> verdict (ulp_close ulps) l1 l2 r' -> r = r') /\
  (verdict (ulp_close ulps) l1 l2 (Some true) <-> Forall2 (ulp_close ulps) l1 l2) /\
  (verdict (ulp_close ulps) l1 l2 None ->
   exists p1 x q1 p2 y q2, l1 = p1 ++ x :: q1 /\ l2 = p2 ++ y :: q2 /\ Forall2 (ulp_close ulps) p1 p2 /\ ~ (finite x /\ finite y)).
Proof.
  exact (fun ulps l1 l2 U => conj (fun r r' => verdict_unique (ulp_close ulps) l1 l2 r r' (close_finite ulps))
    (conj (verdict_true (ulp_close ulps) l1 l2 (close_finite ulps)) (verdict_throw ulps l1 l2 U))).
Qed.
Print Assumptions C67_verdict.
(** Every two finite doubles are some number of doubles apart, and only one; no
    order of the two matters. *)
Theorem C67_distance : forall x y, finite x -> finite y -> exists n, doubles_apart n x y /\
  (forall m, doubles_apart m x y -> m = n) /\ doubles_apart n y x.
Proof. exact distance_unique. Qed.
Print Assumptions C67_distance.
Theorem C67_symmetric : forall h f1 f2 ulps, live h f1 -> live h f2 -> fwin f1 = fwin f2 -> 0 <= ulps -> exists r,
  ends_with (fun fuel => equal_ulp64 fuel f1 f2 ulps) h r /\ ends_with (fun fuel => equal_ulp64 fuel f2 f1 ulps) h r.
Proof. exact symmetric_ulp. Qed.
Print Assumptions C67_symmetric.
(** No ulps: the same number (the zeros are one number).  One: nothing in between. *)
Theorem C67_zero : forall x y, ulp_close 0 x y <-> finite x /\ finite y /\ val x = val y.
Proof. exact zero_ulps. Qed.
Print Assumptions C67_zero.
Theorem C67_one : forall x y, finite x -> finite y -> (val x < val y)%R ->
  (ulp_close 1 x y <-> forall z, finite z -> ~ (val x < val z < val y)%R).
Proof. exact one_ulp. Qed.
Print Assumptions C67_one.

(** A field is not equal to itself when it holds a NaN: the call throws. *)
Theorem C67_reflexive_refuted : exists h f, live h f /\ contents h f = repeat NaN 42 /\
  forall ulps, 0 <= ulps -> ends_with (fun fuel => equal_ulp64 fuel f f ulps) h None.
Proof. exact nan_throws. Qed.
Print Assumptions C67_reflexive_refuted.
(** Whether a NaN is noticed depends on the order of the cells. *)
Theorem C67_order_decides : forall ulps x y, 0 <= ulps -> finite x -> finite y -> ~ ulp_close ulps x y ->
  verdict (ulp_close ulps) [x; NaN] [y; x] (Some false) /\ verdict (ulp_close ulps) [NaN; x] [x; y] None.
Proof. exact order_decides. Qed.
Print Assumptions C67_order_decides.

Example C67_hyps_met :
  (exists h f1 f2, live h f1 /\ live h f2 /\ fwin f1 = fwin f2 /\
     contents h f1 = repeat d_one 42 /\ contents h f2 = repeat next_one 42 /\ ulp_close 1 d_one next_one /\ ~ ulp_close 0 d_one next_one) /\
  doubles_apart 2 minus_tiny tiny /\ doubles_apart (Z.to_nat (2 * (2 ^ 53 - 1 + 2045 * 2 ^ 52))) (dopp largest) largest.
Proof. exact (conj neighbours_equal (conj tinies_apart largest_apart)). Qed.
