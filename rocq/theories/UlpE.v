(** Comparing doubles by their number: instances and counterexamples. *)
From Coq Require Import Reals Lra Lia.
From Verif Require Import Prelude WindowM WindowS WindowP GhostM FieldM FieldS MaskM NeboM NeboS NeboE IterM IterS IterP RoundM RoundS CompareM CompareP Cmp64E UlpM UlpS UlpP.
Open Scope Z_scope.

(** 1, the next double, the smallest positive double and its negative *)
Definition next_one : dbl := dlit (2 ^ 52 + 1) (-52).
Definition tiny : dbl := dlit 1 (-1074).
Definition minus_tiny : dbl := dlit (-1) (-1074).
Lemma ones_close : doubles_apart 1 d_one next_one.
Proof. apply apart_position. split; [reflexivity|]. split; [reflexivity|]. vm_compute. reflexivity. Qed.
Lemma tinies_apart : doubles_apart 2 minus_tiny tiny.
Proof. apply apart_position. split; [reflexivity|]. split; [reflexivity|]. vm_compute. reflexivity. Qed.
(** The largest doubles of either sign, and their distance. *)
Definition largest : dbl := dlit (2 ^ 53 - 1) 971.
Lemma largest_apart : doubles_apart (Z.to_nat (2 * (2 ^ 53 - 1 + 2045 * 2 ^ 52))) (dopp largest) largest.
Proof. apply apart_position. split; [reflexivity|]. split; [reflexivity|]. rewrite Z2Nat.id by lia. vm_compute. reflexivity. Qed.

Lemma neighbours_equal : exists h f1 f2, live h f1 /\ live h f2 /\ fwin f1 = fwin f2 /\
  contents h f1 = repeat d_one 42 /\ contents h f2 = repeat next_one 42 /\ ulp_close 1 d_one next_one /\ ~ ulp_close 0 d_one next_one.
Proof.
  exists (heap2 d_one next_one), xs, xs2. split; [apply live2; cbn; auto|]. split; [apply live2; cbn; auto|]. split; [reflexivity|].
  split; [apply contents2|]. split; [apply contents2|]. split.
  - exists 1%nat. split; [exact ones_close|lia].
  - intros (n & A & B). apply apart_position in A. destruct A as (_ & _ & A). 
    assert (P : Z.abs (position next_one - position d_one) = 1) by (vm_compute; reflexivity). rewrite P in A. lia.
Qed.
(** A NaN: the tolerance comparisons let it pass, these throw, even for a field
    compared with itself. *)
Lemma nan_throws : exists h f, live h f /\ contents h f = repeat NaN 42 /\
  forall ulps, 0 <= ulps -> ends_with (fun fuel => equal_ulp64 fuel f f ulps) h None.
Proof.
  exists (heap2 NaN NaN), xs. split; [apply live2; cbn; auto|]. split; [apply contents2|]. intros ulps U.
  assert (L : live (heap2 NaN NaN) xs) by (apply live2; cbn; auto).
  destruct (equal_ulp_ok _ xs xs ulps L L eq_refl U) as (r & V & E & _). replace None with r; [exact E|].
  rewrite (proj1 (contents2 NaN NaN)) in V. cbn [repeat] in V. inversion V as [|? ? ? ? ? C|? ? ? ? C|]; [apply close_finite in C; destruct C as (C & _)| |reflexivity]; discriminate C.
Qed.
(** The order of the cells decides: a pair that differs first hides the NaN
    (answer: unequal), a NaN first hides the difference (exception). *)
Lemma order_decides ulps x y : 0 <= ulps -> finite x -> finite y -> ~ ulp_close ulps x y ->
  verdict (ulp_close ulps) [x; NaN] [y; x] (Some false) /\ verdict (ulp_close ulps) [NaN; x] [x; y] None.
Proof. intros U A B C. split; [apply v_far; assumption|apply v_bad; intros (K & _); discriminate K]. Qed.
