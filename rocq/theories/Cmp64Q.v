(** Comparing fields of doubles: from pairs to fields. *)
From Coq Require Import Reals Lra Lia.
From Verif Require Import Prelude WindowM WindowS GhostM FieldM FieldS MaskM NeboM NeboS IterM IterS IterP RoundM RoundS RedM RedS RedQ CompareM CompareP Cmp64M Cmp64S Cmp64P.
Open Scope R_scope.

Section F.
Variable h : heap dbl.
Variable f1 f2 : field.
Hypothesis L1 : live h f1.
Hypothesis L2 : live h f2.
Hypothesis W : fwin f1 = fwin f2.

(** One loop decides [Forall2]; its negation and the exchange of the fields go along. *)
Lemma decide (differ : dbl -> dbl -> bool) : exists b, says (fun fuel => compare_fields fuel differ f1 f2) h b /\
  says (fun fuel => negated (compare_fields fuel differ f1 f2)) h (negb b) /\
  (b = true <-> Forall2 (fun x y => differ x y = false) (contents h f1) (contents h f2)).
Proof.
  destruct (compare_fields_ok dbl differ h f1 f2 L1 L2 W) as (N & H).
  destruct (H N (le_n N)) as (b & _ & E). exists b.
  assert (S1 : forall fuel, (N <= fuel)%nat -> run (compare_fields fuel differ f1 f2) h = RDone h b).
  { intros fuel Le. destruct (H fuel Le) as (b' & R & E'). assert (b' = b) as -> by (destruct b, b'; intuition congruence). exact R. }
  split; [exists N; exact S1|]. split; [exists N; intros fuel Le; apply negated_ok, S1, Le|exact E].
Qed.
Lemma scalar_decide (differ : dbl -> dbl -> bool) d : exists b, says (fun fuel => compare_scalar fuel differ d f1) h b /\
  (b = true <-> Forall (fun y => differ d y = false) (contents h f1)).
Proof.
  destruct (compare_scalar_ok dbl differ h d f1 L1) as (N & H).
  destruct (H N (le_n N)) as (b & _ & E). exists b. split; [|exact E]. exists N.
  intros fuel Le. destruct (H fuel Le) as (b' & R & E'). assert (b' = b) as -> by (destruct b, b'; intuition congruence). exact R.
Qed.
Lemma contents_len : length (contents h f1) = length (contents h f2).
Proof. unfold contents, cells_of. rewrite !map_length, <- W. reflexivity. Qed.
Lemma exact64 error error_abs : is_zero error -> exists b,
  says (fun fuel => equal64 fuel f1 f2 error error_abs) h b /\ says (fun fuel => not_equal64 fuel f1 f2 error error_abs) h (negb b) /\
  says (fun fuel => equal_abs64 fuel f1 f2 error) h b /\ says (fun fuel => not_equal_abs64 fuel f1 f2 error) h (negb b) /\
  (b = true <-> Forall2 same (contents h f1) (contents h f2)).
Proof.
  intros Z. destruct (decide (differ_rel64 error error_abs)) as (b & A1 & A2 & A3). destruct (decide (differ_abs64 error)) as (c & B1 & B2 & B3).
  assert (E1 : b = true <-> Forall2 same (contents h f1) (contents h f2)) by (rewrite A3; apply Forall2_iff; intros x y; apply (abs_exact error x y Z)).
  assert (E2 : c = true <-> Forall2 same (contents h f1) (contents h f2)) by (rewrite B3; apply Forall2_iff; intros x y; apply (abs_exact error x y Z)).
  assert (c = b) as -> by (destruct b, c; intuition congruence).
  exists b. split; [exact A1|]. split; [exact A2|]. split; [exact B1|]. split; [exact B2|exact E1].
Qed.
Lemma absolute64 error : finite error -> ~ is_zero error -> exists b,
  says (fun fuel => equal_abs64 fuel f1 f2 error) h b /\ says (fun fuel => not_equal_abs64 fuel f1 f2 error) h (negb b) /\
  (b = true -> Forall2 (fun x y => unnoticed x y \/ apart_at_most (Rabs (val error) * (1 + powerRZ 2 (-52))) x y) (contents h f1) (contents h f2)) /\
  (Forall2 (fun x y => unnoticed x y \/ apart_at_most (Rabs (val error)) x y) (contents h f1) (contents h f2) -> b = true).
Proof.
  intros F N. destruct (decide (differ_abs64 error)) as (b & A1 & A2 & A3). exists b. split; [exact A1|]. split; [exact A2|]. rewrite A3.
  split; apply Forall2_impl; intros x y; apply (abs_close error x y F N).
Qed.
Lemma relative64 error error_abs : finite error -> ~ is_zero error -> finite error_abs -> 0 <= val error_abs -> exists b,
  says (fun fuel => equal64 fuel f1 f2 error error_abs) h b /\ says (fun fuel => not_equal64 fuel f1 f2 error error_abs) h (negb b) /\
  (b = true -> powerRZ 2 (-1022) <= Rabs (val error) -> Forall (fun x => finite x -> Rabs (val x) + val error_abs <= powerRZ 2 1023) (contents h f1) ->
   Forall2 (fun x y => ~ finite x \/ y = NaN \/ apart_at_most (Rabs (val error) * (1 + powerRZ 2 (-50)) * (Rabs (val x) + val error_abs)) x y)
     (contents h f1) (contents h f2)) /\
  (Forall2 (fun x y => ~ finite x \/ y = NaN \/
       apart_at_most (Rabs (val error) * (1 - powerRZ 2 (-50)) * (Rabs (val x) + val error_abs)) x y /\ Rabs (val x - val y) <= powerRZ 2 1023)
     (contents h f1) (contents h f2) -> b = true).
Proof.
  intros F N Fa Pa. destruct (decide (differ_rel64 error error_abs)) as (b & A1 & A2 & A3). exists b. split; [exact A1|]. split; [exact A2|]. rewrite A3.
  split.
  - intros D Ne. revert D. generalize (contents h f1) (contents h f2). induction 1 as [|x y l m D _ IH]; intros B; [constructor|].
    inversion B as [|? ? B1 B2]; subst. constructor; [|apply IH, B2]. apply (rel_close error error_abs x y F N Fa Pa); assumption.
  - apply Forall2_impl. intros x y [K|[K|(K & B)]]; [apply rel_unnoticed; auto|apply rel_unnoticed; auto|apply (rel_close error error_abs x y F N Fa Pa); assumption].
Qed.
(** A NaN as tolerance: everything is equal. *)
Lemma nan_tolerance error_abs : says (fun fuel => equal64 fuel f1 f2 NaN error_abs) h true /\ says (fun fuel => equal_abs64 fuel f1 f2 NaN) h true.
Proof.
  assert (P : forall differ, (forall x y, differ x y = false) -> says (fun fuel => compare_fields fuel differ f1 f2) h true).
  { intros differ H. destruct (decide differ) as (b & A & _ & E). replace true with b; [exact A|]. apply E.
    pose proof contents_len as LL. revert LL. generalize (contents h f1) (contents h f2). induction l as [|x l IH]; intros [|y m] E'; try discriminate; constructor; auto. }
  split; apply P; intros x y; [unfold differ_rel64|unfold differ_abs64]; cbv zeta; apply ltb_nan_l.
Qed.
End F.
(** A field equals itself with any tolerance but zero. *)
Lemma self64 h f error error_abs : live h f -> ~ is_zero error ->
  says (fun fuel => equal64 fuel f f error error_abs) h true /\ says (fun fuel => equal_abs64 fuel f f error) h true.
Proof.
  intros L N.
  assert (P : forall differ, (forall x, differ x x = false) -> says (fun fuel => compare_fields fuel differ f f) h true).
  { intros differ H. destruct (decide h f f L L eq_refl differ) as (b & A & _ & E). replace true with b; [exact A|]. apply E.
    generalize (contents h f). induction l; constructor; auto. }
  split; apply P; intros x; [apply rel_self, N|apply abs_self, N].
Qed.
(** The order of the arguments does not matter to the absolute comparison. *)
Lemma symmetric64 h f1 f2 error : live h f1 -> live h f2 -> fwin f1 = fwin f2 -> exists b,
  says (fun fuel => equal_abs64 fuel f1 f2 error) h b /\ says (fun fuel => equal_abs64 fuel f2 f1 error) h b.
Proof.
  intros L1 L2 W. destruct (decide h f1 f2 L1 L2 W (differ_abs64 error)) as (b & A & _ & E).
  destruct (decide h f2 f1 L2 L1 (eq_sym W) (differ_abs64 error)) as (c & B & _ & E').
  exists b. split; [exact A|]. replace b with c; [exact B|].
  assert (X : Forall2 (fun x y => differ_abs64 error x y = false) (contents h f1) (contents h f2) <-> Forall2 (fun x y => differ_abs64 error x y = false) (contents h f2) (contents h f1)).
  { split; intros H; apply Forall2_flip in H; revert H; apply Forall2_impl; intros x y K; rewrite abs_sym; exact K. }
  destruct b, c; intuition congruence.
Qed.
(** Comparison with a number. *)
Lemma scalar64 h d f1 error error_abs : live h f1 -> exists b c,
  says (fun fuel => scalar_equal64 fuel d f1 error error_abs) h b /\ says (fun fuel => scalar_equal_abs64 fuel d f1 error) h c /\
  forall f2, live h f2 -> fwin f2 = fwin f1 -> Forall (eq d) (contents h f2) ->
    says (fun fuel => equal64 fuel f2 f1 error error_abs) h b /\ says (fun fuel => equal_abs64 fuel f2 f1 error) h c.
Proof.
  intros L1. destruct (scalar_decide h f1 L1 (differ_rel64 error error_abs) d) as (b & A & E). destruct (scalar_decide h f1 L1 (differ_abs64 error) d) as (c & B & E').
  exists b, c. split; [exact A|]. split; [exact B|]. intros f2 L2 W D.
  assert (P : forall differ b, (b = true <-> Forall (fun y => differ d y = false) (contents h f1)) -> says (fun fuel => compare_fields fuel differ f2 f1) h b).
  { intros differ b' Eb. destruct (decide h f2 f1 L2 L1 W differ) as (c' & C & _ & Ec). replace b' with c'; [exact C|].
    assert (X : Forall2 (fun x y => differ x y = false) (contents h f2) (contents h f1) <-> Forall (fun y => differ d y = false) (contents h f1)).
    { pose proof (contents_len h f2 f1 W) as LL. revert D LL. clear. generalize (contents h f2) (contents h f1). induction l as [|x l IH]; intros [|y m] D LL; try discriminate.
      - split; constructor.
      - inversion D as [|? ? D1 D2]; subst. injection LL as LL. specialize (IH m D2 LL). split; intros H; inversion H; subst; constructor; tauto. }
    destruct b', c'; intuition congruence. }
  split; apply P; assumption.
Qed.
(** The default absolute tolerance. *)
Lemma default64 h pow2 f1 error r : ~ is_zero error -> returns (fun fuel => norm64 pow2 false fuel (EField dbl f1)) h r ->
  exists N, forall fuel, (N <= fuel)%nat -> forall f2 d,
    let a := dmul (dmul r error) d_micro in
    run (equal_default64 fuel pow2 f1 f2 error) h = run (equal64 fuel f1 f2 error a) h /\
    run (not_equal_default64 fuel pow2 f1 f2 error) h = run (not_equal64 fuel f1 f2 error a) h /\
    run (scalar_equal_default64 fuel pow2 d f1 error) h = run (scalar_equal64 fuel d f1 error a) h.
Proof.
  intros NZ (N & H). exists N. intros fuel Le f2 d. cbv zeta.
  assert (Q : deqb error d_zero = false).
  { destruct (deqb error d_zero) eqn:E; [|reflexivity]. exfalso. apply NZ. apply eq_same in E. destruct E as (_ & _ & [-> |(A & _ & B & _)]); [split; reflexivity|split; assumption]. }
  assert (R : run (default_abs64 fuel pow2 f1 error) h = RDone h (dmul (dmul r error) d_micro)).
  { unfold default_abs64. rewrite Q. rewrite (run_bind dbl _ _ _ _ _ (H fuel Le)). reflexivity. }
  unfold equal_default64, not_equal_default64, scalar_equal_default64. rewrite !(run_bind dbl _ _ _ _ _ R). repeat split; reflexivity.
Qed.
Lemma default_exact64 h pow2 f1 error : is_zero error -> forall fuel f2 d,
  run (equal_default64 fuel pow2 f1 f2 error) h = run (equal64 fuel f1 f2 error zero) h /\
  run (not_equal_default64 fuel pow2 f1 f2 error) h = run (not_equal64 fuel f1 f2 error zero) h /\
  run (scalar_equal_default64 fuel pow2 d f1 error) h = run (scalar_equal64 fuel d f1 error zero) h.
Proof.
  intros (F & V) fuel f2 d.
  assert (Q : deqb error d_zero = true).
  { apply eq_same. split; [intros ->; discriminate F|]. split; [discriminate|]. right. split; [exact F|]. split; [reflexivity|]. split; [exact V|reflexivity]. }
  assert (R : run (default_abs64 fuel pow2 f1 error) h = RDone h zero).
  { unfold default_abs64. rewrite Q. reflexivity. }
  unfold equal_default64, not_equal_default64, scalar_equal_default64. rewrite !(run_bind dbl _ _ _ _ _ R). repeat split; reflexivity.
Qed.
