(** Property theorems about field comparison: C44.  [contents h f] lists the
    values of f in iteration order; heaps are unchanged by every call. *)
From Verif Require Import Prelude WindowM WindowS GhostM FieldM FieldS MaskM NeboM NeboS StencilM LagrangeM IterM IterS CompareM CompareS CompareP CompareE.

(** Zero tolerance: exact equality of all values, whatever the absolute
    tolerance; symmetric; field_not_equal is the negation. *)
Theorem C44_exact : forall h f1 f2 vsqrt error_abs, live h f1 -> live h f2 -> fwin f1 = fwin f2 ->
  exists N, forall fuel, (N <= fuel)%nat -> exists b,
    run (field_equal4 fuel f1 f2 0%Qc error_abs) h = RDone h b /\
    run (field_equal4 fuel f2 f1 0%Qc error_abs) h = RDone h b /\
    run (field_equal3 fuel vsqrt f1 f2 0%Qc) h = RDone h b /\
    run (field_not_equal3 fuel vsqrt f1 f2 0%Qc) h = RDone h (negb b) /\
    (b = true <-> contents h f1 = contents h f2).
Proof. exact equal_exact_ok. Qed.
Print Assumptions C44_exact.
Theorem C44_absolute : forall h f1 f2 error t, live h f1 -> live h f2 -> fwin f1 = fwin f2 -> magnitude error t ->
  exists N, forall fuel, (N <= fuel)%nat -> exists b,
    run (field_equal_abs fuel f1 f2 error) h = RDone h b /\
    run (field_equal_abs fuel f2 f1 error) h = RDone h b /\
    run (field_not_equal_abs fuel f1 f2 error) h = RDone h (negb b) /\
    (b = true <-> Forall2 (within t) (contents h f1) (contents h f2)).
Proof. exact equal_abs_ok. Qed.
Print Assumptions C44_absolute.
Theorem C44_relative : forall h f1 f2 error error_abs t, live h f1 -> live h f2 -> fwin f1 = fwin f2 ->
  magnitude error t -> (0 <= error_abs)%Qc ->
  exists N, forall fuel, (N <= fuel)%nat -> exists b,
    run (field_equal4 fuel f1 f2 error error_abs) h = RDone h b /\
    run (field_not_equal4 fuel f1 f2 error error_abs) h = RDone h (negb b) /\
    (b = true <-> Forall2 (within_rel t error_abs) (contents h f1) (contents h f2)).
Proof. exact equal_rel_ok. Qed.
Print Assumptions C44_relative.
(** The default absolute tolerance is the norm of the first field times the
    (signed) error times 1e-6. *)
Theorem C44_default_tolerance : forall n h f1 vsqrt error,
  operands_ok Qc n h (EField Qc f1) -> (exists p, valid_cell n f1 p) -> error <> 0%Qc ->
  exists N p0 rest, lists_in_order (valid_cell n f1) (p0 :: rest) /\ forall fuel, (N <= fuel)%nat ->
    let sq := fun p => (value Qc h f1 p * value Qc h f1 p)%Qc in
    let a := (vsqrt (fold_left Qcplus (map sq rest) (sq p0)) * error * (1 / qc_of 1000000))%Qc in
    (forall f2, run (field_equal3 fuel vsqrt f1 f2 error) h = run (field_equal4 fuel f1 f2 error a) h /\
                run (field_not_equal3 fuel vsqrt f1 f2 error) h = run (field_not_equal4 fuel f1 f2 error a) h) /\
    (forall d, run (scalar_equal3 fuel vsqrt d f1 error) h = run (scalar_equal4 fuel d f1 error a) h).
Proof. exact default_ok. Qed.
Print Assumptions C44_default_tolerance.
Theorem C44_windows_differ : forall h f1 f2, fwin f1 <> fwin f2 -> forall fuel error error_abs hz ulps,
  run (field_equal_abs fuel f1 f2 error) h = RThrow /\ run (field_equal4 fuel f1 f2 error error_abs) h = RThrow /\
  run (field_equal_ulp fuel f1 f2 ulps) hz = RThrow.
Proof. exact equal_throws. Qed.
Print Assumptions C44_windows_differ.
Theorem C44_scalar : forall h d f1 error error_abs t, live h f1 -> magnitude error t -> (0 <= error_abs)%Qc ->
  exists N, forall fuel, (N <= fuel)%nat -> exists b c,
    run (scalar_equal_abs fuel d f1 error) h = RDone h b /\ run (scalar_not_equal_abs fuel d f1 error) h = RDone h (negb b) /\
    run (scalar_equal4 fuel d f1 error error_abs) h = RDone h c /\ run (scalar_not_equal4 fuel d f1 error error_abs) h = RDone h (negb c) /\
    (b = true <-> Forall (within t d) (contents h f1)) /\ (c = true <-> Forall (within_rel t error_abs d) (contents h f1)).
Proof. exact scalar_ok. Qed.
Print Assumptions C44_scalar.
(** Values are numbered in the order of the doubles. *)
Theorem C44_ulp : forall (h : heap Z) f1 f2 d ulps, live h f1 -> live h f2 -> fwin f1 = fwin f2 -> 0 <= ulps ->
  exists N, forall fuel, (N <= fuel)%nat -> exists b c,
    run (field_equal_ulp fuel f1 f2 ulps) h = RDone h b /\ run (field_not_equal_ulp fuel f1 f2 ulps) h = RDone h (negb b) /\
    run (scalar_equal_ulp fuel d f1 ulps) h = RDone h c /\ run (scalar_not_equal_ulp fuel d f1 ulps) h = RDone h (negb c) /\
    (b = true <-> Forall2 (fun x y => - ulps <= x - y <= ulps) (contents h f1) (contents h f2)) /\
    (c = true <-> Forall (fun x => - ulps <= x - d <= ulps) (contents h f1)).
Proof. exact ulp_ok. Qed.
Print Assumptions C44_ulp.

(** Relative comparison is not symmetric ... *)
Theorem C44_relative_symmetry_refuted : exists h f1 f2 error, live h f1 /\ live h f2 /\ fwin f1 = fwin f2 /\
  run (field_equal4 10 f1 f2 error 0%Qc) h = RDone h false /\ run (field_equal4 10 f2 f1 error 0%Qc) h = RDone h true.
Proof. exact asym. Qed.
Print Assumptions C44_relative_symmetry_refuted.
(** ... and, although the sign of the error is ignored elsewhere, a negative
    error with the default absolute tolerance calls 0 and 5 equal. *)
Theorem C44_negative_error_refuted : exists h f1 f2 error, live h f1 /\ live h f2 /\ fwin f1 = fwin f2 /\
  contents h f1 = [0; qc_of 4]%Qc /\ contents h f2 = [qc_of 5; qc_of 4] /\
  forall vsqrt, vsqrt (qc_of 16) = qc_of 4 ->
  run (field_equal3 10 vsqrt f1 f2 (- error)%Qc) h = RDone h true /\ run (field_equal3 10 vsqrt f1 f2 error) h = RDone h false.
Proof. exact negerr. Qed.
Print Assumptions C44_negative_error_refuted.

Example C44_hyps_met : live (chp cv1) (cfld 0) /\ live (chp cv1) (cfld 1) /\ fwin (cfld 0) = fwin (cfld 1) /\
  contents (chp cv1) (cfld 0) = [1%Qc; qc_of 5] /\ contents (chp cv1) (cfld 1) = [qc_of 2; qc_of 5] /\
  magnitude (- (1))%Qc 1%Qc /\ within 1%Qc 1%Qc (qc_of 2) /\ ~ within_rel half 0%Qc 1%Qc (qc_of 2).
Proof.
  split; [apply cfld_live|]. split; [apply cfld_live|]. split; [reflexivity|]. split; [reflexivity|]. split; [reflexivity|].
  split; [split; [cbv; discriminate|right; apply Qc_is_canon; reflexivity]|]. split; [split; cbv; discriminate|].
  intros (m & M & W1 & W2). apply magnitude_abs in M. subst m. apply W2. reflexivity.
Qed.
