(** Property C73: files written by write_matlab. *)
From Coq Require Import String Ascii Reals.
From Flocq Require Import Core.
From Verif Require Import Prelude WindowM WindowS GhostM FieldM FieldS MaskM NeboM NeboS IterM IterS RoundM RoundS MatlabM MatlabS MatlabE.
From Verif Require MatlabR.
Open Scope string_scope.
Open Scope Z_scope.

(** C73.  With ghost cells: the file load_<prefix>.m defines a function that returns
    all values of the window in memory order, each to 15 digits.  The field and the rest of
    the memory stay as they are. *)
Theorem C73_all : forall (h : heap dbl) f prefix, live h f -> exists N text ls,
  (forall fuel, (N <= fuel)%nat -> run (write_matlab fuel f prefix true) h = RDone h ("load_" ++ prefix ++ ".m", text)) /\
  file_reads prefix text ls /\ Forall2 written ls (contents h f).
Proof. exact MatlabR.write_matlab_all. Qed.
Print Assumptions C73_all.
(** Without: the values of the interior. *)
Theorem C73_interior : forall (h : heap dbl) f prefix, interior_live h f -> fdisint f = false -> exists N text ls,
  (forall fuel, (N <= fuel)%nat -> run (write_matlab fuel f prefix false) h = RDone h ("load_" ++ prefix ++ ".m", text)) /\
  file_reads prefix text ls /\ Forall2 written ls (interior_contents h f).
Proof. exact MatlabR.write_matlab_interior. Qed.
Print Assumptions C73_interior.
(** A view that cuts into the interior has none: the call throws. *)
Theorem C73_throws : forall (h : heap dbl) f prefix fuel, fdisint f = true -> run (write_matlab fuel f prefix false) h = RThrow.
Proof. exact MatlabR.write_matlab_throws. Qed.
Print Assumptions C73_throws.

(** Limits.  15 digits do not tell all doubles apart. *)
Theorem C73_roundtrip_refuted : exists h1 h2 f, live h1 f /\ live h2 f /\ contents h1 f <> contents h2 f /\
  text_of (run (write_matlab 10 f "x" true) h1) <> None /\
  text_of (run (write_matlab 10 f "x" true) h1) = text_of (run (write_matlab 10 f "x" true) h2).
Proof. exact same_text. Qed.
Print Assumptions C73_roundtrip_refuted.
(** A field without interior cells is read past its end. *)
Theorem C73_empty_refuted : live ehp efld /\ interior_contents ehp efld = [] /\ run (write_matlab 10 efld "x" false) ehp = RUB.
Proof. exact empty_runs_on. Qed.
Print Assumptions C73_empty_refuted.

(** 2.5, -1/3, 2^1000 and -infinity: the hypotheses and the text. *)
Example C73_hyps_met : live (whp wvals) wfld /\ interior_live (whp wvals) wfld /\ fdisint wfld = false /\
  text_of (run (write_matlab 10 wfld "phi" true) (whp wvals)) = Some ("load_phi.m",
    "function x = load_phi()" ++ endl ++ "x = [ 2.50000000000000e+00" ++ endl ++ ", -3.33333333333333e-01" ++ endl
    ++ ", 1.07150860718627e+301" ++ endl ++ ", -inf ];" ++ endl).
Proof. split; [apply wfld_live|]. split; [apply wfld_interior|]. split; [reflexivity|exact wtext]. Qed.
