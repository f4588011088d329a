(** Specification of the particle operators: overlap of intervals. *)
From Verif Require Import Prelude WindowM GhostM FieldM MaskM NeboM StencilM LagrangeM IterM IterS.
Local Open Scope Qc_scope.

Definition qmin (a b : Qc) : Qc := if Qclt_le_dec a b then a else b.
Definition qmax (a b : Qc) : Qc := if Qclt_le_dec a b then b else a.
(** Length of the common part of [a,b] and [c,d]. *)
Definition overlap (a b c d : Qc) : Qc := qmax 0 (qmin b d - qmax a c).
Definition qsum (l : list Qc) : Qc := fold_right Qcplus 0 l.

(** A particle: position of its centre, size, value. *)
Definition particle : Type := Qc * Qc * Qc.
Definition p_left (p : particle) : Qc := let '(x, s, v) := p in x - s / qc_of 2.
Definition p_right (p : particle) : Qc := let '(x, s, v) := p in x + s / qc_of 2.
Definition p_size (p : particle) : Qc := let '(x, s, v) := p in s.
Definition p_value (p : particle) : Qc := let '(x, s, v) := p in v.
(** The particles described by three fields. *)
Definition particles (h : heap Qc) (pcoord psize src : field) : list particle :=
  combine (combine (contents h pcoord) (contents h psize)) (contents h src).

(** Cell number k of a mesh with spacing dx whose first cell lies just below
    0: [(k-1) dx, k dx]; its centre is (k - 1/2) dx. *)
Definition covered (dx : Qc) (p : particle) (k : Z) : Qc :=
  overlap (p_left p) (p_right p) (qc_of (k - 1) * dx) (qc_of k * dx).
Definition centre (dx : Qc) (k : Z) : Qc := (qc_of k - half) * dx.

(** Neighbouring coordinates differ by dx up to the given fraction of dx. *)
Definition uniform (tol dx : Qc) (coords : list Qc) : Prop :=
  forall k a b, nth_error coords k = Some a -> nth_error coords (S k) = Some b ->
  dx - (b - a) <= tol * dx /\ (b - a) - dx <= tol * dx.
