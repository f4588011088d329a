(** Specification for Lagrange interpolation: sorted tables, polynomials and
    their derivatives. *)
From Verif Require Import Prelude StencilM LagrangeM.

(** Strictly increasing table. *)
Definition increasing (v : list Qc) : Prop :=
  forall i j a b, (i < j)%nat -> nth_error v i = Some a -> nth_error v j = Some b -> (a < b)%Qc.

(** Polynomial with the given coefficients, constant term first. *)
Fixpoint poly (p : list Qc) (x : Qc) : Qc :=
  match p with [] => 0%Qc | a :: p => (a + x * poly p x)%Qc end.
(** Its derivative: coefficient i of the derivative is (i+1) times coefficient i+1. *)
Fixpoint dpoly_from (k : Z) (p : list Qc) : list Qc :=
  match p with [] => [] | a :: p => (qc_of k * a)%Qc :: dpoly_from (k + 1) p end.
Definition dpoly (p : list Qc) : list Qc := match p with [] => [] | _ :: p => dpoly_from 1 p end.

Fixpoint total (l : list Qc) : Qc := match l with [] => 0%Qc | a :: l => (a + total l)%Qc end.
