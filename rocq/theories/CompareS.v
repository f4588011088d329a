(** Specification of field comparison: closeness of two values. *)
From Verif Require Import Prelude StencilM.
Local Open Scope Qc_scope.

(** t is the magnitude of a *)
Definition magnitude (a t : Qc) : Prop := 0 <= t /\ (t = a \/ t = - a).
(** x and y are at most t apart *)
Definition within (t x y : Qc) : Prop := x - y <= t /\ y - x <= t.
(** ... relative to the magnitude of x plus a *)
Definition within_rel (t a x y : Qc) : Prop := exists m, magnitude x m /\ within (t * (m + a)) x y.
