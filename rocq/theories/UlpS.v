(** Specification: how many doubles two doubles are apart. *)
From Coq Require Import Reals.
From Verif Require Import Prelude WindowM GhostM FieldM MaskM NeboM RoundM RoundS.
Open Scope R_scope.

(** The values a finite double can have. *)
Definition double_value (r : R) : Prop := exists z : dbl, finite z /\ val z = r.
(** l lists the doubles after a, up to and including b. *)
Definition doubles_from_to (a b : R) (l : list R) : Prop :=
  NoDup l /\ forall r, In r l <-> double_value r /\ a < r <= b.
(** x and y are finite and n doubles apart: going from the smaller to the larger
    one passes n values. *)
Definition doubles_apart (n : nat) (x y : dbl) : Prop :=
  finite x /\ finite y /\ exists l, length l = n /\
    (val x <= val y /\ doubles_from_to (val x) (val y) l \/ val y <= val x /\ doubles_from_to (val y) (val x) l).
Definition ulp_close (ulps : Z) (x y : dbl) : Prop := exists n, doubles_apart n x y /\ (Z.of_nat n <= ulps)%Z.

(** The comparison stops at the first pair that is not close: it answers false
    there, or throws if one of the two is not finite. *)
Inductive verdict (close : dbl -> dbl -> Prop) : list dbl -> list dbl -> option bool -> Prop :=
| v_end : verdict close [] [] (Some true)
| v_close x y l1 l2 r : close x y -> verdict close l1 l2 r -> verdict close (x :: l1) (y :: l2) r
| v_far x y l1 l2 : finite x -> finite y -> ~ close x y -> verdict close (x :: l1) (y :: l2) (Some false)
| v_bad x y l1 l2 : ~ (finite x /\ finite y) -> verdict close (x :: l1) (y :: l2) None.
(** The run that ends that way. *)
Definition ends_with (p : nat -> prog dbl bool) (h : heap dbl) (r : option bool) : Prop :=
  exists N, forall fuel, (N <= fuel)%nat -> run (p fuel) h = match r with Some b => RDone h b | None => RThrow end.
