(** Specification for Lagrange interpolation in double precision: what the exact
    interpolant and its derivative are, over the real numbers. *)
From Coq Require Import Reals.
From Verif Require Import Prelude RoundM RoundS RedM HeatM Cmp64M.
Open Scope R_scope.

(** A strictly increasing table of finite doubles. *)
Definition increasing64 (v : list dbl) : Prop :=
  Forall finite v /\ forall i j a b, (i < j)%nat -> nth_error v i = Some a -> nth_error v j = Some b -> val a < val b.
(** n consecutive entries from number lo. *)
Definition part {T} (lo n : nat) (v : list T) : list T := firstn n (skipn lo v).

(** Polynomial with the given coefficients, constant term first, and its
    derivative: coefficient i of the derivative is (i+1) times coefficient i+1. *)
Fixpoint poly (p : list R) (x : R) : R := match p with [] => 0 | a :: p => a + x * poly p x end.
Fixpoint dpoly_from (k : Z) (p : list R) : list R :=
  match p with [] => [] | a :: p => IZR k * a :: dpoly_from (k + 1) p end.
Definition dpoly (p : list R) : list R := match p with [] => [] | _ :: p => dpoly_from 1 p end.

Fixpoint prodl (f : R -> R) (l : list R) : R := match l with [] => 1 | a :: l => f a * prodl f l end.
Fixpoint suml (f : R -> R) (l : list R) : R := match l with [] => 0 | a :: l => f a + suml f l end.
Definition reqb (a b : R) : bool := if Req_EM_T a b then true else false.
(** The points of w other than xk. *)
Definition others (xk : R) (w : list R) : list R := filter (fun xi => negb (reqb xi xk)) w.
(** Weight of the value at xk in the interpolant through the points w, at x, and
    in its derivative. *)
Definition weight (w : list R) (x xk : R) : R :=
  prodl (fun xi => x - xi) (others xk w) / prodl (fun xi => xk - xi) (others xk w).
Definition dweight (w : list R) (x xk : R) : R :=
  suml (fun xj => prodl (fun xi => x - xi) (others xj (others xk w))) (others xk w) / prodl (fun xi => xk - xi) (others xk w).
(** The weight of the derivative with all terms of its numerator positive. *)
Definition dsize (w : list R) (x xk : R) : R :=
  suml (fun xj => Rabs (prodl (fun xi => x - xi) (others xj (others xk w)))) (others xk w) / Rabs (prodl (fun xi => xk - xi) (others xk w)).
(** Sum over the points of the values ys times their weights. *)
Fixpoint blend (f : R -> R) (w ys : list R) : R :=
  match w, ys with xk :: w, y :: ys => y * f xk + blend f w ys | _, _ => 0 end.

(** Distinct points are at least a and at most b apart. *)
Definition spaced (a b : R) (l : list R) : Prop :=
  forall p q, In p l -> In q l -> p = q \/ a <= Rabs (p - q) <= b.
(** The distances are of ordinary magnitude, and products of n ratios of them are. *)
Definition ratios_ok (a b : R) (n : nat) : Prop :=
  powerRZ 2 (-400) <= a /\ a <= b /\ b <= powerRZ 2 400 /\ (2 * (b / a)) ^ n <= powerRZ 2 900.
(** Products of n distances are of ordinary magnitude. *)
Definition products_ok (a b : R) (n : nat) : Prop :=
  0 < a /\ a <= b /\ powerRZ 2 (-400) <= (a / 2) ^ n /\ (2 * b) ^ n <= powerRZ 2 400.
(** Values of ordinary magnitude. *)
Definition plain (y : dbl) : Prop :=
  finite y /\ (val y = 0 \/ powerRZ 2 (-100) <= Rabs (val y)) /\ Rabs (val y) <= powerRZ 2 100.
