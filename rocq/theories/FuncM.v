(** Model of the analytic field functions (FieldFunctions.h).  Simplification:
    double is taken to be the real numbers of the standard library; rounding,
    overflow and NaN are left out.  The constructors that take a patch are not
    modelled: FieldSetter::set (FieldFunctions.h:391-398) assigns to a constant
    parameter, so no program that uses them compiles.  The assertions in
    FieldFunctions.h:202-203 are taken as compiled out. *)
From Coq Require Import Reals.
From Verif Require Import Prelude WindowM GhostM FieldM MaskM NeboM.
Open Scope R_scope.

(** The objects, with the members they store: FieldFunctions.h:229-261
    (LinearFunction1D: m_, b_), 274-296 (SinFunction: a_, b_, base_), 307-333
    (GaussianFunction: a_, b_, xo_, yo_), 354-369 (HyperTanFunction). *)
Inductive ffun :=
| Linear (m b : R) | Sin (a b base : R) | Gaussian (a b xo yo : R) | HyperTan (amplitude width l1 l2 : R).

(** FieldFunctions.h:236-242 *)
Definition linear_function (slope intercept : R) : ffun := Linear slope intercept.
(** FieldFunctions.h:540-551 *)
Definition sin_function (a b c : R) : ffun := Sin a b c.
(** FieldFunctions.h:602-615: the member b_ is twice the square of the argument *)
Definition gaussian_function (a b xo yo : R) : ffun := Gaussian a (2 * b * b) xo yo.
(** FieldFunctions.h:666-679 *)
Definition hypertan_function (amplitude width l1 l2 : R) : ffun := HyperTan amplitude width l1 l2.

(** The operators and functions of Nebo on fields and numbers. *)
Definition num (v : R) : expr R := EScalar R v.
Definition fadd (a b : expr R) : expr R := EOp2 R Rplus a b.
Definition fsub (a b : expr R) : expr R := EOp2 R Rminus a b.
Definition fmul (a b : expr R) : expr R := EOp2 R Rmult a b.
Definition fdiv (a b : expr R) : expr R := EOp2 R Rdiv a b.
Definition fun1 (g : R -> R) (a : expr R) : expr R := EOp1 R g a.

(** -1.0/b * (x-xo)*(x-xo) in FieldFunctions.h:640, 650, 660 *)
Definition gauss_arg (b xo : R) (x : expr R) : expr R :=
  fmul (fmul (num (-1 / b)) (fsub x (num xo))) (fsub x (num xo)).

(** The expression assigned by evaluate: FieldFunctions.h:508-516, 567-574,
    633-641, 681-689. *)
Definition evaluate_rhs (F : ffun) (x : expr R) : expr R :=
  match F with
  | Linear m b => fadd (fmul x (num m)) (num b)
  | Sin a b base => fadd (fmul (num a) (fun1 sin (fmul x (num b)))) (num base)
  | Gaussian a b xo yo => fadd (fmul (num a) (fun1 exp (gauss_arg b xo x))) (num yo)
  | HyperTan A w l1 l2 =>
      fmul (fmul (num (A / 2)) (fadd (num 1) (fun1 tanh (fdiv (fsub x (num l1)) (num w)))))
           (fsub (num 1) (fmul (num (1/2)) (fadd (num 1) (fun1 tanh (fdiv (fsub x (num l2)) (num w))))))
  end.

(** The expression assigned by dx: FieldFunctions.h:518-524, 576-584, 643-651;
    HyperTanFunction inherits the one of FieldFunction1D, 202, which assigns
    nothing. *)
Definition dx_rhs (F : ffun) (x : expr R) : option (expr R) :=
  match F with
  | Linear m b => Some (num m)
  | Sin a b base => Some (fmul (num (a * b)) (fun1 cos (fmul x (num b))))
  | Gaussian a b xo yo =>
      Some (fadd (fmul (fmul (fmul (num (-2 / b)) (fsub x (num xo))) (fsub x (num xo))) (fun1 exp (gauss_arg b xo x))) (num yo))
  | HyperTan _ _ _ _ => None
  end.

(** The same for d2x: FieldFunctions.h:526-532, 586-594, 653-661, 203. *)
Definition d2x_rhs (F : ffun) (x : expr R) : option (expr R) :=
  match F with
  | Linear m b => Some (num 0)
  | Sin a b base => Some (fmul (num (- a * b * b)) (fun1 sin (fmul x (num b))))
  | Gaussian a b xo yo =>
      Some (fmul (fmul (num (-2 / b)) (fmul (num a) (fun1 exp (gauss_arg b xo x))))
                 (fsub (num 1) (fmul (fmul (num (2 / b)) (fsub x (num xo))) (fsub x (num xo)))))
  | HyperTan _ _ _ _ => None
  end.

(** f <<= e *)
Definition fill (fuel : nat) (f : field) (e : expr R) : prog R unit := fst (nebo_assign R Rplus Rmult fuel f e).
Definition fill_if (fuel : nat) (f : field) (e : option (expr R)) : prog R unit :=
  match e with Some e => fill fuel f e | None => Ret tt end.

(** A function object built on the coordinate field x: get_x returns it
    (FieldFunctions.h:205, 414-418, 429-436). *)
Definition evaluate (F : ffun) (x : field) (fuel : nat) (f : field) : prog R unit := fill fuel f (evaluate_rhs F (EField R x)).
Definition dx (F : ffun) (x : field) (fuel : nat) (f : field) : prog R unit := fill_if fuel f (dx_rhs F (EField R x)).
Definition d2x (F : ffun) (x : field) (fuel : nat) (f : field) : prog R unit := fill_if fuel f (d2x_rhs F (EField R x)).
