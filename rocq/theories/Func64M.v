(** Model of the analytic field functions (FieldFunctions.h) in double precision:
    IEEE-754 binary64, rounding to nearest even after every operation.  As FuncM
    otherwise: the constructors that take a patch do not compile. *)
From Verif Require Import Prelude WindowM GhostM FieldM MaskM NeboM RoundM HeatM.

(** The functions of the C library that Nebo applies cell by cell. *)
Record libm := Libm { l_sin : dbl -> dbl; l_cos : dbl -> dbl; l_exp : dbl -> dbl; l_tanh : dbl -> dbl }.

(** The objects, with the members they store: FieldFunctions.h:229-261
    (LinearFunction1D: m_, b_), 274-296 (SinFunction: a_, b_, base_), 307-333
    (GaussianFunction: a_, b_, xo_, yo_), 354-369 (HyperTanFunction). *)
Inductive ffun64 :=
| Linear64 (m b : dbl) | Sin64 (a b base : dbl) | Gaussian64 (a b xo yo : dbl) | HyperTan64 (amplitude width l1 l2 : dbl).

(** the literal 2, -1.0 and -2 *)
Definition f_two : dbl := dlit 2 0.
Definition f_m1 : dbl := dopp (dlit 1 0).
Definition f_m2 : dbl := dopp (dlit 2 0).

(** FieldFunctions.h:236-242 *)
Definition linear_function64 (slope intercept : dbl) : ffun64 := Linear64 slope intercept.
(** FieldFunctions.h:540-551 *)
Definition sin_function64 (a b c : dbl) : ffun64 := Sin64 a b c.
(** FieldFunctions.h:602-615: the member b_ is 2.0*b*b *)
Definition gaussian_function64 (a b xo yo : dbl) : ffun64 := Gaussian64 a (dmul (dmul f_two b) b) xo yo.
(** FieldFunctions.h:666-679 *)
Definition hypertan_function64 (amplitude width l1 l2 : dbl) : ffun64 := HyperTan64 amplitude width l1 l2.

(** The operators and functions of Nebo on fields and numbers. *)
Definition num64 (v : dbl) : expr dbl := EScalar dbl v.
Definition fadd64 (a b : expr dbl) : expr dbl := EOp2 dbl dadd a b.
Definition fsub64 (a b : expr dbl) : expr dbl := EOp2 dbl dsub a b.
Definition fmul64 (a b : expr dbl) : expr dbl := EOp2 dbl dmul a b.
Definition fdiv64 (a b : expr dbl) : expr dbl := EOp2 dbl ddiv a b.
Definition fun64 (g : dbl -> dbl) (a : expr dbl) : expr dbl := EOp1 dbl g a.

(** -1.0/b * (x-xo)*(x-xo) in FieldFunctions.h:640, 650, 660 *)
Definition gauss_arg64 (b xo : dbl) (x : expr dbl) : expr dbl :=
  fmul64 (fmul64 (num64 (ddiv f_m1 b)) (fsub64 x (num64 xo))) (fsub64 x (num64 xo)).

(** The expression assigned by evaluate: FieldFunctions.h:508-516, 567-574,
    633-641, 681-689. *)
Definition evaluate_rhs64 (M : libm) (F : ffun64) (x : expr dbl) : expr dbl :=
  match F with
  | Linear64 m b => fadd64 (fmul64 x (num64 m)) (num64 b)
  | Sin64 a b base => fadd64 (fmul64 (num64 a) (fun64 (l_sin M) (fmul64 x (num64 b)))) (num64 base)
  | Gaussian64 a b xo yo => fadd64 (fmul64 (num64 a) (fun64 (l_exp M) (gauss_arg64 b xo x))) (num64 yo)
  | HyperTan64 A w l1 l2 =>
      fmul64 (fmul64 (num64 (ddiv A f_two))
                     (fadd64 (num64 d_one) (fun64 (l_tanh M) (fdiv64 (fsub64 x (num64 l1)) (num64 w)))))
             (fsub64 (num64 d_one)
                     (fmul64 (num64 d_half)
                             (fadd64 (num64 d_one) (fun64 (l_tanh M) (fdiv64 (fsub64 x (num64 l2)) (num64 w))))))
  end.

(** The expression assigned by dx: FieldFunctions.h:518-524, 576-584, 643-651;
    HyperTanFunction inherits the one of FieldFunction1D, 202, which assigns
    nothing. *)
Definition dx_rhs64 (M : libm) (F : ffun64) (x : expr dbl) : option (expr dbl) :=
  match F with
  | Linear64 m b => Some (num64 m)
  | Sin64 a b base => Some (fmul64 (num64 (dmul a b)) (fun64 (l_cos M) (fmul64 x (num64 b))))
  | Gaussian64 a b xo yo =>
      Some (fadd64 (fmul64 (fmul64 (fmul64 (num64 (ddiv f_m2 b)) (fsub64 x (num64 xo))) (fsub64 x (num64 xo)))
                           (fun64 (l_exp M) (gauss_arg64 b xo x))) (num64 yo))
  | HyperTan64 _ _ _ _ => None
  end.

(** The same for d2x: FieldFunctions.h:526-532, 586-594, 653-661, 203. *)
Definition d2x_rhs64 (M : libm) (F : ffun64) (x : expr dbl) : option (expr dbl) :=
  match F with
  | Linear64 m b => Some (num64 (dlit 0 0))
  | Sin64 a b base => Some (fmul64 (num64 (dmul (dmul (dopp a) b) b)) (fun64 (l_sin M) (fmul64 x (num64 b))))
  | Gaussian64 a b xo yo =>
      Some (fmul64 (fmul64 (num64 (ddiv f_m2 b)) (fmul64 (num64 a) (fun64 (l_exp M) (gauss_arg64 b xo x))))
                   (fsub64 (num64 d_one) (fmul64 (fmul64 (num64 (ddiv f_two b)) (fsub64 x (num64 xo))) (fsub64 x (num64 xo)))))
  | HyperTan64 _ _ _ _ => None
  end.

(** f <<= e *)
Definition fill64 (fuel : nat) (f : field) (e : expr dbl) : prog dbl unit := fst (nebo_assign dbl dadd dmul fuel f e).
Definition fill_if64 (fuel : nat) (f : field) (e : option (expr dbl)) : prog dbl unit :=
  match e with Some e => fill64 fuel f e | None => Ret tt end.

(** A function object built on the coordinate field x: get_x returns it
    (FieldFunctions.h:205, 414-418, 429-436). *)
Definition evaluate64 (M : libm) (F : ffun64) (x : field) (fuel : nat) (f : field) : prog dbl unit :=
  fill64 fuel f (evaluate_rhs64 M F (EField dbl x)).
Definition dx64 (M : libm) (F : ffun64) (x : field) (fuel : nat) (f : field) : prog dbl unit :=
  fill_if64 fuel f (dx_rhs64 M F (EField dbl x)).
Definition d2x64 (M : libm) (F : ffun64) (x : field) (fuel : nat) (f : field) : prog dbl unit :=
  fill_if64 fuel f (d2x_rhs64 M F (EField dbl x)).
