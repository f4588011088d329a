(** Model of vectors of three ints (IntVec): arithmetic of C++ with 32-bit int,
    where a result that does not fit is undefined behaviour. *)
From Verif Require Import Prelude WindowM.

(** An int, or undefined behaviour *)
Definition int32 (z : Z) : outcome Z := if (- 2 ^ 31 <=? z) && (z <? 2 ^ 31) then Ok z else UB.
(** Conversion of an unsigned number to int: modulo 2^32 (every compiler that
    builds the library does so) *)
Definition to_int32 (z : Z) : Z := (z + 2 ^ 31) mod 2 ^ 32 - 2 ^ 31.

Inductive vop := OAdd | OSub | OMul | ODiv.
Definition int_op (o : vop) (a b : Z) : outcome Z :=
  match o with
  | OAdd => int32 (a + b)
  | OSub => int32 (a - b)
  | OMul => int32 (a * b)
  | ODiv => if b =? 0 then UB else int32 (Z.quot a b)
  end.
(** An int and an unsigned number of n bits (n = 32: unsigned int, 64: size_t): both
    become unsigned, and the constructor's parameter turns the result into an int. *)
Definition uns_op (n : Z) (o : vop) (a b : Z) : outcome Z :=
  let a := a mod 2 ^ n in
  match o with
  | OAdd => Ok (to_int32 ((a + b) mod 2 ^ n))
  | OSub => Ok (to_int32 ((a - b) mod 2 ^ n))
  | OMul => Ok (to_int32 ((a * b) mod 2 ^ n))
  | ODiv => if b =? 0 then UB else Ok (to_int32 (a / b))
  end.

(** Numeric3Vec.h:93-112 (operators +, -, *, / of two vectors) *)
Definition vec_op (o : vop) (v w : ivec) : outcome ivec :=
  do x <- int_op o (ix v) (ix w); do y <- int_op o (iy v) (iy w); do z <- int_op o (iz v) (iz w); Ok (IV x y z).
(** Numeric3Vec.h:114-129 (operators +, *, / with a number; there is no -) *)
Definition num_op (o : vop) (v : ivec) (s : Z) : outcome ivec :=
  do x <- int_op o (ix v) s; do y <- int_op o (iy v) s; do z <- int_op o (iz v) s; Ok (IV x y z).
Definition unum_op (n : Z) (o : vop) (v : ivec) (s : Z) : outcome ivec :=
  do x <- uns_op n o (ix v) s; do y <- uns_op n o (iy v) s; do z <- uns_op n o (iz v) s; Ok (IV x y z).
(** Numeric3Vec.h:144-146 (sum) *)
Definition vec_sum (v : ivec) : outcome Z := do s <- int32 (ix v + iy v); int32 (s + iz v).
(** Numeric3Vec.h:84-89 (== and !=: & and | of truth values) *)
Definition vec_eq (v w : ivec) : bool := (ix v =? ix w) && (iy v =? iy w) && (iz v =? iz w).
Definition vec_neq (v w : ivec) : bool := negb (ix v =? ix w) || negb (iy v =? iy w) || negb (iz v =? iz w).
(** IntVec.h:67-71 (min) *)
Definition vec_min (v w : ivec) : ivec :=
  IV (if ix v <? ix w then ix v else ix w) (if iy v <? iy w then iy v else iy w) (if iz v <? iz w then iz v else iz w).

(** Programs on vectors with names; names may coincide. *)
Inductive vstmt := VMake (d : nat) (x y z : Z) | VOp (o : vop) (d a b : nat) | VNum (o : vop) (d a : nat) (s : Z) | VAddTo (d a : nat) | VSubFrom (d a : nat).
Definition venv := nat -> ivec.
Definition vput (e : venv) (d : nat) (v : ivec) : venv := fun n => if Nat.eqb n d then v else e n.
(** Numeric3Vec.h:131-142 (+= and -=): component by component, reading the
    argument again each time *)
Definition vec_upd (o : vop) (e : venv) (d a : nat) : outcome venv :=
  do x <- int_op o (ix (e d)) (ix (e a));
  let e := vput e d (IV x (iy (e d)) (iz (e d))) in
  do y <- int_op o (iy (e d)) (iy (e a));
  let e := vput e d (IV (ix (e d)) y (iz (e d))) in
  do z <- int_op o (iz (e d)) (iz (e a));
  Ok (vput e d (IV (ix (e d)) (iy (e d)) z)).
Definition vstep (e : venv) (s : vstmt) : outcome venv :=
  match s with
  | VMake d x y z => Ok (vput e d (IV x y z))
  | VOp o d a b => do v <- vec_op o (e a) (e b); Ok (vput e d v)
  | VNum o d a s => do v <- num_op o (e a) s; Ok (vput e d v)
  | VAddTo d a => vec_upd OAdd e d a
  | VSubFrom d a => vec_upd OSub e d a
  end.
Fixpoint vrun (e : venv) (p : list vstmt) : outcome venv :=
  match p with [] => Ok e | s :: p => do e1 <- vstep e s; vrun e1 p end.
