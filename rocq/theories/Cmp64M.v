(** The comparison functions of FieldComparisons.h on fields of doubles, for fields
    in local memory.  The loops are those of CompareM; the tests are in double
    arithmetic.  The *_ulp functions are in UlpM: they rest on
    boost::math::float_distance. *)
From Verif Require Import Prelude WindowM GhostM FieldM MaskM NeboM IterM RoundM RedM HeatM CompareM.
Open Scope Z_scope.

(** std::abs; x == y is false if one is NaN, and 0 == -0 *)
Definition dabs : dbl -> dbl := Babs.
Definition deqb : dbl -> dbl -> bool := Beqb.
(** the literal .000001 (FieldComparisons.h:28) *)
Definition d_micro : dbl := ddiv d_one (dlit 1000000 0).
Definition d_zero : dbl := dlit 0 0.

(** FieldComparisons.h:159-160, 181-193, 486-487, 501-516: the test made on every pair *)
Definition differ_rel64 (error error_abs x y : dbl) : bool :=
  let error := dabs error in
  if deqb error d_zero then negb (deqb x y)
  else
    let denom := dadd (dabs x) error_abs in
    dltb error (ddiv (dabs (dsub x y)) denom).
(** FieldComparisons.h:251-252, 272-283, 563-564, 579-590 *)
Definition differ_abs64 (error x y : dbl) : bool :=
  let error := dabs error in
  if deqb error d_zero then negb (deqb x y) else dltb error (dabs (dsub x y)).

(** FieldComparisons.h:145-205, 237-296 *)
Definition equal64 (fuel : nat) (f1 f2 : field) (error error_abs : dbl) : prog dbl bool :=
  compare_fields fuel (differ_rel64 error error_abs) f1 f2.
Definition equal_abs64 (fuel : nat) (f1 f2 : field) (error : dbl) : prog dbl bool :=
  compare_fields fuel (differ_abs64 error) f1 f2.
(** FieldComparisons.h:123-128: error ? nebo_norm(f1)*error*.000001 : 0 *)
Definition default_abs64 (fuel : nat) (pow2 : dbl -> dbl) (f1 : field) (error : dbl) : prog dbl dbl :=
  if deqb error d_zero then Ret d_zero
  else let* n := norm64 pow2 false fuel (EField dbl f1) in Ret (dmul (dmul n error) d_micro).
Definition equal_default64 (fuel : nat) (pow2 : dbl -> dbl) (f1 f2 : field) (error : dbl) : prog dbl bool :=
  let* a := default_abs64 fuel pow2 f1 error in equal64 fuel f1 f2 error a.
(** FieldComparisons.h:79-83, 100-103, 220-223 *)
Definition not_equal64 fuel f1 f2 error error_abs := negated (equal64 fuel f1 f2 error error_abs).
Definition not_equal_abs64 fuel f1 f2 error := negated (equal_abs64 fuel f1 f2 error).
Definition not_equal_default64 fuel pow2 f1 f2 error :=
  let* a := default_abs64 fuel pow2 f1 error in negated (equal64 fuel f1 f2 error a).
(** FieldComparisons.h:413-600 *)
Definition scalar_equal64 (fuel : nat) (d : dbl) (f1 : field) (error error_abs : dbl) : prog dbl bool :=
  compare_scalar fuel (differ_rel64 error error_abs) d f1.
Definition scalar_equal_abs64 (fuel : nat) (d : dbl) (f1 : field) (error : dbl) : prog dbl bool :=
  compare_scalar fuel (differ_abs64 error) d f1.
Definition scalar_equal_default64 (fuel : nat) (pow2 : dbl -> dbl) (d : dbl) (f1 : field) (error : dbl) : prog dbl bool :=
  let* a := default_abs64 fuel pow2 f1 error in scalar_equal64 fuel d f1 error a.
