(** Model of the field comparison functions, structured/FieldComparisons.h,
    for fields in local memory.  Doubles are exact rationals; for the
    *_ulp functions they are their positions among the doubles. *)
From Verif Require Import Prelude WindowM GhostM FieldM MaskM NeboM StencilM LagrangeM IterM.

(** a/b > c.  A zero denominator gives infinity, which is greater, or NaN
    (0/0), which is not. *)
Definition quot_gt (a b c : Qc) : bool :=
  if qc_eqb b 0 then negb (qc_eqb a 0) else qc_ltb c (a / b)%Qc.

(** FieldComparisons.h:159-160, 181-193, 486-487, 501-516: the test made on every pair *)
Definition differ_rel (error error_abs x y : Qc) : bool :=
  let error := qc_abs error in
  if qc_eqb error 0 then negb (qc_eqb x y)
  else quot_gt (qc_abs (x - y)%Qc) (qc_abs x + error_abs)%Qc error.
(** FieldComparisons.h:251-252, 272-283, 563-564, 579-590 *)
Definition differ_abs (error x y : Qc) : bool :=
  let error := qc_abs error in
  if qc_eqb error 0 then negb (qc_eqb x y) else qc_ltb error (qc_abs (x - y)%Qc).

(** FieldComparisons.h:346, 366-377, 644, 659-670.  boost::math::float_distance
    counts the representable values from the first to the second argument:
    with doubles numbered in order, the difference of the numbers. *)
Definition differ_ulp (ulps x y : Z) : bool :=
  if ulps =? 0 then negb (y - x =? 0) else ulps <? Z.abs (y - x).

Section Compare.
Variable V : Type.
(** FieldComparisons.h:145-205, 237-296, 332-391: loop over both fields *)
Definition compare_fields (fuel : nat) (differ : V -> V -> bool) (f1 f2 : field) : prog V bool :=
  if negb (win_eqb (fwin f1) (fwin f2)) then PThrow
  else
    let* if1 := lift (field_cbegin f1) in
    let* iend := lift (field_cend f1) in
    let* if2 := lift (field_cbegin f2) in
    let* r := for_iter fuel if1 iend (true, if2)
      (fun it s => Load (fbuf f1) (icur it) (fun x => Load (fbuf f2) (icur (snd s)) (fun y =>
         Ret (if differ x y then ((false, snd s), true) else ((fst s, it_incr (snd s)), false))))) in
    Ret (fst r).
(** FieldComparisons.h:479-526, 556-600, 637-680: comparison with a scalar.  The
    denominator is computed from the scalar (line 501). *)
Definition compare_scalar (fuel : nat) (differ : V -> V -> bool) (d : V) (f1 : field) : prog V bool :=
  let* if1 := lift (field_cbegin f1) in
  let* iend := lift (field_cend f1) in
  for_iter fuel if1 iend true
    (fun it s => Load (fbuf f1) (icur it) (fun x => Ret (if differ d x then (false, true) else (s, false)))).
(** the field_not_equal functions: return !field_equal(...) *)
Definition negated (p : prog V bool) : prog V bool := let* b := p in Ret (negb b).
End Compare.
Arguments compare_fields {V}. Arguments compare_scalar {V}. Arguments negated {V}.

(** FieldComparisons.h:145-205 *)
Definition field_equal4 (fuel : nat) (f1 f2 : field) (error error_abs : Qc) : prog Qc bool :=
  compare_fields fuel (differ_rel error error_abs) f1 f2.
(** FieldComparisons.h:237-296 *)
Definition field_equal_abs (fuel : nat) (f1 f2 : field) (error : Qc) : prog Qc bool :=
  compare_fields fuel (differ_abs error) f1 f2.

(** FieldComparisons.h:81, 123-128: the default absolute error.  [vsqrt]
    stands for std::sqrt (nebo_norm, NeboReductions.h:458-483). *)
Definition default_abs (fuel : nat) (vsqrt : Qc -> Qc) (f1 : field) (error : Qc) : prog Qc Qc :=
  if qc_eqb error 0 then Ret 0%Qc
  else let* n := nebo_norm Qc Qcplus Qcmult fuel vsqrt (fun a => a * a)%Qc (EField Qc f1) in
       Ret (n * error * (1 / qc_of 1000000))%Qc.
Definition field_equal3 (fuel : nat) (vsqrt : Qc -> Qc) (f1 f2 : field) (error : Qc) : prog Qc bool :=
  let* a := default_abs fuel vsqrt f1 error in field_equal4 fuel f1 f2 error a.

(** FieldComparisons.h:79-83, 100-103, 220-223: negations *)
Definition field_not_equal4 fuel f1 f2 error error_abs := negated (field_equal4 fuel f1 f2 error error_abs).
Definition field_not_equal3 fuel vsqrt f1 f2 error :=
  let* a := default_abs fuel vsqrt f1 error in negated (field_equal4 fuel f1 f2 error a).
Definition field_not_equal_abs fuel f1 f2 error := negated (field_equal_abs fuel f1 f2 error).

(** FieldComparisons.h:413-600 *)
Definition scalar_equal4 (fuel : nat) (d : Qc) (f1 : field) (error error_abs : Qc) : prog Qc bool :=
  compare_scalar fuel (differ_rel error error_abs) d f1.
Definition scalar_equal_abs (fuel : nat) (d : Qc) (f1 : field) (error : Qc) : prog Qc bool :=
  compare_scalar fuel (differ_abs error) d f1.
Definition scalar_equal3 (fuel : nat) (vsqrt : Qc -> Qc) (d : Qc) (f1 : field) (error : Qc) : prog Qc bool :=
  let* a := default_abs fuel vsqrt f1 error in scalar_equal4 fuel d f1 error a.
Definition scalar_not_equal4 fuel d f1 error error_abs := negated (scalar_equal4 fuel d f1 error error_abs).
Definition scalar_not_equal_abs fuel d f1 error := negated (scalar_equal_abs fuel d f1 error).
(** FieldComparisons.h:309-391, 614-680 *)
Definition field_equal_ulp (fuel : nat) (f1 f2 : field) (ulps : Z) : prog Z bool := compare_fields fuel (differ_ulp ulps) f1 f2.
Definition scalar_equal_ulp (fuel : nat) (d : Z) (f1 : field) (ulps : Z) : prog Z bool := compare_scalar fuel (differ_ulp ulps) d f1.
Definition field_not_equal_ulp fuel f1 f2 ulps := negated (field_equal_ulp fuel f1 f2 ulps).
Definition scalar_not_equal_ulp fuel d f1 ulps := negated (scalar_equal_ulp fuel d f1 ulps).
