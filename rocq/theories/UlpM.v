(** The *_ulp functions of FieldComparisons.h on fields of doubles in local
    memory.  They differ from the other comparisons in that the test itself can
    throw. *)
From Verif Require Import Prelude WindowM GhostM FieldM MaskM NeboM IterM RoundM CompareM.
Open Scope Z_scope.

(** The number of a finite double when the doubles are numbered in increasing
    order from zero; both zeros are number 0.  With exponent e >= -1074 a normal
    double has its mantissa between 2^52 and 2^53, so every exponent contributes
    2^52 numbers. *)
Definition position (x : dbl) : Z :=
  match x with
  | B754_finite s m e _ => let p := Zpos m + (e + 1074) * 2 ^ 52 in if s then - p else p
  | _ => 0
  end.
(** boost::math::float_distance (a library function, called at
    FieldComparisons.h:368, 373, 661, 666): the number of doubles from the first to
    the second argument; with the default policies it throws std::domain_error
    if one of them is infinite or NaN.  Boost returns a double, which is exact up
    to 2^53 and only compared with an unsigned int; modelled as an integer. *)
Definition float_distance (x y : dbl) : outcome Z :=
  if is_finite x && is_finite y then Ok (position y - position x) else Throw.
(** FieldComparisons.h:346, 366-377, 644, 659-670: does the pair differ? *)
Definition differ_ulp64 (ulps : Z) (x y : dbl) : outcome bool :=
  if ulps =? 0 then do d <- float_distance x y; Ok (negb (d =? 0))
  else do d <- float_distance x y; Ok (ulps <? Z.abs d).

(** FieldComparisons.h:332-391, loop over both fields *)
Definition equal_ulp64 (fuel : nat) (f1 f2 : field) (ulps : Z) : prog dbl bool :=
  if negb (win_eqb (fwin f1) (fwin f2)) then PThrow
  else
    let* if1 := lift (field_cbegin f1) in
    let* iend := lift (field_cend f1) in
    let* if2 := lift (field_cbegin f2) in
    let* r := for_iter fuel if1 iend (true, if2)
      (fun it s => Load (fbuf f1) (icur it) (fun x => Load (fbuf f2) (icur (snd s)) (fun y =>
         let* d := lift (differ_ulp64 ulps x y) in
         Ret (if d then ((false, snd s), true) else ((fst s, it_incr (snd s)), false))))) in
    Ret (fst r).
(** FieldComparisons.h:637-680, comparison with a number *)
Definition scalar_equal_ulp64 (fuel : nat) (d : dbl) (f1 : field) (ulps : Z) : prog dbl bool :=
  let* if1 := lift (field_cbegin f1) in
  let* iend := lift (field_cend f1) in
  for_iter fuel if1 iend true
    (fun it s => Load (fbuf f1) (icur it) (fun x =>
       let* b := lift (differ_ulp64 ulps d x) in Ret (if b then (false, true) else (s, false)))).
(** FieldComparisons.h:309-312, 614-617 *)
Definition not_equal_ulp64 fuel f1 f2 ulps := negated (equal_ulp64 fuel f1 f2 ulps).
Definition scalar_not_equal_ulp64 fuel d f1 ulps := negated (scalar_equal_ulp64 fuel d f1 ulps).
