(** Model of write_matlab (WriteMatlab.h) for fields of double in local memory:
    the name and the text of the file it writes.  Opening and writing the file
    are taken to succeed (the code does not check). *)
From Coq Require Import String Ascii.
From Verif Require Import Prelude WindowM GhostM FieldM MaskM NeboM IterM RoundM.
Open Scope string_scope.
Open Scope Z_scope.

(** ** std::scientific with precision 14 (WriteMatlab.h:45-46)
    One digit, a point, 14 digits, e, a sign, two or three digits.  The C++
    standard leaves the rounding of the last digit to the library; this is the
    nearest decimal, ties to even, as glibc does.  The sign of NaN is not
    modelled. *)
Definition digit (d : Z) : ascii := ascii_of_N (Z.to_N (48 + d)).
(** The last n decimal digits of z. *)
Fixpoint digits (n : nat) (z : Z) : string :=
  match n with O => "" | S n => digits n (z / 10) ++ String (digit (z mod 10)) "" end.
(** 10^k <= N / D *)
Definition reaches (N D k : Z) : bool := if 0 <=? k then 10 ^ k * D <=? N else D <=? N * 10 ^ (- k).
(** The exponent of the first digit of N / D, from k upwards. *)
Fixpoint lead (fuel : nat) (k N D : Z) : Z :=
  match fuel with O => k | S n => if reaches N D (k + 1) then lead n (k + 1) N D else k end.
(** N / D to the nearest integer, ties to even. *)
Definition nearest_int (N D : Z) : Z :=
  let q := N / D in let r := N mod D in
  if 2 * r <? D then q else if D <? 2 * r then q + 1 else if Z.even q then q else q + 1.
(** 15 digits and the exponent of the first *)
Definition to_decimal (N D : Z) : Z * Z :=
  let k := lead 700 (-330) N D in
  let j := k - 14 in
  let q := if 0 <=? j then nearest_int N (D * 10 ^ j) else nearest_int (N * 10 ^ (- j)) D in
  if q =? 10 ^ 15 then (10 ^ 14, k + 1) else (q, k).
Definition exponent (k : Z) : string :=
  (if k <? 0 then "-" else "+") ++ (if Z.abs k <? 100 then digits 2 (Z.abs k) else digits 3 (Z.abs k)).
Definition scientific (q k : Z) : string :=
  digits 1 (q / 10 ^ 14) ++ "." ++ digits 14 (q mod 10 ^ 14) ++ "e" ++ exponent k.
Definition minus_sign (s : bool) : string := if s then "-" else "".
Definition show (x : dbl) : string :=
  match x with
  | B754_nan => "nan"
  | B754_infinity s => minus_sign s ++ "inf"
  | B754_zero s => minus_sign s ++ scientific 0 0
  | B754_finite s m e _ =>
      let '(q, k) := if 0 <=? e then to_decimal (Zpos m * 2 ^ e) 1 else to_decimal (Zpos m) (2 ^ (- e)) in
      minus_sign s ++ scientific q k
  end.

(** std::endl *)
Definition endl : string := String (ascii_of_nat 10) "".
(** WriteMatlab.h:47-54, 56-63: the values from i to iend *)
Definition write_values (fuel : nat) (b : nat) (i iend : iter) : prog dbl string :=
  Load b (icur i) (fun x =>
    let* s := for_iter fuel (it_incr i) iend ("x = [ " ++ show x)
      (fun i s => Load b (icur i) (fun x => Ret (s ++ endl ++ ", " ++ show x, false))) in
    Ret (s ++ " ];" ++ endl)).
(** WriteMatlab.h:38-66.  The name of the file and what is in it. *)
Definition write_matlab (fuel : nat) (f : field) (prefix : string) (includeGhost : bool) : prog dbl (string * string) :=
  let fname := "load_" ++ prefix ++ ".m" in
  let head := "function x = load_" ++ prefix ++ "()" ++ endl in
  let* s := (if includeGhost then
      let* i := lift (field_cbegin f) in
      let* iend := lift (field_cend f) in
      write_values fuel (fbuf f) i iend
    else
      let* i := lift (field_interior_cbegin f) in
      let* iend := lift (field_interior_cend f) in
      write_values fuel (fbuf f) i iend) in
  Ret (fname, head ++ s).
