(** Specification for write_matlab: how the file is read. *)
From Coq Require Import String Ascii Reals.
From Flocq Require Import Core.
From Verif Require Import Prelude WindowM WindowS GhostM FieldM FieldS MaskM NeboM NeboS IterS RoundM RoundS.
Open Scope string_scope.
Open Scope Z_scope.

(** A literal: plus or minus m * 10^e, an infinity, or not a number. *)
Inductive literal := Dec (neg : bool) (m e : Z) | Infinite (neg : bool) | NotANumber.

Definition digit_value (c : ascii) : option Z :=
  let n := Z.of_nat (nat_of_ascii c) in if (48 <=? n) && (n <=? 57) then Some (n - 48) else None.
(** The longest run of digits, appended to the number [acc]; [n] counts them. *)
Fixpoint read_digits (s : string) (acc n : Z) : Z * Z * string :=
  match s with
  | String c s' => match digit_value c with Some d => read_digits s' (10 * acc + d) (n + 1) | None => (acc, n, s) end
  | "" => (acc, n, "")
  end.
Definition strip (c : ascii) (s : string) : option string :=
  match s with String d s' => if Ascii.eqb c d then Some s' else None | "" => None end.
(** Integer part, optional fraction, optional exponent. *)
Definition read_unsigned (s : string) (neg : bool) : option (literal * string) :=
  let '(m, n, s1) := read_digits s 0 0 in
  if n =? 0 then None else
  let '(m, f, s2) := match strip "." s1 with Some s => read_digits s m 0 | None => (m, 0, s1) end in
  match strip "e" s2 with
  | None => Some (Dec neg m (- f), s2)
  | Some s3 =>
      let '(eneg, s4) := match strip "-" s3 with Some s => (true, s) | None => (false, match strip "+" s3 with Some s => s | None => s3 end) end in
      let '(e, n, s5) := read_digits s4 0 0 in
      if n =? 0 then None else Some (Dec neg m ((if eneg : bool then - e else e) - f), s5)
  end.
Definition read_literal (s : string) : option (literal * string) :=
  let '(neg, s) := match strip "-" s with Some s => (true, s) | None => (false, s) end in
  match s with
  | String "i" (String "n" (String "f" s)) => Some (Infinite neg, s)
  | String "n" (String "a" (String "n" s)) => Some (NotANumber, s)
  | _ => read_unsigned s neg
  end.
(** Spaces, commas and ends of lines separate literals; ] ends the list. *)
Definition separator (c : ascii) : bool := Ascii.eqb c " " || Ascii.eqb c "," || Ascii.eqb c (ascii_of_nat 10).
Fixpoint read_list (fuel : nat) (s : string) : option (list literal * string) :=
  match fuel with
  | O => None
  | S n =>
      match s with
      | "" => None
      | String c s' =>
          if separator c then read_list n s'
          else if Ascii.eqb c "]" then Some ([], s')
          else match read_literal s with
               | None => None
               | Some (l, s1) => match read_list n s1 with Some (ls, s2) => Some (l :: ls, s2) | None => None end
               end
      end
  end.
(** The file defines a function that returns the list. *)
Definition file_reads (prefix text : string) (ls : list literal) : Prop :=
  exists body, text = "function x = load_" ++ prefix ++ "()" ++ String (ascii_of_nat 10) ("x = [" ++ body) /\
    exists fuel, read_list fuel body = Some (ls, ";" ++ String (ascii_of_nat 10) "").

Open Scope R_scope.
(** The number a decimal stands for. *)
Definition dec_value (neg : bool) (m e : Z) : R := (if neg then -1 else 1) * IZR m * powerRZ 10 e.
(** The literal shows x: special values as such, zero as zero with its sign, other
    numbers within half a unit of the 15th digit. *)
Definition shows (l : literal) (x : dbl) : Prop :=
  match x with
  | B754_nan => l = NotANumber
  | B754_infinity s => l = Infinite s
  | B754_zero s => exists e, l = Dec s 0 e
  | B754_finite s _ _ _ => exists m e, l = Dec s m e /\ (10 ^ 14 <= m < 10 ^ 15)%Z /\
      Rabs (dec_value s m e - val x) <= 5 / 10 ^ 15 * Rabs (val x)
  end.

(** If x is the double nearest to a decimal d * 10^j of 15 digits, that decimal is what is read. *)
Definition keeps (l : literal) (x : dbl) : Prop := forall d j, finite x -> (10 ^ 14 <= Z.abs d < 10 ^ 15)%Z -> (-290 <= j <= 290)%Z ->
  val x = round radix2 (FLT_exp (-1074) 53) ZnearestE (IZR d * powerRZ 10 j) -> l = Dec (d <? 0)%Z (Z.abs d) j.
Definition written (l : literal) (x : dbl) : Prop := shows l x /\ keeps l x.

(** The values of the interior, in memory order (x fastest). *)
Definition interior_contents {V} (h : heap V) (f : field) : list V :=
  map (fun p => bdata (h (fbuf f)) (addr (fint f) p)) (box_points (wext (fint f))).
Definition interior_live {V} (h : heap V) (f : field) : Prop :=
  pos_dims (wext (fint f)) /\ fits (fint f) /\ (forall p, in_box (wext (fint f)) p -> bcells (h (fbuf f)) (addr (fint f) p) = true).
