(** Reductions of fields of doubles. *)
From Verif Require Import Prelude WindowM GhostM FieldM MaskM NeboM RoundM.

(** operator< of double: false if one side is NaN *)
Definition dltb : dbl -> dbl -> bool := Bltb.
(** std::sqrt, rounded as IEEE-754 asks *)
Definition dsqrt : dbl -> dbl := @Bsqrt 53 1024 d_prec d_emax mode_NE.

(** NeboReductions.h:366-483, with the element type double; [interior] selects
    the function whose name ends in _interior.  [pow2] stands for std::pow(x, 2.0)
    (NeboOperators.h:4932), which IEEE-754 does not determine. *)
Definition sum64 (interior : bool) (fuel : nat) (e : expr dbl) : prog dbl dbl :=
  if interior then nebo_sum_interior dbl dadd dmul fuel e else nebo_sum dbl dadd dmul fuel e.
Definition max64 (interior : bool) (fuel : nat) (e : expr dbl) : prog dbl dbl :=
  if interior then nebo_max_interior dbl dadd dmul fuel dltb e else nebo_max dbl dadd dmul fuel dltb e.
Definition min64 (interior : bool) (fuel : nat) (e : expr dbl) : prog dbl dbl :=
  if interior then nebo_min_interior dbl dadd dmul fuel dltb e else nebo_min dbl dadd dmul fuel dltb e.
Definition norm64 (pow2 : dbl -> dbl) (interior : bool) (fuel : nat) (e : expr dbl) : prog dbl dbl :=
  if interior then nebo_norm_interior dbl dadd dmul fuel dsqrt pow2 e else nebo_norm dbl dadd dmul fuel dsqrt pow2 e.
