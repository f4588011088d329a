(** C85: arithmetic of vectors of three ints. *)
From Verif Require Import Prelude WindowM Vec3M Vec3S Vec3P.

(** A program on vectors either has exactly the effect of the same program on
    vectors of integers, all of whose results are ints, or there is no such effect
    and the program is undefined; the names of the vectors may coincide. *)
Theorem C85_program : forall p e,
  (exists e1, vrun e p = Ok e1 /\ forall e', effects e p e' <-> forall n, e' n = e1 n) \/ (vrun e p = UB /\ forall e', ~ effects e p e').
Proof. exact run_effects. Qed.
Print Assumptions C85_program.

(** With an unsigned number (unsigned int or size_t) + and * give the right vector
    whenever its components are ints, also from negative ones, *)
Theorem C85_unsigned : forall n o v s, n = 32 \/ n = 64 -> 0 <= s < 2 ^ n -> o = OAdd \/ o = OMul ->
  forall w, (forall k, value_of o (comp v k) s (comp w k) /\ is_int (comp w k)) -> unum_op n o v s = Ok w.
Proof. exact unsigned_spec. Qed.
Print Assumptions C85_unsigned.
(** and / does if no component is negative. *)
Theorem C85_unsigned_div : forall n v s, n = 32 \/ n = 64 -> 0 < s < 2 ^ n -> (forall k, 0 <= comp v k /\ is_int (comp v k)) ->
  forall w, (forall k, value_of ODiv (comp v k) s (comp w k)) -> unum_op n ODiv v s = Ok w.
Proof. exact unsigned_div. Qed.
Print Assumptions C85_unsigned_div.
(** Otherwise it does not: -3 / 2 should be -1. *)
Theorem C85_unsigned_div_refuted :
  value_of ODiv (-3) 2 (-1) /\ num_op ODiv (IV (-3) 4 6) 2 = Ok (IV (-1) 2 3) /\
  unum_op 32 ODiv (IV (-3) 4 6) 2 = Ok (IV 2147483646 2 3) /\ unum_op 64 ODiv (IV (-3) 4 6) 2 = Ok (IV (-2) 2 3).
Proof. cbn [value_of]. repeat split; discriminate. Qed.
Print Assumptions C85_unsigned_div_refuted.

(** sum() adds from the left, *)
Theorem C85_sum : forall v s, vec_sum v = Ok s <-> s = ix v + iy v + iz v /\ is_int (ix v + iy v) /\ is_int s.
Proof. exact sum_spec. Qed.
Print Assumptions C85_sum.
(** so it may be undefined although the sum is an int. *)
Theorem C85_sum_refuted : vec_sum (IV 2147483647 1 (-1)) = UB /\ is_int (2147483647 + 1 + -1).
Proof. split; [reflexivity|unfold is_int; lia]. Qed.
Print Assumptions C85_sum_refuted.

(** == holds for equal vectors only, and != is its opposite. *)
Theorem C85_equal : forall v w, (vec_eq v w = true <-> v = w) /\ vec_neq v w = negb (vec_eq v w).
Proof. exact eq_spec. Qed.
Print Assumptions C85_equal.
(** min(v,w) is the largest vector below both. *)
Theorem C85_min : forall v w u, (forall k, comp u k <= comp (vec_min v w) k) <-> (forall k, comp u k <= comp v k /\ comp u k <= comp w k).
Proof. exact min_spec. Qed.
Print Assumptions C85_min.

Example C85_hyps_met :
  (match vrun (fun _ => IV 0 0 0) [VMake 0 7 (-7) 5; VMake 1 2 2 (-3); VOp ODiv 2 0 1; VAddTo 0 0; VSubFrom 0 1; VNum OMul 1 0 3] with
   | Ok e => e 2%nat = IV 3 (-3) (-1) /\ e 0%nat = IV 12 (-16) 13 /\ e 1%nat = IV 36 (-48) 39
   | _ => False
   end) /\
  vrun (fun _ => IV 0 0 0) [VMake 0 2147483647 0 0; VAddTo 0 0] = UB /\
  unum_op 64 OMul (IV (-3) 4 6) 2 = Ok (IV (-6) 8 12) /\ unum_op 32 ODiv (IV 3 4 7) 2 = Ok (IV 1 2 3) /\
  vec_sum (IV 1 2 3) = Ok 6 /\ vec_min (IV 1 5 3) (IV 2 4 3) = IV 1 4 3.
Proof. vm_compute. repeat split. Qed.
