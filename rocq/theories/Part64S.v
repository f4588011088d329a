(** Specification of the particle operators in double precision: positions are
    real numbers, and a particle is the interval around its position. *)
From Coq Require Import Reals.
From Verif Require Import Prelude WindowM GhostM FieldM MaskM NeboM IterM IterS RoundM RoundS RedM HeatM Cmp64M NeboS BCS.
Open Scope R_scope.

(** Position, size and value of each particle, as three fields describe them. *)
Definition particle64 : Type := dbl * dbl * dbl.
Definition position (p : particle64) : dbl := fst (fst p).
Definition size (p : particle64) : dbl := snd (fst p).
Definition amount (p : particle64) : dbl := snd p.
Definition particles64 (h : heap dbl) (pcoord psize src : field) : list particle64 :=
  combine (combine (contents h pcoord) (contents h psize)) (contents h src).
(** The ends of the particle. *)
Definition lower_end (p : particle64) : R := val (position p) - val (size p) / 2.
Definition upper_end (p : particle64) : R := val (position p) + val (size p) / 2.
(** Length of the common part of [a,b] and [c,d]. *)
Definition common (a b c d : R) : R := Rmax 0 (Rmin b d - Rmax a c).
(** The part of the particle inside cell k = [(k-1) w, k w], between 0 and 1. *)
Definition share (w : R) (p : particle64) (k : Z) : R :=
  common (lower_end p) (upper_end p) (IZR (k - 1) * w) (IZR k * w) / val (size p).
(** The coordinates are those of the centres (k - 1/2) w up to delta. *)
Definition centred (delta w : R) (l : list dbl) : Prop :=
  forall k c, nth_error l k = Some c -> finite c /\ Rabs (val c - (INR k - / 2) * w) <= delta.
(** The uncertainty of a position on a mesh of total length B whose coordinates
    are right up to delta. *)
Definition blur (delta B : R) : R := delta + powerRZ 2 (-50) * B.
(** A particle of ordinary magnitude, well larger than the uncertainty, between 0
    and [top]. *)
Definition inside (delta B top : R) (p : particle64) : Prop :=
  finite (position p) /\ finite (size p) /\ powerRZ 2 (-400) <= val (size p) /\ 4 * blur delta B <= val (size p) /\
  0 <= lower_end p /\ upper_end p <= top.
(** Values of ordinary magnitude. *)
Definition ordinary (v : dbl) : Prop :=
  finite v /\ (val v = 0 \/ powerRZ 2 (-400) <= Rabs (val v)) /\ Rabs (val v) <= powerRZ 2 400.
(** Upper end of the last cell, from the coordinate of its centre. *)
Definition mesh_top (w : R) (coords : list dbl) : R := val (last coords NaN) + w / 2.
(** For any doubles: the quotient left/dx can be converted to int, and the particle
    is empty, or its first cell exists and some cell from there on ends at or after
    its right end. *)
Definition reached (dx : dbl) (coords : list dbl) (p : particle64) : Prop :=
  let half_size := ddiv (size p) (dlit 2 0) in
  let left := dsub (position p) half_size in
  let right := dadd (position p) half_size in
  let first := (Btrunc (ddiv left dx) + 1)%Z in
  finite (ddiv left dx) /\ (- 2 ^ 31 < first < 2 ^ 31)%Z /\
  (dltb left right = false \/
   (0 <= first)%Z /\ exists j c, (first <= Z.of_nat j)%Z /\ nth_error coords j = Some c /\
                               dltb (dadd c (ddiv dx (dlit 2 0))) right = false).
(** A mesh of at least two cells of width about dx, of ordinary magnitude, whose
    first cell lies just below 0. *)
Definition mesh64 (delta : R) (dx : dbl) (coords : list dbl) : Prop :=
  finite dx /\ powerRZ 2 (-400) <= val dx /\ INR (length coords) * val dx <= powerRZ 2 400 /\
  (2 <= length coords)%nat /\ INR (length coords) < powerRZ 2 31 /\ 0 <= delta /\ centred delta (val dx) coords.
(** The fields of the two operators: allocated, the same size where they must
    be, the result separate from the others. *)
Definition deposit_fields (n : ivec) (h : heap dbl) (mesh pcoord psize src dest : field) : Prop :=
  live h mesh /\ whole_block mesh /\ live h pcoord /\ live h psize /\ live h src /\ fwin psize = fwin pcoord /\ fwin src = fwin pcoord /\
  destination_ok dbl n h dest /\ finite_ghosts dest /\ live h dest /\ fwin dest = fwin mesh /\
  fbuf mesh <> fbuf dest /\ fbuf pcoord <> fbuf dest /\ fbuf psize <> fbuf dest /\ fbuf src <> fbuf dest.
Definition collect_fields (h : heap dbl) (mesh pcoord psize src dest : field) : Prop :=
  live h mesh /\ whole_block mesh /\ live h pcoord /\ live h psize /\ live h src /\ live h dest /\
  fwin psize = fwin pcoord /\ fwin dest = fwin pcoord /\ fwin src = fwin mesh /\ freadonly dest = false /\
  fbuf mesh <> fbuf dest /\ fbuf pcoord <> fbuf dest /\ fbuf psize <> fbuf dest /\ fbuf src <> fbuf dest.
(** With enough steps the call ends, changes memory of dest only and leaves these
    values there. *)
Definition leaves (f : nat -> prog dbl unit) (h : heap dbl) (dest : field) (P : list dbl -> Prop) : Prop :=
  exists K, forall fuel, (K <= fuel)%nat -> exists h', run (f fuel) h = RDone h' tt /\
    differs_only h h' (fun b i => b = fbuf dest) /\ P (contents h' dest).
(** The spacings a constructor accepts, in machine arithmetic. *)
Definition even64 (dx : dbl) (coords : list dbl) : Prop :=
  forall k a b, nth_error coords k = Some a -> nth_error coords (S k) = Some b ->
  dltb d_micro (ddiv (dabs (dsub dx (dsub b a))) dx) = false.
