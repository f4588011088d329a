(** Loops over field iterators, and direct access to field elements. *)
From Verif Require Import Prelude WindowM GhostM FieldM MaskM NeboM.

Section Iter.
Variable V : Type.

(** for( ; it!=e; ++it ) body.  The body gets the iterator and the values it
    changes; it returns them and whether it left the loop with break. *)
Fixpoint for_iter {S} (fuel : nat) (it e : iter) (s : S) (body : iter -> S -> prog V (S * bool)) : prog V S :=
  if it_eqb it e then Ret s
  else match fuel with
       | O => PFuel
       | Datatypes.S n => let* r := body it s in
                if snd r then Ret (fst r) else for_iter n (it_incr it) e (fst r) body
       end.

(** SpatialField.h:1363-1390, 1400-1418 (operator[] on local memory): element i
    of the block.  The non-const version refuses read-only fields. *)
Definition get_elem (f : field) (i : Z) : prog V V := Load (fbuf f) i (@Ret V V).
Definition set_elem (f : field) (i : Z) (v : V) : prog V unit :=
  if freadonly f then PThrow else Store (fbuf f) i v (Ret tt).

(** SpatialField.h:1277-1309, 1334-1359 (operator()(IntVec), release build) *)
Definition get_at (f : field) (p : ivec) : prog V V := Load (fbuf f) (flat_index (fwin f) p) (@Ret V V).
Definition set_at (f : field) (p : ivec) (v : V) : prog V unit :=
  if freadonly f then PThrow else Store (fbuf f) (flat_index (fwin f) p) v (Ret tt).
(** SpatialField.h:1288-1296, 1339-1343: the assertions of the debug build.
    The conversion to size_t turns negative coordinates into huge ones, so
    they fail the comparison with the extent. *)
Definition index_asserts (f : field) (p : ivec) : bool :=
  (0 <=? ix p) && (ix p <? ix (wext (fwin f))) && (ix (woff (fwin f)) <=? ix p) &&
  (0 <=? iy p) && (iy p <? iy (wext (fwin f))) && (iy (woff (fwin f)) <=? iy p) &&
  (0 <=? iz p) && (iz p <? iz (wext (fwin f))) && (iz (woff (fwin f)) <=? iz p).

(** SpatialField.h:1422-1450 (operator=, both fields in local memory): refuse
    read-only targets and different windows; nothing to do if the storage is
    the same; otherwise std::copy of the whole block. *)
Fixpoint copy_elems (src dst : nat) (i : Z) (n : nat) : prog V unit :=
  match n with
  | O => Ret tt
  | Datatypes.S n => Load src i (fun v => Store dst i v (copy_elems src dst (i + 1) n))
  end.
Definition field_copy_assign (f other : field) : prog V unit :=
  if freadonly f then PThrow
  else if negb (win_eqb (fwin f) (fwin other)) then PThrow
  else if Nat.eqb (fbuf f) (fbuf other) then Ret tt
  else copy_elems (fbuf other) (fbuf f) 0 (Z.to_nat (glob_npts (fwin other))).
End Iter.
Arguments for_iter {V S}. Arguments get_elem {V}. Arguments set_elem {V}.
Arguments get_at {V}. Arguments set_at {V}. Arguments copy_elems {V}. Arguments field_copy_assign {V}.
