(** Model of the point operators, pointfield/PointOperators.h, on local memory. *)
From Verif Require Import Prelude WindowM GhostM FieldM MaskM NeboM StencilM LagrangeM IterM.

(** PointOperators.h:96-103, 132-139: constructors from a field; i counts the
    iterations *)
Definition collect_indices (fuel : nat) (locs : field) : prog Qc (list Z) :=
  let* ii := lift (field_cbegin locs) in
  let* ie := lift (field_cend locs) in
  let* r := for_iter fuel ii ie (0, [])
    (fun it s => Load (fbuf locs) (icur it) (fun v =>
       Ret ((fst s + 1, if qc_eqb v 0 then snd s else snd s ++ [fst s]), false))) in
  Ret (snd r).

(** indices_[i] of a std::vector *)
Definition index_of (idx : list Z) (i : Z) : prog Qc Z :=
  if i <? 0 then PUB else match nth_error idx (Z.to_nat i) with Some j => Ret j | None => PUB end.

(** PointOperators.h:107-120 (PointToField::apply_to_field).  The assertion at
    the end (number of points) exists in debug builds only and is left out. *)
Definition point_to_field (fuel : nat) (idx : list Z) (src dest : field) : prog Qc unit :=
  let* isrc := lift (field_cbegin src) in
  let* isrce := lift (field_cend src) in
  let* r := for_iter fuel isrc isrce 0
    (fun it i => let* j := index_of idx i in
                 Load (fbuf src) (icur it) (fun v =>
                 let* _ := set_elem dest j v in Ret (i + 1, false))) in
  Ret tt.

(** PointOperators.h:143-156 (FieldToPoint::apply_to_field) *)
Definition field_to_point (fuel : nat) (idx : list Z) (src dest : field) : prog Qc unit :=
  let* idest := lift (field_begin dest) in
  let* ideste := lift (field_end dest) in
  let* r := for_iter fuel idest ideste 0
    (fun it i => let* j := index_of idx i in
                 let* v := get_elem src j in
                 Store (fbuf dest) (icur it) v (Ret (i + 1, false))) in
  Ret tt.
