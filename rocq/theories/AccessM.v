(** Setting the values of a field from an array. *)
From Verif Require Import Prelude WindowM GhostM FieldM MaskM NeboM IterM.

(** SpatialField.h:759-775 (reset_values, local memory).  [values] is NULL or a
    pointer: a block and an index.  0.0 is [zero]. *)
Definition reset_values {V} (zero : V) (fuel : nat) (f : field) (values : option (nat * Z)) : prog V unit :=
  let* it := lift (field_begin f) in
  let* e := lift (field_end f) in
  match values with
  | None => for_iter fuel it e tt (fun it _ => Store (fbuf f) (icur it) zero (Ret (tt, false)))
  | Some (b, i) =>
      let* _ := for_iter fuel it e i (fun it j =>
        Load b j (fun v => Store (fbuf f) (icur it) v (Ret ((j + 1), false)))) in Ret tt
  end.

(** SpatialField.h:1277-1309 with the assertions of the debug build: an
    assertion that fails aborts the program, shown as UB. *)
Definition get_at_debug {V} (f : field) (p : ivec) : prog V V :=
  if index_asserts f p then get_at f p else PUB.
