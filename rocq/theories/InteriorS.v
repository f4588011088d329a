(** Specification: views of a field, and when interior iteration makes sense. *)
From Verif Require Import Prelude WindowM WindowS GhostM FieldM.

(** The ways to get from one field object to another on the same storage: a
    view of a window of the block, new valid ghosts, a partition count, a copy. *)
Inductive view_op := VWindow (w : window) | VReset (g : ghost) | VParts (n : Z) | VCopy.
Definition view_step (f : field) (o : view_op) : field :=
  match o with
  | VWindow w => field_window w f
  | VReset g => reset_valid_ghosts f g
  | VParts n => set_partition_count f n
  | VCopy => field_copy f
  end.
Definition view (f : field) (os : list view_op) : field := fold_left view_step os f.

(** Some cell of wi is not in w. *)
Definition misses (w wi : window) : Prop := exists p, covers wi p /\ ~ covers w p.
