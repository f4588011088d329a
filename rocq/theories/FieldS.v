(** Specification vocabulary for ghost counts and field windows. *)
From Verif Require Import Prelude WindowM WindowS GhostM FieldM.

Definition iv_le (a b : ivec) : Prop := ix a <= ix b /\ iy a <= iy b /\ iz a <= iz b.
Definition iv_lt (a b : ivec) : Prop := ix a < ix b /\ iy a < iy b /\ iz a < iz b.

Definition g_le (a b : ghost) : Prop := iv_le (gminus a) (gminus b) /\ iv_le (gplus a) (gplus b).
Definition g_nonneg (g : ghost) : Prop := iv_le iv_zero (gminus g) /\ iv_le iv_zero (gplus g).
(** "infinite" counts are those with every entry at least GHOST_MAX; the flag
    stored in the object agrees. *)
Definition g_wf (g : ghost) : Prop :=
  ginf g = true <->
  (GHOST_MAX <= ix (gminus g) /\ GHOST_MAX <= iy (gminus g) /\ GHOST_MAX <= iz (gminus g) /\
   GHOST_MAX <= ix (gplus g) /\ GHOST_MAX <= iy (gplus g) /\ GHOST_MAX <= iz (gplus g)).

(** Layout of one direction of a field with [n] cells on the patch, [gm]/[gp]
    ghost layers and [e] extra boundary cells: size of the block, offset and
    size of the interior.  A direction with one cell stores just that cell. *)
Definition layout1 (n gm gp e blk off ext : Z) : Prop :=
  (n = 1 -> blk = 1 /\ off = 0 /\ ext = 1) /\
  (1 < n -> blk = gm + (n + e) + gp /\ off = gm /\ ext = n + e).

(** A window grown by m layers below and p layers above. *)
Definition grown (w : window) (m p : ivec) : window :=
  Win (wglob w) (iv_sub (woff w) m) (iv_add (iv_add (wext w) m) p).

(** All directions of the patch have more than one cell. *)
Definition full_3d (dim : ivec) : Prop := 1 < ix dim /\ 1 < iy dim /\ 1 < iz dim.

(** A field as a user builds it on a patch. *)
Definition patch_field (dim : ivec) (bx by_ bz : bool) (extra : ivec) (g : ghost) (buf : nat) (nt : Z) : field :=
  let bc := bc_make bx by_ bz extra in
  field_make (get_window_with_ghost dim g bc) bc g buf nt.
