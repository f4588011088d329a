(** Specification vocabulary for masks. *)
From Verif Require Import Prelude WindowM WindowS GhostM FieldM MaskM.

(** Point p, counted from the first cell of window w, is a cell of the block
    w lies in (so, for an interior window: an interior or ghost cell). *)
Definition in_block (w : window) (p : ivec) : Prop := in_box (wglob w) (iv_add (woff w) p).
