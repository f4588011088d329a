(** Specification: valid ghosts along a history of views. *)
From Verif Require Import Prelude WindowM GhostM FieldM InteriorS.

(** The counts given in the last reset since the last view, or all ghosts [g]. *)
Definition valid_after (g cur : ghost) (os : list view_op) : ghost :=
  fold_left (fun c o => match o with VReset h => h | VWindow _ => g | _ => c end) os cur.
(** Every view in the history takes the window [w]. *)
Definition views_of (w : window) (os : list view_op) : Prop := forall u, In (VWindow u) os -> u = w.
