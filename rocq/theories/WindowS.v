(** Independent specification vocabulary for index arithmetic and windows.
    Plain set/list descriptions of boxes of grid points; no model code used
    except the two data types. *)
From Verif Require Import Prelude WindowM.

(** A point lies in the box [0,dim). *)
Definition in_box (dim p : ivec) : Prop :=
  0 <= ix p < ix dim /\ 0 <= iy p < iy dim /\ 0 <= iz p < iz dim.

Definition pos_dims (d : ivec) : Prop := 0 < ix d /\ 0 < iy d /\ 0 < iz d.

(** x-fastest ordering of points *)
Definition before (p q : ivec) : Prop :=
  iz p < iz q \/ (iz p = iz q /\ (iy p < iy q \/ (iy p = iy q /\ ix p < ix q))).

(** All points of a box, x fastest, then y, then z. *)
Definition box_points (e : ivec) : list ivec :=
  flat_map (fun z => flat_map (fun y => map (fun x => IV x y z) (zrange (ix e))) (zrange (iy e)))
           (zrange (iz e)).

(** The window lies inside its block. *)
Definition fits (w : window) : Prop :=
  (0 <= ix (woff w) /\ 0 <= ix (wext w) /\ ix (woff w) + ix (wext w) <= ix (wglob w)) /\
  (0 <= iy (woff w) /\ 0 <= iy (wext w) /\ iy (woff w) + iy (wext w) <= iy (wglob w)) /\
  (0 <= iz (woff w) /\ 0 <= iz (wext w) /\ iz (woff w) + iz (wext w) <= iz (wglob w)).

(** Global coordinates covered by a window. *)
Definition covers (w : window) (p : ivec) : Prop :=
  (ix (woff w) <= ix p < ix (woff w) + ix (wext w)) /\
  (iy (woff w) <= iy p < iy (woff w) + iy (wext w)) /\
  (iz (woff w) <= iz p < iz (woff w) + iz (wext w)).

(** Address (element index in the block) of a point given in window-local
    coordinates: x varies fastest over the whole block. *)
Definition addr (w : window) (p : ivec) : Z :=
  (ix (woff w) + ix p) + ix (wglob w) * ((iy (woff w) + iy p) + iy (wglob w) * (iz (woff w) + iz p)).
